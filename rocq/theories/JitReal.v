(** The JIT's rational approximations over the reals: how far the quotient of
    the two polynomials with the code's coefficients is from ln on [1, 2] and
    from exp on [0, ln 2] (used for C17). *)
From Coq Require Import ZArith Reals Bool List Lia Lra.
From Coq Require Import Floats.SpecFloat.
From Flocq Require Import Core IEEE754.BinarySingleNaN.
From Verif Require Import Num JitModel EggSpec Stirling Approx.
Import ListNotations.
Local Open Scope R_scope.

(** A polynomial with binary64 coefficients, constant term first. *)
Fixpoint cpoly (l : list f64) (x : R) : R :=
  match l with [] => 0 | c :: q => val c + x * cpoly q x end.

Definition ln_num : list f64 := [ln_n0; ln_n1; ln_n2; ln_n3; ln_n4; ln_n5; ln_n6; ln_n7].
Definition ln_den : list f64 := [ln_d0; ln_d1; ln_d2].
Definition exp_num : list f64 := [exp_n0; exp_n1; exp_n2; exp_n3; exp_n4; exp_n5].
Definition exp_den : list f64 := [exp_d0; exp_d1; exp_d2].

(** The coefficients as integers: c 2^E, each next one with 20 fewer bits. *)
Definition zc (c : f64) (E : Z) : Z :=
  match c with
  | S754_finite s m e => ((if s then Zneg m else Zpos m) * 2 ^ (e + E))%Z
  | _ => 0%Z
  end.
Definition fits (c : f64) (E : Z) : bool :=
  match c with S754_finite s m e => (0 <=? e + E)%Z | S754_zero _ => true | _ => false end.
Fixpoint scaleup (l : list f64) (E : Z) : list Z :=
  match l with [] => [] | c :: q => zc c E :: scaleup q (E - 20) end.
Fixpoint all_fit (l : list f64) (E : Z) : bool :=
  match l with [] => true | c :: q => fits c E && all_fit q (E - 20) end.

Lemma zc_ok c E : fits c E = true -> IZR (zc c E) = bpow radix2 E * val c.
Proof.
  destruct c as [s|s| |s m e]; cbn [fits zc]; try discriminate; intros H.
  - unfold val. cbn [SF2R]. ring.
  - apply Z.leb_le in H. rewrite mult_IZR. unfold val. cbn [SF2R]. unfold F2R. cbn [Fnum Fexp].
    change 2%Z with (radix_val radix2). rewrite IZR_Zpower by exact H. rewrite bpow_plus.
    destruct s; cbn [cond_Zopp]; [change (Zneg m) with (- Zpos m)%Z|]; ring.
Qed.
Lemma scaleup_ok l : forall E y, all_fit l E = true ->
  peval (scaleup l E) y = bpow radix2 E * cpoly l (y / IZR s20).
Proof.
  induction l as [|c l IH]; intros E y H; cbn [scaleup peval cpoly]; [ring|].
  cbn [all_fit] in H. apply andb_prop in H. destruct H as [H1 H2].
  rewrite (zc_ok c E H1), (IH (E - 20)%Z y H2).
  replace (bpow radix2 (E - 20)) with (bpow radix2 E / IZR s20).
  - unfold Rdiv. ring.
  - unfold Z.sub. rewrite bpow_plus. reflexivity.
Qed.

(** The scale: one that makes every coefficient an integer. *)
Definition lnE : Z := 210.
Definition expE : Z := 170.
Definition lnP : list Z := scaleup ln_num lnE.
Definition lnQ : list Z := scaleup ln_den lnE.
Definition expP : list Z := scaleup exp_num expE.
Definition expQ : list Z := scaleup exp_den expE.
Lemma ln_fit : all_fit ln_num lnE && all_fit ln_den lnE = true. Proof. vm_compute. reflexivity. Qed.
Lemma exp_fit : all_fit exp_num expE && all_fit exp_den expE = true. Proof. vm_compute. reflexivity. Qed.

(** 3.7e-12 and 2.75e-12. *)
Definition ln_eps : Z := (SC * 37 / 10 ^ 13)%Z.
Definition exp_eps : Z := (SC * 275 / 10 ^ 14)%Z.
Lemma ln_checked : halve (ln_piece lnP lnQ ln_eps) 12 (2 ^ 20) (2 ^ 21) = true.
Proof. vm_compute. reflexivity. Qed.
Lemma exp_checked : halve (exp_piece expP expQ exp_eps) 12 (-1) 726821 = true.
Proof. vm_compute. reflexivity. Qed.

Lemma eps_ok k d : (0 < d)%Z -> IZR (SC * k / d) / IZR SC <= IZR k / IZR d.
Proof.
  intros D. pose proof SC_pos as SP. destruct (div_bounds (SC * k) d D) as [B _]. rewrite mult_IZR in B.
  assert (D' : 0 < IZR d) by (apply (IZR_lt 0), D).
  apply (Rmult_le_reg_r (IZR SC)); [exact SP|]. unfold Rdiv at 1. rewrite Rmult_assoc, Rinv_l, Rmult_1_r by lra.
  eapply Rle_trans; [exact B|]. right. field. lra.
Qed.
Lemma cancel_scale E a b : b <> 0 -> bpow radix2 E * a / (bpow radix2 E * b) = a / b.
Proof. intros B. field. split; [exact B|]. apply Rgt_not_eq, bpow_gt_0. Qed.

Theorem ln_approx m : 1 <= m <= 2 ->
  0 < cpoly ln_den m /\ Rabs (cpoly ln_num m / cpoly ln_den m - ln m) <= 37 / 10 ^ 13.
Proof.
  intros M. assert (S0 : 0 < IZR s20) by (apply (IZR_lt 0); reflexivity).
  pose proof ln_fit as F. apply andb_prop in F. destruct F as [F1 F2].
  pose proof (halve_ok _ (fun y => 0 < peval lnQ y /\ Rabs (peval lnP y / peval lnQ y - ln (y / IZR s20)) <= IZR ln_eps / IZR SC)
    (ln_piece_ok lnP lnQ ln_eps) 12 _ _ ln_checked (m * IZR s20)) as H.
  destruct H as [H1 H2].
  { change (2 ^ 21)%Z with (2 * s20)%Z. change (2 ^ 20)%Z with (1 * s20)%Z. rewrite !mult_IZR. split; apply Rmult_le_compat_r; lra. }
  unfold lnQ in H1. rewrite (scaleup_ok _ _ _ F2) in H1. unfold lnP, lnQ in H2. rewrite (scaleup_ok _ _ _ F1), (scaleup_ok _ _ _ F2) in H2.
  replace (m * IZR s20 / IZR s20) with m in * by (field; lra).
  pose proof (bpow_gt_0 radix2 lnE) as BP.
  assert (D : 0 < cpoly ln_den m) by (apply (Rmult_lt_reg_l (bpow radix2 lnE)); [exact BP|lra]).
  split; [exact D|]. rewrite cancel_scale in H2 by lra. eapply Rle_trans; [exact H2|].
  unfold ln_eps. eapply Rle_trans; [apply eps_ok; reflexivity|]. right. cbn. lra.
Qed.

Theorem exp_approx r : - / 2 ^ 20 <= r <= 726821 / 2 ^ 20 ->
  0 < cpoly exp_num r /\ 0 < cpoly exp_den r /\
  Rabs (ln (cpoly exp_num r / cpoly exp_den r) - r) <= 275 / 10 ^ 14.
Proof.
  intros M. assert (S0 : 0 < IZR s20) by (apply (IZR_lt 0); reflexivity).
  assert (SE : IZR s20 = 2 ^ 20) by (unfold s20; cbn; lra).
  pose proof exp_fit as F. apply andb_prop in F. destruct F as [F1 F2].
  pose proof (halve_ok _ (fun y => 0 < peval expP y /\ 0 < peval expQ y /\ Rabs (ln (peval expP y / peval expQ y) - y / IZR s20) <= IZR exp_eps / IZR SC)
    (exp_piece_ok expP expQ exp_eps) 12 _ _ exp_checked (r * IZR s20)) as H.
  destruct H as (H0 & H1 & H2).
  { rewrite <- SE in M. split.
    - apply (Rmult_le_reg_r (/ IZR s20)); [apply Rinv_0_lt_compat, S0|]. rewrite Rmult_assoc, Rinv_r by lra. lra.
    - apply (Rmult_le_reg_r (/ IZR s20)); [apply Rinv_0_lt_compat, S0|]. rewrite Rmult_assoc, Rinv_r by lra. lra. }
  unfold expP in H0. rewrite (scaleup_ok _ _ _ F1) in H0. unfold expQ in H1. rewrite (scaleup_ok _ _ _ F2) in H1.
  unfold expP, expQ in H2. rewrite (scaleup_ok _ _ _ F1), (scaleup_ok _ _ _ F2) in H2.
  replace (r * IZR s20 / IZR s20) with r in * by (field; lra).
  pose proof (bpow_gt_0 radix2 expE) as BP.
  assert (D : 0 < cpoly exp_den r) by (apply (Rmult_lt_reg_l (bpow radix2 expE)); [exact BP|lra]).
  assert (N : 0 < cpoly exp_num r) by (apply (Rmult_lt_reg_l (bpow radix2 expE)); [exact BP|lra]).
  split; [exact N|]. split; [exact D|]. rewrite cancel_scale in H2 by lra. eapply Rle_trans; [exact H2|].
  unfold exp_eps. eapply Rle_trans; [apply eps_ok; reflexivity|]. right. cbn. lra.
Qed.
