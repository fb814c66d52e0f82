(** A checked bound on the distance between a rational function and ln or exp,
    on an interval cut into pieces (used for C17).  Integer polynomials, a
    certified logarithm in fixed point, and the mean value inequality on each
    piece.  No part of the code is modelled here. *)
From Coquelicot Require Import Coquelicot.
From Coq Require Import ZArith Reals List Bool Lra Lia.
From Verif Require Import Stirling.
Import ListNotations.
Local Open Scope R_scope.

Lemma abs_inv x y : Rabs x <= y -> - y <= x <= y.
Proof. apply Rabs_le_between. Qed.

(** ** Integer polynomials, constant term first *)
Fixpoint peval (p : list Z) (x : R) : R :=
  match p with [] => 0 | a :: q => IZR a + x * peval q x end.
Fixpoint pevalZ (p : list Z) (x : Z) : Z :=
  match p with [] => 0%Z | a :: q => (a + x * pevalZ q x)%Z end.
Fixpoint padd (p q : list Z) : list Z :=
  match p, q with
  | [], _ => q
  | _, [] => p
  | a :: p', b :: q' => (a + b)%Z :: padd p' q'
  end.
Definition pscale (c : Z) (p : list Z) : list Z := map (Z.mul c) p.
Fixpoint pmul (p q : list Z) : list Z :=
  match p with [] => [] | a :: p' => padd (pscale a q) (0%Z :: pmul p' q) end.
Definition psub (p q : list Z) : list Z := padd p (pscale (-1) q).
Fixpoint pderiv (p : list Z) : list Z :=
  match p with [] => [] | _ :: q => padd q (0%Z :: pderiv q) end.
(** p (c + t) as a polynomial in t. *)
Fixpoint pshift (c : Z) (p : list Z) : list Z :=
  match p with
  | [] => []
  | a :: q => let r := pshift c q in padd (a :: r) (pscale c r)
  end.
Definition pabs (p : list Z) : list Z := map Z.abs p.

Lemma peval_Z p x : peval p (IZR x) = IZR (pevalZ p x).
Proof.
  induction p as [|a p IH]; [reflexivity|]. cbn [peval pevalZ]. rewrite plus_IZR, mult_IZR, IH. reflexivity.
Qed.
Lemma peval_add p : forall q x, peval (padd p q) x = peval p x + peval q x.
Proof.
  induction p as [|a p IH]; intros q x; [cbn; ring|]. destruct q as [|b q]; [cbn; ring|].
  cbn [padd peval]. rewrite IH, plus_IZR. ring.
Qed.
Lemma peval_scale c p x : peval (pscale c p) x = IZR c * peval p x.
Proof.
  induction p as [|a p IH]; [cbn; ring|]. cbn [pscale map peval]. fold (pscale c p). rewrite IH, mult_IZR. ring.
Qed.
Lemma peval_mul p q x : peval (pmul p q) x = peval p x * peval q x.
Proof.
  induction p as [|a p IH]; [cbn; ring|]. cbn [pmul peval]. rewrite peval_add, peval_scale.
  cbn [peval]. rewrite IH. ring.
Qed.
Lemma peval_sub p q x : peval (psub p q) x = peval p x - peval q x.
Proof. unfold psub. rewrite peval_add, peval_scale. lra. Qed.
Lemma peval_shift c p t : peval (pshift c p) t = peval p (IZR c + t).
Proof.
  induction p as [|a p IH]; [reflexivity|]. cbn [pshift]. rewrite peval_add, peval_scale. cbn [peval].
  rewrite IH. ring.
Qed.
Lemma peval_derive p x : is_derive (peval p) x (peval (pderiv p) x).
Proof.
  induction p as [|a p IH]; cbn [pderiv].
  - apply (is_derive_const (V := R_NormedModule)).
  - rewrite peval_add. cbn [peval].
    replace (peval p x + (0 + x * peval (pderiv p) x)) with (0 + (1 * peval p x + x * peval (pderiv p) x)) by ring.
    apply (is_derive_plus (V := R_NormedModule)); [apply (is_derive_const (V := R_NormedModule))|].
    apply (is_derive_mult (fun x => x) (peval p)); [exact (is_derive_id (K := R_AbsRing) x)|exact IH|intros; apply Rmult_comm].
Qed.
Lemma peval_bound p t h : 0 <= h -> Rabs t <= h -> Rabs (peval p t) <= peval (pabs p) h /\ 0 <= peval (pabs p) h.
Proof.
  intros Hh H. induction p as [|a p [I1 I2]]; cbn [peval pabs map]; [rewrite Rabs_R0; lra|].
  fold (pabs p). rewrite abs_IZR. split.
  - eapply Rle_trans; [apply Rabs_triang|]. apply Rplus_le_compat_l. rewrite Rabs_mult.
    apply Rmult_le_compat; try apply Rabs_pos; assumption.
  - pose proof (Rabs_pos (IZR a)). nra.
Qed.

(** Bounds on [c - h, c + h] from the expansion at [c]. *)
Definition upper_abs (p : list Z) (c h : Z) : Z := pevalZ (pabs (pshift c p)) h.
Definition lower (p : list Z) (c h : Z) : Z :=
  match pshift c p with
  | [] => 0%Z
  | a :: q => (a - h * pevalZ (pabs q) h)%Z
  end.
Lemma upper_abs_ok p c h y : (0 <= h)%Z -> Rabs (y - IZR c) <= IZR h -> Rabs (peval p y) <= IZR (upper_abs p c h).
Proof.
  intros Hh H. unfold upper_abs. rewrite <- peval_Z. replace y with (IZR c + (y - IZR c)) by ring.
  rewrite <- peval_shift. apply peval_bound; [apply IZR_le; exact Hh|exact H].
Qed.
Lemma lower_ok p c h y : (0 <= h)%Z -> Rabs (y - IZR c) <= IZR h -> IZR (lower p c h) <= peval p y.
Proof.
  intros Hh H. unfold lower. replace y with (IZR c + (y - IZR c)) by ring.
  rewrite <- peval_shift. destruct (pshift c p) as [|a q]; [cbn; lra|].
  cbn [peval]. rewrite minus_IZR, mult_IZR, <- peval_Z. set (t := y - IZR c) in *.
  destruct (peval_bound q t (IZR h) (IZR_le _ _ Hh) H) as [B B0].
  assert (K : Rabs (t * peval q t) <= IZR h * peval (pabs q) (IZR h)).
  { rewrite Rabs_mult. apply Rmult_le_compat; try apply Rabs_pos; assumption. }
  apply abs_inv in K. lra.
Qed.

(** ** The logarithm of an integer in fixed point *)
Definition SC : Z := 2 ^ 100.
Lemma SC_pos : 0 < IZR SC.
Proof. apply IZR_lt. reflexivity. Qed.
(** [n] terms of 2 SC atanh(num/den): t bounds SC z^(2j+1), z2 bounds SC z^2. *)
Fixpoint at_lo (n : nat) (j t z2 : Z) : Z :=
  match n with O => 0%Z | S m => (t / j + at_lo m (j + 2) (t * z2 / SC) z2)%Z end.
Fixpoint at_hi (n : nat) (j t z2 : Z) : Z :=
  match n with O => (2 * t)%Z | S m => (t / j + 1 + at_hi m (j + 2) (t * z2 / SC + 1) z2)%Z end.
Definition terms : nat := 34.
Definition ath_lo (num den : Z) : Z :=
  let z := (SC * num / den)%Z in (2 * at_lo terms 1 z (z * z / SC))%Z.
Definition ath_hi (num den : Z) : Z :=
  let z := (SC * num / den + 1)%Z in (2 * at_hi terms 1 z (z * z / SC + 1))%Z.
Definition ln2_lo : Z := ath_lo 1 3.
Definition ln2_hi : Z := ath_hi 1 3.
Definition lnZ_lo (n : Z) : Z :=
  let k := Z.log2 n in (k * ln2_lo + ath_lo (n - 2 ^ k) (n + 2 ^ k))%Z.
Definition lnZ_hi (n : Z) : Z :=
  let k := Z.log2 n in (k * ln2_hi + ath_hi (n - 2 ^ k) (n + 2 ^ k))%Z.

(** The tail of the atanh series from the term [x^(2m+1)/(2m+1)]. *)
Fixpoint tail (n : nat) (m : nat) (x : R) : R :=
  match n with O => 0 | S k => x ^ (2 * m + 1) / INR (2 * m + 1) + tail k (S m) x end.
Lemma athp_tail n : forall m x, athp (n + m) x = athp m x + tail n m x.
Proof.
  induction n as [|n IH]; intros m x; [cbn; ring|]. cbn [tail].
  replace (S n + m)%nat with (n + S m)%nat by lia. rewrite IH. cbn [athp]. ring.
Qed.
Lemma at_lo_ok n x z2 : 0 <= x -> (0 <= z2)%Z -> IZR z2 <= IZR SC * (x * x) -> forall m t, (0 <= t)%Z ->
  IZR t <= IZR SC * x ^ (2 * m + 1) ->
  IZR (at_lo n (Z.of_nat (2 * m + 1)) t z2) <= IZR SC * tail n m x.
Proof.
  intros X Z0 Z2. pose proof SC_pos as SP. induction n as [|n IH]; intros m t T0 T; [cbn; lra|].
  cbn [at_lo tail]. rewrite plus_IZR, Rmult_plus_distr_l. apply Rplus_le_compat.
  - assert (J : (0 < Z.of_nat (2 * m + 1))%Z) by lia.
    destruct (div_bounds t _ J) as [D _]. rewrite INR_IZR_INZ. eapply Rle_trans; [exact D|].
    unfold Rdiv. rewrite <- Rmult_assoc. apply Rmult_le_compat_r; [|exact T].
    apply Rlt_le, Rinv_0_lt_compat, (IZR_lt 0), J.
  - replace (Z.of_nat (2 * m + 1) + 2)%Z with (Z.of_nat (2 * S m + 1)) by lia. apply IH.
    + apply Z.div_pos; [nia|reflexivity].
    + destruct (div_bounds (t * z2) SC eq_refl) as [D _]. eapply Rle_trans; [exact D|].
      rewrite mult_IZR. replace (2 * S m + 1)%nat with (S (S (2 * m + 1))) by lia. cbn [pow].
      apply (Rmult_le_reg_r (IZR SC)); [exact SP|]. unfold Rdiv. rewrite Rmult_assoc, Rinv_l, Rmult_1_r by lra.
      apply IZR_le in T0, Z0.
      replace (IZR SC * (x * (x * x ^ (2 * m + 1))) * IZR SC) with ((IZR SC * x ^ (2 * m + 1)) * (IZR SC * (x * x))) by ring.
      apply Rmult_le_compat; assumption.
Qed.
Lemma at_hi_ok n x z2 : 0 <= x <= / 2 -> (0 <= z2)%Z -> IZR SC * (x * x) <= IZR z2 -> forall m t,
  IZR SC * x ^ (2 * m + 1) <= IZR t ->
  IZR SC * (tail n m x + x ^ (2 * (n + m) + 1) / (INR (2 * (n + m) + 1) * (1 - x * x))) <= IZR (at_hi n (Z.of_nat (2 * m + 1)) t z2).
Proof.
  intros X Z0 Z2. pose proof SC_pos as SP. induction n as [|n IH]; intros m t T.
  - cbn [at_hi tail plus]. rewrite mult_IZR, Rplus_0_l.
    assert (1 <= INR (2 * m + 1)) by (change 1 with (INR 1); apply le_INR; lia).
    assert (0 <= x ^ (2 * m + 1)) by (apply pow_le; lra).
    assert (Q : x ^ (2 * m + 1) / (INR (2 * m + 1) * (1 - x * x)) <= 2 * x ^ (2 * m + 1)).
    { assert (X4 : 3 / 4 <= 1 - x * x) by nra.
      assert (QQ : / 2 <= INR (2 * m + 1) * (1 - x * x)) by nra.
      apply (Rmult_le_reg_r (INR (2 * m + 1) * (1 - x * x))); [lra|].
      unfold Rdiv. rewrite Rmult_assoc, Rinv_l by lra. nra. }
    apply (Rmult_le_compat_l (IZR SC)) in Q; [|lra]. change (0 + m)%nat with m. lra.
  - cbn [at_hi tail]. rewrite !plus_IZR.
    replace (IZR SC * (x ^ (2 * m + 1) / INR (2 * m + 1) + tail n (S m) x + x ^ (2 * (S n + m) + 1) / (INR (2 * (S n + m) + 1) * (1 - x * x))))
      with (IZR SC * x ^ (2 * m + 1) / INR (2 * m + 1) + IZR SC * (tail n (S m) x + x ^ (2 * (n + S m) + 1) / (INR (2 * (n + S m) + 1) * (1 - x * x))))
      by (replace (S n + m)%nat with (n + S m)%nat by lia; unfold Rdiv; ring).
    apply Rplus_le_compat.
    + assert (J : (0 < Z.of_nat (2 * m + 1))%Z) by lia.
      destruct (div_bounds t _ J) as [_ D]. rewrite INR_IZR_INZ. eapply Rle_trans; [|exact D].
      unfold Rdiv. apply Rmult_le_compat_r; [|exact T].
      apply Rlt_le, Rinv_0_lt_compat, (IZR_lt 0), J.
    + replace (Z.of_nat (2 * m + 1) + 2)%Z with (Z.of_nat (2 * S m + 1)) by lia. apply IH.
      destruct (div_bounds (t * z2) SC eq_refl) as [_ D]. rewrite plus_IZR. eapply Rle_trans; [|exact D].
      rewrite mult_IZR. replace (2 * S m + 1)%nat with (S (S (2 * m + 1))) by lia. cbn [pow].
      apply (Rmult_le_reg_r (IZR SC)); [exact SP|]. unfold Rdiv. rewrite (Rmult_assoc _ (/ IZR SC)), Rinv_l, Rmult_1_r by lra.
      assert (0 <= x ^ (2 * m + 1)) by (apply pow_le; lra).
      replace (IZR SC * (x * (x * x ^ (2 * m + 1))) * IZR SC) with ((IZR SC * x ^ (2 * m + 1)) * (IZR SC * (x * x))) by ring.
      apply Rmult_le_compat; try assumption; apply Rmult_le_pos; nra.
Qed.

Lemma ath_ok num den : (0 <= num)%Z -> (0 < den)%Z -> (2 * num <= den)%Z ->
  IZR (ath_lo num den) <= 2 * IZR SC * ath (IZR num / IZR den) <= IZR (ath_hi num den).
Proof.
  intros N D L. pose proof SC_pos as SP. set (x := IZR num / IZR den).
  assert (D' : 0 < IZR den) by (apply (IZR_lt 0), D).
  assert (X : 0 <= x <= / 2).
  { unfold x. split; [apply Rmult_le_pos; [apply (IZR_le 0), N|apply Rlt_le, Rinv_0_lt_compat, D']|].
    apply (Rmult_le_reg_r (IZR den)); [exact D'|]. unfold Rdiv. rewrite Rmult_assoc, Rinv_l by lra.
    apply IZR_le in L. rewrite mult_IZR in L. lra. }
  destruct (div_bounds (SC * num) den D) as [B1 B2]. rewrite mult_IZR in B1, B2.
  replace (IZR SC * IZR num / IZR den) with (IZR SC * x) in B1, B2 by (unfold x; field; lra).
  split.
  - unfold ath_lo. rewrite mult_IZR, Rmult_assoc. apply Rmult_le_compat_l; [lra|].
    eapply Rle_trans; [|apply Rmult_le_compat_l; [lra|apply (ath_lower terms); lra]].
    replace terms with (terms + 0)%nat at 2 by reflexivity. rewrite athp_tail. cbn [athp]. rewrite Rplus_0_l.
    set (z := (SC * num / den)%Z) in *.
    assert (Z0 : (0 <= z)%Z) by (apply Z.div_pos; [unfold SC; nia|exact D]).
    change 1%Z with (Z.of_nat (2 * 0 + 1)). apply at_lo_ok; try lra.
    + apply Z.div_pos; [nia|reflexivity].
    + destruct (div_bounds (z * z) SC eq_refl) as [E _]. eapply Rle_trans; [exact E|]. rewrite mult_IZR.
      apply (Rmult_le_reg_r (IZR SC)); [exact SP|]. unfold Rdiv. rewrite Rmult_assoc, Rinv_l, Rmult_1_r by lra.
      apply (IZR_le 0) in Z0. replace (IZR SC * (x * x) * IZR SC) with ((IZR SC * x) * (IZR SC * x)) by ring.
      apply Rmult_le_compat; assumption.
    + exact Z0.
    + change (2 * 0 + 1)%nat with 1%nat. rewrite pow_1. lra.
  - unfold ath_hi. rewrite mult_IZR, Rmult_assoc. apply Rmult_le_compat_l; [lra|].
    eapply Rle_trans; [apply Rmult_le_compat_l; [lra|apply (ath_upper terms); lra]|].
    set (z := (SC * num / den + 1)%Z) in *.
    assert (ZZ : IZR SC * x <= IZR z) by (unfold z; rewrite plus_IZR; exact B2).
    assert (Z0 : (0 <= z)%Z) by (apply le_IZR; nra).
    replace (athp terms x) with (tail terms 0 x)
      by (replace terms with (terms + 0)%nat at 2 by reflexivity; rewrite athp_tail; cbn [athp]; ring).
    replace (2 * terms + 1)%nat with (2 * (terms + 0) + 1)%nat by reflexivity.
    change 1%Z with (Z.of_nat (2 * 0 + 1)) at 1.
    apply at_hi_ok; try lra.
    + assert (0 <= z * z / SC)%Z by (apply Z.div_pos; [nia|reflexivity]). lia.
    + destruct (div_bounds (z * z) SC eq_refl) as [_ E]. rewrite plus_IZR. eapply Rle_trans; [|exact E]. rewrite mult_IZR.
      apply (Rmult_le_reg_r (IZR SC)); [exact SP|]. unfold Rdiv. rewrite (Rmult_assoc _ (/ IZR SC)), Rinv_l, Rmult_1_r by lra.
      replace (IZR SC * (x * x) * IZR SC) with ((IZR SC * x) * (IZR SC * x)) by ring.
      apply Rmult_le_compat; nra.
    + change (2 * 0 + 1)%nat with 1%nat. rewrite pow_1. lra.
Qed.

Lemma ln2_ok : IZR ln2_lo <= IZR SC * ln 2 <= IZR ln2_hi.
Proof.
  pose proof (ath_ok 1 3 ltac:(lia) ltac:(lia) ltac:(lia)) as H. fold ln2_lo ln2_hi in H.
  replace (IZR SC * ln 2) with (2 * IZR SC * ath (1 / 3)); [exact H|].
  unfold ath. replace ((1 + 1 / 3) / (1 - 1 / 3)) with 2 by field. field.
Qed.
Lemma lnZ_ok n : (1 <= n)%Z -> IZR (lnZ_lo n) <= IZR SC * ln (IZR n) <= IZR (lnZ_hi n).
Proof.
  intros N. pose proof (Z.log2_spec n ltac:(lia)) as [A B]. unfold lnZ_lo, lnZ_hi. cbv zeta.
  set (k := Z.log2 n) in *. assert (K : (0 <= k)%Z) by apply Z.log2_nonneg.
  assert (P : (0 < 2 ^ k)%Z) by (apply Z.pow_pos_nonneg; lia). rewrite Z.pow_succ_r in B by exact K.
  pose proof (ath_ok (n - 2 ^ k) (n + 2 ^ k) ltac:(lia) ltac:(lia)) as H.
  assert (Q : (2 * (n - 2 ^ k) <= n + 2 ^ k)%Z) by lia. specialize (H Q).
  assert (E : IZR SC * ln (IZR n) = IZR k * (IZR SC * ln 2) + 2 * IZR SC * ath (IZR (n - 2 ^ k) / IZR (n + 2 ^ k))).
  { assert (P' : 0 < IZR (2 ^ k)) by (apply (IZR_lt 0), P). assert (N' : 0 < IZR n) by (apply (IZR_lt 0); lia).
    unfold ath. rewrite minus_IZR, plus_IZR.
    replace ((1 + (IZR n - IZR (2 ^ k)) / (IZR n + IZR (2 ^ k))) / (1 - (IZR n - IZR (2 ^ k)) / (IZR n + IZR (2 ^ k))))
      with (IZR n * / IZR (2 ^ k)) by (field; lra).
    rewrite ln_mult, ln_Rinv by (try apply Rinv_0_lt_compat; assumption).
    assert (LP : ln (IZR (2 ^ k)) = IZR k * ln 2).
    { rewrite <- (Z2Nat.id k) by exact K. rewrite <- pow_IZR, <- INR_IZR_INZ. apply ln_pow. lra. }
    rewrite LP. field. }
  rewrite E. rewrite (plus_IZR (k * ln2_lo)), (plus_IZR (k * ln2_hi)), !mult_IZR. pose proof ln2_ok as [L1 L2]. apply IZR_le in K.
  split; (apply Rplus_le_compat; [apply Rmult_le_compat_l; assumption|apply H]).
Qed.

(** ** The two checks *)
Definition s20 : Z := 2 ^ 20.
Section Pieces.
Context (P Q : list Z).

(** ln: P(y)/Q(y) against ln (y / 2^20). *)
Definition lnW : list Z := psub (pmul [0%Z; 1%Z] (psub (pmul (pderiv P) Q) (pmul P (pderiv Q)))) (pmul Q Q).
Definition ln_piece (eps : Z) (a b : Z) : bool :=
  let c := ((a + b) / 2)%Z in
  let h := Z.max (c - a) (b - c) in
  let v := (SC * pevalZ P c / pevalZ Q c)%Z in
  let q := lower Q c h in
  let lo := (v - (lnZ_hi c - 20 * ln2_lo))%Z in
  let hi := (v + 1 - (lnZ_lo c - 20 * ln2_hi))%Z in
  let d := (SC * h * upper_abs lnW c h / ((c - h) * q * q) + 1)%Z in
  ((0 <? c - h) && (a <=? c) && (c <=? b) && (0 <? q) && (0 <? pevalZ Q c) && (hi + d <=? eps) && (- lo + d <=? eps))%Z.

Lemma ln_piece_ok eps a b : ln_piece eps a b = true -> forall y, IZR a <= y <= IZR b ->
  0 < peval Q y /\ Rabs (peval P y / peval Q y - ln (y / IZR s20)) <= IZR eps / IZR SC.
Proof.
  unfold ln_piece. set (c := ((a + b) / 2)%Z). set (h := Z.max (c - a) (b - c)).
  intros H. repeat (apply andb_prop in H; destruct H as [H ?]).
  repeat match goal with K : (_ <? _)%Z = true |- _ => apply Z.ltb_lt in K | K : (_ <=? _)%Z = true |- _ => apply Z.leb_le in K end.
  pose proof SC_pos as SP.
  assert (HH : (0 <= h)%Z) by (unfold h; lia).
  assert (IN : forall y, IZR a <= y <= IZR b -> Rabs (y - IZR c) <= IZR h).
  { intros y Y. apply Rabs_le. assert (IZR (c - a) <= IZR h) by (apply IZR_le; unfold h; lia).
    assert (IZR (b - c) <= IZR h) by (apply IZR_le; unfold h; lia). rewrite minus_IZR in *. lra. }
  assert (A0 : 0 < IZR (c - h)) by (apply (IZR_lt 0); assumption). assert (C0 : (0 < c)%Z) by lia.
  assert (q0 : 0 < IZR (lower Q c h)) by (apply (IZR_lt 0); assumption).
  assert (QP : forall y, Rabs (y - IZR c) <= IZR h -> IZR (lower Q c h) <= peval Q y) by (intros y Y; apply lower_ok; auto).
  intros y Y. split; [pose proof (QP y (IN y Y)); lra|].
  set (F := fun y => peval P y / peval Q y - ln (y / IZR s20)).
  set (dF := fun y => peval lnW y / (y * peval Q y * peval Q y)).
  set (D := IZR (upper_abs lnW c h) / (IZR (c - h) * IZR (lower Q c h) * IZR (lower Q c h))).
  assert (S0 : 0 < IZR s20) by (apply (IZR_lt 0); reflexivity).
  assert (DER : forall t, Rabs (t - IZR c) <= IZR h -> is_derive F t (dF t) /\ Rabs (dF t) <= D).
  { intros t T. pose proof (QP t T) as QT. assert (TA : IZR (c - h) <= t) by (apply abs_inv in T; rewrite minus_IZR; lra). split.
    - unfold F, dF.
      replace (peval lnW t / (t * peval Q t * peval Q t)) with
        ((peval (pderiv P) t * peval Q t - peval P t * peval (pderiv Q) t) / (peval Q t) ^ 2 - / t).
      + apply (is_derive_minus (V := R_NormedModule)).
        * apply is_derive_div; [apply peval_derive|apply peval_derive|lra].
        * auto_derive; [|field; lra]. apply Rdiv_lt_0_compat; lra.
      + unfold lnW. rewrite peval_sub, !peval_mul, peval_sub, !peval_mul. cbn [peval]. field. lra.
    - unfold dF, D, Rdiv. rewrite Rabs_mult.
      assert (U : Rabs (peval lnW t) <= IZR (upper_abs lnW c h)) by (apply upper_abs_ok; auto).
      assert (M : IZR (c - h) * IZR (lower Q c h) * IZR (lower Q c h) <= t * peval Q t * peval Q t).
      { apply Rmult_le_compat; nra. }
      assert (0 < IZR (c - h) * IZR (lower Q c h) * IZR (lower Q c h)) by (repeat apply Rmult_lt_0_compat; lra).
      apply Rmult_le_compat; try apply Rabs_pos; [exact U|].
      rewrite Rabs_Rinv, Rabs_right by lra. apply Rinv_le_contravar; lra. }
  assert (C : IZR a <= IZR c <= IZR b) by (split; apply IZR_le; assumption).
  assert (V : Rabs (F y - F (IZR c)) <= D * Rabs (y - IZR c)).
  { apply (bounded_variation F dF). intros t T. apply DER. eapply Rle_trans; [exact T|apply IN, Y]. }
  assert (D0 : 0 <= D).
  { destruct (DER y (IN y Y)) as [_ K]. pose proof (Rabs_pos (dF y)). lra. }
  assert (VH : Rabs (F y - F (IZR c)) <= D * IZR h).
  { eapply Rle_trans; [exact V|]. apply Rmult_le_compat_l; [exact D0|]. apply IN, Y. }
  (* the value at c *)
  assert (QC : 0 < IZR (pevalZ Q c)) by (apply (IZR_lt 0); assumption).
  assert (FC : F (IZR c) = IZR (pevalZ P c) / IZR (pevalZ Q c) - (ln (IZR c) - 20 * ln 2)).
  { unfold F. rewrite !peval_Z. f_equal. unfold Rdiv. assert (CR : 0 < IZR c) by (apply (IZR_lt 0), C0). rewrite ln_mult, ln_Rinv; try lra.
    - replace (ln (IZR s20)) with (20 * ln 2); [ring|]. change s20 with (2 ^ Z.of_nat 20)%Z. rewrite <- pow_IZR, ln_pow by lra.
      rewrite INR_IZR_INZ. reflexivity.
    - apply Rinv_0_lt_compat, S0. }
  destruct (div_bounds (SC * pevalZ P c) (pevalZ Q c) ltac:(assumption)) as [V1 V2].
  destruct (lnZ_ok c ltac:(clear - C0; lia)) as [L1 L2]. destruct ln2_ok as [T1 T2].
  assert (AQ : (0 < (c - h) * lower Q c h * lower Q c h)%Z) by (repeat apply Z.mul_pos_pos; assumption).
  destruct (div_bounds (SC * h * upper_abs lnW c h) ((c - h) * lower Q c h * lower Q c h) AQ) as [_ DD].
  rewrite !mult_IZR in DD. rewrite !mult_IZR in V1. rewrite !mult_IZR in V2.
  replace (IZR SC * IZR h * IZR (upper_abs lnW c h) / (IZR (c - h) * IZR (lower Q c h) * IZR (lower Q c h)))
    with (IZR SC * (D * IZR h)) in DD by (unfold D; field; lra).
  replace (IZR SC * IZR (pevalZ P c) / IZR (pevalZ Q c)) with (IZR SC * (IZR (pevalZ P c) / IZR (pevalZ Q c))) in V1, V2
    by (field; lra).
  match goal with K : (_ + _ <= eps)%Z, K' : (- _ + _ <= eps)%Z |- _ => rename K into HHI; rename K' into HLO end.
  apply IZR_le in HHI, HLO.
  repeat (rewrite ?opp_IZR, ?plus_IZR, ?minus_IZR, ?mult_IZR in HHI). repeat (rewrite ?opp_IZR, ?plus_IZR, ?minus_IZR, ?mult_IZR in HLO).
  fold (F y). apply (Rmult_le_reg_r (IZR SC)); [exact SP|]. unfold Rdiv. rewrite Rmult_assoc, Rinv_l, Rmult_1_r by lra.
  rewrite <- (Rabs_right (IZR SC)) at 1 by lra. rewrite <- Rabs_mult.
  assert (VHS : Rabs ((F y - F (IZR c)) * IZR SC) <= IZR SC * (D * IZR h)).
  { rewrite Rabs_mult, (Rabs_right (IZR SC)) by lra. nra. }
  apply abs_inv in VHS. rewrite FC in VHS. apply Rabs_le. clear - VHS HHI HLO V1 V2 L1 L2 T1 T2 DD. clearbody F D. split; lra.
Qed.

(** exp: ln (P(y)/Q(y)) against y / 2^20. *)
Definition expW : list Z := psub (pscale s20 (psub (pmul (pderiv P) Q) (pmul P (pderiv Q)))) (pmul P Q).
Definition exp_piece (eps : Z) (a b : Z) : bool :=
  let c := ((a + b) / 2)%Z in
  let h := Z.max (c - a) (b - c) in
  let p := lower P c h in
  let q := lower Q c h in
  let pc := pevalZ P c in
  let qc := pevalZ Q c in
  let v := (SC * c / s20)%Z in
  let lo := (lnZ_lo pc - lnZ_hi qc - (v + 1))%Z in
  let hi := (lnZ_hi pc - lnZ_lo qc - v)%Z in
  let d := (SC * h * upper_abs expW c h / (s20 * p * q) + 1)%Z in
  ((a <=? c) && (c <=? b) && (0 <? p) && (0 <? q) && (0 <? pc) && (0 <? qc) && (hi + d <=? eps) && (- lo + d <=? eps))%Z.

Lemma exp_piece_ok eps a b : exp_piece eps a b = true -> forall y, IZR a <= y <= IZR b ->
  0 < peval P y /\ 0 < peval Q y /\ Rabs (ln (peval P y / peval Q y) - y / IZR s20) <= IZR eps / IZR SC.
Proof.
  unfold exp_piece. set (c := ((a + b) / 2)%Z). set (h := Z.max (c - a) (b - c)).
  intros H. repeat (apply andb_prop in H; destruct H as [H ?]).
  repeat match goal with K : (_ <? _)%Z = true |- _ => apply Z.ltb_lt in K | K : (_ <=? _)%Z = true |- _ => apply Z.leb_le in K end.
  pose proof SC_pos as SP.
  assert (HH : (0 <= h)%Z) by (unfold h; lia).
  assert (IN : forall y, IZR a <= y <= IZR b -> Rabs (y - IZR c) <= IZR h).
  { intros y Y. apply Rabs_le. assert (IZR (c - a) <= IZR h) by (apply IZR_le; unfold h; lia).
    assert (IZR (b - c) <= IZR h) by (apply IZR_le; unfold h; lia). rewrite minus_IZR in *. lra. }
  assert (q0 : 0 < IZR (lower Q c h)) by (apply (IZR_lt 0); assumption).
  assert (p0 : 0 < IZR (lower P c h)) by (apply (IZR_lt 0); assumption).
  assert (QP : forall y, Rabs (y - IZR c) <= IZR h -> IZR (lower Q c h) <= peval Q y) by (intros y Y; apply lower_ok; auto).
  assert (PP : forall y, Rabs (y - IZR c) <= IZR h -> IZR (lower P c h) <= peval P y) by (intros y Y; apply lower_ok; auto).
  intros y Y. split; [pose proof (PP y (IN y Y)); lra|]. split; [pose proof (QP y (IN y Y)); lra|].
  set (F := fun y => ln (peval P y / peval Q y) - y / IZR s20).
  set (dF := fun y => peval expW y / (IZR s20 * peval P y * peval Q y)).
  set (D := IZR (upper_abs expW c h) / (IZR s20 * IZR (lower P c h) * IZR (lower Q c h))).
  assert (S0 : 0 < IZR s20) by (apply (IZR_lt 0); reflexivity).
  assert (DER : forall t, Rabs (t - IZR c) <= IZR h -> is_derive F t (dF t) /\ Rabs (dF t) <= D).
  { intros t T. pose proof (QP t T) as QT. pose proof (PP t T) as PT. split.
    - unfold F, dF.
      replace (peval expW t / (IZR s20 * peval P t * peval Q t)) with
        ((peval (pderiv P) t * peval Q t - peval P t * peval (pderiv Q) t) / (peval Q t) ^ 2 * / (peval P t / peval Q t) - / IZR s20).
      + apply (is_derive_minus (V := R_NormedModule)).
        * apply (is_derive_comp (V := R_NormedModule) ln (fun t => peval P t / peval Q t)).
          -- auto_derive; [apply Rdiv_lt_0_compat; lra|field; lra].
          -- apply is_derive_div; [apply peval_derive|apply peval_derive|lra].
        * auto_derive; [exact Logic.I|field; lra].
      + unfold expW. rewrite peval_sub, peval_scale, peval_sub, !peval_mul. field. lra.
    - unfold dF, D, Rdiv. rewrite Rabs_mult.
      assert (U : Rabs (peval expW t) <= IZR (upper_abs expW c h)) by (apply upper_abs_ok; auto).
      assert (M : IZR s20 * IZR (lower P c h) * IZR (lower Q c h) <= IZR s20 * peval P t * peval Q t).
      { apply Rmult_le_compat; try nra. }
      assert (0 < IZR s20 * IZR (lower P c h) * IZR (lower Q c h)) by (repeat apply Rmult_lt_0_compat; lra).
      apply Rmult_le_compat; try apply Rabs_pos; [exact U|].
      rewrite Rabs_Rinv, Rabs_right by lra. apply Rinv_le_contravar; lra. }
  assert (C : IZR a <= IZR c <= IZR b) by (split; apply IZR_le; assumption).
  assert (V : Rabs (F y - F (IZR c)) <= D * Rabs (y - IZR c)).
  { apply (bounded_variation F dF). intros t T. apply DER. eapply Rle_trans; [exact T|apply IN, Y]. }
  assert (D0 : 0 <= D).
  { destruct (DER y (IN y Y)) as [_ K]. pose proof (Rabs_pos (dF y)). lra. }
  assert (VH : Rabs (F y - F (IZR c)) <= D * IZR h).
  { eapply Rle_trans; [exact V|]. apply Rmult_le_compat_l; [exact D0|]. apply IN, Y. }
  assert (QC : 0 < IZR (pevalZ Q c)) by (apply (IZR_lt 0); assumption).
  assert (PC : 0 < IZR (pevalZ P c)) by (apply (IZR_lt 0); assumption).
  assert (FC : F (IZR c) = ln (IZR (pevalZ P c)) - ln (IZR (pevalZ Q c)) - IZR c / IZR s20).
  { unfold F. rewrite !peval_Z. f_equal. unfold Rdiv. rewrite ln_mult, ln_Rinv; try lra. apply Rinv_0_lt_compat, QC. }
  destruct (div_bounds (SC * c) s20 eq_refl) as [V1 V2].
  destruct (lnZ_ok (pevalZ P c) ltac:(lia)) as [L1 L2]. destruct (lnZ_ok (pevalZ Q c) ltac:(lia)) as [T1 T2].
  assert (AQ : (0 < s20 * lower P c h * lower Q c h)%Z) by (repeat apply Z.mul_pos_pos; try assumption; reflexivity).
  destruct (div_bounds (SC * h * upper_abs expW c h) (s20 * lower P c h * lower Q c h) AQ) as [_ DD].
  rewrite !mult_IZR in DD. rewrite !mult_IZR in V1. rewrite !mult_IZR in V2.
  replace (IZR SC * IZR h * IZR (upper_abs expW c h) / (IZR s20 * IZR (lower P c h) * IZR (lower Q c h)))
    with (IZR SC * (D * IZR h)) in DD by (unfold D; field; lra).
  replace (IZR SC * IZR c / IZR s20) with (IZR SC * (IZR c / IZR s20)) in V1, V2 by (field; lra).
  match goal with K : (_ + _ <= eps)%Z, K' : (- _ + _ <= eps)%Z |- _ => rename K into HHI; rename K' into HLO end.
  apply IZR_le in HHI, HLO.
  repeat (rewrite ?opp_IZR, ?plus_IZR, ?minus_IZR, ?mult_IZR in HHI). repeat (rewrite ?opp_IZR, ?plus_IZR, ?minus_IZR, ?mult_IZR in HLO).
  fold (F y). apply (Rmult_le_reg_r (IZR SC)); [exact SP|]. unfold Rdiv. rewrite Rmult_assoc, Rinv_l, Rmult_1_r by lra.
  rewrite <- (Rabs_right (IZR SC)) at 1 by lra. rewrite <- Rabs_mult.
  assert (VHS : Rabs ((F y - F (IZR c)) * IZR SC) <= IZR SC * (D * IZR h)).
  { rewrite Rabs_mult, (Rabs_right (IZR SC)) by lra. nra. }
  apply abs_inv in VHS. rewrite FC in VHS. apply Rabs_le. clear - VHS HHI HLO V1 V2 L1 L2 T1 T2 DD. clearbody F D. split; lra.
Qed.

(** Consecutive pieces; [fuel] halvings of each piece that does not pass. *)
Fixpoint halve (piece : Z -> Z -> bool) (fuel : nat) (a b : Z) : bool :=
  if piece a b then true
  else match fuel with
       | O => false
       | S f => let m := ((a + b) / 2)%Z in
                if halve piece f a m then halve piece f m b else false
       end.
Lemma halve_ok piece (G : R -> Prop) : (forall a b, piece a b = true -> forall y, IZR a <= y <= IZR b -> G y) ->
  forall fuel a b, halve piece fuel a b = true -> forall y, IZR a <= y <= IZR b -> G y.
Proof.
  intros H. induction fuel as [|f IH]; intros a b E y Y; cbn [halve] in E.
  - destruct (piece a b) eqn:X; [apply (H a b X y Y)|discriminate].
  - destruct (piece a b) eqn:X; [apply (H a b X y Y)|].
    cbv zeta in E. destruct (halve piece f a ((a + b) / 2)) eqn:E1; [|discriminate].
    destruct (Rle_dec y (IZR ((a + b) / 2))); [apply (IH _ _ E1); lra|apply (IH _ _ E); lra].
Qed.
End Pieces.
