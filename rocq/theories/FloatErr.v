(** Rounding errors of straight-line binary64 code (used for C17): the four
    operations on finite numbers, and a checked bound on the error of an
    expression built from one input and constants. *)
From Coq Require Import ZArith Reals Bool List Lia Lra.
From Coq Require Import Floats.SpecFloat.
From Flocq Require Import Core IEEE754.BinarySingleNaN Relative.
From Verif Require Import Num FloatFacts JitModel EggSpec LitFacts.
Import ListNotations.
Local Open Scope R_scope.

#[local] Instance Hprec64 : FLX.Prec_gt_0 53 := eq_refl _.
#[local] Instance Hmax64 : Prec_lt_emax 53 1024 := eq_refl _.

(** A finite binary64 number. *)
Definition is_num (x : f64) : Prop := SpecFloat.valid_binary 53 1024 x = true /\ finite x.

Lemma is_num_B (b : binary_float 53 1024) : is_finite b = true -> is_num (B2SF b) /\ val (B2SF b) = B2R b.
Proof.
  intros F. split; [|destruct b; reflexivity]. split; [apply valid_binary_B2SF|].
  destruct b; try discriminate F; reflexivity.
Qed.
Lemma num_B x : is_num x -> exists b : binary_float 53 1024, x = B2SF b /\ is_finite b = true /\ B2R b = val x.
Proof.
  intros [V F]. exists (SF2B x V). rewrite B2SF_SF2B, is_finite_SF2B, B2R_SF2B. auto.
Qed.

Section Ops.
Context (a b : f64) (A : is_num a) (B : is_num b).
Lemma add_num : Rabs (RN (val a + val b)) < bpow radix2 1024 ->
  is_num (f64_add a b) /\ val (f64_add a b) = RN (val a + val b).
Proof.
  destruct (num_B a A) as (x & -> & X & VX), (num_B b B) as (y & -> & Y & VY). rewrite <- VX, <- VY. intros H.
  unfold f64_add. rewrite (add_equiv 53 1024 Hprec64 Hmax64).
  pose proof (Bplus_correct 53 1024 Hprec64 Hmax64 mode_NE x y X Y) as C.
  change (round radix2 (SpecFloat.fexp 53 1024) (round_mode mode_NE)) with RN in C.
  rewrite Rlt_bool_true in C by exact H. destruct C as (C1 & C2 & _).
  destruct (is_num_B _ C2) as [N V]. rewrite V, C1. auto.
Qed.
Lemma sub_num : Rabs (RN (val a - val b)) < bpow radix2 1024 ->
  is_num (f64_sub a b) /\ val (f64_sub a b) = RN (val a - val b).
Proof.
  destruct (num_B a A) as (x & -> & X & VX), (num_B b B) as (y & -> & Y & VY). rewrite <- VX, <- VY. intros H.
  unfold f64_sub. rewrite (sub_equiv 53 1024 Hprec64 Hmax64).
  pose proof (Bminus_correct 53 1024 Hprec64 Hmax64 mode_NE x y X Y) as C.
  change (round radix2 (SpecFloat.fexp 53 1024) (round_mode mode_NE)) with RN in C.
  rewrite Rlt_bool_true in C by exact H. destruct C as (C1 & C2 & _).
  destruct (is_num_B _ C2) as [N V]. rewrite V, C1. auto.
Qed.
Lemma mul_num : Rabs (RN (val a * val b)) < bpow radix2 1024 ->
  is_num (f64_mul a b) /\ val (f64_mul a b) = RN (val a * val b).
Proof.
  destruct (num_B a A) as (x & -> & X & VX), (num_B b B) as (y & -> & Y & VY). rewrite <- VX, <- VY. intros H.
  unfold f64_mul. rewrite (mul_equiv 53 1024 Hprec64 Hmax64).
  pose proof (Bmult_correct 53 1024 Hprec64 Hmax64 mode_NE x y) as C.
  change (round radix2 (SpecFloat.fexp 53 1024) (round_mode mode_NE)) with RN in C.
  rewrite Rlt_bool_true in C by exact H. destruct C as (C1 & C2 & _). rewrite X, Y in C2.
  destruct (is_num_B _ C2) as [N V]. rewrite V, C1. auto.
Qed.
Lemma div_num : val b <> 0 -> Rabs (RN (val a / val b)) < bpow radix2 1024 ->
  is_num (f64_div a b) /\ val (f64_div a b) = RN (val a / val b).
Proof.
  destruct (num_B a A) as (x & -> & X & VX), (num_B b B) as (y & -> & Y & VY). rewrite <- VX, <- VY. intros Z H.
  unfold f64_div. rewrite (div_equiv 53 1024 Hprec64 Hmax64).
  pose proof (Bdiv_correct 53 1024 Hprec64 Hmax64 mode_NE x y Z) as C.
  change (round radix2 (SpecFloat.fexp 53 1024) (round_mode mode_NE)) with RN in C.
  rewrite Rlt_bool_true in C by exact H. destruct C as (C1 & C2 & _). rewrite X in C2.
  destruct (is_num_B _ C2) as [N V]. rewrite V, C1. auto.
Qed.
End Ops.

(** The error of one rounding. *)
Lemma RN_err x : exists e d, RN x = x * (1 + e) + d /\ Rabs e <= / 2 ^ 53 /\ Rabs d <= bpow radix2 (-1075).
Proof.
  destruct (error_N_FLT radix2 (-1074) 53 Hprec64 (fun t => negb (Z.even t)) x) as (e & d & E & D & _ & H).
  exists e, d. split; [exact H|]. split.
  - eapply Rle_trans; [exact E|]. right. change (bpow radix2 (-53 + 1)) with (/ IZR (2 ^ 52)). cbn. lra.
  - eapply Rle_trans; [exact D|]. right. change (-1074)%Z with (1 + -1075)%Z. rewrite bpow_plus.
    change (bpow radix2 1) with 2. lra.
Qed.
Lemma tiny : bpow radix2 (-1075) <= / IZR (2 ^ 300).
Proof.
  change (/ IZR (2 ^ 300)) with (/ IZR (Zpower_pos radix2 300)). change (/ IZR (Zpower_pos radix2 300)) with (bpow radix2 (-300)).
  apply bpow_le. lia.
Qed.
Lemma RN_abs x : Rabs (RN x - x) <= Rabs x / 2 ^ 53 + / IZR (2 ^ 300).
Proof.
  destruct (RN_err x) as (e & d & -> & E & D). replace (x * (1 + e) + d - x) with (x * e + d) by ring.
  eapply Rle_trans; [apply Rabs_triang|]. apply Rplus_le_compat.
  - rewrite Rabs_mult. unfold Rdiv. apply Rmult_le_compat_l; [apply Rabs_pos|exact E].
  - eapply Rle_trans; [exact D|apply tiny].
Qed.
Lemma RN_small x e : (-1074 <= e < 1024)%Z -> Rabs x <= bpow radix2 e -> Rabs (RN x) < bpow radix2 1024.
Proof.
  intros E H. eapply Rle_lt_trans; [apply (RN_abs_bpow x e); [lia|exact H]|]. apply bpow_lt. lia.
Qed.

(** * Expressions in one input *)
Inductive fx := FI | FK (c : f64) | FAdd (l r : fx) | FSub (l r : fx) | FMul (l r : fx).
Fixpoint feval (x : f64) (e : fx) : f64 :=
  match e with
  | FI => x
  | FK c => c
  | FAdd l r => f64_add (feval x l) (feval x r)
  | FSub l r => f64_sub (feval x l) (feval x r)
  | FMul l r => f64_mul (feval x l) (feval x r)
  end.
(** The same expression over the reals. *)
Fixpoint reval (x : R) (e : fx) : R :=
  match e with
  | FI => x
  | FK c => val c
  | FAdd l r => reval x l + reval x r
  | FSub l r => reval x l - reval x r
  | FMul l r => reval x l * reval x r
  end.

(** Magnitude and error bounds in units of 2^-140; [None]: a constant is not a
    finite number or a value may overflow. *)
Definition U : Z := 2 ^ 140.
Definition cdiv (a b : Z) : Z := (a / b + 1)%Z.
Definition const_mag (c : f64) : option Z :=
  match c with
  | S754_zero _ => Some 0%Z
  | S754_finite _ m e =>
      if SpecFloat.valid_binary 53 1024 c then
        Some (if (0 <=? e + 140)%Z then (Zpos m * 2 ^ (e + 140))%Z else cdiv (Zpos m) (2 ^ (- (e + 140))))
      else None
  | _ => None
  end.
Definition H53 : Z := 2 ^ 53.
Definition round_up (m e : Z) : option (Z * Z) :=
  if (m + e <=? 2 ^ 1000)%Z then Some (m, (e + cdiv (m + e) H53 + 1)%Z) else None.
Fixpoint bnd (mx : Z) (e : fx) : option (Z * Z) :=
  match e with
  | FI => Some (mx, 0%Z)
  | FK c => match const_mag c with Some m => Some (m, 0%Z) | None => None end
  | FAdd l r | FSub l r =>
      match bnd mx l, bnd mx r with
      | Some (m1, e1), Some (m2, e2) => round_up (m1 + m2) (e1 + e2)
      | _, _ => None
      end
  | FMul l r =>
      match bnd mx l, bnd mx r with
      | Some (m1, e1), Some (m2, e2) =>
          round_up (cdiv (m1 * m2) U) (cdiv (m1 * e2 + e1 * m2 + e1 * e2) U)
      | _, _ => None
      end
  end.

Lemma U_pos : 0 < IZR U. Proof. apply IZR_lt. reflexivity. Qed.
Lemma cdiv_ok a b : (0 < b)%Z -> IZR a / IZR b <= IZR (cdiv a b).
Proof.
  intros B. unfold cdiv. rewrite plus_IZR. pose proof (Z.div_mod a b ltac:(lia)) as E. pose proof (Z.mod_pos_bound a b B) as M.
  assert (B' : 0 < IZR b) by (apply (IZR_lt 0), B).
  apply (Rmult_le_reg_r (IZR b)); [exact B'|]. unfold Rdiv. rewrite Rmult_assoc, Rinv_l, Rmult_1_r by lra.
  replace (IZR a) with (IZR b * IZR (a / b) + IZR (a mod b)) by (rewrite <- mult_IZR, <- plus_IZR; f_equal; lia).
  assert (IZR (a mod b) <= IZR b) by (apply IZR_le; lia). lra.
Qed.
Lemma const_mag_ok c m : const_mag c = Some m -> is_num c /\ Rabs (val c) <= IZR m / IZR U.
Proof.
  pose proof U_pos as UP. destruct c as [s|s| |s p e]; cbn [const_mag]; try discriminate.
  - intros [= <-]. split; [split; reflexivity|]. unfold val. cbn [SF2R]. rewrite Rabs_R0. unfold Rdiv. lra.
  - destruct (SpecFloat.valid_binary 53 1024 (S754_finite s p e)) eqn:V; [|discriminate]. intros [= <-].
    split; [split; [exact V|reflexivity]|].
    assert (AV : Rabs (val (S754_finite s p e)) = IZR (Zpos p) * bpow radix2 e).
    { unfold val. cbn [SF2R]. unfold F2R. cbn [Fnum Fexp]. rewrite Rabs_mult, (Rabs_right (bpow radix2 e)) by (apply Rle_ge, bpow_ge_0).
      f_equal. destruct s; cbn [cond_Zopp]; rewrite ?opp_IZR, ?Rabs_Ropp; apply Rabs_right, Rle_ge, (IZR_le 0); lia. }
    rewrite AV. assert (UB : IZR U = bpow radix2 140) by reflexivity.
    apply (Rmult_le_reg_r (IZR U)); [exact UP|]. unfold Rdiv. rewrite (Rmult_assoc (IZR _) (/ IZR U)), Rinv_l, Rmult_1_r by lra.
    rewrite Rmult_assoc, UB, <- bpow_plus. destruct (0 <=? e + 140)%Z eqn:E.
    + apply Z.leb_le in E. change (IZR (Zpos p) * bpow radix2 (e + 140) <= IZR (Zpos p * 2 ^ (e + 140))). rewrite mult_IZR. right. f_equal. rewrite <- IZR_Zpower by exact E. reflexivity.
    + apply Z.leb_gt in E. eapply Rle_trans; [|apply cdiv_ok; apply Z.pow_pos_nonneg; lia].
      unfold Rdiv. right. f_equal. replace (e + 140)%Z with (- (- (e + 140)))%Z at 1 by lia. rewrite bpow_opp. f_equal.
      rewrite <- IZR_Zpower by lia. reflexivity.
Qed.

(** Rounding a value known to [e] whose exact value is at most [m]. *)
Lemma round_up_ok m e m' e' v w : round_up m e = Some (m', e') -> Rabs v <= IZR m / IZR U ->
  Rabs (w - v) <= IZR e / IZR U ->
  Rabs v <= IZR m' / IZR U /\ Rabs (RN w - v) <= IZR e' / IZR U /\ Rabs (RN w) < bpow radix2 1024.
Proof.
  unfold round_up. destruct (m + e <=? 2 ^ 1000)%Z eqn:C; [|discriminate]. intros [= <- <-] V W.
  apply Z.leb_le in C. pose proof U_pos as UP.
  assert (WA : Rabs w <= IZR (m + e) / IZR U).
  { replace w with (v + (w - v)) by ring. eapply Rle_trans; [apply Rabs_triang|]. rewrite plus_IZR. unfold Rdiv in *. lra. }
  split; [exact V|]. split.
  - replace (RN w - v) with ((RN w - w) + (w - v)) by ring.
    eapply Rle_trans; [apply Rabs_triang|]. rewrite !plus_IZR.
    pose proof (RN_abs w) as Q. pose proof (cdiv_ok (m + e) H53 ltac:(reflexivity)) as D.
    assert (T : / IZR (2 ^ 300) <= 1 / IZR U).
    { unfold Rdiv. rewrite Rmult_1_l. apply Rinv_le_contravar; [exact UP|]. apply IZR_le. unfold U. lia. }
    assert (K : Rabs w / 2 ^ 53 <= IZR (cdiv (m + e) H53) / IZR U).
    { replace (2 ^ 53) with (IZR H53) by (unfold H53; cbn; lra).
      apply Rle_trans with (IZR (m + e) / IZR U / IZR H53).
      - unfold Rdiv. apply Rmult_le_compat_r; [apply Rlt_le, Rinv_0_lt_compat, IZR_lt; reflexivity|exact WA].
      - replace (IZR (m + e) / IZR U / IZR H53) with (IZR (m + e) / IZR H53 / IZR U)
          by (field; split; apply not_0_IZR; unfold U, H53; lia).
        unfold Rdiv at 1. unfold Rdiv at 2. apply Rmult_le_compat_r; [apply Rlt_le, Rinv_0_lt_compat, UP|exact D]. }
    replace ((IZR e + IZR (cdiv (m + e) H53) + 1) / IZR U) with
      (IZR e / IZR U + IZR (cdiv (m + e) H53) / IZR U + 1 / IZR U) by (field; lra). lra.
  - apply (RN_small w 1000); [lia|]. eapply Rle_trans; [exact WA|].
    replace (bpow radix2 1000) with (IZR (2 ^ 1000)) by (symmetry; apply (IZR_Zpower radix2 1000); lia).
    apply Rle_trans with (IZR (m + e)).
    + assert (0 <= IZR (m + e)).
      { pose proof (Rabs_pos w) as Z0. apply (Rmult_le_reg_r (/ IZR U)); [apply Rinv_0_lt_compat, UP|]. unfold Rdiv in WA. lra. }
      unfold Rdiv. rewrite <- (Rmult_1_r (IZR (m + e))) at 2. apply Rmult_le_compat_l; [assumption|].
      rewrite <- Rinv_1. apply Rinv_le_contravar; [lra|]. apply IZR_le. unfold U. lia.
    + apply IZR_le. exact C.
Qed.

Theorem bnd_ok x mx e : is_num x -> Rabs (val x) <= IZR mx / IZR U -> forall m d, bnd mx e = Some (m, d) ->
  is_num (feval x e) /\ Rabs (reval (val x) e) <= IZR m / IZR U /\
  Rabs (val (feval x e) - reval (val x) e) <= IZR d / IZR U.
Proof.
  intros NX MX. pose proof U_pos as UP.
  induction e as [|c|l IHl r IHr|l IHl r IHr|l IHl r IHr]; intros m d B; cbn [bnd feval reval] in *.
  - injection B as <- <-. repeat split; try apply NX; [exact MX|]. rewrite Rminus_diag_eq, Rabs_R0 by reflexivity. unfold Rdiv. lra.
  - destruct (const_mag c) as [k|] eqn:C; [|discriminate]. injection B as <- <-. destruct (const_mag_ok c k C) as [N M].
    repeat split; try apply N; [exact M|]. rewrite Rminus_diag_eq, Rabs_R0 by reflexivity. unfold Rdiv. lra.
  - destruct (bnd mx l) as [[m1 e1]|]; [|discriminate]. destruct (bnd mx r) as [[m2 e2]|]; [|discriminate].
    destruct (IHl _ _ eq_refl) as (N1 & M1 & E1), (IHr _ _ eq_refl) as (N2 & M2 & E2).
    destruct (round_up_ok _ _ _ _ (reval (val x) l + reval (val x) r) (val (feval x l) + val (feval x r)) B) as (M & E & O).
    + eapply Rle_trans; [apply Rabs_triang|]. rewrite plus_IZR. unfold Rdiv in *. lra.
    + match goal with |- Rabs ?t <= _ => replace t with ((val (feval x l) - reval (val x) l) + (val (feval x r) - reval (val x) r)) by ring end.
      eapply Rle_trans; [apply Rabs_triang|]. rewrite plus_IZR. unfold Rdiv in *. lra.
    + destruct (add_num _ _ N1 N2 O) as [N V]. rewrite V. auto.
  - destruct (bnd mx l) as [[m1 e1]|]; [|discriminate]. destruct (bnd mx r) as [[m2 e2]|]; [|discriminate].
    destruct (IHl _ _ eq_refl) as (N1 & M1 & E1), (IHr _ _ eq_refl) as (N2 & M2 & E2).
    destruct (round_up_ok _ _ _ _ (reval (val x) l - reval (val x) r) (val (feval x l) - val (feval x r)) B) as (M & E & O).
    + unfold Rminus. eapply Rle_trans; [apply Rabs_triang|]. rewrite Rabs_Ropp, plus_IZR. unfold Rdiv in *. lra.
    + match goal with |- Rabs ?t <= _ => replace t with ((val (feval x l) - reval (val x) l) + - (val (feval x r) - reval (val x) r)) by ring end.
      eapply Rle_trans; [apply Rabs_triang|]. rewrite Rabs_Ropp, plus_IZR. unfold Rdiv in *. lra.
    + destruct (sub_num _ _ N1 N2 O) as [N V]. rewrite V. auto.
  - destruct (bnd mx l) as [[m1 e1]|]; [|discriminate]. destruct (bnd mx r) as [[m2 e2]|]; [|discriminate].
    destruct (IHl _ _ eq_refl) as (N1 & M1 & E1), (IHr _ _ eq_refl) as (N2 & M2 & E2).
    assert (UU : (0 < U)%Z) by reflexivity.
    destruct (round_up_ok _ _ _ _ (reval (val x) l * reval (val x) r) (val (feval x l) * val (feval x r)) B) as (M & E & O).
    + rewrite Rabs_mult. pose proof (cdiv_ok (m1 * m2) U UU) as D. rewrite mult_IZR in D.
      apply Rle_trans with ((IZR m1 / IZR U) * (IZR m2 / IZR U)); [apply Rmult_le_compat; try apply Rabs_pos; assumption|].
      replace (IZR m1 / IZR U * (IZR m2 / IZR U)) with (IZR m1 * IZR m2 / IZR U / IZR U) by (field; lra).
      unfold Rdiv at 1. unfold Rdiv at 2. apply Rmult_le_compat_r; [apply Rlt_le, Rinv_0_lt_compat, UP|exact D].
    + set (a := val (feval x l)) in *. set (b := val (feval x r)) in *. set (u := reval (val x) l) in *. set (v := reval (val x) r) in *.
      replace (a * b - u * v) with (u * (b - v) + (a - u) * v + (a - u) * (b - v)) by ring.
      pose proof (cdiv_ok (m1 * e2 + e1 * m2 + e1 * e2) U UU) as D. rewrite !plus_IZR, !mult_IZR in D.
      apply Rle_trans with ((IZR m1 * IZR e2 + IZR e1 * IZR m2 + IZR e1 * IZR e2) / IZR U / IZR U).
      * replace ((IZR m1 * IZR e2 + IZR e1 * IZR m2 + IZR e1 * IZR e2) / IZR U / IZR U) with
          ((IZR m1 / IZR U) * (IZR e2 / IZR U) + (IZR e1 / IZR U) * (IZR m2 / IZR U) + (IZR e1 / IZR U) * (IZR e2 / IZR U)) by (field; lra).
        eapply Rle_trans; [apply Rabs_triang|]. apply Rplus_le_compat.
        -- eapply Rle_trans; [apply Rabs_triang|]. rewrite !Rabs_mult.
           apply Rplus_le_compat; apply Rmult_le_compat; try apply Rabs_pos; assumption.
        -- rewrite Rabs_mult. apply Rmult_le_compat; try apply Rabs_pos; assumption.
      * unfold Rdiv at 1. unfold Rdiv at 2. apply Rmult_le_compat_r; [apply Rlt_le, Rinv_0_lt_compat, UP|exact D].
    + destruct (mul_num _ _ N1 N2 O) as [N V]. rewrite V. auto.
Qed.

(** The error of a quotient whose operands are known approximately. *)
Lemma quot_err n d n' d' b e1 e2 lo : Rabs (n / d) <= b -> Rabs (n' - n) <= e1 -> Rabs (d' - d) <= e2 ->
  lo <= d -> e2 < lo -> 0 <= e2 ->
  0 < d' /\ Rabs (n' / d' - n / d) <= (e1 + b * e2) / (lo - e2).
Proof.
  intros B E1 E2 L G Z.
  assert (D' : lo - e2 <= d') by (apply Rabs_le_inv in E2; lra).
  split; [lra|].
  replace (n' / d' - n / d) with (((n' - n) - (n / d) * (d' - d)) / d') by (field; lra).
  unfold Rdiv at 1. rewrite Rabs_mult. unfold Rdiv at 2. apply Rmult_le_compat; try apply Rabs_pos.
  - unfold Rminus at 1. eapply Rle_trans; [apply Rabs_triang|]. rewrite Rabs_Ropp, Rabs_mult. apply Rplus_le_compat; [exact E1|].
    apply Rmult_le_compat; try apply Rabs_pos; assumption.
  - rewrite Rabs_right by (apply Rle_ge, Rlt_le, Rinv_0_lt_compat; lra). apply Rinv_le_contravar; lra.
Qed.
