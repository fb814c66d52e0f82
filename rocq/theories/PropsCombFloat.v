(** C59: combinators in binary64. [close d r w]: [w] is a finite number at most
    [d] away from [r].  [step m d] is the error after rounding a value of
    magnitude [m] known up to [d]. *)
From Coq Require Import ZArith Reals Bool String List Lia Lra.
From Coq Require Import Floats.SpecFloat.
From Flocq Require Import Core.
From Verif Require Import Num EggSpec FloatErr AccSpec RoundSpec RoundProofs RelErr DensitySpec CoreModel CombModel ExpFamModel DistModel DistFloat SumFloat
  CombFloatSpec CombFloat CombFloat2.
Import ListNotations.
Local Open Scope R_scope.

(** * Weights, integrals, products, relative densities *)
Theorem C59_weighted : forall L A (m : Measure (F64 L) A) (lw : f64) x r d,
  is_num lw -> close d r (b_ld m x) -> no_overflow (Rabs (val lw + r) + (0 + d)) ->
  close (step (Rabs (val lw + r)) (0 + d)) (val lw + r) (b_ld (weighted m (lw : F64 L)) x).
Proof. intros L A m lw x r d N C O. exact (close_add lw _ _ _ 0 d (close_self lw N) C O). Qed.
Print Assumptions C59_weighted.
Theorem C59_integral : forall L A (m : Measure (F64 L) A) (f : A -> F64 L) k x r g d e,
  close e g (f x) -> close d r (b_ld m x) -> no_overflow (Rabs (g + r) + (e + d)) ->
  close (step (Rabs (g + r)) (e + d)) (g + r) (b_ld (integral m f k) x).
Proof. intros L A m f k x r g d e. exact (close_add (f x) (b_ld m x) g r e d). Qed.
Print Assumptions C59_integral.
Theorem C59_product : forall L A B (m1 : Measure (F64 L) A) (m2 : Measure (F64 L) B) x y r1 r2 d1 d2,
  close d1 r1 (b_ld m1 x) -> close d2 r2 (b_ld m2 y) -> no_overflow (Rabs (r1 + r2) + (d1 + d2)) ->
  close (step (Rabs (r1 + r2)) (d1 + d2)) (r1 + r2) (b_ld (product m1 m2) (x, y)).
Proof. intros L A B m1 m2 x y r1 r2 d1 d2. exact (close_add (b_ld m1 x) (b_ld m2 y) r1 r2 d1 d2). Qed.
Print Assumptions C59_product.
Theorem C59_relative_density : forall L A lay (m : Measure (F64 L) A) (b : Base (F64 L) A) x r s d e,
  off_measure lay <> off_base lay ->
  close d r (b_ld m x) -> close e s (b_ld b x) -> no_overflow (Rabs (r - s) + (d + e)) ->
  close (step (Rabs (r - s)) (d + e)) (r - s) (at_ lay (wrt (log_density m) b) x).
Proof.
  intros L A lay m b x r s d e NE U V O. unfold at_. rewrite (proj2 (Nat.eqb_neq _ _) NE).
  pose proof (close_sub _ _ _ _ _ _ U V O) as K. unfold compute. cbn [wrt log_density ld_measure ld_base]. destruct (b_expfam m), (b_expfam b); exact K.
Qed.
Print Assumptions C59_relative_density.

(** * Mixtures *)
(** [rs] are the exact log-densities of the components.  The exact value is the
    logarithm of the weighted sum of the densities [exp r]; the result is this close however far apart the components are. *)
Theorem C59_mixture : forall c lg L A (cs : list (Measure (F64 L) A)) (ws : list f64) (rs : list R) x M d,
  libm_ok c lg L -> 0 <= c <= 1000000 ->
  cs <> [] -> length ws = length cs -> INR (length cs) <= bpow radix2 20 ->
  Forall (fun w => is_num w /\ 0 < val w) ws ->
  Forall2 (fun (m : Measure (F64 L) A) r => close d r (b_ld m x) /\ Rabs r <= M) cs rs -> M + d <= bpow radix2 899 ->
  let n := INR (length cs) in
  let v := ln (Rsum (map (fun wr => val (fst wr) * exp (snd wr)) (combine ws rs))) in
  let D := term_error c M d in
  close (D + 2 * (c + 4 * (n * (c + 5 + n)) + 1) * eps * (Rabs v + D + 2 * n)) v
    (mixture_ld (@mkMixture (F64 L) A cs ws) x).
Proof. intros c lg L A cs ws rs x M d K C. exact (mixture_close c lg L K C cs ws rs x M d). Qed.
Print Assumptions C59_mixture.

(** The check on the weights: accepted if they add up to one within 0.9e-10,
    refused if they miss one by 1.1e-10, for up to ten thousand non-negative
    weights. *)
Theorem C59_weights_accepted : forall L A (cs : list (Measure (F64 L) A)) (ws : list (F64 L)),
  length cs = length ws -> INR (length ws) <= 10000 ->
  Forall (fun w : f64 => is_num w /\ 0 <= val w) ws -> Rabs (Rsum (map val ws) - 1) <= 9 / 10 ^ 11 ->
  mixture_new cs ws = Some (mkMixture cs ws).
Proof. intros L A cs ws. exact (new_accepts L cs ws). Qed.
Print Assumptions C59_weights_accepted.
Theorem C59_weights_refused : forall L A (cs : list (Measure (F64 L) A)) (ws : list (F64 L)),
  INR (length ws) <= 10000 -> Rsum (map val ws) <= huge / 2 ->
  Forall (fun w : f64 => is_num w /\ 0 <= val w) ws -> 11 / 10 ^ 11 <= Rabs (Rsum (map val ws) - 1) ->
  mixture_new cs ws = None.
Proof. intros L A cs ws. exact (new_rejects L cs ws). Qed.
Print Assumptions C59_weights_refused.
(** Uniform mixtures of up to 200000 components are never refused, whatever the
    rounding of [1/n]. *)
Theorem C59_uniform_accepted : forall L A (cs : list (Measure (F64 L) A)), cs <> [] -> INR (length cs) <= 200000 ->
  exists w : f64, mixture_uniform cs = Some (mkMixture cs (repeat (w : F64 L) (length cs))) /\
    is_num w /\ Rabs (val w - / INR (length cs)) <= 2 * eps * / INR (length cs).
Proof.
  intros L A cs NE H. destruct (uniform_accepts L cs NE H) as (w & E & K). exists w. split; [exact E|].
  pose proof (rel_acc 1 _ _ ltac:(lra) K) as Q. apply acc_close in Q; [|lra|apply keps; lra]. destruct Q as [N Q]. split; [exact N|].
  rewrite Rmult_1_r, (Rabs_pos_eq (/ INR (length cs))) in Q; [exact Q|]. left. apply Rinv_0_lt_compat. destruct cs; [congruence|]. cbn [length]. apply lt_0_INR. lia.
Qed.
Print Assumptions C59_uniform_accepted.
(** Two-component mixtures normalise any two positive weights. *)
Theorem C59_pair_accepted : forall L A (a b : Measure (F64 L) A) (w1 w2 : f64),
  is_num w1 -> is_num w2 -> 0 < val w1 -> 0 < val w2 -> val w1 + val w2 <= big ->
  exists v1 v2 : f64, mixture2 a b (w1 : F64 L) (w2 : F64 L) = Some (mkMixture [a; b] [v1; v2]) /\
    close (5 * eps) (val w1 / (val w1 + val w2)) v1 /\ close (5 * eps) (val w2 / (val w1 + val w2)) v2.
Proof. intros L A a b w1 w2. exact (pair_accepts L a b w1 w2). Qed.
Print Assumptions C59_pair_accepted.

(** * Pushforwards *)
Theorem C59_pushforward : forall L (m : Base (F64 L) (F64 L)) t y r j d e,
  close d r (b_ld m (inverse t y)) -> close e j (log_jac t y) -> no_overflow (Rabs (r + j) + (d + e)) ->
  close (step (Rabs (r + j)) (d + e)) (r + j) (push_ld m t y).
Proof. exact push_close. Qed.
Print Assumptions C59_pushforward.
Theorem C59_linear : forall c lg L (a b y : f64), libm_ok c lg L -> 0 <= c <= 1000000 ->
  is_num a -> is_num b -> is_num y -> val a <> 0 -> Rabs (val y) + Rabs (val b) <= big -> Rabs (val y - val b) / Rabs (val a) <= big ->
  close (4 * eps * (Rabs ((val y - val b) / val a) + small)) ((val y - val b) / val a) (inverse (@linear_transform (F64 L) a b) y) /\
  close (2 * c * eps * (Rabs (ln (Rabs (val a))) + small)) (- ln (Rabs (val a))) (log_jac (@linear_transform (F64 L) a b) y).
Proof.
  intros c lg L a b y K C NA NB NY Z B1 B2. split.
  - replace (4 * eps) with (2 * 2 * eps) by ring. apply acc_close; [apply linear_inverse; assumption|lra|apply keps; lra].
  - apply acc_close; [apply (linear_jac c lg L K); assumption|lra|apply keps; lra].
Qed.
Print Assumptions C59_linear.
(** Transforming and transforming back loses at most a few units. *)
Theorem C59_linear_round_trip : forall L (a b x : f64),
  is_num a -> is_num b -> is_num x -> val a <> 0 -> Rabs (val a * val x) + Rabs (val b) + small <= huge ->
  (Rabs (val b) + small) / Rabs (val a) <= huge -> Rabs (val x) <= huge ->
  close (12 * eps * (Rabs (val x) + (Rabs (val b) + small) / Rabs (val a) + small)) (val x)
    (inverse (@linear_transform (F64 L) a b) (forward (@linear_transform (F64 L) a b) x)).
Proof. exact linear_round_trip. Qed.
Print Assumptions C59_linear_round_trip.
(** The exponential pushforward of a normal is the log-normal distribution. *)
Theorem C59_lognormal : forall c lg L (mu sd y : f64), libm_ok c lg L -> 0 <= c <= 1000000 ->
  is_num mu -> is_num sd -> is_num y -> 0 < val sd -> 0 < val y -> Rabs (val mu) <= huge ->
  let z := (ln (val y) - val mu) / val sd in
  let d0 := c * eps * (Rabs (ln (val y)) + small) in let d := d0 / val sd in
  let r := ln (normal_pdf (val mu) (val sd) (ln (val y))) in
  Rabs z + d <= bpow radix2 400 -> Rabs r <= huge ->
  let e := d * (Rabs z + d) + 2 * (c + 7) * eps * ((Rabs z + d) * (Rabs z + d) + Rabs (ln (val sd)) + 2) in
  close (step (Rabs (r - ln (val y))) (e + d0)) (ln (lognormal_pdf (val mu) (val sd) (val y)))
    (push_ld (normal_base (@mkNormal (F64 L) mu sd)) exp_transform y).
Proof. intros c lg L mu sd y K C. exact (lognormal_close c lg L K C mu sd y). Qed.
Print Assumptions C59_lognormal.
(** The logit transform on [-600, 600]. *)
Theorem C59_logit : forall c lg L (y : f64), libm_ok c lg L -> 0 <= c <= 1000000 -> is_num y -> Rabs (val y) <= 600 ->
  close (2 * (8 * c + 2) * eps * logistic (val y)) (logistic (val y)) (inverse (@logit_transform (F64 L)) y) /\
  close (2 * (9 * c + 4) * eps * (3 * Rabs (val y) + 4)) (ln (exp (val y) / (1 + exp (val y)) ^ 2)) (log_jac (@logit_transform (F64 L)) y).
Proof.
  intros c lg L y K C N B. split.
  - pose proof (rel_acc (8 * c + 2) _ _ ltac:(lra) (logit_inverse c lg L K C y N B)) as Q. rewrite Rabs_pos_eq in Q.
    + apply acc_close; [exact Q|lra|apply keps; lra].
    + unfold logistic. pose proof (exp_pos (val y)). apply div_pos; lra.
  - apply acc_close; [apply (logit_jac c lg L K C y N B)|lra|apply keps; lra].
Qed.
Print Assumptions C59_logit.

(** Outside, it fails: with an accurate library that overflows to infinity (as
    every platform's does), the inverse of every [y >= 710] is NaN instead of a
    number next to 1, and the log-Jacobian of every [y <= -710] is minus
    infinity instead of about [y]. *)
Theorem C59_logit_overflow_refuted : forall L (y : f64),
  (forall u, is_num u -> 710 <= val u -> l_exp L u = S754_infinity false) -> l_ln L (S754_infinity false) = S754_infinity false ->
  is_num y ->
  (710 <= val y -> inverse (@logit_transform (F64 L)) y = S754_nan) /\
  (val y <= -710 -> log_jac (@logit_transform (F64 L)) y = S754_infinity true).
Proof.
  intros L y HE HL N. split; intros H.
  - apply logit_overflow, HE; assumption.
  - apply logit_underflow; [exact N| |exact HL]. destruct (AccProofs.neg_num y N) as [NN VN]. apply HE; [exact NN|]. rewrite VN. lra.
Qed.
Print Assumptions C59_logit_overflow_refuted.

(** * Cases *)
Definition c59_lib : libm := overflowing (rounded_libm (fun _ => 0)).
Lemma c59_lib_ok : libm_ok 1 (fun _ => 0) c59_lib.
Proof. apply overflowing_ok, rounded_libm_ok. Qed.
(** The hypotheses of [C59_logit_overflow_refuted] hold of an accurate library. *)
Example C59_overflow_case :
  (forall u, is_num u -> 710 <= val u -> l_exp c59_lib u = S754_infinity false) /\ l_ln c59_lib (S754_infinity false) = S754_infinity false /\
  inverse (@logit_transform (F64 c59_lib)) (f64_of_Z 1000) = S754_nan /\
  log_jac (@logit_transform (F64 c59_lib)) (f64_of_Z (-1000)) = S754_infinity true.
Proof.
  assert (H : forall u, is_num u -> 710 <= val u -> l_exp c59_lib u = S754_infinity false).
  { intros u N V. destruct (num_int 710 ltac:(lia)) as [N7 V7]. cbn [c59_lib overflowing l_exp]. rewrite (SFleb_num _ _ N7 N), V7, Rle_bool_true by exact V. reflexivity. }
  split; [exact H|]. split; [reflexivity|]. destruct (num_int 1000 ltac:(lia)) as [N1 V1]. destruct (num_int (-1000) ltac:(lia)) as [N2 V2].
  split; [apply (C59_logit_overflow_refuted c59_lib _ H eq_refl N1); rewrite V1; lra|apply (C59_logit_overflow_refuted c59_lib _ H eq_refl N2); rewrite V2; lra].
Qed.
(** Two normal components with weights 1/4 and 3/4, at 1. *)
Definition c59_normal (mu : Z) : Measure (F64 c59_lib) (F64 c59_lib) :=
  {| m_self := normal_base (@mkNormal (F64 c59_lib) (f64_of_Z mu) (f64_of_Z 1)); m_root := primitive |}.
Definition c59_value (mu : Z) : R := ln (normal_pdf (IZR mu) 1 1).
Lemma c59_normal_close mu : (Z.abs mu <= 3)%Z -> close (2 * 8 * eps * 18) (c59_value mu) (b_ld (c59_normal mu) (f64_of_Z 1)).
Proof.
  intros H. destruct (num_int mu ltac:(lia)) as [NM VM]. destruct (num_int 1 ltac:(lia)) as [N1 V1]. sizes.
  assert (B : -3 <= IZR mu <= 3). { split; [change (-3) with (IZR (-3)%Z)|change 3 with (IZR 3%Z)]; apply IZR_le; lia. }
  pose proof (normal_float 1 _ c59_lib c59_lib_ok ltac:(lra) (f64_of_Z mu) (f64_of_Z 1) (f64_of_Z 1) NM N1 N1) as K. rewrite VM, V1 in K.
  assert (B4 : 1000 <= bpow radix2 400) by (apply Rle_trans with (bpow radix2 10); [change (bpow radix2 10) with 1024; lra|apply bpow_le; lia]).
  specialize (K ltac:(lra) ltac:(apply Rabs_le; lra) ltac:(rewrite Rabs_R1; lra) ltac:(apply Rabs_le; lra)).
  assert (LN1 : ln 1 = 0) by apply ln_1. unfold c59_value. apply acc_more with (k' := 8) (m' := 18) in K; [|lra|rewrite LN1, Rabs_R0; nra].
  apply acc_close in K; [exact K|lra|apply keps; lra].
Qed.
Lemma c59_weights L A (a b : Measure (F64 L) A) :
  mixture2 a b (f64_of_Z 1 : F64 L) (f64_of_Z 3 : F64 L) = Some (mkMixture [a; b] [f64_dec 1 4; f64_dec 3 4]).
Proof.
  unfold mixture2, mixture_new. cbn [length Nat.eqb fold_left]. cbv zeta.
  change (@ndiv (F64 L) (f64_of_Z 1) (@nadd (F64 L) (f64_of_Z 1) (f64_of_Z 3))) with (f64_div (f64_of_Z 1) (f64_add (f64_of_Z 1) (f64_of_Z 3))).
  change (@ndiv (F64 L) (f64_of_Z 3) (@nadd (F64 L) (f64_of_Z 1) (f64_of_Z 3))) with (f64_div (f64_of_Z 3) (f64_add (f64_of_Z 1) (f64_of_Z 3))).
  replace (f64_div (f64_of_Z 1) (f64_add (f64_of_Z 1) (f64_of_Z 3))) with (f64_dec 1 4) by (vm_compute; reflexivity).
  replace (f64_div (f64_of_Z 3) (f64_add (f64_of_Z 1) (f64_of_Z 3))) with (f64_dec 3 4) by (vm_compute; reflexivity).
  match goal with |- (if ?b then _ else _) = _ => change b with (SFltb (SFabs (f64_sub (f64_add (f64_add (f64_of_Z 0) (f64_dec 1 4)) (f64_dec 3 4)) (f64_of_Z 1))) (f64_dec 1 10000000000)) end.
  replace (SFltb _ _) with true by (vm_compute; reflexivity). reflexivity.
Qed.
Example C59_mixture_case :
  let m0 := c59_normal 0 in let m3 := c59_normal 3 in
  libm_ok 1 (fun _ => 0) c59_lib /\
  Forall2 (fun (m : Measure (F64 c59_lib) (F64 c59_lib)) r => close (2 * 8 * eps * 18) r (b_ld m (f64_of_Z 1)) /\ Rabs r <= 11) [m0; m3] [c59_value 0; c59_value 3] /\
  mixture2 m0 m3 (f64_of_Z 1 : F64 c59_lib) (f64_of_Z 3 : F64 c59_lib) = Some (mkMixture [m0; m3] [f64_dec 1 4; f64_dec 3 4]).
Proof.
  split; [apply c59_lib_ok|]. split.
  - assert (Q : forall mu, (Z.abs mu <= 3)%Z -> Rabs (c59_value mu) <= 11).
    { intros mu H. assert (B : -3 <= IZR mu <= 3). { split; [change (-3) with (IZR (-3)%Z)|change 3 with (IZR 3%Z)]; apply IZR_le; lia. }
      unfold c59_value. rewrite BuilderProofs.ln_normal_pdf, ln_1 by lra. pose proof ln_two_pi.
      replace (- (1 / 2) * (1 - IZR mu) ^ 2 / 1 ^ 2) with (- (1 / 2) * (1 - IZR mu) ^ 2) by field. apply Rabs_le. nra. }
    constructor; [split; [apply c59_normal_close; lia|apply Q; lia]|]. constructor; [split; [apply c59_normal_close; lia|apply Q; lia]|constructor].
  - apply c59_weights.
Qed.
(** The log-normal with parameters 0 and 1 at 2, and the logit transform at -30. *)
Example C59_transform_case :
  close (/ 10 ^ 13) (ln (lognormal_pdf 0 1 2)) (push_ld (normal_base (@mkNormal (F64 c59_lib) (f64_of_Z 0) (f64_of_Z 1))) exp_transform (f64_of_Z 2)) /\
  close (/ 10 ^ 12) (ln (exp (-30) / (1 + exp (-30)) ^ 2)) (log_jac (@logit_transform (F64 c59_lib)) (f64_of_Z (-30))).
Proof.
  destruct (num_int 0 ltac:(lia)) as [N0 V0]. destruct (num_int 1 ltac:(lia)) as [N1 V1]. destruct (num_int 2 ltac:(lia)) as [N2 V2]. destruct (num_int (-30) ltac:(lia)) as [N3 V3].
  pose proof eps_value as EV. sizes. destruct JitAcc.ln2_bounds as [LA LB]. assert (LN1 : ln 1 = 0) by apply ln_1. pose proof ln_two_pi as TP.
  assert (L2 : 0 < ln 2 <= 1) by lra. split.
  - pose proof (C59_lognormal 1 _ c59_lib (f64_of_Z 0) (f64_of_Z 1) (f64_of_Z 2) c59_lib_ok ltac:(lra) N0 N1 N2) as K. rewrite V0, V1, V2 in K.
    rewrite Rabs_R0 in K. specialize (K ltac:(lra) ltac:(lra) ltac:(lra)). cbv zeta in K. rewrite (Rabs_pos_eq (ln 2)) in K by lra.
    replace ((ln 2 - 0) / 1) with (ln 2) in K by field. rewrite (Rabs_pos_eq (ln 2)) in K by lra. rewrite LN1, Rabs_R0 in K.
    set (d := 1 * eps * (ln 2 + small)) in *. replace (d / 1) with d in K by field.
    assert (D : 0 <= d <= 2 * eps). { unfold d. rewrite Rmult_1_l. split; [apply Rmult_le_pos; lra|]. rewrite (Rmult_comm 2). apply Rmult_le_compat_l; lra. }
    set (r := ln (normal_pdf 0 1 (ln 2))) in *.
    assert (R2 : Rabs r <= 2).
    { unfold r. rewrite BuilderProofs.ln_normal_pdf, LN1 by lra. replace (- (1 / 2) * (ln 2 - 0) ^ 2 / 1 ^ 2) with (- (1 / 2) * (ln 2 * ln 2)) by field.
      assert (0 <= ln 2 * ln 2 <= 1) by (split; [apply Rmult_le_pos; lra|replace 1 with (1 * 1) by ring; apply Rmult_le_compat; lra]). apply Rabs_le. lra. }
    assert (B4 : 1000 <= bpow radix2 400) by (apply Rle_trans with (bpow radix2 10); [change (bpow radix2 10) with 1024; lra|apply bpow_le; lia]).
    specialize (K ltac:(lra) ltac:(lra)). eapply close_more; [exact K|]. clear K. pose proof (Rabs_triang r (- ln 2)) as T. rewrite Rabs_Ropp, (Rabs_pos_eq (ln 2)) in T by lra.
    change (r + - ln 2) with (r - ln 2) in T. set (m := Rabs (r - ln 2)) in *. clearbody d m r. clear TP LA LB.
    assert (M0 : 0 <= d * (ln 2 + d) <= 2 * eps * 2) by (split; [apply Rmult_le_pos; lra|apply Rmult_le_compat; lra]).
    assert (M1 : 0 <= (ln 2 + d) * (ln 2 + d) <= 2 * 2) by (split; [apply Rmult_le_pos; lra|apply Rmult_le_compat; lra]).
    assert (M2 : 2 * (1 + 7) * eps * ((ln 2 + d) * (ln 2 + d) + 0 + 2) <= 2 * (1 + 7) * eps * 6) by (apply Rmult_le_compat_l; lra).
    unfold step.
    assert (P3 : / IZR (2 ^ 300) <= / 10 ^ 20). { apply Rinv_le_contravar; [lra|]. rewrite pow_IZR. apply IZR_le. vm_compute. discriminate. }
    set (e := d * (ln 2 + d) + 2 * (1 + 7) * eps * ((ln 2 + d) * (ln 2 + d) + 0 + 2)) in *.
    assert (E : 0 <= e <= 100 * eps). { unfold e. split; [|lra]. apply Rplus_le_le_0_compat; [lra|]. apply Rmult_le_pos; lra. } clearbody e.
    assert (Q : (m + (e + d)) / 2 ^ 53 <= 5 * eps).
    { unfold Rdiv. rewrite u_eps. assert ((m + (e + d)) * (eps / 2) <= 10 * (eps / 2)) by (apply Rmult_le_compat_r; lra). lra. }
    lra.
  - pose proof (proj2 (C59_logit 1 _ c59_lib (f64_of_Z (-30)) c59_lib_ok ltac:(lra) N3 ltac:(rewrite V3; apply Rabs_le; lra))) as K. rewrite V3 in K.
    eapply close_more; [exact K|]. rewrite (Rabs_left (-30)) by lra. lra.
Qed.
