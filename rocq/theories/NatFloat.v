(** Natural parameters in binary64 (C62). *)
From Coq Require Import ZArith Reals Bool String List Lia Lra.
From Coq Require Import Floats.SpecFloat.
From Flocq Require Import Core.
From Verif Require Import Num EggSpec LitFacts EggNum FloatFacts FloatErr JitAcc AccSpec AccProofs RoundSpec RoundProofs RelErr
  DensitySpec CoreModel CombModel ExpFamModel DistModel DistSpec DistFacts BuilderProofs DistProofs DistFloat SumFloat CombFloatSpec CombFloat CombFloat2 FamFloatSpec FamFloat FactFloat FamFloat2 FamFloat3 SimpFloat NatFloatSpec.
Import ListNotations.
Local Open Scope R_scope.

#[local] Instance Hprec64 : FLX.Prec_gt_0 53 := eq_refl _.

Lemma RN_mono x y : x <= y -> RN x <= RN y.
Proof. intros H. apply round_le; auto with typeclass_instances. Qed.
Lemma RN_num w : is_num w -> RN (val w) = val w.
Proof. intros [V _]. apply RN_val, V. Qed.
Lemma RN_0 : RN 0 = 0. Proof. unfold RN. apply round_0. auto with typeclass_instances. Qed.
Lemma opp_opp (w : f64) : SFopp (SFopp w) = w. Proof. destruct w; cbn; rewrite ?Bool.negb_involutive; reflexivity. Qed.

(** Square roots keep relative accuracy. *)
Lemma sqrt_exp t : sqrt (exp t) = exp (t / 2).
Proof.
  apply sqrt_lem_1; [left; apply exp_pos|left; apply exp_pos|]. rewrite <- exp_plus. f_equal. lra.
Qed.
Lemma rel_sqrt k r w : rel k r w -> 0 < r -> 0 <= k -> k * eps <= / 4 -> normal_range (sqrt r) -> rel (k / 2 + 1) (sqrt r) (f64_sqrt w).
Proof.
  intros R P K S NR. pose proof (rel_sign _ _ _ R P) as W. destruct R as (N & Z & A & B). destruct (sqrt_num w N ltac:(lra)) as [NS VS].
  pose proof (sqrt_lt_R0 r P) as SP. pose proof eps_pos as EP.
  assert (T : exp (- (k / 2 * eps)) <= sqrt (val w) / sqrt r <= exp (k / 2 * eps)).
  { rewrite <- sqrt_div_alt by exact P. replace (- (k / 2 * eps)) with (- (k * eps) / 2) by field. replace (k / 2 * eps) with (k * eps / 2) by field. rewrite <- !sqrt_exp. split; apply sqrt_le_1_alt; assumption. }
  destruct (rel_round (sqrt (val w)) (sqrt r) (k / 2) ltac:(lra) ltac:(lra) ltac:(nra) NR T) as [_ W'].
  split; [exact NS|]. split; [lra|]. rewrite VS. exact W'.
Qed.

(** Subtracting one swallows numbers below 2^-54. *)
Lemma swallowed a : 0 < a < bpow radix2 (-54) -> RN (a - 1) = - 1.
Proof.
  intros [A0 A1]. replace (a - 1) with (- (1 - a)) by ring. unfold RN. rewrite round_NE_opp. f_equal.
  change (bpow radix2 (-54)) with (/ 18014398509481984) in A1.
  unfold round, scaled_mantissa, F2R. cbn [Fnum Fexp].
  assert (M : (mag radix2 (1 - a) = 0 :> Z)%Z).
  { apply mag_unique_pos. change (bpow radix2 (0 - 1)) with (/ 2). change (bpow radix2 0) with 1. lra. }
  unfold cexp. rewrite M. change (FLT_exp (-1074) 53 0) with (-53)%Z. change (- (-53))%Z with 53%Z.
  assert (Z : ZnearestE ((1 - a) * bpow radix2 53) = (2 ^ 53)%Z).
  { apply Znearest_imp. change (bpow radix2 53) with 9007199254740992. change (IZR (2 ^ 53)) with 9007199254740992. apply Rabs_lt. lra. }
  rewrite Z. change (IZR (2 ^ 53)) with (bpow radix2 53). rewrite <- bpow_plus. reflexivity.
Qed.

Lemma eps_45 : 128 * eps = bpow radix2 (-45).
Proof.
  unfold eps. rewrite pow_IZR. change (IZR (2 ^ Z.of_nat 52)) with (bpow radix2 52). rewrite <- bpow_opp. change 128 with (bpow radix2 7). rewrite <- bpow_plus. reflexivity.
Qed.
Section Nat.
Context (c : R) (lg : R -> R) (L : libm) (LOK : libm_ok c lg L) (C0 : 0 <= c <= 1000000).
Notation F := (F64 L).

Lemma pos_false x : is_num x -> val x <= 0 -> @nltb F n0 x = false.
Proof. intros N P. change (SFltb (f64_of_Z 0) x = false). destruct zero_num as [N0 V0]. rewrite (SFltb_num _ _ N0 N), V0. apply Rlt_bool_false. exact P. Qed.
Lemma le_guard u v : is_num u -> is_num v -> val u <= val v -> @nleb F u v = true.
Proof. intros U V P. change (SFleb u v = true). rewrite (SFleb_num _ _ U V). apply Rle_bool_true. exact P. Qed.

(** Exponential. *)
Lemma exponential_nat rate d : @exponential_new F rate = Some d -> exponential_from_natural (to_natural (exponential_expfam d)) = Some d.
Proof.
  unfold exponential_new. destruct (nltb n0 rate) eqn:E; [|discriminate]. intros [= <-]. cbn [to_natural exponential_expfam expfam ef_natural exponential_from_natural e_rate].
  change (@nneg F (@nneg F rate)) with (SFopp (SFopp rate)). rewrite opp_opp. unfold exponential_new. rewrite E. reflexivity.
Qed.

(** Gamma, beta, chi-squared: the shape goes through minus and plus one. *)
Lemma shape_back a : is_num a -> bpow radix2 (-45) <= val a <= huge ->
  acc 2 (val a + 2) (val a) (f64_add (f64_sub a (f64_of_Z 1)) (f64_of_Z 1)) /\ 0 < val (f64_add (f64_sub a (f64_of_Z 1)) (f64_of_Z 1)).
Proof.
  intros N [A0 A1]. destruct one_num as [N1 V1]. sizes. pose proof (bpow_gt_0 radix2 (-45)) as P.
  assert (T : acc 1 (val a + 1) (val a - 1) (f64_sub a (f64_of_Z 1))).
  { apply acc_diff'; try assumption; rewrite ?V1; [reflexivity|apply Rabs_le; lra|rewrite !Rabs_pos_eq; lra]. }
  assert (T2 : acc 2 (val a + 2) (val a) (f64_add (f64_sub a (f64_of_Z 1)) (f64_of_Z 1))).
  { replace 2 with (1 + 1) at 1 by lra. replace (val a + 2) with (val a + 1 + 1) by ring. replace (val a) with (val a - 1 + 1) at 2 by ring.
    apply acc_add; ks; [exact T|]. apply (acc_k 0); [|lra]. apply (acc_is _ 1 1 N1 V1). rewrite Rabs_R1. lra. }
  split; [exact T2|]. destruct T2 as (_ & _ & E). pose proof (gam_up 2 ltac:(lra) ltac:(apply keps; lra)) as G. apply Rabs_le_inv in E.
  assert (gam 2 * (val a + 2) <= 4 * eps * (val a + 2)) by (apply Rmult_le_compat_r; lra).
  pose proof eps_45 as EV.
  assert (Q : eps * val a <= / 1000000 * val a) by (apply Rmult_le_compat_r; lra). lra.
Qed.
Lemma shape_zero a : is_num a -> 0 < val a < bpow radix2 (-54) ->
  is_num (f64_add (f64_sub a (f64_of_Z 1)) (f64_of_Z 1)) /\ val (f64_add (f64_sub a (f64_of_Z 1)) (f64_of_Z 1)) = 0.
Proof.
  intros N A. pose proof (swallowed _ A) as S. destruct one_num as [N1 V1].
  destruct (sub_num a (f64_of_Z 1) N N1) as [NS VS].
  { rewrite V1, S. apply Rle_lt_trans with (bpow radix2 0); [change (bpow radix2 0) with 1; apply Rabs_le; lra|apply bpow_lt; lia]. }
  rewrite V1, S in VS. assert (Z : val (f64_sub a (f64_of_Z 1)) + val (f64_of_Z 1) = 0) by (rewrite VS, V1; lra).
  destruct (add_num _ (f64_of_Z 1) NS N1) as [NA VA]; rewrite Z, RN_0 in *; [rewrite Rabs_R0; apply bpow_gt_0|]. auto.
Qed.
Lemma shape_lost a : is_num a -> 0 < val a < bpow radix2 (-54) -> @nltb F n0 (@nadd F (@nsub F a n1) n1) = false.
Proof. intros N A. destruct (shape_zero a N A) as [NZ VZ]. apply (pos_false _ NZ). lra. Qed.

Lemma gamma_nat a b : is_num a -> is_num b -> bpow radix2 (-45) <= val a <= huge -> 0 < val b ->
  exists a', gamma_from_natural (to_natural (gamma_expfam (@mkGamma F a b))) = Some (@mkGamma F a' b) /\ acc 2 (val a + 2) (val a) a'.
Proof.
  intros NA NB A B. destruct (shape_back a NA A) as [T P]. eexists. split; [|exact T].
  cbn [to_natural gamma_expfam expfam ef_natural gamma_from_natural g_shape g_rate]. change (@nneg F (@nneg F b)) with (SFopp (SFopp b)). rewrite opp_opp. unfold gamma_new.
  change (@nadd F (@nsub F a n1) n1) with (f64_add (f64_sub a (f64_of_Z 1)) (f64_of_Z 1)). rewrite (pos_guard L _ (proj1 T) P), (pos_guard L _ NB B). reflexivity.
Qed.
Lemma gamma_lost a b : is_num a -> 0 < val a < bpow radix2 (-54) -> gamma_from_natural (to_natural (gamma_expfam (@mkGamma F a b))) = None.
Proof.
  intros NA A. cbn [to_natural gamma_expfam expfam ef_natural gamma_from_natural g_shape g_rate]. unfold gamma_new. rewrite (shape_lost a NA A). reflexivity.
Qed.
Lemma beta_nat a b : is_num a -> is_num b -> bpow radix2 (-45) <= val a <= huge -> bpow radix2 (-45) <= val b <= huge ->
  exists a' b', beta_from_natural (to_natural (beta_expfam (@mkBeta F a b))) = Some (@mkBeta F a' b') /\ acc 2 (val a + 2) (val a) a' /\ acc 2 (val b + 2) (val b) b'.
Proof.
  intros NA NB A B. destruct (shape_back a NA A) as [T P]. destruct (shape_back b NB B) as [T' P']. eexists. eexists. split; [|split; [exact T|exact T']].
  cbn [to_natural beta_expfam expfam ef_natural beta_from_natural b_alpha b_beta]. unfold beta_new.
  change (@nadd F (@nsub F a n1) n1) with (f64_add (f64_sub a (f64_of_Z 1)) (f64_of_Z 1)). change (@nadd F (@nsub F b n1) n1) with (f64_add (f64_sub b (f64_of_Z 1)) (f64_of_Z 1)).
  rewrite (pos_guard L _ (proj1 T) P), (pos_guard L _ (proj1 T') P'). reflexivity.
Qed.
Lemma beta_lost a b : is_num a -> 0 < val a < bpow radix2 (-54) -> beta_from_natural (to_natural (beta_expfam (@mkBeta F a b))) = None.
Proof.
  intros NA A. cbn [to_natural beta_expfam expfam ef_natural beta_from_natural b_alpha b_beta]. unfold beta_new. rewrite (shape_lost a NA A). reflexivity.
Qed.
Lemma chi_nat k : is_num k -> bpow radix2 (-44) <= val k <= huge ->
  exists k', chi_from_natural (to_natural (chi_expfam (@mkChi F k))) = Some (@mkChi F k') /\ acc 3 (val k + 5) (val k) k'.
Proof.
  intros NK [K0 K1]. sizes. destruct two_num as [N2 V2]. pose proof (bpow_gt_0 radix2 (-45)) as P45.
  assert (E44 : bpow radix2 (-44) = 2 * bpow radix2 (-45)) by (change 2 with (bpow radix2 1); rewrite <- bpow_plus; reflexivity).
  destruct (half_exact k NK) as [NH VH]. { eapply Rle_trans; [|exact K0]. apply bpow_le. lia. }
  destruct (shape_back (f64_div k (f64_of_Z 2)) NH) as [T P]; [rewrite VH; lra|]. rewrite VH in T.
  assert (T2 : acc 3 (2 * (val k / 2 + 2) + small) (2 * (val k / 2)) (f64_mul (f64_of_Z 2) (f64_add (f64_sub (f64_div k (f64_of_Z 2)) (f64_of_Z 1)) (f64_of_Z 1)))).
  { replace 3 with (0 + 2 + 1) by lra. apply acc_mul; ks; [|exact T]. apply (acc_is _ 2 2 N2 V2). rewrite Rabs_pos_eq; lra. }
  set (h := f64_add _ _) in *.
  assert (P2 : 0 < val (f64_mul (f64_of_Z 2) h)).
  { destruct T as (NHH & _ & E). assert (B : Rabs (val h) <= 2 * (val k / 2 + 2)) by (apply (acc_size 2 _ (val k / 2)); [split; [exact NHH|split; [rewrite Rabs_pos_eq; lra|exact E]]|lra|apply keps; lra]).
    apply Rabs_le_inv in B. destruct (mul_num (f64_of_Z 2) h N2 NHH) as [_ VM]; [rewrite V2; apply big2; apply Rabs_le; lra|]. rewrite VM, V2.
    apply Rlt_le_trans with (val h); [exact P|]. apply Rle_trans with (RN (val h)); [right; symmetry; apply RN_num, NHH|apply RN_mono; lra]. }
  exists (f64_mul (f64_of_Z 2) h). split; [|eapply acc_more; [replace (val k) with (2 * (val k / 2)) by field; exact T2|lra|lra]].
  change (@chi_new F (f64_mul (f64_of_Z 2) h) = Some (@mkChi F (f64_mul (f64_of_Z 2) h))). unfold chi_new. rewrite (pos_guard L _ (proj1 T2) P2). reflexivity.
Qed.
Lemma chi_lost k : is_num k -> bpow radix2 (-1000) <= val k < bpow radix2 (-53) -> chi_from_natural (to_natural (chi_expfam (@mkChi F k))) = None.
Proof.
  intros NK [K0 K1]. sizes. pose proof (bpow_gt_0 radix2 (-1000)) as P.
  assert (E53 : bpow radix2 (-53) = 2 * bpow radix2 (-54)) by (change 2 with (bpow radix2 1); rewrite <- bpow_plus; reflexivity).
  destruct (half_exact k NK K0) as [NH VH]. destruct two_num as [N2 V2].
  destruct (shape_zero (f64_div k (f64_of_Z 2)) NH) as [NA VA]; [rewrite VH; lra|].
  change (@chi_new F (f64_mul (f64_of_Z 2) (f64_add (f64_sub (f64_div k (f64_of_Z 2)) (f64_of_Z 1)) (f64_of_Z 1))) = None).
  set (h := f64_add _ _) in *. clearbody h. unfold chi_new.
  destruct (mul_num (f64_of_Z 2) _ N2 NA) as [NM VM]; [rewrite VA, Rmult_0_r, RN_0, Rabs_R0; apply bpow_gt_0|]. rewrite VA, Rmult_0_r, RN_0 in VM.
  rewrite pos_false; [reflexivity|exact NM|lra].
Qed.

(** Normal. *)
Lemma normal_nat mu sd : is_num mu -> is_num sd -> moderate (val sd) -> at_most_moderate (val mu / val sd) ->
  exists mu' sd', normal_from_natural (to_natural (normal_expfam (@mkNormal F mu sd))) = Some (@mkNormal F mu' sd') /\
    acc 9 (Rabs (val mu) + bpow radix2 (-150)) (val mu) mu' /\ rel 5 (val sd) sd'.
Proof.
  intros NM NS MS BM. destruct (variance_parts c lg L LOK C0 sd NS MS) as (_ & R2 & _ & _). cbv zeta in R2. destruct (mod_bounds _ MS) as (S0 & S1 & S2).
  destruct powers as (Q1 & Q2 & Q3 & Q4 & Q5 & Q6 & Q7). fold P800 in S2. rewrite Q6 in S1. sizes. destruct two_num as [N2 V2]. destruct one_num as [N1 V1]. destruct mhalf_dec as [NG VG].
  unfold at_most_moderate in BM. fold P400 in BM. set (s := val sd) in *. set (m := val mu) in *.
  assert (S3 : 0 < s * s) by (apply Rmult_lt_0_compat; exact S0).
  assert (SL : 1000 * small <= / P800) by (apply (Rmult_le_reg_r P800); [lra|]; rewrite Rinv_l by lra; lra).
  set (i := / (s * s)) in *.
  assert (I1 : / P800 <= i <= P800).
  { unfold i. split; [apply Rinv_le_contravar; lra|]. rewrite <- (Rinv_inv P800). apply Rinv_le_contravar; [apply Rinv_0_lt_compat; lra|exact S1]. }
  assert (IP : 0 < / P800) by (apply Rinv_0_lt_compat; lra).
  set (inv := f64_div (f64_of_Z 1) (f64_mul sd sd)) in *.
  assert (R3 : rel 3 (- / 2 * i) (f64_mul (f64_dec (-5) 10) inv)).
  { replace 3 with (0 + 2 + 1) by lra. apply rel_mul; ks; [apply rel_is; [exact NG|exact VG|lra]|exact R2|]. unfold normal_range. rewrite Rabs_mult, Rabs_Ropp, (Rabs_pos_eq (/ 2)), (Rabs_pos_eq i) by lra. lra. }
  assert (R4 : rel 4 (- i) (f64_mul (f64_of_Z 2) (f64_mul (f64_dec (-5) 10) inv))).
  { replace 4 with (0 + 3 + 1) by lra. replace (- i) with (2 * (- / 2 * i)) by field. apply rel_mul; ks; [apply rel_is; [exact N2|exact V2|lra]|exact R3|].
    replace (2 * (- / 2 * i)) with (- i) by field. unfold normal_range. rewrite Rabs_Ropp, Rabs_pos_eq by lra. lra. }
  assert (R5 : rel 5 (s * s) (SFopp (f64_div (f64_of_Z 1) (f64_mul (f64_of_Z 2) (f64_mul (f64_dec (-5) 10) inv))))).
  { replace (s * s) with (- (1 / - i)) by (unfold i; field; lra). apply rel_neg. replace 5 with (0 + 4 + 1) by lra. apply rel_div; ks; [apply rel_is; [exact N1|exact V1|lra]|exact R4|].
    replace (1 / - i) with (- (s * s)) by (unfold i; field; lra). unfold normal_range. rewrite Rabs_Ropp, Rabs_pos_eq by lra. lra. }
  set (v := SFopp _) in *.
  assert (SQ : sqrt (s * s) = s) by (apply sqrt_square; lra).
  assert (R6 : rel 5 s (f64_sqrt v)).
  { rewrite <- SQ. apply rel_more with (5 / 2 + 1); [|lra]. apply rel_sqrt; ks; [exact R5|]. rewrite SQ. unfold normal_range. rewrite Rabs_pos_eq by lra.
    destruct MS as [M1 M2]. fold P400 in M2. rewrite Q5 in M1. split; [|lra]. eapply Rle_trans; [|exact M1]. apply (Rmult_le_reg_r P400); [lra|]. rewrite Rinv_l by lra.
    assert (2 * small * P400 <= 2 * small * P800) by (apply Rmult_le_compat_l; lra). lra. }
  assert (SI : / s <= P400).
  { rewrite <- (Rinv_inv P400). apply Rinv_le_contravar; [apply Rinv_0_lt_compat; lra|]. rewrite <- Q5. apply MS. }
  assert (MI : Rabs m * i <= P800).
  { replace (Rabs m * i) with (Rabs (m / s) * / s) by (unfold i; rewrite abs_div, (Rabs_pos_eq s) by lra; field; lra).
    rewrite <- Q7. apply Rmult_le_compat; try lra; [apply Rabs_pos|left; apply Rinv_0_lt_compat; lra]. }
  assert (PP : small * P800 + small <= bpow radix2 (-150)).
  { unfold P800, small. rewrite <- bpow_plus. replace (bpow radix2 (-150)) with (bpow radix2 (-151) + bpow radix2 (-151)).
    - apply Rplus_le_compat; apply bpow_le; lia.
    - replace (bpow radix2 (-150)) with (2 * bpow radix2 (-151)); [lra|]. change 2 with (bpow radix2 1). rewrite <- bpow_plus. reflexivity. }
  assert (A1 : acc 3 (Rabs m * i + small) (m * i) (f64_mul mu inv)).
  { replace 3 with (0 + 2 + 1) by lra. apply acc_mul; ks; [apply acc_is; [exact NM|reflexivity|apply Rle_refl]|].
    rewrite <- (Rabs_pos_eq i) at 1 by lra. apply rel_acc; [lra|exact R2]. }
  assert (A2 : acc 5 (s * s) (s * s) v) by (rewrite <- (Rabs_pos_eq (s * s)) at 1 by lra; apply rel_acc; [lra|exact R5]).
  assert (MS2 : (Rabs m * i + small) * (s * s) = Rabs m + small * (s * s)) by (unfold i; field; lra).
  assert (SS : small * (s * s) <= small * P800) by (apply Rmult_le_compat_l; lra).
  assert (MB : Rabs m <= P800).
  { replace (Rabs m) with (Rabs (m / s) * s) by (rewrite abs_div, (Rabs_pos_eq s) by lra; field; lra). rewrite <- Q7.
    apply Rmult_le_compat; try lra; [apply Rabs_pos|apply MS]. }
  assert (A3 : acc 9 (Rabs m + bpow radix2 (-150)) m (f64_mul (f64_mul mu inv) v)).
  { apply acc_more with 9 ((Rabs m * i + small) * (s * s) + small); [|lra|rewrite MS2; lra].
    replace 9 with (3 + 5 + 1) by lra. replace m with (m * i * (s * s)) at 2 by (unfold i; field; lra). apply acc_mul; [exact A1|exact A2|lra|lra|apply keps; lra|rewrite MS2; lra]. }
  exists (f64_mul (f64_mul mu inv) v), (f64_sqrt v). split; [|split; [exact A3|exact R6]].
  change (@normal_new F (f64_mul (f64_mul mu inv) v) (f64_sqrt v) = Some (@mkNormal F (f64_mul (f64_mul mu inv) v) (f64_sqrt v))). unfold normal_new.
  rewrite (pos_guard L _ (proj1 R6) (rel_sign _ _ _ R6 S0)). reflexivity.
Qed.

(** Bernoulli. *)
Lemma bernoulli_total e : is_num (l_exp L e) -> 0 <= val (l_exp L e) <= bpow radix2 1000 -> exists d, @bernoulli_from_natural F [e] = Some d /\ be_prob d = f64_div (l_exp L e) (f64_add (f64_of_Z 1) (l_exp L e)).
Proof.
  intros N [P B]. destruct one_num as [N1 V1]. destruct zero_num as [N0 V0]. sizes. fold big in B. set (w := l_exp L e) in *.
  assert (BG : 1 <= big) by lra.
  destruct (add_num (f64_of_Z 1) w N1 N) as [NS VS]; [apply big2; rewrite V1, Rabs_pos_eq; lra|]. rewrite V1 in VS.
  assert (GE : val w <= val (f64_add (f64_of_Z 1) w)) by (rewrite VS; apply Rle_trans with (RN (val w)); [right; symmetry; apply RN_num, N|apply RN_mono; lra]).
  assert (G1 : 1 <= val (f64_add (f64_of_Z 1) w)).
  { rewrite VS. apply Rle_trans with (RN (val (f64_of_Z 1))); [right; rewrite RN_num by exact N1; rewrite V1; reflexivity|apply RN_mono; rewrite V1; lra]. }
  set (t := f64_add (f64_of_Z 1) w) in *.
  assert (Q : 0 <= val w / val t <= 1).
  { split; [apply Rmult_le_pos; [exact P|left; apply Rinv_0_lt_compat; lra]|]. apply (Rmult_le_reg_r (val t)); [lra|]. unfold Rdiv. rewrite Rmult_assoc, Rinv_l by lra. lra. }
  destruct (div_num w t N NS ltac:(lra)) as [ND VD]; [apply big2; rewrite Rabs_pos_eq; lra|].
  assert (D0 : 0 <= val (f64_div w t)) by (rewrite VD, <- RN_0; apply RN_mono; lra).
  assert (D1 : val (f64_div w t) <= 1).
  { rewrite VD. apply Rle_trans with (RN (val (f64_of_Z 1))); [apply RN_mono; rewrite V1; lra|right; rewrite RN_num by exact N1; exact V1]. }
  exists (@mkBernoulli F (f64_div w t)). split; [|reflexivity].
  change (@bernoulli_new F (f64_div w t) = Some (@mkBernoulli F (f64_div w t))). unfold bernoulli_new.
  assert (G3 : @nleb F n0 (f64_div w t) = true) by (apply (le_guard (f64_of_Z 0) (f64_div w t) N0 ND); lra).
  assert (G4 : @nleb F (f64_div w t) n1 = true) by (apply (le_guard (f64_div w t) (f64_of_Z 1) ND N1); lra).
  rewrite G3, G4. reflexivity.
Qed.
Lemma bernoulli_logistic e : is_num e -> Rabs (val e) <= 600 ->
  exists d, @bernoulli_from_natural F [e] = Some d /\ rel (8 * c + 2) (logistic (val e)) (be_prob d).
Proof.
  intros N B. destruct (exp_rel c lg L LOK C0 e N B) as [RE [LO UP]]. pose proof (exp_pos (val e)) as EP. pose proof (rel_sign _ _ _ RE EP) as P.
  assert (U : val (l_exp L e) <= bpow radix2 1000).
  { apply rel_acc in RE; [|lra]. apply acc_size in RE; [|lra|apply keps; lra]. rewrite !Rabs_pos_eq in RE by lra. eapply Rle_trans; [exact RE|].
    replace (bpow radix2 1000) with (bpow radix2 100 * bpow radix2 900) by (rewrite <- bpow_plus; reflexivity). pose proof (bpow_gt_0 radix2 900).
    apply Rmult_le_compat; try lra. change 2 with (bpow radix2 1). apply bpow_le. lia. }
  destruct (bernoulli_total e (proj1 RE) (conj (Rlt_le _ _ P) U)) as (d & D & E). exists d. split; [exact D|]. rewrite E. apply (logit_inverse c lg L LOK C0); assumption.
Qed.
Lemma bernoulli_nat p : is_num p -> bpow radix2 (-800) <= val p -> val p < 1 ->
  exists p', bernoulli_from_natural (to_natural (bernoulli_expfam (@mkBernoulli F p))) = Some (@mkBernoulli F p') /\ rel (prob_units c (val p)) (val p) p'.
Proof.
  intros N A B. destruct (logit_parts c lg L LOK C0 p N A B) as (A1 & R1 & R2 & _ & LS & KE & _). cbv zeta in *. pose proof (below_one p N B) as B'. sizes.
  pose proof (bpow_gt_0 radix2 (-800)). pose proof (bpow_gt_0 radix2 (-53)). set (lo := @log_odds F p) in *. set (P := val p) in *.
  destruct (logit_range P (conj A B')) as (_ & [O1 O2] & _).
  assert (U : val (l_exp L lo) <= bpow radix2 1000).
  { pose proof R1 as R1'. apply rel_acc in R1'; [|lra]. apply acc_size in R1'; [|lra|apply keps; lra]. pose proof (rel_sign _ _ _ R1 O1). rewrite !Rabs_pos_eq in R1' by lra. eapply Rle_trans; [exact R1'|].
    apply Rle_trans with (2 * bpow radix2 53); [lra|]. change 2 with (bpow radix2 1). rewrite <- bpow_plus. apply bpow_le. lia. }
  destruct (bernoulli_total lo (proj1 R1) (conj (Rlt_le _ _ (rel_sign _ _ _ R1 O1)) U)) as (d & D & E). destruct d as [p']. cbn [be_prob] in E. exists p'. split; [exact D|].
  rewrite E. unfold prob_units. replace (2 * odds_units c P + 2) with (odds_units c P + (odds_units c P + 1) + 1) by ring.
  assert (PE : P / (1 - P) / / (1 - P) = P) by (field; lra). enough (G : rel (odds_units c P + (odds_units c P + 1) + 1) (P / (1 - P) / / (1 - P)) (f64_div (l_exp L lo) (f64_add (f64_of_Z 1) (l_exp L lo)))) by (rewrite PE in G; exact G).
  apply rel_div; ks; [exact R1|exact R2|]. rewrite PE. unfold normal_range. rewrite Rabs_pos_eq by lra. split; [|lra].
  eapply Rle_trans; [|exact A]. unfold small. change 2 with (bpow radix2 1). rewrite <- bpow_plus. apply bpow_le. lia.
Qed.
Lemma bernoulli_overflow e : l_exp L e = S754_infinity false -> @bernoulli_from_natural F [e] = None.
Proof.
  intros E. change (@bernoulli_new F (f64_div (l_exp L e) (f64_add (f64_of_Z 1) (l_exp L e))) = None). rewrite E.
  replace (f64_div (S754_infinity false) (f64_add (f64_of_Z 1) (S754_infinity false))) with (S754_nan : f64) by (vm_compute; reflexivity). reflexivity.
Qed.

(** Poisson. *)
Lemma poisson_exp e : is_num e -> Rabs (val e) <= 600 -> exists d, @poisson_from_natural F [e] = Some d /\ rel (4 * c) (exp (val e)) (p_rate d).
Proof.
  intros N B. destruct (exp_rel c lg L LOK C0 e N B) as [RE _]. exists (@mkPoisson F (l_exp L e)). split; [|exact RE].
  change (@poisson_new F (l_exp L e) = Some (@mkPoisson F (l_exp L e))). unfold poisson_new. rewrite (pos_guard L _ (proj1 RE) (rel_sign _ _ _ RE (exp_pos _))). reflexivity.
Qed.
Lemma poisson_nat r : is_num r -> bpow radix2 (-800) <= val r <= bpow radix2 800 ->
  exists r', poisson_from_natural (to_natural (poisson_expfam (@mkPoisson F r))) = Some (@mkPoisson F r') /\ rel (rate_units c (val r)) (val r) r'.
Proof.
  intros N [A B]. pose proof (bpow_gt_0 radix2 (-800)). sizes. destruct ln2_bounds as [L1 L2].
  assert (LB : Rabs (ln (val r)) <= 560).
  { apply Rabs_le. split; [apply Rle_trans with (ln (bpow radix2 (-800))); [rewrite ln_bpow; lra|apply ln_le; lra]|apply Rle_trans with (ln (bpow radix2 800)); [apply ln_le; lra|rewrite ln_bpow; lra]]. }
  pose proof (acc_lnx c lg L LOK r N ltac:(lra)) as T. pose proof (Rabs_pos (ln (val r))).
  assert (T' : acc c (Rabs (ln (val r)) + 1) (ln (val r)) (l_ln L r)) by (eapply acc_more; [exact T|lra|lra]).
  assert (CM : c * (Rabs (ln (val r)) + 1) <= 1000000 * 561) by (apply Rmult_le_compat; lra).
  pose proof (exp_acc c lg L LOK C0 _ _ _ _ T' ltac:(lra) ltac:(lra) ltac:(nra) ltac:(apply keps; lra)) as RE. rewrite exp_ln in RE by lra.
  exists (l_exp L (l_ln L r)). split; [|exact RE].
  change (@poisson_new F (l_exp L (l_ln L r)) = Some (@mkPoisson F (l_exp L (l_ln L r)))). unfold poisson_new. rewrite (pos_guard L _ (proj1 RE) (rel_sign _ _ _ RE ltac:(lra))). reflexivity.
Qed.

(** Geometric. *)
Lemma geometric_accepts w : is_num w -> 0 <= val w < 1 -> 0 < val (f64_sub (f64_of_Z 1) w) -> @geometric_new F (f64_sub (f64_of_Z 1) w) = Some (@mkGeometric F (f64_sub (f64_of_Z 1) w)).
Proof.
  intros N W P. destruct one_num as [N1 V1]. sizes. destruct (sub_num (f64_of_Z 1) w N1 N) as [ND VD]; [apply big2; rewrite V1, Rabs_pos_eq; lra|].
  assert (D1 : val (f64_sub (f64_of_Z 1) w) <= 1).
  { rewrite VD. apply Rle_trans with (RN (val (f64_of_Z 1))); [apply RN_mono; lra|right; rewrite RN_num by exact N1; exact V1]. }
  assert (G4 : @nleb F (f64_sub (f64_of_Z 1) w) n1 = true) by (apply (le_guard (f64_sub (f64_of_Z 1) w) (f64_of_Z 1) ND N1); lra).
  unfold geometric_new. rewrite (pos_guard L _ ND P), G4. reflexivity.
Qed.
Lemma geometric_nat p : is_num p -> val p < 1 -> 4 * fail_units c (val p) * eps < val p ->
  exists p', geometric_from_natural (to_natural (geometric_expfam (@mkGeometric F p))) = Some (@mkGeometric F p') /\ acc (fail_units c (val p)) 2 (val p) p'.
Proof.
  intros N B S. destruct one_num as [N1 V1]. sizes. pose proof (below_one p N B) as B'. pose proof (Rabs_pos (ln (1 - val p))) as LP.
  assert (F0 : 0 <= fail_units c (val p)).
  { unfold fail_units. assert (0 <= (c + 2) * (Rabs (ln (1 - val p)) + 1)) by (apply Rmult_le_pos; lra). lra. }
  assert (P0 : 0 < val p) by (eapply Rle_lt_trans; [|exact S]; apply Rmult_le_pos; lra).
  set (P := val p) in *. destruct ln2_bounds as [L1 L2].
  assert (LB : Rabs (ln (1 - P)) <= 40).
  { pose proof (bpow_gt_0 radix2 (-53)). apply Rabs_le. split; [apply Rle_trans with (ln (bpow radix2 (-53))); [rewrite ln_bpow; lra|apply ln_le; lra]|]. apply Rle_trans with 0; [|lra]. rewrite <- ln_1. apply ln_le; lra. }
  pose proof (acc_ln_one_minus c lg L LOK C0 p N (conj P0 B)) as T. fold P in T.
  assert (CM : (c + 2) * (Rabs (ln (1 - P)) + 1) <= 1000002 * 41) by (apply Rmult_le_compat; lra).
  pose proof (exp_acc c lg L LOK C0 _ _ _ _ T ltac:(lra) ltac:(lra) ltac:(nra) ltac:(apply keps; lra)) as RE. rewrite exp_ln in RE by lra.
  set (w := l_exp L _) in *. pose proof (rel_sign _ _ _ RE ltac:(lra)) as W0. set (K := 4 * c + 2 * (c + 2) * (Rabs (ln (1 - P)) + 1)) in *.
  assert (FK : fail_units c P = K + 1) by reflexivity. assert (K0 : 0 <= K <= 100000000) by (unfold K; split; [|lra]; assert (0 <= (c + 2) * (Rabs (ln (1 - P)) + 1)) by (apply Rmult_le_pos; lra); lra).
  assert (AW : acc K 1 (1 - P) w).
  { eapply acc_more; [apply rel_acc; [|exact RE]; lra|lra|rewrite Rabs_pos_eq; lra]. }
  assert (AD : acc (K + 1) 2 P (f64_sub (f64_of_Z 1) w)).
  { replace 2 with (1 + 1) by lra. replace P with (1 - (1 - P)) by ring. apply acc_sub; ks; [|exact AW]. apply (acc_k 0); [|lra]. apply (acc_is _ 1 1 N1 V1). rewrite Rabs_R1. lra. }
  rewrite FK in *. pose proof (gam_up (K + 1) ltac:(lra) ltac:(apply keps; lra)) as G.
  assert (DP : 0 < val (f64_sub (f64_of_Z 1) w)) by (destruct AD as (_ & _ & E); apply Rabs_le_inv in E; lra).
  assert (W1 : val w < 1).
  { destruct (sub_num (f64_of_Z 1) w N1 (proj1 RE)) as [_ VD].
    - apply big2. rewrite V1. apply acc_size in AW; [|lra|apply keps; lra]. apply Rabs_le_inv in AW. apply Rabs_le. lra.
    - destruct (Rlt_le_dec (val w) 1) as [H9|H9]; [exact H9|exfalso]. rewrite VD, V1 in DP. assert (RN (1 - val w) <= 0) by (rewrite <- RN_0; apply RN_mono; lra). lra. }
  exists (f64_sub (f64_of_Z 1) w). split; [|exact AD].
  change (@geometric_new F (f64_sub (f64_of_Z 1) w) = Some (@mkGeometric F (f64_sub (f64_of_Z 1) w))). apply geometric_accepts; [exact (proj1 RE)|lra|exact DP].
Qed.
(** A probability too small for 1 - p to differ from one. *)
Lemma geometric_lost p : is_num p -> 0 < val p < bpow radix2 (-54) -> l_exp L (l_ln L (f64_of_Z 1)) = f64_of_Z 1 ->
  geometric_from_natural (to_natural (geometric_expfam (@mkGeometric F p))) = None.
Proof.
  intros N A E. destruct one_num as [N1 V1].
  assert (Q : f64_sub (f64_of_Z 1) p = f64_of_Z 1).
  { sizes. pose proof (bpow_gt_0 radix2 (-54)). assert (A1 : bpow radix2 (-54) <= 1) by (change 1 with (bpow radix2 0); apply bpow_le; lia).
    destruct (sub_num (f64_of_Z 1) p N1 N) as [ND VD]; [apply big2; rewrite V1, Rabs_pos_eq; lra|]. rewrite V1 in VD.
    assert (VE : RN (1 - val p) = 1) by (replace (1 - val p) with (- (val p - 1)) by ring; pose proof (swallowed (val p) A) as SW; unfold RN in *; rewrite round_NE_opp, SW; lra).
    destruct (val_cases (f64_sub (f64_of_Z 1) p) (f64_of_Z 1) ND N1) as [-> | [_ Z]]; [congruence|reflexivity|lra]. }
  change (@geometric_new F (f64_sub (f64_of_Z 1) (l_exp L (l_ln L (f64_sub (f64_of_Z 1) p)))) = None). rewrite Q, E.
  assert (Z : f64_sub (f64_of_Z 1) (f64_of_Z 1) = S754_zero false) by (vm_compute; reflexivity). rewrite Z. reflexivity.
Qed.

(** Categorical: the check of the constructor is that of a mixture. *)
Lemma cat_of_mixture (ps : list f64) : ps <> [] -> Forall (fun w => is_num w /\ 0 <= val w) ps ->
  (forall cs : list (Measure F nat), length cs = length ps -> exists m, mixture_new cs ps = Some m) -> @categorical_new F ps = Some (@mkCategorical F ps).
Proof.
  intros NE W H. destruct zero_num as [N0 V0].
  destruct (H (repeat (mkMeasure primitive primitive) (length ps)) (repeat_length _ _)) as [m M]. unfold mixture_new in M. rewrite repeat_length, Nat.eqb_refl in M.
  assert (G : forallb (fun p => @nleb F n0 p) ps = true).
  { apply forallb_forall. intros p I. rewrite Forall_forall in W. destruct (W p I) as [NP P]. apply (le_guard (f64_of_Z 0) p N0 NP). lra. }
  unfold categorical_new. destruct ps as [|p ps]; [congruence|]. rewrite G. cbn zeta in *. destruct (nltb _ tolerance); [reflexivity|discriminate].
Qed.
Lemma cat_accepts (ps : list f64) : ps <> [] -> INR (length ps) <= 10000 -> Forall (fun w => is_num w /\ 0 <= val w) ps ->
  Rabs (Rsum (map val ps) - 1) <= 9 / 10 ^ 11 -> @categorical_new F ps = Some (@mkCategorical F ps).
Proof. intros NE N W S. apply cat_of_mixture; try assumption. intros cs E. eexists. apply (new_accepts L cs ps E N W S). Qed.
Lemma cat_rejects (ps : list f64) : INR (length ps) <= 10000 -> Rsum (map val ps) <= huge / 2 -> Forall (fun w => is_num w /\ 0 <= val w) ps ->
  11 / 10 ^ 11 <= Rabs (Rsum (map val ps) - 1) -> @categorical_new F ps = None.
Proof.
  intros N B W S. pose proof (new_rejects L (repeat (mkMeasure (N := F) (T := nat) primitive primitive) (length ps)) ps N B W S) as M.
  unfold mixture_new in M. rewrite repeat_length, Nat.eqb_refl in M. unfold categorical_new. destruct ps as [|p ps]; [reflexivity|]. cbn zeta in *. destruct (forallb _ _); [|reflexivity].
  destruct (nltb _ tolerance); [discriminate|reflexivity].
Qed.
Lemma cat_uniform k : (1 <= k)%nat -> INR k <= 200000 ->
  exists w, @categorical_uniform F k = Some (@mkCategorical F (repeat w k)) /\ rel 1 (/ INR k) w.
Proof.
  intros K B. set (cs := repeat (mkMeasure (N := F) (T := nat) primitive primitive) k).
  assert (NE : cs <> []) by (unfold cs; destruct k; [lia|discriminate]). assert (LE : length cs = k) by apply repeat_length.
  destruct (uniform_accepts L cs NE ltac:(rewrite LE; exact B)) as (w & M & R). rewrite LE in *. exists w. split; [|exact R].
  assert (P : 0 < / INR k) by (apply Rinv_0_lt_compat, lt_0_INR; lia). pose proof (rel_sign _ _ _ R P) as W.
  unfold categorical_uniform. rewrite (proj2 (Nat.ltb_lt 0 k)) by lia. unfold mixture_uniform in M. rewrite LE in M.
  assert (EW : @ndiv F n1 (nofn k) = w).
  { unfold mixture_new in M. rewrite LE, repeat_length, Nat.eqb_refl in M. cbn zeta in M. destruct (nltb _ tolerance); [|discriminate]. injection M as M. destruct k; [lia|]. cbn [repeat] in M. injection M as M _. exact M. }
  rewrite EW in *. apply cat_of_mixture; [destruct k; [lia|discriminate]|apply Forall_forall; intros p I; apply repeat_spec in I; subst p; split; [exact (proj1 R)|lra]|].
  intros cs' E. rewrite repeat_length in E. unfold mixture_new in *. rewrite repeat_length in *. rewrite LE, Nat.eqb_refl in M. rewrite E, Nat.eqb_refl. cbn zeta in *. destruct (nltb _ tolerance); [eexists; reflexivity|discriminate].
Qed.

Lemma share w z : is_num w -> is_num z -> 0 <= val w -> / 2 <= val z -> val w <= 2 * val z ->
  is_num (f64_div w z) /\ 0 <= val (f64_div w z) /\ Rabs (val (f64_div w z) - val w / val z) <= eps * (val w / val z) + / IZR (2 ^ 300).
Proof.
  intros NW NZ W Z B. sizes. pose proof eps_pos.
  assert (Q : 0 <= val w / val z <= 2).
  { split; [apply Rmult_le_pos; [exact W|left; apply Rinv_0_lt_compat; lra]|]. apply (Rmult_le_reg_r (val z)); [lra|]. unfold Rdiv. rewrite Rmult_assoc, Rinv_l by lra. lra. }
  destruct (div_num w z NW NZ ltac:(lra)) as [ND VD]; [apply big2; rewrite Rabs_pos_eq; lra|]. split; [exact ND|]. rewrite VD. split; [rewrite <- RN_0; apply RN_mono; lra|].
  eapply Rle_trans; [apply RN_abs|]. rewrite (Rabs_pos_eq (val w / val z)) by lra. apply Rplus_le_compat_r. unfold Rdiv at 1. rewrite Rmult_comm. apply Rmult_le_compat_r; [lra|].
  unfold eps. apply Rinv_le_contravar; [apply pow_lt; lra|]. apply Rle_pow; [lra|lia].
Qed.
Lemma softmax_accepts (ws : list f64) : Forall (fun w => is_num w /\ 0 <= val w) ws -> INR (length ws) <= 9999 -> Rsum (map val ws) <= huge / 2 ->
  let z := f64_add (f64_of_Z 1) (fold_left (@nadd F) ws n0) in
  let ps := map (fun e => f64_div e z) ws ++ [f64_div (f64_of_Z 1) z] in @categorical_new F ps = Some (@mkCategorical F ps).
Proof.
  intros W N B z ps. sizes. destruct one_num as [N1 V1]. pose proof eps_value as EV. pose proof eps_pos as EP.
  assert (S0 : 0 <= Rsum (map val ws)) by (apply Rsum_pos; rewrite Forall_map; eapply Forall_impl; [|exact W]; intros a [_ Q]; exact Q).
  set (S := Rsum (map val ws)) in *. pose proof (weights_sum L ws W ltac:(lra) B) as [NF EF]. fold S in EF. set (f := fold_left (@nadd F) ws n0) in *. apply Rabs_le_inv in EF.
  destruct (add_num (f64_of_Z 1) f N1 NF) as [NZ VZ]; [apply big2; rewrite V1, Rabs_pos_eq; lra|]. fold z in NZ, VZ. rewrite V1 in VZ.
  destruct (RN_plus (f64_of_Z 1) f N1 NF) as (e & Ee & RE). rewrite V1 in RE. rewrite RE in VZ. apply Rabs_le_inv in Ee.
  assert (P53 : / 2 ^ 53 <= 1 / 10 ^ 15) by lra.
  assert (ZS : (1 + S) * (1 - 6 / 10 ^ 12) <= val z <= (1 + S) * (1 + 6 / 10 ^ 12)).
  { rewrite VZ. split.
    - apply Rle_trans with ((1 + S) * (1 - 46 / 10 ^ 13) * (1 - 1 / 10 ^ 15)); [rewrite Rmult_assoc; apply Rmult_le_compat_l; lra|]. apply Rmult_le_compat; lra.
    - apply Rle_trans with ((1 + S) * (1 + 46 / 10 ^ 13) * (1 + 1 / 10 ^ 15)); [|rewrite Rmult_assoc; apply Rmult_le_compat_l; lra]. apply Rmult_le_compat; lra. }
  assert (Z1 : / 2 <= val z) by lra.
  assert (T : Rabs ((1 + S) / val z - 1) <= 7 / 10 ^ 12).
  { replace ((1 + S) / val z - 1) with ((1 + S - val z) / val z) by (field; lra). unfold Rdiv. rewrite Rabs_mult, (Rabs_pos_eq (/ val z)) by (left; apply Rinv_0_lt_compat; lra).
    apply (Rmult_le_reg_r (val z)); [lra|]. rewrite Rmult_assoc, Rinv_l, Rmult_1_r by lra. apply Rabs_le. lra. }
  assert (SH : forall w, In w ws -> is_num (f64_div w z) /\ 0 <= val (f64_div w z) /\ Rabs (val (f64_div w z) - val w / val z) <= eps * (val w / val z) + / IZR (2 ^ 300)).
  { intros w I. rewrite Forall_forall in W. destruct (W w I) as [NW W0]. apply share; try assumption.
    assert (WS : val w <= S).
    { unfold S. clear -I W. induction ws as [|a ws IH]; [destruct I|]. cbn [map]. rewrite Rsum_cons.
      assert (0 <= Rsum (map val ws)) by (apply Rsum_pos; rewrite Forall_map; apply Forall_forall; intros b J; apply (W b); right; exact J). destruct (W a (or_introl eq_refl)) as [_ A].
      destruct I as [-> |I]; [lra|]. specialize (IH (fun b J => W b (or_intror J)) I). lra. }
    lra. }
  destruct (share (f64_of_Z 1) z N1 NZ ltac:(lra) Z1 ltac:(lra)) as (ND & D0 & DE). rewrite V1 in DE.
  assert (SUM : Rabs (Rsum (map val (map (fun e => f64_div e z) ws)) - S / val z) <= eps * (S / val z) + INR (length ws) * / IZR (2 ^ 300)).
  { unfold S. clear -SH Z1. clearbody z. induction ws as [|a ws IH]; [cbn; unfold Rdiv; rewrite !Rmult_0_l, Rminus_0_r, Rabs_R0, Rmult_0_r; lra|].
    cbn [map length]. rewrite !Rsum_cons, S_INR. specialize (IH (fun w I => SH w (or_intror I))). destruct (SH a (or_introl eq_refl)) as (_ & _ & A).
    set (x := Rsum (map val (map (fun e : spec_float => f64_div e z) ws))) in *. set (y := Rsum (map val ws)) in *.
    replace (val (f64_div a z) + x - (val a + y) / val z) with ((val (f64_div a z) - val a / val z) + (x - y / val z)) by (field; lra).
    eapply Rle_trans; [apply Rabs_triang|]. replace ((val a + y) / val z) with (val a / val z + y / val z) by (field; lra). lra. }
  assert (P300 : / IZR (2 ^ 300) <= 1 / 10 ^ 20).
  { apply Rle_trans with (/ IZR (2 ^ 100)); [apply Rinv_le_contravar; [apply IZR_lt; reflexivity|apply IZR_le; discriminate]|]. change (IZR (2 ^ 100)) with 1267650600228229401496703205376. lra. }
  assert (NP : INR (length ws) * / IZR (2 ^ 300) <= 9999 * (1 / 10 ^ 20)) by (apply Rmult_le_compat; [apply pos_INR|left; apply Rinv_0_lt_compat, IZR_lt; reflexivity|lra|lra]).
  assert (QD : (1 + S) / val z = 1 / val z + S / val z) by (field; lra).
  assert (Q1 : 0 <= 1 / val z) by (apply Rmult_le_pos; [lra|left; apply Rinv_0_lt_compat; lra]). assert (Q2 : 0 <= S / val z) by (apply Rmult_le_pos; [lra|left; apply Rinv_0_lt_compat; lra]).
  rewrite QD in T. apply Rabs_le_inv in T, SUM, DE.
  assert (M1 : eps * (S / val z) <= 23 / 10 ^ 17 * 2) by (apply Rmult_le_compat; lra). assert (M2 : eps * (1 / val z) <= 23 / 10 ^ 17 * 2) by (apply Rmult_le_compat; lra).
  apply cat_accepts.
  - unfold ps. intros X. apply app_eq_nil in X. destruct X; discriminate.
  - unfold ps. rewrite app_length, map_length, plus_INR. change (INR (length [f64_div (f64_of_Z 1) z])) with 1. change (INR (@length f64 ws) <= 9999) in N. change (INR (@length f64 ws) + 1 <= 10000). lra.
  - unfold ps. apply Forall_app. split; [|constructor; [split; assumption|constructor]]. rewrite Forall_map. apply Forall_forall. intros w I. destruct (SH w I) as (A & A' & _). split; assumption.
  - unfold ps. rewrite map_app, Rsum_app. cbn [map]. rewrite Rsum_cons. change (Rsum []) with 0. unfold f64 in *. clear -SUM DE T NP P300 M1 M2 Q1 Q2. apply Rabs_le. lra.
Qed.

Lemma softmax_rel {A} (l : list A) (r : A -> R) (w : A -> f64) K : 0 <= K <= 600000000 -> INR (length l) <= 9999 ->
  Forall (fun a => rel K (r a) (w a) /\ bpow radix2 (-440) <= r a <= bpow radix2 440) l ->
  let t := 1 + Rsum (map r l) in
  let z := f64_add (f64_of_Z 1) (fold_left (@nadd F) (map w l) n0) in
  let ps := map (fun e => f64_div e z) (map w l) ++ [f64_div (f64_of_Z 1) z] in
  @categorical_new F ps = Some (@mkCategorical F ps) /\ Forall2 (rel (softmax_units K (INR (length l)))) (map (fun a => r a / t) l ++ [1 / t]) ps.
Proof.
  intros K0 N H t z ps. sizes. destruct one_num as [N1 V1]. pose proof (pos_INR (length l)) as N0. set (n := INR (length l)) in *. pose proof (bpow_gt_0 radix2 (-440)) as P4.
  assert (BH : bpow radix2 440 * 16384 <= huge / 4).
  { apply (Rmult_le_reg_r 4); [lra|]. unfold Rdiv. rewrite (Rmult_assoc huge), Rinv_l, Rmult_1_r by lra. change 16384 with (bpow radix2 14). change 4 with (bpow radix2 2). rewrite <- !bpow_plus. apply bpow_le. lia. }
  assert (SB : 0 <= Rsum (map r l) <= bpow radix2 440 * n).
  { unfold n. clear -H P4. induction H as [|a l [_ Q] _ IH]; [cbn; rewrite Rmult_0_r; lra|]. cbn [map length]. rewrite Rsum_cons, S_INR. split; lra. }
  pose proof (bpow_gt_0 radix2 440) as P5. assert (BN : bpow radix2 440 * n <= bpow radix2 440 * 16384) by (apply Rmult_le_compat_l; lra).
  assert (WP : Forall (fun w => is_num w /\ 0 <= val w) (map w l)).
  { rewrite Forall_map. eapply Forall_impl; [|exact H]. intros a [R Q]. split; [exact (proj1 R)|]. left. apply (rel_sign _ _ _ R). lra. }
  assert (WS : Rsum (map val (map w l)) <= 2 * Rsum (map r l)).
  { clear -H K0 P4. induction H as [|a l [R Q] _ IH]; [cbn; lra|]. cbn [map]. rewrite !Rsum_cons.
    pose proof (rel_sign _ _ _ R ltac:(lra)). apply rel_acc in R; [|lra]. apply acc_size in R; [|lra|apply keps; lra]. rewrite !Rabs_pos_eq in R by lra. lra. }
  split; [apply softmax_accepts; [exact WP|rewrite map_length; exact N|lra]|].
  assert (AS : acc (K + n) (Rsum (map r l)) (Rsum (map r l)) (fold_left (@nadd F) (map w l) n0)).
  { unfold n. apply (sum_acc L r r w K l); [lra|apply Rle_trans with (bpow radix2 20); [change (bpow radix2 20) with 1048576; fold n; lra|apply bpow_le; lia]| |lra].
    eapply Forall_impl; [|exact H]. intros a [R Q]. apply rel_acc in R; [|lra]. rewrite Rabs_pos_eq in R by lra. exact R. }
  assert (A1 : acc (K + n + 1) t t z).
  { unfold t, z. apply acc_add; ks; [|exact AS]. apply (acc_k 0); [|lra]. apply (acc_is _ 1 1 N1 V1). rewrite Rabs_R1. lra. }
  assert (T1 : 1 <= t <= bpow radix2 460).
  { unfold t. split; [lra|]. replace (bpow radix2 460) with (bpow radix2 440 * 1048576) by (change 1048576 with (bpow radix2 20); rewrite <- bpow_plus; reflexivity).
    assert (1 <= bpow radix2 440) by (change 1 with (bpow radix2 0); apply bpow_le; lia). lra. }
  apply rel_of_acc in A1; ks.
  assert (IT : bpow radix2 (-460) <= / t <= 1).
  { split; [change (-460)%Z with (- (460))%Z; rewrite bpow_opp; apply Rinv_le_contravar; lra|]. rewrite <- Rinv_1. apply Rinv_le_contravar; lra. }
  pose proof (bpow_gt_0 radix2 (-460)) as P6.
  assert (NR : forall x, bpow radix2 (-440) <= x <= bpow radix2 440 -> normal_range (x / t)).
  { intros x X. assert (X0 : 0 < x / t) by (apply Rmult_lt_0_compat; lra). unfold normal_range. rewrite Rabs_pos_eq by lra. split.
    - unfold small. apply Rle_trans with (bpow radix2 (-440) * bpow radix2 (-460)); [change 2 with (bpow radix2 1); rewrite <- !bpow_plus; apply bpow_le; lia|]. apply Rmult_le_compat; lra.
    - apply Rle_trans with (x * 1); [apply Rmult_le_compat_l; lra|lra]. }
  unfold ps. apply Forall2_app.
  - clear ps AS WP WS SB BN. fold z t. unfold n in *. clearbody t z. set (m := length l) in *. clearbody m. induction H as [|a l [R Q] _ IH]; [constructor|]. cbn [map]. constructor; [|exact IH].
    unfold softmax_units. replace (3 * K + 2 * INR m + 3) with (K + 2 * (K + INR m + 1) + 1) by ring. apply rel_div; ks; [exact R|exact A1|apply NR, Q].
  - constructor; [|constructor]. fold z t n. apply rel_more with (0 + 2 * (K + n + 1) + 1); [|unfold softmax_units; lra].
    apply rel_div; ks; [apply rel_is; [exact N1|exact V1|lra]|exact A1|]. apply NR. split; [change 1 with (bpow radix2 0)|change 1 with (bpow radix2 0)]; apply bpow_le; lia.
Qed.

(** From natural parameters of size at most 300. *)
Lemma categorical_softmax (eta : list f64) : Forall (fun e => is_num e /\ Rabs (val e) <= 300) eta -> INR (length eta) <= 9999 ->
  exists ps, @categorical_from_natural F eta = Some (@mkCategorical F ps) /\ Forall2 (rel (softmax_units (4 * c) (INR (length eta)))) (softmax (map val eta)) ps.
Proof.
  intros H N. destruct (softmax_rel eta (fun e => exp (val e)) (l_exp L) (4 * c) ltac:(lra) N) as [E R].
  { eapply Forall_impl; [|exact H]. intros e [NE B]. destruct (exp_rel c lg L LOK C0 e NE ltac:(lra)) as [RE _]. split; [exact RE|]. apply Rabs_le_inv in B. destruct ln2_bounds as [L1 L2].
    split; [rewrite <- (exp_ln (bpow radix2 (-440))) by apply bpow_gt_0|rewrite <- (exp_ln (bpow radix2 440)) by apply bpow_gt_0]; apply exp_le; rewrite ln_bpow; lra. }
  eexists. split; [exact E|]. unfold softmax, softmax_total. rewrite !map_map in *. exact R.
Qed.

(** Round trip: the stored probabilities divided by their sum. *)
Lemma categorical_nat (qs : list f64) (l : f64) : Forall cat_ok qs -> cat_ok l -> INR (length qs) <= 9999 ->
  exists ps, categorical_from_natural (to_natural (categorical_expfam (@mkCategorical F (qs ++ [l])))) = Some (@mkCategorical F ps) /\
    Forall2 (rel (softmax_units (4 * c + 560 * (c + 2)) (INR (length qs)))) (map (fun p => val p / Rsum (map val (qs ++ [l]))) (qs ++ [l])) ps.
Proof.
  intros Q QL N. destruct (softmax_rel qs (fun q => val q / val l) (fun q => l_exp L (l_ln L (f64_div q l))) (4 * c + 560 * (c + 2)) ltac:(lra) N) as [E R].
  { eapply Forall_impl; [|exact Q]. intros q CQ. destruct (odds_entry c lg L LOK C0 q l CQ QL) as [_ RE]. split; [exact RE|]. destruct (ratio_range _ _ (proj2 CQ) (proj2 QL)) as [[R1 R2] _].
    split; [apply Rle_trans with (bpow radix2 (-400)); [apply bpow_le; lia|exact R1]|apply Rle_trans with (bpow radix2 400); [exact R2|apply bpow_le; lia]]. }
  eexists. split.
  - assert (G : to_natural (categorical_expfam (@mkCategorical F (qs ++ [l]))) = map (fun q => l_ln L (f64_div q l)) qs) by apply (cat_odds L qs l).
    rewrite G. unfold categorical_from_natural. rewrite (map_map (fun q => l_ln L (f64_div q l)) (@nexp F)). exact E.
  - destruct QL as [_ [BL _]]. pose proof (bpow_gt_0 radix2 (-400)) as P.
    assert (T : 1 + Rsum (map (fun q => val q / val l) qs) = Rsum (map val (qs ++ [l])) / val l).
    { rewrite map_app. cbn [map]. clear -BL P. induction qs as [|q qs IH]; cbn [map app]; rewrite ?Rsum_cons; [cbn; field; lra|]. unfold Rdiv in *. rewrite Rmult_plus_distr_r, <- IH. ring. }
    rewrite T in R. assert (S0 : 0 < Rsum (map val (qs ++ [l]))).
    { rewrite map_app, Rsum_app. cbn [map]. rewrite Rsum_cons. change (Rsum []) with 0. assert (0 <= Rsum (map val qs)); [|lra]. apply Rsum_pos. rewrite Forall_map. eapply Forall_impl; [|exact Q]. intros q [_ [A _]]. lra. }
    set (S := Rsum (map val (qs ++ [l]))) in *. rewrite map_app. cbn [map].
    replace (val l / S) with (1 / (S / val l)) by (field; lra). erewrite map_ext; [exact R|]. intros q. cbn beta. field. lra.
Qed.

(** Exponentials outside the range of binary64. *)
Lemma categorical_overflow e : l_exp L e = S754_infinity false -> @categorical_from_natural F [e] = None.
Proof.
  intros E. unfold categorical_from_natural. cbn [map fold_left app]. change (@nexp F e) with (l_exp L e). rewrite E.
  assert (Z : @nadd F n1 (@nadd F n0 (S754_infinity false)) = S754_infinity false) by (change (f64_add (f64_of_Z 1) (f64_add (f64_of_Z 0) (S754_infinity false)) = S754_infinity false); vm_compute; reflexivity).
  rewrite Z. reflexivity.
Qed.
Lemma poisson_extremes e : (l_exp L e = S754_infinity false -> @poisson_from_natural F [e] = Some (@mkPoisson F (S754_infinity false))) /\
  (val (l_exp L e) = 0 -> is_num (l_exp L e) -> @poisson_from_natural F [e] = None).
Proof.
  split.
  - intros E. change (@poisson_new F (l_exp L e) = Some (@mkPoisson F (S754_infinity false))). rewrite E. reflexivity.
  - intros V N. change (@poisson_new F (l_exp L e) = None). unfold poisson_new. rewrite (pos_false _ N); [reflexivity|lra].
Qed.
End Nat.
