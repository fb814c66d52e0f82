(** Monotone log-densities of independent samples and of the gamma distribution
    with shape at most 1 (C77). *)
From Coquelicot Require Import Coquelicot.
From Coq Require Import ZArith Reals Bool List Lia Lra.
From Coq Require Import Floats.SpecFloat.
From Flocq Require Import Core IEEE754.BinarySingleNaN.
From Verif Require Import Num JitModel EggSpec LitFacts EggNum FloatFacts FloatErr JitAcc JitAcc2 AccSpec AccProofs RoundSpec RoundProofs RelErr
  DensitySpec CoreModel CombModel ExpFamModel DistModel DistSpec DistFacts BuilderProofs DistProofs DistFloat IntSpec GammaFun ExtSpec ExtFloat ExtSum ExtProofs ExtInline MonoSpec MonoProofs.
Import ListNotations.
Local Open Scope R_scope.

Lemma at_most_fle a b : not_nan a -> not_nan b -> at_most a b -> fle a b.
Proof.
  intros A B H. split; [exact A|]. split; [exact B|]. destruct A as [N|[-> | ->]]; [| |apply ev_any, B].
  - destruct B as [M|[-> | ->]]; [apply ev_at_most; assumption|apply ev_any; left; exact N|].
    exfalso. unfold at_most in H. destruct (num_shape a N) as [[s ->]|(s & m & e & ->)]; discriminate H.
  - destruct B as [M|[-> | ->]]; [|right; reflexivity|discriminate H]. exfalso. unfold at_most in H. destruct (num_shape b M) as [[s ->]|([] & m & e & ->)]; discriminate H.
Qed.
Lemma partial_nn a : partial_sum a -> not_nan a.
Proof. intros [-> |[N _]]; [right; right; reflexivity|left; exact N]. Qed.
Lemma capped_nn a : capped a -> not_nan a.
Proof. intros [-> |[N _]]; [right; right; reflexivity|left; exact N]. Qed.
Lemma step_mono a a' b b' : partial_sum a -> partial_sum a' -> capped b -> capped b' -> fle a a' -> fle b b' -> fle (f64_add a b) (f64_add a' b').
Proof.
  intros A A' B B' H K. pose proof (partial_nn _ (step a b A B)) as N. pose proof (partial_nn _ (step a' b' A' B')) as N'.
  destruct A as [-> |[NA _]]; [replace (f64_add ninf b) with ninf; [apply fle_bot, N'|destruct B as [-> |[NB _]]; [reflexivity|symmetry; apply (proj2 (add_ninf b NB))]]|].
  destruct B as [-> |[NB _]]; [rewrite (proj1 (add_ninf a NA)); apply fle_bot, N'|].
  destruct A' as [-> |[NA' _]]; [destruct H as (_ & _ & H); pose proof (ev_inside a NA); cbn [ev ninf] in H; lra|].
  destruct B' as [-> |[NB' _]]; [destruct K as (_ & _ & K); pose proof (ev_inside b NB); cbn [ev ninf] in K; lra|].
  split; [exact N|]. split; [exact N'|]. rewrite (proj2 (ev_add a b NA NB)), (proj2 (ev_add a' b' NA' NB')).
  destruct H as (_ & _ & H), K as (_ & _ & K). rewrite !ev_num in H, K by assumption. apply cr_mono. lra.
Qed.
Lemma sum_mono_from l l' : Forall2 (fun b b' => capped b /\ capped b' /\ at_most b b') l l' -> forall a a', partial_sum a -> partial_sum a' -> fle a a' ->
  fle (fold_left f64_add l a) (fold_left f64_add l' a').
Proof.
  induction 1 as [|b b' l l' (B & B' & E) _ IH]; intros a a' A A' H; cbn [fold_left]; [exact H|].
  apply IH; [apply step; assumption|apply step; assumption|]. apply step_mono; try assumption. apply at_most_fle; [apply capped_nn, B|apply capped_nn, B'|exact E].
Qed.
Lemma sum_mono l l' : Forall2 (fun b b' => capped b /\ capped b' /\ at_most b b') l l' -> at_most (fold_left f64_add l (f64_of_Z 0)) (fold_left f64_add l' (f64_of_Z 0)).
Proof.
  intros H. destruct zero_num as [N0 V0]. assert (P0 : partial_sum (f64_of_Z 0)) by (right; split; [exact N0|rewrite V0; apply bpow_ge_0]).
  apply fle_at_most, (sum_mono_from l l' H); [exact P0|exact P0|]. split; [left; exact N0|]. split; [left; exact N0|right; reflexivity].
Qed.
(** The pair is ordered the other way round in the samples. *)
Lemma sample_mono L {X} (b : Base (F64 L) X) xs ys : Forall2 (fun x y => capped (b_ld b x) /\ capped (b_ld b y) /\ at_most (b_ld b y) (b_ld b x)) xs ys ->
  at_most (iid_log_density_fallback b ys) (iid_log_density_fallback b xs).
Proof.
  intros H. apply (sum_mono (map (b_ld b) ys) (map (b_ld b) xs)). induction H as [|x y xs ys (A & B & E) _ IH]; cbn [map]; constructor; [auto|exact IH].
Qed.
Lemma fle_sub2 p p' q q' : is_num p -> is_num p' -> val p <= val p' -> up q' -> fle q' q -> fle (f64_sub p q) (f64_sub p' q').
Proof.
  intros P P' H U K. apply fle_trans with (f64_sub p q'); [apply fle_sub_r; assumption|].
  destruct U as [[N _]| ->]; [apply fle_sub_l; [|exact N]; split; [left; exact P|]; split; [left; exact P'|rewrite !ev_num by assumption; exact H]|].
  destruct (inf_sub p P) as (_ & _ & -> & _). destruct (inf_sub p' P') as (_ & _ & -> & _). apply fle_bot. right. right. reflexivity.
Qed.
Section Gamma.
Context (c : R) (lg : R -> R) (L : libm) (LOK : libm_ok c lg L) (C0 : 0 <= c <= 1000000) (LM : ln_monotone L).
Notation F := (F64 L).
Lemma gamma_mono a b x y : lg_moderate lg -> is_num a -> is_num b -> 0 < val a <= 1 -> 0 < val b -> is_num x -> is_num y -> 0 < val x <= val y ->
  at_most (gamma_ld (@mkGamma F a b) y) (gamma_ld (@mkGamma F a b) x).
Proof.
  intros LG NA NB A B X Y H. apply fle_at_most. destruct zero_num as [N0 V0]. destruct one_num as [N1 V1].
  assert (G : forall z, is_num z -> 0 < val z -> @nltb F n0 z = true) by (intros z Z Q; change (@nltb F n0 z) with (SFltb (f64_of_Z 0) z); rewrite (SFltb_num _ _ N0 Z), V0; apply Rlt_bool_true, Q).
  unfold gamma_ld. cbn [g_shape g_rate]. rewrite !G by (assumption || lra).
  assert (O : 1 <= bpow radix2 880) by (apply (bpow_le radix2 0 880); lia).
  pose proof (bn_val 880 a NA ltac:(lra)) as BA.
  assert (BF : bn 902 (f64_sub (f64_mul a (l_ln L b)) (l_lgamma L a))).
  { apply (bn_sub 901 _ _ ltac:(lia)); [|apply (bn_lgamma c lg L LOK C0); [exact LG|exact NA|lra]]. apply (bn_more 891); [|lia]. apply (bn_mul 880 11 _ _ ltac:(lia) BA). apply (bn_ln c lg L LOK C0); assumption. }
  assert (BK : bn 881 (f64_sub a (f64_of_Z 1))) by (apply (bn_sub 880 _ _ ltac:(lia) BA); apply (bn_more 0); [apply bn_one|lia]).
  assert (K0 : val (f64_sub a (f64_of_Z 1)) <= 0).
  { rewrite <- ev_num by apply BK. rewrite (proj2 (ev_sub a (f64_of_Z 1) NA N1)), V1. replace (val a - 1) with (- (1 - val a)) by ring. rewrite cr_opp. pose proof (cr_pos (1 - val a) ltac:(lra)). lra. }
  pose proof (bn_ln c lg L LOK C0 x X ltac:(lra)) as BX. pose proof (bn_ln c lg L LOK C0 y Y ltac:(lra)) as BY.
  pose proof (ev_at_most _ _ (proj1 BX) (proj1 BY) (proj2 LM x y X Y ltac:(lra))) as EL. rewrite !ev_num in EL by (apply BX || apply BY).
  set (k := f64_sub a (f64_of_Z 1)) in *. set (f := f64_sub (f64_mul a (l_ln L b)) (l_lgamma L a)) in *.
  assert (T : forall z, bn 11 (l_ln L z) -> bn 903 (f64_add f (f64_mul k (l_ln L z)))).
  { intros z Z. apply (bn_add 902 _ _ ltac:(lia) BF). apply (bn_more (881 + 11)); [|lia]. apply (bn_mul 881 11 _ _ ltac:(lia) BK Z). }
  assert (M : forall z, bn 11 (l_ln L z) -> is_num (f64_mul k (l_ln L z))) by (intros z Z; apply (bn_mul 881 11 _ _ ltac:(lia) BK Z)).
  change (fle (f64_sub (f64_add f (f64_mul k (l_ln L y))) (f64_mul b y)) (f64_sub (f64_add f (f64_mul k (l_ln L x))) (f64_mul b x))).
  apply fle_sub2; [apply (T y BY)|apply (T x BX)| |apply mul_up; [exact NB|lra|exact X|lra]|].
  - rewrite <- !ev_num by (apply (T y BY) || apply (T x BX)). rewrite (proj2 (ev_add _ _ (proj1 BF) (M y BY))), (proj2 (ev_add _ _ (proj1 BF) (M x BX))). apply cr_mono.
    apply Rplus_le_compat_l. rewrite <- !ev_num by (apply (M y BY) || apply (M x BX)). rewrite (proj2 (ev_mul _ _ (proj1 BK) (proj1 BY))), (proj2 (ev_mul _ _ (proj1 BK) (proj1 BX))). apply cr_mono. nra.
  - apply fle_mul; [|exact NB|exact B]. split; [left; exact X|]. split; [left; exact Y|]. rewrite !ev_num by assumption. apply H.
Qed.
Lemma falling f k qx qy x y : bn 902 f -> bn 881 k -> val k <= 0 -> is_num x -> is_num y -> 0 < val x <= val y -> up qx -> fle qx qy ->
  fle (f64_sub (f64_add f (f64_mul k (l_ln L y))) qy) (f64_sub (f64_add f (f64_mul k (l_ln L x))) qx).
Proof.
  intros BF BK K0 X Y H U Q.
  pose proof (bn_ln c lg L LOK C0 x X ltac:(lra)) as BX. pose proof (bn_ln c lg L LOK C0 y Y ltac:(lra)) as BY.
  pose proof (ev_at_most _ _ (proj1 BX) (proj1 BY) (proj2 LM x y X Y ltac:(lra))) as EL. rewrite !ev_num in EL by (apply BX || apply BY).
  assert (T : forall z, bn 11 (l_ln L z) -> bn 903 (f64_add f (f64_mul k (l_ln L z)))).
  { intros z Z. apply (bn_add 902 _ _ ltac:(lia) BF). apply (bn_more (881 + 11)); [|lia]. apply (bn_mul 881 11 _ _ ltac:(lia) BK Z). }
  assert (M : forall z, bn 11 (l_ln L z) -> is_num (f64_mul k (l_ln L z))) by (intros z Z; apply (bn_mul 881 11 _ _ ltac:(lia) BK Z)).
  apply fle_sub2; [apply (T y BY)|apply (T x BX)| |exact U|exact Q].
  rewrite <- !ev_num by (apply (T y BY) || apply (T x BX)). rewrite (proj2 (ev_add _ _ (proj1 BF) (M y BY))), (proj2 (ev_add _ _ (proj1 BF) (M x BX))). apply cr_mono.
  apply Rplus_le_compat_l. rewrite <- !ev_num by (apply (M y BY) || apply (M x BX)). rewrite (proj2 (ev_mul _ _ (proj1 BK) (proj1 BY))), (proj2 (ev_mul _ _ (proj1 BK) (proj1 BX))). apply cr_mono. nra.
Qed.
Lemma chi_mono k x y : lg_moderate lg -> is_num k -> bpow radix2 (-1000) <= val k <= 2 -> is_num x -> is_num y -> 0 < val x <= val y ->
  at_most (chi_ld (@mkChi F k) y) (chi_ld (@mkChi F k) x).
Proof.
  intros LG NK K X Y H. apply fle_at_most. destruct zero_num as [N0 V0]. destruct one_num as [N1 V1]. destruct two_num as [N2 V2]. pose proof (bpow_gt_0 radix2 (-1000)) as K0.
  assert (G : forall z, is_num z -> 0 < val z -> @nltb F n0 z = true) by (intros z Z Q; change (@nltb F n0 z) with (SFltb (f64_of_Z 0) z); rewrite (SFltb_num _ _ N0 Z), V0; apply Rlt_bool_true, Q).
  assert (E : forall z, is_num z -> 0 < val z -> chi_ld (@mkChi F k) z =
    f64_sub (f64_add (f64_sub (f64_mul (SFopp (f64_div k (f64_of_Z 2))) (l_ln L (f64_of_Z 2))) (l_lgamma L (f64_div k (f64_of_Z 2)))) (f64_mul (f64_sub (f64_div k (f64_of_Z 2)) (f64_of_Z 1)) (l_ln L z))) (f64_div z (f64_of_Z 2))).
  { intros z Z Q. unfold chi_ld. rewrite (G z Z Q). rewrite <- two_sum. reflexivity. }
  rewrite !E by (assumption || lra). clear E.
  assert (O : 2 <= bpow radix2 880) by (apply (bpow_le radix2 1 880); lia).
  destruct (half_exact k NK (proj1 K)) as [NH VH]. pose proof (bn_half 880 k ltac:(lia) (bn_val 880 k NK ltac:(lra))) as BH.
  assert (BK : bn 881 (f64_sub (f64_div k (f64_of_Z 2)) (f64_of_Z 1))) by (apply (bn_sub 880 _ _ ltac:(lia) BH); apply (bn_more 0); [apply bn_one|lia]).
  apply falling; try assumption.
  - apply (bn_sub 901 _ _ ltac:(lia)); [|apply (bn_lgamma c lg L LOK C0); [exact LG|exact NH|rewrite VH; lra]].
    apply (bn_more (880 + 11)); [|lia]. apply (bn_mul 880 11 _ _ ltac:(lia)); [apply bn_neg; exact BH|apply (bn_ln c lg L LOK C0); [exact N2|lra]].
  - rewrite <- ev_num by apply BK. rewrite (proj2 (ev_sub _ (f64_of_Z 1) NH N1)), V1, VH. replace (val k / 2 - 1) with (- (1 - val k / 2)) by ring. rewrite cr_opp. pose proof (cr_pos (1 - val k / 2) ltac:(lra)). lra.
  - apply div_pos_up; [left; split; [exact X|lra]|exact N2|lra].
  - apply fle_div; [|exact N2|lra]. split; [left; exact X|]. split; [left; exact Y|]. rewrite !ev_num by assumption. apply H.
Qed.
Context (LE : ln_edges L).
Lemma ln_order p q : is_num p -> is_num q -> 0 <= val p <= val q -> at_most (l_ln L p) (l_ln L q).
Proof.
  intros NP NQ H. destruct (Rle_lt_or_eq_dec 0 (val p) (proj1 H)) as [P|P]; [apply (proj2 LM); [exact NP|exact NQ|lra]|].
  destruct (num_shape p NP) as [[s ->]|(s & m & e & ->)].
  - rewrite (proj2 LE). apply fle_at_most, fle_bot. destruct (proper_ln c lg L LOK C0 LE q NQ ltac:(lra)) as [N| ->]; [left; exact N|right; right; reflexivity].
  - exfalso. symmetry in P. unfold val, SF2R in P. apply eq_0_F2R in P. cbn in P. destruct s; discriminate P.
Qed.
Lemma bernoulli_order p : is_num p -> 0 <= val p <= 1 ->
  (/ 2 <= val p -> at_most (bernoulli_ld (@mkBernoulli F p) 0) (bernoulli_ld (@mkBernoulli F p) 1)) /\
  (val p <= / 2 -> at_most (bernoulli_ld (@mkBernoulli F p) 1) (bernoulli_ld (@mkBernoulli F p) 0)).
Proof.
  intros N P. destruct one_num as [N1 V1]. destruct (one_minus p N P) as [K V].
  assert (E : val (f64_sub (f64_of_Z 1) p) = RN (1 - val p)).
  { rewrite <- ev_num by exact K. rewrite (proj2 (ev_sub _ _ N1 N)), V1. apply cr_num. apply (RN_small _ 0); [lia|]. change (bpow radix2 0) with 1. apply Rabs_le. lra. }
  split; intros H.
  - apply (ln_order (f64_sub (f64_of_Z 1) p) p K N). split; [exact V|]. rewrite E. rewrite <- (num_format p N) at 2. apply RN_mono. lra.
  - apply (ln_order p (f64_sub (f64_of_Z 1) p) N K). split; [lra|]. rewrite E. rewrite <- (num_format p N) at 1. apply RN_mono. lra.
Qed.
Lemma categorical_order ps i j : Forall (fun p => is_num p /\ 0 <= val p) ps -> (i < length ps)%nat -> (j < length ps)%nat ->
  val (nth i ps (f64_of_Z 0)) <= val (nth j ps (f64_of_Z 0)) -> at_most (categorical_ld (@mkCategorical F ps) i) (categorical_ld (@mkCategorical F ps) j).
Proof.
  intros H I J D. rewrite Forall_forall in H.
  assert (E : forall k, (k < length ps)%nat -> categorical_ld (@mkCategorical F ps) k = l_ln L (nth k ps (f64_of_Z 0))).
  { intros k K. change (categorical_ld (@mkCategorical F ps) k) with (if (k <? length ps)%nat then l_ln L (nth k ps (f64_of_Z 0)) else ninf). rewrite (proj2 (Nat.ltb_lt k (length ps)) K). reflexivity. }
  rewrite (E i I), (E j J). destruct (H _ (nth_In ps (f64_of_Z 0) I)) as [NI VI]. destruct (H _ (nth_In ps (f64_of_Z 0) J)) as [NJ VJ]. apply ln_order; [exact NI|exact NJ|lra].
Qed.
End Gamma.
