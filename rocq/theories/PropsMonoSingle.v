(** C77 in binary32. *)
From Coq Require Import ZArith Reals Bool List Lia Lra.
From Coq Require Import Floats.SpecFloat.
From Flocq Require Import Core IEEE754.BinarySingleNaN.
From Verif Require Import Num EggSpec FloatFacts DensitySpec CoreModel CombModel ExpFamModel DistModel DistSpec ExtSpec SingleModel SingleSpec SingleErr SingleFloat SingleFloat2 ExtSingleSpec ExtSingle ExtSingleSum PropsExtSingle MonoSpec MonoSingle.
From Verif Require Import IntSpec.
From Verif Require ExtSingleGamma MonoSingleGamma GammaFun.
Import ListNotations.
Local Open Scope R_scope.

Theorem C77_single_normal : forall c lg L mu sd x y, libm32_ok c lg L -> 0 <= c <= 1000 -> is_single mu -> is_single sd -> 0 < val sd -> is_single x -> is_single y ->
  Rabs (val x - val mu) <= Rabs (val y - val mu) ->
  at_most (normal_ld (@mkNormal (F32 L) mu sd) y) (normal_ld (@mkNormal (F32 L) mu sd) x).
Proof. intros c lg L mu sd x y K C0. exact (normal_mono c lg L K C0 mu sd x y). Qed.
Print Assumptions C77_single_normal.
Theorem C77_single_exponential : forall c lg L rate x y, libm32_ok c lg L -> 0 <= c <= 1000 -> is_single rate -> 0 < val rate -> is_single x -> is_single y ->
  0 <= val x <= val y -> at_most (exponential_ld (@mkExponential (F32 L) rate) y) (exponential_ld (@mkExponential (F32 L) rate) x).
Proof. intros c lg L rate x y K C0. exact (exponential_mono c lg L K C0 rate x y). Qed.
Print Assumptions C77_single_exponential.
Theorem C77_single_cauchy : forall c lg L loc sc x y, libm32_ok c lg L -> 0 <= c <= 1000 -> ln_edges32 L -> ln_monotone32 L ->
  is_single loc -> is_single sc -> 0 < val sc -> is_single x -> is_single y -> Rabs (val x - val loc) <= Rabs (val y - val loc) ->
  at_most (cauchy_ld (@mkCauchy (F32 L) loc sc) y) (cauchy_ld (@mkCauchy (F32 L) loc sc) x).
Proof. intros c lg L loc sc x y K C0 E M. exact (cauchy_mono c lg L K C0 E M loc sc x y). Qed.
Print Assumptions C77_single_cauchy.
Theorem C77_single_samples : forall c lg L, libm32_ok c lg L -> 0 <= c <= 1000 ->
  (forall mu sd xs ys, is_single mu -> is_single sd -> 0 < val sd ->
     Forall2 (fun x y => is_single x /\ is_single y /\ Rabs (val x - val mu) <= Rabs (val y - val mu)) xs ys ->
     at_most (iid_log_density_fallback (normal_base (@mkNormal (F32 L) mu sd)) ys) (iid_log_density_fallback (normal_base (@mkNormal (F32 L) mu sd)) xs) /\
     (ln_edges32 L -> ln_monotone32 L ->
      at_most (iid_log_density_fallback (cauchy_base (@mkCauchy (F32 L) mu sd)) ys) (iid_log_density_fallback (cauchy_base (@mkCauchy (F32 L) mu sd)) xs))) /\
  (forall rate xs ys, is_single rate -> 0 < val rate -> Forall2 (fun x y => is_single x /\ is_single y /\ 0 <= val x <= val y) xs ys ->
     at_most (iid_log_density_fallback (exponential_base (@mkExponential (F32 L) rate)) ys) (iid_log_density_fallback (exponential_base (@mkExponential (F32 L) rate)) xs)).
Proof.
  assert (I2 : forall A (P Q : A -> A -> Prop) xs ys, (forall x y, P x y -> Q x y) -> Forall2 P xs ys -> Forall2 Q xs ys) by (induction 2; constructor; auto).
  intros c lg L K C0. split.
  - intros mu sd xs ys N S P H. split.
    + apply (sample_mono L). refine (I2 _ _ _ _ _ _ H). intros x y (X & Y & D).
      split; [exact (normal_capped c lg L K C0 mu sd x N S P (or_introl X))|]. split; [exact (normal_capped c lg L K C0 mu sd y N S P (or_introl Y))|].
      exact (normal_mono c lg L K C0 mu sd x y N S P X Y D).
    + intros E M. apply (sample_mono L). refine (I2 _ _ _ _ _ _ H). intros x y (X & Y & D).
      split; [exact (cauchy_capped c lg L K C0 E mu sd x N S P (or_introl X))|]. split; [exact (cauchy_capped c lg L K C0 E mu sd y N S P (or_introl Y))|].
      exact (cauchy_mono c lg L K C0 E M mu sd x y N S P X Y D).
  - intros rate xs ys N P H. apply (sample_mono L). refine (I2 _ _ _ _ _ _ H). intros x y (X & Y & D).
    split; [exact (exponential_capped c lg L K C0 rate x N P (or_introl X))|]. split; [exact (exponential_capped c lg L K C0 rate y N P (or_introl Y))|].
    exact (exponential_mono c lg L K C0 rate x y N P X Y D).
Qed.
Print Assumptions C77_single_samples.
Theorem C77_single_bernoulli : forall c lg L p, libm32_ok c lg L -> 0 <= c <= 1000 -> ln_edges32 L -> ln_monotone32 L -> is_single p -> 0 <= val p <= 1 ->
  (/ 2 <= val p -> at_most (bernoulli_ld (@mkBernoulli (F32 L) p) 0) (bernoulli_ld (@mkBernoulli (F32 L) p) 1)) /\
  (val p <= / 2 -> at_most (bernoulli_ld (@mkBernoulli (F32 L) p) 1) (bernoulli_ld (@mkBernoulli (F32 L) p) 0)).
Proof. intros c lg L p K C0 E M. exact (bernoulli_order c lg L K C0 E M p). Qed.
Print Assumptions C77_single_bernoulli.
Theorem C77_single_categorical : forall c lg L ps i j, libm32_ok c lg L -> 0 <= c <= 1000 -> ln_edges32 L -> ln_monotone32 L ->
  Forall (fun p => is_single p /\ 0 <= val p) ps -> (i < length ps)%nat -> (j < length ps)%nat ->
  val (nth i ps (f32_of_Z 0)) <= val (nth j ps (f32_of_Z 0)) ->
  at_most (categorical_ld (@mkCategorical (F32 L) ps) i) (categorical_ld (@mkCategorical (F32 L) ps) j).
Proof. intros c lg L ps i j K C0 E M. exact (categorical_order c lg L K C0 E M ps i j). Qed.
Print Assumptions C77_single_categorical.
Theorem C77_single_discrete_samples : forall c lg L, libm32_ok c lg L -> 0 <= c <= 1000 -> ln_edges32 L -> ln_monotone32 L ->
  (forall p xs ys, is_single p -> / 2 <= val p <= 1 -> Forall2 (fun x y => (y <= x <= 1)%nat) xs ys ->
     at_most (iid_log_density_fallback (bernoulli_base (@mkBernoulli (F32 L) p)) ys) (iid_log_density_fallback (bernoulli_base (@mkBernoulli (F32 L) p)) xs)) /\
  (forall p xs ys, is_single p -> 0 <= val p <= / 2 -> Forall2 (fun x y => (x <= y <= 1)%nat) xs ys ->
     at_most (iid_log_density_fallback (bernoulli_base (@mkBernoulli (F32 L) p)) ys) (iid_log_density_fallback (bernoulli_base (@mkBernoulli (F32 L) p)) xs)) /\
  (forall ps xs ys, Forall (fun p => is_single p /\ 0 <= val p) ps ->
     Forall2 (fun i j => (i < length ps)%nat /\ (j < length ps)%nat /\ val (nth j ps (f32_of_Z 0)) <= val (nth i ps (f32_of_Z 0))) xs ys ->
     at_most (iid_log_density_fallback (categorical_base (@mkCategorical (F32 L) ps)) ys) (iid_log_density_fallback (categorical_base (@mkCategorical (F32 L) ps)) xs)).
Proof.
  assert (I2 : forall A (P Q : A -> A -> Prop) xs ys, (forall x y, P x y -> Q x y) -> Forall2 P xs ys -> Forall2 Q xs ys) by (induction 2; constructor; auto).
  intros c lg L K C0 E M. split; [|split].
  - intros p xs ys N P H. assert (P' : 0 <= val p <= 1) by lra. apply (sample_mono L). refine (I2 _ _ _ _ _ _ H). intros x y D.
    split; [exact (bernoulli_capped c lg L K C0 E p x N P')|]. split; [exact (bernoulli_capped c lg L K C0 E p y N P')|]. cbn [b_ld bernoulli_base].
    pose proof (proj1 (C77_single_bernoulli c lg L p K C0 E M N P') (proj1 P)) as G.
    destruct x as [|[|x]], y as [|[|y]]; try lia; try exact G; apply fle_at_most; (split; [|split; [|right; reflexivity]]); apply capped_nn, (bernoulli_capped c lg L K C0 E p _ N P').
  - intros p xs ys N P H. assert (P' : 0 <= val p <= 1) by lra. apply (sample_mono L). refine (I2 _ _ _ _ _ _ H). intros x y D.
    split; [exact (bernoulli_capped c lg L K C0 E p x N P')|]. split; [exact (bernoulli_capped c lg L K C0 E p y N P')|]. cbn [b_ld bernoulli_base].
    pose proof (proj2 (C77_single_bernoulli c lg L p K C0 E M N P') (proj2 P)) as G.
    destruct x as [|[|x]], y as [|[|y]]; try lia; try exact G; apply fle_at_most; (split; [|split; [|right; reflexivity]]); apply capped_nn, (bernoulli_capped c lg L K C0 E p _ N P').
  - intros ps xs ys N H. apply (sample_mono L). refine (I2 _ _ _ _ _ _ H). intros i j (I & J & D).
    split; [exact (categorical_capped c lg L K C0 E ps i N)|]. split; [exact (categorical_capped c lg L K C0 E ps j N)|].
    exact (C77_single_categorical c lg L ps j i K C0 E M N J I D).
Qed.
Print Assumptions C77_single_discrete_samples.
Theorem C77_single_geometric : forall c lg L p k l, libm32_ok c lg L -> 0 <= c <= 1000 -> ln_monotone32 L ->
  is_single p -> 0 < val p < 1 -> (1 <= k <= l)%nat -> (Z.of_nat l <= 2 ^ 64)%Z ->
  at_most (geometric_ld (@mkGeometric (F32 L) p) l) (geometric_ld (@mkGeometric (F32 L) p) k).
Proof. intros c lg L p k l K C0 M. exact (geometric_mono c lg L K C0 M p k l). Qed.
Print Assumptions C77_single_geometric.
Theorem C77_single_gamma : forall c lg L a b x y, libm32_ok c lg L -> 0 <= c <= 1000 -> ln_monotone32 L -> lg_is_log_gamma lg ->
  is_single a -> is_single b -> 0 < val a <= 1 -> 0 < val b -> is_single x -> is_single y -> 0 < val x <= val y ->
  at_most (gamma_ld (@mkGamma (F32 L) a b) y) (gamma_ld (@mkGamma (F32 L) a b) x).
Proof. intros c lg L a b x y K C0 M G. exact (MonoSingleGamma.gamma_mono c lg L K C0 M a b x y (ExtSingleGamma.lg_is_moderate32 lg G)). Qed.
Print Assumptions C77_single_gamma.
Theorem C77_single_chi_squared : forall c lg L k x y, libm32_ok c lg L -> 0 <= c <= 1000 -> ln_monotone32 L -> lg_is_log_gamma lg ->
  is_single k -> bpow radix2 (-100) <= val k <= 2 -> is_single x -> is_single y -> 0 < val x <= val y ->
  at_most (chi_ld (@mkChi (F32 L) k) y) (chi_ld (@mkChi (F32 L) k) x).
Proof. intros c lg L k x y K C0 M G. exact (MonoSingleGamma.chi_mono c lg L K C0 M k x y (ExtSingleGamma.lg_is_moderate32 lg G)). Qed.
Print Assumptions C77_single_chi_squared.
Theorem C77_single_student_t : forall c lg L nu x y, libm32_ok c lg L -> 0 <= c <= 1000 -> ln_edges32 L -> ln_monotone32 L -> lg_is_log_gamma lg ->
  is_single nu -> bpow radix2 (-100) <= val nu <= bpow radix2 69 -> is_single x -> is_single y -> Rabs (val x) <= Rabs (val y) ->
  at_most (student_ld (@mkStudent (F32 L) nu) y) (student_ld (@mkStudent (F32 L) nu) x).
Proof. intros c lg L nu x y K C0 E M G. exact (MonoSingleGamma.student_mono c lg L K C0 M E nu x y (ExtSingleGamma.lg_is_moderate32 lg G)). Qed.
Print Assumptions C77_single_student_t.

(** * A case: the correctly rounded library *)
Lemma rounded_ln32 lg a : is_single a -> 0 < val a -> is_single (s_ln (edged32 (rounded_libm32 lg)) a) /\ val (s_ln (edged32 (rounded_libm32 lg)) a) = RS (ln (val a)).
Proof.
  intros N P. destruct (pos_finite a N P) as (m & e & E). replace (s_ln (edged32 (rounded_libm32 lg)) a) with (nearest32 (ln (val a))) by (rewrite E; reflexivity).
  apply nearest32_ok. apply (RS_small _ 20); [lia|]. eapply Rle_trans; [apply ln_any; assumption|]. change (bpow radix2 20) with 1048576. lra.
Qed.
Lemma rounded_ln_monotone32 lg : ln_monotone32 (edged32 (rounded_libm32 lg)).
Proof.
  destruct one_num as [N1 V1]. split; [rewrite (proj2 (rounded_ln32 lg _ N1 ltac:(lra))), V1, ln_1; apply RS_0|].
  intros a b A B H. destruct (rounded_ln32 lg a A ltac:(lra)) as [NA VA], (rounded_ln32 lg b B ltac:(lra)) as [NB VB].
  apply at_most_ev; [left; exact NA|left; exact NB|]. rewrite !ev_num by assumption. rewrite VA, VB. apply RS_mono.
  destruct (proj2 H) as [Q|Q]; [left; apply ln_increasing; lra|rewrite Q; right; reflexivity].
Qed.
Example C77_single_case : forall lg, let L := edged32 (rounded_libm32 lg) in let one := f32_of_Z 1 in let two := f32_of_Z 2 in let zero := f32_of_Z 0 in
  libm32_ok 1 lg L /\ ln_edges32 L /\ ln_monotone32 L /\
  at_most (normal_ld (@mkNormal (F32 L) zero one) two) (normal_ld (@mkNormal (F32 L) zero one) one) /\
  at_most (exponential_ld (@mkExponential (F32 L) one) two) (exponential_ld (@mkExponential (F32 L) one) one) /\
  at_most (cauchy_ld (@mkCauchy (F32 L) zero one) two) (cauchy_ld (@mkCauchy (F32 L) zero one) one) /\
  at_most (bernoulli_ld (@mkBernoulli (F32 L) one) 0) (bernoulli_ld (@mkBernoulli (F32 L) one) 1) /\
  at_most (categorical_ld (@mkCategorical (F32 L) [zero; one]) 0) (categorical_ld (@mkCategorical (F32 L) [zero; one]) 1) /\
  at_most (iid_log_density_fallback (normal_base (@mkNormal (F32 L) zero one)) [two; two]) (iid_log_density_fallback (normal_base (@mkNormal (F32 L) zero one)) [one; two]).
Proof.
  intros lg L one two zero. destruct (edged32_ok 1 lg _ (rounded_libm32_ok lg)) as (K & E & _). fold L in K, E.
  pose proof (rounded_ln_monotone32 lg : ln_monotone32 L) as M. destruct one_num as [N1 V1], zero_num as [N0 V0], two_num as [N2 V2].
  fold one in N1, V1. fold zero in N0, V0. fold two in N2, V2.
  assert (D : Rabs (val one - val zero) <= Rabs (val two - val zero)) by (rewrite V0, V1, V2, !Rabs_pos_eq; lra).
  split; [exact K|]. split; [exact E|]. split; [exact M|].
  split; [apply (C77_single_normal 1 lg L); try assumption; lra|].
  split; [apply (C77_single_exponential 1 lg L); try assumption; lra|].
  split; [apply (C77_single_cauchy 1 lg L); try assumption; lra|].
  split; [refine (proj1 (C77_single_bernoulli 1 lg L one K _ E M N1 _) _); lra|].
  split; [apply (C77_single_categorical 1 lg L); try assumption; [lra|constructor; [split; [exact N0|lra]|constructor; [split; [exact N1|lra]|constructor]]|cbn; lia|cbn; lia|cbn [nth]; lra]|].
  refine (proj1 (proj1 (C77_single_samples 1 lg L K _) zero one [one; two] [two; two] N0 N1 _ _)); [lra|lra|].
  apply Forall2_cons; [auto|apply Forall2_cons; [split; [exact N2|split; [exact N2|lra]]|apply Forall2_nil]].
Qed.
Example C77_single_case2 : exists lg, lg_is_log_gamma lg /\ let L := edged32 (rounded_libm32 lg) in let one := f32_of_Z 1 in let two := f32_of_Z 2 in
  libm32_ok 1 lg L /\ ln_edges32 L /\ ln_monotone32 L /\
  at_most (geometric_ld (@mkGeometric (F32 L) (f32_dec 5 10)) 2) (geometric_ld (@mkGeometric (F32 L) (f32_dec 5 10)) 1) /\
  at_most (gamma_ld (@mkGamma (F32 L) one one) two) (gamma_ld (@mkGamma (F32 L) one one) one) /\
  at_most (chi_ld (@mkChi (F32 L) one) two) (chi_ld (@mkChi (F32 L) one) one) /\
  at_most (student_ld (@mkStudent (F32 L) one) two) (student_ld (@mkStudent (F32 L) one) one).
Proof.
  destruct GammaFun.log_gamma_exists as [lg G]. exists lg. split; [exact G|]. intros L one two. destruct (edged32_ok 1 lg _ (rounded_libm32_ok lg)) as (K & E & _). fold L in K, E.
  pose proof (rounded_ln_monotone32 lg : ln_monotone32 L) as M. destruct one_num as [N1 V1], two_num as [N2 V2], half_dec as [NH VH].
  fold one in N1, V1. fold two in N2, V2.
  assert (O : bpow radix2 (-100) <= 1 /\ 1 <= bpow radix2 69) by (split; [apply (bpow_le radix2 (-100) 0)|apply (bpow_le radix2 0 69)]; lia).
  split; [exact K|]. split; [exact E|]. split; [exact M|].
  split; [apply (C77_single_geometric 1 lg L); try assumption; [lra|lra|lia|lia]|].
  split; [apply (C77_single_gamma 1 lg L); try assumption; lra|].
  split; [apply (C77_single_chi_squared 1 lg L); try assumption; lra|].
  apply (C77_single_student_t 1 lg L); try assumption; [lra|rewrite V1; lra|rewrite V1, V2, !Rabs_pos_eq; lra].
Qed.
Example C77_single_discrete_case : forall lg, let L := edged32 (rounded_libm32 lg) in let one := f32_of_Z 1 in let zero := f32_of_Z 0 in
  libm32_ok 1 lg L /\ ln_edges32 L /\ ln_monotone32 L /\
  at_most (iid_log_density_fallback (bernoulli_base (@mkBernoulli (F32 L) one)) [0; 1]%nat) (iid_log_density_fallback (bernoulli_base (@mkBernoulli (F32 L) one)) [1; 1]%nat) /\
  at_most (iid_log_density_fallback (categorical_base (@mkCategorical (F32 L) [zero; one])) [0; 1]%nat) (iid_log_density_fallback (categorical_base (@mkCategorical (F32 L) [zero; one])) [1; 1]%nat).
Proof.
  intros lg L one zero. destruct (edged32_ok 1 lg _ (rounded_libm32_ok lg)) as (K & E & _). fold L in K, E. pose proof (rounded_ln_monotone32 lg : ln_monotone32 L) as M.
  destruct one_num as [N1 V1], zero_num as [N0 V0]. fold one in N1, V1. fold zero in N0, V0. split; [exact K|]. split; [exact E|]. split; [exact M|].
  destruct (C77_single_discrete_samples 1 lg L K ltac:(lra) E M) as (A & _ & B). split.
  - apply A; [exact N1|lra|]. repeat (apply Forall2_cons; [lia|]). apply Forall2_nil.
  - apply B; [constructor; [split; [exact N0|lra]|constructor; [split; [exact N1|lra]|constructor]]|].
    repeat (apply Forall2_cons; [split; [cbn; lia|split; [cbn; lia|cbn [nth]; fold one zero; lra]]|]). apply Forall2_nil.
Qed.
