(** C77: log-densities are monotone in binary64. *)
From Coquelicot Require Import Coquelicot.
From Coq Require Import ZArith Reals Bool List Lia Lra.
From Coq Require Import Floats.SpecFloat.
From Flocq Require Import Core IEEE754.BinarySingleNaN.
From Verif Require Import Num JitModel EggSpec LitFacts EggNum FloatFacts FloatErr JitAcc JitAcc2 AccSpec AccProofs RoundSpec RoundProofs RelErr
  DensitySpec CoreModel CombModel ExpFamModel DistModel DistSpec DistFacts DistFloat IntSpec GammaFun ExtSpec ExtFloat ExtSum ExtProofs ExtInline MonoSpec MonoProofs MonoFam MonoSum.
Import ListNotations.
Local Open Scope R_scope.

(** Further from the mean is never more likely, however the residual, the
    quotient and the square round or overflow ... *)
Theorem C77_normal : forall c lg L mu sd x y, libm_ok c lg L -> 0 <= c <= 1000000 -> is_num mu -> is_num sd -> 0 < val sd -> is_num x -> is_num y ->
  Rabs (val x - val mu) <= Rabs (val y - val mu) ->
  at_most (normal_ld (@mkNormal (F64 L) mu sd) y) (normal_ld (@mkNormal (F64 L) mu sd) x).
Proof. intros c lg L mu sd x y K C0. exact (normal_mono c lg L K C0 mu sd x y). Qed.
Print Assumptions C77_normal.
(** ... so the mean is a maximum and equally distant points are equally likely. *)
Theorem C77_normal_mode_and_symmetry : forall c lg L mu sd y, libm_ok c lg L -> 0 <= c <= 1000000 -> is_num mu -> is_num sd -> 0 < val sd -> is_num y ->
  at_most (normal_ld (@mkNormal (F64 L) mu sd) y) (normal_ld (@mkNormal (F64 L) mu sd) mu) /\
  (forall x, is_num x -> val x - val mu = val mu - val y ->
     at_most (normal_ld (@mkNormal (F64 L) mu sd) x) (normal_ld (@mkNormal (F64 L) mu sd) y) /\
     at_most (normal_ld (@mkNormal (F64 L) mu sd) y) (normal_ld (@mkNormal (F64 L) mu sd) x)).
Proof.
  intros c lg L mu sd y K C0 NM NS P Y. split.
  - apply (normal_mono c lg L K C0 mu sd mu y NM NS P NM Y). replace (val mu - val mu) with 0 by ring. rewrite Rabs_R0. apply Rabs_pos.
  - intros x X E. assert (Q : Rabs (val x - val mu) = Rabs (val y - val mu)) by (rewrite E; apply Rabs_minus_sym).
    split; apply (normal_mono c lg L K C0); try assumption; rewrite Q; lra.
Qed.
Print Assumptions C77_normal_mode_and_symmetry.
Theorem C77_exponential : forall c lg L rate x y, libm_ok c lg L -> 0 <= c <= 1000000 -> is_num rate -> 0 < val rate -> is_num x -> is_num y ->
  0 <= val x <= val y -> at_most (exponential_ld (@mkExponential (F64 L) rate) y) (exponential_ld (@mkExponential (F64 L) rate) x).
Proof. intros c lg L rate x y K C0. exact (exponential_mono c lg L K C0 rate x y). Qed.
Print Assumptions C77_exponential.
Theorem C77_static_inline : forall c lg L, libm_ok c lg L -> 0 <= c <= 1000000 ->
  (forall mu sd x y, is_num mu -> is_num sd -> bpow radix2 (-510) <= val sd <= bpow radix2 510 -> is_num x -> is_num y ->
     Rabs (val x - val mu) <= Rabs (val y - val mu) -> at_most (@compile_normal (F64 L) mu sd y) (@compile_normal (F64 L) mu sd x)) /\
  (forall rate x y, is_num rate -> 0 < val rate -> is_num x -> is_num y -> 0 <= val x <= val y ->
     at_most (@compile_exponential (F64 L) rate y) (@compile_exponential (F64 L) rate x)).
Proof. intros c lg L K C0. split; [exact (inline_normal_mono c lg L K C0)|exact (exponential_mono c lg L K C0)]. Qed.
Print Assumptions C77_static_inline.
(** With a logarithm that never decreases. *)
Theorem C77_cauchy : forall c lg L loc sc x y, libm_ok c lg L -> 0 <= c <= 1000000 -> ln_edges L -> ln_monotone L ->
  is_num loc -> is_num sc -> 0 < val sc -> is_num x -> is_num y -> Rabs (val x - val loc) <= Rabs (val y - val loc) ->
  at_most (cauchy_ld (@mkCauchy (F64 L) loc sc) y) (cauchy_ld (@mkCauchy (F64 L) loc sc) x).
Proof. intros c lg L loc sc x y K C0 E M. exact (cauchy_mono c lg L K C0 E M loc sc x y). Qed.
Print Assumptions C77_cauchy.
Theorem C77_student_t : forall c lg L nu x y, libm_ok c lg L -> 0 <= c <= 1000000 -> ln_edges L -> ln_monotone L -> lg_is_log_gamma lg ->
  is_num nu -> bpow radix2 (-1000) <= val nu <= bpow radix2 879 -> is_num x -> is_num y -> Rabs (val x) <= Rabs (val y) ->
  at_most (student_ld (@mkStudent (F64 L) nu) y) (student_ld (@mkStudent (F64 L) nu) x).
Proof. intros c lg L nu x y K C0 E M G. exact (student_mono c lg L K C0 E M nu x y (lg_is_moderate lg G)). Qed.
Print Assumptions C77_student_t.
Theorem C77_geometric : forall c lg L p k l, libm_ok c lg L -> 0 <= c <= 1000000 -> ln_monotone L ->
  is_num p -> 0 < val p < 1 -> (1 <= k <= l)%nat -> (Z.of_nat l <= 2 ^ 64)%Z ->
  at_most (geometric_ld (@mkGeometric (F64 L) p) l) (geometric_ld (@mkGeometric (F64 L) p) k).
Proof. intros c lg L p k l K C0 M. exact (geometric_mono c lg L K C0 M p k l). Qed.
Print Assumptions C77_geometric.

Theorem C77_gamma : forall c lg L a b x y, libm_ok c lg L -> 0 <= c <= 1000000 -> ln_monotone L -> lg_is_log_gamma lg ->
  is_num a -> is_num b -> 0 < val a <= 1 -> 0 < val b -> is_num x -> is_num y -> 0 < val x <= val y ->
  at_most (gamma_ld (@mkGamma (F64 L) a b) y) (gamma_ld (@mkGamma (F64 L) a b) x).
Proof. intros c lg L a b x y K C0 M G. exact (gamma_mono c lg L K C0 M a b x y (lg_is_moderate lg G)). Qed.
Print Assumptions C77_gamma.
Theorem C77_chi_squared : forall c lg L k x y, libm_ok c lg L -> 0 <= c <= 1000000 -> ln_monotone L -> lg_is_log_gamma lg ->
  is_num k -> bpow radix2 (-1000) <= val k <= 2 -> is_num x -> is_num y -> 0 < val x <= val y ->
  at_most (chi_ld (@mkChi (F64 L) k) y) (chi_ld (@mkChi (F64 L) k) x).
Proof. intros c lg L k x y K C0 M G. exact (chi_mono c lg L K C0 M k x y (lg_is_moderate lg G)). Qed.
Print Assumptions C77_chi_squared.
(** The likelier outcome of a Bernoulli or categorical variable never gets the
    smaller log-density, probability zero included. *)
Theorem C77_bernoulli : forall c lg L p, libm_ok c lg L -> 0 <= c <= 1000000 -> ln_monotone L -> ln_edges L -> is_num p -> 0 <= val p <= 1 ->
  (/ 2 <= val p -> at_most (bernoulli_ld (@mkBernoulli (F64 L) p) 0) (bernoulli_ld (@mkBernoulli (F64 L) p) 1)) /\
  (val p <= / 2 -> at_most (bernoulli_ld (@mkBernoulli (F64 L) p) 1) (bernoulli_ld (@mkBernoulli (F64 L) p) 0)).
Proof. intros c lg L p K C0 M E. exact (bernoulli_order c lg L K C0 M E p). Qed.
Print Assumptions C77_bernoulli.
Theorem C77_categorical : forall c lg L ps i j, libm_ok c lg L -> 0 <= c <= 1000000 -> ln_monotone L -> ln_edges L ->
  Forall (fun p => is_num p /\ 0 <= val p) ps -> (i < length ps)%nat -> (j < length ps)%nat ->
  val (nth i ps (f64_of_Z 0)) <= val (nth j ps (f64_of_Z 0)) ->
  at_most (categorical_ld (@mkCategorical (F64 L) ps) i) (categorical_ld (@mkCategorical (F64 L) ps) j).
Proof. intros c lg L ps i j K C0 M E. exact (categorical_order c lg L K C0 M E ps i j). Qed.
Print Assumptions C77_categorical.
(** Samples of any length, point by point: the summed log-density respects the
    order although every partial sum is rounded. *)
Theorem C77_samples : forall c lg L, libm_ok c lg L -> 0 <= c <= 1000000 ->
  (forall mu sd xs ys, is_num mu -> is_num sd -> 0 < val sd ->
     Forall2 (fun x y => is_num x /\ is_num y /\ Rabs (val x - val mu) <= Rabs (val y - val mu)) xs ys ->
     at_most (iid_log_density_fallback (normal_base (@mkNormal (F64 L) mu sd)) ys) (iid_log_density_fallback (normal_base (@mkNormal (F64 L) mu sd)) xs) /\
     (ln_edges L -> ln_monotone L ->
      at_most (iid_log_density_fallback (cauchy_base (@mkCauchy (F64 L) mu sd)) ys) (iid_log_density_fallback (cauchy_base (@mkCauchy (F64 L) mu sd)) xs))) /\
  (forall rate xs ys, is_num rate -> 0 < val rate -> Forall2 (fun x y => is_num x /\ is_num y /\ 0 <= val x <= val y) xs ys ->
     at_most (iid_log_density_fallback (exponential_base (@mkExponential (F64 L) rate)) ys) (iid_log_density_fallback (exponential_base (@mkExponential (F64 L) rate)) xs)).
Proof.
  assert (I2 : forall A (P Q : A -> A -> Prop) xs ys, (forall x y, P x y -> Q x y) -> Forall2 P xs ys -> Forall2 Q xs ys) by (induction 2; constructor; auto).
  intros c lg L K C0. split.
  - intros mu sd xs ys N S P H. split.
    + apply (sample_mono L). refine (I2 _ _ _ _ _ _ H). intros x y (X & Y & D).
      split; [exact (normal_capped c lg L K C0 mu sd x N S P (or_introl X))|]. split; [exact (normal_capped c lg L K C0 mu sd y N S P (or_introl Y))|].
      exact (normal_mono c lg L K C0 mu sd x y N S P X Y D).
    + intros E M. apply (sample_mono L). refine (I2 _ _ _ _ _ _ H). intros x y (X & Y & D).
      split; [exact (cauchy_capped c lg L K C0 E mu sd x N S P (or_introl X))|]. split; [exact (cauchy_capped c lg L K C0 E mu sd y N S P (or_introl Y))|].
      exact (cauchy_mono c lg L K C0 E M mu sd x y N S P X Y D).
  - intros rate xs ys N P H. apply (sample_mono L). refine (I2 _ _ _ _ _ _ H). intros x y (X & Y & D).
    split; [exact (exponential_capped c lg L K C0 rate x N P (or_introl X))|]. split; [exact (exponential_capped c lg L K C0 rate y N P (or_introl Y))|].
    exact (exponential_mono c lg L K C0 rate x y N P X Y D).
Qed.
Print Assumptions C77_samples.
Theorem C77_discrete_samples : forall c lg L, libm_ok c lg L -> 0 <= c <= 1000000 -> ln_edges L -> ln_monotone L ->
  (forall p xs ys, is_num p -> / 2 <= val p <= 1 -> Forall2 (fun x y => (y <= x <= 1)%nat) xs ys ->
     at_most (iid_log_density_fallback (bernoulli_base (@mkBernoulli (F64 L) p)) ys) (iid_log_density_fallback (bernoulli_base (@mkBernoulli (F64 L) p)) xs)) /\
  (forall p xs ys, is_num p -> 0 <= val p <= / 2 -> Forall2 (fun x y => (x <= y <= 1)%nat) xs ys ->
     at_most (iid_log_density_fallback (bernoulli_base (@mkBernoulli (F64 L) p)) ys) (iid_log_density_fallback (bernoulli_base (@mkBernoulli (F64 L) p)) xs)) /\
  (forall ps xs ys, Forall (fun p => is_num p /\ 0 <= val p) ps ->
     Forall2 (fun i j => (i < length ps)%nat /\ (j < length ps)%nat /\ val (nth j ps (f64_of_Z 0)) <= val (nth i ps (f64_of_Z 0))) xs ys ->
     at_most (iid_log_density_fallback (categorical_base (@mkCategorical (F64 L) ps)) ys) (iid_log_density_fallback (categorical_base (@mkCategorical (F64 L) ps)) xs)).
Proof.
  assert (I2 : forall A (P Q : A -> A -> Prop) xs ys, (forall x y, P x y -> Q x y) -> Forall2 P xs ys -> Forall2 Q xs ys) by (induction 2; constructor; auto).
  intros c lg L K C0 E M. split; [|split].
  - intros p xs ys N P H. assert (P' : 0 <= val p <= 1) by lra. apply (sample_mono L). refine (I2 _ _ _ _ _ _ H). intros x y D.
    split; [exact (bernoulli_capped c lg L K C0 E p x N P')|]. split; [exact (bernoulli_capped c lg L K C0 E p y N P')|]. cbn [b_ld bernoulli_base].
    pose proof (proj1 (C77_bernoulli c lg L p K C0 M E N P') (proj1 P)) as G.
    destruct x as [|[|x]], y as [|[|y]]; try lia; try exact G; apply fle_at_most; (split; [|split; [|right; reflexivity]]); apply capped_nn, (bernoulli_capped c lg L K C0 E p _ N P').
  - intros p xs ys N P H. assert (P' : 0 <= val p <= 1) by lra. apply (sample_mono L). refine (I2 _ _ _ _ _ _ H). intros x y D.
    split; [exact (bernoulli_capped c lg L K C0 E p x N P')|]. split; [exact (bernoulli_capped c lg L K C0 E p y N P')|]. cbn [b_ld bernoulli_base].
    pose proof (proj2 (C77_bernoulli c lg L p K C0 M E N P') (proj2 P)) as G.
    destruct x as [|[|x]], y as [|[|y]]; try lia; try exact G; apply fle_at_most; (split; [|split; [|right; reflexivity]]); apply capped_nn, (bernoulli_capped c lg L K C0 E p _ N P').
  - intros ps xs ys N H. apply (sample_mono L). refine (I2 _ _ _ _ _ _ H). intros i j (I & J & D).
    split; [exact (categorical_capped c lg L K C0 E ps i N)|]. split; [exact (categorical_capped c lg L K C0 E ps j N)|].
    exact (C77_categorical c lg L ps j i K C0 M E N J I D).
Qed.
Print Assumptions C77_discrete_samples.

(** Through the exponential family the normal with mean 205008146833 and standard
    deviation 1 is 0 at its mean and 4194304 at 174 standard deviations from it:
    the squares cancel. *)
Theorem C77_family_refuted : forall c lg L, libm_ok c lg L -> 0 <= c <= 1000000 ->
  let mu := f64_of_Z 205008146833 in let y := f64_of_Z 205008147007 in
  let ld := ef_density (normal_expfam (@mkNormal (F64 L) mu (f64_of_Z 1))) in
  val y - val mu = 174 /\ is_num (ld mu) /\ val (ld mu) = 0 /\ is_num (ld y) /\ val (ld y) = 4194304 /\ ~ at_most (ld y) (ld mu).
Proof.
  intros c lg L K C0 mu y ld. destruct (fam_rises c lg L K C0) as (A & B & A' & B'). change fam_mean with mu in A, B, A', B'. change fam_away with y in A', B'. fold ld in A, B, A', B'.
  destruct (num_int 205008146833 ltac:(vm_compute; discriminate)) as [_ V]. destruct (num_int 205008147007 ltac:(vm_compute; discriminate)) as [_ W].
  split; [unfold y, mu; rewrite V, W; lra|]. repeat (split; [assumption|]). intros H. pose proof (ev_at_most _ _ A' A H) as Q. rewrite !ev_num, B, B' in Q by assumption. lra.
Qed.
Print Assumptions C77_family_refuted.

(** * Cases *)
Lemma rounded_ln lg a : is_num a -> 0 < val a -> is_num (l_ln (edged (rounded_libm lg)) a) /\ val (l_ln (edged (rounded_libm lg)) a) = RN (ln (val a)).
Proof.
  intros N P. destruct (pos_finite a N P) as (m & e & E). replace (l_ln (edged (rounded_libm lg)) a) with (nearest (ln (val a))) by (rewrite E; reflexivity).
  apply nearest_ok. apply (RN_small _ 20); [lia|]. eapply Rle_trans; [apply ln_any; assumption|]. change (bpow radix2 20) with 1048576. lra.
Qed.
Lemma rounded_ln_monotone lg : ln_monotone (edged (rounded_libm lg)).
Proof.
  destruct one_num as [N1 V1]. split; [rewrite (proj2 (rounded_ln lg _ N1 ltac:(lra))), V1, ln_1; apply round_0; apply valid_rnd_N|].
  intros a b A B H. destruct (rounded_ln lg a A ltac:(lra)) as [NA VA], (rounded_ln lg b B ltac:(lra)) as [NB VB].
  apply at_most_ev; [left; exact NA|left; exact NB|]. rewrite !ev_num by assumption. rewrite VA, VB. apply RN_mono.
  destruct (proj2 H) as [Q|Q]; [left; apply ln_increasing; lra|rewrite Q; right; reflexivity].
Qed.
(** A correctly rounded library meets the hypotheses; the standard normal, Cauchy
    and Student's t at 1 and 2 and the exponential and geometric at 1 and 2. *)
Example C77_case : exists lg, lg_is_log_gamma lg /\ let L := edged (rounded_libm lg) in let one := f64_of_Z 1 in let two := f64_of_Z 2 in let zero := f64_of_Z 0 in
  libm_ok 1 lg L /\ ln_edges L /\ ln_monotone L /\
  at_most (normal_ld (@mkNormal (F64 L) zero one) two) (normal_ld (@mkNormal (F64 L) zero one) one) /\
  at_most (exponential_ld (@mkExponential (F64 L) one) two) (exponential_ld (@mkExponential (F64 L) one) one) /\
  at_most (cauchy_ld (@mkCauchy (F64 L) zero one) two) (cauchy_ld (@mkCauchy (F64 L) zero one) one) /\
  at_most (student_ld (@mkStudent (F64 L) one) two) (student_ld (@mkStudent (F64 L) one) one) /\
  at_most (geometric_ld (@mkGeometric (F64 L) (f64_dec 5 10)) 2) (geometric_ld (@mkGeometric (F64 L) (f64_dec 5 10)) 1) /\
  at_most (@compile_normal (F64 L) zero one two) (@compile_normal (F64 L) zero one one) /\
  at_most (gamma_ld (@mkGamma (F64 L) one one) two) (gamma_ld (@mkGamma (F64 L) one one) one) /\
  at_most (chi_ld (@mkChi (F64 L) one) two) (chi_ld (@mkChi (F64 L) one) one) /\
  at_most (bernoulli_ld (@mkBernoulli (F64 L) one) 0) (bernoulli_ld (@mkBernoulli (F64 L) one) 1) /\
  at_most (categorical_ld (@mkCategorical (F64 L) [zero; one]) 0) (categorical_ld (@mkCategorical (F64 L) [zero; one]) 1) /\
  at_most (iid_log_density_fallback (normal_base (@mkNormal (F64 L) zero one)) [two; two]) (iid_log_density_fallback (normal_base (@mkNormal (F64 L) zero one)) [one; two]) /\
  ~ at_most two one.
Proof.
  destruct log_gamma_exists as [lg G]. exists lg. split; [exact G|]. intros L one two zero. destruct (edged_ok 1 lg _ (rounded_libm_ok lg)) as (K & E & _). fold L in K, E.
  pose proof (rounded_ln_monotone lg : ln_monotone L) as M. destruct one_num as [N1 V1], zero_num as [N0 V0], two_num as [N2 V2], half_dec as [NH VH].
  fold one in N1, V1. fold zero in N0, V0. fold two in N2, V2.
  assert (D : Rabs (val one - val zero) <= Rabs (val two - val zero)) by (rewrite V0, V1, V2, !Rabs_pos_eq; lra).
  assert (O : bpow radix2 (-1000) <= 1 /\ 1 <= bpow radix2 879) by (split; [apply (bpow_le radix2 (-1000) 0)|apply (bpow_le radix2 0 879)]; lia).
  assert (O' : bpow radix2 (-510) <= 1 /\ 1 <= bpow radix2 510) by (split; [apply (bpow_le radix2 (-510) 0)|apply (bpow_le radix2 0 510)]; lia).
  split; [exact K|]. split; [exact E|]. split; [exact M|].
  split; [apply (C77_normal 1 lg L); try assumption; lra|].
  split; [apply (C77_exponential 1 lg L); try assumption; lra|].
  split; [apply (C77_cauchy 1 lg L); try assumption; lra|].
  split; [apply (C77_student_t 1 lg L); try assumption; [lra|rewrite V1; lra|rewrite V1, V2, !Rabs_pos_eq; lra]|].
  split; [apply (C77_geometric 1 lg L); try assumption; [lra|lra|lia|lia]|].
  split; [refine (proj1 (C77_static_inline 1 lg L K _) zero one one two N0 N1 _ N1 N2 D); [lra|rewrite V1; exact O']|].
  split; [apply (C77_gamma 1 lg L); try assumption; lra|].
  split; [apply (C77_chi_squared 1 lg L); try assumption; lra|].
  split; [refine (proj1 (C77_bernoulli 1 lg L one K _ M E N1 _) _); lra|].
  split; [apply (C77_categorical 1 lg L); try assumption; [lra|constructor; [split; [exact N0|lra]|constructor; [split; [exact N1|lra]|constructor]]|cbn; lia|cbn; lia|cbn [nth]; lra]|].
  split; [refine (proj1 (proj1 (C77_samples 1 lg L K _) zero one [one; two] [two; two] N0 N1 _ _)); [lra|lra|apply Forall2_cons; [auto|apply Forall2_cons; [split; [exact N2|split; [exact N2|lra]]|apply Forall2_nil]]]|].
  unfold at_most. vm_compute. discriminate.
Qed.
Example C77_discrete_case : forall lg, let L := edged (rounded_libm lg) in let one := f64_of_Z 1 in let zero := f64_of_Z 0 in
  libm_ok 1 lg L /\ ln_edges L /\ ln_monotone L /\
  at_most (iid_log_density_fallback (bernoulli_base (@mkBernoulli (F64 L) one)) [0; 1]%nat) (iid_log_density_fallback (bernoulli_base (@mkBernoulli (F64 L) one)) [1; 1]%nat) /\
  at_most (iid_log_density_fallback (categorical_base (@mkCategorical (F64 L) [zero; one])) [0; 1]%nat) (iid_log_density_fallback (categorical_base (@mkCategorical (F64 L) [zero; one])) [1; 1]%nat).
Proof.
  intros lg L one zero. destruct (edged_ok 1 lg _ (rounded_libm_ok lg)) as (K & E & _). fold L in K, E. pose proof (rounded_ln_monotone lg : ln_monotone L) as M.
  destruct one_num as [N1 V1], zero_num as [N0 V0]. fold one in N1, V1. fold zero in N0, V0. split; [exact K|]. split; [exact E|]. split; [exact M|].
  destruct (C77_discrete_samples 1 lg L K ltac:(lra) E M) as (A & _ & B). split.
  - apply A; [exact N1|lra|]. repeat (apply Forall2_cons; [lia|]). apply Forall2_nil.
  - apply B; [constructor; [split; [exact N0|lra]|constructor; [split; [exact N1|lra]|constructor]]|].
    repeat (apply Forall2_cons; [split; [cbn; lia|split; [cbn; lia|cbn [nth]; fold one zero; lra]]|]). apply Forall2_nil.
Qed.
