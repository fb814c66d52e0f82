(** Collections of negative-binomial, Poisson and categorical samples (C28). *)
From Coq Require Import ZArith Reals List Bool Lra Lia Arith.
From Verif Require Import Num XRFacts DensitySpec BuilderProofs CoreModel CoreSpec CoreProofs
  CombModel ExpFamModel ExpFamSpec DistModel DistSpec DistFacts DistProofs DistProofs2 DistProofs3 DistProofs4
  ExpFamProofs ExpFamProofs4 PropsDist.
Import ListNotations.
Local Open Scope R_scope.
Local Open Scope list_scope.
Local Notation fin lg r := (Fin r : XR lg).

(** The negative binomial family drops (1 - p)^k for every sample (C29). *)
Theorem C28_negative_binomial_collection : forall lg r p d xs, lg_factorial lg ->
  negbinomial_new r (fin lg p) = Some d ->
  iid_log_density (negbinomial_expfam d) xs =
  Fin (Rsum (map (fun k => ln (negbinomial_pmf r p k) - INR k * ln (1 - p)) xs)).
Proof. exact negbinomial_collection. Qed.
Print Assumptions C28_negative_binomial_collection.
(** Poisson: the true joint log-density up to 4e-15 per sample (the factorials). *)
Theorem C28_poisson_collection : forall lg l d xs, poisson_new (fin lg l) = Some d -> exists v,
  iid_log_density (poisson_expfam d) xs = Fin v /\
  Rabs (v - Rsum (map (fun k => ln (poisson_pmf l k)) xs)) <= INR (length xs) * (4 / 10 ^ 15).
Proof. exact poisson_collection. Qed.
Print Assumptions C28_poisson_collection.
(** Categorical with positive probabilities, every sample a category: the true
    joint log-density less the logarithm of the sum of the probabilities per
    sample, which is the sum of the individual densities. *)
Theorem C28_categorical_collection : forall lg qs l d xs,
  categorical_new (fins (qs ++ [l]) : list (XR lg)) = Some d ->
  Forall (fun p => 0 < p) (qs ++ [l]) -> Forall (fun k => categorical_support d k = true) xs ->
  iid_log_density (categorical_expfam d) xs =
  Fin (Rsum (map (fun k => ln (categorical_pmf (qs ++ [l]) k) - ln (Rsum (qs ++ [l]))) xs)) /\
  iid_log_density (categorical_expfam d) xs = xsum (map (ef_density (categorical_expfam d)) xs).
Proof. exact categorical_collection_supported. Qed.
Print Assumptions C28_categorical_collection.
(** A sample that is no category has log-density minus infinity on its own, but a
    collection treats it as the last category. *)
Theorem C28_categorical_outside : forall lg qs l d n,
  categorical_new (fins (qs ++ [l]) : list (XR lg)) = Some d ->
  Forall (fun p => 0 < p) (qs ++ [l]) -> (length qs < n)%nat ->
  categorical_support d n = false /\ ef_density (categorical_expfam d) n = NInf /\ categorical_ld d n = NInf /\
  iid_log_density (categorical_expfam d) [n] = iid_log_density (categorical_expfam d) [length qs].
Proof. exact categorical_outside_finite. Qed.
Print Assumptions C28_categorical_outside.
Lemma two_categories : exists d, categorical_new (fins ([1/2] ++ [1/2]) : list (XR ln)) = Some d.
Proof.
  apply (proj2 (categorical_new_iff ln ([1/2] ++ [1/2]))). split; [discriminate|]. split; [repeat constructor; lra|].
  cbn [app]. unfold Rsum. cbn [fold_right]. replace (1 / 2 + (1 / 2 + 0) - 1) with 0 by lra. rewrite Rabs_R0. apply Rinv_0_lt_compat, pow_lt; lra.
Qed.
Theorem C28_categorical_outside_refuted : exists d, categorical_new (fins [1/2; 1/2] : list (XR ln)) = Some d /\
  xsum (map (ef_density (categorical_expfam d)) [0; 7]%nat) = NInf /\
  iid_log_density (categorical_expfam d) [0; 7]%nat = Fin (2 * ln (1/2)).
Proof.
  destruct two_categories as [d H]. exists d. split; [exact H|].
  assert (F : Forall (fun p => 0 < p) ([1/2] ++ [1/2])) by (cbn [app]; repeat (apply Forall_cons; [lra|]); apply Forall_nil).
  split.
  - destruct (categorical_outside_finite ln [1/2] (1/2) d 7 H F) as (_ & E & _); [cbn; lia|].
    assert (S : categorical_support d 0 = true) by (apply categorical_new_keeps in H; unfold categorical_support; rewrite H; reflexivity).
    destruct (c29_categorical ln [1/2] (1/2) d 0 H F S) as (_ & E0 & _).
    cbn [map]. unfold xsum. cbn [fold_right]. rewrite E, E0. reflexivity.
  - rewrite (categorical_collection ln [1/2] (1/2) d [0; 7]%nat H F). f_equal. unfold Rsum. cbn [app map nth fold_right].
    replace (1 / 2 + (1 / 2 + 0)) with 1 by lra. rewrite ln_1. ring.
Qed.
Print Assumptions C28_categorical_outside_refuted.
Example C28_collection_cases :
  (exists d, negbinomial_new 2 (fin ln (1/4)) = Some d) /\ (exists d, poisson_new (fin ln 3) = Some d) /\ lg_factorial lg_ex /\
  (exists d, categorical_new (fins ([1/2] ++ [1/2]) : list (XR ln)) = Some d /\ Forall (fun k => categorical_support d k = true) [0; 1; 1]%nat).
Proof.
  split; [|split; [|split]].
  - unfold negbinomial_new. cbn [Nat.ltb Nat.leb]. rewrite (proj2 (x_nb_iff ln (Fin (1/4)))); [eexists; reflexivity|]. exists (1/4). split; [reflexivity|lra].
  - exact C29_poisson_case.
  - exact lg_ex_factorial.
  - destruct two_categories as [d H]. exists d. split; [exact H|]. apply categorical_new_keeps in H.
    repeat (apply Forall_cons; [unfold categorical_support; rewrite H; reflexivity|]). apply Forall_nil.
Qed.
