(** Collections of negative-binomial, Poisson and categorical samples (C28). *)
From Coq Require Import ZArith Reals List Bool Lra Lia Arith.
From Verif Require Import Num XRFacts DensitySpec BuilderProofs CoreModel CoreSpec CoreProofs
  CombModel ExpFamModel ExpFamSpec DistModel DistSpec DistFacts DistProofs DistProofs2 DistProofs3 DistProofs4 ExpFamProofs FactProofs.
Import ListNotations.
Local Open Scope R_scope.
Local Open Scope list_scope.

Ltac side := first [ assumption | lra | nra
  | (apply Rgt_not_eq; first [assumption | lra | nra | apply exp_pos])
  | apply exp_pos | apply two_pi_pos | apply PI_RGT_0 ].
Ltac xr := xr_with side.

Section IidMore.
Context (lg : R -> R).
Notation X := (XR lg).

Lemma negbinomial_finite r p (xs : list nat) : 0 < p < 1 -> finite_family (negbinomial_expfam (@mkNegBinomial X r (Fin p))) xs.
Proof.
  intros P. unfold negbinomial_expfam. apply finite_intro; unfold expfam;
    cbn [ef_natural ef_partition ef_stat ef_dim nb_prob nb_r].
  - rewrite x_log_odds by exact P. eexists [_]. split; reflexivity.
  - rewrite x_log_odds by exact P.
    pose proof (exp_pos (ln (p / (1 - p)))) as E. assert (0 < 1 - p) by lra.
    xr_lits. xr_ops. repeat rewrite ?xexp_Fin, ?xadd_Fin. rewrite xdiv_fin by lra. rewrite xsub_Fin, sigmoid_odds by exact P.
    eexists. xr. reflexivity.
  - intros x _. exists [INR x]. split; [|reflexivity]. xr. reflexivity.
Qed.
Lemma negbinomial_collection r p d xs : lg_factorial lg -> negbinomial_new r (Fin p : X) = Some d ->
  iid_log_density (negbinomial_expfam d) xs = Fin (Rsum (map (fun k => ln (negbinomial_pmf r p k) - INR k * ln (1 - p)) xs)).
Proof.
  intros L H. apply negbinomial_new_fin in H. destruct H as (Rp & P & ->).
  apply iid_value; [apply negbinomial_finite; exact P|apply expfam_default|].
  intros k _. apply negbinomial_ef; assumption.
Qed.

Lemma poisson_collection l d xs : poisson_new (Fin l : X) = Some d -> exists v,
  iid_log_density (poisson_expfam d) xs = Fin v /\
  Rabs (v - Rsum (map (fun k => ln (poisson_pmf l k)) xs)) <= INR (length xs) * (4 / 10 ^ 15).
Proof.
  intros H. destruct (iid_discrete lg xs) as (_ & _ & _ & E). unfold iid_log_density in E. unfold iid_log_density. rewrite (E l d H).
  clear E. induction xs as [|k xs (v & E & B)].
  - exists 0. split; [reflexivity|]. cbn. rewrite Rminus_0_r, Rabs_R0. lra.
  - destruct (poisson_family_close lg l d k H) as (w & E' & B'). exists (w + v). split.
    + cbn [map]. change (xadd (ef_density (poisson_expfam d) k) (xsum (map (ef_density (poisson_expfam d)) xs)) = Fin (w + v)).
      rewrite E, E'. reflexivity.
    + cbn [map length]. rewrite S_INR. unfold Rsum in *. cbn [fold_right].
      match goal with |- Rabs (w + v - (?a + ?b)) <= _ => replace (w + v - (a + b)) with (w - a + (v - b)) by ring end.
      eapply Rle_trans; [apply Rabs_triang|]. lra.
Qed.

(** The collection ignores the support check of the categorical density. *)
Definition plain_categorical (d : @Categorical X) : ExpFam X nat :=
  expfam (length (ca_probs d) - 1) (categorical_log_odds d) (categorical_partition d) (categorical_stat d) prim.
Lemma categorical_collection_plain d xs : compute_iid (categorical_expfam d) xs = compute_iid (plain_categorical d) xs.
Proof. reflexivity. Qed.

Lemma unit_vec_length n k : length (unit_vec n k) = n.
Proof. unfold unit_vec. rewrite map_length. apply seq_length. Qed.
Lemma cat_stat_any qs l k :
  categorical_stat (@mkCategorical X (fins (qs ++ [l]))) k = fins (unit_vec (length qs) k).
Proof.
  destruct (Nat.lt_ge_cases k (length (qs ++ [l]))) as [K|K]; [apply x_cat_stat; exact K|].
  unfold categorical_stat, unit_vec, fins. cbn [ca_probs]. rewrite map_length, app_length, map_map in *.
  cbn [length] in *. replace (length qs + 1 - 1)%nat with (length qs) by lia.
  apply map_ext_in. intros i Hi. apply in_seq in Hi. rewrite x_n0, x_n1.
  replace (i =? k)%nat with false by (symmetry; apply Nat.eqb_neq; lia). rewrite andb_false_r.
  reflexivity.
Qed.
Lemma plain_categorical_finite qs l xs : 0 < l -> Forall (fun p => 0 < p) qs ->
  finite_family (plain_categorical (@mkCategorical X (fins (qs ++ [l])))) xs.
Proof.
  intros L F. unfold plain_categorical. apply finite_intro; unfold expfam; cbn [ef_natural ef_partition ef_stat ef_dim ca_probs].
  - rewrite x_cat_log_odds by assumption. eexists. split; [reflexivity|]. rewrite map_length, fins_length, app_length. cbn [length]. lia.
  - eexists. apply x_cat_partition; assumption.
  - intros x _. exists (unit_vec (length qs) x). rewrite cat_stat_any. split; [reflexivity|]. rewrite unit_vec_length, fins_length, app_length. cbn [length]. lia.
Qed.
Lemma plain_categorical_ef qs l k : 0 < l -> Forall (fun p => 0 < p) qs ->
  ef_density (plain_categorical (@mkCategorical X (fins (qs ++ [l])))) k =
  Fin (ln (if (k <? length qs)%nat then nth k qs 0 else l) - ln (Rsum (qs ++ [l]))).
Proof.
  intros L F. unfold plain_categorical, expfam, default_density. cbn [ef_density].
  rewrite x_cat_log_odds, x_cat_partition, cat_stat_any by assumption. rewrite dot_array_fin.
  rewrite <- (map_length (fun q => ln (q / l)) qs) at 1. rewrite rdot_unit.
  cbn [prim primitive b_ld]. rewrite x_n0. xr_ops. rewrite xsub_Fin, xadd_Fin. f_equal.
  destruct (Nat.ltb_spec k (length qs)) as [Lt|Ge].
  - rewrite (nth_indep _ 0 (ln (0 / l))) by (rewrite map_length; exact Lt).
    rewrite (map_nth (fun q => ln (q / l))).
    assert (0 < nth k qs 0) by (rewrite Forall_forall in F; apply F, nth_In, Lt).
    unfold Rdiv. rewrite ln_mult, ln_Rinv by (auto; apply Rinv_0_lt_compat; exact L). lra.
  - rewrite nth_overflow by (rewrite map_length; exact Ge). lra.
Qed.
Lemma categorical_collection qs l d xs : categorical_new (fins (qs ++ [l]) : list X) = Some d ->
  Forall (fun p => 0 < p) (qs ++ [l]) ->
  iid_log_density (categorical_expfam d) xs =
  Fin (Rsum (map (fun k => ln (nth k (qs ++ [l]) l) - ln (Rsum (qs ++ [l]))) xs)).
Proof.
  intros H F. apply categorical_new_keeps in H. destruct d as [ps]. cbn [ca_probs] in H. subst ps.
  apply Forall_app in F. destruct F as [F1 F2]. inversion F2; subst.
  unfold iid_log_density. rewrite categorical_collection_plain.
  apply iid_value; [apply plain_categorical_finite; assumption|apply expfam_default|].
  intros k _. rewrite plain_categorical_ef by assumption. do 3 f_equal.
  destruct (Nat.ltb_spec k (length qs)) as [Lt|Ge].
  - rewrite app_nth1 by exact Lt. apply nth_indep. exact Lt.
  - rewrite app_nth2 by exact Ge. destruct (k - length qs)%nat as [|[|j]]; reflexivity.
Qed.
Lemma categorical_collection_supported qs l d xs : categorical_new (fins (qs ++ [l]) : list X) = Some d ->
  Forall (fun p => 0 < p) (qs ++ [l]) -> Forall (fun k => categorical_support d k = true) xs ->
  iid_log_density (categorical_expfam d) xs =
  Fin (Rsum (map (fun k => ln (categorical_pmf (qs ++ [l]) k) - ln (Rsum (qs ++ [l]))) xs)) /\
  iid_log_density (categorical_expfam d) xs = xsum (map (ef_density (categorical_expfam d)) xs).
Proof.
  intros H F S. rewrite (categorical_collection qs l d xs H F). rewrite Forall_forall in S.
  assert (E : Rsum (map (fun k => ln (nth k (qs ++ [l]) l) - ln (Rsum (qs ++ [l]))) xs) =
              Rsum (map (fun k => ln (categorical_pmf (qs ++ [l]) k) - ln (Rsum (qs ++ [l]))) xs)).
  { f_equal. apply map_ext_in. intros k I. unfold categorical_pmf. f_equal. f_equal. apply nth_indep.
    specialize (S k I). apply categorical_new_keeps in H. unfold categorical_support in S. rewrite H, fins_length in S. apply Nat.ltb_lt in S. exact S. }
  rewrite E. split; [reflexivity|]. symmetry. apply xsum_map_fins. intros k I.
  apply (c29_categorical lg qs l d k H F (S k I)).
Qed.
Lemma categorical_outside_finite qs l d n : categorical_new (fins (qs ++ [l]) : list X) = Some d ->
  Forall (fun p => 0 < p) (qs ++ [l]) -> (length qs < n)%nat ->
  categorical_support d n = false /\ ef_density (categorical_expfam d) n = NInf /\ categorical_ld d n = NInf /\
  iid_log_density (categorical_expfam d) [n] = iid_log_density (categorical_expfam d) [length qs].
Proof.
  intros H F K. rewrite !(categorical_collection qs l d _ H F).
  apply categorical_new_keeps in H. destruct d as [ps]. cbn [ca_probs] in H. subst ps.
  assert (S : categorical_support (@mkCategorical X (fins (qs ++ [l]))) n = false).
  { unfold categorical_support. cbn [ca_probs]. rewrite fins_length, app_length. cbn [length]. apply Nat.ltb_ge. lia. }
  split; [exact S|]. split; [|split].
  - unfold categorical_expfam. cbn [ef_density]. rewrite S. reflexivity.
  - unfold categorical_ld. unfold categorical_support in S. rewrite S. reflexivity.
  - cbn [map]. do 4 f_equal. rewrite nth_overflow by (rewrite app_length; cbn [length]; lia). f_equal. rewrite app_nth2, Nat.sub_diag by lia. reflexivity.
Qed.
End IidMore.
