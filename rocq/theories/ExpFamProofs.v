(** IID collections (C28). *)
From Coq Require Import ZArith Reals List Bool Lra Lia Arith Sorting.Permutation.
From Verif Require Import Num XRFacts DensitySpec BuilderProofs CoreModel CoreSpec CoreProofs
  CombModel ExpFamModel ExpFamSpec DistModel DistSpec DistFacts DistProofs DistProofs2 DistProofs3 DistProofs4.
Import ListNotations.
Local Open Scope R_scope.
Local Open Scope list_scope.

Section Iid.
Context (lg : R -> R).
Notation X := (XR lg).

Lemma rdot_nth a : forall b, length a = length b ->
  rdot a b = Rsum (map (fun i => nth i a 0 * nth i b 0) (seq 0 (length a))).
Proof.
  induction a as [|x a IH]; intros [|y b] E; try discriminate; [reflexivity|].
  cbn [length seq map nth]. change (x * y + rdot a b = x * y + Rsum (map (fun i => nth i (x :: a) 0 * nth i (y :: b) 0) (seq 1 (length a)))).
  f_equal. rewrite IH by (cbn in E; lia). rewrite <- seq_shift, map_map. reflexivity.
Qed.
Lemma Rsum_plus {A} (f g : A -> R) l : Rsum (map (fun a => f a + g a) l) = Rsum (map f l) + Rsum (map g l).
Proof.
  induction l as [|a l IH]; [cbn; lra|].
  change (f a + g a + Rsum (map (fun a => f a + g a) l) = f a + Rsum (map f l) + (g a + Rsum (map g l))). lra.
Qed.
Lemma Rsum_scale {A} c (f : A -> R) l : Rsum (map (fun a => c * f a) l) = c * Rsum (map f l).
Proof.
  induction l as [|a l IH]; [cbn; lra|].
  change (c * f a + Rsum (map (fun a => c * f a) l) = c * (f a + Rsum (map f l))). rewrite IH; lra.
Qed.
Lemma Rsum_swap {A B} (f : A -> B -> R) l m :
  Rsum (map (fun a => Rsum (map (f a) m)) l) = Rsum (map (fun b => Rsum (map (fun a => f a b) l)) m).
Proof.
  induction l as [|a l IH].
  - cbn [map]. change (Rsum []) with 0. induction m as [|b m I]; [reflexivity|].
    change (0 = 0 + Rsum (map (fun _ => 0) m)). rewrite <- I. lra.
  - change (Rsum (map (f a) m) + Rsum (map (fun a => Rsum (map (f a) m)) l) =
            Rsum (map (fun b => f a b + Rsum (map (fun a => f a b) l)) m)).
    rewrite IH, Rsum_plus. reflexivity.
Qed.
Lemma Rsum_const {A} c (l : list A) : Rsum (map (fun _ => c) l) = INR (length l) * c.
Proof. rewrite map_const, Rsum_repeat. reflexivity. Qed.

Lemma dot_stats {T} (t : T -> list R) (eta : list R) xs out :
  (forall x, In x xs -> length (t x) = length eta) -> length out = length eta ->
  (forall i, nth i out 0 = column_sum i (map t xs)) ->
  rdot eta out = Rsum (map (fun x => rdot eta (t x)) xs).
Proof.
  intros Lt Lo O. rewrite rdot_nth by auto.
  rewrite (map_ext _ (fun i => Rsum (map (fun x => nth i eta 0 * nth i (t x) 0) xs))).
  - rewrite Rsum_swap. f_equal. apply map_ext_in. intros x Hx. rewrite rdot_nth by (symmetry; auto). reflexivity.
  - intros i. rewrite O. unfold column_sum. rewrite map_map, <- Rsum_scale. reflexivity.
Qed.

Lemma iid_parts {T} (d : ExpFam X T) eta A t xs :
  ef_natural d = fins eta -> ef_partition d = Fin A ->
  (forall x, In x xs -> ef_stat d x = fins (t x) /\ length (t x) = ef_dim d) -> length eta = ef_dim d ->
  dot_array (ef_natural d) (sum_sufficient_stats (ef_dim d) (map (ef_stat d) xs)) =
    Fin (Rsum (map (fun x => rdot eta (t x)) xs)) /\
  (forall x, In x xs -> nsub (dot_array (ef_natural d) (ef_stat d x)) (ef_partition d) = (Fin (rdot eta (t x) - A) : X)).
Proof.
  intros E1 E2 E3 L. rewrite E1, E2. split.
  - rewrite (map_ext_in _ (fun x => fins (t x))) by (intros x Hx; apply E3; exact Hx). rewrite <- map_map.
    destruct (sums_componentwise lg (ef_dim d) (map t xs)) as (out & S1 & _ & Lo & O).
    { intros r Hr. apply in_map_iff in Hr. destruct Hr as (x & <- & Hx). apply E3; exact Hx. }
    rewrite S1, dot_array_fin. f_equal. apply dot_stats; [|lia|exact O].
    intros x Hx. rewrite L. apply E3; exact Hx.
  - intros x Hx. destruct (E3 x Hx) as [-> _]. rewrite dot_array_fin. reflexivity.
Qed.

Lemma Rsum_minus_const {A} (f : A -> R) c l :
  Rsum (map (fun a => f a - c) l) = Rsum (map f l) - INR (length l) * c.
Proof.
  induction l as [|a l IH]; [cbn; lra|]. cbn [length]. rewrite S_INR.
  change (f a - c + Rsum (map (fun a => f a - c) l) = f a + Rsum (map f l) - (INR (length l) + 1) * c). lra.
Qed.

Lemma iid_is_sum {T} (d : ExpFam X T) xs : finite_family d xs -> default_form d ->
  compute_iid d xs = xsum (map (ef_density d) xs).
Proof.
  intros (eta & A & t & E1 & E2 & E3 & L) F.
  rewrite (map_ext _ _ F). unfold default_density.
  destruct xs as [|x0 xs']; [cbn [compute_iid map]; rewrite x_n0; reflexivity|]. unfold compute_iid.
  set (xs := x0 :: xs') in *.
  destruct (iid_parts d eta A t xs E1 E2 E3 L) as [D1 D2].
  rewrite D1, E2, x_nofn, fold_left_xsum, x_n0, xadd_0_l. cbn zeta.
  match goal with |- context[xsum (map ?f xs)] => match f with (fun x => nadd _ _) =>
    replace (xsum (map f xs)) with (xsum (map (fun x => xadd (Fin (rdot eta (t x) - A)) (b_ld (ef_base d) x)) xs))
      by (f_equal; apply map_ext_in; intros x Hx; rewrite <- E2, D2 by exact Hx; reflexivity) end end.
  rewrite xsum_map_add. rewrite <- (map_map (fun x => rdot eta (t x) - A) Fin).
  change (map Fin ?l) with (fins l). rewrite xsum_fins, Rsum_minus_const.
  xr_ops. rewrite xmul_Fin, xsub_Fin. reflexivity.
Qed.

(** The closure uses the partition of one sample, whatever the number of samples. *)
Lemma iid_closure {T} (d : ExpFam X T) xs A : finite_family d xs -> default_form d -> ef_partition d = Fin A ->
  zero_overhead (iid_expfam d) xs =
  xadd (xsum (map (ef_density d) xs)) (Fin ((INR (length xs) - 1) * A)).
Proof.
  intros (eta & A' & t & E1 & E2 & E3 & L) F EA. rewrite E2 in EA. injection EA as ->.
  rewrite (map_ext _ _ F). unfold default_density.
  destruct (iid_parts d eta A t xs E1 E2 E3 L) as [D1 D2].
  unfold zero_overhead, iid_expfam. cbn [ef_natural ef_stat ef_partition ef_base iid_base b_ld].
  rewrite D1, E2, x_n1, fold_left_xsum, x_n0, xadd_0_l.
  match goal with |- context[xsum (map ?f xs)] => match f with (fun x => nadd _ _) =>
    replace (xsum (map f xs)) with (xsum (map (fun x => xadd (Fin (rdot eta (t x) - A)) (b_ld (ef_base d) x)) xs))
      by (f_equal; apply map_ext_in; intros x Hx; rewrite <- E2, D2 by exact Hx; reflexivity) end end.
  rewrite xsum_map_add. rewrite <- (map_map (fun x => rdot eta (t x) - A) Fin).
  change (map Fin ?l) with (fins l). rewrite xsum_fins, Rsum_minus_const.
  xr_ops. rewrite xmul_Fin, xsub_Fin. rewrite (xadd_comm _ (Fin ((INR (length xs) - 1) * A))), <- xadd_assoc, xadd_Fin.
  f_equal. f_equal. ring.
Qed.

Lemma iid_support {T} (dist : Base X T) xs :
  iid_in_support dist xs = true <-> Forall (fun x => b_support dist x = true) xs.
Proof. unfold iid_in_support. rewrite forallb_forall, Forall_forall. tauto. Qed.
Lemma iid_supports {T} (dist : Base X T) (d : ExpFam X T) xs :
  (b_support (m_self (iid_measure dist d)) xs = true <-> Forall (fun x => b_support dist x = true) xs) /\
  (b_support (ef_base (iid_expfam d)) xs = true <-> Forall (fun x => b_support (ef_base d) x = true) xs).
Proof.
  split; [apply iid_support|]. unfold iid_expfam, iid_base. cbn [ef_base b_support]. rewrite forallb_forall, Forall_forall. tauto.
Qed.

Lemma fallback_is_sum {T} (dist : Base X T) xs :
  iid_log_density_fallback dist xs = xsum (map (b_ld dist) xs).
Proof. unfold iid_log_density_fallback. rewrite fold_left_xsum, x_n0. apply xadd_0_l. Qed.

(** ** The array-based families are finite at finite samples *)
Ltac side := first [ assumption | lra | nra
  | (apply Rgt_not_eq; first [assumption | lra | nra | apply exp_pos])
  | apply exp_pos | apply two_pi_pos
  | (apply Rmult_lt_0_compat; first [assumption | lra | nra | apply two_pi_pos | apply PI_RGT_0 | apply exp_pos]) ].
Ltac xr := xr_with side.
Definition real (v : xreal) : R := match v with Fin r => r | _ => 0 end.
Definition stat_of {T} (d : ExpFam X T) (x : T) : list R := map real (ef_stat d x).
Lemma finite_intro {T} (d : ExpFam X T) xs :
  (exists eta, ef_natural d = fins eta /\ length eta = ef_dim d) -> (exists A, ef_partition d = Fin A) ->
  (forall x, In x xs -> exists t, ef_stat d x = fins t /\ length t = ef_dim d) -> finite_family d xs.
Proof.
  intros (eta & E1 & L) (A & E2) E3. exists eta, A, (stat_of d).
  split; [exact E1|]. split; [exact E2|]. split; [|exact L].
  intros x Hx. destruct (E3 x Hx) as (t & E & Lt). unfold stat_of. rewrite E. unfold fins.
  rewrite !map_map. cbn [real]. rewrite map_id. auto.
Qed.
Ltac fam := apply finite_intro; [eexists; split; [|reflexivity] | | ];
  unfold expfam; cbn [ef_natural ef_partition ef_stat ef_dim].
Lemma in_fins x xs : In x (fins xs) -> exists r, x = Fin r /\ In r xs.
Proof. intros H. apply in_map_iff in H. destruct H as (r & <- & H). eauto. Qed.

Lemma normal_finite m s xs : 0 < s -> finite_family (normal_expfam (@mkNormal X (Fin m) (Fin s))) (fins xs).
Proof.
  intros P. assert (0 < s * s) by nra. pose proof two_pi_pos.
  unfold normal_expfam, normal_variance. apply finite_intro; unfold expfam;
    cbn [ef_natural ef_partition ef_stat ef_dim n_mean n_sd].
  - exists [m * (1 / (s * s)); -5 / 10 * (1 / (s * s))]. split; [|reflexivity]. xr. reflexivity.
  - eexists. xr. reflexivity.
  - intros x Hx. apply in_fins in Hx. destruct Hx as (r & -> & _). exists [r; r * r]. split; reflexivity.
Qed.
Lemma exponential_finite l xs : 0 < l -> finite_family (exponential_expfam (@mkExponential X (Fin l))) (fins xs).
Proof.
  intros P. unfold exponential_expfam. apply finite_intro; unfold expfam;
    cbn [ef_natural ef_partition ef_stat ef_dim e_rate].
  - exists [- l]. split; reflexivity.
  - eexists. xr. reflexivity.
  - intros x Hx. apply in_fins in Hx. destruct Hx as (r & -> & _). exists [r]. split; reflexivity.
Qed.
Lemma gamma_finite a b xs : 0 < a -> 0 < b -> Forall (fun x => 0 < x) xs ->
  finite_family (gamma_expfam (@mkGamma X (Fin a) (Fin b))) (fins xs).
Proof.
  intros P Q F. unfold gamma_expfam. apply finite_intro; unfold expfam;
    cbn [ef_natural ef_partition ef_stat ef_dim g_shape g_rate].
  - exists [a - 1; - b]. split; [|reflexivity]. xr. reflexivity.
  - eexists. xr. reflexivity.
  - intros x Hx. apply in_fins in Hx. destruct Hx as (r & -> & H). rewrite Forall_forall in F. specialize (F r H).
    exists [ln r; r]. split; [|reflexivity]. xr. reflexivity.
Qed.
Lemma beta_finite a b xs : 0 < a -> 0 < b -> Forall (fun x => 0 < x < 1) xs ->
  finite_family (beta_expfam (@mkBeta X (Fin a) (Fin b))) (fins xs).
Proof.
  intros P Q F. unfold beta_expfam. apply finite_intro; unfold expfam;
    cbn [ef_natural ef_partition ef_stat ef_dim b_alpha b_beta].
  - exists [a - 1; b - 1]. split; [|reflexivity]. xr. reflexivity.
  - eexists. xr. reflexivity.
  - intros x Hx. apply in_fins in Hx. destruct Hx as (r & -> & H). rewrite Forall_forall in F.
    destruct (F r H) as [F1 F2]. assert (0 < 1 - r) by lra.
    exists [ln r; ln (1 - r)]. split; [|reflexivity]. xr. reflexivity.
Qed.
Lemma chi_finite k xs : 0 < k -> Forall (fun x => 0 < x) xs ->
  finite_family (chi_expfam (@mkChi X (Fin k))) (fins xs).
Proof.
  intros P F. unfold chi_expfam, chi_shape, chi_rate. apply finite_intro; unfold expfam;
    cbn [ef_natural ef_partition ef_stat ef_dim c_k].
  - exists [k / 2 - 1; - (1 / 2)]. split; [|reflexivity]. xr. reflexivity.
  - eexists. xr. reflexivity.
  - intros x Hx. apply in_fins in Hx. destruct Hx as (r & -> & H). rewrite Forall_forall in F. specialize (F r H).
    exists [ln r; r]. split; [|reflexivity]. xr. reflexivity.
Qed.
Lemma bernoulli_finite p (xs : list nat) : 0 < p < 1 -> finite_family (bernoulli_expfam (@mkBernoulli X (Fin p))) xs.
Proof.
  intros P. unfold bernoulli_expfam. apply finite_intro; unfold expfam;
    cbn [ef_natural ef_partition ef_stat ef_dim be_prob].
  - rewrite x_log_odds by exact P. eexists [_]. split; reflexivity.
  - rewrite x_log_odds by exact P.
    assert (0 < 1 + exp (ln (p / (1 - p)))) by (pose proof (exp_pos (ln (p / (1 - p)))); lra).
    eexists. xr. reflexivity.
  - intros x _. exists [INR x]. split; [|reflexivity]. xr. reflexivity.
Qed.
Lemma binomial_finite n p (xs : list nat) : 0 < p < 1 -> finite_family (binomial_expfam (@mkBinomial X n (Fin p))) xs.
Proof.
  intros P. unfold binomial_expfam. apply finite_intro; unfold expfam;
    cbn [ef_natural ef_partition ef_stat ef_dim bi_prob bi_n].
  - rewrite x_log_odds by exact P. eexists [_]. split; reflexivity.
  - rewrite x_log_odds by exact P.
    assert (0 < 1 + exp (ln (p / (1 - p)))) by (pose proof (exp_pos (ln (p / (1 - p)))); lra).
    eexists. xr. reflexivity.
  - intros x _. exists [INR x]. split; [|reflexivity]. xr. reflexivity.
Qed.
Lemma poisson_finite l (xs : list nat) : 0 < l -> finite_family (poisson_expfam (@mkPoisson X (Fin l))) xs.
Proof.
  intros P. unfold poisson_expfam. apply finite_intro; unfold expfam;
    cbn [ef_natural ef_partition ef_stat ef_dim p_rate].
  - exists [ln l]. split; [|reflexivity]. xr. reflexivity.
  - eexists. reflexivity.
  - intros x _. exists [INR x]. split; [|reflexivity]. xr. reflexivity.
Qed.
Lemma geometric_finite p (xs : list nat) : 0 < p < 1 -> finite_family (geometric_expfam (@mkGeometric X (Fin p))) xs.
Proof.
  intros [P Q]. assert (0 < 1 - p) by lra. unfold geometric_expfam, geometric_failure_prob. apply finite_intro; unfold expfam;
    cbn [ef_natural ef_partition ef_stat ef_dim ge_prob].
  - exists [ln (1 - p)]. split; [|reflexivity]. xr. reflexivity.
  - eexists. xr. reflexivity.
  - intros x _. exists [INR x]. split; [|reflexivity]. xr. reflexivity.
Qed.
Lemma expfam_default {T} dim eta A stat (base : Base X T) : default_form (expfam dim eta A stat base).
Proof. intros x. reflexivity. Qed.

Lemma xsum_map_fins {A} (f : A -> xreal) (g : A -> R) l : (forall a, In a l -> f a = Fin (g a)) ->
  xsum (map f l) = Fin (Rsum (map g l)).
Proof.
  intros H. rewrite (map_ext_in _ (fun a => Fin (g a))) by exact H. rewrite <- map_map.
  apply xsum_fins.
Qed.
Lemma iid_value {T} (d : ExpFam X T) xs (g : T -> R) : finite_family d xs -> default_form d ->
  (forall x, In x xs -> ef_density d x = Fin (g x)) ->
  compute_iid d xs = Fin (Rsum (map g xs)).
Proof. intros F D H. rewrite iid_is_sum by assumption. apply xsum_map_fins. exact H. Qed.

Lemma iid_continuous xs :
  (forall m s d, normal_new (Fin m : X) (Fin s : X) = Some d ->
     iid_log_density (normal_expfam d) (fins xs : list X) =
     Fin (Rsum (map (fun x => ln (normal_pdf m s x)) xs))) /\
  (forall a b d, gamma_new (Fin a : X) (Fin b : X) = Some d -> Forall (fun x => 0 < x) xs ->
     iid_log_density (gamma_expfam d) (fins xs : list X) =
     Fin (Rsum (map (fun x => ln (gamma_pdf lg a b x)) xs))) /\
  (forall a b d, beta_new (Fin a : X) (Fin b : X) = Some d -> Forall (fun x => 0 < x < 1) xs ->
     iid_log_density (beta_expfam d) (fins xs : list X) =
     Fin (Rsum (map (fun x => ln (beta_pdf lg a b x)) xs))) /\
  (forall k d, chi_new (Fin k : X) = Some d -> Forall (fun x => 0 < x) xs ->
     iid_log_density (chi_expfam d) (fins xs : list X) =
     Fin (Rsum (map (fun x => ln (chi_squared_pdf lg k x)) xs))) /\
  (forall l d, exponential_new (Fin l : X) = Some d ->
     iid_log_density (exponential_expfam d) (fins xs : list X) =
     Fin (Rsum (map (fun x => ln (exponential_pdf l x) - 2 * ln l) xs))).
Proof.
  assert (V : forall (d : ExpFam X X) (g : R -> R), finite_family d (fins xs) -> default_form d ->
    (forall x, In x xs -> ef_density d (Fin x : X) = Fin (g x)) ->
    compute_iid d (fins xs) = Fin (Rsum (map g xs))).
  { intros d g F D H. rewrite iid_is_sum by assumption. unfold fins. rewrite map_map. apply xsum_map_fins. exact H. }
  split; [|split; [|split; [|split]]].
  - intros m s d H. apply normal_new_fin in H. destruct H as (P & ->).
    apply V; [apply normal_finite; exact P|intros x; reflexivity|intros x _; apply normal_ef; exact P].
  - intros a b d H F. apply gamma_new_fin in H. destruct H as (P & Q & ->).
    apply V; [apply gamma_finite; assumption|intros x; reflexivity|].
    rewrite Forall_forall in F. intros x Hx. apply gamma_ef; auto.
  - intros a b d H F. apply beta_new_fin in H. destruct H as (P & Q & ->).
    apply V; [apply beta_finite; assumption|intros x; reflexivity|].
    rewrite Forall_forall in F. intros x Hx. apply beta_ef; auto.
  - intros k d H F. apply chi_new_fin in H. destruct H as (P & ->).
    apply V; [apply chi_finite; assumption|intros x; reflexivity|].
    rewrite Forall_forall in F. intros x Hx. apply chi_ef; auto.
  - intros l d H. apply exponential_new_fin in H. destruct H as (P & ->).
    apply V; [apply exponential_finite; exact P|intros x; reflexivity|intros x _; apply exponential_ef; exact P].
Qed.
Lemma iid_discrete xs :
  (forall p d, bernoulli_new (Fin p : X) = Some d -> 0 < p < 1 -> Forall (fun k => (k <= 1)%nat) xs ->
     iid_log_density (bernoulli_expfam d) xs = Fin (Rsum (map (fun k => ln (bernoulli_pmf p k)) xs))) /\
  (forall n p d, lg_factorial lg -> binomial_new n (Fin p : X) = Some d -> 0 < p < 1 ->
     Forall (fun k => (k <= n)%nat) xs ->
     iid_log_density (binomial_expfam d) xs = Fin (Rsum (map (fun k => ln (binomial_pmf n p k)) xs))) /\
  (forall p d, geometric_new (Fin p : X) = Some d -> p < 1 -> Forall (fun k => (1 <= k)%nat) xs ->
     iid_log_density (geometric_expfam d) xs =
     Fin (Rsum (map (fun k => ln (geometric_pmf p k) + ln (1 - p)) xs))) /\
  (forall l d, poisson_new (Fin l : X) = Some d ->
     iid_log_density (poisson_expfam d) xs = xsum (map (ef_density (poisson_expfam d)) xs)).
Proof.
  split; [|split; [|split]].
  - intros p d H P F. rewrite Forall_forall in F.
    assert (S : forall k, In k xs -> bernoulli_support d k = true).
    { intros k Hk. apply bernoulli_support_le. auto. }
    pose proof H as H'. apply bernoulli_new_fin in H'. destruct H' as (_ & ->).
    apply iid_value; [apply bernoulli_finite; exact P|intros x; reflexivity|].
    intros k Hk. apply (c29_bernoulli lg p _ k H P (S k Hk)).
  - intros n p d L H P F. rewrite Forall_forall in F.
    apply binomial_new_fin in H. destruct H as (_ & ->).
    apply iid_value; [apply binomial_finite; exact P|intros x; reflexivity|].
    intros k Hk. apply binomial_ef; auto.
  - intros p d H P F. rewrite Forall_forall in F.
    apply geometric_new_fin in H. destruct H as (Q & ->).
    apply iid_value; [apply geometric_finite; lra|intros x; reflexivity|].
    intros k Hk. apply geometric_ef; auto. lra.
  - intros l d H. apply poisson_new_fin in H. destruct H as (P & ->).
    apply iid_is_sum; [apply poisson_finite; exact P|intros x; reflexivity].
Qed.
End Iid.

Lemma closure_wrong : exists d xs, poisson_new (Fin 1 : XR ln) = Some d /\
  zero_overhead (iid_expfam (poisson_expfam d)) xs <> iid_log_density (poisson_expfam d) xs.
Proof.
  exists (@mkPoisson (XR ln) (Fin 1)), [0%nat; 0%nat]. split.
  - unfold poisson_new. rewrite x_ltb0, Rltb_t by lra. reflexivity.
  - assert (F : finite_family (poisson_expfam (@mkPoisson (XR ln) (Fin 1))) [0%nat; 0%nat]) by (apply poisson_finite; lra).
    assert (D : default_form (poisson_expfam (@mkPoisson (XR ln) (Fin 1)))) by (intros x; reflexivity).
    rewrite (iid_closure ln _ _ 1 F D eq_refl). unfold iid_log_density. rewrite (iid_is_sum ln _ _ F D).
    rewrite (xsum_map_fins _ (fun _ => ln (poisson_pmf 1 0) + (ln (INR (fact 0)) - 0))).
    + rewrite xadd_Fin. intros K. injection K as K. cbn [length] in K. cbn [INR] in K. lra.
    + intros a [<-|[<-|[]]]; apply poisson_ef; try lra; unfold log_factorial; cbn [Nat.leb nth log_factorial_table];
        apply x_n0.
Qed.

(** The registry. *)
Lemma register_get {Ty P} (eqb : Ty -> Ty -> bool) : (forall a b, eqb a b = true <-> a = b) ->
  forall (r : Registry) (t t' : Ty) (p : P),
  reg_get eqb (reg_register eqb r t p) t' = if eqb t t' then Some p else reg_get eqb r t'.
Proof.
  intros E r t t' p. unfold reg_register. cbn [reg_get]. destruct (eqb t t') eqn:Q; [reflexivity|].
  induction r as [|[k q] r IH]; [reflexivity|]. cbn [filter fst reg_get].
  destruct (eqb k t) eqn:K; cbn [negb].
  - apply E in K. subst k. rewrite Q. exact IH.
  - cbn [reg_get]. destruct (eqb k t'); [reflexivity|exact IH].
Qed.

(** The standard API on collections. *)
Lemma iid_at_root lg T lay (dist : Base (XR lg) T) (d : ExpFam (XR lg) T) xs :
  off_measure lay <> off_base lay -> finite_family d xs -> default_form d ->
  at_ lay (log_density (iid_measure dist d)) xs = xsum (map (ef_density d) xs).
Proof.
  intros L F D. unfold iid_measure. rewrite at_root by exact L. apply iid_is_sum; assumption.
Qed.
Lemma Rsum_map_sub {A} (f g : A -> R) l :
  (Rsum (map f l) - Rsum (map g l) = Rsum (map (fun x => f x - g x) l))%R.
Proof. induction l as [|a l IH]; cbn; [lra|]. unfold Rsum in IH. lra. Qed.
Lemma iid_relative lg T lay (p q : Base (XR lg) T) (d e : ExpFam (XR lg) T) (f g : T -> R) xs :
  off_measure lay <> off_base lay -> finite_family d xs -> finite_family e xs ->
  default_form d -> default_form e ->
  (forall x, In x xs -> ef_density d x = Fin (f x) /\ ef_density e x = Fin (g x)) ->
  at_ lay (wrt (log_density (iid_measure p d)) (iid_measure q e)) xs =
  Fin (Rsum (map (fun x => f x - g x) xs))%R.
Proof.
  intros L F G D E H. rewrite (at_differs lay _ xs L).
  change (nsub (compute_iid d xs) (compute_iid e xs) = Fin (Rsum (map (fun x => f x - g x) xs))%R :> XR lg).
  rewrite (iid_value lg d xs f F D), (iid_value lg e xs g G E) by (intros a Ha; apply (H a Ha)).
  cbn. f_equal. rewrite <- Rsum_map_sub. reflexivity.
Qed.
Lemma relative_case : forall d e, normal_new (Fin 0 : XR ln) (Fin 2 : XR ln) = Some d -> normal_new (Fin 1 : XR ln) (Fin 3 : XR ln) = Some e ->
  at_ (mkLayout 0 16) (wrt (log_density (iid_measure (normal_base d) (normal_expfam d))) (iid_measure (normal_base e) (normal_expfam e)))
    (fins [1; -2; 3] : list (XR ln)) =
  Fin (Rsum (map (fun x => ln (normal_pdf 0 2 x) - ln (normal_pdf 1 3 x)) [1; -2; 3]))%R.
Proof.
  intros d e Hd He. rewrite normal_new_ok in Hd by lra. rewrite normal_new_ok in He by lra.
  injection Hd as <-. injection He as <-.
  rewrite (iid_relative ln _ (mkLayout 0 16) _ _ _ _
    (fun x => match x with Fin r => ln (normal_pdf 0 2 r) | _ => 0%R end)
    (fun x => match x with Fin r => ln (normal_pdf 1 3 r) | _ => 0%R end));
    [reflexivity|cbn; lia|apply normal_finite; lra|apply normal_finite; lra|intros x; reflexivity|intros x; reflexivity|].
  intros x H. apply in_map_iff in H. destruct H as (r & <- & _).
  split; apply normal_ef; lra.
Qed.
