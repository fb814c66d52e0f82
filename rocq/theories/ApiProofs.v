(** The standard interface (support, log_density, wrt) on every distribution
    (C65). *)
From Coq Require Import ZArith Reals List Bool Lra Lia Arith.
From Verif Require Import Num XRFacts DensitySpec CoreModel CoreSpec CoreProofs
  CombModel CombProofs2 ExpFamModel ContProofs2 DistModel DistSpec DistFacts DistProofs DistProofs2 DistProofs3 DistProofs4 ApiSpec.
Import ListNotations.
Local Open Scope R_scope.
Local Open Scope list_scope.

Section Api.
Context (lg : R -> R).
Notation X := (XR lg).
Notation fin r := (Fin r : X).

Lemma normal_has m s d : normal_new (fin m) (fin s) = Some d ->
  has_density lg (real lg) (normal_base d) (fun _ => True) (normal_pdf m s).
Proof.
  intros H. apply normal_new_fin in H. destruct H as (P & ->). split; [|intros p N; tauto].
  intros x _. split; [reflexivity|]. split; [apply normal_pdf_pos; exact P|]. apply normal_direct. exact P.
Qed.
Lemma exponential_has l d : exponential_new (fin l) = Some d ->
  has_density lg (real lg) (exponential_base d) (fun x => 0 <= x) (exponential_pdf l).
Proof.
  intros H. apply exponential_new_fin in H. destruct H as (P & ->). unfold real. split; intros x S; cbn [exponential_base continuous_base b_support b_ld].
  - unfold exponential_support. rewrite x_leb0, Rleb_t by exact S. split; [reflexivity|].
    split; [apply exponential_pdf_pos; exact P|]. apply exponential_direct; assumption.
  - apply Rnot_le_lt in S. unfold exponential_support, exponential_ld. rewrite x_leb0, Rleb_f by exact S. split; reflexivity.
Qed.
Lemma gamma_has a b d : gamma_new (fin a) (fin b) = Some d ->
  has_density lg (real lg) (gamma_base d) (fun x => 0 < x) (gamma_pdf lg a b).
Proof.
  intros H. apply gamma_new_fin in H. destruct H as (P & Q & ->). unfold real. split; intros x S; cbn [gamma_base continuous_base b_support b_ld].
  - unfold gamma_support. rewrite x_ltb0, Rltb_t by exact S. split; [reflexivity|].
    split; [apply gamma_pdf_pos|]. apply gamma_direct; assumption.
  - apply Rnot_lt_le in S. unfold gamma_support, gamma_ld. rewrite x_ltb0, Rltb_f by exact S. split; reflexivity.
Qed.
Lemma beta_has a b d : beta_new (fin a) (fin b) = Some d ->
  has_density lg (real lg) (beta_base d) (fun x => 0 < x < 1) (beta_pdf lg a b).
Proof.
  intros H. apply beta_new_fin in H. destruct H as (P & Q & ->). unfold real. split; intros x S; cbn [beta_base continuous_base b_support b_ld].
  - unfold beta_support. rewrite x_ltb0, x_ltb1, !Rltb_t by lra. split; [reflexivity|].
    split; [apply beta_pdf_pos|]. apply beta_direct; assumption.
  - unfold beta_support, beta_ld. rewrite x_ltb0, x_ltb1.
    destruct (Rltb 0 x) eqn:A; [|split; reflexivity]. destruct (Rltb x 1) eqn:B; [|split; reflexivity].
    apply Rltb_true in A. apply Rltb_true in B. tauto.
Qed.
Lemma chi_has k d : chi_new (fin k) = Some d ->
  has_density lg (real lg) (chi_base d) (fun x => 0 < x) (chi_squared_pdf lg k).
Proof.
  intros H. apply chi_new_fin in H. destruct H as (P & ->). unfold real. split; intros x S; cbn [chi_base continuous_base b_support b_ld].
  - unfold chi_support. rewrite x_ltb0, Rltb_t by exact S. split; [reflexivity|].
    split; [apply chi_pdf_pos|]. apply chi_direct; assumption.
  - apply Rnot_lt_le in S. unfold chi_support, chi_ld. rewrite x_ltb0, Rltb_f by exact S. split; reflexivity.
Qed.
Lemma student_has nu d : student_new (fin nu) = Some d ->
  has_density lg (real lg) (student_base d) (fun _ => True) (student_pdf lg nu).
Proof.
  intros H. pose proof H as K. apply student_new_fin in K. destruct K as (P & _). split; [|intros p N; tauto].
  intros x _. split; [reflexivity|]. split; [apply student_pdf_pos; exact P|]. apply (c29_student lg nu d x H).
Qed.
Lemma cauchy_has m s d : cauchy_new (fin m) (fin s) = Some d ->
  has_density lg (real lg) (cauchy_base d) (fun _ => True) (cauchy_pdf m s).
Proof.
  intros H. pose proof H as K. apply cauchy_new_fin in K. destruct K as (P & _). split; [|intros p N; tauto].
  intros x _. split; [reflexivity|]. split; [apply cauchy_pdf_pos; exact P|]. apply (c29_cauchy lg m s d x H).
Qed.
Lemma bernoulli_has p d : bernoulli_new (fin p) = Some d -> 0 < p < 1 ->
  has_density lg count (bernoulli_base d) (fun k => (k <= 1)%nat) (bernoulli_pmf p).
Proof.
  intros H P. pose proof H as K. apply bernoulli_new_fin in K. destruct K as (_ & E). unfold count.
  split; intros k S; cbn [bernoulli_base discrete_base b_support b_ld].
  - assert (T : bernoulli_support d k = true) by (apply bernoulli_support_le; exact S).
    split; [exact T|]. split; [|apply (c29_bernoulli lg p d k H P T)].
    destruct k as [|[|k]]; cbn; [lra|lra|lia].
  - destruct k as [|[|k]]; [lia|lia|]. split; reflexivity.
Qed.
(** Without the binomial coefficient. *)
Lemma binomial_has n p d : binomial_new n (fin p) = Some d -> 0 < p < 1 ->
  has_density lg count (binomial_base d) (fun k => (k <= n)%nat) (fun k => p ^ k * (1 - p) ^ (n - k)).
Proof.
  intros H P. apply binomial_new_fin in H. destruct H as (_ & ->). unfold count.
  split; intros k S; cbn [binomial_base discrete_base b_support b_ld].
  - split; [apply Nat.leb_le; exact S|]. split; [apply Rmult_lt_0_compat; apply pow_lt; lra|].
    rewrite (binomial_direct lg n p k P S), ln_binomial_pmf, ln_mult, !ln_pow_nat, minus_INR by (try apply pow_lt; first [lra|lia]). f_equal. ring.
  - unfold binomial_support, binomial_ld. cbn [bi_n]. replace (Nat.leb k n) with false by (symmetry; apply Nat.leb_gt; lia). split; reflexivity.
Qed.
Lemma poisson_has l d : poisson_new (fin l) = Some d ->
  has_density lg count (poisson_base d) (fun _ => True) (poisson_pmf l).
Proof.
  intros H. pose proof H as K. apply poisson_new_fin in K. destruct K as (P & _). split; [|intros p N; tauto].
  intros k _. split; [reflexivity|]. split; [|apply (c29_poisson lg l d k H)].
  unfold poisson_pmf. pose proof (INR_fact_lt_0 k). apply Rdiv_lt_0_compat; [|assumption]. apply Rmult_lt_0_compat; [apply pow_lt; exact P|apply exp_pos].
Qed.
Lemma geometric_has p d : geometric_new (fin p) = Some d -> p < 1 ->
  has_density lg count (geometric_base d) (fun k => (1 <= k)%nat) (geometric_pmf p).
Proof.
  intros H P. pose proof H as K. apply geometric_new_fin in K. destruct K as (Q & E). unfold count.
  split; intros k S; cbn [geometric_base discrete_base b_support b_ld].
  - assert (T : geometric_support d k = true) by (apply Nat.leb_le; exact S).
    split; [exact T|]. split; [|apply (c29_geometric lg p d k H P T)].
    destruct k as [|k]; [lia|]. cbn. apply Rmult_lt_0_compat; [apply pow_lt|]; lra.
  - destruct k as [|k]; [|lia]. split; reflexivity.
Qed.
(** With the roles of success and failure exchanged, without the coefficient. *)
Lemma negbinomial_has r p d : negbinomial_new r (fin p) = Some d ->
  has_density lg count (negbinomial_base d) (fun _ => True) (fun k => p ^ r * (1 - p) ^ k).
Proof.
  intros H. apply negbinomial_new_fin in H. destruct H as (_ & P & ->). split; [|intros k N; tauto].
  intros k _. split; [reflexivity|]. split; [apply Rmult_lt_0_compat; apply pow_lt; lra|]. cbn [negbinomial_base discrete_base b_ld]. unfold count.
  rewrite (negbinomial_direct lg r p k P), ln_mult, !ln_pow_nat by (try apply pow_lt; lra). reflexivity.
Qed.
Lemma categorical_has ps d : categorical_new (fins ps : list X) = Some d -> Forall (fun p => 0 < p) ps ->
  has_density lg count (categorical_base d) (fun k => (k < length ps)%nat) (categorical_pmf ps).
Proof.
  intros H F. apply categorical_new_keeps in H. destruct d as [qs]. cbn [ca_probs] in H. subst qs. unfold count.
  split; intros k S; cbn [categorical_base discrete_base b_support b_ld].
  - assert (P : 0 < nth k ps 0) by (rewrite Forall_forall in F; apply F, nth_In, S).
    split; [unfold categorical_support; cbn [ca_probs]; apply Nat.ltb_lt; rewrite fins_length; exact S|].
    split; [exact P|]. apply categorical_direct; assumption.
  - unfold categorical_support, categorical_ld. cbn [ca_probs].
    match goal with |- context [Nat.ltb k ?m] => assert (E : Nat.ltb k m = false) end.
    { apply Nat.ltb_ge. unfold fins. rewrite map_length. lia. }
    rewrite E. split; reflexivity.
Qed.

(** ** Relative log-densities *)
Section Rel.
Context {P T : Type} (pt : P -> T) (b b' r : Base X T) (S S' : P -> Prop) (f g : P -> R).
Hypothesis B : has_density lg pt b S f.
Hypothesis B' : has_density lg pt b' S' g.

Lemma rel_root lay p : off_measure lay <> off_base lay ->
  (S p -> at_ lay (log_density {| m_self := b; m_root := primitive |}) (pt p) = Fin (ln (f p))) /\
  (~ S p -> at_ lay (log_density {| m_self := b; m_root := primitive |}) (pt p) = NInf).
Proof.
  intros L. rewrite at_root by exact L. split; intros H; [apply (proj1 B p H)|apply (proj2 B p H)].
Qed.
Lemma rel_wrt lay p : off_measure lay <> off_base lay ->
  let v := at_ lay (wrt (log_density {| m_self := b; m_root := r |}) b') (pt p) in
  (S p -> S' p -> v = Fin (ln (f p / g p))) /\ (S p -> ~ S' p -> v = PInf) /\
  (~ S p -> S' p -> v = NInf) /\ (~ S p -> ~ S' p -> v = XNaN).
Proof.
  intros L v. unfold v. rewrite at_differs by exact L. cbn [wrt log_density ld_measure ld_base m_self].
  repeat split; intros H H'.
  - destruct (proj1 B p H) as (_ & F0 & ->). destruct (proj1 B' p H') as (_ & G0 & ->). cbn. f_equal.
    unfold Rdiv. rewrite ln_mult, ln_Rinv by (auto using Rinv_0_lt_compat). reflexivity.
  - destruct (proj1 B p H) as (_ & F0 & ->). destruct (proj2 B' p H') as (_ & ->). reflexivity.
  - destruct (proj2 B p H) as (_ & ->). destruct (proj1 B' p H') as (_ & G0 & ->). reflexivity.
  - destruct (proj2 B p H) as (_ & ->). destruct (proj2 B' p H') as (_ & ->). reflexivity.
Qed.
Lemma rel_shared p : (S p -> S' p -> log_density_wrt_shared_root b b' (pt p) = Fin (ln (f p * g p))) /\
  (~ S p \/ ~ S' p -> (S p \/ ~ S p) -> (S' p \/ ~ S' p) -> log_density_wrt_shared_root b b' (pt p) = NInf).
Proof.
  unfold log_density_wrt_shared_root. split.
  - intros H H'. destruct (proj1 B p H) as (_ & F0 & ->). destruct (proj1 B' p H') as (_ & G0 & ->). cbn. f_equal.
    rewrite ln_mult by assumption. reflexivity.
  - intros N [H|H] [H'|H']; try tauto.
    + destruct (proj1 B p H) as (_ & F0 & ->). destruct (proj2 B' p H') as (_ & ->). reflexivity.
    + destruct (proj2 B p H) as (_ & ->). destruct (proj1 B' p H') as (_ & G0 & ->). reflexivity.
    + destruct (proj2 B p H) as (_ & ->). destruct (proj2 B' p H') as (_ & ->). reflexivity.
Qed.
Lemma rel_batch ps : (forall p, In p ps -> S p) -> log_density_batch b (map pt ps) = map (fun p => Fin (ln (f p)) : X) ps.
Proof.
  intros H. unfold log_density_batch. rewrite map_map. apply map_ext_in. intros p I. apply (proj1 B p (H p I)).
Qed.
End Rel.
End Api.
