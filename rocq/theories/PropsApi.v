(** Properties C65 (standard interface on every distribution), C66 (special
    cases, defaults, symmetries) and C67 (conjugate updates). *)
From Coquelicot Require Import Coquelicot.
From Coq Require Import ZArith Reals String List Bool Lra Lia Arith.
From Verif Require Import Num XRFacts ExprModel BuilderModel DensitySpec CoreModel CoreSpec CoreProofs CombModel ExpFamModel
  DistModel DistSpec DistFacts DistProofs DistProofs2 DistProofs3 DistProofs4 DefaultModel IntSpec GammaFun ContProofs ContProofs2
  ApiSpec ApiProofs SpecialProofs ConjSpec ConjProofs.
Import ListNotations.
Local Open Scope R_scope.
Local Open Scope list_scope.
Local Notation fin lg r := (Fin r : XR lg).

(** * C65: what each distribution reports through the standard interface *)
Theorem C65_continuous_distributions : forall lg,
  (forall m s d, normal_new (fin lg m) (fin lg s) = Some d ->
     has_density lg (real lg) (normal_base d) (fun _ => True) (normal_pdf m s)) /\
  (forall l d, exponential_new (fin lg l) = Some d ->
     has_density lg (real lg) (exponential_base d) (fun x => 0 <= x) (exponential_pdf l)) /\
  (forall a b d, gamma_new (fin lg a) (fin lg b) = Some d ->
     has_density lg (real lg) (gamma_base d) (fun x => 0 < x) (gamma_pdf lg a b)) /\
  (forall a b d, beta_new (fin lg a) (fin lg b) = Some d ->
     has_density lg (real lg) (beta_base d) (fun x => 0 < x < 1) (beta_pdf lg a b)) /\
  (forall k d, chi_new (fin lg k) = Some d ->
     has_density lg (real lg) (chi_base d) (fun x => 0 < x) (chi_squared_pdf lg k)) /\
  (forall nu d, student_new (fin lg nu) = Some d ->
     has_density lg (real lg) (student_base d) (fun _ => True) (student_pdf lg nu)) /\
  (forall m s d, cauchy_new (fin lg m) (fin lg s) = Some d ->
     has_density lg (real lg) (cauchy_base d) (fun _ => True) (cauchy_pdf m s)).
Proof.
  intros lg. split; [exact (normal_has lg)|]. split; [exact (exponential_has lg)|]. split; [exact (gamma_has lg)|].
  split; [exact (beta_has lg)|]. split; [exact (chi_has lg)|]. split; [exact (student_has lg)|exact (cauchy_has lg)].
Qed.
Print Assumptions C65_continuous_distributions.

(** Binomial and NegativeBinomial report their kernels without the combinatorial
    factor, NegativeBinomial with success and failure exchanged (see C29). *)
Theorem C65_discrete_distributions : forall lg,
  (forall p d, bernoulli_new (fin lg p) = Some d -> 0 < p < 1 ->
     has_density lg count (bernoulli_base d) (fun k => (k <= 1)%nat) (bernoulli_pmf p)) /\
  (forall n p d, binomial_new n (fin lg p) = Some d -> 0 < p < 1 ->
     has_density lg count (binomial_base d) (fun k => (k <= n)%nat) (fun k => p ^ k * (1 - p) ^ (n - k))) /\
  (forall l d, poisson_new (fin lg l) = Some d ->
     has_density lg count (poisson_base d) (fun _ => True) (poisson_pmf l)) /\
  (forall p d, geometric_new (fin lg p) = Some d -> p < 1 ->
     has_density lg count (geometric_base d) (fun k => (1 <= k)%nat) (geometric_pmf p)) /\
  (forall r p d, negbinomial_new r (fin lg p) = Some d ->
     has_density lg count (negbinomial_base d) (fun _ => True) (fun k => p ^ r * (1 - p) ^ k)) /\
  (forall ps d, categorical_new (fins ps : list (XR lg)) = Some d -> Forall (fun p => 0 < p) ps ->
     has_density lg count (categorical_base d) (fun k => (k < length ps)%nat) (categorical_pmf ps)).
Proof.
  intros lg. split; [exact (bernoulli_has lg)|]. split; [exact (binomial_has lg)|]. split; [exact (poisson_has lg)|].
  split; [exact (geometric_has lg)|]. split; [exact (negbinomial_has lg)|exact (categorical_has lg)].
Qed.
Print Assumptions C65_discrete_distributions.

(** [log_density().at(x)] of a measure with density [f] over its root.  The root
    has no size, so the layout hypothesis is needed (C25). *)
Theorem C65_log_density_at : forall lg P T (pt : P -> T) (b : Base (XR lg) T) (S : P -> Prop) (f : P -> R) lay p,
  has_density lg pt b S f -> off_measure lay <> off_base lay ->
  (S p -> at_ lay (log_density {| m_self := b; m_root := primitive |}) (pt p) = Fin (ln (f p))) /\
  (~ S p -> at_ lay (log_density {| m_self := b; m_root := primitive |}) (pt p) = NInf).
Proof. intros lg P T pt b S f lay p B L. exact (rel_root lg pt b S f B lay p L). Qed.
Print Assumptions C65_log_density_at.

(** [log_density().wrt(other).at(x)] for any two measures with densities [f] and
    [g], in any layout the compiler may choose. *)
Theorem C65_relative_log_density : forall lg P T (pt : P -> T) (b b' r : Base (XR lg) T) (S S' : P -> Prop) (f g : P -> R) lay p,
  has_density lg pt b S f -> has_density lg pt b' S' g ->
  (0 < b_size b)%nat -> (0 < b_size b')%nat -> legal_layout (b_size b) (b_size b') lay ->
  let v := at_ lay (wrt (log_density {| m_self := b; m_root := r |}) b') (pt p) in
  (S p -> S' p -> v = Fin (ln (f p / g p))) /\ (S p -> ~ S' p -> v = PInf) /\
  (~ S p -> S' p -> v = NInf) /\ (~ S p -> ~ S' p -> v = XNaN).
Proof.
  intros lg P T pt b b' r S S' f g lay p B B' Z Z' L.
  exact (rel_wrt lg pt b b' r S S' f g B B' lay p (proj1 (Nat.eqb_neq _ _) (distinct_offsets (b_size b) (b_size b') lay Z Z' L))).
Qed.
Print Assumptions C65_relative_log_density.

(** Two measures over the same root, and batches. *)
Theorem C65_shared_root_and_batches : forall lg P T (pt : P -> T) (b b' : Base (XR lg) T) (S S' : P -> Prop) (f g : P -> R),
  has_density lg pt b S f -> has_density lg pt b' S' g ->
  (forall p, S p -> S' p -> log_density_wrt_shared_root b b' (pt p) = Fin (ln (f p * g p))) /\
  (forall p, S p -> ~ S' p -> log_density_wrt_shared_root b b' (pt p) = NInf) /\
  (forall p, ~ S p -> S' p -> log_density_wrt_shared_root b b' (pt p) = NInf) /\
  (forall p, ~ S p -> ~ S' p -> log_density_wrt_shared_root b b' (pt p) = NInf) /\
  (forall ps, (forall p, In p ps -> S p) -> log_density_batch b (map pt ps) = map (fun p => Fin (ln (f p))) ps).
Proof.
  intros lg P T pt b b' S S' f g B B'. pose proof (rel_shared lg pt b b' S S' f g B B') as R.
  split; [intros p; apply (proj1 (R p))|].
  split; [intros p H H'; apply (proj2 (R p)); tauto|]. split; [intros p H H'; apply (proj2 (R p)); tauto|].
  split; [intros p H H'; apply (proj2 (R p)); tauto|]. exact (rel_batch lg pt b S f B).
Qed.
Print Assumptions C65_shared_root_and_batches.

(** Gamma(2,3) relative to Exponential(1) at 1, at 0 and at -1. *)
(** No distribution is zero-sized, so relative to one another the answer never
    depends on the layout. *)
Theorem C65_distributions_have_positive_size : forall (N : Num),
  (forall d, 0 < b_size (@normal_base N d))%nat /\ (forall d, 0 < b_size (@exponential_base N d))%nat /\
  (forall d, 0 < b_size (@gamma_base N d))%nat /\ (forall d, 0 < b_size (@beta_base N d))%nat /\
  (forall d, 0 < b_size (@chi_base N d))%nat /\ (forall d, 0 < b_size (@student_base N d))%nat /\
  (forall d, 0 < b_size (@cauchy_base N d))%nat /\ (forall d, 0 < b_size (@bernoulli_base N d))%nat /\
  (forall d, 0 < b_size (@binomial_base N d))%nat /\ (forall d, 0 < b_size (@poisson_base N d))%nat /\
  (forall d, 0 < b_size (@geometric_base N d))%nat /\ (forall d, 0 < b_size (@negbinomial_base N d))%nat /\
  (forall d, 0 < b_size (@categorical_base N d))%nat.
Proof. intros N. repeat split; intros; apply Nat.lt_0_succ. Qed.
Print Assumptions C65_distributions_have_positive_size.
(** The exponential-family marker is set for every distribution but the Student t
    and the Cauchy. *)
Theorem C65_family_markers : forall (N : Num),
  (forall d, b_expfam (@normal_base N d) = true) /\ (forall d, b_expfam (@exponential_base N d) = true) /\
  (forall d, b_expfam (@gamma_base N d) = true) /\ (forall d, b_expfam (@beta_base N d) = true) /\
  (forall d, b_expfam (@chi_base N d) = true) /\ (forall d, b_expfam (@student_base N d) = false) /\
  (forall d, b_expfam (@cauchy_base N d) = false) /\ (forall d, b_expfam (@bernoulli_base N d) = true) /\
  (forall d, b_expfam (@binomial_base N d) = true) /\ (forall d, b_expfam (@poisson_base N d) = true) /\
  (forall d, b_expfam (@geometric_base N d) = true) /\ (forall d, b_expfam (@negbinomial_base N d) = true) /\
  (forall d, b_expfam (@categorical_base N d) = true).
Proof. intros N. repeat split. Qed.
Print Assumptions C65_family_markers.
Example C65_case : forall lg, lg 2 = 0 ->
  exists d e, gamma_new (fin lg 2) (fin lg 3) = Some d /\ exponential_new (fin lg 1) = Some e /\
  let at16 x := at_ {| off_measure := 0; off_base := 16 |}
                    (wrt (log_density {| m_self := gamma_base d; m_root := primitive |}) (exponential_base e)) (Fin x : XR lg) in
  legal_layout (b_size (gamma_base d)) (b_size (exponential_base e)) {| off_measure := 0; off_base := 16 |} /\
  at16 1 = Fin (ln 9 - 2) /\ at16 0 = NInf /\ at16 (-1) = XNaN.
Proof.
  intros lg G. pose proof (gamma_new_ok lg 2 3 ltac:(lra) ltac:(lra)) as A.
  assert (B : exponential_new (fin lg 1) = Some (@mkExponential (XR lg) (Fin 1))) by (unfold exponential_new; rewrite x_ltb0, Rltb_t by lra; reflexivity).
  eexists. eexists. split; [exact A|]. split; [exact B|]. intros at16.
  assert (L : legal_layout 16 8 {| off_measure := 0; off_base := 16 |}) by (unfold legal_layout; cbn; lia).
  split; [exact L|].
  assert (W : forall x, _) by (intros x; exact (C65_relative_log_density lg R (XR lg) (real lg) _ _ primitive _ _ _ _ {| off_measure := 0; off_base := 16 |} x
    (gamma_has lg 2 3 _ A) (exponential_has lg 1 _ B) ltac:(cbn; lia) ltac:(cbn; lia) L)).
  cbv zeta in W. unfold real in W. split; [|split].
  - destruct (W 1) as (E & _). specialize (E ltac:(lra) ltac:(lra)). unfold at16. etransitivity; [exact E|]. f_equal.
    unfold Rdiv. rewrite ln_mult, ln_Rinv by (try apply Rinv_0_lt_compat; first [apply ContProofs2.gamma_pdf_pos|apply ContProofs2.exponential_pdf_pos; lra]).
    rewrite ln_gamma_pdf, ln_exponential_pdf, ln_1, G by lra. replace 9 with (3 * 3) by ring. rewrite ln_mult by lra. ring.
  - destruct (W 0) as (_ & _ & E & _). apply E; lra.
  - destruct (W (-1)) as (_ & _ & _ & E). apply E; lra.
Qed.

(** * C66: defaults *)
(** [Default::default()] is what the constructor returns on the documented
    parameters, in exact arithmetic and in binary64. *)
Theorem C66_defaults_pass_their_constructors :
  (forall lg, let N := XR lg in
    normal_new (Fin 0 : N) (Fin 1 : N) = Some normal_default /\ exponential_new (Fin 1 : N) = Some exponential_default /\
    gamma_new (Fin 1 : N) (Fin 1 : N) = Some gamma_default /\ beta_new (Fin 1 : N) (Fin 1 : N) = Some beta_default /\
    chi_new (Fin 1 : N) = Some chi_default /\ student_new (Fin 1 : N) = student_default /\ student_default <> None (A := StudentT N) /\
    cauchy_new (Fin 0 : N) (Fin 1 : N) = cauchy_default /\ cauchy_default = cauchy_standard (N := N) /\ cauchy_default <> None (A := Cauchy N) /\
    bernoulli_new (Fin (1 / 2) : N) = Some bernoulli_default /\ geometric_new (Fin (1 / 2) : N) = Some geometric_default /\
    poisson_new (Fin 1 : N) = Some poisson_default) /\
  (forall L : libm, let N := F64 L in
    normal_new (f64_of_Z 0 : N) (f64_of_Z 1 : N) = Some normal_default /\ exponential_new (f64_of_Z 1 : N) = Some exponential_default /\
    gamma_new (f64_of_Z 1 : N) (f64_of_Z 1 : N) = Some gamma_default /\ beta_new (f64_of_Z 1 : N) (f64_of_Z 1 : N) = Some beta_default /\
    chi_new (f64_of_Z 1 : N) = Some chi_default /\ student_new (f64_of_Z 1 : N) = student_default /\ student_default <> None (A := StudentT N) /\
    cauchy_new (f64_of_Z 0 : N) (f64_of_Z 1 : N) = cauchy_default /\ cauchy_default = cauchy_standard (N := N) /\ cauchy_default <> None (A := Cauchy N) /\
    bernoulli_new (f64_dec 5 10 : N) = Some bernoulli_default /\ geometric_new (f64_dec 5 10 : N) = Some geometric_default /\
    poisson_new (f64_of_Z 1 : N) = Some poisson_default).
Proof. split; [exact defaults_xr|exact defaults_f64]. Qed.
Print Assumptions C66_defaults_pass_their_constructors.

(** * C66: special cases *)
Theorem C66_standard_normal : forall lg x,
  normal_ld (normal_default (N := XR lg)) (fin lg x) = ef_density (stdnormal_expfam (N := XR lg)) (fin lg x) /\
  ef_density (stdnormal_expfam (N := XR lg)) (fin lg x) = Fin (ln (normal_pdf 0 1 x)).
Proof. exact default_is_standard. Qed.
Print Assumptions C66_standard_normal.
(** Every natural parameter is turned into the standard normal, which has the
    natural parameters (0, -1/2) only. *)
Theorem C66_standard_normal_from_natural_ignores_its_argument_refuted : forall lg,
  (forall eta : list (XR lg), stdnormal_from_natural eta = Some tt) /\
  (forall a b, stdnormal_from_natural [fin lg a; fin lg b] = Some tt /\
     (ef_natural (stdnormal_expfam (N := XR lg)) = [fin lg a; fin lg b] <-> a = 0 /\ b = - / 2)).
Proof. exact stdnormal_natural. Qed.
Print Assumptions C66_standard_normal_from_natural_ignores_its_argument_refuted.

Theorem C66_gamma_chi_squared_exponential : forall lg, lg_is_log_gamma lg ->
  (forall b d e x, gamma_new (fin lg 1) (fin lg b) = Some d -> exponential_new (fin lg b) = Some e -> x <> 0 ->
     gamma_support d (fin lg x) = exponential_support e (fin lg x) /\ gamma_ld d (fin lg x) = exponential_ld e (fin lg x)) /\
  (forall d e x, chi_new (fin lg 2) = Some d -> exponential_new (fin lg (1 / 2)) = Some e -> x <> 0 ->
     chi_support d (fin lg x) = exponential_support e (fin lg x) /\ chi_ld d (fin lg x) = exponential_ld e (fin lg x)).
Proof. exact gamma_special. Qed.
Print Assumptions C66_gamma_chi_squared_exponential.
(** At zero, the boundary point that only Exponential includes, they differ. *)
Theorem C66_gamma_exponential_at_zero_refuted : forall lg b d e,
  gamma_new (fin lg 1) (fin lg b) = Some d -> exponential_new (fin lg b) = Some e ->
  gamma_ld d (fin lg 0) = NInf /\ exponential_ld e (fin lg 0) = Fin (ln b).
Proof. exact zero_differs. Qed.
Print Assumptions C66_gamma_exponential_at_zero_refuted.

Theorem C66_beta_and_student : forall lg, lg_is_log_gamma lg ->
  (forall x, 0 < x < 1 -> beta_ld (beta_default (N := XR lg)) (fin lg x) = Fin 0) /\
  (forall x d e, student_default (N := XR lg) = Some d -> cauchy_standard (N := XR lg) = Some e ->
     student_ld d (fin lg x) = cauchy_ld e (fin lg x)).
Proof. exact beta_student_special. Qed.
Print Assumptions C66_beta_and_student.

Theorem C66_counts : forall lg p k,
  (forall d e, 0 < p < 1 -> binomial_new 1 (fin lg p) = Some d -> bernoulli_new (fin lg p) = Some e ->
     binomial_support d k = bernoulli_support e k /\ binomial_ld d k = bernoulli_ld e k) /\
  (forall d e, negbinomial_new 1 (fin lg p) = Some d -> geometric_new (fin lg p) = Some e ->
     negbinomial_ld d k = geometric_ld e (S k)).
Proof.
  intros lg p k. split; [intros d e P D E; exact (binomial_is_bernoulli lg p k d e P D E)|intros d e D E; exact (negbinomial_is_geometric lg p k d e D E)].
Qed.
Print Assumptions C66_counts.

(** Two categories are a coin: every arithmetic, hence also bit for bit in binary64. *)
Theorem C66_two_categories_are_a_coin : forall (N : Num) (p : N) c d k,
  categorical_new [nsub n1 p; p] = Some c -> bernoulli_new p = Some d ->
  categorical_support c k = bernoulli_support d k /\ categorical_ld c k = bernoulli_ld d k.
Proof. exact categorical_coin. Qed.
Print Assumptions C66_two_categories_are_a_coin.

(** The joint log-mass of a 0/1 sequence is the direct log-density of Binomial at the number of ones. *)
Theorem C66_sequence_of_flips : forall lg p d e ks,
  0 < p < 1 -> bernoulli_new (fin lg p) = Some d -> Forall (fun k => (k <= 1)%nat) ks -> binomial_new (length ks) (fin lg p) = Some e ->
  iid_log_density (bernoulli_expfam d) ks = binomial_ld e (list_sum ks).
Proof. exact bernoulli_sequence. Qed.
Print Assumptions C66_sequence_of_flips.

(** * C66: accessors *)
Theorem C66_parameter_accessors : forall N : Num,
  (forall (l s : N) d, cauchy_new l s = Some d -> cauchy_location d = l /\ DefaultModel.cauchy_scale d = s) /\
  (forall (nu : N) d, student_new nu = Some d -> student_nu d = nu) /\
  (forall (ps : list N) d k, categorical_new ps = Some d ->
     num_categories d = length ps /\ (categorical_support d k = true <-> (k < num_categories d)%nat)) /\
  (forall n (d : Categorical N), categorical_uniform n = Some d -> num_categories d = n).
Proof. exact accessors. Qed.
Print Assumptions C66_parameter_accessors.
Theorem C66_odds_accessors : forall lg p n, 0 < p < 1 ->
  (forall d, bernoulli_new (fin lg p) = Some d -> bernoulli_log_odds d = Fin (ln (p / (1 - p)))) /\
  (forall d, binomial_new n (fin lg p) = Some d -> binomial_log_odds d = Fin (ln (p / (1 - p)))) /\
  (forall d, negbinomial_new n (fin lg p) = Some d ->
     negbinomial_log_odds d = Fin (ln (p / (1 - p))) /\ negbinomial_failure_prob d = Fin (1 - p)) /\
  (forall d, geometric_new (fin lg p) = Some d -> geometric_failure_prob d = Fin (1 - p)).
Proof. exact odds_accessors. Qed.
Print Assumptions C66_odds_accessors.

(** * C66: location, scale, symmetry *)
Theorem C66_location_and_scale : forall lg m0 s0 s m, s <> 0 ->
  (forall d e, normal_new (fin lg m0) (fin lg s0) = Some d -> normal_new (fin lg (s * m0 + m)) (fin lg (Rabs s * s0)) = Some e ->
     forall y, push_ld (normal_base d) (linear_transform (fin lg s) (fin lg m)) (fin lg y) = normal_ld e (fin lg y)) /\
  (forall d e, cauchy_new (fin lg m0) (fin lg s0) = Some d -> cauchy_new (fin lg (s * m0 + m)) (fin lg (Rabs s * s0)) = Some e ->
     forall y, push_ld (cauchy_base d) (linear_transform (fin lg s) (fin lg m)) (fin lg y) = cauchy_ld e (fin lg y)) /\
  (forall d e, 0 < s -> gamma_new (fin lg m0) (fin lg s0) = Some d -> gamma_new (fin lg m0) (fin lg (s0 / s)) = Some e -> forall y,
     push_support (gamma_base d) (linear_transform (fin lg s) (fin lg 0)) (fin lg y) = gamma_support e (fin lg y) /\
     push_ld (gamma_base d) (linear_transform (fin lg s) (fin lg 0)) (fin lg y) = gamma_ld e (fin lg y)).
Proof.
  intros lg m0 s0 s m N. split; [intros d e D E; exact (normal_moved lg m0 s0 s m d e D N E)|].
  split; [intros d e D E; exact (cauchy_moved lg m0 s0 s m d e D N E)|intros d e P D E; exact (gamma_moved lg m0 s0 s d e D P E)].
Qed.
Print Assumptions C66_location_and_scale.

Theorem C66_mirror_images : forall lg a b x,
  (forall d e, beta_new (fin lg a) (fin lg b) = Some d -> beta_new (fin lg b) (fin lg a) = Some e ->
     beta_support d (fin lg x) = beta_support e (fin lg (1 - x)) /\ beta_ld d (fin lg x) = beta_ld e (fin lg (1 - x))) /\
  (forall d, normal_new (fin lg a) (fin lg b) = Some d -> normal_ld d (fin lg (a + x)) = normal_ld d (fin lg (a - x))) /\
  (forall d, cauchy_new (fin lg a) (fin lg b) = Some d -> cauchy_ld d (fin lg (a + x)) = cauchy_ld d (fin lg (a - x))) /\
  (forall d, student_new (fin lg a) = Some d -> student_ld d (fin lg x) = student_ld d (fin lg (- x))).
Proof. exact mirrors. Qed.
Print Assumptions C66_mirror_images.
(** Bit for bit in binary64, for every library of elementary functions. *)
Theorem C66_symmetries_in_binary64 : forall (L : libm) (m s x : F64 L),
  normal_ld (mkNormal m s) x = normal_ld (mkNormal x s) m /\
  cauchy_ld (mkCauchy m s) x = cauchy_ld (mkCauchy x s) m /\
  student_ld (mkStudent s) (nneg x) = student_ld (mkStudent s) x.
Proof.
  intros L m s x. split; [exact (normal_swap_f64 L m s x)|]. split; [exact (cauchy_swap_f64 L m s x)|exact (student_even_f64 L s x)].
Qed.
Print Assumptions C66_symmetries_in_binary64.

Example C66_case : exists lg, lg_is_log_gamma lg /\ exists g e c b,
  gamma_new (fin lg 1) (fin lg 3) = Some g /\ exponential_new (fin lg 3) = Some e /\
  bernoulli_new (fin lg (1 / 4)) = Some c /\ binomial_new 3 (fin lg (1 / 4)) = Some b /\
  gamma_ld g (fin lg 2) = Fin (ln 3 - 6) /\ iid_log_density (bernoulli_expfam c) [1; 0; 1]%nat = binomial_ld b 2.
Proof.
  destruct log_gamma_exists as [lg H]. exists lg. split; [exact H|].
  pose proof (gamma_new_ok lg 1 3 ltac:(lra) ltac:(lra)) as A.
  assert (B : exponential_new (fin lg 3) = Some (@mkExponential (XR lg) (Fin 3))) by (unfold exponential_new; rewrite x_ltb0, Rltb_t by lra; reflexivity).
  pose proof (bernoulli_new_ok lg (1 / 4) ltac:(lra)) as C. pose proof (binomial_new_ok lg 3 (1 / 4) ltac:(lra)) as D.
  do 4 eexists. split; [exact A|]. split; [exact B|]. split; [exact C|]. split; [exact D|]. split.
  - destruct (proj1 (C66_gamma_chi_squared_exponential lg H) 3 _ _ 2 A B ltac:(lra)) as (_ & ->).
    pose proof (proj1 (exponential_has lg 3 _ B) 2 ltac:(lra)) as (_ & _ & V). cbn [exponential_base continuous_base b_ld] in V. unfold real in V. rewrite V.
    rewrite ln_exponential_pdf by lra. f_equal. ring.
  - apply (C66_sequence_of_flips lg (1 / 4) _ _ [1; 0; 1]%nat ltac:(lra) C); [repeat constructor|exact D].
Qed.

(** * C67: conjugate updates *)
Theorem C67_beta_prior : forall lg a b prior, beta_new (fin lg a) (fin lg b) = Some prior -> forall ks,
  let s := INR (list_sum ks) in let n := INR (length ks) in let q p := beta_ld prior (fin lg p) in
  (Forall (fun k => (k <= 1)%nat) ks ->
   exists post, beta_new (fin lg (a + s)) (fin lg (b + (n - s))) = Some post /\
   bayes_update q (fun p => with_new (bernoulli_new (fin lg p)) (fun d => iid_log_density (bernoulli_expfam d) ks))
     (fun p => beta_ld post (fin lg p)) (fun p => 0 < p < 1) (lnB lg (a + s) (b + (n - s)) - lnB lg a b)) /\
  (forall N, Forall (fun k => (k <= N)%nat) ks ->
   exists post, beta_new (fin lg (a + s)) (fin lg (b + (n * INR N - s))) = Some post /\
   bayes_update q (fun p => with_new (binomial_new N (fin lg p)) (fun d => iid_log_density_fallback (binomial_base d) ks))
     (fun p => beta_ld post (fin lg p)) (fun p => 0 < p < 1) (lnB lg (a + s) (b + (n * INR N - s)) - lnB lg a b)) /\
  (Forall (fun k => (1 <= k)%nat) ks ->
   exists post, beta_new (fin lg (a + n)) (fin lg (b + (s - n))) = Some post /\
   bayes_update q (fun p => with_new (geometric_new (fin lg p)) (fun d => iid_log_density_fallback (geometric_base d) ks))
     (fun p => beta_ld post (fin lg p)) (fun p => 0 < p < 1) (lnB lg (a + n) (b + (s - n)) - lnB lg a b)) /\
  (forall r, (0 < r)%nat ->
   exists post, beta_new (fin lg (a + n * INR r)) (fin lg (b + s)) = Some post /\
   bayes_update q (fun p => with_new (negbinomial_new r (fin lg p)) (fun d => iid_log_density_fallback (negbinomial_base d) ks))
     (fun p => beta_ld post (fin lg p)) (fun p => 0 < p < 1) (lnB lg (a + n * INR r) (b + s) - lnB lg a b)).
Proof.
  intros lg a b prior H ks. cbv zeta. split; [intros F; exact (beta_bernoulli lg a b ks prior H F)|].
  split; [intros N F; exact (beta_binomial lg N a b ks prior H F)|].
  split; [intros F; exact (beta_geometric lg a b ks prior H F)|intros r P; exact (beta_negbinomial lg r a b ks prior P H)].
Qed.
Print Assumptions C67_beta_prior.

Theorem C67_gamma_prior : forall lg a b prior, gamma_new (fin lg a) (fin lg b) = Some prior ->
  let q t := gamma_ld prior (fin lg t) in
  (forall ks, let s := INR (list_sum ks) in let n := INR (length ks) in
   exists post, gamma_new (fin lg (a + s)) (fin lg (b + n)) = Some post /\
   bayes_update q (fun t => with_new (poisson_new (fin lg t)) (fun d => iid_log_density_fallback (poisson_base d) ks))
     (fun t => gamma_ld post (fin lg t)) (fun t => 0 < t)
     (lnG lg (a + s) (b + n) - lnG lg a b + - Rsum (map (fun k => ln (INR (fact k))) ks))) /\
  (forall xs, Forall (fun x => 0 <= x) xs ->
   exists post, gamma_new (fin lg (a + INR (length xs))) (fin lg (b + Rsum xs)) = Some post /\
   bayes_update q (fun t => with_new (exponential_new (fin lg t)) (fun d => iid_log_density_fallback (exponential_base d) (map (real lg) xs)))
     (fun t => gamma_ld post (fin lg t)) (fun t => 0 < t) (lnG lg (a + INR (length xs)) (b + Rsum xs) - lnG lg a b)) /\
  (forall k xs, 0 < k -> Forall (fun x => 0 < x) xs ->
   exists post, gamma_new (fin lg (a + INR (length xs) * k)) (fin lg (b + Rsum xs)) = Some post /\
   bayes_update q (fun t => with_new (gamma_new (fin lg k) (fin lg t)) (fun d => iid_log_density (gamma_expfam d) (fins xs)))
     (fun t => gamma_ld post (fin lg t)) (fun t => 0 < t)
     (lnG lg (a + INR (length xs) * k) (b + Rsum xs) - lnG lg a b + (Rsum (map (fun x => (k - 1) * ln x) xs) - INR (length xs) * lg k))).
Proof.
  intros lg a b prior H. cbv zeta. split; [intros ks; exact (gamma_poisson lg a b ks prior H)|].
  split; [intros xs F; exact (gamma_exponential lg a b xs prior H F)|intros k xs K F; exact (gamma_gamma lg k a b xs prior K H F)].
Qed.
Print Assumptions C67_gamma_prior.
(** Through the exponential-family joint of Exponential the update fails: the
    remainder grows with the logarithm of the rate. *)
Theorem C67_exponential_family_joint_refuted : forall lg a b xs prior, gamma_new (fin lg a) (fin lg b) = Some prior -> Forall (fun x => 0 <= x) xs ->
  exists post, gamma_new (fin lg (a + INR (length xs))) (fin lg (b + Rsum xs)) = Some post /\ forall t, 0 < t -> exists u v,
    gamma_ld prior (fin lg t) = Fin u /\
    with_new (exponential_new (fin lg t)) (fun d => iid_log_density (exponential_expfam d) (fins xs)) = Fin v /\
    gamma_ld post (fin lg t) = Fin (u + v - (lnG lg (a + INR (length xs)) (b + Rsum xs) - lnG lg a b) + 2 * INR (length xs) * ln t).
Proof. exact exponential_family_drift. Qed.
Print Assumptions C67_exponential_family_joint_refuted.

Theorem C67_normal_mean : forall lg m0 s0 s xs prior, normal_new (fin lg m0) (fin lg s0) = Some prior -> 0 < s ->
  exists post, normal_new (fin lg (post_mean m0 s0 s xs)) (fin lg (/ sqrt (post_precision s0 s (length xs)))) = Some post /\
  bayes_update (fun m => normal_ld prior (fin lg m))
    (fun m => with_new (normal_new (fin lg m) (fin lg s)) (fun d => iid_log_density (normal_expfam d) (fins xs)))
    (fun m => normal_ld post (fin lg m)) (fun _ => True) (normal_evidence m0 s0 s xs).
Proof. exact normal_update. Qed.
Print Assumptions C67_normal_mean.
(** The expression builders for normal likelihood, normal prior and posterior give the same posterior. *)
Theorem C67_symbolic_posterior : forall lg (vars : env (XR lg)) x mu sg vx vm s m0 s0,
  get vars x = Some (Fin vx) -> get vars mu = Some (Fin vm) -> get vars sg = Some (Fin s) -> 0 < s -> 0 < s0 ->
  evaluate vars (posterior_log_density (normal_likelihood x mu sg) (normal_prior mu (fin lg m0) (fin lg s0))) =
  Ok (Fin (ln (normal_pdf (post_mean m0 s0 s [vx]) (/ sqrt (post_precision s0 s 1)) vm) + normal_evidence m0 s0 s [vx]) : XR lg).
Proof. exact symbolic_update. Qed.
Print Assumptions C67_symbolic_posterior.

(** The constants are logarithms of the integral of prior times likelihood. *)
Theorem C67_constant_is_the_log_marginal_likelihood : forall lg,
  (lg_is_log_gamma lg -> forall a b post prior lik c, beta_new (fin lg a) (fin lg b) = Some post ->
     bayes_update prior lik (fun p => beta_ld post (fin lg p)) (fun p => 0 < p < 1) c ->
     integral 0 1 (fun t => dens (prior t) * dens (lik t)) (exp c)) /\
  (lg_is_log_gamma lg -> forall a b post prior lik c, gamma_new (fin lg a) (fin lg b) = Some post ->
     bayes_update prior lik (fun p => gamma_ld post (fin lg p)) (fun p => 0 < p) c ->
     integral 0 p_infty (fun t => dens (prior t) * dens (lik t)) (exp c)) /\
  (forall m s post prior lik c, normal_new (fin lg m) (fin lg s) = Some post ->
     bayes_update prior lik (fun p => normal_ld post (fin lg p)) (fun _ => True) c ->
     integral m_infty p_infty (fun t => dens (prior t) * dens (lik t)) (exp c)).
Proof. intros lg. split; [exact (evidence_beta lg)|]. split; [exact (evidence_gamma lg)|exact (evidence_normal lg)]. Qed.
Print Assumptions C67_constant_is_the_log_marginal_likelihood.

(** Two heads and a tail on a uniform prior: Beta(3,2), with probability B(3,2) = 1/12. *)
Example C67_case : exists lg, lg_is_log_gamma lg /\ exists prior post, beta_new (fin lg 1) (fin lg 1) = Some prior /\
  beta_new (fin lg 3) (fin lg 2) = Some post /\
  bayes_update (fun p => beta_ld prior (fin lg p))
    (fun p => with_new (bernoulli_new (fin lg p)) (fun d => iid_log_density (bernoulli_expfam d) [1; 0; 1]%nat))
    (fun p => beta_ld post (fin lg p)) (fun p => 0 < p < 1) (ln (1 / 12)).
Proof.
  destruct log_gamma_exists as [lg H]. exists lg. split; [exact H|].
  pose proof (beta_new_ok lg 1 1 ltac:(lra) ltac:(lra)) as A. eexists.
  destruct (proj1 (C67_beta_prior lg 1 1 _ A [1; 0; 1]%nat)) as (post & E & U); [repeat constructor|].
  cbn [list_sum fold_right length Nat.add] in E, U.
  replace (1 + INR 2) with 3 in * by (cbn; ring). replace (1 + (INR 3 - INR 2)) with 2 in * by (cbn; ring).
  exists post. split; [exact A|]. split; [exact E|].
  replace (ln (1 / 12)) with (lnB lg 3 2 - lnB lg 1 1); [exact U|].
  pose proof (log_gamma_factorial lg H) as G. unfold lnB.
  pose proof (G 0%nat) as G1. pose proof (G 1%nat) as G2. pose proof (G 2%nat) as G3. pose proof (G 4%nat) as G5.
  cbn in G1, G2, G3, G5. replace (1 + 1 + 1) with 3 in G3 by ring. replace (1 + 1) with 2 in * by ring.
  replace (3 + 2) with (2 + 1 + 1 + 1) by ring. replace (1 + 1) with 2 in * by ring.
  rewrite G1, G2, G3, G5, ln_1. replace (1 / 12) with (2 * / 24) by field. rewrite ln_mult, ln_Rinv by lra.
  match goal with |- context [ln 2 + 0 - ln ?z] => replace z with 24 by ring end. lra.
Qed.
