(** Conjugate updates (C67). *)
From Coquelicot Require Import Coquelicot.
From Coq Require Import ZArith Reals String List Bool Lra Lia Arith.
From Verif Require Import Num XRFacts ExprModel ExprSpec ExprEval2 BuilderModel BuilderProofs BuilderWitness DensitySpec CoreModel CoreSpec CoreProofs
  CombModel CombProofs2 ExpFamModel ExpFamSpec ExpFamProofs ContProofs2 DistModel DistSpec DistFacts DistProofs DistProofs2 DistProofs3 DistProofs4
  IntSpec Improper ContProofs ApiSpec ApiProofs SpecialProofs ConjSpec.
Import ListNotations.
Local Open Scope R_scope.
Local Open Scope list_scope.

Section Conj.
Context (lg : R -> R).
Notation X := (XR lg).
Notation fin r := (Fin r : X).

Lemma fallback_has {P T} (pt : P -> T) (b : Base X T) S f ps : has_density lg pt b S f -> Forall S ps ->
  iid_log_density_fallback b (map pt ps) = Fin (Rsum (map (fun p => ln (f p)) ps)).
Proof.
  intros [B _] F. rewrite fallback_is_sum, map_map. replace (map (fun p => b_ld b (pt p)) ps) with (fins (map (fun p => ln (f p)) ps)); [apply xsum_fins|].
  unfold fins. rewrite map_map. induction F as [|p ps H F IH]; [reflexivity|]. cbn [map]. rewrite IH. f_equal. destruct (B p H) as (_ & _ & ->). reflexivity.
Qed.
Lemma Rsum_cons a l : Rsum (a :: l) = a + Rsum l. Proof. reflexivity. Qed.

Lemma beta_at a b d p : beta_new (fin a) (fin b) = Some d -> 0 < p < 1 ->
  beta_ld d (fin p) = Fin (- lnB lg a b + (a - 1) * ln p + (b - 1) * ln (1 - p)).
Proof.
  intros H P. pose proof (proj1 (beta_has lg a b d H) p P) as (_ & _ & V). cbn [beta_base continuous_base b_ld] in V. unfold real in V.
  rewrite V, ln_beta_pdf by exact P. unfold lnB. f_equal. ring.
Qed.
Lemma gamma_at a b d t : gamma_new (fin a) (fin b) = Some d -> 0 < t ->
  gamma_ld d (fin t) = Fin (- lnG lg a b + (a - 1) * ln t - b * t).
Proof.
  intros H P. pose proof (proj1 (gamma_has lg a b d H) t P) as (_ & _ & V). cbn [gamma_base continuous_base b_ld] in V. unfold real in V.
  rewrite V, ln_gamma_pdf by exact P. unfold lnG. f_equal. ring.
Qed.
Lemma beta_new_ok a b : 0 < a -> 0 < b -> beta_new (fin a) (fin b) = Some (@mkBeta X (Fin a) (Fin b)).
Proof. intros A B. unfold beta_new. rewrite !x_ltb0, !Rltb_t by assumption. reflexivity. Qed.
Lemma gamma_new_ok a b : 0 < a -> 0 < b -> gamma_new (fin a) (fin b) = Some (@mkGamma X (Fin a) (Fin b)).
Proof. intros A B. unfold gamma_new. rewrite !x_ltb0, !Rltb_t by assumption. reflexivity. Qed.

(** Sums of the log-likelihoods in terms of sufficient statistics. *)
Lemma sum_poisson l ks : 0 < l -> Rsum (map (fun k => ln (poisson_pmf l k)) ks) =
  INR (list_sum ks) * ln l - INR (length ks) * l - Rsum (map (fun k => ln (INR (fact k))) ks).
Proof.
  intros P. induction ks as [|k ks IH]; [cbn; ring|]. change (list_sum (k :: ks)) with (k + list_sum ks)%nat.
  cbn [map length]. rewrite !Rsum_cons, IH, ln_poisson_pmf, plus_INR, S_INR by exact P. ring.
Qed.
Lemma sum_exponential l xs : 0 < l -> Rsum (map (fun x => ln (exponential_pdf l x)) xs) = INR (length xs) * ln l - l * Rsum xs.
Proof.
  intros P. induction xs as [|x xs IH]; [cbn; ring|]. cbn [map length]. rewrite !Rsum_cons, IH, ln_exponential_pdf, S_INR by exact P. ring.
Qed.
Lemma sum_gamma k l xs : Forall (fun x => 0 < x) xs -> Rsum (map (fun x => ln (gamma_pdf lg k l x)) xs) =
  INR (length xs) * (k * ln l) - l * Rsum xs + (Rsum (map (fun x => (k - 1) * ln x) xs) - INR (length xs) * lg k).
Proof.
  intros F. induction F as [|x xs P F IH]; [cbn; ring|]. cbn [map length]. rewrite !Rsum_cons, IH, ln_gamma_pdf, S_INR by exact P. ring.
Qed.
Lemma sum_geometric p ks : 0 < p < 1 -> Forall (fun k => (1 <= k)%nat) ks -> 
  Rsum (map (fun k => ln (geometric_pmf p k)) ks) = INR (length ks) * ln p + (INR (list_sum ks) - INR (length ks)) * ln (1 - p).
Proof.
  intros P F. induction F as [|k ks K F IH]; [cbn; ring|]. change (list_sum (k :: ks)) with (k + list_sum ks)%nat.
  destruct k as [|k]; [lia|]. cbn [map length]. rewrite !Rsum_cons, IH, ln_geometric_pmf, plus_INR, !S_INR by exact P. ring.
Qed.
Lemma sum_binomial n p ks : 0 < p < 1 -> Forall (fun k => (k <= n)%nat) ks ->
  Rsum (map (fun k => ln (p ^ k * (1 - p) ^ (n - k))) ks) =
  INR (list_sum ks) * ln p + (INR (length ks) * INR n - INR (list_sum ks)) * ln (1 - p).
Proof.
  intros P F. induction F as [|k ks K F IH]; [cbn; ring|]. change (list_sum (k :: ks)) with (k + list_sum ks)%nat.
  cbn [map length]. rewrite !Rsum_cons, IH, ln_mult, !ln_pow_nat, minus_INR, plus_INR, S_INR by (try apply pow_lt; first [lra|exact K]). ring.
Qed.
Lemma sum_negbinomial r p ks : 0 < p < 1 -> Rsum (map (fun k => ln (p ^ r * (1 - p) ^ k)) ks) =
  INR (length ks) * INR r * ln p + INR (list_sum ks) * ln (1 - p).
Proof.
  intros P. induction ks as [|k ks IH]; [cbn; ring|]. change (list_sum (k :: ks)) with (k + list_sum ks)%nat.
  cbn [map length]. rewrite !Rsum_cons, IH, ln_mult, !ln_pow_nat, plus_INR, S_INR by (try apply pow_lt; lra). ring.
Qed.
Lemma sum_le n ks : Forall (fun k => (k <= n)%nat) ks -> INR (list_sum ks) <= INR (length ks) * INR n.
Proof.
  intros F. rewrite <- mult_INR. apply le_INR. induction F as [|k ks K F IH]; [cbn; lia|]. change (list_sum (k :: ks)) with (k + list_sum ks)%nat. cbn [length]. lia.
Qed.
Lemma sum_ge ks : Forall (fun k => (1 <= k)%nat) ks -> INR (length ks) <= INR (list_sum ks).
Proof.
  intros F. apply le_INR. induction F as [|k ks K F IH]; [cbn; lia|]. change (list_sum (k :: ks)) with (k + list_sum ks)%nat. cbn [length]. lia.
Qed.
Lemma Rsum_nonneg xs : Forall (fun x => 0 <= x) xs -> 0 <= Rsum xs.
Proof. intros F. induction F; [cbn; lra|]. rewrite Rsum_cons. lra. Qed.

(** The updates. *)
Lemma beta_update a b a' b' prior (lik : R -> X) u v c : beta_new (fin a) (fin b) = Some prior ->
  a' = a + u -> b' = b + v -> 0 <= u -> 0 <= v -> (forall p, 0 < p < 1 -> lik p = Fin (u * ln p + v * ln (1 - p) + c)) ->
  exists post, beta_new (fin a') (fin b') = Some post /\
  bayes_update (fun p => beta_ld prior (fin p)) lik (fun p => beta_ld post (fin p)) (fun p => 0 < p < 1) (lnB lg a' b' - lnB lg a b + c).
Proof.
  intros H A B U V L. pose proof H as K. apply beta_new_fin in K. destruct K as (PA & PB & _).
  exists (@mkBeta X (Fin a') (Fin b')). assert (E : beta_new (fin a') (fin b') = Some (@mkBeta X (Fin a') (Fin b'))) by (apply beta_new_ok; lra).
  split; [exact E|]. intros p P. eexists. eexists. split; [apply (beta_at a b prior p H P)|]. split; [apply L; exact P|].
  rewrite (beta_at a' b' _ p E P). f_equal. rewrite A, B. ring.
Qed.
Lemma gamma_update a b a' b' prior (lik : R -> X) u v c : gamma_new (fin a) (fin b) = Some prior ->
  a' = a + u -> b' = b + v -> 0 <= u -> 0 <= v -> (forall t, 0 < t -> lik t = Fin (u * ln t - v * t + c)) ->
  exists post, gamma_new (fin a') (fin b') = Some post /\
  bayes_update (fun t => gamma_ld prior (fin t)) lik (fun t => gamma_ld post (fin t)) (fun t => 0 < t) (lnG lg a' b' - lnG lg a b + c).
Proof.
  intros H A B U V L. pose proof H as K. apply gamma_new_fin in K. destruct K as (PA & PB & _).
  exists (@mkGamma X (Fin a') (Fin b')). assert (E : gamma_new (fin a') (fin b') = Some (@mkGamma X (Fin a') (Fin b'))) by (apply gamma_new_ok; lra).
  split; [exact E|]. intros t P. eexists. eexists. split; [apply (gamma_at a b prior t H P)|]. split; [apply L; exact P|].
  rewrite (gamma_at a' b' _ t E P). f_equal. rewrite A, B. ring.
Qed.

(** Data models.  [ks], [xs] are the data. *)
Lemma beta_bernoulli a b ks prior : beta_new (fin a) (fin b) = Some prior -> Forall (fun k => (k <= 1)%nat) ks ->
  let s := INR (list_sum ks) in let n := INR (length ks) in
  exists post, beta_new (fin (a + s)) (fin (b + (n - s))) = Some post /\
  bayes_update (fun p => beta_ld prior (fin p))
    (fun p => with_new (bernoulli_new (fin p)) (fun d => iid_log_density (bernoulli_expfam d) ks))
    (fun p => beta_ld post (fin p)) (fun p => 0 < p < 1) (lnB lg (a + s) (b + (n - s)) - lnB lg a b).
Proof.
  intros H F s n. pose proof (sum_le 1 ks F) as L. cbn [INR] in L. pose proof (pos_INR (list_sum ks)).
  rewrite <- (Rplus_0_r (lnB lg (a + s) (b + (n - s)) - lnB lg a b)). unfold s, n.
  apply beta_update with (u := s) (v := n - s); try reflexivity; try exact H; [unfold s; lra|unfold s, n; lra|].
  intros p P. rewrite (bernoulli_new_ok lg p) by lra. cbn [with_new].
  rewrite (proj1 (iid_discrete lg ks) p _ (bernoulli_new_ok lg p ltac:(lra)) P F), (proj2 (Rsum_bernoulli p ks P F)). f_equal. unfold s, n. ring.
Qed.
Lemma beta_binomial N a b ks prior : beta_new (fin a) (fin b) = Some prior -> Forall (fun k => (k <= N)%nat) ks ->
  let s := INR (list_sum ks) in let n := INR (length ks) * INR N in
  exists post, beta_new (fin (a + s)) (fin (b + (n - s))) = Some post /\
  bayes_update (fun p => beta_ld prior (fin p))
    (fun p => with_new (binomial_new N (fin p)) (fun d => iid_log_density_fallback (binomial_base d) ks))
    (fun p => beta_ld post (fin p)) (fun p => 0 < p < 1) (lnB lg (a + s) (b + (n - s)) - lnB lg a b).
Proof.
  intros H F s n. pose proof (sum_le N ks F) as L. pose proof (pos_INR (list_sum ks)).
  rewrite <- (Rplus_0_r (lnB lg (a + s) (b + (n - s)) - lnB lg a b)). unfold s, n.
  apply beta_update with (u := s) (v := n - s); try reflexivity; try exact H; [unfold s; lra|unfold s, n; lra|].
  intros p P. pose proof (binomial_new_ok lg N p ltac:(lra)) as E. rewrite E. cbn [with_new].
  rewrite <- (map_id ks) at 1. change (fun x : nat => x) with count. rewrite (fallback_has count _ _ _ ks (binomial_has lg N p _ E P) F).
  rewrite sum_binomial by assumption. f_equal. unfold s, n. ring.
Qed.
Lemma beta_geometric a b ks prior : beta_new (fin a) (fin b) = Some prior -> Forall (fun k => (1 <= k)%nat) ks ->
  let s := INR (list_sum ks) in let n := INR (length ks) in
  exists post, beta_new (fin (a + n)) (fin (b + (s - n))) = Some post /\
  bayes_update (fun p => beta_ld prior (fin p))
    (fun p => with_new (geometric_new (fin p)) (fun d => iid_log_density_fallback (geometric_base d) ks))
    (fun p => beta_ld post (fin p)) (fun p => 0 < p < 1) (lnB lg (a + n) (b + (s - n)) - lnB lg a b).
Proof.
  intros H F s n. pose proof (sum_ge ks F) as L. pose proof (pos_INR (length ks)).
  rewrite <- (Rplus_0_r (lnB lg (a + n) (b + (s - n)) - lnB lg a b)). unfold s, n.
  apply beta_update with (u := n) (v := s - n); try reflexivity; try exact H; [unfold n; lra|unfold s, n; lra|].
  intros p P. pose proof (geometric_new_ok lg p ltac:(lra)) as E. rewrite E. cbn [with_new].
  rewrite <- (map_id ks) at 1. change (fun x : nat => x) with count. rewrite (fallback_has count _ _ _ ks (geometric_has lg p _ E (proj2 P)) F).
  rewrite sum_geometric by assumption. f_equal. unfold s, n. ring.
Qed.
Lemma beta_negbinomial r a b ks prior : (0 < r)%nat -> beta_new (fin a) (fin b) = Some prior ->
  let s := INR (list_sum ks) in let n := INR (length ks) * INR r in
  exists post, beta_new (fin (a + n)) (fin (b + s)) = Some post /\
  bayes_update (fun p => beta_ld prior (fin p))
    (fun p => with_new (negbinomial_new r (fin p)) (fun d => iid_log_density_fallback (negbinomial_base d) ks))
    (fun p => beta_ld post (fin p)) (fun p => 0 < p < 1) (lnB lg (a + n) (b + s) - lnB lg a b).
Proof.
  intros RP H s n. pose proof (pos_INR (list_sum ks)). pose proof (pos_INR (length ks)). pose proof (pos_INR r).
  rewrite <- (Rplus_0_r (lnB lg (a + n) (b + s) - lnB lg a b)). unfold s, n.
  apply beta_update with (u := n) (v := s); try reflexivity; try exact H; [apply Rmult_le_pos; assumption|unfold s; lra|].
  intros p P. assert (E : negbinomial_new r (fin p) = Some (@mkNegBinomial X r (Fin p))).
  { unfold negbinomial_new. rewrite x_ltb0, x_ltb1, !Rltb_t by lra. apply Nat.ltb_lt in RP. rewrite RP. reflexivity. }
  rewrite E. cbn [with_new].
  rewrite <- (map_id ks) at 1. change (fun x : nat => x) with count. rewrite (fallback_has count _ _ _ ks (negbinomial_has lg r p _ E)) by (apply Forall_forall; trivial).
  rewrite sum_negbinomial by assumption. f_equal. unfold s, n. ring.
Qed.
Lemma gamma_poisson a b ks prior : gamma_new (fin a) (fin b) = Some prior ->
  let s := INR (list_sum ks) in let n := INR (length ks) in
  exists post, gamma_new (fin (a + s)) (fin (b + n)) = Some post /\
  bayes_update (fun t => gamma_ld prior (fin t))
    (fun t => with_new (poisson_new (fin t)) (fun d => iid_log_density_fallback (poisson_base d) ks))
    (fun t => gamma_ld post (fin t)) (fun t => 0 < t)
    (lnG lg (a + s) (b + n) - lnG lg a b + - Rsum (map (fun k => ln (INR (fact k))) ks)).
Proof.
  intros H s n. unfold s, n. apply gamma_update with (u := s) (v := n); try reflexivity; try exact H; try apply pos_INR.
  intros t P. assert (E : poisson_new (fin t) = Some (@mkPoisson X (Fin t))) by (unfold poisson_new; rewrite x_ltb0, Rltb_t by exact P; reflexivity).
  rewrite E. cbn [with_new]. rewrite <- (map_id ks) at 1. change (fun x : nat => x) with count.
  rewrite (fallback_has count _ _ _ ks (poisson_has lg t _ E)) by (apply Forall_forall; trivial).
  rewrite sum_poisson by exact P. f_equal.
Qed.
Lemma gamma_exponential a b xs prior : gamma_new (fin a) (fin b) = Some prior -> Forall (fun x => 0 <= x) xs ->
  exists post, gamma_new (fin (a + INR (length xs))) (fin (b + Rsum xs)) = Some post /\
  bayes_update (fun t => gamma_ld prior (fin t))
    (fun t => with_new (exponential_new (fin t)) (fun d => iid_log_density_fallback (exponential_base d) (map (real lg) xs)))
    (fun t => gamma_ld post (fin t)) (fun t => 0 < t)
    (lnG lg (a + INR (length xs)) (b + Rsum xs) - lnG lg a b).
Proof.
  intros H F. rewrite <- (Rplus_0_r (lnG lg (a + INR (length xs)) (b + Rsum xs) - lnG lg a b)).
  apply gamma_update with (u := INR (length xs)) (v := Rsum xs); try reflexivity; try exact H; [apply pos_INR|apply Rsum_nonneg, F|].
  intros t P. assert (E : exponential_new (fin t) = Some (@mkExponential X (Fin t))) by (unfold exponential_new; rewrite x_ltb0, Rltb_t by exact P; reflexivity).
  rewrite E. cbn [with_new]. rewrite (fallback_has (real lg) _ _ _ xs (exponential_has lg t _ E) F), sum_exponential by exact P. f_equal. ring.
Qed.
Lemma gamma_gamma k a b xs prior : 0 < k -> gamma_new (fin a) (fin b) = Some prior -> Forall (fun x => 0 < x) xs ->
  exists post, gamma_new (fin (a + INR (length xs) * k)) (fin (b + Rsum xs)) = Some post /\
  bayes_update (fun t => gamma_ld prior (fin t))
    (fun t => with_new (gamma_new (fin k) (fin t)) (fun d => iid_log_density (gamma_expfam d) (fins xs)))
    (fun t => gamma_ld post (fin t)) (fun t => 0 < t)
    (lnG lg (a + INR (length xs) * k) (b + Rsum xs) - lnG lg a b + (Rsum (map (fun x => (k - 1) * ln x) xs) - INR (length xs) * lg k)).
Proof.
  intros K H F. apply gamma_update with (u := INR (length xs) * k) (v := Rsum xs); try reflexivity; try exact H.
  - apply Rmult_le_pos; [apply pos_INR|lra].
  - apply Rsum_nonneg. eapply Forall_impl; [|exact F]. intros; cbn in *; lra.
  - intros t P. pose proof (gamma_new_ok k t K P) as E. rewrite E. cbn [with_new].
    destruct (iid_continuous lg xs) as (_ & G & _). rewrite (G k t _ E F), sum_gamma by exact F. f_equal. ring.
Qed.

(** A normal mean with known deviation. *)
Lemma sum_normal m s xs : 0 < s -> Rsum (map (fun x => ln (normal_pdf m s x)) xs) =
  - INR (length xs) * (1 / 2 * ln (2 * PI) + ln s) - 1 / 2 / s ^ 2 * (Rsum (map (fun x => x ^ 2) xs) - 2 * m * Rsum xs + INR (length xs) * m ^ 2).
Proof.
  intros P. induction xs as [|x xs IH]; [cbn; field; lra|]. cbn [map length]. rewrite !Rsum_cons, IH, ln_normal_pdf, S_INR by exact P. field. lra.
Qed.
Lemma post_precision_pos s0 s n : 0 < s0 -> 0 < s -> 0 < post_precision s0 s n.
Proof.
  intros A B. unfold post_precision. assert (0 < / s0 ^ 2) by (apply Rinv_0_lt_compat, pow_lt, A).
  assert (0 <= INR n / s ^ 2); [|lra]. apply Rmult_le_pos; [apply pos_INR|]. apply Rlt_le, Rinv_0_lt_compat, pow_lt, B.
Qed.
Lemma normal_real m0 s0 s xs m : 0 < s0 -> 0 < s ->
  ln (normal_pdf m0 s0 m) + Rsum (map (fun x => ln (normal_pdf m s x)) xs) - normal_evidence m0 s0 s xs =
  ln (normal_pdf (post_mean m0 s0 s xs) (/ sqrt (post_precision s0 s (length xs))) m).
Proof.
  intros A B. pose proof (post_precision_pos s0 s (length xs) A B) as L.
  assert (Q : 0 < sqrt (post_precision s0 s (length xs))) by (apply sqrt_lt_R0, L).
  rewrite sum_normal by exact B. rewrite !ln_normal_pdf by (try exact A; apply Rinv_0_lt_compat, Q).
  rewrite ln_Rinv by exact Q. unfold normal_evidence. cbn zeta. set (l := post_precision s0 s (length xs)) in *.
  assert (LS : ln (sqrt l) = 1 / 2 * ln l).
  { rewrite <- (sqrt_sqrt l) at 2 by lra. rewrite ln_mult by exact Q. lra. }
  rewrite LS. replace ((/ sqrt l) ^ 2) with (/ l) by (rewrite <- (sqrt_sqrt l) at 1 by lra; field; lra).
  assert (M : l * post_mean m0 s0 s xs = m0 / s0 ^ 2 + Rsum xs / s ^ 2) by (unfold post_mean; fold l; field; lra).
  set (pm := post_mean m0 s0 s xs) in *.
  replace (- (1 / 2) * (m - pm) ^ 2 / / l) with (- (1 / 2) * (l * m ^ 2 - 2 * m * (l * pm) + l * pm ^ 2)) by (field; lra).
  assert (L2 : l * m ^ 2 = m ^ 2 / s0 ^ 2 + INR (length xs) * m ^ 2 / s ^ 2) by (unfold l, post_precision; field; lra).
  rewrite M, L2. field. lra.
Qed.
Lemma normal_update m0 s0 s xs prior : normal_new (fin m0) (fin s0) = Some prior -> 0 < s ->
  exists post, normal_new (fin (post_mean m0 s0 s xs)) (fin (/ sqrt (post_precision s0 s (length xs)))) = Some post /\
  bayes_update (fun m => normal_ld prior (fin m))
    (fun m => with_new (normal_new (fin m) (fin s)) (fun d => iid_log_density (normal_expfam d) (fins xs)))
    (fun m => normal_ld post (fin m)) (fun _ => True) (normal_evidence m0 s0 s xs).
Proof.
  intros H B. pose proof H as K. apply normal_new_fin in K. destruct K as (A & _).
  pose proof (post_precision_pos s0 s (length xs) A B) as L. assert (Q : 0 < / sqrt (post_precision s0 s (length xs))) by (apply Rinv_0_lt_compat, sqrt_lt_R0, L).
  pose proof (normal_new_ok lg (post_mean m0 s0 s xs) _ Q) as E. eexists. split; [exact E|]. intros m _.
  pose proof (proj1 (normal_has lg _ _ _ H) m I) as (_ & _ & V). pose proof (proj1 (normal_has lg _ _ _ E) m I) as (_ & _ & W).
  cbn [normal_base continuous_base b_ld] in V, W. unfold real in V, W.
  eexists. eexists. split; [exact V|]. split.
  - pose proof (normal_new_ok lg m s B) as G. rewrite G. cbn [with_new]. apply (proj1 (iid_continuous lg xs) _ _ _ G).
  - rewrite W, normal_real by assumption. reflexivity.
Qed.
(** The same posterior from the expression builders of the Bayesian module, for one observation. *)
Lemma symbolic_update (vars : env X) x mu sg vx vm s m0 s0 :
  get vars x = Some (Fin vx) -> get vars mu = Some (Fin vm) -> get vars sg = Some (Fin s) -> 0 < s -> 0 < s0 ->
  evaluate vars (posterior_log_density (normal_likelihood x mu sg) (normal_prior mu (fin m0) (fin s0))) =
  Ok (Fin (ln (normal_pdf (post_mean m0 s0 s [vx]) (/ sqrt (post_precision s0 s 1)) vm) + normal_evidence m0 s0 s [vx]) : X).
Proof.
  intros X1 X2 X3 A B. destruct (C42_likelihood_prior lg vars x mu sg vx vm s m0 s0 X1 X2 X3 A B) as (L & P).
  rewrite (C42_posterior lg vars _ _ _ _ L P). pose proof (normal_real m0 s0 s [vx] vm B A) as R. cbn [length map] in R. rewrite Rsum_cons in R. cbn [Rsum fold_right] in R.
  rewrite <- R. f_equal. change (Fin (ln (normal_pdf vm s vx) + ln (normal_pdf m0 s0 vm)) = (Fin (ln (normal_pdf m0 s0 vm) + (ln (normal_pdf vm s vx) + Rsum []) - normal_evidence m0 s0 s [vx] + normal_evidence m0 s0 s [vx]))).
  f_equal. cbn [Rsum fold_right]. ring.
Qed.

(** The family path of Exponential drops the rate's logarithm twice per sample: no posterior of any kind absorbs it. *)
Lemma exponential_family_drift a b xs prior : gamma_new (fin a) (fin b) = Some prior -> Forall (fun x => 0 <= x) xs ->
  exists post, gamma_new (fin (a + INR (length xs))) (fin (b + Rsum xs)) = Some post /\ forall t, 0 < t -> exists u v,
    gamma_ld prior (fin t) = Fin u /\
    with_new (exponential_new (fin t)) (fun d => iid_log_density (exponential_expfam d) (fins xs)) = Fin v /\
    gamma_ld post (fin t) = Fin (u + v - (lnG lg (a + INR (length xs)) (b + Rsum xs) - lnG lg a b) + 2 * INR (length xs) * ln t).
Proof.
  intros H F. destruct (gamma_exponential a b xs prior H F) as (post & E & U). exists post. split; [exact E|]. intros t P.
  destruct (U t P) as (u & v & A & B & C). exists u, (v - 2 * INR (length xs) * ln t). split; [exact A|].
  assert (N : exponential_new (fin t) = Some (@mkExponential X (Fin t))) by (unfold exponential_new; rewrite x_ltb0, Rltb_t by exact P; reflexivity).
  rewrite N in *. cbn [with_new] in *. rewrite (fallback_has (real lg) _ _ _ xs (exponential_has lg t _ N) F) in B. injection B as B. split.
  - destruct (iid_continuous lg xs) as (_ & _ & _ & _ & G). rewrite (G t _ N). f_equal. rewrite <- B. clear.
    induction xs as [|x xs IH]; [cbn; ring|]. cbn [map length]. rewrite !Rsum_cons, IH, S_INR. ring.
  - rewrite C. f_equal. ring.
Qed.

(** The constant of an update is the log marginal likelihood. *)
Lemma evidence (A B : Rbar) prior lik post c : bayes_update prior lik post (inside A B) c ->
  integral A B (fun t => dens (post t)) 1 -> integral A B (fun t => dens (prior t) * dens (lik t)) (exp c).
Proof.
  intros U I. replace (exp c) with (exp c * 1) by ring. apply (integral_ext A B (fun t => exp c * dens (post t))); [|apply integral_scal, I].
  intros t H. destruct (U t H) as (u & v & -> & -> & ->). cbn [dens]. rewrite <- !exp_plus. f_equal. ring.
Qed.
Lemma evidence_beta : lg_is_log_gamma lg -> forall a b post prior lik c, beta_new (fin a) (fin b) = Some post ->
  bayes_update prior lik (fun p => beta_ld post (fin p)) (fun p => 0 < p < 1) c ->
  integral 0 1 (fun t => dens (prior t) * dens (lik t)) (exp c).
Proof.
  intros G a b post prior lik c H U. apply (evidence 0 1 prior lik (fun p => beta_ld post (fin p))).
  - intros t [A B]. apply U. split; assumption.
  - apply (beta_cont_total lg G a b post H).
Qed.
Lemma evidence_gamma : lg_is_log_gamma lg -> forall a b post prior lik c, gamma_new (fin a) (fin b) = Some post ->
  bayes_update prior lik (fun p => gamma_ld post (fin p)) (fun p => 0 < p) c ->
  integral 0 p_infty (fun t => dens (prior t) * dens (lik t)) (exp c).
Proof.
  intros G a b post prior lik c H U. apply (evidence 0 p_infty prior lik (fun p => gamma_ld post (fin p))).
  - intros t [A B]. apply U. assumption.
  - apply (gamma_cont_total lg G a b post H).
Qed.
Lemma evidence_normal m s post prior lik c : normal_new (fin m) (fin s) = Some post ->
  bayes_update prior lik (fun p => normal_ld post (fin p)) (fun _ => True) c ->
  integral m_infty p_infty (fun t => dens (prior t) * dens (lik t)) (exp c).
Proof.
  intros H U. apply (evidence m_infty p_infty prior lik (fun p => normal_ld post (fin p))).
  - intros t _. apply U. trivial.
  - apply (normal_cont_total lg m s post H).
Qed.
End Conj.
