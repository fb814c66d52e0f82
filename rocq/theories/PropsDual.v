(** Property C64: the generic density code at dual numbers returns derivatives. *)
From Coq Require Import ZArith Reals List Bool Lra Lia Arith.
From Verif Require Import Num XRFacts DensitySpec BuilderProofs CoreModel CoreSpec CoreProofs CombModel CombProofs ExpFamModel DistModel DistSpec TaglessModel TaglessSpec
  DualModel DualSpec DualProofs DualProofs2 DualProofs3.
Import ListNotations.
Local Open Scope R_scope.
Local Open Scope list_scope.

(** * C64: continuous families.  Parameters and point may all vary. *)
Theorem C64_continuous_families : forall lg dg, digamma_of lg dg -> forall a b x t da db dx, carries a t da -> carries b t db -> carries x t dx ->
  let D := Dual lg dg in
  (0 < b t -> carries (fun u => ln (normal_pdf (a u) (b u) (x u))) t (normal_ld (@mkNormal D da db) dx)) /\
  (0 < a t -> 0 < x t -> carries (fun u => ln (exponential_pdf (a u) (x u))) t (exponential_ld (@mkExponential D da) dx)) /\
  (0 < a t -> 0 < b t -> 0 < x t -> carries (fun u => ln (gamma_pdf lg (a u) (b u) (x u))) t (gamma_ld (@mkGamma D da db) dx)) /\
  (0 < a t -> 0 < b t -> 0 < x t < 1 -> carries (fun u => ln (beta_pdf lg (a u) (b u) (x u))) t (beta_ld (@mkBeta D da db) dx)) /\
  (0 < a t -> 0 < x t -> carries (fun u => ln (chi_squared_pdf lg (a u) (x u))) t (chi_ld (@mkChi D da) dx)) /\
  (0 < a t -> carries (fun u => ln (student_pdf lg (a u) (x u))) t (student_ld (@mkStudent D da) dx)) /\
  (0 < b t -> carries (fun u => ln (cauchy_pdf (a u) (b u) (x u))) t (cauchy_ld (@mkCauchy D da db) dx)).
Proof.
  intros lg dg DG a b x t da db dx A B X. split; [|split; [|split; [|split; [|split; [|split]]]]]; intros.
  - apply dual_normal; assumption.
  - apply dual_exponential; assumption.
  - apply (dual_gamma lg dg DG); assumption.
  - apply (dual_beta lg dg DG); assumption.
  - apply (dual_chi lg dg DG); assumption.
  - apply (dual_student lg dg DG); assumption.
  - apply dual_cauchy; assumption.
Qed.
Print Assumptions C64_continuous_families.

(** Through the exponential-family formula. *)
Theorem C64_family_paths : forall lg dg, digamma_of lg dg -> forall a b x t da db dx, carries a t da -> carries b t db -> carries x t dx ->
  let D := Dual lg dg in
  (0 < b t -> carries (fun u => ln (normal_pdf (a u) (b u) (x u))) t (ef_density (normal_expfam (@mkNormal D da db)) dx)) /\
  carries (fun u => ln (normal_pdf 0 1 (x u))) t (ef_density (@stdnormal_expfam D) dx) /\
  (0 < a t -> 0 < b t -> 0 < x t -> carries (fun u => ln (gamma_pdf lg (a u) (b u) (x u))) t (ef_density (gamma_expfam (@mkGamma D da db)) dx)) /\
  (0 < a t -> 0 < b t -> 0 < x t < 1 -> carries (fun u => ln (beta_pdf lg (a u) (b u) (x u))) t (ef_density (beta_expfam (@mkBeta D da db)) dx)) /\
  (0 < a t -> 0 < x t -> carries (fun u => ln (chi_squared_pdf lg (a u) (x u))) t (ef_density (chi_expfam (@mkChi D da)) dx)).
Proof.
  intros lg dg DG a b x t da db dx A B X. split; [|split; [|split; [|split]]]; intros.
  - apply dual_normal_ef; assumption.
  - apply dual_stdnormal; assumption.
  - apply (dual_gamma lg dg DG); assumption.
  - apply (dual_beta lg dg DG); assumption.
  - apply (dual_chi lg dg DG); assumption.
Qed.
Print Assumptions C64_family_paths.

(** Counts: the parameter varies.  Binomial omits ln C(n,k) and negative binomial its combinatorial factor, constants in [p]. *)
Theorem C64_discrete_families : forall lg dg p t dp k n, carries p t dp ->
  let D := Dual lg dg in
  (0 < p t < 1 -> (k <= 1)%nat -> carries (fun u => ln (bernoulli_pmf (p u) k)) t (bernoulli_ld (@mkBernoulli D dp) k)) /\
  (0 < p t < 1 -> (k <= n)%nat -> carries (fun u => ln (binomial_pmf n (p u) k) - ln (C n k)) t (binomial_ld (@mkBinomial D n dp) k)) /\
  (0 < p t -> carries (fun u => ln (poisson_pmf (p u) k)) t (poisson_ld (@mkPoisson D dp) k)) /\
  (0 < p t < 1 -> (1 <= k)%nat -> carries (fun u => ln (geometric_pmf (p u) k)) t (geometric_ld (@mkGeometric D dp) k)) /\
  (0 < p t < 1 -> carries (fun u => INR n * ln (p u) + INR k * ln (1 - p u)) t (negbinomial_ld (@mkNegBinomial D n dp) k)).
Proof.
  intros lg dg p t dp k n P. split; [|split; [|split; [|split]]]; intros.
  - apply dual_bernoulli; assumption.
  - apply dual_binomial; assumption.
  - apply dual_poisson; assumption.
  - apply dual_geometric; assumption.
  - apply dual_negbinomial; assumption.
Qed.
Print Assumptions C64_discrete_families.
Theorem C64_categorical : forall lg dg ps (dps : list (Dual lg dg)) t k, Forall2 (fun f d => carries f t d) ps dps -> (k < length ps)%nat -> 0 < nth k ps (fun _ => 0) t ->
  carries (fun u => ln (nth k ps (fun _ => 0) u)) t (categorical_ld (@mkCategorical (Dual lg dg) dps) k).
Proof. exact dual_categorical. Qed.
Print Assumptions C64_categorical.

(** * C64: collections.  The samples may vary too. *)
Theorem C64_iid_continuous : forall lg dg, digamma_of lg dg -> forall a b t da db fs (dxs : list (Dual lg dg)), carries a t da -> carries b t db -> Forall2 (fun f d => carries f t d) fs dxs ->
  let D := Dual lg dg in
  let sum g := fun u => Rsum (map (fun f : R -> R => g u (f u)) fs) in
  (0 < b t -> carries (sum (fun u x => ln (normal_pdf (a u) (b u) x))) t (iid_log_density (normal_expfam (@mkNormal D da db)) dxs)) /\
  (0 < a t -> 0 < b t -> Forall (fun f : R -> R => 0 < f t) fs -> carries (sum (fun u x => ln (gamma_pdf lg (a u) (b u) x))) t (iid_log_density (gamma_expfam (@mkGamma D da db)) dxs)) /\
  (0 < a t -> 0 < b t -> Forall (fun f : R -> R => 0 < f t < 1) fs -> carries (sum (fun u x => ln (beta_pdf lg (a u) (b u) x))) t (iid_log_density (beta_expfam (@mkBeta D da db)) dxs)) /\
  (0 < a t -> Forall (fun f : R -> R => 0 < f t) fs -> carries (sum (fun u x => ln (chi_squared_pdf lg (a u) x))) t (iid_log_density (chi_expfam (@mkChi D da)) dxs)) /\
  (0 < a t -> carries (sum (fun u x => ln (exponential_pdf (a u) x) - 2 * ln (a u))) t (iid_log_density (exponential_expfam (@mkExponential D da)) dxs)).
Proof.
  intros lg dg DG a b t da db fs dxs A B F D sum. split; [|split; [|split; [|split]]]; intros.
  - apply (dual_iid_normal lg dg); assumption.
  - apply (dual_iid_gamma lg dg DG); assumption.
  - apply (dual_iid_beta lg dg DG); assumption.
  - apply (dual_iid_chi lg dg DG); assumption.
  - apply (dual_iid_exponential lg dg); assumption.
Qed.
Print Assumptions C64_iid_continuous.
Theorem C64_iid_discrete : forall lg dg p t dp ks, carries p t dp -> 0 < p t < 1 ->
  let D := Dual lg dg in
  (Forall (fun k => (k <= 1)%nat) ks -> carries (fun u => Rsum (map (fun k => ln (bernoulli_pmf (p u) k)) ks)) t (iid_log_density (bernoulli_expfam (@mkBernoulli D dp)) ks)) /\
  (Forall (fun k => (1 <= k)%nat) ks -> carries (fun u => Rsum (map (fun k => ln (geometric_pmf (p u) k) + ln (1 - p u)) ks)) t (iid_log_density (geometric_expfam (@mkGeometric D dp)) ks)).
Proof. intros lg dg p t dp ks C P. split; intros K; [apply dual_iid_bernoulli|apply dual_iid_geometric]; assumption. Qed.
Print Assumptions C64_iid_discrete.
Theorem C64_iid_fallback : forall lg dg T t (b : Base (Dual lg dg) T) (xs : list T) fs, Forall2 (fun f x => carries f t (b_ld b x)) fs xs ->
  carries (fun u => Rsum (map (fun f : R -> R => f u) fs)) t (iid_log_density_fallback b xs).
Proof. intros. apply (dual_iid_fallback lg dg). assumption. Qed.
Print Assumptions C64_iid_fallback.

(** * C64: mixtures.  [fs] are the components' log-densities along the curve, [ws] the weights. *)
Theorem C64_mixture : forall lg dg T t fs (cs : list (Measure (Dual lg dg) T)) ws (dws : list (Dual lg dg)) x,
  Forall2 (fun f (c : Measure (Dual lg dg) T) => carries f t (b_ld c x)) fs cs ->
  Forall2 (fun w d => carries w t d /\ 0 < w t) ws dws -> length fs = length ws -> fs <> [] ->
  carries (fun u => ln (Rsum (map (fun p : (R -> R) * (R -> R) => fst p u * exp (snd p u)) (combine ws fs)))) t (mixture_ld (mkMixture cs dws) x).
Proof. intros. apply c_mixture; assumption. Qed.
Print Assumptions C64_mixture.
(** A weight of exactly zero: the value is right, the tangent is NaN. *)
Theorem C64_zero_weight_refuted : forall lg dg T (c c' : Measure (Dual lg dg) T) x a a' b b',
  b_ld c x = dual_of a a' -> b_ld c' x = dual_of b b' ->
  mixture_ld (mkMixture [c; c'] [dual_of 1 0; dual_of 0 0]) x = (Fin a, XNaN).
Proof. intros. eapply zero_weight; eassumption. Qed.
Print Assumptions C64_zero_weight_refuted.

(** * C64: programs written against the evaluator interface *)
Theorem C64_every_generic_program : forall lg dg (p : term R) (a : nat -> R -> R) (da : nat -> Dual lg dg) t,
  (forall i, In i (inputs p) -> carries (a i) t (da i)) -> smooth_at p (fun i => a i t) ->
  carries (fun u => real_of p (fun i => a i u)) t (@interpret (Dual lg dg) DirectEval da (dual_term p)).
Proof. intros. apply dual_term_carries; assumption. Qed.
Print Assumptions C64_every_generic_program.
(** Horner's rule at a dual number agrees with the library's derivative routine. *)
Theorem C64_polynomials : forall lg dg cs t,
  horner (@DirectEval (Dual lg dg)) (map (fun c => dual_of c 0) cs) (dual_of t 1) =
  (horner (@DirectEval (XR lg)) (map Fin cs) (Fin t), horner_derivative (@DirectEval (XR lg)) (map Fin cs) (Fin t)).
Proof. exact dual_horner. Qed.
Print Assumptions C64_polynomials.

(** * C64: closed forms *)
Theorem C64_normal_score : forall lg dg m s x, 0 < s ->
  normal_ld (@mkNormal (Dual lg dg) (dual_of m 0) (dual_of s 0)) (dual_of x 1) = dual_of (ln (normal_pdf m s x)) (- ((x - m) / s ^ 2)).
Proof. intros. apply normal_score; assumption. Qed.
Print Assumptions C64_normal_score.
(** The helper keeps the value only, so the derivative the number carried is lost (C45). *)
Theorem C64_helper_drops_the_tangent_refuted : forall lg dg m s x, 0 < s ->
  value_and_grad (fun d : Dual lg dg => fst d) (fun d => normal_ld (@mkNormal (Dual lg dg) (dual_of m 0) (dual_of s 0)) d) (dual_of x 1) =
  (Fin (ln (normal_pdf m s x)), Fin (ln (normal_pdf m s x))).
Proof. intros. apply helper_drops; assumption. Qed.
Print Assumptions C64_helper_drops_the_tangent_refuted.

(** * Cases *)
Example C64_seed : forall t, carries (fun u => u) t (dual_of t 1) /\ forall c, carries (fun _ => c) t (dual_of c 0).
Proof. intros t. split; [apply c_id|intros c; apply c_const]. Qed.
Example C64_standard_normal : forall lg dg, snd (normal_ld (@mkNormal (Dual lg dg) (dual_of 0 0) (dual_of 1 0)) (dual_of (3 / 2) 1)) = Fin (- (3 / 2)).
Proof. intros. rewrite C64_normal_score by lra. cbn. f_equal. field. Qed.
(** A program of three inputs: ln(a) * sin(b / c) at (2, 1, 3). *)
Example C64_program : forall lg dg, let p := TMul (TLn (TArg 0)) (TSin (TDiv (TArg 1) (TArg 2))) in
  carries (fun u => ln (1 + u) * sin (u / 3)) 1 (@interpret (Dual lg dg) DirectEval (fun i => match i with 0%nat => dual_of 2 1 | 1%nat => dual_of 1 1 | _ => dual_of 3 0 end) (dual_term p)).
Proof.
  intros lg dg p. apply (C64_every_generic_program lg dg p (fun i u => match i with 0%nat => 1 + u | 1%nat => u | _ => 3 end)).
  - cbn. intros i [<-|[<-|[<-|[]]]].
    + exists 1. split; [unfold dual_of; do 2 f_equal; lra|]. replace 1 with (0 + 1) at 2 by lra. apply derivable_pt_lim_plus; [apply derivable_pt_lim_const|apply derivable_pt_lim_id].
    + apply c_id.
    + apply c_const.
  - cbn. repeat split; lra.
Qed.
