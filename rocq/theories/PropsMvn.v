(** The multivariate normal (C75). *)
From Coq Require Import ZArith Reals List Bool Lra Lia Arith.
From Verif Require Import Num XRFacts DensitySpec BuilderProofs CoreSpec CoreProofs DistSpec DistFacts MvnModel MvnSpec MvnProofs MvnDet.
Import ListNotations.
Local Open Scope R_scope.

(** Construction succeeds exactly for a mean of the right length and an
    invertible covariance; a matrix that is not square is refused. *)
Theorem C75_construction : forall lg inv (det : DMat (XR lg) -> XR lg) n m mu V M A,
  inverts inv n M -> vec_is m mu V -> mat_is n M A ->
  ((exists d, mvn_new inv det V A = Some d) <-> m = n /\ exists P, is_inverse n M P).
Proof. exact new_iff. Qed.
Print Assumptions C75_construction.
Theorem C75_not_square : forall lg inv (det : DMat (XR lg) -> XR lg) V A, m_rows A <> m_cols A -> mvn_new inv det V A = None.
Proof. exact new_not_square. Qed.
Print Assumptions C75_not_square.

(** The exponential-family log-density is the logarithm of the textbook density. *)
Theorem C75_density : forall lg inv (det : DMat (XR lg) -> XR lg) n mu V M A d P x X,
  inverts inv n M -> determines det n M -> vec_is n mu V -> mat_is n M A ->
  symmetric n M -> 0 < rdet n M -> is_inverse n M P ->
  mvn_new inv det V A = Some d -> vec_is n x X ->
  mvn_density d X = Some (Fin (ln (mvn_pdf n mu P (rdet n M) x))).
Proof. exact density. Qed.
Print Assumptions C75_density.
(** For every symmetric positive definite covariance: accepted, with positive
    determinant, and largest exactly at the mean. *)
Theorem C75_positive_definite : forall lg inv (det : DMat (XR lg) -> XR lg) n mu V M A,
  inverts inv n M -> determines det n M -> vec_is n mu V -> mat_is n M A -> positive_definite n M ->
  exists d P, mvn_new inv det V A = Some d /\ is_inverse n M P /\ 0 < rdet n M /\
    forall x X, vec_is n x X -> mvn_density d X = Some (Fin (ln (mvn_pdf n mu P (rdet n M) x))).
Proof. exact @density_pd. Qed.
Print Assumptions C75_positive_definite.
Theorem C75_mode : forall lg inv (det : DMat (XR lg) -> XR lg) n mu V M A d x X,
  inverts inv n M -> determines det n M -> vec_is n mu V -> mat_is n M A -> positive_definite n M ->
  mvn_new inv det V A = Some d -> vec_is n x X -> (exists i, (i < n)%nat /\ x i <> mu i) ->
  exists a b, mvn_density d X = Some (Fin a) /\ mvn_density d V = Some (Fin b) /\ a < b.
Proof. exact @mode_density. Qed.
Print Assumptions C75_mode.
(** Independent components: the sum of the normal log-densities; in particular
    the one-dimensional case is the normal distribution. *)
Theorem C75_independent : forall lg inv (det : DMat (XR lg) -> XR lg) n mu V s A d x X,
  (forall i, (i < n)%nat -> 0 < s i) ->
  inverts inv n (diag (fun i => s i * s i)) -> determines det n (diag (fun i => s i * s i)) ->
  vec_is n mu V -> mat_is n (diag (fun i => s i * s i)) A -> mvn_new inv det V A = Some d -> vec_is n x X ->
  mvn_density d X = Some (Fin (sumn n (fun i => ln (normal_pdf (mu i) (s i) (x i))))).
Proof. exact independent. Qed.
Print Assumptions C75_independent.
Theorem C75_standard : forall lg inv (det : DMat (XR lg) -> XR lg) n x X, inverts inv n delta -> determines det n delta -> vec_is n x X ->
  exists d, mvn_standard inv det n = Some d /\ mvn_density d X = Some (Fin (sumn n (fun i => ln (normal_pdf 0 1 (x i))))).
Proof. exact standard. Qed.
Print Assumptions C75_standard.

(** Natural parameters and back: the same distribution. *)
Theorem C75_round_trip : forall lg inv (det : DMat (XR lg) -> XR lg) n mu V M A d P,
  inverts inv n M -> inverts inv n P -> determines det n M -> vec_is n mu V -> mat_is n M A ->
  is_inverse n M P -> mvn_new inv det V A = Some d ->
  exists eta d', mvn_to_natural d = Some eta /\ mvn_from_natural inv det eta = Some d' /\
    vec_is n mu (mv_mean d') /\ mat_is n M (mv_cov d') /\ mat_is n P (mv_prec d') /\ mv_det d' = mv_det d /\ mv_dim d' = mv_dim d.
Proof. exact round_trip. Qed.
Print Assumptions C75_round_trip.

(** A point of another length panics, although every vector is "in the support". *)
Theorem C75_wrong_length : forall lg inv (det : DMat (XR lg) -> XR lg) n mu V M A d X,
  inverts inv n M -> determines det n M -> vec_is n mu V -> mat_is n M A ->
  mvn_new inv det V A = Some d -> v_len X <> n -> mvn_support d X = true /\ mvn_density d X = None.
Proof. intros. split; [reflexivity|]. eapply density_wrong_length; eassumption. Qed.
Print Assumptions C75_wrong_length.

(** A negative determinant is accepted and makes every log-density NaN. *)
Theorem C75_negative_determinant : forall lg inv (det : DMat (XR lg) -> XR lg) n mu V M A d x X,
  inverts inv n M -> determines det n M -> vec_is n mu V -> mat_is n M A -> rdet n M < 0 ->
  mvn_new inv det V A = Some d -> vec_is n x X -> mvn_density d X = Some XNaN.
Proof. exact density_negative_det. Qed.
Print Assumptions C75_negative_determinant.

(** * Two dimensions: a library that inverts one given matrix *)
Definition m2 (a b c d : R) (i j : nat) : R :=
  match i, j with O, O => a | O, _ => b | _, O => c | _, _ => d end.
Definition mat2 {lg} (a b c d : R) : DMat (XR lg) := mkMat 2 2 (fun i j => Fin (m2 a b c d i j) : XR lg).
Definition v2 (a b : R) (i : nat) : R := match i with O => a | _ => b end.
Definition vec2 {lg} (a b : R) : DVec (XR lg) := mkVec 2 (fun i => Fin (v2 a b i) : XR lg).
Definition inv2 {lg} (a b c d : R) (_ : DMat (XR lg)) : option (DMat (XR lg)) := Some (mat2 a b c d).
Definition det2 {lg} (D : R) (_ : DMat (XR lg)) : XR lg := Fin D.
Lemma mat2_is lg a b c d : mat_is 2 (m2 a b c d) (@mat2 lg a b c d).
Proof. split; [reflexivity|]. split; reflexivity. Qed.
Lemma vec2_is lg a b : vec_is 2 (v2 a b) (@vec2 lg a b).
Proof. split; reflexivity. Qed.
Lemma inv2_ok lg M a b c d : is_inverse 2 M (m2 a b c d) -> inverts (@inv2 lg a b c d) 2 M.
Proof. intros H A _. exists (m2 a b c d). split; [apply mat2_is|exact H]. Qed.
Lemma det2_ok lg M D : rdet 2 M = D -> determines (@det2 lg D) 2 M.
Proof. intros H A _. rewrite H. reflexivity. Qed.
Lemma inverse2 a b c d p q r s : a * p + b * r = 1 -> a * q + b * s = 0 -> c * p + d * r = 0 -> c * q + d * s = 1 ->
  p * a + q * c = 1 -> p * b + q * d = 0 -> r * a + s * c = 0 -> r * b + s * d = 1 -> is_inverse 2 (m2 a b c d) (m2 p q r s).
Proof.
  intros. intros [|[|i]] [|[|j]] I J; try lia; unfold delta; cbn [sumn m2 Nat.eqb]; split; lra.
Qed.
Lemma rdet2 a b c d : rdet 2 (m2 a b c d) = a * d - b * c.
Proof. cbn. ring. Qed.
Ltac two := repeat (first [apply inv2_ok | apply det2_ok | apply mat2_is | apply vec2_is | apply inverse2 | rewrite rdet2]; try lra).

(** Covariance (2 1; 1 2). *)
Example C75_case : let inv := inv2 (2/3) (-1/3) (-1/3) (2/3) in let det := det2 3 in
  exists d, mvn_new inv det (@vec2 ln 1 2) (mat2 2 1 1 2) = Some d /\
  mvn_density d (vec2 1 5) = Some (Fin (ln (mvn_pdf 2 (v2 1 2) (m2 (2/3) (-1/3) (-1/3) (2/3)) 3 (v2 1 5)))) /\
  quad 2 (m2 (2/3) (-1/3) (-1/3) (2/3)) (fun i => v2 1 5 i - v2 1 2 i) = 6.
Proof.
  intros inv det. eexists. split; [reflexivity|]. split; [|cbn; lra].
  match goal with |- mvn_density ?d _ = _ => pose proof (C75_density ln inv det 2 (v2 1 2) (vec2 1 2) (m2 2 1 1 2) (mat2 2 1 1 2) d (m2 (2/3) (-1/3) (-1/3) (2/3)) (v2 1 5) (vec2 1 5)) as H end.
  rewrite rdet2 in H. replace (2 * 2 - 1 * 1) with 3 in H by lra. apply H; try (two; fail); try lra; [|reflexivity].
  intros [|[|i]] [|[|j]] I J; try lia; reflexivity.
Qed.
(** The covariance is not checked to be symmetric: the log-density is then not
    that of the quadratic form. *)
Theorem C75_symmetry_unchecked_refuted : exists (d : Mvn (XR ln)) r,
  mvn_new (inv2 1 (-1) 0 1) (det2 1) (vec2 1 0) (mat2 1 1 0 1) = Some d /\ is_inverse 2 (m2 1 1 0 1) (m2 1 (-1) 0 1) /\
  mvn_density d (vec2 0 1) = Some (Fin r) /\ r <> ln (mvn_pdf 2 (v2 1 0) (m2 1 (-1) 0 1) 1 (v2 0 1)).
Proof.
  eexists. eexists. split; [reflexivity|]. split; [two|]. split.
  - apply (density_any ln 2 (v2 1 0) (m2 1 (-1) 0 1) _ 1 (v2 0 1)); cbn [mv_mean mv_prec mv_dim mv_det]; try reflexivity; try lra; [apply vec2_is|apply mat2_is|apply vec2_is].
  - rewrite ln_mvn_pdf by lra. unfold bil, quad. cbn. lra.
Qed.
Print Assumptions C75_symmetry_unchecked_refuted.
(** Nor to be positive definite: with covariance -I the "density" grows without bound. *)
Theorem C75_definiteness_unchecked_refuted : exists d : Mvn (XR ln),
  mvn_new (inv2 (-1) 0 0 (-1)) (det2 1) (vec2 0 0) (mat2 (-1) 0 0 (-1)) = Some d /\ is_inverse 2 (m2 (-1) 0 0 (-1)) (m2 (-1) 0 0 (-1)) /\ rdet 2 (m2 (-1) 0 0 (-1)) = 1 /\
  forall t, mvn_density d (vec2 t 0) = Some (Fin (t * t / 2 - ln (2 * PI))).
Proof.
  eexists. split; [reflexivity|]. split; [two|]. split; [rewrite rdet2; lra|]. intros t.
  rewrite (density_any ln 2 (v2 0 0) (m2 (-1) 0 0 (-1)) _ 1 (v2 t 0)); cbn [mv_mean mv_prec mv_dim mv_det]; try reflexivity; try lra; [|apply vec2_is|apply mat2_is|apply vec2_is].
  do 2 f_equal. unfold bil. cbn. rewrite ln_1. lra.
Qed.
Print Assumptions C75_definiteness_unchecked_refuted.
(** Hypotheses of the other theorems: identity, negative determinant, wrong length. *)
Example C75_hypotheses : inverts (@inv2 ln 1 0 0 1) 2 delta /\ determines (@det2 ln 1) 2 delta /\
  (exists d, mvn_new (inv2 1 0 0 (-1)) (det2 (-1)) (@vec2 ln 0 0) (mat2 1 0 0 (-1)) = Some d) /\ rdet 2 (m2 1 0 0 (-1)) < 0 /\
  inverts (@inv2 ln (/ 4) 0 0 1) 2 (diag (fun i => v2 2 1 i * v2 2 1 i)).
Proof.
  split; [|split; [|split; [|split]]].
  - apply inv2_ok. intros [|[|i]] [|[|j]] I J; try lia; unfold delta; cbn [sumn m2 Nat.eqb]; split; lra.
  - apply det2_ok. cbn. unfold minor, delta. cbn. lra.
  - eexists. reflexivity.
  - rewrite rdet2. lra.
  - apply inv2_ok. intros [|[|i]] [|[|j]] I J; try lia; unfold delta, diag; cbn [sumn m2 v2 Nat.eqb]; split; lra.
Qed.
Example C75_positive_definite_case : positive_definite 2 (m2 2 1 1 2).
Proof.
  split; [intros [|[|i]] [|[|j]] I J; try lia; reflexivity|].
  intros v (i & I & E). unfold quad. cbn.
  assert (H : 0 < v 0%nat * v 0%nat + v 1%nat * v 1%nat).
  { pose proof (Rle_0_sqr (v 0%nat)) as A. pose proof (Rle_0_sqr (v 1%nat)) as B. unfold Rsqr in A, B.
    destruct i as [|[|i]]; [| |lia]; pose proof (Rsqr_pos_lt _ E) as C; unfold Rsqr in C; lra. }
  pose proof (Rle_0_sqr (v 0%nat + v 1%nat)) as S. unfold Rsqr in S. lra.
Qed.
