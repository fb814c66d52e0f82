(** Properties C36 (products), C37 (weighted, integral, Dirac), C38 (mixtures),
    C39 (pushforwards), C49 (linear transforms). *)
From Coquelicot Require Import Coquelicot.
From Coq Require Import ZArith Reals List Bool Lra Lia Arith Sorting.Permutation.
From Verif Require Import Num XRFacts DensitySpec BuilderProofs CoreModel CoreSpec CoreProofs
  CombModel CombSpec ExpFamModel DistModel DistSpec DistFacts DistProofs DistProofs2 DistProofs3 DistProofs4
  ExpFamProofs CombProofs CombProofs2.
Import ListNotations.
Local Open Scope R_scope.
Local Open Scope list_scope.
Local Notation fin lg r := (Fin r : XR lg).

(** * C36 *)

(** Joint density, support and root. *)
Theorem C36_joint_density : forall lg A B (m1 : Measure (XR lg) A) (m2 : Measure (XR lg) B) x y,
  is_logdens (b_ld m1 x) -> is_logdens (b_ld m2 y) ->
  is_logdens (b_ld (product m1 m2) (x, y)) /\
  dens (b_ld (product m1 m2) (x, y)) = dens (b_ld m1 x) * dens (b_ld m2 y).
Proof. intros lg A B m1 m2 x y H G. exact (logdens_add _ _ H G). Qed.
Print Assumptions C36_joint_density.

Theorem C36_joint_log_density_support_root : forall (N : Num) A B (m1 : Measure N A) (m2 : Measure N B) x y,
  b_ld (product m1 m2) (x, y) = nadd (b_ld m1 x) (b_ld m2 y) /\
  (b_support (product m1 m2) (x, y) = true <-> b_support m1 x = true /\ b_support m2 y = true) /\
  b_ld (m_root (product m1 m2)) (x, y) = nadd (b_ld (m_root m1) x) (b_ld (m_root m2) y) /\
  (b_support (m_root (product m1 m2)) (x, y) = true <->
   b_support (m_root m1) x = true /\ b_support (m_root m2) y = true).
Proof.
  intros. split; [reflexivity|]. split; [apply andb_true_iff|]. split; [reflexivity|apply andb_true_iff].
Qed.
Print Assumptions C36_joint_log_density_support_root.

(** The mass of a rectangle is the product of the masses of its sides. *)
Theorem C36_mass_of_a_rectangle : forall lg A B (m1 : Measure (XR lg) A) (m2 : Measure (XR lg) B) s t,
  (forall x, In x s -> is_logdens (b_ld m1 x)) -> (forall y, In y t -> is_logdens (b_ld m2 y)) ->
  mass (b_ld (product m1 m2)) (list_prod s t) = mass (b_ld m1) s * mass (b_ld m2) t.
Proof. exact product_mass. Qed.
Print Assumptions C36_mass_of_a_rectangle.

(** Relative log-densities of products add. *)
Theorem C36_relative_densities_add : forall lg A B lay l1 l2 (m1 b1 : Measure (XR lg) A) (m2 b2 : Measure (XR lg) B) x y,
  off_measure lay <> off_base lay -> off_measure l1 <> off_base l1 -> off_measure l2 <> off_base l2 ->
  finite (b_ld b1 x) -> finite (b_ld b2 y) ->
  at_ lay (wrt (log_density (product m1 m2)) (product b1 b2)) (x, y) =
  nadd (at_ l1 (wrt (log_density m1) b1) x) (at_ l2 (wrt (log_density m2) b2) y).
Proof. exact @product_relative. Qed.
Print Assumptions C36_relative_densities_add.

(** Nesting is associative, at every point and for every value of the densities. *)
Theorem C36_nesting_is_associative : forall lg A B D (m1 : Measure (XR lg) A) (m2 : Measure (XR lg) B)
  (m3 : Measure (XR lg) D) x y z,
  b_ld (product (product m1 m2) m3) ((x, y), z) = b_ld (product m1 (product m2 m3)) (x, (y, z)) /\
  b_support (product (product m1 m2) m3) ((x, y), z) = b_support (product m1 (product m2 m3)) (x, (y, z)).
Proof.
  intros. split; [apply xadd_assoc|]. cbn. symmetry. apply andb_assoc.
Qed.
Print Assumptions C36_nesting_is_associative.
Example C36_case : exists d, bernoulli_new (fin ln (1/3)) = Some d /\
  let m := {| m_self := bernoulli_base d; m_root := primitive |} in
  mass (b_ld (product m m)) (list_prod [0; 1]%nat [0; 1]%nat) = 1.
Proof.
  eexists. split; [apply (bernoulli_new_ok ln (1/3)); lra|]. intros m.
  assert (V : forall k, (k <= 1)%nat -> b_ld m k = Fin (ln (bernoulli_pmf (1/3) k))).
  { intros k K. apply (bernoulli_direct ln (1/3) k); [lra|exact K]. }
  rewrite C36_mass_of_a_rectangle.
  - unfold mass. cbn [map]. rewrite !V by lia. cbn [dens bernoulli_pmf]. rewrite !exp_ln by lra.
    rewrite !Rsum_cons, Rsum_nil. lra.
  - intros k [<-|[<-|[]]]; rewrite V by lia; apply logdens_fin.
  - intros k [<-|[<-|[]]]; rewrite V by lia; apply logdens_fin.
Qed.

(** * C37 *)
Theorem C37_weighted : forall lg A (m : Measure (XR lg) A) (w : R) x, is_logdens (b_ld m x) ->
  is_logdens (b_ld (weighted m (fin lg w)) x) /\
  dens (b_ld (weighted m (fin lg w)) x) = exp w * dens (b_ld m x).
Proof. intros lg A m w x H. apply (logdens_add (Fin w) _ (logdens_fin w) H). Qed.
Print Assumptions C37_weighted.
Theorem C37_weights_compose : forall lg A (m : Measure (XR lg) A) (v w : XR lg) x,
  b_ld (weighted (weighted m v) w) x = b_ld (weighted m (nadd w v)) x.
Proof. intros. cbn [weighted m_self b_ld nadd XR]. symmetry. apply xadd_assoc. Qed.
Print Assumptions C37_weights_compose.
Theorem C37_integral : forall lg A (m : Measure (XR lg) A) (f : A -> XR lg) n x,
  is_logdens (b_ld m x) -> is_logdens (f x) ->
  is_logdens (b_ld (integral m f n) x) /\ dens (b_ld (integral m f n) x) = dens (f x) * dens (b_ld m x).
Proof. intros lg A m f n x H G. apply (logdens_add _ _ G H). Qed.
Print Assumptions C37_integral.
Theorem C37_support_and_root_unchanged : forall (N : Num) A (m : Measure N A) w f n x,
  b_support (weighted m w) x = b_support m x /\ m_root (weighted m w) = m_root m /\
  b_support (integral m f n) x = b_support m x /\ m_root (integral m f n) = m_root m /\
  b_ld (integral m (fun _ => w) n) x = b_ld (weighted m w) x.
Proof. intros; repeat split. Qed.
Print Assumptions C37_support_and_root_unchanged.
(** Relative to its base, a weighted measure is its weight and an integral
    measure is its integrand; the mass of any finite set is scaled. *)
Theorem C37_relative_to_the_base : forall lg A lay (m : Measure (XR lg) A) (w : R) f n x,
  off_measure lay <> off_base lay -> finite (b_ld m x) -> finite (f x) ->
  at_ lay (wrt (log_density (weighted m (fin lg w))) m) x = Fin w /\
  at_ lay (wrt (log_density (integral m f n)) m) x = f x.
Proof.
  intros lg A lay m w f n x L (c & E) (v & F). rewrite !at_differs by exact L.
  cbn [wrt log_density ld_measure ld_base weighted integral m_self b_ld]. rewrite E, F. cbn. split; f_equal; lra.
Qed.
Print Assumptions C37_relative_to_the_base.
Theorem C37_mass_is_scaled : forall lg A (m : Measure (XR lg) A) (w : R) s,
  (forall x, In x s -> is_logdens (b_ld m x)) ->
  mass (b_ld (weighted m (fin lg w))) s = exp w * mass (b_ld m) s.
Proof.
  intros lg A m w s H. unfold mass. rewrite <- Rsum_scale. f_equal. apply map_ext_in. intros x I.
  apply C37_weighted, H, I.
Qed.
Print Assumptions C37_mass_is_scaled.
Theorem C37_dirac : forall A (eqb : A -> A -> bool), (forall a b, eqb a b = true <-> a = b) ->
  forall p x, dirac_in_support eqb p x = true <-> x = p.
Proof. intros A eqb E p x. apply E. Qed.
Print Assumptions C37_dirac.
Example C37_case : exists d, normal_new (fin ln 0) (fin ln 1) = Some d /\
  let m := {| m_self := normal_base d; m_root := primitive |} in
  finite (b_ld m (fin ln 3)) /\ is_logdens (b_ld m (fin ln 3)).
Proof.
  eexists. split; [apply normal_new_ok; lra|]. cbn [m_self normal_base continuous_base b_ld].
  rewrite normal_direct by lra. split; [eexists; reflexivity|apply logdens_fin].
Qed.

(** * C38 *)
(** The log-density is the logarithm of the weighted sum of the densities. *)
Theorem C38_density : forall lg A (ws : list R) (cs : list (Measure (XR lg) A)) x,
  Forall (fun w => 0 <= w) ws -> Forall (fun c : Measure (XR lg) A => is_logdens (b_ld c x)) cs ->
  is_logdens (mixture_ld (mkMixture cs (fins ws : list (XR lg))) x) /\
  dens (mixture_ld (mkMixture cs (fins ws : list (XR lg))) x) =
  mixture_density ws (map (fun c : Measure (XR lg) A => b_ld c) cs) x.
Proof. exact @mixture_correct. Qed.
Print Assumptions C38_density.

(** Minus infinity exactly when every component contributes nothing. *)
Theorem C38_minus_infinity : forall lg A (ws : list R) (cs : list (Measure (XR lg) A)) x,
  Forall (fun w => 0 <= w) ws -> Forall (fun c : Measure (XR lg) A => is_logdens (b_ld c x)) cs ->
  (mixture_ld (mkMixture cs (fins ws : list (XR lg))) x = NInf <->
   forall w c, In (w, c) (combine ws cs) -> w = 0 \/ b_ld c x = NInf).
Proof. exact @mixture_ninf. Qed.
Print Assumptions C38_minus_infinity.

(** The order of the (weight, component) pairs is irrelevant. *)
Theorem C38_order_is_irrelevant : forall lg A (ws ws' : list R) (cs cs' : list (Measure (XR lg) A)) x,
  Forall (fun w => 0 <= w) ws -> Forall (fun w => 0 <= w) ws' ->
  Forall (fun c : Measure (XR lg) A => is_logdens (b_ld c x)) cs ->
  Forall (fun c : Measure (XR lg) A => is_logdens (b_ld c x)) cs' ->
  Permutation (combine ws cs) (combine ws' cs') ->
  mixture_ld (mkMixture cs (fins ws : list (XR lg))) x = mixture_ld (mkMixture cs' (fins ws' : list (XR lg))) x.
Proof. exact @mixture_order. Qed.
Print Assumptions C38_order_is_irrelevant.

(** The support is the union of the supports with positive weight. *)
Theorem C38_support : forall lg A (ws : list R) (cs : list (Measure (XR lg) A)) x,
  mixture_in_support (mkMixture cs (fins ws : list (XR lg))) x = true <->
  exists w c, In (c, w) (combine cs ws) /\ 0 < w /\ b_support c x = true.
Proof. exact @mixture_support_iff. Qed.
Print Assumptions C38_support.

(** A mixture of normalised measures with a probability vector is normalised ... *)
Theorem C38_normalised : forall lg (ws : list R) (cs : list (Measure (XR lg) nat)),
  Forall (fun w => 0 <= w) ws -> Rsum ws = 1 -> length ws = length cs ->
  (forall c k, In c cs -> is_logdens (b_ld (m_self c) k)) ->
  (forall c, In c cs -> sums_to (fun k => dens (b_ld (m_self c) k)) 1) ->
  sums_to (fun k => dens (mixture_ld (mkMixture cs (fins ws : list (XR lg))) k)) 1.
Proof. exact mixture_normalised. Qed.
Print Assumptions C38_normalised.
(** ... and gives every interval the weighted sum of the components' masses. *)
Theorem C38_interval_mass : forall lg (ws : list R) (cs : list (Measure (XR lg) (XR lg))) masses a b,
  Forall (fun w => 0 <= w) ws -> length ws = length cs ->
  (forall c x, In c cs -> is_logdens (b_ld (m_self c) (Fin x))) ->
  Forall2 (fun (c : Measure (XR lg) (XR lg)) t => mass_between (b_ld c) a b t) cs masses ->
  mass_between (mixture_ld (mkMixture cs (fins ws : list (XR lg)))) a b
    (Rsum (map (fun p => fst p * snd p) (combine ws masses))).
Proof. exact mixture_mass_between. Qed.
Print Assumptions C38_interval_mass.

(** The root of a mixture is that of its first component; no components panic. *)
Theorem C38_root : forall (N : Num) A (cs : list (Measure N A)) ws,
  (mixture_root (mkMixture cs ws) = None <-> cs = []) /\
  (forall c cs', cs = c :: cs' -> mixture_root (mkMixture cs ws) = Some (m_root c)).
Proof.
  intros N A cs ws. split.
  - destruct cs; cbn; split; intros H; auto; discriminate.
  - intros c cs' ->. reflexivity.
Qed.
Print Assumptions C38_root.

(** Two-component mixtures: any weights with positive sum are normalised first. *)
Theorem C38_two_components : forall lg A (a b : Measure (XR lg) A) w1 w2, 0 < w1 + w2 ->
  mixture2 a b (fin lg w1) (fin lg w2) =
  Some (mkMixture [a; b] (fins [w1 / (w1 + w2); w2 / (w1 + w2)] : list (XR lg))).
Proof. exact @mixture2_ok. Qed.
Print Assumptions C38_two_components.
(** Equal weights: the density is the average of the components' densities. *)
Theorem C38_uniform_is_the_average : forall lg A (cs : list (Measure (XR lg) A)) x,
  cs <> [] -> Forall (fun c : Measure (XR lg) A => is_logdens (b_ld (m_self c) x)) cs ->
  exists m, mixture_uniform cs = Some m /\ is_logdens (mixture_ld m x) /\
    dens (mixture_ld m x) = Rsum (map (fun c : Measure (XR lg) A => dens (b_ld (m_self c) x)) cs) / INR (length cs).
Proof. exact @uniform_average. Qed.
Print Assumptions C38_uniform_is_the_average.
Theorem C38_uniform_of_two : forall lg A (a b : Measure (XR lg) A) x,
  is_logdens (b_ld (m_self a) x) -> is_logdens (b_ld (m_self b) x) ->
  exists m, uniform_mixture2 a b = Some m /\ is_logdens (mixture_ld m x) /\
    dens (mixture_ld m x) = (dens (b_ld (m_self a) x) + dens (b_ld (m_self b) x)) / 2.
Proof. exact @uniform_average2. Qed.
Print Assumptions C38_uniform_of_two.
Example C38_case : exists d, bernoulli_new (fin ln (1/4)) = Some d /\
  let m := {| m_self := bernoulli_base d; m_root := primitive |} in
  dens (mixture_ld (mkMixture [m; m] (fins [1/3; 2/3] : list (XR ln))) 1%nat) = 1/4.
Proof.
  eexists. split; [apply (bernoulli_new_ok ln (1/4)); lra|]. intros m.
  assert (V : b_ld m 1%nat = Fin (ln (bernoulli_pmf (1/4) 1))) by (apply (bernoulli_direct ln (1/4)); [lra|lia]).
  destruct (C38_density ln nat [1/3; 2/3] [m; m] 1%nat) as [_ K].
  - repeat (apply Forall_cons; [lra|]). apply Forall_nil.
  - repeat (apply Forall_cons; [rewrite V; apply logdens_fin|]). apply Forall_nil.
  - rewrite K. unfold mixture_density. cbn [map combine fst snd]. rewrite V. cbn [dens bernoulli_pmf].
    rewrite exp_ln by lra. rewrite !Rsum_cons, Rsum_nil. lra.
Qed.

(** Outside these hypotheses: a NaN component is silently dropped to minus
    infinity when all are NaN, an infinite density gives NaN, and so does a
    negative weight (which the constructor accepts, see C34). *)
Theorem C38_special_values_refuted : forall lg (v : R),
  log_sum_exp [XNaN : XR lg] = NInf /\
  log_sum_exp [PInf : XR lg; fin lg v] = XNaN /\
  log_sum_exp [fin lg v; XNaN : XR lg] = XNaN.
Proof.
  intros lg v. split; [reflexivity|]. split; [reflexivity|].
  unfold log_sum_exp. cbn [fold_left map nltb XR xltb nninf].
  change (is_neg_inf (Fin v : XR lg)) with false. cbn iota.
  cbn [nsub nexp nadd XR xsub xneg xadd xexp]. rewrite x_n0. reflexivity.
Qed.
Print Assumptions C38_special_values_refuted.

(** * C39 *)
(** A smooth transform moves mass without changing it: what the pushforward
    gives to the image of [a,b] is what the base gives to [a,b]. *)
Theorem C39_interval_mass : forall lg (m : Base (XR lg) (XR lg)) t (dom cod : R -> Prop) f g,
  smooth_transform t dom cod f g ->
  forall a b, a <= b -> (forall x, a <= x <= b -> dom x) ->
  (forall x, a <= x <= b -> is_logdens (b_ld m (fin lg x)) /\
                            continuous (fun x => dens (b_ld m (fin lg x))) x) ->
  exists I, mass_between (b_ld m) a b I /\
            mass_between (push_ld m t) (Rmin (f a) (f b)) (Rmax (f a) (f b)) I.
Proof. exact push_interval. Qed.
Print Assumptions C39_interval_mass.

(** The four supplied transforms are smooth, with inverses on the stated domains. *)
Theorem C39_log : forall lg, smooth_transform (@log_transform (XR lg)) (fun x => 0 < x) (fun _ => True) ln exp.
Proof. exact log_smooth. Qed.
Print Assumptions C39_log.
Theorem C39_exp : forall lg, smooth_transform (@exp_transform (XR lg)) (fun _ => True) (fun y => 0 < y) exp ln.
Proof. exact exp_smooth. Qed.
Print Assumptions C39_exp.
Theorem C39_linear : forall lg a b, a <> 0 ->
  smooth_transform (linear_transform (fin lg a) (fin lg b)) (fun _ => True) (fun _ => True)
    (fun x => a * x + b) (fun y => (y - b) / a).
Proof. exact linear_smooth. Qed.
Print Assumptions C39_linear.
Theorem C39_logit : forall lg, smooth_transform (@logit_transform (XR lg)) (fun x => 0 < x < 1) (fun _ => True)
  (fun x => ln (x / (1 - x))) (fun y => exp y / (1 + exp y)).
Proof. exact logit_smooth. Qed.
Print Assumptions C39_logit.

(** Density and support at a point of the image. *)
Theorem C39_density : forall lg (m : Base (XR lg) (XR lg)) t (dom cod : R -> Prop) f g x,
  smooth_transform t dom cod f g -> dom x -> is_logdens (b_ld m (fin lg x)) ->
  exists d, is_derive g (f x) d /\
    dens (push_ld m t (forward t (fin lg x))) = dens (b_ld m (fin lg x)) * Rabs d /\
    push_support m t (forward t (fin lg x)) = b_support m (fin lg x).
Proof. exact push_point. Qed.
Print Assumptions C39_density.

Example C39_case : exists d I, normal_new (fin ln 0) (fin ln 1) = Some d /\
  mass_between (b_ld (normal_base d)) (-1) 2 I /\
  mass_between (push_ld (normal_base d) (linear_transform (fin ln (-2)) (fin ln 1))) (-3) 3 I.
Proof. exact push_normal_case. Qed.

(** Outside the image of exp the pushforward of a Normal claims support and
    answers NaN; a linear transform with a = 0 is not rejected. *)
Theorem C39_outside_the_image_refuted : forall lg m s d y, normal_new (fin lg m) (fin lg s) = Some d -> y < 0 ->
  push_support (normal_base d) exp_transform (fin lg y) = true /\
  push_ld (normal_base d) exp_transform (fin lg y) = XNaN.
Proof. exact push_outside. Qed.
Print Assumptions C39_outside_the_image_refuted.

(** * C49.  [conv] is the conversion of the entries to the scalar type (through f32). *)
Theorem C49_transform_is_affine : forall lg conv A b n m t (x : list R),
  linear_new (xconv lg conv) (fins A : list (XR lg)) (fins b : list (XR lg)) n m = Some t -> length x = n ->
  linear_transform_vec t (fins x) = Some (fins (map (affine (map conv A) (map conv b) x) (seq 0 m))).
Proof. exact linear_affine. Qed.
Print Assumptions C49_transform_is_affine.
Theorem C49_shapes_are_checked : forall lg conv (A b x : list (XR lg)) n m,
  (returns (linear_new (xconv lg conv) A b n m) <-> length A = (n * m)%nat /\ length b = m) /\
  (forall t, linear_new (xconv lg conv) A b n m = Some t -> length x <> n -> linear_transform_vec t x = None).
Proof.
  intros. split; [apply linear_new_iff|]. intros t. apply linear_wrong_length.
Qed.
Print Assumptions C49_shapes_are_checked.
Example C49_case : exists t, linear_new (xconv ln (fun r => r)) (fins [1; 2; 3; 4] : list (XR ln)) (fins [5; 6] : list (XR ln)) 2 2 = Some t /\
  linear_transform_vec t (fins [10; 100]) = Some (fins [215; 436]).
Proof.
  destruct (proj2 (linear_new_iff ln (fun r => r) (fins [1; 2; 3; 4]) (fins [5; 6]) 2 2) ltac:(cbn; auto)) as [t E].
  exists t. split; [exact E|]. rewrite (linear_affine ln (fun r => r) _ _ _ _ t [10; 100] E eq_refl).
  f_equal. unfold fins, affine. cbn. repeat f_equal; lra.
Qed.

(** The reported log-determinant is zero for every matrix, so it is right only
    when the determinant is +1 or -1 (a defect): *)
Theorem C49_reported_log_determinant : forall lg conv (A b : list (XR lg)) n m t, conv 0 = 0 ->
  linear_new (xconv lg conv) A b n m = Some t -> linear_log_det (xconv lg conv) t = (fin lg 0).
Proof. exact linear_det_zero. Qed.
Print Assumptions C49_reported_log_determinant.
Theorem C49_log_determinant_refuted : forall lg (d : list R) b t,
  linear_new (xconv lg (fun r => r)) (fins (diag_matrix d) : list (XR lg)) b (length d) (length d) = Some t ->
  0 < Rabs (diag_det d) -> Rabs (diag_det d) <> 1 ->
  linear_log_det (xconv lg (fun r => r)) t <> Fin (ln (Rabs (diag_det d))).
Proof.
  intros lg d b t H P N. rewrite (linear_det_zero lg (fun r => r) _ b _ _ t eq_refl H). intros K. injection K as K.
  apply N. rewrite <- (exp_ln _ P), <- K. apply exp_0.
Qed.
Print Assumptions C49_log_determinant_refuted.
Example C49_refuted_case : exists t, linear_new (xconv ln (fun r => r)) (fins (diag_matrix [2; 3]) : list (XR ln)) (fins [0; 0] : list (XR ln)) 2 2 = Some t /\
  Rabs (diag_det [2; 3]) = 6.
Proof.
  destruct (proj2 (linear_new_iff ln (fun r => r) (fins (diag_matrix [2; 3])) (fins [0; 0]) 2 2) ltac:(cbn; auto)) as [t E].
  exists t. split; [exact E|]. cbn. rewrite Rabs_right; lra.
Qed.
(** Component-wise transforms apply the function to each entry; their reported
    log-determinant is zero whatever the function. *)
Theorem C49_componentwise : forall lg (f : XR lg -> XR lg) (x : list (XR lg)) n,
  (componentwise f n x = None <-> length x <> n) /\ componentwise f (length x) x = Some (map f x).
Proof.
  intros lg f x n. split; [|apply componentwise_fins]. unfold componentwise.
  destruct (Nat.eqb (length x) n) eqn:E; [apply Nat.eqb_eq in E|apply Nat.eqb_neq in E]; split; intros H; auto; try discriminate; contradiction.
Qed.
Print Assumptions C49_componentwise.
Theorem C49_componentwise_log_determinant_refuted : forall lg (c : R) n, 0 < Rabs c -> Rabs c <> 1 -> (0 < n)%nat ->
  @componentwise_log_det (XR lg) = Fin 0 /\
  @componentwise_log_det (XR lg) <> Fin (ln (Rabs (diag_det (repeat c n)))).
Proof. exact componentwise_det. Qed.
Print Assumptions C49_componentwise_log_determinant_refuted.
