(** Pushforwards and linear transforms (C39, C49). *)
From Coquelicot Require Import Coquelicot.
From Coq Require Import ZArith Reals List Bool Lra Lia Arith.
From Verif Require Import Num XRFacts DensitySpec BuilderProofs CoreModel CoreSpec CoreProofs
  CombModel CombSpec ExpFamModel DistModel DistSpec DistFacts DistProofs DistProofs2 DistProofs3 ExpFamProofs CombProofs.
Import ListNotations.
Local Open Scope R_scope.
Local Open Scope list_scope.

Section Push.
Context (lg : R -> R).
Notation X := (XR lg).

Lemma push_density (m : Base X X) t (dom cod : R -> Prop) f g : smooth_transform t dom cod f g ->
  forall dg y, cod y -> log_jac t (Fin y : X) = Fin (ln (Rabs (dg y))) -> dg y <> 0 ->
  is_logdens (b_ld m (Fin (g y) : X)) ->
  is_logdens (push_ld m t (Fin y : X)) /\
  dens (push_ld m t (Fin y : X)) = dens (b_ld m (Fin (g y) : X)) * Rabs (dg y).
Proof.
  intros S dg y C J D L. unfold push_ld. destruct (st_inverse _ _ _ _ _ S y C) as (-> & _). rewrite J.
  destruct (logdens_add _ _ L (logdens_fin (ln (Rabs (dg y))))) as [P Q].
  split; [exact P|]. cbn [nadd XR]. rewrite Q. cbn [dens]. rewrite exp_ln by (apply Rabs_pos_lt, D). reflexivity.
Qed.

Lemma push_interval (m : Base X X) t (dom cod : R -> Prop) f g : smooth_transform t dom cod f g ->
  forall a b, a <= b -> (forall x, a <= x <= b -> dom x) ->
  (forall x, a <= x <= b -> is_logdens (b_ld m (Fin x : X)) /\
                            continuous (fun x => dens (b_ld m (Fin x : X))) x) ->
  exists I, mass_between (b_ld m) a b I /\
            mass_between (push_ld m t) (Rmin (f a) (f b)) (Rmax (f a) (f b)) I.
Proof.
  intros S a b AB D H. set (P := fun x => dens (b_ld m (Fin x : X))) in *.
  assert (Pint : ex_RInt P a b).
  { apply (ex_RInt_continuous (V := R_CompleteNormedModule)). intros z. rewrite Rmin_left, Rmax_right by exact AB. apply H. }
  exists (RInt P a b). split; [apply (RInt_correct (V := R_CompleteNormedModule)), Pint|].
  destruct (st_derivative _ _ _ _ _ S) as (dg & Dg & J & Sg).
  destruct (st_forward _ _ _ _ _ S a) as (_ & Ca & Ga); [apply D; lra|].
  destruct (st_forward _ _ _ _ _ S b) as (_ & Cb & Gb); [apply D; lra|].
  pose proof (st_convex _ _ _ _ _ S) as Cv.
  assert (CC : forall y, Rmin (f a) (f b) <= y <= Rmax (f a) (f b) -> cod y).
  { intros y. unfold Rmin, Rmax. destruct (Rle_dec (f a) (f b)); intros Hy; [apply (Cv (f a) (f b))|apply (Cv (f b) (f a))]; auto. }
  assert (Dn : forall y, cod y -> dg y <> 0).
  { intros y Cy. destruct Sg as [G|G]; pose proof (G y Cy); lra. }
  assert (In' : forall y, Rmin (f a) (f b) <= y <= Rmax (f a) (f b) -> a <= g y <= b).
  { intros y Hy. destruct Sg as [G|G].
    - assert (Inc : forall u v, cod u -> cod v -> u < v -> g u < g v).
      { intros u v Cu Cv' UV. apply (incr_function_le g u v dg); cbn; try lra; intros z Hz1 Hz2.
        - apply Dg. apply (Cv u v); auto.
        - apply Rlt_gt, G. apply (Cv u v); auto. }
      assert (FF : f a <= f b).
      { destruct (Rle_lt_dec (f a) (f b)) as [K|K]; [exact K|]. pose proof (Inc _ _ Cb Ca K). lra. }
      rewrite Rmin_left, Rmax_right in Hy by exact FF.
      pose proof (Cv _ _ y Ca Cb Hy) as Cy. split.
      + destruct (proj1 Hy) as [K|K]; [left; rewrite <- Ga; apply Inc; auto|right; rewrite <- K; auto].
      + destruct (proj2 Hy) as [K|K]; [left; rewrite <- Gb; apply Inc; auto|right; rewrite K; auto].
    - assert (Dec : forall u v, cod u -> cod v -> u < v -> g v < g u).
      { intros u v Cu Cv' UV.
        assert (K : - g u < - g v); [|lra].
        apply (incr_function_le (fun z => - g z) u v (fun z => - dg z)); cbn; try lra; intros z Hz1 Hz2.
        - apply (is_derive_opp (V := R_NormedModule)). apply Dg. apply (Cv u v); auto.
        - assert (Cz : cod z) by (apply (Cv u v); auto). pose proof (G z Cz). lra. }
      assert (FF : f b <= f a).
      { destruct (Rle_lt_dec (f b) (f a)) as [K|K]; [exact K|]. pose proof (Dec _ _ Ca Cb K). lra. }
      rewrite Rmin_right, Rmax_left in Hy by exact FF.
      pose proof (Cv _ _ y Cb Ca Hy) as Cy. split.
      + destruct (proj2 Hy) as [K|K]; [left; rewrite <- Ga; apply Dec; auto|right; rewrite K; auto].
      + destruct (proj1 Hy) as [K|K]; [left; rewrite <- Gb; apply Dec; auto|right; rewrite <- K; auto]. }
  assert (V : forall y, Rmin (f a) (f b) <= y <= Rmax (f a) (f b) ->
    dens (push_ld m t (Fin y : X)) = P (g y) * Rabs (dg y)).
  { intros y Hy. pose proof (CC y Hy) as Cy. apply (push_density m t dom cod f g S dg y Cy (J y Cy) (Dn y Cy)).
    apply H, In', Hy. }
  unfold mass_between.
  assert (MM : Rmin (f a) (f b) <= Rmax (f a) (f b)) by (apply Rle_trans with (f a); [apply Rmin_l|apply Rmax_l]).
  pose proof (is_RInt_comp P g dg (Rmin (f a) (f b)) (Rmax (f a) (f b))) as Comp.
  rewrite (Rmin_left (Rmin _ _)), (Rmax_right (Rmin _ _)) in Comp by exact MM.
  specialize (Comp (fun y Hy => proj2 (H (g y) (In' y Hy))) (fun y Hy => Dg y (CC y Hy))).
  destruct Sg as [G|G].
  - assert (E : RInt P (g (Rmin (f a) (f b))) (g (Rmax (f a) (f b))) = RInt P a b).
    { f_equal.
      - unfold Rmin. destruct (Rle_dec (f a) (f b)) as [K|K]; [exact Ga|]. exfalso.
        assert (b < a); [|lra]. rewrite <- Ga, <- Gb.
        apply (incr_function_le g (f b) (f a) dg); cbn; try lra; intros z Hz1 Hz2;
          assert (cod z) by (apply (Cv (f b) (f a)); auto); [apply Dg|apply G]; assumption.
      - unfold Rmax. destruct (Rle_dec (f a) (f b)) as [K|K]; [exact Gb|]. exfalso.
        assert (b < a); [|lra]. rewrite <- Ga, <- Gb.
        apply (incr_function_le g (f b) (f a) dg); cbn; try lra; intros z Hz1 Hz2;
          assert (cod z) by (apply (Cv (f b) (f a)); auto); [apply Dg|apply G]; assumption. }
    rewrite E in Comp. eapply is_RInt_ext; [|exact Comp]. intros y Hy.
    rewrite (Rmin_left (Rmin _ _)), (Rmax_right (Rmin _ _)) in Hy by exact MM.
    rewrite V by lra. rewrite Rabs_right by (left; apply G, CC; lra).
    unfold scal; cbn; unfold mult; cbn. ring.
  - assert (E : RInt P (g (Rmin (f a) (f b))) (g (Rmax (f a) (f b))) = - RInt P a b).
    { assert (K : f b <= f a).
      { destruct (Rle_lt_dec (f b) (f a)) as [K|K]; [exact K|]. exfalso.
        assert (N : - a < - b); [|lra]. rewrite <- Ga, <- Gb.
        apply (incr_function_le (fun z => - g z) (f a) (f b) (fun z => - dg z)); cbn; try lra; intros z Hz1 Hz2;
          assert (Cz : cod z) by (apply (Cv (f a) (f b)); auto);
          [apply (is_derive_opp (V := R_NormedModule)), Dg, Cz|pose proof (G z Cz); lra]. }
      rewrite Rmin_right, Rmax_left by exact K. rewrite Ga, Gb.
      symmetry. apply (opp_RInt_swap (V := R_CompleteNormedModule)). exact Pint. }
    rewrite E in Comp. apply (is_RInt_opp (V := R_NormedModule)) in Comp.
    replace (RInt P a b) with (opp (- RInt P a b)) by (unfold opp; cbn; ring).
    eapply is_RInt_ext; [|exact Comp]. intros y Hy.
    rewrite (Rmin_left (Rmin _ _)), (Rmax_right (Rmin _ _)) in Hy by exact MM.
    rewrite V by lra. rewrite Rabs_left by (apply G, CC; lra).
    unfold opp, scal; cbn; unfold mult; cbn. ring.
Qed.

Ltac side := first [lra | apply exp_pos | apply Rgt_not_eq; lra | assumption].
Ltac xr := xr_with side.

Lemma log_smooth : smooth_transform (@log_transform X) (fun x => 0 < x) (fun _ => True) ln exp.
Proof.
  constructor.
  - intros x H. cbn [forward log_transform]. xr. split; [reflexivity|]. split; [exact I|apply exp_ln, H].
  - intros y _. cbn [inverse log_transform]. xr. split; [reflexivity|]. split; [apply exp_pos|apply ln_exp].
  - auto.
  - exists exp. split; [|split].
    + intros y _. split; [apply is_derive_exp|]. apply (ex_derive_continuous (V := R_NormedModule)).
      exists (exp y). apply is_derive_exp.
    + intros y _. cbn [log_jac log_transform]. rewrite Rabs_right by (left; apply exp_pos). rewrite ln_exp. reflexivity.
    + left. intros y _. apply exp_pos.
Qed.
Lemma exp_smooth : smooth_transform (@exp_transform X) (fun _ => True) (fun y => 0 < y) exp ln.
Proof.
  constructor.
  - intros x _. cbn [forward exp_transform]. xr. split; [reflexivity|]. split; [apply exp_pos|apply ln_exp].
  - intros y H. cbn [inverse exp_transform]. xr. split; [reflexivity|]. split; [exact I|apply exp_ln, H].
  - intros; lra.
  - exists Rinv. split; [|split].
    + intros y H. split; [apply is_derive_ln, H|]. apply continuous_Rinv. lra.
    + intros y H. cbn [log_jac exp_transform]. xr. f_equal.
      rewrite Rabs_right by (left; apply Rinv_0_lt_compat, H). symmetry. apply ln_Rinv, H.
    + left. intros y H. apply Rinv_0_lt_compat, H.
Qed.
Lemma linear_smooth a b : a <> 0 ->
  smooth_transform (linear_transform (Fin a : X) (Fin b : X)) (fun _ => True) (fun _ => True)
    (fun x => a * x + b) (fun y => (y - b) / a).
Proof.
  intros A. constructor.
  - intros x _. cbn [forward linear_transform]. xr. split; [reflexivity|]. split; [exact I|field; exact A].
  - intros y _. cbn [inverse linear_transform]. xr. split; [reflexivity|]. split; [exact I|field; exact A].
  - auto.
  - exists (fun _ => / a). split; [|split].
    + intros y _. split; [|apply continuous_const]. auto_derive; [exact I|field; exact A].
    + intros y _. cbn [log_jac linear_transform]. pose proof (Rabs_pos_lt a A). xr. f_equal.
      rewrite Rabs_inv. symmetry. apply ln_Rinv. assumption.
    + destruct (Rdichotomy _ _ A) as [K|K]; [right|left]; intros _ _.
      * apply Rinv_lt_0_compat, K. * apply Rinv_0_lt_compat. lra.
Qed.
Lemma logit_smooth : smooth_transform (@logit_transform X) (fun x => 0 < x < 1) (fun _ => True)
  (fun x => ln (x / (1 - x))) (fun y => exp y / (1 + exp y)).
Proof.
  constructor.
  - intros x H. cbn [forward logit_transform].
    assert (0 < x / (1 - x)) by (apply Rdiv_lt_0_compat; lra). xr.
    split; [reflexivity|]. split; [exact I|]. rewrite exp_ln by assumption. field. lra.
  - intros y _. cbn [inverse logit_transform]. pose proof (exp_pos y). xr.
    split; [reflexivity|]. split.
    + split; [apply Rdiv_lt_0_compat; lra|]. apply (Rmult_lt_reg_r (1 + exp y)); [lra|]. field_simplify; lra.
    + replace (exp y / (1 + exp y) / (1 - exp y / (1 + exp y))) with (exp y) by (field; lra). apply ln_exp.
  - auto.
  - exists (fun y => exp y / (1 + exp y) ^ 2). split; [|split].
    + intros y _. pose proof (exp_pos y). split.
      * auto_derive; [lra|]. field. lra.
      * apply (ex_derive_continuous (V := R_NormedModule)). auto_derive. pose proof (pow_lt (1 + exp y) 2). nra.
    + intros y _. cbn [log_jac logit_transform]. pose proof (exp_pos y). pose proof (exp_pos (- y)).
      xr. f_equal. assert (0 < (1 + exp y) ^ 2) by (apply pow_lt; lra).
      rewrite Rabs_right by (left; apply Rdiv_lt_0_compat; assumption).
      unfold Rdiv. rewrite ln_mult by (try assumption; apply Rinv_0_lt_compat; assumption).
      rewrite ln_Rinv by assumption. rewrite ln_exp.
      replace ((1 + exp y) ^ 2) with ((1 + exp y) * (1 + exp y)) by ring.
      rewrite ln_mult by lra.
      replace (1 + exp y) with (exp y * (1 + exp (- y))) by (rewrite exp_Ropp; field; lra).
      rewrite ln_mult by lra. rewrite ln_exp. lra.
    + left. intros y _. pose proof (exp_pos y). apply Rdiv_lt_0_compat; [assumption|apply pow_lt; lra].
Qed.
End Push.

(** ** Linear transforms *)
Section Lin.
Context (lg : R -> R) (conv : R -> R).
Notation X := (XR lg).
(** Conversion of the entries: any function of finite numbers. *)
Definition xconv (v : X) : X := match v with Fin r => Fin (conv r) | i => i end.

Lemma nth_map_conv l i : (i < length l)%nat ->
  nth i (map xconv (fins l : list X)) n0 = Fin (conv (nth i l 0)).
Proof.
  revert i. induction l as [|x l IH]; intros i H; [cbn in H; lia|].
  destruct i; [reflexivity|]. cbn [length] in H. cbn [fins map nth]. apply IH. lia.
Qed.
Lemma nth_fins_lt l i : (i < length l)%nat -> nth i (fins l : list X) n0 = Fin (nth i l 0).
Proof.
  revert i. induction l as [|x l IH]; intros i H; [cbn in H; lia|].
  destruct i; [reflexivity|]. cbn [length] in H. cbn [fins map nth]. apply IH. lia.
Qed.
Lemma nth_conv_R l i : (i < length l)%nat -> nth i (map conv l) 0 = conv (nth i l 0).
Proof. intros H. rewrite (nth_indep _ 0 (conv 0)) by (rewrite map_length; exact H). apply map_nth. Qed.

Lemma linear_new_iff (A b : list X) n m :
  returns (linear_new xconv A b n m) <-> length A = (n * m)%nat /\ length b = m.
Proof.
  unfold linear_new, returns. destruct (Nat.eqb (length A) (n * m)) eqn:E.
  - apply Nat.eqb_eq in E. destruct (Nat.eqb (length b) m) eqn:F.
    + apply Nat.eqb_eq in F. split; [auto|intros _; eexists; reflexivity].
    + apply Nat.eqb_neq in F. split; [intros (d & K); discriminate K|intros (_ & K); contradiction].
  - apply Nat.eqb_neq in E. split; [intros (d & K); discriminate K|intros (K & _); contradiction].
Qed.

Lemma linear_affine A b n m t (x : list R) :
  linear_new xconv (fins A : list X) (fins b : list X) n m = Some t -> length x = n ->
  linear_transform_vec t (fins x) = Some (fins (map (affine (map conv A) (map conv b) x) (seq 0 m))).
Proof.
  intros H L. unfold linear_new in H.
  match type of H with context [if ?c then _ else _] => destruct c eqn:EA; [|discriminate] end.
  match type of H with context [if ?c then _ else _] => destruct c eqn:EB; [|discriminate] end.
  injection H as <-. apply Nat.eqb_eq in EA, EB. unfold fins in EA, EB. rewrite map_length in EA, EB.
  unfold linear_transform_vec. cbn [l_in l_out l_matrix l_offset].
  unfold fins at 1. rewrite map_length, L, Nat.eqb_refl. f_equal. unfold fins at 4. rewrite map_map.
  apply map_ext_in. intros i Hi. apply in_seq in Hi.
  rewrite nth_map_conv by lia. unfold affine. rewrite L, nth_conv_R by lia.
  assert (K : forall js (a : R), (forall j, In j js -> (j < n)%nat) ->
    fold_left (fun (sum : X) j => nadd sum (nmul (nth (i * n + j) (map xconv (fins A : list X)) n0) (nth j (fins x : list X) n0)))
      js (Fin a : X) = Fin (a + Rsum (map (fun j => nth (i * n + j) (map conv A) 0 * nth j x 0) js))).
  { induction js as [|j js IH]; intros a Hj; cbn [fold_left map].
    - rewrite Rsum_nil. f_equal; lra.
    - assert (j < n)%nat by (apply Hj; left; reflexivity).
      assert (i * n + j < length A)%nat by nia.
      rewrite nth_map_conv, nth_fins_lt by lia. cbn [nadd nmul XR]. rewrite xmul_Fin, xadd_Fin.
      rewrite IH by (intros; apply Hj; right; assumption). rewrite Rsum_cons, nth_conv_R by lia. f_equal. lra. }
  apply K. intros j Hj. apply in_seq in Hj. lia.
Qed.
Lemma linear_wrong_length (A b : list X) n m t (x : list X) :
  linear_new xconv A b n m = Some t -> length x <> n -> linear_transform_vec t x = None.
Proof.
  intros H L. unfold linear_new in H.
  destruct (Nat.eqb (length A) (n * m)); [|discriminate]. destruct (Nat.eqb (length b) m); [|discriminate].
  injection H as <-. unfold linear_transform_vec. cbn [l_in]. apply Nat.eqb_neq in L. rewrite L. reflexivity.
Qed.
Lemma linear_det_zero (A b : list X) n m t : conv 0 = 0 ->
  linear_new xconv A b n m = Some t -> linear_log_det xconv t = (Fin 0 : X).
Proof.
  intros C H. unfold linear_new in H.
  destruct (Nat.eqb (length A) (n * m)); [|discriminate]. destruct (Nat.eqb (length b) m); [|discriminate].
  injection H as <-. unfold linear_log_det. cbn [l_log_abs_det]. change (xdec 1 1) with (@n1 X). rewrite x_n1. cbn [nabs nln XR].
  rewrite xabs_Fin, xln_pos by (rewrite Rabs_R1; lra). rewrite Rabs_R1, ln_1. cbn [xconv]. f_equal; exact C.
Qed.
Lemma componentwise_fins (f : X -> X) (x : list X) :
  componentwise f (length x) x = Some (map f x).
Proof. unfold componentwise. rewrite Nat.eqb_refl. reflexivity. Qed.
End Lin.

Section More.
Context (lg : R -> R).
Notation X := (XR lg).
Lemma push_point (m : Base X X) t (dom cod : R -> Prop) f g x :
  smooth_transform t dom cod f g -> dom x -> is_logdens (b_ld m (Fin x : X)) ->
  exists d, is_derive g (f x) d /\
    dens (push_ld m t (forward t (Fin x : X))) = dens (b_ld m (Fin x : X)) * Rabs d /\
    push_support m t (forward t (Fin x : X)) = b_support m (Fin x : X).
Proof.
  intros S D L. destruct (st_forward _ _ _ _ _ S x D) as (Ef & C & G). rewrite Ef.
  destruct (st_derivative _ _ _ _ _ S) as (dg & Dg & J & Sg).
  exists (dg (f x)). split; [apply Dg, C|].
  assert (N : dg (f x) <> 0) by (destruct Sg as [K|K]; pose proof (K _ C); lra).
  split.
  - rewrite <- G in L. destruct (push_density lg m t dom cod f g S dg (f x) C (J _ C) N L) as [_ E].
    rewrite E, G. reflexivity.
  - unfold push_support. destruct (st_inverse _ _ _ _ _ S _ C) as (-> & _). rewrite G. reflexivity.
Qed.
Lemma push_outside m s d y : normal_new (Fin m : X) (Fin s : X) = Some d -> y < 0 ->
  push_support (normal_base d) exp_transform (Fin y : X) = true /\
  push_ld (normal_base d) exp_transform (Fin y : X) = XNaN.
Proof.
  intros H Y. apply normal_new_fin in H. destruct H as (_ & ->). split; [reflexivity|].
  unfold push_ld. cbn [inverse exp_transform log_jac]. cbn [nln nneg XR]. rewrite xln_neg by exact Y.
  cbn [xneg nadd XR]. destruct (b_ld _ _); reflexivity.
Qed.
End More.

Lemma normal_pdf_pos m s x : 0 < s -> 0 < normal_pdf m s x.
Proof.
  intros H. unfold normal_pdf. pose proof PI_RGT_0. apply Rmult_lt_0_compat; [|apply exp_pos].
  apply Rinv_0_lt_compat, Rmult_lt_0_compat; [exact H|apply sqrt_lt_R0; lra].
Qed.
Lemma push_normal_case : exists d I, normal_new (Fin 0 : XR ln) (Fin 1 : XR ln) = Some d /\
  mass_between (b_ld (normal_base d)) (-1) 2 I /\
  mass_between (push_ld (normal_base d) (linear_transform (Fin (-2) : XR ln) (Fin 1 : XR ln))) (-3) 3 I.
Proof.
  exists (@mkNormal (XR ln) (Fin 0) (Fin 1)).
  assert (V : forall x, b_ld (normal_base (@mkNormal (XR ln) (Fin 0) (Fin 1))) (Fin x : XR ln) = Fin (ln (normal_pdf 0 1 x))).
  { intros x. apply normal_direct. lra. }
  destruct (push_interval ln (normal_base (@mkNormal (XR ln) (Fin 0) (Fin 1))) _ _ _ _ _
    (linear_smooth ln (-2) 1 ltac:(lra)) (-1) 2 ltac:(lra)) as (I & P & Q); [auto| |].
  - intros x _. split; [rewrite V; apply logdens_fin|].
    apply (continuous_ext (fun x => normal_pdf 0 1 x)).
    + intros z. rewrite V. cbn [dens]. rewrite exp_ln; [reflexivity|]. apply normal_pdf_pos. lra.
    + apply (ex_derive_continuous (V := R_NormedModule)). unfold normal_pdf. auto_derive. exact Logic.I.
  - exists I. split; [apply normal_new_ok; lra|]. split; [exact P|].
    replace (Rmin (-2 * -1 + 1) (-2 * 2 + 1)) with (-3) in Q by (rewrite Rmin_right; lra).
    replace (Rmax (-2 * -1 + 1) (-2 * 2 + 1)) with 3 in Q by (rewrite Rmax_left; lra). exact Q.
Qed.

Lemma diag_det_repeat (c : R) n : diag_det (repeat c n) = (c ^ n)%R.
Proof. induction n as [|n IH]; cbn; [reflexivity|]. change (fold_right Rmult 1%R (repeat c n)) with (diag_det (repeat c n)). rewrite IH. reflexivity. Qed.
Lemma componentwise_det lg (c : R) n : (0 < Rabs c)%R -> Rabs c <> 1%R -> (0 < n)%nat ->
  @componentwise_log_det (XR lg) = Fin 0 /\
  @componentwise_log_det (XR lg) <> Fin (ln (Rabs (diag_det (repeat c n)))).
Proof.
  intros P N Hn. unfold componentwise_log_det. rewrite x_n0. split; [reflexivity|]. intros K. injection K as K.
  rewrite diag_det_repeat, <- RPow_abs, ln_pow in K by exact P.
  symmetry in K. apply Rmult_integral in K. destruct K as [K|K].
  - apply N. exfalso. apply (not_0_INR n); [lia|exact K].
  - apply N. rewrite <- (exp_ln _ P), K. apply exp_0.
Qed.
