(** Simplifier: complexity, stabilisation, soundness (C06-C08). *)
From Coq Require Import ZArith Reals String List Bool Lra Lia Arith.
From Verif Require Import Num XRFacts ExprModel ExprSpec ExprEval ExprEval2 ExprSimplify.
Import ListNotations.
Local Open Scope list_scope.

Ltac simpcases :=
  repeat match goal with
  | |- context [if ?b then _ else _] => destruct b eqn:?
  end.

Section Struct.
Context {N : Num}.
Notation expr := (expr N).

(** ** complexity *)
Lemma expr_eqb_complexity (a b : expr) : expr_eqb a b = true -> complexity a = complexity b.
Proof.
  revert b; induction a; destruct b; cbn; intros H; try discriminate; auto;
    try (apply andb_prop in H as [H1 H2]; rewrite (IHa1 _ H1), (IHa2 _ H2); auto).
Qed.
Lemma simplify_complexity (e : expr) : complexity (simplify e) <= complexity e.
Proof.
  induction e as [e IH] using expr_strong_ind.
  destruct e; auto; try pose proof (IH e1 ltac:(cbn; lia)) as I1; try pose proof (IH e2 ltac:(cbn; lia)) as I2;
    try pose proof (IH e ltac:(cbn; lia)) as I.
  - rewrite simplify_add. cbn [complexity].
    assert (complexity (simp_add (simplify e1) (simplify e2)) <= 1 + complexity (simplify e1) + complexity (simplify e2)); [|lia].
    generalize (simplify e1) (simplify e2). clear. intros l r. unfold simp_add.
    destruct l; try (simpcases; cbn; lia). destruct r; simpcases; cbn; lia.
  - rewrite simplify_sub. cbn [complexity].
    assert (complexity (simp_sub (simplify e1) (simplify e2)) <= 1 + complexity (simplify e1) + complexity (simplify e2)); [|lia].
    generalize (simplify e1) (simplify e2). clear. intros l r. unfold simp_sub.
    destruct l; try (simpcases; cbn; lia). destruct r; simpcases; cbn; lia.
  - rewrite simplify_mul. cbn [complexity].
    assert (complexity (simp_mul (simplify e1) (simplify e2)) <= 1 + complexity (simplify e1) + complexity (simplify e2)); [|lia].
    generalize (simplify e1) (simplify e2). clear. intros l r. unfold simp_mul.
    destruct l; try (simpcases; cbn; lia). destruct r; simpcases; cbn; lia.
  - rewrite simplify_div. cbn [complexity].
    assert (complexity (simp_div (simplify e1) (simplify e2)) <= 1 + complexity (simplify e1) + complexity (simplify e2)); [|lia].
    generalize (simplify e1) (simplify e2). clear. intros l r. unfold simp_div; cbn zeta.
    destruct l; try (simpcases; cbn; lia). destruct r; simpcases; cbn; lia.
  - rewrite simplify_pow. cbn [complexity].
    destruct (simp_pow_shape (simplify e1) (simplify e2)) as [E|[[c E]|[E|(ib & ip & E0 & E)]]]; rewrite E; cbn [complexity]; try lia.
    pose proof (simplify_size e1) as S1. pose proof (simplify_size e2) as S2. rewrite E0 in S1, I1; cbn in S1, I1.
    pose proof (IH (Mul ip (simplify e2))) as I3. cbn in I3. pose proof (size_pos ib).
    specialize (I3 ltac:(lia)). lia.
  - rewrite simplify_ln. cbn [complexity].
    assert (complexity (simp_ln (simplify e)) <= 1 + complexity (simplify e)); [|lia].
    destruct (simplify e); cbn [simp_ln]; simpcases; cbn; lia.
  - rewrite simplify_exp. cbn [complexity].
    assert (complexity (simp_exp (simplify e)) <= 1 + complexity (simplify e)); [|lia].
    destruct (simplify e) as [| | | |l r| | | | | | | |]; cbn [simp_exp]; try destruct r; simpcases; cbn; lia.
  - rewrite simplify_sqrt. cbn [complexity].
    assert (complexity (simp_sqrt (simplify e)) <= 1 + complexity (simplify e)); [|lia].
    destruct (simplify e); cbn [simp_sqrt]; simpcases; cbn; lia.
  - rewrite simplify_sin. cbn [complexity].
    assert (complexity (simp_sin (simplify e)) <= 1 + complexity (simplify e)); [|lia].
    destruct (simplify e); cbn [simp_sin]; simpcases; cbn; lia.
  - rewrite simplify_cos. cbn [complexity].
    assert (complexity (simp_cos (simplify e)) <= 1 + complexity (simplify e)); [|lia].
    destruct (simplify e); cbn [simp_cos]; simpcases; cbn; lia.
  - rewrite simplify_neg. cbn [complexity].
    assert (complexity (simp_neg (simplify e)) <= 1 + complexity (simplify e)); [|lia].
    destruct (simplify e); cbn [simp_neg]; simpcases; cbn; lia.
Qed.

(** ** Repeated simplification stabilises *)
Fixpoint weight (e : expr) : nat :=
  match e with
  | Const _ => 0
  | Var _ => 2
  | Add l r | Sub l r | Mul l r | Div l r => weight l + weight r + 3
  | Pow l r => weight l + weight r + 4
  | Ln a => 2 * weight a + 2
  | Exp a | Sqrt a | Sin a | Cos a | Neg a => weight a + 2
  end.

Lemma expr_eqb_weight (a b : expr) : expr_eqb a b = true -> weight a = weight b.
Proof.
  revert b; induction a; destruct b; cbn; intros H; try discriminate; auto;
    try (apply andb_prop in H as [H1 H2]; rewrite (IHa1 _ H1), (IHa2 _ H2); auto).
Qed.
Lemma weight_add (l r : expr) : simp_add l r = Add l r \/ weight (simp_add l r) < weight (Add l r).
Proof.
  pose proof (expr_eqb_weight l r) as Q. unfold simp_add.
  destruct l; try (simpcases; try specialize (Q eq_refl); auto; right; cbn in *; lia).
  destruct r; try (cbn [expr_eqb]; simpcases; auto; right; cbn; try discriminate; lia).
Qed.
Lemma weight_sub (l r : expr) : simp_sub l r = Sub l r \/ weight (simp_sub l r) < weight (Sub l r).
Proof.
  unfold simp_sub. destruct l; try (simpcases; cbn; auto; right; lia).
  destruct r; simpcases; cbn; auto; right; lia.
Qed.
Lemma weight_nonconst (l : expr) : (exists c, l = Const c) \/ 2 <= weight l.
Proof. destruct l; eauto; right; cbn; lia. Qed.
Lemma weight_mul (l r : expr) : simp_mul l r = Mul l r \/ weight (simp_mul l r) < weight (Mul l r).
Proof.
  pose proof (expr_eqb_weight l r) as Q. unfold simp_mul.
  destruct l; try (simpcases; try specialize (Q eq_refl); auto; right; cbn in *; lia).
  destruct r; try (cbn [expr_eqb]; simpcases; auto; right; cbn; try discriminate; lia).
Qed.
Lemma weight_div (l r : expr) : simp_div l r = Div l r \/ weight (simp_div l r) < weight (Div l r).
Proof.
  unfold simp_div; cbn zeta. destruct l; try (simpcases; cbn; auto; right; lia).
  destruct r; simpcases; cbn; auto; right; lia.
Qed.
Lemma weight_ln (a : expr) : simp_ln a = Ln a \/ weight (simp_ln a) < weight (Ln a).
Proof. destruct a; cbn [simp_ln]; simpcases; auto; right; cbn; lia. Qed.
Lemma weight_exp (a : expr) : simp_exp a = Exp a \/ weight (simp_exp a) < weight (Exp a).
Proof. destruct a as [| | | |l r| | | | | | | |]; cbn [simp_exp]; try destruct r; simpcases; auto; right; cbn; lia. Qed.
Lemma weight_sqrt (a : expr) : simp_sqrt a = Sqrt a \/ weight (simp_sqrt a) < weight (Sqrt a).
Proof. destruct a; cbn [simp_sqrt]; simpcases; auto; right; cbn; lia. Qed.
Lemma weight_sin (a : expr) : simp_sin a = Sin a \/ weight (simp_sin a) < weight (Sin a).
Proof. destruct a; cbn [simp_sin]; simpcases; auto; right; cbn; lia. Qed.
Lemma weight_cos (a : expr) : simp_cos a = Cos a \/ weight (simp_cos a) < weight (Cos a).
Proof. destruct a; cbn [simp_cos]; simpcases; auto; right; cbn; lia. Qed.
Lemma weight_neg (a : expr) : simp_neg a = Neg a \/ weight (simp_neg a) < weight (Neg a).
Proof. destruct a; cbn [simp_neg]; simpcases; auto; right; cbn; lia. Qed.

Lemma simplify_progress (e : expr) : simplify e = e \/ weight (simplify e) < weight e.
Proof.
  induction e as [e IH] using expr_strong_ind.
  destruct e; auto; try pose proof (IH e1 ltac:(cbn; lia)) as I1; try pose proof (IH e2 ltac:(cbn; lia)) as I2;
    try pose proof (IH e ltac:(cbn; lia)) as I.
  - rewrite simplify_add. destruct (weight_add (simplify e1) (simplify e2)) as [E|L].
    + rewrite E. destruct I1 as [->|I1], I2 as [->|I2]; auto; right; cbn; lia.
    + right. cbn [weight] in L. cbn [weight]. destruct I1 as [I1|I1], I2 as [I2|I2]; try rewrite I1 in *; try rewrite I2 in *; lia.
  - rewrite simplify_sub. destruct (weight_sub (simplify e1) (simplify e2)) as [E|L].
    + rewrite E. destruct I1 as [->|I1], I2 as [->|I2]; auto; right; cbn; lia.
    + right. cbn [weight] in L. cbn [weight]. destruct I1 as [I1|I1], I2 as [I2|I2]; try rewrite I1 in *; try rewrite I2 in *; lia.
  - rewrite simplify_mul. destruct (weight_mul (simplify e1) (simplify e2)) as [E|L].
    + rewrite E. destruct I1 as [->|I1], I2 as [->|I2]; auto; right; cbn; lia.
    + right. cbn [weight] in L. cbn [weight]. destruct I1 as [I1|I1], I2 as [I2|I2]; try rewrite I1 in *; try rewrite I2 in *; lia.
  - rewrite simplify_div. destruct (weight_div (simplify e1) (simplify e2)) as [E|L].
    + rewrite E. destruct I1 as [->|I1], I2 as [->|I2]; auto; right; cbn; lia.
    + right. cbn [weight] in L. cbn [weight]. destruct I1 as [I1|I1], I2 as [I2|I2]; try rewrite I1 in *; try rewrite I2 in *; lia.
  - rewrite simplify_pow.
    assert (W1 : weight (simplify e1) <= weight e1) by (destruct I1 as [->|]; lia).
    assert (W2 : weight (simplify e2) <= weight e2) by (destruct I2 as [->|]; lia).
    destruct (simp_pow_shape (simplify e1) (simplify e2)) as [E|[[c E]|[E|(ib & ip & E0 & E)]]]; rewrite E.
    + destruct I1 as [->|I1], I2 as [->|I2]; auto; right; cbn; lia.
    + right; cbn; lia.
    + right; cbn; lia.
    + right. pose proof (simplify_size e1) as S1. pose proof (simplify_size e2) as S2.
      rewrite E0 in S1, W1; cbn in S1, W1. pose proof (size_pos ib).
      pose proof (IH (Mul ip (simplify e2)) ltac:(cbn; lia)) as I3.
      assert (W3 : weight (simplify (Mul ip (simplify e2))) <= weight (Mul ip (simplify e2)))
        by (destruct I3 as [->|]; lia).
      cbn [weight] in *. lia.
  - rewrite simplify_ln. destruct (weight_ln (simplify e)) as [E|L].
    + rewrite E. destruct I as [->|I]; auto; right; cbn; lia.
    + right. cbn [weight] in *. destruct I as [I|I]; try rewrite I in *; lia.
  - rewrite simplify_exp. destruct (weight_exp (simplify e)) as [E|L].
    + rewrite E. destruct I as [->|I]; auto; right; cbn; lia.
    + right. cbn [weight] in *. destruct I as [I|I]; try rewrite I in *; lia.
  - rewrite simplify_sqrt. destruct (weight_sqrt (simplify e)) as [E|L].
    + rewrite E. destruct I as [->|I]; auto; right; cbn; lia.
    + right. cbn [weight] in *. destruct I as [I|I]; try rewrite I in *; lia.
  - rewrite simplify_sin. destruct (weight_sin (simplify e)) as [E|L].
    + rewrite E. destruct I as [->|I]; auto; right; cbn; lia.
    + right. cbn [weight] in *. destruct I as [I|I]; try rewrite I in *; lia.
  - rewrite simplify_cos. destruct (weight_cos (simplify e)) as [E|L].
    + rewrite E. destruct I as [->|I]; auto; right; cbn; lia.
    + right. cbn [weight] in *. destruct I as [I|I]; try rewrite I in *; lia.
  - rewrite simplify_neg. destruct (weight_neg (simplify e)) as [E|L].
    + rewrite E. destruct I as [->|I]; auto; right; cbn; lia.
    + right. cbn [weight] in *. destruct I as [I|I]; try rewrite I in *; lia.
Qed.

Lemma iter_stable n (e : expr) : weight e <= n ->
  simplify (Nat.iter n simplify e) = Nat.iter n simplify e.
Proof.
  revert e. induction n as [|n IH]; intros e W.
  - cbn. destruct (simplify_progress e); auto; lia.
  - assert (K : Nat.iter (S n) simplify e = Nat.iter n simplify (simplify e)).
    { clear. generalize e; induction n as [|n IHn]; intros e0; [reflexivity|]. change (simplify (Nat.iter (S n) simplify e0) = simplify (Nat.iter n simplify (simplify e0))). rewrite IHn; reflexivity. }
    destruct (simplify_progress e) as [E|L].
    + assert (F : forall k, Nat.iter k simplify e = e) by (induction k as [|k IHk]; [reflexivity | change (simplify (Nat.iter k simplify e) = e); rewrite IHk; exact E]).
      rewrite F; auto.
    + rewrite K. apply IH. lia.
Qed.
End Struct.

(** ** Soundness *)
Section Sound.
Context {lg : R -> R}.
Notation X := (XR lg).
Notation expr := (expr X).
Variable vars : env X.
Local Open Scope R_scope.

Lemma x_expr_eqb (a b : expr) : expr_eqb a b = true -> a = b.
Proof.
  revert b; induction a; destruct b; cbn; intros H; try discriminate; auto;
    try (apply andb_prop in H as [H1 H2]; rewrite (IHa1 _ H1), (IHa2 _ H2); auto);
    try (rewrite (IHa _ H); auto).
  - apply xeqb_eq in H; subst; auto.
  - apply String.eqb_eq in H; subst; auto.
Qed.

Lemma den_const c r : denotes vars (Const c : expr) r -> c = Fin r.
Proof. intros H; inversion H; auto. Qed.
Lemma den_lit z (e : expr) r : is_lit (nint z : X) e = true -> denotes vars e r -> r = IZR z.
Proof.
  intros L D. apply x_is_lit in L; subst. apply den_const in D. rewrite x_nint in D. injection D; auto.
Qed.
Lemma d_const' (c : X) r : c = Fin r -> denotes vars (Const c) r.
Proof. intros ->; constructor. Qed.
Lemma den_eq (e : expr) a b : denotes vars e a -> a = b -> denotes vars e b.
Proof. intros; subst; auto. Qed.

Lemma sound_add l r a b : denotes vars l a -> denotes vars r b -> denotes vars (simp_add l r : expr) (a + b).
Proof.
  intros Dl Dr.
  assert (K : denotes vars (if is_lit n0 l then r else if is_lit n0 r then l
      else if expr_eqb l r then Mul (Const n2) l else Add l r) (a + b)).
  { destruct (is_lit n0 l) eqn:L1.
    { eapply den_eq; [exact Dr|]. apply (den_lit 0 _ _ L1) in Dl. lra. }
    destruct (is_lit n0 r) eqn:L2.
    { eapply den_eq; [exact Dl|]. apply (den_lit 0 _ _ L2) in Dr. lra. }
    destruct (expr_eqb l r) eqn:L3.
    { apply x_expr_eqb in L3; subst. rewrite (denotes_fun _ _ _ _ _ Dr Dl).
      eapply den_eq; [eapply d_mul; [apply (d_const' _ 2), x_n2 | exact Dl]|]. lra. }
    constructor; auto. }
  unfold simp_add. destruct l; auto. destruct r; auto.
  apply den_const in Dl, Dr; subst. apply d_const'; reflexivity.
Qed.
Lemma sound_sub l r a b : denotes vars l a -> denotes vars r b -> denotes vars (simp_sub l r : expr) (a - b).
Proof.
  intros Dl Dr.
  assert (K : denotes vars (if is_lit n0 r then l else if is_lit n0 l then Neg r
      else if expr_eqb l r then Const n0 else Sub l r) (a - b)).
  { destruct (is_lit n0 r) eqn:L2.
    { eapply den_eq; [exact Dl|]. apply (den_lit 0 _ _ L2) in Dr. lra. }
    destruct (is_lit n0 l) eqn:L1.
    { eapply den_eq; [apply d_neg; exact Dr|]. apply (den_lit 0 _ _ L1) in Dl. lra. }
    destruct (expr_eqb l r) eqn:L3.
    { apply x_expr_eqb in L3; subst. rewrite (denotes_fun _ _ _ _ _ Dr Dl).
      apply d_const'. rewrite x_n0. f_equal; lra. }
    constructor; auto. }
  unfold simp_sub. destruct l; auto. destruct r; auto.
  apply den_const in Dl, Dr; subst. apply d_const'; reflexivity.
Qed.
Lemma sound_mul l r a b : denotes vars l a -> denotes vars r b -> denotes vars (simp_mul l r : expr) (a * b).
Proof.
  intros Dl Dr.
  assert (K : denotes vars (if is_lit n0 l || is_lit n0 r then Const n0
      else if is_lit n1 l then r else if is_lit n1 r then l
      else if is_lit nm1 l then Neg r else if is_lit nm1 r then Neg l
      else if expr_eqb l r then Pow l (Const n2) else Mul l r) (a * b)).
  { destruct (is_lit n0 l) eqn:L1.
    { cbn [orb]. apply d_const'. rewrite x_n0. apply (den_lit 0 _ _ L1) in Dl. f_equal; subst; lra. }
    destruct (is_lit n0 r) eqn:L2.
    { cbn [orb]. apply d_const'. rewrite x_n0. apply (den_lit 0 _ _ L2) in Dr. f_equal; subst; lra. }
    cbn [orb].
    destruct (is_lit n1 l) eqn:L3.
    { eapply den_eq; [exact Dr|]. apply (den_lit 1 _ _ L3) in Dl. subst; lra. }
    destruct (is_lit n1 r) eqn:L4.
    { eapply den_eq; [exact Dl|]. apply (den_lit 1 _ _ L4) in Dr. subst; lra. }
    destruct (is_lit nm1 l) eqn:L5.
    { eapply den_eq; [apply d_neg; exact Dr|]. apply (den_lit (-1) _ _ L5) in Dl. subst; lra. }
    destruct (is_lit nm1 r) eqn:L6.
    { eapply den_eq; [apply d_neg; exact Dl|]. apply (den_lit (-1) _ _ L6) in Dr. subst; lra. }
    destruct (expr_eqb l r) eqn:L7.
    { apply x_expr_eqb in L7; subst. rewrite (denotes_fun _ _ _ _ _ Dr Dl).
      destruct (Req_EM_T a 0) as [->|Ha].
      - eapply den_eq; [eapply d_pow_base0; [exact Dl | apply (d_const' _ 2), x_n2 | lra] | lra].
      - eapply den_eq; [apply (d_pow_int _ _ _ a 2); [exact Dl | apply d_const', x_n2 | auto]|].
        simpl; ring. }
    constructor; auto. }
  unfold simp_mul. destruct l; auto. destruct r; auto.
  apply den_const in Dl, Dr; subst. apply d_const'; reflexivity.
Qed.
Lemma sound_div l r a b : denotes vars l a -> denotes vars r b -> b <> 0 ->
  denotes vars (simp_div l r : expr) (a / b).
Proof.
  intros Dl Dr Hb.
  assert (K : denotes vars (if is_lit n1 r then l else if is_lit n0 l then Const n0
    else if expr_eqb l r then Const n1 else Div l r) (a / b)).
  { destruct (is_lit n1 r) eqn:L1.
    { eapply den_eq; [exact Dl|]. apply (den_lit 1 _ _ L1) in Dr. subst; field. }
    destruct (is_lit n0 l) eqn:L2.
    { apply d_const'. rewrite x_n0. apply (den_lit 0 _ _ L2) in Dl. f_equal; subst; field; auto. }
    destruct (expr_eqb l r) eqn:L3.
    { apply x_expr_eqb in L3; subst. rewrite (denotes_fun _ _ _ _ _ Dr Dl) in *.
      apply d_const'. rewrite x_n1. f_equal; field; auto. }
    constructor; auto. }
  unfold simp_div; cbn zeta. destruct l; auto. destruct r; auto.
  destruct (negb (neqb c0 n0)); auto.
  apply den_const in Dl, Dr; subst. apply d_const'. cbn [ndiv XR]. rewrite xdiv_fin; auto.
Qed.
Lemma sound_neg e a : denotes vars e a -> denotes vars (simp_neg e : expr) (- a).
Proof.
  intros D. destruct e; cbn [simp_neg]; try (constructor; assumption).
  - apply den_const in D; subst. apply d_const'; reflexivity.
  - inversion D; subst. eapply den_eq; [eassumption|lra].
Qed.
Lemma sound_sin e a : denotes vars e a -> denotes vars (simp_sin e : expr) (sin a).
Proof.
  intros D. destruct e; cbn [simp_sin]; try (constructor; assumption).
  apply den_const in D; subst. rewrite x_n0. cbn [neqb XR xeqb].
  destruct (Req_b a 0) eqn:E; apply d_const'; [|reflexivity].
  apply Req_b_true in E; subst. rewrite sin_0; auto.
Qed.
Lemma sound_cos e a : denotes vars e a -> denotes vars (simp_cos e : expr) (cos a).
Proof.
  intros D. destruct e; cbn [simp_cos]; try (constructor; assumption).
  apply den_const in D; subst. rewrite x_n0. cbn [neqb XR xeqb].
  destruct (Req_b a 0) eqn:E; apply d_const'; [|reflexivity].
  apply Req_b_true in E; subst. rewrite cos_0; apply x_n1.
Qed.
Lemma sound_exp e a : denotes vars e a -> denotes vars (simp_exp e : expr) (exp a).
Proof.
  intros D. destruct e; cbn [simp_exp]; try (constructor; assumption).
  - apply den_const in D; subst. rewrite x_n0. cbn [neqb XR xeqb].
    destruct (Req_b a 0) eqn:E; apply d_const'; [|reflexivity].
    apply Req_b_true in E; subst. rewrite exp_0; apply x_n1.
  - destruct e2; try (constructor; assumption).
    inversion D as [ | | | |? ? c b Dc Db| | | | | | | | | | | ]; subst.
    inversion Db as [ | | | | | | | | | |? v Dv Pv| | | | | ]; subst.
    eapply den_eq; [eapply d_pow_pos; eassumption|]. reflexivity.
  - inversion D; subst. rewrite exp_ln; auto.
Qed.
Lemma sound_sqrt e a : denotes vars e a -> 0 <= a ->
  (forall b p, e = Pow b p -> exists v, denotes vars b v /\ 0 <= v) ->
  denotes vars (simp_sqrt e : expr) (sqrt a).
Proof.
  intros D Pa S. destruct e; cbn [simp_sqrt]; try (constructor; assumption).
  - apply den_const in D; subst. rewrite x_n0. cbn [nleb XR].
    rewrite xleb_fin. assert (E : Rleb 0 a = true) by (apply Rleb_true; auto). rewrite E.
    apply d_const'. cbn [nsqrt XR]. apply xsqrt_nonneg; auto.
  - destruct (is_lit n2 e2) eqn:L; [|constructor; auto].
    apply x_is_lit in L; subst. destruct (S _ _ eq_refl) as (v & Dv & Pv).
    assert (E : a = v * v).
    { apply evaluate_denotes in D. apply evaluate_denotes in Dv. cbn [evaluate] in D.
      rewrite Dv in D; cbn [bind] in D. rewrite x_n2 in D. cbn [npow XR] in D.
      rewrite xpow_2 in D. injection D; auto. }
    subst. rewrite sqrt_square; auto.
Qed.
Lemma sound_ln e a : denotes vars e a -> 0 < a ->
  (forall b p, e = Pow b p -> exists v, denotes vars b v /\ 0 < v) ->
  denotes vars (simp_ln e : expr) (ln a).
Proof.
  intros D Pa S. destruct e; cbn [simp_ln]; try (constructor; assumption).
  - apply den_const in D; subst. rewrite x_n0. cbn [nltb XR xltb].
    assert (E : Rltb 0 a = true) by (apply Rltb_true; auto). rewrite E.
    apply d_const'. cbn [nln XR]. apply xln_pos; auto.
  - destruct (S _ _ eq_refl) as (v & Dv & Pv).
    assert (E : exists q, denotes vars e2 q /\ a = Rpower v q).
    { inversion D; subst;
        match goal with H : denotes vars e1 ?u, H' : denotes vars e1 v |- _ =>
          pose proof (denotes_fun _ _ _ _ _ H H') as Ev; try subst u end; try subst.
      - exists 0. split; auto. rewrite Rpower_O; auto.
      - exists b. split; auto.
      - lra.
      - exists (IZR z). split; auto. apply powerRZ_Rpower; auto. }
    destruct E as (q & Dq & ->). unfold Rpower. rewrite ln_exp.
    constructor; auto. constructor; auto.
  - inversion D; subst. rewrite ln_exp; auto.
Qed.

Lemma den_pow_inv b p r : denotes vars (Pow b p : expr) r ->
  exists a q, denotes vars b a /\ denotes vars p q /\
   xpow (Fin a) (Fin q) = Fin r /\
   (q = 0 \/ 0 < a \/ (a = 0 /\ 0 < q) \/ (a <> 0 /\ exists z, q = IZR z)).
Proof.
  intros D. pose proof (evaluate_denotes _ _ _ _ D) as E. cbn [evaluate] in E.
  inversion D; subst;
    match goal with H1 : denotes vars b ?a, H2 : denotes vars p ?q |- _ =>
      exists a, q; pose proof (evaluate_denotes _ _ _ _ H1) as E1;
      pose proof (evaluate_denotes _ _ _ _ H2) as E2 end;
    rewrite E1, E2 in E; cbn [bind npow XR] in E; injection E as E;
    (split; [assumption|split; [assumption|split; [cbn [xpow]; assumption|]]]); auto 6.
  right; right; right; split; eauto.
Qed.
Lemma d_pow_intro b p a q r : denotes vars b a -> denotes vars p q ->
  (q = 0 \/ 0 < a \/ (a = 0 /\ 0 < q) \/ (a <> 0 /\ exists z, q = IZR z)) ->
  xpow (Fin a) (Fin q) = Fin r -> denotes vars (Pow b p : expr) r.
Proof.
  intros Db Dp C E.
  destruct C as [->|[Pa|[[-> Pq]|[Na [z ->]]]]].
  - rewrite xpow_0_r in E; injection E as <-. eapply d_pow_zero; eauto.
  - rewrite xpow_fin_pos in E by auto; injection E as <-. eapply d_pow_pos; eauto.
  - rewrite xpow_fin_zero in E by auto; injection E as <-. eapply d_pow_base0; eauto.
  - rewrite xpow_fin_int in E by auto; injection E as <-. eapply d_pow_int; eauto.
Qed.

Lemma sound_pow_pow ib ip o w r v : (* value of ib is v *)
  denotes vars ib v -> denotes vars (Pow ib ip : expr) w -> denotes vars o r ->
  (0 <= v \/ exists z1 z2, denotes vars ip (IZR z1) /\ denotes vars o (IZR z2)) ->
  forall res, denotes vars (Pow (Pow ib ip) o : expr) res ->
  exists m i, denotes vars ip i /\ m = i * r /\
    forall q : expr, denotes vars q m -> denotes vars (Pow ib q) res.
Proof.
  intros Dv Dw Do C res D.
  apply den_pow_inv in D as (w' & r' & Dw' & Do' & E & Cs).
  rewrite (denotes_fun _ _ _ _ _ Dw' Dw) in *. rewrite (denotes_fun _ _ _ _ _ Do' Do) in *.
  clear Dw' Do' w' r'.
  apply den_pow_inv in Dw as (v' & i & Dv' & Di & Ei & Ci).
  rewrite (denotes_fun _ _ _ _ _ Dv' Dv) in *. clear Dv' v'.
  exists (i * r), i. repeat split; auto. intros q Dq.
  destruct (Req_EM_T v 0) as [->|Nv].
  { (* base zero *)
    destruct Ci as [->|[Pv|[[_ Pi]|[Nv _]]]]; try lra.
    - rewrite xpow_0_r in Ei; injection Ei as <-. rewrite xpow_1_l in E. injection E as <-.
      eapply (d_pow_intro _ _ 0 (0 * r)); eauto; [left; lra|].
      replace (0 * r) with 0 by lra. apply xpow_0_r.
    - rewrite xpow_fin_zero in Ei by auto; injection Ei as <-.
      destruct Cs as [->|[Pv|[[_ Pr]|[Nv _]]]]; try lra.
      + rewrite xpow_0_r in E; injection E as <-.
        eapply (d_pow_intro _ _ 0 (i * 0)); eauto; [left; lra|].
        replace (i * 0) with 0 by lra. apply xpow_0_r.
      + rewrite xpow_fin_zero in E by auto; injection E as <-.
        assert (0 < i * r) by (apply Rmult_lt_0_compat; auto).
        eapply (d_pow_intro _ _ 0 (i * r)); eauto. apply xpow_fin_zero; auto. }
  destruct C as [Pv|(z1 & z2 & D1 & D2)].
  - assert (0 < v) by lra. rewrite xpow_fin_pos in Ei by auto. injection Ei as <-.
    assert (0 < Rpower v i) by (unfold Rpower; apply exp_pos).
    rewrite xpow_fin_pos in E by auto. injection E as <-.
    eapply (d_pow_intro _ _ v (i * r)); eauto.
    rewrite xpow_fin_pos by auto. rewrite Rpower_mult; auto.
  - rewrite (denotes_fun _ _ _ _ _ Di D1) in *. rewrite (denotes_fun _ _ _ _ _ Do D2) in *.
    rewrite xpow_fin_int in Ei by auto. injection Ei as <-.
    assert (powerRZ v z1 <> 0) by (apply powerRZ_NOR; auto).
    rewrite xpow_fin_int in E by auto. injection E as <-.
    rewrite <- mult_IZR in Dq.
    rewrite powerRZ_powerRZ by auto. eapply d_pow_int; eauto.
Qed.

Lemma sound_pow b p a q r :
  denotes vars b a -> denotes vars p q -> denotes vars (Pow b p : expr) r ->
  (forall ib ip, b = Pow ib ip ->
     (forall i, denotes vars ip i -> denotes vars (simplify (Mul ip p)) (i * q)) /\
     exists v, denotes vars ib v /\
      (0 <= v \/ exists z1 z2, denotes vars ip (IZR z1) /\ denotes vars p (IZR z2))) ->
  denotes vars (simp_pow_t b p : expr) r.
Proof.
  intros Db Dp D S.
  pose proof (den_pow_inv _ _ _ D) as (a' & q' & Da' & Dq' & E & C).
  rewrite (denotes_fun _ _ _ _ _ Da' Db) in *. rewrite (denotes_fun _ _ _ _ _ Dq' Dp) in *. clear Da' Dq'.
  assert (K : forall R1, R1 = (if is_lit n0 p then Some (Const n1) else if is_lit n1 p then Some b
     else if is_lit n1 b then Some (Const n1)
     else match b with Pow ib ip => Some (Pow ib (simplify (Mul ip p)))
          | _ => Some (Pow b p) end) -> exists e', R1 = Some e' /\ denotes vars e' r).
  { intros R1 ->.
    destruct (is_lit n0 p) eqn:L1.
    { apply (den_lit 0 _ _ L1) in Dp; subst. rewrite xpow_0_r in E. injection E as <-.
      eexists; split; [reflexivity|]. apply d_const', x_n1. }
    destruct (is_lit n1 p) eqn:L2.
    { apply (den_lit 1 _ _ L2) in Dp; subst. rewrite xpow_1_r in E. injection E as <-. eauto. }
    destruct (is_lit n1 b) eqn:L3.
    { apply (den_lit 1 _ _ L3) in Db; subst. rewrite xpow_1_l in E. injection E as <-.
      eexists; split; [reflexivity|]. apply d_const', x_n1. }
    destruct b; try (eexists; split; [reflexivity|]; exact D).
    destruct (S _ _ eq_refl) as (SM & v & Dv & Cv).
    destruct (sound_pow_pow b1 b2 p a q v Dv Db Dp Cv r D) as (m & i & Di & -> & F).
    eexists; split; [reflexivity|]. apply F. apply SM; auto. }
  unfold simp_pow_t, simp_pow.
  destruct b as [cb|xb|l0 r0|l0 r0|l0 r0|l0 r0|ib ip|a0|a0|a0|a0|a0|a0];
    try (destruct (K _ eq_refl) as (e' & -> & De'); exact De').
  destruct p; try (destruct (K _ eq_refl) as (e' & -> & De'); exact De').
  apply den_const in Db, Dp; subst. apply d_const'. exact E.
Qed.

Lemma simplify_denotes e r : safe vars e -> denotes vars e r -> denotes vars (simplify e : expr) r.
Proof.
  intros S. revert r. induction S as
    [c|x|l r0 Sl IHl Sr IHr|l r0 Sl IHl Sr IHr|l r0 Sl IHl Sr IHr|l r0 Sl IHl Sr IHr
    |a Sa IHa|a Sa IHa|a Sa IHa|a Sa IHa|a Sa IHa H|a Sa IHa H|b p Sb IHb Sp IHp HS IHS H]; intros r D.
  - exact D.
  - exact D.
  - rewrite simplify_add. inversion D; subst. apply sound_add; auto.
  - rewrite simplify_sub. inversion D; subst. apply sound_sub; auto.
  - rewrite simplify_mul. inversion D; subst. apply sound_mul; auto.
  - rewrite simplify_div. inversion D; subst. apply sound_div; auto.
  - rewrite simplify_exp. inversion D; subst. apply sound_exp; auto.
  - rewrite simplify_sin. inversion D; subst. apply sound_sin; auto.
  - rewrite simplify_cos. inversion D; subst. apply sound_cos; auto.
  - rewrite simplify_neg. inversion D; subst. apply sound_neg; auto.
  - rewrite simplify_ln. inversion D; subst. apply sound_ln; auto.
  - rewrite simplify_sqrt. inversion D; subst. apply sound_sqrt; auto.
  - rewrite simplify_pow.
    pose proof (den_pow_inv _ _ _ D) as (a & q & Da & Dq & E & C).
    eapply sound_pow; [apply IHb; exact Da | apply IHp; exact Dq | |].
    + eapply (d_pow_intro _ _ a q); eauto.
    + intros ib ip Eb. split; [|apply (H ib ip Eb)].
      intros i Di. apply (IHS ib ip Eb). constructor; auto.
Qed.
End Sound.
