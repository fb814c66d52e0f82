(** Proof terms for [PropsExpr]: rephrasings and concrete counterexamples. *)
From Coq Require Import ZArith Reals String List Bool Lra Lia Arith.
From Coq Require Import Floats.SpecFloat.
From Verif Require Import Num XRFacts ExprModel ExprSpec ExprEval ExprEval2 ExprSimplify
  ExprSimplify2 ExprSubst.
Import ListNotations.
Local Open Scope string_scope.
Local Open Scope list_scope.

(** Some math library, for statements that need one. *)
Definition some_libm : libm := mkLibm (fun x => x) (fun x => x) (fun x _ => x)
  (fun x => x) (fun x => x) (fun x => x).

Lemma C01_ext (N : Num) (e : expr N) (m1 m2 : env N) :
  (forall x, In x (variables e) -> get m1 x = get m2 x) -> evaluate m1 e = evaluate m2 e.
Proof. intros H. apply evaluate_ext. intros x O. apply H, variables_occurs; auto. Qed.
Lemma C01_undefined (N : Num) (e : expr N) (m : env N) x :
  evaluate m e = Err (UndefinedVariable x) -> In x (variables e) /\ get m x = None.
Proof. intros H. apply evaluate_undefined in H as [O G]. split; auto. apply variables_occurs; auto. Qed.
Lemma C01_bound (N : Num) (e : expr N) (m : env N) :
  (forall x, In x (variables e) -> get m x <> None) ->
  forall x, evaluate m e <> Err (UndefinedVariable x).
Proof. intros H x E. apply C01_undefined in E as [I G]. exact (H x I G). Qed.
Lemma C01_missing (N : Num) (e : expr N) (m : env N) x :
  no_zero_factor e = true -> In x (variables e) -> get m x = None ->
  exists err, evaluate m e = Err err.
Proof.
  intros Z I G. destruct (evaluate m e) as [v|err] eqn:E; eauto.
  exfalso. apply variables_occurs in I. exact (evaluate_ok_bound e m v Z E x I G).
Qed.
Lemma C01_hidden :
  exists (e : expr (F64 some_libm)) x, In x (variables e) /\ get [] x = @None f64 /\
    evaluate [] e = Ok n0.
Proof. exists (Mul (Const n0) (Var "x")), "x". repeat split. cbn; auto. Qed.

Lemma single_env {N : Num} x (v : N) y : get [(x, v)] y = if String.eqb y x then Some v else None.
Proof. reflexivity. Qed.
Lemma C02_agree lg (e : expr (XR lg)) x (v : XR lg) :
  no_zero_factor e = true -> evaluate [(x, v)] e = evaluate_single_var x v e.
Proof. intros Z. apply single_agrees; auto. Qed.
Lemma C02_single_ok lg (e : expr (XR lg)) x (v w : XR lg) :
  (forall s q, In s (subexprs e) -> evaluate_single_var x v s = Ok q -> exists r, q = Fin r) ->
  evaluate_single_var x v e = Ok w -> evaluate [(x, v)] e = Ok w.
Proof. intros H. apply single_ok_evaluate; auto. Qed.
Lemma C02_denotes lg (e : expr (XR lg)) x (v r : R) :
  denotes [(x, (Fin v : XR lg))] e r ->
  evaluate [(x, (Fin v : XR lg))] e = Ok (Fin r) /\ evaluate_single_var x (Fin v : XR lg) e = Ok (Fin r).
Proof.
  intros D. split; [apply evaluate_denotes; auto|].
  eapply single_denotes; [|exact D]. intros y w G. cbn in G.
  destruct (String.eqb y x) eqn:E; [|discriminate]. apply String.eqb_eq in E.
  split; congruence.
Qed.
Lemma C02_refuted (L : libm) :
  (exists (e : expr (F64 L)) x v r err,
     evaluate [(x, v)] e = Ok r /\ evaluate_single_var x v e = Err err) /\
  (exists (e : expr (F64 L)) x v,
     evaluate [(x, v)] e = Ok (S754_zero false) /\ evaluate_single_var x v e = Ok S754_nan) /\
  (exists (e : expr (F64 L)) x v,
     evaluate [(x, v)] e = Ok (S754_zero true) /\
     evaluate_single_var x v e = Ok (S754_zero false)).
Proof.
  repeat split.
  - exists (Mul (Const n0) (Ln (Var "x"))), "x", nm1, n0, (InvalidLogarithm nm1).
    split; vm_compute; reflexivity.
  - exists (Mul (Const n0) (Var "x")), "x", npinf. split; vm_compute; reflexivity.
  - exists (Add (Const n0) (Var "x")), "x", (S754_zero true). split; vm_compute; reflexivity.
Qed.

Lemma Forall2_index {A B} (P : A -> B -> Prop) l l' : Forall2 P l l' ->
  length l' = length l /\
  forall i a, nth_error l i = Some a -> exists b, nth_error l' i = Some b /\ P a b.
Proof.
  induction 1 as [|a b l l' H F [IL II]]; cbn [length]; split; auto.
  - intros [|i] a E; discriminate.
  - intros [|i] c E; cbn in *; eauto. injection E as <-. eauto.
Qed.
Lemma C03_index (N : Num) (e : expr N) x vs rs : evaluate_batch e x vs = Ok rs ->
  length rs = length vs /\
  forall i v, nth_error vs i = Some v ->
    exists r, nth_error rs i = Some r /\ evaluate [(x, v)] e = Ok r.
Proof.
  intros H. pose proof (evaluate_batch_pw e x vs) as P. rewrite H in P.
  exact (Forall2_index _ _ _ P).
Qed.
Lemma C03_gindex (N : Num) (e : expr N) x xs y ys rows : evaluate_grid e x xs y ys = Ok rows ->
  length rows = length ys /\
  forall j w, nth_error ys j = Some w ->
    exists row, nth_error rows j = Some row /\ length row = length xs /\
      forall i v, nth_error xs i = Some v ->
        exists r, nth_error row i = Some r /\ evaluate [(x, v); (y, w)] e = Ok r.
Proof.
  intros H. destruct (evaluate_grid_pw e x xs y ys) as (row & R & P). rewrite H in P.
  destruct (Forall2_index _ _ _ P) as [A B]. split; auto. intros j w J.
  destruct (B j w J) as (rw & E & Q). exists rw. split; auto.
  specialize (R w). rewrite Q in R. exact (Forall2_index _ _ _ R).
Qed.

Lemma C04_agree lg (e : expr (XR lg)) x vs :
  (forall y, In y (variables e) -> y = x) -> no_zero_factor e = true ->
  evaluate_batch_optimized e x vs = evaluate_batch e x vs.
Proof. intros H. apply batch_optimized_agrees. intros y O. apply H, variables_occurs; auto. Qed.
Lemma C04_refuted (L : libm) : exists (e : expr (F64 L)) x vs rs,
    evaluate_batch_optimized e x vs = Ok rs /\
    exists y, evaluate_batch e x vs = Err (UndefinedVariable y).
Proof.
  exists (Add (Var "x") (Var "y")), "x", [n1], [n1]. split; [vm_compute; reflexivity|].
  exists "y". vm_compute; reflexivity.
Qed.
Lemma C04_refuted2 (L : libm) : exists (e : expr (F64 L)) x vs rs,
    (forall y, In y (variables e) -> y = x) /\
    evaluate_batch e x vs = Ok rs /\ exists err, evaluate_batch_optimized e x vs = Err err.
Proof.
  exists (Mul (Const n0) (Ln (Var "x"))), "x", [nm1], [n0]. split; [|split].
  - cbn. intuition.
  - vm_compute; reflexivity.
  - exists (InvalidLogarithm nm1). vm_compute; reflexivity.
Qed.

Lemma C05_poly (L : libm) (e : expr (F64 L)) x v w :
  evaluate_polynomial x v e = Some w -> evaluate_single_var x v e = Ok w.
Proof. apply evaluate_polynomial_sound. exact f64_mul_comm. Qed.
Lemma C05_refuted (L : libm) : exists (e : expr (F64 L)) x,
    evaluate_smart x n1 e = Ok n1 /\ evaluate_single_var x n1 e = Ok n0.
Proof.
  exists (Sub (Add (Var "x") (Const (nint 10000000000000000))) (Const (nint 10000000000000000))), "x".
  split; vm_compute; reflexivity.
Qed.
Lemma C05_refuted2 (L : libm) : exists (e : expr (F64 L)) x,
    evaluate_smart x npinf e = Ok nnan /\ evaluate_single_var x npinf e = Ok n1.
Proof. exists (Const n1), "x". split; vm_compute; reflexivity. Qed.

Lemma C06_preserves lg (vars : env (XR lg)) (e : expr (XR lg)) r :
  safe vars e -> denotes vars e r ->
  denotes vars (simplify e) r /\ evaluate vars (simplify e) = evaluate vars e.
Proof.
  intros S D. pose proof (simplify_denotes vars e r S D) as D'. split; auto.
  apply evaluate_denotes in D, D'. congruence.
Qed.
Lemma C06_plain lg (vars : env (XR lg)) (e : expr (XR lg)) :
  plain_powers e = true ->
  (forall s, In s (subexprs e) -> exists q, evaluate vars s = Ok (Fin q)) ->
  evaluate vars (simplify e) = evaluate vars e.
Proof.
  intros P H. destruct (parts_denote _ _ _ H) as [r D].
  apply (C06_preserves lg vars e r); auto. apply plain_safe; auto.
Qed.
Lemma C06_refuted_sqrt (L : libm) : exists (e : expr (F64 L)) vars,
    evaluate vars e = Ok n1 /\ evaluate vars (simplify e) = Ok nm1.
Proof.
  exists (Sqrt (Mul (Var "x") (Var "x"))), [("x", nm1)]. split; vm_compute; reflexivity.
Qed.
Lemma C06_refuted_ln (L : libm) : exists (e : expr (F64 L)) vars v,
    evaluate vars e = Ok v /\ evaluate vars (simplify e) = Err (InvalidLogarithm nm1).
Proof.
  exists (Ln (Mul (Var "x") (Var "x"))), [("x", nm1)], (nln (n1 : F64 L)).
  split; vm_compute; reflexivity.
Qed.

Lemma simplify_pow_pow lg x :
  simplify (Pow (Pow (Var x) (Const (n2 : XR lg))) (Const nhalf)) = Pow (Var x) (Const (nmul n2 nhalf)).
Proof.
  rewrite simplify_pow. 
  assert (E1 : simplify (Pow (Var x) (Const (n2 : XR lg))) = Pow (Var x) (Const n2)).
  { rewrite simplify_pow, simplify_var, simplify_const. unfold simp_pow_t, simp_pow, is_lit.
    rewrite x_n2, x_n0, x_n1. cbn [neqb XR xeqb].
    rewrite (proj2 (Req_b_false 2 0)), (proj2 (Req_b_false 2 1)) by lra. reflexivity. }
  rewrite E1, simplify_const. unfold simp_pow_t, simp_pow, is_lit.
  rewrite simplify_mul, !simplify_const. cbn [simp_mul].
  rewrite x_n2, x_n0, x_n1, x_nhalf. cbn [neqb XR xeqb].
  rewrite (proj2 (Req_b_false (1/2) 0)), (proj2 (Req_b_false (1/2) 1)) by lra. reflexivity.
Qed.

Lemma x_pow2 : xpow (Fin (-1)) (Fin 2) = Fin 1.
Proof.
  unfold xpow, xpow_fin.
  rewrite (proj2 (Req_b_false 2 0)), (proj2 (Rltb_false 0 (-1))), (proj2 (Req_b_false (-1) 0)) by lra.
  replace 2%R with (IZR 2) by reflexivity. rewrite as_int_IZR. f_equal. simpl. lra.
Qed.
Lemma C06_refuted_pow lg : exists (e : expr (XR lg)) vars,
    evaluate vars e = Ok (Fin 1) /\ evaluate vars (simplify e) = Ok (Fin (-1)).
Proof.
  exists (Pow (Pow (Var "x") (Const n2)) (Const nhalf)), [("x", (Fin (-1) : XR lg))].
  rewrite simplify_pow_pow. rewrite x_n2, x_nhalf. cbn [evaluate].
  change (get [("x", (Fin (-1) : XR lg))] "x") with (Some (Fin (-1) : XR lg)).
  cbn [bind]. cbn [npow nmul XR xmul]. rewrite x_pow2. split; f_equal.
  - apply xpow_1_l.
  - replace (2 * (1 / 2))%R with 1%R by lra. apply xpow_1_r.
Qed.
Lemma C06_nonvacuous lg :
  plain_powers (Exp (Mul (Const (Fin 2 : XR lg)) (Ln (Add (Var "x") (Var "x")))) : expr (XR lg)) = true /\
  simplify (Exp (Mul (Const (Fin 3 : XR lg)) (Ln (Var "x"))) : expr (XR lg)) =
    Pow (Var "x") (Const (Fin 3 : XR lg)) /\
  denotes [("x", (Fin 1%R : XR lg))] (Exp (Mul (Const (Fin 3 : XR lg)) (Ln (Var "x"))) : expr (XR lg))
    (exp (3 * ln 1)).
Proof.
  split; [reflexivity|]. split.
  - rewrite simplify_exp, simplify_mul, simplify_ln, simplify_var, simplify_const.
    cbn [simp_ln]. unfold simp_mul, is_lit. rewrite x_n0, x_n1, x_nm1. cbn [neqb XR xeqb].
    rewrite (proj2 (Req_b_false 3 0)), (proj2 (Req_b_false 3 1)), (proj2 (Req_b_false 3 (-1))) by lra.
    reflexivity.
  - repeat (constructor; try reflexivity; try lra).
Qed.

Lemma C07_total (N : Num) (e : expr N) fuel : size e <= fuel ->
  simplify_fuel fuel e = Some (simplify e).
Proof. apply simplify_fuel_eq. Qed.
Lemma C07_vars (N : Num) (e : expr N) x : In x (variables (simplify e)) -> In x (variables e).
Proof. rewrite !variables_occurs. apply simplify_occurs. Qed.
Lemma C07_complexity (N : Num) (e : expr N) : complexity (simplify e) <= complexity e.
Proof. apply simplify_complexity. Qed.

Lemma C08_fix (N : Num) (e : expr N) : exists n,
    simplify (Nat.iter n simplify e) = Nat.iter n simplify e.
Proof. exists (weight e). apply iter_stable. auto. Qed.
Lemma C08_bounded (N : Num) (e : expr N) : exists n, n <= weight e /\
    forall k, n <= k -> Nat.iter k simplify e = Nat.iter n simplify e.
Proof.
  exists (weight e). split; auto. induction 1 as [|k L IH]; auto.
  cbn [Nat.iter]. change (simplify (Nat.iter k simplify e) = Nat.iter (weight e) simplify e).
  rewrite IH. apply iter_stable. auto.
Qed.
Lemma C08_refuted (L : libm) : exists e : expr (F64 L), simplify (simplify e) <> simplify e.
Proof.
  exists (Pow (Pow (Var "x") (Const n2)) (Const nhalf)).
  vm_compute. discriminate.
Qed.

Lemma C15_single (N : Num) (d : symbolic_log_density) x (v : N) (m : env N) :
  (forall y, get m y = if String.eqb y x then Some v else get (sld_parameters d) y) ->
  sld_evaluate_single d x v = evaluate m (sld_expression d).
Proof.
  intros G. rewrite sld_evaluate_single_spec. apply sld_evaluate_spec.
  - constructor; [auto|constructor].
  - intros y. rewrite G. cbn. destruct (String.eqb y x); auto.
Qed.
Lemma C15_occurs (N : Num) (d : symbolic_log_density (N := N)) x :
  occurs x (sld_expression (sld_substitute_parameters d)) <->
  occurs x (sld_expression d) /\ get (sld_parameters d) x = None.
Proof. apply subst_occurs. Qed.
Lemma C15_refuted_zero (L : libm) : exists (d : symbolic_log_density (N := F64 L)) vars r err,
    (forall x, get (sld_parameters d) x <> None -> get vars x = None) /\
    sld_evaluate d vars = Err err /\ sld_evaluate (sld_substitute_parameters d) vars = Ok r.
Proof.
  exists (sld_new (Mul (Var "p") (Ln (Const nm1))) [("p", n0)]), [], n0, (InvalidLogarithm nm1).
  split; [auto|split; vm_compute; reflexivity].
Qed.
Lemma C15_refuted_vars (L : libm) : exists (d : symbolic_log_density (N := F64 L)),
    sld_variables (sld_substitute_parameters d) <>
    variables (sld_expression (sld_substitute_parameters d)).
Proof.
  exists (sld_new (Add (Var "x") (Var "mu")) [("mu", n1)]). vm_compute. discriminate.
Qed.
