(** Plain operands are safe (C06); symbolic log-densities (C15). *)
From Coq Require Import ZArith Reals String List Bool Lra Lia Arith.
From Verif Require Import Num XRFacts ExprModel ExprSpec ExprEval ExprEval2 ExprSimplify ExprSimplify2.
Import ListNotations.
Local Open Scope list_scope.

Ltac simpcases :=
  repeat match goal with
  | |- context [if ?b then _ else _] => destruct b eqn:?
  end.

Definition not_pow {A} (e : expr A) : Prop := forall b p, e <> Pow b p.

Lemma plain_not_pow {N : Num} (e : expr N) : plain_operand e = true -> not_pow (simplify e).
Proof.
  induction e; cbn [plain_operand]; intros H b p; try discriminate;
    try (apply andb_prop in H as [H1 H2]; specialize (IHe1 H1); specialize (IHe2 H2)).
  - rewrite simplify_add. unfold simp_add. revert IHe1 IHe2. generalize (simplify e1) (simplify e2).
    intros l r P1 P2. destruct l; try (simpcases; congruence). destruct r; simpcases; congruence.
  - rewrite simplify_sub. unfold simp_sub. revert IHe1 IHe2. generalize (simplify e1) (simplify e2).
    intros l r P1 P2. destruct l; try (simpcases; congruence). destruct r; simpcases; congruence.
  - rewrite simplify_div. unfold simp_div; cbn zeta. revert IHe1 IHe2. generalize (simplify e1) (simplify e2).
    intros l r P1 P2. destruct l; try (simpcases; congruence). destruct r; simpcases; congruence.
  - rewrite simplify_sin. destruct (simplify e); cbn [simp_sin]; simpcases; discriminate.
  - rewrite simplify_cos. destruct (simplify e); cbn [simp_cos]; simpcases; discriminate.
Qed.

Lemma plain_safe lg (vars : env (XR lg)) e : plain_powers e = true -> safe vars e.
Proof.
  induction e; cbn [plain_powers]; intros H;
    try (apply andb_prop in H as [H1 H2]); try (constructor; auto; fail).
  - apply andb_prop in H1 as [H0 H1].
    constructor; auto; intros ib ip E; destruct (plain_not_pow _ H0 _ _ E).
  - constructor; auto. intros b p E; destruct (plain_not_pow _ H1 _ _ E).
  - constructor; auto. intros b p E; destruct (plain_not_pow _ H1 _ _ E).
Qed.

(** ** Substitution *)
Lemma subst_occurs {N : Num} (ps : env N) e x :
  occurs x (substitute_expr ps e) <-> occurs x e /\ get ps x = None.
Proof.
  induction e; cbn [substitute_expr].
  1: split; [intros H; inversion H | intros [H _]; inversion H].
  1: { destruct (get ps x0) eqn:G; split.
       - intros H; inversion H.
       - intros [H K]; inversion H; subst; congruence.
       - intros H; inversion H; subst; split; auto; constructor.
       - intros [H K]; inversion H; subst; constructor. }
  all: split;
    [ intros H; inversion H; subst;
      match goal with
      | I : occurs ?y ?t <-> _, J : occurs ?y ?t |- _ =>
          apply I in J; destruct J; split; [constructor; assumption|assumption] end
    | intros [H K]; inversion H; subst;
      match goal with
      | I : occurs ?y (substitute_expr ?q ?d) <-> _, J : occurs ?y ?d |- _ =>
          assert (occurs y (substitute_expr q d)) by (apply I; auto); constructor; assumption end ].
Qed.

Lemma subst_denotes lg (ps vars : env (XR lg)) e r :
  (forall x v, get ps x = Some v -> get vars x = Some v) ->
  denotes vars e r -> denotes vars (substitute_expr ps e) r.
Proof.
  intros G. induction 1; cbn [substitute_expr].
  2: { destruct (get ps x) eqn:E; [|constructor; auto].
       apply G in E. rewrite H in E. injection E as <-. constructor. }
  all: try (constructor; auto; fail).
  - eapply d_pow_zero; eauto.
  - eapply d_pow_base0; eauto.
Qed.

(** Evaluation without the sum and product shortcuts. *)
Fixpoint strict {N : Num} (m : env N) (e : expr N) : res N N :=
  match e with
  | Const c => Ok c
  | Var x => match get m x with Some v => Ok v | None => Err (UndefinedVariable x) end
  | Add l r => let? a := strict m l in let? b := strict m r in Ok (nadd a b)
  | Sub l r => let? a := strict m l in let? b := strict m r in Ok (nsub a b)
  | Mul l r => let? a := strict m l in let? b := strict m r in Ok (nmul a b)
  | Div l r => let? d := strict m r in
               if neqb d n0 then Err DivisionByZero else let? a := strict m l in Ok (ndiv a d)
  | Pow l r => let? a := strict m l in let? b := strict m r in Ok (npow a b)
  | Ln a => let? w := strict m a in if nleb w n0 then Err (InvalidLogarithm w) else Ok (nln w)
  | Exp a => let? w := strict m a in Ok (nexp w)
  | Sqrt a => let? w := strict m a in if nltb w n0 then Err (InvalidSquareRoot w) else Ok (nsqrt w)
  | Sin a => let? w := strict m a in Ok (nsin w)
  | Cos a => let? w := strict m a in Ok (ncos w)
  | Neg a => let? w := strict m a in Ok (nneg w)
  end.

Lemma evaluate_strict lg (e : expr (XR lg)) m : no_zero_factor e = true -> evaluate m e = strict m e.
Proof.
  induction e; intros Z; cbn [no_zero_factor] in Z;
    try apply andb_prop in Z as [Z1 Z2]; cbn [strict].
  - reflexivity.
  - reflexivity.
  - rewrite evaluate_add, <- IHe1, <- IHe2 by auto.
    destruct (both_const e1 e2) as [[? ?]|] eqn:BC.
    { apply both_const_Some in BC as [-> ->]. reflexivity. }
    destruct (is_lit n0 e1) eqn:L1.
    { apply x_is_lit in L1; subst. cbn [evaluate bind].
      destruct (evaluate m e2); cbn [bind]; auto. rewrite x_n0. cbn [nadd XR]. rewrite xadd_0_l; auto. }
    destruct (is_lit n0 e2) eqn:L2; auto.
    apply x_is_lit in L2; subst. cbn [evaluate bind].
    destruct (evaluate m e1); cbn [bind]; auto. rewrite x_n0. cbn [nadd XR]. rewrite xadd_0_r; auto.
  - cbn [evaluate]. rewrite <- IHe1, <- IHe2 by auto; auto.
  - apply andb_prop in Z1 as [Z1 Z3]. apply andb_prop in Z1 as [Z0 Z1].
    apply negb_true_iff in Z0, Z1.
    rewrite evaluate_mul, Z0, Z1, <- IHe1, <- IHe2 by auto; cbn [orb].
    destruct (both_const e1 e2) as [[? ?]|] eqn:BC.
    { apply both_const_Some in BC as [-> ->]. reflexivity. }
    destruct (is_lit n1 e1) eqn:L1.
    { apply x_is_lit in L1; subst. cbn [evaluate bind].
      destruct (evaluate m e2); cbn [bind]; auto. rewrite x_n1. cbn [nmul XR]. rewrite xmul_1_l; auto. }
    destruct (is_lit n1 e2) eqn:L2; auto.
    apply x_is_lit in L2; subst. cbn [evaluate bind].
    destruct (evaluate m e1); cbn [bind]; auto. rewrite x_n1. cbn [nmul XR]. rewrite xmul_1_r; auto.
  - cbn [evaluate]. rewrite <- IHe1, <- IHe2 by auto; auto.
  - cbn [evaluate]. rewrite <- IHe1, <- IHe2 by auto; auto.
  - cbn [evaluate]. rewrite <- IHe by auto; auto.
  - cbn [evaluate]. rewrite <- IHe by auto; auto.
  - cbn [evaluate]. rewrite <- IHe by auto; auto.
  - cbn [evaluate]. rewrite <- IHe by auto; auto.
  - cbn [evaluate]. rewrite <- IHe by auto; auto.
  - cbn [evaluate]. rewrite <- IHe by auto; auto.
Qed.

Lemma subst_strict {N : Num} (ps m : env N) e :
  (forall x v, get ps x = Some v -> get m x = Some v) ->
  strict m (substitute_expr ps e) = strict m e.
Proof.
  intros G. induction e; cbn [substitute_expr strict]; auto;
    try (rewrite IHe1, IHe2; auto; fail); try (rewrite IHe; auto; fail).
  destruct (get ps x) eqn:E; cbn; auto. apply G in E. rewrite E; auto.
Qed.

(** ** Which expressions have an ordinary value *)
Lemma subexprs_self {A} (e : expr A) : In e (subexprs e).
Proof. destruct e; cbn; auto. Qed.

Lemma denotes_subexprs lg (vars : env (XR lg)) e r : denotes vars e r ->
  forall s, In s (subexprs e) -> exists q, denotes vars s q.
Proof.
  intros D. induction D; cbn [subexprs]; intros s [<- | HI];
    try contradiction;
    try (eexists; econstructor; eassumption);
    try (apply in_app_or in HI as [HI | HI]); eauto.
Qed.

Lemma evaluate_bin lg (vars : env (XR lg)) (l r : expr (XR lg)) a b :
  evaluate vars l = Ok (Fin a) -> evaluate vars r = Ok (Fin b) ->
  evaluate vars (Pow l r) = Ok (xpow_fin a b).
Proof. intros A B. cbn [evaluate]. rewrite A, B. reflexivity. Qed.

Lemma parts_denote lg (vars : env (XR lg)) (e : expr (XR lg)) :
  (forall s, In s (subexprs e) -> exists q, evaluate vars s = Ok (Fin q)) ->
  exists r, denotes vars e r.
Proof.
  induction e; intros H;
    try (assert (P1 : exists r, denotes vars e1 r)
           by (apply IHe1; intros s I; apply H; cbn [subexprs]; right; apply in_or_app; auto);
         assert (P2 : exists r, denotes vars e2 r)
           by (apply IHe2; intros s I; apply H; cbn [subexprs]; right; apply in_or_app; auto);
         destruct P1 as [a A], P2 as [b B]);
    try (assert (P1 : exists r, denotes vars e r)
           by (apply IHe; intros s I; apply H; cbn [subexprs]; right; auto);
         destruct P1 as [a A]);
    destruct (H _ (subexprs_self _)) as [q Q].
  - cbn [evaluate] in Q. okinj Q. exists q. constructor.
  - cbn [evaluate] in Q. destruct (get vars x) eqn:G; [|discriminate]. okinj Q. exists q. constructor; auto.
  - eexists; constructor; eauto.
  - eexists; constructor; eauto.
  - eexists; constructor; eauto.
  - exists (a / b)%R. constructor; auto. intros ->.
    cbn [evaluate] in Q. rewrite (evaluate_denotes _ _ _ _ B) in Q. cbn [bind] in Q.
    rewrite x_n0 in Q. cbn [neqb XR xeqb] in Q. unfold Req_b in Q; destruct (Req_EM_T 0 0); [discriminate|congruence].
  - rewrite (evaluate_bin _ _ _ _ a b) in Q by (apply evaluate_denotes; auto).
    okinj Q. unfold xpow_fin in Q.
    destruct (Req_b b 0) eqn:E0.
    { unfold Req_b in E0. destruct (Req_EM_T b 0); [subst|discriminate]. eexists. eapply d_pow_zero; eauto. }
    destruct (Rltb 0 a) eqn:E1.
    { unfold Rltb in E1. destruct (Rlt_dec 0 a); [|discriminate]. eexists; eapply d_pow_pos; eauto. }
    destruct (Req_b a 0) eqn:E2.
    { unfold Req_b in E2. destruct (Req_EM_T a 0); [subst|discriminate].
      destruct (Rltb 0 b) eqn:E3; [|discriminate]. unfold Rltb in E3.
      destruct (Rlt_dec 0 b); [|discriminate]. eexists; eapply d_pow_base0; eauto. }
    unfold as_int in Q. destruct (Req_b (IZR (Int_part b)) b) eqn:E4; [|discriminate].
    unfold Req_b in E4. destruct (Req_EM_T (IZR (Int_part b)) b) as [K|]; [|discriminate].
    rewrite <- K in B. eexists; eapply d_pow_int; eauto.
    intros ->. unfold Req_b in E2. destruct (Req_EM_T 0 0); congruence.
  - exists (ln a). constructor; auto.
    cbn [evaluate] in Q. rewrite (evaluate_denotes _ _ _ _ A) in Q. cbn [bind] in Q.
    rewrite x_n0 in Q. cbn [nleb XR] in Q. rewrite xleb_fin in Q.
    unfold Rleb in Q. destruct (Rle_dec a 0); [discriminate|lra].
  - eexists; constructor; eauto.
  - exists (sqrt a). constructor; auto.
    cbn [evaluate] in Q. rewrite (evaluate_denotes _ _ _ _ A) in Q. cbn [bind] in Q.
    rewrite x_n0 in Q. cbn [nltb XR xltb] in Q.
    unfold Rltb in Q. destruct (Rlt_dec a 0); [discriminate|lra].
  - eexists; constructor; eauto.
  - eexists; constructor; eauto.
  - eexists; constructor; eauto.
Qed.

Lemma denotes_iff lg (vars : env (XR lg)) (e : expr (XR lg)) r :
  denotes vars e r <->
  evaluate vars e = Ok (Fin r) /\
  (forall s, In s (subexprs e) -> exists q, evaluate vars s = Ok (Fin q)).
Proof.
  split.
  - intros D. split; [apply evaluate_denotes; auto|].
    intros s I. destruct (denotes_subexprs _ _ _ _ D s I) as [q Dq].
    exists q. apply evaluate_denotes; auto.
  - intros [E P]. destruct (parts_denote _ _ _ P) as [q D].
    pose proof (evaluate_denotes _ _ _ _ D) as E2. rewrite E in E2. okinj E2. auto.
Qed.

(** ** Lookup in the merged map of [SymbolicLogDensity::evaluate] *)
Lemma sld_evaluate_spec {N : Num} (d : symbolic_log_density) (vars m : env N) :
  wf_env vars ->
  (forall x, get m x = match get vars x with Some v => Some v | None => get (sld_parameters d) x end) ->
  sld_evaluate d vars = evaluate m (sld_expression d).
Proof.
  intros W G. unfold sld_evaluate. apply evaluate_ext. intros x _.
  rewrite get_extend, G by auto. reflexivity.
Qed.

Lemma sld_evaluate_single_spec {N : Num} (d : symbolic_log_density) x (v : N) :
  sld_evaluate_single d x v = sld_evaluate d [(x, v)].
Proof. reflexivity. Qed.

Lemma sld_subst_strict lg (d : symbolic_log_density) (vars : env (XR lg)) :
  wf_env vars ->
  (forall x, get (sld_parameters d) x <> None -> get vars x = None) ->
  no_zero_factor (sld_expression d) = true ->
  no_zero_factor (sld_expression (sld_substitute_parameters d)) = true ->
  sld_evaluate (sld_substitute_parameters d) vars = sld_evaluate d vars.
Proof.
  intros W G Z1 Z2. unfold sld_evaluate. cbn [sld_substitute_parameters sld_parameters sld_expression] in *.
  rewrite !evaluate_strict by auto. apply subst_strict.
  intros x v E. rewrite get_extend by auto. rewrite G; auto. congruence.
Qed.

Lemma sld_subst_denotes lg (d : symbolic_log_density) (vars : env (XR lg)) r :
  wf_env vars ->
  (forall x, get (sld_parameters d) x <> None -> get vars x = None) ->
  denotes (extend (sld_parameters d) vars) (sld_expression d) r ->
  sld_evaluate d vars = Ok (Fin r) /\
  sld_evaluate (sld_substitute_parameters d) vars = Ok (Fin r).
Proof.
  intros W G D. split; [apply evaluate_denotes; auto|].
  unfold sld_evaluate. cbn [sld_substitute_parameters sld_parameters sld_expression].
  apply evaluate_denotes. apply subst_denotes; auto.
  intros x v E. rewrite get_extend by auto. rewrite G; auto. congruence.
Qed.
