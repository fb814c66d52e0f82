(** Proofs about the evaluators (C01-C05) and [variables] (C14). *)
From Coq Require Import ZArith Reals String List Bool Lra Lia.
From Coq Require Import Permutation.
From Verif Require Import Num XRFacts ExprModel ExprSpec.
Import ListNotations.
Local Open Scope list_scope.

(** ** Maps *)
Lemma get_insert_eq {A} (m : env A) k v : get (insert m k v) k = Some v.
Proof.
  induction m as [|[k' v'] m IH]; cbn; [rewrite String.eqb_refl; reflexivity|].
  destruct (String.eqb k k') eqn:E; cbn; rewrite E; auto.
Qed.
Lemma get_insert_neq {A} (m : env A) k k2 v : k2 <> k -> get (insert m k v) k2 = get m k2.
Proof.
  intros H. induction m as [|[k' v'] m IH]; cbn.
  - apply String.eqb_neq in H; rewrite H; reflexivity.
  - destruct (String.eqb k k') eqn:E; cbn.
    + apply String.eqb_eq in E; subst.
      apply String.eqb_neq in H; rewrite H; reflexivity.
    + destruct (String.eqb k2 k'); auto.
Qed.
Lemma get_insert {A} (m : env A) k k2 v :
  get (insert m k v) k2 = if String.eqb k2 k then Some v else get m k2.
Proof.
  destruct (String.eqb k2 k) eqn:E.
  - apply String.eqb_eq in E; subst; apply get_insert_eq.
  - apply get_insert_neq. apply String.eqb_neq; auto.
Qed.
Lemma get_extend {A} (m2 m : env A) k : wf_env m2 ->
  get (extend m m2) k = match get m2 k with Some v => Some v | None => get m k end.
Proof.
  unfold extend, wf_env. revert m. induction m2 as [|[k' v'] m2 IH]; cbn; intros m H; auto.
  inversion H as [|? ? Hni Hnd]; subst. rewrite IH by auto. rewrite get_insert.
  destruct (String.eqb k k') eqn:E; auto.
  apply String.eqb_eq in E; subst.
  destruct (get m2 k') eqn:G; auto. exfalso; apply Hni.
  clear -G. induction m2 as [|[k v] m2 IH]; cbn in *; [discriminate|].
  destruct (String.eqb k' k) eqn:E; [left; symmetry; apply String.eqb_eq; auto | auto].
Qed.
Lemma wf_insert {A} (m : env A) k v : wf_env m -> wf_env (insert m k v).
Proof.
  unfold wf_env. induction m as [|[k' v'] m IH]; cbn; intros H.
  - constructor; auto.
  - inversion H as [|? ? Hni Hnd]; subst. destruct (String.eqb k k') eqn:E; cbn.
    + constructor; auto.
    + constructor; auto. intros Hin. apply Hni. clear -E Hin.
      induction m as [|[k2 v2] m IH]; cbn in *.
      * destruct Hin as [->|[]]. rewrite String.eqb_refl in E; discriminate.
      * destruct (String.eqb k k2); cbn in *; tauto.
Qed.

(** ** variables (C14) *)
Lemma collect_acc {N : Num} (e : expr N) vs :
  collect_variables e vs = vs ++ collect_variables e [].
Proof.
  revert vs. induction e; intros vs; cbn; auto; try (rewrite app_nil_r; reflexivity);
    try (rewrite IHe2, IHe1, (IHe2 (collect_variables e1 [])), app_assoc; reflexivity).
Qed.

Lemma collect_occurs {N : Num} (e : expr N) x :
  In x (collect_variables e []) <-> occurs x e.
Proof.
  induction e; cbn;
    try (rewrite collect_acc, in_app_iff, IHe1, IHe2; split;
         [intros [H|H]; [eapply o_add_l + eapply o_sub_l + eapply o_mul_l + eapply o_div_l
                         + eapply o_pow_l | eapply o_add_r + eapply o_sub_r + eapply o_mul_r
                         + eapply o_div_r + eapply o_pow_r]; exact H
         | intros H; inversion H; subst; auto]);
    try (rewrite IHe; split; [intros H; constructor; auto | intros H; inversion H; auto]).
  - split; [tauto | intros H; inversion H].
  - split; [intros [->|[]]; constructor | intros H; inversion H; auto].
Qed.

Lemma string_leb_antisym_lt x y : String.leb x y = false -> String.compare y x = Lt.
Proof.
  unfold String.leb. rewrite String.compare_antisym.
  destruct (String.compare y x); cbn; congruence.
Qed.
Lemma string_compare_trans_lt x y z :
  String.compare x y = Lt -> String.compare y z = Lt -> String.compare x z = Lt.
Proof.
  revert y z. induction x as [|a x IH]; destruct y as [|b y], z as [|c z]; cbn; try congruence.
  unfold Ascii.compare.
  destruct (N.compare_spec (Ascii.N_of_ascii a) (Ascii.N_of_ascii b)) as [E1|E1|E1];
  destruct (N.compare_spec (Ascii.N_of_ascii b) (Ascii.N_of_ascii c)) as [E2|E2|E2];
    try congruence; intros H1 H2.
  - rewrite E1, E2, N.compare_refl; eapply IH; eauto.
  - rewrite E1. apply N.compare_lt_iff in E2; rewrite E2; auto.
  - rewrite <- E2. apply N.compare_lt_iff in E1; rewrite E1; auto.
  - assert (E : (Ascii.N_of_ascii a < Ascii.N_of_ascii c)%N) by lia.
    apply N.compare_lt_iff in E; rewrite E; auto.
Qed.

Fixpoint sorted (l : list string) : Prop :=
  match l with
  | x :: ((y :: _) as l') => String.leb x y = true /\ sorted l'
  | _ => True
  end.

Lemma sort_insert_in x y l : In y (sort_insert x l) <-> y = x \/ In y l.
Proof.
  induction l as [|z l IH]; cbn; [intuition|].
  destruct (String.leb x z); cbn; [intuition|]. rewrite IH; intuition.
Qed.
Lemma sort_in y l : In y (sort l) <-> In y l.
Proof. induction l; cbn; [tauto|]. rewrite sort_insert_in, IHl; intuition. Qed.
Lemma sort_insert_sorted x l : sorted l -> sorted (sort_insert x l).
Proof.
  induction l as [|y l IH]; cbn; auto.
  intros H. destruct (String.leb x y) eqn:E; [split; auto|].
  assert (L : String.leb y x = true).
  { apply string_leb_antisym_lt in E. unfold String.leb; rewrite E; auto. }
  destruct l as [|z l]; cbn in *; auto.
  destruct H as [H1 H2]. specialize (IH H2).
  destruct (String.leb x z) eqn:E2; cbn in *; auto.
Qed.
Lemma sort_sorted l : sorted (sort l).
Proof. induction l; cbn; auto. apply sort_insert_sorted; auto. Qed.

Lemma dedup_head x l : exists l', dedup (x :: l) = x :: l'.
Proof.
  revert x. induction l as [|y l IH]; intros x; [exists []; reflexivity|].
  cbn [dedup]. destruct (String.eqb x y) eqn:E.
  - apply String.eqb_eq in E; subst; apply IH.
  - eexists; reflexivity.
Qed.
Lemma dedup_in x l : In x (dedup l) <-> In x l.
Proof.
  induction l as [|y l IH]; [cbn; tauto|].
  destruct l as [|z l]; [cbn; tauto|].
  cbn [dedup]. destruct (String.eqb y z) eqn:E.
  - apply String.eqb_eq in E; subst. rewrite IH; cbn; tauto.
  - cbn [In]. rewrite IH. cbn; tauto.
Qed.
Lemma dedup_increasing l : sorted l -> increasing (dedup l).
Proof.
  induction l as [|y l IH]; [cbn; auto|].
  destruct l as [|z l]; [cbn; auto|].
  intros [H1 H2].
  change (dedup (y :: z :: l)) with (if String.eqb y z then dedup (z :: l) else y :: dedup (z :: l)).
  destruct (String.eqb y z) eqn:E; [auto|].
  specialize (IH H2). destruct (dedup_head z l) as [l' El]. rewrite El in *.
  split; auto. unfold String.leb in H1.
  destruct (String.compare y z) eqn:C; auto; try discriminate.
  apply String.compare_eq_iff in C; subst; rewrite String.eqb_refl in E; discriminate.
Qed.

Lemma variables_occurs {N : Num} (e : expr N) x : In x (variables e) <-> occurs x e.
Proof. unfold variables. rewrite dedup_in, sort_in. apply collect_occurs. Qed.
Lemma variables_increasing {N : Num} (e : expr N) : increasing (variables e).
Proof. apply dedup_increasing, sort_sorted. Qed.

(** ** evaluate depends only on occurring names (C01) *)
Lemma is_lit_const {N : Num} (c : N) e : is_lit c e = true -> exists a, e = Const a /\ neqb a c = true.
Proof. destruct e; cbn; intros H; try discriminate. eauto. Qed.

(** [evaluate] on sums and products with the shortcut tests made explicit. *)
Definition both_const {N : Num} (l r : expr N) : option (N * N) :=
  match l, r with Const a, Const b => Some (a, b) | _, _ => None end.
Lemma evaluate_add {N : Num} vars (l r : expr N) :
  evaluate vars (Add l r) =
  match both_const l r with
  | Some (a, b) => Ok (nadd a b)
  | None => if is_lit n0 l then evaluate vars r
            else if is_lit n0 r then evaluate vars l
            else let? a := evaluate vars l in let? b := evaluate vars r in Ok (nadd a b)
  end.
Proof. destruct l; try reflexivity; destruct r; reflexivity. Qed.
Lemma evaluate_mul {N : Num} vars (l r : expr N) :
  evaluate vars (Mul l r) =
  match both_const l r with
  | Some (a, b) => Ok (nmul a b)
  | None => if is_lit n0 l || is_lit n0 r then Ok n0
            else if is_lit n1 l then evaluate vars r
            else if is_lit n1 r then evaluate vars l
            else let? a := evaluate vars l in let? b := evaluate vars r in Ok (nmul a b)
  end.
Proof. destruct l; try reflexivity; destruct r; reflexivity. Qed.
Lemma both_const_Some {N : Num} (l r : expr N) a b :
  both_const l r = Some (a, b) -> l = Const a /\ r = Const b.
Proof. destruct l; cbn; try discriminate; destruct r; cbn; try discriminate. intros H; inversion H; auto. Qed.

Lemma evaluate_ext {N : Num} (e : expr N) m1 m2 :
  (forall x, occurs x e -> get m1 x = get m2 x) -> evaluate m1 e = evaluate m2 e.
Proof.
  induction e; intros H; try rewrite !evaluate_add; try rewrite !evaluate_mul;
    try (rewrite IHe1, IHe2 by (intros; apply H; (apply o_add_l + apply o_mul_l + apply o_add_r + apply o_mul_r); assumption);
         reflexivity);
    cbn [evaluate]; auto.
  all: try (rewrite IHe by (intros; apply H; constructor; assumption); reflexivity).
  all: try (rewrite IHe1, IHe2 by (intros; apply H;
     (apply o_sub_l + apply o_div_l + apply o_pow_l + apply o_sub_r + apply o_div_r + apply o_pow_r);
     assumption); reflexivity).
  rewrite H by constructor; reflexivity.
Qed.

Ltac dbind H :=
  repeat match type of H with
  | bind ?r _ = _ => let E := fresh "E" in destruct r eqn:E; cbn [bind] in H; try discriminate
  | (if ?b then _ else _) = _ => let E := fresh "E" in destruct b eqn:E; try discriminate
  end.

Lemma evaluate_undefined {N : Num} (e : expr N) m x :
  evaluate m e = Err (UndefinedVariable x) -> occurs x e /\ get m x = None.
Proof.
  induction e; intros H.
  - discriminate.
  - cbn in H. destruct (get m x0) eqn:G; [discriminate|]. inversion H; subst. split; [constructor|auto].
  - rewrite evaluate_add in H. destruct (both_const e1 e2) as [[? ?]|]; [discriminate|].
    destruct (is_lit n0 e1).
    { apply IHe2 in H. split; [apply o_add_r|]; tauto. }
    destruct (is_lit n0 e2).
    { apply IHe1 in H. split; [apply o_add_l|]; tauto. }
    dbind H; inversion H; subst.
    + apply IHe2 in H; split; [apply o_add_r|]; tauto.
    + apply IHe1 in H; split; [apply o_add_l|]; tauto.
  - cbn in H. dbind H; inversion H; subst.
    + apply IHe2 in H; split; [apply o_sub_r|]; tauto.
    + apply IHe1 in H; split; [apply o_sub_l|]; tauto.
  - rewrite evaluate_mul in H. destruct (both_const e1 e2) as [[? ?]|]; [discriminate|].
    destruct (is_lit n0 e1 || is_lit n0 e2); [discriminate|].
    destruct (is_lit n1 e1).
    { apply IHe2 in H. split; [apply o_mul_r|]; tauto. }
    destruct (is_lit n1 e2).
    { apply IHe1 in H. split; [apply o_mul_l|]; tauto. }
    dbind H; inversion H; subst.
    + apply IHe2 in H; split; [apply o_mul_r|]; tauto.
    + apply IHe1 in H; split; [apply o_mul_l|]; tauto.
  - cbn in H. dbind H; inversion H; subst.
    + apply IHe1 in H; split; [apply o_div_l|]; tauto.
    + apply IHe2 in H; split; [apply o_div_r|]; tauto.
  - cbn in H. dbind H; inversion H; subst.
    + apply IHe2 in H; split; [apply o_pow_r|]; tauto.
    + apply IHe1 in H; split; [apply o_pow_l|]; tauto.
  - cbn in H. dbind H; inversion H; subst. apply IHe in H; split; [constructor|]; tauto.
  - cbn in H. dbind H; inversion H; subst. apply IHe in H; split; [constructor|]; tauto.
  - cbn in H. dbind H; inversion H; subst. apply IHe in H; split; [constructor|]; tauto.
  - cbn in H. dbind H; inversion H; subst. apply IHe in H; split; [constructor|]; tauto.
  - cbn in H. dbind H; inversion H; subst. apply IHe in H; split; [constructor|]; tauto.
  - cbn in H. dbind H; inversion H; subst. apply IHe in H; split; [constructor|]; tauto.
Qed.

(** Without literal zero factors a success means every name was bound. *)
Lemma evaluate_ok_bound {N : Num} (e : expr N) m v :
  no_zero_factor e = true -> evaluate m e = Ok v ->
  forall x, occurs x e -> get m x <> None.
Proof.
  revert v. induction e; intros v Z H y O; cbn [no_zero_factor] in Z;
    try apply andb_prop in Z as [Z1 Z2].
  - inversion O.
  - inversion O; subst. cbn in H. destruct (get m x); [congruence|discriminate].
  - rewrite evaluate_add in H. destruct (both_const e1 e2) as [[? ?]|] eqn:BC.
    { apply both_const_Some in BC as [-> ->]. inversion O as [ |? ? O'|? ? O'| | | | | | | | | | | | | | ]; inversion O'. }
    destruct (is_lit n0 e1) eqn:L1.
    { apply is_lit_const in L1 as (a & -> & _). inversion O as [ |? ? O'|? ? O'| | | | | | | | | | | | | | ]; subst; [inversion O'|eauto]. }
    destruct (is_lit n0 e2) eqn:L2.
    { apply is_lit_const in L2 as (a & -> & _). inversion O as [ |? ? O'|? ? O'| | | | | | | | | | | | | | ]; subst; [eauto|inversion O']. }
    dbind H; inversion O; subst; eauto.
  - cbn in H; dbind H; inversion O; subst; eauto.
  - apply andb_prop in Z1 as [Z1 Z3]. apply andb_prop in Z1 as [Z0 Z1].
    rewrite evaluate_mul in H. destruct (both_const e1 e2) as [[? ?]|] eqn:BC.
    { apply both_const_Some in BC as [-> ->]. inversion O; subst; match goal with HH : occurs _ (Const _) |- _ => inversion HH end. }
    apply negb_true_iff in Z0, Z1. rewrite Z0, Z1 in H; cbn [orb] in H.
    destruct (is_lit n1 e1) eqn:L1.
    { apply is_lit_const in L1 as (a & -> & _). inversion O; subst; [match goal with HH : occurs _ (Const _) |- _ => inversion HH end|eauto]. }
    destruct (is_lit n1 e2) eqn:L2.
    { apply is_lit_const in L2 as (a & -> & _). inversion O; subst; [eauto|match goal with HH : occurs _ (Const _) |- _ => inversion HH end]. }
    dbind H; inversion O; subst; eauto.
  - cbn in H; dbind H; inversion O; subst; eauto.
  - cbn in H; dbind H; inversion O; subst; eauto.
  - cbn in H; dbind H; inversion O; subst; eauto.
  - cbn in H; dbind H; inversion O; subst; eauto.
  - cbn in H; dbind H; inversion O; subst; eauto.
  - cbn in H; dbind H; inversion O; subst; eauto.
  - cbn in H; dbind H; inversion O; subst; eauto.
  - cbn in H; dbind H; inversion O; subst; eauto.
Qed.
