(** Proofs about agreement of the evaluators (C02-C05). *)
From Coq Require Import ZArith Reals String List Bool Lra Lia.
From Verif Require Import Num XRFacts ExprModel ExprSpec ExprEval.
Import ListNotations.
Local Open Scope list_scope.

(** ** evaluate vs evaluate_single_var *)
Lemma Ok_inj {A T} (a b : T) : @Ok A T a = Ok b -> a = b.
Proof. intros H; injection H; auto. Qed.
Ltac okinj H := apply Ok_inj in H;
  try match type of H with Fin _ = Fin _ => injection H as H end; subst.
Section XR.
Context (lg : R -> R).
Notation X := (XR lg).

Lemma x_is_lit c (e : expr X) : is_lit (c : X) e = true -> e = Const c.
Proof. destruct e; cbn; try discriminate. intros H; apply xeqb_eq in H; subst; auto. Qed.

Lemma single_agrees (e : expr X) m x (v : X) :
  (forall y, get m y = if String.eqb y x then Some v else None) ->
  no_zero_factor e = true ->
  evaluate m e = evaluate_single_var x v e.
Proof.
  intros G. induction e; intros Z; cbn [no_zero_factor] in Z;
    try apply andb_prop in Z as [Z1 Z2]; cbn [evaluate_single_var].
  - reflexivity.
  - cbn. rewrite G. destruct (String.eqb x0 x); auto.
  - rewrite evaluate_add, <- IHe1, <- IHe2 by auto.
    destruct (both_const e1 e2) as [[? ?]|] eqn:BC.
    { apply both_const_Some in BC as [-> ->]. reflexivity. }
    destruct (is_lit n0 e1) eqn:L1.
    { apply x_is_lit in L1; subst. cbn [evaluate bind].
      destruct (evaluate m e2); cbn [bind]; auto. rewrite x_n0. cbn [nadd XR]. rewrite xadd_0_l; auto. }
    destruct (is_lit n0 e2) eqn:L2; auto.
    apply x_is_lit in L2; subst. cbn [evaluate bind].
    destruct (evaluate m e1); cbn [bind]; auto. rewrite x_n0. cbn [nadd XR]. rewrite xadd_0_r; auto.
  - cbn [evaluate]. rewrite <- IHe1, <- IHe2 by auto; auto.
  - apply andb_prop in Z1 as [Z1 Z3]. apply andb_prop in Z1 as [Z0 Z1].
    apply negb_true_iff in Z0, Z1.
    rewrite evaluate_mul, Z0, Z1, <- IHe1, <- IHe2 by auto; cbn [orb].
    destruct (both_const e1 e2) as [[? ?]|] eqn:BC.
    { apply both_const_Some in BC as [-> ->]. reflexivity. }
    destruct (is_lit n1 e1) eqn:L1.
    { apply x_is_lit in L1; subst. cbn [evaluate bind].
      destruct (evaluate m e2); cbn [bind]; auto. rewrite x_n1. cbn [nmul XR]. rewrite xmul_1_l; auto. }
    destruct (is_lit n1 e2) eqn:L2; auto.
    apply x_is_lit in L2; subst. cbn [evaluate bind].
    destruct (evaluate m e1); cbn [bind]; auto. rewrite x_n1. cbn [nmul XR]. rewrite xmul_1_r; auto.
  - cbn [evaluate]. rewrite <- IHe1, <- IHe2 by auto; auto.
  - cbn [evaluate]. rewrite <- IHe1, <- IHe2 by auto; auto.
  - cbn [evaluate]. rewrite <- IHe by auto; auto.
  - cbn [evaluate]. rewrite <- IHe by auto; auto.
  - cbn [evaluate]. rewrite <- IHe by auto; auto.
  - cbn [evaluate]. rewrite <- IHe by auto; auto.
  - cbn [evaluate]. rewrite <- IHe by auto; auto.
  - cbn [evaluate]. rewrite <- IHe by auto; auto.
Qed.

(** Every part of [e] that evaluates has a finite value. *)
Definition parts_finite (x : string) (v : X) (e : expr X) : Prop :=
  forall s w, In s (subexprs e) -> evaluate_single_var x v s = Ok w -> exists r, w = Fin r.

Lemma parts_finite_sub x v e s : parts_finite x v e -> In s (subexprs e) ->
  (forall t, In t (subexprs s) -> In t (subexprs e)) -> parts_finite x v s.
Proof. intros H _ K t w Ht; apply H; auto. Qed.

Lemma single_ok_evaluate (e : expr X) m x (v w : X) :
  (forall y, get m y = if String.eqb y x then Some v else None) ->
  parts_finite x v e ->
  evaluate_single_var x v e = Ok w -> evaluate m e = Ok w.
Proof.
  intros G. revert w.
  induction e; intros w PF H; cbn [evaluate_single_var] in H;
    try assert (PF1 : parts_finite x v e1) by (intros s' w' Hs; apply PF; cbn; rewrite in_app_iff; auto);
    try assert (PF2 : parts_finite x v e2) by (intros s' w' Hs; apply PF; cbn; rewrite in_app_iff; auto);
    try assert (PF' : parts_finite x v e) by (intros s' w' Hs; apply PF; cbn; auto).
  - exact H.
  - cbn. rewrite G. destruct (String.eqb x0 x); auto; discriminate.
  - dbind H. rewrite evaluate_add.
    specialize (IHe1 _ PF1 eq_refl). specialize (IHe2 _ PF2 eq_refl).
    destruct (both_const e1 e2) as [[? ?]|] eqn:BC.
    { apply both_const_Some in BC as [-> ->]. cbn in *; congruence. }
    rewrite IHe1, IHe2.
    destruct (is_lit n0 e1) eqn:L1.
    { apply x_is_lit in L1; subst. cbn [evaluate_single_var] in E. okinj E. okinj H.
      cbn [nadd XR]. rewrite x_n0, xadd_0_l; auto. }
    destruct (is_lit n0 e2) eqn:L2; auto.
    apply x_is_lit in L2; subst. cbn [evaluate_single_var] in E0. okinj E0. okinj H.
      cbn [nadd XR]. rewrite x_n0, xadd_0_r; auto.
  - dbind H. cbn [evaluate]. rewrite (IHe1 _ PF1 eq_refl), (IHe2 _ PF2 eq_refl); auto.
  - dbind H. rewrite evaluate_mul.
    specialize (IHe1 _ PF1 eq_refl). specialize (IHe2 _ PF2 eq_refl).
    destruct (both_const e1 e2) as [[? ?]|] eqn:BC.
    { apply both_const_Some in BC as [-> ->]. cbn in *; congruence. }
    rewrite IHe1, IHe2. okinj H.
    destruct (PF1 e1 v0) as [r1 R1]; [destruct e1; cbn; auto|auto|].
    destruct (PF2 e2 v1) as [r2 R2]; [destruct e2; cbn; auto|auto|]. subst.
    destruct (is_lit n0 e1) eqn:L1.
    { apply x_is_lit in L1; subst. cbn [evaluate_single_var] in E. rewrite x_n0 in E; okinj E.
      cbn [orb nmul XR xmul]. rewrite x_n0. do 2 f_equal; lra. }
    destruct (is_lit n0 e2) eqn:L2.
    { apply x_is_lit in L2; subst. cbn [evaluate_single_var] in E0. rewrite x_n0 in E0; okinj E0.
      cbn [orb nmul XR xmul]. rewrite x_n0. do 2 f_equal; lra. }
    cbn [orb].
    destruct (is_lit n1 e1) eqn:L3.
    { apply x_is_lit in L3; subst. cbn [evaluate_single_var] in E. rewrite x_n1 in E; okinj E.
      cbn [nmul XR]. rewrite xmul_1_l; auto. }
    destruct (is_lit n1 e2) eqn:L4; auto.
    apply x_is_lit in L4; subst. cbn [evaluate_single_var] in E0. rewrite x_n1 in E0; okinj E0.
      cbn [nmul XR]. rewrite xmul_1_r; auto.
  - dbind H. cbn [evaluate]. rewrite (IHe2 _ PF2 eq_refl). cbn [bind]. rewrite E0, (IHe1 _ PF1 eq_refl); auto.
  - dbind H. cbn [evaluate]. rewrite (IHe1 _ PF1 eq_refl), (IHe2 _ PF2 eq_refl); auto.
  - dbind H. cbn [evaluate]. rewrite (IHe _ PF' eq_refl). cbn [bind]. rewrite E0; auto.
  - dbind H. cbn [evaluate]. rewrite (IHe _ PF' eq_refl); auto.
  - dbind H. cbn [evaluate]. rewrite (IHe _ PF' eq_refl). cbn [bind]. rewrite E0; auto.
  - dbind H. cbn [evaluate]. rewrite (IHe _ PF' eq_refl); auto.
  - dbind H. cbn [evaluate]. rewrite (IHe _ PF' eq_refl); auto.
  - dbind H. cbn [evaluate]. rewrite (IHe _ PF' eq_refl); auto.
Qed.

(** ** Adequacy: the evaluators compute the mathematical value. *)
Lemma x_leb0_false a : (0 < a)%R -> nleb (Fin a : X) n0 = false.
Proof.
  intros H. rewrite x_n0. cbn [nleb XR]. rewrite xleb_fin.
  unfold Rleb; destruct (Rle_dec a 0); auto; lra.
Qed.
Lemma x_ltb0_false a : (0 <= a)%R -> nltb (Fin a : X) n0 = false.
Proof. intros H. rewrite x_n0. cbn. apply Rltb_false; auto. Qed.
Lemma x_eqb0_false a : (a <> 0)%R -> neqb (Fin a : X) n0 = false.
Proof. intros H. rewrite x_n0. cbn. apply Req_b_false; auto. Qed.

(** Results of the two evaluators on each node, when the parts are known. *)
Lemma evaluate_denotes (vars : env X) (e : expr X) r :
  denotes vars e r -> evaluate vars e = Ok (Fin r).
Proof.
  induction 1; cbn [evaluate].
  - reflexivity.
  - rewrite H; auto.
  - etransitivity; [exact (@evaluate_add X vars l r)|].
    destruct (both_const l r) as [[? ?]|] eqn:BC.
    { apply both_const_Some in BC as [-> ->]. cbn in IHdenotes1, IHdenotes2.
      okinj IHdenotes1. okinj IHdenotes2. reflexivity. }
    rewrite IHdenotes1, IHdenotes2.
    destruct (is_lit n0 l) eqn:L1.
    { apply x_is_lit in L1; subst. cbn [evaluate] in IHdenotes1. rewrite x_n0 in IHdenotes1.
      okinj IHdenotes1. do 2 f_equal; lra. }
    destruct (is_lit n0 r) eqn:L2; auto.
    apply x_is_lit in L2; subst. cbn [evaluate] in IHdenotes2. rewrite x_n0 in IHdenotes2.
    okinj IHdenotes2. do 2 f_equal; lra.
  - rewrite IHdenotes1, IHdenotes2; auto.
  - etransitivity; [exact (@evaluate_mul X vars l r)|].
    destruct (both_const l r) as [[? ?]|] eqn:BC.
    { apply both_const_Some in BC as [-> ->]. cbn in IHdenotes1, IHdenotes2.
      okinj IHdenotes1. okinj IHdenotes2. reflexivity. }
    rewrite IHdenotes1, IHdenotes2.
    destruct (is_lit n0 l) eqn:L1.
    { apply x_is_lit in L1; subst. cbn [evaluate] in IHdenotes1. rewrite x_n0 in IHdenotes1.
      okinj IHdenotes1. cbn [orb]. rewrite x_n0. do 2 f_equal; lra. }
    destruct (is_lit n0 r) eqn:L2.
    { apply x_is_lit in L2; subst. cbn [evaluate] in IHdenotes2. rewrite x_n0 in IHdenotes2.
      okinj IHdenotes2. cbn [orb]. rewrite x_n0. do 2 f_equal; lra. }
    cbn [orb]. destruct (is_lit n1 l) eqn:L3.
    { apply x_is_lit in L3; subst. cbn [evaluate] in IHdenotes1. rewrite x_n1 in IHdenotes1.
      okinj IHdenotes1. do 2 f_equal; lra. }
    destruct (is_lit n1 r) eqn:L4; auto.
    apply x_is_lit in L4; subst. cbn [evaluate] in IHdenotes2. rewrite x_n1 in IHdenotes2.
    okinj IHdenotes2. do 2 f_equal; lra.
  - rewrite IHdenotes2. cbn [bind]. rewrite x_eqb0_false by auto. rewrite IHdenotes1; cbn [bind].
    cbn [ndiv XR]. rewrite xdiv_fin; auto.
  - rewrite IHdenotes1, IHdenotes2. cbn [bind npow XR]. rewrite xpow_0_r; auto.
  - rewrite IHdenotes1, IHdenotes2. cbn [bind npow XR]. rewrite xpow_fin_pos; auto.
  - rewrite IHdenotes1, IHdenotes2. cbn [bind npow XR]. rewrite xpow_fin_zero; auto.
  - rewrite IHdenotes1, IHdenotes2. cbn [bind npow XR]. rewrite xpow_fin_int; auto.
  - rewrite IHdenotes. cbn [bind]. rewrite x_leb0_false by auto. cbn [nln XR]. rewrite xln_pos; auto.
  - rewrite IHdenotes; auto.
  - rewrite IHdenotes. cbn [bind]. rewrite x_ltb0_false by auto. cbn [nsqrt XR]. rewrite xsqrt_nonneg; auto.
  - rewrite IHdenotes; auto.
  - rewrite IHdenotes; auto.
  - rewrite IHdenotes; auto.
Qed.

Lemma single_denotes (vars : env X) x (v : X) (e : expr X) r :
  (forall y w, get vars y = Some w -> y = x /\ w = v) ->
  denotes vars e r -> evaluate_single_var x v e = Ok (Fin r).
Proof.
  intros G. induction 1; cbn [evaluate_single_var].
  - reflexivity.
  - apply G in H as [-> <-]. rewrite String.eqb_refl; auto.
  - rewrite IHdenotes1, IHdenotes2; auto.
  - rewrite IHdenotes1, IHdenotes2; auto.
  - rewrite IHdenotes1, IHdenotes2; auto.
  - rewrite IHdenotes2. cbn [bind]. rewrite x_eqb0_false by auto. rewrite IHdenotes1; cbn [bind].
    cbn [ndiv XR]. rewrite xdiv_fin; auto.
  - rewrite IHdenotes1, IHdenotes2. cbn [bind npow XR]. rewrite xpow_0_r; auto.
  - rewrite IHdenotes1, IHdenotes2. cbn [bind npow XR]. rewrite xpow_fin_pos; auto.
  - rewrite IHdenotes1, IHdenotes2. cbn [bind npow XR]. rewrite xpow_fin_zero; auto.
  - rewrite IHdenotes1, IHdenotes2. cbn [bind npow XR]. rewrite xpow_fin_int; auto.
  - rewrite IHdenotes. cbn [bind]. rewrite x_leb0_false by auto. cbn [nln XR]. rewrite xln_pos; auto.
  - rewrite IHdenotes; auto.
  - rewrite IHdenotes. cbn [bind]. rewrite x_ltb0_false by auto. cbn [nsqrt XR]. rewrite xsqrt_nonneg; auto.
  - rewrite IHdenotes; auto.
  - rewrite IHdenotes; auto.
  - rewrite IHdenotes; auto.
Qed.

Lemma denotes_fun (vars : env X) (e : expr X) r1 r2 :
  denotes vars e r1 -> denotes vars e r2 -> r1 = r2.
Proof.
  intros H1 H2. apply evaluate_denotes in H1, H2. congruence.
Qed.
End XR.

(** ** Batches (C03) *)
Lemma batch_loop_pw {N : Num} (e : expr N) x f vs : forall m acc,
  (forall w, get m w = None \/ w = x \/ True) ->
  (forall v m', (forall y, y <> x -> get m' y = get m y) -> get m' x = Some v -> evaluate m' e = f v) ->
  match batch_loop e x m vs acc with
  | Ok out => exists rs, out = acc ++ rs /\ pointwise f vs (Ok rs)
  | Err er => pointwise f vs (Err er)
  end.
Proof.
  induction vs as [|v vs IH]; intros m acc _ F; cbn [batch_loop].
  - exists []. rewrite app_nil_r; split; auto. constructor.
  - assert (E : evaluate (insert m x v) e = f v).
    { apply F; [intros; apply get_insert_neq; auto | apply get_insert_eq]. }
    destruct (evaluate (insert m x v) e) as [r|er] eqn:Ev; cbn [bind].
    + specialize (IH (insert m x v) (acc ++ [r])).
      destruct (batch_loop e x (insert m x v) vs (acc ++ [r])) as [out|er].
      * destruct IH as (rs & -> & P); [auto| |].
        { intros; apply F; auto. intros. rewrite H by auto. apply get_insert_neq; auto. }
        exists (r :: rs). rewrite <- app_assoc. split; auto. constructor; auto.
      * destruct IH as (pre & a & post & rs & -> & P & Q); [auto| |].
        { intros; apply F; auto. intros. rewrite H by auto. apply get_insert_neq; auto. }
        exists (v :: pre), a, post, (r :: rs). repeat split; auto.
    + exists [], v, vs, []. repeat split; auto.
Qed.

Lemma evaluate_batch_pw {N : Num} (e : expr N) x vs :
  pointwise (fun v => evaluate [(x, v)] e) vs (evaluate_batch e x vs).
Proof.
  unfold evaluate_batch.
  pose proof (batch_loop_pw e x (fun v => evaluate [(x, v)] e) vs [] []) as H.
  destruct (batch_loop e x [] vs []).
  - destruct H as (rs & -> & P); auto.
    intros w m' Ho Hx. apply evaluate_ext. intros y _. cbn.
    destruct (String.eqb y x) eqn:E; [apply String.eqb_eq in E; subst; auto|].
    apply Ho. apply String.eqb_neq; auto.
  - apply H; auto.
    intros w m' Ho Hx. apply evaluate_ext. intros y _. cbn.
    destruct (String.eqb y x) eqn:E; [apply String.eqb_eq in E; subst; auto|].
    apply Ho. apply String.eqb_neq; auto.
Qed.

Lemma batch_vars_loop_pw {N : Num} (e : expr N) sets : forall acc,
  match batch_vars_loop e sets acc with
  | Ok out => exists rs, out = acc ++ rs /\ pointwise (fun m => evaluate m e) sets (Ok rs)
  | Err er => pointwise (fun m => evaluate m e) sets (Err er)
  end.
Proof.
  induction sets as [|m ms IH]; intros acc; cbn [batch_vars_loop].
  - exists []. rewrite app_nil_r; split; auto. constructor.
  - destruct (evaluate m e) as [r|er] eqn:Ev; cbn [bind].
    + specialize (IH (acc ++ [r])). destruct (batch_vars_loop e ms (acc ++ [r])) as [out|er].
      * destruct IH as (rs & -> & P). exists (r :: rs). rewrite <- app_assoc. split; auto. constructor; auto.
      * destruct IH as (pre & a & post & rs & -> & P & Q).
        exists (m :: pre), a, post, (r :: rs). repeat split; auto.
    + exists [], m, ms, []. repeat split; auto.
Qed.
Lemma evaluate_batch_vars_pw {N : Num} (e : expr N) sets :
  pointwise (fun m => evaluate m e) sets (evaluate_batch_vars e sets).
Proof.
  unfold evaluate_batch_vars. pose proof (batch_vars_loop_pw e sets []) as H.
  destruct (batch_vars_loop e sets []); auto. destruct H as (rs & -> & P); auto.
Qed.

Lemma grid_row_pw {N : Num} (e : expr N) x f xs : forall m acc,
  (forall v m', (forall y, y <> x -> get m' y = get m y) -> get m' x = Some v -> evaluate m' e = f v) ->
  match grid_row e x m xs acc with
  | Ok (out, m') => (exists rs, out = acc ++ rs /\ pointwise f xs (Ok rs)) /\
                    (forall y, y <> x -> get m' y = get m y)
  | Err er => pointwise f xs (Err er)
  end.
Proof.
  induction xs as [|v vs IH]; intros m acc F; cbn [grid_row].
  - split; auto. exists []. rewrite app_nil_r; split; auto. constructor.
  - assert (E : evaluate (insert m x v) e = f v).
    { apply F; [intros; apply get_insert_neq; auto | apply get_insert_eq]. }
    destruct (evaluate (insert m x v) e) as [r|er] eqn:Ev; cbn [bind].
    + assert (F' : forall w m', (forall y, y <> x -> get m' y = get (insert m x v) y) ->
                  get m' x = Some w -> evaluate m' e = f w).
      { intros; apply F; auto. intros. rewrite H by auto. apply get_insert_neq; auto. }
      specialize (IH (insert m x v) (acc ++ [r]) F').
      destruct (grid_row e x (insert m x v) vs (acc ++ [r])) as [[out m']|er].
      * destruct IH as ((rs & -> & P) & K). split.
        { exists (r :: rs). rewrite <- app_assoc. split; auto. constructor; auto. }
        intros y Hy. rewrite K by auto. apply get_insert_neq; auto.
      * destruct IH as (pre & a & post & rs & -> & P & Q).
        exists (v :: pre), a, post, (r :: rs). repeat split; auto.
    + exists [], v, vs, []. repeat split; auto.
Qed.

(** One row of the grid: [evaluate] with [y] bound to [w] and [x] to each value
    (the [x] binding wins if the names coincide). *)
Definition grid_point {N : Num} (e : expr N) (x y : string) (w v : N) : res N N :=
  evaluate [(x, v); (y, w)] e.

Lemma grid_loop_pw {N : Num} (e : expr N) x xs y ys : forall m acc,
  (forall z, z <> x -> z <> y -> get m z = None) ->
  exists row : N -> res N (list N),
    (forall w, pointwise (grid_point e x y w) xs (row w)) /\
    match grid_loop e x xs y m ys acc with
    | Ok out => exists rs, out = acc ++ rs /\ pointwise row ys (Ok rs)
    | Err er => pointwise row ys (Err er)
    end.
Proof.
  assert (ROW : exists row : N -> res N (list N),
     forall w, pointwise (grid_point e x y w) xs (row w) /\
       forall m, (forall z, z <> x -> z <> y -> get m z = None) ->
       match grid_row e x (insert m y w) xs [] with
       | Ok (out, m') => row w = Ok out /\ forall z, z <> x -> z <> y -> get m' z = None
       | Err er => row w = Err er
       end).
  { exists (fun w => match grid_row e x (insert [] y w) xs [] with Ok (o, _) => Ok o | Err er => Err er end).
    intros w.
    assert (F : forall m, (forall z, z <> x -> z <> y -> get m z = None) ->
      forall v m', (forall y0, y0 <> x -> get m' y0 = get (insert m y w) y0) -> get m' x = Some v ->
      evaluate m' e = grid_point e x y w v).
    { intros m K v m' Ho Hx. apply evaluate_ext. intros z _. cbn.
      destruct (String.eqb z x) eqn:E; [apply String.eqb_eq in E; subst; auto|].
      apply String.eqb_neq in E. rewrite Ho, get_insert by auto.
      destruct (String.eqb z y) eqn:E2; auto. apply String.eqb_neq in E2. auto. }
    split.
    - pose proof (grid_row_pw e x (grid_point e x y w) xs (insert [] y w) [] (F [] (fun _ _ _ => eq_refl))) as H.
      destruct (grid_row e x (insert [] y w) xs []) as [[o m']|er]; auto.
      destruct H as ((rs & -> & P) & _); auto.
    - intros m K.
      pose proof (grid_row_pw e x (grid_point e x y w) xs (insert [] y w) [] (F [] (fun _ _ _ => eq_refl))) as H0.
      pose proof (grid_row_pw e x (grid_point e x y w) xs (insert m y w) [] (F m K)) as H1.
      assert (DET : forall o1 o2, pointwise (grid_point e x y w) xs o1 ->
                pointwise (grid_point e x y w) xs o2 -> o1 = o2).
      { clear. set (f := grid_point e x y w). induction xs as [|a l IH]; intros o1 o2 P1 P2.
        - destruct o1 as [r1|e1].
          + destruct o2 as [r2|e2].
            * inversion P1; inversion P2; auto.
            * destruct P2 as (pre & a & post & rs & Q & _). destruct pre; discriminate.
          + destruct P1 as (pre & a & post & rs & Q & _). destruct pre; discriminate.
        - assert (S : forall o, pointwise f (a :: l) o ->
             match f a with
             | Ok b => exists o', pointwise f l o' /\
                   o = match o' with Ok rs => Ok (b :: rs) | Err er => Err er end
             | Err er => o = Err er end).
          { intros o P. destruct o as [rs|er].
            - inversion P as [|? b ? rs' E F2]; subst. rewrite E. exists (Ok rs'); auto.
            - destruct P as (pre & a' & post & rs & Q & F2 & E). destruct pre as [|p pre].
              + injection Q as -> ->. rewrite E; auto.
              + injection Q as -> ->. inversion F2 as [|? b ? rs' E' F2']; subst. rewrite E'.
                exists (Err er). split; auto. exists pre, a', post, rs'; auto. }
          apply S in P1, P2. destruct (f a).
          + destruct P1 as (o1' & Q1 & ->), P2 as (o2' & Q2 & ->). rewrite (IH _ _ Q1 Q2); auto.
          + congruence. }
      destruct (grid_row e x (insert [] y w) xs []) as [[o0 m0]|er0];
      destruct (grid_row e x (insert m y w) xs []) as [[o1 m1]|er1].
      + destruct H0 as ((rs0 & -> & P0) & K0), H1 as ((rs1 & -> & P1) & K1).
        split; [apply (DET _ _ P0 P1)|]. intros z Z1 Z2. rewrite K1, get_insert_neq by auto. auto.
      + destruct H0 as ((rs0 & -> & P0) & K0). apply (DET _ _ P0 H1).
      + destruct H1 as ((rs1 & -> & P1) & K1). apply (DET _ _ H0) in P1. discriminate.
      + apply (DET _ _ H0 H1). }
  destruct ROW as (row & ROW).
  intros m acc K. exists row. split; [intros w; apply (ROW w)|].
  revert m acc K. induction ys as [|w ws IH]; intros m acc K; cbn [grid_loop].
  - exists []. rewrite app_nil_r; split; auto. constructor.
  - destruct (ROW w) as [Pw Rw]. specialize (Rw m K).
    destruct (grid_row e x (insert m y w) xs []) as [[o m']|er]; cbn [bind fst snd].
    + destruct Rw as [Rw K']. specialize (IH m' (acc ++ [o]) K').
      destruct (grid_loop e x xs y m' ws (acc ++ [o])) as [out|er].
      * destruct IH as (rs & -> & P). exists (o :: rs). rewrite <- app_assoc. split; auto. constructor; auto.
      * destruct IH as (pre & a & post & rs & -> & P & Q).
        exists (w :: pre), a, post, (o :: rs). repeat split; auto.
    + exists [], w, ws, []. repeat split; auto.
Qed.

Lemma evaluate_grid_pw {N : Num} (e : expr N) x xs y ys :
  exists row : N -> res N (list N),
    (forall w, pointwise (grid_point e x y w) xs (row w)) /\
    pointwise row ys (evaluate_grid e x xs y ys).
Proof.
  destruct (grid_loop_pw e x xs y ys [] []) as (row & P & Q); [reflexivity|].
  exists row. split; auto. unfold evaluate_grid.
  destruct (grid_loop e x xs y [] ys []); auto. destruct Q as (rs & -> & Q); auto.
Qed.

(** ** Optimised batch (C04) *)
Lemma single_loop_pw {N : Num} (e : expr N) x vs : forall acc,
  match single_loop e x vs acc with
  | Ok out => exists rs, out = acc ++ rs /\ pointwise (fun v => evaluate_single_var x v e) vs (Ok rs)
  | Err er => pointwise (fun v => evaluate_single_var x v e) vs (Err er)
  end.
Proof.
  induction vs as [|m ms IH]; intros acc; cbn [single_loop].
  - exists []. rewrite app_nil_r; split; auto. constructor.
  - destruct (evaluate_single_var x m e) as [r|er] eqn:Ev; cbn [bind].
    + specialize (IH (acc ++ [r])). destruct (single_loop e x ms (acc ++ [r])) as [out|er].
      * destruct IH as (rs & -> & P). exists (r :: rs). rewrite <- app_assoc. split; auto. constructor; auto.
      * destruct IH as (pre & a & post & rs & -> & P & Q).
        exists (m :: pre), a, post, (r :: rs). repeat split; auto.
    + exists [], m, ms, []. repeat split; auto.
Qed.

Lemma prepop_get {N : Num} x vs : forall m y,
  get (fold_left (fun m y => if negb (String.eqb y x) then insert m y (n0 : N) else m) vs m) y =
  if in_dec string_dec y vs then (if String.eqb y x then get m y else Some n0) else get m y.
Proof.
  induction vs as [|z vs IH]; intros m y; cbn [fold_left]; auto.
  rewrite IH. destruct (in_dec string_dec y vs) as [i|i], (in_dec string_dec y (z :: vs)) as [j|j]; cbn in j.
  - destruct (String.eqb y x) eqn:E; auto. destruct (String.eqb z x) eqn:E2; cbn; auto.
    apply get_insert_neq. intros ->. congruence.
  - tauto.
  - destruct j as [->|]; [|tauto].
    destruct (String.eqb y x) eqn:E2; cbn; auto. rewrite get_insert_eq; auto.
  - destruct (String.eqb z x) eqn:E2; cbn; auto. apply get_insert_neq. intuition.
Qed.

(** What the optimised evaluator computes at a point. *)
Lemma batch_optimized_pw {N : Num} (e : expr N) x vs :
  pointwise (fun v => if list_eq_dec string_dec (variables e) [x]
                      then evaluate_single_var x v e
                      else evaluate ((x, v) :: map (fun y => (y, n0)) (variables e)) e)
            vs (evaluate_batch_optimized e x vs).
Proof.
  unfold evaluate_batch_optimized. cbn zeta.
  destruct (list_eq_dec string_dec (variables e) [x]) as [E|E].
  - rewrite E. rewrite String.eqb_refl.
    pose proof (single_loop_pw e x vs []) as H.
    destruct (single_loop e x vs []); auto. destruct H as (rs & -> & P); auto.
  - replace (match variables e with [y] => String.eqb y x | _ => false end) with false.
    2:{ destruct (variables e) as [|y [|? ?]]; auto. symmetry; apply String.eqb_neq. congruence. }
    match goal with |- pointwise ?f _ (batch_loop _ _ ?m _ _) =>
      pose proof (batch_loop_pw e x f vs m []) as H end.
    match type of H with _ -> ?P -> _ => assert (K : P) end.
    { intros v m' Ho Hx. apply evaluate_ext. intros y O. cbn [get].
      destruct (String.eqb y x) eqn:Ey; [apply String.eqb_eq in Ey; subst; auto|].
      rewrite Ho by (apply String.eqb_neq; auto). rewrite prepop_get, Ey.
      apply variables_occurs in O. destruct (in_dec string_dec y (variables e)) as [i|i]; [|tauto].
      clear -i. induction (variables e) as [|z l IH]; cbn in *; [tauto|].
      destruct (String.eqb y z) eqn:E; auto. apply IH. destruct i; auto. subst.
      rewrite String.eqb_refl in E; discriminate. }
    specialize (H ltac:(auto) K).
    match goal with |- pointwise _ _ ?o => destruct o end; auto.
    destruct H as (rs & -> & P); auto.
Qed.

Lemma pointwise_ext {A B E} (f g : A -> res E B) l o :
  (forall a, f a = g a) -> pointwise f l o -> pointwise g l o.
Proof.
  intros FG. assert (K : forall l rs, Forall2 (fun a r => f a = Ok r) l rs -> Forall2 (fun a r => g a = Ok r) l rs).
  { intros l' rs F. induction F; constructor; auto. rewrite <- FG; auto. }
  destruct o; cbn; auto. intros (pre & a & post & rs & -> & P & Q).
  exists pre, a, post, rs. rewrite <- FG; auto.
Qed.
Lemma pointwise_fun {A B E} (f : A -> res E B) l o1 o2 :
  pointwise f l o1 -> pointwise f l o2 -> o1 = o2.
Proof.
  revert o1 o2. induction l as [|a l IH]; intros o1 o2 P1 P2.
  - destruct o1 as [r1|e1].
    + destruct o2 as [r2|e2].
      * inversion P1; inversion P2; auto.
      * destruct P2 as (pre & a & post & rs & Q & _). destruct pre; discriminate.
    + destruct P1 as (pre & a & post & rs & Q & _). destruct pre; discriminate.
  - assert (S : forall o, pointwise f (a :: l) o ->
       match f a with
       | Ok b => exists o', pointwise f l o' /\
             o = match o' with Ok rs => Ok (b :: rs) | Err er => Err er end
       | Err er => o = Err er end).
    { intros o P. destruct o as [rs|er].
      - inversion P as [|? b ? rs' E' F2]; subst. rewrite E'. exists (Ok rs'); auto.
      - destruct P as (pre & a' & post & rs & Q & F2 & E'). destruct pre as [|p pre].
        + injection Q as -> ->. rewrite E'; auto.
        + injection Q as -> ->. inversion F2 as [|? b ? rs' E'' F2']; subst. rewrite E''.
          exists (Err er). split; auto. exists pre, a', post, rs'; auto. }
    apply S in P1, P2. destruct (f a).
    + destruct P1 as (o1' & Q1 & ->), P2 as (o2' & Q2 & ->). rewrite (IH _ _ Q1 Q2); auto.
    + congruence.
Qed.

Lemma batch_optimized_agrees lg (e : expr (XR lg)) x vs :
  (forall y, occurs y e -> y = x) -> no_zero_factor e = true ->
  evaluate_batch_optimized e x vs = evaluate_batch e x vs.
Proof.
  intros O Z. eapply pointwise_fun; [|apply evaluate_batch_pw].
  eapply pointwise_ext; [|apply batch_optimized_pw].
  intros v. destruct (list_eq_dec _ _ _) as [E|E]; cbn beta.
  - symmetry. apply single_agrees; auto.
  - apply evaluate_ext. intros y Oy. specialize (O y Oy); subst. cbn. rewrite String.eqb_refl; auto.
Qed.

(** ** Linear, polynomial and smart evaluation (C05) *)
Lemma some_pair {A B} (a c : A) (b d : B) : Some (a, b) = Some (c, d) -> a = c /\ b = d.
Proof. intros H; injection H; auto. Qed.
Section XR2.
Context (lg : R -> R).
Notation X := (XR lg).

Lemma linear_sound (e : expr X) x v : forall a b, finite_consts e ->
  extract_linear_coefficients x e = Some (a, b) ->
  exists ra rb, a = Fin ra /\ b = Fin rb /\
    evaluate_single_var x (Fin v : X) e = Ok (Fin (ra * v + rb)%R).
Proof.
  induction e; intros a b FC H; cbn [extract_linear_coefficients] in H; try discriminate.
  - apply some_pair in H as [<- <-]. destruct FC as [r ->]. exists 0%R, r. rewrite x_n0. repeat split; auto.
    cbn. do 2 f_equal; lra.
  - destruct (String.eqb x0 x) eqn:E; [|discriminate]. apply some_pair in H as [<- <-].
    exists 1%R, 0%R. rewrite x_n0, x_n1. repeat split; auto. cbn. rewrite E. do 2 f_equal; lra.
  - destruct FC as [FC1 FC2].
    destruct (extract_linear_coefficients x e1) as [[a1 b1]|] eqn:E1; [|discriminate].
    destruct (extract_linear_coefficients x e2) as [[a2 b2]|] eqn:E2; [|discriminate].
    destruct (IHe1 _ _ FC1 eq_refl) as (ra1 & rb1 & -> & -> & S1).
    destruct (IHe2 _ _ FC2 eq_refl) as (ra2 & rb2 & -> & -> & S2).
    apply some_pair in H as [<- <-]. exists (ra1 + ra2)%R, (rb1 + rb2)%R. repeat split; auto.
    cbn [evaluate_single_var]. rewrite S1, S2. cbn. do 2 f_equal; lra.
  - destruct FC as [FC1 FC2].
    destruct (extract_linear_coefficients x e1) as [[a1 b1]|] eqn:E1; [|discriminate].
    destruct (extract_linear_coefficients x e2) as [[a2 b2]|] eqn:E2; [|discriminate].
    destruct (IHe1 _ _ FC1 eq_refl) as (ra1 & rb1 & -> & -> & S1).
    destruct (IHe2 _ _ FC2 eq_refl) as (ra2 & rb2 & -> & -> & S2).
    apply some_pair in H as [<- <-]. exists (ra1 - ra2)%R, (rb1 - rb2)%R. repeat split; auto.
    cbn [evaluate_single_var]. rewrite S1, S2. cbn. do 2 f_equal; lra.
  - destruct FC as [FC1 FC2]. destruct e1; try discriminate; destruct e2; try discriminate.
    + destruct (String.eqb x0 x) eqn:E; [|discriminate]. apply some_pair in H as [<- <-].
      destruct FC1 as [r ->]. exists r, 0%R. rewrite x_n0. repeat split; auto.
      cbn. rewrite E. cbn. do 2 f_equal; lra.
    + destruct (String.eqb x0 x) eqn:E; [|discriminate]. apply some_pair in H as [<- <-].
      destruct FC2 as [r ->]. exists r, 0%R. rewrite x_n0. repeat split; auto.
      cbn. rewrite E. cbn. do 2 f_equal; lra.
Qed.

Lemma evaluate_linear_sound (e : expr X) x v w : finite_consts e ->
  evaluate_linear x (Fin v : X) e = Some w -> evaluate_single_var x (Fin v : X) e = Ok w.
Proof.
  unfold evaluate_linear. intros FC H.
  destruct (extract_linear_coefficients x e) as [[a b]|] eqn:E; [|discriminate].
  destruct (linear_sound e x v a b FC E) as (ra & rb & -> & -> & S). rewrite S.
  injection H as <-. reflexivity.
Qed.
End XR2.

Lemma evaluate_polynomial_sound {N : Num} (e : expr N) x v w :
  (forall a b : N, nmul a b = nmul b a) ->
  evaluate_polynomial x v e = Some w -> evaluate_single_var x v e = Ok w.
Proof.
  intros C. revert w. induction e; intros w H; cbn in H; try discriminate.
  - injection H as <-; auto.
  - cbn. destruct (String.eqb x0 x); [|discriminate]. injection H as <-; auto.
  - destruct (evaluate_polynomial x v e1); [|discriminate].
    destruct (evaluate_polynomial x v e2); [|discriminate]. injection H as <-.
    cbn. rewrite (IHe1 _ eq_refl), (IHe2 _ eq_refl); auto.
  - destruct (evaluate_polynomial x v e1); [|discriminate].
    destruct (evaluate_polynomial x v e2); [|discriminate]. injection H as <-.
    cbn. rewrite (IHe1 _ eq_refl), (IHe2 _ eq_refl); auto.
  - destruct e1; try discriminate; destruct e2; try discriminate.
    + cbn. destruct (String.eqb x0 x); [|discriminate]. injection H as <-; auto.
    + cbn. destruct (String.eqb x0 x); [|discriminate]. injection H as <-. cbn. rewrite C; auto.
  - destruct e1; try discriminate; destruct e2; try discriminate.
    cbn. destruct (String.eqb x0 x); [|discriminate]. injection H as <-; auto.
Qed.

Lemma f64_mul_comm a b : f64_mul a b = f64_mul b a.
Proof.
  unfold f64_mul, SpecFloat.SFmul. destruct a as [[]|[]| |[] m e], b as [[]|[]| |[] m' e']; auto;
  rewrite Pos.mul_comm, Z.add_comm; reflexivity.
Qed.

Lemma evaluate_smart_agrees lg (e : expr (XR lg)) x v : finite_consts e ->
  evaluate_smart x (Fin v : XR lg) e = evaluate_single_var x (Fin v : XR lg) e.
Proof.
  intros FC. unfold evaluate_smart.
  destruct (evaluate_linear x (Fin v : XR lg) e) eqn:E1.
  - apply evaluate_linear_sound in E1; auto.
  - destruct (evaluate_polynomial x (Fin v : XR lg) e) eqn:E2; auto.
    apply evaluate_polynomial_sound in E2; auto. intros; apply xmul_comm.
Qed.
