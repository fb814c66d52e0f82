(** Proof terms for [PropsCache]. *)
From Coq Require Import ZArith Bool String List Arith Lia Reals.
From Coq Require Import Floats.SpecFloat.
From Verif Require Import Num XRFacts ExprModel ExprSpec ShowModel ShowSpec ShowProofs ShowWitness
  CacheModel CacheSpec CacheProofs CacheProofs2.
Import ListNotations.
Local Open Scope string_scope.
Local Open Scope list_scope.

Section W.
Context {N : Num} (show dbg : N -> string).

Lemma C09_transparent n (allowed : op -> Prop) s e ev :
  good_show show -> (forall o, allowed o -> plain_op o) ->
  reachable show dbg n allowed s -> In ev (log s) -> ev_op ev = OpSimplify e ->
  ev_answer ev = AExpr (simplify e).
Proof.
  intros G PL R I E.
  assert (C : content show dbg allowed (fun _ _ _ => True) s).
  { apply (content_reach show dbg allowed) with (n := n); auto.
    intros a b A B K. f_equal. apply PL in A, B. eapply display_injective; eauto. }
  destruct C as (_ & _ & _ & L). rewrite Forall_forall in L. specialize (L ev I).
  unfold ev_ok in L. rewrite E in L. exact L.
Qed.
Lemma C10_both n (allowed : op -> Prop) s e m ev :
  good_show show -> (forall a b, dbg a = dbg b -> a = b) -> (forall a, no_sep (dbg a)) ->
  (forall o, allowed o -> plain_op o) ->
  reachable show dbg n allowed s -> In ev (log s) -> ev_op ev = OpEvaluate e m ->
  ev_answer ev = ANum (evaluate m e) /\ (forall x, evaluate m e = Err x -> ev_cached ev = false).
Proof.
  intros G DI NS PL R I E.
  assert (C : content show dbg allowed (fun e m v => evaluate m e = Ok v) s).
  { apply (content_reach show dbg allowed) with (n := n); auto.
    - intros a b A B K. f_equal. apply PL in A, B. eapply display_injective; eauto.
    - intros a m1 b m2 v A B K Q. unfold mkey in K.
      assert (K1 : display show a = display show b) by congruence.
      assert (K2 : debug_env dbg m1 = debug_env dbg m2) by congruence.
      apply PL in A, B.
      rewrite (display_injective show a b); auto.
      rewrite (debug_env_injective dbg DI NS m1 m2); auto. }
  destruct C as (_ & _ & _ & L). rewrite Forall_forall in L. specialize (L ev I).
  unfold ev_ok in L. rewrite E in L. destruct (ev_answer ev) as [|[v|x]| |]; try contradiction.
  - rewrite L. split; [reflexivity|]. intros; discriminate.
  - destruct L as [-> L]. split; auto.
Qed.

(** Full histories of single calls by thread [t]. *)
Definition moves (t k : nat) : list (action (N := N)) := repeat (Move t) k.
Definition confused_e : list (action (N := N)) :=
  Call 0 (OpSimplify (Var "(x + y)")) :: moves 0 7 ++ Call 0 (OpSimplify (Add (Var "x") (Var "y"))) :: moves 0 5.
Lemma C09_confused : exists s ev, reachable show dbg 1 (fun _ => True) s /\ In ev (log s) /\
  ev_op ev = OpSimplify (Add (Var "x") (Var "y")) /\ ev_answer ev = AExpr (Var "(x + y)") /\
  simplify (Add (Var "x") (Var "y")) = (Add (Var "x") (Var "y") : expr N).
Proof.
  assert (R : exists s, run show dbg (init 1) confused_e = Some s /\ exists ev l, log s = ev :: l /\
    ev_op ev = OpSimplify (Add (Var "x") (Var "y")) /\ ev_answer ev = AExpr (Var "(x + y)")).
  { eexists. split; [vm_compute; reflexivity|]. eexists _, _. split; [reflexivity|]. split; reflexivity. }
  destruct R as (s & R & ev & l & E & A & B). exists s, ev.
  split; [exists confused_e; split; auto|]. split; [rewrite E; left; reflexivity|]. auto.
Qed.
Definition confused_v (a : N) : list (action (N := N)) :=
  Call 0 (OpEvaluate (Var "(x + y)") [("(x + y)", a)]) :: moves 0 7 ++
  Call 0 (OpEvaluate (Add (Var "x") (Var "y")) [("(x + y)", a)]) :: moves 0 5.
Lemma C10_confused (a : N) : exists s ev, reachable show dbg 1 (fun _ => True) s /\ In ev (log s) /\
  ev_op ev = OpEvaluate (Add (Var "x") (Var "y")) [("(x + y)", a)] /\ ev_answer ev = ANum (Ok a) /\
  evaluate [("(x + y)", a)] (Add (Var "x") (Var "y")) = Err (UndefinedVariable "x").
Proof.
  assert (R : exists s, run show dbg (init 1) (confused_v a) = Some s /\ exists ev l, log s = ev :: l /\
    ev_op ev = OpEvaluate (Add (Var "x") (Var "y")) [("(x + y)", a)] /\ ev_answer ev = ANum (Ok a)).
  { eexists. split.
    - unfold confused_v. lazy -[ekey_eqb]. rewrite ekey_eqb_refl. reflexivity.
    - eexists _, _. split; [reflexivity|]. split; reflexivity. }
  destruct R as (s & R & ev & l & E & A & B). exists s, ev.
  split; [exists (confused_v a); split; auto|]. split; [rewrite E; left; reflexivity|]. auto.
Qed.

Lemma C11_total n (allowed : op -> Prop) s : (forall o, allowed o -> o <> OpClear) ->
  reachable show dbg n allowed s -> quiescent s -> stats_of (log s) (stats s).
Proof.
  intros NC R Q. destruct (counted_no_clear show dbg n allowed s NC R) as [C [_ L]].
  rewrite <- (since_clear_none (log s) L). apply counted_quiet; auto.
Qed.
Lemma C11_one (allowed : op -> Prop) s :
  reachable show dbg 1 allowed s -> quiescent s -> stats_of (since_clear (log s)) (stats s).
Proof. intros R Q. eapply counted_quiet; eauto. eapply counted_one; eauto. Qed.

Lemma C11_clear_race : exists s : state (N := N), reachable show dbg 2 (fun _ => True) s /\ quiescent s /\
  (exists ev, since_clear (log s) = [ev] /\ ev_op ev = OpSimplify (Var "x")) /\
  stats s = no_stats /\ simp s = [("x", Var "x")].
Proof.
  pose (acts := Call 0 (OpSimplify (Var "x")) :: moves 0 5 ++ Call 1 OpClear :: moves 1 6 ++ moves 0 2).
  assert (R : exists s, run show dbg (init 2) acts = Some s /\ threads s = [Idle; Idle] /\
    (exists ev, since_clear (log s) = [ev] /\ ev_op ev = OpSimplify (Var "x")) /\
    stats s = no_stats /\ simp s = [("x", Var "x")]).
  { eexists. split; [vm_compute; reflexivity|]. split; [reflexivity|].
    split; [eexists; split; reflexivity|]. split; reflexivity. }
  destruct R as (s & R & T & A). exists s. split; [exists acts; split; auto|].
  split; [unfold quiescent; rewrite T; intros p [<-|[<-|[]]]; reflexivity|]. exact A.
Qed.

Lemma C51_alive n (allowed : op -> Prop) s : reachable show dbg n allowed s -> ~ quiescent s ->
  exists t s', step show dbg s (Move t) = Some s'.
Proof. intros R. apply progress. eapply locks_reach; eauto. Qed.
Lemma step_threads s a s' : step show dbg s a = Some s' -> length (threads s') = length (threads s).
Proof. destruct a; [apply call_length|apply move_length]. Qed.
Lemma run_threads acts : forall s s', run show dbg s acts = Some s' -> length (threads s') = length (threads s).
Proof.
  induction acts as [|a acts IH]; cbn [run]; intros s s' R; [injection R as <-; auto|].
  destruct (step show dbg s a) as [s1|] eqn:E; [|discriminate].
  rewrite (IH _ _ R). eapply step_threads; eauto.
Qed.
Lemma C51_bounded n (allowed : op -> Prop) s ts s' : reachable show dbg n allowed s ->
  run show dbg s (map (fun t => Move t) ts) = Some s' -> length ts <= 7 * n.
Proof.
  intros (acts & R & _) M. apply moves_bounded in M. pose proof (total_le (threads s)).
  pose proof (run_threads _ _ _ R) as L. unfold init in L; cbn in L. rewrite repeat_length in L. lia.
Qed.
Lemma C51_finish n (allowed : op -> Prop) s : reachable show dbg n allowed s ->
  exists ts s', run show dbg s (map (fun t => Move t) ts) = Some s' /\ quiescent s'.
Proof. intros R. apply finishes. eapply locks_reach; eauto. Qed.
(** Every call that was made has been answered once all threads are idle. *)
Definition is_call (a : action (N := N)) : bool := match a with Call _ _ => true | Move _ => false end.
Lemma answered_run acts : forall s s', run show dbg s acts = Some s' ->
  length (log s') + count (fun p => negb (match p with Idle => true | _ => false end)) (threads s') =
  length (log s) + count (fun p => negb (match p with Idle => true | _ => false end)) (threads s) +
  count is_call acts.
Proof.
  set (f := fun p : pc => negb (match p with Idle => true | _ => false end)).
  induction acts as [|a acts IH]; cbn [run]; intros s s' R.
  - injection R as <-. cbn. lia.
  - destruct (step show dbg s a) as [s1|] eqn:E; [|discriminate].
    rewrite (IH _ _ R), count_cons. clear IH R. destruct a as [t o|t].
    + apply step_call in E as [P ->]. pose proof (count_upd f _ _ (entry o) _ P) as U.
      cbn [goto log threads]. destruct o; cbn in U |- *; lia.
    + apply step_move in E as (p & P & E).
      pose proof (fun p' => count_upd f _ _ p' _ P) as U.
      destruct p; cbn [step_pc] in E; unfold lock_simp, lock_eval, lock_stats in E;
        repeat match type of E with
        | match ?x with _ => _ end = Some _ => destruct x eqn:?; try discriminate E
        end;
        first [discriminate E | injection E as <-];
        unfold goto, finish, with_simp, with_eval, with_stats; cbn [threads log length];
        match goal with |- context [upd (threads s) t ?q] => specialize (U q) end;
        cbn in U |- *; lia.
Qed.
Lemma C51_answers n acts s : run show dbg (init n) acts = Some s -> quiescent s ->
  length (log s) = count is_call acts.
Proof.
  intros R Q. apply answered_run in R. rewrite (count_quiet _ s) in R by auto.
  unfold init in R at 1 2; cbn [log threads length] in R. rewrite count_repeat in R by reflexivity. lia.
Qed.
Lemma C51_exclusive n (allowed : op -> Prop) s : reachable show dbg n allowed s ->
  (forall t u p q, nth_error (threads s) t = Some p -> nth_error (threads s) u = Some q ->
     h_simp p = true -> h_simp q = true -> t = u) /\
  (forall t u p q, nth_error (threads s) t = Some p -> nth_error (threads s) u = Some q ->
     h_eval p = true -> h_eval q = true -> t = u) /\
  (forall t u p q, nth_error (threads s) t = Some p -> nth_error (threads s) u = Some q ->
     h_stats p = true -> h_stats q = true -> t = u).
Proof.
  intros R. destruct (locks_reach show dbg n allowed s R) as (A & B & C).
  split; [|split]; eapply exclusive; eauto.
Qed.
End W.
