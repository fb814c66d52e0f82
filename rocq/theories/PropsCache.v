(** Properties C09, C10, C11, C51: the caches, for any number of threads, any
    history of calls and any interleaving of the lock operations.
    [reachable n allowed s]: [s] is reached by [n] threads making only calls
    that satisfy [allowed].  [log s] lists the finished calls, latest first. *)
From Coq Require Import ZArith Bool String List Arith Lia Reals.
From Coq Require Import Floats.SpecFloat.
From Verif Require Import Num XRFacts ExprModel ExprSpec ShowModel ShowSpec ShowProofs ShowWitness
  CacheModel CacheSpec CacheProofs CacheProofs2 CacheWitness.
Import ListNotations.
Local Open Scope string_scope.
Local Open Scope list_scope.

(** * C09 *)
Theorem C09_simplify_cached_returns_simplify :
  forall (N : Num) (show dbg : N -> string) n (allowed : op -> Prop) s e ev,
  good_show show -> (forall o, allowed o -> plain_op o) ->
  reachable show dbg n allowed s -> In ev (log s) -> ev_op ev = OpSimplify e ->
  ev_answer ev = AExpr (simplify e).
Proof. exact @C09_transparent. Qed.
Print Assumptions C09_simplify_cached_returns_simplify.

(** Without the restriction to identifiers the cache confuses expressions. *)
Theorem C09_colliding_names_get_a_wrong_answer_refuted :
  forall (N : Num) (show dbg : N -> string),
  exists s ev, reachable show dbg 1 (fun _ => True) s /\ In ev (log s) /\
    ev_op ev = OpSimplify (Add (Var "x") (Var "y")) /\ ev_answer ev = AExpr (Var "(x + y)") /\
    simplify (Add (Var "x") (Var "y")) = (Add (Var "x") (Var "y") : expr N).
Proof. exact @C09_confused. Qed.
Print Assumptions C09_colliding_names_get_a_wrong_answer_refuted.

(** * C10 *)
Theorem C10_evaluate_cached_returns_evaluate :
  forall (N : Num) (show dbg : N -> string) n (allowed : op -> Prop) s e m ev,
  good_show show -> (forall a b, dbg a = dbg b -> a = b) -> (forall a, no_sep (dbg a)) ->
  (forall o, allowed o -> plain_op o) ->
  reachable show dbg n allowed s -> In ev (log s) -> ev_op ev = OpEvaluate e m ->
  ev_answer ev = ANum (evaluate m e) /\ (forall x, evaluate m e = Err x -> ev_cached ev = false).
Proof. exact @C10_both. Qed.
Print Assumptions C10_evaluate_cached_returns_evaluate.

Theorem C10_colliding_names_hide_an_error_refuted :
  forall (N : Num) (show dbg : N -> string) (a : N),
  exists s ev, reachable show dbg 1 (fun _ => True) s /\ In ev (log s) /\
    ev_op ev = OpEvaluate (Add (Var "x") (Var "y")) [("(x + y)", a)] /\ ev_answer ev = ANum (Ok a) /\
    evaluate [("(x + y)", a)] (Add (Var "x") (Var "y")) = Err (UndefinedVariable "x").
Proof. exact @C10_confused. Qed.
Print Assumptions C10_colliding_names_hide_an_error_refuted.

(** * C11 *)
(** Any number of threads, no clears, everybody finished. *)
Theorem C11_statistics_count_every_call :
  forall (N : Num) (show dbg : N -> string) n (allowed : op -> Prop) s,
  (forall o, allowed o -> o <> OpClear) ->
  reachable show dbg n allowed s -> quiescent s -> stats_of (log s) (stats s).
Proof. exact @C11_total. Qed.
Print Assumptions C11_statistics_count_every_call.

(** One thread, clears allowed. *)
Theorem C11_statistics_count_calls_since_clear :
  forall (N : Num) (show dbg : N -> string) (allowed : op -> Prop) s,
  reachable show dbg 1 allowed s -> quiescent s -> stats_of (since_clear (log s)) (stats s).
Proof. exact @C11_one. Qed.
Print Assumptions C11_statistics_count_calls_since_clear.

(** What get_cache_stats returned to a single thread. *)
Theorem C11_report_counts_calls_since_clear :
  forall (N : Num) (show dbg : N -> string) (allowed : op -> Prop) s,
  reachable show dbg 1 allowed s ->
  forall l1 ev l2, log s = l1 ++ ev :: l2 ->
  forall c, ev_answer ev = AStats c -> stats_of (since_clear l2) c.
Proof. exact @reports_one. Qed.
Print Assumptions C11_report_counts_calls_since_clear.

(** What it returns among [n] threads: no finished call is missed, and at most
    one unfinished call of each other thread is counted early. *)
Theorem C11_concurrent_report_is_close :
  forall (N : Num) (show dbg : N -> string) n (allowed : op -> Prop) s,
  (forall o, allowed o -> no_clear o) -> reachable show dbg n allowed s ->
  forall l1 ev l2, log s = l1 ++ ev :: l2 ->
  forall c, ev_answer ev = AStats c ->
  (forall d, stats_of (since_clear l2) d -> stats_le d c) /\
  calls (since_clear l2) <= sum_stats c < calls (since_clear l2) + Nat.max 1 n.
Proof. exact @reports_no_clear. Qed.
Print Assumptions C11_concurrent_report_is_close.

(** A call counts as a hit exactly when the same text was simplified (or the
    same text and bindings successfully evaluated) since the last clear. *)
Theorem C11_hit_iff_seen_since_clear :
  forall (N : Num) (show dbg : N -> string) (allowed : op -> Prop) s,
  reachable show dbg 1 allowed s ->
  forall l1 ev l2, log s = l1 ++ ev :: l2 ->
  (forall e, ev_op ev = OpSimplify e ->
     (ev_cached ev = true <-> simplified show (display show e) (since_clear l2))) /\
  (forall e m, ev_op ev = OpEvaluate e m ->
     (ev_cached ev = true <-> evaluated show dbg (display show e, debug_env dbg m) (since_clear l2))).
Proof. exact @cached_one. Qed.
Print Assumptions C11_hit_iff_seen_since_clear.

Theorem C11_counters_grow_except_in_clear :
  forall (N : Num) (show dbg : N -> string) s a s', step show dbg s a = Some s' ->
  stats_le (stats s) (stats s') \/
  (exists t, a = Move t /\ nth_error (threads s) t = Some CStatsIn /\ stats s' = no_stats).
Proof. exact @monotone. Qed.
Print Assumptions C11_counters_grow_except_in_clear.

(** Hits over lookups, zero before the first lookup. *)
Definition ratio_of (hits misses : nat) (r : R) : Prop :=
  (0 <= r <= 1)%R /\ (hits + misses = 0 -> r = 0%R) /\ (hits + misses <> 0 -> r = (INR hits / INR (hits + misses))%R).
Theorem C11_hit_rate_is_a_ratio : forall lg (s : cache_stats),
  (exists r, (simplification_hit_rate s : XR lg) = Fin r /\ ratio_of (s_hits s) (s_misses s) r) /\
  (exists r, (evaluation_hit_rate s : XR lg) = Fin r /\ ratio_of (e_hits s) (e_misses s) r).
Proof. intros lg s. split; apply hit_rate_bounds. Qed.
Print Assumptions C11_hit_rate_is_a_ratio.

(** A clear that runs while another thread is inside a call: afterwards that
    call is finished but counted nowhere, and the cleared cache is not empty. *)
Theorem C11_clear_during_a_call_loses_it_refuted :
  forall (N : Num) (show dbg : N -> string),
  exists s : state (N := N), reachable show dbg 2 (fun _ => True) s /\ quiescent s /\
  (exists ev, since_clear (log s) = [ev] /\ ev_op ev = OpSimplify (Var "x")) /\
  stats s = no_stats /\ simp s = [("x", Var "x")].
Proof. exact @C11_clear_race. Qed.
Print Assumptions C11_clear_during_a_call_loses_it_refuted.

(** * C51 *)
(** No deadlock: while a call is running somewhere, some thread can move. *)
Theorem C51_no_deadlock :
  forall (N : Num) (show dbg : N -> string) n (allowed : op -> Prop) s,
  reachable show dbg n allowed s -> ~ quiescent s ->
  exists t s', step show dbg s (Move t) = Some s'.
Proof. exact @C51_alive. Qed.
Print Assumptions C51_no_deadlock.

(** Running calls end within seven steps per thread, whatever the scheduler does. *)
Theorem C51_calls_end :
  forall (N : Num) (show dbg : N -> string) n (allowed : op -> Prop) s ts s',
  reachable show dbg n allowed s ->
  run show dbg s (map (fun t => Move t) ts) = Some s' -> length ts <= 7 * n.
Proof. exact @C51_bounded. Qed.
Print Assumptions C51_calls_end.

Theorem C51_all_calls_can_finish :
  forall (N : Num) (show dbg : N -> string) n (allowed : op -> Prop) s,
  reachable show dbg n allowed s ->
  exists ts s', run show dbg s (map (fun t => Move t) ts) = Some s' /\ quiescent s'.
Proof. exact @C51_finish. Qed.
Print Assumptions C51_all_calls_can_finish.

(** Exactly one answer per call. *)
Theorem C51_one_answer_per_call :
  forall (N : Num) (show dbg : N -> string) n acts s,
  run show dbg (init n) acts = Some s -> quiescent s -> length (log s) = count is_call acts.
Proof. exact @C51_answers. Qed.
Print Assumptions C51_one_answer_per_call.

(** Two threads are never inside the sections of one mutex. *)
Theorem C51_mutual_exclusion :
  forall (N : Num) (show dbg : N -> string) n (allowed : op -> Prop) s,
  reachable show dbg n allowed s ->
  (forall t u p q, nth_error (threads s) t = Some p -> nth_error (threads s) u = Some q ->
     h_simp p = true -> h_simp q = true -> t = u) /\
  (forall t u p q, nth_error (threads s) t = Some p -> nth_error (threads s) u = Some q ->
     h_eval p = true -> h_eval q = true -> t = u) /\
  (forall t u p q, nth_error (threads s) t = Some p -> nth_error (threads s) u = Some q ->
     h_stats p = true -> h_stats q = true -> t = u).
Proof. exact @C51_exclusive. Qed.
Print Assumptions C51_mutual_exclusion.

(** * A concrete history meeting the hypotheses: two threads, interleaved, the
    second simplification answered from the cache, an evaluation failing. *)
Definition sample {N : Num} : list (action (N := N)) :=
  Call 0 (OpSimplify (Add (Var "x") (Var "y"))) :: moves 0 7 ++
  Call 1 (OpSimplify (Add (Var "x") (Var "y"))) :: Call 0 (OpEvaluate (Var "x") []) ::
  Move 1 :: Move 0 :: Move 1 :: Move 0 :: Move 0 :: Move 0 :: Move 1 :: Move 1 :: Move 0 :: Move 1 ::
  Call 0 OpStats :: moves 0 2.
Definition sample_ok {N : Num} (o : op (N := N)) : Prop :=
  o = OpSimplify (Add (Var "x") (Var "y")) \/ o = OpEvaluate (Var "x") [] \/ o = OpStats.
Example sample_plain (N : Num) (o : op (N := N)) : sample_ok o -> plain_op o /\ no_clear o.
Proof.
  intros [->|[->| ->]]; (split; [|discriminate]); cbn; auto; intros x O;
    repeat match goal with H : occurs _ _ |- _ => inversion H; clear H; subst end; reflexivity.
Qed.
Example sample_runs (N : Num) (show dbg : N -> string) :
  exists s, run show dbg (init 2) sample = Some s /\
  threads s = [Idle; Idle] /\
  map (fun ev => (ev_thread ev, ev_answer ev, ev_cached ev)) (log s) =
    [(0, AStats (mkStats 1 1 0 1), false);
     (1, AExpr (Add (Var "x") (Var "y")), true);
     (0, ANum (Err (UndefinedVariable "x")), false);
     (0, AExpr (Add (Var "x") (Var "y")), false)].
Proof. eexists. split; [vm_compute; reflexivity|]. split; reflexivity. Qed.
Lemma calls_in (N : Num) (l : list (action (N := N))) t o :
  In (Call t o) l -> In o (flat_map (fun a => match a with Call _ o => [o] | Move _ => [] end) l).
Proof. intros I. apply in_flat_map. exists (Call t o). split; auto. left; auto. Qed.
Example sample_reachable (N : Num) (show dbg : N -> string) s :
  run show dbg (init 2) sample = Some s -> reachable show dbg 2 sample_ok s.
Proof.
  intros R. exists sample. split; auto. intros t o I. apply calls_in in I. cbn in I.
  unfold sample_ok. intuition congruence.
Qed.
(** A number text meeting the hypotheses. *)
Example sample_text (L : libm) : @good_show (F64 L) text64 /\
  (forall a b : F64 L, text64 a = text64 b -> a = b) /\ (forall a : F64 L, no_sep (text64 a)).
Proof. split; [apply text64_good|]. split; [apply (text64_good L)|].
  intros a; split; intros I; destruct (text64_no_sep L a _ I); congruence.
Qed.
