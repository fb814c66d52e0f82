(** Further facts on the cache machine: what a report says, and when a call
    is answered from the cache. *)
From Coq Require Import ZArith Bool String List Arith Lia.
From Verif Require Import Num ExprModel ExprSpec ShowModel ShowSpec CacheModel CacheSpec CacheProofs.
Import ListNotations.

Section P.
Context {N : Num} (show dbg : N -> string).
Notation state := (state (N := N)).
Notation pc := (pc (N := N)).
Notation op := (op (N := N)).
Notation event := (event (N := N)).
Notation step := (step show dbg).
Notation run := (run show dbg).

Ltac open_step H :=
  unfold lock_simp, lock_eval, lock_stats in H;
  repeat match type of H with
  | match ?x with _ => _ end = Some _ => destruct x eqn:?; try discriminate H
  end;
  first [discriminate H | injection H as <-].

(** ** Reports *)
Definition tail_ok (P : event -> list event -> Prop) (l : list event) : Prop :=
  forall l1 ev l2, l = l1 ++ ev :: l2 -> P ev l2.
Lemma tail_cons P ev l : tail_ok P l -> P ev l -> tail_ok P (ev :: l).
Proof.
  intros T E [|x l1] ev' l2 Q; cbn in Q; injection Q as -> Q; [subst; auto|].
  exact (T l1 ev' l2 Q).
Qed.
Lemma tail_nil P : tail_ok P [].
Proof. intros [|x l1] ev l2 Q; discriminate. Qed.

Definition calls (l : list event) : nat := count (fun e => is_simplify e || is_evaluate e) l.
Definition sum_stats (c : cache_stats) : nat := s_hits c + s_misses c + e_hits c + e_misses c.

(** A report covers every call finished before it (since the last clear) and at
    most one unfinished call per other thread. *)
Definition report_ok (n : nat) (ev : event) (l : list event) : Prop :=
  forall c, ev_answer ev = AStats c ->
    (forall d, stats_of (since_clear l) d -> stats_le d c) /\
    calls (since_clear l) <= sum_stats c < calls (since_clear l) + Nat.max 1 n.

Lemma calls_split (l : list event) :
  calls l = count l_sh l + count l_sm l + count l_eh l + count l_em l.
Proof.
  unfold calls. induction l as [|e l IH]; [reflexivity|]. rewrite !count_cons, IH.
  unfold l_sh, l_sm, l_eh, l_em, is_simplify, is_evaluate. destruct (ev_op e), (ev_cached e); cbn; lia.
Qed.
Lemma pending_le (l : list pc) :
  count p_sh l + count p_sm l + count p_eh l + count p_em l <= length l.
Proof.
  induction l as [|p l IH]; [cbn; lia|]. rewrite !count_cons. cbn [length]. destruct p; cbn; lia.
Qed.
Lemma pending_lt (l : list pc) t : nth_error l t = Some GRead ->
  count p_sh l + count p_sm l + count p_eh l + count p_em l < length l.
Proof.
  revert t. induction l as [|p l IH]; intros [|t] H; try discriminate H; cbn [nth_error] in H.
  - injection H as ->. rewrite !count_cons. cbn [length]. pose proof (pending_le l). cbn. lia.
  - specialize (IH t H). rewrite !count_cons. cbn [length]. destruct p; cbn; lia.
Qed.
Lemma reports_move n s t s' : length (threads s) = n -> counted s ->
  tail_ok (report_ok n) (log s) -> step s (Move t) = Some s' -> tail_ok (report_ok n) (log s').
Proof.
  intros L C T H. apply step_move in H as (p & P & H).
  destruct p; cbn [CacheModel.step_pc] in H; open_step H;
    unfold goto, finish, with_simp, with_eval, with_stats; cbn [log]; auto;
    apply tail_cons; auto; intros c E; try discriminate E.
  injection E as <-. cbn [stats]. destruct C as (C1 & C2 & C3 & C4).
  pose proof (pending_lt _ _ P). split.
  - intros d (D1 & D2 & D3 & D4). unfold stats_le.
    unfold l_sh, l_sm, l_eh, l_em in *. lia.
  - rewrite calls_split. unfold sum_stats. rewrite C1, C2, C3, C4. lia.
Qed.
Lemma move_length s t s' : step s (Move t) = Some s' -> length (threads s') = length (threads s).
Proof.
  intros H. apply step_move in H as (p & P & H).
  destruct p; cbn [CacheModel.step_pc] in H; open_step H;
    unfold goto, finish, with_simp, with_eval, with_stats; cbn [threads]; rewrite upd_length; auto.
Qed.
Lemma call_length s t o s' : step s (Call t o) = Some s' -> length (threads s') = length (threads s).
Proof. intros H. apply step_call in H as [_ ->]. cbn. apply upd_length. Qed.
Lemma call_log s t o s' : step s (Call t o) = Some s' -> log s' = log s.
Proof. intros H. apply step_call in H as [_ ->]. reflexivity. Qed.

Lemma reports_no_clear n (allowed : op -> Prop) s : (forall o, allowed o -> no_clear o) ->
  reachable show dbg n allowed s -> tail_ok (report_ok n) (log s).
Proof.
  intros NC (acts & R & AL).
  pose (I s := (counted s /\ no_clears s /\ length (threads s) = n) /\ tail_ok (report_ok n) (log s)).
  apply (run_inv show dbg allowed I) with (acts := acts) (s := init n) (s' := s); auto; unfold I.
  - intros s0 t o s' [(I1 & I2 & I3) I4] A H. rewrite (call_log _ _ _ _ H), (call_length _ _ _ _ H).
    split; auto. split; [eapply counted_call; eauto|split; auto; eapply no_clears_call; eauto].
  - intros s0 t s' [(I1 & I2 & I3) I4] H. rewrite (move_length _ _ _ H).
    split; [|eapply reports_move; eauto]. split; [|split; auto; eapply no_clears_move; eauto].
    eapply counted_move; eauto. intros P. exfalso. destruct I2 as [I2 _]. rewrite Forall_forall in I2.
    apply nth_error_In in P. specialize (I2 _ P). discriminate.
  - split; [|apply tail_nil]. split; [apply counted_init|split; [|cbn; apply repeat_length]].
    unfold no_clears, init; cbn. split; auto.
    apply Forall_forall. intros p Q. apply repeat_spec in Q. subst; auto.
Qed.

(** One thread: everything is exact. *)
Lemma one_inv (allowed : op -> Prop) (I : pc -> state -> Prop) :
  I Idle (init 1) ->
  (forall s o, threads s = [Idle] -> I Idle s -> allowed o -> I (entry o) (goto s 0 (entry o))) ->
  (forall s p s' p', threads s = [p] -> threads s' = [p'] -> counted s -> I p s ->
     step_pc show dbg s 0 p = Some s' -> I p' s') ->
  forall s, reachable show dbg 1 allowed s -> exists p, threads s = [p] /\ I p s.
Proof.
  intros I0 IC IM s (acts & R & AL).
  enough (G : counted s /\ exists p, threads s = [p] /\ I p s) by apply G.
  apply (run_inv show dbg allowed (fun s => counted s /\ exists p, threads s = [p] /\ I p s))
    with (acts := acts) (s := init 1) (s' := s); auto.
  - intros s0 t o s' [C (p & T & J)] A H. split; [eapply counted_call; eauto|].
    apply step_call in H as [P ->]. rewrite T in P.
    destruct t as [|[|t]]; try discriminate P. injection P as ->.
    exists (entry o). split; [cbn; rewrite T; reflexivity|]. apply IC; auto.
  - intros s0 t s' [C (p & T & J)] H. pose proof (move_length _ _ _ H) as L.
    split.
    + eapply counted_move; eauto. intros P. rewrite T in *.
      destruct t as [|[|t]]; try discriminate P. injection P as ->. repeat split.
    + rewrite T in L. destruct (threads s') as [|p' [|q l]] eqn:T'; try discriminate L.
      exists p'. split; auto. apply step_move in H as (q & P & H). rewrite T in P.
      destruct t as [|[|t]]; try discriminate P. injection P as <-. apply (IM s0 p s' p'); auto.
  - split; [apply counted_init|]. exists Idle. split; auto.
Qed.

Definition report_exact (ev : event) (l : list event) : Prop :=
  forall c, ev_answer ev = AStats c -> stats_of (since_clear l) c.
Lemma reports_one (allowed : op -> Prop) s :
  reachable show dbg 1 allowed s -> tail_ok report_exact (log s).
Proof.
  intros R.
  destruct (one_inv allowed (fun _ s => tail_ok report_exact (log s))) with (s := s) as (p & _ & G); auto.
  - apply tail_nil.
  - intros s0 p s' p' T T' C I H.
    destruct p; cbn [CacheModel.step_pc] in H; open_step H;
      unfold goto, finish, with_simp, with_eval, with_stats in *; cbn [log] in *; auto;
      apply tail_cons; auto; intros c E; try discriminate E.
    injection E as <-. destruct C as (C1 & C2 & C3 & C4). rewrite T in *. cbn in C1, C2, C3, C4.
    unfold stats_of. cbn [stats]. unfold l_sh, l_sm, l_eh, l_em in *. repeat split; lia.
Qed.

(** ** When a call is answered from the cache (one thread) *)
Definition simplified (k : string) (l : list event) : Prop :=
  exists ev e, In ev l /\ ev_op ev = OpSimplify e /\ display show e = k.
Definition evaluated (k : ekey) (l : list event) : Prop :=
  exists ev e m v, In ev l /\ ev_op ev = OpEvaluate e m /\ ev_answer ev = ANum (Ok v) /\
    (display show e, debug_env dbg m) = k.
Definition cached_ok (ev : event) (l : list event) : Prop :=
  (forall e, ev_op ev = OpSimplify e ->
     (ev_cached ev = true <-> simplified (display show e) (since_clear l))) /\
  (forall e m, ev_op ev = OpEvaluate e m ->
     (ev_cached ev = true <-> evaluated (display show e, debug_env dbg m) (since_clear l))).

Definition keys {A B} (l : list (A * B)) : list A := map fst l.
Lemma get_keys {A} (m : ExprModel.env A) k : (exists v, get m k = Some v) <-> In k (keys m).
Proof.
  induction m as [|[k2 v2] m IH]; cbn; [split; [intros [v E]; discriminate|intros []]|].
  destruct (String.eqb_spec k k2) as [->|NE]; [split; eauto|].
  rewrite IH. split; [auto|intros [E|I]; [congruence|auto]].
Qed.
Lemma insert_keys {A} (m : ExprModel.env A) k v k' : In k' (keys (insert m k v)) <-> k' = k \/ In k' (keys m).
Proof.
  induction m as [|[k2 v2] m IH]; cbn; [intuition|].
  destruct (String.eqb_spec k k2) as [->|NE]; cbn; [intuition|]. unfold keys in IH. rewrite IH. intuition.
Qed.
Lemma ekey_eqb_refl k : ekey_eqb k k = true.
Proof. unfold ekey_eqb. rewrite !String.eqb_refl. reflexivity. Qed.
Lemma eget_keys (m : list (ekey * N)) k : (exists v, eget m k = Some v) <-> In k (keys m).
Proof.
  induction m as [|[k2 v2] m IH]; cbn; [split; [intros [v E]; discriminate|intros []]|].
  destruct (ekey_eqb k k2) eqn:E.
  - apply ekey_eqb_eq in E. subst. split; eauto.
  - rewrite IH. split; [auto|intros [Q|I]; [|auto]]. subst. rewrite ekey_eqb_refl in E. discriminate.
Qed.
Lemma einsert_keys (m : list (ekey * N)) k v k' : In k' (keys (einsert m k v)) <-> k' = k \/ In k' (keys m).
Proof.
  induction m as [|[k2 v2] m IH]; cbn; [intuition|].
  destruct (ekey_eqb k k2) eqn:E; cbn.
  - apply ekey_eqb_eq in E. subst. intuition.
  - unfold keys in IH. rewrite IH. intuition.
Qed.

Lemma simplified_cons k ev l : simplified k (ev :: l) <->
  (exists e, ev_op ev = OpSimplify e /\ display show e = k) \/ simplified k l.
Proof.
  unfold simplified. split.
  - intros (x & e & [<-|I] & A & B); [left; eauto|right; eauto 6].
  - intros [(e & A & B)|(x & e & I & A & B)]; [exists ev, e; cbn; auto|exists x, e; cbn; auto].
Qed.
Lemma evaluated_cons k ev l : evaluated k (ev :: l) <->
  (exists e m v, ev_op ev = OpEvaluate e m /\ ev_answer ev = ANum (Ok v) /\ (display show e, debug_env dbg m) = k)
  \/ evaluated k l.
Proof.
  unfold evaluated. split.
  - intros (x & e & m & v & [<-|I] & A & B & C); [left; eauto 8|right; exists x, e, m, v; auto].
  - intros [(e & m & v & A & B & C)|(x & e & m & v & I & A & B & C)];
      [exists ev, e, m, v; cbn; auto|exists x, e, m, v; cbn; auto].
Qed.

(** Which keys are present, by the point the single thread has reached. *)
Definition simp_gone (p : pc) : bool :=
  match p with CEval | CEvalIn | CStats | CStatsIn => true | _ => false end.
Definition eval_gone (p : pc) : bool := match p with CStats | CStatsIn => true | _ => false end.
Definition at_pc (p : pc) (s : state) : Prop :=
  match p with
  | SHitLock e _ | SHitInc e _ | SHitRet e _ => In (skey show e) (keys (simp s))
  | SMissLock e | SMissInc e | SComp e | SStore e _ | SPut e _ => ~ In (skey show e) (keys (simp s))
  | EHitLock e m _ | EHitInc e m _ | EHitRet e m _ => In (mkey show dbg e m) (keys (evals s))
  | EMissLock e m | EMissInc e m | EComp e m | EStore e m _ | EPut e m _ =>
      ~ In (mkey show dbg e m) (keys (evals s))
  | _ => True
  end.
Definition stored (p : pc) (s : state) : Prop :=
  (if simp_gone p then simp s = []
   else forall k, In k (keys (simp s)) <-> simplified k (since_clear (log s))) /\
  (if eval_gone p then evals s = []
   else forall k, In k (keys (evals s)) <-> evaluated k (since_clear (log s))) /\
  at_pc p s /\ tail_ok cached_ok (log s).

Lemma stored_one (allowed : op -> Prop) s : reachable show dbg 1 allowed s ->
  exists p, threads s = [p] /\ stored p s.
Proof.
  intros R. apply (one_inv allowed stored); auto.
  - unfold stored; cbn [init simp evals log simp_gone eval_gone at_pc since_clear keys map].
    split; [|split; [|split; [auto|apply tail_nil]]]; intros k; (split; [intros []|]).
    + intros (? & ? & [] & _).
    + intros (? & ? & ? & ? & [] & _).
  - intros s0 o T (A & B & C & D) AL. unfold stored, goto; cbn [simp evals log].
    destruct o; cbn in *; (split; [|split; [|split]]); auto.
  - clear s R. intros s p s' p' T T' _ (A & B & C & D) H.
    destruct p; cbn [CacheModel.step_pc] in H; open_step H;
      unfold goto, finish, with_simp, with_eval, with_stats in *; cbn [threads] in T';
      rewrite T in T'; cbn [upd] in T'; injection T' as <-;
      cbn [at_pc simp_gone eval_gone] in *;
      unfold stored; cbn [simp evals log simp_gone eval_gone at_pc since_clear is_clear ev_op];
      (split; [|split; [|split]]); auto;
      try (apply get_keys; eauto); try (apply eget_keys; eauto);
      try (intros I; apply get_keys in I as [? ?]; congruence);
      try (intros I; apply eget_keys in I as [? ?]; congruence);
      try (intros k; rewrite ?simplified_cons, ?evaluated_cons; cbn [ev_op ev_answer]).
    all: try (rewrite A; split; [auto|intros [(? & Q & _)|?]; [discriminate Q|auto]]; fail).
    all: try (rewrite B; split; [auto|intros [(? & ? & ? & Q & _)|?]; [discriminate Q|auto]]; fail).
    + (* simp hit *) rewrite <- A. split; [auto|]. intros [(e' & Q & <-)|?]; auto. injection Q as <-. exact C.
    + apply tail_cons; auto. split; cbn [ev_op ev_cached]; [intros e' Q; injection Q as <-|discriminate].
      rewrite <- A. tauto.
    + rewrite insert_keys, A. split; (intros [Q|Q]; [left|right; auto]).
      * subst; eauto. * destruct Q as (e' & Q & <-). injection Q as <-. reflexivity.
    + apply tail_cons; auto. split; cbn [ev_op ev_cached]; [intros e' Q; injection Q as <-|discriminate].
      rewrite <- A. split; [discriminate|]. intros I; exfalso; apply C, I.
    + (* eval hit *) rewrite <- B. split; [auto|].
      intros [(e' & m' & v' & Q & _ & <-)|?]; auto. injection Q as <- <-. exact C.
    + apply tail_cons; auto. split; cbn [ev_op ev_cached]; [discriminate|intros e' m' Q; injection Q as <- <-].
      rewrite <- B. tauto.
    + (* error *) rewrite B. split; [auto|]. intros [(? & ? & ? & _ & Q & _)|?]; [discriminate Q|auto].
    + apply tail_cons; auto. split; cbn [ev_op ev_cached]; [discriminate|intros e' m' Q; injection Q as <- <-].
      rewrite <- B. split; [discriminate|]. intros I; exfalso; apply C, I.
    + rewrite einsert_keys, B. split; (intros [Q|Q]; [left|right; auto]).
      * subst; eauto 8. * destruct Q as (e' & m' & v' & Q & _ & <-). injection Q as <- <-. reflexivity.
    + apply tail_cons; auto. split; cbn [ev_op ev_cached]; [discriminate|intros e' m' Q; injection Q as <- <-].
      rewrite <- B. split; [discriminate|]. intros I; exfalso; apply C, I.
    + rewrite A. split; [intros []|intros (? & ? & [] & _)].
    + rewrite B. split; [intros []|intros (? & ? & ? & ? & [] & _)].
    + apply tail_cons; auto. split; cbn [ev_op]; discriminate.
    + apply tail_cons; auto. split; cbn [ev_op]; discriminate.
Qed.
Lemma cached_one (allowed : op -> Prop) s : reachable show dbg 1 allowed s -> tail_ok cached_ok (log s).
Proof. intros R. destruct (stored_one allowed s R) as (p & _ & G). apply G. Qed.

End P.
