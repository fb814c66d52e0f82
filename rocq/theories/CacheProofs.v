(** Invariants of the cache machine (C09, C10, C11, C51). *)
From Coq Require Import ZArith Bool String List Arith Lia Reals Lra.
From Verif Require Import Num XRFacts ExprModel ExprSpec ShowModel ShowSpec ShowProofs CacheModel CacheSpec.
Import ListNotations.

Lemma upd_length {A} (l : list A) i x : length (upd l i x) = length l.
Proof. revert i; induction l; intros [|i]; cbn; auto. Qed.
Lemma upd_nth_eq {A} (l : list A) i x y : nth_error l i = Some y -> nth_error (upd l i x) i = Some x.
Proof. revert i; induction l; intros [|i] H; cbn in *; try discriminate; auto. Qed.
Lemma upd_nth_neq {A} (l : list A) i j x : i <> j -> nth_error (upd l i x) j = nth_error l j.
Proof. revert i j; induction l; intros [|i] [|j] H; cbn in *; auto; try congruence. Qed.
Lemma upd_Forall {A} (P : A -> Prop) l i x : Forall P l -> P x -> Forall P (upd l i x).
Proof. intros F; revert i; induction F; intros [|i] Q; cbn; auto. Qed.
Definition b2n (b : bool) : nat := if b then 1 else 0.
Lemma count_cons {A} (f : A -> bool) x l : count f (x :: l) = b2n (f x) + count f l.
Proof. unfold count; cbn; destruct (f x); reflexivity. Qed.
Lemma count_upd {A} (f : A -> bool) l i x y : nth_error l i = Some y ->
  count f (upd l i x) + b2n (f y) = count f l + b2n (f x).
Proof.
  revert i; induction l as [|z l IH]; intros [|i] H; cbn [upd nth_error] in *; try discriminate.
  - injection H as ->. rewrite !count_cons. lia.
  - rewrite !count_cons. specialize (IH i H). lia.
Qed.

Lemma in_insert {A} (m : ExprModel.env A) k v k' v' :
  In (k', v') (insert m k v) -> (k', v') = (k, v) \/ In (k', v') m.
Proof.
  induction m as [|[k2 v2] m IH]; cbn; [intuition congruence|].
  destruct (String.eqb_spec k k2) as [->|NE]; cbn; intuition congruence.
Qed.
Lemma get_In {A} (m : ExprModel.env A) k v : get m k = Some v -> In (k, v) m.
Proof.
  induction m as [|[k2 v2] m IH]; cbn; [discriminate|].
  destruct (String.eqb_spec k k2) as [->|NE]; [intros E; injection E as ->; auto|auto].
Qed.
Lemma ekey_eqb_eq a b : ekey_eqb a b = true -> a = b.
Proof.
  destruct a, b; unfold ekey_eqb; cbn. rewrite andb_true_iff, !String.eqb_eq. intros [-> ->]; auto.
Qed.

Section P.
Context {N : Num} (show dbg : N -> string).
Notation state := (state (N := N)).
Notation pc := (pc (N := N)).
Notation op := (op (N := N)).
Notation event := (event (N := N)).
Notation step := (step show dbg).
Notation step_pc := (step_pc show dbg).
Notation run := (run show dbg).

Lemma in_einsert (m : list (ekey * N)) k v k' v' :
  In (k', v') (einsert m k v) -> (k', v') = (k, v) \/ In (k', v') m.
Proof.
  induction m as [|[k2 v2] m IH]; cbn; [intuition congruence|].
  destruct (ekey_eqb k k2) eqn:E; cbn.
  - apply ekey_eqb_eq in E. subst. intuition congruence.
  - intuition congruence.
Qed.
Lemma eget_In (m : list (ekey * N)) k v : eget m k = Some v -> In (k, v) m.
Proof.
  induction m as [|[k2 v2] m IH]; cbn; [discriminate|].
  destruct (ekey_eqb k k2) eqn:E; [|auto].
  apply ekey_eqb_eq in E. subst. intros Q; injection Q as ->; auto.
Qed.

(** Invariants follow all runs. *)
Lemma run_inv (allowed : op -> Prop) (I : state -> Prop) :
  (forall s t o s', I s -> allowed o -> step s (Call t o) = Some s' -> I s') ->
  (forall s t s', I s -> step s (Move t) = Some s' -> I s') ->
  forall acts s s', I s -> (forall t o, In (Call t o) acts -> allowed o) ->
  run s acts = Some s' -> I s'.
Proof.
  intros HC HM acts. induction acts as [|a acts IH]; cbn [CacheModel.run]; intros s s' Is AL R.
  - injection R as <-; auto.
  - destruct (step s a) as [s1|] eqn:E; [|discriminate].
    apply (IH s1); auto; [|intros; apply (AL t); right; auto].
    destruct a as [t o|t]; [apply (HC s t o); auto; apply (AL t); left; auto|apply (HM s t); auto].
Qed.

Lemma step_move s t s' : step s (Move t) = Some s' ->
  exists p, nth_error (threads s) t = Some p /\ step_pc s t p = Some s'.
Proof. cbn. destruct (nth_error (threads s) t); [eauto|discriminate]. Qed.
Lemma step_call s t o s' : step s (Call t o) = Some s' ->
  nth_error (threads s) t = Some Idle /\ s' = goto s t (entry o).
Proof.
  cbn. destruct (nth_error (threads s) t) as [[]|]; try discriminate.
  intros E; injection E as <-; auto.
Qed.

(** Open up one move. *)
Ltac open_step H :=
  unfold lock_simp, lock_eval, lock_stats in H;
  repeat match type of H with
  | match ?x with _ => _ end = Some _ => destruct x eqn:?; try discriminate H
  end;
  first [discriminate H | injection H as <-].

(** ** Contents *)
Section Content.
Variable allowed : op -> Prop.
Hypothesis key_s : forall e e', allowed (OpSimplify e) -> allowed (OpSimplify e') ->
  skey show e = skey show e' -> simplify e = simplify e'.
(** What is claimed of a stored value. *)
Variable good : expr N -> env N -> N -> Prop.
Hypothesis good_comp : forall e m v, evaluate m e = Ok v -> good e m v.
Hypothesis key_e : forall e m e' m' v, allowed (OpEvaluate e m) -> allowed (OpEvaluate e' m') ->
  mkey show dbg e m = mkey show dbg e' m' -> good e' m' v -> good e m v.

Definition pc_ok (p : pc) : Prop :=
  match p with
  | SLock e | SLook e | SMissLock e | SMissInc e | SComp e => allowed (OpSimplify e)
  | SHitLock e r | SHitInc e r | SHitRet e r | SStore e r | SPut e r =>
      allowed (OpSimplify e) /\ r = simplify e
  | ELock e m | ELook e m | EMissLock e m | EMissInc e m | EComp e m => allowed (OpEvaluate e m)
  | EHitLock e m v | EHitInc e m v | EHitRet e m v | EStore e m v | EPut e m v =>
      allowed (OpEvaluate e m) /\ good e m v
  | _ => True
  end.
Definition ev_ok (ev : event) : Prop :=
  match ev_op ev with
  | OpSimplify e => ev_answer ev = AExpr (simplify e)
  | OpEvaluate e m =>
      match ev_answer ev with
      | ANum (Ok v) => good e m v
      | ANum (Err x) => evaluate m e = Err x /\ ev_cached ev = false
      | _ => False
      end
  | _ => True
  end.
Definition content (s : state) : Prop :=
  (forall k r, In (k, r) (simp s) -> exists e, allowed (OpSimplify e) /\ k = skey show e /\ r = simplify e) /\
  (forall k v, In (k, v) (evals s) ->
     exists e m, allowed (OpEvaluate e m) /\ k = mkey show dbg e m /\ good e m v) /\
  Forall pc_ok (threads s) /\ Forall ev_ok (log s).

Lemma content_move s t s' : content s -> step s (Move t) = Some s' -> content s'.
Proof.
  intros (A & B & C & D) H. apply step_move in H as (p & P & H).
  assert (OK : pc_ok p).
  { rewrite Forall_forall in C. apply C. eapply nth_error_In; eauto. }
  destruct p; cbn [CacheModel.step_pc] in H; open_step H; cbn [pc_ok] in OK;
    unfold content, goto, finish, with_simp, with_eval, with_stats;
    cbn [simp evals threads log];
    (split; [|split; [|split]]); auto;
    try (apply upd_Forall; cbn [pc_ok]; auto; tauto);
    try (constructor; auto; unfold ev_ok; cbn [ev_op ev_answer]; destruct OK; congruence || auto).
  - (* hit *) apply upd_Forall; auto. cbn. split; auto.
    apply get_In in Heqo. destruct (A _ _ Heqo) as (e' & A1 & A2 & ->). symmetry; apply key_s; auto.
  - intros k r0 I. apply in_insert in I as [I|I]; auto. injection I as -> ->.
    destruct OK as [O ->]. eauto.
  - apply upd_Forall; auto. cbn. split; auto.
    apply eget_In in Heqo. destruct (B _ _ Heqo) as (e' & m' & A1 & A2 & A3).
    apply (key_e e m e' m'); auto.
  - constructor; auto. unfold ev_ok; cbn. auto.
  - intros k v0 I. apply in_einsert in I as [I|I]; auto. injection I as -> ->.
    destruct OK as [O E]. eauto.
  - intros k r [].
  - intros k r [].
Qed.
Lemma content_call s t o s' : content s -> allowed o -> step s (Call t o) = Some s' -> content s'.
Proof.
  intros (A & B & C & D) AL H. apply step_call in H as [P ->].
  unfold content, goto; cbn [simp evals threads log].
  repeat split; auto. apply upd_Forall; auto. destruct o; cbn; auto.
Qed.
Lemma content_init n : content (init n).
Proof.
  unfold content, init; cbn. repeat split; auto; try (intros ? ? []).
  apply Forall_forall. intros p I. apply repeat_spec in I. subst. exact I.
Qed.
Lemma content_reach n s : reachable show dbg n allowed s -> content s.
Proof.
  intros (acts & R & AL).
  apply (run_inv allowed content content_call content_move acts (init n) s); auto.
  apply content_init.
Qed.
End Content.

(** ** Locks *)
Definition h_simp (p : pc) : bool :=
  match p with SLook _ | SHitLock _ _ | SHitInc _ _ | SHitRet _ _ | SPut _ _ | CSimpIn => true | _ => false end.
Definition h_eval (p : pc) : bool :=
  match p with ELook _ _ | EHitLock _ _ _ | EHitInc _ _ _ | EHitRet _ _ _ | EPut _ _ _ | CEvalIn => true | _ => false end.
Definition h_stats (p : pc) : bool :=
  match p with SHitInc _ _ | SMissInc _ | EHitInc _ _ _ | EMissInc _ _ | CStatsIn | GRead => true | _ => false end.

Definition owned (o : option nat) (h : pc -> bool) (l : list pc) : Prop :=
  forall t, o = Some t <-> exists p, nth_error l t = Some p /\ h p = true.
Lemma owned_keep o h l t p p' : owned o h l -> nth_error l t = Some p -> h p' = h p -> owned o h (upd l t p').
Proof.
  intros O P E u. rewrite (O u). destruct (Nat.eq_dec t u) as [<-|NE].
  - rewrite (upd_nth_eq _ _ _ _ P). split; intros (q & Q1 & Q2).
    + exists p'. split; auto. congruence.
    + injection Q1 as <-. exists p. split; auto. congruence.
  - rewrite upd_nth_neq by auto. reflexivity.
Qed.
Lemma owned_acquire h l t p p' : owned None h l -> nth_error l t = Some p -> h p' = true ->
  owned (Some t) h (upd l t p').
Proof.
  intros O P E u. destruct (Nat.eq_dec t u) as [<-|NE].
  - rewrite (upd_nth_eq _ _ _ _ P). split; eauto.
  - rewrite upd_nth_neq by auto. rewrite <- (O u). split; congruence.
Qed.
Lemma owned_release o h l t p p' : owned o h l -> nth_error l t = Some p -> h p = true -> h p' = false ->
  owned None h (upd l t p').
Proof.
  intros O P E F u. assert (OT : o = Some t) by (apply O; eauto).
  split; [discriminate|]. intros (q & Q1 & Q2). exfalso. destruct (Nat.eq_dec t u) as [<-|NE].
  - rewrite (upd_nth_eq _ _ _ _ P) in Q1. congruence.
  - rewrite upd_nth_neq in Q1 by auto. assert (o = Some u) by (apply O; eauto). congruence.
Qed.

Definition locks (s : state) : Prop :=
  owned (o_simp s) h_simp (threads s) /\ owned (o_eval s) h_eval (threads s) /\
  owned (o_stats s) h_stats (threads s).

Lemma locks_move s t s' : locks s -> step s (Move t) = Some s' -> locks s'.
Proof.
  intros (A & B & C) H. apply step_move in H as (p & P & H).
  destruct p; cbn [CacheModel.step_pc] in H; open_step H;
    unfold locks, goto, finish, with_simp, with_eval, with_stats;
    cbn [o_simp o_eval o_stats threads];
    repeat match goal with E : o_simp s = None |- _ => rewrite E in A; clear E
           | E : o_eval s = None |- _ => rewrite E in B; clear E
           | E : o_stats s = None |- _ => rewrite E in C; clear E end;
    (split; [|split]);
    first [ eapply owned_keep; eauto; reflexivity
          | eapply owned_acquire; eauto; reflexivity
          | eapply owned_release; eauto; reflexivity ].
Qed.
Lemma locks_call s t o s' : locks s -> step s (Call t o) = Some s' -> locks s'.
Proof.
  intros (A & B & C) H. apply step_call in H as [P ->]. unfold locks, goto; cbn [o_simp o_eval o_stats threads].
  destruct o; (split; [|split]); eapply owned_keep; eauto; reflexivity.
Qed.
Lemma locks_init n : locks (init n).
Proof.
  unfold locks, init; cbn. repeat split; try discriminate; intros (p & Q & H); exfalso;
    apply nth_error_In, repeat_spec in Q; subst; discriminate.
Qed.
Lemma locks_reach n allowed s : reachable show dbg n allowed s -> locks s.
Proof.
  intros (acts & R & AL).
  apply (run_inv allowed locks (fun s t o s' I _ => locks_call s t o s' I) locks_move acts (init n) s); auto.
  apply locks_init.
Qed.

Lemma progress s : locks s -> ~ quiescent s -> exists t s', step s (Move t) = Some s'.
Proof.
  intros (A & B & C) NQ.
  assert (MV : forall t p, nth_error (threads s) t = Some p -> step s (Move t) = step_pc s t p)
    by (intros t p E; cbn; rewrite E; reflexivity).
  assert (GO : forall t p, nth_error (threads s) t = Some p ->
    (exists s', step_pc s t p = Some s') -> exists t s', step s (Move t) = Some s').
  { intros t p P [s' E]. exists t, s'. rewrite (MV t p P). exact E. }
  destruct (o_stats s) as [t|] eqn:OS.
  { destruct (proj1 (C t) eq_refl) as (p & P & H). apply (GO t p P).
    destruct p; try discriminate H; cbn [CacheModel.step_pc]; eauto. }
  destruct (o_simp s) as [t|] eqn:OP.
  { destruct (proj1 (A t) eq_refl) as (p & P & H). apply (GO t p P).
    destruct p; try discriminate H; cbn [CacheModel.step_pc]; unfold lock_stats; rewrite ?OS; eauto.
    destruct (get (simp s) (skey show e)); eauto. }
  destruct (o_eval s) as [t|] eqn:OE.
  { destruct (proj1 (B t) eq_refl) as (p & P & H). apply (GO t p P).
    destruct p; try discriminate H; cbn [CacheModel.step_pc]; unfold lock_stats; rewrite ?OS; eauto.
    destruct (eget (evals s) (mkey show dbg e m)); eauto. }
  assert (NI : exists t p, nth_error (threads s) t = Some p /\ p <> Idle).
  { assert (G : forall l : list pc, ~ (forall p, In p l -> p = Idle) -> exists t p, nth_error l t = Some p /\ p <> Idle).
    { clear. induction l as [|q l IH]; intros H.
      - exfalso. apply H. intros p [].
      - assert (D : q = Idle \/ q <> Idle) by (destruct q; auto; right; discriminate).
        destruct D as [->|D]; [|exists 0, q; auto].
        destruct IH as (t & p & P & Q); [|exists (S t), p; auto].
        intros K. apply H. intros p [<-|I]; auto. }
    apply G, NQ. }
  destruct NI as (t & p & P & NI). apply (GO t p P).
  destruct p; cbn [CacheModel.step_pc]; unfold lock_simp, lock_eval, lock_stats; rewrite ?OS, ?OP, ?OE; eauto.
  - congruence.
  - destruct (get (simp s) (skey show e)); eauto.
  - destruct (eget (evals s) (mkey show dbg e m)); eauto.
  - destruct (evaluate m e); eauto.
Qed.

(** Mutual exclusion. *)
Lemma exclusive o h l : owned o h l -> forall t u p q, nth_error l t = Some p -> nth_error l u = Some q ->
  h p = true -> h q = true -> t = u.
Proof.
  intros O t u p q P Q A B.
  assert (o = Some t) by (apply O; eauto). assert (o = Some u) by (apply O; eauto). congruence.
Qed.

(** ** Termination *)
Definition rank (p : pc) : nat :=
  match p with
  | Idle => 0
  | SLock _ | ELock _ _ => 7 | SLook _ | ELook _ _ => 6
  | SHitLock _ _ | EHitLock _ _ _ => 3 | SHitInc _ _ | EHitInc _ _ _ => 2 | SHitRet _ _ | EHitRet _ _ _ => 1
  | SMissLock _ | EMissLock _ _ => 5 | SMissInc _ | EMissInc _ _ => 4 | SComp _ | EComp _ _ => 3
  | SStore _ _ | EStore _ _ _ => 2 | SPut _ _ | EPut _ _ _ => 1
  | CSimp => 6 | CSimpIn => 5 | CEval => 4 | CEvalIn => 3 | CStats => 2 | CStatsIn => 1
  | GLock => 2 | GRead => 1
  end.
Fixpoint total (l : list pc) : nat := match l with [] => 0 | p :: l' => rank p + total l' end.
Lemma total_upd l t p p' : nth_error l t = Some p -> total (upd l t p') + rank p = total l + rank p'.
Proof.
  revert t; induction l as [|q l IH]; intros [|t] H; cbn [upd nth_error total] in *; try discriminate.
  - injection H as ->. lia.
  - specialize (IH t H). lia.
Qed.
Lemma move_rank s t s' : step s (Move t) = Some s' -> total (threads s') < total (threads s).
Proof.
  intros H. apply step_move in H as (p & P & H).
  assert (G : forall p', rank p' < rank p -> total (upd (threads s) t p') < total (threads s)).
  { intros p' L. pose proof (total_upd (threads s) t p p' P). lia. }
  destruct p; cbn [CacheModel.step_pc] in H; open_step H;
    unfold goto, finish, with_simp, with_eval, with_stats; cbn [threads]; apply G; cbn; lia.
Qed.
Lemma moves_bounded ts : forall s s', run s (map (fun t => Move t) ts) = Some s' ->
  length ts + total (threads s') <= total (threads s).
Proof.
  induction ts as [|t ts IH]; cbn [map CacheModel.run]; intros s s' R.
  - injection R as <-. cbn; lia.
  - destruct (step s (Move t)) as [s1|] eqn:E; [|discriminate].
    apply move_rank in E. apply IH in R. cbn [length]. lia.
Qed.
Lemma total_le l : total l <= 7 * length l.
Proof. induction l as [|p l IH]; cbn [total length] in *; [lia|]. destruct p; cbn; lia. Qed.

Lemma locks_moves ts : forall s s', locks s -> run s (map (fun t => Move t) ts) = Some s' -> locks s'.
Proof.
  induction ts as [|t ts IH]; cbn [map CacheModel.run]; intros s s' L R.
  - injection R as <-; auto.
  - destruct (step s (Move t)) as [s1|] eqn:E; [|discriminate]. eapply IH; [eapply locks_move|]; eauto.
Qed.
Lemma quiescent_dec (s : state) : quiescent s \/ ~ quiescent s.
Proof.
  unfold quiescent. induction (threads s) as [|q l IH]; [left; intros p []|].
  assert (D : q = Idle \/ q <> Idle) by (destruct q; auto; right; discriminate).
  destruct D as [->|D]; [|right; intros H; apply D, H; left; auto].
  destruct IH as [IH|IH]; [left; intros p [<-|I]; auto|right; intros H; apply IH; intros p I; apply H; right; auto].
Qed.
Lemma finishes s : locks s -> exists ts s', run s (map (fun t => Move t) ts) = Some s' /\ quiescent s'.
Proof.
  remember (total (threads s)) as n eqn:E. revert s E.
  induction n as [n IH] using lt_wf_ind. intros s -> L.
  destruct (quiescent_dec s) as [Q|Q]; [exists [], s; split; auto|].
  destruct (progress s L Q) as (t & s1 & M).
  destruct (IH _ (move_rank _ _ _ M) s1 eq_refl (locks_move _ _ _ L M)) as (ts & s2 & R & Q2).
  exists (t :: ts), s2. split; auto. cbn [map CacheModel.run]. rewrite M. exact R.
Qed.

(** ** Statistics *)
Definition p_sh (p : pc) : bool := match p with SHitRet _ _ => true | _ => false end.
Definition p_sm (p : pc) : bool := match p with SComp _ | SStore _ _ | SPut _ _ => true | _ => false end.
Definition p_eh (p : pc) : bool := match p with EHitRet _ _ _ => true | _ => false end.
Definition p_em (p : pc) : bool := match p with EComp _ _ | EStore _ _ _ | EPut _ _ _ => true | _ => false end.
Definition l_sh (e : event) := is_simplify e && ev_cached e.
Definition l_sm (e : event) := is_simplify e && negb (ev_cached e).
Definition l_eh (e : event) := is_evaluate e && ev_cached e.
Definition l_em (e : event) := is_evaluate e && negb (ev_cached e).

Definition counted (s : state) : Prop :=
  s_hits (stats s) = count l_sh (since_clear (log s)) + count p_sh (threads s) /\
  s_misses (stats s) = count l_sm (since_clear (log s)) + count p_sm (threads s) /\
  e_hits (stats s) = count l_eh (since_clear (log s)) + count p_eh (threads s) /\
  e_misses (stats s) = count l_em (since_clear (log s)) + count p_em (threads s).

(** Nothing is pending when the statistics are reset. *)
Definition clean_reset (s : state) (t : nat) : Prop :=
  nth_error (threads s) t = Some CStatsIn ->
  count p_sh (threads s) = 0 /\ count p_sm (threads s) = 0 /\
  count p_eh (threads s) = 0 /\ count p_em (threads s) = 0.

Lemma counted_move s t s' : clean_reset s t -> counted s -> step s (Move t) = Some s' -> counted s'.
Proof.
  intros CR (A & B & C & D) H. apply step_move in H as (p & P & H).
  assert (G : forall p', 
     count p_sh (upd (threads s) t p') + b2n (p_sh p) = count p_sh (threads s) + b2n (p_sh p') /\
     count p_sm (upd (threads s) t p') + b2n (p_sm p) = count p_sm (threads s) + b2n (p_sm p') /\
     count p_eh (upd (threads s) t p') + b2n (p_eh p) = count p_eh (threads s) + b2n (p_eh p') /\
     count p_em (upd (threads s) t p') + b2n (p_em p) = count p_em (threads s) + b2n (p_em p')).
  { intros p'. repeat split; apply count_upd; auto. }
  destruct p; cbn [CacheModel.step_pc] in H; open_step H;
    unfold counted, goto, finish, with_simp, with_eval, with_stats;
    cbn [stats threads log since_clear is_clear ev_op];
    match goal with |- context [upd (threads s) t ?p'] => specialize (G p') end;
    destruct G as (G1 & G2 & G3 & G4);
    cbn [b2n p_sh p_sm p_eh p_em inc_s_hits inc_s_misses inc_e_hits inc_e_misses
         s_hits s_misses e_hits e_misses] in *;
    rewrite ?count_cons; unfold l_sh, l_sm, l_eh, l_em in *;
    cbn [is_simplify is_evaluate ev_op ev_cached andb negb b2n];
    try (repeat split; lia).
  destruct (CR P) as (Z1 & Z2 & Z3 & Z4). cbn [no_stats s_hits s_misses e_hits e_misses].
  unfold count at 1 3 5 7. cbn. repeat split; lia.
Qed.
Lemma counted_call s t o s' : counted s -> step s (Call t o) = Some s' -> counted s'.
Proof.
  intros (A & B & C & D) H. apply step_call in H as [P ->]. unfold counted, goto; cbn [stats threads log].
  pose proof (count_upd p_sh _ _ (entry o) _ P). pose proof (count_upd p_sm _ _ (entry o) _ P).
  pose proof (count_upd p_eh _ _ (entry o) _ P). pose proof (count_upd p_em _ _ (entry o) _ P).
  destruct o; cbn [b2n p_sh p_sm p_eh p_em entry] in *; repeat split; lia.
Qed.
Lemma count_repeat (f : pc -> bool) n : f Idle = false -> count f (repeat Idle n) = 0.
Proof. intros F. induction n as [|n IH]; cbn [repeat]; [reflexivity|]. rewrite count_cons, F, IH. reflexivity. Qed.
Lemma counted_init n : counted (init n).
Proof. unfold counted, init; cbn [stats threads log]. rewrite !count_repeat by reflexivity. repeat split. Qed.

Lemma count_quiet (f : pc -> bool) s : f Idle = false -> quiescent s -> count f (threads s) = 0.
Proof.
  unfold quiescent. intros F. induction (threads s) as [|p l IH]; intros Q; [reflexivity|].
  rewrite count_cons, IH by (intros q I; apply Q; right; auto).
  rewrite (Q p) by (left; auto). rewrite F. reflexivity.
Qed.
Lemma counted_quiet s : counted s -> quiescent s -> stats_of (since_clear (log s)) (stats s).
Proof.
  intros (A & B & C & D) Q.
  rewrite (count_quiet p_sh) in A by auto. rewrite (count_quiet p_sm) in B by auto.
  rewrite (count_quiet p_eh) in C by auto. rewrite (count_quiet p_em) in D by auto.
  unfold stats_of. fold l_sh l_sm l_eh l_em.
  repeat split; unfold l_sh, l_sm, l_eh, l_em in *; lia.
Qed.

(** No clear is ever running when none is called. *)
Definition not_clearing (p : pc) : bool :=
  match p with CSimp | CSimpIn | CEval | CEvalIn | CStats | CStatsIn => false | _ => true end.
Definition no_clears (s : state) : Prop :=
  Forall (fun p => not_clearing p = true) (threads s) /\ Forall (fun e => is_clear e = false) (log s).
Lemma no_clears_move s t s' : no_clears s -> step s (Move t) = Some s' -> no_clears s'.
Proof.
  intros (A & B) H. apply step_move in H as (p & P & H).
  assert (OK : not_clearing p = true).
  { rewrite Forall_forall in A. apply A. eapply nth_error_In; eauto. }
  destruct p; cbn [CacheModel.step_pc] in H; open_step H; try discriminate OK;
    unfold no_clears, goto, finish, with_simp, with_eval, with_stats; cbn [threads log];
    (split; [apply upd_Forall; auto|]); auto; constructor; auto.
Qed.
Lemma no_clears_call s t o s' : no_clears s -> no_clear o -> step s (Call t o) = Some s' -> no_clears s'.
Proof.
  intros (A & B) NC H. apply step_call in H as [P ->]. unfold no_clears, goto; cbn [threads log].
  split; auto. apply upd_Forall; auto. destruct o; auto; exfalso; apply NC; auto.
Qed.
Lemma since_clear_none (l : list event) : Forall (fun e => is_clear e = false) l -> since_clear l = l.
Proof. induction 1 as [|e l E F IH]; cbn; auto. rewrite E, IH. reflexivity. Qed.

Lemma counted_no_clear n (allowed : op -> Prop) s : (forall o, allowed o -> no_clear o) ->
  reachable show dbg n allowed s -> counted s /\ no_clears s.
Proof.
  intros NC (acts & R & AL).
  apply (run_inv allowed (fun s => counted s /\ no_clears s)) with (acts := acts) (s := init n); auto.
  - intros s0 t o s' [I1 I2] A H. split; [eapply counted_call|eapply no_clears_call]; eauto.
  - intros s0 t s' [I1 I2] H. split; [|eapply no_clears_move; eauto].
    eapply counted_move; eauto. intros P. exfalso. destruct I2 as [I2 _]. rewrite Forall_forall in I2.
    apply nth_error_In in P. specialize (I2 _ P). discriminate.
  - split; [apply counted_init|]. unfold no_clears, init; cbn. split; auto.
    apply Forall_forall. intros p I. apply repeat_spec in I. subst; auto.
Qed.
Lemma counted_one (allowed : op -> Prop) s : reachable show dbg 1 allowed s -> counted s.
Proof.
  intros (acts & R & AL).
  assert (TH : forall s t s', length (threads s) = 1 -> step s (Move t) = Some s' -> length (threads s') = 1).
  { intros s0 t s' L H. apply step_move in H as (p & P & H).
    destruct p; cbn [CacheModel.step_pc] in H; open_step H;
      unfold goto, finish, with_simp, with_eval, with_stats; cbn [threads]; rewrite upd_length; auto. }
  apply (run_inv allowed (fun s => counted s /\ length (threads s) = 1)) with (acts := acts) (s := init 1) (s' := s); auto.
  - intros s0 t o s' [I1 I2] A H. split; [eapply counted_call; eauto|].
    apply step_call in H as [_ ->]. cbn. rewrite upd_length; auto.
  - intros s0 t s' [I1 I2] H. split; [|eapply TH; eauto].
    eapply counted_move; eauto. intros P. destruct (threads s0) as [|p [|q l]]; try discriminate I2.
    destruct t as [|[|t]]; try discriminate P. injection P as ->. repeat split.
  - split; [apply counted_init|reflexivity].
Qed.

(** Counters only grow, except in the last step of a clear. *)
Lemma monotone s a s' : step s a = Some s' ->
  stats_le (stats s) (stats s') \/
  (exists t, a = Move t /\ nth_error (threads s) t = Some CStatsIn /\ stats s' = no_stats).
Proof.
  intros H. destruct a as [t o|t].
  - apply step_call in H as [_ ->]. left. unfold stats_le; cbn. lia.
  - apply step_move in H as (p & P & H).
    destruct p; cbn [CacheModel.step_pc] in H; open_step H;
      unfold goto, finish, with_simp, with_eval, with_stats, stats_le; cbn [stats];
      try (left; cbn; lia). right. eauto.
Qed.
(** A call to [get_cache_stats] reports the statistics of a state it passed through. *)
End P.

(** Hit rates. *)
Lemma hit_rate_bounds lg h m : exists r, (hit_rate h m : XR lg) = Fin r /\ (0 <= r <= 1)%R /\
  (h + m = 0 -> r = 0%R) /\ (h + m <> 0 -> r = (INR h / INR (h + m))%R).
Proof.
  unfold hit_rate. destruct (h + m) as [|k] eqn:E.
  - exists 0%R. split; [apply x_n0|]. split; [lra|split; [reflexivity|lia]].
  - exists (INR h / INR (S k))%R.
    assert (P : (0 < INR (S k))%R) by (apply lt_0_INR; lia).
    split; [|split; [|split; [lia|auto]]].
    + rewrite !x_nofn. change (xdiv (Fin (INR h)) (Fin (INR (S k))) = Fin (INR h / INR (S k))).
      apply xdiv_fin. lra.
    + assert (L : (INR h <= INR (S k))%R) by (apply le_INR; lia). pose proof (pos_INR h).
      split.
      * apply Rmult_le_pos; auto. left; apply Rinv_0_lt_compat; auto.
      * apply (Rmult_le_reg_r (INR (S k))); auto. unfold Rdiv. rewrite Rmult_assoc, Rinv_l by lra. lra.
Qed.
