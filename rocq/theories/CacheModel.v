(** Model of the global caches of symbolic-math/src/expr.rs (17-77, 554-612) as
    a machine with any number of threads.  Every lock operation and every
    critical section is one step; any interleaving of steps is possible.
    Definitions only.

    [Mutex] poisoning is not modelled: no code panics while holding one of the
    three locks (only map and counter operations run under them).  Counters are
    unbounded. *)
From Coq Require Import ZArith Bool String List Arith.
From Verif Require Import Num ExprModel ShowModel.
Import ListNotations.

(** expr.rs 26-37 [struct CacheStats]. *)
Record cache_stats := mkStats { s_hits : nat; s_misses : nat; e_hits : nat; e_misses : nat }.
Definition no_stats : cache_stats := mkStats 0 0 0 0.

(** expr.rs 39-60 [simplification_hit_rate], [evaluation_hit_rate]. *)
Definition hit_rate {N : Num} (hits misses : nat) : N :=
  match hits + misses with O => n0 | total => ndiv (nofn hits) (nofn total) end.
Definition simplification_hit_rate {N : Num} (s : cache_stats) : N := hit_rate (s_hits s) (s_misses s).
Definition evaluation_hit_rate {N : Num} (s : cache_stats) : N := hit_rate (e_hits s) (e_misses s).

Section Cache.
Context {N : Num}.
(** [Display] and [Debug] of f64. *)
Variable show dbg : N -> string.
Notation expr := (expr N).
Notation env := (env N).

(** The four entry points. *)
Inductive op := OpSimplify (e : expr) | OpEvaluate (e : expr) (m : env) | OpClear | OpStats.
Inductive answer := AExpr (e : expr) | ANum (r : res N N) | AUnit | AStats (s : cache_stats).
(** A finished call: thread, call, answer, and whether the answer came from the cache. *)
Record event := mkEvent { ev_thread : nat; ev_op : op; ev_answer : answer; ev_cached : bool }.

(** Where a thread stands.  "Holds" refers to the lock guards alive there. *)
Inductive pc :=
| Idle
(* simplify_cached, expr.rs 556-582 *)
| SLock (e : expr)                 (* 560: about to lock the simplification cache *)
| SLook (e : expr)                 (* 561: holds simp, about to look up *)
| SHitLock (e r : expr)            (* 563: holds simp, about to lock the statistics *)
| SHitInc (e r : expr)             (* 564: holds simp and stats *)
| SHitRet (e r : expr)             (* 566: holds simp, about to return *)
| SMissLock (e : expr)             (* 570 *)
| SMissInc (e : expr)              (* 571: holds stats *)
| SComp (e : expr)                 (* 574: no lock held *)
| SStore (e r : expr)              (* 577 *)
| SPut (e r : expr)                (* 578: holds simp *)
(* evaluate_cached, expr.rs 585-612 *)
| ELock (e : expr) (m : env)
| ELook (e : expr) (m : env)
| EHitLock (e : expr) (m : env) (v : N)
| EHitInc (e : expr) (m : env) (v : N)
| EHitRet (e : expr) (m : env) (v : N)
| EMissLock (e : expr) (m : env)
| EMissInc (e : expr) (m : env)
| EComp (e : expr) (m : env)
| EStore (e : expr) (m : env) (v : N)
| EPut (e : expr) (m : env) (v : N)
(* clear_caches, expr.rs 72-76: three lock sections *)
| CSimp | CSimpIn | CEval | CEvalIn | CStats | CStatsIn
(* get_cache_stats, expr.rs 67-69 *)
| GLock | GRead.

Definition ekey := (string * string)%type.
Definition ekey_eqb (a b : ekey) : bool := String.eqb (fst a) (fst b) && String.eqb (snd a) (snd b).
(** [HashMap<(String, String), f64>] *)
Fixpoint eget (m : list (ekey * N)) (k : ekey) : option N :=
  match m with
  | [] => None
  | (k', v) :: m' => if ekey_eqb k k' then Some v else eget m' k
  end.
Fixpoint einsert (m : list (ekey * N)) (k : ekey) (v : N) : list (ekey * N) :=
  match m with
  | [] => [(k, v)]
  | (k', v') :: m' => if ekey_eqb k k' then (k', v) :: m' else (k', v') :: einsert m' k v
  end.

(** The three mutexes (owner, contents), the threads, and the finished calls,
    latest first. *)
Record state := mkState {
  o_simp : option nat; simp : ExprModel.env expr;
  o_eval : option nat; evals : list (ekey * N);
  o_stats : option nat; stats : cache_stats;
  threads : list pc; log : list event }.

Definition init (n : nat) : state :=
  mkState None [] None [] None no_stats (repeat Idle n) [].

Fixpoint upd {A} (l : list A) (i : nat) (x : A) : list A :=
  match l, i with
  | [], _ => []
  | _ :: l', O => x :: l'
  | y :: l', S i' => y :: upd l' i' x
  end.

Definition goto (s : state) (t : nat) (p : pc) : state :=
  mkState (o_simp s) (simp s) (o_eval s) (evals s) (o_stats s) (stats s) (upd (threads s) t p) (log s).
Definition with_simp (s : state) (o : option nat) (m : ExprModel.env expr) : state :=
  mkState o m (o_eval s) (evals s) (o_stats s) (stats s) (threads s) (log s).
Definition with_eval (s : state) (o : option nat) (m : list (ekey * N)) : state :=
  mkState (o_simp s) (simp s) o m (o_stats s) (stats s) (threads s) (log s).
Definition with_stats (s : state) (o : option nat) (c : cache_stats) : state :=
  mkState (o_simp s) (simp s) (o_eval s) (evals s) o c (threads s) (log s).
Definition finish (s : state) (t : nat) (o : op) (a : answer) (cached : bool) : state :=
  mkState (o_simp s) (simp s) (o_eval s) (evals s) (o_stats s) (stats s)
          (upd (threads s) t Idle) (mkEvent t o a cached :: log s).

(** Lock a mutex: possible only when it has no owner. *)
Definition lock_simp (s : state) (t : nat) (p : pc) : option state :=
  match o_simp s with None => Some (goto (with_simp s (Some t) (simp s)) t p) | Some _ => None end.
Definition lock_eval (s : state) (t : nat) (p : pc) : option state :=
  match o_eval s with None => Some (goto (with_eval s (Some t) (evals s)) t p) | Some _ => None end.
Definition lock_stats (s : state) (t : nat) (p : pc) : option state :=
  match o_stats s with None => Some (goto (with_stats s (Some t) (stats s)) t p) | Some _ => None end.

Definition inc_s_hits (c : cache_stats) := mkStats (S (s_hits c)) (s_misses c) (e_hits c) (e_misses c).
Definition inc_s_misses (c : cache_stats) := mkStats (s_hits c) (S (s_misses c)) (e_hits c) (e_misses c).
Definition inc_e_hits (c : cache_stats) := mkStats (s_hits c) (s_misses c) (S (e_hits c)) (e_misses c).
Definition inc_e_misses (c : cache_stats) := mkStats (s_hits c) (s_misses c) (e_hits c) (S (e_misses c)).

(** expr.rs 557, 586-588: the cache keys. *)
Definition skey (e : expr) : string := display show e.
Definition mkey (e : expr) (m : env) : ekey := (display show e, debug_env dbg m).

(** The next step of thread [t] at [p]; [None] when it must wait (or is idle). *)
Definition step_pc (s : state) (t : nat) (p : pc) : option state :=
  match p with
  | Idle => None
  | SLock e => lock_simp s t (SLook e)
  | SLook e => match get (simp s) (skey e) with
               | Some r => Some (goto s t (SHitLock e r))
               | None => Some (goto (with_simp s None (simp s)) t (SMissLock e))
               end
  | SHitLock e r => lock_stats s t (SHitInc e r)
  | SHitInc e r => Some (goto (with_stats s None (inc_s_hits (stats s))) t (SHitRet e r))
  | SHitRet e r => Some (finish (with_simp s None (simp s)) t (OpSimplify e) (AExpr r) true)
  | SMissLock e => lock_stats s t (SMissInc e)
  | SMissInc e => Some (goto (with_stats s None (inc_s_misses (stats s))) t (SComp e))
  | SComp e => Some (goto s t (SStore e (simplify e)))
  | SStore e r => lock_simp s t (SPut e r)
  | SPut e r => Some (finish (with_simp s None (insert (simp s) (skey e) r)) t (OpSimplify e) (AExpr r) false)
  | ELock e m => lock_eval s t (ELook e m)
  | ELook e m => match eget (evals s) (mkey e m) with
                 | Some v => Some (goto s t (EHitLock e m v))
                 | None => Some (goto (with_eval s None (evals s)) t (EMissLock e m))
                 end
  | EHitLock e m v => lock_stats s t (EHitInc e m v)
  | EHitInc e m v => Some (goto (with_stats s None (inc_e_hits (stats s))) t (EHitRet e m v))
  | EHitRet e m v => Some (finish (with_eval s None (evals s)) t (OpEvaluate e m) (ANum (Ok v)) true)
  | EMissLock e m => lock_stats s t (EMissInc e m)
  | EMissInc e m => Some (goto (with_stats s None (inc_e_misses (stats s))) t (EComp e m))
  | EComp e m => match evaluate m e with
                 | Ok v => Some (goto s t (EStore e m v))
                 | Err x => Some (finish s t (OpEvaluate e m) (ANum (Err x)) false)
                 end
  | EStore e m v => lock_eval s t (EPut e m v)
  | EPut e m v => Some (finish (with_eval s None (einsert (evals s) (mkey e m) v)) t
                          (OpEvaluate e m) (ANum (Ok v)) false)
  | CSimp => lock_simp s t CSimpIn
  | CSimpIn => Some (goto (with_simp s None []) t CEval)
  | CEval => lock_eval s t CEvalIn
  | CEvalIn => Some (goto (with_eval s None []) t CStats)
  | CStats => lock_stats s t CStatsIn
  | CStatsIn => Some (finish (with_stats s None no_stats) t OpClear AUnit false)
  | GLock => lock_stats s t GRead
  | GRead => Some (finish (with_stats s None (stats s)) t OpStats (AStats (stats s)) false)
  end.

(** Entering a call. *)
Definition entry (o : op) : pc :=
  match o with
  | OpSimplify e => SLock e
  | OpEvaluate e m => ELock e m
  | OpClear => CSimp
  | OpStats => GLock
  end.

(** The scheduler's choices: an idle thread calls something, or a thread moves. *)
Inductive action := Call (t : nat) (o : op) | Move (t : nat).
Definition step (s : state) (a : action) : option state :=
  match a with
  | Call t o => match nth_error (threads s) t with
                | Some Idle => Some (goto s t (entry o))
                | _ => None
                end
  | Move t => match nth_error (threads s) t with
              | Some p => step_pc s t p
              | None => None
              end
  end.
Fixpoint run (s : state) (acts : list action) : option state :=
  match acts with
  | [] => Some s
  | a :: acts' => match step s a with Some s' => run s' acts' | None => None end
  end.
End Cache.
Arguments OpClear {N}. Arguments OpStats {N}. Arguments AUnit {N}. Arguments AStats {N}.
Arguments Move {N} _.
