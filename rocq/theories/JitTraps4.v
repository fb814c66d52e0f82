(** The facts of JitTraps.v about calls of compiled expressions (C71). *)
From Coq Require Import ZArith Reals Bool List Lia Lra String.
From Coq Require Import Floats.SpecFloat.
From Flocq Require Import Core IEEE754.BinarySingleNaN.
From Verif Require Import Num ConvModel FloatFacts ConvProofs ExprModel ExprSpec JitModel JitSpec JitProofs EggSpec LitFacts FloatErr JitBits JitAcc JitAcc2 TrapSpec JitTraps JitTraps2 JitTraps3.
Import ListNotations.
Local Open Scope R_scope.

Section Calls.
Context (ds ps : list string) (cs : env f64) (args : list f64) (LEN : List.length args = (List.length ds + List.length ps)%nat).
Let rho := total (expression_binding ds ps cs args).
Let out e := gives ds ps cs args e.

Lemma gives_value e o : out e o -> o = evaluates rho e.
Proof.
  intros (f & F & <-). destruct (expression_code e ds ps cs f F) as [[_ C] _]. apply C, LEN.
Qed.
Definition closed (e : expr f64) : Prop := forall x, occurs x e -> In x (ds ++ ps) \/ In x (map fst cs).
Lemma gives_closed e o : out e o -> closed e.
Proof. intros (f & F & _). exact (proj1 (expression_ok e ds ps cs) (ex_intro _ f F)). Qed.
Lemma closed_gives e : closed e -> out e (evaluates rho e).
Proof.
  intros C. destruct (proj2 (expression_ok e ds ps cs) C) as [f F]. exists f. split; [exact F|].
  destruct (expression_code e ds ps cs f F) as [[_ D] _]. apply D, LEN.
Qed.
Lemma closed_iff e o : closed e -> (out e o <-> evaluates rho e = o).
Proof.
  intros C. split; intros H; [symmetry; apply gives_value, H|]. rewrite <- H. apply closed_gives, C.
Qed.
Lemma returned e v : evaluates rho e = Returned v <-> jit_value rho e = Some v.
Proof. unfold evaluates. destruct (jit_value rho e); split; intros H; congruence. Qed.
Lemma trapped e : evaluates rho e = Trapped <-> jit_value rho e = None.
Proof. unfold evaluates. destruct (jit_value rho e); split; intros H; congruence. Qed.
Lemma gives_returned e v : out e (Returned v) -> jit_value rho e = Some v.
Proof. intros H. apply returned. symmetry. apply gives_value, H. Qed.
Lemma part_occurs x (a e : expr f64) : part_of a e -> occurs x a -> occurs x e.
Proof. intros P O. induction P; [exact O|..]; solve [constructor 1; assumption | constructor 2; assumption | constructor; assumption | apply o_add_r; assumption | apply o_sub_r; assumption | apply o_mul_r; assumption | apply o_div_r; assumption | apply o_pow_r; assumption]. Qed.
Lemma part_closed a e : part_of a e -> closed e -> closed a.
Proof. intros P C x O. apply C, (part_occurs x a e P O). Qed.

(** An operator applied to an operand. *)
Lemma un_closed (op : expr f64 -> expr f64) e v : (forall x, occurs x (op e) -> occurs x e) -> out e (Returned v) -> closed (op e).
Proof. intros O H x X. apply (gives_closed _ _ H), O, X. Qed.
Ltac un_occ := intros ? O; inversion O; subst; assumption.

Theorem call_traps e o : out e o ->
  (o = Trapped <->
   (exists a v, part_of (Exp a) e /\ out a (Returned v) /\ out (Exp a) Trapped) \/
   (exists b p x y, part_of (Pow b p) e /\ expanded p = false /\ out b (Returned x) /\ out p (Returned y) /\ out (Pow b p) Trapped)).
Proof.
  intros H. pose proof (gives_closed _ _ H) as C. rewrite (gives_value _ _ H), trapped, traps_iff. unfold trapping_step. split.
  - intros [(a & v & P & V & T)|(b & p & x & y & P & S & X & Y & T)].
    + left. exists a, v. pose proof (part_closed _ _ P C) as CE.
      assert (CA : closed a) by (intros z Z; apply CE; constructor; exact Z).
      split; [exact P|]. split; [apply closed_iff; [exact CA|apply returned, V]|].
      apply closed_iff; [exact CE|]. apply trapped. cbn [jit_value]. rewrite V. exact T.
    + right. exists b, p, x, y. pose proof (part_closed _ _ P C) as CE.
      assert (CB : closed b) by (intros z Z; apply CE; apply o_pow_l; exact Z).
      assert (CP : closed p) by (intros z Z; apply CE; apply o_pow_r; exact Z).
      split; [exact P|]. split; [exact S|]. split; [apply closed_iff; [exact CB|apply returned, X]|].
      split; [apply closed_iff; [exact CP|apply returned, Y]|].
      apply closed_iff; [exact CE|]. apply trapped. rewrite (pow_other rho b p x y S X Y). exact T.
  - intros [(a & v & P & V & T)|(b & p & x & y & P & S & X & Y & T)].
    + left. exists a, v. apply gives_returned in V. split; [exact P|]. split; [exact V|].
      apply gives_value in T. symmetry in T. apply trapped in T. cbn [jit_value] in T. rewrite V in T. exact T.
    + right. exists b, p, x, y. apply gives_returned in X, Y. split; [exact P|]. split; [exact S|]. split; [exact X|]. split; [exact Y|].
      apply gives_value in T. symmetry in T. apply trapped in T. rewrite (pow_other rho b p x y S X Y) in T. exact T.
Qed.
Theorem call_plain e o : no_exponential e -> out e o -> exists v, o = Returned v.
Proof.
  intros N H. rewrite (gives_value _ _ H). destruct (no_exponential_returns rho e N) as [v V]. exists v. apply returned, V.
Qed.

Lemma exp_out e v : out e (Returned v) -> forall o, out (Exp e) o <-> o = match jit_exp v with Some w => Returned w | None => Trapped end.
Proof.
  intros H o. assert (C : closed (Exp e)) by (refine (un_closed Exp e v _ H); un_occ).
  rewrite (closed_iff _ o C). unfold evaluates. cbn [jit_value]. rewrite (gives_returned _ _ H). cbn [obnd].
  destruct (jit_exp v); split; intros Q; congruence.
Qed.
Lemma ln_out e v : out e (Returned v) -> forall o, out (Ln e) o <-> o = Returned (jit_ln v).
Proof.
  intros H o. assert (C : closed (Ln e)) by (refine (un_closed Ln e v _ H); un_occ).
  rewrite (closed_iff _ o C). unfold evaluates. cbn [jit_value]. rewrite (gives_returned _ _ H). cbn [obnd].
  split; intros Q; congruence.
Qed.
Lemma sin_out e v : out e (Returned v) -> forall o, out (Sin e) o <-> o = Returned (jit_sin v).
Proof.
  intros H o. assert (C : closed (Sin e)) by (refine (un_closed Sin e v _ H); un_occ).
  rewrite (closed_iff _ o C). unfold evaluates. cbn [jit_value]. rewrite (gives_returned _ _ H). cbn [obnd].
  split; intros Q; congruence.
Qed.
Lemma cos_out e v : out e (Returned v) -> forall o, out (Cos e) o <-> o = Returned (jit_cos v).
Proof.
  intros H o. assert (C : closed (Cos e)) by (refine (un_closed Cos e v _ H); un_occ).
  rewrite (closed_iff _ o C). unfold evaluates. cbn [jit_value]. rewrite (gives_returned _ _ H). cbn [obnd].
  split; intros Q; congruence.
Qed.
Lemma pow_closed b p x y : out b (Returned x) -> out p (Returned y) -> closed (Pow b p).
Proof.
  intros B P z Z. inversion Z; subst; [apply (gives_closed _ _ B)|apply (gives_closed _ _ P)]; assumption.
Qed.
Lemma pow_out b p x y : out b (Returned x) -> out p (Returned y) -> expanded p = false ->
  forall o, out (Pow b p) o <-> o = match jit_powf x y with Some w => Returned w | None => Trapped end.
Proof.
  intros B P S o. rewrite (closed_iff _ o (pow_closed b p x y B P)). unfold evaluates.
  rewrite (pow_other rho b p x y S (gives_returned _ _ B) (gives_returned _ _ P)).
  destruct (jit_powf x y); split; intros Q; congruence.
Qed.
Lemma pow_expanded b p x y : out b (Returned x) -> out p (Returned y) -> expanded p = true ->
  exists w, out (Pow b p) (Returned w).
Proof.
  intros B P S. pose proof (closed_gives _ (pow_closed b p x y B P)) as G. destruct p as [c| | | | | | | | | | | | ]; try discriminate S.
  unfold evaluates in G. destruct (jit_value rho (Pow b (Const c))) as [w|] eqn:V; [exists w; exact G|].
  destruct (pow_special rho b c x S (gives_returned _ _ B) V).
Qed.
Lemma expanded_num p y : out p (Returned y) -> expanded p = true -> SpecFloat.valid_binary 53 1024 y = true -> is_num y.
Proof.
  intros P S V. destruct p as [c| | | | | | | | | | | | ]; try discriminate S.
  apply gives_returned in P. cbn [jit_value] in P. injection P as <-. cbn [expanded] in S. split; [exact V|].
  destruct c as [s|s| |s m e]; try reflexivity; exfalso.
  - destruct s; vm_compute in S; discriminate S.
  - vm_compute in S. discriminate S.
Qed.

Theorem call_exp_traps e v : SpecFloat.valid_binary 53 1024 v = true -> out e (Returned v) ->
  (out (Exp e) Trapped <-> ~ is_num v \/ trap_above <= val v \/ val v <= trap_below).
Proof.
  intros W H. rewrite (exp_out e v H). destruct v as [s|s| |s m x].
  2,3: rewrite (exp_traps_inf _ W) by (intros [_ F]; discriminate F); split; [intros _; left; intros [_ F]; discriminate F|reflexivity].
  all: match goal with |- context [jit_exp ?v] => assert (N : is_num v) by (split; [exact W|reflexivity]); pose proof (exp_traps v N) as T end;
    match goal with |- context [jit_exp ?v] => destruct (jit_exp v) as [w|] end;
    (split; intros Q; [discriminate Q || (right; apply T; reflexivity)|]);
    try reflexivity; exfalso; destruct Q as [Q|Q]; [apply Q, N|apply T in Q; discriminate Q].
Qed.
End Calls.
