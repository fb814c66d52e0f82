(** All the rules together, on expressions whose powers and roots are of
    positive numbers. *)
From Coq Require Import ZArith Reals Bool String List Lra Lia.
From Verif Require Import Num XRFacts ExprModel ExprSpec ExprEval2 JitModel EggModel EggSpec EggProofs.
Import ListNotations.
Local Open Scope R_scope.

Section Positive.
Context {lg : R -> R}.
Variable vars : env (XR lg).
Notation pos := (positive_powers vars).

Definition keeps (rule : pat * pat) : Prop := forall s k v,
  pos (pinst s k (fst rule)) -> denotes vars (pinst s k (fst rule)) v ->
  denotes vars (pinst s k (snd rule)) v /\ pos (pinst s k (snd rule)).

Ltac unpat := cbn [fst snd pinst cinst x_ y_ a_ b_ c_ d_ n_ ka kb kc c0_ c1_ c2_ ch_ positive_powers] in *.

Lemma keeps_sound rule : sound lg rule ->
  (forall s k v, pos (pinst s k (fst rule)) -> denotes vars (pinst s k (fst rule)) v -> pos (pinst s k (snd rule))) ->
  keeps rule.
Proof. intros S' H s k v P D. split; [apply S'; exact D|exact (H s k v P D)]. Qed.

Lemma keeps_pow_pow : keeps pow_pow_rule.
Proof.
  intros s k v P D. unfold pow_pow_rule in *. unpat. destruct P as ((P1 & P2 & (x & Dx & X)) & P3 & _).
  destruct (pow_inv _ _ _ _ D) as (y & b & Dy & Db & Hy). destruct (pow_inv _ _ _ _ Dy) as (x' & a & Dx' & Da & Hx).
  rewrite (denotes_fun _ _ _ _ _ Dx' Dx) in Hx. clear x' Dx'.
  assert (E : y = Rpower x a) by (inversion Hx; subst; try lra; reflexivity). subst y.
  assert (G : 0 < Rpower x a) by apply exp_pos.
  assert (E : v = Rpower (Rpower x a) b) by (inversion Hy as [| | |]; subst; try lra; reflexivity). subst v.
  split; [|repeat split; try assumption; exists x; split; assumption].
  rewrite Rpower_mult. eapply pow_intro; [eassumption|eapply d_mul; eassumption|apply rp_pos; assumption].
Qed.

Lemma keeps_ln_pow : keeps ln_pow_rule.
Proof.
  intros s k v P D. unfold ln_pow_rule in *. unpat. destruct P as (P1 & P2 & (x & Dx & X)).
  inversion D as [| | | | | | | | | |? y Dy Y| | | | |]; subst.
  destruct (pow_inv _ _ _ _ Dy) as (x' & a & Dx' & Da & Hx).
  rewrite (denotes_fun _ _ _ _ _ Dx' Dx) in Hx. clear x' Dx'.
  assert (E : y = Rpower x a) by (inversion Hx; subst; try lra; reflexivity). subst y.
  split; [|repeat split; assumption].
  eapply d_eq; [eapply d_mul; [eassumption|eapply d_ln; eassumption]|].
  unfold Rpower. symmetry. apply ln_exp.
Qed.

Lemma rules_keep : Forall keeps rules.
Proof.
  assert (A : Forall (fun r => r <> pow_pow_rule -> r <> ln_pow_rule -> forall s k v,
             pos (pinst s k (fst r)) -> denotes vars (pinst s k (fst r)) v -> pos (pinst s k (snd r))) rules).
  { unfold rules, pow_pow_rule, ln_pow_rule.
    repeat (apply Forall_cons; [intros NP NL s k v P D; try congruence; clear NP NL; unpat; try tauto|]).
    all: try apply Forall_nil.
    - (* c ln x *) dinv. repeat split; try tauto. eexists; split; eassumption.
    - dinv. repeat split; try tauto. eexists; split; eassumption. }
  rewrite Forall_forall in A. apply Forall_forall. intros r I.
  assert (DEC : {r = pow_pow_rule} + {r = ln_pow_rule} + {r <> pow_pow_rule /\ r <> ln_pow_rule}).
  { assert (E : forall a b : pat * pat, {a = b} + {a <> b}) by (repeat decide equality).
    destruct (E r pow_pow_rule); [auto|]. destruct (E r ln_pow_rule); auto. }
  destruct DEC as [[->| ->]|[N1 N2]]; [apply keeps_pow_pow|apply keeps_ln_pow|].
  apply keeps_sound; [|apply A; assumption].
  pose proof (rules_sound lg) as S'. rewrite Forall_forall in S'. apply S'; assumption.
Qed.

Lemma subexprs_pos (e : expr (XR lg)) : pos e -> forall t, In t (subexprs e) -> pos t.
Proof.
  induction e; intros P t I; cbn [subexprs] in I; destruct I as [<-|I]; try exact P; try contradiction;
    try (apply in_app_or in I; destruct I as [I|I]); cbn [positive_powers] in P; intuition.
Qed.

Lemma child_pos (e a e' b : expr (XR lg)) w : child e a e' b -> pos e -> denotes vars a w -> denotes vars b w ->
  pos b -> pos e'.
Proof.
  intros C P A B Q. destruct C; cbn [positive_powers] in *; try tauto.
  - destruct P as (P1 & P2 & (v & D & L)). repeat split; try assumption. exists v. split; [|exact L].
    rewrite (denotes_fun _ _ _ _ _ D A). exact B.
  - destruct P as (P1 & (v & D & L)). repeat split; try assumption. exists v. split; [|exact L].
    rewrite (denotes_fun _ _ _ _ _ D A). exact B.
Qed.

Lemma saturation_positive roots : (forall r, In r roots -> pos r /\ exists v, denotes vars r v) ->
  (forall i t, present rules roots i t -> pos t /\ exists v, denotes vars t v) /\
  (forall i t u, equated rules roots i t u -> pos t /\ pos u /\ exists v, denotes vars t v /\ denotes vars u v).
Proof.
  intros DR. pose proof rules_keep as RK. rewrite Forall_forall in RK.
  apply (egraph_ind (XR lg) rules roots (fun _ t => pos t /\ exists v, denotes vars t v)
           (fun _ t u => pos t /\ pos u /\ exists v, denotes vars t v /\ denotes vars u v)).
  - intros i r t I T. destruct (DR r I) as (P & v & D). split; [eapply subexprs_pos; eassumption|eapply subexprs_denote; eassumption].
  - auto.
  - intros i l r s k t I _ (P & v & D) T. destruct (RK (l, r) I s k v P D) as [D' P'].
    split; [eapply subexprs_pos; eassumption|eapply subexprs_denote; eassumption].
  - intros i e a e' b _ (P & v & D) C _ (Pa & Pb & w & A & B).
    split; [eapply child_pos; eassumption|exists v; eapply child_denotes; eassumption].
  - intros i t _ (P & v & D). repeat split; try assumption. exists v. auto.
  - intros i t u _ (P & Q & v & A & B). repeat split; try assumption. exists v. auto.
  - intros i t u w _ (P & Q & v & A & B) _ (P' & Q' & v' & C & D). repeat split; try assumption. exists v. split; [exact A|].
    rewrite <- (denotes_fun _ _ _ _ _ C B). exact D.
  - auto.
  - intros i l r s k I _ (P & v & D). destruct (RK (l, r) I s k v P D) as [D' P']. repeat split; try assumption. exists v. auto.
  - intros i e a e' b _ (P & v & D) C _ (Pa & Pb & w & A & B). repeat split; [exact P|eapply child_pos; eassumption|].
    exists v. split; [exact D|]. eapply child_denotes; eassumption.
Qed.
End Positive.
