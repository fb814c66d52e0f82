(** Soundness of the rewrite rules and of equality saturation with them. *)
From Coq Require Import ZArith Reals Bool String List Lra Lia.
From Coq Require Import Floats.SpecFloat.
From Verif Require Import Num XRFacts ExprModel ExprSpec ExprEval2 JitModel EggModel EggSpec.
Import ListNotations.
Local Open Scope R_scope.

Section Rules.
Context {lg : R -> R}.
Notation X := (XR lg).
Notation expr := (ExprModel.expr (XR lg)).
Variable vars : env X.

(** Powers of reals, by the sign of the base. *)
Inductive rpow : R -> R -> R -> Prop :=
| rp_pos a b : 0 < a -> rpow a b (Rpower a b)
| rp_zero b : 0 < b -> rpow 0 b 0
| rp_zero_zero : rpow 0 0 1
| rp_neg a z : a < 0 -> rpow a (IZR z) (powerRZ a z).

Lemma pow_inv (l r : expr) v : denotes vars (Pow l r) v ->
  exists a b, denotes vars l a /\ denotes vars r b /\ rpow a b v.
Proof.
  intros H. inversion H as [| | | | | |? ? a Da Db|? ? a b Da Db P|? ? b Da Db P|? ? a z Da Db P| | | | | |]; subst.
  - exists a, 0. repeat split; try assumption.
    destruct (Rtotal_order a 0) as [L|[->|G]].
    + change 1 with (powerRZ a 0). change 0 with (IZR 0). constructor. exact L.
    + constructor.
    + rewrite <- (Rpower_O a G). constructor. exact G.
  - exists a, b. repeat split; try assumption. constructor. exact P.
  - exists 0, b. repeat split; try assumption. constructor. exact P.
  - exists a, (IZR z). repeat split; try assumption.
    destruct (Rtotal_order a 0) as [L|[->|G]]; [constructor; exact L|lra|].
    rewrite powerRZ_Rpower by exact G. constructor. exact G.
Qed.

Lemma pow_intro (l r : expr) a b v : denotes vars l a -> denotes vars r b -> rpow a b v ->
  denotes vars (Pow l r) v.
Proof.
  intros Da Db P. destruct P.
  - apply d_pow_pos; assumption.
  - eapply d_pow_base0; eassumption.
  - eapply d_pow_zero; eassumption.
  - apply d_pow_int; try assumption. lra.
Qed.

Lemma d_eq (e : expr) a b : denotes vars e a -> a = b -> denotes vars e b.
Proof. intros H <-. exact H. Qed.

Lemma d_lit' (c : X) r : c = Fin r -> denotes vars (Const c) r.
Proof. intros ->. constructor. Qed.
Lemma lit_inv (c : X) r : denotes vars (Const c) r -> c = Fin r.
Proof. intros H. inversion H. reflexivity. Qed.

Lemma rpow_one a v : rpow a 1 v -> v = a.
Proof.
  intros H. inversion H as [? ? P|? P| |? z P]; subst; try lra.
  - apply Rpower_1. exact P.
  - assert (z = 1%Z) as -> by (apply eq_IZR; lra). apply powerRZ_1.
Qed.
Lemma rpow_zero a v : rpow a 0 v -> v = 1.
Proof.
  intros H. inversion H as [? ? P|? P| |? z P]; subst; try lra.
  - apply Rpower_O. exact P.
  - assert (z = 0%Z) as -> by (apply eq_IZR; lra). reflexivity.
Qed.
Lemma rpow_base_one b v : rpow 1 b v -> v = 1.
Proof.
  intros H. inversion H as [? ? P|? P| |? z P]; subst; try lra.
  unfold Rpower. rewrite ln_1, Rmult_0_r. apply exp_0.
Qed.
Lemma rpow_two a v : rpow a 2 v -> v = a * a.
Proof.
  intros H. inversion H as [? ? P|? P| |? z P]; subst; try lra.
  - replace 2 with (1 + 1) by ring. rewrite Rpower_plus, Rpower_1 by exact P. reflexivity.
  - assert (z = 2%Z) as -> by (apply eq_IZR; lra). change (powerRZ a 2) with (a ^ 2). ring.
Qed.
Lemma rpow_half a : 0 <= a -> rpow a (5 / 10) (sqrt a).
Proof.
  intros H. replace (5 / 10) with (/ 2) by lra. destruct H as [P|<-].
  - rewrite <- Rpower_sqrt by exact P. constructor. exact P.
  - rewrite sqrt_0. constructor. lra.
Qed.
Lemma rpow_mul x a b u v : rpow x a u -> rpow x b v -> rpow x (a + b) (u * v).
Proof.
  intros H K. inversion H as [? ? P|? P| |? z P]; subst; inversion K as [? ? Q|? Q| |? w Q]; subst; try lra;
    rewrite ?Rmult_0_l, ?Rmult_0_r, ?Rmult_1_l, ?Rplus_0_l, ?Rplus_0_r.
  - rewrite <- Rpower_plus. constructor. exact P.
  - constructor. lra.
  - constructor. exact P.
  - constructor. exact Q.
  - constructor.
  - rewrite <- plus_IZR, <- powerRZ_add by lra. constructor. exact P.
Qed.
Lemma rpow_div x a b u v : rpow x a u -> rpow x b v -> v <> 0 -> rpow x (a - b) (u / v).
Proof.
  intros H K NZ. inversion H as [? ? P|? P| |? z P]; subst; inversion K as [? ? Q|? Q| |? w Q]; subst; try lra.
  - unfold Rminus, Rdiv. rewrite <- Rpower_Ropp, <- Rpower_plus. constructor. exact P.
  - replace (a - 0) with a by ring. replace (0 / 1) with 0 by field. constructor. exact P.
  - replace (0 - 0) with 0 by ring. replace (1 / 1) with 1 by field. constructor.
  - rewrite <- minus_IZR. unfold Rdiv. rewrite <- powerRZ_inv, <- powerRZ_neg by lra.
    rewrite <- powerRZ_add by lra. unfold Z.sub. constructor. exact P.
Qed.
End Rules.

(** Take a denotation apart. *)
Ltac dinv := repeat match goal with
  | H : denotes _ (Const _) _ |- _ => apply lit_inv in H
  | H : denotes _ (Add _ _) _ |- _ => inversion H; subst; clear H
  | H : denotes _ (Sub _ _) _ |- _ => inversion H; subst; clear H
  | H : denotes _ (Mul _ _) _ |- _ => inversion H; subst; clear H
  | H : denotes _ (Div _ _) _ |- _ => inversion H; subst; clear H
  | H : denotes _ (Pow _ _) _ |- _ => apply pow_inv in H; destruct H as (? & ? & ? & ? & ?)
  | H : denotes _ (Ln _) _ |- _ => inversion H; subst; clear H
  | H : denotes _ (Exp _) _ |- _ => inversion H; subst; clear H
  | H : denotes _ (Sqrt _) _ |- _ => inversion H; subst; clear H
  | H : denotes _ (Sin _) _ |- _ => inversion H; subst; clear H
  | H : denotes _ (Cos _) _ |- _ => inversion H; subst; clear H
  | H : denotes _ (Neg _) _ |- _ => inversion H; subst; clear H
  end;
  repeat match goal with
  | H : denotes ?v ?e ?a, K : denotes ?v ?e ?b |- _ =>
      let E := fresh "E" in assert (E := denotes_fun _ v e a b H K); clear K; subst
  end.

Ltac rule0 := intros vars s k v H; cbn [fst snd pinst cinst x_ y_ a_ b_ c_ d_ n_ ka kb kc c0_ c1_ c2_ ch_] in *; dinv.

Section Sound.
Context {lg : R -> R}.

(** Literals. *)
Lemma litv m d r : @ndec (XR lg) m d = Fin r -> r = IZR m / IZR (Zpos d).
Proof. intros H. injection H as <-. reflexivity. Qed.
Lemma lit0 r : @ndec (XR lg) 0 1 = Fin r -> r = 0.
Proof. intros H. apply litv in H. lra. Qed.
Lemma lit1 r : @ndec (XR lg) 1 1 = Fin r -> r = 1.
Proof. intros H. apply litv in H. lra. Qed.
Lemma lit2 r : @ndec (XR lg) 2 1 = Fin r -> r = 2.
Proof. intros H. apply litv in H. lra. Qed.
Lemma mk0 : @ndec (XR lg) 0 1 = Fin 0.
Proof. change (Fin (IZR 0 / IZR 1) = Fin 0). f_equal. lra. Qed.
Lemma mk1 : @ndec (XR lg) 1 1 = Fin 1.
Proof. change (Fin (IZR 1 / IZR 1) = Fin 1). f_equal. lra. Qed.
Lemma mk2 : @ndec (XR lg) 2 1 = Fin 2.
Proof. change (Fin (IZR 2 / IZR 1) = Fin 2). f_equal. lra. Qed.
Lemma mkh : @ndec (XR lg) 5 10 = Fin (5 / 10).
Proof. reflexivity. Qed.
End Sound.

(** Build one from the parts at hand. *)
Ltac dbuild := repeat first
  [ eassumption
  | match goal with
    | |- denotes _ (Const (ndec _ _)) _ => apply d_lit'; first [apply mk0 | apply mk1 | apply mk2 | apply mkh]
    | |- denotes _ (Const _) _ => apply d_lit'; eassumption
    | |- denotes _ (Add _ _) _ => eapply d_add
    | |- denotes _ (Sub _ _) _ => eapply d_sub
    | |- denotes _ (Mul _ _) _ => eapply d_mul
    | |- denotes _ (Div _ _) _ => eapply d_div
    | |- denotes _ (Ln _) _ => eapply d_ln
    | |- denotes _ (Exp _) _ => eapply d_exp
    | |- denotes _ (Sqrt _) _ => eapply d_sqrt
    | |- denotes _ (Sin _) _ => eapply d_sin
    | |- denotes _ (Cos _) _ => eapply d_cos
    | |- denotes _ (Neg _) _ => eapply d_neg
    | |- denotes _ (Pow _ _) _ => eapply pow_intro
    end ].

Ltac lits2 := repeat match goal with
  | H : xdec 0 1 = Fin _ |- _ => apply lit0 in H; subst
  | H : xdec 1 1 = Fin _ |- _ => apply lit1 in H; subst
  | H : xdec 2 1 = Fin _ |- _ => apply lit2 in H; subst
  | H : ndec 0 1 = Fin _ |- _ => apply lit0 in H; subst
  | H : ndec 1 1 = Fin _ |- _ => apply lit1 in H; subst
  | H : ndec 2 1 = Fin _ |- _ => apply lit2 in H; subst
  end.
Ltac rpows := repeat match goal with
  | H : rpow _ 1 _ |- _ => apply rpow_one in H; subst
  | H : rpow _ 0 _ |- _ => apply rpow_zero in H; subst
  | H : rpow _ 2 _ |- _ => apply rpow_two in H; subst
  | H : rpow 1 _ _ |- _ => apply rpow_base_one in H; subst
  end.
Ltac lit_goals := try match goal with
  | |- ndec 0 1 = Fin _ => apply mk0
  | |- ndec 1 1 = Fin _ => apply mk1
  | |- ndec 2 1 = Fin _ => apply mk2
  | |- ndec 5 10 = Fin _ => apply mkh
  end.
Ltac done_rule := eapply d_eq; [dbuild; lit_goals | first [reflexivity | lra | nra | idtac]].

Ltac consts := repeat match goal with H : ?k ?i = Fin _ |- context [?k ?i] => rewrite H end.
Ltac nzs := repeat match goal with |- _ <> 0 => apply Rmult_integral_contrapositive_currified; assumption end.
Lemma sin_cos_one a : sin a * sin a + cos a * cos a = 1.
Proof. exact (sin2_cos2 a). Qed.
Lemma sqrt_pos_inv a : 0 < sqrt a -> 0 <= a -> 0 < a.
Proof. intros P [H|<-]; [exact H|]. rewrite sqrt_0 in P. lra. Qed.
Lemma ln_half a : 0 < a -> 5 / 10 * ln a = ln (sqrt a).
Proof. intros P. rewrite <- Rpower_sqrt by exact P. unfold Rpower. rewrite ln_exp. lra. Qed.

Lemma rules_sound lg : Forall (fun r => r <> pow_pow_rule -> r <> ln_pow_rule -> sound lg r) rules.
Proof.
  unfold rules, pow_pow_rule, ln_pow_rule.
  repeat (apply Forall_cons; [intros NP NL; try congruence; clear NP NL; rule0; lits2; rpows; try solve [done_rule]|]).
  all: try apply Forall_nil.
  - eapply d_eq; [eassumption|symmetry; apply ln_exp].
  - eapply d_eq; [eassumption|symmetry; apply exp_ln; assumption].
  - apply d_lit'. rewrite ln_1. apply mk0.
  - apply d_lit'. rewrite exp_0. apply mk1.
  - eapply pow_intro; [eassumption|apply d_lit', mkh|apply rpow_half; assumption].
  - eapply d_eq; [eapply d_ln; [dbuild|apply Rmult_lt_0_compat; assumption]|apply ln_mult; assumption].
  - eapply d_eq; [eapply d_ln; [dbuild; lra|apply Rdiv_lt_0_compat; assumption]|].
    unfold Rdiv. rewrite ln_mult, ln_Rinv by (try apply Rinv_0_lt_compat; assumption). ring.
  - eapply d_eq; [eapply d_ln; [dbuild; apply rp_pos; assumption|apply exp_pos]|]. unfold Rpower. apply ln_exp.
  - eapply d_eq; [dbuild|apply exp_plus].
  - eapply d_eq; [dbuild|]. unfold Rminus, Rdiv. rewrite exp_plus, exp_Ropp. reflexivity.
  - match goal with H : rpow (exp ?a) _ _ |- _ => pose proof (exp_pos a); inversion H; subst; try lra end.
    eapply d_eq; [dbuild|]. unfold Rpower. rewrite ln_exp. reflexivity.
  - apply d_lit'. rewrite sin_cos_one. apply mk1.
  - apply d_lit'. rewrite sin_cos_one. apply mk1.
  - eapply pow_intro; [eassumption|dbuild|apply rpow_mul; assumption].
  - eapply pow_intro; [eassumption|dbuild|apply rpow_div; assumption].
  - consts. apply d_const.
  - consts. apply d_const.
  - consts. apply d_const.
  - consts. apply d_lit'. apply xdiv_fin. assumption.
  - consts. eapply d_eq; [eapply d_mul; [apply d_const|eassumption]|ring].
  - consts. rewrite mk1. eapply d_eq; [eapply d_mul; [apply d_const|eassumption]|ring].
  - consts. rewrite mk1. eapply d_eq; [eapply d_mul; [apply d_const|eassumption]|ring].
  - apply d_lit'. rewrite mk1. f_equal. field. assumption.
  - eapply d_eq; [dbuild; nzs|field; split; assumption].
  - eapply d_eq; [dbuild; nzs|field; split; assumption].
  - eapply pow_intro; [eassumption|eassumption|]. fold (Rpower a a0). apply rp_pos. assumption.
  - eapply d_eq; [dbuild|]. 1: eapply sqrt_pos_inv; eassumption. apply ln_half. eapply sqrt_pos_inv; eassumption.
  - eapply d_eq; [dbuild|]. symmetry. apply sin_neg.
  - eapply d_eq; [dbuild|]. symmetry. apply cos_neg.
  - apply d_lit'. rewrite sin_0. apply mk0.
  - apply d_lit'. rewrite cos_0. apply mk1.
Qed.

(** * Equality saturation *)
Scheme present_mut := Minimality for present Sort Prop
  with equated_mut := Minimality for equated Sort Prop.
Combined Scheme egraph_ind from present_mut, equated_mut.

Section Saturate.
Context {lg : R -> R}.
Variable vars : env (XR lg).

Lemma subexprs_denote (e : expr (XR lg)) : forall v t, denotes vars e v -> In t (subexprs e) ->
  exists w, denotes vars t w.
Proof.
  induction e; intros v t D I; cbn [subexprs] in I; destruct I as [<-|I]; try (exists v; exact D); try contradiction;
    try (apply in_app_or in I; destruct I as [I|I]);
    inversion D; subst; solve [eapply IHe1; eassumption | eapply IHe2; eassumption | eapply IHe; eassumption].
Qed.

Lemma subexprs_self (e : expr (XR lg)) : In e (subexprs e).
Proof. destruct e; left; reflexivity. Qed.

Lemma child_denotes (e a e' b : expr (XR lg)) v w : child e a e' b -> denotes vars e v ->
  denotes vars a w -> denotes vars b w -> denotes vars e' v.
Proof.
  intros C D A B. destruct C; dinv; dbuild.
Qed.

Lemma child_denotes_part (e a e' b : expr (XR lg)) v : child e a e' b -> denotes vars e v ->
  exists w, denotes vars a w.
Proof. intros C D. destruct C; dinv; eexists; eassumption. Qed.

Lemma saturation_sound rs roots : (forall r, In r rs -> sound lg r) ->
  (forall r, In r roots -> exists v, denotes vars r v) ->
  (forall i t, present rs roots i t -> exists v, denotes vars t v) /\
  (forall i t u, equated rs roots i t u -> exists v, denotes vars t v /\ denotes vars u v).
Proof.
  intros SR DR.
  apply (egraph_ind (XR lg) rs roots (fun _ t => exists v, denotes vars t v)
           (fun _ t u => exists v, denotes vars t v /\ denotes vars u v)).
  - intros i r t I T. destruct (DR r I) as [v D]. eapply subexprs_denote; eassumption.
  - auto.
  - intros i l r s k t I _ [v D] T. apply (SR (l, r) I) in D. eapply subexprs_denote; eassumption.
  - intros i e a e' b _ [v D] C _ (w & A & B). exists v. eapply child_denotes; eassumption.
  - intros i t _ [v D]. exists v. auto.
  - intros i t u _ (v & A & B). exists v. auto.
  - intros i t u w _ (v & A & B) _ (v' & C & D). exists v. split; [exact A|].
    rewrite <- (denotes_fun _ _ _ _ _ C B). exact D.
  - auto.
  - intros i l r s k I _ [v D]. exists v. split; [exact D|]. apply (SR (l, r) I). exact D.
  - intros i e a e' b _ [v D] C _ (w & A & B). exists v. split; [exact D|]. eapply child_denotes; eassumption.
Qed.
End Saturate.

(** * What the two unsound rules do *)
Section Unsound.
Context {lg : R -> R}.
Notation X := (XR lg).
Notation K m d := (Const (@ndec X m d)).

Lemma pow_pow_unsound : ~ sound lg pow_pow_rule.
Proof.
  intros S.
  set (s := fun i : nat => match i with 0%nat => Const (Fin (-1) : X) | 2%nat => Const (Fin (IZR 2) : X)
                            | _ => Const (Fin (/ 2) : X) end).
  assert (D : denotes [] (pinst s (fun _ => Fin 0) (fst pow_pow_rule)) 1).
  { cbn. eapply pow_intro; [eapply pow_intro; [apply d_const|apply d_const|apply rp_neg; lra]|apply d_const|].
    replace (powerRZ (-1) 2) with 1 by (change (powerRZ (-1) 2) with ((-1) ^ 2); ring).
    replace 1 with (Rpower 1 (/ 2)) at 2 by (unfold Rpower; rewrite ln_1, Rmult_0_r; apply exp_0).
    apply rp_pos. lra. }
  apply S in D. cbn in D. dinv.
  repeat match goal with H : Fin _ = Fin _ |- _ => injection H as H; subst end.
  match goal with H : rpow _ ?b 1 |- _ => replace b with 1 in H by lra; apply rpow_one in H end. lra.
Qed.

Lemma ln_pow_unsound : ~ sound lg ln_pow_rule.
Proof.
  intros S.
  set (s := fun i : nat => match i with 0%nat => Const (Fin (-1) : X) | _ => Const (Fin (IZR 2) : X) end).
  assert (D : denotes [] (pinst s (fun _ => Fin 0) (fst ln_pow_rule)) 0).
  { cbn. rewrite <- ln_1. apply d_ln; [|lra].
    replace 1 with (powerRZ (-1) 2) by (change (powerRZ (-1) 2) with ((-1) ^ 2); ring).
    eapply pow_intro; [apply d_const|apply d_const|apply rp_neg; lra]. }
  apply S in D. cbn in D. dinv.
  repeat match goal with H : Fin _ = Fin _ |- _ => injection H as H; subst end. lra.
Qed.

(** The rules by position. *)
Lemma in_rule n l r : nth_error rules n = Some (l, r) -> In (l, r) rules.
Proof. apply nth_error_In. Qed.

Definition sqrt_of_square : expr X := Sqrt (Pow (K (-1) 1) (K 2 1)).

Lemma sqrt_of_square_value vars : denotes vars sqrt_of_square 1.
Proof.
  unfold sqrt_of_square. rewrite <- sqrt_1. apply d_sqrt; [|lra].
  replace 1 with (powerRZ (-1) 2) by (change (powerRZ (-1) 2) with ((-1) ^ 2); ring).
  eapply (@pow_intro lg); [| |apply rp_neg; lra]; apply d_lit'; change (Fin (IZR (-1) / IZR 1) = Fin (-1)) ||
    change (Fin (IZR 2 / IZR 1) = Fin 2); f_equal; lra.
Qed.

Definition sub1 (e : expr X) : nat -> expr X := fun _ => e.

Lemma one_is_minus_one : equated rules [sqrt_of_square] 4 (K 1 1) (K (-1) 1).
Proof.
  set (m1 := K (-1) 1). set (two := K 2 1). set (half := K 5 10). set (P := Pow m1 two).
  set (z := fun _ : nat => (Fin 0 : X)).
  assert (PR : present rules [sqrt_of_square] 0 sqrt_of_square).
  { eapply p_root; [left; reflexivity|apply subexprs_self]. }
  assert (PP : present rules [sqrt_of_square] 0 P).
  { eapply p_root; [left; reflexivity|]. right. left. reflexivity. }
  (* iteration 1 *)
  assert (E1 : equated rules [sqrt_of_square] 1 sqrt_of_square (Pow P half)).
  { exact (q_rule rules [sqrt_of_square] 0 (PSqrt x_) (PPow x_ ch_) (sub1 P) z (in_rule 18 _ _ eq_refl) PR). }
  assert (Q1 : present rules [sqrt_of_square] 1 (Pow P half)).
  { eapply (p_rule rules [sqrt_of_square] 0 (PSqrt x_) (PPow x_ ch_) (sub1 P) z); [exact (in_rule 18 _ _ eq_refl)|exact PR|].
    left. reflexivity. }
  assert (E2 : equated rules [sqrt_of_square] 1 P (Mul m1 m1)).
  { exact (q_rule rules [sqrt_of_square] 0 (PPow x_ c2_) (PMul x_ x_) (sub1 m1) z (in_rule 17 _ _ eq_refl) PP). }
  assert (Q2 : present rules [sqrt_of_square] 1 (Mul m1 m1)).
  { eapply (p_rule rules [sqrt_of_square] 0 (PPow x_ c2_) (PMul x_ x_) (sub1 m1) z); [exact (in_rule 17 _ _ eq_refl)|exact PP|].
    left. reflexivity. }
  (* iteration 2 *)
  set (km := fun _ : nat => @ndec X (-1) 1).
  assert (E3 : equated rules [sqrt_of_square] 2 (Mul m1 m1) (K 1 1)).
  { replace (K 1 1) with (Const (nmul (@ndec X (-1) 1) (@ndec X (-1) 1))).
    - exact (q_rule rules [sqrt_of_square] 1 (PMul (PConst ka) (PConst kb)) (PConst (CMul ka kb)) (sub1 m1) km
               (in_rule 41 _ _ eq_refl) Q2).
    - f_equal. change (Fin (IZR (-1) / IZR 1 * (IZR (-1) / IZR 1)) = Fin (IZR 1 / IZR 1)). f_equal. lra. }
  assert (E4 : equated rules [sqrt_of_square] 2 P (K 1 1)).
  { eapply q_trans; [apply q_later, E2|exact E3]. }
  set (sp := fun i : nat => match i with 0%nat => m1 | 2%nat => two | _ => half end).
  assert (E5 : equated rules [sqrt_of_square] 2 (Pow P half) (Pow m1 (Mul two half))).
  { exact (q_rule rules [sqrt_of_square] 1 (PPow (PPow x_ a_) b_) (PPow x_ (PMul a_ b_)) sp z
             (in_rule 39 _ _ eq_refl) Q1). }
  assert (Q3 : forall t, In t (subexprs (Pow m1 (Mul two half))) -> present rules [sqrt_of_square] 2 t).
  { intros t I. eapply (p_rule rules [sqrt_of_square] 1 (PPow (PPow x_ a_) b_) (PPow x_ (PMul a_ b_)) sp z);
      [exact (in_rule 39 _ _ eq_refl)|exact Q1|exact I]. }
  assert (E6 : equated rules [sqrt_of_square] 2 (Pow P half) (Pow (K 1 1) half)).
  { eapply q_cong; [apply p_later, Q1|apply ch_pow_l|exact E4]. }
  assert (Q4 : present rules [sqrt_of_square] 2 (Pow (K 1 1) half)).
  { eapply p_cong; [apply p_later, Q1|apply (ch_pow_l P)|exact E4]. }
  (* iteration 3 *)
  set (k2 := fun i : nat => match i with 0%nat => @ndec X 2 1 | _ => @ndec X 5 10 end).
  assert (E7 : equated rules [sqrt_of_square] 3 (Mul two half) (K 1 1)).
  { replace (K 1 1) with (Const (nmul (@ndec X 2 1) (@ndec X 5 10))).
    - refine (q_rule rules [sqrt_of_square] 2 (PMul (PConst ka) (PConst kb)) (PConst (CMul ka kb)) (sub1 m1) k2
               (in_rule 41 _ _ eq_refl) (Q3 _ _)).
      cbn. auto.
    - f_equal. change (Fin (IZR 2 / IZR 1 * (IZR 5 / IZR 10)) = Fin (IZR 1 / IZR 1)). f_equal. lra. }
  assert (E8 : equated rules [sqrt_of_square] 3 (Pow m1 (Mul two half)) (Pow m1 (K 1 1))).
  { eapply q_cong; [apply p_later, Q3; left; reflexivity|apply ch_pow_r|exact E7]. }
  assert (Q5 : present rules [sqrt_of_square] 3 (Pow m1 (K 1 1))).
  { eapply p_cong; [apply p_later, Q3; left; reflexivity|apply (ch_pow_r (Mul two half))|exact E7]. }
  assert (E9 : equated rules [sqrt_of_square] 3 (Pow (K 1 1) half) (K 1 1)).
  { exact (q_rule rules [sqrt_of_square] 2 (PPow c1_ x_) c1_ (sub1 half) z (in_rule 12 _ _ eq_refl) Q4). }
  (* iteration 4 *)
  assert (E10 : equated rules [sqrt_of_square] 4 (Pow m1 (K 1 1)) m1).
  { exact (q_rule rules [sqrt_of_square] 3 (PPow x_ c1_) x_ (sub1 m1) z (in_rule 10 _ _ eq_refl) Q5). }
  eapply q_trans; [|exact E10].
  eapply q_trans; [apply q_later, q_sym, E9|].
  eapply q_trans; [apply q_later, q_later, q_sym, E6|].
  eapply q_trans; [apply q_later, q_later, E5|]. apply q_later, E8.
Qed.

(** An undefined term equates 0 and 1 and, on the same optimizer, any later
    [t * 1] with 0. *)
Definition zero_over_zero : expr X := Div (K 0 1) (K 0 1).

Lemma zero_is_one roots : In zero_over_zero roots -> equated rules roots 1 (K 0 1) (K 1 1).
Proof.
  intros I. set (z := fun _ : nat => (Fin 0 : X)).
  assert (PR : present rules roots 0 zero_over_zero).
  { eapply p_root; [exact I|apply subexprs_self]. }
  eapply q_trans.
  - apply q_sym. exact (q_rule rules roots 0 (PDiv c0_ x_) c0_ (sub1 (K 0 1)) z (in_rule 9 _ _ eq_refl) PR).
  - exact (q_rule rules roots 0 (PDiv x_ x_) c1_ (sub1 (K 0 1)) z (in_rule 48 _ _ eq_refl) PR).
Qed.

Lemma everything_is_zero roots t : In zero_over_zero roots -> In (Mul t (K 1 1)) roots ->
  equated rules roots 2 t (K 0 1).
Proof.
  intros I J. set (z := fun _ : nat => (Fin 0 : X)).
  assert (PR : present rules roots 0 (Mul t (K 1 1))).
  { eapply p_root; [exact J|apply subexprs_self]. }
  assert (E : equated rules roots 1 (Mul t (K 1 1)) (Mul t (K 0 1))).
  { eapply q_cong; [apply p_later, PR|apply ch_mul_r|apply q_sym, zero_is_one, I]. }
  assert (Q : present rules roots 1 (Mul t (K 0 1))).
  { eapply p_cong; [apply p_later, PR|apply (ch_mul_r (K 1 1))|apply q_sym, zero_is_one, I]. }
  eapply q_trans.
  - apply q_later, q_sym. exact (q_rule rules roots 0 (PMul x_ c1_) x_ (sub1 t) z (in_rule 4 _ _ eq_refl) PR).
  - eapply q_trans; [apply q_later, E|].
    exact (q_rule rules roots 1 (PMul x_ c0_) c0_ (sub1 t) z (in_rule 6 _ _ eq_refl) Q).
Qed.
End Unsound.
