(** Proofs about the simplifier (C06-C08). *)
From Coq Require Import ZArith Reals String List Bool Lra Lia Arith.
From Verif Require Import Num XRFacts ExprModel ExprSpec ExprEval ExprEval2.
Import ListNotations.
Local Open Scope list_scope.

Section Struct.
Context {N : Num}.
Notation expr := (expr N).

Lemma size_pos (e : expr) : 1 <= size e.
Proof. destruct e; cbn; lia. Qed.

Lemma fuel_mono f (e r : expr) : simplify_fuel f e = Some r -> simplify_fuel (S f) e = Some r.
Proof.
  revert e r. induction f as [|f IH]; intros e r H; [discriminate|].
  assert (B : forall (a : expr) T (k : expr -> option T) t,
     obind (simplify_fuel f a) k = Some t -> obind (simplify_fuel (S f) a) k = Some t).
  { intros a T k t Hk. destruct (simplify_fuel f a) eqn:E; [|discriminate].
    apply IH in E. rewrite E; exact Hk. }
  cbn [simplify_fuel] in H.
  destruct e; cbn [simplify_fuel]; try exact H.
  1-4: destruct (simplify_fuel f e1) eqn:E1; [|discriminate]; cbn [obind] in H;
       destruct (simplify_fuel f e2) eqn:E2; [|discriminate]; cbn [obind] in H;
       apply IH in E1, E2; cbn [simplify_fuel] in E1, E2; rewrite E1, E2; exact H.
  2-7: destruct (simplify_fuel f e) eqn:E1; [|discriminate]; cbn [obind] in H;
       apply IH in E1; cbn [simplify_fuel] in E1; rewrite E1; exact H.
  destruct (simplify_fuel f e1) as [b|] eqn:E1; [|discriminate]; cbn [obind] in H.
  destruct (simplify_fuel f e2) as [p|] eqn:E2; [|discriminate]; cbn [obind] in H.
  apply IH in E1, E2. cbn [simplify_fuel] in E1, E2. rewrite E1, E2. cbn [obind].
  revert H. unfold simp_pow.
  assert (K : (if is_lit n0 p then Some (Const n1) else if is_lit n1 p then Some b
     else if is_lit n1 b then Some (Const n1)
     else match b with Pow ib ip => match simplify_fuel f (Mul ip p) with Some q => Some (Pow ib q) | None => None end
          | _ => Some (Pow b p) end) = Some r ->
     (if is_lit n0 p then Some (Const n1) else if is_lit n1 p then Some b
     else if is_lit n1 b then Some (Const n1)
     else match b with Pow ib ip => match simplify_fuel (S f) (Mul ip p) with Some q => Some (Pow ib q) | None => None end
          | _ => Some (Pow b p) end) = Some r).
  { destruct (is_lit n0 p); auto. destruct (is_lit n1 p); auto. destruct (is_lit n1 b); auto.
    destruct b; auto. destruct (simplify_fuel f (Mul b2 p)) eqn:E; [|discriminate].
    apply IH in E. rewrite E; auto. }
  destruct b; auto.
Qed.
Lemma fuel_le f g (e r : expr) : f <= g -> simplify_fuel f e = Some r -> simplify_fuel g e = Some r.
Proof. induction 1; auto. intros; apply fuel_mono; auto. Qed.

(** ** Sizes *)
Ltac simpcases :=
  repeat match goal with
  | |- context [if ?b then _ else _] => destruct b eqn:?
  end.
Lemma size_simp_add (l r : expr) : size (simp_add l r) <= 1 + size l + size r.
Proof.
  assert (1 <= size l) by apply size_pos. assert (1 <= size r) by apply size_pos.
  unfold simp_add. destruct l; try (simpcases; cbn in *; lia). destruct r; simpcases; cbn in *; lia.
Qed.
Lemma size_simp_sub (l r : expr) : size (simp_sub l r) <= 1 + size l + size r.
Proof.
  assert (1 <= size l) by apply size_pos. assert (1 <= size r) by apply size_pos.
  unfold simp_sub. destruct l; try (simpcases; cbn in *; lia). destruct r; simpcases; cbn in *; lia.
Qed.
Lemma size_simp_mul (l r : expr) : size (simp_mul l r) <= 1 + size l + size r.
Proof.
  assert (1 <= size l) by apply size_pos. assert (1 <= size r) by apply size_pos.
  unfold simp_mul. destruct l; try (simpcases; cbn in *; lia). destruct r; simpcases; cbn in *; lia.
Qed.
Lemma size_simp_div (l r : expr) : size (simp_div l r) <= 1 + size l + size r.
Proof.
  assert (1 <= size l) by apply size_pos. assert (1 <= size r) by apply size_pos.
  unfold simp_div; cbn zeta. destruct l; try (simpcases; cbn in *; lia). destruct r; simpcases; cbn in *; lia.
Qed.
Lemma size_simp_un (f : expr -> expr) (c : expr -> expr) :
  (f = simp_ln /\ c = Ln \/ f = simp_exp /\ c = Exp \/ f = simp_sqrt /\ c = Sqrt \/
   f = simp_sin /\ c = Sin \/ f = simp_cos /\ c = Cos \/ f = simp_neg /\ c = Neg) ->
  forall a, size (f a) <= 1 + size a.
Proof.
  intros H a.
  destruct H as [[-> _]|[[-> _]|[[-> _]|[[-> _]|[[-> _]|[-> _]]]]]].
  - destruct a; cbn; simpcases; cbn; lia.
  - destruct a; cbn; simpcases; cbn; try lia. destruct a2; cbn; lia.
  - destruct a; cbn; simpcases; cbn; lia.
  - destruct a; cbn; simpcases; cbn; lia.
  - destruct a; cbn; simpcases; cbn; lia.
  - destruct a; cbn; simpcases; cbn; lia.
Qed.

Lemma fuel_total f (e : expr) : size e <= f ->
  exists r, simplify_fuel f e = Some r /\ size r <= size e.
Proof.
  revert e. induction f as [|f IH]; intros e H; [pose proof (size_pos e); lia|].
  destruct e; cbn [simplify_fuel size] in *.
  1-2: eexists; split; [reflexivity|cbn; lia].
  1-4: destruct (IH e1) as (r1 & -> & S1); [lia|]; destruct (IH e2) as (r2 & -> & S2); [lia|];
       cbn [obind]; eexists; split; [reflexivity|].
  - pose proof (size_simp_add r1 r2); lia.
  - pose proof (size_simp_sub r1 r2); lia.
  - pose proof (size_simp_mul r1 r2); lia.
  - pose proof (size_simp_div r1 r2); lia.
  - destruct (IH e1) as (b & -> & S1); [lia|]; destruct (IH e2) as (p & -> & S2); [lia|].
    cbn [obind]. unfold simp_pow.
    assert (K : exists r, (if is_lit n0 p then Some (Const n1) else if is_lit n1 p then Some b
       else if is_lit n1 b then Some (Const n1)
       else match b with Pow ib ip => match simplify_fuel f (Mul ip p) with Some q => Some (Pow ib q) | None => None end
          | _ => Some (Pow b p) end) = Some r /\ size r <= S (size e1 + size e2)).
    { destruct (is_lit n0 p); [eexists; split; [reflexivity|cbn; lia]|].
      destruct (is_lit n1 p); [eexists; split; [reflexivity|cbn; lia]|].
      destruct (is_lit n1 b); [eexists; split; [reflexivity|cbn; lia]|].
      destruct b; try (eexists; split; [reflexivity|cbn in *; lia]).
      destruct (IH (Mul b2 p)) as (q & -> & Q); [cbn in *; pose proof (size_pos b1); lia|].
      eexists; split; [reflexivity|]. cbn in *; lia. }
    destruct b; try exact K. destruct p; try exact K.
    eexists; split; [reflexivity|cbn; lia].
  - destruct (IH e) as (r1 & -> & S1); [lia|]; cbn [obind]; eexists; split; [reflexivity|].
    pose proof (size_simp_un simp_ln Ln ltac:(auto 10) r1); lia.
  - destruct (IH e) as (r1 & -> & S1); [lia|]; cbn [obind]; eexists; split; [reflexivity|].
    pose proof (size_simp_un simp_exp Exp ltac:(auto 10) r1); lia.
  - destruct (IH e) as (r1 & -> & S1); [lia|]; cbn [obind]; eexists; split; [reflexivity|].
    pose proof (size_simp_un simp_sqrt Sqrt ltac:(auto 10) r1); lia.
  - destruct (IH e) as (r1 & -> & S1); [lia|]; cbn [obind]; eexists; split; [reflexivity|].
    pose proof (size_simp_un simp_sin Sin ltac:(auto 10) r1); lia.
  - destruct (IH e) as (r1 & -> & S1); [lia|]; cbn [obind]; eexists; split; [reflexivity|].
    pose proof (size_simp_un simp_cos Cos ltac:(auto 10) r1); lia.
  - destruct (IH e) as (r1 & -> & S1); [lia|]; cbn [obind]; eexists; split; [reflexivity|].
    pose proof (size_simp_un simp_neg Neg ltac:(auto 10) r1); lia.
Qed.

Lemma simplify_fuel_eq f (e : expr) : size e <= f -> simplify_fuel f e = Some (simplify e).
Proof.
  intros H. unfold simplify. destruct (fuel_total (size e) e (le_n _)) as (r & E & _).
  rewrite E. eapply fuel_le; eauto.
Qed.
Lemma simplify_size (e : expr) : size (simplify e) <= size e.
Proof.
  unfold simplify. destruct (fuel_total (size e) e (le_n _)) as (r & -> & S); auto.
Qed.

(** ** Equations *)
Definition simp_pow_t (b p : expr) : expr :=
  match simp_pow (fun e => Some (simplify e)) b p with Some r => r | None => Pow b p end.

Lemma simplify_const c : simplify (Const c : expr) = Const c. Proof. reflexivity. Qed.
Lemma simplify_var x : simplify (Var x : expr) = Var x. Proof. reflexivity. Qed.
Lemma Some_inj {T} (a b : T) : Some a = Some b -> a = b. Proof. congruence. Qed.

Ltac eqtac e :=
  apply Some_inj; rewrite <- (simplify_fuel_eq (size e)) by lia; cbn [size Nat.add simplify_fuel];
  rewrite !simplify_fuel_eq by lia; reflexivity.
Lemma simplify_add l r : simplify (Add l r : expr) = simp_add (simplify l) (simplify r).
Proof. eqtac (Add l r). Qed.
Lemma simplify_sub l r : simplify (Sub l r : expr) = simp_sub (simplify l) (simplify r).
Proof. eqtac (Sub l r). Qed.
Lemma simplify_mul l r : simplify (Mul l r : expr) = simp_mul (simplify l) (simplify r).
Proof. eqtac (Mul l r). Qed.
Lemma simplify_div l r : simplify (Div l r : expr) = simp_div (simplify l) (simplify r).
Proof. eqtac (Div l r). Qed.
Lemma simplify_ln a : simplify (Ln a : expr) = simp_ln (simplify a).
Proof. eqtac (Ln a). Qed.
Lemma simplify_exp a : simplify (Exp a : expr) = simp_exp (simplify a).
Proof. eqtac (Exp a). Qed.
Lemma simplify_sqrt a : simplify (Sqrt a : expr) = simp_sqrt (simplify a).
Proof. eqtac (Sqrt a). Qed.
Lemma simplify_sin a : simplify (Sin a : expr) = simp_sin (simplify a).
Proof. eqtac (Sin a). Qed.
Lemma simplify_cos a : simplify (Cos a : expr) = simp_cos (simplify a).
Proof. eqtac (Cos a). Qed.
Lemma simplify_neg a : simplify (Neg a : expr) = simp_neg (simplify a).
Proof. eqtac (Neg a). Qed.
Lemma simplify_pow b p : simplify (Pow b p : expr) = simp_pow_t (simplify b) (simplify p).
Proof.
  apply Some_inj. rewrite <- (simplify_fuel_eq (size (Pow b p))) by lia.
  cbn [size Nat.add simplify_fuel]. rewrite !simplify_fuel_eq by lia. cbn [obind].
  unfold simp_pow_t, simp_pow.
  pose proof (simplify_size b) as Sb. pose proof (simplify_size p) as Sp.
  destruct (simplify b) as [cb|xb|l r|l r|l r|l r|l r|a|a|a|a|a|a]; cbn [size] in Sb.
  1: destruct (simplify p); [reflexivity| simpcases; reflexivity..].
  1-5,7-12: simpcases; reflexivity.
  rewrite simplify_fuel_eq by (cbn [size]; pose proof (size_pos l); lia).
  simpcases; reflexivity.
Qed.

(** The shape of the result on a power. *)
Lemma simp_pow_shape b p :
  simp_pow_t b p = Pow b p \/ (exists c, simp_pow_t b p = Const c) \/ simp_pow_t b p = b \/
  exists ib ip, b = Pow ib ip /\ simp_pow_t b p = Pow ib (simplify (Mul ip p)).
Proof.
  unfold simp_pow_t, simp_pow.
  destruct b; try (simpcases; eauto 10; fail).
  destruct p; eauto; simpcases; eauto 10.
Qed.

Lemma expr_strong_ind (P : expr -> Prop) :
  (forall e, (forall e', size e' < size e -> P e') -> P e) -> forall e, P e.
Proof.
  intros H e. assert (K : forall n e, size e < n -> P e).
  { induction n; intros e' L; [lia|]. apply H. intros; apply IHn; lia. }
  apply (K (S (size e))); lia.
Qed.

(** ** No new variables *)
Lemma occ_bin x (l r : expr) :
  (occurs x (Add l r) <-> occurs x l \/ occurs x r) /\
  (occurs x (Sub l r) <-> occurs x l \/ occurs x r) /\
  (occurs x (Mul l r) <-> occurs x l \/ occurs x r) /\
  (occurs x (Div l r) <-> occurs x l \/ occurs x r) /\
  (occurs x (Pow l r) <-> occurs x l \/ occurs x r).
Proof.
  repeat split; try (intros H; inversion H; subst; auto; fail);
    intros [H|H]; (constructor; assumption).
Qed.
Lemma occ_un x (a : expr) :
  (occurs x (Ln a) <-> occurs x a) /\ (occurs x (Exp a) <-> occurs x a) /\
  (occurs x (Sqrt a) <-> occurs x a) /\ (occurs x (Sin a) <-> occurs x a) /\
  (occurs x (Cos a) <-> occurs x a) /\ (occurs x (Neg a) <-> occurs x a).
Proof.
  repeat split; try (intros H; inversion H; subst; auto; fail); intros H; (constructor; assumption).
Qed.
Lemma occ_const x c : occurs x (Const c : expr) <-> False.
Proof. split; [intros H; inversion H|tauto]. Qed.

Ltac occ :=
  repeat match goal with
  | H : occurs _ (Const _) |- _ => inversion H
  | H : occurs ?x (Add ?l ?r) |- _ => apply (proj1 (proj1 (occ_bin x l r))) in H; destruct H
  | H : occurs ?x (Sub ?l ?r) |- _ => apply (proj1 (proj1 (proj2 (occ_bin x l r)))) in H; destruct H
  | H : occurs ?x (Mul ?l ?r) |- _ => apply (proj1 (proj1 (proj2 (proj2 (occ_bin x l r))))) in H; destruct H
  | H : occurs ?x (Div ?l ?r) |- _ => apply (proj1 (proj1 (proj2 (proj2 (proj2 (occ_bin x l r)))))) in H; destruct H
  | H : occurs ?x (Pow ?l ?r) |- _ => apply (proj1 (proj2 (proj2 (proj2 (proj2 (occ_bin x l r)))))) in H; destruct H
  | H : occurs _ (Ln _) |- _ => inversion H; clear H; subst
  | H : occurs _ (Exp _) |- _ => inversion H; clear H; subst
  | H : occurs _ (Sqrt _) |- _ => inversion H; clear H; subst
  | H : occurs _ (Sin _) |- _ => inversion H; clear H; subst
  | H : occurs _ (Cos _) |- _ => inversion H; clear H; subst
  | H : occurs _ (Neg _) |- _ => inversion H; clear H; subst
  end.
Lemma occ_simp_add x (l r : expr) : occurs x (simp_add l r) -> occurs x l \/ occurs x r.
Proof.
  assert (K : occurs x (if is_lit n0 l then r else if is_lit n0 r then l
      else if expr_eqb l r then Mul (Const n2) l else Add l r) -> occurs x l \/ occurs x r).
  { simpcases; intros; occ; auto. }
  unfold simp_add. destruct l; auto. destruct r; auto. intros; occ.
Qed.
Lemma occ_simp_sub x (l r : expr) : occurs x (simp_sub l r) -> occurs x l \/ occurs x r.
Proof.
  assert (K : occurs x (if is_lit n0 r then l else if is_lit n0 l then Neg r
      else if expr_eqb l r then Const n0 else Sub l r) -> occurs x l \/ occurs x r).
  { simpcases; intros; occ; auto. }
  unfold simp_sub. destruct l; auto. destruct r; auto. intros; occ.
Qed.
Lemma occ_simp_mul x (l r : expr) : occurs x (simp_mul l r) -> occurs x l \/ occurs x r.
Proof.
  assert (K : occurs x (if is_lit n0 l || is_lit n0 r then Const n0
      else if is_lit n1 l then r else if is_lit n1 r then l
      else if is_lit nm1 l then Neg r else if is_lit nm1 r then Neg l
      else if expr_eqb l r then Pow l (Const n2) else Mul l r) -> occurs x l \/ occurs x r).
  { simpcases; intros; occ; auto. }
  unfold simp_mul. destruct l; auto. destruct r; auto. intros; occ.
Qed.
Lemma occ_simp_div x (l r : expr) : occurs x (simp_div l r) -> occurs x l \/ occurs x r.
Proof.
  assert (K : occurs x (if is_lit n1 r then l else if is_lit n0 l then Const n0
    else if expr_eqb l r then Const n1 else Div l r) -> occurs x l \/ occurs x r).
  { simpcases; intros; occ; auto. }
  unfold simp_div; cbn zeta. destruct l; auto. destruct r; auto. destruct (negb (neqb c0 n0)); auto.
  intros; occ.
Qed.

Ltac occgo := first [assumption | constructor; occgo].
Lemma occ_simp_ln x (a : expr) : occurs x (simp_ln a) -> occurs x a.
Proof. destruct a; cbn [simp_ln]; simpcases; intros; occ; occgo. Qed.
Lemma occ_simp_exp x (a : expr) : occurs x (simp_exp a) -> occurs x a.
Proof. destruct a; cbn [simp_exp]; try destruct a2; simpcases; intros; occ; occgo. Qed.
Lemma occ_simp_sqrt x (a : expr) : occurs x (simp_sqrt a) -> occurs x a.
Proof. destruct a; cbn [simp_sqrt]; simpcases; intros; occ; occgo. Qed.
Lemma occ_simp_sin x (a : expr) : occurs x (simp_sin a) -> occurs x a.
Proof. destruct a; cbn [simp_sin]; simpcases; intros; occ; occgo. Qed.
Lemma occ_simp_cos x (a : expr) : occurs x (simp_cos a) -> occurs x a.
Proof. destruct a; cbn [simp_cos]; simpcases; intros; occ; occgo. Qed.
Lemma occ_simp_neg x (a : expr) : occurs x (simp_neg a) -> occurs x a.
Proof. destruct a; cbn [simp_neg]; simpcases; intros; occ; occgo. Qed.

Lemma simplify_occurs (e : expr) x : occurs x (simplify e) -> occurs x e.
Proof.
  revert x. induction e as [e IH] using expr_strong_ind. intros x.
  destruct e; auto.
  - rewrite simplify_add. intros H; apply occ_simp_add in H as [H|H]; apply IH in H; cbn; try lia;
      [apply o_add_l|apply o_add_r]; auto.
  - rewrite simplify_sub. intros H; apply occ_simp_sub in H as [H|H]; apply IH in H; cbn; try lia;
      [apply o_sub_l|apply o_sub_r]; auto.
  - rewrite simplify_mul. intros H; apply occ_simp_mul in H as [H|H]; apply IH in H; cbn; try lia;
      [apply o_mul_l|apply o_mul_r]; auto.
  - rewrite simplify_div. intros H; apply occ_simp_div in H as [H|H]; apply IH in H; cbn; try lia;
      [apply o_div_l|apply o_div_r]; auto.
  - rewrite simplify_pow.
    destruct (simp_pow_shape (simplify e1) (simplify e2)) as [E|[[c E]|[E|(ib & ip & E0 & E)]]]; rewrite E; intros H.
    + occ; apply IH in H; cbn; try lia; [apply o_pow_l|apply o_pow_r]; auto.
    + occ.
    + apply IH in H; cbn; try lia. apply o_pow_l; auto.
    + pose proof (simplify_size e1) as S1. pose proof (simplify_size e2) as S2. rewrite E0 in S1; cbn in S1.
      occ.
      * apply o_pow_l. apply IH; [cbn; lia|]. rewrite E0. apply o_pow_l; auto.
      * apply IH in H; [|cbn; pose proof (size_pos ib); lia].
        occ; [apply o_pow_l; apply IH; [cbn; lia|]; rewrite E0; apply o_pow_r; auto
             |apply o_pow_r; apply IH; [cbn; lia|]; auto].
  - rewrite simplify_ln. intros H. constructor. apply IH; [cbn; lia|]. apply occ_simp_ln; exact H.
  - rewrite simplify_exp. intros H. constructor. apply IH; [cbn; lia|]. apply occ_simp_exp; exact H.
  - rewrite simplify_sqrt. intros H. constructor. apply IH; [cbn; lia|]. apply occ_simp_sqrt; exact H.
  - rewrite simplify_sin. intros H. constructor. apply IH; [cbn; lia|]. apply occ_simp_sin; exact H.
  - rewrite simplify_cos. intros H. constructor. apply IH; [cbn; lia|]. apply occ_simp_cos; exact H.
  - rewrite simplify_neg. intros H. constructor. apply IH; [cbn; lia|]. apply occ_simp_neg; exact H.
Qed.
End Struct.
