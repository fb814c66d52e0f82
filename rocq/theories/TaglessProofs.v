From Coq Require Import ZArith Reals Bool String Ascii List Lia Lra.
From Coq Require Import Floats.SpecFloat.
From Verif Require Import Num XRFacts ExprModel ExprSpec ExprSubst ShowModel ShowSpec ShowProofs DensitySpec ExprEval
  JitModel JitSpec JitProofs JitProofs2 TaglessModel TaglessSpec.
Import ListNotations.
Local Open Scope list_scope.

(** * Library functions are terms *)
Section Natural.
Context {N : Num} (E : MathExpr N) (args : nat -> Repr E).
Notation I := (interpret E args).

Lemma nat_logistic x : t_logistic E (I x) = I (t_logistic (Syntax N) x).
Proof. reflexivity. Qed.
Lemma nat_softplus x : t_softplus E (I x) = I (t_softplus (Syntax N) x).
Proof. reflexivity. Qed.

Lemma nat_horner_fold rest x acc :
  fold_left (fun result coeff => e_add E (e_mul E result (I x)) (e_constant E coeff)) rest (I acc) =
  I (fold_left (fun result coeff => e_add (Syntax N) (e_mul (Syntax N) result x) (e_constant (Syntax N) coeff)) rest acc).
Proof. revert acc. induction rest as [|c rest IH]; intros acc; [reflexivity|]. apply (IH (TAdd (TMul acc x) (TConst c))). Qed.
Lemma nat_horner cs x : horner E cs (I x) = I (horner (Syntax N) cs x).
Proof.
  unfold horner. destruct cs as [|a [|b cs]]; try reflexivity.
  destruct (rev (a :: b :: cs)) as [|l rest]; [reflexivity|]. apply (nat_horner_fold rest x (TConst l)).
Qed.
Lemma nat_horner_expr cs x : horner_expr E (map I cs) (I x) = I (horner_expr (Syntax N) cs x).
Proof.
  unfold horner_expr. destruct cs as [|a [|b cs]]; try reflexivity.
  change (map I (a :: b :: cs)) with (I a :: I b :: map I cs). cbv iota.
  replace (rev (I a :: I b :: map I cs)) with (map I (rev (a :: b :: cs))) by (rewrite map_rev; reflexivity).
  change (Repr (Syntax N)) with (term N). destruct (rev (a :: b :: cs)) as [|l rest]; [reflexivity|]. cbn [map].
  revert l. induction rest as [|c rest IH]; intros acc; [reflexivity|]. cbn [map fold_left].
  apply (IH (TAdd (TMul acc x) c)).
Qed.
Lemma nat_from_roots rs x : from_roots E rs (I x) = I (from_roots (Syntax N) rs x).
Proof.
  unfold from_roots. destruct rs as [|r rest]; [reflexivity|].
  change (e_sub E (I x) (e_constant E r)) with (I (TSub x (TConst r))).
  change (e_sub (Syntax N) x (e_constant (Syntax N) r)) with (TSub x (TConst r)).
  generalize (TSub x (TConst r)). induction rest as [|c rest IH]; intros acc; [reflexivity|].
  cbn [fold_left]. apply (IH (TMul acc (TSub x (TConst c)))).
Qed.
Lemma nat_horner_derivative cs x : horner_derivative E cs (I x) = I (horner_derivative (Syntax N) cs x).
Proof. unfold horner_derivative. destruct cs as [|a [|b cs]]; try reflexivity. apply nat_horner. Qed.

Lemma nat_dot_fold ps ss acc :
  fold_left (fun result q => e_add E result (e_mul E (fst q) (snd q))) (combine (map I ps) (map I ss)) (I acc) =
  I (fold_left (fun result q => e_add (Syntax N) result (e_mul (Syntax N) (fst q) (snd q))) (combine ps ss) acc).
Proof.
  revert ss acc. induction ps as [|p ps IH]; intros [|s ss] acc; try reflexivity.
  cbn [map combine fold_left]. apply (IH ss (TAdd acc (TMul p s))).
Qed.
Lemma nat_dot_product ps ss : dot_product E (map I ps) (map I ss) = option_map I (dot_product (Syntax N) ps ss).
Proof.
  unfold dot_product. rewrite !map_length. destruct (Nat.eqb _ _); [|reflexivity].
  destruct ps as [|p ps], ss as [|s ss]; try reflexivity. cbn [map option_map]. f_equal.
  apply (nat_dot_fold ps ss (TMul p s)).
Qed.
Lemma nat_exp_fam ps ss a h :
  t_exp_fam_log_density E (map I ps) (map I ss) (I a) (I h) = option_map I (t_exp_fam_log_density (Syntax N) ps ss a h).
Proof.
  unfold t_exp_fam_log_density. rewrite nat_dot_product. destruct (dot_product (Syntax N) ps ss); reflexivity.
Qed.
Lemma nat_iid ps ss a n h :
  t_iid_log_density E (map I ps) (map I ss) (I a) (I n) (I h) = option_map I (t_iid_log_density (Syntax N) ps ss a n h).
Proof.
  unfold t_iid_log_density. rewrite nat_dot_product. destruct (dot_product (Syntax N) ps ss); reflexivity.
Qed.
Lemma nat_log_sum_exp vs : log_sum_exp E (map I vs) = I (log_sum_exp (Syntax N) vs).
Proof.
  assert (H : forall rest acc, fold_left (fun sum u => e_add E sum (e_exp E u)) (map I rest) (I acc) =
    I (fold_left (fun sum u => e_add (Syntax N) sum (e_exp (Syntax N) u)) rest acc)).
  { induction rest as [|u rest IH]; intros acc; [reflexivity|]. cbn [map fold_left]. apply (IH (TAdd acc (TExp u))). }
  destruct vs as [|v [|w vs]]; try reflexivity.
  change (e_ln E (fold_left (fun sum u => e_add E sum (e_exp E u)) (map I (w :: vs)) (I (TExp v))) =
    e_ln E (I (fold_left (fun sum u => e_add (Syntax N) sum (e_exp (Syntax N) u)) (w :: vs) (TExp v)))).
  f_equal. apply H.
Qed.
Lemma nat_standard_normal x : p_standard_normal E (I x) = I (p_standard_normal (Syntax N) x).
Proof. reflexivity. Qed.
Lemma nat_normal x m s : p_normal E (I x) (I m) (I s) = I (p_normal (Syntax N) x m s).
Proof. reflexivity. Qed.
Lemma nat_poisson x l : p_poisson E (I x) (I l) = I (p_poisson (Syntax N) x l).
Proof. reflexivity. Qed.
Lemma nat_exponential x r : p_exponential E (I x) (I r) = I (p_exponential (Syntax N) x r).
Proof. reflexivity. Qed.
Lemma nat_cauchy x l s : p_cauchy E (I x) (I l) (I s) = I (p_cauchy (Syntax N) x l s).
Proof. reflexivity. Qed.
End Natural.

(** The library's functions create no variables. *)
Lemma closed_horner {N : Num} (cs : list N) x : closed x -> closed (horner (Syntax N) cs x).
Proof.
  intros C. unfold horner. destruct cs as [|a [|b cs]]; try exact I.
  destruct (rev (a :: b :: cs)) as [|l rest]; [exact I|].
  assert (H : forall rest acc, closed acc ->
    closed (fold_left (fun result coeff => TAdd (TMul result x) (TConst coeff)) rest acc : term N)).
  { induction rest0 as [|c rest0 IH]; intros acc A; [exact A|]. apply IH. cbn. tauto. }
  apply H. exact I.
Qed.
Lemma closed_from_roots {N : Num} (rs : list N) x : closed x -> closed (from_roots (Syntax N) rs x).
Proof.
  intros C. unfold from_roots. destruct rs as [|r rest]; [exact I|].
  assert (H : forall rest acc, closed acc ->
    closed (fold_left (fun result root => TMul result (TSub x (TConst root))) rest acc : term N)).
  { induction rest0 as [|c rest0 IH]; intros acc A; [exact A|]. apply IH. cbn. tauto. }
  apply H. cbn. tauto.
Qed.

(** * Interpretations *)
Section Direct.
Context {N : Num}.

Lemma direct_strict (vars : env N) names args t : closed t ->
  (forall i, In i (inputs t) -> get vars (names i) = Some (args i)) ->
  forall v, strict vars (tree names t) = Ok v -> interpret DirectEval args t = v.
Proof.
  induction t; intros C B v S; cbn [closed inputs tree interpret JITEval DirectEval e_add e_sub e_mul e_div e_pow e_neg
    e_ln e_exp e_sqrt e_sin e_cos e_constant e_var strict] in *; unfold tree in *; try contradiction;
    try (rewrite B in S by (left; reflexivity); injection S as <-; reflexivity);
    try (injection S as <-; reflexivity);
    try (destruct C as [C1 C2];
      assert (B1 : forall i, In i (inputs t1) -> get vars (names i) = Some (args i)) by (intros; apply B, in_or_app; auto);
      assert (B2 : forall i, In i (inputs t2) -> get vars (names i) = Some (args i)) by (intros; apply B, in_or_app; auto);
      destruct (strict vars (interpret JITEval _ t1)) as [a|] eqn:S1, (strict vars (interpret JITEval _ t2)) as [b|] eqn:S2;
      cbn [bind] in S; try discriminate; try (destruct (neqb b n0); cbn [bind] in S; try discriminate);
      injection S as <-; rewrite (IHt1 C1 B1 a eq_refl), (IHt2 C2 B2 b eq_refl); reflexivity);
    (destruct (strict vars (interpret JITEval _ t)) as [a|] eqn:S1; cbn [bind] in S; try discriminate;
      try (destruct (nleb a n0); try discriminate); try (destruct (nltb a n0); try discriminate);
      injection S as <-; rewrite (IHt C B a eq_refl); reflexivity).
Qed.

Lemma no_units_strict (vars : env N) e : no_units e -> evaluate vars e = strict vars e.
Proof.
  assert (BC : forall l r : expr N, match both_const l r with Some (a, b) => l = Const a /\ r = Const b | None => True end).
  { intros l r. destruct (both_const l r) as [[a b]|] eqn:E; [apply both_const_Some, E|exact I]. }
  induction e; intros U; cbn [no_units] in U; cbn [strict]; try reflexivity.
  - destruct U as (A & B & U1 & U2). rewrite evaluate_add, A, B, <- IHe1, <- IHe2 by assumption.
    specialize (BC e1 e2). destruct (both_const e1 e2) as [[a b]|]; [|reflexivity]. destruct BC as [-> ->]. reflexivity.
  - destruct U as (U1 & U2). cbn [evaluate]. rewrite IHe1, IHe2 by assumption. reflexivity.
  - destruct U as (A & B & C & D & U1 & U2). rewrite evaluate_mul, A, B, C, D, <- IHe1, <- IHe2 by assumption.
    specialize (BC e1 e2). destruct (both_const e1 e2) as [[a b]|]; [|reflexivity]. destruct BC as [-> ->]. reflexivity.
  - destruct U as (U1 & U2). cbn [evaluate]. rewrite IHe1, IHe2 by assumption. reflexivity.
  - destruct U as (U1 & U2). cbn [evaluate]. rewrite IHe1, IHe2 by assumption. reflexivity.
  - cbn [evaluate]. rewrite IHe by assumption. reflexivity.
  - cbn [evaluate]. rewrite IHe by assumption. reflexivity.
  - cbn [evaluate]. rewrite IHe by assumption. reflexivity.
  - cbn [evaluate]. rewrite IHe by assumption. reflexivity.
  - cbn [evaluate]. rewrite IHe by assumption. reflexivity.
  - cbn [evaluate]. rewrite IHe by assumption. reflexivity.
Qed.

Lemma direct_evaluate (vars : env N) names args t : closed t ->
  (forall i, In i (inputs t) -> get vars (names i) = Some (args i)) -> no_units (tree names t) ->
  forall v, evaluate vars (tree names t) = Ok v -> interpret DirectEval args t = v.
Proof. intros C B U v E. rewrite no_units_strict in E by exact U. exact (direct_strict vars names args t C B v E). Qed.

Lemma single_strict x (v : N) (e : expr N) : evaluate_single_var x v e = strict [(x, v)] e.
Proof.
  induction e; cbn [evaluate_single_var strict get]; try reflexivity;
    try (rewrite IHe1, IHe2; reflexivity); try (rewrite IHe; reflexivity).
  destruct (String.eqb _ _); reflexivity.
Qed.

Lemma direct_single x (v : N) (t : term N) : closed t ->
  forall w, evaluate_single_var x v (tree (fun _ => x) t) = Ok w -> interpret DirectEval (fun _ => v) t = w.
Proof.
  intros C w E. rewrite single_strict in E.
  apply (direct_strict [(x, v)] (fun _ => x) (fun _ => v) t C); [|exact E].
  intros i _. cbn. rewrite String.eqb_refl. reflexivity.
Qed.

Lemma value_eval (args : nat -> N) (t : term N) : closed t ->
  interpret ValueEval (fun i => Some (args i)) t = Some (interpret DirectEval args t).
Proof.
  induction t; intros C; cbn [closed interpret] in *; try contradiction; try reflexivity;
    try (destruct C as [C1 C2]; rewrite IHt1, IHt2 by assumption; reflexivity); rewrite IHt by assumption; reflexivity.
Qed.

Lemma value_eval_open (args : nat -> option N) (t : term N) : ~ closed t -> interpret ValueEval args t = None.
Proof.
  assert (D : forall t : term N, closed t \/ ~ closed t).
  { induction t0; cbn [closed]; tauto. }
  induction t; intros C; cbn [closed interpret] in *; try tauto; try reflexivity;
    try (destruct (D t1) as [C1|C1];
      [rewrite IHt2 by tauto; cbn; destruct (interpret ValueEval args t1); reflexivity
      |rewrite IHt1 by tauto; reflexivity]);
    rewrite IHt by assumption; reflexivity.
Qed.

(** A variable created by name is 0, whatever its name. *)
Fixpoint zeroed (t : term N) : term N :=
  match t with
  | TArg i => TArg i | TVar _ => TConst n0 | TConst c => TConst c
  | TAdd l r => TAdd (zeroed l) (zeroed r) | TSub l r => TSub (zeroed l) (zeroed r)
  | TMul l r => TMul (zeroed l) (zeroed r) | TDiv l r => TDiv (zeroed l) (zeroed r)
  | TPow l r => TPow (zeroed l) (zeroed r) | TNeg a => TNeg (zeroed a) | TLn a => TLn (zeroed a)
  | TExp a => TExp (zeroed a) | TSqrt a => TSqrt (zeroed a) | TSin a => TSin (zeroed a) | TCos a => TCos (zeroed a)
  end.
Lemma direct_zeroed args (t : term N) : interpret DirectEval args t = interpret DirectEval args (zeroed t).
Proof. induction t; cbn [zeroed interpret]; try reflexivity; try (rewrite IHt1, IHt2; reflexivity); rewrite IHt; reflexivity. Qed.
End Direct.

Lemma direct_denotes lg (vars : env (XR lg)) names (args : nat -> XR lg) t r : closed t ->
  (forall i, In i (inputs t) -> get vars (names i) = Some (args i)) ->
  denotes vars (tree names t) r -> interpret DirectEval args t = (Fin r : XR lg).
Proof.
  unfold tree. revert r.
  induction t; intros q C B D; cbn [closed inputs interpret JITEval DirectEval e_add e_sub e_mul e_div e_pow e_neg
    e_ln e_exp e_sqrt e_sin e_cos e_constant e_var] in *; try contradiction;
    try (destruct C as [C1 C2];
      assert (B1 : forall i, In i (inputs t1) -> get vars (names i) = Some (args i)) by (intros; apply B, in_or_app; auto);
      assert (B2 : forall i, In i (inputs t2) -> get vars (names i) = Some (args i)) by (intros; apply B, in_or_app; auto));
    inversion D; subst;
    repeat match goal with
    | H : denotes _ (interpret _ _ ?u) _, IH : forall r, closed ?u -> _ |- _ =>
        rewrite (IH _ ltac:(assumption) ltac:(assumption) H); clear H
    end; try reflexivity.
  - rewrite B in H0 by (left; reflexivity). injection H0 as ->. reflexivity.
  - apply xdiv_fin. assumption.
  - apply xpow_0_r.
  - apply xpow_fin_pos. assumption.
  - apply xpow_fin_zero. assumption.
  - apply xpow_fin_int. assumption.
  - apply xln_pos. assumption.
  - apply xsqrt_nonneg. assumption.
Qed.

(** * Pretty-printing *)
Section Pretty.
Definition ends_well (l : list ascii) : Prop :=
  l <> [] /\ last l " "%char <> " "%char /\ last l " "%char <> "^"%char.

Lemma tighten_eq a b c l : tighten (a :: b :: c :: l) =
  if Ascii.eqb a " " && Ascii.eqb b "^" && Ascii.eqb c " " then "^"%char :: tighten l else a :: tighten (b :: c :: l).
Proof. reflexivity. Qed.
Lemma tighten_cons a l : a <> " "%char -> tighten (a :: l) = a :: tighten l.
Proof.
  intros H. destruct l as [|b [|c l]]; try reflexivity. rewrite tighten_eq.
  destruct (Ascii.eqb_spec a " "); [contradiction|]. reflexivity.
Qed.
Lemma tighten_app A : forall B, ends_well A -> tighten (A ++ B) = tighten A ++ tighten B.
Proof.
  induction A as [A IH] using (well_founded_induction (Wf_nat.well_founded_ltof _ (@List.length ascii))).
  intros B (NE & W1 & W2). unfold Wf_nat.ltof in IH.
  destruct A as [|a [|b [|c A]]].
  - congruence.
  - cbn in W1, W2. cbn [app]. rewrite !tighten_cons by exact W1. reflexivity.
  - cbn in W1, W2. change (([a; b] ++ B)) with (a :: b :: B).
    assert (K : tighten (a :: b :: B) = a :: tighten (b :: B)).
    { destruct B as [|c B]; [reflexivity|]. rewrite tighten_eq.
      destruct (Ascii.eqb_spec b "^"); [contradiction|]. rewrite andb_false_r. reflexivity. }
    rewrite K, tighten_cons by exact W1. reflexivity.
  - cbn [app]. rewrite !tighten_eq. destruct (_ && _ && _) eqn:E.
    + destruct A as [|d A].
      * cbn in W1. rewrite !andb_true_iff in E. destruct E as [_ E]. apply Ascii.eqb_eq in E. congruence.
      * cbn [app]. f_equal. apply (IH (d :: A)); [cbn; lia|]. split; [discriminate|]. split; assumption.
    + cbn [app]. f_equal. apply (IH (b :: c :: A)); [cbn; lia|]. split; [discriminate|]. split; assumption.
Qed.

Lemma tighten_caretless l : ~ In "^"%char l -> tighten l = l.
Proof.
  induction l as [l IH] using (well_founded_induction (Wf_nat.well_founded_ltof _ (@List.length ascii))).
  unfold Wf_nat.ltof in IH. intros H. destruct l as [|a [|b [|c l]]]; try reflexivity.
  rewrite tighten_eq. destruct (Ascii.eqb_spec b "^") as [->|_].
  - exfalso. apply H. right. left. reflexivity.
  - rewrite andb_false_r. cbn [andb]. f_equal. apply IH; [cbn; lia|]. intros K. apply H. right. exact K.
Qed.

Lemma las_app a b : las (a ++ b)%string = las a ++ las b.
Proof. induction a; cbn; [reflexivity|]. f_equal. exact IHa. Qed.

Lemma last_app (l : list ascii) c d : last (l ++ [c]) d = c.
Proof. apply last_last. Qed.
Lemma ends_paren l : ends_well (l ++ [")"%char]).
Proof. split; [destruct l; discriminate|]. rewrite last_last. split; discriminate. Qed.

(** Leaves: identifiers and number texts. *)
Definition leafy (s : string) : Prop := ends_well (las s) /\ ~ In "^"%char (las s).

Lemma wordy l : l <> [] -> (forall c, In c l -> c <> " "%char /\ c <> "^"%char) -> ends_well l /\ ~ In "^"%char l.
Proof.
  intros NE H. split.
  - split; [exact NE|]. assert (K : In (last l " "%char) l).
    { destruct (exists_last NE) as (l' & c & ->). rewrite last_last. apply in_or_app. right. left. reflexivity. }
    destruct (H _ K). split; assumption.
  - intros K. destruct (H _ K) as [_ C]. congruence.
Qed.
Lemma identifier_leafy s : identifier s = true -> leafy s.
Proof.
  unfold identifier. rewrite !andb_true_iff. intros [[A _] _]. apply wordy.
  - destruct (las s); discriminate.
  - destruct (las s) as [|c l]; [intros ? []|]. apply andb_prop in A. destruct A as [A1 A2].
    rewrite forallb_forall in A2. intros d [<-|D].
    + split; intros ->; discriminate A1.
    + specialize (A2 d D). split; intros ->; discriminate A2.
Qed.
Lemma plain_number_ok s c : plain_number s = true -> In c (las s) -> c <> " "%char /\ c <> "^"%char.
Proof.
  unfold plain_number. destruct (las s) as [|a l]; [discriminate|]. rewrite andb_true_iff. intros [A1 A2].
  rewrite forallb_forall in A2. intros [<-|D].
  - split; intros ->; discriminate A1.
  - specialize (A2 c D). split; intros ->; discriminate A2.
Qed.
Lemma number_leafy s : number_text s = true -> leafy s.
Proof.
  unfold number_text. intros H.
  assert (K : las s <> [] /\ forall c, In c (las s) -> c <> " "%char /\ c <> "^"%char).
  { rewrite !orb_true_iff in H. destruct H as [[[[H|H]|H]|H]|H].
    - apply String.eqb_eq in H. subst. split; [discriminate|]. cbn. intros c K. repeat destruct K as [<-|K]; try (split; discriminate). contradiction.
    - apply String.eqb_eq in H. subst. split; [discriminate|]. cbn. intros c K. repeat destruct K as [<-|K]; try (split; discriminate). contradiction.
    - apply String.eqb_eq in H. subst. split; [discriminate|]. cbn. intros c K. repeat destruct K as [<-|K]; try (split; discriminate). contradiction.
    - split; [|intros c; apply plain_number_ok; exact H]. unfold plain_number in H. destruct (las s); discriminate.
    - destruct s as [|a s]; [discriminate|]. split; [discriminate|].
      assert (a = "-"%char /\ plain_number s = true) as [-> P].
      { destruct a as [[] [] [] [] [] [] [] []]; try discriminate. split; [reflexivity|exact H]. }
      intros c [<-|D]; [split; discriminate|]. apply (plain_number_ok s c P D). }
  destruct K as [K1 K2]. apply wordy; assumption.
Qed.

Context {N : Num} (show : N -> string) (names : nat -> string).
Notation P := (interpret (PrettyPrint show) names).

Lemma pretty_ends t : good_show show -> names_ok identifier (tree names t) -> ends_well (las (P t)).
Proof.
  intros [_ G] K. unfold tree in K.
  assert (E : forall s, ends_well (las (s ++ ")"))) by (intros s; rewrite las_app; apply ends_paren).
  assert (F : forall a b, ends_well (las b) -> ends_well (las (a ++ b))).
  { intros a b (NE & A & B). rewrite las_app. destruct (exists_last NE) as (l & c & L). rewrite L in *.
    rewrite last_last in A, B. rewrite app_assoc. split; [|rewrite last_last; split; assumption].
    destruct (las a ++ l); discriminate. }
  destruct t; cbn [interpret PrettyPrint e_add e_sub e_mul e_div e_pow e_neg e_ln e_exp e_sqrt e_sin e_cos e_constant e_var].
  1: apply identifier_leafy, K; constructor.
  1: apply identifier_leafy, K; constructor.
  1: apply number_leafy, G.
  all: repeat (first [apply E | apply F]).
Qed.

Lemma tighten_wrap a b c : ends_well (las b) -> tighten (las (a ++ b ++ c)) = tighten (las a ++ las b) ++ tighten (las c).
Proof.
  intros (NE & A & B). rewrite !las_app, app_assoc. apply tighten_app. destruct (exists_last NE) as (l & d & L). rewrite L in *.
  rewrite last_last in A, B. rewrite app_assoc. split; [|rewrite last_last; split; assumption].
  destruct (las a ++ l); discriminate.
Qed.

Definition starts_well (l : list ascii) : Prop := match l with c :: _ => c <> "^"%char | [] => False end.
Lemma pretty_starts t : good_show show -> names_ok identifier (tree names t) -> starts_well (las (P t)).
Proof.
  intros [_ G] K. unfold tree in K.
  assert (L : forall s, leafy s -> starts_well (las s)).
  { intros s [(NE & _) A]. destruct (las s) as [|c l]; [congruence|]. cbn. intros ->. apply A. left. reflexivity. }
  destruct t; cbn [interpret PrettyPrint e_add e_sub e_mul e_div e_pow e_neg e_ln e_exp e_sqrt e_sin e_cos e_constant e_var].
  1: apply L, identifier_leafy, K; constructor.
  1: apply L, identifier_leafy, K; constructor.
  1: apply L, number_leafy, G.
  all: discriminate.
Qed.

Lemma tighten_space l : starts_well l -> tighten (" "%char :: l) = " "%char :: tighten l.
Proof.
  destruct l as [|b [|c l]]; intros W; try reflexivity. rewrite tighten_eq. cbn [starts_well] in W.
  destruct (Ascii.eqb_spec b "^"); [contradiction|]. reflexivity.
Qed.
Lemma tighten_close : tighten [")"%char] = [")"%char]. Proof. reflexivity. Qed.

Lemma tighten_bin l r (op : ascii) : op <> "^"%char -> op <> " "%char -> ends_well (las l) -> ends_well (las r) -> starts_well (las r) ->
  tighten (las ("(" ++ l ++ (String " " (String op " ")) ++ r ++ ")")%string) =
  "("%char :: tighten (las l) ++ [" "%char; op; " "%char] ++ tighten (las r) ++ [")"%char].
Proof.
  intros NO NS WL WR SR. rewrite !las_app. cbn [las list_ascii_of_string app].
  rewrite tighten_cons by discriminate. f_equal.
  rewrite tighten_app by exact WL. f_equal.
  rewrite tighten_space by exact NO. f_equal. rewrite tighten_cons by exact NS. f_equal.
  rewrite tighten_space by (destruct (las r); [destruct SR|exact SR]). f_equal.
  rewrite tighten_app by exact WR. reflexivity.
Qed.
Lemma tighten_pow l r : ends_well (las l) -> ends_well (las r) ->
  tighten (las ("(" ++ l ++ " ^ " ++ r ++ ")")%string) =
  "("%char :: tighten (las l) ++ ["^"%char] ++ tighten (las r) ++ [")"%char].
Proof.
  intros WL WR. rewrite !las_app. cbn [las list_ascii_of_string app].
  rewrite tighten_cons by discriminate. f_equal. rewrite tighten_app by exact WL. f_equal.
  cbn [tighten Ascii.eqb Bool.eqb andb]. f_equal. rewrite tighten_app by exact WR. reflexivity.
Qed.
Lemma tighten_call f a : ~ In " "%char (las f) -> ends_well (las a) ->
  tighten (las (f ++ a ++ ")")%string) = las f ++ tighten (las a) ++ [")"%char].
Proof.
  intros NS W. rewrite !las_app. cbn [las list_ascii_of_string].
  replace (tighten (las a) ++ [")"%char]) with (tighten (las a ++ [")"%char])) by (rewrite tighten_app by exact W; reflexivity). clear W.
  change (list_ascii_of_string f) with (las f).
  generalize (las a ++ [")"%char]) as z. intros z. induction (las f) as [|c l IH]; [reflexivity|].
  cbn [app]. rewrite tighten_cons by (intros ->; apply NS; left; reflexivity). f_equal. apply IH.
  intros K. apply NS. right. exact K.
Qed.

Lemma names_ok_l {A} ok (e1 e2 : expr A) :
  names_ok ok (Add e1 e2) \/ names_ok ok (Sub e1 e2) \/ names_ok ok (Mul e1 e2) \/ names_ok ok (Div e1 e2) \/
  names_ok ok (Pow e1 e2) -> names_ok ok e1 /\ names_ok ok e2.
Proof.
  intros [H|[H|[H|[H|H]]]]; split; intros x O; apply H;
    first [solve [apply o_add_l, O] | solve [apply o_add_r, O] | solve [apply o_sub_l, O] | solve [apply o_sub_r, O]
      | solve [apply o_mul_l, O] | solve [apply o_mul_r, O] | solve [apply o_div_l, O] | solve [apply o_div_r, O]
      | solve [apply o_pow_l, O] | solve [apply o_pow_r, O]].
Qed.

Lemma tighten_pretty t : good_show show -> names_ok identifier (tree names t) ->
  tighten (las (P t)) = las (display show (tree names t)).
Proof.
  intros G. unfold tree.
  induction t; intros K; cbn [interpret JITEval e_add e_sub e_mul e_div e_pow e_neg e_ln e_exp e_sqrt e_sin e_cos e_constant e_var] in K |- *;
    try (apply names_ok_l in K || (apply names_ok_l in K; fail));
    try (let K' := fresh in assert (K' := names_ok_l identifier _ _ (or_introl K)); clear K; rename K' into K);
    try (let K' := fresh in assert (K' := names_ok_l identifier _ _ (or_intror (or_introl K))); clear K; rename K' into K);
    try (let K' := fresh in assert (K' := names_ok_l identifier _ _ (or_intror (or_intror (or_introl K)))); clear K; rename K' into K);
    try (let K' := fresh in assert (K' := names_ok_l identifier _ _ (or_intror (or_intror (or_intror (or_introl K))))); clear K; rename K' into K);
    try (let K' := fresh in assert (K' := names_ok_l identifier _ _ (or_intror (or_intror (or_intror (or_intror K))))); clear K; rename K' into K);
    try (match type of K with _ /\ _ => destruct K as [K1 K2] end;
      pose proof (pretty_ends t1 G K1) as W1; pose proof (pretty_ends t2 G K2) as W2; pose proof (pretty_starts t2 G K2) as W3;
      specialize (IHt1 K1); specialize (IHt2 K2));
    try (assert (K' : names_ok identifier (tree names t)) by (intros x O; apply K; constructor; exact O);
      pose proof (pretty_ends t G K') as W; specialize (IHt K')).
  - apply tighten_caretless, identifier_leafy, K. constructor.
  - apply tighten_caretless, identifier_leafy, K. constructor.
  - apply tighten_caretless, number_leafy, G.
  - etransitivity; [apply (tighten_bin (P t1) (P t2) "+"); try assumption; discriminate|]. rewrite IHt1, IHt2.
    cbn [display]. rewrite !las_app. reflexivity.
  - etransitivity; [apply (tighten_bin (P t1) (P t2) "-"); try assumption; discriminate|]. rewrite IHt1, IHt2.
    cbn [display]. rewrite !las_app. reflexivity.
  - etransitivity; [apply (tighten_bin (P t1) (P t2) "*"); try assumption; discriminate|]. rewrite IHt1, IHt2.
    cbn [display]. rewrite !las_app. reflexivity.
  - etransitivity; [apply (tighten_bin (P t1) (P t2) "/"); try assumption; discriminate|]. rewrite IHt1, IHt2.
    cbn [display]. rewrite !las_app. reflexivity.
  - etransitivity; [apply (tighten_pow (P t1) (P t2)); assumption|]. rewrite IHt1, IHt2.
    cbn [display]. rewrite !las_app. reflexivity.
  - etransitivity; [apply (tighten_call "(-" (P t)); [cbn; intuition discriminate|assumption]|]. rewrite IHt.
    cbn [display]. rewrite !las_app. reflexivity.
  - etransitivity; [apply (tighten_call "ln(" (P t)); [cbn; intuition discriminate|assumption]|]. rewrite IHt.
    cbn [display]. rewrite !las_app. reflexivity.
  - etransitivity; [apply (tighten_call "exp(" (P t)); [cbn; intuition discriminate|assumption]|]. rewrite IHt.
    cbn [display]. rewrite !las_app. reflexivity.
  - etransitivity; [apply (tighten_call "sqrt(" (P t)); [cbn; intuition discriminate|assumption]|]. rewrite IHt.
    cbn [display]. rewrite !las_app. reflexivity.
  - etransitivity; [apply (tighten_call "sin(" (P t)); [cbn; intuition discriminate|assumption]|]. rewrite IHt.
    cbn [display]. rewrite !las_app. reflexivity.
  - etransitivity; [apply (tighten_call "cos(" (P t)); [cbn; intuition discriminate|assumption]|]. rewrite IHt.
    cbn [display]. rewrite !las_app. reflexivity.
Qed.

Lemma las_inj a b : las a = las b -> a = b.
Proof.
  intros H. rewrite <- (string_of_list_ascii_of_string a), <- (string_of_list_ascii_of_string b). f_equal. exact H.
Qed.

Lemma pretty_injective t u : good_show show -> names_ok identifier (tree names t) -> names_ok identifier (tree names u) ->
  P t = P u -> tree names t = tree names u.
Proof.
  intros G T U E. apply (display_injective show); try assumption. apply las_inj.
  rewrite <- !tighten_pretty by assumption. rewrite E. reflexivity.
Qed.
End Pretty.

(** * Compilation *)
Lemma tree_occurs {N : Num} names (t : term N) x : closed t ->
  occurs x (tree names t) <-> exists i, In i (inputs t) /\ names i = x.
Proof.
  unfold tree. induction t; intros C; cbn [closed inputs interpret JITEval e_add e_sub e_mul e_div e_pow e_neg e_ln e_exp e_sqrt e_sin e_cos e_constant e_var] in *;
    try contradiction.
  - split; [intros O; inversion O; subst; exists i; split; [left|]; reflexivity|intros (j & [<-|[]] & <-); constructor].
  - split; [intros O; inversion O|intros (j & [] & _)].
  - destruct C as [C1 C2]. split.
    + intros O; inversion O; subst;
        match goal with H : occurs x _ |- _ => first [apply (IHt1 C1) in H | apply (IHt2 C2) in H]; destruct H as (i & A & B) end;
        exists i; (split; [apply in_or_app; tauto|exact B]).
    + intros (i & A & B). apply in_app_or in A. destruct A as [A|A]; [apply o_add_l, (IHt1 C1)|apply o_add_r, (IHt2 C2)]; exists i; tauto.
  - destruct C as [C1 C2]. split.
    + intros O; inversion O; subst;
        match goal with H : occurs x _ |- _ => first [apply (IHt1 C1) in H | apply (IHt2 C2) in H]; destruct H as (i & A & B) end;
        exists i; (split; [apply in_or_app; tauto|exact B]).
    + intros (i & A & B). apply in_app_or in A. destruct A as [A|A]; [apply o_sub_l, (IHt1 C1)|apply o_sub_r, (IHt2 C2)]; exists i; tauto.
  - destruct C as [C1 C2]. split.
    + intros O; inversion O; subst;
        match goal with H : occurs x _ |- _ => first [apply (IHt1 C1) in H | apply (IHt2 C2) in H]; destruct H as (i & A & B) end;
        exists i; (split; [apply in_or_app; tauto|exact B]).
    + intros (i & A & B). apply in_app_or in A. destruct A as [A|A]; [apply o_mul_l, (IHt1 C1)|apply o_mul_r, (IHt2 C2)]; exists i; tauto.
  - destruct C as [C1 C2]. split.
    + intros O; inversion O; subst;
        match goal with H : occurs x _ |- _ => first [apply (IHt1 C1) in H | apply (IHt2 C2) in H]; destruct H as (i & A & B) end;
        exists i; (split; [apply in_or_app; tauto|exact B]).
    + intros (i & A & B). apply in_app_or in A. destruct A as [A|A]; [apply o_div_l, (IHt1 C1)|apply o_div_r, (IHt2 C2)]; exists i; tauto.
  - destruct C as [C1 C2]. split.
    + intros O; inversion O; subst;
        match goal with H : occurs x _ |- _ => first [apply (IHt1 C1) in H | apply (IHt2 C2) in H]; destruct H as (i & A & B) end;
        exists i; (split; [apply in_or_app; tauto|exact B]).
    + intros (i & A & B). apply in_app_or in A. destruct A as [A|A]; [apply o_pow_l, (IHt1 C1)|apply o_pow_r, (IHt2 C2)]; exists i; tauto.
  - rewrite <- (IHt C). split; [intros O; inversion O; assumption|constructor; assumption].
  - rewrite <- (IHt C). split; [intros O; inversion O; assumption|constructor; assumption].
  - rewrite <- (IHt C). split; [intros O; inversion O; assumption|constructor; assumption].
  - rewrite <- (IHt C). split; [intros O; inversion O; assumption|constructor; assumption].
  - rewrite <- (IHt C). split; [intros O; inversion O; assumption|constructor; assumption].
  - rewrite <- (IHt C). split; [intros O; inversion O; assumption|constructor; assumption].
Qed.

Lemma jit_direct L rho names args (t : term (F64 L)) : closed t -> rounded_ops t ->
  (forall i, In i (inputs t) -> rho (names i) = args i) ->
  jit_value rho (tree names t) = Some (@interpret (F64 L) DirectEval args t).
Proof.
  unfold tree. induction t; intros C X B; cbn [closed rounded_ops inputs interpret JITEval e_add e_sub e_mul e_div e_pow e_neg e_ln e_exp e_sqrt e_sin e_cos e_constant e_var jit_value] in *;
    cbv zeta; try contradiction; try reflexivity;
    try (destruct C as [C1 C2], X as [X1 X2]; rewrite IHt1, IHt2 by (try assumption; intros; apply B, in_or_app; tauto); reflexivity);
    try (rewrite IHt by assumption; reflexivity).
  rewrite B by (left; reflexivity). reflexivity.
Qed.

Lemma compile_closed (t : term f64) ds ps L : @closed (F64 L) t -> (forall i, In i (inputs t) -> (i < List.length (ds ++ ps))%nat) ->
  exists f, compile_final_tagless (@tree (F64 L) (slot_name ds ps) t) ds ps [] = JOk f.
Proof.
  intros C B. apply tagless_ok. intros x O. apply (tree_occurs (N := F64 L) _ t x C) in O.
  destruct O as (i & I & <-). left. apply nth_In, B, I.
Qed.

Lemma compiled_direct L (t : term f64) ds ps f args : @closed (F64 L) t -> rounded_ops t -> NoDup (ds ++ ps) ->
  List.length args = List.length (ds ++ ps) -> (forall i, In i (inputs t) -> (i < List.length (ds ++ ps))%nat) ->
  compile_final_tagless (@tree (F64 L) (slot_name ds ps) t) ds ps [] = JOk f ->
  invoke f (map AFloat args) = Returned (@interpret (F64 L) DirectEval (fun i => nth i args S754_nan) t).
Proof.
  intros C X ND LA B F. destruct (tagless_code _ _ _ _ _ F) as [[_ A] _].
  rewrite A by (rewrite LA, app_length; reflexivity). unfold evaluates.
  rewrite (jit_direct L _ _ (fun i => nth i args S754_nan) t C X); [reflexivity|].
  intros i I. unfold total, slot_name.
  assert (E1 : nth_error (ds ++ ps) i = Some (nth i (ds ++ ps) EmptyString)) by (apply nth_error_nth', B, I).
  assert (E2 : nth_error args i = Some (nth i args S754_nan)) by (apply nth_error_nth'; rewrite LA; apply B, I).
  rewrite (tagless_slot ds ps [] args i _ _ ND LA (fun H => H) E1 E2). reflexivity.
Qed.

Lemma tree_vars_occurs {A} (e : expr A) x : In x (tree_vars e) <-> occurs x e.
Proof.
  induction e; cbn [tree_vars]; rewrite ?in_app_iff.
  - split; [intros []|intros O; inversion O].
  - split; [intros [<-|[]]; constructor|intros O; inversion O; left; reflexivity].
  - rewrite IHe1, IHe2. split; [intros [H|H]; [apply o_add_l|apply o_add_r]; exact H|intros O; inversion O; tauto].
  - rewrite IHe1, IHe2. split; [intros [H|H]; [apply o_sub_l|apply o_sub_r]; exact H|intros O; inversion O; tauto].
  - rewrite IHe1, IHe2. split; [intros [H|H]; [apply o_mul_l|apply o_mul_r]; exact H|intros O; inversion O; tauto].
  - rewrite IHe1, IHe2. split; [intros [H|H]; [apply o_div_l|apply o_div_r]; exact H|intros O; inversion O; tauto].
  - rewrite IHe1, IHe2. split; [intros [H|H]; [apply o_pow_l|apply o_pow_r]; exact H|intros O; inversion O; tauto].
  - rewrite IHe. split; [constructor; assumption|intros O; inversion O; assumption].
  - rewrite IHe. split; [constructor; assumption|intros O; inversion O; assumption].
  - rewrite IHe. split; [constructor; assumption|intros O; inversion O; assumption].
  - rewrite IHe. split; [constructor; assumption|intros O; inversion O; assumption].
  - rewrite IHe. split; [constructor; assumption|intros O; inversion O; assumption].
  - rewrite IHe. split; [constructor; assumption|intros O; inversion O; assumption].
Qed.

Lemma auto_compiles e order : collected e order -> exists f, compile_auto e order = JOk f.
Proof.
  intros [_ H]. apply tagless_ok. intros x O. left. rewrite app_nil_r. apply H, tree_vars_occurs, O.
Qed.

Lemma auto_single e x : collected e [x] -> exists f, compile_auto e [x] = JOk f /\
  forall v, call_single f v = evaluates (fun _ => v) e.
Proof.
  intros H. destruct (auto_compiles e [x] H) as [f F]. exists f. split; [exact F|]. intros v.
  destruct (tagless_code e [x] [] [] f F) as [A B]. rewrite (single_call f 1 0 e _ A B). cbn [Nat.eqb andb].
  apply evaluates_ext. intros y O. destruct H as [_ H]. apply tree_vars_occurs, H in O. destruct O as [<-|[]].
  unfold total, tagless_binding, lookup_last. cbn. rewrite String.eqb_refl. reflexivity.
Qed.

Lemma auto_many e order : collected e order -> (2 <= List.length order)%nat -> exists f, compile_auto e order = JOk f /\
  (forall v, call_single f v = Panicked) /\ (forall v t, call_data_param f v t = Panicked) /\
  (forall v ts, call_data_params f v ts = Panicked) /\
  (forall ds ps, call_batch f ds ps = Panicked \/ call_batch f ds ps = LayoutMismatch).
Proof.
  intros H L. destruct (auto_compiles e order H) as [f F]. exists f. split; [exact F|].
  destruct (tagless_code e order [] [] f F) as [A B].
  assert (NE : Nat.eqb (List.length order) 1 = false) by (apply Nat.eqb_neq; lia).
  split; [|split; [|split]]; intros.
  - rewrite (single_call f _ 0 e _ A B), NE. reflexivity.
  - rewrite (data_param_call f _ 0 e _ A B), NE. reflexivity.
  - rewrite (data_params_call f _ 0 e _ A B), NE. reflexivity.
  - rewrite (batch_call f _ 0 e _ A B), NE. destruct (_ && _); tauto.
Qed.

Lemma auto_none e : collected e [] -> exists f, compile_auto e [] = JOk f /\
  (forall v, call_single f v = Panicked) /\ (forall v t, call_data_param f v t = Panicked) /\
  (forall v ts, call_data_params f v ts = Panicked).
Proof.
  intros H. destruct (auto_compiles e [] H) as [f F]. exists f. split; [exact F|].
  destruct (tagless_code e [] [] [] f F) as [A B].
  split; [|split]; intros.
  - rewrite (single_call f 0 0 e _ A B). reflexivity.
  - rewrite (data_param_call f 0 0 e _ A B). reflexivity.
  - rewrite (data_params_call f 0 0 e _ A B). reflexivity.
Qed.
