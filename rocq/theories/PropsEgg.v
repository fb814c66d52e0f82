(** Properties C20 and C21: the egglog text round trip and the rewrite rules.
    EggSpec.v: [one_decimal c c'] says [c'] is the binary64 number nearest to
    [c] rounded to one digit after the point; [sound lg rule] that wherever an
    instance of the left side has a (real) value the right side has that value;
    EggModel.v: [present]/[equated rs roots i] are the terms an e-graph
    represents and the equalities it holds after at most [i] iterations. *)
From Coq Require Import ZArith Reals Bool String List Lra Lia.
From Coq Require Import Floats.SpecFloat.
From Flocq Require Import Core.
From Verif Require Import Num XRFacts ExprModel ExprSpec ExprEval2 JitModel EggModel EggSpec EggProofs EggProofs2 EggText
  LitFacts EggNum.
Import ListNotations.
Local Open Scope string_scope.
Local Open Scope list_scope.
Local Open Scope R_scope.

(** * C20: text round trip *)
(** An expression without square roots, whose names have balanced parentheses,
    comes back with the same structure and names, and each constant rounded to
    one decimal. *)
Theorem C20_round_trip : forall e, balanced_names e -> f64_constants e -> ~ has_sqrt e ->
  exists e', egglog_to_expr (expr_to_egglog e) = Parsed e' /\ consts_related one_decimal e e'.
Proof.
  intros e B C NS. exists (reread_all e). split; [apply round_trip; assumption|apply reread_all_related; exact C].
Qed.
Print Assumptions C20_round_trip.
(** It comes back unchanged exactly when every finite constant is the binary64
    number nearest to a multiple of 1/10 that it is nearest to. *)
Theorem C20_exact_iff : forall e, balanced_names e -> f64_constants e -> ~ has_sqrt e ->
  egglog_to_expr (expr_to_egglog e) = Parsed e <->
  (forall c, constant_of c e -> finite c -> val c = RN (IZR (ZnearestE (10 * val c)) / 10)).
Proof.
  intros e B C NS. destruct (round_trip e B) as [R _]. rewrite R by exact NS.
  rewrite <- (reread_all_fixed e C). split; [intros H; injection H as H; exact H|intros H; rewrite H; reflexivity].
Qed.
Print Assumptions C20_exact_iff.
(** In particular for integers, and for decimals [k/10] up to 2^50/10. *)
Theorem C20_exact_for_short_decimals : forall e, balanced_names e -> f64_constants e -> ~ has_sqrt e ->
  (forall c, constant_of c e -> ~ finite c \/ (exists k, val c = IZR k) \/
     (exists k, (Z.abs k <= 2 ^ 50)%Z /\ val c = RN (IZR k / 10))) ->
  egglog_to_expr (expr_to_egglog e) = Parsed e.
Proof.
  intros e B C NS H. apply C20_exact_iff; try assumption. intros c I F.
  assert (V : SpecFloat.valid_binary 53 1024 c = true).
  { clear - C I. unfold constant_of in I. induction e; cbn [subexprs f64_constants] in *;
      destruct I as [E|I]; try discriminate E; try contradiction;
      try (apply in_app_or in I; destruct I as [I|I]; destruct C as [C1 C2]; auto); auto.
    injection E as ->. exact C. }
  destruct (H c I) as [NF|[[k E]|(k & K & E)]]; [contradiction| |].
  - exact (integer_survives c k V E F).
  - exact (tenth_survives c k E K F).
Qed.
Print Assumptions C20_exact_for_short_decimals.
(** A square root is written but never read back: parsing fails, and the
    optimizer returns its input. *)
Theorem C20_sqrt_refuted : forall e, balanced_names e -> has_sqrt e ->
  egglog_to_expr (expr_to_egglog e) = Unparsed /\
  forall original, optimize_with (Some (expr_to_egglog e)) original = Some original.
Proof.
  intros e B S'. destruct (round_trip e B) as [_ R]. specialize (R S'). split; [exact R|].
  intros o. unfold optimize_with. rewrite R. reflexivity.
Qed.
Print Assumptions C20_sqrt_refuted.
(** Two decimals do not survive: 0.25 comes back as 0.2, and 0.01 as 0. *)
Theorem C20_second_decimal_refuted : 
  egglog_to_expr (expr_to_egglog (Const (f64_lit 25 100))) = Parsed (Const (f64_lit 2 10)) /\
  egglog_to_expr (expr_to_egglog (Const (f64_lit 1 100))) = Parsed (Const (S754_zero false)) /\
  f64_lit 25 100 <> f64_lit 2 10 /\ f64_lit 1 100 <> S754_zero false.
Proof. vm_compute. repeat split; discriminate. Qed.
Print Assumptions C20_second_decimal_refuted.
(** A name with unbalanced parentheses can be misread, or panic the parser. *)
Theorem C20_unbalanced_name_refuted :
  egglog_to_expr (expr_to_egglog (Add (Var ") y") (Var "z"))) = ParsePanic /\
  egglog_to_expr (expr_to_egglog (Add (Var "(") (Var "z"))) = Unparsed /\
  egglog_to_expr (expr_to_egglog (Add (Var "z") (Add (Var ") y") (Var "z")))) = ParsePanic.
Proof. vm_compute. repeat split; reflexivity. Qed.
Print Assumptions C20_unbalanced_name_refuted.
(** Spaces, tabs and line breaks around a text do not matter. *)
Definition blank (s : string) : Prop := forall c, In c (list_ascii_of_string s) -> In (Ascii.N_of_ascii c) [32; 9; 10; 11; 12; 13]%N.
Theorem C20_surrounding_blanks : forall pre s post, blank pre -> blank post -> egglog_to_expr (pre ++ s ++ post)%string = egglog_to_expr s.
Proof.
  assert (SP : forall c s, blank (String c s) -> is_space c = true /\ blank s).
  { intros c s B. split; [|intros d D; apply B; right; exact D]. specialize (B c (or_introl eq_refl)). unfold is_space.
    cbn [In] in B. destruct B as [<-|[<-|[<-|[<-|[<-|[<-|[]]]]]]]; reflexivity. }
  assert (TS : forall pre s, blank pre -> trim_start (pre ++ s)%string = trim_start s).
  { induction pre as [|c pre IH]; intros s B; [reflexivity|]. destruct (SP c pre B) as [E B']. cbn. rewrite E. apply IH, B'. }
  assert (TE : forall post, blank post -> trim_end post = ""%string).
  { induction post as [|c post IH]; intros B; [reflexivity|]. destruct (SP c post B) as [E B']. cbn. rewrite (IH B'), E. reflexivity. }
  assert (TA : forall t post, blank post -> trim_end (t ++ post)%string = trim_end t).
  { induction t as [|c t IH]; intros post B; [apply TE, B|]. cbn. rewrite (IH post B). reflexivity. }
  assert (T : forall s post, blank post -> trim (s ++ post)%string = trim s).
  { intros s post B. unfold trim. induction s as [|c s IH].
    - cbn. pose proof (TS post ""%string B) as Q. rewrite app_nil_s in Q. rewrite Q. reflexivity.
    - cbn [append trim_start]. destruct (is_space c); [exact IH|]. exact (TA (String c s) post B). }
  intros pre s post B1 B2. unfold egglog_to_expr.
  rewrite (parse_fuel (S (String.length s)) (S (String.length (pre ++ s ++ post))) s) by (rewrite ?len_app; lia).
  assert (E : trim (pre ++ s ++ post)%string = trim s) by (unfold trim; rewrite (TS pre _ B1); exact (T s post B2)).
  cbn [egglog_parse]. rewrite E. reflexivity.
Qed.
Print Assumptions C20_surrounding_blanks.
Example C20_blanks_case : blank "  " /\ egglog_to_expr "  (Var ""x"")  " = Parsed (Var "x").
Proof. split; [|vm_compute; reflexivity]. intros c [<-|[<-|[]]]; left; reflexivity. Qed.
(** What the optimizer returns for the text of [t]: [t] with each constant
    rounded to one decimal, or its input. *)
Theorem C20_optimizer_output : forall t e, balanced_names t -> f64_constants t ->
  (~ has_sqrt t /\ exists t', optimize_with (Some (expr_to_egglog t)) e = Some t' /\ consts_related one_decimal t t') \/
  (has_sqrt t /\ optimize_with (Some (expr_to_egglog t)) e = Some e).
Proof.
  intros t e B C. destruct (parse_text t B (S (String.length (expr_to_egglog t))) (Nat.lt_succ_diag_r _)) as [[NS P]|[S' P]].
  - left. split; [exact NS|]. exists (reread_all t). unfold optimize_with, egglog_to_expr. rewrite P.
    split; [reflexivity|apply reread_all_related; exact C].
  - right. split; [exact S'|]. unfold optimize_with, egglog_to_expr. rewrite P. reflexivity.
Qed.
Print Assumptions C20_optimizer_output.
(** The parser's recursion never runs out: more fuel than the length of the
    text changes nothing. *)
Theorem C20_parser_total : forall n m s, (String.length s < n)%nat -> (String.length s < m)%nat ->
  egglog_parse n s = egglog_parse m s.
Proof. exact parse_fuel. Qed.
Print Assumptions C20_parser_total.

Example C20_example :
  let e := Add (Mul (Const (f64_lit 25 10)) (Var "f(x)")) (Neg (Ln (Pow (Var "y 1") (Const (f64_lit (-3) 1))))) in
  expr_to_egglog e = "(Add (Mul (Const 2.5) (Var ""f(x)"")) (Neg (Ln (Pow (Var ""y 1"") (Const -3.0)))))" /\
  egglog_to_expr (expr_to_egglog e) = Parsed e /\ balanced_names e /\ f64_constants e /\ ~ has_sqrt e.
Proof. vm_compute. intuition. Qed.

(** * C21: rewrite rules *)
(** Every rule but two is sound on every instance. *)
Theorem C21_rules_sound : forall lg rule, In rule rules -> rule <> pow_pow_rule -> rule <> ln_pow_rule -> sound lg rule.
Proof. intros lg. exact (proj1 (Forall_forall _ _) (rules_sound lg)). Qed.
Print Assumptions C21_rules_sound.
Theorem C21_pow_of_pow_refuted : forall lg, In pow_pow_rule rules /\ ~ sound lg pow_pow_rule.
Proof. intros lg. split; [unfold rules; repeat (try (left; reflexivity); right)|apply pow_pow_unsound]. Qed.
Print Assumptions C21_pow_of_pow_refuted.
Theorem C21_ln_of_pow_refuted : forall lg, In ln_pow_rule rules /\ ~ sound lg ln_pow_rule.
Proof. intros lg. split; [unfold rules; repeat (try (left; reflexivity); right)|apply ln_pow_unsound]. Qed.
Print Assumptions C21_ln_of_pow_refuted.
(** Saturation, any number of iterations, any set of sound rules, any history
    of terms that have values: everything the e-graph equates has one value, so
    any extracted representative of an entered term has that term's value. *)
Theorem C21_saturation_sound : forall lg (vars : env (XR lg)) rs roots, (forall r, In r rs -> sound lg r) ->
  (forall r, In r roots -> exists v, denotes vars r v) ->
  forall i t u v, equated rs roots i t u -> denotes vars t v -> denotes vars u v.
Proof.
  intros lg vars rs roots SR DR i t u v E D.
  destruct (proj2 (saturation_sound vars rs roots SR DR) i t u E) as (w & A & B).
  rewrite (denotes_fun _ _ _ _ _ D A). exact B.
Qed.
Print Assumptions C21_saturation_sound.
(** With all 59 rules: the same when powers and square roots are taken of
    positive numbers only. *)
Theorem C21_all_rules_sound_on_positive_powers : forall lg (vars : env (XR lg)) roots,
  (forall r, In r roots -> positive_powers vars r /\ exists v, denotes vars r v) ->
  forall i t u v, equated rules roots i t u -> denotes vars t v -> denotes vars u v.
Proof.
  intros lg vars roots DR i t u v E D.
  destruct (proj2 (saturation_positive vars roots DR) i t u E) as (_ & _ & w & A & B).
  rewrite (denotes_fun _ _ _ _ _ D A). exact B.
Qed.
Print Assumptions C21_all_rules_sound_on_positive_powers.
Theorem C21_constants_stay_distinct : forall lg (vars : env (XR lg)) roots,
  (forall r, In r roots -> positive_powers vars r /\ exists v, denotes vars r v) ->
  forall i a b, equated rules roots i (Const (Fin a : XR lg)) (Const (Fin b : XR lg)) -> a = b.
Proof.
  intros lg vars roots DR i a b E.
  assert (D : denotes vars (Const (Fin b : XR lg)) a)
    by (eapply C21_all_rules_sound_on_positive_powers; [exact DR|exact E|constructor]).
  inversion D. reflexivity.
Qed.
Print Assumptions C21_constants_stay_distinct.
(** With an even power of a negative number 1 and -1 become equal, in fewer than
    the 5 iterations the optimizer runs. *)
Theorem C21_negative_base_refuted : forall lg (vars : env (XR lg)),
  denotes vars (Sqrt (Pow (Const (ndec (-1) 1)) (Const (ndec 2 1))) : expr (XR lg)) 1 /\
  equated rules [Sqrt (Pow (Const (ndec (-1) 1)) (Const (ndec 2 1))) : expr (XR lg)] 4
    (Const (ndec 1 1)) (Const (ndec (-1) 1)).
Proof. intros lg vars. split; [apply sqrt_of_square_value|apply one_is_minus_one]. Qed.
Print Assumptions C21_negative_base_refuted.
(** An undefined term entered once (0/0) makes 0 = 1, and every later product
    with 1 equal to 0: terms must all have values. *)
Theorem C21_undefined_term_refuted : forall lg (t : expr (XR lg)) roots,
  In (Div (Const (ndec 0 1)) (Const (ndec 0 1)) : expr (XR lg)) roots ->
  equated rules roots 1 (Const (ndec 0 1)) (Const (ndec 1 1)) /\
  (In (Mul t (Const (ndec 1 1))) roots -> equated rules roots 2 t (Const (ndec 0 1))).
Proof.
  intros lg t roots I. split; [apply zero_is_one; exact I|intros J; apply everything_is_zero; assumption].
Qed.
Print Assumptions C21_undefined_term_refuted.
(** On binary64 values the rules change results even where they are sound over
    the reals: reassociation. *)
Theorem C21_binary64_reassociation_refuted :
  let a := f64_lit 10000000000000000 1 in let one := f64_lit 1 1 in
  f64_add (f64_add a one) one <> f64_add a (f64_add one one).
Proof. vm_compute. discriminate. Qed.
Print Assumptions C21_binary64_reassociation_refuted.

Example C21_example lg (vars : env (XR lg)) :
  let x := Const (ndec 3 1) : expr (XR lg) in
  let e := Add (Mul x (Ln (Pow x (Const (ndec 2 1))))) (Const (ndec 0 1)) in
  (forall r, In r [e] -> positive_powers vars r /\ exists v, denotes vars r v) /\
  equated rules [e] 1 e (Mul x (Ln (Pow x (Const (ndec 2 1))))).
Proof.
  cbv zeta. split.
  - intros r [<-|[]]. 
    assert (X : denotes vars (Const (ndec 3 1) : expr (XR lg)) 3).
    { replace 3 with (IZR 3 / IZR 1) by lra. constructor. }
    assert (T : denotes vars (Const (ndec 2 1) : expr (XR lg)) 2).
    { replace 2 with (IZR 2 / IZR 1) by lra. constructor. }
    assert (Z : denotes vars (Const (ndec 0 1) : expr (XR lg)) 0).
    { replace 0 with (IZR 0 / IZR 1) by lra. constructor. }
    split.
    + cbn [positive_powers]. repeat split. exists 3. split; [exact X|lra].
    + eexists. eapply d_add; [eapply d_mul; [exact X|eapply d_ln; [eapply d_pow_pos; [exact X|exact T|lra]|apply exp_pos]]|exact Z].
  - apply (q_rule rules _ 0 (PAdd x_ c0_) x_ (fun _ => Mul (Const (ndec 3 1)) (Ln (Pow (Const (ndec 3 1)) (Const (ndec 2 1)))))
      (fun _ => ndec 0 1)).
    + left. reflexivity.
    + eapply p_root; [left; reflexivity|left; reflexivity].
Qed.
