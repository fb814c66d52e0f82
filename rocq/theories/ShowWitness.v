(** Proof terms for [PropsShow]: a number format meeting the hypotheses, and
    concrete counterexamples. *)
From Coq Require Import ZArith Reals Bool String Ascii List Lra Lia Arith.
From Coq Require Import Decimal DecimalString DecimalFacts DecimalPos.
From Coq Require Import Floats.SpecFloat.
From Verif Require Import Num XRFacts ExprModel ExprSpec ExprEval ExprSubst ExprWitness
  ShowModel ShowSpec ShowProofs PyProofs.
Import ListNotations.
Local Open Scope string_scope.
Local Open Scope list_scope.

(** ** A text for binary64 numbers that meets [good_show] *)
Definition dec (p : positive) : string := NilEmpty.string_of_uint (Pos.to_uint p).
Definition code (e : Z) : positive :=
  match e with Z0 => 1%positive | Zpos p => (p~0)%positive | Zneg p => (p~1)%positive end.
Definition text64 (x : spec_float) : string :=
  match x with
  | S754_zero false => "0"
  | S754_zero true => "-0"
  | S754_infinity false => "inf"
  | S754_infinity true => "-inf"
  | S754_nan => "NaN"
  | S754_finite s m e => ((if s then "-" else "") ++ dec m ++ "." ++ dec (code e))%string
  end.

Lemma dec_digits u : forallb is_digit (las (NilEmpty.string_of_uint u)) = true.
Proof. induction u; cbn; auto. Qed.
Lemma dec_inj p q : dec p = dec q -> p = q.
Proof.
  unfold dec. intros H. apply Unsigned.to_uint_inj.
  pose proof (NilEmpty.usu (Pos.to_uint p)) as A. rewrite H, NilEmpty.usu in A. congruence.
Qed.
Lemma dec_nonempty p : exists c l, las (dec p) = c :: l /\ is_digit c = true.
Proof.
  pose proof (dec_digits (Pos.to_uint p)) as D. unfold dec.
  assert (Pos.to_uint p <> Nil) by apply Unsigned.to_uint_nonnil.
  destruct (Pos.to_uint p); [congruence|..]; cbn; eauto.
Qed.
Lemma code_inj a b : code a = code b -> a = b.
Proof. destruct a, b; cbn; congruence. Qed.

Lemma split_dot a1 b1 a2 b2 :
  forallb is_digit a1 = true -> forallb is_digit a2 = true ->
  a1 ++ "."%char :: b1 = a2 ++ "."%char :: b2 -> a1 = a2 /\ b1 = b2.
Proof.
  revert a2. induction a1 as [|c a1 IH]; intros [|d a2] H1 H2 E; cbn in *.
  - injection E; auto.
  - injection E as <- E. cbn in H2. discriminate.
  - injection E as -> E. cbn in H1. discriminate.
  - injection E as -> E. apply andb_prop in H1 as [_ H1], H2 as [_ H2].
    destruct (IH _ H1 H2 E) as [-> ->]; auto.
Qed.

Lemma finite_digits m e : exists c l, las (dec m ++ "." ++ dec e)%string = c :: l /\ is_digit c = true /\
  forallb (fun d => is_digit d || Ascii.eqb d ".") l = true /\ In "."%char l.
Proof.
  destruct (dec_nonempty m) as (c & l & E & D). rewrite !las_app, E.
  exists c, (l ++ "."%char :: las (dec e)). repeat split; auto.
  - rewrite forallb_app. cbn.
    pose proof (dec_digits (Pos.to_uint m)) as A. fold (dec m) in A. rewrite E in A. cbn in A.
    apply andb_prop in A as [_ A].
    pose proof (dec_digits (Pos.to_uint e)) as B. fold (dec e) in B.
    rewrite forallb_forall in A, B. apply andb_true_intro. split.
    + apply forallb_forall. intros x I. rewrite A; auto.
    + apply forallb_forall. intros x I. rewrite B; auto.
  - apply in_or_app; right; left; auto.
Qed.

Lemma number_neg t : plain_number t = true -> number_text (String "-" t) = true.
Proof. intros P. unfold number_text. rewrite P, orb_true_r. reflexivity. Qed.
Lemma number_pos t : plain_number t = true -> number_text t = true.
Proof. intros P. unfold number_text. rewrite P, orb_true_r. reflexivity. Qed.
Lemma text64_good (L : libm) : @good_show (F64 L) text64.
Proof.
  assert (FIN : forall m e m' e', (dec m ++ "." ++ dec (code e))%string = (dec m' ++ "." ++ dec (code e'))%string ->
      m = m' /\ e = e').
  { intros m e m' e' H. apply (f_equal las) in H. rewrite !las_app in H.
    apply split_dot in H as [H1 H2]; try apply dec_digits.
    apply las_inj in H1, H2. apply dec_inj in H1, H2. apply code_inj in H2. auto. }
  split.
  - intros a b H. change (spec_float) in a, b.
    assert (ND : forall m e s, las (dec m ++ "." ++ dec e)%string = las s ->
       s = "0" \/ s = "-0" \/ s = "inf" \/ s = "-inf" \/ s = "NaN" -> False).
    { intros m e s E K. destruct (finite_digits m e) as (c & l & E2 & D & _ & I).
      rewrite E2 in E. destruct K as [->|[->|[->|[->| ->]]]]; cbn in E; injection E as -> ->;
        cbn in D, I; try discriminate; tauto. }
    assert (NM : forall m e s, (String "-" (dec m ++ "." ++ dec e))%string = s ->
       s = "0" \/ s = "-0" \/ s = "inf" \/ s = "-inf" \/ s = "NaN" -> False).
    { intros m e s E K. destruct (finite_digits m e) as (c & l & E2 & D & _ & I).
      apply (f_equal las) in E. change (las (String "-" (dec m ++ "." ++ dec e)))
        with ("-"%char :: las (dec m ++ "." ++ dec e)%string) in E. rewrite E2 in E.
      destruct K as [->|[->|[->|[->| ->]]]]; try discriminate E; injection E as -> ->;
        cbn in D, I; try discriminate; tauto. }
    assert (MX : forall m e m' e', (dec m ++ "." ++ dec e)%string = String "-" (dec m' ++ "." ++ dec e')%string -> False).
    { intros m e m' e' E. destruct (finite_digits m e) as (c & l & E2 & D & _ & _).
      apply (f_equal las) in E. rewrite E2 in E. cbn in E. injection E as -> _. discriminate. }
    destruct a as [[]|[]| |[] m e], b as [[]|[]| |[] m' e']; cbn [text64] in H;
      try reflexivity; try discriminate H;
      try (exfalso; revert H; change (("-" ++ ?x)%string) with (String "-" x); intros H;
           first [eapply NM; [exact H|tauto] | eapply NM; [symmetry; exact H|tauto]]; fail);
      try (exfalso; change (("" ++ ?x)%string) with x in H;
           first [eapply ND; [apply f_equal; exact H|tauto] | eapply ND; [apply f_equal; symmetry; exact H|tauto]]; fail).
    + change (("-" ++ ?x)%string) with (String "-" x) in H. injection H as H.
      destruct (FIN _ _ _ _ H) as [-> ->]; auto.
    + exfalso. eapply MX. symmetry. exact H.
    + exfalso. eapply MX. exact H.
    + destruct (FIN _ _ _ _ H) as [-> ->]; auto.
  - intros a. change spec_float in a. destruct a as [[]|[]| |s m e]; try reflexivity.
    destruct (finite_digits m (code e)) as (c & l & E & D & F & _).
    assert (P : plain_number (dec m ++ "." ++ dec (code e))%string = true)
      by (unfold plain_number; rewrite E, D, F; auto).
    destruct s; [exact (number_neg _ P)|exact (number_pos _ P)].
Qed.

(** ** C12 *)
Lemma C12_collide (N : Num) (show : N -> string) (c : N) :
  display show (Var "(x + y)") = display show (Add (Var "x") (Var "y")) /\
  display show (Var (show c)) = display show (Const c).
Proof. split; reflexivity. Qed.

(** ** C13 *)
Lemma C13_python (lg : R -> R) (rd : string -> XR lg) show (e : expr (XR lg)) :
  names_ok py_name e -> consts_readable rd show e -> no_signed_base show e = true ->
  exists t e', python_reads (to_python show e) t /\ py_expr rd t = Some e' /\
    forall vars r, denotes vars e r -> denotes vars e' r.
Proof.
  intros H C S. exists (pyread show e), (split_neg rd show e). repeat split.
  - apply python_reads_pyread. eapply texts_of_readable; eauto.
  - apply pyread_expr; auto.
  - intros vars r. apply split_neg_denotes; auto.
Qed.

Lemma split_neg_strict {N : Num} (rd : string -> N) show e vars :
  consts_readable rd show e -> strict vars (split_neg rd show e) = strict vars e.
Proof.
  intros C. induction e; cbn [consts_readable split_neg strict] in *;
    try (destruct C as [C1 C2]; rewrite ?IHe1, ?IHe2 by auto; reflexivity);
    try (rewrite IHe by auto; reflexivity); auto.
  destruct C as [[A B] | (t & A & B & E)].
  - pose proof (plain_number_ok _ A) as [_ S]. unfold signless in S. transitivity (Ok (A := N) (rd (show c))); [|rewrite B; reflexivity].
    destruct (show c) as [|d s] eqn:Q; [cbn in A; discriminate|]. cbn in S.
    destruct d as [[] [] [] [] [] [] [] []]; reflexivity || discriminate.
  - rewrite A. cbn [strict bind]. rewrite E. reflexivity.
Qed.
Lemma C13_python_strict (N : Num) (rd : string -> N) show (e : expr N) :
  names_ok py_name e -> consts_readable rd show e -> no_signed_base show e = true ->
  exists t e', python_reads (to_python show e) t /\ py_expr rd t = Some e' /\
    forall vars, strict vars e' = strict vars e.
Proof.
  intros H C S. exists (pyread show e), (split_neg rd show e). repeat split.
  - apply python_reads_pyread. eapply texts_of_readable; eauto.
  - apply pyread_expr; auto.
  - intros vars. apply split_neg_strict; auto.
Qed.

Lemma reads_unique s t t' : python_reads s t -> python_reads s t' -> t = t'.
Proof.
  intros [n H] [n' H']. specialize (H (n + n') ltac:(lia)). specialize (H' (n + n') ltac:(lia)).
  congruence.
Qed.

Lemma C13_signed_base (N : Num) (show : N -> string) (c : N) :
  show c = "2" ->
  python_reads (to_python show (Pow (Neg (Var "x")) (Const c))) (PNeg (PPow (PName "x") (PNum "2"))).
Proof. intros E. exists 20. intros n L. cbn [to_python]. rewrite E.
  do 20 (destruct n as [|n]; [lia|]). reflexivity.
Qed.
Lemma C13_signed_value (lg : R -> R) (show : XR lg -> string) (rd : string -> XR lg) :
  show (Fin 2) = "2" -> rd "2" = Fin 2 ->
  exists e t e' vars r r',
    python_reads (to_python show e) t /\ py_expr rd t = Some e' /\
    denotes vars e r /\ denotes vars e' r' /\ r <> r'.
Proof.
  intros SH RD.
  exists (Pow (Neg (Var "x")) (Const (Fin 2 : XR lg))), (PNeg (PPow (PName "x") (PNum "2"))),
    (Neg (Pow (Var "x") (Const (Fin 2 : XR lg)))), [("x", (Fin 3 : XR lg))], 9%R, (-9)%R.
  split; [apply C13_signed_base; auto|]. split; [cbn; rewrite RD; reflexivity|]. split; [|split].
  - replace 9%R with (powerRZ (-3) 2) by (unfold powerRZ; change (Pos.to_nat 2) with 2%nat; cbn [pow]; lra).
    refine (d_pow_int _ _ _ (-3) 2 _ _ _); [|constructor|lra].
    apply (d_neg _ _ 3). constructor. reflexivity.
  - apply (d_neg _ _ 9). replace 9%R with (powerRZ 3 2) by (unfold powerRZ; change (Pos.to_nat 2) with 2%nat; cbn [pow]; lra).
    refine (d_pow_int _ _ _ 3 2 _ _ _); [|constructor|lra]. constructor. reflexivity.
  - lra.
Qed.

Lemma p_none n : p_sum n [TKeyword "lambda"] = None.
Proof. do 6 (destruct n as [|n]; [reflexivity|]). reflexivity. Qed.
Lemma C13_keyword (N : Num) (show : N -> string) :
  forall t, ~ python_reads (to_python show (Var "lambda")) t.
Proof.
  intros t [n H]. specialize (H n (le_n n)). change (tokens _) with [TKeyword "lambda"] in H.
  rewrite p_none in H. discriminate.
Qed.
Lemma C13_infinite (N : Num) (show : N -> string) (c : N) : show c = "inf" ->
  python_reads (to_python show (Const c)) (PName "inf").
Proof. intros E. exists 8. intros n L. cbn [to_python]. rewrite E.
  do 8 (destruct n as [|n]; [lia|]). reflexivity.
Qed.
(** [display::python] writes a lambda whose body uses [^] and [ln]. *)
Lemma C13_lib_python (N : Num) (show : N -> string) (e : expr N) :
  forall t, ~ python_reads (lib_python show e) t.
Proof.
  intros t [n H]. specialize (H n (le_n n)). unfold lib_python in H.
  assert (E : exists r, tokens ("lambda vars: " ++ display show e)%string = TKeyword "lambda" :: r).
  { unfold tokens. rewrite las_app. eexists. cbn -[display]. reflexivity. }
  destruct E as [r E]. rewrite E in H.
  do 6 (destruct n as [|n]; [discriminate|]). discriminate.
Qed.

Lemma C13_latex_ambiguous (lg : R -> R) (show : XR lg -> string) whole show_int :
  exists a b vars r r',
    to_latex show whole show_int a = to_latex show whole show_int b /\
    denotes vars a r /\ denotes vars b r' /\ r <> r'.
Proof.
  exists (Sub (Var "x") (Sub (Var "y") (Var "z"))), (Sub (Sub (Var "x") (Var "y")) (Var "z")),
    [("x", (Fin 0 : XR lg)); ("y", (Fin 0 : XR lg)); ("z", (Fin 1 : XR lg))], (0-(0-1))%R, ((0-0)-1)%R.
  repeat split; try (repeat constructor; fail); lra.
Qed.
Lemma C13_latex_ambiguous_mul (lg : R -> R) (show : XR lg -> string) whole show_int :
  to_latex show whole show_int (Add (Var "x") (Mul (Var "y") (Var "z")))
    = to_latex show whole show_int (Mul (Add (Var "x") (Var "y")) (Var "z")) /\
  exists (vars : env (XR lg)) r r', denotes vars (Add (Var "x") (Mul (Var "y") (Var "z"))) r /\
    denotes vars (Mul (Add (Var "x") (Var "y")) (Var "z")) r' /\ r <> r'.
Proof.
  split; [reflexivity|].
  exists [("x", (Fin 1 : XR lg)); ("y", (Fin 1 : XR lg)); ("z", (Fin 2 : XR lg))], (1+1*2)%R, ((1+1)*2)%R.
  repeat split; try (repeat constructor; fail); lra.
Qed.

Lemma plain_text_number s : number_text s = true -> plain_text s = true.
Proof.
  assert (P : forall s, plain_number s = true -> plain_text s = true).
  { intros t H. unfold plain_number in H. unfold plain_text. destruct (las t) as [|c l]; auto.
    apply andb_prop in H as [H1 H2]. apply forallb_forall. rewrite forallb_forall in H2.
    assert (K : forall d, implb (is_digit d || Ascii.eqb d ".") (negb (Ascii.eqb d "(" ||
       Ascii.eqb d ")" || Ascii.eqb d "{" || Ascii.eqb d "}")) = true)
      by (apply ascii_cases; reflexivity).
    intros d [<-|I].
    - specialize (K c). rewrite H1 in K. exact K.
    - specialize (K d). rewrite (H2 _ I) in K. exact K. }
  unfold number_text. rewrite !orb_true_iff. intros [[[[H|H]|H]|H]|H].
  - apply String.eqb_eq in H; subst; reflexivity.
  - apply String.eqb_eq in H; subst; reflexivity.
  - apply String.eqb_eq in H; subst; reflexivity.
  - apply P, H.
  - destruct s as [|[[] [] [] [] [] [] [] []] s]; try discriminate. cbn. apply (P s H).
Qed.

Lemma C13_balanced (N : Num) (show : N -> string) whole show_int (e : expr N) :
  (forall c, number_text (show c) = true) -> (forall c, number_text (show_int c) = true) ->
  names_ok identifier e ->
  balanced (display show e) /\ balanced (to_python show e) /\
  balanced (to_latex show whole show_int e).
Proof.
  intros A B C.
  assert (P : names_ok plain_text e).
  { intros x O. specialize (C x O). unfold identifier in C. unfold plain_text.
    destruct (las x) as [|c l]; [discriminate|]. rewrite !andb_true_iff in C.
    destruct C as [[[C1 C2] _] _].
    assert (K : forall d, implb (is_word d) (negb (Ascii.eqb d "(" ||
       Ascii.eqb d ")" || Ascii.eqb d "{" || Ascii.eqb d "}")) = true)
      by (apply ascii_cases; reflexivity).
    apply forallb_forall. rewrite forallb_forall in C2. intros d [<-|I].
    - specialize (K c). unfold is_word in K. rewrite C1 in K. exact K.
    - specialize (K d). rewrite (C2 _ I) in K. exact K. }
  repeat split; apply bal_balanced.
  - apply display_bal; auto. intros; apply plain_text_number; auto.
  - apply python_bal; auto. intros; apply plain_text_number; auto.
  - apply latex_bal; auto; intros; apply plain_text_number; auto.
Qed.

Lemma C12_debug (N : Num) (dbg : N -> string) :
  (forall a b, dbg a = dbg b -> a = b) ->
  (forall a c, In c (las (dbg a)) -> c <> ","%char /\ c <> "}"%char) ->
  forall m1 m2 : env N, debug_env dbg m1 = debug_env dbg m2 -> m1 = m2.
Proof.
  intros A B. apply debug_env_injective; auto.
  intros a; split; intros I; destruct (B a _ I); congruence.
Qed.

Lemma text64_no_sep (L : libm) (a : F64 L) c : In c (las (text64 a)) -> c <> ","%char /\ c <> "}"%char.
Proof.
  change spec_float in a. intros I.
  destruct a as [[]|[]| |s m e]; cbn [text64] in I;
    try (cbn in I; repeat destruct I as [<-|I]; try tauto; split; discriminate).
  destruct (finite_digits m (code e)) as (d & l & E & D & F & _).
  assert (X : c = "-"%char \/ c = d \/ In c l).
  { destruct s.
    - change (("-" ++ ?x)%string) with (String "-" x) in I.
      change (las (String "-" ?x)) with ("-"%char :: las x) in I. rewrite E in I. cbn in I. firstorder.
    - change (("" ++ ?x)%string) with x in I. rewrite E in I. cbn in I. firstorder. }
  assert (K : forall d, implb (is_digit d || Ascii.eqb d ".") (negb (Ascii.eqb d "," || Ascii.eqb d "}")) = true)
      by (apply ascii_cases; reflexivity).
  assert (Y : c = "-"%char \/ (is_digit c || Ascii.eqb c ".") = true).
  { destruct X as [->|[->|X]]; [left; auto|right; rewrite D; auto|right].
    rewrite forallb_forall in F. apply F; auto. }
  destruct Y as [->|Y]; [split; discriminate|].
  specialize (K c). rewrite Y in K. cbn in K. apply negb_true_iff, orb_false_iff in K as [K1 K2].
  split; intros ->; discriminate.
Qed.

Lemma C13_example :
  exists (show : XR (fun x => x) -> string) rd,
  let e := Mul (Const (Fin (-3) : XR (fun x => x))) (Pow (Sub (Var "x") (Var "mu")) (Const (Fin 2 : XR (fun x => x)))) in
  names_ok py_name e /\ consts_readable rd show e /\ no_signed_base show e = true /\
  to_python show e = "(-3 * ((x - mu) ** 2))" /\ show (Fin 2) = "2" /\ rd "2" = Fin 2.
Proof.
  exists (fun c => match c with Fin r => if Req_EM_T r 2 then "2" else "-3" | _ => "NaN" end),
    (fun s => if String.eqb s "2" then Fin 2 else Fin 3). cbv zeta.
  assert (A : (if Req_EM_T 2 2 then "2" else "-3") = "2") by (destruct (Req_EM_T 2 2); congruence).
  assert (B : (if Req_EM_T (-3) 2 then "2" else "-3") = "-3") by (destruct (Req_EM_T (-3) 2); [exfalso; lra|auto]).
  repeat split.
  - intros y O. repeat match goal with H : occurs _ _ |- _ => inversion H; clear H; subst end; reflexivity.
  - right. exists "3". split; [exact B|split; [reflexivity|]]. cbn. f_equal; lra.
  - left. rewrite A. split; reflexivity.
  - cbn [to_python]. rewrite A, B. reflexivity.
  - exact A.
Qed.

Lemma las_inj a b : las a = las b -> a = b.
Proof. intros H. rewrite <- (string_of_list_ascii_of_string a), <- (string_of_list_ascii_of_string b). unfold las in H. rewrite H. reflexivity. Qed.
Lemma pre_inj p a b : (p ++ a = p ++ b)%string -> a = b.
Proof. intros H. apply las_inj. apply (f_equal las) in H. rewrite !las_app in H. apply app_inv_head in H. exact H. Qed.
Lemma post_inj p a b : (a ++ p = b ++ p)%string -> a = b.
Proof. intros H. apply las_inj. apply (f_equal las) in H. rewrite !las_app in H. apply app_inv_tail in H. exact H. Qed.
Lemma helpers_unambiguous (N : Num) (show : N -> string) (a b : expr N) lhs :
  good_show show -> names_ok identifier a -> names_ok identifier b ->
  (lib_latex show a = lib_latex show b -> a = b) /\
  (lib_python show a = lib_python show b -> a = b) /\
  (lib_equation show lhs a = lib_equation show lhs b -> a = b) /\
  lib_latex show a = ("$" ++ display show a ++ "$")%string /\
  lib_equation show lhs a = (lhs ++ " = " ++ display show a)%string.
Proof.
  intros G A B. repeat split.
  - intros H. apply (display_injective show a b G A B). exact (post_inj _ _ _ (pre_inj _ _ _ H)).
  - intros H. apply (display_injective show a b G A B). exact (pre_inj _ _ _ H).
  - intros H. apply (display_injective show a b G A B). exact (pre_inj _ _ _ (pre_inj _ _ _ H)).
Qed.
