(** Display is unambiguous on identifiers (C12), cache keys of bindings. *)
From Coq Require Import ZArith Bool String Ascii List Arith Lia.
From Verif Require Import Num ExprModel ExprSpec ShowModel ShowSpec.
Import ListNotations.
Local Open Scope string_scope.
Local Open Scope list_scope.

Lemma las_app a b : las (a ++ b)%string = las a ++ las b.
Proof. induction a; cbn; auto. f_equal; auto. Qed.
Lemma las_inj a b : las a = las b -> a = b.
Proof.
  intros H. rewrite <- (string_of_list_ascii_of_string a), <- (string_of_list_ascii_of_string b).
  unfold las in H. rewrite H. auto.
Qed.
Lemma las_bin a m b r :
  las ("(" ++ a ++ m ++ b ++ ")")%string ++ r = "("%char :: las a ++ las m ++ las b ++ ")"%char :: r.
Proof. rewrite !las_app, <- !app_assoc. reflexivity. Qed.
Lemma las_fn f a r : las (f ++ a ++ ")")%string ++ r = las f ++ las a ++ ")"%char :: r.
Proof. rewrite !las_app, <- !app_assoc. reflexivity. Qed.
Lemma sol_las a : string_of_list_ascii (las a) = a.
Proof. apply string_of_list_ascii_of_string. Qed.

(** Characters that can be part of an atom. *)
Definition atomc (c : ascii) : bool :=
  negb (Ascii.eqb c " " || Ascii.eqb c "(" || Ascii.eqb c ")" || Ascii.eqb c "^").

Fixpoint span (s : list ascii) : list ascii * list ascii :=
  match s with
  | [] => ([], [])
  | c :: s' => if atomc c then let (a, r) := span s' in (c :: a, r) else ([], s)
  end.

Definition delim (s : list ascii) : Prop :=
  match s with [] => True | c :: _ => c = " "%char \/ c = ")"%char \/ c = "^"%char end.

Lemma delim_atomc s : match s with [] => True | c :: _ => atomc c = false end ->
  forall a, forallb atomc a = true -> span (a ++ s) = (a, s).
Proof.
  intros D. induction a as [|c a IH]; cbn; intros H.
  - destruct s; auto. cbn. rewrite D. auto.
  - apply andb_prop in H as [H1 H2]. rewrite H1, IH; auto.
Qed.
Lemma delim_head s : delim s -> match s with [] => True | c :: _ => atomc c = false end.
Proof. destruct s; auto. intros [-> | [-> | ->]]; reflexivity. Qed.
Lemma span_delim s : delim s -> forall a, forallb atomc a = true -> span (a ++ s) = (a, s).
Proof. intros D. apply delim_atomc, delim_head, D. Qed.
Lemma span_paren s a : forallb atomc a = true -> span (a ++ "("%char :: s) = (a, "("%char :: s).
Proof. intros. apply (delim_atomc ("("%char :: s)); auto. Qed.

(** Reading displayed text back as a tree whose leaves are texts. *)
Definition tree := expr string.
Definition fn (a : list ascii) (t : tree) : option tree :=
  let s := string_of_list_ascii a in
  if String.eqb s "ln" then Some (Ln t) else if String.eqb s "exp" then Some (Exp t)
  else if String.eqb s "sqrt" then Some (Sqrt t) else if String.eqb s "sin" then Some (Sin t)
  else if String.eqb s "cos" then Some (Cos t) else None.
Definition bop (c : ascii) (l r : tree) : option tree :=
  if Ascii.eqb c "+" then Some (Add l r) else if Ascii.eqb c "-" then Some (Sub l r)
  else if Ascii.eqb c "*" then Some (Mul l r) else if Ascii.eqb c "/" then Some (Div l r)
  else None.
Definition close (t : option tree) (s : list ascii) : option (tree * list ascii) :=
  match t, s with
  | Some t, c :: s' => if Ascii.eqb c ")" then Some (t, s') else None
  | _, _ => None
  end.
Definition leaf (a : list ascii) : tree := Const (string_of_list_ascii a).

Definition binary (again : list ascii -> option (tree * list ascii)) (l : tree) (s : list ascii)
  : option (tree * list ascii) :=
  match s with
  | "^"%char :: s' => match again s' with Some (r, s2) => close (Some (Pow l r)) s2 | None => None end
  | " "%char :: op :: " "%char :: s' =>
      match again s' with Some (r, s2) => close (bop op l r) s2 | None => None end
  | _ => None
  end.

Definition inside (again : list ascii -> option (tree * list ascii)) (s1 : list ascii)
  : option (tree * list ascii) :=
  match s1 with
  | [] => None
  | c :: s2 =>
    if Ascii.eqb c "-" then
      let (a, r2) := span s2 in
      match r2 with
      | [] => None
      | d :: r3 =>
          if Ascii.eqb d ")" then Some (Neg (leaf a), r3)
          else if Ascii.eqb d "(" then
            match again s2 with Some (t, s3) => close (Some (Neg t)) s3 | None => None end
          else binary again (leaf (c :: a)) r2
      end
    else match again s1 with Some (l, r) => binary again l r | None => None end
  end.

Fixpoint parse (n : nat) (s : list ascii) : option (tree * list ascii) :=
  match n with
  | O => None
  | S n =>
    let (a, rest) := span s in
    match rest with
    | "("%char :: s1 =>
        match a with
        | [] => inside (parse n) s1
        | _ => match parse n s1 with
               | Some (t, s2) => close (fn a t) s2
               | None => None
               end
        end
    | _ => match a with [] => None | _ => Some (leaf a, rest) end
    end
  end.

(** Facts about identifiers and number texts. *)
Lemma ascii_cases (P : ascii -> bool) :
  forallb (fun n => P (ascii_of_nat n)) (seq 0 256) = true -> forall c, P c = true.
Proof.
  intros H c. rewrite forallb_forall in H. rewrite <- (ascii_nat_embedding c). apply H.
  apply in_seq. pose proof (nat_ascii_bounded c). lia.
Qed.
Lemma word_atomc c : is_word c = true -> atomc c = true.
Proof.
  intros H. pose proof (ascii_cases (fun c => implb (is_word c) (atomc c))) as K.
  specialize (K eq_refl c). cbn beta in K. rewrite H in K. exact K.
Qed.
Lemma digit_atomc c : (is_digit c || Ascii.eqb c ".") = true -> atomc c = true.
Proof.
  intros H. pose proof (ascii_cases (fun c => implb (is_digit c || Ascii.eqb c ".") (atomc c))) as K.
  specialize (K eq_refl c). cbn beta in K. rewrite H in K. exact K.
Qed.
Lemma alpha_not_minus c : is_alpha c = true -> Ascii.eqb c "-" = false.
Proof.
  intros H. pose proof (ascii_cases (fun c => implb (is_alpha c) (negb (Ascii.eqb c "-")))) as K.
  specialize (K eq_refl c). cbn beta in K. rewrite H in K. destruct (Ascii.eqb c "-"); auto.
Qed.
Lemma digit_not_minus c : is_digit c = true -> Ascii.eqb c "-" = false.
Proof.
  intros H. pose proof (ascii_cases (fun c => implb (is_digit c) (negb (Ascii.eqb c "-")))) as K.
  specialize (K eq_refl c). cbn beta in K. rewrite H in K. destruct (Ascii.eqb c "-"); auto.
Qed.
Lemma digit_not_alpha c : is_digit c = true -> is_alpha c = false.
Proof.
  intros H. pose proof (ascii_cases (fun c => implb (is_digit c) (negb (is_alpha c)))) as K.
  specialize (K eq_refl c). cbn beta in K. rewrite H in K. destruct (is_alpha c); auto.
Qed.

Lemma forallb_imp {A} (p q : A -> bool) l : (forall a, p a = true -> q a = true) ->
  forallb p l = true -> forallb q l = true.
Proof. intros H. rewrite !forallb_forall. auto. Qed.

(** What reading back needs to know about a leaf text. *)
Definition leaf_ok (s : string) : Prop := las s <> [] /\ forallb atomc (las s) = true.
Definition signless (s : string) : Prop := match las s with c :: _ => Ascii.eqb c "-" = false | [] => True end.

Lemma plain_number_ok s : plain_number s = true -> leaf_ok s /\ signless s.
Proof.
  unfold plain_number, leaf_ok, signless. destruct (las s) as [|c l]; [discriminate|].
  intros H. apply andb_prop in H as [H1 H2]. split; [split; [discriminate|]|].
  - cbn. rewrite (digit_atomc c) by (rewrite H1; auto). cbn.
    eapply forallb_imp; [|exact H2]. intros. apply digit_atomc; auto.
  - apply digit_not_minus; auto.
Qed.
Lemma number_text_ok s : number_text s = true ->
  leaf_ok s /\ (signless s \/ exists t, s = String "-" t /\ leaf_ok t /\ signless t).
Proof.
  unfold number_text. rewrite !orb_true_iff. intros [[[[H|H]|H]|H]|H].
  - apply String.eqb_eq in H as ->. split; [split; [discriminate|reflexivity]|left; reflexivity].
  - apply String.eqb_eq in H as ->. split; [split; [discriminate|reflexivity]|].
    right. exists "inf". repeat split; discriminate || reflexivity.
  - apply String.eqb_eq in H as ->. split; [split; [discriminate|reflexivity]|left; reflexivity].
  - apply plain_number_ok in H as [A B]; auto.
  - destruct s as [|c s]; [discriminate|].
    destruct (Ascii.eqb c "-") eqn:E.
    + apply Ascii.eqb_eq in E as ->. apply plain_number_ok in H as [[A B] C].
      split; [split; [discriminate|cbn; auto]|]. right. exists s. repeat split; auto.
    + exfalso. destruct c as [[] [] [] [] [] [] [] []]; try discriminate.
Qed.
Lemma identifier_ok s : identifier s = true -> leaf_ok s /\ signless s.
Proof.
  unfold identifier, leaf_ok, signless. destruct (las s) as [|c l]; [discriminate|].
  rewrite !andb_true_iff. intros [[[H1 H2] _] _]. split; [split; [discriminate|]|].
  - cbn. rewrite word_atomc by (unfold is_word; rewrite H1; auto). cbn.
    eapply forallb_imp; [|exact H2]. apply word_atomc.
  - apply alpha_not_minus; auto.
Qed.
Lemma identifier_not_number s : identifier s = true -> number_text s = false.
Proof.
  unfold identifier, number_text. rewrite !andb_true_iff. intros [[H A] B].
  apply negb_true_iff in A, B. rewrite A, B.
  unfold plain_number. destruct s as [|c s]; [reflexivity|]. cbn [las list_ascii_of_string] in *.
  apply andb_prop in H as [H _].
  assert (D : is_digit c = false).
  { destruct (is_digit c) eqn:E; auto. apply digit_not_alpha in E. congruence. }
  rewrite D. clear A B. destruct c as [[] [] [] [] [] [] [] []]; try discriminate; reflexivity.
Qed.

Section Display.
Context {N : Num} (show : N -> string).

Fixpoint skel (e : expr N) : tree :=
  match e with
  | Const c => Const (show c)
  | Var x => Const x
  | Add l r => Add (skel l) (skel r)
  | Sub l r => Sub (skel l) (skel r)
  | Mul l r => Mul (skel l) (skel r)
  | Div l r => Div (skel l) (skel r)
  | Pow l r => Pow (skel l) (skel r)
  | Ln a => Ln (skel a) | Exp a => Exp (skel a) | Sqrt a => Sqrt (skel a)
  | Sin a => Sin (skel a) | Cos a => Cos (skel a) | Neg a => Neg (skel a)
  end.

Fixpoint leaves_ok (e : expr N) : Prop :=
  match e with
  | Const c => number_text (show c) = true
  | Var x => identifier x = true
  | Add l r | Sub l r | Mul l r | Div l r | Pow l r => leaves_ok l /\ leaves_ok r
  | Ln a | Exp a | Sqrt a | Sin a | Cos a | Neg a => leaves_ok a
  end.

Notation chars e := (las (display show e)).

Lemma parse_leaf n s r : leaf_ok s -> delim r -> parse (S n) (las s ++ r) = Some (Const s, r).
Proof.
  intros [A B] D. cbn [parse]. rewrite span_delim by auto.
  assert (E : match las s with [] => None | _ => Some (leaf (las s), r) end = Some (Const s : tree, r)).
  { unfold leaf. rewrite sol_las. destruct (las s); congruence. }
  destruct r as [|c r]; auto. destruct D as [-> | [-> | ->]]; auto.
Qed.

Lemma parse_fn n f (t : tree) (rt : tree) s r :
  forallb atomc (las f) = true -> las f <> [] ->
  parse n (s ++ ")"%char :: r) = Some (t, ")"%char :: r) -> fn (las f) t = Some rt ->
  parse (S n) (las f ++ "("%char :: s ++ ")"%char :: r) = Some (rt, r).
Proof.
  intros A B P F. cbn [parse]. rewrite span_paren by auto.
  destruct (las f) eqn:E; [congruence|]. rewrite P, F. reflexivity.
Qed.

(** The first character of a displayed expression is a minus sign only for a
    number. *)
Definition starts_minus (s : list ascii) : bool :=
  match s with c :: _ => Ascii.eqb c "-" | [] => false end.

Lemma starts_minus_app s r : s <> [] -> starts_minus (s ++ r) = starts_minus s.
Proof. destruct s; auto. congruence. Qed.

Lemma first_char (e : expr N) : leaves_ok e -> chars e <> [] /\
  (starts_minus (chars e) = true ->
   exists c t, e = Const c /\ show c = String "-" t /\ leaf_ok t /\ signless t).
Proof.
  destruct e; cbn [display leaves_ok]; intros H; split;
    try discriminate; try (rewrite !las_app; discriminate);
    try (rewrite !las_app; cbn; discriminate).
  - apply number_text_ok in H as [[? ?] _]; auto.
  - intros S. apply number_text_ok in H as [_ [K | (t & E & K1 & K2)]].
    + unfold signless, starts_minus in *. destruct (las (show c)); congruence.
    + eauto 6.
  - apply identifier_ok in H as [[? ?] _]; auto.
  - intros S. apply identifier_ok in H as [_ K]. unfold signless, starts_minus in *.
    destruct (las x); congruence.
Qed.

Lemma span_first s : match span s with (a, r) => s = a ++ r end.
Proof.
  induction s as [|c s IH]; cbn; auto. destruct (atomc c); auto.
  destruct (span s) as [a r]. cbn. congruence.
Qed.

(** A parenthesised binary expression. *)
Lemma parse_binary n (l r : expr N) (mid : list ascii) (f : tree -> tree -> tree) rest :
  leaves_ok l ->
  (delim mid /\ mid <> [] /\ (forall x, mid <> ")"%char :: x)) ->
  (forall s, delim s -> parse n (chars l ++ s) = Some (skel l, s)) ->
  (forall s, delim s -> parse n (chars r ++ s) = Some (skel r, s)) ->
  (forall L, binary (parse n) L (mid ++ chars r ++ ")"%char :: rest) = Some (f L (skel r), rest)) ->
  parse (S n) ("("%char :: chars l ++ mid ++ chars r ++ ")"%char :: rest) = Some (f (skel l) (skel r), rest).
Proof.
  intros WL (DM & NM & NP) PL PR B.
  assert (DM' : forall s, delim (mid ++ s)).
  { intros s. destruct mid; [congruence|]. exact DM. }
  cbn [parse span]. change (atomc "(") with false. cbv iota.
  unfold inside.
  destruct (first_char l WL) as [NE FC].
  destruct (starts_minus (chars l)) eqn:SM.
  - destruct (FC eq_refl) as (c & t & -> & E & [LT1 LT2] & SL).
    cbn [display skel] in *. rewrite E. cbn [las list_ascii_of_string app].
    change (Ascii.eqb "-" "-") with true. cbv iota.
    change (list_ascii_of_string t) with (las t).
    rewrite (span_delim _ (DM' _)) by auto.
    destruct mid as [|d mid]; [congruence|]. cbn [app] in *.
    assert (D1 : Ascii.eqb d ")" = false).
    { destruct (Ascii.eqb d ")") eqn:Q; auto. apply Ascii.eqb_eq in Q as ->. destruct (NP mid); auto. }
    assert (D2 : Ascii.eqb d "(" = false) by (destruct DM as [-> | [-> | ->]]; reflexivity).
    rewrite D1, D2. rewrite B. unfold leaf. cbn [string_of_list_ascii].
    rewrite sol_las. reflexivity.
  - pose proof (PL (mid ++ chars r ++ ")"%char :: rest) (DM' _)) as P1.
    destruct (chars l) as [|c s]; [congruence|]. cbn [starts_minus app] in *.
    rewrite SM, P1. apply B.
Qed.

Lemma parse_display (e : expr N) : leaves_ok e -> forall n r, size e <= n -> delim r ->
  parse n (chars e ++ r) = Some (skel e, r).
Proof.
  assert (DP : forall s, delim (")"%char :: s)) by (cbn; auto).
  induction e; cbn [leaves_ok size]; intros W n rest SZ D;
    (destruct n as [|n]; [lia|]).
  - cbn [display skel]. apply number_text_ok in W as [W _]. apply parse_leaf; auto.
  - cbn [display skel]. apply identifier_ok in W as [W _]. apply parse_leaf; auto.
  - destruct W as [W1 W2]. cbn [display skel]. rewrite las_bin.
    apply (parse_binary n e1 e2 (las " + ") Add); auto.
    + split; [cbn; auto|split; [discriminate|intros; discriminate]].
    + intros; apply IHe1; auto; lia.
    + intros; apply IHe2; auto; lia.
    + intros L. cbn [list_ascii_of_string app]. unfold binary; cbn. fold las. rewrite IHe2 by (auto; lia). reflexivity.
  - destruct W as [W1 W2]. cbn [display skel]. rewrite las_bin.
    apply (parse_binary n e1 e2 (las " - ") Sub); auto.
    + split; [cbn; auto|split; [discriminate|intros; discriminate]].
    + intros; apply IHe1; auto; lia.
    + intros; apply IHe2; auto; lia.
    + intros L. cbn [list_ascii_of_string app]. unfold binary; cbn. fold las. rewrite IHe2 by (auto; lia). reflexivity.
  - destruct W as [W1 W2]. cbn [display skel]. rewrite las_bin.
    apply (parse_binary n e1 e2 (las " * ") Mul); auto.
    + split; [cbn; auto|split; [discriminate|intros; discriminate]].
    + intros; apply IHe1; auto; lia.
    + intros; apply IHe2; auto; lia.
    + intros L. cbn [list_ascii_of_string app]. unfold binary; cbn. fold las. rewrite IHe2 by (auto; lia). reflexivity.
  - destruct W as [W1 W2]. cbn [display skel]. rewrite las_bin.
    apply (parse_binary n e1 e2 (las " / ") Div); auto.
    + split; [cbn; auto|split; [discriminate|intros; discriminate]].
    + intros; apply IHe1; auto; lia.
    + intros; apply IHe2; auto; lia.
    + intros L. cbn [list_ascii_of_string app]. unfold binary; cbn. fold las. rewrite IHe2 by (auto; lia). reflexivity.
  - destruct W as [W1 W2]. cbn [display skel]. rewrite las_bin.
    apply (parse_binary n e1 e2 (las "^") Pow); auto.
    + split; [cbn; auto|split; [discriminate|intros; discriminate]].
    + intros; apply IHe1; auto; lia.
    + intros; apply IHe2; auto; lia.
    + intros L. cbn [list_ascii_of_string app]. unfold binary; cbn. fold las. rewrite IHe2 by (auto; lia). reflexivity.
  - cbn [display skel]. rewrite las_fn. change (las "ln(" ++ las (display show e) ++ ")"%char :: rest)
      with (las "ln" ++ "("%char :: las (display show e) ++ ")"%char :: rest).
    apply (parse_fn n "ln" (skel e)); auto; [discriminate|]. apply IHe; auto; lia.
  - cbn [display skel]. rewrite las_fn. change (las "exp(" ++ las (display show e) ++ ")"%char :: rest)
      with (las "exp" ++ "("%char :: las (display show e) ++ ")"%char :: rest).
    apply (parse_fn n "exp" (skel e)); auto; [discriminate|]. apply IHe; auto; lia.
  - cbn [display skel]. rewrite las_fn. change (las "sqrt(" ++ las (display show e) ++ ")"%char :: rest)
      with (las "sqrt" ++ "("%char :: las (display show e) ++ ")"%char :: rest).
    apply (parse_fn n "sqrt" (skel e)); auto; [discriminate|]. apply IHe; auto; lia.
  - cbn [display skel]. rewrite las_fn. change (las "sin(" ++ las (display show e) ++ ")"%char :: rest)
      with (las "sin" ++ "("%char :: las (display show e) ++ ")"%char :: rest).
    apply (parse_fn n "sin" (skel e)); auto; [discriminate|]. apply IHe; auto; lia.
  - cbn [display skel]. rewrite las_fn. change (las "cos(" ++ las (display show e) ++ ")"%char :: rest)
      with (las "cos" ++ "("%char :: las (display show e) ++ ")"%char :: rest).
    apply (parse_fn n "cos" (skel e)); auto; [discriminate|]. apply IHe; auto; lia.
  - cbn [display skel]. rewrite las_fn.
    change (las "(-" ++ las (display show e) ++ ")"%char :: rest)
      with ("("%char :: "-"%char :: las (display show e) ++ ")"%char :: rest).
    cbn [parse span]. change (atomc "(") with false. cbv iota. unfold inside.
    change (Ascii.eqb "-" "-") with true. cbv iota.
    assert (G : match e with Const _ | Var _ => exists s, chars e = las s /\ leaf_ok s /\ skel e = Const s
                | _ => exists a s, forallb atomc a = true /\ chars e = a ++ "("%char :: s end).
    { destruct e; cbn [display leaves_ok skel] in *.
      - exists (show c). apply number_text_ok in W as [W _]. auto.
      - exists x. apply identifier_ok in W as [W _]. auto.
      - exists [], (las (display show e1 ++ " + " ++ display show e2 ++ ")")%string). auto.
      - exists [], (las (display show e1 ++ " - " ++ display show e2 ++ ")")%string). auto.
      - exists [], (las (display show e1 ++ " * " ++ display show e2 ++ ")")%string). auto.
      - exists [], (las (display show e1 ++ " / " ++ display show e2 ++ ")")%string). auto.
      - exists [], (las (display show e1 ++ "^" ++ display show e2 ++ ")")%string). auto.
      - exists (las "ln"), (las (display show e ++ ")")%string). auto.
      - exists (las "exp"), (las (display show e ++ ")")%string). auto.
      - exists (las "sqrt"), (las (display show e ++ ")")%string). auto.
      - exists (las "sin"), (las (display show e ++ ")")%string). auto.
      - exists (las "cos"), (las (display show e ++ ")")%string). auto.
      - exists [], (las ("-" ++ display show e ++ ")")%string). auto. }
    assert (G' : (exists s, chars e = las s /\ leaf_ok s /\ skel e = Const s) \/
                 (exists a s, forallb atomc a = true /\ chars e = a ++ "("%char :: s))
      by (destruct e; auto). clear G.
    destruct G' as [(s & E & [L1 L2] & K) | (a & s & A & E)].
    + rewrite E. rewrite (span_delim _ (DP _)) by auto. cbn. unfold leaf. rewrite sol_las, K. auto.
    + assert (P : parse n (chars e ++ ")"%char :: rest) = Some (skel e, ")"%char :: rest))
        by (apply IHe; auto; lia).
      rewrite E in P |- *. rewrite <- app_assoc in *. cbn [app] in *.
      rewrite span_paren by auto. cbn. rewrite P. reflexivity.
Qed.
End Display.

Lemma skel_inj {N : Num} (show : N -> string) (a b : expr N) :
  (forall x y, show x = show y -> x = y) ->
  leaves_ok show a -> leaves_ok show b -> skel show a = skel show b -> a = b.
Proof.
  intros SI. revert b. induction a; intros b; destruct b; cbn [skel leaves_ok]; intros W1 W2 E;
    try discriminate;
    try (injection E as E1 E2; destruct W1, W2; f_equal; auto; fail);
    try (injection E as E1; f_equal; auto; fail).
  - injection E as E1. apply identifier_not_number in W2. congruence.
  - injection E as E1. apply identifier_not_number in W1. congruence.
Qed.

Lemma names_leaves {N : Num} (show : N -> string) (e : expr N) : good_show show ->
  names_ok identifier e -> leaves_ok show e.
Proof.
  intros [_ G] H. unfold names_ok in H.
  induction e; cbn [leaves_ok]; auto;
    try (split; [apply IHe1|apply IHe2]; intros y O; apply H; constructor; assumption);
    try (apply IHe; intros y O; apply H; constructor; assumption).
  apply H; constructor.
Qed.

Lemma display_injective {N : Num} (show : N -> string) (a b : expr N) :
  good_show show -> names_ok identifier a -> names_ok identifier b ->
  display show a = display show b -> a = b.
Proof.
  intros G A B E. pose proof (names_leaves _ _ G A) as WA. pose proof (names_leaves _ _ G B) as WB.
  pose proof (parse_display show a WA (size a + size b) [] ltac:(lia) I) as PA.
  pose proof (parse_display show b WB (size a + size b) [] ltac:(lia) I) as PB.
  rewrite E, PB in PA. injection PA as K. destruct G as [G _].
  symmetry in K. eapply skel_inj; eauto.
Qed.

(** ** The text of a binding *)
Fixpoint unesc (s : list ascii) : option (list ascii * list ascii) :=
  match s with
  | [] => None
  | c :: s' =>
      if Ascii.eqb c """" then Some ([], s')
      else if Ascii.eqb c "\" then
        match s' with
        | d :: s'' => match unesc s'' with Some (a, r) => Some (d :: a, r) | None => None end
        | [] => None
        end
      else match unesc s' with Some (a, r) => Some (c :: a, r) | None => None end
  end.

Lemma unesc_esc s r : unesc (las (esc s) ++ """"%char :: r) = Some (las s, r).
Proof.
  induction s as [|c s IH]; [reflexivity|].
  cbn [esc]. rewrite las_app, <- app_assoc. unfold esc_char.
  destruct (Ascii.eqb c """") eqn:E1.
  { apply Ascii.eqb_eq in E1 as ->. cbn [las list_ascii_of_string app unesc].
    change (Ascii.eqb "\" """") with false. change (Ascii.eqb "\" "\") with true. cbv iota.
    change (list_ascii_of_string (esc s)) with (las (esc s)). rewrite IH. auto. }
  destruct (Ascii.eqb c "\") eqn:E2.
  { apply Ascii.eqb_eq in E2 as ->. cbn [las list_ascii_of_string app unesc].
    change (Ascii.eqb "\" """") with false. change (Ascii.eqb "\" "\") with true. cbv iota.
    change (list_ascii_of_string (esc s)) with (las (esc s)). rewrite IH. auto. }
  cbn [las list_ascii_of_string app unesc]. rewrite E1, E2.
  change (list_ascii_of_string (esc s)) with (las (esc s)). rewrite IH. auto.
Qed.

Definition no_sep (s : string) : Prop := ~ In ","%char (las s) /\ ~ In "}"%char (las s).

Lemma app_sep (a b r1 r2 : list ascii) :
  ~ In ","%char a -> ~ In "}"%char a -> ~ In ","%char b -> ~ In "}"%char b ->
  match r1 with c :: _ => c = ","%char \/ c = "}"%char | [] => False end ->
  match r2 with c :: _ => c = ","%char \/ c = "}"%char | [] => False end ->
  a ++ r1 = b ++ r2 -> a = b /\ r1 = r2.
Proof.
  revert b. induction a as [|c a IH]; intros [|d b] A1 A2 B1 B2 R1 R2 E; cbn in *.
  - auto.
  - subst. destruct R1 as [-> | ->]; tauto.
  - subst. destruct R2 as [-> | ->]; tauto.
  - injection E as -> E. assert (K : a = b /\ r1 = r2) by (apply IH; auto; tauto).
    destruct K as [-> ->]; auto.
Qed.

Lemma debug_env_injective {N : Num} (dbg : N -> string) :
  (forall a b, dbg a = dbg b -> a = b) -> (forall a, no_sep (dbg a)) ->
  forall m1 m2 : env N, debug_env dbg m1 = debug_env dbg m2 -> m1 = m2.
Proof.
  intros DI NS m1 m2 E. unfold debug_env in E. cbn [append] in E. injection E as E.
  revert m2 E. induction m1 as [|[k v] m1 IH]; intros [|[k2 v2] m2] E.
  - reflexivity.
  - discriminate.
  - discriminate.
  - apply (f_equal las) in E. cbn [debug_entries] in E. rewrite !las_app in E.
    unfold debug_str in E. rewrite !las_app in E. cbn [las list_ascii_of_string app] in E.
    injection E as E. rewrite <- !app_assoc in E. cbn [app] in E.
    pose proof (f_equal unesc E) as U. fold las in U. rewrite !unesc_esc in U.
    injection U as U1 U2. apply las_inj in U1 as ->.
    apply app_sep in U2 as [U2 U3]; try apply NS.
    + apply las_inj in U2. apply DI in U2 as ->. f_equal.
      destruct m1 as [|p m1], m2 as [|q m2].
      * reflexivity.
      * discriminate.
      * discriminate.
      * apply IH. apply las_inj. injection U3 as U3. exact U3.
    + destruct m1; cbn; auto.
    + destruct m2; cbn; auto.
Qed.
