(** The egglog text of an expression is parsed back to the expression with
    every constant replaced by what its text parses to. *)
From Coq Require Import ZArith Bool String Ascii List Lia.
From Coq Require Import Floats.SpecFloat.
From Verif Require Import Num ExprModel ExprSpec JitModel EggModel EggSpec.
Import ListNotations.
Local Open Scope string_scope.

(** * Strings *)
Lemma app_assoc_s (a b c : string) : (a ++ b) ++ c = a ++ (b ++ c).
Proof. induction a; cbn; [reflexivity|]. rewrite IHa. reflexivity. Qed.
Lemma app_nil_s (a : string) : a ++ "" = a.
Proof. induction a; cbn; [reflexivity|]. rewrite IHa. reflexivity. Qed.
Lemma len_app (a b : string) : String.length (a ++ b) = (String.length a + String.length b)%nat.
Proof. induction a; cbn; [reflexivity|]. rewrite IHa. reflexivity. Qed.
Lemma sub_all (a : string) b : substring 0 (String.length a) (a ++ b) = a.
Proof. induction a; cbn; [destruct b; reflexivity|]. rewrite IHa. reflexivity. Qed.
Lemma sub_mid (p a b : string) : substring (String.length p) (String.length a) (p ++ a ++ b) = a.
Proof. induction p; cbn; [apply sub_all|exact IHp]. Qed.
Lemma sub_end (p a : string) : substring (String.length p) (String.length a) (p ++ a) = a.
Proof. rewrite <- (app_nil_s a) at 2. apply sub_mid. Qed.

Lemma ends_app (p a : string) : ends_with a (p ++ a) = true.
Proof.
  unfold ends_with. rewrite len_app. replace (_ - _)%nat with (String.length p) by lia.
  rewrite sub_end, String.eqb_refl. destruct (Nat.leb_spec (String.length a) (String.length p + String.length a)); [reflexivity|lia].
Qed.
Lemma slice_mid (p a b : string) : slice (String.length p) (String.length (p ++ a ++ b) - String.length b) (p ++ a ++ b) = a.
Proof.
  unfold slice. rewrite !len_app.
  replace (_ - _ - _)%nat with (String.length a) by lia. apply sub_mid.
Qed.

Lemma sub_len n : forall m s, (String.length (substring n m s) <= m)%nat.
Proof.
  induction n as [|n IH]; intros m s.
  - revert s. induction m as [|m IHm]; intros [|c s]; cbn; try lia. specialize (IHm s). lia.
  - destruct s as [|c s]; cbn; [lia|]. apply IH.
Qed.
Lemma trim_start_len s : (String.length (trim_start s) <= String.length s)%nat.
Proof. induction s as [|c s IH]; cbn; [lia|]. destruct (is_space c); cbn; lia. Qed.
Lemma trim_end_len s : (String.length (trim_end s) <= String.length s)%nat.
Proof.
  induction s as [|c s IH]; cbn; [lia|]. destruct (trim_end s); cbn in *; [destruct (is_space c); cbn; lia|lia].
Qed.
Lemma trim_len s : (String.length (trim s) <= String.length s)%nat.
Proof. unfold trim. pose proof (trim_end_len (trim_start s)). pose proof (trim_start_len s). lia. Qed.
Lemma trim_end_app s c : is_space c = false -> trim_end (s ++ String c "") = s ++ String c "".
Proof.
  intros H. induction s as [|a s IH]; cbn; [rewrite H; reflexivity|]. rewrite IH.
  destruct (s ++ String c "") eqn:E; [|reflexivity]. destruct s; discriminate.
Qed.
Lemma trim_paren s : trim ("(" ++ s ++ ")") = "(" ++ s ++ ")".
Proof.
  unfold trim. cbn [append trim_start]. change (is_space "(") with false. cbv iota.
  change (String "(" (s ++ ")")) with (String "(" s ++ ")"). apply trim_end_app. reflexivity.
Qed.

Lemma split_len : forall s d l r, split_outside d s = Some (l, r) ->
  (String.length l < String.length s /\ String.length r < String.length s)%nat.
Proof.
  induction s as [|c s IH]; intros d l r H; [discriminate|]. cbn [split_outside] in H.
  destruct (Ascii.eqb c " " && (d =? 0)%Z).
  - injection H as <- <-. cbn. lia.
  - destruct (split_outside _ s) as [[l' r']|] eqn:E; [|discriminate]. injection H as <- <-.
    apply IH in E. cbn. lia.
Qed.

(** * The recursion bound *)
Lemma inner_len k t : (String.length (slice k (String.length t - 1) t) <= String.length t - 1 - k)%nat.
Proof. unfold slice. apply sub_len. Qed.
Lemma starts_app p s : starts_with p (p ++ s) = true.
Proof.
  unfold starts_with. induction p as [|c p IH]; [destruct s; reflexivity|]. cbn.
  destruct (ascii_dec c c); [exact IH|congruence].
Qed.
Lemma starts_len p s : starts_with p s = true -> (String.length p <= String.length s)%nat.
Proof.
  unfold starts_with. revert s. induction p as [|c p IH]; intros s H; cbn; [lia|].
  destruct s as [|a s]; [discriminate|]. cbn in H. destruct (ascii_dec c a); [|discriminate].
  apply IH in H. cbn. lia.
Qed.

Lemma parse_fuel : forall n m s, (String.length s < n)%nat -> (String.length s < m)%nat ->
  egglog_parse n s = egglog_parse m s.
Proof.
  induction n as [|n IH]; intros [|m] s H K; try lia. cbn [egglog_parse]. cbv zeta.
  pose proof (trim_len s) as TL.
  assert (U : forall k, (0 < k)%nat -> (k <= String.length (trim s))%nat ->
    egglog_parse n (slice k (String.length (trim s) - 1) (trim s)) =
    egglog_parse m (slice k (String.length (trim s) - 1) (trim s))).
  { intros k P Q. pose proof (inner_len k (trim s)). apply IH; lia. }
  assert (B : forall mk k, (0 < k)%nat -> (k <= String.length (trim s))%nat ->
    match parse_binary_args (slice k (String.length (trim s) - 1) (trim s)) with
    | Some (l, r) => parsed2 mk (egglog_parse n l) (egglog_parse n r) | None => Unparsed end =
    match parse_binary_args (slice k (String.length (trim s) - 1) (trim s)) with
    | Some (l, r) => parsed2 mk (egglog_parse m l) (egglog_parse m r) | None => Unparsed end).
  { intros mk k P Q. pose proof (inner_len k (trim s)). unfold parse_binary_args.
    destruct (split_outside 0 _) as [[l r]|] eqn:E; [|reflexivity]. apply split_len in E.
    pose proof (trim_len l). pose proof (trim_len r). rewrite (IH m (trim l)), (IH m (trim r)) by lia. reflexivity. }
  repeat match goal with |- context [starts_with ?p ?t && ?q] =>
    destruct (starts_with p t && q) eqn:?; [|] end; try reflexivity;
  match goal with H : starts_with _ _ && _ = true |- _ => apply andb_prop in H; destruct H as [H _]; apply starts_len in H; cbn in H end;
  first [apply B; lia | rewrite U by lia; reflexivity].
Qed.

(** * Splitting *)
Definition app1 (t : string) (o : option (string * string)) : option (string * string) :=
  match o with Some (l, r) => Some (t ++ l, r) | None => None end.
Lemma app1_app a b o : app1 a (app1 b o) = app1 (a ++ b) o.
Proof. destruct o as [[l r]|]; cbn; [rewrite app_assoc_s|]; reflexivity. Qed.
Lemma app1_nil o : app1 "" o = o.
Proof. destruct o as [[l r]|]; reflexivity. Qed.

(** Scanning a balanced text inside parentheses finds no separator. *)
Lemma scan_balanced : forall s k d rest, (1 <= d)%Z -> balanced_from k s ->
  split_outside (d + Z.of_nat k) (s ++ rest) = app1 s (split_outside d rest).
Proof.
  induction s as [|c s IH]; intros k d rest D B; cbn [append balanced_from] in *.
  - subst k. rewrite Z.add_0_r, app1_nil. reflexivity.
  - cbn [split_outside]. replace (d + Z.of_nat k =? 0)%Z with false by (symmetry; apply Z.eqb_neq; lia).
    rewrite andb_false_r.
    destruct (Ascii.eqb c "(") eqn:E1; [|destruct (Ascii.eqb c ")") eqn:E2].
    + replace (d + Z.of_nat k + 1)%Z with (d + Z.of_nat (S k))%Z by lia. rewrite IH by assumption.
      destruct (split_outside d rest) as [[l r]|]; reflexivity.
    + destruct k as [|k]; [contradiction|].
      replace (d + Z.of_nat (S k) - 1)%Z with (d + Z.of_nat k)%Z by lia. rewrite IH by assumption.
      destruct (split_outside d rest) as [[l r]|]; reflexivity.
    + rewrite IH by assumption. destruct (split_outside d rest) as [[l r]|]; reflexivity.
Qed.
Lemma scan_inside s d rest : (1 <= d)%Z -> balanced s -> split_outside d (s ++ rest) = app1 s (split_outside d rest).
Proof. intros D B. rewrite <- (scan_balanced s 0 d rest D B). f_equal. lia. Qed.

Lemma balanced_app : forall a k b, balanced_from k a -> balanced b -> balanced_from k (a ++ b).
Proof.
  induction a as [|c a IH]; intros k b A B; cbn in *.
  - subst k. exact B.
  - destruct (Ascii.eqb c "("); [apply IH; assumption|]. destruct (Ascii.eqb c ")"); [|apply IH; assumption].
    destruct k; [contradiction|]. apply IH; assumption.
Qed.
Lemma balanced_wrap_from : forall s k, balanced_from k s -> balanced_from (S k) (s ++ ")").
Proof.
  induction s as [|c s IH]; intros k H; cbn in *; [subst; reflexivity|].
  destruct (Ascii.eqb c "("); [apply IH; exact H|]. destruct (Ascii.eqb c ")"); [|apply IH; exact H].
  destruct k; [contradiction|]. apply IH. exact H.
Qed.
Lemma balanced_wrap s : balanced s -> balanced ("(" ++ s ++ ")").
Proof. intros H. unfold balanced. cbn. apply balanced_wrap_from. exact H. Qed.

(** A parenthesised balanced text, scanned from outside. *)
Lemma scan_text s rest : balanced s ->
  split_outside 0 (("(" ++ s ++ ")") ++ rest) = app1 ("(" ++ s ++ ")") (split_outside 0 rest).
Proof.
  intros B. rewrite !app_assoc_s. cbn [append split_outside].
  change (Ascii.eqb "(" " " && (0 =? 0)%Z) with false. cbv iota.
  change (Ascii.eqb "(" "(") with true. cbv iota.
  change (0 + 1)%Z with 1%Z. rewrite scan_inside by (try lia; exact B).
  cbn [append split_outside].
  change (Ascii.eqb ")" " " && (1 =? 0)%Z) with false. change (Ascii.eqb ")" "(") with false.
  change (Ascii.eqb ")" ")") with true. cbv iota. change (1 - 1)%Z with 0%Z.
  destruct (split_outside 0 rest) as [[l r]|]; cbn; [rewrite app_assoc_s|]; reflexivity.
Qed.

(** * The text of numbers *)
Definition plain (c : ascii) : bool := negb (Ascii.eqb c "(") && negb (Ascii.eqb c ")").
Fixpoint all_plain (s : string) : bool :=
  match s with String c s' => plain c && all_plain s' | _ => true end.
Lemma plain_balanced s : all_plain s = true -> balanced s.
Proof.
  unfold balanced. induction s as [|c s IH]; intros H; [reflexivity|]. cbn in *. unfold plain in H.
  destruct (Ascii.eqb c "("); [discriminate|]. destruct (Ascii.eqb c ")"); [discriminate|]. apply IH. exact H.
Qed.
Lemma plain_app a b : all_plain (a ++ b) = all_plain a && all_plain b.
Proof. induction a; cbn; [reflexivity|]. rewrite IHa, andb_assoc. reflexivity. Qed.

Local Open Scope Z_scope.
Lemma digit_cases d : 0 <= d < 10 -> d = 0 \/ d = 1 \/ d = 2 \/ d = 3 \/ d = 4 \/ d = 5 \/ d = 6 \/ d = 7 \/ d = 8 \/ d = 9.
Proof. lia. Qed.
Ltac by_digit H := apply digit_cases in H;
  destruct H as [->|[->|[->|[->|[->|[->|[->|[->|[->| ->]]]]]]]]].

Lemma digit_plain d : 0 <= d < 10 -> all_plain (digit d) = true.
Proof. intros H. by_digit H; reflexivity. Qed.
Lemma digits_plain : forall f n, 0 <= n < 10 ^ (Z.of_nat f + 1) -> all_plain (digits f n) = true.
Proof.
  induction f as [|f IH]; intros n H.
  - apply digit_plain. exact H.
  - cbn [digits]. destruct (Z.ltb_spec n 10); [apply digit_plain; lia|].
    rewrite plain_app, IH, digit_plain; [reflexivity|apply Z.mod_pos_bound; lia|].
    split; [apply Z.div_pos; lia|]. apply Z.div_lt_upper_bound; [lia|].
    replace (10 * 10 ^ (Z.of_nat f + 1)) with (10 ^ (Z.of_nat (S f) + 1)); [lia|].
    rewrite <- Z.pow_succ_r by lia. f_equal. lia.
Qed.
Lemma show_bound n : 0 <= n -> 0 <= n < 10 ^ (Z.of_nat (Z.to_nat (Z.log2 n)) + 1).
Proof.
  intros H. split; [exact H|]. pose proof (Z.log2_nonneg n). rewrite Z2Nat.id by assumption.
  destruct (Z.eq_dec n 0) as [->|N]; [reflexivity|].
  destruct (Z.log2_spec n) as [_ U]; [lia|].
  eapply Z.lt_le_trans; [exact U|]. unfold Z.succ. apply Z.pow_le_mono_l. lia.
Qed.

Lemma tenths_nonneg m e : 0 <= tenths m e.
Proof.
  unfold tenths. destruct (0 <=? e) eqn:E; [nia|].
  assert (P : 0 < 2 ^ (- e)) by (apply Z.pow_pos_nonneg; apply Z.leb_gt in E; lia).
  assert (Q : 0 <= 10 * Z.pos m / 2 ^ (- e)) by (apply Z.div_pos; lia).
  destruct (_ ?= _); [destruct (Z.even _)| |]; lia.
Qed.

Lemma fmt1_plain c : all_plain (fmt1 c) = true.
Proof.
  destruct c as [s|s| |s m e]; try (destruct s; reflexivity); try reflexivity.
  unfold fmt1. rewrite !plain_app. pose proof (tenths_nonneg m e) as T.
  rewrite digit_plain by (apply Z.mod_pos_bound; lia).
  unfold show_Z. rewrite digits_plain by (apply show_bound, Z.div_pos; lia).
  destruct s; reflexivity.
Qed.

Lemma take_digit acc n d t : 0 <= d < 10 -> take_digits acc n (digit d ++ t) = take_digits (10 * acc + d) (S n) t.
Proof. intros H. by_digit H; reflexivity. Qed.
Lemma take_show : forall f v, 0 <= v < 10 ^ (Z.of_nat f + 1) -> exists len, (0 < len)%nat /\
  forall acc n t, take_digits acc n (digits f v ++ t) = take_digits (acc * 10 ^ Z.of_nat len + v) (n + len) t.
Proof.
  induction f as [|f IH]; intros v H.
  - exists 1%nat. split; [lia|]. intros acc n t. cbn [digits]. rewrite take_digit by exact H.
    f_equal; [change (10 ^ Z.of_nat 1) with 10; lia|lia].
  - cbn [digits]. destruct (Z.ltb_spec v 10) as [L|G].
    + exists 1%nat. split; [lia|]. intros acc n t. rewrite take_digit by lia.
      f_equal; [change (10 ^ Z.of_nat 1) with 10; lia|lia].
    + assert (B : 0 <= v / 10 < 10 ^ (Z.of_nat f + 1)).
      { split; [apply Z.div_pos; lia|]. apply Z.div_lt_upper_bound; [lia|].
        replace (10 * 10 ^ (Z.of_nat f + 1)) with (10 ^ (Z.of_nat (S f) + 1)); [lia|].
        rewrite <- Z.pow_succ_r by lia. f_equal. lia. }
      destruct (IH (v / 10) B) as (len & P & E). exists (S len). split; [lia|].
      intros acc n t. rewrite app_assoc_s, E, take_digit by (apply Z.mod_pos_bound; lia).
      f_equal; [|lia]. rewrite Nat2Z.inj_succ, Z.pow_succ_r by lia. pose proof (Z.div_mod v 10). lia.
Qed.

(** A non-negative number of tenths parses to the nearest binary64. *)
Lemma lower_digit d s : 0 <= d < 10 -> exists r, lower_all (digit d ++ s) = digit d ++ r.
Proof. intros H. exists (lower_all s). by_digit H; reflexivity. Qed.
Lemma digits_head : forall f n, 0 <= n < 10 ^ (Z.of_nat f + 1) -> exists d r, 0 <= d < 10 /\ digits f n = (digit d ++ r)%string.
Proof.
  induction f as [|f IH]; intros n H.
  - exists n, "". split; [exact H|]. symmetry. apply app_nil_s.
  - cbn [digits]. destruct (Z.ltb_spec n 10) as [L|G].
    + exists n, "". split; [lia|]. symmetry. apply app_nil_s.
    + assert (B : 0 <= n / 10 < 10 ^ (Z.of_nat f + 1)).
      { split; [apply Z.div_pos; lia|]. apply Z.div_lt_upper_bound; [lia|].
        replace (10 * 10 ^ (Z.of_nat f + 1)) with (10 ^ (Z.of_nat (S f) + 1)); [lia|].
        rewrite <- Z.pow_succ_r by lia. f_equal. lia. }
      destruct (IH _ B) as (d & r & D & E). exists d, (r ++ digit (n mod 10))%string. split; [exact D|].
      rewrite E, app_assoc_s. reflexivity.
Qed.

Lemma parse_tenths t : 0 <= t ->
  parse_unsigned (show_Z (t / 10) ++ "." ++ digit (t mod 10)) = Some (f64_lit t 10) /\
  forall r, show_Z (t / 10) <> String "-" r /\ show_Z (t / 10) <> String "+" r.
Proof.
  intros T. assert (B := show_bound (t / 10) (Z.div_pos t 10 T ltac:(lia))).
  assert (M : 0 <= t mod 10 < 10) by (apply Z.mod_pos_bound; lia).
  destruct (digits_head _ _ B) as (d & r & D & E). fold (show_Z (t / 10)) in E.
  destruct (take_show _ _ B) as (len & P & TS). fold (show_Z (t / 10)) in TS.
  split.
  - unfold parse_unsigned. cbv zeta.
    assert (NL : exists r', lower_all (show_Z (t / 10) ++ "." ++ digit (t mod 10)) = (digit d ++ r')%string).
    { rewrite E, app_assoc_s. apply lower_digit. exact D. }
    destruct NL as [r' ->].
    replace (String.eqb (digit d ++ r') "inf") with false by (by_digit D; reflexivity).
    replace (String.eqb (digit d ++ r') "infinity") with false by (by_digit D; reflexivity).
    replace (String.eqb (digit d ++ r') "nan") with false by (by_digit D; reflexivity).
    cbn [orb]. rewrite TS. rewrite Z.mul_0_l, Z.add_0_l.
    cbn [append take_digits]. change (digit_value ".") with (@None Z). cbv iota.
    replace (digit (t mod 10)) with (digit (t mod 10) ++ "")%string by apply app_nil_s.
    rewrite take_digit by exact M. cbn [take_digits].
    replace (Nat.eqb (0 + len + 1) 0) with false by (symmetry; apply Nat.eqb_neq; lia).
    cbn [parse_exponent]. unfold scaled. change (0 - Z.of_nat 1) with (-1). cbn [Z.leb Z.compare].
    change (Z.to_pos (10 ^ - -1)) with 10%positive. f_equal. f_equal.
    pose proof (Z.div_mod t 10). lia.
  - intros q. rewrite E. split; by_digit D; discriminate.
Qed.

(** What the text of a constant parses to. *)
Definition reread (c : f64) : f64 :=
  match c with
  | S754_finite s m e => let v := f64_lit (tenths m e) 10 in if s then SFopp v else v
  | _ => c
  end.
Lemma parse_fmt1 c : parse_f64 (fmt1 c) = Some (reread c).
Proof.
  destruct c as [s|s| |s m e]; try (destruct s; reflexivity); try reflexivity.
  unfold fmt1, reread. cbv zeta. destruct (parse_tenths (tenths m e) (tenths_nonneg m e)) as [P H]. cbn [append] in P.
  destruct s.
  - cbn [append parse_f64]. rewrite P. reflexivity.
  - cbn [append]. rewrite <- P. cbn [append].
    destruct (show_Z (tenths m e / 10)) as [|c r] eqn:E; [reflexivity|].
    destruct (H r) as [N1 N2]. cbn [append]. unfold parse_f64.
    destruct c as [[|] [|] [|] [|] [|] [|] [|] [|]]; try reflexivity; exfalso; solve [apply N1; reflexivity|apply N2; reflexivity].
Qed.

(** * Expressions *)
Local Open Scope string_scope.
Lemma text_balanced e : balanced_names e -> exists s, balanced s /\ expr_to_egglog e = "(" ++ s ++ ")".
Proof.
  assert (L : forall (a b : string), all_plain a = true -> balanced b -> balanced (a ++ b)).
  { intros a b A B. apply balanced_app; [apply plain_balanced, A|exact B]. }
  induction e; intros H; cbn [expr_to_egglog balanced_names] in *;
    try (destruct H as [H1 H2]; destruct (IHe1 H1) as (s1 & B1 & E1), (IHe2 H2) as (s2 & B2 & E2); rewrite E1, E2;
         match goal with |- exists s, _ /\ append (String "(" (String ?a (String ?b (String ?c (String ?d EmptyString))))) (?x ++ " " ++ ?y ++ ")") = _ =>
           exists (String a (String b (String c (String d ""))) ++ (x ++ " " ++ y)) end;
         split; [apply L; [reflexivity|]; apply balanced_app; [apply balanced_wrap; exact B1|];
                 apply L; [reflexivity|]; apply balanced_wrap; exact B2
                |cbn [append]; rewrite !app_assoc_s; cbn [append]; rewrite ?app_assoc_s; reflexivity]);
    try (destruct (IHe H) as (s1 & B1 & E1); rewrite E1;
         match goal with |- exists s, _ /\ append (String "(" ?p) (?x ++ ")") = _ => exists (p ++ x) end;
         split; [apply L; [reflexivity|apply balanced_wrap; exact B1]
                |cbn [append]; rewrite ?app_assoc_s; reflexivity]).
  - exists ("Const " ++ fmt1 c). split.
    + apply L; [reflexivity|]. apply plain_balanced, fmt1_plain.
    + cbn [append]. rewrite ?app_assoc_s. reflexivity.
  - exists ("Var """ ++ x ++ """"). split.
    + apply L; [reflexivity|]. apply balanced_app; [exact H|]. apply plain_balanced. reflexivity.
    + cbn [append]. rewrite !app_assoc_s. reflexivity.
Qed.

Lemma parse_const n c : egglog_parse (S n) (expr_to_egglog (Const c)) = Parsed (Const (reread c)).
Proof.
  cbn [expr_to_egglog egglog_parse]. cbv zeta.
  assert (TR : trim ("(Const " ++ fmt1 c ++ ")") = "(Const " ++ fmt1 c ++ ")").
  { exact (trim_paren ("Const " ++ fmt1 c)). }
  rewrite TR. set (T := "(Const " ++ fmt1 c ++ ")").
  replace (starts_with "(Const " T) with true by (symmetry; apply starts_app).
  replace (ends_with ")" T) with true by (symmetry; exact (ends_app ("(Const " ++ fmt1 c) ")")).
  cbn [andb]. change (slice 7 (String.length T - 1) T) with
    (slice (String.length "(Const ") (String.length ("(Const " ++ fmt1 c ++ ")") - String.length ")") ("(Const " ++ fmt1 c ++ ")")).
  rewrite slice_mid, parse_fmt1. reflexivity.
Qed.

Lemma parse_var n x : egglog_parse (S n) (expr_to_egglog (Var x)) = Parsed (Var x).
Proof.
  cbn [expr_to_egglog egglog_parse]. cbv zeta.
  assert (TR : trim ("(Var """ ++ x ++ """)") = "(Var """ ++ x ++ """)").
  { assert (E : "(Var """ ++ x ++ """)" = "(" ++ ("Var """ ++ x ++ """") ++ ")").
    { cbn [append]. rewrite !app_assoc_s. reflexivity. }
    rewrite E. apply trim_paren. }
  rewrite TR. set (T := "(Var """ ++ x ++ """)").
  replace (starts_with "(Const " T) with false by reflexivity.
  replace (starts_with "(Var """ T) with true by (symmetry; apply starts_app).
  replace (ends_with """)" T) with true by (symmetry; exact (ends_app ("(Var """ ++ x) """)")).
  cbn [andb].
  assert (LT : String.length T = (6 + (String.length x + 2))%nat).
  { unfold T. rewrite !len_app. reflexivity. }
  destruct (Nat.ltb_spec (String.length T - 2) 6); [lia|].
  change (slice 6 (String.length T - 2) T) with
    (slice (String.length "(Var """) (String.length ("(Var """ ++ x ++ """)") - String.length """)") ("(Var """ ++ x ++ """)")).
  rewrite slice_mid. reflexivity.
Qed.

Section Unary.
Variables (p : string) (mk : expr f64 -> expr f64).
(** The unary and binary arms. *)
Definition unary_arm := exists q, p = String "(" q /\
  forall n t, starts_with p (p ++ t ++ ")") = true ->
    ends_with ")" (p ++ t ++ ")") = true -> trim (p ++ t ++ ")") = p ++ t ++ ")" ->
    egglog_parse (S n) (p ++ t ++ ")") =
    parsed1 mk (egglog_parse n (slice (String.length p) (String.length (p ++ t ++ ")") - 1) (p ++ t ++ ")"))).
Lemma unary_parse : unary_arm -> forall n t, egglog_parse (S n) (p ++ t ++ ")") = parsed1 mk (egglog_parse n t).
Proof.
  intros (q & -> & H) n t. rewrite H.
  - change 1%nat with (String.length ")"). rewrite slice_mid. reflexivity.
  - apply starts_app.
  - rewrite <- app_assoc_s. apply ends_app.
  - change (String "(" q ++ t ++ ")") with ("(" ++ (q ++ t ++ ")")). rewrite <- (app_assoc_s q). apply trim_paren.
Qed.
End Unary.

Section Binary.
Variables (p : string) (mk : expr f64 -> expr f64 -> expr f64).
Definition binary_arm := exists q, p = String "(" q /\
  forall n t, starts_with p (p ++ t ++ ")") = true ->
    ends_with ")" (p ++ t ++ ")") = true -> trim (p ++ t ++ ")") = p ++ t ++ ")" ->
    egglog_parse (S n) (p ++ t ++ ")") =
    match parse_binary_args (slice (String.length p) (String.length (p ++ t ++ ")") - 1) (p ++ t ++ ")")) with
    | Some (l, r) => parsed2 mk (egglog_parse n l) (egglog_parse n r)
    | None => Unparsed
    end.
Lemma binary_parse : binary_arm -> forall n a b, balanced a -> 
  egglog_parse (S n) (p ++ ("(" ++ a ++ ")") ++ " " ++ ("(" ++ b ++ ")") ++ ")") =
  parsed2 mk (egglog_parse n ("(" ++ a ++ ")")) (egglog_parse n ("(" ++ b ++ ")")).
Proof.
  intros (q & -> & H) n a b A.
  set (t := ("(" ++ a ++ ")") ++ " " ++ ("(" ++ b ++ ")")).
  assert (E : String "(" q ++ ("(" ++ a ++ ")") ++ " " ++ ("(" ++ b ++ ")") ++ ")" = String "(" q ++ t ++ ")").
  { unfold t. cbn [append]. f_equal. f_equal. f_equal. rewrite !app_assoc_s. cbn [append]. rewrite !app_assoc_s. reflexivity. }
  rewrite E, H.
  - change 1%nat with (String.length ")"). rewrite slice_mid. unfold parse_binary_args, t.
    rewrite scan_text by exact A. cbn [append split_outside]. change (Ascii.eqb " " " " && (0 =? 0)%Z) with true.
    cbv iota. cbn [app1].
    change (trim (String "(" (a ++ ")") ++ "")) with (trim (("(" ++ a ++ ")") ++ "")).
    change (trim (String "(" (b ++ ")"))) with (trim ("(" ++ b ++ ")")).
    rewrite app_nil_s, !trim_paren. reflexivity.
  - apply starts_app.
  - rewrite <- app_assoc_s. apply ends_app.
  - change (String "(" q ++ t ++ ")") with ("(" ++ (q ++ t ++ ")")). rewrite <- (app_assoc_s q). apply trim_paren.
Qed.
End Binary.

Ltac arm := eexists; split; [reflexivity|]; intros n t S E TR; cbn [egglog_parse]; cbv zeta; rewrite TR;
  match goal with |- context [starts_with "(Const " ?T] => 
    repeat match goal with
    | |- context [starts_with ?q T] => replace (starts_with q T) with false by reflexivity; cbn [andb]
    end end; rewrite S, E; reflexivity.

Lemma add_arm : binary_arm "(Add " Add. Proof. arm. Qed.
Lemma mul_arm : binary_arm "(Mul " Mul. Proof. arm. Qed.
Lemma sub_arm : binary_arm "(Sub " Sub. Proof. arm. Qed.
Lemma div_arm : binary_arm "(Div " Div. Proof. arm. Qed.
Lemma pow_arm : binary_arm "(Pow " Pow. Proof. arm. Qed.
Lemma ln_arm : unary_arm "(Ln " Ln. Proof. arm. Qed.
Lemma exp_arm : unary_arm "(Exp " Exp. Proof. arm. Qed.
Lemma sin_arm : unary_arm "(Sin " Sin. Proof. arm. Qed.
Lemma cos_arm : unary_arm "(Cos " Cos. Proof. arm. Qed.
Lemma neg_arm : unary_arm "(Neg " Neg. Proof. arm. Qed.
Lemma parse_sqrt n t : egglog_parse (S n) ("(Sqrt " ++ t ++ ")") = Unparsed.
Proof.
  cbn [egglog_parse]. cbv zeta.
  assert (TR : trim ("(Sqrt " ++ t ++ ")") = "(Sqrt " ++ t ++ ")").
  { change ("(Sqrt " ++ t ++ ")") with ("(" ++ ("Sqrt " ++ t ++ ")")). 
    rewrite <- (app_assoc_s "Sqrt "). apply trim_paren. }
  rewrite TR.
  match goal with |- context [starts_with "(Const " ?T] =>
    repeat match goal with
    | |- context [starts_with ?q T] => replace (starts_with q T) with false by reflexivity; cbn [andb]
    end end. reflexivity.
Qed.

(** The expression with every constant reread. *)
Fixpoint reread_all (e : expr f64) : expr f64 :=
  match e with
  | Const c => Const (reread c)
  | Var x => Var x
  | Add l r => Add (reread_all l) (reread_all r)
  | Sub l r => Sub (reread_all l) (reread_all r)
  | Mul l r => Mul (reread_all l) (reread_all r)
  | Div l r => Div (reread_all l) (reread_all r)
  | Pow l r => Pow (reread_all l) (reread_all r)
  | Ln a => Ln (reread_all a)
  | Exp a => Exp (reread_all a)
  | Sqrt a => Sqrt (reread_all a)
  | Sin a => Sin (reread_all a)
  | Cos a => Cos (reread_all a)
  | Neg a => Neg (reread_all a)
  end.

Lemma parse_text e : balanced_names e -> forall n, (String.length (expr_to_egglog e) < n)%nat ->
  (~ has_sqrt e /\ egglog_parse n (expr_to_egglog e) = Parsed (reread_all e)) \/
  (has_sqrt e /\ egglog_parse n (expr_to_egglog e) = Unparsed).
Proof.
  assert (BIN : forall p op mk l r n,
    binary_arm p op -> balanced_names l -> balanced_names r ->
    (forall n, (String.length (expr_to_egglog l) < n)%nat ->
      (~ has_sqrt l /\ egglog_parse n (expr_to_egglog l) = Parsed (reread_all l)) \/
      (has_sqrt l /\ egglog_parse n (expr_to_egglog l) = Unparsed)) ->
    (forall n, (String.length (expr_to_egglog r) < n)%nat ->
      (~ has_sqrt r /\ egglog_parse n (expr_to_egglog r) = Parsed (reread_all r)) \/
      (has_sqrt r /\ egglog_parse n (expr_to_egglog r) = Unparsed)) ->
    mk = op (reread_all l) (reread_all r) ->
    (String.length (p ++ expr_to_egglog l ++ " " ++ expr_to_egglog r ++ ")") < n)%nat ->
    (~ (has_sqrt l \/ has_sqrt r) /\ egglog_parse n (p ++ expr_to_egglog l ++ " " ++ expr_to_egglog r ++ ")") = Parsed mk) \/
    ((has_sqrt l \/ has_sqrt r) /\ egglog_parse n (p ++ expr_to_egglog l ++ " " ++ expr_to_egglog r ++ ")") = Unparsed)).
  { intros p op mk l r n ARM BL BR HL HR -> LEN.
    destruct n as [|n]; [lia|]. rewrite !len_app in LEN.
    destruct (text_balanced l BL) as (sl & B1 & E1), (text_balanced r BR) as (sr & B2 & E2).
    rewrite E1, E2, (binary_parse p op ARM n sl sr B1), <- E1, <- E2.
    assert (PL : (1 <= String.length p)%nat) by (destruct ARM as (q & -> & _); cbn; lia).
    destruct (HL n ltac:(lia)) as [[N1 ->]|[S1 ->]], (HR n ltac:(lia)) as [[N2 ->]|[S2 ->]]; cbn [parsed2]; tauto. }
  assert (UN : forall p op mk l n,
    unary_arm p op -> balanced_names l ->
    (forall n, (String.length (expr_to_egglog l) < n)%nat ->
      (~ has_sqrt l /\ egglog_parse n (expr_to_egglog l) = Parsed (reread_all l)) \/
      (has_sqrt l /\ egglog_parse n (expr_to_egglog l) = Unparsed)) ->
    mk = op (reread_all l) ->
    (String.length (p ++ expr_to_egglog l ++ ")") < n)%nat ->
    (~ has_sqrt l /\ egglog_parse n (p ++ expr_to_egglog l ++ ")") = Parsed mk) \/
    (has_sqrt l /\ egglog_parse n (p ++ expr_to_egglog l ++ ")") = Unparsed)).
  { intros p op mk l n ARM BL HL -> LEN.
    destruct n as [|n]; [lia|]. rewrite !len_app in LEN. rewrite (unary_parse p op ARM).
    assert (PL : (1 <= String.length p)%nat) by (destruct ARM as (q & -> & _); cbn; lia).
    destruct (HL n ltac:(lia)) as [[N1 ->]|[S1 ->]]; cbn [parsed1]; tauto. }
  induction e; intros B n LEN; cbn [has_sqrt balanced_names reread_all] in *.
  - left. split; [tauto|]. destruct n; [lia|]. apply parse_const.
  - left. split; [tauto|]. destruct n; [lia|]. apply parse_var.
  - destruct B. eapply BIN; eauto using add_arm.
  - destruct B. eapply BIN; eauto using sub_arm.
  - destruct B. eapply BIN; eauto using mul_arm.
  - destruct B. eapply BIN; eauto using div_arm.
  - destruct B. eapply BIN; eauto using pow_arm.
  - eapply UN; eauto using ln_arm.
  - eapply UN; eauto using exp_arm.
  - right. split; [exact Logic.I|]. destruct n; [lia|]. apply parse_sqrt.
  - eapply UN; eauto using sin_arm.
  - eapply UN; eauto using cos_arm.
  - eapply UN; eauto using neg_arm.
Qed.

Lemma round_trip e : balanced_names e ->
  (~ has_sqrt e -> egglog_to_expr (expr_to_egglog e) = Parsed (reread_all e)) /\
  (has_sqrt e -> egglog_to_expr (expr_to_egglog e) = Unparsed).
Proof.
  intros B. unfold egglog_to_expr.
  destruct (parse_text e B (S (String.length (expr_to_egglog e))) (Nat.lt_succ_diag_r _)) as [[N E]|[Q E]]; split; intros H;
    solve [exact E | contradiction].
Qed.
