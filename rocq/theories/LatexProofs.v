(** The LaTeX text of an expression in which no bracket is missing is read as an
    expression of the same value (C68). *)
From Coq Require Import ZArith Reals Bool String Ascii List Arith Lia Lra.
From Verif Require Import Num XRFacts ExprModel ExprSpec ShowModel ShowSpec ShowProofs PyProofs LatexSpec.
Import ListNotations.
Local Open Scope string_scope.
Local Open Scope list_scope.

(** ** Tokens *)
Lemma llex_break cur r : brk r -> llex cur r = lflush cur (llex [] r).
Proof.
  destruct r as [|c r]; [reflexivity|]. intros [A B]. cbn [llex].
  assert (J : joins cur c = false).
  { unfold joins. destruct (rev cur) as [|d l]; auto. assert (D : is_digit c = false /\ is_alpha c = false).
    { unfold is_word in A. apply orb_false_iff in A. tauto. }
    destruct D as [D D']. rewrite A, B, D, D'. destruct (is_digit d); auto. destruct (Ascii.eqb d "\"); auto. }
  rewrite J. reflexivity.
Qed.
Lemma joins_keep c cur d : joins (c :: cur ++ [d]) = joins [d].
Proof. unfold joins. change (c :: cur ++ [d]) with ((c :: cur) ++ [d]). rewrite rev_app_distr. reflexivity. Qed.
Lemma joins_last cur d : joins (cur ++ [d]) = joins [d].
Proof. unfold joins. rewrite rev_app_distr. reflexivity. Qed.
Lemma llex_run d w : forallb (joins [d]) w = true -> forall cur r,
  llex (cur ++ [d]) (w ++ r) = llex (rev w ++ cur ++ [d]) r.
Proof.
  induction w as [|c w IH]; cbn [forallb app rev]; intros H cur r; auto.
  apply andb_prop in H as [H1 H2]. cbn [llex]. rewrite joins_last, H1.
  change (c :: cur ++ [d]) with ((c :: cur) ++ [d]). rewrite IH by auto. rewrite <- !app_assoc. reflexivity.
Qed.
Lemma alpha_not_digit c : is_alpha c = true -> is_digit c = false.
Proof. intros H. destruct (is_digit c) eqn:Q; auto. apply digit_not_alpha in Q. congruence. Qed.
Lemma alpha_not_slash c : is_alpha c = true -> Ascii.eqb c "\" = false.
Proof. intros H. destruct (Ascii.eqb c "\") eqn:Q; auto. apply Ascii.eqb_eq in Q. subst. discriminate. Qed.
Lemma llex_name x r : symbol x = true -> brk r -> llex [] (las x ++ r) = LName x :: llex [] r.
Proof.
  intros H B. unfold symbol in H. apply andb_prop in H as [H _]. unfold identifier in H.
  destruct (las x) as [|c l] eqn:E; [discriminate|].
  rewrite !andb_true_iff in H. destruct H as [[[H1 H2] _] _]. cbn [app llex].
  change (joins [] c) with false. cbv iota. unfold is_word at 1. rewrite H1. cbn [orb lflush rev].
  assert (J : forallb (joins [c]) l = true).
  { rewrite forallb_forall in *. intros d I. unfold joins. cbn. rewrite (alpha_not_digit c H1), (alpha_not_slash c H1). auto. }
  change [c] with ([] ++ [c]) at 1. rewrite llex_run by auto. rewrite llex_break by auto.
  unfold lflush. rewrite !rev_app_distr, rev_involutive. cbn [rev app].
  rewrite (alpha_not_digit c H1), (alpha_not_slash c H1). rewrite <- E, sol_las. reflexivity.
Qed.
Lemma llex_num_gen t r k : plain_number t = true ->
  (forall cur, llex cur r = lflush cur k \/ in_number cur = false) ->
  llex [] (las t ++ r) = LNum t :: k.
Proof.
  unfold plain_number. destruct (las t) as [|c l] eqn:E; [discriminate|].
  intros H B. apply andb_prop in H as [H1 H2]. cbn [app llex].
  change (joins [] c) with false. cbv iota. unfold is_word at 1. rewrite H1, orb_true_r. cbn [orb].
  change (lflush [] ?k) with k.
  assert (J : forallb (joins [c]) l = true).
  { rewrite forallb_forall in *. intros d I. unfold joins. cbn. rewrite H1. auto. }
  change [c] with ([] ++ [c]) at 1. rewrite llex_run by auto. cbn [app].
  destruct (B (rev l ++ [c])) as [B'|B'].
  - rewrite B'. unfold lflush. rewrite rev_app_distr, rev_involutive. cbn [rev app]. rewrite H1. rewrite <- E, sol_las. reflexivity.
  - unfold in_number in B'. rewrite rev_app_distr in B'. cbn in B'. congruence.
Qed.
Lemma llex_num t r : plain_number t = true -> brk r -> llex [] (las t ++ r) = LNum t :: llex [] r.
Proof. intros H B. apply llex_num_gen; auto. intros cur. left. apply llex_break, B. Qed.
Lemma llex_num_name t x r : plain_number t = true -> symbol x = true -> brk r ->
  llex [] (las t ++ las x ++ r) = LNum t :: LName x :: llex [] r.
Proof.
  intros H S B. apply llex_num_gen; auto. intros cur. destruct (in_number cur) eqn:IN; [|right; auto]. left.
  rewrite <- (llex_name x r S B). unfold symbol in S. apply andb_prop in S as [S _]. unfold identifier in S.
  destruct (las x) as [|c l] eqn:E; [discriminate|]. rewrite !andb_true_iff in S. destruct S as [[[S1 _] _] _].
  cbn [app llex]. change (joins [] c) with false. cbv iota.
  assert (J : joins cur c = false).
  { unfold joins, in_number in *. destruct (rev cur) as [|d m]; auto. rewrite IN, (alpha_not_digit c S1).
    destruct (Ascii.eqb c ".") eqn:Q; auto. apply Ascii.eqb_eq in Q. subst. discriminate. }
  rewrite J. reflexivity.
Qed.

Section Latex.
Context {lg : R -> R}.
Notation X := (XR lg).
Variables (show : X -> string) (whole : X -> bool) (show_int : X -> string) (rd : string -> X).
Definition txt (c : X) : string := if whole c then show_int c else show c.

Definition tk_const (c : X) : list ltoken :=
  match txt c with String "-" t => [LMinus; LNum t] | s => [LNum s] end.
Fixpoint toks (e : expr X) : list ltoken :=
  match e with
  | Const c => tk_const c
  | Var x => [LName x]
  | Add l r => toks l ++ LPlus :: toks r
  | Sub l r => toks l ++ LMinus :: toks r
  | Mul l r =>
      if is_lit n1 l then toks r
      else if is_lit nm1 l then LMinus :: toks r
      else match l, r with
           | Const _, Var _ => toks l ++ toks r
           | _, _ => toks l ++ LCmd "cdot" :: toks r
           end
  | Div l r => LCmd "frac" :: LLB :: toks l ++ LRB :: LLB :: toks r ++ [LRB]
  | Pow l r => toks l ++ LCaret :: LLB :: toks r ++ [LRB]
  | Ln a => LCmd "ln" :: LLP :: toks a ++ [LRP]
  | Exp a => LName "e" :: LCaret :: LLB :: toks a ++ [LRB]
  | Sqrt a => LCmd "sqrt" :: LLB :: toks a ++ [LRB]
  | Sin a => LCmd "sin" :: LLP :: toks a ++ [LRP]
  | Cos a => LCmd "cos" :: LLP :: toks a ++ [LRP]
  | Neg a => LMinus :: LLP :: toks a ++ [LRP]
  end.

Fixpoint words_ok (e : expr X) : Prop :=
  match e with
  | Const c => reads rd txt c
  | Var x => symbol x = true
  | Add l r | Sub l r | Mul l r | Div l r | Pow l r => words_ok l /\ words_ok r
  | Ln a | Exp a | Sqrt a | Sin a | Cos a | Neg a => words_ok a
  end.

Lemma tk_plain c : plain_number (txt c) = true -> tk_const c = [LNum (txt c)].
Proof.
  intros H. unfold tk_const. pose proof (plain_number_ok _ H) as [_ S].
  unfold signless in S. destruct (txt c) as [|d s]; auto. cbn in S.
  destruct d as [[] [] [] [] [] [] [] []]; auto. discriminate.
Qed.
Lemma tk_neg c t : txt c = String "-" t -> tk_const c = [LMinus; LNum t].
Proof. intros H. unfold tk_const. rewrite H. reflexivity. Qed.
Lemma lat_const c : to_latex show whole show_int (Const c) = txt c.
Proof. reflexivity. Qed.
Lemma llex_const c r : reads rd txt c -> brk r -> llex [] (las (txt c) ++ r) = tk_const c ++ llex [] r.
Proof.
  intros [[W _]|(t & E & W & _)] B.
  - rewrite tk_plain by auto. apply llex_num; auto.
  - rewrite (tk_neg _ _ E), E. change (las (String "-" t) ++ r) with ("-"%char :: las t ++ r).
    change (llex [] ("-"%char :: las t ++ r)) with (LMinus :: llex [] (las t ++ r)). rewrite llex_num by auto. reflexivity.
Qed.
Lemma llex_const_name c x r : reads rd txt c -> symbol x = true -> brk r ->
  llex [] (las (txt c) ++ las x ++ r) = tk_const c ++ LName x :: llex [] r.
Proof.
  intros [[W _]|(t & E & W & _)] S B.
  - rewrite tk_plain by auto. apply llex_num_name; auto.
  - rewrite (tk_neg _ _ E), E. change (las (String "-" t) ++ las x ++ r) with ("-"%char :: las t ++ las x ++ r).
    change (llex [] ("-"%char :: las t ++ las x ++ r)) with (LMinus :: llex [] (las t ++ las x ++ r)). rewrite llex_num_name by auto. reflexivity.
Qed.

Lemma llex_latex e : words_ok e -> forall r, brk r ->
  llex [] (las (to_latex show whole show_int e) ++ r) = toks e ++ llex [] r.
Proof.
  assert (BP : forall r, brk (")"%char :: r)) by (intros; split; reflexivity).
  assert (BB : forall r, brk ("}"%char :: r)) by (intros; split; reflexivity).
  assert (BS : forall r, brk (" "%char :: r)) by (intros; split; reflexivity).
  assert (BC : forall r, brk ("^"%char :: r)) by (intros; split; reflexivity).
  induction e; cbn [words_ok]; intros W rest B.
  - rewrite lat_const. cbn [toks]. apply llex_const; auto.
  - apply llex_name; auto.
  - destruct W as [W1 W2]. cbn [to_latex toks]. rewrite !las_app, <- !app_assoc.
    rewrite IHe1 by (auto; apply BS). f_equal.
    change (llex [] (las " + " ++ ?s)) with (LPlus :: llex [] s). rewrite IHe2 by auto. reflexivity.
  - destruct W as [W1 W2]. cbn [to_latex toks]. rewrite !las_app, <- !app_assoc.
    rewrite IHe1 by (auto; apply BS). f_equal.
    change (llex [] (las " - " ++ ?s)) with (LMinus :: llex [] s). rewrite IHe2 by auto. reflexivity.
  - destruct W as [W1 W2]. cbn [to_latex toks].
    destruct (is_lit n1 e1); [apply IHe2; auto|].
    destruct (is_lit nm1 e1).
    { rewrite las_app, <- app_assoc. change (llex [] (las "-" ++ ?s)) with (LMinus :: llex [] s). rewrite IHe2 by auto. reflexivity. }
    assert (G : llex [] (las (to_latex show whole show_int e1 ++ " \cdot " ++ to_latex show whole show_int e2) ++ rest)
      = (toks e1 ++ LCmd "cdot" :: toks e2) ++ llex [] rest).
    { rewrite !las_app, <- !app_assoc. rewrite IHe1 by (auto; apply BS). f_equal.
      change (llex [] (las " \cdot " ++ ?s)) with (LCmd "cdot" :: llex [] s). rewrite IHe2 by auto. reflexivity. }
    destruct e1; try exact G. destruct e2; try exact G.
    rewrite las_app, <- !app_assoc. change (to_latex show whole show_int (Var x)) with x. rewrite lat_const. cbn [toks words_ok] in *.
    apply llex_const_name; auto.
  - destruct W as [W1 W2]. cbn [to_latex toks]. rewrite !las_app, <- !app_assoc.
    change (llex [] (las "\frac{" ++ ?s)) with (LCmd "frac" :: LLB :: llex [] s).
    rewrite IHe1 by (auto; apply BB). cbn [app]. do 2 f_equal. rewrite <- app_assoc. f_equal. cbn [app].
    change (llex [] (las "}{" ++ ?s)) with (LRB :: LLB :: llex [] s). rewrite IHe2 by (auto; apply BB). do 2 f_equal. rewrite <- app_assoc. reflexivity.
  - destruct W as [W1 W2]. cbn [to_latex toks]. rewrite !las_app, <- !app_assoc.
    rewrite IHe1 by (auto; apply BC). f_equal.
    change (llex [] (las "^{" ++ ?s)) with (LCaret :: LLB :: llex [] s). rewrite IHe2 by (auto; apply BB). cbn [app]. do 2 f_equal. rewrite <- app_assoc. reflexivity.
  - cbn [to_latex toks]. rewrite !las_app, <- !app_assoc.
    change (llex [] (las "\ln(" ++ ?s)) with (LCmd "ln" :: LLP :: llex [] s). rewrite IHe by (auto; apply BP). cbn [app]. do 2 f_equal. rewrite <- app_assoc. reflexivity.
  - cbn [to_latex toks]. rewrite !las_app, <- !app_assoc.
    change (llex [] (las "e^{" ++ ?s)) with (LName "e" :: LCaret :: LLB :: llex [] s). rewrite IHe by (auto; apply BB). cbn [app]. do 3 f_equal. rewrite <- app_assoc. reflexivity.
  - cbn [to_latex toks]. rewrite !las_app, <- !app_assoc.
    change (llex [] (las "\sqrt{" ++ ?s)) with (LCmd "sqrt" :: LLB :: llex [] s). rewrite IHe by (auto; apply BB). cbn [app]. do 2 f_equal. rewrite <- app_assoc. reflexivity.
  - cbn [to_latex toks]. rewrite !las_app, <- !app_assoc.
    change (llex [] (las "\sin(" ++ ?s)) with (LCmd "sin" :: LLP :: llex [] s). rewrite IHe by (auto; apply BP). cbn [app]. do 2 f_equal. rewrite <- app_assoc. reflexivity.
  - cbn [to_latex toks]. rewrite !las_app, <- !app_assoc.
    change (llex [] (las "\cos(" ++ ?s)) with (LCmd "cos" :: LLP :: llex [] s). rewrite IHe by (auto; apply BP). cbn [app]. do 2 f_equal. rewrite <- app_assoc. reflexivity.
  - cbn [to_latex toks]. rewrite !las_app, <- !app_assoc.
    change (llex [] (las "-(" ++ ?s)) with (LMinus :: LLP :: llex [] s). rewrite IHe by (auto; apply BP). cbn [app]. do 2 f_equal. rewrite <- app_assoc. reflexivity.
Qed.

(** ** Grammar *)
Definition stop_fact (ts : list ltoken) : Prop :=
  match ts with [] | LPlus :: _ | LMinus :: _ | LRP :: _ | LRB :: _ => True | LCmd c :: _ => c = "cdot" | _ => False end.
Definition stop_term (ts : list ltoken) : Prop :=
  match ts with [] | LPlus :: _ | LMinus :: _ | LRP :: _ | LRB :: _ => True | _ => False end.
Definition stop_sum (ts : list ltoken) : Prop := match ts with [] | LRP :: _ | LRB :: _ => True | _ => False end.
Definition tree := expr string.
Definition fact (k : nat) (ts : list ltoken) (t : tree) : Prop :=
  forall n rest, k <= n -> stop_fact rest -> q_factor n (ts ++ rest) = Some (t, rest).
Definition term (k : nat) (ts : list ltoken) (t : tree) : Prop :=
  forall n rest, k <= n -> stop_term rest -> q_term n (ts ++ rest) = Some (t, rest).
Definition summ (k : nat) (ts : list ltoken) (t : tree) : Prop :=
  forall n rest, k <= n -> stop_sum rest -> q_sum n (ts ++ rest) = Some (t, rest).
Definition headed (ts : list ltoken) : Prop :=
  match ts with [LNum _] => True | LName _ :: _ | LLP :: _ | LCmd _ :: _ => True | _ => False end.
Definition prim (k : nat) (ts : list ltoken) (t : tree) : Prop :=
  headed ts /\ forall n rest, k <= n -> q_primary n (ts ++ rest) = Some (t, rest).

Lemma headed_factor n ts rest : headed ts -> (forall x r, rest <> LName x :: r) -> q_factor (S n) (ts ++ rest) = q_power n (ts ++ rest).
Proof.
  intros H R. destruct ts as [|a ts]; [contradiction|]. destruct a; try contradiction; try reflexivity.
  destruct ts; [|contradiction]. cbn [app]. destruct rest as [|a rest]; [reflexivity|]. destruct a; try reflexivity. exfalso. eapply R. reflexivity.
Qed.
Lemma prim_fact k ts t : prim k ts t -> fact (2 + k) ts t.
Proof.
  intros [H P] n rest L S. destruct n as [|[|n]]; try lia.
  rewrite headed_factor by (auto; intros x r ->; contradiction). cbn [q_power]. rewrite P by lia.
  destruct rest as [|[] ?]; cbn in S; try contradiction; reflexivity.
Qed.
Lemma neg_fact k ts t : fact k ts t -> fact (S k) (LMinus :: ts) (Neg t).
Proof. intros F n rest L S. destruct n; [lia|]. cbn [app q_factor]. rewrite F; auto; lia. Qed.
Lemma pow_fact k1 k2 ts1 t1 ts2 t2 : prim k1 ts1 t1 -> summ k2 ts2 t2 ->
  fact (2 + k1 + k2) (ts1 ++ LCaret :: LLB :: ts2 ++ [LRB]) (if is_e t1 then Exp t2 else Pow t1 t2).
Proof.
  intros [H P] S n rest L _. destruct n as [|[|n]]; try lia. rewrite <- app_assoc. cbn [app].
  rewrite headed_factor by (auto; discriminate). cbn [q_power]. rewrite P by lia.
  rewrite <- app_assoc. cbn [app]. rewrite S by (cbn; auto; lia). reflexivity.
Qed.
Lemma jux_fact v x : fact 3 [LNum v; LName x] (Mul (Const v) (Var x)).
Proof.
  intros n rest L S. destruct n as [|[|[|n]]]; try lia. cbn [app q_factor q_power q_primary].
  destruct rest as [|[] ?]; cbn in S; try contradiction; reflexivity.
Qed.
Lemma num_prim v : prim 1 [LNum v] (Const v).
Proof. split; [exact I|]. intros [|n] rest L; [lia|reflexivity]. Qed.
Lemma name_prim x : prim 1 [LName x] (Var x).
Proof. split; [exact I|]. intros [|n] rest L; [lia|reflexivity]. Qed.
Lemma paren_prim k ts t : summ k ts t -> prim (S k) (LLP :: ts ++ [LRP]) t.
Proof.
  intros H. split; [exact I|]. intros n rest L. destruct n; [lia|].
  cbn [app q_primary]. rewrite <- app_assoc. cbn [app]. rewrite H by (cbn; auto; lia). reflexivity.
Qed.
Lemma frac_prim k1 k2 ts1 t1 ts2 t2 : summ k1 ts1 t1 -> summ k2 ts2 t2 ->
  prim (S (k1 + k2)) (LCmd "frac" :: LLB :: ts1 ++ LRB :: LLB :: ts2 ++ [LRB]) (Div t1 t2).
Proof.
  intros H1 H2. split; [exact I|]. intros n rest L. destruct n; [lia|].
  cbn [app q_primary]. change (String.eqb "frac" "frac") with true. cbv iota. rewrite <- app_assoc. cbn [app].
  rewrite H1 by (cbn; auto; lia). rewrite <- app_assoc. cbn [app]. rewrite H2 by (cbn; auto; lia). reflexivity.
Qed.
Lemma sqrt_prim k ts t : summ k ts t -> prim (S k) (LCmd "sqrt" :: LLB :: ts ++ [LRB]) (Sqrt t).
Proof.
  intros H. split; [exact I|]. intros n rest L. destruct n; [lia|].
  cbn [app q_primary]. change (String.eqb "sqrt" "frac") with false. change (String.eqb "sqrt" "sqrt") with true. cbv iota.
  rewrite <- app_assoc. cbn [app]. rewrite H by (cbn; auto; lia). reflexivity.
Qed.
Lemma fn_prim k c f ts t : (c, f) = ("ln", @Ln string) \/ (c, f) = ("sin", @Sin string) \/ (c, f) = ("cos", @Cos string) ->
  summ k ts t -> prim (S k) (LCmd c :: LLP :: ts ++ [LRP]) (f t).
Proof.
  intros O H. split; [exact I|]. intros n rest L. destruct n; [lia|].
  assert (K : q_sum n (ts ++ LRP :: rest) = Some (t, LRP :: rest)) by (apply H; [lia|exact I]).
  cbn [app q_primary]. rewrite <- app_assoc. cbn [app].
  destruct O as [O|[O|O]]; injection O as -> ->; cbn [String.eqb Ascii.eqb Bool.eqb]; rewrite K; reflexivity.
Qed.

(** Products and sums as lists. *)
Definition piece := (list ltoken * tree)%type.
Definition prest (L : list piece) : list ltoken := flat_map (fun f : piece => LCmd "cdot" :: fst f) L.
Definition pfold (t : tree) (L : list piece) : tree := fold_left (fun a (f : piece) => Mul a (snd f)) L t.
Definition isfact (f : piece) : Prop := exists k, fact k (fst f) (snd f).
Definition isterm (f : piece) : Prop := exists k, term k (fst f) (snd f).
Definition srest (L : list (bool * piece)) : list ltoken :=
  flat_map (fun f : bool * piece => (if fst f then LPlus else LMinus) :: fst (snd f)) L.
Definition sfold (t : tree) (L : list (bool * piece)) : tree :=
  fold_left (fun a (f : bool * piece) => if fst f then Add a (snd (snd f)) else Sub a (snd (snd f))) L t.

Lemma term_rest L : Forall isfact L -> exists k, forall n acc rest, k <= n -> stop_term rest ->
  q_term_rest n acc (prest L ++ rest) = Some (pfold acc L, rest).
Proof.
  induction L as [|f L IH]; intros F.
  - exists 1. intros n acc rest Hn S. destruct n; [lia|]. cbn [prest flat_map app q_term_rest]. destruct rest as [|[] ?]; cbn in S; try contradiction; reflexivity.
  - inversion F as [|? ? [kf Hf] F']; subst. destruct (IH F') as [k Hk]. exists (S (k + kf)). intros n acc rest Hn S. destruct n; [lia|].
    cbn [prest flat_map app q_term_rest]. change (String.eqb "cdot" "cdot") with true. cbv iota.
    fold (prest L). rewrite <- app_assoc. rewrite Hf; [|lia|].
    + rewrite Hk by (auto; lia). reflexivity.
    + destruct L as [|g L]; [cbn; destruct rest as [|[] ?]; cbn in *; auto; contradiction|]. cbn. reflexivity.
Qed.
Lemma stop_prest L rest : stop_term rest -> stop_fact (prest L ++ rest).
Proof. intros S. destruct L as [|g L]; [cbn; destruct rest as [|[] ?]; cbn in *; auto; contradiction|]. cbn. reflexivity. Qed.
Lemma term_list f L : isfact f -> Forall isfact L -> isterm (fst f ++ prest L, pfold (snd f) L).
Proof.
  intros [kf Hf] F. destruct (term_rest L F) as [k Hk]. exists (S (kf + k)). intros n rest Hn S. destruct n; [lia|].
  cbn [fst snd q_term]. rewrite <- app_assoc. rewrite Hf by (try lia; apply stop_prest, S). apply Hk; auto; lia.
Qed.
Lemma sum_rest L : Forall (fun g => isterm (snd g)) L -> exists k, forall n acc rest, k <= n -> stop_sum rest ->
  q_sum_rest n acc (srest L ++ rest) = Some (sfold acc L, rest).
Proof.
  induction L as [|[b f] L IH]; intros F.
  - exists 1. intros n acc rest Hn S. destruct n; [lia|]. cbn [srest flat_map app q_sum_rest]. destruct rest as [|[] ?]; cbn in S; try contradiction; reflexivity.
  - inversion F as [|? ? [kf Hf] F']; subst. destruct (IH F') as [k Hk]. exists (S (k + kf)). intros n acc rest Hn S. destruct n; [lia|].
    assert (ST : stop_term (srest L ++ rest)).
    { destruct L as [|[c g] L]; [cbn; destruct rest as [|[] ?]; cbn in *; auto; contradiction|]. destruct c; exact I. }
    cbn [snd] in Hf. unfold srest, sfold. cbn [flat_map fold_left fst snd]. fold (srest L). destruct b; cbn [app q_sum_rest]; rewrite <- app_assoc, Hf by (auto; lia); apply Hk; auto; lia.
Qed.
Lemma sum_list f L : isterm f -> Forall (fun g => isterm (snd g)) L -> exists k, summ k (fst f ++ srest L) (sfold (snd f) L).
Proof.
  intros [kf Hf] F. destruct (sum_rest L F) as [k Hk]. exists (S (kf + k)). intros n rest Hn S. destruct n; [lia|].
  assert (ST : stop_term (srest L ++ rest)).
  { destruct L as [|[c g] L]; [cbn; destruct rest as [|[] ?]; cbn in *; auto; contradiction|]. destruct c; exact I. }
  cbn [fst snd q_sum]. rewrite <- app_assoc. rewrite Hf by (auto; lia). apply Hk; auto; lia.
Qed.

(** ** Values *)
Section Values.
Variable vars : env X.
Notation den t r := (denotes vars (numbers rd t) r).
Inductive PV : list piece -> R -> Prop :=
| PV0 : PV [] 1%R
| PV1 f L a v : den (snd f) a -> PV L v -> PV (f :: L) (a * v)%R.
Inductive SV : list (bool * piece) -> R -> Prop :=
| SV0 : SV [] 0%R
| SV1 f L a v : den (snd (snd f)) a -> SV L v -> SV (f :: L) ((if fst f then a else - a) + v)%R.
Lemma den_eq t a b : den t a -> a = b -> den t b.
Proof. intros H <-. exact H. Qed.
Lemma PV_eq L a b : PV L a -> a = b -> PV L b.
Proof. intros H <-. exact H. Qed.
Lemma SV_eq L a b : SV L a -> a = b -> SV L b.
Proof. intros H <-. exact H. Qed.
Lemma pfold_den L : forall t a v, den t a -> PV L v -> den (pfold t L) (a * v)%R.
Proof.
  induction L as [|f L IH]; intros t a v D P; inversion P; subst.
  - cbn. eapply den_eq; [exact D|ring].
  - unfold pfold. cbn [fold_left]. fold (pfold (Mul t (snd f)) L).
    eapply den_eq; [apply IH; [cbn [numbers]; constructor; [exact D|eassumption]|eassumption]|ring].
Qed.
Lemma sfold_den L : forall t a v, den t a -> SV L v -> den (sfold t L) (a + v)%R.
Proof.
  induction L as [|[b f] L IH]; intros t a v D P; inversion P; subst.
  - cbn. eapply den_eq; [exact D|ring].
  - unfold sfold. cbn [fold_left fst snd] in *. destruct b.
    + fold (sfold (Add t (snd f)) L). eapply den_eq; [apply IH; [cbn [numbers]; constructor; [exact D|eassumption]|eassumption]|ring].
    + fold (sfold (Sub t (snd f)) L). eapply den_eq; [apply IH; [cbn [numbers]; constructor; [exact D|eassumption]|eassumption]|ring].
Qed.
Lemma PV_app L M a b : PV L a -> PV M b -> PV (L ++ M) (a * b)%R.
Proof.
  intros P. revert b. induction P; intros c Q; cbn [app].
  - eapply PV_eq; [exact Q|ring].
  - eapply PV_eq; [constructor; [eassumption|apply IHP, Q]|ring].
Qed.
Lemma SV_app L M a b : SV L a -> SV M b -> SV (L ++ M) (a + b)%R.
Proof.
  intros P. revert b. induction P; intros c Q; cbn [app].
  - eapply SV_eq; [exact Q|ring].
  - eapply SV_eq; [constructor; [eassumption|apply IHP, Q]|ring].
Qed.
End Values.

Definition SUMOK (e : expr X) : Prop := exists f L, isterm f /\ Forall (fun g => isterm (snd g)) L /\ toks e = fst f ++ srest L /\
  forall vars r, denotes vars e r -> exists a v, denotes vars (numbers rd (snd f)) a /\ SV vars L v /\ r = (a + v)%R.
Definition PRODOK (e : expr X) : Prop := exists f L, isfact f /\ Forall isfact L /\ toks e = fst f ++ prest L /\
  forall vars r, denotes vars e r -> exists a v, denotes vars (numbers rd (snd f)) a /\ PV vars L v /\ r = (a * v)%R.
Definition FACTOK (e : expr X) : Prop := exists t, isfact (toks e, t) /\ forall vars r, denotes vars e r -> denotes vars (numbers rd t) r.
Definition TIGHTOK (e : expr X) : Prop := exists k t, prim k (toks e) t /\ is_e t = false /\ forall vars r, denotes vars e r -> denotes vars (numbers rd t) r.

Lemma tight_fact e : TIGHTOK e -> FACTOK e.
Proof. intros (k & t & P & _ & D). exists t. split; [|exact D]. exists (2 + k). apply prim_fact, P. Qed.
Lemma fact_prod e : FACTOK e -> PRODOK e.
Proof.
  intros (t & F & D). exists (toks e, t), []. split; [exact F|]. split; [constructor|]. split; [cbn; rewrite app_nil_r; reflexivity|].
  intros vars r H. exists r, 1%R. split; [apply D, H|]. split; [constructor|ring].
Qed.
Lemma prod_term e : PRODOK e -> exists t, isterm (toks e, t) /\ forall vars r, denotes vars e r -> denotes vars (numbers rd t) r.
Proof.
  intros (f & L & F & FL & E & D). exists (pfold (snd f) L). split; [rewrite E; apply term_list; auto|].
  intros vars r H. destruct (D vars r H) as (a & v & A & V & ->). apply pfold_den; auto.
Qed.
Lemma prod_sum e : PRODOK e -> SUMOK e.
Proof.
  intros P. destruct (prod_term e P) as (t & T & D). exists (toks e, t), []. split; [exact T|]. split; [constructor|]. split; [cbn; rewrite app_nil_r; reflexivity|].
  intros vars r H. exists r, 0%R. split; [apply D, H|]. split; [constructor|ring].
Qed.
Lemma sum_ok e : SUMOK e -> exists k t, summ k (toks e) t /\ forall vars r, denotes vars e r -> denotes vars (numbers rd t) r.
Proof.
  intros (f & L & F & FL & E & D). destruct (sum_list f L F FL) as [k K]. exists k, (sfold (snd f) L). split; [rewrite E; exact K|].
  intros vars r H. destruct (D vars r H) as (a & v & A & V & ->). apply sfold_den; auto.
Qed.
Definition GOOD (e : expr X) : Prop :=
  SUMOK e /\ (not_sum (looks txt e) = true -> PRODOK e) /\ (tight (looks txt e) = true -> TIGHTOK e).
Lemma good_tight e : TIGHTOK e -> GOOD e.
Proof. intros T. pose proof (fact_prod _ (tight_fact _ T)) as P. split; [apply prod_sum, P|]. split; auto. Qed.
Lemma good_fact e : tight (looks txt e) = false -> FACTOK e -> GOOD e.
Proof. intros N T. pose proof (fact_prod _ T) as P. split; [apply prod_sum, P|]. split; auto. congruence. Qed.
Lemma good_prod e : tight (looks txt e) = false -> PRODOK e -> GOOD e.
Proof. intros N P. split; [apply prod_sum, P|]. split; auto. congruence. Qed.

Lemma isfact_neg f : isfact f -> isfact (LMinus :: fst f, Neg (snd f)).
Proof. intros [k F]. exists (S k). apply neg_fact, F. Qed.
Lemma srest_app L M : srest (L ++ M) = srest L ++ srest M.
Proof. unfold srest. apply flat_map_app. Qed.
Lemma prest_app L M : prest (L ++ M) = prest L ++ prest M.
Proof. unfold prest. apply flat_map_app. Qed.

Lemma prod_mul l r : PRODOK l -> PRODOK r -> toks (Mul l r) = toks l ++ LCmd "cdot" :: toks r -> PRODOK (Mul l r).
Proof.
  intros (f & L & F & FL & E & D) (g & M & G & GM & E' & D') T. exists f, (L ++ g :: M).
  split; [exact F|]. split; [apply Forall_app; split; auto|]. split.
  { rewrite T, E, E', prest_app. cbn [prest flat_map app]. rewrite <- app_assoc. reflexivity. }
  intros vars q H. inversion H; subst.
  destruct (D vars a ltac:(assumption)) as (a1 & v1 & A1 & V1 & ->). destruct (D' vars b ltac:(assumption)) as (a2 & v2 & A2 & V2 & ->).
  exists a1, (v1 * (a2 * v2))%R. split; [exact A1|]. split; [|ring]. apply PV_app; [exact V1|]. constructor; auto.
Qed.
Lemma const_ok c : reads rd txt c -> GOOD (Const c).
Proof.
  intros [[W E]|(t & E & W & V)].
  - apply good_tight. exists 1, (Const (txt c)). split; [cbn [toks]; rewrite tk_plain by auto; apply num_prim|]. split; [reflexivity|].
    intros vars r H. cbn [numbers]. rewrite E. exact H.
  - apply good_fact; [cbn [looks]; rewrite E; reflexivity|]. exists (Neg (Const t)). cbn [toks]. rewrite (tk_neg _ _ E). split.
    + exists 4. apply neg_fact. apply (prim_fact 1), num_prim.
    + intros vars r H. cbn [numbers]. rewrite <- V in H. destruct (rd t) as [q| | |] eqn:Q; cbn in H; inversion H; subst. constructor. constructor.
Qed.

Lemma latex_good e : words_ok e -> brackets_unneeded txt e = true -> GOOD e.
Proof.
  induction e; cbn [words_ok brackets_unneeded]; intros W S.
  - apply const_ok, W.
  - apply good_tight. exists 1, (Var x). split; [apply name_prim|]. split; [|auto].
    unfold symbol in W. apply andb_prop in W as [_ W]. apply negb_true_iff in W. exact W.
  - destruct W as [W1 W2]. apply andb_prop in S as [S1 S2].
    destruct (IHe1 W1 S1) as [(f & L & F & FL & E & D) _]. destruct (IHe2 W2 S2) as [(g & M & G & GM & E' & D') _].
    split; [|split; discriminate]. exists f, (L ++ (true, g) :: M). split; [exact F|]. split; [apply Forall_app; split; auto|]. split.
    { cbn [toks]. rewrite E, E', srest_app. cbn [srest flat_map app fst snd]. rewrite <- app_assoc. reflexivity. }
    intros vars q H. inversion H; subst.
    destruct (D vars a ltac:(assumption)) as (a1 & v1 & A1 & V1 & ->). destruct (D' vars b ltac:(assumption)) as (a2 & v2 & A2 & V2 & ->).
    exists a1, (v1 + (a2 + v2))%R. split; [exact A1|]. split; [|ring]. apply SV_app; [exact V1|]. exact (SV1 vars (true, g) M a2 v2 A2 V2).
  - destruct W as [W1 W2]. apply andb_prop in S as [S NS]. apply andb_prop in S as [S1 S2].
    destruct (IHe1 W1 S1) as [(f & L & F & FL & E & D) _]. destruct (IHe2 W2 S2) as [_ [P _]]. destruct (prod_term e2 (P NS)) as (t & T & D').
    split; [|split; discriminate]. exists f, (L ++ [(false, (toks e2, t))]). split; [exact F|]. split; [apply Forall_app; split; auto|]. split.
    { cbn [toks]. rewrite E, srest_app. cbn [srest flat_map app fst snd]. rewrite app_nil_r, <- app_assoc. reflexivity. }
    intros vars q H. inversion H; subst.
    destruct (D vars a ltac:(assumption)) as (a1 & v1 & A1 & V1 & ->).
    exists a1, (v1 + (- b + 0))%R. split; [exact A1|]. split; [|ring]. apply SV_app; [exact V1|].
    exact (SV1 vars (false, (toks e2, t)) [] b 0%R (D' vars b ltac:(assumption)) (SV0 vars)).
  - destruct W as [W1 W2]. apply andb_prop in S as [S C]. apply andb_prop in S as [S1 S2].
    specialize (IHe1 W1 S1). specialize (IHe2 W2 S2).
    assert (GEN : (forall c, e1 <> Const c) -> GOOD (Mul e1 e2)).
    { intros N. assert (Q : not_sum (looks txt e1) && not_sum (looks txt e2) = true) by (destruct e1; try exact C; exfalso; eapply N; reflexivity).
      apply andb_prop in Q as [Q1 Q2]. apply good_prod; [destruct e1; try reflexivity; exfalso; eapply N; reflexivity|].
      apply prod_mul; [apply IHe1, Q1|apply IHe2, Q2|]. destruct e1; try reflexivity. exfalso; eapply N; reflexivity. }
    destruct e1; try (apply GEN; discriminate). clear GEN.
    destruct (neqb c n1) eqn:N1.
    { (* 1 * r *)
      assert (T : toks (Mul (Const c) e2) = toks e2) by (cbn [toks is_lit]; rewrite N1; reflexivity).
      assert (Lk : looks txt (Mul (Const c) e2) = looks txt e2) by (cbn [looks]; rewrite N1; reflexivity).
      assert (V : forall vars q, denotes vars (Mul (Const c) e2) q -> denotes vars e2 q).
      { intros vars q H. inversion H as [| | | |? ? a b D1 D2| | | | | | | | | | |]; subst. inversion D1; subst.
        assert (K : a = 1%R). { change (xeqb (Fin a) (@n1 X) = true) in N1. apply xeqb_eq in N1. rewrite x_n1 in N1. injection N1 as N1. exact N1. }
        subst a. rewrite Rmult_1_l. exact D2. }
      destruct IHe2 as [(f & L & F & FL & E & D) [P Q]]. split; [|split].
      - exists f, L. rewrite T. repeat split; auto.
      - rewrite Lk. intros K. destruct (P K) as (g & M & G & GM & E' & D'). exists g, M. rewrite T. repeat split; auto.
      - rewrite Lk. intros K. destruct (Q K) as (k & t & Pr & IE & D'). exists k, t. rewrite T. repeat split; auto; apply Pr. }
    cbn [orb] in C. assert (NT : tight (looks txt (Mul (Const c) e2)) = false) by (cbn [looks]; rewrite N1; reflexivity).
    destruct (neqb c nm1) eqn:N2.
    { (* -1 * r *)
      assert (T : toks (Mul (Const c) e2) = LMinus :: toks e2) by (cbn [toks is_lit]; rewrite N1, N2; reflexivity).
      apply good_prod; [exact NT|]. destruct IHe2 as [_ [P _]]. destruct (P C) as (f & L & F & FL & E & D).
      exists (LMinus :: fst f, Neg (snd f)), L. split; [apply isfact_neg, F|]. split; [exact FL|]. split; [rewrite T, E; reflexivity|].
      intros vars q H. inversion H as [| | | |? ? a b D1 D2| | | | | | | | | | |]; subst. inversion D1; subst.
      assert (K : a = (-1)%R). { change (xeqb (Fin a) (@nm1 X) = true) in N2. apply xeqb_eq in N2. unfold nm1 in N2. cbn in N2. injection N2 as N2. rewrite N2. try lra. }
      subst a. destruct (D vars b D2) as (a1 & v1 & A1 & V1 & ->). exists (- a1)%R, v1. cbn [snd numbers]. split; [constructor; exact A1|]. split; [exact V1|ring]. }
    assert (PC : PRODOK (Const c)).
    { destruct IHe1 as [_ [P _]]. apply P. cbn [looks]. destruct (txt c) as [|d s]; auto. destruct d as [[] [] [] [] [] [] [] []]; reflexivity. }
    assert (GEN : (forall x, e2 <> Var x) -> GOOD (Mul (Const c) e2)).
    { intros N. apply good_prod; [exact NT|]. apply prod_mul; [exact PC|apply IHe2, C|].
      cbn [toks is_lit]. rewrite N1, N2. destruct e2; try reflexivity. exfalso; eapply N; reflexivity. }
    destruct e2; try (apply GEN; discriminate). clear GEN.
    (* 2x *)
    apply good_prod; [exact NT|]. apply fact_prod. cbn [words_ok] in W1.
    assert (T : toks (Mul (Const c) (Var x)) = tk_const c ++ [LName x]) by (cbn [toks is_lit]; rewrite N1, N2; reflexivity).
    unfold FACTOK. rewrite T. destruct W1 as [[W1 E1]|(t & E1 & W1 & V)].
    + rewrite tk_plain by auto. exists (Mul (Const (txt c)) (Var x)). split; [exists 3; apply jux_fact|]. intros vars q H. cbn [numbers]. rewrite E1. exact H.
    + rewrite (tk_neg _ _ E1). exists (Neg (Mul (Const t) (Var x))). split; [exists 4; apply neg_fact, jux_fact|].
      intros vars q H. rewrite <- V in H. inversion H as [| | | |? ? a b D1 D2| | | | | | | | | | |]; subst. cbn [numbers].
      destruct (rd t) as [u| | |] eqn:Q; cbn in D1; inversion D1; subst.
      replace (- u * b)%R with (- (u * b))%R by ring. constructor. constructor; [constructor|exact D2].
  - destruct W as [W1 W2]. apply andb_prop in S as [S1 S2].
    destruct (IHe1 W1 S1) as [P1 _]. destruct (IHe2 W2 S2) as [P2 _]. destruct (sum_ok _ P1) as (k1 & t1 & K1 & D1), (sum_ok _ P2) as (k2 & t2 & K2 & D2).
    apply good_tight. exists (S (k1 + k2)), (Div t1 t2). split; [apply frac_prim; auto|]. split; [reflexivity|].
    intros vars q H. inversion H; subst. cbn [numbers]. constructor; auto.
  - destruct W as [W1 W2]. apply andb_prop in S as [S T]. apply andb_prop in S as [S1 S2].
    destruct (IHe1 W1 S1) as (_ & _ & P1). destruct (IHe2 W2 S2) as [P2 _]. destruct (P1 T) as (k1 & t1 & K1 & IE & D1), (sum_ok _ P2) as (k2 & t2 & K2 & D2).
    apply good_fact; [reflexivity|]. exists (Pow t1 t2). split.
    + exists (2 + k1 + k2). pose proof (pow_fact _ _ _ _ _ _ K1 K2) as Q. rewrite IE in Q. exact Q.
    + intros vars q H. cbn [numbers]. inversion H; subst;
        [eapply d_pow_zero; eauto|eapply d_pow_pos; eauto|eapply d_pow_base0; eauto|eapply d_pow_int; eauto].
  - destruct (IHe W S) as [P _]. destruct (sum_ok _ P) as (k & t & K & D).
    apply good_tight. exists (Datatypes.S k), (Ln t). split; [apply fn_prim; auto|]. split; [reflexivity|]. intros vars q H. inversion H; subst. cbn [numbers]. constructor; auto.
  - destruct (IHe W S) as [P _]. destruct (sum_ok _ P) as (k & t & K & D).
    apply good_fact; [reflexivity|]. exists (Exp t). split.
    + exists (2 + 1 + k). exact (pow_fact _ _ _ _ _ _ (name_prim "e") K).
    + intros vars q H. inversion H; subst. cbn [numbers]. constructor; auto.
  - destruct (IHe W S) as [P _]. destruct (sum_ok _ P) as (k & t & K & D).
    apply good_tight. exists (Datatypes.S k), (Sqrt t). split; [apply sqrt_prim; auto|]. split; [reflexivity|]. intros vars q H. inversion H; subst. cbn [numbers]. constructor; auto.
  - destruct (IHe W S) as [P _]. destruct (sum_ok _ P) as (k & t & K & D).
    apply good_tight. exists (Datatypes.S k), (Sin t). split; [apply fn_prim; auto|]. split; [reflexivity|]. intros vars q H. inversion H; subst. cbn [numbers]. constructor; auto.
  - destruct (IHe W S) as [P _]. destruct (sum_ok _ P) as (k & t & K & D).
    apply good_tight. exists (Datatypes.S k), (Cos t). split; [apply fn_prim; auto|]. split; [reflexivity|]. intros vars q H. inversion H; subst. cbn [numbers]. constructor; auto.
  - destruct (IHe W S) as [P _]. destruct (sum_ok _ P) as (k & t & K & D).
    apply good_fact; [reflexivity|]. exists (Neg t). split.
    + exists (Datatypes.S (2 + Datatypes.S k)). apply neg_fact, prim_fact, paren_prim, K.
    + intros vars q H. inversion H; subst. cbn [numbers]. constructor; auto.
Qed.

Lemma words_of e : consts_readable rd txt e -> names_ok symbol e -> words_ok e.
Proof.
  intros C H. unfold names_ok in H.
  induction e; cbn [consts_readable words_ok] in *; auto;
    try (destruct C; split; [apply IHe1|apply IHe2]; auto; intros y O; apply H; constructor; assumption);
    try (apply IHe; auto; intros y O; apply H; constructor; assumption).
  apply H; constructor.
Qed.
End Latex.

Lemma latex_reading lg (show : XR lg -> string) (whole : XR lg -> bool) (show_int : XR lg -> string) rd e :
  names_ok symbol e -> consts_readable rd (fun c : XR lg => if whole c then show_int c else show c) e ->
  brackets_unneeded (fun c : XR lg => if whole c then show_int c else show c) e = true ->
  exists t, latex_reads (to_latex show whole show_int e) t /\
    forall vars r, denotes vars e r -> denotes vars (numbers rd t) r.
Proof.
  intros H C B. pose proof (words_of show whole show_int rd e C H) as W.
  destruct (latex_good show whole show_int rd e W B) as [P _]. destruct (sum_ok _ _ _ _ _ P) as (k & t & K & D).
  exists t. split; [|exact D]. exists k. intros n L. unfold ltokens.
  pose proof (llex_latex show whole show_int rd e W [] I) as E. rewrite app_nil_r in E. rewrite E. cbn [llex lflush rev].
  apply K; [exact L|exact I].
Qed.
Lemma latex_unique s t u : latex_reads s t -> latex_reads s u -> t = u.
Proof.
  intros [a A] [b B]. specialize (A (max a b) ltac:(lia)). specialize (B (max a b) ltac:(lia)). congruence.
Qed.

(** ** Exceptions *)
Lemma three_names lg (x y z : R) : exists vars : env (XR lg), get vars "x" = Some (Fin x) /\ get vars "y" = Some (Fin y) /\ get vars "z" = Some (Fin z).
Proof. exists [("x", Fin x : XR lg); ("y", Fin y : XR lg); ("z", Fin z : XR lg)]. repeat split. Qed.
Lemma xyz_names lg (e : expr (XR lg)) : (forall a, occurs a e -> a = "x" \/ a = "y" \/ a = "z") -> names_ok symbol e.
Proof. intros H a O. destruct (H a O) as [->|[->| ->]]; reflexivity. Qed.
Lemma latex_wrong lg (show : XR lg -> string) (whole : XR lg -> bool) (show_int : XR lg -> string) (rd : string -> XR lg) :
  let reads_wrong e := exists t vars r r', latex_reads (to_latex show whole show_int e) t /\
    denotes vars e r /\ denotes vars (numbers rd t) r' /\ r <> r' in
  let x := Var "x" in let y := Var "y" in let z := Var "z" in
  reads_wrong (Mul (Add x y) z : expr (XR lg)) /\ reads_wrong (Sub x (Sub y z)) /\ reads_wrong (Pow (Neg x) y).
Proof.
  assert (G : forall e e' : expr (XR lg), to_latex show whole show_int e = to_latex show whole show_int e' ->
    (forall a, occurs a e' -> a = "x" \/ a = "y" \/ a = "z") -> consts_readable rd (fun c : XR lg => if whole c then show_int c else show c) e' ->
    brackets_unneeded (fun c : XR lg => if whole c then show_int c else show c) e' = true ->
    forall vars r r', denotes vars e r -> denotes vars e' r' -> r <> r' ->
    exists t vars r r', latex_reads (to_latex show whole show_int e) t /\ denotes vars e r /\ denotes vars (numbers rd t) r' /\ r <> r').
  { intros e e' E O C B vars r r' D D' N. destruct (latex_reading lg show whole show_int rd e' (xyz_names lg e' O) C B) as (t & T & V).
    exists t, vars, r, r'. rewrite E. auto. }
  cbv zeta. destruct (three_names lg 2 2 2) as (vars & Vx & Vy & Vz). split; [|split].
  - apply (G (Mul (Add (Var "x") (Var "y")) (Var "z")) (Add (Var "x") (Mul (Var "y") (Var "z"))) ltac:(reflexivity)) with (vars := vars) (r := ((2 + 2) * 2)%R) (r' := (2 + 2 * 2)%R).
    + intros a H. repeat match goal with H : occurs _ _ |- _ => inversion H; clear H; subst end; auto.
    + repeat split.
    + reflexivity.
    + repeat constructor; assumption.
    + repeat constructor; assumption.
    + lra.
  - apply (G (Sub (Var "x") (Sub (Var "y") (Var "z"))) (Sub (Sub (Var "x") (Var "y")) (Var "z")) ltac:(reflexivity)) with (vars := vars) (r := (2 - (2 - 2))%R) (r' := (2 - 2 - 2)%R).
    + intros a H. repeat match goal with H : occurs _ _ |- _ => inversion H; clear H; subst end; auto.
    + repeat split.
    + reflexivity.
    + repeat constructor; assumption.
    + repeat constructor; assumption.
    + lra.
  - assert (PR : latex_reads (to_latex show whole show_int (Pow (Neg (Var "x")) (Var "y"))) (Neg (Pow (Var "x") (Var "y")))).
    { exists 30. intros n L. do 30 (destruct n; [lia|]). reflexivity. }
    exists (Neg (Pow (Var "x") (Var "y"))), vars, (powerRZ (Ropp 2) 2), (- powerRZ 2 2)%R. split; [exact PR|].
    split; [|split].
    + apply (d_pow_int vars (Neg (Var "x")) (Var "y") (Ropp 2) 2%Z); [constructor; constructor; exact Vx|constructor; exact Vy|lra].
    + cbn [numbers]. constructor. apply (d_pow_int vars (Var "x") (Var "y") 2%R 2%Z); [constructor; exact Vx|constructor; exact Vy|lra].
    + intros K. unfold powerRZ in K. change (Pos.to_nat 2) with 2 in K. cbn [pow] in K. lra.
Qed.
Lemma latex_double lg show whole show_int : forall t,
  ~ latex_reads (to_latex show whole show_int (Pow (Pow (Var "x") (Var "y")) (Var "z") : expr (XR lg))) t.
Proof.
  intros t [n0 H]. specialize (H (n0 + 30) ltac:(lia)). assert (exists m, n0 + 30 = 30 + m) as [m E] by (exists n0; lia). rewrite E in H.
  change (Some (Pow (Var "x") (Var "y"), [LCaret; LLB; LName "z"; LRB]) = Some (t, [])) in H. discriminate.
Qed.
Lemma latex_e lg show whole show_int (a : expr (XR lg)) :
  to_latex show whole show_int (Pow (Var "e") a) = to_latex show whole show_int (Exp a).
Proof. reflexivity. Qed.
Lemma latex_case lg : exists (show : XR lg -> string) rd,
  let whole := fun _ : XR lg => true in
  let e := Sub (Mul (Const (Fin (-1) : XR lg)) (Div (Pow (Var "x") (Const (Fin 2 : XR lg))) (Mul (Const (Fin 2 : XR lg)) (Var "s")))) (Ln (Var "s")) in
  names_ok symbol e /\ consts_readable rd show e /\ brackets_unneeded show e = true /\
  to_latex show whole show e = "-\frac{x^{2}}{2s} - \ln(s)".
Proof.
  exists (fun c => match c with Fin r => if Req_EM_T r 2 then "2" else "-1" | _ => "NaN" end),
    (fun s => if String.eqb s "2" then Fin 2 else Fin 1). cbv zeta.
  assert (A : (if Req_EM_T 2 2 then "2" else "-1") = "2") by (destruct (Req_EM_T 2 2); congruence).
  assert (B : (if Req_EM_T (-1) 2 then "2" else "-1") = "-1") by (destruct (Req_EM_T (-1) 2); [exfalso; lra|auto]).
  assert (E1 : @neqb (XR lg) (Fin (-1)) n1 = false). { change (xeqb (Fin (-1)) (n1 : XR lg) = false). rewrite x_n1. cbn. unfold Req_b. destruct (Req_EM_T (-1) 1); [exfalso; lra|reflexivity]. }
  assert (E2 : @neqb (XR lg) (Fin (-1)) nm1 = true). { change (xeqb (Fin (-1)) (nm1 : XR lg) = true). rewrite x_nm1. cbn. unfold Req_b. destruct (Req_EM_T (-1) (-1)); [reflexivity|congruence]. }
  assert (E3 : @neqb (XR lg) (Fin 2) n1 = false). { change (xeqb (Fin 2) (n1 : XR lg) = false). rewrite x_n1. cbn. unfold Req_b. destruct (Req_EM_T 2 1); [exfalso; lra|reflexivity]. }
  assert (E4 : @neqb (XR lg) (Fin 2) nm1 = false). { change (xeqb (Fin 2) (nm1 : XR lg) = false). rewrite x_nm1. cbn. unfold Req_b. destruct (Req_EM_T 2 (-1)); [exfalso; lra|reflexivity]. }
  split; [|split; [|split]].
  - intros y O. repeat match goal with H : occurs _ _ |- _ => inversion H; clear H; subst end; reflexivity.
  - repeat split.
    + right. exists "1". split; [exact B|split; [reflexivity|]]. cbn. f_equal; lra.
    + left. rewrite A. split; reflexivity.
    + left. rewrite A. split; reflexivity.
  - cbn [brackets_unneeded looks not_sum tight andb]. rewrite E1, E3. reflexivity.
  - cbn [to_latex is_lit]. rewrite E1, E2, E3, E4. rewrite A. reflexivity.
Qed.
