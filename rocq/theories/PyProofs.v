(** The exported Python text is read by Python as the same expression (C13);
    brackets balance. *)
From Coq Require Import ZArith Reals Bool String Ascii List Arith Lia.
From Verif Require Import Num ExprModel ExprSpec ShowModel ShowSpec ShowProofs.
Import ListNotations.
Local Open Scope string_scope.
Local Open Scope list_scope.

(** ** Tokens *)
Definition brk (r : list ascii) : Prop :=
  match r with [] => True | c :: _ => is_word c = false /\ Ascii.eqb c "." = false end.

Lemma lex_break cur r : brk r -> lex cur r = flush cur (lex [] r).
Proof. destruct r as [|c r]; [reflexivity|]. intros [A B]. cbn [lex]. rewrite A, B. reflexivity. Qed.

Lemma lex_word w : forallb is_word w = true -> forall cur r, lex cur (w ++ r) = lex (rev w ++ cur) r.
Proof.
  induction w as [|c w IH]; cbn [forallb app rev]; intros H cur r; auto.
  apply andb_prop in H as [H1 H2]. cbn [lex]. rewrite H1, IH by auto.
  rewrite <- app_assoc. reflexivity.
Qed.

Lemma lex_name x r : py_name x = true -> brk r -> lex [] (las x ++ r) = TName x :: lex [] r.
Proof.
  intros H B. unfold py_name in H. apply andb_prop in H as [H _]. apply andb_prop in H as [H K].
  unfold identifier in H. destruct (las x) as [|c l] eqn:E; [discriminate|].
  rewrite !andb_true_iff in H. destruct H as [[[H1 H2] _] _].
  assert (W : forallb is_word (c :: l) = true) by (cbn; unfold is_word at 1; rewrite H1; auto).
  rewrite lex_word by auto. rewrite lex_break by auto. rewrite app_nil_r.
  unfold flush. rewrite rev_involutive.
  assert (D : is_digit c = false).
  { destruct (is_digit c) eqn:Q; auto. apply digit_not_alpha in Q. congruence. }
  rewrite D. change (string_of_list_ascii (c :: l)) with (string_of_list_ascii (c :: l)).
  rewrite <- E, sol_las. cbv zeta. apply negb_true_iff in K. rewrite K. reflexivity.
Qed.

Lemma lex_digits l : forallb (fun d => is_digit d || Ascii.eqb d ".") l = true ->
  forall cur r, in_number cur = true -> lex cur (l ++ r) = lex (rev l ++ cur) r.
Proof.
  induction l as [|c l IH]; cbn [forallb app rev]; intros H cur r IN; auto.
  apply andb_prop in H as [H1 H2].
  assert (IN2 : in_number (c :: cur) = true).
  { unfold in_number in *. cbn [rev]. destruct (rev cur); [discriminate|]. exact IN. }
  rewrite <- app_assoc. cbn [app lex].
  destruct (is_word c) eqn:W; [apply IH; auto|].
  destruct (Ascii.eqb c ".") eqn:D.
  - rewrite IN. apply IH; auto.
  - unfold is_word in W. apply orb_false_iff in W as [_ W]. rewrite W in H1. discriminate.
Qed.
Lemma lex_num t r : plain_number t = true -> brk r -> lex [] (las t ++ r) = TNum t :: lex [] r.
Proof.
  unfold plain_number. destruct (las t) as [|c l] eqn:E; [discriminate|].
  intros H B. apply andb_prop in H as [H1 H2]. cbn [app lex].
  assert (W : is_word c = true) by (unfold is_word; rewrite H1; apply orb_true_r).
  rewrite W. rewrite lex_digits by (auto; unfold in_number; cbn; auto).
  rewrite lex_break by auto. unfold flush. rewrite rev_app_distr, rev_involutive.
  cbn [rev app]. rewrite H1. rewrite <- E, sol_las. reflexivity.
Qed.

Section Py.
Context {N : Num} (show : N -> string).

Definition ptoks_const (c : N) : list token :=
  match show c with String "-" t => [TMinus; TNum t] | s => [TNum s] end.
Definition call (f : string) (k : list token) : list token :=
  TName "math" :: TDot :: TName f :: TLP :: k.
Fixpoint ptoks (e : expr N) : list token :=
  match e with
  | Const c => ptoks_const c
  | Var x => [TName x]
  | Add l r => TLP :: ptoks l ++ TPlus :: ptoks r ++ [TRP]
  | Sub l r => TLP :: ptoks l ++ TMinus :: ptoks r ++ [TRP]
  | Mul l r => TLP :: ptoks l ++ TStar :: ptoks r ++ [TRP]
  | Div l r => TLP :: ptoks l ++ TSlash :: ptoks r ++ [TRP]
  | Pow l r => TLP :: ptoks l ++ TDStar :: ptoks r ++ [TRP]
  | Ln a => call "log" (ptoks a ++ [TRP])
  | Exp a => call "exp" (ptoks a ++ [TRP])
  | Sqrt a => call "sqrt" (ptoks a ++ [TRP])
  | Sin a => call "sin" (ptoks a ++ [TRP])
  | Cos a => call "cos" (ptoks a ++ [TRP])
  | Neg a => TMinus :: TLP :: ptoks a ++ [TRP]
  end.

(** Number texts without infinities and NaN, which Python cannot read. *)
Definition finite_text (c : N) : Prop :=
  plain_number (show c) = true \/ exists t, show c = String "-" t /\ plain_number t = true.
Fixpoint texts_ok (e : expr N) : Prop :=
  match e with
  | Const c => finite_text c
  | Var x => py_name x = true
  | Add l r | Sub l r | Mul l r | Div l r | Pow l r => texts_ok l /\ texts_ok r
  | Ln a | Exp a | Sqrt a | Sin a | Cos a | Neg a => texts_ok a
  end.

Lemma plain_const c : plain_number (show c) = true -> ptoks_const c = [TNum (show c)].
Proof.
  intros H. unfold ptoks_const. pose proof (plain_number_ok _ H) as [_ S].
  unfold signless in S. destruct (show c) as [|d s]; auto. cbn in S.
  destruct d as [[] [] [] [] [] [] [] []]; auto. discriminate.
Qed.
Lemma neg_const c t : show c = String "-" t -> ptoks_const c = [TMinus; TNum t].
Proof. intros H. unfold ptoks_const. rewrite H. reflexivity. Qed.

Lemma lex_python e : texts_ok e -> forall r, brk r ->
  lex [] (las (to_python show e) ++ r) = ptoks e ++ lex [] r.
Proof.
  assert (BP : forall r, brk (")"%char :: r)) by (intros; split; reflexivity).
  assert (BS : forall r, brk (" "%char :: r)) by (intros; split; reflexivity).
  induction e; cbn [texts_ok]; intros W rest B; cbn [to_python ptoks].
  - destruct W as [W | (t & E & W)].
    + rewrite plain_const by auto. apply lex_num; auto.
    + rewrite (neg_const _ _ E), E.
      change (las (String "-" t) ++ rest) with ("-"%char :: las t ++ rest).
      cbn [lex]. change (is_word "-") with false. change (Ascii.eqb "-" ".") with false. cbn.
      fold las. rewrite lex_num by auto. reflexivity.
  - apply lex_name; auto.
  - destruct W as [W1 W2]. rewrite las_bin. cbn [app].
    change (lex [] ("("%char :: ?s)) with (TLP :: lex [] s). f_equal.
    rewrite IHe1 by (auto; apply BS). rewrite <- app_assoc. f_equal. cbn [app].
    change (lex [] (las " + " ++ ?s)) with (TPlus :: lex [] s). f_equal.
    rewrite IHe2 by auto. rewrite <- app_assoc. f_equal.
  - destruct W as [W1 W2]. rewrite las_bin. cbn [app].
    change (lex [] ("("%char :: ?s)) with (TLP :: lex [] s). f_equal.
    rewrite IHe1 by (auto; apply BS). rewrite <- app_assoc. f_equal. cbn [app].
    change (lex [] (las " - " ++ ?s)) with (TMinus :: lex [] s). f_equal.
    rewrite IHe2 by auto. rewrite <- app_assoc. f_equal.
  - destruct W as [W1 W2]. rewrite las_bin. cbn [app].
    change (lex [] ("("%char :: ?s)) with (TLP :: lex [] s). f_equal.
    rewrite IHe1 by (auto; apply BS). rewrite <- app_assoc. f_equal. cbn [app].
    change (lex [] (las " * " ++ ?s)) with (TStar :: lex [] s). f_equal.
    rewrite IHe2 by auto. rewrite <- app_assoc. f_equal.
  - destruct W as [W1 W2]. rewrite las_bin. cbn [app].
    change (lex [] ("("%char :: ?s)) with (TLP :: lex [] s). f_equal.
    rewrite IHe1 by (auto; apply BS). rewrite <- app_assoc. f_equal. cbn [app].
    change (lex [] (las " / " ++ ?s)) with (TSlash :: lex [] s). f_equal.
    rewrite IHe2 by auto. rewrite <- app_assoc. f_equal.
  - destruct W as [W1 W2]. rewrite las_bin. cbn [app].
    change (lex [] ("("%char :: ?s)) with (TLP :: lex [] s). f_equal.
    rewrite IHe1 by (auto; apply BS). rewrite <- app_assoc. f_equal. cbn [app].
    change (lex [] (las " ** " ++ ?s)) with (TDStar :: lex [] s). f_equal.
    rewrite IHe2 by auto. rewrite <- app_assoc. f_equal.
  - rewrite las_fn. change (lex [] (las "math.log(" ++ ?s)) with (call "log" (lex [] s)).
    rewrite IHe by auto. unfold call. cbn [app]. rewrite <- app_assoc. reflexivity.
  - rewrite las_fn. change (lex [] (las "math.exp(" ++ ?s)) with (call "exp" (lex [] s)).
    rewrite IHe by auto. unfold call. cbn [app]. rewrite <- app_assoc. reflexivity.
  - rewrite las_fn. change (lex [] (las "math.sqrt(" ++ ?s)) with (call "sqrt" (lex [] s)).
    rewrite IHe by auto. unfold call. cbn [app]. rewrite <- app_assoc. reflexivity.
  - rewrite las_fn. change (lex [] (las "math.sin(" ++ ?s)) with (call "sin" (lex [] s)).
    rewrite IHe by auto. unfold call. cbn [app]. rewrite <- app_assoc. reflexivity.
  - rewrite las_fn. change (lex [] (las "math.cos(" ++ ?s)) with (call "cos" (lex [] s)).
    rewrite IHe by auto. unfold call. cbn [app]. rewrite <- app_assoc. reflexivity.
  - rewrite las_fn. change (lex [] (las "-(" ++ ?s)) with (TMinus :: TLP :: lex [] s).
    rewrite IHe by auto. cbn [app]. rewrite <- app_assoc. reflexivity.
Qed.

(** ** Grammar *)
Definition py_const (c : N) : py :=
  match show c with String "-" t => PNeg (PNum t) | s => PNum s end.
Fixpoint pyread (e : expr N) : py :=
  match e with
  | Const c => py_const c
  | Var x => PName x
  | Add l r => PAdd (pyread l) (pyread r)
  | Sub l r => PSub (pyread l) (pyread r)
  | Mul l r => PMul (pyread l) (pyread r)
  | Div l r => PDiv (pyread l) (pyread r)
  | Pow b p =>
      match b with
      | Neg b' => PNeg (PPow (pyread b') (pyread p))
      | Const c => match show c with
                   | String "-" t => PNeg (PPow (PNum t) (pyread p))
                   | s => PPow (PNum s) (pyread p)
                   end
      | _ => PPow (pyread b) (pyread p)
      end
  | Ln a => PCall "log" (pyread a)
  | Exp a => PCall "exp" (pyread a)
  | Sqrt a => PCall "sqrt" (pyread a)
  | Sin a => PCall "sin" (pyread a)
  | Cos a => PCall "cos" (pyread a)
  | Neg a => PNeg (pyread a)
  end.

Definition headed (ts : list token) : Prop :=
  match ts with TNum _ :: _ | TName _ :: _ | TLP :: _ => True | _ => False end.
Definition not_dot (ts : list token) : Prop := match ts with TDot :: _ => False | _ => True end.
Definition stop_factor (ts : list token) : Prop :=
  match ts with TDot :: _ | TDStar :: _ => False | _ => True end.
Definition stop_sum (ts : list token) : Prop := match ts with [] | TRP :: _ => True | _ => False end.

(** [prim k ts t]: with enough fuel the tokens [ts] form a primary read as [t]. *)
Definition prim (k : nat) (ts : list token) (t : py) : Prop :=
  headed ts /\ forall n rest, k <= n -> not_dot rest -> p_primary n (ts ++ rest) = Some (t, rest).
Definition fact (k : nat) (ts : list token) (t : py) : Prop :=
  forall n rest, k <= n -> stop_factor rest -> p_factor n (ts ++ rest) = Some (t, rest).
Definition summ (k : nat) (ts : list token) (t : py) : Prop :=
  forall n rest, k <= n -> stop_sum rest -> p_sum n (ts ++ rest) = Some (t, rest).

Lemma prim_fact k ts t : prim k ts t -> fact (2 + k) ts t.
Proof.
  intros [H P] n rest L SF. destruct n as [|[|n]]; try lia.
  assert (ND : not_dot rest) by (destruct rest as [|[] ?]; cbn in *; tauto).
  assert (E : p_factor (S (S n)) (ts ++ rest) = p_power (S n) (ts ++ rest))
    by (destruct ts as [|[] ?]; cbn in H; try tauto; reflexivity).
  rewrite E. cbn [p_power]. rewrite (P n rest) by (auto; lia).
  destruct rest as [|[] ?]; cbn in SF; try tauto; reflexivity.
Qed.
Lemma neg_fact k ts t : fact k ts t -> fact (S k) (TMinus :: ts) (PNeg t).
Proof.
  intros F n rest L SF. destruct n; [lia|]. cbn [app p_factor]. rewrite F; auto; lia.
Qed.
Lemma pow_fact k1 k2 ts1 t1 ts2 t2 : prim k1 ts1 t1 -> fact k2 ts2 t2 ->
  fact (2 + k1 + k2) (ts1 ++ TDStar :: ts2) (PPow t1 t2).
Proof.
  intros [H P] F n rest L SF. destruct n as [|[|n]]; try lia.
  rewrite <- app_assoc. cbn [app].
  assert (E : p_factor (S (S n)) (ts1 ++ TDStar :: ts2 ++ rest)
              = p_power (S n) (ts1 ++ TDStar :: ts2 ++ rest))
    by (destruct ts1 as [|[] ?]; cbn in H; try tauto; reflexivity).
  rewrite E. cbn [p_power]. rewrite (P n) by (cbn; auto; lia). rewrite F by (auto; lia). reflexivity.
Qed.

Lemma fact_summ k ts t : fact k ts t -> summ (3 + k) ts t.
Proof.
  intros F n rest L SF. destruct n as [|[|n]]; try lia.
  cbn [p_sum p_term]. rewrite F by (try lia; destruct rest as [|[] ?]; cbn in *; tauto).
  destruct n; [lia|]. destruct rest as [|[] ?]; cbn in SF; try tauto; reflexivity.
Qed.
Lemma bin_summ k1 k2 ts1 t1 ts2 t2 op f :
  (op, f) = (TPlus, PAdd) \/ (op, f) = (TMinus, PSub) \/
  (op, f) = (TStar, PMul) \/ (op, f) = (TSlash, PDiv) ->
  fact k1 ts1 t1 -> fact k2 ts2 t2 -> summ (6 + k1 + k2) (ts1 ++ op :: ts2) (f t1 t2).
Proof.
  intros O F1 F2 n rest L SF. destruct n as [|[|[|[|n]]]]; try lia.
  rewrite <- app_assoc. cbn [app].
  assert (SO : stop_factor (op :: ts2 ++ rest))
    by (destruct O as [O|[O|[O|O]]]; injection O as -> ->; exact I).
  assert (SR : stop_factor rest) by (destruct rest as [|[] ?]; cbn in *; tauto).
  cbn [p_sum p_term]. rewrite F1 by (auto; lia).
  destruct O as [O|[O|[O|O]]]; injection O as -> ->.
  - cbn [p_term_rest p_sum_rest p_term]. rewrite F2 by (auto; lia).
    destruct n; [lia|]. destruct rest as [|[] ?]; cbn in SF; try tauto; reflexivity.
  - cbn [p_term_rest p_sum_rest p_term]. rewrite F2 by (auto; lia).
    destruct n; [lia|]. destruct rest as [|[] ?]; cbn in SF; try tauto; reflexivity.
  - cbn [p_term_rest]. rewrite F2 by (auto; lia).
    destruct n; [lia|]. destruct rest as [|[] ?]; cbn in SF; try tauto; reflexivity.
  - cbn [p_term_rest]. rewrite F2 by (auto; lia).
    destruct n; [lia|]. destruct rest as [|[] ?]; cbn in SF; try tauto; reflexivity.
Qed.
Lemma paren_prim k ts t : summ k ts t -> prim (S k) (TLP :: ts ++ [TRP]) t.
Proof.
  intros H. split; [exact I|]. intros n rest L _. destruct n; [lia|].
  cbn [app p_primary]. rewrite <- app_assoc. cbn [app]. rewrite H by (cbn; auto; lia). reflexivity.
Qed.
Lemma call_prim k f ts t : summ k ts t -> prim (S k) (call f (ts ++ [TRP])) (PCall f t).
Proof.
  intros H. split; [exact I|]. intros n rest L _. destruct n; [lia|].
  unfold call. cbn [app p_primary]. change (String.eqb "math" "math") with true. cbv iota.
  rewrite <- app_assoc. cbn [app]. rewrite H by (cbn; auto; lia). reflexivity.
Qed.
Lemma num_prim t : prim 1 [TNum t] (PNum t).
Proof. split; [exact I|]. intros [|n] rest L _; [lia|reflexivity]. Qed.
Lemma name_prim x : prim 1 [TName x] (PName x).
Proof.
  split; [exact I|]. intros [|n] rest L D; [lia|]. cbn.
  destruct rest as [|[] ?]; try reflexivity. cbn in D; tauto.
Qed.

(** Everything but negations and negative numbers is a primary. *)
Lemma read_ok e : texts_ok e -> exists k,
  fact k (ptoks e) (pyread e) /\
  match e with
  | Neg a => exists p k', ptoks e = TMinus :: p /\ prim k' p (pyread a)
  | Const c => (exists t, show c = String "-" t) \/ prim k (ptoks e) (pyread e)
  | _ => prim k (ptoks e) (pyread e)
  end.
Proof.
  assert (MONO : forall k k' ts t, k <= k' -> prim k ts t -> prim k' ts t).
  { intros k k' ts t L [H P]. split; auto. intros; apply P; auto; lia. }
  assert (UP : forall k ts t, prim k ts t -> exists k', fact k' ts t /\ prim k' ts t).
  { intros k ts t P. exists (2 + k). split; [apply prim_fact; auto|]. apply (MONO k); auto; lia. }
  assert (BIN : forall ts1 t1 ts2 t2 op f,
    (op, f) = (TPlus, PAdd) \/ (op, f) = (TMinus, PSub) \/
    (op, f) = (TStar, PMul) \/ (op, f) = (TSlash, PDiv) ->
    (exists k, fact k ts1 t1) -> (exists k, fact k ts2 t2) ->
    exists k, fact k (TLP :: ts1 ++ op :: ts2 ++ [TRP]) (f t1 t2) /\
              prim k (TLP :: ts1 ++ op :: ts2 ++ [TRP]) (f t1 t2)).
  { intros ts1 t1 ts2 t2 op f O [k1 F1] [k2 F2].
    pose proof (paren_prim _ _ _ (bin_summ _ _ _ _ _ _ _ _ O F1 F2)) as P.
    rewrite <- app_assoc in P. apply UP in P. exact P. }
  assert (CALL : forall f ts t, (exists k, fact k ts t) ->
    exists k, fact k (call f (ts ++ [TRP])) (PCall f t) /\ prim k (call f (ts ++ [TRP])) (PCall f t)).
  { intros f ts t [k F]. apply (UP (S (3 + k))). apply call_prim, fact_summ, F. }
  induction e; cbn [texts_ok]; intros W; cbn [ptoks pyread].
  - unfold finite_text in W. destruct W as [W | (t & E & W)].
    + rewrite (plain_const c W).
      assert (PC : py_const c = PNum (show c)).
      { unfold py_const. pose proof (plain_number_ok _ W) as [_ S]. unfold signless in S.
        destruct (show c) as [|d s]; auto. cbn in S.
        destruct d as [[] [] [] [] [] [] [] []]; auto; discriminate. }
      rewrite PC. destruct (UP _ _ _ (num_prim (show c))) as (k & A & B). eauto.
    + rewrite (neg_const c t E). unfold py_const. rewrite E.
      exists 4. split; [|eauto]. apply neg_fact. apply (prim_fact 1). apply num_prim.
  - apply (UP 1). apply name_prim.
  - destruct W as [W1 W2]. destruct (IHe1 W1) as (k1 & F1 & _), (IHe2 W2) as (k2 & F2 & _).
    apply (BIN _ _ _ _ TPlus PAdd); eauto.
  - destruct W as [W1 W2]. destruct (IHe1 W1) as (k1 & F1 & _), (IHe2 W2) as (k2 & F2 & _).
    apply (BIN _ _ _ _ TMinus PSub); eauto.
  - destruct W as [W1 W2]. destruct (IHe1 W1) as (k1 & F1 & _), (IHe2 W2) as (k2 & F2 & _).
    apply (BIN _ _ _ _ TStar PMul); eauto.
  - destruct W as [W1 W2]. destruct (IHe1 W1) as (k1 & F1 & _), (IHe2 W2) as (k2 & F2 & _).
    apply (BIN _ _ _ _ TSlash PDiv); eauto 7.
  - destruct W as [W1 W2]. destruct (IHe1 W1) as (k1 & F1 & P1), (IHe2 W2) as (k2 & F2 & _).
    assert (PW : forall ts t, (exists k, prim k ts t) ->
      exists k, fact k (TLP :: ts ++ TDStar :: ptoks e2 ++ [TRP]) (PPow t (pyread e2)) /\
                prim k (TLP :: ts ++ TDStar :: ptoks e2 ++ [TRP]) (PPow t (pyread e2))).
    { intros ts t [k P].
      pose proof (paren_prim _ _ _ (fact_summ _ _ _ (pow_fact _ _ _ _ _ _ P F2))) as Q.
      rewrite <- app_assoc in Q. apply UP in Q. exact Q. }
    assert (NPW : forall ts t, (exists k, prim k ts t) ->
      exists k, fact k (TLP :: (TMinus :: ts) ++ TDStar :: ptoks e2 ++ [TRP]) (PNeg (PPow t (pyread e2))) /\
                prim k (TLP :: (TMinus :: ts) ++ TDStar :: ptoks e2 ++ [TRP]) (PNeg (PPow t (pyread e2)))).
    { intros ts t [k P].
      pose proof (paren_prim _ _ _ (fact_summ _ _ _ (neg_fact _ _ _ (pow_fact _ _ _ _ _ _ P F2)))) as Q.
      cbn [app] in Q. rewrite <- app_assoc in Q. apply UP in Q. exact Q. }
    destruct e1; try (apply PW; eauto; fail).
    + cbn [ptoks pyread] in *. cbn [texts_ok] in W1. destruct W1 as [W1 | (t & E & W1)].
      * rewrite (plain_const c W1).
        assert (PC : match show c with String "-" t => PNeg (PPow (PNum t) (pyread e2))
                     | s => PPow (PNum s) (pyread e2) end = PPow (PNum (show c)) (pyread e2)).
        { pose proof (plain_number_ok _ W1) as [_ S]. unfold signless in S.
          destruct (show c) as [|d s]; auto. cbn in S.
          destruct d as [[] [] [] [] [] [] [] []]; auto; discriminate. }
        rewrite PC. apply PW. eauto using num_prim.
      * rewrite (neg_const c t E). rewrite E. apply (NPW [TNum t] (PNum t)). eauto using num_prim.
    + destruct P1 as (p & k' & E & P). cbn [ptoks pyread] in *. rewrite E. apply NPW. eauto.
  - apply CALL. destruct (IHe W) as (k & F & _); eauto.
  - apply CALL. destruct (IHe W) as (k & F & _); eauto.
  - apply CALL. destruct (IHe W) as (k & F & _); eauto.
  - apply CALL. destruct (IHe W) as (k & F & _); eauto.
  - apply CALL. destruct (IHe W) as (k & F & _); eauto.
  - destruct (IHe W) as (k & F & _).
    assert (P : prim (S (3 + k)) (TLP :: ptoks e ++ [TRP]) (pyread e))
      by apply paren_prim, fact_summ, F.
    exists (S (2 + S (3 + k))). split; [|exists (TLP :: ptoks e ++ [TRP]); eauto].
    apply neg_fact, prim_fact, P.
Qed.

Lemma python_reads_pyread e : texts_ok e -> python_reads (to_python show e) (pyread e).
Proof.
  intros W. destruct (read_ok e W) as (k & F & _). apply fact_summ in F.
  exists (3 + k). intros n L. unfold tokens.
  pose proof (lex_python e W [] I) as E. rewrite app_nil_r in E. rewrite E.
  cbn [lex flush rev]. apply F; cbn; auto.
Qed.
End Py.

(** ** Meaning *)
Lemma texts_of_readable {N : Num} (rd : string -> N) show e :
  consts_readable rd show e -> names_ok py_name e -> texts_ok show e.
Proof.
  intros C H. unfold names_ok in H.
  induction e; cbn [consts_readable texts_ok] in *; auto;
    try (destruct C; split; [apply IHe1|apply IHe2]; auto; intros y O; apply H; constructor; assumption);
    try (apply IHe; auto; intros y O; apply H; constructor; assumption).
  - destruct C as [[A _] | (t & A & B & _)]; [left; auto|right; eauto].
  - apply H; constructor.
Qed.

(** The tree Python builds, as an expression: a negative number is the
    negation of a literal. *)
Fixpoint split_neg {N : Num} (rd : string -> N) (show : N -> string) (e : expr N) : expr N :=
  match e with
  | Const c => match show c with String "-" t => Neg (Const (rd t)) | s => Const (rd s) end
  | Var x => Var x
  | Add l r => Add (split_neg rd show l) (split_neg rd show r)
  | Sub l r => Sub (split_neg rd show l) (split_neg rd show r)
  | Mul l r => Mul (split_neg rd show l) (split_neg rd show r)
  | Div l r => Div (split_neg rd show l) (split_neg rd show r)
  | Pow l r => Pow (split_neg rd show l) (split_neg rd show r)
  | Ln a => Ln (split_neg rd show a) | Exp a => Exp (split_neg rd show a)
  | Sqrt a => Sqrt (split_neg rd show a) | Sin a => Sin (split_neg rd show a)
  | Cos a => Cos (split_neg rd show a) | Neg a => Neg (split_neg rd show a)
  end.

Lemma pyread_expr {N : Num} (rd : string -> N) show e : no_signed_base show e = true ->
  py_expr rd (pyread show e) = Some (split_neg rd show e).
Proof.
  induction e; cbn [no_signed_base]; intros H; cbn [pyread split_neg py_expr];
    try (apply andb_prop in H as [H1 H2]);
    try (rewrite ?IHe1, ?IHe2 by auto; reflexivity);
    try (cbn; rewrite IHe by auto; reflexivity).
  - unfold py_const. destruct (show c) as [|d s]; auto.
    destruct d as [[] [] [] [] [] [] [] []]; reflexivity.
  - apply andb_prop in H1 as [H0 H1].
    assert (K : match e1 with
      | Neg b' => PNeg (PPow (pyread show b') (pyread show e2))
      | Const c => match show c with
                   | String "-" t => PNeg (PPow (PNum t) (pyread show e2))
                   | s => PPow (PNum s) (pyread show e2)
                   end
      | _ => PPow (pyread show e1) (pyread show e2)
      end = PPow (pyread show e1) (pyread show e2)).
    { destruct e1; auto; try discriminate. cbn [pyread]. unfold py_const.
      destruct (show c) as [|d s]; auto.
      destruct d as [[] [] [] [] [] [] [] []]; try reflexivity. discriminate. }
    rewrite K. cbn [py_expr]. rewrite IHe1, IHe2 by auto. reflexivity.
Qed.

Lemma split_neg_denotes lg (rd : string -> XR lg) show vars e r :
  consts_readable rd show e -> denotes vars e r -> denotes vars (split_neg rd show e) r.
Proof.
  intros C D. induction D; cbn [consts_readable split_neg] in *;
    try (destruct C as [C1 C2]); try (constructor; auto; fail).
  - destruct C as [[A B] | (t & A & B & E)].
    + assert (K : match show (Fin r : XR lg) with String "-" t => Neg (Const (rd t)) | s => Const (rd s) end
                  = Const (Fin r : XR lg)).
      { pose proof (plain_number_ok _ A) as [_ S]. unfold signless in S.
        destruct (show (Fin r : XR lg)) as [|d s] eqn:Q; [cbn in A; discriminate|]. cbn in S.
        rewrite <- B. destruct d as [[] [] [] [] [] [] [] []]; reflexivity || discriminate. }
      rewrite K. constructor.
    + rewrite A. destruct (rd t) as [q| | |] eqn:Q; cbn in E; try discriminate.
      injection E as E. rewrite <- E. constructor. constructor.
  - eapply d_pow_zero; eauto.
  - eapply d_pow_base0; eauto.
Qed.

(** ** Brackets *)
Definition nobr (s : string) : Prop := forall st r, scan st (las s ++ r) = scan st r.
Definition bal (s : list ascii) : Prop := forall st r, scan st (s ++ r) = scan st r.

Lemma bal_app a b : bal a -> bal b -> bal (a ++ b).
Proof. intros A B st r. rewrite <- app_assoc, A, B. reflexivity. Qed.
Lemma bal_paren a : bal a -> bal ("("%char :: a ++ [")"%char]).
Proof. intros A st r. cbn [app scan]. cbn. rewrite <- app_assoc, A. reflexivity. Qed.
Lemma bal_brace a : bal a -> bal ("{"%char :: a ++ ["}"%char]).
Proof. intros A st r. cbn [app scan]. cbn. rewrite <- app_assoc, A. reflexivity. Qed.
Definition plain_text (s : string) : bool :=
  forallb (fun c => negb (Ascii.eqb c "(" || Ascii.eqb c ")" || Ascii.eqb c "{" || Ascii.eqb c "}"))
          (las s).
Lemma bal_plain s : plain_text s = true -> bal (las s).
Proof.
  unfold plain_text. induction (las s) as [|c l IH]; cbn [forallb]; intros H st r; [reflexivity|].
  apply andb_prop in H as [H1 H2]. apply negb_true_iff in H1. rewrite !orb_false_iff in H1.
  destruct H1 as [[[E1 E2] E3] E4]. cbn [app scan]. rewrite E1, E2, E3, E4. apply IH; auto.
Qed.

Section Brackets.
Context {N : Num} (show : N -> string) (whole : N -> bool) (show_int : N -> string).
Hypothesis show_plain : forall c, plain_text (show c) = true.
Hypothesis int_plain : forall c, plain_text (show_int c) = true.

Lemma bal_bin f a m b c : f = "("%string -> c = ")"%string -> plain_text m = true ->
  bal (las a) -> bal (las b) -> bal (las (f ++ a ++ m ++ b ++ c)).
Proof.
  intros -> -> M A B. rewrite !las_app.
  change (las "(" ++ ?x) with ("("%char :: x). change (las ")") with [")"%char].
  rewrite !app_assoc. apply bal_paren. repeat apply bal_app; auto. apply bal_plain; auto.
Qed.
Lemma bal_call f a : plain_text f = true -> bal (las a) -> bal (las ((f ++ "(") ++ a ++ ")")).
Proof.
  intros F A. rewrite !las_app, <- app_assoc. apply bal_app; [apply bal_plain; auto|].
  apply (bal_paren (las a)); auto.
Qed.
Lemma bal_bcall f a : plain_text f = true -> bal (las a) -> bal (las ((f ++ "{") ++ a ++ "}")).
Proof.
  intros F A. rewrite !las_app, <- app_assoc. apply bal_app; [apply bal_plain; auto|].
  apply (bal_brace (las a)); auto.
Qed.

Lemma display_bal e : names_ok plain_text e -> bal (las (display show e)).
Proof.
  intros H. unfold names_ok in H.
  induction e; cbn [display];
    try (apply bal_bin; auto; [apply IHe1|apply IHe2]; intros y O; apply H; constructor; assumption).
  - apply bal_plain; auto.
  - apply bal_plain. apply H; constructor.
  - apply (bal_call "ln"); auto. apply IHe; intros y O; apply H; constructor; assumption.
  - apply (bal_call "exp"); auto. apply IHe; intros y O; apply H; constructor; assumption.
  - apply (bal_call "sqrt"); auto. apply IHe; intros y O; apply H; constructor; assumption.
  - apply (bal_call "sin"); auto. apply IHe; intros y O; apply H; constructor; assumption.
  - apply (bal_call "cos"); auto. apply IHe; intros y O; apply H; constructor; assumption.
  - change ("(-" ++ display show e ++ ")")%string with ("(" ++ "" ++ "-" ++ display show e ++ ")")%string.
    apply bal_bin; auto. + apply bal_plain; reflexivity.
    + apply IHe; intros y O; apply H; constructor; assumption.
Qed.
Lemma python_bal e : names_ok plain_text e -> bal (las (to_python show e)).
Proof.
  intros H. unfold names_ok in H.
  induction e; cbn [to_python];
    try (apply bal_bin; auto; [apply IHe1|apply IHe2]; intros y O; apply H; constructor; assumption).
  - apply bal_plain; auto.
  - apply bal_plain. apply H; constructor.
  - apply (bal_call "math.log"); auto. apply IHe; intros y O; apply H; constructor; assumption.
  - apply (bal_call "math.exp"); auto. apply IHe; intros y O; apply H; constructor; assumption.
  - apply (bal_call "math.sqrt"); auto. apply IHe; intros y O; apply H; constructor; assumption.
  - apply (bal_call "math.sin"); auto. apply IHe; intros y O; apply H; constructor; assumption.
  - apply (bal_call "math.cos"); auto. apply IHe; intros y O; apply H; constructor; assumption.
  - apply (bal_call "-"); auto. apply IHe; intros y O; apply H; constructor; assumption.
Qed.
Lemma latex_bal e : names_ok plain_text e -> bal (las (to_latex show whole show_int e)).
Proof.
  intros H. unfold names_ok in H.
  induction e; cbn [to_latex];
    try (assert (B1 : bal (las (to_latex show whole show_int e1)))
           by (apply IHe1; intros y O; apply H; constructor; assumption);
         assert (B2 : bal (las (to_latex show whole show_int e2)))
           by (apply IHe2; intros y O; apply H; constructor; assumption));
    try (assert (B0 : bal (las (to_latex show whole show_int e)))
           by (apply IHe; intros y O; apply H; constructor; assumption)).
  - destruct (whole c); apply bal_plain; auto.
  - apply bal_plain. apply H; constructor.
  - rewrite !las_app. repeat apply bal_app; auto. apply bal_plain; reflexivity.
  - rewrite !las_app. repeat apply bal_app; auto. apply bal_plain; reflexivity.
  - assert (G : bal (las (to_latex show whole show_int e1 ++ " \cdot " ++ to_latex show whole show_int e2))).
    { rewrite !las_app. repeat apply bal_app; auto. apply bal_plain; reflexivity. }
    assert (G2 : bal (las (to_latex show whole show_int e1 ++ to_latex show whole show_int e2))).
    { rewrite !las_app. apply bal_app; auto. }
    destruct (is_lit n1 e1); auto. destruct (is_lit nm1 e1).
    { change ("-" ++ ?s)%string with (String "-" s). exact (bal_app (las "-") _ (bal_plain "-" eq_refl) B2). }
    destruct e1; auto. destruct e2; auto.
  - assert (E : las ("\frac{" ++ to_latex show whole show_int e1 ++ "}{" ++
                     to_latex show whole show_int e2 ++ "}")
      = las (("\frac" ++ "{") ++ to_latex show whole show_int e1 ++ "}")
        ++ las (("" ++ "{") ++ to_latex show whole show_int e2 ++ "}"))
      by (rewrite !las_app, <- !app_assoc; reflexivity).
    rewrite E. apply bal_app; apply bal_bcall; auto.
  - change ("^{" ++ ?x)%string with (("^" ++ "{") ++ x)%string.
    rewrite las_app. apply bal_app; auto. apply bal_bcall; auto.
  - apply (bal_call "\ln"); auto.
  - apply (bal_bcall "e^"); auto.
  - apply (bal_bcall "\sqrt"); auto.
  - apply (bal_call "\sin"); auto.
  - apply (bal_call "\cos"); auto.
  - apply (bal_call "-"); auto.
Qed.
End Brackets.
Lemma bal_balanced s : bal (las s) -> balanced s.
Proof. intros B. unfold balanced. rewrite <- (app_nil_r (las s)), B. reflexivity. Qed.
