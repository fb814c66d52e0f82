(** Numbers read from decimal text are correctly rounded. *)
From Coq Require Import ZArith Reals Bool String Ascii List Lia Lra.
From Coq Require Import Floats.SpecFloat.
From Flocq Require Import Core IEEE754.BinarySingleNaN.
From Verif Require Import Num ExprModel ExprSpec FloatFacts JitModel EggModel EggSpec EggText LitFacts EggNum ParseSpec.
Import ListNotations.
Local Open Scope R_scope.

#[local] Instance Hprec64 : FLX.Prec_gt_0 53 := eq_refl _.
#[local] Instance Hmax64 : Prec_lt_emax 53 1024 := eq_refl _.

(** * Overflowing literals *)
Lemma f64_lit_over m d : (0 <= m)%Z -> ~ Rabs (RN (IZR m / IZR (Zpos d))) < bpow radix2 1024 ->
  f64_lit m d = S754_infinity false.
Proof.
  intros M H.
  assert (X : forall p, F2R (Float radix2 p 0) = IZR p) by (intros p; unfold F2R; cbn; ring).
  destruct m as [|p|p].
  - exfalso. apply H. unfold Rdiv. rewrite Rmult_0_l, RN_0, Rabs_R0. apply bpow_gt_0.
  - unfold f64_lit. pose proof (Bdiv_correct_aux 53 1024 Hprec64 Hmax64 mode_NE false p 0 false d 0) as B. cbv zeta in B.
    change f64_prec with 53%Z. change f64_emax with 1024%Z.
    destruct (SFdiv_core_binary 53 1024 (Z.pos p) 0 (Z.pos d) 0) as [[q e] l] eqn:E.
    cbn [cond_Zopp xorb] in B. rewrite !X in B. rewrite bra_equiv. destruct B as [V B].
    change (round radix2 (SpecFloat.fexp 53 1024) (round_mode mode_NE) (IZR (Z.pos p) / IZR (Z.pos d)))
      with (RN (IZR (Z.pos p) / IZR (Z.pos d))) in B.
    rewrite Rlt_bool_false in B by lra. exact B.
  - lia.
Qed.

(** * Digits *)
Lemma take_text ds : are_digits ds -> forall acc n t,
  take_digits acc n (digits_text ds ++ t) = take_digits (fold_left (fun a d => (10 * a + d)%Z) ds acc) (n + length ds) t.
Proof.
  induction 1 as [|d ds D H IH]; intros acc n t; cbn [digits_text append fold_left length].
  - rewrite Nat.add_0_r. reflexivity.
  - assert (E : digit_value (ascii_of_nat (48 + Z.to_nat d)) = Some d) by (by_digit D; reflexivity).
    cbn [take_digits]. rewrite E, IH. f_equal. lia.
Qed.
Lemma fold_whole ds : forall acc, fold_left (fun a d => (10 * a + d)%Z) ds acc = (acc * 10 ^ Z.of_nat (length ds) + whole ds)%Z.
Proof.
  unfold whole. induction ds as [|d ds IH]; intros acc; cbn [fold_left length].
  - cbn. lia.
  - rewrite IH, (IH (10 * 0 + d)%Z). rewrite Nat2Z.inj_succ, Z.pow_succ_r by lia. ring.
Qed.
Lemma whole_nonneg ds : are_digits ds -> (0 <= whole ds)%Z.
Proof.
  intros H. unfold whole. assert (G : forall acc, (0 <= acc)%Z -> (0 <= fold_left (fun a d => (10 * a + d)%Z) ds acc)%Z).
  { induction H as [|d ds D H IH]; intros acc A; cbn [fold_left]; [exact A|]. apply IH. lia. }
  apply G. lia.
Qed.
(** Text that does not start with a digit. *)
Definition no_digit (s : string) : Prop := match s with String c _ => digit_value c = None | _ => True end.
Lemma take_none s acc n : no_digit s -> take_digits acc n s = (acc, n, s).
Proof. destruct s as [|c s]; cbn; [reflexivity|]. intros ->. reflexivity. Qed.

Definition exp_text (x : option (bool * option bool * list Z)) : string :=
  match x with
  | Some (upper, s, ds) => (if upper : bool then "E" else "e") ++ sign_text s ++ digits_text ds
  | None => ""
  end%string.
Lemma exp_no_digit x : no_digit (exp_text x).
Proof. destruct x as [[[[|] s] ds]|]; cbn; reflexivity || exact I. Qed.

Lemma parse_exp n : well_formed n -> parse_exponent (exp_text (nu_exp n)) = Some (exponent n).
Proof.
  intros (_ & _ & _ & H). unfold exponent. destruct (nu_exp n) as [[[u s] ds]|]; [|reflexivity].
  destruct H as [D NE]. destruct ds as [|d ds]; [contradiction|].
  assert (T : take_digits 0 0 (digits_text (d :: ds)) = (whole (d :: ds), S (length ds), ""%string)).
  { pose proof (take_text (d :: ds) D 0 0 ""%string) as T. rewrite app_nil_s in T. rewrite T. reflexivity. }
  assert (K : exists c r, digits_text (d :: ds) = String c r /\ c <> "-"%char /\ c <> "+"%char).
  { cbn [digits_text]. eexists _, _. split; [reflexivity|]. apply Forall_inv in D. by_digit D; split; discriminate. }
  destruct K as (c & r & E & N1 & N2). 
  assert (M : forall (A : Type) (f g h : A), match digits_text (d :: ds) with
     | String "-" _ => f | String "+" _ => g | _ => h end = h).
  { intros A f g h. rewrite E. clear - N1 N2.
    destruct c as [[|] [|] [|] [|] [|] [|] [|] [|]]; try reflexivity; exfalso; solve [apply N1; reflexivity|apply N2; reflexivity]. }
  destruct s as [[|]|]; destruct u; cbn [exp_text sign_text append parse_exponent negative];
    match goal with |- context [Ascii.eqb (lower ?c) ?d] => change (Ascii.eqb (lower c) d) with true end; cbv iota;
    try (rewrite T; reflexivity).
  all: rewrite E; destruct c as [[|] [|] [|] [|] [|] [|] [|] [|]];
    try (exfalso; solve [apply N1; reflexivity|apply N2; reflexivity]);
    rewrite E in T; rewrite T; reflexivity.
Qed.

(** * Unsigned numerals *)
Definition body_text (n : numeral) : string :=
  (digits_text (nu_int n) ++
   match nu_frac n with Some ds => "." ++ digits_text ds | None => "" end ++ exp_text (nu_exp n))%string.
Lemma body_head n : well_formed n -> exists c r, body_text n = String c r /\
  (c = "."%char \/ exists d, (0 <= d < 10)%Z /\ c = ascii_of_nat (48 + Z.to_nat d)).
Proof.
  intros (A & B & C & _). unfold body_text. destruct (nu_int n) as [|d ds].
  - unfold frac_digits in C. destruct (nu_frac n); [|contradiction]. cbn. eauto.
  - apply Forall_inv in A. cbn [digits_text append]. eexists _, _. split; [reflexivity|]. right. exists d. split; [exact A|reflexivity].
Qed.
Lemma head_plain c : (c = "."%char \/ exists d, (0 <= d < 10)%Z /\ c = ascii_of_nat (48 + Z.to_nat d)) ->
  lower c <> "i"%char /\ lower c <> "n"%char /\ c <> "-"%char /\ c <> "+"%char.
Proof. intros [->|(d & D & ->)]; [|by_digit D]; repeat split; discriminate. Qed.

Lemma parse_body n : well_formed n ->
  parse_unsigned (body_text n) =
  Some (scaled (whole (nu_int n) * 10 ^ Z.of_nat (length (frac_digits n)) + whole (frac_digits n))
               (exponent n - Z.of_nat (length (frac_digits n)))).
Proof.
  intros W. destruct (body_head n W) as (c & r & E & H). destruct (head_plain c H) as (P1 & P2 & _).
  unfold parse_unsigned. cbv zeta.
  assert (L : lower_all (body_text n) = String (lower c) (lower_all r)) by (rewrite E; reflexivity).
  rewrite L.
  assert (Q : forall a q s, a <> q -> String.eqb (String a s) (String q "nf") = false /\
     String.eqb (String a s) (String q "nfinity") = false /\ String.eqb (String a s) (String q "an") = false).
  { intros a q s N. cbn. destruct (Ascii.eqb_spec a q); [contradiction|]. repeat split. }
  destruct (Q _ _ (lower_all r) P1) as (-> & -> & _). destruct (Q _ _ (lower_all r) P2) as (_ & _ & ->). cbn [orb].
  clear L Q P1 P2 E H c r. pose proof (parse_exp n W) as PE.
  destruct W as (A & B & C & _). unfold body_text, frac_digits in *.
  destruct (nu_frac n) as [fs|] eqn:F.
  - rewrite (take_text _ A). rewrite take_none by reflexivity. cbn [append].
    change (fold_left (fun a d : Z => (10 * a + d)%Z) (nu_int n) 0%Z) with (whole (nu_int n)).
    rewrite (take_text _ B), take_none by apply exp_no_digit.
    rewrite fold_whole. cbn [Nat.add].
    replace (Nat.eqb (length (nu_int n) + length fs) 0) with false.
    + rewrite PE. reflexivity.
    + symmetry. apply Nat.eqb_neq. rewrite <- app_length. intros Z. apply C. apply length_zero_iff_nil. exact Z.
  - rewrite app_nil_r in C. cbn [append length]. rewrite (take_text _ A), take_none by apply exp_no_digit.
    change (fold_left (fun a d : Z => (10 * a + d)%Z) (nu_int n) 0%Z) with (whole (nu_int n)).
    assert (M : forall X (f : string -> X) (g : X), match exp_text (nu_exp n) with String "." r => f r | _ => g end = g).
    { intros X f g. destruct (nu_exp n) as [[[[|] s] ds]|]; reflexivity. }
    rewrite M. cbn [Nat.add]. rewrite Nat.add_0_r.
    replace (Nat.eqb (length (nu_int n)) 0) with false.
    + rewrite PE. do 2 f_equal. cbn. change (whole []) with 0%Z. lia.
    + symmetry. apply Nat.eqb_neq. intros Z. apply C. apply length_zero_iff_nil. exact Z.
Qed.

(** * Scaling *)
Definition magnitude (n : numeral) : R :=
  (IZR (whole (nu_int n)) + IZR (whole (frac_digits n)) / 10 ^ length (frac_digits n)) * powerRZ 10 (exponent n).
Lemma pow10_IZR k : (0 <= k)%Z -> IZR (10 ^ k) = powerRZ 10 k.
Proof.
  intros K. rewrite <- (Z2Nat.id k K). generalize (Z.to_nat k). intros m. rewrite <- pow_powerRZ.
  induction m; [reflexivity|]. rewrite Nat2Z.inj_succ, Z.pow_succ_r by lia. rewrite mult_IZR, IHm. reflexivity.
Qed.
Lemma scaled_ratio m k : (0 <= m)%Z -> exists p d, scaled m k = f64_lit p d /\ (0 <= p)%Z /\
  IZR p / IZR (Zpos d) = IZR m * powerRZ 10 k.
Proof.
  intros M. unfold scaled. destruct (Z.leb_spec 0 k) as [K|K].
  - exists (m * 10 ^ k)%Z, 1%positive. split; [reflexivity|]. split.
    + apply Z.mul_nonneg_nonneg; [exact M|]. apply Z.pow_nonneg. lia.
    + rewrite mult_IZR, pow10_IZR by exact K. field.
  - exists m, (Z.to_pos (10 ^ (- k))). split; [reflexivity|]. split; [exact M|].
    assert (Q : (0 < 10 ^ (- k))%Z) by (apply Z.pow_pos_nonneg; lia).
    rewrite Z2Pos.id by exact Q. rewrite pow10_IZR by lia. unfold Rdiv.
    f_equal. rewrite <- powerRZ_inv, <- powerRZ_neg by lra. f_equal. lia.
Qed.
Lemma magnitude_eq n :
  IZR (whole (nu_int n) * 10 ^ Z.of_nat (length (frac_digits n)) + whole (frac_digits n)) *
    powerRZ 10 (exponent n - Z.of_nat (length (frac_digits n))) = magnitude n.
Proof.
  unfold magnitude. rewrite plus_IZR, mult_IZR, pow10_IZR by lia. unfold Z.sub.
  rewrite powerRZ_add, powerRZ_neg, powerRZ_inv by lra. rewrite <- pow_powerRZ.
  assert (10 ^ length (frac_digits n) <> 0) by (apply pow_nonzero; lra). field. assumption.
Qed.
Lemma magnitude_nonneg n : well_formed n -> 0 <= magnitude n.
Proof.
  intros (A & B & _). apply whole_nonneg in A, B. unfold magnitude. apply Rmult_le_pos.
  - apply Rplus_le_le_0_compat; [apply IZR_le; exact A|]. apply Rmult_le_pos; [apply IZR_le; exact B|].
    apply Rlt_le, Rinv_0_lt_compat, pow_lt. lra.
  - apply powerRZ_le. lra.
Qed.

Lemma unsigned_spec n : well_formed n -> exists c, parse_unsigned (body_text n) = Some c /\
  if Rlt_dec (Rabs (RN (magnitude n))) (bpow radix2 1024)
  then SpecFloat.valid_binary 53 1024 c = true /\ finite c /\ val c = RN (magnitude n) /\ sign_SF c = false
  else c = S754_infinity false.
Proof.
  intros W. rewrite (parse_body n W).
  set (m := (_ + _)%Z). assert (M : (0 <= m)%Z).
  { destruct W as (A & B & _). apply whole_nonneg in A, B. unfold m. apply Z.add_nonneg_nonneg; [|exact B].
    apply Z.mul_nonneg_nonneg; [exact A|]. apply Z.pow_nonneg. lia. }
  destruct (scaled_ratio m (exponent n - Z.of_nat (length (frac_digits n))) M) as (p & d & E & P & R).
  rewrite E. exists (f64_lit p d). split; [reflexivity|]. unfold m in R. rewrite magnitude_eq in R.
  rewrite <- R. destruct (Rlt_dec _ _) as [L|L].
  - destruct (f64_lit_correct p d L) as (B1 & B2 & B3 & B4). repeat split; try assumption.
    rewrite B3. apply Z.ltb_ge. exact P.
  - apply f64_lit_over; assumption.
Qed.

Lemma text_body n : numeral_text n = (sign_text (nu_sign n) ++ body_text n)%string.
Proof. reflexivity. Qed.
Lemma value_mag n : numeral_value n = signed (nu_sign n) (magnitude n).
Proof. reflexivity. Qed.

(** Every numeral is read as the nearest number. *)
Lemma parse_nearest n : well_formed n -> exists c, parse_f64 (numeral_text n) = Some c /\ nearest_to n c.
Proof.
  intros W. destruct (unsigned_spec n W) as (c & E & S'). rewrite text_body. unfold nearest_to. rewrite value_mag.
  destruct (nu_sign n) as [[|]|] eqn:SG; cbn [sign_text append negative signed].
  - exists (SFopp c). split; [cbn [parse_f64]; rewrite E; reflexivity|]. unfold signed. cbn [negative].
    rewrite RN_opp, Rabs_Ropp. destruct (Rlt_dec _ _) as [L|L].
    + destruct S' as (B1 & B2 & B3 & B4). rewrite valid_opp, val_opp, B3. unfold finite. rewrite finite_opp.
      rewrite (sign_opp c B2), B4. repeat split; assumption.
    + rewrite S'. reflexivity.
  - exists c. split; [cbn [parse_f64]; exact E|]. exact S'.
  - exists c. split; [|exact S']. destruct (body_head n W) as (a & r & B & H). destruct (head_plain a H) as (_ & _ & N1 & N2).
    rewrite <- E, B. unfold parse_f64.
    destruct a as [[|] [|] [|] [|] [|] [|] [|] [|]]; try reflexivity; exfalso; solve [apply N1; reflexivity|apply N2; reflexivity].
Qed.
Lemma nearest_unique n c c' : nearest_to n c -> nearest_to n c' -> c = c'.
Proof.
  unfold nearest_to. destruct (Rlt_dec _ _).
  - intros (A1 & A2 & A3 & A4) (B1 & B2 & B3 & B4). apply val_inj; try assumption; congruence.
  - congruence.
Qed.

(** * Reading back what is displayed *)
Lemma displayed_read c s : SpecFloat.valid_binary 53 1024 c = true -> displays c s -> parse_f64 s = Some c.
Proof.
  intros V [n W F _ E G|E|E|E]; try (subst c; reflexivity).
  destruct (parse_nearest n W) as (d & P & N). rewrite P. f_equal. unfold nearest_to in N.
  destruct (Rlt_dec _ _) as [L|L].
  - destruct N as (A1 & A2 & A3 & A4). apply val_inj; try assumption; congruence.
  - exfalso. apply L. rewrite <- E. apply valid_abs. exact V.
Qed.

Lemma integer_read k s : displays_integer k s -> exists c, parse_f64 s = Some c /\
  (Rabs (RN (IZR k)) < bpow radix2 1024 -> finite c /\ val c = RN (IZR k)) /\
  ((Z.abs k <= 2 ^ 53)%Z -> finite c /\ val c = IZR k).
Proof.
  intros (ds & D & NE & A & ->). set (n := Numeral _ _ _ _).
  assert (W : well_formed n).
  { repeat split; cbn; try assumption; try constructor. unfold frac_digits. cbn. rewrite app_nil_r. exact NE. }
  destruct (parse_nearest n W) as (c & P & N). exists c. split; [exact P|].
  assert (X : numeral_value n = IZR k).
  { unfold numeral_value, n, frac_digits, exponent. cbn [nu_sign nu_int nu_frac nu_exp length pow powerRZ]. change (whole []) with 0%Z.
    rewrite A. unfold Rdiv. rewrite Rmult_0_l, Rplus_0_r, Rmult_1_r. destruct (Z.ltb_spec k 0); unfold signed; cbn [negative].
    - rewrite <- opp_IZR. f_equal. lia.
    - f_equal. lia. }
  unfold nearest_to in N. rewrite X in N.
  assert (Q : Rabs (RN (IZR k)) < bpow radix2 1024 -> finite c /\ val c = RN (IZR k)).
  { intros H. destruct (Rlt_dec _ _); [|contradiction]. tauto. }
  split; [exact Q|]. intros K.
  assert (G : RN (IZR k) = IZR k).
  { apply round_generic; [apply valid_rnd_N|]. destruct (Z.eq_dec (Z.abs k) (2 ^ 53)) as [Z|Z].
    - assert (T : generic_format radix2 (FLT_exp (-1074) 53) (bpow radix2 53)) by (apply generic_format_bpow; cbn; lia).
      destruct (Z.abs_eq_or_opp k) as [S|S]; rewrite S in Z; [rewrite Z; exact T|].
      replace k with (- (2 ^ 53))%Z by lia. rewrite opp_IZR. apply generic_format_opp. exact T.
    - apply generic_format_FLT. exists (Float radix2 k 0); [unfold F2R; cbn; ring| |cbn; lia].
      cbn [Fnum]. change (Z.pow radix2 53) with (2 ^ 53)%Z. lia. }
  rewrite G in Q. apply Q. apply Rle_lt_trans with (bpow radix2 53); [|apply bpow_lt; lia].
  rewrite <- abs_IZR. change (bpow radix2 53) with (IZR (2 ^ 53)). apply IZR_le. exact K.
Qed.

(** * Terms in text *)
Local Open Scope string_scope.
Lemma const_text_read n s c : parse_f64 s = Some c ->
  egglog_parse (S n) ("(Const " ++ s ++ ")") = Parsed (Const c).
Proof.
  intros P. cbn [egglog_parse]. cbv zeta.
  assert (TR : trim ("(Const " ++ s ++ ")") = "(Const " ++ s ++ ")") by exact (trim_paren ("Const " ++ s)).
  rewrite TR. set (T := "(Const " ++ s ++ ")").
  replace (starts_with "(Const " T) with true by (symmetry; apply starts_app).
  replace (ends_with ")" T) with true by (symmetry; exact (ends_app ("(Const " ++ s) ")")).
  cbn [andb]. change (slice 7 (String.length T - 1) T) with
    (slice (String.length "(Const ") (String.length ("(Const " ++ s ++ ")") - String.length ")") ("(Const " ++ s ++ ")")).
  rewrite slice_mid, P. reflexivity.
Qed.
Lemma digits_text_plain ds : are_digits ds -> all_plain (digits_text ds) = true.
Proof.
  induction 1 as [|d ds D H IH]; [reflexivity|]. change (digits_text (d :: ds)) with (digit d ++ digits_text ds) || idtac.
  assert (E : String (ascii_of_nat (48 + Z.to_nat d)) (digits_text ds) = digit d ++ digits_text ds) by (by_digit D; reflexivity).
  cbn [digits_text]. rewrite E, plain_app, digit_plain, IH by exact D. reflexivity.
Qed.
Lemma sign_text_plain s : all_plain (sign_text s) = true.
Proof. destruct s as [[|]|]; reflexivity. Qed.
Lemma numeral_plain n : well_formed n -> all_plain (numeral_text n) = true.
Proof.
  intros (A & B & _ & C). unfold numeral_text. rewrite !plain_app, sign_text_plain, (digits_text_plain _ A). cbn [andb].
  apply andb_true_intro. split.
  - unfold frac_digits in B. destruct (nu_frac n); [|reflexivity]. rewrite plain_app, (digits_text_plain _ B). reflexivity.
  - destruct (nu_exp n) as [[[u s] ds]|]; [|reflexivity]. rewrite !plain_app, sign_text_plain, digits_text_plain by apply C.
    destruct u; reflexivity.
Qed.
Lemma displayed_plain c s : displays c s -> all_plain s = true.
Proof. intros [n W F _ E G|E|E|E]; [apply numeral_plain, W|reflexivity..]. Qed.

Lemma written_balanced e s : written e s -> exists t, balanced t /\ s = "(" ++ t ++ ")".
Proof.
  assert (L : forall (a b : string), all_plain a = true -> balanced b -> balanced (a ++ b)).
  { intros a b A B. apply balanced_app; [apply plain_balanced, A|exact B]. }
  induction 1;
    try (destruct IHwritten1 as (s1 & B1 & E1), IHwritten2 as (s2 & B2 & E2); subst s t;
         match goal with |- exists s, _ /\ append (String "(" (String ?a (String ?b (String ?c (String ?d EmptyString))))) (?x ++ " " ++ ?y ++ ")") = _ =>
           exists (String a (String b (String c (String d ""))) ++ (x ++ " " ++ y)) end;
         split; [apply L; [reflexivity|]; apply balanced_app; [apply balanced_wrap; exact B1|];
                 apply L; [reflexivity|]; apply balanced_wrap; exact B2
                |cbn [append]; rewrite !app_assoc_s; cbn [append]; rewrite ?app_assoc_s; reflexivity]);
    try (destruct IHwritten as (s1 & B1 & E1); subst s;
         match goal with |- exists s, _ /\ append (String "(" ?p) (?x ++ ")") = _ => exists (p ++ x) end;
         split; [apply L; [reflexivity|apply balanced_wrap; exact B1]
                |cbn [append]; rewrite ?app_assoc_s; reflexivity]).
  - exists ("Const " ++ s). split.
    + apply L; [reflexivity|]. apply plain_balanced. eapply displayed_plain. eassumption.
    + cbn [append]. rewrite ?app_assoc_s. reflexivity.
  - exists ("Var """ ++ x ++ """"). split.
    + apply L; [reflexivity|]. apply balanced_app; [assumption|]. apply plain_balanced. reflexivity.
    + cbn [append]. rewrite !app_assoc_s. reflexivity.
Qed.

Lemma parse_written e s : written e s -> forall n, (String.length s < n)%nat ->
  (~ has_sqrt e /\ egglog_parse n s = Parsed e) \/ (has_sqrt e /\ egglog_parse n s = Unparsed).
Proof.
  assert (BIN : forall p op l r s t n, binary_arm p op -> written l s -> written r t ->
    (forall n, (String.length s < n)%nat ->
      (~ has_sqrt l /\ egglog_parse n s = Parsed l) \/ (has_sqrt l /\ egglog_parse n s = Unparsed)) ->
    (forall n, (String.length t < n)%nat ->
      (~ has_sqrt r /\ egglog_parse n t = Parsed r) \/ (has_sqrt r /\ egglog_parse n t = Unparsed)) ->
    (String.length (p ++ s ++ " " ++ t ++ ")") < n)%nat ->
    (~ (has_sqrt l \/ has_sqrt r) /\ egglog_parse n (p ++ s ++ " " ++ t ++ ")") = Parsed (op l r)) \/
    ((has_sqrt l \/ has_sqrt r) /\ egglog_parse n (p ++ s ++ " " ++ t ++ ")") = Unparsed)).
  { intros p op l r s0 t n ARM WL WR HL HR LEN.
    destruct n as [|n]; [lia|]. rewrite !len_app in LEN.
    destruct (written_balanced _ _ WL) as (sl & B1 & E1), (written_balanced _ _ WR) as (sr & B2 & E2).
    rewrite E1, E2, (binary_parse p op ARM n sl sr B1), <- E1, <- E2.
    assert (PL : (1 <= String.length p)%nat) by (destruct ARM as (q & -> & _); cbn; lia).
    destruct (HL n ltac:(lia)) as [[N1 ->]|[S1 ->]], (HR n ltac:(lia)) as [[N2 ->]|[S2 ->]]; cbn [parsed2]; tauto. }
  assert (UN : forall p op a s n, unary_arm p op ->
    (forall n, (String.length s < n)%nat ->
      (~ has_sqrt a /\ egglog_parse n s = Parsed a) \/ (has_sqrt a /\ egglog_parse n s = Unparsed)) ->
    (String.length (p ++ s ++ ")") < n)%nat ->
    (~ has_sqrt a /\ egglog_parse n (p ++ s ++ ")") = Parsed (op a)) \/
    (has_sqrt a /\ egglog_parse n (p ++ s ++ ")") = Unparsed)).
  { intros p op a s0 n ARM HL LEN.
    destruct n as [|n]; [lia|]. rewrite !len_app in LEN. rewrite (unary_parse p op ARM).
    assert (PL : (1 <= String.length p)%nat) by (destruct ARM as (q & -> & _); cbn; lia).
    destruct (HL n ltac:(lia)) as [[N1 ->]|[S1 ->]]; cbn [parsed1]; tauto. }
  induction 1; intros n LEN; cbn [has_sqrt] in *.
  - left. split; [tauto|]. destruct n; [lia|]. apply const_text_read. apply displayed_read; assumption.
  - left. split; [tauto|]. destruct n; [lia|]. apply parse_var.
  - eapply BIN; eauto using add_arm.
  - eapply BIN; eauto using sub_arm.
  - eapply BIN; eauto using mul_arm.
  - eapply BIN; eauto using div_arm.
  - eapply BIN; eauto using pow_arm.
  - eapply UN; eauto using ln_arm.
  - eapply UN; eauto using exp_arm.
  - right. split; [exact Logic.I|]. destruct n; [lia|]. apply parse_sqrt.
  - eapply UN; eauto using sin_arm.
  - eapply UN; eauto using cos_arm.
  - eapply UN; eauto using neg_arm.
Qed.
Local Open Scope R_scope.

(** * A binary32 constant *)
Definition one_tenth : numeral := Numeral None [0%Z] (Some [1%Z]) None.
Lemma tenth_wf : well_formed one_tenth.
Proof. repeat split; cbn; repeat constructor; try lia. discriminate. Qed.
Lemma tenth_value : numeral_value one_tenth = / 10.
Proof. unfold numeral_value, one_tenth, frac_digits, exponent, signed, whole. cbn. lra. Qed.
Definition tenth32 : R := 13421773 / 134217728.
Lemma tenth_RN32 : RN32 (/ 10) = tenth32.
Proof.
  unfold RN32, round. assert (M : mag radix2 (/ 10) = (-3)%Z :> Z).
  { apply mag_unique. rewrite Rabs_pos_eq by lra. cbn. lra. }
  assert (C : cexp radix2 (FLT_exp (-149) 24) (/ 10) = (-27)%Z) by (unfold cexp; rewrite M; reflexivity).
  unfold scaled_mantissa. rewrite C. change (bpow radix2 (- -27)) with 134217728.
  replace (ZnearestE (/ 10 * 134217728)) with 13421773%Z.
  - unfold F2R, tenth32. cbn [Fnum Fexp]. change (bpow radix2 (-27)) with (/ 134217728). lra.
  - symmetry. apply Znearest_imp. rewrite Rabs_left1; lra.
Qed.
Lemma tenth_RN : RN (/ 10) <> tenth32.
Proof.
  pose proof (f64_lit_correct 1 10) as H.
  assert (E : f64_lit 1 10 = S754_finite false 7205759403792794 (-56)) by (vm_compute; reflexivity).
  rewrite E in H. destruct H as (_ & _ & _ & V).
  - replace (IZR 1 / IZR 10) with (/ 10) by lra. apply Rle_lt_trans with (bpow radix2 0); [|apply bpow_lt; lia].
    apply RN_abs_bpow; [lia|]. cbn. rewrite Rabs_pos_eq; lra.
  - replace (IZR 1 / IZR 10) with (/ 10) in V by lra. rewrite <- V. unfold val, SF2R, F2R, tenth32. cbn [Fnum Fexp cond_Zopp].
    change (bpow radix2 (-56)) with (/ 72057594037927936). lra.
Qed.

(** * Only numbers are read *)
Lemma digit_value_text c d : digit_value c = Some d -> (0 <= d < 10)%Z /\ c = ascii_of_nat (48 + Z.to_nat d).
Proof.
  destruct c as [[|] [|] [|] [|] [|] [|] [|] [|]]; cbv; intros H; try discriminate H; injection H as <-; (split; [split; [discriminate|reflexivity]|reflexivity]).
Qed.
Lemma take_inv s : forall acc n v m r, take_digits acc n s = (v, m, r) ->
  exists ds, are_digits ds /\ s = (digits_text ds ++ r)%string /\ m = (n + length ds)%nat /\ no_digit r.
Proof.
  induction s as [|c s IH]; intros acc n v m r H; cbn [take_digits] in H.
  - injection H as <- <- <-. exists []. repeat split; [constructor|cbn; lia].
  - destruct (digit_value c) as [d|] eqn:E.
    + destruct (IH _ _ _ _ _ H) as (ds & D & -> & M & N). destruct (digit_value_text c d E) as [B ->].
      exists (d :: ds). repeat split; [constructor; assumption|cbn; lia|exact N].
    + injection H as <- <- <-. exists []. repeat split; [constructor|cbn; lia|exact E].
Qed.
Lemma lower_low c : lower c = low c.
Proof. destruct c as [[|] [|] [|] [|] [|] [|] [|] [|]]; reflexivity. Qed.
Lemma lower_lowercase s : lower_all s = lowercase s.
Proof. induction s as [|c s IH]; cbn; [reflexivity|]. rewrite IH, lower_low. reflexivity. Qed.

Lemma exponent_inv s x : parse_exponent s = Some x ->
  exists e, s = exp_text e /\ match e with Some (_, _, ds) => are_digits ds /\ ds <> [] | None => True end.
Proof.
  destruct s as [|c s]; [intros _; exists None; split; [reflexivity|exact I]|].
  cbn [parse_exponent]. destruct (Ascii.eqb_spec (lower c) "e") as [L|L]; [|discriminate].
  assert (C : exists u : bool, String c "" = (if u then "E" else "e")%string).
  { clear - L. destruct c as [[|] [|] [|] [|] [|] [|] [|] [|]]; cbv in L; try discriminate L; [exists false|exists true]; reflexivity. }
  destruct C as [u C].
  assert (K : forall sg t (neg : bool), s = (sign_text sg ++ t)%string ->
    match take_digits 0 0 t with (v, S _, EmptyString) => Some (if neg then (- v)%Z else v) | _ => None end = Some x ->
    exists e, String c s = exp_text e /\ match e with Some (_, _, ds) => are_digits ds /\ ds <> [] | None => True end).
  { intros sg t neg ES H. destruct (take_digits 0 0 t) as [[v [|m]] [|a r]] eqn:T; try discriminate H.
    destruct (take_inv _ _ _ _ _ _ T) as (ds & D & E & M & _). rewrite app_nil_s in E.
    exists (Some (u, sg, ds)). cbn [exp_text]. rewrite <- C. cbn [append]. rewrite ES, E. repeat split; [exact D|].
    intros ->. discriminate M. }
  destruct s as [|a s]; [exact (K None "" false eq_refl)|].
  destruct (Ascii.eqb_spec a "-") as [->|N1]; [exact (K (Some true) s true eq_refl)|].
  destruct (Ascii.eqb_spec a "+") as [->|N2]; [exact (K (Some false) s false eq_refl)|].
  intros H. apply (K None (String a s) false eq_refl). rewrite <- H.
  destruct a as [[|] [|] [|] [|] [|] [|] [|] [|]]; try reflexivity; exfalso; solve [apply N1; reflexivity|apply N2; reflexivity].
Qed.

Lemma unsigned_inv s c : parse_unsigned s = Some c ->
  (exists n, well_formed n /\ nu_sign n = None /\ s = body_text n) \/
  In (lowercase s) ["inf"; "infinity"; "nan"]%string.
Proof.
  unfold parse_unsigned. cbv zeta. rewrite lower_lowercase.
  destruct (String.eqb_spec (lowercase s) "inf") as [E|_]; [intros _; right; rewrite E; cbn; tauto|].
  destruct (String.eqb_spec (lowercase s) "infinity") as [E|_]; [intros _; right; rewrite E; cbn; tauto|].
  destruct (String.eqb_spec (lowercase s) "nan") as [E|_]; [intros _; right; rewrite E; cbn; tauto|].
  cbn [orb]. intros H. left.
  destruct (take_digits 0 0 s) as [[i ni] s1] eqn:T. destruct (take_inv _ _ _ _ _ _ T) as (ds & D & E & M & N). cbn in M.
  assert (K : forall fs (v : Z) nf s2, are_digits (match fs with Some l => l | None => [] end) ->
    nf = length (match fs with Some l => l | None => [] end) ->
    s1 = (match fs with Some l => "." ++ digits_text l | None => "" end ++ s2)%string ->
    (if (ni + nf =? 0)%nat then None else match parse_exponent s2 with Some x => Some (scaled v (x - Z.of_nat nf)) | None => None end) = Some c ->
    exists n, well_formed n /\ nu_sign n = None /\ s = body_text n).
  { intros fs v nf s2 F1 F2 F3 H'. destruct (Nat.eqb_spec (ni + nf) 0) as [|NZ]; [discriminate|].
    destruct (parse_exponent s2) as [x|] eqn:P; [|discriminate]. destruct (exponent_inv _ _ P) as (e & E2 & W).
    exists (Numeral None ds fs e). split; [|split; [reflexivity|]].
    - repeat split; cbn [nu_int nu_frac nu_exp]; try assumption.
      unfold frac_digits. cbn [nu_frac]. intros Q. apply NZ. rewrite F2, M, <- app_length, Q. reflexivity.
    - unfold body_text. cbn [nu_int nu_frac nu_exp]. rewrite E, F3, E2. reflexivity. }
  destruct s1 as [|a s1]; [exact (K None i 0%nat "" (Forall_nil _) eq_refl eq_refl H)|].
  destruct (Ascii.eqb_spec a ".") as [->|NP].
  - destruct (take_digits i 0 s1) as [[v nf] s2] eqn:T2. destruct (take_inv _ _ _ _ _ _ T2) as (fs & D2 & E2 & M2 & _).
    apply (K (Some fs) v nf s2 D2); [cbn in M2; exact M2| |exact H]. rewrite E2. cbn [append]. rewrite ?app_assoc_s. reflexivity.
  - apply (K None i 0%nat (String a s1) (Forall_nil _) eq_refl eq_refl). rewrite <- H.
    destruct a as [[|] [|] [|] [|] [|] [|] [|] [|]]; try reflexivity; exfalso; apply NP; reflexivity.
Qed.

Lemma parse_inv s c : parse_f64 s = Some c -> is_number s.
Proof.
  assert (K : forall sg t d, s = (sign_text sg ++ t)%string -> parse_unsigned t = Some d -> is_number s).
  { intros sg t d ES H. destruct (unsigned_inv _ _ H) as [(n & W & SN & E)|I].
    - left. exists (Numeral sg (nu_int n) (nu_frac n) (nu_exp n)). split; [exact W|].
      rewrite ES, E, text_body. destruct n; reflexivity.
    - right. exists sg, t. split; assumption. }
  destruct s as [|a s]; [intros H; exact (K None ""%string c eq_refl H)|]. unfold parse_f64.
  destruct (Ascii.eqb_spec a "-") as [->|N1].
  { destruct (parse_unsigned s) as [d|] eqn:P; [|discriminate]. intros _. exact (K (Some true) s d eq_refl P). }
  destruct (Ascii.eqb_spec a "+") as [->|N2]; [intros H; exact (K (Some false) s c eq_refl H)|].
  intros H. apply (K None (String a s) c eq_refl). rewrite <- H.
  destruct a as [[|] [|] [|] [|] [|] [|] [|] [|]]; try reflexivity; exfalso; solve [apply N1; reflexivity|apply N2; reflexivity].
Qed.

Lemma special_read sg w : In (lowercase w) ["inf"; "infinity"; "nan"]%string ->
  exists c, parse_f64 (sign_text sg ++ w) = Some c.
Proof.
  intros I. rewrite <- lower_lowercase in I.
  assert (P : exists c, parse_unsigned w = Some c).
  { unfold parse_unsigned. cbv zeta. destruct I as [I|[I|[I|[]]]]; rewrite <- I; cbn [String.eqb Ascii.eqb orb]; cbv; eauto. }
  destruct P as [c P]. destruct sg as [[|]|]; cbn [sign_text append parse_f64]; [rewrite P; eauto|eauto|].
  exists c. rewrite <- P. destruct w as [|a w]; [reflexivity|]. cbn [lower_all] in I. unfold parse_f64.
  assert (lower a = "i"%char \/ lower a = "n"%char).
  { destruct I as [I|[I|[I|[]]]]; injection I; intros _ E; rewrite <- E; tauto. }
  destruct a as [[|] [|] [|] [|] [|] [|] [|] [|]]; try reflexivity; exfalso; cbv in H; destruct H as [H|H]; discriminate H.
Qed.
Lemma parse_iff s : (exists c, parse_f64 s = Some c) <-> is_number s.
Proof.
  split.
  - intros [c H]. eapply parse_inv. exact H.
  - intros [(n & W & ->)|(sg & w & -> & I)].
    + destruct (parse_nearest n W) as (c & P & _). eauto.
    + apply special_read. exact I.
Qed.
