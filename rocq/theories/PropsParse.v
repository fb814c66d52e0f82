(** C69: numbers that travel through text. *)
From Coq Require Import ZArith Reals Bool String Ascii List Lia Lra.
From Coq Require Import Floats.SpecFloat.
From Flocq Require Import Core IEEE754.BinarySingleNaN.
From Verif Require Import Num ExprModel ExprSpec EggModel EggSpec LitFacts EggText ParseSpec TextModel ParseProofs.
Import ListNotations.
Local Open Scope R_scope.

(** * Constants of the JIT interpreter *)
(** A value displayed as a decimal numeral becomes the binary64 constant
    nearest to that numeral. *)
Theorem C69_constant_is_nearest : forall n, well_formed n ->
  exists c, jit_constant (numeral_text n) = Some (Const c) /\ nearest_to n c.
Proof.
  intros n W. destruct (parse_nearest n W) as (c & P & H). exists c. unfold jit_constant. rewrite P. split; [reflexivity|exact H].
Qed.
Print Assumptions C69_constant_is_nearest.
(** A binary64 value is kept, infinities, NaN and the sign of zero included. *)
Theorem C69_f64_constant_kept : forall c s, SpecFloat.valid_binary 53 1024 c = true -> displays c s ->
  jit_constant s = Some (Const c).
Proof. intros c s V D. unfold jit_constant. rewrite (displayed_read c s V D). reflexivity. Qed.
Print Assumptions C69_f64_constant_kept.
(** An integer becomes the nearest binary64, itself up to 2^53. *)
Theorem C69_integer_constant : forall k s, displays_integer k s -> exists c, jit_constant s = Some (Const c) /\
  (Rabs (RN (IZR k)) < bpow radix2 1024 -> finite c /\ val c = RN (IZR k)) /\
  ((Z.abs k <= 2 ^ 53)%Z -> finite c /\ val c = IZR k).
Proof.
  intros k s D. destruct (integer_read k s D) as (c & P & H). exists c. unfold jit_constant. rewrite P. split; [reflexivity|exact H].
Qed.
Print Assumptions C69_integer_constant.
(** A value whose text is not a number makes the call panic, and no other. *)
Theorem C69_panics_exactly_on_other_text : forall s, jit_constant s = None <-> ~ is_number s.
Proof.
  intros s. rewrite <- parse_iff. unfold jit_constant. destruct (parse_f64 s) as [c|]; split; intros H; try discriminate; try reflexivity.
  - exfalso. apply H. eauto.
  - intros [c E]. discriminate.
Qed.
Print Assumptions C69_panics_exactly_on_other_text.
(** A binary32 value is not kept: 0.1f32 is displayed as 0.1 and becomes the
    binary64 nearest to 0.1, another number. *)
Theorem C69_f32_constant_refuted : exists v s c, displays32 v s /\
  jit_constant s = Some (Const c) /\ finite c /\ val c <> v.
Proof.
  destruct (parse_nearest one_tenth tenth_wf) as (c & P & N). exists tenth32, (numeral_text one_tenth), c.
  unfold nearest_to in N. rewrite tenth_value in N. split; [|split].
  - exists one_tenth. split; [exact tenth_wf|]. split; [reflexivity|]. rewrite tenth_value. exact tenth_RN32.
  - unfold jit_constant. rewrite P. reflexivity.
  - destruct (Rlt_dec _ _) as [L|L].
    + destruct N as (_ & F & V & _). split; [exact F|]. rewrite V. exact tenth_RN.
    + exfalso. apply L. apply Rle_lt_trans with (bpow radix2 0); [|apply bpow_lt; lia].
      apply RN_abs_bpow; [lia|]. cbn. rewrite Rabs_pos_eq; lra.
Qed.
Print Assumptions C69_f32_constant_refuted.

(** * Terms printed by the rewriting engine *)
(** A term written with quoted names (parentheses balanced) and constants that
    read back is returned as it is, and the input is returned if the term has
    a square root. *)
Theorem C69_optimizer_reads_any_numerals : forall t s e, written t s ->
  (~ has_sqrt t -> egglog_to_expr s = Parsed t /\ optimize_with (Some s) e = Some t) /\
  (has_sqrt t -> egglog_to_expr s = Unparsed /\ optimize_with (Some s) e = Some e).
Proof.
  intros t s e W. destruct (parse_written t s W (S (String.length s)) (Nat.lt_succ_diag_r _)) as [[N P]|[N P]];
    unfold optimize_with, egglog_to_expr; rewrite P; split; intros H; try contradiction; split; reflexivity.
Qed.
Print Assumptions C69_optimizer_reads_any_numerals.

Ltac value_by := unfold numeral_value, frac_digits, exponent, signed, whole;
  cbn [nu_sign nu_int nu_frac nu_exp negative length fold_left Z.add Z.mul Z.opp Pos.add Pos.mul Pos.succ];
  unfold powerRZ; repeat match goal with |- context [Pos.to_nat ?p] => let k := eval cbv in (Pos.to_nat p) in change (Pos.to_nat p) with k end;
  cbn [pow]; lra.
(** Numerals such as -12.50e+3 and 1E-2 meet the hypotheses. *)
Example C69_case :
  let n := Numeral (Some true) [1; 2]%Z (Some [5; 0]%Z) (Some (false, Some false, [3]%Z)) in
  let m := Numeral None [1]%Z None (Some (true, Some true, [2]%Z)) in
  numeral_text n = "-12.50e+3"%string /\ well_formed n /\ numeral_value n = -12500 /\
  numeral_text m = "1E-2"%string /\ well_formed m /\ numeral_value m = / 100 /\
  ~ is_number "true" /\ displays_integer (-42) "-42".
Proof.
  cbv zeta. split; [reflexivity|]. split; [repeat split; cbn; repeat constructor; try lia; discriminate|].
  split; [value_by|]. split; [reflexivity|].
  split; [repeat split; cbn; repeat constructor; try lia; discriminate|].
  split; [value_by|]. split.
  - rewrite <- parse_iff. intros [c H]. vm_compute in H. discriminate.
  - exists [4; 2]%Z. repeat split; repeat constructor; try lia. discriminate.
Qed.
(** x / -0.5, with the constant written as -0.5 and as -5e-1, is read back. *)
Example C69_case_term :
  let h := S754_finite true 4503599627370496 (-53) in
  written (Div (Var "x") (Const h)) "(Div (Var ""x"") (Const -0.5))" /\
  written (Div (Var "x") (Const h)) "(Div (Var ""x"") (Const -5e-1))".
Proof.
  cbv zeta. assert (V : val (S754_finite true 4503599627370496 (-53)) = - / 2).
  { unfold val, SF2R, F2R. cbn [Fnum Fexp cond_Zopp Z.opp]. change (bpow radix2 (-53)) with (/ 9007199254740992). lra. }
  assert (R : RN (- / 2) = - / 2).
  { rewrite <- V. apply RN_val. reflexivity. }
  assert (K : forall n, well_formed n -> nu_sign n = Some true -> numeral_value n = - / 2 ->
    written (Div (Var "x") (Const (S754_finite true 4503599627370496 (-53)))) ("(Div " ++ "(Var ""x"")" ++ " " ++ "(Const " ++ numeral_text n ++ "))")).
  { intros n W SG E.
    replace ("(Const " ++ numeral_text n ++ "))")%string with (("(Const " ++ numeral_text n ++ ")") ++ ")")%string by (rewrite !app_assoc_s; reflexivity).
    apply w_div; [apply (w_var "x"); exact eq_refl || (vm_compute; tauto) || (cbn; lia)|]. apply w_const; [reflexivity|].
    apply disp_finite; [exact W|reflexivity|rewrite SG; discriminate|rewrite E, R; exact V|rewrite SG; reflexivity]. }
  split.
  - apply (K (Numeral (Some true) [0]%Z (Some [5]%Z) None)); [|reflexivity|].
    + repeat split; cbn; repeat constructor; try lia; discriminate.
    + value_by.
  - apply (K (Numeral (Some true) [5]%Z None (Some (false, Some true, [1]%Z)))); [|reflexivity|].
    + repeat split; cbn; repeat constructor; try lia; discriminate.
    + value_by.
Qed.
