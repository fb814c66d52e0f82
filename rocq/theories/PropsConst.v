(** Constants of the JIT interpreter (C22). *)
From Coq Require Import ZArith Reals String Lia Lra.
From Coq Require Import Floats.SpecFloat.
From Flocq Require Import Core.
From Verif Require Import Num EggSpec FloatErr SingleModel SingleSpec ConstModel ConstSpec ConstProofs.
Local Open Scope R_scope.

(** A single-precision constant passes through its decimal text and is read as
    f64: not its own value, but within the rounding of f32 of it. *)
Theorem C22_single_constants_close : forall denote show parse v r,
  parses denote parse -> shows_single denote show v -> bpow radix2 (-126) <= Rabs (denote (show v)) ->
  jit_constant show parse v = Some r -> is_num r ->
  Rabs (val r - val v) <= / 2 ^ 23 * Rabs (val v).
Proof. exact single_constant. Qed.
Print Assumptions C22_single_constants_close.
(** 0.1f32, printed "0.1", becomes the f64 nearest to 1/10, a different number. *)
Theorem C22_single_constant_refuted : forall denote show parse r,
  parses denote parse -> denote "0.1"%string = 1 / 10 -> show tenth32 = "0.1"%string ->
  jit_constant show parse tenth32 = Some r -> is_num r ->
  is_single tenth32 /\ shows_single denote show tenth32 /\ val r = nearest64 (1 / 10) /\ val r < val tenth32.
Proof.
  intros denote show parse r HP D S E NR. destruct tenth_read as [T3 T6]. unfold jit_constant in E. rewrite S in E.
  pose proof (HP _ r E NR) as V. rewrite D in V. split; [apply tenth32_val|]. split; [unfold shows_single; rewrite S, D; symmetry; exact T3|].
  split; [exact V|]. rewrite V, T6. apply tenth_differs.
Qed.
Print Assumptions C22_single_constant_refuted.
(** Integer constants are exact up to 2^53; 2^53 + 1 becomes 2^53. *)
Theorem C22_integer_constants_exact : forall denote show parse k r,
  parses denote parse -> shows_integer denote show k -> (Z.abs k <= 2 ^ 53)%Z ->
  jit_constant show parse k = Some r -> is_num r -> val r = IZR k.
Proof. exact integer_constant. Qed.
Print Assumptions C22_integer_constants_exact.
Theorem C22_integer_constant_refuted : forall denote show parse k r,
  parses denote parse -> shows_integer denote show k -> k = (2 ^ 53 + 1)%Z ->
  jit_constant show parse k = Some r -> is_num r -> val r = IZR (2 ^ 53) /\ val r <> IZR k.
Proof. exact integer_wrong. Qed.
Print Assumptions C22_integer_constant_refuted.

(** A reader that knows the texts "0.1" and "9007199254740993". *)
Definition big_text : string := "9007199254740993".
Definition a_denote (s : string) : R := if String.eqb s "0.1" then 1 / 10 else if String.eqb s big_text then IZR (2 ^ 53 + 1) else 0.
Definition a_parse (s : string) : option f64 :=
  if String.eqb s "0.1" then Some tenth64 else if String.eqb s big_text then Some (S754_finite false 4503599627370496 1) else None.
Example C22_constants_case : parses a_denote a_parse /\
  jit_constant (fun _ => "0.1"%string) a_parse tenth32 = Some tenth64 /\ is_num tenth64 /\
  shows_single a_denote (fun _ => "0.1"%string) tenth32 /\ bpow radix2 (-126) <= Rabs (a_denote "0.1") /\
  shows_integer a_denote (fun _ => big_text) (2 ^ 53 + 1).
Proof.
  destruct tenth_read as [T3 T6].
  assert (P : parses a_denote a_parse).
  { intros s r. unfold a_parse, a_denote. destruct (String.eqb s "0.1"); [intros E _; injection E as <-; symmetry; exact T6|].
    destruct (String.eqb s big_text); [|discriminate]. intros E N. injection E as <-.
    assert (B : val (S754_finite false 4503599627370496 1) = IZR (2 ^ 53)).
    { unfold val, BinarySingleNaN.SF2R, F2R. cbn. lra. }
    rewrite B. symmetry.
    apply big_nearest. }
  split; [exact P|]. split; [reflexivity|]. split; [apply tenth64_val|]. split; [unfold shows_single, a_denote; cbn [String.eqb]; symmetry; exact T3|].
  split; [|reflexivity]. change (a_denote "0.1") with (1 / 10). rewrite Rabs_pos_eq by lra.
  apply Rle_trans with (bpow radix2 (-4)); [apply bpow_le; lia|]. change (bpow radix2 (-4)) with (/ IZR (Z.pow_pos 2 4)). replace (Z.pow_pos 2 4) with 16%Z by reflexivity. lra.
Qed.
