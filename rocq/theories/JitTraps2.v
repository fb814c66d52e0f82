(** What the emitted logarithm, power, sine and cosine return on every
    argument (C71). *)
From Coq Require Import ZArith Reals Bool List Lia Lra String.
From Coq Require Import Floats.SpecFloat.
From Flocq Require Import Core IEEE754.BinarySingleNaN.
From Verif Require Import Num ConvModel FloatFacts ConvProofs ExprModel JitModel JitSpec EggSpec LitFacts FloatErr JitBits JitAcc JitAcc2 TrapSpec JitTraps.
Import ListNotations.
Local Open Scope R_scope.

(** * The logarithm *)
Lemma exponent_range v : (-1023 <= exponent_of v <= 1024)%Z.
Proof. unfold exponent_of. pose proof (Z.mod_pos_bound (f64_bits v / 2 ^ 52) (2 ^ 11) ltac:(lia)). lia. Qed.
Lemma significand_range v : is_num (significand_of v) /\ 1 <= val (significand_of v) < 2.
Proof.
  unfold significand_of. change (2 ^ 52)%Z with two52.
  pose proof (Z.mod_pos_bound (f64_bits v) two52 eq_refl) as B. set (b := (f64_bits v mod two52)%Z) in *.
  assert (P : (0 < two52 + b)%Z) by lia. destruct (two52 + b)%Z as [|p|p] eqn:E; try lia.
  rewrite (of_bits_normal 1023 b p) by lia. change (1023 - 1075)%Z with (-52)%Z.
  split; [split; [apply shape_valid; lia|reflexivity]|]. rewrite val_pos.
  assert (B1 : IZR (Zpos p) < bpow radix2 53) by (rewrite <- two53_bpow; apply IZR_lt; lia).
  assert (B2 : bpow radix2 52 <= IZR (Zpos p)) by (rewrite <- two52_bpow; apply IZR_le; lia).
  pose proof (bpow_gt_0 radix2 (-52)).
  replace 1 with (bpow radix2 52 * bpow radix2 (-52)) by (rewrite <- bpow_plus; reflexivity).
  replace 2 with (bpow radix2 53 * bpow radix2 (-52)) by (rewrite <- bpow_plus; reflexivity).
  split; [apply Rmult_le_compat_r; lra|apply Rmult_lt_compat_r; lra].
Qed.

(** Up to rounding, the result is the logarithm of the exponent and
    significand fields, whatever the number. *)
Theorem ln_fields v : SFeqb v c1 = false ->
  is_num (jit_ln v) /\ Rabs (val (jit_ln v) - (IZR (exponent_of v) * ln 2 + ln (val (significand_of v)))) <= 4 / 10 ^ 12.
Proof.
  intros Q. unfold jit_ln. rewrite Q. destruct (significand_range v) as [NS MS]. pose proof (exponent_range v) as EX.
  set (k := exponent_of v) in *. set (m := significand_of v) in *.
  destruct (ln_ratio_acc m NS ltac:(lra)) as [NR AR].
  destruct (of_Z_exact k ltac:(lia)) as (bk & EK & FK' & VK).
  destruct (is_num_B bk FK') as [NK VK']. rewrite <- EK in NK, VK'. rewrite VK in VK'. clear EK VK FK'.
  assert (KB : -1023 <= IZR k <= 1024) by (split; apply IZR_le; lia).
  pose proof ln2_bounds as L2. pose proof c_ln2_err as CE. apply Rabs_le_inv in CE. set (c := val c_ln2) in *.
  assert (PB : Rabs (IZR k * c) <= 710).
  { rewrite Rabs_mult, (Rabs_pos_eq c) by lra. assert (Rabs (IZR k) <= 1024) by (apply Rabs_le; lra).
    pose proof (Rabs_pos (IZR k)). apply Rle_trans with (1024 * c); [apply Rmult_le_compat_r; lra|lra]. }
  destruct (mul_num _ _ NK c_ln2_num) as [NP VP].
  { rewrite VK'. apply (RN_fits _ 710 PB). lra. }
  rewrite VK' in VP. fold c in VP. pose proof (RN_le_err _ 710 PB) as RP. set (p := RN (IZR k * c)) in *.
  assert (LB : 0 <= ln (val m) <= 1).
  { split; [rewrite <- ln_1; destruct (Req_dec (val m) 1) as [->|]; [lra|left; apply ln_increasing; lra]|].
    rewrite <- (ln_exp 1). left. apply ln_increasing; [lra|]. pose proof (exp_ineq1 1 ltac:(lra)). lra. }
  assert (KE : Rabs (IZR k * c - IZR k * ln 2) <= 25 / 10 ^ 15).
  { replace (IZR k * c - IZR k * ln 2) with (IZR k * (c - ln 2)) by ring. rewrite Rabs_mult.
    apply Rle_trans with (1024 * (24 / 10 ^ 18)); [|lra]. apply Rmult_le_compat; try apply Rabs_pos; apply Rabs_le; lra. }
  apply Rabs_le_inv in RP, KE, AR, PB. set (r := val (ln_ratio m)) in *.
  assert (SB : Rabs (p + r) <= 712) by (apply Rabs_le; lra).
  destruct (add_num _ _ NP NR) as [NQ VQ].
  { rewrite VP. fold r. apply (RN_fits _ 712 SB). lra. }
  split; [exact NQ|]. rewrite VQ, VP. fold r. pose proof (RN_le_err _ 712 SB) as RS. apply Rabs_le_inv in RS.
  apply Rabs_le. lra.
Qed.
Lemma significand_ln v : 0 <= ln (val (significand_of v)) <= ln 2.
Proof.
  destruct (significand_range v) as [_ M]. split.
  - rewrite <- ln_1. destruct (Req_dec (val (significand_of v)) 1) as [->|]; [lra|left; apply ln_increasing; lra].
  - left. apply ln_increasing; lra.
Qed.
Theorem ln_range v : is_num (jit_ln v) /\ Rabs (val (jit_ln v)) <= 711.
Proof.
  destruct (SFeqb v c1) eqn:Q.
  { unfold jit_ln. rewrite Q. split; [split; reflexivity|]. change (val c0) with 0. rewrite Rabs_R0. lra. }
  destruct (ln_fields v Q) as [N E]. split; [exact N|]. pose proof (exponent_range v) as EX. pose proof (significand_ln v) as SL.
  pose proof ln2_bounds as L2. apply Rabs_le_inv in E.
  assert (KB : -1023 <= IZR (exponent_of v) <= 1024) by (split; apply IZR_le; lia).
  assert (-1023 * ln 2 <= IZR (exponent_of v) * ln 2 <= 1024 * ln 2) by (split; apply Rmult_le_compat_r; lra).
  apply Rabs_le. lra.
Qed.

(** The sign bit is dropped. *)
Lemma bits_sign v : exists z, (f64_bits (SFopp v) = f64_bits v + z * two63)%Z.
Proof.
  destruct v as [s|s| |s m e]; cbn [SFopp f64_bits].
  - destruct s; cbn [negb]; [exists (-1)%Z|exists 1%Z]; lia.
  - destruct s; cbn [negb]; [exists (-1)%Z|exists 1%Z]; lia.
  - exists 0%Z. lia.
  - destruct s; cbn [negb]; [exists (-1)%Z|exists 1%Z]; lia.
Qed.
Theorem ln_sign v : SFeqb v c1 = false -> SFeqb (SFopp v) c1 = false -> jit_ln (SFopp v) = jit_ln v.
Proof.
  intros Q Q'. unfold jit_ln. rewrite Q, Q'. destruct (bits_sign v) as (z & Z).
  assert (E : exponent_of (SFopp v) = exponent_of v).
  { unfold exponent_of. rewrite Z. change two63 with (2048 * 2 ^ 52)%Z.
    rewrite Z.mul_assoc, Z.div_add by lia. rewrite Z_mod_plus_full. reflexivity. }
  assert (S : significand_of (SFopp v) = significand_of v).
  { unfold significand_of. rewrite Z. change two63 with (2048 * 2 ^ 52)%Z. rewrite Z.mul_assoc, Z_mod_plus_full. reflexivity. }
  rewrite E, S. reflexivity.
Qed.

(** Zero and the subnormal numbers. *)
Theorem ln_subnormal v : is_num v -> Rabs (val v) < bpow radix2 (-1022) -> -7091 / 10 <= val (jit_ln v) <= -7083 / 10.
Proof.
  intros [V F] B.
  assert (X : exponent_of v = (-1023)%Z).
  { unfold exponent_of. destruct v as [s|s| |s m e]; try discriminate F.
    - destruct s; reflexivity.
    - destruct (valid_shape _ _ _ V) as (M & E & C).
      assert (L : (Zpos m < two52)%Z).
      { destruct (Z.lt_ge_cases (Zpos m) two52) as [L|L]; [exact L|exfalso].
        assert (G : bpow radix2 52 <= IZR (Zpos m)) by (rewrite <- two52_bpow; apply IZR_le; lia).
        assert (W : bpow radix2 (-1022) <= Rabs (val (S754_finite s m e))).
        { rewrite val_explicit, Rabs_mult, (Rabs_pos_eq (bpow _ _)) by apply bpow_ge_0.
          replace (Rabs (IZR (cond_Zopp s (Zpos m)))) with (IZR (Zpos m)) by (rewrite <- abs_IZR; destruct s; reflexivity).
          replace (bpow radix2 (-1022)) with (bpow radix2 52 * bpow radix2 (-1074)) by (rewrite <- bpow_plus; reflexivity).
          apply Rmult_le_compat; try apply bpow_ge_0; [exact G|apply bpow_le; lia]. }
        lra. }
      unfold f64_bits. destruct (Z.ltb_spec (Zpos m) two52); [|lia]. change (2 ^ 52)%Z with two52.
      destruct s.
      + change two63 with (2048 * two52)%Z. rewrite (Z.add_comm (2048 * two52)), Z.div_add by (vm_compute; discriminate).
        rewrite Z.div_small by lia. reflexivity.
      + rewrite Z.add_0_l, Z.div_small by lia. reflexivity. }
  assert (Q : SFeqb v c1 = false).
  { destruct (SFeqb v c1) eqn:Q; [|reflexivity]. exfalso.
    destruct (num_B v (conj V F)) as (b & EB & FB & VB).
    destruct (of_Z_exact 1 ltac:(lia)) as (b1 & E1 & F1 & V1). unfold c1 in Q.
    rewrite EB, E1 in Q. change (SFeqb (B2SF b) (B2SF b1)) with (Beqb b b1) in Q.
    rewrite (Beqb_correct _ _ b b1 FB F1) in Q. revert Q; case Req_bool_spec; intros Q Q'; [|discriminate Q'].
    rewrite <- VB, Q, V1 in B. rewrite Rabs_R1 in B.
    pose proof (bpow_le radix2 (-1022) 0 ltac:(lia)) as C. change (bpow radix2 0) with 1 in C. lra. }
  destruct (ln_fields v Q) as [_ E]. rewrite X in E. pose proof (significand_ln v) as SL. pose proof ln2_bounds as L2.
  apply Rabs_le_inv in E. lra.
Qed.

(** * Powers *)
Theorem powf_never_traps b e : is_num e -> Rabs (val e) <= 2000000 -> exists w, jit_powf b e = Some w.
Proof.
  intros N E. unfold jit_powf. destruct (ln_range b) as [NL L].
  assert (P : Rabs (val e * val (jit_ln b)) <= 1422000000).
  { rewrite Rabs_mult. apply Rle_trans with (2000000 * 711); [|lra]. apply Rmult_le_compat; try apply Rabs_pos; assumption. }
  destruct (mul_num e (jit_ln b) N NL (RN_fits _ _ P ltac:(lra))) as [NP VP].
  pose proof (RN_le_err _ _ P) as RE. apply Rabs_le_inv in RE, P.
  destruct (jit_exp (e [*] jit_ln b)) as [w|] eqn:J; [exists w; reflexivity|]. exfalso.
  apply exp_traps in J; [|exact NP]. rewrite VP in J. unfold trap_above, trap_below in J. lra.
Qed.
Theorem powf_sign b e : SFeqb b c1 = false -> SFeqb (SFopp b) c1 = false -> jit_powf (SFopp b) e = jit_powf b e.
Proof. intros Q Q'. unfold jit_powf. rewrite ln_sign by assumption. reflexivity. Qed.
(** An infinite or undefined exponent. *)
Theorem powf_inf b e : SpecFloat.valid_binary 53 1024 e = true -> ~ is_num e -> jit_powf b e = None.
Proof.
  intros V N. unfold jit_powf. destruct (ln_range b) as [[VL FL] _].
  destruct e as [s|s| |s m x]; try (exfalso; apply N; split; [exact V|reflexivity]).
  - destruct (jit_ln b) as [t|t| |t m e]; try discriminate FL.
    + vm_compute. reflexivity.
    + apply exp_traps_inf; [destruct s, t; reflexivity|]. intros [_ F]. destruct s, t; discriminate F.
  - apply exp_traps_inf; [destruct (jit_ln b); reflexivity|]. intros [_ F]. destruct (jit_ln b); discriminate F.
Qed.
