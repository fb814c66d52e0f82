(** Constants of the JIT interpreter (C22). *)
From Coq Require Import ZArith Reals String Lia Lra Psatz.
From Coq Require Import Floats.SpecFloat.
From Flocq Require Import Core Relative BinarySingleNaN.
From Verif Require Import Num EggSpec FloatErr SingleModel SingleSpec ConstModel ConstSpec.
Local Open Scope R_scope.

Lemma near64 q : bpow radix2 (-126) <= Rabs q -> Rabs (nearest64 q - q) <= bpow radix2 (-53) * Rabs q.
Proof.
  intros B. eapply Rle_trans; [apply (relative_error_N_FLT radix2 (-1074) 53 ltac:(lia) (fun x => negb (Z.even x)) q)|].
  - eapply Rle_trans; [apply bpow_le|exact B]. lia.
  - apply Req_le. f_equal. change (-53 + 1)%Z with (-52)%Z. replace (/ 2) with (bpow radix2 (-1)) by (cbn; lra). rewrite <- bpow_plus. reflexivity.
Qed.
Lemma near32 q : bpow radix2 (-126) <= Rabs q -> Rabs (nearest32 q - q) <= bpow radix2 (-24) * Rabs q.
Proof.
  intros B. eapply Rle_trans; [apply (relative_error_N_FLT radix2 (-149) 24 ltac:(lia) (fun x => negb (Z.even x)) q)|].
  - exact B.
  - apply Req_le. f_equal. change (-24 + 1)%Z with (-23)%Z. replace (/ 2) with (bpow radix2 (-1)) by (cbn; lra). rewrite <- bpow_plus. reflexivity.
Qed.
Lemma two_readings q : bpow radix2 (-126) <= Rabs q -> Rabs (nearest64 q - nearest32 q) <= / 2 ^ 23 * Rabs (nearest32 q).
Proof.
  intros B. pose proof (near64 q B) as A1. pose proof (near32 q B) as A2.
  assert (E1 : bpow radix2 (-53) <= / 1000000000000000) by (cbn; lra). assert (E2 : bpow radix2 (-24) = / 16777216) by (cbn; lra). rewrite E2 in A2.
  assert (E3 : / 2 ^ 23 = / 8388608) by (f_equal; lra). rewrite E3.
  pose proof (Rabs_pos q) as Q. assert (A1' : Rabs (nearest64 q - q) <= / 1000000000000000 * Rabs q) by (eapply Rle_trans; [exact A1|]; apply Rmult_le_compat_r; assumption).
  assert (A3 : Rabs q - Rabs (nearest32 q) <= Rabs (nearest32 q - q)) by (rewrite <- (Rabs_Ropp (nearest32 q - q)); replace (- (nearest32 q - q)) with (q - nearest32 q) by ring; apply Rabs_triang_inv).
  assert (A4 : Rabs (nearest64 q - nearest32 q) <= Rabs (nearest64 q - q) + Rabs (nearest32 q - q)).
  { rewrite <- (Rabs_Ropp (nearest32 q - q)). replace (nearest64 q - nearest32 q) with ((nearest64 q - q) + - (nearest32 q - q)) by ring. apply Rabs_triang. }
  lra.
Qed.
Lemma single_constant denote show parse v r : parses denote parse -> shows_single denote show v ->
  bpow radix2 (-126) <= Rabs (denote (show v)) -> jit_constant show parse v = Some r -> is_num r ->
  Rabs (val r - val v) <= / 2 ^ 23 * Rabs (val v).
Proof.
  intros HP HS B E NR. rewrite (HP (show v) r E NR), HS. apply two_readings, B.
Qed.

Definition tenth32 : f32 := S754_finite false 13421773 (-27).
Definition tenth64 : f64 := S754_finite false 7205759403792794 (-56).
Lemma tenth32_val : is_single tenth32 /\ val tenth32 = IZR 13421773 / 2 ^ 27.
Proof. split; [split; vm_compute; reflexivity|]. unfold val, SF2R, tenth32, F2R. cbn [Fnum Fexp cond_Zopp]. cbn [bpow]. cbn. lra. Qed.
Lemma tenth64_val : is_num tenth64 /\ val tenth64 = IZR 7205759403792794 / 2 ^ 56.
Proof. split; [split; vm_compute; reflexivity|]. unfold val, SF2R, tenth64, F2R. cbn [Fnum Fexp cond_Zopp]. cbn [bpow]. cbn. lra. Qed.
Lemma mag_tenth : mag_val radix2 (1/10) (mag radix2 (1/10)) = (-3)%Z.
Proof. apply mag_unique. rewrite Rabs_pos_eq by lra. cbn. lra. Qed.
Lemma tenth_read : nearest32 (1/10) = val tenth32 /\ nearest64 (1/10) = val tenth64.
Proof.
  destruct tenth32_val as [_ V3]. destruct tenth64_val as [_ V6]. split.
  - rewrite V3. unfold nearest32, round, F2R, scaled_mantissa, cexp. rewrite mag_tenth. cbn [Fnum Fexp]. replace (FLT_exp (-149) 24 (-3)) with (-27)%Z by reflexivity.
    rewrite (Znearest_imp _ _ 13421773).
    + change (- -27)%Z with 27%Z. replace (bpow radix2 (-27)) with (/ 2 ^ 27) by (cbn; lra). reflexivity.
    + change (- -27)%Z with 27%Z. replace (bpow radix2 27) with 134217728 by (cbn; lra). apply Rabs_def1; lra.
  - rewrite V6. unfold nearest64, round, F2R, scaled_mantissa, cexp. rewrite mag_tenth. cbn [Fnum Fexp]. replace (FLT_exp (-1074) 53 (-3)) with (-56)%Z by reflexivity.
    rewrite (Znearest_imp _ _ 7205759403792794).
    + replace (bpow radix2 (-56)) with (/ 2 ^ 56) by (cbn; lra). reflexivity.
    + change (- -56)%Z with 56%Z. replace (bpow radix2 56) with 72057594037927936 by (cbn; lra). apply Rabs_def1; lra.
Qed.
Lemma tenth_differs : val tenth64 < val tenth32.
Proof. destruct tenth32_val as [_ ->]. destruct tenth64_val as [_ ->]. lra. Qed.

Lemma integer_exact k : (Z.abs k <= 2 ^ 53)%Z -> nearest64 (IZR k) = IZR k.
Proof.
  intros H. apply round_generic; [apply valid_rnd_N|].
  destruct (Z.eq_dec (Z.abs k) (2 ^ 53)) as [E|D].
  - assert (k = 2 ^ 53 \/ k = - 2 ^ 53)%Z as [->| ->] by lia.
    + replace (IZR (2 ^ 53)) with (bpow radix2 53) by (cbn; lra). apply generic_format_FLT_bpow; [reflexivity|lia].
    + rewrite opp_IZR. apply generic_format_opp. replace (IZR (2 ^ 53)) with (bpow radix2 53) by (cbn; lra). apply generic_format_FLT_bpow; [reflexivity|lia].
  - apply generic_format_FLT. exists (Float radix2 k 0); [unfold F2R; cbn; lra|cbn [Fnum]; change (Zpower radix2 53) with (2 ^ 53)%Z; lia|cbn; lia].
Qed.
Lemma integer_constant denote show parse k r : parses denote parse -> shows_integer denote show k -> (Z.abs k <= 2 ^ 53)%Z ->
  jit_constant show parse k = Some r -> is_num r -> val r = IZR k.
Proof. intros HP HS K E NR. rewrite (HP (show k) r E NR), HS. apply integer_exact, K. Qed.
Lemma big_nearest : nearest64 (IZR (2 ^ 53 + 1)) = IZR (2 ^ 53).
Proof.
  assert (M : mag_val radix2 (IZR (2 ^ 53 + 1)) (mag radix2 (IZR (2 ^ 53 + 1))) = 54%Z).
  { apply mag_unique. rewrite Rabs_pos_eq by (apply IZR_le; lia). replace (bpow radix2 (54 - 1)) with (IZR (2 ^ 53)) by (cbn; lra). replace (bpow radix2 54) with (IZR (2 ^ 54)) by (cbn; lra).
    split; [apply IZR_le; lia|apply IZR_lt; lia]. }
  unfold nearest64, round, F2R, scaled_mantissa, cexp. rewrite M. cbn [Fnum Fexp]. replace (FLT_exp (-1074) 53 54) with 1%Z by reflexivity.
  change (- (1))%Z with (-1)%Z. replace (bpow radix2 (-1)) with (/ 2) by (cbn; lra). replace (bpow radix2 1) with 2 by (cbn; lra).
  replace (IZR (2 ^ 53 + 1) * / 2) with (IZR (2 ^ 52) + / 2) by (change (2 ^ 53 + 1)%Z with 9007199254740993%Z; change (2 ^ 52)%Z with 4503599627370496%Z; lra).
  assert (F : Zfloor (IZR (2 ^ 52) + / 2) = (2 ^ 52)%Z) by (apply Zfloor_imp; rewrite plus_IZR; lra).
  unfold ZnearestE, Znearest. rewrite F. replace (IZR (2 ^ 52) + / 2 - IZR (2 ^ 52)) with (/ 2) by lra. rewrite Rcompare_Eq by reflexivity.
  replace (negb (Z.even (2 ^ 52))) with false by reflexivity. change (2 ^ 53)%Z with 9007199254740992%Z. change (2 ^ 52)%Z with 4503599627370496%Z. lra.
Qed.
Lemma integer_wrong denote show parse k r : parses denote parse -> shows_integer denote show k -> k = (2 ^ 53 + 1)%Z ->
  jit_constant show parse k = Some r -> is_num r -> val r = IZR (2 ^ 53) /\ val r <> IZR k.
Proof.
  intros HP HS -> E NR. rewrite (HP (show _) r E NR), HS.
  rewrite big_nearest. split; [reflexivity|]. intros X. apply eq_IZR in X. lia.
Qed.
