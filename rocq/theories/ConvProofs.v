From Coq Require Import ZArith Reals Bool Lia Lra.
From Coq Require Import Floats.SpecFloat.
From Flocq Require Import Core IEEE754.BinarySingleNaN.
From Verif Require Import Num ConvModel FloatFacts.
Local Open Scope Z_scope.

#[local] Instance Hprec64 : FLX.Prec_gt_0 53 := eq_refl _.
#[local] Instance Hmax64 : Prec_lt_emax 53 1024 := eq_refl _.
#[local] Instance Hprec32 : FLX.Prec_gt_0 24 := eq_refl _.
#[local] Instance Hmax32 : Prec_lt_emax 24 128 := eq_refl _.

(** Integers up to 2^53 are binary64 numbers. *)
Lemma int_format z : Z.abs z <= 2 ^ 53 ->
  generic_format radix2 (SpecFloat.fexp 53 1024) (IZR z).
Proof.
  intros H.
  replace (IZR z) with (F2R (Float radix2 z 0)) by (unfold F2R; cbn; ring).
  destruct (Z.eq_dec (Z.abs z) (2 ^ 53)) as [E|E].
  - (* exactly +-2^53 = +-1 * 2^53 *)
    replace (F2R (Float radix2 z 0)) with (F2R (Float radix2 (Z.sgn z) 53)).
    2:{ unfold F2R; cbn [Fnum Fexp]. replace z with (Z.sgn z * 2 ^ 53)%Z at 2 by lia.
        rewrite mult_IZR. change (IZR (2 ^ 53)) with (IZR (radix2 ^ 53)).
        rewrite (IZR_Zpower radix2 53) by lia. cbn [bpow]. ring. }
    apply generic_format_FLT. eapply FLT_spec; [reflexivity | |].
    + cbn [Fnum]. assert (Z.abs (Z.sgn z) <= 1) by lia.
      apply Z.le_lt_trans with 1; [lia|]. reflexivity.
    + cbn [Fexp]. unfold SpecFloat.emin. lia.
  - apply generic_format_FLT. eapply FLT_spec; [reflexivity | |].
    + cbn [Fnum]. change (radix2 ^ 53) with (2 ^ 53). lia.
    + cbn [Fexp]. unfold SpecFloat.emin. lia.
Qed.

Lemma of_Z_exact z : Z.abs z <= 2 ^ 53 ->
  exists x : binary_float 53 1024,
    f64_of_Z z = B2SF x /\ is_finite x = true /\ B2R x = IZR z.
Proof.
  intros H.
  assert (E : F2R (Float radix2 z 0) = IZR z) by (unfold F2R; cbn; ring).
  destruct (norm_exact 53 1024 Hprec64 Hmax64 z 0) as (x & A & B & C & _).
  - rewrite E. apply int_format, H.
  - rewrite E, <- abs_IZR. rewrite <- (IZR_Zpower radix2 1024) by lia.
    apply IZR_lt. apply Z.le_lt_trans with (2 ^ 53); [exact H|]. reflexivity.
  - exists x. split; [exact A|]. split; [exact B|]. rewrite C; exact E.
Qed.

Lemma sf_trunc_Ztrunc prec emax (x : binary_float prec emax) : is_finite x = true ->
  sf_trunc (B2SF x) = Some (Ztrunc (B2R x)).
Proof.
  destruct x as [s|s| |s m e Hb]; intros H; try discriminate; [cbn; now rewrite Ztrunc_IZR|].
  cbn [B2SF sf_trunc B2R]. cbv zeta. f_equal.
  assert (P : forall m, (if e <? 0 then Z.pos m / 2 ^ (- e) else Z.pos m * 2 ^ e)
              = Ztrunc (F2R (Float radix2 (Z.pos m) e))).
  { clear. intros m. destruct (Z.ltb_spec e 0) as [L|L].
    - unfold F2R; cbn [Fnum Fexp]. rewrite Ztrunc_floor.
      2:{ apply Rmult_le_pos; [apply IZR_le; lia | apply bpow_ge_0]. }
      replace (bpow radix2 e) with (/ IZR (2 ^ (- e)))%R.
      2:{ change (2 ^ (- e))%Z with (radix2 ^ (- e))%Z. rewrite (IZR_Zpower radix2 (- e)) by lia. rewrite <- bpow_opp, Z.opp_involutive. reflexivity. }
      symmetry. apply Zfloor_div. apply Z.pow_nonzero; lia.
    - unfold F2R; cbn [Fnum Fexp]. rewrite <- (IZR_Zpower radix2 e) by lia.
      rewrite <- mult_IZR, Ztrunc_IZR. reflexivity. }
  destruct s; cbn [cond_Zopp]; rewrite (P m).
  - rewrite <- Ztrunc_opp, <- F2R_Zopp. reflexivity.
  - reflexivity.
Qed.

Lemma trunc_of_Z z : Z.abs z <= 2 ^ 53 -> sf_trunc (f64_of_Z z) = Some z.
Proof.
  intros H. destruct (of_Z_exact z H) as (x & -> & F & E).
  rewrite sf_trunc_Ztrunc by exact F. rewrite E, Ztrunc_IZR. reflexivity.
Qed.

Lemma int_to_int lo hi lo' hi' z fb : Z.abs z <= 2 ^ 53 ->
  (lo' <= z <= hi' ->
     safe_convert (int_ty lo hi) (int_ty lo' hi') z = z /\
     safe_convert_or (int_ty lo hi) (int_ty lo' hi') z fb = z) /\
  (~ (lo' <= z <= hi') ->
     safe_convert (int_ty lo hi) (int_ty lo' hi') z = 0 /\
     safe_convert_or (int_ty lo hi) (int_ty lo' hi') z fb = fb).
Proof.
  intros H. unfold safe_convert, safe_convert_or. cbn [to_f64 from_f64 int_ty default carrier].
  rewrite trunc_of_Z by exact H.
  split; intros B.
  - replace ((lo' <=? z) && (z <=? hi')) with true by (symmetry; apply andb_true_iff; split; apply Z.leb_le; lia).
    auto.
  - replace ((lo' <=? z) && (z <=? hi')) with false; [auto|].
    symmetry. apply andb_false_iff. destruct (Z.leb_spec lo' z); [right | left]; auto.
    apply Z.leb_gt. lia.
Qed.

Lemma int_to_f64 lo hi z : Z.abs z <= 2 ^ 53 ->
  SF2R radix2 (safe_convert (int_ty lo hi) f64_ty z) = IZR z.
Proof.
  intros H. unfold safe_convert. cbn [to_f64 from_f64 int_ty f64_ty].
  destruct (of_Z_exact z H) as (x & -> & F & E). rewrite SF2R_B2SF. exact E.
Qed.

Lemma f64_to_f64 v fb : safe_convert f64_ty f64_ty v = v /\ safe_convert_or f64_ty f64_ty v fb = v /\
  safe_float_convert f64_ty f64_ty v = inl v /\
  forall one inf ninf nan, float_constant f64_ty one inf ninf nan v = v.
Proof. repeat split. Qed.

Lemma f64_to_int lo hi (x : binary_float 53 1024) fb :
  (is_finite x = false -> safe_convert f64_ty (int_ty lo hi) (B2SF x) = 0 /\
                          safe_convert_or f64_ty (int_ty lo hi) (B2SF x) fb = fb) /\
  (is_finite x = true -> lo <= Ztrunc (B2R x) <= hi ->
     safe_convert f64_ty (int_ty lo hi) (B2SF x) = Ztrunc (B2R x)) /\
  (is_finite x = true -> ~ (lo <= Ztrunc (B2R x) <= hi) ->
     safe_convert f64_ty (int_ty lo hi) (B2SF x) = 0 /\
     safe_convert_or f64_ty (int_ty lo hi) (B2SF x) fb = fb).
Proof.
  unfold safe_convert, safe_convert_or. cbn [to_f64 from_f64 int_ty f64_ty default carrier].
  split; [|split].
  - intros F. destruct x as [s|s| |s m e Hb]; try discriminate; auto.
  - intros F B. rewrite sf_trunc_Ztrunc by exact F.
    replace ((lo <=? _) && _) with true by (symmetry; apply andb_true_iff; split; apply Z.leb_le; lia).
    reflexivity.
  - intros F B. rewrite sf_trunc_Ztrunc by exact F.
    replace ((lo <=? _) && _) with false; [auto|]. symmetry. apply andb_false_iff.
    destruct (Z.leb_spec lo (Ztrunc (B2R x))); [right | left]; auto. apply Z.leb_gt. lia.
Qed.

(** f32 -> f64 is exact, and back again is the identity. *)
Lemma fin_val prec emax (x : binary_float prec emax) s m e :
  B2SF x = S754_finite s m e ->
  is_finite_strict x = true /\ B2R x = F2R (Float radix2 (cond_Zopp s (Z.pos m)) e) /\ Bsign x = s.
Proof.
  destruct x as [?|?| |s' m' e' Hb]; cbn; intros H; try discriminate.
  injection H as -> -> ->. auto.
Qed.
Lemma format_32_64 v : generic_format radix2 (SpecFloat.fexp 24 128) v ->
  generic_format radix2 (SpecFloat.fexp 53 1024) v.
Proof.
  apply generic_inclusion_mag. intros _. unfold SpecFloat.fexp, SpecFloat.emin. lia.
Qed.
Lemma strict_of_val prec emax (x : binary_float prec emax) :
  is_finite x = true -> B2R x <> 0%R -> is_finite_strict x = true.
Proof. destruct x; cbn; intros; auto; congruence. Qed.

Lemma widen (x : binary_float 24 128) :
  exists y : binary_float 53 1024, sf_convert 53 1024 (B2SF x) = B2SF y /\
    B2R y = B2R x /\ is_finite y = is_finite x /\ is_nan y = is_nan x /\ Bsign y = Bsign x.
Proof.
  destruct x as [s|s| |s m e Hb].
  - exists (B754_zero s). repeat split.
  - exists (B754_infinity s). repeat split.
  - exists B754_nan. repeat split.
  - set (x := B754_finite s m e Hb). destruct (fin_val _ _ x s m e eq_refl) as (F & V & G).
    destruct (norm_exact 53 1024 Hprec64 Hmax64 (cond_Zopp s (Z.pos m)) e) as (y & A & B & C & D).
    + rewrite <- V. apply format_32_64. apply generic_format_B2R.
    + rewrite <- V. apply Rlt_trans with (bpow radix2 128); [apply abs_B2R_lt_emax | apply bpow_lt; reflexivity].
    + exists y. split; [exact A|]. split; [rewrite C, <- V; reflexivity|].
      split; [exact B|]. split; [destruct y; [reflexivity| discriminate B | discriminate B | reflexivity]|].
      rewrite D, <- V, G. unfold x; cbn. 
      destruct s; [apply Rlt_bool_true; now apply F2R_lt_0 | apply Rlt_bool_false; now apply F2R_ge_0].
Qed.

Lemma narrow_back (x : binary_float 24 128) :
  sf_convert 24 128 (sf_convert 53 1024 (B2SF x)) = B2SF x.
Proof.
  destruct (widen x) as (y & -> & V & F & Nn & G).
  destruct x as [s|s| |s m e Hb].
  - destruct y as [t|t| |t n f Hc]; try discriminate; [cbn in G; now subst|].
    exfalso. cbn in V. destruct t; cbn in V.
    + apply (Rlt_not_eq _ _ (F2R_lt_0 radix2 (Float radix2 (Z.neg n) f) eq_refl)). exact V.
    + apply (Rgt_not_eq _ _ (F2R_gt_0 radix2 (Float radix2 (Z.pos n) f) eq_refl)). exact V.
  - destruct y as [t|t| |t n f Hc]; try discriminate; cbn in G; now subst.
  - destruct y as [t|t| |t n f Hc]; try discriminate; reflexivity.
  - set (x := B754_finite s m e Hb) in *. destruct (fin_val _ _ x s m e eq_refl) as (Fx & Vx & Gx).
    assert (NZ : B2R x <> 0%R).
    { unfold x; cbn. destruct s.
      - apply Rlt_not_eq, F2R_lt_0; reflexivity.
      - apply Rgt_not_eq, F2R_gt_0; reflexivity. }
    destruct y as [t|t| |t n f Hc]; try discriminate; [exfalso; apply NZ; rewrite <- V; reflexivity|].
    set (y := B754_finite t n f Hc) in *. destruct (fin_val _ _ y t n f eq_refl) as (Fy & Vy & Gy).
    change (B2SF y) with (S754_finite t n f). cbn [sf_convert].
    destruct (norm_exact 24 128 Hprec32 Hmax32 (cond_Zopp t (Z.pos n)) f) as (w & A & B & C & D).
    + rewrite <- Vy, V. apply generic_format_B2R.
    + rewrite <- Vy, V. apply abs_B2R_lt_emax.
    + rewrite A. f_equal. apply B2R_inj.
      * apply strict_of_val; [exact B|]. rewrite C, <- Vy, V. exact NZ.
      * exact Fx.
      * rewrite C, <- Vy. exact V.
Qed.

Lemma f32_roundtrip (x : binary_float 24 128) :
  SF2R radix2 (safe_convert f32_ty f64_ty (B2SF x)) = B2R x /\
  safe_convert f32_ty f32_ty (B2SF x) = B2SF x.
Proof.
  unfold safe_convert. cbn [to_f64 from_f64 f32_ty f64_ty]. split.
  - destruct (widen x) as (y & E & V & _). unfold f64_prec, f64_emax. rewrite E, SF2R_B2SF. exact V.
  - apply narrow_back.
Qed.

(** f64 to f32 rounds to nearest even; overflow gives an infinity of the same sign. *)
Lemma normalize_rounds prec emax (Hp : FLX.Prec_gt_0 prec) (Hm : Prec_lt_emax prec emax) m e :
  let v := F2R (Float radix2 m e) in let r := round radix2 (SpecFloat.fexp prec emax) ZnearestE v in
  (Rabs r < bpow radix2 emax ->
   exists y : binary_float prec emax, SpecFloat.binary_normalize prec emax m e false = B2SF y /\ is_finite y = true /\ B2R y = r /\
     Bsign y = Rlt_bool v 0)%R /\
  (bpow radix2 emax <= Rabs r -> SpecFloat.binary_normalize prec emax m e false = S754_infinity (Rlt_bool v 0))%R.
Proof.
  cbv zeta. rewrite (bn_equiv prec emax Hp Hm).
  pose proof (binary_normalize_correct prec emax Hp Hm mode_NE m e false) as H. cbv zeta in H. cbn [round_mode] in H.
  split; intros B.
  - rewrite Rlt_bool_true in H by exact B. destruct H as (H1 & H2 & H3).
    exists (binary_normalize prec emax Hp Hm mode_NE m e false). split; [reflexivity|]. split; [exact H2|]. split; [exact H1|].
    rewrite H3. unfold Rlt_bool. destruct (Rcompare (F2R (Float radix2 m e)) 0); reflexivity.
  - rewrite Rlt_bool_false in H by exact B. rewrite H. reflexivity.
Qed.
Lemma f64_to_f32 (x : binary_float 53 1024) : is_finite x = true ->
  let r := round radix2 (FLT_exp (-149) 24) ZnearestE (B2R x) in
  (Rabs r < bpow radix2 128 ->
   exists y : binary_float 24 128, safe_convert f64_ty f32_ty (B2SF x) = B2SF y /\ is_finite y = true /\ B2R y = r /\ Bsign y = Bsign x)%R /\
  (bpow radix2 128 <= Rabs r -> safe_convert f64_ty f32_ty (B2SF x) = S754_infinity (Bsign x))%R.
Proof.
  intros F. cbv zeta. unfold safe_convert. cbn [to_f64 from_f64 f32_ty f64_ty].
  destruct x as [s|s| |s m e Hb]; try discriminate F.
  - cbn [B2R]. rewrite round_0 by auto with typeclass_instances. rewrite Rabs_R0. split.
    + intros _. exists (B754_zero s). repeat split.
    + intros H. exfalso. pose proof (bpow_gt_0 radix2 128). lra.
  - set (x := B754_finite s m e Hb). destruct (fin_val _ _ x s m e eq_refl) as (Fx & Vx & Gx).
    assert (S : Rlt_bool (B2R x) 0 = s).
    { rewrite Vx. destruct s; [apply Rlt_bool_true; now apply F2R_lt_0 | apply Rlt_bool_false; now apply F2R_ge_0]. }
    change (B2SF x) with (S754_finite s m e). cbn [sf_convert].
    destruct (normalize_rounds 24 128 Hprec32 Hmax32 (cond_Zopp s (Z.pos m)) e) as [A B]. rewrite <- Vx in A, B.
    rewrite S in A, B. rewrite Gx. split.
    + intros R. destruct (A R) as (y & Y1 & Y2 & Y3 & Y4). exists y. auto.
    + exact B.
Qed.

(** Any integer becomes the nearest f64. *)
Lemma int_to_f64_rounds lo hi z : Z.abs z <= 2 ^ 1000 ->
  SF2R radix2 (safe_convert (int_ty lo hi) f64_ty z) = round radix2 (FLT_exp (-1074) 53) ZnearestE (IZR z).
Proof.
  intros H. unfold safe_convert. cbn [to_f64 from_f64 int_ty f64_ty].
  assert (E : F2R (Float radix2 z 0) = IZR z) by (unfold F2R; cbn [Fnum Fexp]; change (bpow radix2 0) with 1%R; ring).
  destruct (normalize_rounds 53 1024 Hprec64 Hmax64 z 0) as [A _]. rewrite E in A.
  destruct A as (y & Y1 & _ & Y3 & _).
  - apply Rle_lt_trans with (bpow radix2 1000); [|apply bpow_lt; reflexivity].
    apply abs_round_le_generic; [apply (FLT_exp_valid (-1074) 53)|auto with typeclass_instances| |].
    + apply generic_format_bpow. unfold SpecFloat.fexp, SpecFloat.emin. lia.
    + rewrite <- abs_IZR, <- (IZR_Zpower radix2 1000) by lia. apply IZR_le, H.
  - unfold f64_of_Z, f64_prec, f64_emax. rewrite Y1, SF2R_B2SF. exact Y3.
Qed.

(** What a float type that refuses [v] makes of it. *)
Lemma constant_fallback (U : NumTy) one inf ninf nan (x : binary_float 53 1024) : from_f64 U (B2SF x) = None ->
  let c := float_constant U one inf ninf nan (B2SF x) in
  (is_finite x = true -> B2R x = 1%R -> c = one) /\
  (is_finite x = true -> B2R x <> 1%R -> c = default U) /\
  (is_finite x = false -> is_nan x = false -> c = if Bsign x then ninf else inf) /\
  (is_nan x = true -> c = nan).
Proof.
  intros E. cbv zeta. unfold float_constant. rewrite E.
  assert (ONE : exists o : binary_float 53 1024, f64_of_Z 1 = B2SF o /\ is_finite o = true /\ B2R o = 1%R) by (apply (of_Z_exact 1); vm_compute; discriminate).
  destruct ONE as (o & -> & Fo & Vo).
  assert (ZE : is_finite x = true -> SFeqb (B2SF x) (S754_zero false) = Req_bool (B2R x) 0).
  { intros F. apply (Beqb_correct 53 1024 x (B754_zero false) F eq_refl). }
  assert (OE : is_finite x = true -> SFeqb (B2SF x) (B2SF o) = Req_bool (B2R x) 1).
  { intros F. rewrite <- Vo. apply (Beqb_correct 53 1024 x o F Fo). }
  split; [|split; [|split]].
  - intros F V. rewrite ZE, OE, V, Req_bool_false, Req_bool_true by (auto; lra). reflexivity.
  - intros F V. rewrite ZE, OE, (Req_bool_false _ 1) by auto. destruct (Req_bool (B2R x) 0); [reflexivity|]. destruct x; try discriminate F; reflexivity.
  - intros F V. destruct x as [s|s| |s m e Hb]; try discriminate. cbn [B2SF Bsign]. destruct o as [t|t| |t n f Hc]; try discriminate Fo; destruct s; reflexivity.
  - intros V. destruct x as [s|s| |s m e Hb]; try discriminate. reflexivity.
Qed.
Lemma convert_result (S U : NumTy) (v : carrier S) :
  (forall u, safe_float_convert S U v = inl u <-> exists w, to_f64 S v = Some w /\ from_f64 U w = Some u) /\
  (safe_float_convert S U v = inr FailIntermediate <-> to_f64 S v = None) /\
  (safe_float_convert S U v = inr FailTarget <-> exists w, to_f64 S v = Some w /\ from_f64 U w = None).
Proof.
  unfold safe_float_convert. destruct (to_f64 S v) as [w|]; [destruct (from_f64 U w) as [u'|] eqn:E|]; (split; [intros u|]; [split; intros H|split; split; intros H]);
    try discriminate; try (destruct H as (w' & H1 & H2); try discriminate H1; injection H1 as <-; congruence); eauto.
  injection H as <-. eauto.
Qed.
