(** Conversions, Student's t, weight checks and a witness library in binary32 (C72). *)
From Coq Require Import ZArith Reals Ratan Bool String List Lia Lra.
From Coq Require Import Floats.SpecFloat.
From Flocq Require Import Core IEEE754.BinarySingleNaN.
From Verif Require Import Num EggSpec FloatFacts DensitySpec CoreModel CombModel ExpFamModel ConvModel DistModel DistSpec RoundSpec.
From Verif Require ConvProofs EggSpec FloatErr RelErr DistFloat JitAcc RoundProofs FactFloat FamFloat2.
From Verif Require Import SingleModel SingleSpec SingleErr SingleFloat.
Import ListNotations.
Local Open Scope R_scope.

#[local] Instance Hprec32 : FLX.Prec_gt_0 24 := eq_refl _.
#[local] Instance Hmax32 : Prec_lt_emax 24 128 := eq_refl _.
Notation is_num := FloatErr.is_num.

(** * Conversions *)
Lemma widen_num x : is_single x -> is_num (widen x) /\ val (widen x) = val x.
Proof.
  intros N. destruct (num_B x N) as (b & -> & F & V). destruct (ConvProofs.widen b) as (y & E & W & G & _).
  unfold widen, f64_prec, f64_emax. rewrite E. rewrite F in G. destruct (FloatErr.is_num_B y G) as [M W2]. split; [exact M|]. rewrite W2, W. exact V.
Qed.
Lemma narrow_num w : is_num w -> Rabs (RS (val w)) < bpow radix2 128 -> is_single (narrow w) /\ val (narrow w) = RS (val w).
Proof.
  intros N H. destruct (FloatErr.num_B w N) as (b & -> & F & V). destruct (ConvProofs.f64_to_f32 b F) as [A _]. rewrite <- V in *.
  destruct (A H) as (y & E & G & W & _). unfold safe_convert in E. cbn [to_f64 from_f64 f64_ty f32_ty] in E.
  unfold narrow, f32_prec, f32_emax. rewrite E. destruct (is_num_B y G) as [M W2]. split; [exact M|]. rewrite W2. exact W.
Qed.
Lemma inv_pow n : / 2 ^ n = bpow radix2 (- Z.of_nat n).
Proof. rewrite bpow_opp. f_equal. rewrite pow_IZR. change (2 ^ Z.of_nat n)%Z with (radix2 ^ Z.of_nat n)%Z. apply IZR_Zpower. lia. Qed.
(** A result accurate to 2^-26 in [f64] is accurate to one unit after conversion. *)
Lemma narrow_within w r m : is_num w -> 1 <= m <= bpow radix2 126 -> Rabs r <= m -> Rabs (val w - r) <= / 2 ^ 26 * m -> within32 1 m r (narrow w).
Proof.
  intros N [M0 M1] R E. assert (W : Rabs (val w) <= (1 + / 2 ^ 26) * m).
  { replace (val w) with ((val w - r) + r) by ring. eapply Rle_trans; [apply Rabs_triang|]. lra. }
  assert (P26 : 0 < / 2 ^ 26 <= / 1000) by lra.
  destruct (narrow_num w N) as [NN V].
  { apply (RS_small _ 127); [lia|]. eapply Rle_trans; [exact W|]. replace 127%Z with (126 + 1)%Z by reflexivity. rewrite bpow_plus. change (bpow radix2 1) with 2. nra. }
  split; [exact NN|]. rewrite V. destruct (RS_err (val w)) as (e & d & -> & A & B).
  replace (val w * (1 + e) + d - r) with ((val w - r) + val w * e + d) by ring.
  eapply Rle_trans; [apply Rabs_triang|]. eapply Rle_trans; [apply Rplus_le_compat_r, Rabs_triang|].
  assert (C : Rabs (val w * e) <= (1 + / 2 ^ 26) * m * / 2 ^ 24).
  { rewrite Rabs_mult. apply Rmult_le_compat; try apply Rabs_pos; assumption. }
  assert (D : bpow radix2 (-150) <= / 2 ^ 26) by (rewrite inv_pow; apply bpow_le; lia).
  unfold eps32. assert (X : 2 * / 2 ^ 26 * m + (1 + / 2 ^ 26) * m * / 2 ^ 24 <= 1 * / 2 ^ 23 * m) by lra. nra.
Qed.

(** * The library: log-gamma in single precision *)
Lemma single_lgamma_ok c lg L : libm_ok c lg (s_double L) -> 0 <= c <= 1000000 -> forall x, is_single x -> 0 < val x -> Rabs (lg (val x)) <= big32 ->
  is_single (single_lgamma L x) /\ Rabs (val (single_lgamma L x) - lg (val x)) <= 1 * eps32 * (1 + Rabs (lg (val x))).
Proof.
  intros LOK C x N P B. destruct (widen_num x N) as [WN WV]. unfold single_lgamma.
  destruct (ok_lgamma _ _ _ LOK (widen x) WN) as [A E]; rewrite ?WV in *; [exact P| |].
  { eapply Rle_trans; [exact B|]. unfold big32. apply bpow_le. lia. }
  apply narrow_within; [exact A| | |].
  - pose proof (Rabs_pos (lg (val x))). split; [lra|]. apply Rle_trans with (big32 + big32); [|].
    + assert (1 <= big32) by (change 1 with (bpow radix2 0); apply bpow_le; lia). lra.
    + unfold big32. apply Rle_trans with (bpow radix2 121); [right|apply bpow_le; lia]. change 121%Z with (120 + 1)%Z. rewrite bpow_plus. change (bpow radix2 1) with 2. ring.
  - lra.
  - eapply Rle_trans; [exact E|]. apply Rmult_le_compat_r; [pose proof (Rabs_pos (lg (val x))); lra|].
    assert (eps * 1000000 <= / 2 ^ 26) by (unfold eps; lra). pose proof RoundProofs.eps_pos. nra.
Qed.
Lemma library_ok c d lg L :
  (forall x, is_single x -> 0 < val x -> is_single (s_ln L x) /\ Rabs (val (s_ln L x) - ln (val x)) <= c * eps32 * (Rabs (ln (val x)) + small32)) ->
  (forall x, is_single x -> val x <= 88 -> is_single (s_exp L x) /\ Rabs (val (s_exp L x) - exp (val x)) <= c * eps32 * (exp (val x) + small32)) ->
  libm_ok d lg (s_double L) -> 1 <= c -> 0 <= d <= 1000000 -> libm32_ok c lg L.
Proof.
  intros A B LOK C D. split; [exact A|exact B|]. intros x N P G. destruct (single_lgamma_ok d lg L LOK D x N P G) as [S E]. split; [exact S|].
  eapply Rle_trans; [exact E|]. pose proof (Rabs_pos (lg (val x))). pose proof eps_pos. apply Rmult_le_compat_r; [lra|]. apply Rmult_le_compat_r; lra.
Qed.

(** * A library that rounds correctly *)
Definition nearest32 (x : R) : f32 :=
  SpecFloat.binary_normalize 24 128 (ZnearestE (scaled_mantissa radix2 (SpecFloat.fexp 24 128) x)) (cexp radix2 (SpecFloat.fexp 24 128) x) false.
Lemma nearest32_ok x : Rabs (RS x) < bpow radix2 128 -> is_single (nearest32 x) /\ val (nearest32 x) = RS x.
Proof.
  intros H.
  assert (E : F2R (Float radix2 (ZnearestE (scaled_mantissa radix2 (SpecFloat.fexp 24 128) x)) (cexp radix2 (SpecFloat.fexp 24 128) x)) = RS x)
    by (symmetry; apply (RS_fexp x)).
  destruct (norm_exact 24 128 Hprec32 Hmax32 _ _ (eq_ind_r (fun v => generic_format radix2 (SpecFloat.fexp 24 128) v)
    (eq_ind _ (generic_format radix2 (SpecFloat.fexp 24 128)) (generic_format_round radix2 (SpecFloat.fexp 24 128) ZnearestE x) _ (RS_fexp x)) E)) as (b & B & F & V & _).
  { rewrite E. exact H. }
  unfold nearest32. rewrite B. destruct (is_num_B b F) as [N W]. split; [exact N|]. rewrite W, V. exact E.
Qed.
Lemma nearest32_err x : Rabs x <= bpow radix2 127 -> is_single (nearest32 x) /\ Rabs (val (nearest32 x) - x) <= 1 * eps32 * (Rabs x + small32).
Proof.
  intros X. destruct (nearest32_ok x (RS_small x 127 ltac:(lia) X)) as [N V]. split; [exact N|]. rewrite V.
  destruct (RS_err x) as (t & d & -> & T & D). replace (x * (1 + t) + d - x) with (x * t + d) by ring.
  eapply Rle_trans; [apply Rabs_triang|]. rewrite Rmult_1_l, Rmult_plus_distr_l. apply Rplus_le_compat.
  - rewrite Rabs_mult, Rmult_comm. apply Rmult_le_compat_r; [apply Rabs_pos|]. eapply Rle_trans; [exact T|]. unfold eps32. lra.
  - eapply Rle_trans; [exact D|]. unfold eps32, small32. rewrite inv_pow, <- bpow_plus. apply bpow_le. lia.
Qed.
Definition rounded_libm32 (lg : R -> R) : libm32 :=
  {| s_ln := fun x => nearest32 (ln (val x)); s_exp := fun x => nearest32 (exp (val x));
     s_pow := fun x y => nearest32 (RoundProofs.power_fun (val x) (val y));
     s_sin := fun x => nearest32 (sin (val x)); s_cos := fun x => nearest32 (cos (val x));
     s_double := RoundProofs.rounded_libm lg |}.
Lemma rounded_libm32_ok lg : libm32_ok 1 lg (rounded_libm32 lg).
Proof.
  apply (library_ok 1 1); cbn [rounded_libm32 s_ln s_exp s_double]; try lra; [| |apply RoundProofs.rounded_libm_ok].
  - intros x N P. apply nearest32_err. eapply Rle_trans; [apply ln_any; assumption|].
    apply Rle_trans with (bpow radix2 11); [|apply bpow_le; lia]. change (bpow radix2 11) with 2048. lra.
  - intros x N P. pose proof (exp_pos (val x)). replace (exp (val x) + small32) with (Rabs (exp (val x)) + small32) by (rewrite Rabs_pos_eq; lra). apply nearest32_err. rewrite Rabs_pos_eq by lra.
    rewrite bpow_exp. cbn [radix_val radix2]. pose proof ln2_bounds. apply exp_le. lra.
Qed.

(** * Student's t *)
Lemma single_shape x : is_single x -> exists m e, val x = IZR m * bpow radix2 e /\ (Z.abs m < 2 ^ 24)%Z /\ (-149 <= e)%Z.
Proof.
  intros N. pose proof (format_val x N) as F. apply FLT_format_generic in F; [|reflexivity]. destruct F as [[m e] V A B].
  exists m, e. cbn in *. auto.
Qed.
Lemma plus_one_format x : is_single x -> bpow radix2 (-28) <= val x <= bpow radix2 50 -> generic_format radix2 (FLT_exp (-1074) 53) (val x + 1).
Proof.
  intros N [A B]. destruct (single_shape x N) as (m & e & V & M & E). pose proof (bpow_gt_0 radix2 e) as PE.
  assert (M1 : (0 < m)%Z). { apply lt_IZR. pose proof (bpow_gt_0 radix2 (-28)). rewrite V in A. apply (Rmult_lt_reg_r (bpow radix2 e)); lra. }
  assert (M2 : IZR m <= bpow radix2 24) by (change (bpow radix2 24) with (IZR (2 ^ 24)); apply IZR_le; lia).
  assert (E1 : (-52 < e)%Z).
  { apply Z.nle_gt. intros H. assert (val x <= bpow radix2 (-28)).
    { rewrite V. apply Rle_trans with (bpow radix2 24 * bpow radix2 (-52)); [|rewrite <- bpow_plus; apply bpow_le; lia].
      apply Rmult_le_compat; [apply IZR_le; lia|lra|exact M2|apply bpow_le; lia]. }
    assert (IZR m < bpow radix2 24) by (change (bpow radix2 24) with (IZR (2 ^ 24)); apply IZR_lt; lia).
    assert (val x < bpow radix2 24 * bpow radix2 (-52)).
    { rewrite V. apply Rlt_le_trans with (bpow radix2 24 * bpow radix2 e); [apply Rmult_lt_compat_r; lra|]. apply Rmult_le_compat_l; [apply bpow_ge_0|apply bpow_le; lia]. }
    rewrite <- bpow_plus in H2. change (24 + -52)%Z with (-28)%Z in H2. lra. }
  apply generic_format_FLT. destruct (Z_le_gt_dec e 0) as [L0|L0].
  - apply FLT_spec with (Float radix2 (m + 2 ^ (- e)) e); [|cbn [Fnum]|cbn [Fexp]; lia].
    + unfold F2R. cbn [Fnum Fexp]. rewrite plus_IZR, Rmult_plus_distr_r, <- V. f_equal.
      change (2 ^ (- e))%Z with (radix2 ^ (- e))%Z. rewrite IZR_Zpower by lia. rewrite <- bpow_plus. replace (- e + e)%Z with 0%Z by lia. reflexivity.
    + assert (2 ^ (- e) <= 2 ^ 51)%Z by (apply Z.pow_le_mono_r; lia). change (radix2 ^ 53)%Z with (2 ^ 53)%Z. pose proof (Z.pow_pos_nonneg 2 (- e) ltac:(lia) ltac:(lia)). lia.
  - assert (VZ : val x = IZR (m * 2 ^ e)) by (rewrite V, mult_IZR; f_equal; change (2 ^ e)%Z with (radix2 ^ e)%Z; rewrite IZR_Zpower by lia; reflexivity).
    assert (BZ : (m * 2 ^ e <= 2 ^ 50)%Z) by (apply le_IZR; rewrite <- VZ; exact B). pose proof (Z.pow_pos_nonneg 2 e ltac:(lia) ltac:(lia)).
    apply FLT_spec with (Float radix2 (m * 2 ^ e + 1) 0); [|cbn [Fnum]|cbn [Fexp]; lia].
    + unfold F2R. cbn [Fnum Fexp]. rewrite plus_IZR, <- VZ. cbn [bpow]. ring.
    + change (radix2 ^ 53)%Z with (2 ^ 53)%Z. assert (0 < m * 2 ^ e)%Z by (apply Z.mul_pos_pos; lia). lia.
Qed.
Lemma plus_one_exact x : is_single x -> bpow radix2 (-28) <= val x <= bpow radix2 50 -> val (f64_add (widen x) (f64_of_Z 1)) = val x + 1.
Proof.
  intros N B. destruct (widen_num x N) as [WN WV]. destruct DistFloat.one_num as [N1 V1].
  assert (E : EggSpec.RN (val x + 1) = val x + 1) by (apply round_generic; [apply valid_rnd_N|apply plus_one_format; assumption]).
  destruct (FloatErr.add_num (widen x) (f64_of_Z 1) WN N1) as [_ V]; [|rewrite V, WV, V1; exact E].
  rewrite WV, V1, E. pose proof (bpow_gt_0 radix2 (-28)). rewrite Rabs_pos_eq by lra.
  apply Rle_lt_trans with (bpow radix2 50 + bpow radix2 50); [|].
  - assert (1 <= bpow radix2 50) by (change 1 with (bpow radix2 0); apply bpow_le; lia). lra.
  - apply Rle_lt_trans with (bpow radix2 51); [right; change 51%Z with (50 + 1)%Z; rewrite bpow_plus; change (bpow radix2 1) with 2; ring|apply bpow_lt; lia].
Qed.
Lemma single_abs x : is_single x -> Rabs (val x) <= bpow radix2 128.
Proof. intros N. apply Rlt_le, valid_abs, N. Qed.
Lemma student_single c lg L nu x : libm_ok c lg (s_double L) -> 0 <= c <= 1000000 -> is_single nu -> is_single x ->
  bpow radix2 (-28) <= val nu <= bpow radix2 50 -> Rabs (lg ((val nu + 1) / 2)) <= huge32 -> Rabs (lg (val nu / 2)) <= huge32 ->
  within32 1 (Rabs (lg ((val nu + 1) / 2)) + Rabs (lg (val nu / 2)) + Rabs (ln (val nu * PI)) + (val nu + 1) * (ln (1 + val x * val x / val nu) + 1) + 4)
    (ln (student_pdf lg (val nu) (val x))) (student_ld32 L nu x).
Proof.
  intros LOK C0 NN NX [A B] G1 G2. destruct (widen_num nu NN) as [WN WV]. destruct (widen_num x NX) as [XN XV].
  assert (NP : 0 < val nu) by (pose proof (bpow_gt_0 radix2 (-28)); lra). pose proof (single_abs x NX) as XB.
  assert (XX : val x * val x <= bpow radix2 256).
  { replace (val x * val x) with (Rabs (val x) * Rabs (val x)) by (rewrite <- Rabs_mult; apply Rabs_pos_eq, Rle_0_sqr).
    change 256%Z with (128 + 128)%Z. rewrite bpow_plus. apply Rmult_le_compat; try apply Rabs_pos; exact XB. }
  assert (QB : 0 <= val x * val x / val nu <= bpow radix2 284).
  { split; [apply Rmult_le_pos; [apply Rle_0_sqr|apply Rlt_le, Rinv_0_lt_compat, NP]|]. change 284%Z with (256 + - (-28))%Z. rewrite bpow_plus, bpow_opp.
    apply Rmult_le_compat; [apply Rle_0_sqr|apply Rlt_le, Rinv_0_lt_compat, NP|exact XX|]. apply Rinv_le_contravar; [apply bpow_gt_0|exact A]. }
  assert (H32 : huge32 <= huge) by (unfold huge32, huge; apply bpow_le; lia).
  pose proof (DistFloat.student_float c lg (s_double L) LOK C0 (widen nu) (widen x)) as S. rewrite WV, XV in S.
  assert (H50 : bpow radix2 50 <= huge) by (unfold huge; apply bpow_le; lia).
  assert (H28 : bpow radix2 (-900) <= bpow radix2 (-28)) by (apply bpow_le; lia).
  assert (H400 : bpow radix2 128 <= bpow radix2 400) by (apply bpow_le; lia).
  assert (H284 : bpow radix2 284 <= huge) by (unfold huge; apply bpow_le; lia).
  specialize (S WN XN ltac:(split; lra) ltac:(lra) ltac:(lra) (plus_one_exact nu NN (conj A B)) ltac:(lra) ltac:(lra)).
  unfold student_ld32, student_log_pdf32. change (student_log_pdf ?d ?y) with (student_ld d y).
  pose proof S as (_ & R & _). apply DistFloat.acc_within in S; [|lra|apply DistFloat.keps; lra]. destruct S as [SN SE].
  set (q := val x * val x / val nu) in *.
  assert (LQ : 0 <= ln (1 + q) <= 285).
  { split; [rewrite <- ln_1; apply ln_le; lra|]. apply Rle_trans with (ln (bpow radix2 285)).
    - apply ln_le; [lra|]. change 285%Z with (284 + 1)%Z. rewrite bpow_plus. change (bpow radix2 1) with 2.
      assert (1 <= bpow radix2 284) by (change 1 with (bpow radix2 0); apply bpow_le; lia). lra.
    - rewrite ln_bpow. pose proof ln2_bounds. lra. }
  assert (LP : Rabs (ln (val nu * PI)) <= 1076).
  { rewrite ln_mult; [|exact NP|apply PI_RGT_0]. eapply Rle_trans; [apply Rabs_triang|]. pose proof (ln_any nu NN NP).
    assert (Rabs (ln PI) <= 2); [|lra]. pose proof pi_bounds. rewrite Rabs_pos_eq; [|rewrite <- ln_1; apply ln_le; lra].
    apply Rle_trans with (ln (2 * PI)); [apply ln_le; lra|apply ln_two_pi]. }
  assert (B50 : 1 <= bpow radix2 50) by (change 1 with (bpow radix2 0); apply bpow_le; lia).
  assert (MQ : 0 <= (val nu + 1) * (ln (1 + q) + 1) <= 600 * bpow radix2 50) by nra.
  apply narrow_within; [exact SN| |exact R|].
  - pose proof (Rabs_pos (lg ((val nu + 1) / 2))). pose proof (Rabs_pos (lg (val nu / 2))). pose proof (Rabs_pos (ln (val nu * PI))). split; [lra|].
    assert (HH : huge32 = bpow radix2 40 * bpow radix2 50) by (unfold huge32; rewrite <- bpow_plus; reflexivity).
    assert (H126 : bpow radix2 126 = bpow radix2 76 * bpow radix2 50) by (rewrite <- bpow_plus; reflexivity).
    rewrite H126. rewrite HH in *. change (bpow radix2 40) with (IZR (2 ^ 40)) in *. change (bpow radix2 76) with (IZR (2 ^ 76)).
    assert (IZR (2 ^ 40) = 1099511627776) by reflexivity. assert (IZR (2 ^ 76) >= 10000000000000) by (apply Rle_ge, IZR_le; vm_compute; discriminate). nra.
  - eapply Rle_trans; [exact SE|]. apply Rmult_le_compat_r.
    + pose proof (Rabs_pos (lg ((val nu + 1) / 2))). pose proof (Rabs_pos (lg (val nu / 2))). pose proof (Rabs_pos (ln (val nu * PI))). lra.
    + assert (2 * eps * 1000026 <= / 2 ^ 26) by (unfold eps; lra). pose proof RoundProofs.eps_pos. nra.
Qed.

(** * Coefficients: computed in [f64] and converted *)
Lemma fact_ln_size k : 0 <= ln (INR (fact k)) <= INR k * INR k.
Proof.
  destruct (FactFloat.fact_bound k) as [A B]. split; [exact A|]. eapply Rle_trans; [exact B|]. apply Rmult_le_compat_l; [apply pos_INR|].
  pose proof (pos_INR k). pose proof (exp_ineq1_le (INR k)). rewrite <- (ln_exp (INR k)) at 2. apply ln_le; lra.
Qed.
Lemma fact_ln_big k : INR k <= bpow radix2 41 -> 0 <= ln (INR (fact k)) <= bpow radix2 82.
Proof.
  intros K. destruct (fact_ln_size k) as [A B]. split; [exact A|]. eapply Rle_trans; [exact B|]. change 82%Z with (41 + 41)%Z. rewrite bpow_plus.
  pose proof (pos_INR k). apply Rmult_le_compat; lra.
Qed.
Lemma narrow_acc c m r w : RelErr.acc (c + 2) m r w -> 0 <= c <= 1000000 -> 1 <= m <= bpow radix2 126 -> within32 1 m r (narrow w).
Proof.
  intros A C M. pose proof A as (N & R & _). apply DistFloat.acc_within in A; [|lra|apply DistFloat.keps; lra]. destruct A as [_ E].
  apply narrow_within; [exact N|exact M|exact R|]. eapply Rle_trans; [exact E|]. apply Rmult_le_compat_r; [lra|].
  assert (2 * eps * 1000026 <= / 2 ^ 26) by (unfold eps; lra). pose proof RoundProofs.eps_pos. nra.
Qed.
Lemma three_big : 3 * bpow radix2 82 + 3 <= bpow radix2 126.
Proof.
  assert (H : bpow radix2 126 = bpow radix2 44 * bpow radix2 82) by (rewrite <- bpow_plus; reflexivity). rewrite H.
  assert (1 <= bpow radix2 82) by (change 1 with (bpow radix2 0); apply bpow_le; lia). change (bpow radix2 44) with 17592186044416. lra.
Qed.
Lemma binomial_coefficient_single c lg L n k : libm_ok c lg (s_double L) -> 0 <= c <= 1000000 ->
  (forall j : nat, lg (INR (S j)) = ln (INR (fact j))) -> count_ok n -> (k <= n)%nat ->
  within32 1 (ln (INR (fact n)) + ln (INR (fact k)) + ln (INR (fact (n - k))) + 3) (ln (Binomial.C n k)) (log_binomial_coefficient32 L n k).
Proof.
  intros LOK C0 LF CN K. unfold log_binomial_coefficient32. rewrite (proj2 (Nat.ltb_ge n k) K).
  apply (narrow_acc c); [apply (FactFloat.binomial_coefficient_float c lg (s_double L) LOK C0); assumption|exact C0|].
  assert (H41 : bpow radix2 40 <= bpow radix2 41) by (apply bpow_le; lia). unfold count_ok in CN.
  pose proof (fact_ln_big n ltac:(lra)). pose proof (fact_ln_big k ltac:(pose proof (le_INR _ _ K); lra)).
  pose proof (fact_ln_big (n - k) ltac:(pose proof (le_INR (n - k) n ltac:(lia)); lra)). pose proof three_big. lra.
Qed.
Lemma negative_binomial_coefficient_single c lg L r k : libm_ok c lg (s_double L) -> 0 <= c <= 1000000 ->
  (forall j : nat, lg (INR (S j)) = ln (INR (fact j))) -> count_ok r -> count_ok k -> (0 < r)%nat ->
  within32 1 (ln (INR (fact (k + r - 1))) + ln (INR (fact k)) + ln (INR (fact (r - 1))) + 3) (ln (Binomial.C (k + r - 1) k))
    (log_negative_binomial_coefficient32 L r k).
Proof.
  intros LOK C0 LF CR CK R0. unfold log_negative_binomial_coefficient32.
  apply (narrow_acc c); [apply (FactFloat.negative_binomial_coefficient_float c lg (s_double L) LOK C0); assumption|exact C0|].
  unfold count_ok in CR, CK. assert (H41 : bpow radix2 41 = 2 * bpow radix2 40) by (change 41%Z with (1 + 40)%Z; rewrite bpow_plus; reflexivity).
  pose proof (bpow_gt_0 radix2 40).
  assert (S1 : INR (k + r - 1) <= bpow radix2 41) by (pose proof (le_INR (k + r - 1) (k + r) ltac:(lia)) as Q; rewrite plus_INR in Q; lra).
  pose proof (fact_ln_big _ S1). pose proof (fact_ln_big k ltac:(lra)).
  pose proof (fact_ln_big (r - 1) ltac:(pose proof (le_INR (r - 1) r ltac:(lia)); lra)). pose proof three_big. lra.
Qed.

(** * Weights that sum to one *)
(** A number close to 1 is 1: its neighbours are 2^-24 and 2^-23 away. *)
Lemma one_isolated w : is_single w -> Rabs (val w - 1) < / 2 ^ 24 -> val w = 1.
Proof.
  intros N H. destruct (single_shape w N) as (m & e & V & M & E). rewrite inv_pow in H. change (- Z.of_nat 24)%Z with (-24)%Z in H.
  assert (H2 : bpow radix2 (-24) <= / 2) by (change (/ 2) with (bpow radix2 (-1)); apply bpow_le; lia).
  apply Rabs_def2 in H. destruct H as [HA HB]. pose proof (bpow_gt_0 radix2 e) as PE.
  assert (M1 : (0 < m)%Z) by (apply lt_IZR, (Rmult_lt_reg_r (bpow radix2 e)); lra).
  assert (E1 : (-25 < e)%Z).
  { apply Z.nle_gt. intros Q. assert (IZR m * bpow radix2 e < bpow radix2 24 * bpow radix2 (-25)).
    { apply Rlt_le_trans with (bpow radix2 24 * bpow radix2 e); [apply Rmult_lt_compat_r; [exact PE|]; change (bpow radix2 24) with (IZR (2 ^ 24)); apply IZR_lt; lia|].
      apply Rmult_le_compat_l; [apply bpow_ge_0|apply bpow_le; lia]. }
    rewrite <- bpow_plus in H. change (bpow radix2 (24 + -25)) with (/ 2) in H. lra. }
  assert (VZ : val w = IZR (m * 2 ^ (e + 24)) * bpow radix2 (-24)).
  { rewrite V, mult_IZR. change (2 ^ (e + 24))%Z with (radix2 ^ (e + 24))%Z. rewrite IZR_Zpower by lia. rewrite Rmult_assoc, <- bpow_plus. do 2 f_equal. lia. }
  assert (ONE : 1 = IZR (2 ^ 24) * bpow radix2 (-24)) by (change (IZR (2 ^ 24)) with (bpow radix2 24); rewrite <- bpow_plus; reflexivity).
  set (z := (m * 2 ^ (e + 24))%Z) in *. pose proof (bpow_gt_0 radix2 (-24)) as P24. rewrite VZ in *.
  assert (Z1 : (z - 2 ^ 24 < 1)%Z) by (apply lt_IZR; rewrite minus_IZR; apply (Rmult_lt_reg_r (bpow radix2 (-24))); [exact P24|lra]).
  assert (Z2 : (-1 < z - 2 ^ 24)%Z) by (apply lt_IZR; rewrite minus_IZR; apply (Rmult_lt_reg_r (bpow radix2 (-24))); [exact P24|lra]).
  replace z with (2 ^ 24)%Z by lia. symmetry. exact ONE.
Qed.
Lemma tol32 : is_single (f32_dec 1 10000000000) /\ 0 < val (f32_dec 1 10000000000) < / 2 ^ 24 /\ f32_dec 1 10000000000 = S754_finite false 14411519 (-57).
Proof.
  assert (E : f32_dec 1 10000000000 = S754_finite false 14411519 (-57)) by (vm_compute; reflexivity).
  rewrite E. split; [split; reflexivity|]. rewrite val_explicit. cbn [cond_Zopp]. pose proof (bpow_gt_0 radix2 (-57)).
  split; [|reflexivity]. split; [lra|]. rewrite inv_pow. change (- Z.of_nat 24)%Z with (33 + -57)%Z. rewrite bpow_plus. apply Rmult_lt_compat_r; [assumption|].
  change (bpow radix2 33) with 8589934592. lra.
Qed.
Lemma sum_repr ws : Forall is_single ws -> forall a : binary_float 24 128, exists b : binary_float 24 128, fold_left f32_add ws (B2SF a) = B2SF b.
Proof.
  induction 1 as [|w ws N _ IH]; intros a; cbn [fold_left]; [eauto|].
  destruct (num_B w N) as (b & -> & _ & _). unfold f32_add at 2. rewrite (add_equiv 24 128 Hprec32 Hmax32). apply IH.
Qed.
Lemma sub_overflow a b : is_single a -> is_single b -> bpow radix2 128 <= Rabs (RS (val a - val b)) -> exists s, f32_sub a b = S754_infinity s.
Proof.
  intros A B. destruct (num_B a A) as (x & -> & X & VX), (num_B b B) as (y & -> & Y & VY). rewrite <- VX, <- VY. intros H.
  unfold f32_sub. rewrite (sub_equiv 24 128 Hprec32 Hmax32).
  pose proof (Bminus_correct 24 128 Hprec32 Hmax32 mode_NE x y X Y) as C.
  change (round radix2 (SpecFloat.fexp 24 128) (round_mode mode_NE)) with RS in C.
  rewrite Rlt_bool_false in C by exact H. destruct C as [C _]. rewrite C. eexists. reflexivity.
Qed.
Lemma abs_single d : is_single d -> is_single (SFabs d) /\ val (SFabs d) = Rabs (val d).
Proof.
  intros [SV SF]. destruct d as [s|s| |s m e]; try discriminate SF.
  - split; [split; reflexivity|]. cbn. rewrite Rabs_R0. reflexivity.
  - split; [split; [exact SV|reflexivity]|]. cbn [SFabs]. rewrite !val_explicit. rewrite Rabs_mult, (Rabs_pos_eq (bpow radix2 e)) by apply bpow_ge_0.
    rewrite <- abs_IZR. destruct s; reflexivity.
Qed.
Lemma check32 ws : Forall is_single ws ->
  SFltb (SFabs (f32_sub (fold_left f32_add ws (f32_of_Z 0)) (f32_of_Z 1))) (f32_dec 1 10000000000) = true <-> val (fold_left f32_add ws (f32_of_Z 0)) = 1.
Proof.
  intros F. destruct (sum_repr ws F (B754_zero false)) as [b E]. change (B2SF (B754_zero false : binary_float 24 128)) with (f32_of_Z 0) in E. rewrite E. clear E.
  destruct one_num as [N1 V1]. destruct tol32 as (NT & VT & ET).
  destruct (is_finite b) eqn:FB.
  2: { rewrite ET. destruct b as [s|s| |s m e B]; try discriminate FB; [|].
    - split; [destruct s; vm_compute; discriminate|]. cbn. lra.
    - split; [vm_compute; discriminate|]. cbn. lra. }
  destruct (is_num_B b FB) as [N _]. set (w := B2SF b) in *. clearbody w. clear FB b.
  destruct (Rlt_le_dec (Rabs (RS (val w - 1))) (bpow radix2 128)) as [S|S].
  - destruct (sub_num w (f32_of_Z 1) N N1) as [NS VS]; [rewrite V1; exact S|]. rewrite V1 in VS. destruct (abs_single _ NS) as [NA VA].
    rewrite (SFltb_num _ _ NA NT), VA, VS. split.
    + destruct (Rlt_bool_spec (Rabs (RS (val w - 1))) (val (f32_dec 1 10000000000))) as [H|H]; [intros _|discriminate].
      apply one_isolated; [exact N|]. apply Rnot_le_lt. intros Q. assert (/ 2 ^ 24 <= Rabs (RS (val w - 1))); [|lra].
      rewrite inv_pow in *. change (- Z.of_nat 24)%Z with (-24)%Z in *. destruct (Rle_lt_dec 0 (val w - 1)) as [P|P].
      * rewrite Rabs_pos_eq in Q by exact P. eapply Rle_trans; [|apply Rle_abs]. rewrite <- (RS_bpow (-24)) by lia. apply RS_le. exact Q.
      * rewrite Rabs_left in Q by exact P. rewrite <- Rabs_Ropp, <- RS_opp. eapply Rle_trans; [|apply Rle_abs]. rewrite <- (RS_bpow (-24)) by lia. apply RS_le. exact Q.
    + intros ->. rewrite Rminus_diag_eq, RS_0, Rabs_R0 by reflexivity. apply Rlt_bool_true. lra.
  - split.
    + destruct (sub_overflow w (f32_of_Z 1) N N1) as [s ->]; [rewrite V1; exact S|]. rewrite ET. vm_compute. discriminate.
    + intros H. rewrite H, Rminus_diag_eq, RS_0, Rabs_R0 in S by reflexivity. pose proof (bpow_gt_0 radix2 128). lra.
Qed.

Section Weights.
Context (L : libm32).
Notation F := (F32 L).
(** Categorical::new accepts exactly the non-empty lists of non-negative numbers
    whose running sum, rounded after every addition, is exactly 1. *)
Lemma categorical_single ps : Forall is_single ps ->
  (exists d, @categorical_new F ps = Some d) <-> ps <> [] /\ Forall (fun p => 0 <= val p) ps /\ val (fold_left f32_add ps (f32_of_Z 0)) = 1.
Proof.
  intros A. pose proof (check32 ps A) as C. unfold categorical_new.
  assert (G : forallb (fun p => @nleb F n0 p) ps = true <-> Forall (fun p => 0 <= val p) ps).
  { rewrite forallb_forall, Forall_forall. rewrite Forall_forall in A. destruct zero_num as [N0 V0].
    split; intros H x I; specialize (H x I); change (@nleb F n0 x) with (SFleb (f32_of_Z 0) x) in *; rewrite (SFleb_num _ _ N0 (A x I)), V0 in *.
    - destruct (Rle_bool_spec 0 (val x)) as [Q|Q]; [exact Q|discriminate].
    - apply Rle_bool_true, H. }
  destruct ps as [|p ps]; [split; [intros [d H]; discriminate|intros (H & _); contradiction]|].
  set (l := p :: ps) in *. cbv zeta.
  change (@nltb F (@nabs F (@nsub F (fold_left (@nadd F) l n0) n1)) tolerance) with
    (SFltb (SFabs (f32_sub (fold_left f32_add l (f32_of_Z 0)) (f32_of_Z 1))) (f32_dec 1 10000000000)).
  split.
  - intros [d H]. split; [discriminate|]. change (@nleb F n0) with (fun p => @nleb F n0 p) in *. 
    destruct (forallb (fun p => @nleb F n0 p) l) eqn:E; [|discriminate]. split; [apply G; reflexivity|].
    apply C. destruct (SFltb _ _); [reflexivity|discriminate].
  - intros (_ & H1 & H2). apply G in H1. rewrite H1. apply C in H2. rewrite H2. eauto.
Qed.
Lemma mixture_single {A} (cs : list (Measure F A)) ws : Forall is_single ws ->
  (exists m, mixture_new cs ws = Some m) <-> length cs = length ws /\ val (fold_left f32_add ws (f32_of_Z 0)) = 1.
Proof.
  intros W. pose proof (check32 ws W) as C. unfold mixture_new. cbv zeta.
  change (@nltb F (@nabs F (@nsub F (fold_left (@nadd F) ws n0) n1)) tolerance) with
    (SFltb (SFabs (f32_sub (fold_left f32_add ws (f32_of_Z 0)) (f32_of_Z 1))) (f32_dec 1 10000000000)).
  rewrite <- C, <- Nat.eqb_eq. destruct (Nat.eqb _ _); [|split; [intros [m H]; discriminate|intros [H _]; discriminate]].
  destruct (SFltb _ _); split; [intros _; split; reflexivity|eauto|intros [m H]; discriminate|intros [_ H]; discriminate].
Qed.

(** Uniform weights over a power of two add up exactly. *)
Lemma uniform_sum n j a : (n <= 24)%nat -> (j + a <= 2 ^ n)%nat -> forall w z, is_single w -> val w = / 2 ^ n -> is_single z -> val z = INR a * / 2 ^ n ->
  is_single (fold_left f32_add (repeat w j) z) /\ val (fold_left f32_add (repeat w j) z) = INR (a + j) * / 2 ^ n.
Proof.
  intros N. revert a. induction j as [|j IH]; intros a B w z NW VW NZ VZ; [rewrite Nat.add_0_r; auto|]. cbn [repeat fold_left].
  assert (E : val z + val w = INR (S a) * / 2 ^ n) by (rewrite VZ, VW, S_INR; ring).
  assert (P2 : (2 ^ n <= 2 ^ 24)%nat) by (apply Nat.pow_le_mono_r; lia).
  assert (S24 : (Z.of_nat (S a) <= 2 ^ 24)%Z).
  { apply Z.le_trans with (Z.of_nat (2 ^ n)); [lia|]. rewrite Nat2Z.inj_pow. apply Z.pow_le_mono_r; lia. }
  assert (R : RS (val z + val w) = val z + val w).
  { rewrite E. apply round_generic; [apply valid_rnd_N|]. rewrite INR_IZR_INZ, inv_pow.
    destruct (Z.eq_dec (Z.of_nat (S a)) (2 ^ 24)) as [->|NE].
    - change (IZR (2 ^ 24)) with (bpow radix2 24). rewrite <- bpow_plus. apply generic_format_bpow. unfold FLT_exp. lia.
    - apply generic_format_FLT. apply FLT_spec with (Float radix2 (Z.of_nat (S a)) (- Z.of_nat n)); [reflexivity| |cbn [Fexp]; lia].
      cbn [Fnum]. change (radix2 ^ 24)%Z with (2 ^ 24)%Z. lia. }
  destruct (add_num z w NZ NW) as [NA VA].
  { rewrite R, E, Rabs_pos_eq; [|apply Rmult_le_pos; [apply pos_INR|apply Rlt_le, Rinv_0_lt_compat, pow_lt; lra]].
    apply Rle_lt_trans with (bpow radix2 24 * 1); [|rewrite Rmult_1_r; apply bpow_lt; lia].
    apply Rmult_le_compat; [apply pos_INR|apply Rlt_le, Rinv_0_lt_compat, pow_lt; lra| |].
    - rewrite INR_IZR_INZ. change (bpow radix2 24) with (IZR (2 ^ 24)). apply IZR_le, S24.
    - rewrite inv_pow. change 1 with (bpow radix2 0). apply bpow_le. lia. }
  rewrite <- Nat.add_succ_comm. apply IH; [lia|exact NW|exact VW|exact NA|]. rewrite VA, R. exact E.
Qed.
Lemma uniform_single n : (n <= 24)%nat -> exists d, @categorical_uniform F (2 ^ n) = Some d.
Proof.
  intros H. assert (P : (0 < 2 ^ n)%nat) by (pose proof (Nat.pow_nonzero 2 n); lia).
  assert (B : (Z.of_nat (2 ^ n) <= 2 ^ 24)%Z) by (rewrite Nat2Z.inj_pow; apply Z.pow_le_mono_r; lia).
  destruct (num_nat (2 ^ n) B) as [NK VK]. destruct one_num as [N1 V1]. destruct zero_num as [N0 V0].
  assert (IV : val (f32_of_Z 1) / val (f32_of_Z (Z.of_nat (2 ^ n))) = / 2 ^ n).
  { rewrite V1, VK, pow_INR. change (INR 2) with 2. unfold Rdiv. ring. }
  assert (PI2 : 0 < / 2 ^ n) by (apply Rinv_0_lt_compat, pow_lt; lra).
  assert (R : RS (/ 2 ^ n) = / 2 ^ n) by (rewrite inv_pow; apply RS_bpow; lia).
  set (w := f32_div (f32_of_Z 1) (f32_of_Z (Z.of_nat (2 ^ n)))).
  assert (W : is_single w /\ val w = / 2 ^ n).
  { destruct (div_num (f32_of_Z 1) (f32_of_Z (Z.of_nat (2 ^ n))) N1 NK) as [A E].
    - rewrite VK. apply not_0_INR. lia.
    - rewrite IV, R, Rabs_pos_eq by lra. rewrite inv_pow. apply bpow_lt. lia.
    - split; [exact A|]. unfold w. rewrite E, IV. exact R. }
  unfold categorical_uniform. rewrite (proj2 (Nat.ltb_lt 0 (2 ^ n)) P). change (@ndiv F n1 (nofn (2 ^ n))) with w.
  apply categorical_single; [apply Forall_forall; intros x I; apply repeat_spec in I; subst x; apply W|].
  split; [intros E; apply (f_equal (@length f32)) in E; rewrite repeat_length in E; cbn in E; lia|].
  split; [apply Forall_forall; intros x I; apply repeat_spec in I; subst x; rewrite (proj2 W); lra|].
  destruct (uniform_sum n (2 ^ n) 0 H ltac:(lia) w (f32_of_Z 0) (proj1 W) (proj2 W) N0) as [_ V].
  - rewrite V0. cbn. ring.
  - etransitivity; [exact V|]. cbn [Nat.add]. rewrite pow_INR. change (INR 2) with 2. apply Rinv_r, pow_nonzero. lra.
Qed.
Lemma uniform_ten_panics : @categorical_uniform F 10 = None.
Proof.
  assert (E : @categorical_uniform F 10 = if SFltb (SFabs (f32_sub (fold_left f32_add (repeat (f32_div (f32_of_Z 1) (f32_of_Z 10)) 10) (f32_of_Z 0)) (f32_of_Z 1))) (f32_dec 1 10000000000)
    then Some (@mkCategorical F (repeat (f32_div (f32_of_Z 1) (f32_of_Z 10)) 10)) else None).
  { unfold categorical_uniform, categorical_new. cbn [Nat.ltb Nat.leb repeat].
    change (@ndiv F n1 (nofn 10)) with (f32_div (f32_of_Z 1) (f32_of_Z 10)).
    match goal with |- (if forallb ?f ?l then _ else _) = _ => change (forallb f l) with (forallb (SFleb (f32_of_Z 0)) l) end.
    match goal with |- (if forallb ?f ?l then _ else _) = _ => replace (forallb f l) with true by (vm_compute; reflexivity) end.
    reflexivity. }
  rewrite E.
  match goal with |- (if ?b then _ else _) = _ => replace b with false by (vm_compute; reflexivity) end. reflexivity.
Qed.
End Weights.

(** * Single and double precision agree *)
Lemma agree k m r w v d : within32 k m r w -> 0 <= m -> within d m r v -> d * eps <= eps32 -> Rabs (val w - val v) <= (k + 1) * eps32 * m.
Proof.
  intros [_ A] M [_ B] D. replace (val w - val v) with ((val w - r) - (val v - r)) by ring.
  eapply Rle_trans; [apply Rabs_triang|]. rewrite Rabs_Ropp. assert (d * eps * m <= eps32 * m) by (apply Rmult_le_compat_r; assumption). lra.
Qed.
Lemma eps_tiny k : 0 <= k <= 2000200 -> k * eps <= eps32.
Proof. intros K. unfold eps, eps32. lra. Qed.
Lemma normal_agreement c d lg L mu sd x : libm32_ok c lg L -> 0 <= c <= 1000 -> libm_ok d lg (s_double L) -> 0 <= d <= 1000000 ->
  is_single mu -> is_single sd -> is_single x -> 0 < val sd -> Rabs (val mu) <= huge32 -> Rabs (val x) <= huge32 ->
  let z := (val x - val mu) / val sd in Rabs z <= bpow radix2 40 ->
  Rabs (val (normal_ld (@mkNormal (F32 L) mu sd) x) - val (normal_ld (@mkNormal (F64 (s_double L)) (widen mu) (widen sd)) (widen x))) <=
    (2 * (c + 7) + 1) * eps32 * (z * z + Rabs (ln (val sd)) + 2).
Proof.
  intros LOK C0 DOK D0 N1 N2 N3 P B1 B2 z Z. destruct (widen_num mu N1) as [M1 W1]. destruct (widen_num sd N2) as [M2 W2]. destruct (widen_num x N3) as [M3 W3].
  assert (HH : huge32 <= huge) by (unfold huge32, huge; apply bpow_le; lia).
  assert (H4 : bpow radix2 40 <= bpow radix2 400) by (apply bpow_le; lia).
  pose proof (DistFloat.normal_float d lg (s_double L) DOK D0 (widen mu) (widen sd) (widen x) M1 M2 M3) as S. cbv zeta in S. rewrite W1, W2, W3 in S. fold z in S.
  specialize (S P ltac:(lra) ltac:(lra) ltac:(lra)). apply DistFloat.acc_within in S; [|lra|apply DistFloat.keps; lra].
  assert (T : within32 (2 * (c + 7)) (z * z + Rabs (ln (val sd)) + 2) (ln (normal_pdf (val mu) (val sd) (val x))) (normal_ld (@mkNormal (F32 L) mu sd) x))
    by (apply acc_within; [apply (normal_float c lg L LOK C0); assumption|lra|apply keps; lra]).
  eapply agree; [exact T| |exact S|apply eps_tiny; lra]. pose proof (Rle_0_sqr z). unfold Rsqr in *. pose proof (Rabs_pos (ln (val sd))). lra.
Qed.
Lemma cauchy_agreement c d lg L loc sc x : libm32_ok c lg L -> 0 <= c <= 1000 -> libm_ok d lg (s_double L) -> 0 <= d <= 1000000 ->
  is_single loc -> is_single sc -> is_single x -> 0 < val sc -> Rabs (val loc) <= huge32 -> Rabs (val x) <= huge32 ->
  let z := (val x - val loc) / val sc in Rabs z <= bpow radix2 40 ->
  Rabs (val (cauchy_ld (@mkCauchy (F32 L) loc sc) x) - val (cauchy_ld (@mkCauchy (F64 (s_double L)) (widen loc) (widen sc)) (widen x))) <=
    (2 * (c + 50) + 1) * eps32 * (ln (1 + z * z) + Rabs (ln (val sc)) + 5).
Proof.
  intros LOK C0 DOK D0 N1 N2 N3 P B1 B2 z Z. destruct (widen_num loc N1) as [M1 W1]. destruct (widen_num sc N2) as [M2 W2]. destruct (widen_num x N3) as [M3 W3].
  assert (HH : huge32 <= huge) by (unfold huge32, huge; apply bpow_le; lia).
  assert (H4 : bpow radix2 40 <= bpow radix2 400) by (apply bpow_le; lia).
  pose proof (DistFloat.cauchy_float d lg (s_double L) DOK D0 (widen loc) (widen sc) (widen x) M1 M2 M3) as S. cbv zeta in S. rewrite W1, W2, W3 in S. fold z in S.
  destruct (S P ltac:(lra) ltac:(lra) ltac:(lra)) as [S1 _]. clear S. apply DistFloat.acc_within in S1; [|lra|apply DistFloat.keps; lra].
  destruct (cauchy_float c lg L LOK C0 loc sc x N1 N2 N3 P B1 B2 Z) as [T _]. apply acc_within in T; [|lra|apply keps; lra].
  eapply agree; [exact T| |exact S1|apply eps_tiny; lra]. pose proof (Rle_0_sqr z). unfold Rsqr in *. pose proof (Rabs_pos (ln (val sc))).
  assert (0 <= ln (1 + z * z)) by (rewrite <- ln_1; apply ln_le; lra). fold z. lra.
Qed.
