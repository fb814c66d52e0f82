(** Log-gamma is moderate; NaN arguments and overflowing residuals (C76). *)
From Coquelicot Require Import Coquelicot.
From Coq Require Import ZArith Reals Bool List Lia Lra.
From Coq Require Import Floats.SpecFloat.
From Flocq Require Import Core IEEE754.BinarySingleNaN.
From Verif Require Import Num JitModel EggSpec LitFacts EggNum FloatFacts FloatErr JitAcc JitAcc2 AccSpec AccProofs RoundSpec RoundProofs RelErr
  DensitySpec CoreModel CombModel ExpFamModel DistModel DistSpec DistFacts BuilderProofs DistProofs DistFloat CombFloat2 IntSpec GammaFun ExtSpec ExtFloat.
Import ListNotations.
Local Open Scope R_scope.

(** * The size of log-gamma *)
Section Size.
Context (lg : R -> R) (HG : lg_is_log_gamma lg).
Lemma ln_fact_le b n : INR n <= exp b -> 0 <= ln (INR (fact n)) <= INR n * b.
Proof.
  intros H. induction n as [|n IH].
  - cbn. rewrite ln_1. lra.
  - rewrite S_INR in H. pose proof (pos_INR n) as P. change (fact (S n)) with (S n * fact n)%nat. rewrite mult_INR, S_INR, ln_mult; [|lra|apply lt_0_INR, lt_O_fact].
    assert (L1 : ln (INR n + 1) <= b) by (rewrite <- (ln_exp b); apply ln_le; lra).
    assert (L0 : 0 <= ln (INR n + 1)) by (rewrite <- ln_1; apply ln_le; lra).
    specialize (IH ltac:(lra)). lra.
Qed.
Lemma exp_mono a b : a <= b -> exp a <= exp b.
Proof. intros [H| ->]; [left; apply exp_increasing, H|right; reflexivity]. Qed.
Lemma lg_two : lg 2 = 0.
Proof. replace 2 with (1 + 1) by lra. rewrite (lg_rec lg HG), (lg_one lg HG), ln_1 by lra. lra. Qed.
Lemma lg_above t n b : 1 <= t <= INR n + 1 -> INR n <= exp b -> lg t <= INR n * b.
Proof.
  intros T E. destruct (ln_fact_le b n E) as [F0 F1]. rewrite <- (lg_nat lg HG) in *.
  destruct (Req_dec (INR n) 0) as [Z|Z].
  - replace t with 1 by lra. rewrite (lg_one lg HG). lra.
  - pose proof (pos_INR n). pose proof (lg_convex lg HG 1 (INR n + 1) ((INR n + 1 - t) / INR n) ltac:(lra) ltac:(lra)) as C.
    assert (S : 0 <= (INR n + 1 - t) / INR n <= 1).
    { split; [apply Rdiv_le_0_compat; lra|]. apply (Rmult_le_reg_r (INR n)); [lra|]. unfold Rdiv. rewrite Rmult_assoc, Rinv_l by lra. lra. }
    specialize (C S). replace ((INR n + 1 - t) / INR n * 1 + (1 - (INR n + 1 - t) / INR n) * (INR n + 1)) with t in C by (field; lra).
    rewrite (lg_one lg HG) in C. nra.
Qed.
Lemma lg_below t : 1 <= t -> -1 <= lg t.
Proof.
  intros T. pose proof lg_two as L2. destruct (Rle_lt_dec t 2) as [H|H].
  - assert (L3 : 0 <= lg 3 <= 1).
    { replace 3 with (2 + 1) by lra. rewrite (lg_rec lg HG), L2 by lra. split; [pose proof (ln_le 1 2 ltac:(lra) ltac:(lra)); rewrite ln_1 in *; lra|].
      rewrite <- (ln_exp 1). pose proof (ln_le 2 (exp 1) ltac:(lra)). pose proof (exp_ineq1 1 ltac:(lra)). lra. }
    pose proof (lg_convex lg HG t 3 (/ (3 - t)) ltac:(lra) ltac:(lra)) as C.
    assert (S : 0 <= / (3 - t) <= 1) by (split; [left; apply Rinv_0_lt_compat; lra|rewrite <- Rinv_1; apply Rinv_le_contravar; lra]).
    specialize (C S). replace (/ (3 - t) * t + (1 - / (3 - t)) * 3) with 2 in C by (field; lra). rewrite L2 in C.
    apply (Rmult_le_compat_l (3 - t)) in C; [|lra]. rewrite Rmult_0_r in C.
    replace ((3 - t) * (/ (3 - t) * lg t + (1 - / (3 - t)) * lg 3)) with (lg t + (2 - t) * lg 3) in C by (field; lra). nra.
  - pose proof (lg_convex lg HG 1 t ((t - 2) / (t - 1)) ltac:(lra) ltac:(lra)) as C.
    assert (S : 0 <= (t - 2) / (t - 1) <= 1).
    { split; [apply Rdiv_le_0_compat; lra|]. apply (Rmult_le_reg_r (t - 1)); [lra|]. unfold Rdiv. rewrite Rmult_assoc, Rinv_l by lra. lra. }
    specialize (C S). replace ((t - 2) / (t - 1) * 1 + (1 - (t - 2) / (t - 1)) * t) with 2 in C by (field; lra). rewrite L2, (lg_one lg HG) in C.
    replace (1 - (t - 2) / (t - 1)) with (/ (t - 1)) in C by (field; lra). assert (0 < / (t - 1)) by (apply Rinv_0_lt_compat; lra). nra.
Qed.
Lemma lg_is_moderate : lg_moderate lg.
Proof.
  assert (E : bpow radix2 881 <= exp 881).
  { rewrite <- (exp_ln (bpow radix2 881)) by apply bpow_gt_0. apply exp_mono. rewrite ln_bpow. destruct ln2_bounds. lra. }
  assert (U : forall t, 1 <= t <= bpow radix2 880 + 1 -> -1 <= lg t <= bpow radix2 891).
  { intros t T. split; [apply lg_below, T|]. destruct (archimed t) as [A1 A2]. assert (Z1 : (0 <= Coq.Reals.Rdefinitions.up t)%Z) by (apply le_IZR; lra).
    set (n := Z.to_nat (Coq.Reals.Rdefinitions.up t)). assert (N : INR n = IZR (Coq.Reals.Rdefinitions.up t)) by (unfold n; rewrite INR_IZR_INZ, Z2Nat.id by exact Z1; reflexivity).
    assert (B0 : 4 <= bpow radix2 880) by (apply (bpow_le radix2 2 880); lia).
    assert (B1 : bpow radix2 881 = 2 * bpow radix2 880) by (change 881%Z with (1 + 880)%Z; rewrite bpow_plus; reflexivity).
    eapply Rle_trans; [apply (lg_above t n 881); rewrite N; lra|]. change 891%Z with (10 + 881)%Z. rewrite bpow_plus. change (bpow radix2 10) with 1024. rewrite N. nra. }
  assert (B9 : 2 * bpow radix2 891 <= bpow radix2 900).
  { change 900%Z with (9 + 891)%Z. rewrite bpow_plus. change (bpow radix2 9) with 512. pose proof (bpow_gt_0 radix2 891). lra. }
  assert (B8 : 2000 <= bpow radix2 891) by (apply Rle_trans with (bpow radix2 11); [change (bpow radix2 11) with 2048; lra|apply bpow_le; lia]).
  intros t T. pose proof (bpow_gt_0 radix2 (-1074)) as P. destruct (Rle_lt_dec 1 t) as [H|H].
  - destruct (U t ltac:(lra)) as [U0 U1]. apply Rabs_le. lra.
  - assert (B0 : 4 <= bpow radix2 880) by (apply (bpow_le radix2 2 880); lia). destruct (U (t + 1) ltac:(lra)) as [U0 U1]. rewrite (lg_rec lg HG) in U0, U1 by lra.
    assert (LT : -1074 <= ln t <= 0). { split; [|rewrite <- ln_1; apply ln_le; lra].
      apply Rle_trans with (ln (bpow radix2 (-1074))); [rewrite ln_bpow; destruct ln2_bounds; lra|apply ln_le; lra]. }
    apply Rabs_le. lra.
Qed.
End Size.

(** * NaN arguments *)
Lemma nan_r a : f64_sub a S754_nan = S754_nan /\ f64_add a S754_nan = S754_nan /\ f64_mul a S754_nan = S754_nan.
Proof. destruct a; repeat split; reflexivity. Qed.
Lemma nan_l a : f64_sub S754_nan a = S754_nan /\ f64_add S754_nan a = S754_nan /\ f64_mul S754_nan a = S754_nan /\ f64_div S754_nan a = S754_nan.
Proof. destruct a; repeat split; reflexivity. Qed.
Section Nan.
Context (L : libm) (HL : l_ln L S754_nan = S754_nan).
Let F := F64 L.
Lemma normal_nan mu sd : normal_ld (@mkNormal F mu sd) S754_nan = S754_nan.
Proof.
  change (f64_sub (f64_sub (f64_mul (SFopp (f64_dec 5 10)) (l_ln L (f64_mul (f64_of_Z 2) f64_pi))) (l_ln L sd))
    (f64_mul (f64_mul (f64_dec 5 10) (f64_div (f64_sub S754_nan mu) sd)) (f64_div (f64_sub S754_nan mu) sd)) = S754_nan).
  replace (f64_div (f64_sub S754_nan mu) sd) with (S754_nan : f64) by (rewrite (proj1 (nan_l mu)); symmetry; apply nan_l).
  rewrite (proj2 (proj2 (nan_r _))). apply nan_r.
Qed.
Lemma cauchy_nan loc sc : cauchy_ld (@mkCauchy F loc sc) S754_nan = S754_nan.
Proof.
  change (f64_sub (f64_sub (SFopp (l_ln L (f64_add (f64_of_Z 1) (f64_mul (f64_div (f64_sub S754_nan loc) sc) (f64_div (f64_sub S754_nan loc) sc))))) (l_ln L sc)) (l_ln L f64_pi) = S754_nan).
  replace (f64_div (f64_sub S754_nan loc) sc) with (S754_nan : f64) by (rewrite (proj1 (nan_l loc)); symmetry; apply nan_l).
  change (f64_mul S754_nan S754_nan) with (S754_nan : f64). rewrite (proj1 (proj2 (nan_r _))), HL. change (SFopp S754_nan) with (S754_nan : f64).
  repeat rewrite (proj1 (nan_l _)). reflexivity.
Qed.
Lemma student_nan nu : student_ld (@mkStudent F nu) S754_nan = S754_nan.
Proof.
  change (f64_add (f64_sub (f64_sub (l_lgamma L (f64_div (f64_add nu (f64_of_Z 1)) (f64_of_Z 2))) (l_lgamma L (f64_div nu (f64_of_Z 2)))) (f64_mul (f64_dec 5 10) (l_ln L (f64_mul nu f64_pi))))
      (f64_mul (SFopp (f64_div (f64_add nu (f64_of_Z 1)) (f64_of_Z 2))) (l_ln L (f64_add (f64_of_Z 1) (f64_div (f64_mul S754_nan S754_nan) nu)))) = S754_nan).
  change (f64_mul S754_nan S754_nan) with (S754_nan : f64). rewrite (proj2 (proj2 (proj2 (nan_l nu)))), (proj1 (proj2 (nan_r _))), HL, (proj2 (proj2 (nan_r _))). apply nan_r.
Qed.
Lemma guarded_nan : (forall r, exponential_ld (@mkExponential F r) S754_nan = ninf) /\ (forall a b, gamma_ld (@mkGamma F a b) S754_nan = ninf) /\
  (forall k, chi_ld (@mkChi F k) S754_nan = ninf) /\ (forall a b, beta_ld (@mkBeta F a b) S754_nan = ninf).
Proof. repeat split; intros; reflexivity. Qed.
End Nan.

(** * Overflow before the result is out of range *)
Definition far : f64 := S754_finite false 4503599627370496 971.
Definition far600 : f64 := S754_finite false 4503599627370496 548.
Lemma far_val : is_num far /\ val far = bpow radix2 1023 /\ is_num (SFopp far) /\ val (SFopp far) = - bpow radix2 1023.
Proof.
  assert (V : val far = bpow radix2 1023).
  { unfold val, far, SF2R, F2R. cbn [cond_Zopp Fnum Fexp]. change (IZR (Z.pos 4503599627370496)) with (bpow radix2 52). rewrite <- bpow_plus. reflexivity. }
  split; [split; reflexivity|]. split; [exact V|]. split; [split; reflexivity|]. rewrite <- V. unfold val, far, SFopp, SF2R. cbn [negb]. rewrite <- F2R_Zopp. reflexivity.
Qed.
Lemma far600_val : is_num far600 /\ val far600 = bpow radix2 600.
Proof.
  split; [split; reflexivity|]. unfold val, far600, SF2R, F2R. cbn [cond_Zopp Fnum Fexp]. change (IZR (Z.pos 4503599627370496)) with (bpow radix2 52). rewrite <- bpow_plus. reflexivity.
Qed.
Section Overflow.
Context (c : R) (lg : R -> R) (L : libm) (LOK : libm_ok c lg L) (C0 : 0 <= c <= 1000000) (LE : ln_edges L).
Let F := F64 L.
Lemma normal_overflow : normal_ld (@mkNormal F (SFopp far) far) far = ninf.
Proof.
  destruct far_val as (N & V & _). pose proof (bpow_gt_0 radix2 1023) as P.
  change (f64_sub (f64_sub (f64_mul (SFopp (f64_dec 5 10)) (l_ln L (f64_mul (f64_of_Z 2) f64_pi))) (l_ln L far))
    (f64_mul (f64_mul (f64_dec 5 10) (f64_div (f64_sub far (SFopp far)) far)) (f64_div (f64_sub far (SFopp far)) far)) = ninf).
  replace (f64_mul (f64_mul (f64_dec 5 10) (f64_div (f64_sub far (SFopp far)) far)) (f64_div (f64_sub far (SFopp far)) far)) with pinf by (symmetry; vm_compute; reflexivity).
  assert (K : is_num (f64_sub (f64_mul (SFopp (f64_dec 5 10)) (l_ln L (f64_mul (f64_of_Z 2) f64_pi))) (l_ln L far))).
  { exact (proj1 (normal_front c lg L LOK C0 far N ltac:(lra))). }
  destruct K as [_ K]. set (w := f64_sub _ (l_ln L far)) in *. clearbody w. destruct w; try discriminate K; reflexivity.
Qed.
Lemma cauchy_overflow : cauchy_ld (@mkCauchy F (f64_of_Z 0) (f64_of_Z 1)) far600 = ninf.
Proof.
  destruct one_num as [N1 V1]. pose proof pi_bounds as PB.
  change (f64_sub (f64_sub (SFopp (l_ln L (f64_add (f64_of_Z 1) (f64_mul (f64_div (f64_sub far600 (f64_of_Z 0)) (f64_of_Z 1)) (f64_div (f64_sub far600 (f64_of_Z 0)) (f64_of_Z 1)))))) (l_ln L (f64_of_Z 1))) (l_ln L f64_pi) = ninf).
  replace (f64_add (f64_of_Z 1) (f64_mul (f64_div (f64_sub far600 (f64_of_Z 0)) (f64_of_Z 1)) (f64_div (f64_sub far600 (f64_of_Z 0)) (f64_of_Z 1)))) with pinf by (symmetry; vm_compute; reflexivity).
  rewrite (proj1 LE). change (SFopp pinf) with ninf. rewrite sub_ninf by (apply (bn_ln c lg L LOK C0); [exact N1|lra]).
  apply sub_ninf, (bn_ln c lg L LOK C0); [apply num_pi|rewrite val_pi; lra].
Qed.
Lemma student_overflow : lg_moderate lg -> student_ld (@mkStudent F (f64_of_Z 1)) far600 = ninf.
Proof.
  intros LM. destruct one_num as [N1 V1].
  destruct (student_proper c lg L LOK C0 LE (f64_of_Z 1) far600 LM N1) as [K|K]; [| | |exact K].
  - rewrite V1. split; [apply (bpow_le radix2 (-1000) 0); lia|apply (bpow_le radix2 0 879); lia].
  - left. apply far600_val.
  - exfalso. revert K.
    change (~ is_num (f64_add (f64_sub (f64_sub (l_lgamma L (f64_div (f64_add (f64_of_Z 1) (f64_of_Z 1)) (f64_of_Z 2))) (l_lgamma L (f64_div (f64_of_Z 1) (f64_of_Z 2)))) (f64_mul (f64_dec 5 10) (l_ln L (f64_mul (f64_of_Z 1) f64_pi))))
      (f64_mul (SFopp (f64_div (f64_add (f64_of_Z 1) (f64_of_Z 1)) (f64_of_Z 2))) (l_ln L (f64_add (f64_of_Z 1) (f64_div (f64_mul far600 far600) (f64_of_Z 1))))))).
    replace (f64_add (f64_of_Z 1) (f64_div (f64_mul far600 far600) (f64_of_Z 1))) with pinf by (symmetry; vm_compute; reflexivity).
    rewrite (proj1 LE). replace (f64_mul (SFopp (f64_div (f64_add (f64_of_Z 1) (f64_of_Z 1)) (f64_of_Z 2))) pinf) with ninf by (symmetry; vm_compute; reflexivity).
    set (w := f64_sub _ _). clearbody w. intros [_ K]. destruct w as [|[]| |]; discriminate K.
Qed.
End Overflow.
(** The exact log-density there is a moderate number. *)
Lemma ln_far : 0 <= ln (1 + bpow radix2 600 * bpow radix2 600) <= 1201.
Proof.
  pose proof (bpow_gt_0 radix2 1200) as P. rewrite <- bpow_plus. change (600 + 600)%Z with 1200%Z.
  split; [rewrite <- ln_1; apply ln_le; lra|]. apply Rle_trans with (ln (bpow radix2 1201)).
  - apply ln_le; [lra|]. change 1201%Z with (1 + 1200)%Z. rewrite bpow_plus. change (bpow radix2 1) with 2.
    assert (1 <= bpow radix2 1200) by (apply (bpow_le radix2 0 1200); lia). lra.
  - rewrite ln_bpow. destruct ln2_bounds. lra.
Qed.

(** * A library with the edges of C99 *)
Definition edged (L : libm) : libm :=
  {| l_ln := fun x => match x with S754_infinity false => pinf | S754_zero _ => ninf | S754_nan => S754_nan | _ => l_ln L x end;
     l_exp := l_exp L; l_pow := l_pow L; l_sin := l_sin L; l_cos := l_cos L; l_lgamma := l_lgamma L |}.
Lemma edged_ok c lg L : libm_ok c lg L -> libm_ok c lg (edged L) /\ ln_edges (edged L) /\ l_ln (edged L) S754_nan = S754_nan.
Proof.
  intros K. split; [|repeat split]. split; cbn [edged l_ln l_exp l_pow l_sin l_cos l_lgamma]; try apply K.
  intros x N P. destruct x as [b|[|]| |b m e]; try (apply K; assumption); destruct N as [_ N]; try discriminate N. cbn in P. lra.
Qed.
Section Early.
Context (lg : R -> R) (HG : lg_is_log_gamma lg).
Lemma ln_pi_small : 0 <= ln PI <= 2.
Proof.
  pose proof pi_bounds as PB. split; [rewrite <- ln_1; apply ln_le; lra|]. rewrite <- (ln_exp 2). apply ln_le; [lra|].
  replace 2 with (1 + 1) by lra. rewrite exp_plus. pose proof (exp_ineq1 1 ltac:(lra)). nra.
Qed.
Lemma ln_normal_far : -1300 <= ln (normal_pdf (- bpow radix2 1023) (bpow radix2 1023) (bpow radix2 1023)).
Proof.
  pose proof (bpow_gt_0 radix2 1023) as P. pose proof ln_pi_small as LP. destruct ln2_bounds as [L1 L2]. pose proof PI_RGT_0.
  rewrite ln_normal_pdf by exact P. replace (- (1 / 2) * (bpow radix2 1023 - - bpow radix2 1023) ^ 2 / bpow radix2 1023 ^ 2) with (- 2) by (field; lra).
  rewrite ln_bpow, ?ln_mult by lra. lra.
Qed.
Lemma ln_cauchy_far : -1300 <= ln (cauchy_pdf 0 1 (bpow radix2 600)).
Proof.
  pose proof ln_pi_small as LP. pose proof ln_far as LF. rewrite ln_cauchy_pdf by lra. replace ((bpow radix2 600 - 0) / 1) with (bpow radix2 600) by field. rewrite ln_1. lra.
Qed.
Lemma ln_student_far : -1300 <= ln (student_pdf lg 1 (bpow radix2 600)).
Proof.
  pose proof ln_pi_small as LP. pose proof ln_far as LF. rewrite ln_student_pdf by lra.
  replace ((1 + 1) / 2) with 1 by field. rewrite (lg_one lg HG).
  assert (LH : lg (1 / 2) <= 1).
  { assert (Q : lg (1 / 2 + 1) <= 0).
    { pose proof (lg_convex lg HG 1 2 (1 / 2) ltac:(lra) ltac:(lra) ltac:(lra)) as C. rewrite (lg_one lg HG), (lg_two lg HG) in C. replace (1 / 2 * 1 + (1 - 1 / 2) * 2) with (1 / 2 + 1) in C by field. lra. }
    rewrite (lg_rec lg HG) in Q by lra. replace (1 / 2) with (/ 2) in Q at 2 by lra. rewrite ln_Rinv in Q by lra. destruct ln2_bounds. lra. }
  replace (1 * PI) with PI by ring. replace (bpow radix2 600 * bpow radix2 600 / 1) with (bpow radix2 600 * bpow radix2 600) by field. lra.
Qed.
End Early.
Lemma early_overflow : forall c lg L, libm_ok c lg L -> 0 <= c <= 1000000 -> ln_edges L -> lg_is_log_gamma lg ->
  (exists mu sd x, is_num mu /\ is_num sd /\ is_num x /\ 0 < val sd /\
    normal_ld (@mkNormal (F64 L) mu sd) x = ninf /\ (val x - val mu) / val sd = 2 /\ -1300 <= ln (normal_pdf (val mu) (val sd) (val x))) /\
  (exists x, is_num x /\ cauchy_ld (@mkCauchy (F64 L) (f64_of_Z 0) (f64_of_Z 1)) x = ninf /\ -1300 <= ln (cauchy_pdf 0 1 (val x))) /\
  (exists x, is_num x /\ student_ld (@mkStudent (F64 L) (f64_of_Z 1)) x = ninf /\ -1300 <= ln (student_pdf lg 1 (val x))).
Proof.
  intros c lg L K C0 E G. destruct far_val as (N & V & N' & V'). destruct far600_val as [M W]. pose proof (bpow_gt_0 radix2 1023) as P. split; [|split].
  - exists (SFopp far), far, far. split; [exact N'|]. split; [exact N|]. split; [exact N|]. split; [lra|]. split; [exact (normal_overflow c lg L K C0)|].
    rewrite V, V'. split; [field; lra|exact ln_normal_far].
  - exists far600. split; [exact M|]. split; [exact (cauchy_overflow c lg L K C0 E)|]. rewrite W. exact ln_cauchy_far.
  - exists far600. split; [exact M|]. split; [exact (student_overflow c lg L K C0 E (lg_is_moderate lg G))|]. rewrite W. exact (ln_student_far lg G).
Qed.
