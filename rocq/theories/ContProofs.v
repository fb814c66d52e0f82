(** The textbook densities of DistSpec.v integrate to 1, and their first two
    moments (C32, C35).  No part of the code is modelled here. *)
From Coquelicot Require Import Coquelicot.
From Coq Require Import ZArith Reals List Bool Lra Lia Arith.
From Verif Require Import Num DensitySpec DistSpec IntSpec Improper GammaFun.
Local Open Scope R_scope.

Lemma rp_mul x y a : 0 < x -> 0 < y -> Rpower (x * y) a = Rpower x a * Rpower y a.
Proof. intros X Y. unfold Rpower. rewrite ln_mult, <- exp_plus by assumption. f_equal. ring. Qed.
Lemma integral_eq (A B : Rbar) f l l' : l = l' -> integral A B f l -> integral A B f l'.
Proof. intros ->. auto. Qed.
(** Variance from the first two moments. *)
Lemma integral_variance (A B : Rbar) f m s : integral A B f 1 -> integral A B (fun x => x * f x) m -> integral A B (fun x => x * (x * f x)) s ->
  integral A B (fun x => (x - m) ^ 2 * f x) (s - m ^ 2).
Proof.
  intros H0 H1 H2. apply (integral_ext A B (fun x => x * (x * f x) + ((- (2 * m)) * (x * f x) + m ^ 2 * f x))); [intros; ring|].
  replace (s - m ^ 2) with (s + (- (2 * m) * m + m ^ 2 * 1)) by ring.
  exact (integral_plus A B _ _ _ _ H2 (integral_plus A B _ _ _ _ (integral_scal A B (- (2 * m)) _ _ H1) (integral_scal A B (m ^ 2) _ _ H0))).
Qed.
Section LG.
Context (lg : R -> R) (HG : lg_is_log_gamma lg).
Lemma gamma_pdf_total a b : 0 < a -> 0 < b -> integral 0 p_infty (gamma_pdf lg a b) 1.
Proof.
  intros A B. pose proof (integral_scale (gint a) _ b B (gint_cont a) (HG a A)) as H.
  apply (integral_scal _ _ (/ exp (lg a))) in H. rewrite Rinv_l in H by (apply Rgt_not_eq, exp_pos). revert H. apply integral_ext.
  intros x [X _]. cbn in X. unfold gint, gamma_pdf. rewrite rp_mul by assumption. rewrite (rp_pred b a B). field. apply Rgt_not_eq, exp_pos.
Qed.
Lemma gamma_pdf_shift a b x : 0 < a -> 0 < b -> 0 < x -> a / b * gamma_pdf lg (a + 1) b x = x * gamma_pdf lg a b x.
Proof.
  intros A B X. unfold gamma_pdf. rewrite (lg_rec lg HG a A), exp_plus, exp_ln by exact A.
  rewrite (rp_pred b (a + 1) B). replace (a + 1 - 1) with a by ring. rewrite (rp_pred x a X). pose proof (exp_pos (lg a)). field. lra.
Qed.
Lemma gamma_pdf_mean a b : 0 < a -> 0 < b -> integral 0 p_infty (fun x => x * gamma_pdf lg a b x) (a / b).
Proof.
  intros A B. pose proof (integral_scal _ _ (a / b) _ _ (gamma_pdf_total (a + 1) b ltac:(lra) B)) as H. rewrite Rmult_1_r in H.
  revert H. apply integral_ext. intros x [X _]. apply gamma_pdf_shift; assumption.
Qed.
Lemma gamma_pdf_second a b : 0 < a -> 0 < b -> integral 0 p_infty (fun x => x * (x * gamma_pdf lg a b x)) (a / b * ((a + 1) / b)).
Proof.
  intros A B. pose proof (integral_scal _ _ (a / b) _ _ (gamma_pdf_mean (a + 1) b ltac:(lra) B)) as H.
  revert H. apply integral_ext. intros x [X _]. rewrite <- (gamma_pdf_shift a b x) by assumption. ring.
Qed.
Lemma gamma_pdf_variance a b : 0 < a -> 0 < b -> integral 0 p_infty (fun x => (x - a / b) ^ 2 * gamma_pdf lg a b x) (a / (b * b)).
Proof.
  intros A B. eapply integral_eq; [|apply integral_variance; [apply gamma_pdf_total|apply gamma_pdf_mean|apply gamma_pdf_second]; assumption].
  field. lra.
Qed.
Lemma beta_pdf_total a b : 0 < a -> 0 < b -> integral 0 1 (beta_pdf lg a b) 1.
Proof.
  intros A B. pose proof (integral_scal _ _ (exp (lg (a + b)) / (exp (lg a) * exp (lg b))) _ _ (beta_value lg HG a b A B)) as H.
  apply (integral_eq _ _ _ _ 1) in H; [revert H; apply integral_ext; intros x _; unfold bint, beta_pdf; ring|].
  unfold Rminus. rewrite !exp_plus, exp_Ropp. pose proof (exp_pos (lg a)). pose proof (exp_pos (lg b)). pose proof (exp_pos (lg (a + b))). field. lra.
Qed.
Lemma beta_pdf_shift a b x : 0 < a -> 0 < b -> 0 < x -> a / (a + b) * beta_pdf lg (a + 1) b x = x * beta_pdf lg a b x.
Proof.
  intros A B X. unfold beta_pdf. replace (a + 1 + b) with (a + b + 1) by ring. rewrite !(lg_rec lg HG), !exp_plus, !exp_ln by lra.
  replace (a + 1 - 1) with a by ring. rewrite (rp_pred x a X). pose proof (exp_pos (lg a)). pose proof (exp_pos (lg b)). field. lra.
Qed.
Lemma beta_pdf_mean a b : 0 < a -> 0 < b -> integral 0 1 (fun x => x * beta_pdf lg a b x) (a / (a + b)).
Proof.
  intros A B. pose proof (integral_scal _ _ (a / (a + b)) _ _ (beta_pdf_total (a + 1) b ltac:(lra) B)) as H. rewrite Rmult_1_r in H.
  revert H. apply integral_ext. intros x [X _]. apply beta_pdf_shift; assumption.
Qed.
Lemma beta_pdf_second a b : 0 < a -> 0 < b -> integral 0 1 (fun x => x * (x * beta_pdf lg a b x)) (a / (a + b) * ((a + 1) / (a + 1 + b))).
Proof.
  intros A B. pose proof (integral_scal _ _ (a / (a + b)) _ _ (beta_pdf_mean (a + 1) b ltac:(lra) B)) as H.
  revert H. apply integral_ext. intros x [X _]. rewrite <- (beta_pdf_shift a b x) by assumption. ring.
Qed.
Lemma beta_pdf_variance a b : 0 < a -> 0 < b ->
  integral 0 1 (fun x => (x - a / (a + b)) ^ 2 * beta_pdf lg a b x) (a * b / ((a + b) * (a + b) * (a + b + 1))).
Proof.
  intros A B. eapply integral_eq; [|apply integral_variance; [apply beta_pdf_total|apply beta_pdf_mean|apply beta_pdf_second]; assumption].
  field. lra.
Qed.
Lemma chi_is_gamma k x : chi_squared_pdf lg k x = gamma_pdf lg (k / 2) (1 / 2) x.
Proof.
  unfold chi_squared_pdf, gamma_pdf. replace (1 / 2 * x) with (x / 2) by field.
  replace (Rpower (1 / 2) (k / 2)) with (/ Rpower 2 (k / 2)).
  - field. split; apply Rgt_not_eq, exp_pos.
  - unfold Rpower. rewrite <- exp_Ropp. f_equal. replace (1 / 2) with (/ 2) by field. rewrite ln_Rinv by lra. ring.
Qed.
(** ∫_0^∞ (1 + x^2)^-(b+1/2) dx = B(1/2, b) / 2, by t = x^2/(1+x^2). *)
Lemma inv_square_integral b v : 0 < b -> is_beta (1/2) b v ->
  integral 0 p_infty (fun x => Rpower (1 + x ^ 2) (- (b + 1/2))) (v / 2).
Proof.
  intros B H.
  assert (W : integral 0 p_infty (fun x => 2 * x / (1 + x ^ 2) ^ 2 * bint (1/2) b (x ^ 2 / (1 + x ^ 2))) v).
  { apply (integral_subst 0 1 0 p_infty (bint (1/2) b) (fun x => x ^ 2 / (1 + x ^ 2)) (fun x => 2 * x / (1 + x ^ 2) ^ 2) v); [| | | | |exact H].
    - intros x [X _]. cbn in X. assert (0 < x ^ 2) by (apply pow_lt, X). split; cbn -[pow]; [apply Rdiv_lt_0_compat; lra|].
      apply (Rmult_lt_reg_r (1 + x ^ 2)); [lra|]. unfold Rdiv. rewrite Rmult_assoc, Rinv_l by lra. lra.
    - intros x [X _]. cbn in X. assert (0 < x ^ 2) by (apply pow_lt, X). split.
      + auto_derive; [lra|]. field. lra.
      + apply (ex_derive_continuous (V := R_NormedModule)). auto_derive. assert (0 < (1 + x ^ 2) ^ 2) by (apply pow_lt; lra). cbn in *. lra.
    - intros a0 [X Y]. cbn in X, Y. exists (Rmin 1 a0). assert (M : 0 < Rmin 1 a0) by (apply Rmin_glb_lt; lra).
      pose proof (Rmin_l 1 a0). pose proof (Rmin_r 1 a0). split; [split; [exact M|exact Logic.I]|].
      intros c C1 C2. cbn in C1. assert (0 < c ^ 2) by (apply pow_lt, C1).
      apply (Rmult_le_reg_r (1 + c ^ 2)); [lra|]. unfold Rdiv. rewrite Rmult_assoc, Rinv_l by lra.
      assert (c ^ 2 <= c) by (replace (c ^ 2) with (c * c) by ring; nra). nra.
    - intros b0 [X Y]. cbn in X, Y. exists (1 + / (1 - b0)). assert (0 < / (1 - b0)) by (apply Rinv_0_lt_compat; lra).
      split; [split; [cbn; lra|exact Logic.I]|]. intros d D _. assert (1 <= d) by lra.
      assert (d <= d ^ 2) by (replace (d ^ 2) with (d * d) by ring; nra).
      assert (E : 1 <= (1 - b0) * d ^ 2). { apply Rle_trans with ((1 - b0) * / (1 - b0)); [right; field; lra|]. apply Rmult_le_compat_l; lra. }
      apply (Rmult_le_reg_r (1 + d ^ 2)); [lra|]. unfold Rdiv. rewrite Rmult_assoc, Rinv_l by lra. nra.
    - intros x [X Y]. apply bint_cont. cbn in *. lra. }
  apply (integral_scal _ _ (/ 2)) in W. apply (integral_eq _ _ _ _ (v / 2)) in W; [|field]. revert W. apply integral_ext.
  intros x [X _]. cbn in X. unfold bint. assert (P : 0 < x ^ 2) by (apply pow_lt, X). assert (Q : 0 < 1 + x ^ 2) by lra.
  replace (1 - x ^ 2 / (1 + x ^ 2)) with (/ (1 + x ^ 2)) by (field; lra).
  replace (x / (1 + x ^ 2) ^ 2) with (x / (1 + x ^ 2) ^ 2) by reflexivity.
  assert (E : 2 * x / (1 + x ^ 2) ^ 2 = 2 * exp (ln x - 2 * ln (1 + x ^ 2))).
  { unfold Rminus. rewrite exp_plus, exp_Ropp, exp_ln by exact X. replace (2 * ln (1 + x ^ 2)) with (ln (1 + x ^ 2) + ln (1 + x ^ 2)) by ring.
    rewrite exp_plus, exp_ln by exact Q. field. lra. }
  rewrite E. unfold Rpower. assert (L : ln (x ^ 2) = 2 * ln x) by (replace (x ^ 2) with (x * x) by ring; rewrite ln_mult by exact X; ring).
  assert (L2 : ln (x ^ 2 / (1 + x ^ 2)) = 2 * ln x + - ln (1 + x ^ 2)).
  { unfold Rdiv. rewrite ln_mult, ln_Rinv, L by (try apply Rinv_0_lt_compat; assumption). reflexivity. }
  rewrite L2, ln_Rinv by exact Q.
  transitivity (exp (ln x - 2 * ln (1 + x ^ 2)) * (exp ((1 / 2 - 1) * (2 * ln x + - ln (1 + x ^ 2))) * exp ((b - 1) * - ln (1 + x ^ 2)))); [field|].
  rewrite <- !exp_plus. f_equal. field.
Qed.
Lemma inv_square_half : integral 0 p_infty (fun x => Rpower (1 + x ^ 2) (- (1/2 + 1/2))) (PI / 2).
Proof.
  apply (integral_ext _ _ (fun x => / (1 + x ^ 2))).
  { intros x _. assert (0 <= x ^ 2) by apply pow2_ge_0. replace (- (1/2 + 1/2)) with (- (1)) by field. rewrite Rpower_Ropp, Rpower_1 by lra. reflexivity. }
  replace (PI / 2) with (PI / 2 - atan 0) by (rewrite atan_0; ring).
  apply (integral_derive 0 p_infty atan).
  - intros x _. assert (0 <= x ^ 2) by apply pow2_ge_0. apply is_derive_Reals.
    apply derivable_pt_lim_atan.
  - intros x _. assert (0 <= x ^ 2) by apply pow2_ge_0. apply (ex_derive_continuous (V := R_NormedModule)). auto_derive. cbn in *. lra.
  - intros eps E. exists (Rmin 1 (eps / 2)). assert (M : 0 < Rmin 1 (eps / 2)) by (apply Rmin_glb_lt; lra). split; [split; [exact M|exact Logic.I]|].
    intros a Ha La. cbn in Ha. rewrite atan_0. pose proof (Rmin_r 1 (eps / 2)).
    assert (atan a < a).
    { destruct (MVT_cor2 (fun t => t - atan t) (fun t => 1 - / (1 + t ^ 2)) 0 a Ha) as (c & Ec & C).
      - intros c _. apply derivable_pt_lim_minus; [apply derivable_pt_lim_id|]. apply derivable_pt_lim_atan.
      - rewrite atan_0 in Ec. assert (0 < c ^ 2) by (apply pow_lt; lra). assert (/ (1 + c ^ 2) < 1) by (rewrite <- Rinv_1; apply Rinv_lt_contravar; lra). nra. }
    assert (0 < atan a) by (rewrite <- atan_0; apply atan_increasing; exact Ha). rewrite Rabs_right; lra.
  - intros eps E. pose proof PI_RGT_0. set (e := Rmin (eps / 2) (PI / 4)). assert (P0 : 0 < e) by (apply Rmin_glb_lt; lra).
    assert (e <= eps / 2) by apply Rmin_l. assert (e <= PI / 4) by apply Rmin_r.
    exists (tan (PI / 2 - e)). split; [split; [cbn; apply tan_gt_0; lra|exact Logic.I]|].
    intros b Hb _. assert (PI / 2 - e <= atan b). { rewrite <- (atan_tan (PI / 2 - e)) by lra. destruct Hb as [Hb| <-]; [left; apply atan_increasing, Hb|lra]. }
    pose proof (atan_bound b). rewrite Rabs_left1; lra.
Qed.
Lemma lg_half : lg (1/2) = ln PI / 2.
Proof.
  pose proof (beta_value lg HG (1/2) (1/2) ltac:(lra) ltac:(lra)) as Bv.
  pose proof (inv_square_integral (1/2) _ ltac:(lra) Bv) as H. pose proof (integral_unique _ _ _ _ _ H inv_square_half) as E.
  replace (1/2 + 1/2) with 1 in E by field. rewrite (lg_one lg HG) in E.
  assert (E' : exp (lg (1/2) + lg (1/2) - 0) = PI) by lra. apply (f_equal ln) in E'. rewrite ln_exp in E'. lra.
Qed.
Lemma student_half nu : 0 < nu -> integral 0 p_infty (student_pdf lg nu) (1/2).
Proof.
  intros N. pose proof (sqrt_lt_R0 nu N) as S. pose proof PI_RGT_0 as Pp.
  pose proof (inv_square_integral (nu / 2) _ ltac:(lra) (beta_value lg HG (1/2) (nu / 2) ltac:(lra) ltac:(lra))) as H.
  apply (integral_scale _ _ (/ sqrt nu)) in H; [|apply Rinv_0_lt_compat, S|].
  2:{ intros x _. assert (0 <= x ^ 2) by apply pow2_ge_0. apply (ex_derive_continuous (V := R_NormedModule)). unfold Rpower. auto_derive. cbn in *. lra. }
  apply (integral_scal _ _ (exp (lg ((nu + 1) / 2)) / (sqrt PI * exp (lg (nu / 2))))) in H.
  apply (integral_eq _ _ _ _ (1/2)) in H; [revert H; apply integral_ext|].
  2:{ rewrite lg_half. replace (1 / 2 + nu / 2) with ((nu + 1) / 2) by field. unfold Rminus. rewrite !exp_plus, exp_Ropp.
    replace (exp (ln PI / 2)) with (sqrt PI).
    2:{ rewrite <- (exp_ln (sqrt PI)) by (apply sqrt_lt_R0, Pp). f_equal. rewrite <- (sqrt_sqrt PI) at 2 by lra. rewrite ln_mult by (apply sqrt_lt_R0, Pp). field. }
    pose proof (sqrt_lt_R0 PI Pp). pose proof (exp_pos (lg (nu / 2))). pose proof (exp_pos (lg ((nu + 1) / 2))). field. lra. }
  - intros x _. unfold student_pdf. replace (nu / 2 + 1 / 2) with ((nu + 1) / 2) by field.
    replace ((/ sqrt nu * x) ^ 2) with (x ^ 2 / nu).
    2:{ replace ((/ sqrt nu * x) ^ 2) with (x ^ 2 / (sqrt nu * sqrt nu)) by (field; lra). rewrite sqrt_sqrt by lra. reflexivity. }
    rewrite sqrt_mult by lra. pose proof (sqrt_lt_R0 PI Pp). pose proof (exp_pos (lg (nu / 2))). field. lra.
Qed.
Lemma student_cont nu x : 0 < nu -> continuous (student_pdf lg nu) x.
Proof.
  intros N. unfold student_pdf, Rpower. apply (ex_derive_continuous (V := R_NormedModule)). auto_derive.
  assert (0 <= x ^ 2 / nu) by (apply Rmult_le_pos; [apply pow2_ge_0|left; apply Rinv_0_lt_compat, N]). cbn in *. lra.
Qed.
Lemma student_pdf_total nu : 0 < nu -> integral m_infty p_infty (student_pdf lg nu) 1.
Proof.
  intros N. replace 1 with (2 * (1/2)) by field. apply integral_even; [intros; apply student_cont, N| |apply student_half, N].
  intros x. unfold student_pdf. replace ((- x) ^ 2) with (x ^ 2) by ring. reflexivity.
Qed.
(** ∫_0^∞ e^(-x²/2) dx = sqrt(2 π)/2, by t = x²/2. *)
Lemma gauss_half : integral 0 p_infty (fun x => exp (- (x ^ 2 / 2))) (sqrt (2 * PI) / 2).
Proof.
  pose proof PI_RGT_0 as Pp.
  assert (W : integral 0 p_infty (fun x => x * gint (1/2) (x ^ 2 / 2)) (exp (lg (1/2)))).
  { apply (integral_subst 0 p_infty 0 p_infty (gint (1/2)) (fun x => x ^ 2 / 2) (fun x => x)); [| | | | |apply HG; lra].
    - intros x [X _]. cbn in X. split; [|exact Logic.I]. cbn -[pow]. assert (0 < x ^ 2) by (apply pow_lt, X). lra.
    - intros x _. split; [auto_derive; [exact Logic.I|field]|apply continuous_id].
    - intros a0 [X _]. cbn in X. exists (Rmin 1 a0). assert (M : 0 < Rmin 1 a0) by (apply Rmin_glb_lt; lra). split; [split; [exact M|exact Logic.I]|].
      intros c C1 C2. cbn in C1. pose proof (Rmin_l 1 a0). pose proof (Rmin_r 1 a0). replace (c ^ 2) with (c * c) by ring. nra.
    - intros b0 [X _]. cbn in X. exists (2 + 2 * b0). split; [split; [cbn; lra|exact Logic.I]|]. intros d D _. replace (d ^ 2) with (d * d) by ring. nra.
    - intros x [X _]. apply gint_cont, X. }
  apply (integral_scal _ _ (/ sqrt 2)) in W. pose proof (sqrt_lt_R0 2 ltac:(lra)) as S2. pose proof (sqrt_lt_R0 PI Pp) as SP.
  apply (integral_eq _ _ _ _ (sqrt (2 * PI) / 2)) in W; [revert W; apply integral_ext|].
  2:{ rewrite lg_half. replace (exp (ln PI / 2)) with (sqrt PI).
    2:{ rewrite <- (exp_ln (sqrt PI)) by exact SP. f_equal. rewrite <- (sqrt_sqrt PI) at 2 by lra. rewrite ln_mult by exact SP. field. }
    rewrite sqrt_mult by lra. apply (Rmult_eq_reg_l (sqrt 2)); [|lra].
    replace (sqrt 2 * (/ sqrt 2 * sqrt PI)) with (sqrt PI) by (field; lra).
    replace (sqrt 2 * (sqrt 2 * sqrt PI / 2)) with ((sqrt 2 * sqrt 2) * sqrt PI / 2) by field. rewrite sqrt_sqrt by lra. field. }
  - intros x [X _]. cbn in X. unfold gint.
    assert (E : Rpower (x ^ 2 / 2) (1 / 2 - 1) = sqrt 2 / x).
    { assert (0 < x ^ 2) by (apply pow_lt, X). replace (1 / 2 - 1) with (- / 2) by field. rewrite Rpower_Ropp. rewrite Rpower_sqrt by lra.
      unfold Rdiv at 1. rewrite sqrt_mult by lra. replace (x ^ 2) with (x * x) by ring. rewrite sqrt_square by lra. replace (sqrt (/ 2)) with (/ sqrt 2) by (symmetry; apply sqrt_inv). field. lra. }
    rewrite E. field. lra.
Qed.
End LG.
Lemma gauss_total : integral m_infty p_infty (fun x => exp (- (x ^ 2 / 2))) (sqrt (2 * PI)).
Proof.
  destruct log_gamma_exists as [lg HG]. replace (sqrt (2 * PI)) with (2 * (sqrt (2 * PI) / 2)) by field.
  apply integral_even; [| |apply (gauss_half lg HG)].
  - intros x. apply (ex_derive_continuous (V := R_NormedModule)). auto_derive. exact Logic.I.
  - intros x. do 3 f_equal. ring.
Qed.
Lemma gauss_cont x : continuous (fun x => exp (- (x ^ 2 / 2))) x.
Proof. apply (ex_derive_continuous (V := R_NormedModule)). auto_derive. exact Logic.I. Qed.
Lemma gauss_first : integral m_infty p_infty (fun x => x * exp (- (x ^ 2 / 2))) 0.
Proof.
  apply (integral_odd _ (0 - - 1)).
  - intros x. apply (ex_derive_continuous (V := R_NormedModule)). auto_derive. exact Logic.I.
  - intros x. replace ((- x) ^ 2) with (x ^ 2) by ring. ring.
  - apply (integral_derive 0 p_infty (fun x => - exp (- (x ^ 2 / 2)))).
    + intros x _. auto_derive; [exact Logic.I|]. match goal with |- ?l = ?r => change (@eq R l r) end. unfold Rdiv. cbn [pow]. field.
    + intros x _. apply (ex_derive_continuous (V := R_NormedModule)). auto_derive. exact Logic.I.
    + intros eps E. set (m := Rmin 1 eps). assert (M : 0 < m) by (apply Rmin_glb_lt; lra). assert (m <= 1) by apply Rmin_l. assert (m <= eps) by apply Rmin_r.
      exists m. split; [split; [exact M|exact Logic.I]|]. intros a Ha La. cbn in Ha. pose proof (exp_ineq1_le (- (a ^ 2 / 2))).
      assert (exp (- (a ^ 2 / 2)) < 1) by (rewrite <- exp_0; apply exp_increasing; assert (0 < a ^ 2) by (apply pow_lt, Ha); lra).
      assert (a ^ 2 <= a) by (replace (a ^ 2) with (a * a) by ring; nra). rewrite Rabs_right; lra.
    + intros eps E. set (m := 2 + 2 / eps). assert (0 < 2 / eps) by (apply Rdiv_lt_0_compat; lra). exists m. split; [split; [cbn; unfold m; lra|exact Logic.I]|].
      intros b Hb _. unfold m in Hb. rewrite Rminus_0_r, Rabs_Ropp, Rabs_right by (left; apply exp_pos).
      assert (0 < b ^ 2) by (apply pow_lt; lra). apply Rle_lt_trans with (/ (b ^ 2 / 2)); [apply exp_neg_le; lra|].
      assert (b <= b ^ 2 / 2) by (replace (b ^ 2) with (b * b) by ring; nra).
      apply Rle_lt_trans with (/ b); [apply Rinv_le_contravar; lra|]. apply Rlt_le_trans with (/ (2 / eps)); [apply Rinv_lt_contravar; [apply Rmult_lt_0_compat; lra|lra]|].
      replace (/ (2 / eps)) with (eps / 2) by (field; lra). lra.
Qed.
Lemma gauss_second : integral m_infty p_infty (fun x => x ^ 2 * exp (- (x ^ 2 / 2))) (sqrt (2 * PI)).
Proof.
  assert (Z : integral m_infty p_infty (fun x => (1 - x ^ 2) * exp (- (x ^ 2 / 2))) (2 * (0 - 0))).
  { apply integral_even.
    - intros x. apply (ex_derive_continuous (V := R_NormedModule)). auto_derive. exact Logic.I.
    - intros x. replace ((- x) ^ 2) with (x ^ 2) by ring. ring.
    - apply (integral_derive 0 p_infty (fun x => x * exp (- (x ^ 2 / 2)))).
      + intros x _. auto_derive; [exact Logic.I|]. match goal with |- ?l = ?r => change (@eq R l r) end. unfold Rdiv. cbn [pow]. field.
      + intros x _. apply (ex_derive_continuous (V := R_NormedModule)). auto_derive. exact Logic.I.
      + intros eps E. exists (eps / 2). split; [split; [cbn; lra|exact Logic.I]|]. intros a Ha La. cbn in Ha.
        assert (exp (- (a ^ 2 / 2)) < 1) by (rewrite <- exp_0; apply exp_increasing; assert (0 < a ^ 2) by (apply pow_lt, Ha); lra).
        pose proof (exp_pos (- (a ^ 2 / 2))). rewrite Rminus_0_r, Rabs_right by nra. nra.
      + intros eps E. assert (0 < 4 / eps) by (apply Rdiv_lt_0_compat; lra). exists (4 / eps). split; [split; [cbn; assumption|exact Logic.I]|].
        intros b Hb _. pose proof (exp_pos (- (b ^ 2 / 2))). rewrite Rminus_0_r, Rabs_right by nra.
        assert (0 < b ^ 2) by (apply pow_lt; lra). apply Rle_lt_trans with (b * / (b ^ 2 / 2)).
        * apply Rmult_le_compat_l; [lra|]. apply exp_neg_le. lra.
        * replace (b * / (b ^ 2 / 2)) with (2 * / b) by (field; lra). apply Rle_lt_trans with (2 * / (4 / eps)).
          { apply Rmult_le_compat_l; [lra|]. apply Rinv_le_contravar; lra. }
          replace (2 * / (4 / eps)) with (eps / 2) by (field; lra). lra. }
  pose proof (integral_minus _ _ _ _ _ _ gauss_total Z) as W. apply (integral_eq _ _ _ _ (sqrt (2 * PI))) in W; [|ring].
  revert W. apply integral_ext. intros x _. ring.
Qed.
(** * Normal *)
Lemma sqrt_2pi_pos : 0 < sqrt (2 * PI).
Proof. apply sqrt_lt_R0. pose proof PI_RGT_0. lra. Qed.
Lemma normal_pdf_total m s : 0 < s -> integral m_infty p_infty (normal_pdf m s) 1.
Proof.
  intros P. pose proof sqrt_2pi_pos as Q. pose proof (integral_affine _ _ m s P gauss_cont gauss_total) as H.
  apply (integral_scal _ _ (/ sqrt (2 * PI))) in H. rewrite Rinv_l in H by lra. revert H. apply integral_ext. intros x _. unfold normal_pdf.
  replace ((x - m) ^ 2 / (2 * s ^ 2)) with (((x - m) / s) ^ 2 / 2) by (field; lra). field. lra.
Qed.
Lemma normal_pdf_centred m s : 0 < s -> integral m_infty p_infty (fun x => (x - m) * normal_pdf m s x) 0.
Proof.
  intros P. pose proof sqrt_2pi_pos as Q.
  assert (C : forall x, continuous (fun x => x * exp (- (x ^ 2 / 2))) x) by (intros x; apply (ex_derive_continuous (V := R_NormedModule)); auto_derive; exact Logic.I).
  pose proof (integral_affine _ _ m s P C gauss_first) as H.
  apply (integral_scal _ _ (s / sqrt (2 * PI))) in H. rewrite Rmult_0_r in H. revert H. apply integral_ext. intros x _. unfold normal_pdf.
  replace ((x - m) ^ 2 / (2 * s ^ 2)) with (((x - m) / s) ^ 2 / 2) by (field; lra). field. lra.
Qed.
Lemma normal_pdf_mean m s : 0 < s -> integral m_infty p_infty (fun x => x * normal_pdf m s x) m.
Proof.
  intros P. pose proof (integral_plus _ _ _ _ _ _ (normal_pdf_centred m s P) (integral_scal _ _ m _ _ (normal_pdf_total m s P))) as H.
  rewrite Rmult_1_r, Rplus_0_l in H. revert H. apply integral_ext. intros x _. ring.
Qed.
Lemma normal_pdf_variance m s : 0 < s -> integral m_infty p_infty (fun x => (x - m) ^ 2 * normal_pdf m s x) (s * s).
Proof.
  intros P. pose proof sqrt_2pi_pos as Q.
  assert (C : forall x, continuous (fun x => x ^ 2 * exp (- (x ^ 2 / 2))) x) by (intros x; apply (ex_derive_continuous (V := R_NormedModule)); auto_derive; exact Logic.I).
  pose proof (integral_affine _ _ m s P C gauss_second) as H.
  apply (integral_scal _ _ (s * s / sqrt (2 * PI))) in H. apply (integral_eq _ _ _ _ (s * s)) in H; [|field; lra].
  revert H. apply integral_ext. intros x _. unfold normal_pdf.
  replace ((x - m) ^ 2 / (2 * s ^ 2)) with (((x - m) / s) ^ 2 / 2) by (field; lra). field. lra.
Qed.
(** * Exponential *)
Lemma exponential_is_gamma lg l x : lg_is_log_gamma lg -> 0 < l -> 0 < x -> gamma_pdf lg 1 l x = exponential_pdf l x.
Proof.
  intros HG P X. unfold gamma_pdf, exponential_pdf. rewrite (lg_one lg HG), exp_0, Rpower_1 by exact P. replace (1 - 1) with 0 by ring.
  rewrite Rpower_O by exact X. field.
Qed.
Lemma exponential_pdf_moments l : 0 < l -> integral 0 p_infty (exponential_pdf l) 1 /\
  integral 0 p_infty (fun x => x * exponential_pdf l x) (/ l) /\
  integral 0 p_infty (fun x => (x - / l) ^ 2 * exponential_pdf l x) (/ l * / l).
Proof.
  intros P. destruct log_gamma_exists as [lg HG].
  pose proof (gamma_pdf_total lg HG 1 l ltac:(lra) P) as H0. pose proof (gamma_pdf_mean lg HG 1 l ltac:(lra) P) as H1.
  pose proof (gamma_pdf_variance lg HG 1 l ltac:(lra) P) as H2. split; [|split].
  - revert H0. apply integral_ext. intros x [X _]. apply exponential_is_gamma; assumption.
  - apply (integral_eq _ _ _ _ (/ l)) in H1; [|field; lra]. revert H1. apply integral_ext. intros x [X _]. rewrite exponential_is_gamma by assumption. reflexivity.
  - apply (integral_eq _ _ _ _ (/ l * / l)) in H2; [|field; lra]. revert H2. apply integral_ext. intros x [X _]. rewrite exponential_is_gamma by assumption.
    replace (1 / l) with (/ l) by (field; lra). reflexivity.
Qed.
(** * Cauchy *)
Lemma atan_half : integral 0 p_infty (fun x => / (1 + x ^ 2)) (PI / 2).
Proof.
  generalize inv_square_half. apply integral_ext. intros x _. assert (0 <= x ^ 2) by apply pow2_ge_0.
  replace (- (1/2 + 1/2)) with (- (1)) by field. rewrite Rpower_Ropp, Rpower_1 by lra. reflexivity.
Qed.
Lemma cauchy_pdf_total m s : 0 < s -> integral m_infty p_infty (cauchy_pdf m s) 1.
Proof.
  intros P. pose proof PI_RGT_0 as Q.
  assert (C : forall x, continuous (fun x => / (1 + x ^ 2)) x).
  { intros x. assert (0 <= x ^ 2) by apply pow2_ge_0. apply (ex_derive_continuous (V := R_NormedModule)). auto_derive. cbn in *. lra. }
  assert (E : integral m_infty p_infty (fun x => / (1 + x ^ 2)) (2 * (PI / 2))).
  { apply integral_even; [exact C| |apply atan_half]. intros x. do 2 f_equal. ring. }
  pose proof (integral_affine _ _ m s P C E) as H. apply (integral_scal _ _ (/ PI)) in H. apply (integral_eq _ _ _ _ 1) in H; [|field; lra].
  revert H. apply integral_ext. intros x _. unfold cauchy_pdf. assert (0 <= ((x - m) / s) ^ 2) by apply pow2_ge_0.
  set (u := ((x - m) / s) ^ 2) in *. field. lra.
Qed.
