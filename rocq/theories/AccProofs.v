(** Accuracy of compiled expressions (C17). *)
From Coq Require Import ZArith Reals Bool String List Lia Lra.
From Coq Require Import Floats.SpecFloat.
From Flocq Require Import Core IEEE754.BinarySingleNaN.
From Verif Require Import Num ExprModel ExprSpec ConvModel FloatFacts ConvProofs JitModel JitSpec JitProofs JitProofs2
  EggSpec LitFacts EggNum FloatErr JitBits JitAcc JitAcc2 AccSpec.
Import ListNotations.
Local Open Scope R_scope.

#[local] Instance Hprec64 : FLX.Prec_gt_0 53 := eq_refl _.
#[local] Instance Hmax64 : Prec_lt_emax 53 1024 := eq_refl _.

Lemma step_ok w v m d : Rabs v = m -> Rabs (w - v) <= d -> no_overflow (m + d) ->
  Rabs (RN w) < bpow radix2 1024 /\ Rabs (RN w - v) <= step m d.
Proof.
  intros V W O. unfold no_overflow in O.
  assert (WA : Rabs w <= m + d).
  { replace w with (v + (w - v)) by ring. eapply Rle_trans; [apply Rabs_triang|]. lra. }
  split; [apply (RN_small w 1000); [lia|lra]|]. unfold step.
  replace (RN w - v) with ((RN w - w) + (w - v)) by ring. eapply Rle_trans; [apply Rabs_triang|].
  pose proof (RN_abs w) as R. assert (Rabs w / 2 ^ 53 <= (m + d) / 2 ^ 53) by (apply Rmult_le_compat_r; lra). lra.
Qed.

Lemma sqrt_num x : is_num x -> 0 <= val x -> is_num (f64_sqrt x) /\ val (f64_sqrt x) = RN (sqrt (val x)).
Proof.
  intros N P. destruct (num_B x N) as (b & -> & F & V). rewrite <- V in *. unfold f64_sqrt. rewrite (sqrt_equiv 53 1024 Hprec64 Hmax64).
  destruct (Bsqrt_correct 53 1024 Hprec64 Hmax64 mode_NE b) as (C1 & C2 & _).
  assert (FF : is_finite (Bsqrt mode_NE b) = true).
  { rewrite C2. destruct b as [s|s| |[|] m e B]; try discriminate F; try reflexivity.
    exfalso. cbn [B2R] in P. unfold F2R in P. cbn [Fnum Fexp cond_Zopp] in P. rewrite opp_IZR in P.
    pose proof (bpow_gt_0 radix2 e). assert (0 < IZR (Zpos m)) by (apply (IZR_lt 0); lia).
    assert (0 < IZR (Zpos m) * bpow radix2 e) by (apply Rmult_lt_0_compat; assumption). lra. }
  destruct (is_num_B _ FF) as [NN VV]. split; [exact NN|]. rewrite VV, C1. reflexivity.
Qed.

Lemma neg_num x : is_num x -> is_num (SFopp x) /\ val (SFopp x) = - val x.
Proof. intros [V F]. split; [split; [rewrite valid_opp; exact V|destruct x; exact F]|apply val_opp]. Qed.

Lemma sin_lip a b : Rabs (sin a - sin b) <= Rabs (a - b).
Proof.
  destruct (Req_dec a b) as [->|N]; [rewrite !Rminus_diag_eq by reflexivity; lra|].
  destruct (MVT_abs sin cos b a) as (c & E & _).
  - intros c _. apply derivable_pt_lim_sin.
  - rewrite E. rewrite <- (Rmult_1_l (Rabs (a - b))) at 2. apply Rmult_le_compat_r; [apply Rabs_pos|]. apply Rabs_le. apply COS_bound.
Qed.
Lemma cos_lip a b : Rabs (cos a - cos b) <= Rabs (a - b).
Proof.
  destruct (Req_dec a b) as [->|N]; [rewrite !Rminus_diag_eq by reflexivity; lra|].
  destruct (MVT_abs cos (fun x => - sin x) b a) as (c & E & _).
  - intros c _. apply derivable_pt_lim_cos.
  - rewrite E. rewrite <- (Rmult_1_l (Rabs (a - b))) at 2. apply Rmult_le_compat_r; [apply Rabs_pos|]. rewrite Rabs_Ropp. apply Rabs_le. apply SIN_bound.
Qed.
Lemma ln_lip a v d : 0 < a - d -> Rabs (v - a) <= d -> Rabs (ln v - ln a) <= d / (a - d).
Proof.
  intros P H. apply Rabs_le_inv in H.
  assert (D : forall s t, a - d <= s -> s <= t -> ln t - ln s <= (t - s) / (a - d)).
  { intros s t S T. replace (ln t - ln s) with (ln (t / s)).
    2:{ unfold Rdiv. rewrite ln_mult, ln_Rinv; [ring|lra|lra|apply Rinv_0_lt_compat; lra]. }
    apply Rle_trans with (t / s - 1).
    - pose proof (exp_ineq1_le (ln (t / s))) as E. rewrite exp_ln in E; [lra|]. apply Rdiv_lt_0_compat; lra.
    - replace (t / s - 1) with ((t - s) / s) by (field; lra). unfold Rdiv. apply Rmult_le_compat_l; [lra|]. apply Rinv_le_contravar; lra. }
  assert (M : forall u, 0 <= u <= d -> u / (a - d) <= d / (a - d)).
  { intros u U. unfold Rdiv. apply Rmult_le_compat_r; [apply Rlt_le, Rinv_0_lt_compat; lra|lra]. }
  apply Rabs_le. destruct (Rle_dec a v) as [L|L].
  - pose proof (D a v ltac:(lra) L). pose proof (M (v - a) ltac:(lra)).
    assert (0 <= ln v - ln a). { destruct (Req_dec a v) as [->|]; [lra|]. pose proof (ln_increasing a v ltac:(lra) ltac:(lra)). lra. }
    assert (0 <= d / (a - d)) by (apply Rmult_le_pos; [lra|apply Rlt_le, Rinv_0_lt_compat; lra]). lra.
  - pose proof (D v a ltac:(lra) ltac:(lra)). pose proof (M (a - v) ltac:(lra)).
    pose proof (ln_increasing v a ltac:(lra) ltac:(lra)). lra.
Qed.

Lemma power_code_value rho b p e : power_code b p = Some e -> jit_value rho (Pow b p) = jit_value rho e.
Proof.
  unfold power_code. intros H.
  assert (G : forall q, jit_value rho (Exp (Mul q (Ln b))) = obnd (jit_value rho b) (fun x => obnd (jit_value rho q) (jit_powf x))).
  { intros q. cbn [jit_value]. destruct (jit_value rho b), (jit_value rho q); reflexivity. }
  destruct p; try (injection H as <-; rewrite G; cbn [jit_value]; reflexivity).
  match type of H with context [SFeqb ?k (f64_of_Z 2)] => rename k into c end.
  cbn [jit_value]; cbv zeta.
  destruct (SFeqb c (f64_of_Z 2)). { injection H as <-. cbn [jit_value]. cbv zeta. destruct (jit_value rho b); reflexivity. }
  destruct (SFeqb c (f64_of_Z 3)). { injection H as <-. cbn [jit_value]. cbv zeta. destruct (jit_value rho b); reflexivity. }
  destruct (SFeqb c (f64_of_Z 4)). { injection H as <-. cbn [jit_value]. cbv zeta. destruct (jit_value rho b); reflexivity. }
  destruct (SFeqb c (f64_lit 5 10)). { injection H as <-. cbn [jit_value]. cbv zeta. destruct (jit_value rho b); reflexivity. }
  destruct (SFeqb c (f64_of_Z 1)). { injection H as <-. destruct (jit_value rho b); reflexivity. }
  destruct (SFeqb c (S754_zero false)); [discriminate|]. injection H as <-. rewrite G. cbn [jit_value]. reflexivity.
Qed.
Lemma power_code_zero rho b c v : power_code b (Const c) = None -> jit_value rho b = Some v ->
  jit_value rho (Pow b (Const c)) = Some (f64_of_Z 1) /\ SFeqb c (S754_zero false) = true.
Proof.
  cbn [power_code jit_value]. cbv zeta. intros H ->. cbn [obnd].
  destruct (SFeqb c (f64_of_Z 2)); [discriminate|]. destruct (SFeqb c (f64_of_Z 3)); [discriminate|].
  destruct (SFeqb c (f64_of_Z 4)); [discriminate|]. destruct (SFeqb c (f64_lit 5 10)); [discriminate|].
  destruct (SFeqb c (f64_of_Z 1)); [discriminate|]. destruct (SFeqb c (S754_zero false)); [|discriminate]. split; reflexivity.
Qed.

Lemma pow_mono x y n : 0 <= x <= y -> x ^ n <= y ^ n.
Proof. intros [A B]. apply pow_incr. lra. Qed.

Theorem accurate_value rho e r d : accurate rho e r d ->
  exists w, jit_value rho e = Some w /\ is_num w /\ Rabs (val w - r) <= d.
Proof.
  intros H. induction H; cbn [jit_value]; cbv zeta.
  - exists c. repeat split; try apply H. rewrite Rminus_diag_eq, Rabs_R0 by reflexivity. lra.
  - exists (rho x). repeat split; try apply H. rewrite Rminus_diag_eq, Rabs_R0 by reflexivity. lra.
  - destruct IHaccurate1 as (u & -> & NU & U), IHaccurate2 as (v & -> & NV & V). cbn [obnd].
    assert (K : Rabs (val u + val v - (a + b)) <= d + e).
    { replace (val u + val v - (a + b)) with ((val u - a) + (val v - b)) by ring. eapply Rle_trans; [apply Rabs_triang|]. lra. }
    destruct (step_ok _ _ _ _ eq_refl K H1) as [O S]. destruct (add_num _ _ NU NV O) as [N W].
    eexists. split; [reflexivity|]. split; [exact N|]. rewrite W. exact S.
  - destruct IHaccurate1 as (u & -> & NU & U), IHaccurate2 as (v & -> & NV & V). cbn [obnd].
    assert (K : Rabs (val u - val v - (a - b)) <= d + e).
    { replace (val u - val v - (a - b)) with ((val u - a) + - (val v - b)) by ring. eapply Rle_trans; [apply Rabs_triang|]. rewrite Rabs_Ropp. lra. }
    destruct (step_ok _ _ _ _ eq_refl K H1) as [O S]. destruct (sub_num _ _ NU NV O) as [N W].
    eexists. split; [reflexivity|]. split; [exact N|]. rewrite W. exact S.
  - destruct IHaccurate1 as (u & -> & NU & U), IHaccurate2 as (v & -> & NV & V). cbn [obnd].
    assert (K : Rabs (val u * val v - a * b) <= d').
    { replace (val u * val v - a * b) with ((val u - a) * b + a * (val v - b) + (val u - a) * (val v - b)) by ring.
      eapply Rle_trans; [apply Rabs_triang|]. unfold d'. apply Rplus_le_compat.
      - eapply Rle_trans; [apply Rabs_triang|]. rewrite !Rabs_mult. apply Rplus_le_compat; apply Rmult_le_compat; try apply Rabs_pos; lra.
      - rewrite Rabs_mult. apply Rmult_le_compat; try apply Rabs_pos; lra. }
    destruct (step_ok _ _ _ _ eq_refl K H1) as [O S]. destruct (mul_num _ _ NU NV O) as [N W].
    eexists. split; [reflexivity|]. split; [exact N|]. rewrite W. exact S.
  - destruct IHaccurate1 as (u & -> & NU & U), IHaccurate2 as (v & -> & NV & V). cbn [obnd].
    assert (VA : Rabs b - e <= Rabs (val v)).
    { replace b with (val v + - (val v - b)) by ring. pose proof (Rabs_triang (val v) (- (val v - b))). rewrite Rabs_Ropp in *. lra. }
    assert (BZ : b <> 0) by (intros ->; rewrite Rabs_R0 in *; pose proof (Rabs_pos (val v - 0)); lra).
    assert (VZ : val v <> 0) by (intros E; rewrite E, Rabs_R0 in VA; lra).
    assert (K : Rabs (val u / val v - a / b) <= d').
    { replace (val u / val v - a / b) with (((val u - a) - a / b * (val v - b)) / val v) by (field; split; assumption).
      unfold d', Rdiv at 1. rewrite Rabs_mult. unfold Rdiv at 2. apply Rmult_le_compat; try apply Rabs_pos.
      - unfold Rminus at 1. eapply Rle_trans; [apply Rabs_triang|]. rewrite Rabs_Ropp, Rabs_mult. apply Rplus_le_compat; [exact U|].
        apply Rmult_le_compat_l; [apply Rabs_pos|exact V].
      - rewrite Rabs_inv. apply Rinv_le_contravar; lra. }
    destruct (step_ok _ _ _ _ eq_refl K H2) as [O S]. destruct (div_num _ _ NU NV VZ O) as [N W].
    eexists. split; [reflexivity|]. split; [exact N|]. rewrite W. exact S.
  - destruct IHaccurate as (u & -> & NU & U). cbn [obnd]. destruct (neg_num u NU) as [N W].
    eexists. split; [reflexivity|]. split; [exact N|]. rewrite W. replace (- val u - - a) with (- (val u - a)) by ring. rewrite Rabs_Ropp. exact U.
  - destruct IHaccurate as (u & -> & NU & U). cbn [obnd]. pose proof (Rabs_le_inv _ _ U) as UB.
    assert (UP : 0 <= val u) by lra. destruct (sqrt_num u NU UP) as [N W].
    eexists. split; [reflexivity|]. split; [exact N|]. rewrite W. pose proof (sqrt_lt_R0 a H0) as SA. pose proof (sqrt_pos (val u)) as SU.
    assert (K : Rabs (sqrt (val u) - sqrt a) <= d / sqrt a).
    { replace (sqrt (val u) - sqrt a) with ((val u - a) / (sqrt (val u) + sqrt a)).
      2:{ rewrite <- (sqrt_sqrt (val u)) at 1 by exact UP. rewrite <- (sqrt_sqrt a) at 1 by lra. field. lra. }
      unfold Rdiv. rewrite Rabs_mult, Rabs_inv, (Rabs_pos_eq (sqrt (val u) + sqrt a)) by lra.
      apply Rmult_le_compat; [apply Rabs_pos|apply Rlt_le, Rinv_0_lt_compat; lra|exact U|apply Rinv_le_contravar; lra]. }
    destruct (step_ok _ _ (sqrt a) _ (Rabs_pos_eq _ (Rlt_le _ _ SA)) K H2) as [O S]. exact S.
  - destruct IHaccurate as (u & -> & NU & U). cbn [obnd]. pose proof (Rabs_le_inv _ _ U) as UB. pose proof (bpow_gt_0 radix2 (-1022)) as BP.
    destruct (jit_ln_acc u) as [N W]. { split; [exact NU|lra]. }
    eexists. split; [reflexivity|]. split; [exact N|].
    replace (val (jit_ln u) - ln a) with ((val (jit_ln u) - ln (val u)) + (ln (val u) - ln a)) by ring.
    eapply Rle_trans; [apply Rabs_triang|]. apply Rplus_le_compat; [exact W|]. apply ln_lip; [lra|exact U].
  - destruct IHaccurate as (u & -> & NU & U). cbn [obnd]. pose proof (Rabs_le_inv _ _ U) as UB.
    destruct (jit_exp_acc u NU ltac:(lra)) as (w & -> & NW & W). exists w. split; [reflexivity|]. split; [exact NW|].
    assert (E1 : exp (val u) <= exp a * exp d) by (rewrite <- exp_plus; apply exp_le; lra).
    assert (E2 : exp a <= exp (val u) * exp d) by (rewrite <- exp_plus; apply exp_le; lra).
    pose proof (exp_pos a). pose proof (exp_pos (val u)). pose proof (exp_pos d).
    assert (D1 : 1 <= exp d) by (pose proof (exp_ineq1_le d); pose proof (Rabs_pos (val u - a)); lra).
    assert (E3 : exp a * (2 - exp d) <= exp (val u)).
    { apply (Rmult_le_reg_r (exp d)); [lra|]. eapply Rle_trans; [|exact E2]. rewrite Rmult_assoc.
      rewrite <- (Rmult_1_r (exp a)) at 2. apply Rmult_le_compat_l; [lra|]. nra. }
    apply Rabs_le_inv in W. apply Rabs_le. lra.
  - destruct IHaccurate as (u & -> & NU & U). cbn [obnd].
    assert (UM : Rabs (val u) <= m).
    { unfold m. replace (val u) with (a + (val u - a)) by ring. eapply Rle_trans; [apply Rabs_triang|]. lra. }
    destruct (jit_sin_acc u NU ltac:(lra)) as [N W]. eexists. split; [reflexivity|]. split; [exact N|].
    replace (val (jit_sin u) - sin a) with ((sin (val u) - sin a) + (val (jit_sin u) - sin (val u))) by ring.
    eapply Rle_trans; [apply Rabs_triang|]. apply Rplus_le_compat; [eapply Rle_trans; [apply sin_lip|exact U]|].
    eapply Rle_trans; [exact W|]. pose proof (Rabs_pos (val u)) as P.
    pose proof (pow_mono _ _ 7 (conj P UM)). pose proof (pow_mono _ _ 3 (conj P UM)). pose proof (pow_mono _ _ 5 (conj P UM)). lra.
  - destruct IHaccurate as (u & -> & NU & U). cbn [obnd].
    assert (UM : Rabs (val u) <= m).
    { unfold m. replace (val u) with (a + (val u - a)) by ring. eapply Rle_trans; [apply Rabs_triang|]. lra. }
    destruct (jit_cos_acc u NU ltac:(lra)) as [N W]. eexists. split; [reflexivity|]. split; [exact N|].
    replace (val (jit_cos u) - cos a) with ((cos (val u) - cos a) + (val (jit_cos u) - cos (val u))) by ring.
    eapply Rle_trans; [apply Rabs_triang|]. apply Rplus_le_compat; [eapply Rle_trans; [apply cos_lip|exact U]|].
    eapply Rle_trans; [exact W|]. pose proof (Rabs_pos (val u)) as P.
    pose proof (pow_mono _ _ 6 (conj P UM)). pose proof (pow_mono _ _ 4 (conj P UM)). lra.
  - pose proof (power_code_value rho b p e H) as E. cbn [jit_value] in E. cbv zeta in E. rewrite E. exact IHaccurate.
  - destruct IHaccurate as (u & E & NU & U). destruct (power_code_zero rho b c u H E) as [Z _]. cbn [jit_value] in Z. cbv zeta in Z.
    exists (f64_of_Z 1). split; [exact Z|]. split; [split; vm_compute; reflexivity|].
    change (val (f64_of_Z 1)) with (val c1). rewrite c1_val, Rminus_diag_eq, Rabs_R0 by reflexivity. lra.
  - destruct IHaccurate as (u & E & NU & U). exists u. repeat split; try apply NU; [exact E|lra].
Qed.

(** * The exact value is the real value of the expression *)
Lemma power_is_fun a q r s : power_is a q r -> power_is a q s -> r = s.
Proof.
  assert (PN : forall n, 0 < a -> Rpower a (INR n) = a ^ n) by (intros n H; apply Rpower_pow, H).
  assert (PH : 0 < a -> Rpower a (/ 2) = sqrt a) by (intros H; apply Rpower_sqrt, H).
  assert (NH : forall n, INR n <> / 2).
  { intros n E. rewrite INR_IZR_INZ in E. assert (IZR (2 * Z.of_nat n) = 1) by (rewrite mult_IZR; lra). apply (eq_IZR _ 1) in H. lia. }
  intros [H|n Q|Q H] [K|m E|E K]; try reflexivity; subst; auto.
  all: try (symmetry; auto; fail).
  all: try (exfalso; match goal with X : _ = _ |- _ => first [exact (NH _ X) | exact (NH _ (eq_sym X))] end; fail).
  match goal with X : INR _ = INR _ |- _ => apply INR_eq in X; subst; reflexivity end.
Qed.
Lemma real_is_fun rho e : forall r s, real_is rho e r -> real_is rho e s -> r = s.
Proof.
  induction e; intros u v A B; inversion A; inversion B; subst;
    repeat match goal with
    | IH : forall r s, real_is rho ?e r -> real_is rho ?e s -> r = s, H1 : real_is rho ?e ?x, H2 : real_is rho ?e ?y |- _ =>
        lazymatch x with y => fail | _ => pose proof (IH _ _ H1 H2); subst end
    end; try reflexivity.
  eapply power_is_fun; eassumption.
Qed.

Lemma eqb_same c k : SFeqb c k = true -> finite k -> finite c /\ val c = val k.
Proof.
  unfold SFeqb. destruct c as [s|s| |s m e], k as [t|t| |t n f]; cbn [SFcompare]; intros H F;
    try discriminate H; try discriminate F; try (split; [reflexivity|]; try reflexivity).
  - destruct t; discriminate H.
  - destruct s; discriminate H.
  - destruct s, t; discriminate H.
  - destruct s; discriminate H.
  - destruct s, t; try discriminate H; destruct (Z.compare_spec e f) as [->|?|?]; try discriminate H;
      fold Pos.compare in H; change (Pos.compare_cont Eq m n) with (Pos.compare m n) in H;
      destruct (Pos.compare_spec m n) as [->|?|?]; try discriminate H; reflexivity.
Qed.
Lemma val_2 : finite (f64_of_Z 2) /\ val (f64_of_Z 2) = INR 2.
Proof.
  replace (f64_of_Z 2) with (S754_finite false 4503599627370496 (-51)) by (vm_compute; reflexivity). split; [reflexivity|].
  rewrite val_explicit. cbn [cond_Zopp INR]. change (bpow radix2 (-51)) with (/ 2251799813685248). lra.
Qed.
Lemma val_3 : finite (f64_of_Z 3) /\ val (f64_of_Z 3) = INR 3.
Proof.
  replace (f64_of_Z 3) with (S754_finite false 6755399441055744 (-51)) by (vm_compute; reflexivity). split; [reflexivity|].
  rewrite val_explicit. cbn [cond_Zopp INR]. change (bpow radix2 (-51)) with (/ 2251799813685248). lra.
Qed.
Lemma val_4 : finite (f64_of_Z 4) /\ val (f64_of_Z 4) = INR 4.
Proof.
  replace (f64_of_Z 4) with (S754_finite false 4503599627370496 (-50)) by (vm_compute; reflexivity). split; [reflexivity|].
  rewrite val_explicit. cbn [cond_Zopp INR]. change (bpow radix2 (-50)) with (/ 1125899906842624). lra.
Qed.
Lemma val_1 : finite (f64_of_Z 1) /\ val (f64_of_Z 1) = INR 1.
Proof. split; [vm_compute; reflexivity|]. apply c1_val. Qed.
Lemma val_half : finite (f64_lit 5 10) /\ val (f64_lit 5 10) = / 2.
Proof.
  replace (f64_lit 5 10) with (S754_finite false 4503599627370496 (-53)) by (vm_compute; reflexivity). split; [reflexivity|].
  rewrite val_explicit. cbn [cond_Zopp]. change (bpow radix2 (-53)) with (/ 9007199254740992). lra.
Qed.

Lemma power_code_real rho b p e r : power_code b p = Some e -> real_is rho e r -> real_is rho (Pow b p) r.
Proof.
  intros H R.
  assert (G : forall q s, real_is rho (Exp (Mul q (Ln b))) s -> real_is rho (Pow b q) s).
  { intros q s X. inversion X as [| | | | | | | | |? m M E1 E2| | |]; subst. inversion M as [| | | |? ? y z Y Z E1 E2| | | | | | | |]; subst.
    inversion Z as [| | | | | | | |? a A P E1 E2| | | |]; subst. apply (re_pow rho b q a y); [exact A|exact Y|]. apply (pow_positive a y P). }
  unfold power_code in H.
  destruct p as [c| | | | | | | | | | | |]; try (injection H as <-; apply G, R).
  assert (PI : forall n k, SFeqb c k = true -> finite k /\ val k = INR n -> forall a, real_is rho b a -> real_is rho (Pow b (Const c)) (a ^ n)).
  { intros n k E [F V] a A. destruct (eqb_same c k E F) as [FC VC]. eapply re_pow; [exact A|apply re_const, FC|].
    apply pow_integer. rewrite VC. exact V. }
  destruct (SFeqb c (f64_of_Z 2)) eqn:E2.
  { injection H as <-. inversion R as [| | | |? ? x y X Y Q1 Q2| | | | | | | |]; subst. rewrite <- (real_is_fun _ _ _ _ X Y).
    replace (x * x) with (x ^ 2) by ring. apply (PI _ _ E2 val_2 x X). }
  destruct (SFeqb c (f64_of_Z 3)) eqn:E3.
  { injection H as <-. inversion R as [| | | |? ? z y Z Y Q1 Q2| | | | | | | |]; subst.
    inversion Z as [| | | |? ? x x' X X' Q1 Q2| | | | | | | |]; subst.
    rewrite <- (real_is_fun _ _ _ _ X Y), <- (real_is_fun _ _ _ _ X X').
    replace (x * x * x) with (x ^ 3) by ring. apply (PI _ _ E3 val_3 x X). }
  destruct (SFeqb c (f64_of_Z 4)) eqn:E4'.
  { injection H as <-. inversion R as [| | | |? ? z z' Z Z' Q1 Q2| | | | | | | |]; subst. rewrite <- (real_is_fun _ _ _ _ Z Z').
    inversion Z as [| | | |? ? x x' X X' Q1 Q2| | | | | | | |]; subst. rewrite <- (real_is_fun _ _ _ _ X X').
    replace (x * x * (x * x)) with (x ^ 4) by ring. apply (PI _ _ E4' val_4 x X). }
  destruct (SFeqb c (f64_lit 5 10)) eqn:EH.
  { injection H as <-. inversion R as [| | | | | | |? a A P Q1 Q2| | | | |]; subst.
    destruct val_half as [F V]. destruct (eqb_same _ _ EH F) as [FC VC]. eapply re_pow; [exact A|apply re_const, FC|].
    apply pow_half; [rewrite VC; exact V|exact P]. }
  destruct (SFeqb c (f64_of_Z 1)) eqn:E1.
  { injection H as <-. rewrite <- (pow_1 r). apply (PI _ _ E1 val_1 r R). }
  destruct (SFeqb c (S754_zero false)) eqn:E0; [discriminate|]. injection H as <-. apply G, R.
Qed.

Theorem accurate_real rho e r d : accurate rho e r d -> real_is (fun x => val (rho x)) e r.
Proof.
  intros H. pose proof (accurate_value rho e r d H) as W. induction H.
  - apply re_const, H.
  - apply re_var.
  - apply re_add; [apply IHaccurate1|apply IHaccurate2]; eapply accurate_value; eassumption.
  - apply re_sub; [apply IHaccurate1|apply IHaccurate2]; eapply accurate_value; eassumption.
  - apply re_mul; [apply IHaccurate1|apply IHaccurate2]; eapply accurate_value; eassumption.
  - apply re_div; [apply IHaccurate1|apply IHaccurate2|]; try (eapply accurate_value; eassumption).
    intros ->. rewrite Rabs_R0 in *. destruct (accurate_value _ _ _ _ H0) as (v & _ & _ & V).
    pose proof (Rabs_pos (val v - 0)). lra.
  - apply re_neg, IHaccurate. eapply accurate_value; eassumption.
  - apply re_sqrt; [apply IHaccurate; eapply accurate_value; eassumption|lra].
  - apply re_ln; [apply IHaccurate; eapply accurate_value; eassumption|].
    destruct (accurate_value _ _ _ _ H) as (v & _ & _ & V). pose proof (Rabs_pos (val v - a)). pose proof (bpow_gt_0 radix2 (-1022)). lra.
  - apply re_exp, IHaccurate. eapply accurate_value; eassumption.
  - apply re_sin, IHaccurate. eapply accurate_value; eassumption.
  - apply re_cos, IHaccurate. eapply accurate_value; eassumption.
  - eapply power_code_real; [exact H|]. apply IHaccurate. eapply accurate_value; eassumption.
  - destruct (accurate_value _ _ _ _ H0) as (v & V & _). destruct (power_code_zero rho b c v H V) as [_ Z].
    destruct (eqb_same _ _ Z eq_refl) as [FC VC]. eapply re_pow; [apply IHaccurate; eapply accurate_value; eassumption|apply re_const, FC|].
    rewrite <- (pow_O a). apply pow_integer. rewrite VC. reflexivity.
  - apply IHaccurate. eapply accurate_value; eassumption.
Qed.

(** * Calls *)
Lemma invoke_value e ds ps cs f args : compile_expression e ds ps cs = JOk f ->
  List.length args = (List.length ds + List.length ps)%nat ->
  forall v, invoke f (map AFloat args) = Returned v <-> jit_value (total (expression_binding ds ps cs args)) e = Some v.
Proof.
  intros C L v. destruct (expression_code e ds ps cs f C) as [[_ I] _]. rewrite (I args L). unfold evaluates.
  destruct (jit_value _ e) as [w|]; split; intros H; try discriminate H; injection H as ->; reflexivity.
Qed.

Lemma operand_value op e ds ps cs f g args v :
  (forall rho, jit_value rho (op e) = obnd (jit_value rho e) (fun u => jit_value rho (op (Const u)))) ->
  compile_expression e ds ps cs = JOk g -> compile_expression (op e) ds ps cs = JOk f ->
  List.length args = (List.length ds + List.length ps)%nat -> invoke g (map AFloat args) = Returned v ->
  forall w, jit_value (total (expression_binding ds ps cs args)) (op (Const v)) = Some w ->
  invoke f (map AFloat args) = Returned w.
Proof.
  intros O G F L V w W. apply (invoke_value _ ds ps cs f args F L). rewrite O.
  apply (invoke_value _ ds ps cs g args G L) in V. rewrite V. exact W.
Qed.
Lemma ln_call e ds ps cs f g args v : compile_expression e ds ps cs = JOk g -> compile_expression (Ln e) ds ps cs = JOk f ->
  List.length args = (List.length ds + List.length ps)%nat -> invoke g (map AFloat args) = Returned v ->
  is_num v -> bpow radix2 (-1022) <= val v ->
  exists w, invoke f (map AFloat args) = Returned w /\ is_num w /\ Rabs (val w - ln (val v)) <= 4 / 10 ^ 12.
Proof.
  intros G F L V N P. destruct (jit_ln_acc v (conj N P)) as [NW W]. exists (jit_ln v). split; [|auto].
  apply (operand_value Ln e ds ps cs f g args v (fun _ => eq_refl) G F L V). reflexivity.
Qed.
Lemma exp_call e ds ps cs f g args v : compile_expression e ds ps cs = JOk g -> compile_expression (Exp e) ds ps cs = JOk f ->
  List.length args = (List.length ds + List.length ps)%nat -> invoke g (map AFloat args) = Returned v ->
  is_num v -> -708 <= val v <= 709 ->
  exists w, invoke f (map AFloat args) = Returned w /\ is_num w /\ Rabs (val w - exp (val v)) <= 3 / 10 ^ 12 * exp (val v).
Proof.
  intros G F L V N P. destruct (jit_exp_acc v N P) as (w & E & NW & W). exists w. split; [|auto].
  apply (operand_value Exp e ds ps cs f g args v (fun _ => eq_refl) G F L V). exact E.
Qed.
Lemma sin_call e ds ps cs f g args v : compile_expression e ds ps cs = JOk g -> compile_expression (Sin e) ds ps cs = JOk f ->
  List.length args = (List.length ds + List.length ps)%nat -> invoke g (map AFloat args) = Returned v ->
  is_num v -> Rabs (val v) <= 4 ->
  exists w, invoke f (map AFloat args) = Returned w /\ is_num w /\
    Rabs (val w - sin (val v)) <= Rabs (val v) ^ 7 / 5040 + 34 / 10 ^ 13 * (Rabs (val v) ^ 3 + Rabs (val v) ^ 5) + / 10 ^ 13.
Proof.
  intros G F L V N P. destruct (jit_sin_acc v N P) as [NW W]. exists (jit_sin v). split; [|auto].
  apply (operand_value Sin e ds ps cs f g args v (fun _ => eq_refl) G F L V). reflexivity.
Qed.
Lemma cos_call e ds ps cs f g args v : compile_expression e ds ps cs = JOk g -> compile_expression (Cos e) ds ps cs = JOk f ->
  List.length args = (List.length ds + List.length ps)%nat -> invoke g (map AFloat args) = Returned v ->
  is_num v -> Rabs (val v) <= 2 ->
  exists w, invoke f (map AFloat args) = Returned w /\ is_num w /\
    Rabs (val w - cos (val v)) <= Rabs (val v) ^ 6 / 720 + 34 / 10 ^ 13 * Rabs (val v) ^ 4 + / 10 ^ 14.
Proof.
  intros G F L V N P. destruct (jit_cos_acc v N P) as [NW W]. exists (jit_cos v). split; [|auto].
  apply (operand_value Cos e ds ps cs f g args v (fun _ => eq_refl) G F L V). reflexivity.
Qed.
(** A power whose exponent is not one of the literals with code of their own. *)
Lemma power_call b p ds ps cs f g h args v q : compile_expression b ds ps cs = JOk g -> compile_expression p ds ps cs = JOk h ->
  compile_expression (Pow b p) ds ps cs = JOk f -> power_code b p = Some (Exp (Mul p (Ln b))) ->
  List.length args = (List.length ds + List.length ps)%nat ->
  invoke g (map AFloat args) = Returned v -> invoke h (map AFloat args) = Returned q ->
  is_num v -> bpow radix2 (-1022) <= val v -> is_num q -> Rabs (val q) * (Rabs (ln (val v)) + 1 / 10 ^ 11) <= 707 ->
  exists w, invoke f (map AFloat args) = Returned w /\ is_num w /\
    let eps := 4 / 10 ^ 12 * (1 + Rabs (val q)) in
    Rpower (val v) (val q) * exp (- eps) <= val w <= Rpower (val v) (val q) * exp eps.
Proof.
  intros G H F C L V Q NV P NQ B. destruct (jit_powf_acc v q (conj NV P) NQ B) as (w & E & NW & W). exists w. split; [|auto].
  apply (invoke_value _ ds ps cs f args F L). rewrite (power_code_value _ _ _ _ C). cbn [jit_value]. cbv zeta.
  apply (invoke_value _ ds ps cs g args G L) in V. apply (invoke_value _ ds ps cs h args H L) in Q. rewrite V, Q. exact E.
Qed.
Lemma accurate_call e ds ps cs f args r d : compile_expression e ds ps cs = JOk f ->
  List.length args = (List.length ds + List.length ps)%nat ->
  accurate (total (expression_binding ds ps cs args)) e r d ->
  real_is (fun x => val (total (expression_binding ds ps cs args) x)) e r /\
  exists w, invoke f (map AFloat args) = Returned w /\ is_num w /\ Rabs (val w - r) <= d.
Proof.
  intros F L A. split; [apply (accurate_real _ _ _ _ A)|]. destruct (accurate_value _ _ _ _ A) as (w & W & NW & B).
  exists w. split; [|auto]. apply (invoke_value _ ds ps cs f args F L), W.
Qed.

(** * A normal log-density *)
Lemma normal_acc (rho : string -> f64) : is_num (rho "x"%string) -> is_num (rho "mu"%string) -> is_num (rho "sigma"%string) ->
  let x := val (rho "x"%string) in let mu := val (rho "mu"%string) in let s := val (rho "sigma"%string) in
  Rabs x <= 100 -> Rabs mu <= 100 -> / 2 <= s <= 100 ->
  accurate rho normal_log_density
    (- / 2 * ((x - mu) / s * ((x - mu) / s)) - ln s - val (f64_lit 9189385332046727 10000000000000000)) (/ 10 ^ 10).
Proof.
  intros NX NM NS x mu s X M S.
  assert (OV : forall t, t <= 1000000 -> no_overflow t).
  { intros t T. unfold no_overflow. eapply Rle_trans; [exact T|]. apply Rle_trans with (bpow radix2 20); [|apply bpow_le; lia].
    change (bpow radix2 20) with 1048576. lra. }
  assert (ST : forall m d m' d', 0 <= m <= m' -> 0 <= d <= d' -> step m d <= d' + (m' + d') * (112 / 10 ^ 18) + / 10 ^ 40).
  { intros m d m' d' A B. unfold step. pose proof tiny40. assert ((m + d) / 2 ^ 53 <= (m' + d') * (112 / 10 ^ 18)).
    { unfold Rdiv at 1. apply Rmult_le_compat; lra. } lra. }
  assert (HALF : val (f64_lit (-5) 10) = - / 2 /\ is_num (f64_lit (-5) 10)).
  { replace (f64_lit (-5) 10) with (S754_finite true 4503599627370496 (-53)) by (vm_compute; reflexivity). split; [|split; reflexivity].
    rewrite val_explicit. cbn [cond_Zopp]. change (bpow radix2 (-53)) with (/ 9007199254740992). rewrite opp_IZR. lra. }
  destruct HALF as [HV HN].
  assert (LIT : 0 <= val (f64_lit 9189385332046727 10000000000000000) <= 1 /\ is_num (f64_lit 9189385332046727 10000000000000000)).
  { replace (f64_lit 9189385332046727 10000000000000000) with (S754_finite false 8277062471433908 (-53)) by (vm_compute; reflexivity).
    split; [|split; reflexivity]. rewrite val_explicit. cbn [cond_Zopp]. change (bpow radix2 (-53)) with (/ 9007199254740992). lra. }
  destruct LIT as [LV LN]. unfold normal_log_density.
  remember (f64_lit 9189385332046727 10000000000000000) as lit eqn:EL. clear EL.
  remember (f64_lit (-5) 10) as hf eqn:EH. clear EH.
  pose proof (ac_var rho _ NX) as AX. pose proof (ac_var rho _ NM) as AM. pose proof (ac_var rho _ NS) as AS. fold x in AX. fold mu in AM. fold s in AS.
  apply Rabs_le_inv in X, M. clearbody x mu s.
  set (a := x - mu). assert (AB : Rabs a <= 200) by (apply Rabs_le; unfold a; lra). pose proof (Rabs_pos a) as AP.
  assert (A1 : accurate rho (Sub (Var "x") (Var "mu")) a (23 / 10 ^ 15)).
  { eapply ac_weaken; [apply ac_sub; [exact AX|exact AM|]; fold a; apply OV; lra|]. fold a.
    eapply Rle_trans; [apply (ST _ _ 200 0); lra|]. lra. }
  assert (SA : Rabs s = s) by (apply Rabs_pos_eq; lra).
  assert (IS : 0 < / s <= 2). { split; [apply Rinv_0_lt_compat; lra|]. rewrite <- (Rinv_inv 2). apply Rinv_le_contravar; lra. }
  set (u := a / s). assert (UB : Rabs u <= 400).
  { unfold u, Rdiv. rewrite Rabs_mult, (Rabs_pos_eq (/ s)) by lra. apply Rle_trans with (200 * 2); [apply Rmult_le_compat; lra|lra]. }
  pose proof (Rabs_pos u) as UP.
  assert (A2 : accurate rho (Div (Sub (Var "x") (Var "mu")) (Var "sigma")) u (1 / 10 ^ 13)).
  { assert (Q : (23 / 10 ^ 15 + Rabs u * 0) / (Rabs s - 0) <= 46 / 10 ^ 15).
    { rewrite SA. unfold Rdiv at 1. replace (s - 0) with s by ring. apply Rle_trans with (23 / 10 ^ 15 * 2); [apply Rmult_le_compat; lra|lra]. }
    assert (Q0 : 0 <= (23 / 10 ^ 15 + Rabs u * 0) / (Rabs s - 0)).
    { rewrite SA. apply Rmult_le_pos; [lra|]. replace (s - 0) with s by ring. lra. }
    eapply ac_weaken; [apply ac_div; [exact A1|exact AS|rewrite SA; lra|]; fold u; apply OV; lra|]. fold u.
    eapply Rle_trans; [apply (ST _ _ 400 (46 / 10 ^ 15)); lra|]. lra. }
  assert (UU : 0 <= u * u <= 160000).
  { split; [apply Rle_0_sqr|]. replace (u * u) with (Rabs u * Rabs u) by (rewrite <- Rabs_mult; apply Rabs_pos_eq, Rle_0_sqr).
    apply Rle_trans with (400 * 400); [apply Rmult_le_compat; lra|lra]. }
  assert (A3 : accurate rho (Pow (Div (Sub (Var "x") (Var "mu")) (Var "sigma")) (Const (f64_of_Z 2))) (u * u) (1 / 10 ^ 10)).
  { apply (ac_pow rho _ _ (Mul (Div (Sub (Var "x") (Var "mu")) (Var "sigma")) (Div (Sub (Var "x") (Var "mu")) (Var "sigma")))).
    - unfold power_code. replace (SFeqb (f64_of_Z 2) (f64_of_Z 2)) with true by (vm_compute; reflexivity). reflexivity.
    - assert (UA : Rabs (u * u) = u * u) by (apply Rabs_pos_eq; lra).
      eapply ac_weaken; [apply ac_mul; [exact A2|exact A2|]; apply OV; rewrite UA; lra|]. rewrite UA.
      eapply Rle_trans; [apply (ST _ _ 160000 (81 / 10 ^ 12)); lra|]. lra. }
  assert (A4 : accurate rho (Mul (Const hf) (Pow (Div (Sub (Var "x") (Var "mu")) (Var "sigma")) (Const (f64_of_Z 2)))) (- / 2 * (u * u)) (6 / 10 ^ 11)).
  { assert (HA : Rabs (- / 2) = / 2) by (rewrite Rabs_Ropp; apply Rabs_pos_eq; lra).
    assert (UA : Rabs (- / 2 * (u * u)) = / 2 * (u * u)) by (rewrite Rabs_mult, HA, (Rabs_pos_eq (u * u)) by lra; reflexivity).
    pose proof (ac_const rho hf HN) as AH. rewrite HV in AH.
    eapply ac_weaken; [apply ac_mul; [exact AH|exact A3|]; apply OV; rewrite UA, HA; lra|]. rewrite UA, HA.
    eapply Rle_trans; [apply (ST _ _ 80000 (5 / 10 ^ 11)); lra|]. lra. }
  assert (LB : -1 <= ln s <= 99).
  { split.
    - rewrite <- (ln_exp (-1)). destruct (Req_dec (exp (-1)) s) as [->|D]; [lra|]. left. apply ln_increasing; [apply exp_pos|].
      assert (exp (-1) <= / 2); [|lra]. replace (-1) with (- (1)) by ring. rewrite exp_Ropp. apply Rinv_le_contravar; [lra|]. pose proof (exp_ineq1_le 1). lra.
    - pose proof (exp_ineq1_le (ln s)) as E. rewrite exp_ln in E by lra. lra. }
  assert (A5 : accurate rho (Ln (Var "sigma")) (ln s) (4 / 10 ^ 12)).
  { eapply ac_weaken; [apply ac_ln; [exact AS|]|].
    - apply Rle_trans with (bpow radix2 (-1)); [apply bpow_le; lia|]. change (bpow radix2 (-1)) with (/ 2). lra.
    - unfold Rdiv at 2. rewrite Rmult_0_l. lra. }
  set (r1 := - / 2 * (u * u) - ln s).
  assert (R1 : Rabs r1 <= 80100) by (apply Rabs_le; unfold r1; lra). pose proof (Rabs_pos r1).
  assert (A6 : accurate rho (Sub (Mul (Const hf) (Pow (Div (Sub (Var "x") (Var "mu")) (Var "sigma")) (Const (f64_of_Z 2)))) (Ln (Var "sigma"))) r1 (75 / 10 ^ 12)).
  { eapply ac_weaken; [apply ac_sub; [exact A4|exact A5|]; fold r1; apply OV; lra|]. fold r1.
    eapply Rle_trans; [apply (ST _ _ 80100 (64 / 10 ^ 12)); lra|]. lra. }
  set (r2 := r1 - val lit). assert (R2 : Rabs r2 <= 80200) by (apply Rabs_le_inv in R1; apply Rabs_le; unfold r2; lra). pose proof (Rabs_pos r2).
  pose proof (ac_const rho lit LN) as AL.
  eapply ac_weaken; [apply ac_sub; [exact A6|exact AL|]; fold r2; apply OV; lra|]. fold r2.
  eapply Rle_trans; [apply (ST _ _ 80200 (75 / 10 ^ 12)); lra|]. lra.
Qed.

(** Compiling an expression of one variable. *)
Lemma compile_x e : (forall y, occurs y e -> y = "x"%string) ->
  exists f, compile_expression e ["x"%string] [] [] = JOk f /\ forall v, call_single f v = evaluates (total (expression_binding ["x"%string] [] [] [v])) e.
Proof.
  intros O. destruct (proj2 (expression_ok e ["x"%string] [] [])) as [f F]; [intros y Y; rewrite (O y Y); left; left; reflexivity|].
  exists f. split; [exact F|]. intros v. destruct (expression_code e _ _ _ f F) as [A B]. exact (single_call f _ _ e _ A B v).
Qed.
