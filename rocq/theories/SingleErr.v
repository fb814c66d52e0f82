(** A calculus of relative errors in binary32 (C72): RelErr at precision 24. *)
From Coq Require Import ZArith Reals Bool String List Lia Lra.
From Coq Require Import Floats.SpecFloat.
From Flocq Require Import Core IEEE754.BinarySingleNaN Relative Plus_error.
From Verif Require Import Num FloatFacts EggSpec SingleModel SingleSpec.
Import ListNotations.
Local Open Scope R_scope.

#[local] Instance Hprec32 : FLX.Prec_gt_0 24 := eq_refl _.
#[local] Instance Hmax32 : Prec_lt_emax 24 128 := eq_refl _.
(** Rounding to binary32. *)
Definition RS (x : R) : R := round radix2 (FLT_exp (-149) 24) ZnearestE x.
Lemma RS_fexp x : round radix2 (SpecFloat.fexp 24 128) ZnearestE x = RS x.
Proof. reflexivity. Qed.
Lemma RS_0 : RS 0 = 0.
Proof. apply round_0. apply valid_rnd_N. Qed.
Lemma RS_le x y : x <= y -> RS x <= RS y.
Proof. apply round_le; [apply FLT_exp_valid; reflexivity|apply valid_rnd_N]. Qed.
Lemma RS_bpow e : (-149 <= e)%Z -> RS (bpow radix2 e) = bpow radix2 e.
Proof.
  intros H. apply round_generic; [apply valid_rnd_N|]. apply generic_format_bpow.
  unfold FLT_exp. lia.
Qed.
Lemma RS_opp x : RS (- x) = - RS x.
Proof. apply round_NE_opp. Qed.
Lemma RS_abs_bpow x e : (-149 <= e)%Z -> Rabs x <= bpow radix2 e -> Rabs (RS x) <= bpow radix2 e.
Proof.
  intros E H. apply Rabs_le. apply Rabs_le_inv in H. destruct H as [A B].
  split; [rewrite <- (RS_bpow e E), <- RS_opp; apply RS_le; exact A|].
  rewrite <- (RS_bpow e E) at 1. apply RS_le. exact B.
Qed.
Lemma RS_val c : SpecFloat.valid_binary 24 128 c = true -> RS (val c) = val c.
Proof.
  intros V. destruct c as [s|s| |s m e]; try apply RS_0.
  apply round_generic; [apply valid_rnd_N|].
  exact (generic_format_B2R 24 128 (B754_finite s m e V)).
Qed.
Lemma valid_abs c : SpecFloat.valid_binary 24 128 c = true -> Rabs (val c) < bpow radix2 128.
Proof.
  intros V. destruct c as [s|s| |s m e]; try (unfold val; cbn [SF2R]; rewrite Rabs_R0; apply bpow_gt_0).
  exact (abs_B2R_lt_emax 24 128 (B754_finite s m e V)).
Qed.
Lemma exp_le a b : a <= b -> exp a <= exp b.
Proof. intros [H| ->]; [left; apply exp_increasing, H|lra]. Qed.
Lemma eps_pos : 0 < eps32. Proof. unfold eps32. apply Rinv_0_lt_compat, pow_lt; lra. Qed.
Lemma small_pos : 0 < small32. Proof. apply bpow_gt_0. Qed.
Lemma neg_num x : is_single x -> is_single (SFopp x) /\ val (SFopp x) = - val x.
Proof.
  intros [V F]. split; [split; [destruct x; exact V|destruct x; exact F]|].
  destruct x as [s|s| |s m e]; unfold val; cbn [SFopp SF2R]; try lra. rewrite <- F2R_Zopp. destruct s; reflexivity.
Qed.
Lemma is_num_B (b : binary_float 24 128) : is_finite b = true -> is_single (B2SF b) /\ val (B2SF b) = B2R b.
Proof.
  intros F. split; [|destruct b; reflexivity]. split; [apply valid_binary_B2SF|].
  destruct b; try discriminate F; reflexivity.
Qed.
Lemma num_B x : is_single x -> exists b : binary_float 24 128, x = B2SF b /\ is_finite b = true /\ B2R b = val x.
Proof.
  intros [V F]. exists (SF2B x V). rewrite B2SF_SF2B, is_finite_SF2B, B2R_SF2B. auto.
Qed.

Section Ops.
Context (a b : f32) (A : is_single a) (B : is_single b).
Lemma add_num : Rabs (RS (val a + val b)) < bpow radix2 128 ->
  is_single (f32_add a b) /\ val (f32_add a b) = RS (val a + val b).
Proof.
  destruct (num_B a A) as (x & -> & X & VX), (num_B b B) as (y & -> & Y & VY). rewrite <- VX, <- VY. intros H.
  unfold f32_add. rewrite (add_equiv 24 128 Hprec32 Hmax32).
  pose proof (Bplus_correct 24 128 Hprec32 Hmax32 mode_NE x y X Y) as C.
  change (round radix2 (SpecFloat.fexp 24 128) (round_mode mode_NE)) with RS in C.
  rewrite Rlt_bool_true in C by exact H. destruct C as (C1 & C2 & _).
  destruct (is_num_B _ C2) as [N V]. rewrite V, C1. auto.
Qed.
Lemma sub_num : Rabs (RS (val a - val b)) < bpow radix2 128 ->
  is_single (f32_sub a b) /\ val (f32_sub a b) = RS (val a - val b).
Proof.
  destruct (num_B a A) as (x & -> & X & VX), (num_B b B) as (y & -> & Y & VY). rewrite <- VX, <- VY. intros H.
  unfold f32_sub. rewrite (sub_equiv 24 128 Hprec32 Hmax32).
  pose proof (Bminus_correct 24 128 Hprec32 Hmax32 mode_NE x y X Y) as C.
  change (round radix2 (SpecFloat.fexp 24 128) (round_mode mode_NE)) with RS in C.
  rewrite Rlt_bool_true in C by exact H. destruct C as (C1 & C2 & _).
  destruct (is_num_B _ C2) as [N V]. rewrite V, C1. auto.
Qed.
Lemma mul_num : Rabs (RS (val a * val b)) < bpow radix2 128 ->
  is_single (f32_mul a b) /\ val (f32_mul a b) = RS (val a * val b).
Proof.
  destruct (num_B a A) as (x & -> & X & VX), (num_B b B) as (y & -> & Y & VY). rewrite <- VX, <- VY. intros H.
  unfold f32_mul. rewrite (mul_equiv 24 128 Hprec32 Hmax32).
  pose proof (Bmult_correct 24 128 Hprec32 Hmax32 mode_NE x y) as C.
  change (round radix2 (SpecFloat.fexp 24 128) (round_mode mode_NE)) with RS in C.
  rewrite Rlt_bool_true in C by exact H. destruct C as (C1 & C2 & _). rewrite X, Y in C2.
  destruct (is_num_B _ C2) as [N V]. rewrite V, C1. auto.
Qed.
Lemma div_num : val b <> 0 -> Rabs (RS (val a / val b)) < bpow radix2 128 ->
  is_single (f32_div a b) /\ val (f32_div a b) = RS (val a / val b).
Proof.
  destruct (num_B a A) as (x & -> & X & VX), (num_B b B) as (y & -> & Y & VY). rewrite <- VX, <- VY. intros Z H.
  unfold f32_div. rewrite (div_equiv 24 128 Hprec32 Hmax32).
  pose proof (Bdiv_correct 24 128 Hprec32 Hmax32 mode_NE x y Z) as C.
  change (round radix2 (SpecFloat.fexp 24 128) (round_mode mode_NE)) with RS in C.
  rewrite Rlt_bool_true in C by exact H. destruct C as (C1 & C2 & _). rewrite X in C2.
  destruct (is_num_B _ C2) as [N V]. rewrite V, C1. auto.
Qed.
End Ops.

(** The error of one rounding. *)
Lemma RS_err x : exists e d, RS x = x * (1 + e) + d /\ Rabs e <= / 2 ^ 24 /\ Rabs d <= bpow radix2 (-150).
Proof.
  destruct (error_N_FLT radix2 (-149) 24 Hprec32 (fun t => negb (Z.even t)) x) as (e & d & E & D & _ & H).
  exists e, d. split; [exact H|]. split.
  - eapply Rle_trans; [exact E|]. right. change (bpow radix2 (-24 + 1)) with (/ IZR (2 ^ 23)). cbn. lra.
  - eapply Rle_trans; [exact D|]. right. change (-149)%Z with (1 + -150)%Z. rewrite bpow_plus.
    change (bpow radix2 1) with 2. lra.
Qed.
Lemma RS_small x e : (-149 <= e < 128)%Z -> Rabs x <= bpow radix2 e -> Rabs (RS x) < bpow radix2 128.
Proof.
  intros E H. eapply Rle_lt_trans; [apply (RS_abs_bpow x e); [lia|exact H]|]. apply bpow_lt. lia.
Qed.

Definition gam (k : R) : R := exp (k * eps32) - 1.
Definition acc (k m r : R) (w : f32) : Prop := is_single w /\ Rabs r <= m /\ Rabs (val w - r) <= gam k * m.
Definition rel (k r : R) (w : f32) : Prop := is_single w /\ r <> 0 /\ exp (- (k * eps32)) <= val w / r <= exp (k * eps32).

Lemma u_eps : / 2 ^ 24 = eps32 / 2.
Proof. unfold eps32. rewrite <- tech_pow_Rmult. field. Qed.
Lemma eps_small : eps32 <= / 8000000.
Proof. unfold eps32. apply Rinv_le_contravar; [lra|]. rewrite pow_IZR. apply IZR_le. vm_compute. discriminate. Qed.
Lemma up1 : 1 + / 2 ^ 24 <= exp eps32.
Proof. rewrite u_eps. pose proof eps_pos. pose proof (exp_ineq1_le eps32). lra. Qed.
Lemma down1 : exp (- eps32) <= 1 - / 2 ^ 24.
Proof.
  rewrite u_eps, exp_Ropp. pose proof eps_pos. pose proof eps_small. pose proof (exp_ineq1_le eps32).
  apply Rle_trans with (/ (1 + eps32)); [apply Rinv_le_contravar; lra|].
  apply (Rmult_le_reg_l (1 + eps32)); [lra|]. rewrite Rinv_r by lra. nra.
Qed.
Lemma gam_pos k : 0 <= k -> 0 <= gam k.
Proof. intros K. unfold gam. pose proof eps_pos. pose proof (exp_ineq1_le (k * eps32)). nra. Qed.
Lemma gam_lin k : k * eps32 <= gam k.
Proof. unfold gam. pose proof (exp_ineq1_le (k * eps32)). lra. Qed.
Lemma gam_mono k k' : k <= k' -> gam k <= gam k'.
Proof. intros K. unfold gam. pose proof eps_pos. assert (exp (k * eps32) <= exp (k' * eps32)) by (apply exp_le; nra). lra. Qed.
Lemma gam_up k : 0 <= k -> k * eps32 <= / 4 -> gam k <= 2 * k * eps32.
Proof.
  intros K H. unfold gam. pose proof eps_pos. rewrite Rmult_assoc. set (t := k * eps32) in *. assert (T : 0 <= t) by (unfold t; nra). clearbody t.
  assert (exp t <= / (1 - t)).
  { rewrite <- (Rinv_inv (exp t)). apply Rinv_le_contravar; [lra|]. rewrite <- exp_Ropp. pose proof (exp_ineq1_le (- t)). lra. }
  assert (/ (1 - t) <= 1 + 2 * t). { apply (Rmult_le_reg_l (1 - t)); [lra|]. rewrite Rinv_r by lra. nra. }
  lra.
Qed.
Lemma gam_bound k : 0 <= k -> k * eps32 <= / 4 -> gam k <= / 2.
Proof. intros K H. pose proof (gam_up k K H). lra. Qed.

Lemma acc_pos k m r w : acc k m r w -> 0 <= m.
Proof. intros (_ & M & _). pose proof (Rabs_pos r). lra. Qed.
Lemma acc_more k k' m m' r w : acc k m r w -> 0 <= k <= k' -> m <= m' -> acc k' m' r w.
Proof.
  intros H K M. pose proof (acc_pos _ _ _ _ H) as P. destruct H as (N & B & E). split; [exact N|]. split; [lra|].
  eapply Rle_trans; [exact E|]. apply Rmult_le_compat; [apply gam_pos; lra|exact P|apply gam_mono; lra|exact M].
Qed.
Lemma acc_exact w m : is_single w -> Rabs (val w) <= m -> acc 0 m (val w) w.
Proof.
  intros N M. split; [exact N|]. split; [exact M|]. rewrite Rminus_diag_eq, Rabs_R0 by reflexivity.
  apply Rmult_le_pos; [apply gam_pos; lra|]. pose proof (Rabs_pos (val w)). lra.
Qed.
Lemma acc_exact' w : is_single w -> acc 0 (Rabs (val w)) (val w) w.
Proof. intros N. apply acc_exact; [exact N|lra]. Qed.
Lemma acc_size k m r w : acc k m r w -> 0 <= k -> k * eps32 <= / 4 -> Rabs (val w) <= 2 * m.
Proof.
  intros H K S. pose proof (acc_pos _ _ _ _ H) as P. destruct H as (N & B & E). pose proof (gam_bound k K S).
  replace (val w) with (r + (val w - r)) by ring. eapply Rle_trans; [apply Rabs_triang|]. nra.
Qed.
Lemma acc_neg k m r w : acc k m r w -> acc k m (- r) (SFopp w).
Proof.
  intros (N & B & E). destruct (neg_num w N) as [N' V]. split; [exact N'|]. split; [rewrite Rabs_Ropp; exact B|].
  rewrite V. replace (- val w - - r) with (- (val w - r)) by ring. rewrite Rabs_Ropp. exact E.
Qed.

(** One rounding. *)
Lemma round_acc s r k m e : 0 <= k -> Rabs r <= m -> Rabs (s - r) <= gam k * m -> Rabs e <= / 2 ^ 24 ->
  Rabs (s * (1 + e) - r) <= gam (k + 1) * m.
Proof.
  intros K R S E. replace (s * (1 + e) - r) with ((s - r) * (1 + e) + r * e) by ring.
  pose proof (Rabs_pos r). pose proof (Rabs_pos e). pose proof (gam_pos k K). pose proof up1 as U.
  assert (U0 : 0 <= / 2 ^ 24) by (apply Rlt_le, Rinv_0_lt_compat, pow_lt; lra).
  assert (E1 : Rabs (1 + e) <= exp eps32).
  { eapply Rle_trans; [apply Rabs_triang|]. rewrite (Rabs_pos_eq 1) by lra. lra. }
  eapply Rle_trans; [apply Rabs_triang|]. rewrite !Rabs_mult.
  assert (A : Rabs (s - r) * Rabs (1 + e) <= gam k * m * exp eps32) by (apply Rmult_le_compat; try apply Rabs_pos; assumption).
  assert (B : Rabs r * Rabs e <= m * / 2 ^ 24) by (apply Rmult_le_compat; try apply Rabs_pos; assumption).
  assert (C : gam (k + 1) = exp (k * eps32) * exp eps32 - 1) by (unfold gam; rewrite <- exp_plus; do 2 f_equal; ring).
  rewrite C. unfold gam in A. nra.
Qed.
Lemma big_ok : big32 <= bpow radix2 127. Proof. apply bpow_le. lia. Qed.
Lemma big2 x : Rabs x <= 2 * big32 -> Rabs (RS x) < bpow radix2 128.
Proof.
  intros H. apply (RS_small x 121); [lia|]. eapply Rle_trans; [exact H|]. unfold big32. change 2 with (bpow radix2 1).
  rewrite <- bpow_plus. apply bpow_le. lia.
Qed.
Lemma format_val w : is_single w -> generic_format radix2 (FLT_exp (-149) 24) (val w).
Proof.
  intros [V _]. pose proof (RS_val w V) as E. rewrite <- E. apply generic_format_round; auto with typeclass_instances.
Qed.
Lemma bpow_eps : bpow radix2 (Z.opp 24 + 1) = eps32.
Proof. unfold eps32. rewrite pow_IZR. reflexivity. Qed.
Lemma RS_plus u v : is_single u -> is_single v -> exists e, Rabs e <= / 2 ^ 24 /\ RS (val u + val v) = (val u + val v) * (1 + e).
Proof.
  intros U V. destruct (FLT_plus_error_N_ex radix2 (-149) 24 (fun t => negb (Z.even t)) _ _ (format_val u U) (format_val v V)) as (e & E & R).
  exists e. split; [|exact R]. eapply Rle_trans; [exact E|].
  assert (UR : u_ro radix2 24 = / 2 ^ 24).
  { unfold u_ro. rewrite bpow_eps, u_eps. lra. }
  rewrite UR. assert (0 < / 2 ^ 24) by (apply Rinv_0_lt_compat, pow_lt; lra).
  apply (Rmult_le_reg_r (1 + / 2 ^ 24)); [lra|]. unfold Rdiv. rewrite Rmult_assoc, Rinv_l by lra. nra.
Qed.

Lemma acc_add k m1 m2 r1 r2 u v : acc k m1 r1 u -> acc k m2 r2 v -> 0 <= k -> k * eps32 <= / 4 -> m1 + m2 <= big32 ->
  acc (k + 1) (m1 + m2) (r1 + r2) (f32_add u v).
Proof.
  intros A B K S M. pose proof (acc_pos _ _ _ _ A) as P1. pose proof (acc_pos _ _ _ _ B) as P2.
  pose proof (acc_size _ _ _ _ A K S) as Z1. pose proof (acc_size _ _ _ _ B K S) as Z2.
  destruct A as (NU & R1 & U), B as (NV & R2 & V).
  destruct (add_num u v NU NV) as [N W].
  { apply big2. eapply Rle_trans; [apply Rabs_triang|]. lra. }
  split; [exact N|]. split; [eapply Rle_trans; [apply Rabs_triang|]; lra|]. rewrite W.
  destruct (RS_plus u v NU NV) as (e & E & ->). apply round_acc; [exact K|eapply Rle_trans; [apply Rabs_triang|]; lra| |exact E].
  replace (val u + val v - (r1 + r2)) with ((val u - r1) + (val v - r2)) by ring. eapply Rle_trans; [apply Rabs_triang|]. lra.
Qed.
Lemma sub_as_add u v : is_single u -> is_single v -> Rabs (RS (val u - val v)) < bpow radix2 128 ->
  is_single (f32_sub u v) /\ val (f32_sub u v) = val (f32_add u (SFopp v)).
Proof.
  intros NU NV H. destruct (sub_num u v NU NV H) as [N W]. split; [exact N|]. destruct (neg_num v NV) as [N' V'].
  destruct (add_num u (SFopp v) NU N') as [_ W']; [rewrite V'; exact H|]. rewrite W, W', V'. reflexivity.
Qed.
Lemma acc_sub k m1 m2 r1 r2 u v : acc k m1 r1 u -> acc k m2 r2 v -> 0 <= k -> k * eps32 <= / 4 -> m1 + m2 <= big32 ->
  acc (k + 1) (m1 + m2) (r1 - r2) (f32_sub u v).
Proof.
  intros A B K S M. pose proof (acc_size _ _ _ _ A K S) as Z1. pose proof (acc_size _ _ _ _ B K S) as Z2.
  destruct (acc_add k m1 m2 r1 (- r2) u (SFopp v) A (acc_neg _ _ _ _ B) K S M) as (_ & R & E).
  destruct A as (NU & _), B as (NV & _). destruct (sub_as_add u v NU NV) as [N W].
  { apply big2. unfold Rminus. eapply Rle_trans; [apply Rabs_triang|]. rewrite Rabs_Ropp. lra. }
  split; [exact N|]. split; [exact R|]. rewrite W. exact E.
Qed.

(** A rounding that may underflow. *)
Lemma round_small s r k m : 0 <= k -> Rabs r <= m -> Rabs (s - r) <= gam k * m -> Rabs (RS s - r) <= gam (k + 1) * (m + small32).
Proof.
  intros K R S. destruct (RS_err s) as (e & d & -> & E & D). replace (s * (1 + e) + d - r) with ((s * (1 + e) - r) + d) by ring.
  eapply Rle_trans; [apply Rabs_triang|]. rewrite (Rmult_plus_distr_l (gam _)). apply Rplus_le_compat; [apply round_acc; assumption|].
  eapply Rle_trans; [exact D|]. pose proof (gam_lin (k + 1)). pose proof small_pos. pose proof eps_pos.
  apply Rle_trans with (eps32 * small32); [|apply Rmult_le_compat_r; nra].
  unfold eps32, small32. replace (/ 2 ^ 23) with (bpow radix2 (-23)).
  + rewrite <- bpow_plus. apply bpow_le. lia.
  + change (bpow radix2 (-23)) with (/ IZR (2 ^ 23)). rewrite pow_IZR. reflexivity.
Qed.
Lemma gam_prod k l : 1 + gam (k + l) = (1 + gam k) * (1 + gam l).
Proof. unfold gam. replace ((k + l) * eps32) with (k * eps32 + l * eps32) by ring. rewrite exp_plus. ring. Qed.
Lemma acc_mul k l m1 m2 r1 r2 u v : acc k m1 r1 u -> acc l m2 r2 v -> 0 <= k -> 0 <= l -> (k + l) * eps32 <= / 4 -> m1 * m2 <= big32 ->
  acc (k + l + 1) (m1 * m2 + small32) (r1 * r2) (f32_mul u v).
Proof.
  intros A B K L S M. pose proof (acc_pos _ _ _ _ A) as P1. pose proof (acc_pos _ _ _ _ B) as P2. pose proof eps_pos as EP.
  destruct A as (NU & R1 & U), B as (NV & R2 & V).
  pose proof (gam_pos k K) as GK. pose proof (gam_pos l L) as GL. pose proof (gam_prod k l) as GP.
  assert (R12 : Rabs (r1 * r2) <= m1 * m2) by (rewrite Rabs_mult; apply Rmult_le_compat; try apply Rabs_pos; assumption).
  assert (D : Rabs (val u * val v - r1 * r2) <= gam (k + l) * (m1 * m2)).
  { replace (val u * val v - r1 * r2) with ((val u - r1) * r2 + r1 * (val v - r2) + (val u - r1) * (val v - r2)) by ring.
    eapply Rle_trans; [apply Rabs_triang|].
    assert (T1 : Rabs ((val u - r1) * r2) <= gam k * m1 * m2) by (rewrite Rabs_mult; apply Rmult_le_compat; try apply Rabs_pos; assumption).
    assert (T2 : Rabs (r1 * (val v - r2)) <= m1 * (gam l * m2)) by (rewrite Rabs_mult; apply Rmult_le_compat; try apply Rabs_pos; assumption).
    assert (T3 : Rabs ((val u - r1) * (val v - r2)) <= gam k * m1 * (gam l * m2)) by (rewrite Rabs_mult; apply Rmult_le_compat; try apply Rabs_pos; assumption).
    pose proof (Rabs_triang ((val u - r1) * r2) (r1 * (val v - r2))).
    replace (gam (k + l)) with (gam k + gam l + gam k * gam l) by lra. nra. }
  assert (P12 : 0 <= m1 * m2) by (apply Rmult_le_pos; assumption).
  assert (GB : gam (k + l) <= / 2) by (apply gam_bound; lra).
  destruct (mul_num u v NU NV) as [N W].
  { apply big2. replace (val u * val v) with (r1 * r2 + (val u * val v - r1 * r2)) by ring. eapply Rle_trans; [apply Rabs_triang|]. nra. }
  split; [exact N|]. pose proof small_pos. split; [lra|]. rewrite W. apply round_small; [lra|exact R12|exact D].
Qed.

(** * Relative *)
Lemma rel_exact w : is_single w -> val w <> 0 -> rel 0 (val w) w.
Proof.
  intros N Z. split; [exact N|]. split; [exact Z|]. replace (val w / val w) with 1 by (field; exact Z).
  rewrite Rmult_0_l, Ropp_0, exp_0. lra.
Qed.
Lemma rel_more k k' r w : rel k r w -> k <= k' -> rel k' r w.
Proof.
  intros (N & Z & A & B) K. pose proof eps_pos. split; [exact N|]. split; [exact Z|].
  split; [eapply Rle_trans; [|exact A]|eapply Rle_trans; [exact B|]]; apply exp_le; nra.
Qed.
Lemma rel_acc k r w : 0 <= k -> rel k r w -> acc k (Rabs r) r w.
Proof.
  intros K (N & Z & A & B). split; [exact N|]. split; [lra|].
  replace (val w - r) with ((val w / r - 1) * r) by (field; exact Z). rewrite Rabs_mult. apply Rmult_le_compat_r; [apply Rabs_pos|].
  unfold gam. pose proof eps_pos. set (t := k * eps32) in *. assert (0 <= t) by (unfold t; nra). clearbody t.
  assert (2 - exp t <= exp (- t)).
  { rewrite exp_Ropp. pose proof (exp_pos t). apply (Rmult_le_reg_r (exp t)); [lra|]. rewrite Rinv_l by lra. pose proof (Rle_0_sqr (exp t - 1)) as Q. unfold Rsqr in Q. lra. }
  apply Rabs_le. lra.
Qed.
Lemma rel_sign k r w : rel k r w -> 0 < r -> 0 < val w.
Proof.
  intros (N & Z & A & _) R. pose proof (exp_pos (- (k * eps32))). replace (val w) with (val w / r * r) by (field; exact Z).
  apply Rmult_lt_0_compat; lra.
Qed.
Lemma rel_of_acc k r w : acc k r r w -> 0 < r -> 0 <= k -> k * eps32 <= / 4 -> rel (2 * k) r w.
Proof.
  intros (N & _ & E) R K S. split; [exact N|]. split; [lra|]. apply Rabs_le_inv in E. unfold gam in E.
  pose proof eps_pos. replace (2 * k * eps32) with (k * eps32 + k * eps32) by ring. set (t := k * eps32) in *.
  assert (0 <= t) by (unfold t; nra). clearbody t.
  assert (X : exp t <= 1.5).
  { assert (G : gam (t / eps32) <= / 2) by (apply gam_bound; [apply Rmult_le_pos; [lra|apply Rlt_le, Rinv_0_lt_compat; lra]|]; unfold Rdiv; rewrite Rmult_assoc, Rinv_l; lra).
    unfold gam, Rdiv in G. rewrite Rmult_assoc, Rinv_l, Rmult_1_r in G by lra. lra. }
  assert (1 <= exp t) by (pose proof (exp_ineq1_le t); lra).
  rewrite Ropp_plus_distr, !exp_plus, !exp_Ropp. split.
  - apply (Rmult_le_reg_r r); [exact R|]. unfold Rdiv. rewrite (Rmult_assoc (val w)), Rinv_l, Rmult_1_r by lra.
    apply Rle_trans with ((2 - exp t) * r); [|nra]. apply Rmult_le_compat_r; [lra|]. rewrite <- Rinv_mult.
    apply (Rmult_le_reg_r (exp t * exp t)); [nra|]. rewrite Rinv_l by nra.
    assert (Q : 0 <= (exp t - 1) * (1 - (exp t - 1) - (exp t - 1) * (exp t - 1))) by (apply Rmult_le_pos; nra). lra.
  - apply (Rmult_le_reg_r r); [exact R|]. unfold Rdiv. rewrite (Rmult_assoc (val w)), Rinv_l, Rmult_1_r by lra. nra.
Qed.
Lemma rel_neg k r w : rel k r w -> rel k (- r) (SFopp w).
Proof.
  intros (N & Z & B). destruct (neg_num w N) as [N' V]. split; [exact N'|]. split; [lra|]. rewrite V.
  replace (- val w / - r) with (val w / r) by (field; exact Z). exact B.
Qed.

Lemma acc_div k l m r1 r2 u v : acc k m r1 u -> rel l r2 v -> 0 <= k -> 0 <= l -> (k + l) * eps32 <= / 4 -> m / Rabs r2 <= big32 ->
  acc (k + l + 1) (m / Rabs r2 + small32) (r1 / r2) (f32_div u v).
Proof.
  intros A B K L S M. pose proof (acc_pos _ _ _ _ A) as P1. pose proof eps_pos as EP. destruct A as (NU & R1 & U), B as (NV & Z & BL & BU).
  set (t := val v / r2) in *. pose proof (exp_pos (- (l * eps32))) as EL.
  assert (T0 : 0 < t) by lra. assert (VT : val v = t * r2) by (unfold t; field; exact Z). clearbody t.
  assert (VZ : val v <> 0) by (rewrite VT; apply Rmult_integral_contrapositive_currified; lra).
  pose proof (Rabs_pos_lt r2 Z) as R2P.
  assert (I1 : / t <= exp (l * eps32)).
  { rewrite <- (Rinv_inv (exp (l * eps32))). rewrite <- exp_Ropp. apply Rinv_le_contravar; assumption. }
  assert (I2 : exp (- (l * eps32)) <= / t) by (rewrite exp_Ropp; apply Rinv_le_contravar; assumption).
  assert (I3 : Rabs (/ t - 1) <= exp (l * eps32) - 1).
  { assert (2 - exp (l * eps32) <= exp (- (l * eps32))).
    { rewrite exp_Ropp. pose proof (exp_pos (l * eps32)). pose proof (exp_ineq1_le (l * eps32)).
      apply (Rmult_le_reg_r (exp (l * eps32))); [lra|]. rewrite Rinv_l by lra. pose proof (Rle_0_sqr (exp (l * eps32) - 1)) as Q. unfold Rsqr in Q. lra. }
    apply Rabs_le. lra. }
  assert (R12 : Rabs (r1 / r2) <= m / Rabs r2).
  { unfold Rdiv. rewrite Rabs_mult, Rabs_inv. apply Rmult_le_compat_r; [apply Rlt_le, Rinv_0_lt_compat, R2P|exact R1]. }
  assert (D : Rabs (val u / val v - r1 / r2) <= gam (k + l) * (m / Rabs r2)).
  { replace (val u / val v - r1 / r2) with (((val u - r1) * / t + r1 * (/ t - 1)) / r2) by (rewrite VT; field; split; lra).
    unfold Rdiv. rewrite Rabs_mult, Rabs_inv, <- Rmult_assoc. apply Rmult_le_compat_r; [apply Rlt_le, Rinv_0_lt_compat, R2P|].
    eapply Rle_trans; [apply Rabs_triang|]. rewrite !Rabs_mult, (Rabs_pos_eq (/ t)) by (apply Rlt_le, Rinv_0_lt_compat, T0).
    assert (T1 : Rabs (val u - r1) * / t <= gam k * m * exp (l * eps32)).
    { apply Rmult_le_compat; [apply Rabs_pos|apply Rlt_le, Rinv_0_lt_compat, T0|exact U|exact I1]. }
    assert (T2 : Rabs r1 * Rabs (/ t - 1) <= m * (exp (l * eps32) - 1)) by (apply Rmult_le_compat; try apply Rabs_pos; assumption).
    pose proof (gam_prod k l) as GP. unfold gam in *. nra. }
  assert (M0 : 0 <= m / Rabs r2) by (apply Rmult_le_pos; [exact P1|apply Rlt_le, Rinv_0_lt_compat, R2P]).
  assert (GB : gam (k + l) <= / 2) by (apply gam_bound; lra).
  destruct (div_num u v NU NV VZ) as [N W].
  { apply big2. replace (val u / val v) with (r1 / r2 + (val u / val v - r1 / r2)) by ring. eapply Rle_trans; [apply Rabs_triang|]. nra. }
  split; [exact N|]. pose proof small_pos. split; [lra|]. rewrite W. apply round_small; [lra|exact R12|exact D].
Qed.

(** Products and quotients away from underflow. *)
Definition normal_range (r : R) : Prop := 2 * small32 <= Rabs r <= big32.
Lemma RS_rel s : small32 <= Rabs s -> exists e, Rabs e <= / 2 ^ 24 /\ RS s = s * (1 + e).
Proof.
  intros H. destruct (relative_error_N_FLT_ex radix2 (-149) 24 Hprec32 (fun t => negb (Z.even t)) s) as (e & E & R).
  - eapply Rle_trans; [|exact H]. apply bpow_le. lia.
  - exists e. split; [|exact R]. eapply Rle_trans; [exact E|]. right. rewrite bpow_eps, u_eps. lra.
Qed.
Lemma half_exp t : 0 <= t <= / 4 -> / 2 <= exp (- t) /\ exp t <= 2.
Proof.
  intros T. pose proof (exp_ineq1_le (- t)). split; [lra|]. rewrite <- (Ropp_involutive t), exp_Ropp.
  apply Rle_trans with (/ (3 / 4)); [apply Rinv_le_contravar; lra|lra].
Qed.
Lemma rel_round s r k : r <> 0 -> 0 <= k -> k * eps32 <= / 4 -> normal_range r ->
  exp (- (k * eps32)) <= s / r <= exp (k * eps32) ->
  Rabs (RS s) < bpow radix2 128 /\ exp (- ((k + 1) * eps32)) <= RS s / r <= exp ((k + 1) * eps32).
Proof.
  intros Z K S [R1 R2] [A B]. pose proof eps_pos as EP. destruct (half_exp (k * eps32) ltac:(split; [nra|exact S])) as [H1 H2].
  assert (SR : s = s / r * r) by (field; exact Z). pose proof (Rabs_pos r).
  assert (SA : Rabs s = s / r * Rabs r) by (rewrite SR at 1; rewrite Rabs_mult, Rabs_pos_eq by lra; reflexivity).
  split; [apply big2; rewrite SA; nra|].
  destruct (RS_rel s) as (e & E & ->); [rewrite SA; nra|].
  replace (s * (1 + e) / r) with (s / r * (1 + e)) by (field; exact Z). apply Rabs_le_inv in E. pose proof up1 as U1. pose proof down1 as D1.
  replace (- ((k + 1) * eps32)) with (- (k * eps32) + - eps32) by ring. replace ((k + 1) * eps32) with (k * eps32 + eps32) by ring. rewrite !exp_plus.
  pose proof (exp_pos (- eps32)). split; apply Rmult_le_compat; lra.
Qed.
Lemma rel_mul k l r1 r2 u v : rel k r1 u -> rel l r2 v -> 0 <= k -> 0 <= l -> (k + l) * eps32 <= / 4 -> normal_range (r1 * r2) ->
  rel (k + l + 1) (r1 * r2) (f32_mul u v).
Proof.
  intros (NU & Z1 & A1 & B1) (NV & Z2 & A2 & B2) K L S R.
  assert (Z : r1 * r2 <> 0) by (apply Rmult_integral_contrapositive_currified; assumption).
  destruct (rel_round (val u * val v) (r1 * r2) (k + l) Z ltac:(lra) S R) as [O W].
  - replace (val u * val v / (r1 * r2)) with (val u / r1 * (val v / r2)) by (field; split; assumption).
    replace (- ((k + l) * eps32)) with (- (k * eps32) + - (l * eps32)) by ring. replace ((k + l) * eps32) with (k * eps32 + l * eps32) by ring. rewrite !exp_plus.
    pose proof (exp_pos (- (k * eps32))). pose proof (exp_pos (- (l * eps32))). split; apply Rmult_le_compat; lra.
  - destruct (mul_num u v NU NV O) as [N V]. split; [exact N|]. split; [exact Z|]. rewrite V. exact W.
Qed.
Lemma rel_div k l r1 r2 u v : rel k r1 u -> rel l r2 v -> 0 <= k -> 0 <= l -> (k + l) * eps32 <= / 4 -> normal_range (r1 / r2) ->
  rel (k + l + 1) (r1 / r2) (f32_div u v).
Proof.
  intros (NU & Z1 & A1 & B1) (NV & Z2 & A2 & B2) K L S R. pose proof (exp_pos (- (k * eps32))) as E1. pose proof (exp_pos (- (l * eps32))) as E2.
  assert (Z : r1 / r2 <> 0) by (apply Rmult_integral_contrapositive_currified; [exact Z1|apply Rinv_neq_0_compat, Z2]).
  assert (VZ : val v <> 0) by (intros E; rewrite E in A2; unfold Rdiv in A2; rewrite Rmult_0_l in A2; lra).
  destruct (rel_round (val u / val v) (r1 / r2) (k + l) Z ltac:(lra) S R) as [O W].
  - replace (val u / val v / (r1 / r2)) with (val u / r1 * / (val v / r2)) by (field; repeat split; assumption).
    replace (- ((k + l) * eps32)) with (- (k * eps32) + - (l * eps32)) by ring. replace ((k + l) * eps32) with (k * eps32 + l * eps32) by ring. rewrite !exp_plus.
    assert (exp (- (l * eps32)) <= / (val v / r2)) by (rewrite exp_Ropp; apply Rinv_le_contravar; lra).
    assert (/ (val v / r2) <= exp (l * eps32)).
    { rewrite <- (Rinv_inv (exp (l * eps32))), <- exp_Ropp. apply Rinv_le_contravar; lra. }
    split; apply Rmult_le_compat; lra.
  - destruct (div_num u v NU NV VZ O) as [N V]. split; [exact N|]. split; [exact Z|]. rewrite V. exact W.
Qed.
Lemma rel_add k r1 r2 u v : rel k r1 u -> rel k r2 v -> 0 < r1 -> 0 < r2 -> 0 <= k -> k * eps32 <= / 4 -> r1 + r2 <= big32 ->
  rel (k + 1) (r1 + r2) (f32_add u v).
Proof.
  intros (NU & Z1 & A1 & B1) (NV & Z2 & A2 & B2) P1 P2 K S M. pose proof eps_pos as EP. destruct (half_exp (k * eps32) ltac:(split; [nra|exact S])) as [H1 H2].
  assert (U : val u = val u / r1 * r1) by (field; exact Z1). assert (V : val v = val v / r2 * r2) by (field; exact Z2).
  assert (L : exp (- (k * eps32)) * (r1 + r2) <= val u + val v) by (rewrite U, V; nra).
  assert (H : val u + val v <= exp (k * eps32) * (r1 + r2)) by (rewrite U, V; nra).
  destruct (add_num u v NU NV) as [N W].
  { apply big2. rewrite Rabs_pos_eq by nra. nra. }
  split; [exact N|]. split; [lra|]. rewrite W. destruct (RS_plus u v NU NV) as (e & E & ->). apply Rabs_le_inv in E.
  pose proof up1 as U1. pose proof down1 as D1. pose proof (exp_pos (- eps32)).
  replace ((val u + val v) * (1 + e) / (r1 + r2)) with ((val u + val v) / (r1 + r2) * (1 + e)) by (field; lra).
  assert (L' : exp (- (k * eps32)) <= (val u + val v) / (r1 + r2)).
  { apply (Rmult_le_reg_r (r1 + r2)); [lra|]. unfold Rdiv. rewrite (Rmult_assoc (val u + val v)), Rinv_l by lra. lra. }
  assert (H' : (val u + val v) / (r1 + r2) <= exp (k * eps32)).
  { apply (Rmult_le_reg_r (r1 + r2)); [lra|]. unfold Rdiv. rewrite (Rmult_assoc (val u + val v)), Rinv_l by lra. lra. }
  replace (- ((k + 1) * eps32)) with (- (k * eps32) + - eps32) by ring. replace ((k + 1) * eps32) with (k * eps32 + eps32) by ring. rewrite !exp_plus.
  split; apply Rmult_le_compat; lra.
Qed.
(** A difference of two numbers: one rounding. *)
Lemma rel_diff u v : is_single u -> is_single v -> val u <> val v -> Rabs (val u) + Rabs (val v) <= big32 ->
  rel 1 (val u - val v) (f32_sub u v).
Proof.
  intros NU NV D M. assert (O : Rabs (RS (val u - val v)) < bpow radix2 128).
  { apply big2. unfold Rminus. eapply Rle_trans; [apply Rabs_triang|]. rewrite Rabs_Ropp. unfold big32 in *. pose proof (bpow_gt_0 radix2 120). lra. }
  destruct (sub_num u v NU NV O) as [N W]. split; [exact N|]. split; [lra|]. rewrite W.
  destruct (neg_num v NV) as [N' V']. destruct (RS_plus u (SFopp v) NU N') as (e & E & R). rewrite V' in R. unfold Rminus. rewrite R.
  replace ((val u + - val v) * (1 + e) / (val u + - val v)) with (1 + e) by (field; lra). apply Rabs_le_inv in E.
  rewrite Rmult_1_l. pose proof up1. pose proof down1. lra.
Qed.

(** * Library calls *)
Section Lib.
Context (c : R) (lg : R -> R) (L : libm32) (LOK : libm32_ok c lg L) (C0 : 0 <= c) (C1 : c * eps32 <= / 4).

Lemma acc_ln_exact u : is_single u -> 0 < val u -> acc c (Rabs (ln (val u)) + small32) (ln (val u)) (s_ln L u).
Proof.
  intros N P. destruct (ok32_ln c lg L LOK u N P) as [N' W]. pose proof small_pos. pose proof (Rabs_pos (ln (val u))).
  split; [exact N'|]. split; [lra|]. eapply Rle_trans; [exact W|]. apply Rmult_le_compat_r; [lra|apply gam_lin].
Qed.
Lemma ln_rel k r u : rel k r u -> 0 < r -> Rabs (ln (val u) - ln r) <= k * eps32.
Proof.
  intros R P. pose proof (rel_sign _ _ _ R P) as U. destruct R as (N & Z & A & B).
  replace (ln (val u) - ln r) with (ln (val u / r)).
  2:{ unfold Rdiv. rewrite ln_mult, ln_Rinv; [ring|exact P|exact U|apply Rinv_0_lt_compat, P]. }
  pose proof (exp_pos (- (k * eps32))). set (t := val u / r) in *. assert (0 < t) by lra. clearbody t. apply Rabs_le.
  split; [rewrite <- (ln_exp (- (k * eps32)))|rewrite <- (ln_exp (k * eps32))].
  - destruct (Req_dec (exp (- (k * eps32))) t) as [->|]; [lra|]. apply Rlt_le, ln_increasing; lra.
  - destruct (Req_dec t (exp (k * eps32))) as [->|]; [lra|]. apply Rlt_le, ln_increasing; lra.
Qed.
Lemma acc_ln k r u : rel k r u -> 0 < r -> 0 <= k -> k * eps32 <= / 4 -> acc (c + 2 * k) (Rabs (ln r) + 1) (ln r) (s_ln L u).
Proof.
  intros R P K S. pose proof (ln_rel k r u R P) as D. pose proof (rel_sign _ _ _ R P) as U. destruct R as (N & _).
  destruct (ok32_ln c lg L LOK u N U) as [N' W]. split; [exact N'|]. pose proof (Rabs_pos (ln r)) as LP. split; [lra|].
  assert (LU : Rabs (ln (val u)) <= Rabs (ln r) + k * eps32).
  { replace (ln (val u)) with (ln r + (ln (val u) - ln r)) by ring. eapply Rle_trans; [apply Rabs_triang|]. lra. }
  pose proof eps_pos as EP. assert (SM : small32 <= / 4) by (change (/ 4) with (bpow radix2 (-2)); apply bpow_le; lia).
  assert (CE : 0 <= c * eps32) by nra. assert (KE : 0 <= k * eps32) by nra.
  apply Rle_trans with ((c + 2 * k) * eps32 * (Rabs (ln r) + 1)); [|apply Rmult_le_compat_r; [lra|apply gam_lin]].
  replace (val (s_ln L u) - ln r) with ((val (s_ln L u) - ln (val u)) + (ln (val u) - ln r)) by ring.
  eapply Rle_trans; [apply Rabs_triang|]. 
  apply Rle_trans with (c * eps32 * (Rabs (ln r) + / 4 + / 4) + k * eps32).
  - apply Rplus_le_compat; [|exact D]. eapply Rle_trans; [exact W|]. apply Rmult_le_compat_l; lra.
  - nra.
Qed.
Lemma acc_lgamma u : is_single u -> 0 < val u -> Rabs (lg (val u)) <= big32 -> acc c (1 + Rabs (lg (val u))) (lg (val u)) (single_lgamma L u).
Proof.
  intros N P B. destruct (ok32_lgamma c lg L LOK u N P B) as [N' W]. split; [exact N'|]. split; [pose proof (Rabs_pos (lg (val u))); lra|].
  eapply Rle_trans; [exact W|]. apply Rmult_le_compat_r; [pose proof (Rabs_pos (lg (val u))); lra|apply gam_lin].
Qed.
End Lib.
