(** Accuracy of the JIT's logarithm and exponential on binary64 numbers
    (C17). *)
From Coq Require Import ZArith Reals Bool List Lia Lra.
From Coq Require Import Floats.SpecFloat.
From Flocq Require Import Core IEEE754.BinarySingleNaN.
From Verif Require Import Num ConvModel FloatFacts ConvProofs JitModel JitSpec EggSpec LitFacts Stirling Approx FloatErr JitReal JitBits.
Import ListNotations.
Local Open Scope R_scope.

(** * Tools *)
(** A magnitude bound in whole numbers and an error bound k / d. *)
Definition err_ok (n : Z) (e : fx) (k d : Z) : bool :=
  match bnd (n * U) e with Some (_, b) => (b <=? U * k / d)%Z | None => false end.
Lemma err_num x n e k d : (0 < d)%Z -> is_num x -> Rabs (val x) <= IZR n -> err_ok n e k d = true ->
  is_num (feval x e) /\ Rabs (val (feval x e) - reval (val x) e) <= IZR k / IZR d.
Proof.
  intros D N M. unfold err_ok. destruct (bnd (n * U) e) as [[m b]|] eqn:B; [|discriminate]. intros L. apply Z.leb_le in L.
  pose proof U_pos as UP.
  assert (M' : Rabs (val x) <= IZR (n * U) / IZR U).
  { eapply Rle_trans; [exact M|]. rewrite mult_IZR. right. field. lra. }
  destruct (bnd_ok x (n * U) e N M' m b B) as (R1 & _ & R3). split; [exact R1|].
  eapply Rle_trans; [exact R3|]. assert (D' : 0 < IZR d) by (apply (IZR_lt 0), D).
  apply IZR_le in L. destruct (div_bounds (U * k) d D) as [B1 _]. rewrite mult_IZR in B1.
  apply (Rmult_le_reg_r (IZR U)); [exact UP|]. unfold Rdiv at 1. rewrite Rmult_assoc, Rinv_l, Rmult_1_r by lra.
  eapply Rle_trans; [exact L|]. eapply Rle_trans; [exact B1|]. right. field. lra.
Qed.

(** A lower bound of a polynomial on an interval, in thousandths. *)
Definition low_ok (l : list f64) (E c h k : Z) : bool :=
  all_fit l E && (0 <=? E)%Z && (0 <=? h)%Z && (k * 2 ^ E <=? 1000 * lower (scaleup l E) c h)%Z.
Lemma low_num l E c h k y : low_ok l E c h k = true -> Rabs (y * IZR s20 - IZR c) <= IZR h -> IZR k / 1000 <= cpoly l y.
Proof.
  unfold low_ok. intros H Y. apply andb_prop in H. destruct H as [H H4]. apply andb_prop in H. destruct H as [H H3].
  apply andb_prop in H. destruct H as [H1 H2]. apply Z.leb_le in H2, H3, H4.
  pose proof (lower_ok (scaleup l E) c h (y * IZR s20) H3 Y) as L. rewrite (scaleup_ok l E _ H1) in L.
  assert (S0 : 0 < IZR s20) by (apply (IZR_lt 0); reflexivity).
  replace (y * IZR s20 / IZR s20) with y in L by (field; lra).
  apply IZR_le in H4. rewrite !mult_IZR in H4. change (2 ^ E)%Z with (radix2 ^ E)%Z in H4. rewrite (IZR_Zpower radix2 E H2) in H4.
  pose proof (bpow_gt_0 radix2 E) as B. apply (Rmult_le_reg_l (bpow radix2 E)); [exact B|]. lra.
Qed.

Lemma exp_near x : Rabs x <= / 2 -> Rabs (exp x - 1) <= Rabs x + 2 * Rabs x * Rabs x.
Proof.
  intros H. pose proof (exp_ineq1_le x) as L. pose proof (exp_ineq1_le (- x)) as L'.
  rewrite exp_Ropp in L'. pose proof (exp_pos x) as P.
  assert (X : - / 2 <= x <= / 2) by (apply Rabs_le_inv; exact H).
  assert (UB : exp x <= / (1 - x)).
  { rewrite <- (Rinv_inv (exp x)). apply Rinv_le_contravar; lra. }
  assert (UB2 : exp x <= 1 + x + 2 * (x * x)).
  { eapply Rle_trans; [exact UB|]. apply (Rmult_le_reg_l (1 - x)); [lra|]. rewrite Rinv_r by lra.
    assert (0 <= x * x) by (apply Rle_0_sqr). nra. }
  assert (XX : Rabs x * Rabs x = x * x) by (rewrite <- Rabs_mult; apply Rabs_pos_eq, Rle_0_sqr).
  rewrite Rmult_assoc, XX. assert (0 <= x * x) by (apply Rle_0_sqr). pose proof (Rle_abs x). pose proof (Rle_abs (- x)) as A. rewrite Rabs_Ropp in A.
  apply Rabs_le. split; lra.
Qed.

Lemma tiny40 : / IZR (2 ^ 300) <= / 10 ^ 40.
Proof.
  replace (10 ^ 40) with (IZR (10 ^ 40)) by (rewrite pow_IZR; reflexivity).
  apply Rinv_le_contravar; [apply (IZR_lt 0); reflexivity|]. apply IZR_le. vm_compute. discriminate.
Qed.
(** Rounding a number of magnitude at most [b]. *)
Lemma RN_le_err x b : Rabs x <= b -> Rabs (RN x - x) <= b * (112 / 10 ^ 18) + / 10 ^ 40.
Proof.
  intros H. eapply Rle_trans; [apply RN_abs|]. apply Rplus_le_compat; [|apply tiny40].
  pose proof (Rabs_pos x). unfold Rdiv at 1. apply Rmult_le_compat; [assumption|lra|exact H|lra].
Qed.
Lemma RN_fits x b : Rabs x <= b -> b <= 2 ^ 100 -> Rabs (RN x) < bpow radix2 1024.
Proof.
  intros H B. apply (RN_small x 100); [lia|]. eapply Rle_trans; [exact H|]. eapply Rle_trans; [exact B|]. right.
  rewrite <- (IZR_Zpower radix2 100) by lia. rewrite pow_IZR. reflexivity.
Qed.

(** ln 2 and the two constants built from it. *)
Lemma val_explicit s m e : val (S754_finite s m e) = IZR (cond_Zopp s (Zpos m)) * bpow radix2 e.
Proof. reflexivity. Qed.
Lemma ln2_bounds : 6931471805599453094171 / 10 ^ 22 <= ln 2 <= 6931471805599453094173 / 10 ^ 22.
Proof.
  pose proof ln2_ok as H.
  replace ln2_lo with 878668439483319573618263538022%Z in H by (vm_compute; reflexivity).
  replace ln2_hi with 878668439483319573618263538100%Z in H by (vm_compute; reflexivity).
  replace SC with 1267650600228229401496703205376%Z in H by (vm_compute; reflexivity). lra.
Qed.
Lemma c_ln2_val : val c_ln2 = 6243314768165359 / 9007199254740992.
Proof. replace c_ln2 with (S754_finite false 6243314768165359 (-53)) by (vm_compute; reflexivity). reflexivity. Qed.
Lemma c_ln2_inv_val : val c_ln2_inv = 6497320848556798 / 4503599627370496.
Proof. replace c_ln2_inv with (S754_finite false 6497320848556798 (-52)) by (vm_compute; reflexivity). reflexivity. Qed.
Lemma c_ln2_num : is_num c_ln2. Proof. split; vm_compute; reflexivity. Qed.
Lemma c_ln2_inv_num : is_num c_ln2_inv. Proof. split; vm_compute; reflexivity. Qed.
Lemma c_ln2_err : Rabs (val c_ln2 - ln 2) <= 24 / 10 ^ 18.
Proof. rewrite c_ln2_val. pose proof ln2_bounds as B. apply Rabs_le. lra. Qed.
Lemma c_ln2_inv_err : Rabs (val c_ln2_inv * ln 2 - 1) <= 3 / 10 ^ 17.
Proof. rewrite c_ln2_inv_val. pose proof ln2_bounds as B. apply Rabs_le. lra. Qed.

(** * The logarithm *)
Definition X2 : fx := FMul FI FI.
Definition X3 : fx := FMul X2 FI.
Definition X4 : fx := FMul X2 X2.
Definition ln_nfx : fx :=
  FAdd (FAdd (FAdd (FAdd (FAdd (FAdd (FAdd (FK ln_n0) (FMul (FK ln_n1) FI)) (FMul (FK ln_n2) X2)) (FMul (FK ln_n3) X3))
    (FMul (FK ln_n4) X4)) (FMul (FK ln_n5) (FMul X4 FI))) (FMul (FK ln_n6) (FMul X4 X2))) (FMul (FK ln_n7) (FMul X4 X3)).
Definition ln_dfx : fx := FAdd (FAdd (FK ln_d0) (FMul (FK ln_d1) FI)) (FMul (FK ln_d2) X2).
Lemma ln_ratio_fx m : ln_ratio m = feval m ln_nfx [/] feval m ln_dfx.
Proof. unfold ln_ratio. cbv zeta. cbn [feval ln_nfx ln_dfx X2 X3 X4]. reflexivity. Qed.
Lemma ln_nfx_cpoly x : reval x ln_nfx = cpoly ln_num x.
Proof. cbn [reval ln_nfx X2 X3 X4 cpoly ln_num]. ring. Qed.
Lemma ln_dfx_cpoly x : reval x ln_dfx = cpoly ln_den x.
Proof. cbn [reval ln_dfx X2 X3 X4 cpoly ln_den]. ring. Qed.

Lemma ln_nfx_err : err_ok 2 ln_nfx 11 (10 ^ 14) = true. Proof. vm_compute. reflexivity. Qed.
Lemma ln_dfx_err : err_ok 2 ln_dfx 22 (10 ^ 15) = true. Proof. vm_compute. reflexivity. Qed.
Lemma ln_den_low : low_ok ln_den lnE (3 * 2 ^ 19) (2 ^ 19) 16000 = true. Proof. vm_compute. reflexivity. Qed.

Lemma p10 n : 10 ^ n = IZR (10 ^ Z.of_nat n). Proof. rewrite pow_IZR. reflexivity. Qed.

Theorem ln_ratio_acc m : is_num m -> 1 <= val m <= 2 ->
  is_num (ln_ratio m) /\ Rabs (val (ln_ratio m) - ln (val m)) <= 372 / 10 ^ 14.
Proof.
  intros N M. assert (MA : Rabs (val m) <= IZR 2) by (rewrite Rabs_pos_eq; lra).
  destruct (err_num m 2 ln_nfx 11 (10 ^ 14) ltac:(reflexivity) N MA ln_nfx_err) as [N1 E1].
  destruct (err_num m 2 ln_dfx 22 (10 ^ 15) ltac:(reflexivity) N MA ln_dfx_err) as [N2 E2].
  rewrite ln_nfx_cpoly in E1. rewrite ln_dfx_cpoly in E2. rewrite ln_ratio_fx.
  change (10 ^ 14)%Z with 100000000000000%Z in E1. change (10 ^ 15)%Z with 1000000000000000%Z in E2.
  assert (LO : 16 <= cpoly ln_den (val m)).
  { pose proof (low_num _ _ _ _ _ (val m) ln_den_low) as L.
    assert (Y : Rabs (val m * IZR s20 - IZR (3 * 2 ^ 19)) <= IZR (2 ^ 19)).
    { unfold s20. change (2 ^ 20)%Z with 1048576%Z. change (3 * 2 ^ 19)%Z with 1572864%Z. change (2 ^ 19)%Z with 524288%Z.
      apply Rabs_le. lra. }
    specialize (L Y). lra. }
  destruct (ln_approx (val m) M) as [_ A].
  assert (LB : 0 <= ln (val m) <= 1).
  { split; [rewrite <- ln_1; destruct (Req_dec (val m) 1) as [->|]; [lra|left; apply ln_increasing; lra]|].
    rewrite <- (ln_exp 1). pose proof (exp_ineq1_le 1). left. apply ln_increasing; [lra|].
    pose proof (exp_ineq1 1 ltac:(lra)). lra. }
  set (a := cpoly ln_num (val m)) in *. set (b := cpoly ln_den (val m)) in *. set (L := ln (val m)) in *.
  assert (QB : Rabs (a / b) <= 2).
  { apply Rabs_le_inv in A. apply Rabs_le. lra. }
  destruct (quot_err a b (val (feval m ln_nfx)) (val (feval m ln_dfx)) 2 _ _ 16 QB E1 E2 LO ltac:(lra) ltac:(lra)) as [D Q].
  set (q' := val (feval m ln_nfx) / val (feval m ln_dfx)) in *.
  assert (Q' : Rabs (q' - a / b) <= 1 / 10 ^ 14).
  { eapply Rle_trans; [exact Q|]. lra. }
  clear Q. apply Rabs_le_inv in Q', A, QB.
  assert (QQ : Rabs q' <= 3) by (apply Rabs_le; lra).
  destruct (div_num _ _ N1 N2 ltac:(lra) (RN_fits q' 3 QQ ltac:(lra))) as [N3 V3].
  split; [exact N3|]. rewrite V3. fold q'. pose proof (RN_le_err q' 3 QQ) as R. apply Rabs_le_inv in R.
  apply Rabs_le. lra.
Qed.

Theorem jit_ln_acc x : normal_pos x -> is_num (jit_ln x) /\ Rabs (val (jit_ln x) - ln (val x)) <= 4 / 10 ^ 12.
Proof.
  intros N. unfold jit_ln. destruct (SFeqb x c1) eqn:Q.
  - assert (V : val x = 1).
    { destruct (normal_shape x N) as (m & e & -> & M & E). unfold c1 in Q.
      destruct (num_B _ (proj1 N)) as (b & EB & FB & VB).
      destruct (of_Z_exact 1 ltac:(lia)) as (b1 & E1 & F1 & V1).
      rewrite EB, E1 in Q. change (SFeqb (B2SF b) (B2SF b1)) with (Beqb b b1) in Q.
      rewrite (Beqb_correct _ _ b b1 FB F1) in Q. revert Q; case Req_bool_spec; intros Q Q'; [|discriminate Q'].
      rewrite <- VB, Q, V1. reflexivity. }
    split; [split; reflexivity|]. rewrite V, ln_1. change (val c0) with 0. rewrite Rminus_0_r, Rabs_R0. lra.
  - destruct (split_normal x N) as (NS & MS & VX & EX).
    set (k := exponent_of x) in *. set (m := significand_of x) in *.
    destruct (ln_ratio_acc m NS ltac:(lra)) as [NR AR].
    destruct (of_Z_exact k ltac:(lia)) as (bk & EK & FK' & VK).
    destruct (is_num_B bk FK') as [NK VK']. rewrite <- EK in NK, VK'. rewrite VK in VK'. clear EK VK FK'.
    assert (KB : -1022 <= IZR k <= 1023) by (split; apply IZR_le; lia).
    pose proof ln2_bounds as L2. pose proof c_ln2_err as CE. apply Rabs_le_inv in CE. set (c := val c_ln2) in *.
    assert (PB : Rabs (IZR k * c) <= 710).
    { rewrite Rabs_mult, (Rabs_pos_eq c) by lra. assert (Rabs (IZR k) <= 1023) by (apply Rabs_le; lra).
      pose proof (Rabs_pos (IZR k)). apply Rle_trans with (1023 * c); [apply Rmult_le_compat_r; lra|lra]. }
    destruct (mul_num _ _ NK c_ln2_num) as [NP VP].
    { rewrite VK'. apply (RN_fits _ 710 PB). lra. }
    rewrite VK' in VP. fold c in VP. pose proof (RN_le_err _ 710 PB) as RP. set (p := RN (IZR k * c)) in *.
    assert (LM : ln (val x) = IZR k * ln 2 + ln (val m)).
    { rewrite VX, ln_mult; [|apply bpow_gt_0|lra]. rewrite bpow_exp. f_equal. change (IZR radix2) with 2. apply ln_exp. }
    assert (LB : 0 <= ln (val m) <= 1).
    { split; [rewrite <- ln_1; destruct (Req_dec (val m) 1) as [->|]; [lra|left; apply ln_increasing; lra]|].
      rewrite <- (ln_exp 1). left. apply ln_increasing; [lra|]. pose proof (exp_ineq1 1 ltac:(lra)). lra. }
    assert (KE : Rabs (IZR k * c - IZR k * ln 2) <= 25 / 10 ^ 15).
    { replace (IZR k * c - IZR k * ln 2) with (IZR k * (c - ln 2)) by ring. rewrite Rabs_mult.
      apply Rle_trans with (1023 * (24 / 10 ^ 18)); [|lra]. apply Rmult_le_compat; try apply Rabs_pos; apply Rabs_le; lra. }
    apply Rabs_le_inv in RP, KE, AR, PB. set (r := val (ln_ratio m)) in *.
    assert (SB : Rabs (p + r) <= 712) by (apply Rabs_le; lra).
    destruct (add_num _ _ NP NR) as [NQ VQ].
    { rewrite VP. fold r. apply (RN_fits _ 712 SB). lra. }
    split; [exact NQ|]. rewrite VQ, VP. fold r. pose proof (RN_le_err _ 712 SB) as RS. apply Rabs_le_inv in RS.
    rewrite LM. apply Rabs_le. lra.
Qed.

(** * The exponential *)
Definition E4 : fx := FMul X3 FI.
Definition exp_nfx : fx :=
  FAdd (FAdd (FAdd (FAdd (FAdd (FK exp_n0) (FMul (FK exp_n1) FI)) (FMul (FK exp_n2) X2)) (FMul (FK exp_n3) X3))
    (FMul (FK exp_n4) E4)) (FMul (FK exp_n5) (FMul E4 FI)).
Definition exp_dfx : fx := FAdd (FAdd (FK exp_d0) (FMul (FK exp_d1) FI)) (FMul (FK exp_d2) X2).
Lemma exp_ratio_fx m : exp_ratio m = feval m exp_nfx [/] feval m exp_dfx.
Proof. unfold exp_ratio. cbv zeta. cbn [feval exp_nfx exp_dfx X2 X3 E4]. reflexivity. Qed.
Lemma exp_nfx_cpoly x : reval x exp_nfx = cpoly exp_num x.
Proof. cbn [reval exp_nfx X2 X3 E4 cpoly exp_num]. ring. Qed.
Lemma exp_dfx_cpoly x : reval x exp_dfx = cpoly exp_den x.
Proof. cbn [reval exp_dfx X2 X3 cpoly exp_den]. ring. Qed.
Lemma exp_nfx_err : err_ok 1 exp_nfx 2 (10 ^ 15) = true. Proof. vm_compute. reflexivity. Qed.
Lemma exp_dfx_err : err_ok 1 exp_dfx 5 (10 ^ 16) = true. Proof. vm_compute. reflexivity. Qed.
Lemma exp_den_low : low_ok exp_den expE 366000 366100 780 = true. Proof. vm_compute. reflexivity. Qed.

Theorem exp_ratio_acc r : is_num r -> - / 2 ^ 20 <= val r <= 726821 / 2 ^ 20 ->
  is_num (exp_ratio r) /\ Rabs (val (exp_ratio r) - exp (val r)) <= 28 / 10 ^ 13 * exp (val r).
Proof.
  intros N M. assert (MA : Rabs (val r) <= IZR 1) by (apply Rabs_le; lra).
  destruct (err_num r 1 exp_nfx 2 (10 ^ 15) ltac:(reflexivity) N MA exp_nfx_err) as [N1 E1].
  destruct (err_num r 1 exp_dfx 5 (10 ^ 16) ltac:(reflexivity) N MA exp_dfx_err) as [N2 E2].
  rewrite exp_nfx_cpoly in E1. rewrite exp_dfx_cpoly in E2. rewrite exp_ratio_fx.
  change (10 ^ 15)%Z with 1000000000000000%Z in E1. change (10 ^ 16)%Z with 10000000000000000%Z in E2.
  assert (LO : 78 / 100 <= cpoly exp_den (val r)).
  { pose proof (low_num _ _ _ _ _ (val r) exp_den_low) as L.
    assert (Y : Rabs (val r * IZR s20 - 366000) <= 366100).
    { unfold s20. change (2 ^ 20)%Z with 1048576%Z. apply Rabs_le. lra. }
    specialize (L Y). lra. }
  destruct (exp_approx (val r) M) as (PN & PD & A).
  set (a := cpoly exp_num (val r)) in *. set (b := cpoly exp_den (val r)) in *.
  set (t := ln (a / b) - val r) in *.
  assert (QE : a / b = exp (val r) * exp t).
  { rewrite <- exp_plus. unfold t. replace (val r + (ln (a / b) - val r)) with (ln (a / b)) by ring.
    rewrite exp_ln; [reflexivity|]. apply Rdiv_lt_0_compat; assumption. }
  pose proof (exp_near t ltac:(lra)) as ET.
  assert (EB : 9 / 10 <= exp (val r) <= 9 / 4).
  { split; [pose proof (exp_ineq1_le (val r)); lra|].
    apply Rle_trans with (exp (7 / 10)).
    - destruct (Req_dec (val r) (7 / 10)) as [->|]; [lra|]. left. apply exp_increasing. lra.
    - pose proof (exp_ineq1_le (- (7 / 40))) as X. rewrite exp_Ropp in X.
      assert (Y : exp (7 / 40) <= 40 / 33).
      { rewrite <- (Rinv_inv (exp (7 / 40))). replace (40 / 33) with (/ (33 / 40)) by field. apply Rinv_le_contravar; lra. }
      replace (7 / 10) with (7 / 40 + 7 / 40 + (7 / 40 + 7 / 40)) by field. rewrite !exp_plus.
      pose proof (exp_pos (7 / 40)). set (u := exp (7 / 40)) in *.
      assert (u * u <= 40 / 33 * (40 / 33)) by (apply Rmult_le_compat; lra).
      assert (u * u * (u * u) <= 40 / 33 * (40 / 33) * (40 / 33 * (40 / 33))).
      { apply Rmult_le_compat; nra. }
      lra. }
  set (x := exp (val r)) in *. pose proof (Rabs_pos t) as TP.
  assert (ET' : Rabs (exp t - 1) <= 2751 / 10 ^ 15).
  { eapply Rle_trans; [exact ET|].
    assert (2 * Rabs t * Rabs t <= 2 * (275 / 10 ^ 14) * (275 / 10 ^ 14)) by (apply Rmult_le_compat; lra). lra. }
  assert (QR : Rabs (a / b - x) <= 2751 / 10 ^ 15 * x).
  { rewrite QE. replace (x * exp t - x) with ((exp t - 1) * x) by ring. rewrite Rabs_mult, (Rabs_pos_eq x) by lra.
    apply Rmult_le_compat_r; lra. }
  assert (QB : Rabs (a / b) <= 3).
  { apply Rabs_le_inv in QR. apply Rabs_le. lra. }
  destruct (quot_err a b (val (feval r exp_nfx)) (val (feval r exp_dfx)) 3 _ _ (78 / 100) QB E1 E2 LO ltac:(lra) ltac:(lra)) as [D Q].
  set (q' := val (feval r exp_nfx) / val (feval r exp_dfx)) in *.
  assert (Q' : Rabs (q' - a / b) <= 1 / 10 ^ 14).
  { eapply Rle_trans; [exact Q|]. lra. }
  clear Q. apply Rabs_le_inv in Q', QB, QR.
  assert (QQ : Rabs q' <= 4) by (apply Rabs_le; lra).
  destruct (div_num _ _ N1 N2 ltac:(lra) (RN_fits q' 4 QQ ltac:(lra))) as [N3 V3].
  split; [exact N3|]. rewrite V3. fold q'. pose proof (RN_le_err q' 4 QQ) as R. apply Rabs_le_inv in R.
  apply Rabs_le. lra.
Qed.
