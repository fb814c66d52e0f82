(** Accuracy of the JIT's exponential, powers, sine and cosine (C17). *)
From Coq Require Import ZArith Reals Bool List Lia Lra.
From Coq Require Import Floats.SpecFloat.
From Flocq Require Import Core IEEE754.BinarySingleNaN.
From Verif Require Import Num ConvModel FloatFacts ConvProofs JitModel JitSpec EggSpec LitFacts FloatErr JitBits JitAcc.
Import ListNotations.
Local Open Scope R_scope.

Lemma exp_le a b : a <= b -> exp a <= exp b.
Proof. intros [H| ->]; [left; apply exp_increasing, H|lra]. Qed.
Lemma bpow2_exp k : bpow radix2 k = exp (IZR k * ln 2).
Proof. rewrite bpow_exp. reflexivity. Qed.

(** The reduction: the argument minus a multiple of ln 2. *)
Lemma exp_reduce x : is_num x -> -708 <= val x <= 709 ->
  let kf := f64_floor (x [*] c_ln2_inv) in
  exists k, sf_trunc kf = Some k /\ (-1100 <= k <= 1100)%Z /\
  is_num (x [-] kf [*] c_ln2) /\ - / 2 ^ 20 <= val (x [-] kf [*] c_ln2) <= 726821 / 2 ^ 20 /\
  Rabs (val (x [-] kf [*] c_ln2) - (val x - IZR k * ln 2)) <= 12 / 10 ^ 14.
Proof.
  intros N X kf. set (v := val x) in *.
  pose proof ln2_bounds as L2. pose proof c_ln2_err as CE. pose proof c_ln2_inv_err as IE.
  apply Rabs_le_inv in CE, IE.
  assert (CI : 144 / 100 <= val c_ln2_inv <= 1443 / 1000) by (rewrite c_ln2_inv_val; lra).
  pose proof (fun y Y => mul_num y c_ln2 Y c_ln2_num) as MC. pose proof (mul_num x c_ln2_inv N c_ln2_inv_num) as MI.
  fold v in MI. remember (val c_ln2) as c eqn:Ec in *. clear Ec. remember (val c_ln2_inv) as ci eqn:Eci in *. clear Eci.
  assert (TB : Rabs (v * ci) <= 1024).
  { rewrite Rabs_mult, (Rabs_pos_eq ci) by lra. assert (Rabs v <= 709) by (apply Rabs_le; lra).
    apply Rle_trans with (709 * (1443 / 1000)); [|lra]. apply Rmult_le_compat; try apply Rabs_pos; lra. }
  destruct (MI (RN_fits _ 1024 TB ltac:(lra))) as [NT VT]. clear MI.
  pose proof (RN_le_err _ 1024 TB) as RT. apply Rabs_le_inv in RT, TB.
  destruct (floor_num _ NT) as (NK & VK & TK). fold kf in NK, VK, TK. rewrite VT in VK, TK.
  set (t := RN (v * ci)) in *. set (k := Zfloor t) in *.
  pose proof (Zfloor_lb t) as KL. pose proof (Zfloor_ub t) as KU. fold k in KL, KU.
  assert (TL : Rabs (t * ln 2 - v) <= 11 / 10 ^ 14).
  { replace (t * ln 2 - v) with ((t - v * ci) * ln 2 + v * (ci * ln 2 - 1)) by ring.
    eapply Rle_trans; [apply Rabs_triang|]. rewrite !Rabs_mult, (Rabs_pos_eq (ln 2)) by lra.
    apply Rle_trans with (12 / 10 ^ 14 * (7 / 10) + 709 * (3 / 10 ^ 17)); [|lra].
    apply Rplus_le_compat; apply Rmult_le_compat; try apply Rabs_pos; try lra; apply Rabs_le; lra. }
  apply Rabs_le_inv in TL.
  assert (KB : -1100 <= IZR k <= 1100) by lra.
  assert (S1 : IZR k * ln 2 <= t * ln 2) by (apply Rmult_le_compat_r; lra).
  assert (S2 : t * ln 2 <= (IZR k + 1) * ln 2) by (apply Rmult_le_compat_r; lra).
  assert (PB : Rabs (IZR k * c) <= 770).
  { rewrite Rabs_mult, (Rabs_pos_eq c) by lra. assert (Rabs (IZR k) <= 1100) by (apply Rabs_le; lra).
    apply Rle_trans with (1100 * (7 / 10)); [|lra]. apply Rmult_le_compat; try apply Rabs_pos; lra. }
  destruct (MC _ NK) as [NP VP].
  { rewrite VK. apply (RN_fits _ 770 PB). lra. }
  rewrite VK in VP. pose proof (RN_le_err _ 770 PB) as RP. apply Rabs_le_inv in RP, PB.
  set (p := RN (IZR k * c)) in *.
  assert (KE : Rabs (IZR k * c - IZR k * ln 2) <= 27 / 10 ^ 15).
  { replace (IZR k * c - IZR k * ln 2) with (IZR k * (c - ln 2)) by ring. rewrite Rabs_mult.
    apply Rle_trans with (1100 * (24 / 10 ^ 18)); [|lra]. apply Rmult_le_compat; try apply Rabs_pos; apply Rabs_le; lra. }
  apply Rabs_le_inv in KE.
  assert (SB : Rabs (v - p) <= 1) by (apply Rabs_le; lra).
  destruct (sub_num _ _ N NP) as [NR VR].
  { rewrite VP. fold v. apply (RN_fits _ 1 SB). lra. }
  rewrite VP in VR. fold v in VR. pose proof (RN_le_err _ 1 SB) as RR. apply Rabs_le_inv in RR.
  exists k. split; [exact TK|]. split; [split; apply le_IZR; lra|]. split; [exact NR|]. rewrite VR.
  split; [lra|]. apply Rabs_le. lra.
Qed.

(** The value before scaling. *)
Lemma exp_scaled x : is_num x -> -708 <= val x <= 709 ->
  let kf := f64_floor (x [*] c_ln2_inv) in let q := exp_ratio (x [-] kf [*] c_ln2) in
  exists k, sf_trunc kf = Some k /\ (-1100 <= k <= 1100)%Z /\ is_num q /\ 9 / 10 <= val q <= 3 /\
  Rabs (val q * bpow radix2 k - exp (val x)) <= 294 / 10 ^ 14 * exp (val x).
Proof.
  intros N X kf q. destruct (exp_reduce x N X) as (k & TK & KB & NR & RB & RE). fold kf in TK, NR, RB, RE.
  destruct (exp_ratio_acc _ NR RB) as [NQ QE]. fold q in NQ, QE.
  exists k. split; [exact TK|]. split; [exact KB|]. split; [exact NQ|].
  set (r := val (x [-] kf [*] c_ln2)) in *. set (s := val x - IZR k * ln 2) in *.
  pose proof (exp_near (r - s) ltac:(lra)) as EN.
  assert (EN' : Rabs (exp (r - s) - 1) <= 121 / 10 ^ 15).
  { eapply Rle_trans; [exact EN|]. pose proof (Rabs_pos (r - s)).
    assert (2 * Rabs (r - s) * Rabs (r - s) <= 2 * (12 / 10 ^ 14) * (12 / 10 ^ 14)) by (apply Rmult_le_compat; lra). lra. }
  apply Rabs_le_inv in EN'.
  assert (ER : exp r = exp s * exp (r - s)) by (rewrite <- exp_plus; f_equal; ring).
  assert (XS : exp (val x) = exp s * bpow radix2 k).
  { rewrite bpow2_exp, <- exp_plus. f_equal. unfold s. ring. }
  pose proof (exp_pos s) as SP. pose proof (bpow_gt_0 radix2 k) as BP.
  assert (RL : 99 / 100 <= exp r) by (pose proof (exp_ineq1_le r); lra).
  assert (RU : exp r <= 29 / 10).
  { apply Rle_trans with (exp (7 / 10)); [apply exp_le; lra|].
    replace (7 / 10) with (7 / 20 + 7 / 20) by field. rewrite exp_plus.
    pose proof (exp_ineq1_le (- (7 / 20))) as E. rewrite exp_Ropp in E. pose proof (exp_pos (7 / 20)).
    assert (Y : exp (7 / 20) <= 20 / 13).
    { rewrite <- (Rinv_inv (exp (7 / 20))). replace (20 / 13) with (/ (13 / 20)) by field. apply Rinv_le_contravar; lra. }
    assert (exp (7 / 20) * exp (7 / 20) <= 20 / 13 * (20 / 13)) by (apply Rmult_le_compat; lra). lra. }
  apply Rabs_le_inv in QE. split; [lra|].
  rewrite XS. replace (val q * bpow radix2 k - exp s * bpow radix2 k) with ((val q - exp s) * bpow radix2 k) by ring.
  rewrite Rabs_mult, (Rabs_pos_eq (bpow radix2 k)), <- Rmult_assoc by lra. apply Rmult_le_compat_r; [lra|].
  assert (EU : exp r <= exp s * (1 + 121 / 10 ^ 15)) by (rewrite ER; apply Rmult_le_compat_l; lra).
  assert (EL : exp s * (1 - 121 / 10 ^ 15) <= exp r) by (rewrite ER; apply Rmult_le_compat_l; lra).
  apply Rabs_le. lra.
Qed.

Theorem jit_exp_acc x : is_num x -> -708 <= val x <= 709 ->
  exists w, jit_exp x = Some w /\ is_num w /\ Rabs (val w - exp (val x)) <= 3 / 10 ^ 12 * exp (val x).
Proof.
  intros N X. destruct (exp_scaled x N X) as (k & TK & KB & NQ & QB & QE). unfold jit_exp. cbv zeta in *. rewrite TK.
  set (q := exp_ratio (x [-] f64_floor (x [*] c_ln2_inv) [*] c_ln2)) in *.
  replace ((- 2 ^ 31 <=? k)%Z && (k <? 2 ^ 31)%Z) with true.
  2:{ symmetry. apply andb_true_intro. split; [apply Z.leb_le|apply Z.ltb_lt]; lia. }
  eexists. split; [reflexivity|].
  pose proof (exp_pos (val x)) as XP. pose proof ln2_bounds as L2.
  assert (MB : forall h c, is_num h -> val h = c -> 0 < c <= 2 -> bpow radix2 k = c -> 9 / 20 <= c ->
    is_num (q [*] h) /\ Rabs (val (q [*] h) - exp (val x)) <= 3 / 10 ^ 12 * exp (val x)).
  { intros h c NH VH CB BC C1. rewrite BC in QE.
    assert (B : 0 <= val q * c <= 6).
    { split; [apply Rmult_le_pos; lra|]. apply Rle_trans with (3 * 2); [apply Rmult_le_compat; lra|lra]. }
    assert (B2 : 40 / 100 <= val q * c).
    { apply Rle_trans with (9 / 10 * (9 / 20)); [lra|]. apply Rmult_le_compat; lra. }
    assert (BA : Rabs (val q * c) <= 6) by (rewrite Rabs_pos_eq; lra).
    destruct (mul_num _ _ NQ NH) as [NM VM]. { rewrite VH. apply (RN_fits _ 6 BA). lra. }
    rewrite VH in VM. split; [exact NM|]. rewrite VM. pose proof (RN_le_err _ 6 BA) as R.
    apply Rabs_le_inv in R, QE. apply Rabs_le. lra. }
  destruct (Z.eqb_spec k (-1)) as [K1|K1].
  { apply (MB chalf (/ 2)).
    - split; vm_compute; reflexivity.
    - replace chalf with (S754_finite false 4503599627370496 (-53)) by (vm_compute; reflexivity). rewrite val_explicit.
      cbn [cond_Zopp]. change (bpow radix2 (-53)) with (/ 9007199254740992). lra.
    - lra.
    - rewrite K1. reflexivity.
    - lra. }
  destruct (Z.eqb_spec k 1) as [K2|K2].
  { apply (MB c2 2).
    - split; vm_compute; reflexivity.
    - replace c2 with (S754_finite false 4503599627370496 (-51)) by (vm_compute; reflexivity). rewrite val_explicit.
      cbn [cond_Zopp]. change (bpow radix2 (-51)) with (/ 2251799813685248). lra.
    - lra.
    - rewrite K2. reflexivity.
    - lra. }
  destruct (Z.eqb_spec k 0) as [K3|K3].
  { split; [exact NQ|]. rewrite K3 in QE. change (bpow radix2 0) with 1 in QE. rewrite Rmult_1_r in QE.
    eapply Rle_trans; [exact QE|]. apply Rmult_le_compat_r; lra. }
  assert (LOW : bpow radix2 (-1022) <= exp (-708) / (13 / 10)).
  { rewrite bpow2_exp. apply Rle_trans with (exp (-708 + - (3 / 10))); [apply exp_le; lra|].
    rewrite exp_plus, exp_Ropp. unfold Rdiv. apply Rmult_le_compat_l; [apply Rlt_le, exp_pos|].
    apply Rinv_le_contravar; [lra|]. pose proof (exp_ineq1_le (3 / 10)). lra. }
  assert (HIGH : 17 / 10 * exp 709 <= bpow radix2 1024).
  { rewrite bpow2_exp. apply Rle_trans with (exp (7 / 10 + 709)); [|apply exp_le; lra].
    rewrite exp_plus. apply Rmult_le_compat_r; [apply Rlt_le, exp_pos|]. pose proof (exp_ineq1_le (7 / 10)). lra. }
  assert (EL : exp (-708) <= exp (val x)) by (apply exp_le; lra).
  assert (EU : exp (val x) <= exp 709) by (apply exp_le; lra).
  pose proof (exp_pos (-708)). pose proof (exp_pos 709).
  apply Rabs_le_inv in QE. set (ex := exp (val x)) in *.
  assert (QN : normal_pos q).
  { split; [exact NQ|]. apply Rle_trans with (bpow radix2 (-1)); [apply bpow_le; lia|]. change (bpow radix2 (-1)) with (/ 2). lra. }
  destruct (shift_normal q k QN) as [NS VS].
  - lra.
  - lra.
  - split; [exact NS|]. rewrite VS. apply Rabs_le. lra.
Qed.

(** * General powers *)
Theorem jit_powf_acc b e : normal_pos b -> is_num e -> Rabs (val e) * (Rabs (ln (val b)) + 1 / 10 ^ 11) <= 707 ->
  exists w, jit_powf b e = Some w /\ is_num w /\
    let eps := 4 / 10 ^ 12 * (1 + Rabs (val e)) in
    Rpower (val b) (val e) * exp (- eps) <= val w <= Rpower (val b) (val e) * exp eps.
Proof.
  intros NB NE H. destruct (jit_ln_acc b NB) as [NL LE]. set (L := val (jit_ln b)) in *. set (l := ln (val b)) in *.
  set (v := val e) in *. pose proof (Rabs_pos v) as VP.
  assert (LA : Rabs L <= Rabs l + 4 / 10 ^ 12).
  { replace L with (l + (L - l)) by ring. eapply Rle_trans; [apply Rabs_triang|]. lra. }
  assert (PA : Rabs (v * L) <= 707).
  { rewrite Rabs_mult. eapply Rle_trans; [apply Rmult_le_compat_l; [lra|exact LA]|]. eapply Rle_trans; [|exact H].
    apply Rmult_le_compat_l; lra. }
  unfold jit_powf. destruct (mul_num _ _ NE NL) as [NM VM]. { fold v L. apply (RN_fits _ 707 PA). lra. }
  fold v L in VM. pose proof (RN_le_err _ 707 PA) as R. set (y := RN (v * L)) in *.
  assert (YE : Rabs (y - v * l) <= 4 / 10 ^ 12 * Rabs v + 8 / 10 ^ 14).
  { replace (y - v * l) with ((y - v * L) + v * (L - l)) by ring. eapply Rle_trans; [apply Rabs_triang|].
    rewrite (Rabs_mult v). assert (Rabs v * Rabs (L - l) <= Rabs v * (4 / 10 ^ 12)) by (apply Rmult_le_compat_l; lra). lra. }
  apply Rabs_le_inv in R, PA. destruct (jit_exp_acc (e [*] jit_ln b) NM) as (w & W & NW & WE).
  { rewrite VM. lra. }
  exists w. split; [exact W|]. split; [exact NW|]. cbv zeta. rewrite VM in WE. unfold Rpower. fold l.
  pose proof (exp_pos y) as EP. apply Rabs_le_inv in WE. apply Rabs_le_inv in YE.
  rewrite <- !exp_plus. split.
  - apply Rle_trans with (exp y * (1 - 3 / 10 ^ 12)); [|lra].
    apply Rle_trans with (exp (y + - (301 / 10 ^ 14))); [apply exp_le; lra|].
    rewrite exp_plus. apply Rmult_le_compat_l; [lra|]. rewrite exp_Ropp.
    pose proof (exp_ineq1_le (301 / 10 ^ 14)). apply Rle_trans with (/ (1 + 301 / 10 ^ 14)).
    + apply Rinv_le_contravar; lra.
    + apply (Rmult_le_reg_l (1 + 301 / 10 ^ 14)); [lra|]. rewrite Rinv_r by lra. lra.
  - apply Rle_trans with (exp y * (1 + 3 / 10 ^ 12)); [lra|].
    apply Rle_trans with (exp (y + 3 / 10 ^ 12)); [|apply exp_le; lra].
    rewrite exp_plus. apply Rmult_le_compat_l; [lra|]. pose proof (exp_ineq1_le (3 / 10 ^ 12)). lra.
Qed.

(** * Sine and cosine *)
Definition sin_fx : fx := FAdd (FAdd FI (FMul X3 (FK sin_c2))) (FMul (FMul X3 X2) (FK sin_c3)).
Definition cos_fx : fx := FAdd (FAdd (FK c1) (FMul X2 (FK cos_c2))) (FMul (FMul X2 X2) (FK cos_c3)).
Lemma jit_sin_fx x : jit_sin x = feval x sin_fx.
Proof. unfold jit_sin. cbv zeta. cbn [feval sin_fx X2 X3]. reflexivity. Qed.
Lemma jit_cos_fx x : jit_cos x = feval x cos_fx.
Proof. unfold jit_cos. cbv zeta. cbn [feval cos_fx X2]. reflexivity. Qed.
Lemma sin_fx_err : err_ok 4 sin_fx 1 (10 ^ 13) = true. Proof. vm_compute. reflexivity. Qed.
Lemma cos_fx_err : err_ok 2 cos_fx 1 (10 ^ 14) = true. Proof. vm_compute. reflexivity. Qed.

Lemma sin_c2_val : Rabs (val sin_c2 + / 6) <= 34 / 10 ^ 13.
Proof.
  replace sin_c2 with (S754_finite true 6004799503280757 (-55)) by (vm_compute; reflexivity). rewrite val_explicit. cbn [cond_Zopp].
  change (bpow radix2 (-55)) with (/ 36028797018963968). rewrite opp_IZR. apply Rabs_le. lra.
Qed.
Lemma sin_c3_val : Rabs (val sin_c3 - / 120) <= 34 / 10 ^ 13.
Proof.
  replace sin_c3 with (S754_finite false 4803839600606993 (-59)) by (vm_compute; reflexivity). rewrite val_explicit. cbn [cond_Zopp].
  change (bpow radix2 (-59)) with (/ 576460752303423488). apply Rabs_le. lra.
Qed.
Lemma cos_c2_val : val cos_c2 = - / 2.
Proof.
  replace cos_c2 with (S754_finite true 4503599627370496 (-53)) by (vm_compute; reflexivity). rewrite val_explicit. cbn [cond_Zopp].
  change (bpow radix2 (-53)) with (/ 9007199254740992). rewrite opp_IZR. lra.
Qed.
Lemma cos_c3_val : Rabs (val cos_c3 - / 24) <= 34 / 10 ^ 13.
Proof.
  replace cos_c3 with (S754_finite false 6004799503641045 (-57)) by (vm_compute; reflexivity). rewrite val_explicit. cbn [cond_Zopp].
  change (bpow radix2 (-57)) with (/ 144115188075855872). apply Rabs_le. lra.
Qed.
Lemma c1_val : val c1 = 1.
Proof.
  replace c1 with (S754_finite false 4503599627370496 (-52)) by (vm_compute; reflexivity). rewrite val_explicit. cbn [cond_Zopp].
  change (bpow radix2 (-52)) with (/ 4503599627370496). lra.
Qed.

Lemma sin_taylor x : Rabs x <= 4 -> Rabs (sin x - (x - x ^ 3 / 6 + x ^ 5 / 120)) <= Rabs x ^ 7 / 5040.
Proof.
  assert (P : forall a, 0 <= a <= 4 -> Rabs (sin a - (a - a ^ 3 / 6 + a ^ 5 / 120)) <= a ^ 7 / 5040).
  { intros a [A B]. pose proof (pre_sin_bound a 0 A B) as [_ H1]. pose proof (pre_sin_bound a 1 A B) as [H2 _].
    unfold sin_approx, sin_term in H1, H2. cbn [Nat.mul Nat.add sum_f_R0 fact] in H1, H2.
    assert (0 <= a ^ 7) by (apply pow_le; exact A).
    apply Rabs_le. cbn [pow INR] in *. split; lra. }
  intros H. destruct (Rle_dec 0 x) as [S|S].
  - rewrite (Rabs_pos_eq x S) in *. apply P. lra.
  - rewrite (Rabs_left x) in * by lra. specialize (P (- x) ltac:(lra)). rewrite sin_neg in P.
    replace (sin x - (x - x ^ 3 / 6 + x ^ 5 / 120)) with (- (- sin x - (- x - (- x) ^ 3 / 6 + (- x) ^ 5 / 120))) by field.
    rewrite Rabs_Ropp. exact P.
Qed.
Lemma cos_taylor x : Rabs x <= 2 -> Rabs (cos x - (1 - x ^ 2 / 2 + x ^ 4 / 24)) <= Rabs x ^ 6 / 720.
Proof.
  intros H. apply Rabs_le_inv in H. destruct H as [A B].
  pose proof (pre_cos_bound x 0 A B) as [_ H1]. pose proof (pre_cos_bound x 1 A B) as [H2 _].
  unfold cos_approx, cos_term in H1, H2. cbn [Nat.mul Nat.add sum_f_R0 fact] in H1, H2.
  assert (E : Rabs x ^ 6 = x ^ 6).
  { change 6%nat with (2 * 3)%nat. rewrite !pow_mult, pow2_abs. reflexivity. }
  rewrite E. assert (0 <= x ^ 6) by (rewrite <- E; apply pow_le, Rabs_pos).
  apply Rabs_le. cbn [pow INR] in *. split; lra.
Qed.

Theorem jit_sin_acc x : is_num x -> Rabs (val x) <= 4 ->
  is_num (jit_sin x) /\
  Rabs (val (jit_sin x) - sin (val x)) <=
    Rabs (val x) ^ 7 / 5040 + 34 / 10 ^ 13 * (Rabs (val x) ^ 3 + Rabs (val x) ^ 5) + / 10 ^ 13.
Proof.
  intros N X. rewrite jit_sin_fx. destruct (err_num x 4 sin_fx 1 (10 ^ 13) ltac:(reflexivity) N X sin_fx_err) as [NS E].
  change (10 ^ 13)%Z with 10000000000000%Z in E. split; [exact NS|]. set (w := val (feval x sin_fx)) in *. clearbody w. clear NS.
  cbn [reval sin_fx X2 X3] in E. pose proof sin_c2_val as C2. pose proof sin_c3_val as C3.
  generalize dependent (val sin_c2). intros s2 E C2. generalize dependent (val sin_c3). intros s3 C3 E.
  set (v := val x) in *. clearbody v. pose proof (sin_taylor v X) as T.
  assert (P3 : Rabs ((s2 + / 6) * v ^ 3) <= 34 / 10 ^ 13 * Rabs v ^ 3).
  { rewrite Rabs_mult, <- RPow_abs. apply Rmult_le_compat_r; [apply pow_le, Rabs_pos|exact C2]. }
  assert (P5 : Rabs ((s3 - / 120) * v ^ 5) <= 34 / 10 ^ 13 * Rabs v ^ 5).
  { rewrite Rabs_mult, <- RPow_abs. apply Rmult_le_compat_r; [apply pow_le, Rabs_pos|exact C3]. }
  match type of E with Rabs (w - ?p) <= _ => set (p0 := p) in * end.
  assert (PE : p0 = (v - v ^ 3 / 6 + v ^ 5 / 120) + (s2 + / 6) * v ^ 3 + (s3 - / 120) * v ^ 5) by (unfold p0; field).
  apply Rabs_le_inv in E, T, P3, P5. apply Rabs_le. lra.
Qed.
Theorem jit_cos_acc x : is_num x -> Rabs (val x) <= 2 ->
  is_num (jit_cos x) /\
  Rabs (val (jit_cos x) - cos (val x)) <= Rabs (val x) ^ 6 / 720 + 34 / 10 ^ 13 * Rabs (val x) ^ 4 + / 10 ^ 14.
Proof.
  intros N X. rewrite jit_cos_fx. destruct (err_num x 2 cos_fx 1 (10 ^ 14) ltac:(reflexivity) N X cos_fx_err) as [NS E].
  change (10 ^ 14)%Z with 100000000000000%Z in E. split; [exact NS|]. set (w := val (feval x cos_fx)) in *. clearbody w. clear NS.
  cbn [reval cos_fx X2] in E. pose proof cos_c3_val as C3. rewrite c1_val, cos_c2_val in E.
  generalize dependent (val cos_c3). intros s3 E C3.
  set (v := val x) in *. clearbody v. pose proof (cos_taylor v X) as T.
  assert (P5 : Rabs ((s3 - / 24) * v ^ 4) <= 34 / 10 ^ 13 * Rabs v ^ 4).
  { rewrite Rabs_mult, <- RPow_abs. apply Rmult_le_compat_r; [apply pow_le, Rabs_pos|exact C3]. }
  match type of E with Rabs (w - ?p) <= _ => set (p0 := p) in * end.
  assert (PE : p0 = (1 - v ^ 2 / 2 + v ^ 4 / 24) + (s3 - / 24) * v ^ 4) by (unfold p0; field).
  apply Rabs_le_inv in E, T, P5. apply Rabs_le. lra.
Qed.
