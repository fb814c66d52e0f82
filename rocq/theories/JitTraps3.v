(** The emitted sine and cosine outside the range of their polynomials (C71). *)
From Coq Require Import ZArith Reals Bool List Lia Lra String.
From Coq Require Import Floats.SpecFloat.
From Flocq Require Import Core IEEE754.BinarySingleNaN.
From Verif Require Import Num ConvModel FloatFacts ConvProofs ExprModel JitModel JitSpec EggSpec LitFacts FloatErr RoundSpec RoundProofs RelErr DistFloat JitBits JitAcc JitAcc2.
Import ListNotations.
Local Open Scope R_scope.

Lemma big_950 : bpow radix2 950 * 4 <= big.
Proof. unfold big. change 4 with (bpow radix2 2). rewrite <- bpow_plus. apply bpow_le. lia. Qed.


(** A product of terms with known bounds, the bound widened by a thousandth. *)
Lemma acc_mul' k l m1 m2 r1 r2 u w : acc k m1 r1 u -> acc l m2 r2 w -> 0 <= k <= 100 -> 0 <= l <= 100 -> 1 <= m1 * m2 <= big ->
  acc (k + l + 1) (m1 * m2 * (1001 / 1000)) (r1 * r2) (f64_mul u w).
Proof.
  intros A B K L M. pose proof small_tiny as S. pose proof eps_small as E. pose proof eps_pos.
  refine (acc_more _ _ _ _ _ _ (acc_mul k l m1 m2 r1 r2 u w A B _ _ _ _) _ _); try lra.
  apply Rle_trans with (200 * eps); [apply Rmult_le_compat_r; lra|lra].
Qed.
Lemma acc_add' k l m1 m2 r1 r2 u w : acc k m1 r1 u -> acc l m2 r2 w -> 0 <= k <= 100 -> 0 <= l <= 100 -> m1 + m2 <= big ->
  acc (Rmax k l + 1) (m1 + m2) (r1 + r2) (f64_add u w).
Proof.
  intros A B K L M. pose proof eps_small as E. pose proof eps_pos. pose proof (Rmax_l k l). pose proof (Rmax_r k l).
  assert (Rmax k l <= 100) by (apply Rmax_lub; lra).
  apply acc_add; [apply (acc_more k _ m1 _ _ _ A); lra|apply (acc_more l _ m2 _ _ _ B); lra|lra| |exact M].
  apply Rle_trans with (100 * eps); [apply Rmult_le_compat_r; lra|lra].
Qed.
Lemma acc_const c b : is_num c -> Rabs (val c) <= b -> acc 0 b (val c) c.
Proof. intros N B. apply (acc_more 0 0 (Rabs (val c)) b _ _ (acc_exact' c N)); lra. Qed.
(** A value much larger than its error. *)
Lemma acc_away k m r w b : acc k m r w -> 0 <= k <= 100 -> m <= 20 * Rabs r -> b * (1 + / 1000) <= Rabs r -> 0 <= b ->
  is_num w /\ b <= Rabs (val w).
Proof.
  intros A K M B P. pose proof eps_small as E. pose proof eps_pos.
  assert (S : k * eps <= / 4) by (apply Rle_trans with (100 * eps); [apply Rmult_le_compat_r; lra|lra]).
  pose proof (gam_up k ltac:(lra) S) as G. pose proof (acc_pos _ _ _ _ A) as MP. destruct A as (NW & _ & D). split; [exact NW|].
  assert (G2 : gam k <= / 100000).
  { eapply Rle_trans; [exact G|]. apply Rle_trans with (200 * eps); [apply Rmult_le_compat_r; lra|lra]. }
  assert (D2 : Rabs (val w - r) <= / 100000 * (20 * Rabs r)).
  { eapply Rle_trans; [exact D|]. apply Rmult_le_compat; try lra. apply gam_pos; lra. }
  assert (T : Rabs r <= Rabs (val w) + Rabs (val w - r)).
  { replace r with (val w + - (val w - r)) at 1 by ring. eapply Rle_trans; [apply Rabs_triang|]. rewrite Rabs_Ropp. lra. }
  lra.
Qed.

Section Far.
Context (x : f64) (N : is_num x) (LO : 4 <= Rabs (val x)) (HI : Rabs (val x) <= 2 ^ 190).
Let v := val x.
Let a := Rabs v.

Lemma a_pow n : (n <= 5)%nat -> a ^ n <= bpow radix2 950.
Proof.
  intros L. apply Rle_trans with (a ^ 5); [apply Rle_pow; [unfold a, v; lra|exact L]|].
  apply Rle_trans with ((2 ^ 190) ^ 5); [apply pow_incr; split; [apply Rabs_pos|exact HI]|].
  rewrite <- pow_mult. change (190 * 5)%nat with 950%nat. rewrite <- (IZR_Zpower radix2 950) by lia. rewrite pow_IZR. right. reflexivity.
Qed.
Lemma a_low n : 4 ^ n <= a ^ n.
Proof. apply pow_incr. unfold a, v. lra. Qed.
Lemma acc_x : acc 0 a v x. Proof. apply acc_exact'. exact N. Qed.
Lemma acc_x2 : acc 1 (a ^ 2 * (1001 / 1000)) (v ^ 2) (x [*] x).
Proof.
  pose proof big_950 as B. pose proof (a_pow 2 ltac:(lia)) as P. pose proof (a_low 2) as A2. pose proof (bpow_gt_0 radix2 950).
  replace (v ^ 2) with (v * v) by ring. replace (a ^ 2) with (a * a) in * by ring.
  refine (acc_more _ _ _ _ _ _ (acc_mul' 0 0 a a v v x x acc_x acc_x _ _ _) _ _); lra.
Qed.
Lemma acc_x3 : acc 2 (a ^ 3 * (1003 / 1000)) (v ^ 3) (x [*] x [*] x).
Proof.
  pose proof big_950 as B. pose proof (a_pow 3 ltac:(lia)) as P. pose proof (a_low 3) as A3. pose proof (bpow_gt_0 radix2 950).
  replace (v ^ 3) with (v ^ 2 * v) by ring. replace (a ^ 3) with (a ^ 2 * a) in * by ring.
  refine (acc_more _ _ _ _ _ _ (acc_mul' 1 0 _ a _ v _ x acc_x2 acc_x _ _ _) _ _); lra.
Qed.
Lemma acc_x5 : acc 4 (a ^ 5 * (1006 / 1000)) (v ^ 5) (x [*] x [*] x [*] (x [*] x)).
Proof.
  pose proof big_950 as B. pose proof (a_pow 5 ltac:(lia)) as P. pose proof (a_low 5) as A5. pose proof (bpow_gt_0 radix2 950).
  replace (v ^ 5) with (v ^ 3 * v ^ 2) by ring. replace (a ^ 5) with (a ^ 3 * a ^ 2) in * by ring.
  refine (acc_more _ _ _ _ _ _ (acc_mul' 2 1 _ _ _ _ _ _ acc_x3 acc_x2 _ _ _) _ _); lra.
Qed.
Lemma acc_x4 : acc 3 (a ^ 4 * (1006 / 1000)) (v ^ 4) (x [*] x [*] (x [*] x)).
Proof.
  pose proof big_950 as B. pose proof (a_pow 4 ltac:(lia)) as P. pose proof (a_low 4) as A4. pose proof (bpow_gt_0 radix2 950).
  replace (v ^ 4) with (v ^ 2 * v ^ 2) by ring. replace (a ^ 4) with (a ^ 2 * a ^ 2) in * by ring.
  refine (acc_more _ _ _ _ _ _ (acc_mul' 1 1 _ _ _ _ _ _ acc_x2 acc_x2 _ _ _) _ _); lra.
Qed.
Theorem sin_far : is_num (jit_sin x) /\ 18 / 10 <= Rabs (val (jit_sin x)).
Proof.
  pose proof big_950 as B. pose proof (bpow_gt_0 radix2 950) as BP.
  pose proof (a_pow 3 ltac:(lia)) as P3. pose proof (a_low 3) as A3. pose proof (a_pow 5 ltac:(lia)) as P5. pose proof (a_low 5) as A5.
  pose proof (a_pow 1 ltac:(lia)) as P1. pose proof (a_low 1) as A1. rewrite !pow_1 in *.
  pose proof sin_c2_val as C2. pose proof sin_c3_val as C3. apply Rabs_le_inv in C2, C3.
  assert (N2 : is_num sin_c2) by (split; vm_compute; reflexivity).
  assert (N3 : is_num sin_c3) by (split; vm_compute; reflexivity).
  set (k2 := val sin_c2) in *. set (k3 := val sin_c3) in *.
  assert (T2 : acc 3 (a ^ 3 * (17 / 100)) (v ^ 3 * k2) (x [*] x [*] x [*] sin_c2)).
  { refine (acc_more _ _ _ _ _ _ (acc_mul' 2 0 _ (167 / 1000) _ _ _ _ acc_x3 (acc_const sin_c2 (167 / 1000) N2 _) _ _ _) _ _); try lra.
    fold k2. apply Rabs_le. lra. }
  assert (T3 : acc 5 (a ^ 5 * (85 / 10000)) (v ^ 5 * k3) (x [*] x [*] x [*] (x [*] x) [*] sin_c3)).
  { refine (acc_more _ _ _ _ _ _ (acc_mul' 4 0 _ (834 / 100000) _ _ _ _ acc_x5 (acc_const sin_c3 (834 / 100000) N3 _) _ _ _) _ _); try lra.
    fold k3. apply Rabs_le. lra. }
  pose proof (acc_add' 0 3 _ _ _ _ _ _ acc_x T2 ltac:(lra) ltac:(lra) ltac:(lra)) as S1.
  rewrite Rmax_right in S1 by lra.
  pose proof (acc_add' _ 5 _ _ _ _ _ _ S1 T3 ltac:(lra) ltac:(lra) ltac:(lra)) as S2.
  rewrite Rmax_right in S2 by lra.
  set (r := v + v ^ 3 * k2 + v ^ 5 * k3) in *.
  assert (U : 16 <= a ^ 2) by (pose proof (a_low 2); lra).
  assert (R : a * (1 - a ^ 2 * (166667 / 1000000) + a ^ 2 * a ^ 2 * (83333 / 10000000)) <= Rabs r).
  { replace r with (v * (1 + v ^ 2 * k2 + v ^ 2 * v ^ 2 * k3)) by (unfold r; ring). rewrite Rabs_mult. fold a.
    apply Rmult_le_compat_l; [lra|]. replace (v ^ 2) with (a ^ 2) by (apply pow2_abs).
    eapply Rle_trans; [|apply Rle_abs]. assert (a ^ 2 * (-166667 / 1000000) <= a ^ 2 * k2) by (apply Rmult_le_compat_l; lra).
    assert (a ^ 2 * a ^ 2 * (83333 / 10000000) <= a ^ 2 * a ^ 2 * k3) by (apply Rmult_le_compat_l; nra). lra. }
  apply (acc_away _ _ _ _ _ S2); try lra.
  - eapply Rle_trans; [|apply Rmult_le_compat_l; [lra|exact R]].
    replace (a + a ^ 3 * (17 / 100) + a ^ 5 * (85 / 10000)) with (a * (1 + a ^ 2 * (17 / 100) + a ^ 2 * a ^ 2 * (85 / 10000))) by ring.
    rewrite <- (Rmult_assoc 20), (Rmult_comm 20), (Rmult_assoc a 20). apply Rmult_le_compat_l; [lra|]. set (u := a ^ 2) in *. nra.
  - eapply Rle_trans; [|exact R]. apply Rle_trans with (4 * (46 / 100)); [lra|]. apply Rmult_le_compat; try lra.
    set (u := a ^ 2) in *. nra.
Qed.
Theorem cos_far : is_num (jit_cos x) /\ 36 / 10 <= Rabs (val (jit_cos x)).
Proof.
  pose proof big_950 as B. pose proof (bpow_gt_0 radix2 950) as BP.
  pose proof (a_pow 2 ltac:(lia)) as P2. pose proof (a_low 2) as A2. pose proof (a_pow 4 ltac:(lia)) as P4. pose proof (a_low 4) as A4.
  pose proof cos_c2_val as C2. pose proof cos_c3_val as C3. apply Rabs_le_inv in C3.
  assert (N2 : is_num cos_c2) by (split; vm_compute; reflexivity).
  assert (N3 : is_num cos_c3) by (split; vm_compute; reflexivity).
  assert (N1 : is_num c1) by (split; vm_compute; reflexivity).
  set (k2 := val cos_c2) in *. set (k3 := val cos_c3) in *.
  assert (T2 : acc 2 (a ^ 2 * (51 / 100)) (v ^ 2 * k2) (x [*] x [*] cos_c2)).
  { refine (acc_more _ _ _ _ _ _ (acc_mul' 1 0 _ (1 / 2) _ _ _ _ acc_x2 (acc_const cos_c2 (1 / 2) N2 _) _ _ _) _ _); try lra.
    fold k2. apply Rabs_le. lra. }
  assert (T3 : acc 4 (a ^ 4 * (43 / 1000)) (v ^ 4 * k3) (x [*] x [*] (x [*] x) [*] cos_c3)).
  { refine (acc_more _ _ _ _ _ _ (acc_mul' 3 0 _ (417 / 10000) _ _ _ _ acc_x4 (acc_const cos_c3 (417 / 10000) N3 _) _ _ _) _ _); try lra.
    fold k3. apply Rabs_le. lra. }
  assert (T1 : acc 0 1 1 c1).
  { pose proof (acc_const c1 1 N1) as Q. rewrite c1_val in Q. apply Q. rewrite Rabs_R1. lra. }
  pose proof (acc_add' 0 2 _ _ _ _ _ _ T1 T2 ltac:(lra) ltac:(lra) ltac:(lra)) as S1.
  rewrite Rmax_right in S1 by lra.
  pose proof (acc_add' _ 4 _ _ _ _ _ _ S1 T3 ltac:(lra) ltac:(lra) ltac:(lra)) as S2.
  rewrite Rmax_right in S2 by lra.
  set (r := 1 + v ^ 2 * k2 + v ^ 4 * k3) in *.
  assert (U : 16 <= a ^ 2) by lra.
  assert (R : 1 - a ^ 2 * (1 / 2) + a ^ 2 * a ^ 2 * (41666 / 1000000) <= Rabs r).
  { replace r with (1 + v ^ 2 * k2 + v ^ 2 * v ^ 2 * k3) by (unfold r; ring).
    replace (v ^ 2) with (a ^ 2) by (apply pow2_abs).
    eapply Rle_trans; [|apply Rle_abs].
    assert (a ^ 2 * a ^ 2 * (41666 / 1000000) <= a ^ 2 * a ^ 2 * k3) by (apply Rmult_le_compat_l; nra). rewrite C2. lra. }
  apply (acc_away _ _ _ _ _ S2); try lra.
  - eapply Rle_trans; [|apply Rmult_le_compat_l; [lra|exact R]]. replace (a ^ 4) with (a ^ 2 * a ^ 2) in * by ring.
    set (u := a ^ 2) in *. nra.
  - eapply Rle_trans; [|exact R]. set (u := a ^ 2) in *. nra.
Qed.
End Far.
