(** Stirling's series with an explicit remainder, and certified bounds for ln k!
    (used for C40 and the Poisson family path).  No part of the code is modelled here. *)
From Coquelicot Require Import Coquelicot.
From Coq Require Import ZArith QArith Reals List Bool Lra Lia Arith.
From Verif Require Import Wallis.
Import ListNotations.
Local Open Scope R_scope.

(** ** atanh: partial sums and remainder *)
Definition ath (x : R) : R := / 2 * ln ((1 + x) / (1 - x)).
Fixpoint athp (n : nat) (x : R) : R :=
  match n with O => 0 | S m => athp m x + x ^ (2 * m + 1) / INR (2 * m + 1) end.
Fixpoint geo (n : nat) (x : R) : R := match n with O => 0 | S m => geo m x + x ^ (2 * m) end.
Lemma geo_sum n x : (1 - x * x) * geo n x = 1 - x ^ (2 * n).
Proof.
  induction n as [|n IH]; cbn [geo]; [cbn; ring|]. rewrite Rmult_plus_distr_l, IH.
  replace (2 * S n)%nat with (S (S (2 * n))) by lia. cbn [pow]. ring.
Qed.
Lemma pow_derive m c x : is_derive (fun x => x ^ m / c) x (INR m * x ^ pred m / c).
Proof.
  auto_derive; [exact Logic.I|]. match goal with |- ?a = ?b => change (@eq R a b) end. rewrite Rmult_1_l. reflexivity.
Qed.
Lemma rem_derive m c x : c <> 0 -> 1 - x * x <> 0 -> is_derive (fun x => x ^ m / (c * (1 - x * x))) x
  (INR m * x ^ pred m / (c * (1 - x * x)) + x ^ m * (2 * x) / (c * (1 - x * x) ^ 2)).
Proof.
  intros C X. auto_derive; [apply Rmult_integral_contrapositive; split; assumption|].
  match goal with |- ?a = ?b => change (@eq R a b) end. field. auto.
Qed.
Lemma athp_derive n x : is_derive (athp n) x (geo n x).
Proof.
  induction n as [|n IH]; cbn [athp geo].
  - apply (is_derive_const (V := R_NormedModule)).
  - apply (is_derive_plus (V := R_NormedModule)); [exact IH|].
    replace (x ^ (2 * n)) with (INR (2 * n + 1) * x ^ pred (2 * n + 1) / INR (2 * n + 1)).
    + apply pow_derive.
    + replace (pred (2 * n + 1)) with (2 * n)%nat by lia. field. apply not_0_INR. lia.
Qed.
Lemma ath_derive x : -1 < x < 1 -> is_derive ath x (/ (1 - x * x)).
Proof.
  intros H. unfold ath. auto_derive.
  - split; [lra|]. split; [|exact Logic.I]. apply Rdiv_lt_0_compat; lra.
  - field. repeat split; nra.
Qed.
Lemma ath_0 : ath 0 = 0.
Proof. unfold ath. replace ((1 + 0) / (1 - 0)) with 1 by field. rewrite ln_1. ring. Qed.
Lemma athp_0 n : athp n 0 = 0.
Proof. induction n as [|n IH]; cbn [athp]; [reflexivity|]. rewrite IH, pow_i by lia. unfold Rdiv. ring. Qed.
Lemma mono0 (f df : R -> R) b : 0 <= b -> (forall x, 0 <= x <= b -> is_derive f x (df x)) ->
  (forall x, 0 <= x <= b -> 0 <= df x) -> f 0 <= f b.
Proof.
  intros B D P. destruct (MVT_gen f 0 b df) as (c & C & E).
  - intros x. rewrite Rmin_left, Rmax_right by exact B. intros Hx. apply D. lra.
  - intros x. rewrite Rmin_left, Rmax_right by exact B. intros Hx.
    apply continuity_pt_filterlim, (ex_derive_continuous (V := R_NormedModule)). exists (df x). apply D. lra.
  - rewrite Rmin_left, Rmax_right in C by exact B. pose proof (P c C). nra.
Qed.
Lemma ath_lower n x : 0 <= x < 1 -> athp n x <= ath x.
Proof.
  intros H. enough (ath 0 - athp n 0 <= ath x - athp n x) by (rewrite ath_0, athp_0 in *; lra).
  apply (mono0 (fun x => ath x - athp n x) (fun x => / (1 - x * x) - geo n x)); [lra| |].
  - intros z Hz. apply (is_derive_minus (V := R_NormedModule)); [apply ath_derive; lra|apply athp_derive].
  - intros z Hz. assert (0 < 1 - z * z) by nra. pose proof (geo_sum n z) as G.
    assert (0 <= z ^ (2 * n)) by (apply pow_le; lra).
    replace (/ (1 - z * z) - geo n z) with (z ^ (2 * n) * / (1 - z * z)).
    + apply Rmult_le_pos; [assumption|]. apply Rlt_le, Rinv_0_lt_compat; assumption.
    + apply (Rmult_eq_reg_l (1 - z * z)); [|lra]. rewrite Rmult_minus_distr_l, G. field. lra.
Qed.
Lemma ath_upper n x : 0 <= x < 1 -> ath x <= athp n x + x ^ (2 * n + 1) / (INR (2 * n + 1) * (1 - x * x)).
Proof.
  intros H. set (rem := fun x => x ^ (2 * n + 1) / (INR (2 * n + 1) * (1 - x * x))).
  enough (athp n 0 + rem 0 - ath 0 <= athp n x + rem x - ath x) as K.
  { rewrite ath_0, athp_0 in K. unfold rem at 1 in K. rewrite pow_i in K by lia. unfold Rdiv in K at 1. change (x ^ (2 * n + 1) / _) with (rem x). lra. }
  assert (Q : INR (2 * n + 1) <> 0) by (apply not_0_INR; lia).
  assert (Q' : 0 < INR (2 * n + 1)) by (apply lt_0_INR; lia).
  apply (mono0 (fun x => athp n x + rem x - ath x)
    (fun x => (geo n x + (x ^ (2 * n) / (1 - x * x) + x ^ (2 * n + 1) * (2 * x) / (INR (2 * n + 1) * (1 - x * x) ^ 2))) - / (1 - x * x))); [lra| |].
  - intros z Hz. assert (0 < 1 - z * z) by nra.
    apply (is_derive_minus (V := R_NormedModule)); [|apply ath_derive; lra].
    apply (is_derive_plus (V := R_NormedModule)); [apply athp_derive|]. unfold rem.
    replace (z ^ (2 * n) / (1 - z * z)) with (INR (2 * n + 1) * z ^ pred (2 * n + 1) / (INR (2 * n + 1) * (1 - z * z))).
    + apply rem_derive; [exact Q|lra].
    + replace (pred (2 * n + 1)) with (2 * n)%nat by lia. field. split; [lra|exact Q].
  - intros z Hz. assert (0 < 1 - z * z) by nra. pose proof (geo_sum n z) as G.
    assert (0 <= z ^ (2 * n + 1)) by (apply pow_le; lra).
    assert (GG : geo n z = (1 - z ^ (2 * n)) / (1 - z * z)).
    { apply (Rmult_eq_reg_l (1 - z * z)); [|lra]. rewrite G. field. lra. }
    rewrite GG.
    replace ((1 - z ^ (2 * n)) / (1 - z * z) + (z ^ (2 * n) / (1 - z * z) + z ^ (2 * n + 1) * (2 * z) / (INR (2 * n + 1) * (1 - z * z) ^ 2)) - / (1 - z * z))
      with (z ^ (2 * n + 1) * (2 * z) / (INR (2 * n + 1) * (1 - z * z) ^ 2)) by (field; split; [lra|exact Q]).
    apply Rmult_le_pos; [nra|]. apply Rlt_le, Rinv_0_lt_compat, Rmult_lt_0_compat; [exact Q'|]. nra.
Qed.
Lemma ln_step k : (1 <= k)%nat -> ln (INR (S k)) - ln (INR k) = 2 * ath (/ (2 * INR k + 1)).
Proof.
  intros K. pose proof (lt_0_INR k ltac:(lia)) as P. unfold ath.
  replace ((1 + / (2 * INR k + 1)) / (1 - / (2 * INR k + 1))) with (INR (S k) * / INR k) by (rewrite S_INR; field; split; lra).
  rewrite ln_mult, ln_Rinv by (try apply Rinv_0_lt_compat; try apply lt_0_INR; lia || lra). lra.
Qed.

(** ** The remainder of Stirling's series *)
Definition S4 (k : R) : R := / (12 * k) - / (360 * k ^ 3) + / (1260 * k ^ 5) - / (1680 * k ^ 7).
Definition T5 (k : R) : R := / (1188 * k ^ 9).
Definition dstep (k : nat) : R := (INR k + / 2) * (ln (INR (S k)) - ln (INR k)) - 1.
Lemma dstep_ath k : (1 <= k)%nat -> dstep k = (2 * INR k + 1) * ath (/ (2 * INR k + 1)) - 1.
Proof. intros K. unfold dstep. rewrite ln_step by exact K. field. Qed.
Lemma horner_pos (a b c d e f g h y : R) : 0 <= y <= 1 ->
  0 <= a + Rmin 0 b + Rmin 0 c + Rmin 0 d + Rmin 0 e + Rmin 0 f + Rmin 0 g + Rmin 0 h ->
  0 <= a + b * y + c * y ^ 2 + d * y ^ 3 + e * y ^ 4 + f * y ^ 5 + g * y ^ 6 + h * y ^ 7.
Proof.
  intros Y. assert (K : forall n c, Rmin 0 c <= c * y ^ n).
  { intros n v. assert (0 <= y ^ n) by (apply pow_le; lra).
    assert (y ^ n <= 1) by (rewrite <- (pow1 n); apply pow_incr; lra). unfold Rmin. destruct (Rle_dec 0 v); nra. }
  pose proof (K 1%nat b). rewrite pow_1 in *. pose proof (K 2%nat c). pose proof (K 3%nat d). pose proof (K 4%nat e).
  pose proof (K 5%nat f). pose proof (K 6%nat g). pose proof (K 7%nat h). lra.
Qed.
Lemma Rmin0_neg v : v <= 0 -> Rmin 0 v = v. Proof. intros; apply Rmin_right; assumption. Qed.
Lemma Rmin0_pos v : 0 <= v -> Rmin 0 v = 0. Proof. intros; apply Rmin_left; assumption. Qed.
Ltac rmin := repeat (first [rewrite Rmin0_neg by lra | rewrite Rmin0_pos by lra]); lra.
Section Step.
Context (k : nat) (K : (1 <= k)%nat).
Let x := / (2 * INR k + 1).
Let y := x * x.
Lemma k_ge1 : 1 <= INR k. Proof. change 1 with (INR 1). apply le_INR, K. Qed.
Lemma x_range : 0 < x <= / 3.
Proof. pose proof k_ge1. unfold x. split; [apply Rinv_0_lt_compat; lra|apply Rinv_le_contravar; lra]. Qed.
Lemma y_range : 0 < y <= / 9.
Proof. pose proof x_range. unfold y. nra. Qed.
Lemma k_of_x : INR k = (1 - x) / (2 * x).
Proof. unfold x. pose proof k_ge1. field. lra. Qed.
Lemma S4_diff : S4 (INR k) - S4 (INR k + 1) =
  y / (3 * (1 - y)) - (8 / 360) * y ^ 2 * (6 + 2 * y) / (1 - y) ^ 3
  + (32 / 1260) * y ^ 3 * (10 + 20 * y + 2 * y ^ 2) / (1 - y) ^ 5
  - (128 / 1680) * y ^ 4 * (14 + 70 * y + 42 * y ^ 2 + 2 * y ^ 3) / (1 - y) ^ 7.
Proof.
  pose proof x_range. rewrite k_of_x. unfold S4.
  replace ((1 - x) / (2 * x) + 1) with ((1 + x) / (2 * x)) by (field; lra).
  assert (A : forall c n, c <> 0 -> / (c * ((1 - x) / (2 * x)) ^ n) - / (c * ((1 + x) / (2 * x)) ^ n) =
     (2 * x) ^ n * ((1 + x) ^ n - (1 - x) ^ n) / (c * (1 - y) ^ n)).
  { intros c n Hc. replace (1 - y) with ((1 - x) * (1 + x)) by (unfold y; ring). unfold Rdiv. rewrite !Rpow_mult_distr, pow_inv, Rpow_mult_distr.
    pose proof (pow_nonzero (1 - x) n ltac:(lra)). pose proof (pow_nonzero (1 + x) n ltac:(lra)).
    pose proof (pow_nonzero x n ltac:(lra)). pose proof (pow_nonzero 2 n ltac:(lra)). field. auto. }
  pose proof (A 12 1%nat ltac:(lra)) as A1. rewrite !pow_1 in A1.
  pose proof (A 360 3%nat ltac:(lra)) as A3. pose proof (A 1260 5%nat ltac:(lra)) as A5.
  pose proof (A 1680 7%nat ltac:(lra)) as A7.
  match goal with |- ?l = ?r => transitivity (2 * x * ((1 + x) - (1 - x)) / (12 * (1 - y))
    - (2 * x) ^ 3 * ((1 + x) ^ 3 - (1 - x) ^ 3) / (360 * (1 - y) ^ 3)
    + (2 * x) ^ 5 * ((1 + x) ^ 5 - (1 - x) ^ 5) / (1260 * (1 - y) ^ 5)
    - (2 * x) ^ 7 * ((1 + x) ^ 7 - (1 - x) ^ 7) / (1680 * (1 - y) ^ 7)); [lra|] end.
  pose proof y_range. assert (1 - y <> 0) by lra.
  f_equal; [f_equal; [f_equal|]|].
  - replace (2 * x * (1 + x - (1 - x))) with (4 * y) by (unfold y; ring). field. assumption.
  - replace ((2 * x) ^ 3 * ((1 + x) ^ 3 - (1 - x) ^ 3)) with (8 * y ^ 2 * (6 + 2 * y)) by (unfold y; ring). field. assumption.
  - replace ((2 * x) ^ 5 * ((1 + x) ^ 5 - (1 - x) ^ 5)) with (32 * y ^ 3 * (10 + 20 * y + 2 * y ^ 2)) by (unfold y; ring). field. assumption.
  - replace ((2 * x) ^ 7 * ((1 + x) ^ 7 - (1 - x) ^ 7)) with (128 * y ^ 4 * (14 + 70 * y + 42 * y ^ 2 + 2 * y ^ 3)) by (unfold y; ring). field. assumption.
Qed.
Lemma T5_diff : T5 (INR k) - T5 (INR k + 1) = (512 / 1188) * y ^ 5 * (18 + 168 * y + 252 * y ^ 2 + 72 * y ^ 3 + 2 * y ^ 4) / (1 - y) ^ 9.
Proof.
  pose proof x_range. pose proof y_range. rewrite k_of_x. unfold T5.
  replace ((1 - x) / (2 * x) + 1) with ((1 + x) / (2 * x)) by (field; lra).
  transitivity ((2 * x) ^ 9 * ((1 + x) ^ 9 - (1 - x) ^ 9) / (1188 * (1 - y) ^ 9)).
  - replace (1 - y) with ((1 - x) * (1 + x)) by (unfold y; ring). unfold Rdiv. rewrite !Rpow_mult_distr, pow_inv, Rpow_mult_distr.
    pose proof (pow_nonzero (1 - x) 9 ltac:(lra)). pose proof (pow_nonzero (1 + x) 9 ltac:(lra)).
    pose proof (pow_nonzero x 9 ltac:(lra)). pose proof (pow_nonzero 2 9 ltac:(lra)).
    remember ((1 - x) ^ 9) as u. remember ((1 + x) ^ 9) as v. remember (x ^ 9) as w. remember (2 ^ 9) as z. field. auto.
  - replace ((2 * x) ^ 9 * ((1 + x) ^ 9 - (1 - x) ^ 9)) with (512 * y ^ 5 * (18 + 168 * y + 252 * y ^ 2 + 72 * y ^ 3 + 2 * y ^ 4)) by (unfold y; ring).
    field. lra.
Qed.
Lemma dstep_lower_y : y / 3 + y ^ 2 / 5 + y ^ 3 / 7 + y ^ 4 / 9 + y ^ 5 / 11 <= dstep k.
Proof.
  pose proof x_range. pose proof (ath_lower 6 x ltac:(lra)) as L. rewrite dstep_ath by exact K. fold x.
  replace (2 * INR k + 1) with (/ x) by (unfold x; rewrite Rinv_inv; reflexivity).
  cbn [athp Nat.mul Nat.add INR] in L.
  assert (0 < / x) by (apply Rinv_0_lt_compat; lra). apply (Rmult_le_compat_l (/ x)) in L; [|lra].
  match type of L with ?l <= _ => replace l with (1 + (y / 3 + y ^ 2 / 5 + y ^ 3 / 7 + y ^ 4 / 9 + y ^ 5 / 11)) in L by (unfold y; field; lra) end.
  lra.
Qed.
Lemma dstep_upper_y : dstep k <= y / 3 + y ^ 2 / 5 + y ^ 3 / 7 + y ^ 4 / 9 + y ^ 5 / 11 + y ^ 6 / (13 * (1 - y)).
Proof.
  pose proof x_range. pose proof y_range. pose proof (ath_upper 6 x ltac:(lra)) as L. rewrite dstep_ath by exact K. fold x.
  replace (2 * INR k + 1) with (/ x) by (unfold x; rewrite Rinv_inv; reflexivity).
  change (x * x) with y in L. cbn [athp Nat.mul Nat.add INR] in L.
  assert (0 < / x) by (apply Rinv_0_lt_compat; lra). apply (Rmult_le_compat_l (/ x)) in L; [|lra].
  match type of L with _ <= ?r => replace r with (1 + (y / 3 + y ^ 2 / 5 + y ^ 3 / 7 + y ^ 4 / 9 + y ^ 5 / 11 + y ^ 6 / (13 * (1 - y)))) in L end.
  - lra.
  - assert (E : x * x = y) by reflexivity.
    assert (P : forall n, x ^ (2 * n + 1) = x * y ^ n) by (intros n; rewrite <- E; rewrite Rpow_mult_distr; replace (2 * n + 1)%nat with (1 + (n + n))%nat by lia; rewrite !pow_add; ring).
    pose proof (P 1%nat) as P1. pose proof (P 2%nat) as P2. pose proof (P 3%nat) as P3. pose proof (P 4%nat) as P4. pose proof (P 5%nat) as P5. pose proof (P 6%nat) as P6.
    cbn [Nat.mul Nat.add] in *. rewrite P1, P2, P3, P4, P5, P6. field. lra.
Qed.
Lemma dstep_lower : S4 (INR k) - S4 (INR k + 1) <= dstep k.
Proof.
  eapply Rle_trans; [|apply dstep_lower_y]. rewrite S4_diff. pose proof y_range as Y. apply Rminus_le_0.
  match goal with |- 0 <= ?e => replace e with (y ^ 5 * (256/33 + 5011/3465 * y + 372/385 * y ^ 2 + -607/495 * y ^ 3 + 272/165 * y ^ 4 + -883/693 * y ^ 5 + 52/99 * y ^ 6 + -1/11 * y ^ 7) * / (1 - y) ^ 7) by (field; lra) end.
  apply Rmult_le_pos; [apply Rmult_le_pos; [apply pow_le; lra|]|].
  - apply horner_pos; [lra|]. rmin.
  - apply Rlt_le, Rinv_0_lt_compat, pow_lt. lra.
Qed.
Lemma dstep_upper : dstep k <= (S4 (INR k) - S4 (INR k + 1)) + (T5 (INR k) - T5 (INR k + 1)).
Proof.
  eapply Rle_trans; [apply dstep_upper_y|]. rewrite S4_diff, T5_diff. pose proof y_range as Y. apply Rminus_le_0.
  match goal with |- 0 <= ?e => replace e with (y ^ 6 * (353792/4095 + 423382/4095 * y + 13918/455 * y ^ 2 + 1258/12285 * y ^ 3 + 2066/5005 * y ^ 4 + -2074/5005 * y ^ 5 + 262/1001 * y ^ 6 + y ^ 7 * (-118/1287 + 2/143 * y)) * / (1 - y) ^ 9) by (field; lra) end.
  apply Rmult_le_pos; [apply Rmult_le_pos; [apply pow_le; lra|]|].
  - pose proof (horner_pos (353792/4095) (423382/4095) (13918/455) (1258/12285) (2066/5005) (-2074/5005) (262/1001) (-118/1287) y ltac:(lra) ltac:(rmin)) as Hp.
    assert (0 <= y ^ 7) by (apply pow_le; lra). nra.
  - apply Rlt_le, Rinv_0_lt_compat, pow_lt. lra.
Qed.
End Step.

(** ** The limit *)
Definition lead (k : nat) : R := INR k * ln (INR k) - INR k + / 2 * ln (INR k).
Definition aa (k : nat) : R := ln (INR (fact k)) - lead k.
Lemma ln_fact_S k : ln (INR (fact (S k))) = ln (INR (fact k)) + ln (INR (S k)).
Proof. rewrite fact_simpl, mult_INR, ln_mult; [ring|apply lt_0_INR; lia|apply INR_fact_lt_0]. Qed.
Lemma aa_step k : (1 <= k)%nat -> aa k - aa (S k) = dstep k.
Proof. intros K. unfold aa, lead, dstep. rewrite ln_fact_S, S_INR. ring. Qed.
Definition err (k : nat) : R := aa k - / 2 * ln (2 * PI) - S4 (INR k).
Lemma err_decr k : (1 <= k)%nat -> err (S k) <= err k.
Proof. intros K. pose proof (dstep_lower k K) as D. rewrite <- aa_step in D by exact K. unfold err. rewrite S_INR. lra. Qed.
Lemma err_T k : (1 <= k)%nat -> err k - T5 (INR k) <= err (S k) - T5 (INR (S k)).
Proof. intros K. pose proof (dstep_upper k K) as D. rewrite <- aa_step in D by exact K. unfold err. rewrite S_INR. lra. Qed.
Lemma err_decr_le m k : (1 <= m <= k)%nat -> err k <= err m.
Proof.
  intros [M L]. induction L as [|k L IH]; [lra|]. pose proof (err_decr k ltac:(lia)). lra.
Qed.
Lemma err_T_le m k : (1 <= m <= k)%nat -> err m - T5 (INR m) <= err k - T5 (INR k).
Proof.
  intros [M L]. induction L as [|k L IH]; [lra|]. pose proof (err_T k ltac:(lia)). lra.
Qed.
Lemma T5_pos k : (1 <= k)%nat -> 0 < T5 (INR k).
Proof. intros K. unfold T5. apply Rinv_0_lt_compat, Rmult_lt_0_compat; [lra|]. apply pow_lt, lt_0_INR. lia. Qed.
Lemma S4_bound k : (1 <= k)%nat -> Rabs (S4 (INR k)) <= / INR k.
Proof.
  intros K. assert (P : 1 <= INR k) by (change 1 with (INR 1); apply le_INR, K).
  set (r := / INR k). assert (R1 : 0 < r <= 1).
  { unfold r. split; [apply Rinv_0_lt_compat; lra|]. rewrite <- Rinv_1. apply Rinv_le_contravar; lra. }
  replace (S4 (INR k)) with (r * (/ 12 - r ^ 2 / 360 + r ^ 4 / 1260 - r ^ 6 / 1680)) by (unfold S4, r; field; lra).
  assert (A2 : 0 <= r ^ 2 <= 1) by (split; [apply pow_le; lra|rewrite <- (pow1 2); apply pow_incr; lra]).
  assert (A4 : 0 <= r ^ 4 <= 1) by (split; [apply pow_le; lra|rewrite <- (pow1 4); apply pow_incr; lra]).
  assert (A6 : 0 <= r ^ 6 <= 1) by (split; [apply pow_le; lra|rewrite <- (pow1 6); apply pow_incr; lra]).
  rewrite Rabs_right; [|apply Rle_ge, Rmult_le_pos; lra].
  rewrite <- (Rmult_1_r r) at 5. apply Rmult_le_compat_l; lra.
Qed.
(** 2 a(n) - a(2n) from the Wallis integrals. *)
Lemma aa_double n : (1 <= n)%nat -> 2 * aa n - aa (2 * n) = / 2 * ln ((INR (2 * n + 1) * wal (2 * n + 1)) ^ 2 * (2 / INR n)).
Proof.
  intros K. pose proof (lt_0_INR n ltac:(lia)) as P. pose proof (INR_fact_lt_0 n). pose proof (INR_fact_lt_0 (2 * n)).
  pose proof (lt_0_INR (2 * n + 1) ltac:(lia)).
  rewrite wal_odd. replace (2 * n + 1)%nat with (S (2 * n)) in * by lia. rewrite fact_simpl, mult_INR.
  assert (0 < 4 ^ n) by (apply pow_lt; lra).
  replace (INR (S (2 * n)) * (4 ^ n * INR (fact n) ^ 2 / (INR (S (2 * n)) * INR (fact (2 * n))))) with
    (4 ^ n * INR (fact n) ^ 2 * / INR (fact (2 * n))) by (field; lra).
  set (A := INR (fact n)) in *. set (B := INR (fact (2 * n))) in *.
  assert (0 < A ^ 2) by (apply pow_lt; assumption). assert (0 < 4 ^ n * A ^ 2) by (apply Rmult_lt_0_compat; assumption).
  assert (0 < / B) by (apply Rinv_0_lt_compat; assumption).
  assert (0 < 4 ^ n * A ^ 2 * / B) by (apply Rmult_lt_0_compat; [nra|apply Rinv_0_lt_compat; assumption]).
  assert (0 < 2 / INR n) by (apply Rdiv_lt_0_compat; lra).
  rewrite ln_mult by (try apply pow_lt; assumption).
  replace ((4 ^ n * A ^ 2 * / B) ^ 2) with ((4 ^ n * A ^ 2 * / B) * (4 ^ n * A ^ 2 * / B)) by ring.
  rewrite ln_mult by assumption. rewrite ln_mult by assumption. rewrite ln_Rinv by assumption.
  rewrite ln_mult by assumption. cbn [pow]. rewrite Rmult_1_r, ln_mult by assumption.
  assert (E4 : ln (4 ^ n) = INR n * (2 * ln 2)).
  { rewrite ln_pow by lra. f_equal. replace 4 with (2 * 2) by lra. rewrite ln_mult by lra. ring. }
  rewrite E4. unfold Rdiv. rewrite ln_mult, ln_Rinv by (try apply Rinv_0_lt_compat; lra).
  unfold aa, lead. fold A. fold B. rewrite mult_INR. replace (INR 2) with 2 by (cbn; lra). rewrite ln_mult by lra. field.
Qed.
Lemma aa_double_bounds n : (1 <= n)%nat -> / 2 * ln (2 * PI) <= 2 * aa n - aa (2 * n) <= / 2 * ln (2 * PI) + / (4 * INR n).
Proof.
  intros K. assert (P : 1 <= INR n) by (change 1 with (INR 1); apply le_INR, K). pose proof PI_RGT_0 as PIp.
  rewrite aa_double by exact K. pose proof (wal_sq_upper (2 * n)) as U. pose proof (wal_sq_lower (2 * n + 1)) as L.
  replace (S (2 * n)) with (2 * n + 1)%nat in U by lia.
  rewrite S_INR in L. set (w := wal (2 * n + 1)) in *. pose proof (wal_pos (2 * n + 1)) as W. fold w in W.
  rewrite plus_INR, mult_INR in *. cbn [INR] in *. set (r := INR n) in *.
  replace (1 + 1) with 2 in * by lra.
  assert (U2 : ((2 * r + 1) * w) ^ 2 <= (2 * r + 1) * (PI / 2)).
  { replace (((2 * r + 1) * w) ^ 2) with ((2 * r + 1) * ((2 * r + 1) * w ^ 2)) by ring. apply Rmult_le_compat_l; lra. }
  assert (L2 : PI * r <= ((2 * r + 1) * w) ^ 2).
  { assert (B : PI / 2 <= (2 * r + 2) * w ^ 2) by (replace (2 * r + 2) with (2 * r + 1 + 1) by ring; exact L).
    assert (Q : (2 * r + 2) * (((2 * r + 1) * w) ^ 2) >= (2 * r + 1) ^ 2 * (PI / 2)).
    { replace ((2 * r + 2) * ((2 * r + 1) * w) ^ 2) with ((2 * r + 1) ^ 2 * ((2 * r + 2) * w ^ 2)) by ring.
      apply Rle_ge, Rmult_le_compat_l; [apply pow2_ge_0|exact B]. }
    apply (Rmult_le_reg_l (2 * r + 2)); [lra|]. nra. }
  assert (R2 : 0 < 2 / r) by (apply Rdiv_lt_0_compat; lra).
  set (q := ((2 * r + 1) * w) ^ 2) in *.
  assert (B1 : 2 * PI <= q * (2 / r)).
  { replace (2 * PI) with (PI * r * (2 / r)) by (field; lra). apply Rmult_le_compat_r; lra. }
  assert (B2 : q * (2 / r) <= 2 * PI * (1 + / (2 * r))).
  { replace (2 * PI * (1 + / (2 * r))) with ((2 * r + 1) * (PI / 2) * (2 / r)) by (field; lra). apply Rmult_le_compat_r; lra. }
  assert (0 < / (2 * r)) by (apply Rinv_0_lt_compat; lra).
  split.
  - apply Rmult_le_compat_l; [lra|]. apply ln_le; lra.
  - assert (E : ln (q * (2 / r)) <= ln (2 * PI) + / (2 * r)).
    { eapply Rle_trans; [apply ln_le; [lra|exact B2]|]. rewrite ln_mult by lra. apply Rplus_le_compat_l.
      pose proof (exp_ineq1_le (/ (2 * r))) as X. rewrite <- (ln_exp (/ (2 * r))) at 2. apply ln_le; lra. }
    replace (/ (4 * r)) with (/ 2 * / (2 * r)) by (field; lra). lra.
Qed.
(** 2 err n - err (2n) is small. *)
Lemma err_double n : (1 <= n)%nat -> Rabs (2 * err n - err (2 * n)) <= 4 / INR n.
Proof.
  intros K. pose proof (aa_double_bounds n K) as B. unfold err. assert (P : 1 <= INR n) by (change 1 with (INR 1); apply le_INR, K).
  pose proof (S4_bound n K) as A1. pose proof (S4_bound (2 * n) ltac:(lia)) as A2. rewrite mult_INR in A2. cbn [INR] in A2.
  replace (1 + 1) with 2 in A2 by lra. rewrite Rinv_mult in A2 by lra.
  assert (0 < / INR n) by (apply Rinv_0_lt_compat; lra). rewrite Rinv_mult in B by lra.
  rewrite mult_INR. cbn [INR]. replace (1 + 1) with 2 by lra. unfold Rdiv.
  apply Rabs_le in A1 || idtac. apply Rabs_def2b in A1 || idtac.
  revert A1 A2. unfold Rabs. repeat destruct Rcase_abs; lra.
Qed.
Lemma INR_above r : exists n, r < INR n.
Proof.
  exists (Z.to_nat (up r)). destruct (archimed r) as [A _]. rewrite INR_IZR_INZ.
  apply Rlt_le_trans with (IZR (up r)); [exact A|]. apply IZR_le. lia.
Qed.
Lemma small_le e c : (forall n, (1 <= n)%nat -> e <= c / INR n) -> 0 <= c -> e <= 0.
Proof.
  intros H C. destruct (Rle_lt_dec e 0) as [|G]; [assumption|exfalso].
  destruct (INR_above (c / e)) as [n N]. assert (N0 : (1 <= n)%nat).
  { destruct n; [|lia]. cbn [INR] in N. assert (0 <= c / e) by (apply Rmult_le_pos; [exact C|apply Rlt_le, Rinv_0_lt_compat, G]). lra. }
  specialize (H n N0). pose proof (lt_0_INR n ltac:(lia)) as P.
  apply (Rmult_lt_compat_r e) in N; [|exact G]. unfold Rdiv in N. rewrite Rmult_assoc, Rinv_l, Rmult_1_r in N by lra.
  apply (Rmult_le_compat_r (INR n)) in H; [|lra]. unfold Rdiv in H. rewrite Rmult_assoc, Rinv_l, Rmult_1_r in H by lra. lra.
Qed.
Lemma stirling_bounds k : (1 <= k)%nat -> 0 <= err k <= T5 (INR k).
Proof.
  intros K. split.
  - (* err is decreasing: 2 err n - err (2n) >= err n, so err n <= 4/n... and from below *)
    enough (- err k <= 0) by lra. apply (small_le _ 8); [|lra]. intros n N.
    set (m := (k + n)%nat). assert (M1 : (1 <= m)%nat) by lia.
    pose proof (err_decr_le k m ltac:(lia)) as D1. pose proof (err_T_le m (2 * m) ltac:(lia)) as D2.
    pose proof (err_double m M1) as D3. pose proof (T5_pos (2 * m) ltac:(lia)). pose proof (T5_pos m M1).
    assert (Pn : 0 < INR n) by (apply lt_0_INR; lia). assert (Pm : INR n <= INR m) by (apply le_INR; lia).
    assert (M2 : 1 <= INR m) by (change 1 with (INR 1); apply le_INR, M1).
    assert (Tm : T5 (INR m) <= / INR m).
    { unfold T5. apply Rinv_le_contravar; [lra|]. assert (1 <= INR m ^ 8) by (apply pow_R1_Rle; exact M2).
      replace (INR m ^ 9) with (INR m * INR m ^ 8) by (cbn [pow]; ring). nra. }
    assert (I1 : / INR m <= / INR n) by (apply Rinv_le_contravar; lra).
    assert (0 < / INR m) by (apply Rinv_0_lt_compat; lra).
    unfold Rdiv in *. revert D3. unfold Rabs. destruct Rcase_abs; intros; lra.
  - enough (err k - T5 (INR k) <= 0) by lra. apply (small_le _ 8); [|lra]. intros n N.
    set (m := (k + n)%nat). assert (M1 : (1 <= m)%nat) by lia.
    pose proof (err_T_le k m ltac:(lia)) as D1. pose proof (err_decr_le m (2 * m) ltac:(lia)) as D2.
    pose proof (err_double m M1) as D3. pose proof (T5_pos m M1).
    assert (Pn : 0 < INR n) by (apply lt_0_INR; lia). assert (Pm : INR n <= INR m) by (apply le_INR; lia).
    assert (I1 : / INR m <= / INR n) by (apply Rinv_le_contravar; lra).
    assert (0 < / INR m) by (apply Rinv_0_lt_compat; lra).
    unfold Rdiv in *. revert D3. unfold Rabs. destruct Rcase_abs; intros; lra.
Qed.
Theorem stirling_series k : (1 <= k)%nat ->
  0 <= ln (INR (fact k)) - (INR k * ln (INR k) - INR k + / 2 * ln (2 * PI * INR k) + S4 (INR k)) <= T5 (INR k).
Proof.
  intros K. pose proof (stirling_bounds k K) as B. unfold err, aa, lead in B. pose proof PI_RGT_0.
  rewrite (ln_mult (2 * PI)) by (try apply lt_0_INR; lia || lra). lra.
Qed.

(** ** Certified bounds for ln k!, by exact integer arithmetic scaled by 10^30 *)
Local Open Scope Z_scope.
Definition scaleZ : Z := 10 ^ 30.
Fixpoint atsum (n : nat) (q : Z) : Z :=
  match n with
  | O => 0
  | S j => atsum j q + (2 * scaleZ) / (q ^ (2 * Z.of_nat j + 1) * (2 * Z.of_nat j + 1))
  end.
(** [lnlo i]: lower bound of 10^30 ln (i+1). *)
Fixpoint lnlo (i : nat) : Z :=
  match i with O => 0 | S j => lnlo j + atsum 34 (2 * Z.of_nat i + 1) end.
(** [factlo k]: lower bound of 10^30 ln k!. *)
Fixpoint factlo (k : nat) : Z :=
  match k with O => 0 | S j => factlo j + lnlo j end.
Local Close Scope Z_scope.
Lemma div_bounds a b : (0 < b)%Z -> IZR (a / b) <= IZR a / IZR b <= IZR (a / b) + 1.
Proof.
  intros B. pose proof (IZR_lt _ _ B) as Bp. pose proof (Z.mod_pos_bound a b B) as [M1 M2].
  pose proof (Z.div_mod a b ltac:(lia)) as E. apply (f_equal IZR) in E. rewrite plus_IZR, mult_IZR in E.
  apply IZR_le in M1. apply IZR_lt in M2.
  split; apply (Rmult_le_reg_r (IZR b)); try lra; unfold Rdiv; rewrite Rmult_assoc, Rinv_l by lra; nra.
Qed.
Lemma atsum_bounds n q : (1 <= q)%Z -> IZR (atsum n q) <= 2 * IZR scaleZ * athp n (/ IZR q) <= IZR (atsum n q) + INR n.
Proof.
  intros Q. pose proof (IZR_le _ _ Q) as Qp. induction n as [|n IH]; [cbn [atsum athp INR]; rewrite Rmult_0_r; lra|].
  cbn [atsum athp]. rewrite plus_IZR, S_INR.
  assert (P : (0 < q ^ (2 * Z.of_nat n + 1) * (2 * Z.of_nat n + 1))%Z).
  { apply Z.mul_pos_pos; [apply Z.pow_pos_nonneg; lia|lia]. }
  pose proof (div_bounds (2 * scaleZ) _ P) as B.
  assert (E : IZR (2 * scaleZ) / IZR (q ^ (2 * Z.of_nat n + 1) * (2 * Z.of_nat n + 1)) =
              2 * IZR scaleZ * ((/ IZR q) ^ (2 * n + 1) / INR (2 * n + 1))).
  { replace (2 * Z.of_nat n + 1)%Z with (Z.of_nat (2 * n + 1)) by lia.
    rewrite !mult_IZR, <- INR_IZR_INZ. rewrite <- pow_IZR. rewrite pow_inv. unfold Rdiv. rewrite Rinv_mult by (try apply pow_nonzero; try apply not_0_INR; lia || lra). ring. }
  rewrite E in B. lra.
Qed.
Lemma scaleZ_val : IZR scaleZ = 10 ^ 30.
Proof. unfold scaleZ. rewrite pow_IZR. reflexivity. Qed.
Lemma ath_tail q : 3 <= q -> 2 * IZR scaleZ * ((/ q) ^ (2 * 34 + 1) / (INR (2 * 34 + 1) * (1 - / q * / q))) <= 1.
Proof.
  intros Q. set (x := / q). assert (X : 0 < x <= / 3) by (unfold x; split; [apply Rinv_0_lt_compat; lra|apply Rinv_le_contravar; lra]).
  assert (A : x ^ (2 * 34 + 1) <= (/ 3) ^ (2 * 34 + 1)) by (apply pow_incr; lra).
  assert (N : 8 / 9 <= 1 - x * x) by nra.
  assert (I : INR (2 * 34 + 1) = 69) by (rewrite INR_IZR_INZ; reflexivity). rewrite I, scaleZ_val.
  assert (B : / (69 * (1 - x * x)) <= / 61) by (apply Rinv_le_contravar; lra).
  assert (0 < / (69 * (1 - x * x))) by (apply Rinv_0_lt_compat; lra).
  assert (0 < x ^ (2 * 34 + 1)) by (apply pow_lt; lra).
  apply Rle_trans with (2 * 10 ^ 30 * ((/ 3) ^ (2 * 34 + 1) * / 61)).
  - apply Rmult_le_compat_l; [assert (0 < 10 ^ 30) by (apply pow_lt; lra); lra|]. unfold Rdiv. apply Rmult_le_compat; lra.
  - rewrite pow_inv. apply (Rmult_le_reg_r (3 ^ (2 * 34 + 1))); [apply pow_lt; lra|].
    replace (2 * 10 ^ 30 * (/ 3 ^ (2 * 34 + 1) * / 61) * 3 ^ (2 * 34 + 1)) with (2 * 10 ^ 30 * / 61)
      by (field; apply pow_nonzero; lra).
    apply (Rmult_le_reg_r 61); [lra|]. rewrite Rmult_assoc, Rinv_l, Rmult_1_r, Rmult_1_l by lra.
    rewrite !pow_IZR. rewrite <- !mult_IZR. apply IZR_le. apply Z.leb_le. vm_compute. reflexivity.
Qed.
Lemma lnlo_bounds i : IZR (lnlo i) <= IZR scaleZ * ln (INR (S i)) <= IZR (lnlo i) + 35 * INR i.
Proof.
  induction i as [|i IH]; [cbn [lnlo INR]; rewrite ln_1; lra|].
  pose proof (ln_step (S i) ltac:(lia)) as L.
  set (q := (2 * Z.of_nat (S i) + 1)%Z).
  assert (Q : IZR q = 2 * INR (S i) + 1) by (unfold q; rewrite plus_IZR, mult_IZR, <- INR_IZR_INZ; reflexivity).
  assert (Q3 : 3 <= IZR q) by (apply IZR_le; unfold q; lia).
  rewrite <- Q in L. assert (XR : 0 <= / IZR q < 1).
  { split; [apply Rlt_le, Rinv_0_lt_compat; lra|]. rewrite <- Rinv_1. apply Rinv_lt_contravar; lra. }
  pose proof (ath_lower 34 _ XR) as A. pose proof (ath_upper 34 _ XR) as B. pose proof (ath_tail _ Q3) as T.
  pose proof (atsum_bounds 34 q ltac:(unfold q; lia)) as D.
  assert (SP : 0 < 2 * IZR scaleZ) by (rewrite scaleZ_val; assert (0 < 10 ^ 30) by (apply pow_lt; lra); lra).
  apply (Rmult_le_compat_l _ _ _ (Rlt_le _ _ SP)) in A. apply (Rmult_le_compat_l _ _ _ (Rlt_le _ _ SP)) in B.
  rewrite Rmult_plus_distr_l in B. replace (35 * INR (S i)) with (35 * INR i + 35) by (rewrite S_INR; ring).
  replace (INR 34) with 34 in D by (rewrite INR_IZR_INZ; reflexivity).
  replace (ln (INR (S (S i)))) with (ln (INR (S i)) + 2 * ath (/ IZR q)) by lra.
  assert (EL : lnlo (S i) = (lnlo i + atsum 34 q)%Z) by reflexivity. rewrite EL, plus_IZR.
  rewrite Rmult_plus_distr_l. replace (IZR scaleZ * (2 * ath (/ IZR q))) with (2 * IZR scaleZ * ath (/ IZR q)) by ring. lra.
Qed.
Lemma factlo_bounds k : IZR (factlo k) <= IZR scaleZ * ln (INR (fact k)) <= IZR (factlo k) + 35 * INR k * INR k.
Proof.
  induction k as [|k IH]; [cbn [factlo fact INR]; rewrite ln_1; lra|].
  cbn [factlo]. rewrite plus_IZR, ln_fact_S, Rmult_plus_distr_l. pose proof (lnlo_bounds k). rewrite S_INR.
  pose proof (pos_INR k). rewrite S_INR in *. nra.
Qed.
