(** Real analysis used for C32, C35 and C40: Wallis integrals, the Wallis limit,
    atanh series with explicit remainder.  No part of the code is modelled here. *)
From Coquelicot Require Import Coquelicot.
From Coq Require Import ZArith Reals List Bool Lra Lia Arith.
Import ListNotations.
Local Open Scope R_scope.

(** ** Wallis integrals *)
Definition wal (n : nat) : R := RInt (fun x => sin x ^ n) 0 (PI / 2).
Lemma cont_sin_pow n x : continuous (fun x => sin x ^ n) x.
Proof. apply (ex_derive_continuous (V := R_NormedModule)). auto_derive. exact Logic.I. Qed.
Lemma wal_ex n a b : ex_RInt (fun x => sin x ^ n) a b.
Proof. apply (ex_RInt_continuous (V := R_CompleteNormedModule)). intros; apply cont_sin_pow. Qed.
Lemma wal_is n : is_RInt (fun x => sin x ^ n) 0 (PI / 2) (wal n).
Proof. apply (RInt_correct (V := R_CompleteNormedModule)), wal_ex. Qed.
Lemma wal_0 : wal 0 = PI / 2.
Proof. unfold wal. cbn [pow]. rewrite (RInt_const (V := R_CompleteNormedModule)). unfold scal; cbn; unfold mult; cbn. lra. Qed.
Lemma wal_1 : wal 1 = 1.
Proof.
  apply (is_RInt_unique (V := R_CompleteNormedModule)).
  replace 1 with (minus (- cos (PI / 2)) (- cos 0)).
  2:{ unfold minus, plus, opp; cbn. rewrite cos_PI2, cos_0. lra. }
  apply (is_RInt_derive (V := R_CompleteNormedModule) (fun x => - cos x)).
  - intros x _. auto_derive; [exact Logic.I|]. ring.
  - intros x _. apply cont_sin_pow.
Qed.
Lemma wal_rec n : INR (n + 2) * wal (n + 2) = INR (n + 1) * wal n.
Proof.
  assert (K : is_RInt (fun x => INR (n + 2) * sin x ^ (n + 2) - INR (n + 1) * sin x ^ n) 0 (PI / 2) 0).
  { replace 0 with (minus (- (cos (PI / 2) * sin (PI / 2) ^ S n)) (- (cos 0 * sin 0 ^ S n))) at 2.
    2:{ unfold minus, plus, opp; cbn. rewrite cos_PI2, sin_0. ring. }
    apply (is_RInt_derive (V := R_CompleteNormedModule) (fun x => - (cos x * sin x ^ S n))).
    - intros x _. auto_derive; [exact Logic.I|]. cbn [Init.Nat.pred].
      replace (n + 2)%nat with (S (S n)) by lia. replace (n + 1)%nat with (S n) by lia. rewrite !S_INR. cbn [pow].
      pose proof (sin2_cos2 x) as E. unfold Rsqr in E.
      assert (E' : cos x * cos x = 1 - sin x * sin x) by lra.
      match goal with |- ?l = ?r => change (@eq R l r) end.
      change (match n with 0%nat => 1 | S _ => INR n + 1 end) with (INR (S n)). rewrite S_INR.
      transitivity (sin x * (sin x * sin x ^ n) - (cos x * cos x) * (INR n + 1) * sin x ^ n); [ring|].
      rewrite E'. ring.
    - intros x _. apply (ex_derive_continuous (V := R_NormedModule)). auto_derive. exact Logic.I. }
  assert (K' : is_RInt (fun x => INR (n + 2) * sin x ^ (n + 2) - INR (n + 1) * sin x ^ n) 0 (PI / 2)
                (INR (n + 2) * wal (n + 2) - INR (n + 1) * wal n)).
  { apply (is_RInt_minus (V := R_NormedModule)); apply (is_RInt_scal (V := R_NormedModule)); apply wal_is. }
  pose proof (is_RInt_unique (V := R_CompleteNormedModule) _ _ _ _ K) as A.
  pose proof (is_RInt_unique (V := R_CompleteNormedModule) _ _ _ _ K') as B.
  rewrite A in B. lra.
Qed.
Lemma sin_range x : 0 <= x <= PI / 2 -> 0 <= sin x <= 1.
Proof. intros H. split; [apply sin_ge_0; pose proof PI_RGT_0; lra|apply SIN_bound]. Qed.
Lemma wal_decr n : wal (S n) <= wal n.
Proof.
  apply RInt_le; [pose proof PI_RGT_0; lra|apply wal_ex|apply wal_ex|].
  intros x H. destruct (sin_range x ltac:(lra)). cbn [pow]. assert (0 <= sin x ^ n) by (apply pow_le; lra). nra.
Qed.
Lemma wal_prod n : INR (S n) * wal n * wal (S n) = PI / 2.
Proof.
  induction n as [|n IH]; [rewrite wal_0, wal_1; cbn [INR]; lra|].
  pose proof (wal_rec n) as E. replace (n + 2)%nat with (S (S n)) in E by lia. replace (n + 1)%nat with (S n) in E by lia.
  rewrite <- IH. replace (INR (S (S n)) * wal (S n) * wal (S (S n))) with ((INR (S (S n)) * wal (S (S n))) * wal (S n)) by ring.
  rewrite E. ring.
Qed.
Lemma wal_pos n : 0 < wal n.
Proof.
  enough (0 < wal n /\ 0 < wal (S n)) by tauto. induction n as [|n IH].
  - rewrite wal_0, wal_1. pose proof PI_RGT_0. lra.
  - split; [tauto|]. pose proof (wal_rec n) as E. replace (n + 2)%nat with (S (S n)) in E by lia.
    replace (n + 1)%nat with (S n) in E by lia. pose proof (lt_0_INR (S n) ltac:(lia)). pose proof (lt_0_INR (S (S n)) ltac:(lia)).
    destruct IH as [A _]. apply (Rmult_lt_reg_l (INR (S (S n)))); [assumption|]. rewrite E, Rmult_0_r. apply Rmult_lt_0_compat; assumption.
Qed.
(** (n+1) wal(n+1)^2 <= pi/2 <= (n+1) wal(n)^2 *)
Lemma wal_sq_upper n : INR (S n) * wal (S n) ^ 2 <= PI / 2.
Proof.
  rewrite <- (wal_prod n). pose proof (wal_decr n). pose proof (wal_pos (S n)). pose proof (lt_0_INR (S n) ltac:(lia)).
  cbn [pow]. replace (INR (S n) * wal n * wal (S n)) with (INR (S n) * (wal n * wal (S n))) by ring.
  apply Rmult_le_compat_l; [lra|]. nra.
Qed.
Lemma wal_sq_lower n : PI / 2 <= INR (S n) * wal n ^ 2.
Proof.
  rewrite <- (wal_prod n). pose proof (wal_decr n). pose proof (wal_pos n). pose proof (lt_0_INR (S n) ltac:(lia)).
  cbn [pow]. replace (INR (S n) * wal n * wal (S n)) with (INR (S n) * (wal n * wal (S n))) by ring.
  apply Rmult_le_compat_l; [lra|]. nra.
Qed.
Lemma wal_odd n : wal (2 * n + 1) = 4 ^ n * INR (fact n) ^ 2 / INR (fact (2 * n + 1)).
Proof.
  induction n as [|n IH]; [cbn [Nat.mul Nat.add]; rewrite wal_1; cbn; lra|].
  pose proof (wal_rec (2 * n + 1)) as E. replace (2 * n + 1 + 2)%nat with (2 * S n + 1)%nat in E by lia.
  rewrite IH in E. replace (2 * S n + 1)%nat with (S (S (2 * n + 1))) in * by lia.
  rewrite (fact_simpl (S (2 * n + 1))), (fact_simpl (2 * n + 1)), !mult_INR, (fact_simpl n), mult_INR.
  pose proof (INR_fact_neq_0 (2 * n + 1)). pose proof (not_0_INR (S (S (2 * n + 1))) ltac:(lia)).
  pose proof (not_0_INR (S (2 * n + 1)) ltac:(lia)).
  apply (Rmult_eq_reg_l (INR (S (S (2 * n + 1))))); [|assumption]. rewrite E.
  replace (2 * n + 1 + 1)%nat with (2 * S n)%nat by lia.
  replace (S (2 * n + 1)) with (2 * S n)%nat in * by lia. rewrite (mult_INR 2 (S n)) in *. replace (INR 2) with 2 in * by (cbn; lra). cbn [pow].
  pose proof (not_0_INR (S n) ltac:(lia)). field. repeat split; auto.
Qed.
