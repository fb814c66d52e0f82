(** The gamma and beta integrals: existence, recurrences, log-convexity, and
    the identity B(a,b) = Gamma(a) Gamma(b) / Gamma(a+b) by uniqueness of
    log-convex solutions of f(x+1) = f(x) + ln x.  No part of the code is
    modelled here. *)
From Coquelicot Require Import Coquelicot.
From Coq Require Import ZArith Reals List Bool Lra Lia Arith.
From Verif Require Import IntSpec Improper.
Local Open Scope R_scope.

Lemma rp_pos t a : 0 < Rpower t a.
Proof. apply exp_pos. Qed.
Lemma rp_pred t a : 0 < t -> Rpower t a = t * Rpower t (a - 1).
Proof. intros H. rewrite <- (Rpower_1 t H) at 2. rewrite <- Rpower_plus. f_equal. ring. Qed.
Lemma rp_derive t a : 0 < t -> is_derive (fun t => Rpower t a) t (a * Rpower t (a - 1)).
Proof.
  intros H. unfold Rpower. auto_derive; [exact H|].
  change (exp (a * ln t)) with (Rpower t a). change (exp ((a - 1) * ln t)) with (Rpower t (a - 1)).
  rewrite (rp_pred t a H). field. lra.
Qed.
Lemma rp_cont t a : 0 < t -> continuous (fun t => Rpower t a) t.
Proof. intros H. apply (ex_derive_continuous (V := R_NormedModule)). eexists. apply rp_derive, H. Qed.
Lemma rp1_derive t a : t < 1 -> is_derive (fun t => Rpower (1 - t) a) t (- (a * Rpower (1 - t) (a - 1))).
Proof.
  intros H. unfold Rpower. auto_derive; [lra|].
  change (exp (a * ln (1 - t))) with (Rpower (1 - t) a). change (exp ((a - 1) * ln (1 - t))) with (Rpower (1 - t) (a - 1)).
  replace (1 + - t) with (1 - t) by ring. change (exp (a * ln (1 - t))) with (Rpower (1 - t) a).
  rewrite (rp_pred (1 - t) a) by lra. field. lra.
Qed.
Lemma rp1_cont t a : t < 1 -> continuous (fun t => Rpower (1 - t) a) t.
Proof. intros H. apply (ex_derive_continuous (V := R_NormedModule)). eexists. apply rp1_derive, H. Qed.
Lemma exp_neg_cont t : continuous (fun t => exp (- t)) t.
Proof. apply (ex_derive_continuous (V := R_NormedModule)). auto_derive. exact Logic.I. Qed.
Lemma ln_le_lin s u : 0 < s -> 0 < u -> ln u <= u / s + ln s - 1.
Proof.
  intros S U. pose proof (exp_ineq1_le (ln (u / s))) as E. rewrite exp_ln in E by (apply Rdiv_lt_0_compat; assumption).
  unfold Rdiv in E at 1. rewrite ln_mult, ln_Rinv in E; try assumption; [|apply Rinv_0_lt_compat; assumption]. lra.
Qed.
Lemma exp_neg_le x : 0 < x -> exp (- x) <= / x.
Proof.
  intros X. rewrite exp_Ropp. apply Rinv_le_contravar; [exact X|]. pose proof (exp_ineq1_le x). lra.
Qed.
Lemma rp_le t u a : 0 < t <= u -> 0 <= a -> Rpower t a <= Rpower u a.
Proof. intros [T U] A. unfold Rpower. 
  destruct (Req_dec t u) as [->|N]; [lra|]. destruct (Req_dec a 0) as [->|N2]; [rewrite !Rmult_0_l; lra|].
  left. apply exp_increasing, Rmult_lt_compat_l; [lra|]. apply ln_increasing; lra.
Qed.
Lemma rp_small a eps : 0 < a -> 0 < eps -> 0 < Rpower eps (/ a) /\ forall t, 0 < t <= Rpower eps (/ a) -> Rpower t a <= eps.
Proof.
  intros A E. split; [apply rp_pos|]. intros t T. apply Rle_trans with (Rpower (Rpower eps (/ a)) a); [apply rp_le; lra|].
  rewrite Rpower_mult, Rinv_l by lra. rewrite Rpower_1 by exact E. lra.
Qed.
Lemma rp_lim0 (B : Rbar) a : 0 < a -> Rbar_lt 0 B -> lim_at_left 0 B (fun t => Rpower t a) 0.
Proof.
  intros A HB eps E. destruct (rp_small a (eps / 2) A ltac:(lra)) as [P Q]. set (d := Rpower (eps / 2) (/ a)) in *.
  assert (Z : exists m : R, 0 < m <= d /\ Rbar_lt m B).
  { destruct B as [r| |]; cbn in HB; [|exists d; split; [lra|exact Logic.I]|contradiction].
    exists (Rmin d (r / 2)). split; [split; [apply Rmin_glb_lt; lra|apply Rmin_l]|]. cbn. eapply Rle_lt_trans; [apply Rmin_r|lra]. }
  destruct Z as (m & [M1 M2] & M3). exists m. split; [split; [exact M1|exact M3]|]. intros t T1 T2. cbn in T1.
  rewrite Rminus_0_r, Rabs_right by (left; apply rp_pos). pose proof (Q t ltac:(lra)). lra.
Qed.
Lemma lim_l_mult0 (A B : Rbar) (F G : R -> R) K : (forall x, inside A B x -> Rabs (G x) <= K) -> lim_at_left A B F 0 ->
  lim_at_left A B (fun x => F x * G x) 0.
Proof.
  intros HG HF eps E. destruct (HF (eps / (Rabs K + 1))) as (a0 & I & P).
  { apply Rdiv_lt_0_compat; [exact E|]. pose proof (Rabs_pos K). lra. }
  exists a0. split; [exact I|]. intros a Ha La. specialize (P a Ha La). rewrite Rminus_0_r in *. rewrite Rabs_mult.
  assert (Ia : inside A B a) by (split; [exact Ha|]; apply (inside_gt B a0); [apply I|exact La]).
  specialize (HG a Ia). pose proof (Rabs_pos K). pose proof (Rle_abs K). pose proof (Rabs_pos (F a)). pose proof (Rabs_pos (G a)).
  apply Rle_lt_trans with (Rabs (F a) * (Rabs K + 1)); [apply Rmult_le_compat_l; lra|].
  replace eps with (eps / (Rabs K + 1) * (Rabs K + 1)) by (field; lra). apply Rmult_lt_compat_r; lra.
Qed.
Lemma lim_r_mult0 (A B : Rbar) (F G : R -> R) K : (forall x, inside A B x -> Rabs (G x) <= K) -> lim_at_right A B F 0 ->
  lim_at_right A B (fun x => F x * G x) 0.
Proof.
  intros HG HF eps E. destruct (HF (eps / (Rabs K + 1))) as (a0 & I & P).
  { apply Rdiv_lt_0_compat; [exact E|]. pose proof (Rabs_pos K). lra. }
  exists a0. split; [exact I|]. intros a La Ha. specialize (P a La Ha). rewrite Rminus_0_r in *. rewrite Rabs_mult.
  assert (Ia : inside A B a) by (split; [apply (inside_lt A a0); [apply I|exact La]|exact Ha]).
  specialize (HG a Ia). pose proof (Rabs_pos K). pose proof (Rle_abs K). pose proof (Rabs_pos (F a)). pose proof (Rabs_pos (G a)).
  apply Rle_lt_trans with (Rabs (F a) * (Rabs K + 1)); [apply Rmult_le_compat_l; lra|].
  replace eps with (eps / (Rabs K + 1) * (Rabs K + 1)) by (field; lra). apply Rmult_lt_compat_r; lra.
Qed.

(** * Gamma *)
Definition gint (a t : R) : R := Rpower t (a - 1) * exp (- t).
Lemma gint_cont a t : 0 < t -> continuous (gint a) t.
Proof. intros H. apply (continuous_mult (K := R_AbsRing) (fun t => Rpower t (a - 1)) (fun t => exp (- t))); [apply rp_cont, H|apply exp_neg_cont]. Qed.
Lemma gint_pos a t : 0 < gint a t.
Proof. apply Rmult_lt_0_compat; [apply rp_pos|apply exp_pos]. Qed.
Lemma gint_dom a t : 0 < a -> 0 < t ->
  exp (- t) <= exp (1 + (a + 1) * (ln (a + 1) - 1)) * / Rpower (1 + t) (a + 1).
Proof.
  intros A T. unfold Rpower. rewrite <- exp_Ropp, <- exp_plus.
  assert (E : - t <= 1 + (a + 1) * (ln (a + 1) - 1) + - ((a + 1) * ln (1 + t))).
  { pose proof (ln_le_lin (a + 1) (1 + t) ltac:(lra) ltac:(lra)) as L. apply (Rmult_le_compat_l (a + 1)) in L; [|lra].
    replace ((a + 1) * ((1 + t) / (a + 1) + ln (a + 1) - 1)) with (1 + t + (a + 1) * (ln (a + 1) - 1)) in L by (field; lra). lra. }
  destruct E as [E|E]; [left; apply exp_increasing, E|rewrite <- E; lra].
Qed.
Lemma gamma_exists a : 0 < a -> exists v, is_gamma a v.
Proof.
  intros A. set (K := exp (1 + (a + 1) * (ln (a + 1) - 1))). assert (Kp : 0 < K) by apply exp_pos.
  assert (D : forall x, 0 < x -> is_derive (fun t => K / a * Rpower (t / (1 + t)) a) x (K * (Rpower x (a - 1) * / Rpower (1 + x) (a + 1)))).
  { intros x X. assert (0 < x / (1 + x)) by (apply Rdiv_lt_0_compat; lra). unfold Rpower at 1. auto_derive; [split; [lra|split; [assumption|exact Logic.I]]|].
    replace (x * / (1 + x)) with (x / (1 + x)) by reflexivity.
    replace (exp (a * ln (x / (1 + x)))) with (Rpower x a * / Rpower (1 + x) a).
    2:{ unfold Rpower. rewrite <- exp_Ropp, <- exp_plus. f_equal. unfold Rdiv. rewrite ln_mult, ln_Rinv by (try apply Rinv_0_lt_compat; lra). ring. }
    rewrite (rp_pred x a X). rewrite (rp_pred (1 + x) (a + 1)) by lra. replace (a + 1 - 1) with a by ring.
    pose proof (rp_pos (1 + x) a). field. repeat split; lra. }
  apply (integral_exists_primitive 0 p_infty (gint a) (fun x => K * (Rpower x (a - 1) * / Rpower (1 + x) (a + 1))) (fun t => K / a * Rpower (t / (1 + t)) a) (K / a)).
  - exists 1. split; [cbn; lra|exact Logic.I].
  - intros x [X _]. cbn in X. split; [left; apply gint_pos|]. unfold gint.
    replace (K * (Rpower x (a - 1) * / Rpower (1 + x) (a + 1))) with (Rpower x (a - 1) * (K * / Rpower (1 + x) (a + 1))) by ring.
    apply Rmult_le_compat_l; [left; apply rp_pos|]. apply gint_dom; assumption.
  - intros x [X _]. apply gint_cont, X.
  - intros x [X _]. cbn in X. apply (ex_derive_continuous (V := R_NormedModule)). unfold Rpower. auto_derive. repeat split; try lra. apply Rgt_not_eq, exp_pos.
  - intros x [X _]. apply D, X.
  - intros x [X _]. cbn in X. assert (0 < K / a) by (apply Rdiv_lt_0_compat; lra).
    assert (0 < x / (1 + x)) by (apply Rdiv_lt_0_compat; lra).
    split; [left; apply Rmult_lt_0_compat; [lra|apply rp_pos]|].
    rewrite <- (Rmult_1_r (K / a)) at 2. apply Rmult_le_compat_l; [lra|].
    apply Rle_trans with (Rpower 1 a); [|right; unfold Rpower; rewrite ln_1, Rmult_0_r; apply exp_0]. apply rp_le; [|lra]. split; [assumption|].
    apply (Rmult_le_reg_r (1 + x)); [lra|]. unfold Rdiv. rewrite Rmult_assoc, Rinv_l by lra. lra.
Qed.
Lemma integral_pos (A B : Rbar) (f : R -> R) l (p q : R) : (forall x, inside A B x -> 0 < f x) -> (forall x, inside A B x -> continuous f x) ->
  Rbar_lt A p -> p < q -> Rbar_lt q B -> integral A B f l -> 0 < l.
Proof.
  intros P C Hp L Hq H. apply Rlt_le_trans with (RInt f p q).
  - apply RInt_gt_0; [exact L| |]; intros x X.
    + apply P, (inside_seg A B p q); try assumption; lra.
    + apply C, (inside_seg A B p q); try assumption; lra.
  - apply (integral_nonneg_seg A B); try assumption; [|lra]. intros x X. left. apply P, X.
Qed.
Lemma gamma_pos a v : is_gamma a v -> 0 < v.
Proof.
  intros H. apply (integral_pos 0 p_infty (gint a) v 1 2); [intros; apply gint_pos|intros x [X _]; apply gint_cont, X|cbn; lra|lra|exact Logic.I|exact H].
Qed.
Lemma gamma_fun_unique a v v' : is_gamma a v -> is_gamma a v' -> v = v'.
Proof. apply integral_unique. Qed.
Lemma exp_lim_r : lim_at_right 0 p_infty (fun t => exp (- t)) 0.
Proof.
  intros eps E. exists (2 / eps). assert (0 < 2 / eps) by (apply Rdiv_lt_0_compat; lra).
  split; [split; [cbn; assumption|exact Logic.I]|].
  intros b Hb _. rewrite Rminus_0_r, Rabs_right by (left; apply exp_pos).
  apply Rle_lt_trans with (/ b); [apply exp_neg_le; lra|]. apply Rle_lt_trans with (/ (2 / eps)); [apply Rinv_le_contravar; lra|].
  replace (/ (2 / eps)) with (eps / 2) by (field; lra). lra.
Qed.
Lemma rp_exp_bound a c t : 0 < a -> 0 < c -> 0 < t -> Rpower t a * exp (- (c * t)) <= exp (a * (ln (a / c) - 1)).
Proof.
  intros A C T. unfold Rpower. rewrite <- exp_plus. pose proof (ln_le_lin (a / c) t ltac:(apply Rdiv_lt_0_compat; lra) T) as L.
  apply (Rmult_le_compat_l a) in L; [|lra]. replace (a * (t / (a / c) + ln (a / c) - 1)) with (c * t + a * (ln (a / c) - 1)) in L by (field; lra).
  assert (E : a * ln t + - (c * t) <= a * (ln (a / c) - 1)) by lra.
  destruct E as [E|E]; [left; apply exp_increasing, E|rewrite E; lra].
Qed.
Lemma rp_exp_lim_r a : 0 < a -> lim_at_right 0 p_infty (fun t => Rpower t a * exp (- t)) 0.
Proof.
  intros A eps E. set (K := exp (a * (ln (a / (1/2)) - 1))). assert (Kp : 0 < K) by apply exp_pos.
  assert (0 < 4 * K / eps) by (apply Rdiv_lt_0_compat; lra).
  exists (4 * K / eps). split; [split; [cbn; assumption|exact Logic.I]|]. intros b Hb _.
  pose proof (rp_pos b a). pose proof (exp_pos (- b)). rewrite Rminus_0_r, Rabs_right by (left; apply Rmult_lt_0_compat; assumption).
  replace (exp (- b)) with (exp (- (1/2 * b)) * exp (- (b / 2))) by (rewrite <- exp_plus; f_equal; field).
  rewrite <- Rmult_assoc. apply Rle_lt_trans with (K * / (b / 2)).
  - apply Rmult_le_compat; [left; apply Rmult_lt_0_compat; [assumption|apply exp_pos]|left; apply exp_pos| |].
    + apply rp_exp_bound; lra.
    + apply exp_neg_le. lra.
  - apply Rle_lt_trans with (K * / (4 * K / eps / 2)).
    + apply Rmult_le_compat_l; [lra|]. apply Rinv_le_contravar; lra.
    + replace (K * / (4 * K / eps / 2)) with (eps / 2) by (field; lra). lra.
Qed.
Lemma gamma_rec a v : 0 < a -> is_gamma a v -> is_gamma (a + 1) (a * v).
Proof.
  intros A H. assert (Z : integral 0 p_infty (fun t => a * gint a t - gint (a + 1) t) (0 - 0)).
  { apply (integral_derive 0 p_infty (fun t => Rpower t a * exp (- t))).
    - intros x [X _]. cbn in X. unfold gint. replace (a + 1 - 1) with a by ring.
      replace (a * (Rpower x (a - 1) * exp (- x)) - Rpower x a * exp (- x)) with (a * Rpower x (a - 1) * exp (- x) + Rpower x a * (- exp (- x))) by ring.
      apply (is_derive_mult (K := R_AbsRing) (fun t => Rpower t a) (fun t => exp (- t))); [apply rp_derive, X| |apply Rmult_comm].
      auto_derive; [exact Logic.I|ring].
    - intros x [X _]. cbn in X. apply (continuous_minus (V := R_NormedModule) (fun t => a * gint a t) (gint (a + 1))); [|apply gint_cont, X].
      apply (continuous_mult (K := R_AbsRing) (fun _ => a) (gint a)); [apply continuous_const|apply gint_cont, X].
    - apply (lim_l_mult0 0 p_infty (fun t => Rpower t a) (fun t => exp (- t)) 1); [|apply rp_lim0; [exact A|exact Logic.I]].
      intros x [X _]. cbn in X. rewrite Rabs_right by (left; apply exp_pos). rewrite <- exp_0. left. apply exp_increasing. lra.
    - apply rp_exp_lim_r, A. }
  pose proof (integral_minus _ _ _ _ _ _ (integral_scal _ _ a _ _ H) Z) as W. replace (a * v - (0 - 0)) with (a * v) in W by ring.
  revert W. apply integral_ext. intros x _. unfold gint. ring.
Qed.
Lemma gamma_one : is_gamma 1 1.
Proof.
  replace 1 with (0 - - 1) at 2 by ring. apply (integral_ext 0 p_infty (fun t => exp (- t))).
  - intros x [X _]. cbn in X. replace (1 - 1) with 0 by ring. rewrite Rpower_O by exact X. ring.
  - apply (integral_derive 0 p_infty (fun t => - exp (- t))).
    + intros x _. auto_derive; [exact Logic.I|ring].
    + intros x _. apply exp_neg_cont.
    + intros eps E. set (m := Rmin 1 (eps / 2)). assert (M : 0 < m) by (apply Rmin_glb_lt; lra).
      exists m. split; [split; [exact M|exact Logic.I]|]. intros a Ha La. cbn in Ha.
      assert (a <= eps / 2) by (eapply Rle_trans; [exact La|apply Rmin_r]).
      pose proof (exp_ineq1_le (- a)). assert (exp (- a) < 1) by (rewrite <- exp_0; apply exp_increasing; lra). rewrite Rabs_right; lra.
    + intros eps E. destruct (exp_lim_r eps E) as (b0 & I & P). exists b0. split; [exact I|]. intros b L Hb. specialize (P b L Hb).
      replace (- exp (- b) - 0) with (- (exp (- b) - 0)) by ring. rewrite Rabs_Ropp. exact P.
Qed.
(** * Log-convexity of parametrised integrals *)
Lemma exp_convex s x y : 0 <= s <= 1 -> exp (s * x + (1 - s) * y) <= s * exp x + (1 - s) * exp y.
Proof.
  intros S. set (z := s * x + (1 - s) * y). pose proof (exp_pos z) as P.
  assert (H : forall w, exp z * (1 + (w - z)) <= exp w).
  { intros w. replace (exp w) with (exp z * exp (w - z)) by (rewrite <- exp_plus; f_equal; ring). apply Rmult_le_compat_l; [lra|]. apply exp_ineq1_le. }
  pose proof (H x) as Hx. pose proof (H y) as Hy. apply (Rmult_le_compat_l s) in Hx; [|lra]. apply (Rmult_le_compat_l (1 - s)) in Hy; [|lra].
  assert (Z : forall e, e = s * (e * (1 + (x - z))) + (1 - s) * (e * (1 + (y - z)))) by (intros e; unfold z; ring).
  rewrite (Z (exp z)). lra.
Qed.
Lemma integral_log_convex (A B : Rbar) (h w : R -> R) (a b s u v r : R) : 0 <= s <= 1 -> 0 < u -> 0 < v -> 0 < r ->
  integral A B (fun t => exp (a * h t + w t)) u -> integral A B (fun t => exp (b * h t + w t)) v ->
  integral A B (fun t => exp ((s * a + (1 - s) * b) * h t + w t)) r -> ln r <= s * ln u + (1 - s) * ln v.
Proof.
  intros S U V Rp Hu Hv Hr. set (c := s * ln u + (1 - s) * ln v).
  assert (E : exp (- c) * r <= s * (/ u * u) + (1 - s) * (/ v * v)).
  { apply (integral_le A B (fun t => exp (- c) * exp ((s * a + (1 - s) * b) * h t + w t))
      (fun t => s * (/ u * exp (a * h t + w t)) + (1 - s) * (/ v * exp (b * h t + w t)))).
    - intros x _. rewrite <- exp_plus. rewrite <- (exp_ln (/ u)) by (apply Rinv_0_lt_compat; exact U).
      rewrite <- (exp_ln (/ v)) by (apply Rinv_0_lt_compat; exact V). rewrite !ln_Rinv by assumption. rewrite <- !exp_plus.
      eapply Rle_trans; [|apply exp_convex, S]. right. f_equal. unfold c. ring.
    - apply integral_scal, Hr.
    - exact (integral_plus A B _ _ _ _ (integral_scal A B s _ _ (integral_scal A B (/ u) _ _ Hu)) (integral_scal A B (1 - s) _ _ (integral_scal A B (/ v) _ _ Hv))). }
  rewrite !Rinv_l in E by lra. apply Rnot_lt_le. intros N. fold c in N.
  assert (exp (- c) * exp c < exp (- c) * r). { apply Rmult_lt_compat_l; [apply exp_pos|]. rewrite <- (exp_ln r Rp). apply exp_increasing, N. }
  rewrite <- exp_plus in H. replace (- c + c) with 0 in H by ring. rewrite exp_0 in H. lra.
Qed.
Lemma gamma_log_convex a b s u v r : 0 < a -> 0 < b -> 0 <= s <= 1 -> is_gamma a u -> is_gamma b v -> is_gamma (s * a + (1 - s) * b) r ->
  ln r <= s * ln u + (1 - s) * ln v.
Proof.
  intros A B S U V W. apply (integral_log_convex 0 p_infty ln (fun t => - ln t - t) a b s u v r S (gamma_pos _ _ U) (gamma_pos _ _ V) (gamma_pos _ _ W)).
  - revert U. apply integral_ext. intros x _. unfold Rpower. rewrite <- exp_plus. f_equal. ring.
  - revert V. apply integral_ext. intros x _. unfold Rpower. rewrite <- exp_plus. f_equal. ring.
  - revert W. apply integral_ext. intros x _. unfold Rpower. rewrite <- exp_plus. f_equal. ring.
Qed.
(** * Bohr-Mollerup: uniqueness of log-convex solutions *)
Definition bm (f : R -> R) : Prop :=
  f 1 = 0 /\ (forall x, 0 < x -> f (x + 1) = f x + ln x) /\
  (forall x y s, 0 < x -> 0 < y -> 0 <= s <= 1 -> f (s * x + (1 - s) * y) <= s * f x + (1 - s) * f y).
Lemma bm_nat f g n : bm f -> bm g -> f (INR (S n)) = g (INR (S n)).
Proof.
  intros (F1 & F2 & _) (G1 & G2 & _). induction n as [|n IH]; [cbn; congruence|].
  rewrite (S_INR (S n)). assert (0 < INR (S n)) by (apply lt_0_INR; lia). rewrite F2, G2 by assumption. rewrite IH. reflexivity.
Qed.
Lemma bm_shift f g x n : bm f -> bm g -> 0 < x -> f (x + INR n) - g (x + INR n) = f x - g x.
Proof.
  intros (F1 & F2 & _) (G1 & G2 & _) X. induction n as [|n IH]; [cbn; rewrite Rplus_0_r; reflexivity|].
  rewrite S_INR, <- Rplus_assoc. pose proof (pos_INR n). rewrite F2, G2 by lra. lra.
Qed.
Lemma bm_bounds f x n : bm f -> 0 < x <= 1 -> let m := INR (S (S n)) in
  f m + x * ln (m - 1) <= f (x + m) <= f m + x * ln m.
Proof.
  intros (F1 & F2 & F3) X m. assert (M : 1 < m) by (unfold m; rewrite !S_INR; pose proof (pos_INR n); lra). split.
  - pose proof (F3 (m - 1) (x + m) (x / (1 + x)) ltac:(lra) ltac:(lra)) as C.
    assert (0 < x / (1 + x)) by (apply Rdiv_lt_0_compat; lra).
    assert (x / (1 + x) <= 1). { apply (Rmult_le_reg_r (1 + x)); [lra|]. unfold Rdiv. rewrite Rmult_assoc, Rinv_l by lra. lra. }
    specialize (C ltac:(lra)). replace (x / (1 + x) * (m - 1) + (1 - x / (1 + x)) * (x + m)) with m in C by (field; lra).
    pose proof (F2 (m - 1) ltac:(lra)) as E. replace (m - 1 + 1) with m in E by ring.
    apply (Rmult_le_compat_l (1 + x)) in C; [|lra].
    replace ((1 + x) * (x / (1 + x) * f (m - 1) + (1 - x / (1 + x)) * f (x + m))) with (x * f (m - 1) + f (x + m)) in C by (field; lra). nra.
  - pose proof (F3 (m + 1) m x ltac:(lra) ltac:(lra) ltac:(lra)) as C. replace (x * (m + 1) + (1 - x) * m) with (x + m) in C by ring.
    rewrite F2 in C by lra. lra.
Qed.
Lemma bm_unique01 f g x : bm f -> bm g -> 0 < x <= 1 -> f x = g x.
Proof.
  intros F G X. apply Rminus_diag_uniq. destruct (Req_dec (f x - g x) 0) as [|N]; [assumption|exfalso].
  pose proof (Rabs_pos_lt _ N) as P. destruct (archimed_cor1 _ P) as (n & L & Np).
  destruct n as [|n]; [lia|]. pose proof (bm_bounds f x n F X) as Bf. pose proof (bm_bounds g x n G X) as Bg. cbv zeta in *.
  rewrite (bm_nat f g (S n) F G) in Bf. rewrite <- (bm_shift f g x (S (S n)) F G ltac:(lra)) in L.
  set (m := INR (S (S n))) in *. assert (Em : INR (S n) = m - 1) by (unfold m; rewrite (S_INR (S n)); ring). rewrite Em in L.
  assert (M : 0 < m - 1) by (rewrite <- Em; apply lt_0_INR; lia).
  assert (Q : ln m - ln (m - 1) <= / (m - 1)).
  { pose proof (ln_le_lin (m - 1) m ltac:(lra) ltac:(lra)) as Q. replace (m / (m - 1)) with (1 + / (m - 1)) in Q by (field; lra). lra. }
  assert (ln (m - 1) < ln m) by (apply ln_increasing; lra).
  assert (x * (ln m - ln (m - 1)) <= / (m - 1)) by nra.
  assert (Rabs (f (x + m) - g (x + m)) <= x * (ln m - ln (m - 1))) by (unfold Rabs; destruct Rcase_abs; lra). lra.
Qed.
Lemma bm_unique f g x : bm f -> bm g -> 0 < x -> f x = g x.
Proof.
  intros F G X. assert (H : forall n y, 0 < y <= INR n + 1 -> f y = g y).
  { induction n as [|n IH]; intros y Y; [apply bm_unique01; try assumption; cbn in Y; lra|].
    destruct (Rle_dec y 1) as [L|L]; [apply bm_unique01; try assumption; lra|].
    rewrite S_INR in Y. pose proof (IH (y - 1) ltac:(lra)) as E. destruct F as (_ & F2 & _). destruct G as (_ & G2 & _).
    pose proof (F2 (y - 1) ltac:(lra)) as A1. pose proof (G2 (y - 1) ltac:(lra)) as A2. replace (y - 1 + 1) with y in * by ring. lra. }
  destruct (nfloor_ex x ltac:(lra)) as [n Hn]. apply (H n). lra.
Qed.
(** * Beta *)
Definition bint (a b t : R) : R := Rpower t (a - 1) * Rpower (1 - t) (b - 1).
Definition is_beta (a b v : R) : Prop := integral 0 1 (bint a b) v.
Lemma bint_pos a b t : 0 < bint a b t.
Proof. apply Rmult_lt_0_compat; apply rp_pos. Qed.
Lemma bint_cont a b t : 0 < t < 1 -> continuous (bint a b) t.
Proof.
  intros H. apply (continuous_mult (K := R_AbsRing) (fun t => Rpower t (a - 1)) (fun t => Rpower (1 - t) (b - 1))); [apply rp_cont; lra|apply rp1_cont; lra].
Qed.
Lemma rp_half c t : 1/2 <= t <= 1 -> Rpower t c <= exp (Rabs c * ln 2).
Proof.
  intros H. unfold Rpower. assert (L0 : ln t <= 0) by (rewrite <- ln_1; destruct (proj2 H) as [L| ->]; [left; apply ln_increasing; lra|lra]).
  assert (L1 : - ln 2 <= ln t). { rewrite <- ln_Rinv by lra. destruct (Req_dec (/2) t) as [<-|N]; [lra|]. left. apply ln_increasing; lra. }
  assert (E : c * ln t <= Rabs c * ln 2). { unfold Rabs. destruct Rcase_abs; nra. }
  destruct E as [E|E]; [left; apply exp_increasing, E|rewrite E; lra].
Qed.
Lemma beta_exists a b : 0 < a -> 0 < b -> exists v, is_beta a b v.
Proof.
  intros A B. set (K := exp (Rabs (a - 1) * ln 2) + exp (Rabs (b - 1) * ln 2)).
  assert (K1 : exp (Rabs (a - 1) * ln 2) <= K) by (unfold K; pose proof (exp_pos (Rabs (b - 1) * ln 2)); lra).
  assert (K2 : exp (Rabs (b - 1) * ln 2) <= K) by (unfold K; pose proof (exp_pos (Rabs (a - 1) * ln 2)); lra).
  assert (Kp : 0 < K) by (pose proof (exp_pos (Rabs (a - 1) * ln 2)); lra).
  apply (integral_exists_primitive 0 1 (bint a b) (fun t => K * (Rpower t (a - 1) + Rpower (1 - t) (b - 1)))
    (fun t => K * (Rpower t a / a + (1 - Rpower (1 - t) b) / b)) (K * (/ a + / b))).
  - exists (1/2). split; cbn; lra.
  - intros x [X Y]. cbn in X, Y. split; [left; apply bint_pos|]. unfold bint. pose proof (rp_pos x (a - 1)). pose proof (rp_pos (1 - x) (b - 1)).
    destruct (Rle_dec x (1/2)) as [L|L].
    + pose proof (rp_half (b - 1) (1 - x) ltac:(lra)). nra.
    + pose proof (rp_half (a - 1) x ltac:(lra)). nra.
  - intros x [X Y]. apply bint_cont. cbn in *; lra.
  - intros x [X Y]. cbn in X, Y. apply (continuous_mult (K := R_AbsRing) (fun _ => K)); [apply continuous_const|].
    apply (continuous_plus (V := R_NormedModule) (fun t => Rpower t (a - 1)) (fun t => Rpower (1 - t) (b - 1))); [apply rp_cont; lra|apply rp1_cont; lra].
  - intros x [X Y]. cbn in X, Y. apply (is_derive_ext (fun t => K * (/ a * Rpower t a + (/ b - / b * Rpower (1 - t) b)))).
    { intros t. match goal with |- ?l = ?r => change (@eq R l r) end. field. lra. }
    replace (K * (Rpower x (a - 1) + Rpower (1 - x) (b - 1))) with (K * (/ a * (a * Rpower x (a - 1)) + (0 - / b * - (b * Rpower (1 - x) (b - 1))))) by (field; lra).
    apply (is_derive_scal (fun t => / a * Rpower t a + (/ b - / b * Rpower (1 - t) b))).
    apply (is_derive_plus (V := R_NormedModule)); [apply (is_derive_scal (fun t => Rpower t a)), rp_derive, X|].
    apply (is_derive_minus (V := R_NormedModule)); [apply (is_derive_const (V := R_NormedModule))|]. apply (is_derive_scal (fun t => Rpower (1 - t) b)), rp1_derive, Y.
  - intros x [X Y]. cbn in X, Y. pose proof (rp_pos x a). pose proof (rp_pos (1 - x) b).
    assert (Rpower x a <= 1). { apply Rle_trans with (Rpower 1 a); [apply rp_le; lra|]. right. unfold Rpower. rewrite ln_1, Rmult_0_r. apply exp_0. }
    assert (Rpower (1 - x) b <= 1). { apply Rle_trans with (Rpower 1 b); [apply rp_le; lra|]. right. unfold Rpower. rewrite ln_1, Rmult_0_r. apply exp_0. }
    pose proof (Rinv_0_lt_compat a A). pose proof (Rinv_0_lt_compat b B). unfold Rdiv. split.
    + apply Rmult_le_pos; [lra|]. apply Rplus_le_le_0_compat; apply Rmult_le_pos; lra.
    + apply Rmult_le_compat_l; [lra|]. apply Rplus_le_compat; [rewrite <- (Rmult_1_l (/ a)) at 2|rewrite <- (Rmult_1_l (/ b)) at 2]; apply Rmult_le_compat_r; lra.
Qed.
Lemma beta_pos a b v : is_beta a b v -> 0 < v.
Proof.
  intros H. apply (integral_pos 0 1 (bint a b) v (1/4) (1/2)); [intros; apply bint_pos| |cbn; lra|lra|cbn; lra|exact H].
  intros x [X Y]. apply bint_cont. cbn in *; lra.
Qed.
Lemma rp1_lim1 a : 0 < a -> lim_at_right 0 1 (fun t => Rpower (1 - t) a) 0.
Proof.
  intros A eps E. destruct (rp_lim0 1 a A ltac:(cbn; lra) eps E) as (m & [M1 M2] & P). cbn in M1, M2. exists (1 - m).
  split; [split; cbn; lra|]. intros b L Hb. cbn in Hb. apply P; cbn; lra.
Qed.
Lemma rp_le1 t a : 0 < t < 1 -> 0 <= a -> Rabs (Rpower t a) <= 1.
Proof.
  intros T A. rewrite Rabs_right by (left; apply rp_pos). apply Rle_trans with (Rpower 1 a); [apply rp_le; lra|].
  right. unfold Rpower. rewrite ln_1, Rmult_0_r. apply exp_0.
Qed.
Lemma lim_l_comm (A B : Rbar) F G l : (forall x, inside A B x -> F x = G x) -> lim_at_left A B F l -> lim_at_left A B G l.
Proof.
  intros E H eps P. destruct (H eps P) as (a0 & I & Q). exists a0. split; [exact I|]. intros a Ha La. rewrite <- E; [apply Q; assumption|].
  split; [exact Ha|]. apply (inside_gt B a0); [apply I|exact La].
Qed.
Lemma lim_r_comm (A B : Rbar) F G l : (forall x, inside A B x -> F x = G x) -> lim_at_right A B F l -> lim_at_right A B G l.
Proof.
  intros E H eps P. destruct (H eps P) as (a0 & I & Q). exists a0. split; [exact I|]. intros a Ha La. rewrite <- E; [apply Q; assumption|].
  split; [|exact La]. apply (inside_lt A a0); [apply I|exact Ha].
Qed.
Lemma beta_rec a b v : 0 < a -> 0 < b -> is_beta a b v -> is_beta (a + 1) b (a / (a + b) * v).
Proof.
  intros A B H. assert (Z : integral 0 1 (fun t => a * bint a b t - (a + b) * bint (a + 1) b t) (0 - 0)).
  { apply (integral_derive 0 1 (fun t => Rpower t a * Rpower (1 - t) b)).
    - intros x [X Y]. cbn in X, Y. unfold bint. replace (a + 1 - 1) with a by ring.
      replace (a * (Rpower x (a - 1) * Rpower (1 - x) (b - 1)) - (a + b) * (Rpower x a * Rpower (1 - x) (b - 1)))
        with (a * Rpower x (a - 1) * Rpower (1 - x) b + Rpower x a * - (b * Rpower (1 - x) (b - 1))).
      2:{ rewrite (rp_pred x a X), (rp_pred (1 - x) b) by lra. ring. }
      apply (is_derive_mult (K := R_AbsRing) (fun t => Rpower t a) (fun t => Rpower (1 - t) b)); [apply rp_derive, X|apply rp1_derive, Y|apply Rmult_comm].
    - intros x [X Y]. cbn in X, Y. apply (continuous_minus (V := R_NormedModule) (fun t => a * bint a b t) (fun t => (a + b) * bint (a + 1) b t)).
      + apply (continuous_mult (K := R_AbsRing) (fun _ => a) (bint a b)); [apply continuous_const|apply bint_cont; lra].
      + apply (continuous_mult (K := R_AbsRing) (fun _ => a + b) (bint (a + 1) b)); [apply continuous_const|apply bint_cont; lra].
    - apply (lim_l_mult0 0 1 (fun t => Rpower t a) (fun t => Rpower (1 - t) b) 1); [|apply rp_lim0; [exact A|cbn; lra]].
      intros x [X Y]. cbn in X, Y. apply rp_le1; lra.
    - apply (lim_r_comm 0 1 (fun t => Rpower (1 - t) b * Rpower t a)); [intros; ring|].
      apply (lim_r_mult0 0 1 (fun t => Rpower (1 - t) b) (fun t => Rpower t a) 1); [|apply rp1_lim1, B].
      intros x [X Y]. cbn in X, Y. apply rp_le1; lra. }
  pose proof (integral_scal _ _ (/ (a + b)) _ _ (integral_minus _ _ _ _ _ _ (integral_scal _ _ a _ _ H) Z)) as W.
  replace (a / (a + b) * v) with (/ (a + b) * (a * v - (0 - 0))) by (field; lra).
  revert W. apply integral_ext. intros x _. field. lra.
Qed.
Lemma beta_one b : 0 < b -> is_beta 1 b (/ b).
Proof.
  intros B. replace (/ b) with (0 - - / b) by ring. apply (integral_ext 0 1 (fun t => Rpower (1 - t) (b - 1))).
  { intros x [X _]. cbn in X. unfold bint. replace (1 - 1) with 0 by ring. rewrite Rpower_O by exact X. ring. }
  apply (integral_derive 0 1 (fun t => - / b * Rpower (1 - t) b)).
  - intros x [X Y]. cbn in Y. replace (Rpower (1 - x) (b - 1)) with (- / b * - (b * Rpower (1 - x) (b - 1))) by (field; lra).
    apply (is_derive_scal (fun t => Rpower (1 - t) b)), rp1_derive, Y.
  - intros x [X Y]. cbn in Y. apply rp1_cont, Y.
  - assert (Cn : continuity_pt (fun t => - / b * Rpower (1 - t) b) 0).
    { apply continuity_pt_filterlim. apply (ex_derive_continuous (V := R_NormedModule) (fun t => - / b * Rpower (1 - t) b) 0). eexists.
      apply (is_derive_scal (fun t => Rpower (1 - t) b) 0 (- / b) (- (b * Rpower (1 - 0) (b - 1)))). apply rp1_derive. lra. }
    intros eps E. destruct (Cn eps E) as (d & D & P). exists (Rmin (1/2) (d / 2)).
    assert (0 < Rmin (1/2) (d / 2)) by (apply Rmin_glb_lt; lra). pose proof (Rmin_l (1/2) (d/2)). pose proof (Rmin_r (1/2) (d/2)).
    split; [split; cbn; lra|]. intros a Ha La. cbn in Ha.
    replace (- / b * Rpower (1 - a) b - - / b) with (- / b * Rpower (1 - a) b - - / b * Rpower (1 - 0) b).
    2:{ rewrite Rminus_0_r. unfold Rpower at 2. rewrite ln_1, Rmult_0_r, exp_0. ring. }
    apply (P a). split; [split; [exact Logic.I|lra]|]. change (Rabs (a - 0) < d). rewrite Rminus_0_r, Rabs_right; lra.
  - apply (lim_r_comm 0 1 (fun t => Rpower (1 - t) b * - / b)); [intros; ring|].
    apply (lim_r_mult0 0 1 (fun t => Rpower (1 - t) b) (fun _ => - / b) (/ b)); [|apply rp1_lim1, B].
    intros x _. rewrite Rabs_Ropp, Rabs_right; [lra|]. pose proof (Rinv_0_lt_compat b B). lra.
Qed.
Lemma beta_log_convex a a' b s u v r : 0 <= s <= 1 -> is_beta a b u -> is_beta a' b v -> is_beta (s * a + (1 - s) * a') b r ->
  ln r <= s * ln u + (1 - s) * ln v.
Proof.
  intros S U V W. apply (integral_log_convex 0 1 ln (fun t => - ln t + (b - 1) * ln (1 - t)) a a' s u v r S (beta_pos _ _ _ U) (beta_pos _ _ _ V) (beta_pos _ _ _ W)).
  - revert U. apply integral_ext. intros x _. unfold bint, Rpower. rewrite <- exp_plus. f_equal. ring.
  - revert V. apply integral_ext. intros x _. unfold bint, Rpower. rewrite <- exp_plus. f_equal. ring.
  - revert W. apply integral_ext. intros x _. unfold bint, Rpower. rewrite <- exp_plus. f_equal. ring.
Qed.
(** * Any logarithm of the gamma function *)
Section LG.
Context (lg : R -> R) (HG : lg_is_log_gamma lg).
Lemma lg_rec a : 0 < a -> lg (a + 1) = lg a + ln a.
Proof.
  intros A. pose proof (gamma_fun_unique _ _ _ (HG (a + 1) ltac:(lra)) (gamma_rec a _ A (HG a A))) as E.
  rewrite <- (ln_exp (lg (a + 1))), E, ln_mult, ln_exp by (try apply exp_pos; assumption). ring.
Qed.
Lemma lg_one : lg 1 = 0.
Proof. pose proof (gamma_fun_unique _ _ _ (HG 1 ltac:(lra)) gamma_one) as E. rewrite <- (ln_exp (lg 1)), E. apply ln_1. Qed.
Lemma lg_nat n : lg (INR n + 1) = ln (INR (fact n)).
Proof.
  induction n as [|n IH]; [cbn; rewrite Rplus_0_l, ln_1; apply lg_one|].
  rewrite S_INR. pose proof (pos_INR n). rewrite lg_rec, IH by lra. change (fact (S n)) with (S n * fact n)%nat.
  rewrite mult_INR, S_INR, ln_mult; [ring|lra|]. apply lt_0_INR, lt_O_fact.
Qed.
Lemma lg_convex x y s : 0 < x -> 0 < y -> 0 <= s <= 1 -> lg (s * x + (1 - s) * y) <= s * lg x + (1 - s) * lg y.
Proof.
  intros X Y S. assert (0 < s * x + (1 - s) * y) by (destruct (Req_dec s 0) as [->|]; [lra|]; assert (0 < s * x) by (apply Rmult_lt_0_compat; lra); assert (0 <= (1 - s) * y) by (apply Rmult_le_pos; lra); lra).
  pose proof (gamma_log_convex x y s _ _ _ X Y S (HG x X) (HG y Y) (HG _ H)) as E. rewrite !ln_exp in E. exact E.
Qed.
Lemma lg_bm : bm lg.
Proof. split; [apply lg_one|]. split; [intros; apply lg_rec; assumption|]. intros; apply lg_convex; assumption. Qed.
Lemma beta_value a b : 0 < a -> 0 < b -> is_beta a b (exp (lg a + lg b - lg (a + b))).
Proof.
  intros A B.
  assert (Ch : forall x, exists v, 0 < x -> is_beta x b v).
  { intros x. destruct (Rlt_dec 0 x) as [X|X]; [destruct (beta_exists x b X B) as [v V]; exists v; auto|exists 0; tauto]. }

  destruct (beta_exists a b A B) as [v V].
  enough (E : v = exp (lg a + lg b - lg (a + b))) by (rewrite <- E; exact V).
  (* a choice-free description of the values: [beta_of x] is the supremum of the integrals over segments *)
  pose (set_of := fun x w => exists p q, 0 < p /\ p <= q /\ q < 1 /\ w = RInt (bint x b) p q).
  pose (beta_of := fun x => real (Lub_Rbar (set_of x))).
  assert (Bv : forall x w, is_beta x b w -> beta_of x = w).
  { intros x w W. unfold beta_of. rewrite (is_lub_Rbar_unique (set_of x) w); [reflexivity|]. split.
    - intros y (p & q & P & L & Q & ->). apply (integral_nonneg_seg 0 1); try assumption; [intros; left; apply bint_pos|intros t [T1 T2]; apply bint_cont; cbn in *; lra].
    - intros u U. destruct u as [u| |]; [|exact Logic.I|].
      + cbn. apply Rnot_lt_le. intros N. destruct (W (w - u) ltac:(lra)) as (p & q & [P1 P2] & [Q1 Q2] & L & D). cbn in *.
        destruct (D p q P1 ltac:(lra) ltac:(lra) Q2) as (z & Z & Dz). specialize (U z). cbn in U.
        assert (z <= u) by (apply U; exists p, q; repeat split; try assumption; symmetry; apply int_unique, Z).
        revert Dz. unfold Rabs. destruct Rcase_abs; lra.
      + specialize (U (RInt (bint x b) (1/2) (1/2))). cbn in U. apply U. exists (1/2), (1/2). repeat split; lra. }
  assert (Ex : forall x, 0 < x -> is_beta x b (beta_of x)).
  { intros x X. destruct (beta_exists x b X B) as [w W]. rewrite (Bv x w W). exact W. }
  assert (Bp : forall x, 0 < x -> 0 < beta_of x) by (intros x X; apply (beta_pos x b), Ex, X).
  set (psi := fun x => ln (beta_of x) + lg (x + b) - lg b).
  assert (P : bm psi).
  { split; [|split].
    - unfold psi. rewrite (Bv 1 (/ b) (beta_one b B)). rewrite ln_Rinv by exact B. rewrite (Rplus_comm 1 b), lg_rec by exact B. ring.
    - intros x X. unfold psi. rewrite (Bv (x + 1) _ (beta_rec x b _ X B (Ex x X))). replace (x + 1 + b) with (x + b + 1) by ring.
      rewrite lg_rec by lra. unfold Rdiv. rewrite !ln_mult, ln_Rinv by (try apply Rmult_lt_0_compat; try apply Rinv_0_lt_compat; try apply Bp; lra). ring.
    - intros x y s X Y Hs. unfold psi.
      assert (Z : 0 < s * x + (1 - s) * y) by (destruct (Req_dec s 0) as [->|]; [lra|]; assert (0 < s * x) by (apply Rmult_lt_0_compat; lra); assert (0 <= (1 - s) * y) by (apply Rmult_le_pos; lra); lra).
      pose proof (beta_log_convex x y b s _ _ _ Hs (Ex x X) (Ex y Y) (Ex _ Z)) as C1.
      pose proof (lg_convex (x + b) (y + b) s ltac:(lra) ltac:(lra) Hs) as C2.
      replace (s * (x + b) + (1 - s) * (y + b)) with (s * x + (1 - s) * y + b) in C2 by ring. lra. }
  pose proof (bm_unique psi lg a P lg_bm A) as E. unfold psi in E. rewrite (Bv a v V) in E.
  rewrite <- (exp_ln v (beta_pos _ _ _ V)). f_equal. lra.
Qed.
End LG.
(** Some function is the logarithm of the gamma function. *)
Lemma log_gamma_exists : exists lg, lg_is_log_gamma lg.
Proof.
  pose (set_of := fun a w => exists p q, 0 < p /\ p <= q /\ w = RInt (gint a) p q).
  exists (fun a => ln (real (Lub_Rbar (set_of a)))). intros a A. destruct (gamma_exists a A) as [v V].
  rewrite (is_lub_Rbar_unique (set_of a) v).
  - cbn. rewrite exp_ln by (apply (gamma_pos a), V). exact V.
  - split.
    + intros y (p & q & P & L & ->). apply (integral_nonneg_seg 0 p_infty); try assumption; [intros; left; apply gint_pos|intros t [T1 T2]; apply gint_cont; cbn in *; lra|exact Logic.I].
    + intros u U. destruct u as [u| |]; [|exact Logic.I|].
      * cbn. apply Rnot_lt_le. intros N. destruct (V (v - u) ltac:(lra)) as (p & q & [P1 P2] & [Q1 Q2] & L & D). cbn in *.
        destruct (D p q P1 ltac:(lra) ltac:(lra) Logic.I) as (z & Z & Dz). specialize (U z). cbn in U.
        assert (z <= u) by (apply U; exists p, q; repeat split; try assumption; symmetry; apply int_unique, Z).
        revert Dz. unfold Rabs. destruct Rcase_abs; lra.
      * specialize (U (RInt (gint a) 1 1)). cbn in U. apply U. exists 1, 1. repeat split; lra.
Qed.
