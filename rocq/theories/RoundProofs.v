(** Accuracy of the evaluators in binary64 (C53). *)
From Coq Require Import ZArith Reals Bool String List Lia Lra.
From Coq Require Import Floats.SpecFloat.
From Flocq Require Import Core IEEE754.BinarySingleNaN.
From Verif Require Import Num ExprModel ExprSpec ConvModel FloatFacts ConvProofs JitModel JitSpec
  EggSpec LitFacts EggNum FloatErr JitBits JitAcc JitAcc2 AccSpec AccProofs RoundSpec.
Import ListNotations.
Local Open Scope R_scope.

#[local] Instance Hprec64 : FLX.Prec_gt_0 53 := eq_refl _.
#[local] Instance Hmax64 : Prec_lt_emax 53 1024 := eq_refl _.

Lemma eps_pos : 0 < eps. Proof. unfold eps. apply Rinv_0_lt_compat, pow_lt; lra. Qed.
Lemma small_pos : 0 < small. Proof. apply bpow_gt_0. Qed.

(** * Comparisons with zero *)
Lemma val_sign s m e : 0 < val (S754_finite s m e) <-> s = false.
Proof.
  rewrite val_explicit. pose proof (bpow_gt_0 radix2 e) as B. destruct s; cbn [cond_Zopp].
  - split; [|discriminate]. intros H. rewrite opp_IZR in H. assert (0 < IZR (Zpos m)) by (apply (IZR_lt 0); lia). nra.
  - split; [reflexivity|]. intros _. apply Rmult_lt_0_compat; [apply (IZR_lt 0); lia|exact B].
Qed.
Lemma val_nonzero s m e : val (S754_finite s m e) <> 0.
Proof.
  rewrite val_explicit. pose proof (bpow_gt_0 radix2 e) as B. apply Rmult_integral_contrapositive_currified; [|lra].
  apply not_0_IZR. destruct s; cbn [cond_Zopp]; lia.
Qed.
Lemma zero_lit : f64_of_Z 0 = S754_zero false. Proof. reflexivity. Qed.
Lemma eqb_zero v : is_num v -> val v <> 0 -> SFeqb v (f64_of_Z 0) = false.
Proof.
  rewrite zero_lit. intros [_ F] N. destruct v as [s|s| |s m e]; try discriminate F; [exfalso; apply N; reflexivity|].
  unfold SFeqb. cbn. destruct s; reflexivity.
Qed.
Lemma leb_zero v : is_num v -> 0 < val v -> SFleb v (f64_of_Z 0) = false.
Proof.
  rewrite zero_lit. intros [_ F] N. destruct v as [s|s| |s m e]; try discriminate F; [exfalso; revert N; cbn; apply Rlt_irrefl|].
  apply val_sign in N. subst. reflexivity.
Qed.
Lemma ltb_zero v : is_num v -> 0 <= val v -> SFltb v (f64_of_Z 0) = false.
Proof.
  rewrite zero_lit. intros [_ F] N. destruct v as [s|s| |s m e]; try discriminate F; [destruct s; reflexivity|].
  destruct (Rle_lt_or_eq_dec _ _ N) as [P|P]; [|exfalso; symmetry in P; exact (val_nonzero _ _ _ P)].
  apply val_sign in P. subst. reflexivity.
Qed.

(** * One operation *)
Definition near_val (w : f64) (r d : R) : Prop := is_num w /\ Rabs (val w - r) <= d.

Lemma near_add u v a b d e : near_val u a d -> near_val v b e -> no_overflow (Rabs (a + b) + (d + e)) ->
  near_val (f64_add u v) (a + b) (step (Rabs (a + b)) (d + e)).
Proof.
  intros [NU U] [NV V] O.
  assert (K : Rabs (val u + val v - (a + b)) <= d + e).
  { replace (val u + val v - (a + b)) with ((val u - a) + (val v - b)) by ring. eapply Rle_trans; [apply Rabs_triang|]. lra. }
  destruct (step_ok _ _ _ _ eq_refl K O) as [P S]. destruct (add_num _ _ NU NV P) as [N W]. split; [exact N|]. rewrite W. exact S.
Qed.
Lemma near_sub u v a b d e : near_val u a d -> near_val v b e -> no_overflow (Rabs (a - b) + (d + e)) ->
  near_val (f64_sub u v) (a - b) (step (Rabs (a - b)) (d + e)).
Proof.
  intros [NU U] [NV V] O.
  assert (K : Rabs (val u - val v - (a - b)) <= d + e).
  { replace (val u - val v - (a - b)) with ((val u - a) + - (val v - b)) by ring. eapply Rle_trans; [apply Rabs_triang|]. rewrite Rabs_Ropp. lra. }
  destruct (step_ok _ _ _ _ eq_refl K O) as [P S]. destruct (sub_num _ _ NU NV P) as [N W]. split; [exact N|]. rewrite W. exact S.
Qed.
Lemma near_mul u v a b d e : near_val u a d -> near_val v b e ->
  let d' := d * Rabs b + Rabs a * e + d * e in
  no_overflow (Rabs (a * b) + d') -> near_val (f64_mul u v) (a * b) (step (Rabs (a * b)) d').
Proof.
  intros [NU U] [NV V] d' O.
  assert (K : Rabs (val u * val v - a * b) <= d').
  { replace (val u * val v - a * b) with ((val u - a) * b + a * (val v - b) + (val u - a) * (val v - b)) by ring.
    eapply Rle_trans; [apply Rabs_triang|]. unfold d'. apply Rplus_le_compat.
    - eapply Rle_trans; [apply Rabs_triang|]. rewrite !Rabs_mult. apply Rplus_le_compat; apply Rmult_le_compat; try apply Rabs_pos; lra.
    - rewrite Rabs_mult. apply Rmult_le_compat; try apply Rabs_pos; lra. }
  destruct (step_ok _ _ _ _ eq_refl K O) as [P S]. destruct (mul_num _ _ NU NV P) as [N W]. split; [exact N|]. rewrite W. exact S.
Qed.
Lemma near_nonzero v b e : near_val v b e -> e < Rabs b -> b <> 0 /\ val v <> 0 /\ Rabs b - e <= Rabs (val v).
Proof.
  intros [NV V] H.
  assert (VA : Rabs b - e <= Rabs (val v)).
  { replace b with (val v + - (val v - b)) by ring. pose proof (Rabs_triang (val v) (- (val v - b))). rewrite Rabs_Ropp in *. lra. }
  split; [intros ->; rewrite Rabs_R0 in *; pose proof (Rabs_pos (val v - 0)); lra|].
  split; [intros E; rewrite E, Rabs_R0 in VA; lra|exact VA].
Qed.
Lemma near_div u v a b d e : near_val u a d -> near_val v b e -> e < Rabs b ->
  let d' := (d + Rabs (a / b) * e) / (Rabs b - e) in
  no_overflow (Rabs (a / b) + d') -> near_val (f64_div u v) (a / b) (step (Rabs (a / b)) d').
Proof.
  intros [NU U] NV H d' O. destruct (near_nonzero v b e NV H) as (BZ & VZ & VA). destruct NV as [NV V].
  assert (K : Rabs (val u / val v - a / b) <= d').
  { replace (val u / val v - a / b) with (((val u - a) - a / b * (val v - b)) / val v) by (field; split; assumption).
    unfold d', Rdiv at 1. rewrite Rabs_mult. unfold Rdiv at 2. apply Rmult_le_compat; try apply Rabs_pos.
    - unfold Rminus at 1. eapply Rle_trans; [apply Rabs_triang|]. rewrite Rabs_Ropp, Rabs_mult. apply Rplus_le_compat; [exact U|].
      apply Rmult_le_compat_l; [apply Rabs_pos|exact V].
    - rewrite Rabs_inv. apply Rinv_le_contravar; lra. }
  destruct (step_ok _ _ _ _ eq_refl K O) as [P S]. destruct (div_num _ _ NU NV VZ P) as [N W]. split; [exact N|]. rewrite W. exact S.
Qed.
Lemma near_neg u a d : near_val u a d -> near_val (SFopp u) (- a) d.
Proof.
  intros [NU U]. destruct (neg_num u NU) as [N W]. split; [exact N|]. rewrite W.
  replace (- val u - - a) with (- (val u - a)) by ring. rewrite Rabs_Ropp. exact U.
Qed.
Lemma sqrt_lip u a d : Rabs (u - a) <= d -> 0 < a -> d <= a -> Rabs (sqrt u - sqrt a) <= d / sqrt a.
Proof.
  intros U A D. pose proof (Rabs_le_inv _ _ U) as UB. assert (UP : 0 <= u) by lra.
  pose proof (sqrt_lt_R0 a A) as SA. pose proof (sqrt_pos u) as SU.
  replace (sqrt u - sqrt a) with ((u - a) / (sqrt u + sqrt a)).
  2:{ rewrite <- (sqrt_sqrt u) at 1 by exact UP. rewrite <- (sqrt_sqrt a) at 1 by lra. field. lra. }
  unfold Rdiv. rewrite Rabs_mult, Rabs_inv, (Rabs_pos_eq (sqrt u + sqrt a)) by lra.
  apply Rmult_le_compat; [apply Rabs_pos|apply Rlt_le, Rinv_0_lt_compat; lra|exact U|apply Rinv_le_contravar; lra].
Qed.
Lemma near_sqrt u a d : near_val u a d -> 0 < a -> d <= a -> no_overflow (sqrt a + d / sqrt a) ->
  near_val (f64_sqrt u) (sqrt a) (step (sqrt a) (d / sqrt a)).
Proof.
  intros [NU U] A D O. pose proof (Rabs_le_inv _ _ U) as UB. destruct (sqrt_num u NU ltac:(lra)) as [N W].
  pose proof (sqrt_lip _ _ _ U A D) as K. pose proof (sqrt_lt_R0 a A) as SA.
  destruct (step_ok _ _ (sqrt a) _ (Rabs_pos_eq _ (Rlt_le _ _ SA)) K O) as [_ S]. split; [exact N|]. rewrite W. exact S.
Qed.

(** The exponential of a perturbed argument. *)
Lemma exp_pert t a d : Rabs (t - a) <= d -> exp a * (2 - exp d) <= exp t <= exp a * exp d.
Proof.
  intros U. pose proof (Rabs_le_inv _ _ U) as UB. pose proof (Rabs_pos (t - a)).
  assert (E1 : exp t <= exp a * exp d) by (rewrite <- exp_plus; apply exp_le; lra).
  assert (E2 : exp a <= exp t * exp d) by (rewrite <- exp_plus; apply exp_le; lra).
  pose proof (exp_pos a). pose proof (exp_pos t). pose proof (exp_pos d).
  assert (D1 : 1 <= exp d) by (pose proof (exp_ineq1_le d); lra).
  split; [|exact E1].
  apply (Rmult_le_reg_r (exp d)); [lra|]. eapply Rle_trans; [|exact E2]. rewrite Rmult_assoc.
  rewrite <- (Rmult_1_r (exp a)) at 2. apply Rmult_le_compat_l; [lra|]. nra.
Qed.
Lemma rel_exp w t a d k : 0 <= k -> Rabs (t - a) <= d -> Rabs (w - exp t) <= k * (exp t + small) ->
  Rabs (w - exp a) <= exp a * (exp d * (1 + k) - 1) + k * small.
Proof.
  intros K U W. destruct (exp_pert _ _ _ U) as [L H]. apply Rabs_le_inv in W. pose proof (exp_pos a). pose proof (exp_pos t).
  assert (1 <= exp d) by (pose proof (exp_ineq1_le d); pose proof (Rabs_pos (t - a)); lra).
  assert (KE : k * exp t <= k * (exp a * exp d)) by (apply Rmult_le_compat_l; lra). apply Rabs_le. split; nra.
Qed.

Lemma pow_diff a u d n : Rabs (u - a) <= d -> Rabs (u ^ n - a ^ n) <= (Rabs a + d) ^ n - Rabs a ^ n.
Proof.
  intros H. pose proof (Rabs_pos a) as PA. pose proof (Rabs_pos (u - a)) as PD.
  assert (UA : Rabs u <= Rabs a + d).
  { replace u with (a + (u - a)) by ring. eapply Rle_trans; [apply Rabs_triang|]. lra. }
  induction n as [|n IH]; cbn [pow]; [rewrite !Rminus_diag_eq, Rabs_R0 by reflexivity; lra|].
  replace (u * u ^ n - a * a ^ n) with (u * (u ^ n - a ^ n) + (u - a) * a ^ n) by ring.
  eapply Rle_trans; [apply Rabs_triang|]. rewrite !Rabs_mult, <- RPow_abs.
  assert (P1 : Rabs u * Rabs (u ^ n - a ^ n) <= (Rabs a + d) * ((Rabs a + d) ^ n - Rabs a ^ n)).
  { apply Rmult_le_compat; try apply Rabs_pos; assumption. }
  assert (P2 : Rabs (u - a) * Rabs a ^ n <= d * Rabs a ^ n) by (apply Rmult_le_compat_r; [apply pow_le, PA|exact H]).
  lra.
Qed.

Section Gen.
Context (c : R) (lg : R -> R) (L : libm) (LOK : libm_ok c lg L) (C0 : 0 <= c).

Lemma ceps : 0 <= c * eps. Proof. pose proof eps_pos. nra. Qed.

Lemma near_ln u a d : near_val u a d -> 0 < a - d ->
  let d' := d / (a - d) in near_val (l_ln L u) (ln a) (d' + c * eps * (Rabs (ln a) + d' + small)).
Proof.
  intros [NU U] P d'. pose proof (Rabs_le_inv _ _ U) as UB. destruct (ok_ln c lg L LOK u NU ltac:(lra)) as [N W].
  split; [exact N|]. pose proof (ln_lip a (val u) d P U) as D. fold d' in D.
  assert (LU : Rabs (ln (val u)) <= Rabs (ln a) + d').
  { replace (ln (val u)) with (ln a + (ln (val u) - ln a)) by ring. eapply Rle_trans; [apply Rabs_triang|]. lra. }
  replace (val (l_ln L u) - ln a) with ((ln (val u) - ln a) + (val (l_ln L u) - ln (val u))) by ring.
  eapply Rle_trans; [apply Rabs_triang|]. apply Rplus_le_compat; [exact D|]. eapply Rle_trans; [exact W|].
  apply Rmult_le_compat_l; [apply ceps|lra].
Qed.
Lemma near_exp u a d : near_val u a d -> a + d <= 709 ->
  near_val (l_exp L u) (exp a) (exp a * (exp d * (1 + c * eps) - 1) + c * eps * small).
Proof.
  intros [NU U] P. pose proof (Rabs_le_inv _ _ U) as UB. destruct (ok_exp c lg L LOK u NU ltac:(lra)) as [N W].
  split; [exact N|]. apply (rel_exp _ (val u)); [apply ceps|exact U|exact W].
Qed.
Lemma near_sin u a d : near_val u a d -> near_val (l_sin L u) (sin a) (d + c * eps).
Proof.
  intros [NU U]. destruct (ok_sin c lg L LOK u NU) as [N W]. split; [exact N|].
  replace (val (l_sin L u) - sin a) with ((sin (val u) - sin a) + (val (l_sin L u) - sin (val u))) by ring.
  eapply Rle_trans; [apply Rabs_triang|]. apply Rplus_le_compat; [|exact W]. eapply Rle_trans; [apply sin_lip|exact U].
Qed.
Lemma near_cos u a d : near_val u a d -> near_val (l_cos L u) (cos a) (d + c * eps).
Proof.
  intros [NU U]. destruct (ok_cos c lg L LOK u NU) as [N W]. split; [exact N|].
  replace (val (l_cos L u) - cos a) with ((cos (val u) - cos a) + (val (l_cos L u) - cos (val u))) by ring.
  eapply Rle_trans; [apply Rabs_triang|]. apply Rplus_le_compat; [|exact W]. eapply Rle_trans; [apply cos_lip|exact U].
Qed.
Lemma near_pow_int u k n a d : near_val u a d -> is_num k -> val k = INR n ->
  let m := (Rabs a + d) ^ n in let d' := m - Rabs a ^ n in
  no_overflow m -> near_val (l_pow L u k) (a ^ n) (d' + c * eps * (m + small)).
Proof.
  intros [NU U] NK K m d' O. pose proof (Rabs_pos a). pose proof (Rabs_pos (val u - a)).
  assert (UA : Rabs (val u) <= Rabs a + d).
  { replace (val u) with (a + (val u - a)) by ring. eapply Rle_trans; [apply Rabs_triang|]. lra. }
  assert (M : Rabs (val u ^ n) <= m) by (rewrite <- RPow_abs; apply pow_incr; split; [apply Rabs_pos|exact UA]).
  destruct (ok_pow c lg L LOK u k (val u ^ n) NU NK) as [N W].
  - rewrite K. apply pow_integer. reflexivity.
  - eapply Rle_trans; [exact M|exact O].
  - split; [exact N|]. pose proof (pow_diff a (val u) d n U) as D. fold m in D. fold d' in D.
    replace (val (l_pow L u k) - a ^ n) with ((val u ^ n - a ^ n) + (val (l_pow L u k) - val u ^ n)) by ring.
    eapply Rle_trans; [apply Rabs_triang|]. apply Rplus_le_compat; [exact D|]. eapply Rle_trans; [exact W|].
    apply Rmult_le_compat_l; [apply ceps|lra].
Qed.
Lemma near_pow_half u k a d : near_val u a d -> is_num k -> val k = / 2 -> 0 < a -> d <= a ->
  let d' := d / sqrt a in no_overflow (sqrt a + d') ->
  near_val (l_pow L u k) (sqrt a) (d' + c * eps * (sqrt a + d' + small)).
Proof.
  intros [NU U] NK K A D d' O. pose proof (Rabs_le_inv _ _ U) as UB. pose proof (sqrt_lip _ _ _ U A D) as S. fold d' in S.
  pose proof (Rabs_le_inv _ _ S) as SB. pose proof (sqrt_pos (val u)) as SU.
  assert (SV : Rabs (sqrt (val u)) <= sqrt a + d') by (rewrite Rabs_pos_eq by exact SU; lra).
  destruct (ok_pow c lg L LOK u k (sqrt (val u)) NU NK) as [N W].
  - apply pow_half; [exact K|lra].
  - eapply Rle_trans; [exact SV|exact O].
  - split; [exact N|].
    replace (val (l_pow L u k) - sqrt a) with ((sqrt (val u) - sqrt a) + (val (l_pow L u k) - sqrt (val u))) by ring.
    eapply Rle_trans; [apply Rabs_triang|]. apply Rplus_le_compat; [exact S|]. eapply Rle_trans; [exact W|].
    apply Rmult_le_compat_l; [apply ceps|lra].
Qed.
Lemma exp690 : exp 690 <= bpow radix2 1000.
Proof.
  rewrite bpow_exp. apply exp_le. cbn [radix_val radix2]. pose proof ln2_bounds. lra.
Qed.
Lemma near_pow_pos u v a q d e : near_val u a d -> near_val v q e -> 0 < a - d ->
  let s := e * Rabs (ln a) + (Rabs q + e) * (d / (a - d)) in q * ln a + s <= 690 ->
  near_val (l_pow L u v) (Rpower a q) (Rpower a q * (exp s * (1 + c * eps) - 1) + c * eps * small).
Proof.
  intros [NU U] [NV V] P s S. pose proof (Rabs_le_inv _ _ U) as UB. pose proof (ln_lip a (val u) d P U) as D.
  assert (T : Rabs (val v * ln (val u) - q * ln a) <= s).
  { replace (val v * ln (val u) - q * ln a) with ((val v - q) * ln a + val v * (ln (val u) - ln a)) by ring.
    eapply Rle_trans; [apply Rabs_triang|]. rewrite !Rabs_mult. unfold s. apply Rplus_le_compat.
    - apply Rmult_le_compat_r; [apply Rabs_pos|exact V].
    - apply Rmult_le_compat; try apply Rabs_pos; [|exact D].
      replace (val v) with (q + (val v - q)) by ring. eapply Rle_trans; [apply Rabs_triang|]. lra. }
  pose proof (Rabs_le_inv _ _ T) as TB.
  destruct (ok_pow c lg L LOK u v (Rpower (val u) (val v)) NU NV) as [N W].
  - apply pow_positive. lra.
  - unfold Rpower. rewrite Rabs_pos_eq by (apply Rlt_le, exp_pos). eapply Rle_trans; [|apply exp690]. apply exp_le. lra.
  - split; [exact N|]. unfold Rpower in *. rewrite (Rabs_pos_eq (exp _)) in W by (apply Rlt_le, exp_pos).
    apply (rel_exp _ (val v * ln (val u))); [apply ceps|exact T|exact W].
Qed.

(** * Whole expressions, for any strict evaluation relation *)
Context (Ev : expr f64 -> f64 -> Prop) (rho : string -> f64).
Context
  (ev_const : forall k, Ev (Const k) k)
  (ev_var : forall x, is_num (rho x) -> Ev (Var x) (rho x))
  (ev_add : forall l r a b, Ev l a -> Ev r b ->
     Ev (Add l r) (f64_add a b) \/ (val a = 0 /\ Ev (Add l r) b) \/ (val b = 0 /\ Ev (Add l r) a))
  (ev_sub : forall l r a b, Ev l a -> Ev r b -> Ev (Sub l r) (f64_sub a b))
  (ev_mul : forall l r a b, Ev l a -> Ev r b ->
     Ev (Mul l r) (f64_mul a b) \/ (val a * val b = 0 /\ Ev (Mul l r) (f64_of_Z 0)) \/
     (val a = 1 /\ Ev (Mul l r) b) \/ (val b = 1 /\ Ev (Mul l r) a))
  (ev_div : forall l r a b, Ev l a -> Ev r b -> is_num b -> val b <> 0 -> Ev (Div l r) (f64_div a b))
  (ev_neg : forall e a, Ev e a -> Ev (Neg e) (SFopp a))
  (ev_sqrt : forall e a, Ev e a -> is_num a -> 0 <= val a -> Ev (Sqrt e) (f64_sqrt a))
  (ev_ln : forall e a, Ev e a -> is_num a -> 0 < val a -> Ev (Ln e) (l_ln L a))
  (ev_exp : forall e a, Ev e a -> Ev (Exp e) (l_exp L a))
  (ev_sin : forall e a, Ev e a -> Ev (Sin e) (l_sin L a))
  (ev_cos : forall e a, Ev e a -> Ev (Cos e) (l_cos L a))
  (ev_pow : forall b p x y, Ev b x -> Ev p y -> Ev (Pow b p) (l_pow L x y)).

Lemma step_more m d : 0 <= m -> 0 <= d -> d <= step m d.
Proof.
  intros M D. unfold step. assert (0 <= (m + d) / 2 ^ 53) by (apply Rmult_le_pos; [lra|apply Rlt_le, Rinv_0_lt_compat, pow_lt; lra]).
  assert (0 <= / IZR (2 ^ 300)) by (apply Rlt_le, Rinv_0_lt_compat, IZR_lt; reflexivity). lra.
Qed.
Lemma near_pos w r d : near_val w r d -> 0 <= d.
Proof. intros [_ W]. pose proof (Rabs_pos (val w - r)). lra. Qed.
Lemma near_more w r d d' : near_val w r d -> d <= d' -> near_val w r d'.
Proof. intros [N W] H. split; [exact N|lra]. Qed.

Theorem bound_value e r d : eval_bound c rho e r d -> exists w, Ev e w /\ near_val w r d.
Proof.
  intros H. induction H.
  - exists k. split; [apply ev_const|]. split; [assumption|]. rewrite Rminus_diag_eq, Rabs_R0 by reflexivity. lra.
  - exists (rho x). split; [apply ev_var; assumption|]. split; [assumption|]. rewrite Rminus_diag_eq, Rabs_R0 by reflexivity. lra.
  - destruct IHeval_bound1 as (u & EU & U), IHeval_bound2 as (v & EV & V).
    pose proof (near_pos _ _ _ U) as D0. pose proof (near_pos _ _ _ V) as E0.
    pose proof (step_more (Rabs (a + b)) (d + e) (Rabs_pos _) ltac:(lra)) as SM.
    destruct (ev_add _ _ _ _ EU EV) as [W|[[Z W]|[Z W]]]; eexists; (split; [exact W|]).
    + apply near_add; assumption.
    + apply near_more with (d + e); [|exact SM]. destruct U as [_ U], V as [NV V]. split; [exact NV|]. rewrite Z in U.
      replace (val v - (a + b)) with ((0 - a) + (val v - b)) by ring. eapply Rle_trans; [apply Rabs_triang|]. lra.
    + apply near_more with (d + e); [|exact SM]. destruct V as [_ V], U as [NU U]. split; [exact NU|]. rewrite Z in V.
      replace (val u - (a + b)) with ((val u - a) + (0 - b)) by ring. eapply Rle_trans; [apply Rabs_triang|]. lra.
  - destruct IHeval_bound1 as (u & EU & U), IHeval_bound2 as (v & EV & V). eexists. split; [apply ev_sub; eassumption|]. apply near_sub; assumption.
  - destruct IHeval_bound1 as (u & EU & U), IHeval_bound2 as (v & EV & V).
    pose proof (near_pos _ _ _ U) as D0. pose proof (near_pos _ _ _ V) as E0.
    assert (K : Rabs (val u * val v - a * b) <= d').
    { destruct U as [_ U], V as [_ V].
      replace (val u * val v - a * b) with ((val u - a) * b + a * (val v - b) + (val u - a) * (val v - b)) by ring.
      eapply Rle_trans; [apply Rabs_triang|]. unfold d'. apply Rplus_le_compat.
      - eapply Rle_trans; [apply Rabs_triang|]. rewrite !Rabs_mult. apply Rplus_le_compat; apply Rmult_le_compat; try apply Rabs_pos; lra.
      - rewrite Rabs_mult. apply Rmult_le_compat; try apply Rabs_pos; lra. }
    assert (D'0 : 0 <= d') by (eapply Rle_trans; [apply Rabs_pos|exact K]).
    pose proof (step_more (Rabs (a * b)) d' (Rabs_pos _) D'0) as SM.
    destruct (ev_mul _ _ _ _ EU EV) as [W|[[Z W]|[[Z W]|[Z W]]]]; eexists; (split; [exact W|]).
    + apply near_mul; assumption.
    + apply near_more with d'; [|exact SM]. split; [split; reflexivity|]. rewrite Z in K. exact K.
    + apply near_more with d'; [|exact SM]. split; [apply V|]. rewrite Z, Rmult_1_l in K. exact K.
    + apply near_more with d'; [|exact SM]. split; [apply U|]. rewrite Z, Rmult_1_r in K. exact K.
  - destruct IHeval_bound1 as (u & EU & U), IHeval_bound2 as (v & EV & V). destruct (near_nonzero v b e V H1) as (_ & VZ & _).
    eexists. split; [apply ev_div; try eassumption; apply V|]. apply near_div; assumption.
  - destruct IHeval_bound as (u & EU & U). eexists. split; [apply ev_neg, EU|]. apply near_neg, U.
  - destruct IHeval_bound as (u & EU & U). pose proof (Rabs_le_inv _ _ (proj2 U)) as UB.
    eexists. split; [apply ev_sqrt; [exact EU|apply U|lra]|]. apply near_sqrt; assumption.
  - destruct IHeval_bound as (u & EU & U). pose proof (Rabs_le_inv _ _ (proj2 U)) as UB.
    eexists. split; [apply ev_ln; [exact EU|apply U|lra]|]. apply near_ln; assumption.
  - destruct IHeval_bound as (u & EU & U). eexists. split; [apply ev_exp, EU|]. apply near_exp; assumption.
  - destruct IHeval_bound as (u & EU & U). eexists. split; [apply ev_sin, EU|]. apply near_sin; assumption.
  - destruct IHeval_bound as (u & EU & U). eexists. split; [apply ev_cos, EU|]. apply near_cos; assumption.
  - destruct IHeval_bound as (u & EU & U). eexists. split; [apply ev_pow; [exact EU|apply ev_const]|]. apply near_pow_int; assumption.
  - destruct IHeval_bound as (u & EU & U). eexists. split; [apply ev_pow; [exact EU|apply ev_const]|]. apply near_pow_half; assumption.
  - destruct IHeval_bound1 as (u & EU & U), IHeval_bound2 as (v & EV & V). eexists. split; [apply ev_pow; eassumption|]. apply near_pow_pos; assumption.
  - destruct IHeval_bound as (u & EU & U). exists u. split; [exact EU|]. eapply near_more; eassumption.
Qed.
End Gen.

(** * The two evaluators *)
Section Eval.
Context (c : R) (lg : R -> R) (L : libm) (LOK : libm_ok c lg L) (C0 : 0 <= c).

Lemma lit_val (e : expr f64) k w vars : @is_lit (F64 L) (f64_of_Z k) e = true -> finite (f64_of_Z k) ->
  @evaluate (F64 L) vars e = Ok w -> val w = val (f64_of_Z k).
Proof.
  unfold is_lit. destruct e; try discriminate. intros E F W. cbn in W. injection W as <-. apply (eqb_same _ _ E F).
Qed.

Theorem evaluate_bound vars e r d : eval_bound c (value_of vars) e r d ->
  exists w, @evaluate (F64 L) vars e = Ok w /\ is_num w /\ Rabs (val w - r) <= d.
Proof.
  apply (bound_value c lg L LOK C0 (fun e w => @evaluate (F64 L) vars e = Ok w) (value_of vars)).
  - reflexivity.
  - intros x N. cbn. unfold value_of in *. destruct (get vars x); [reflexivity|]. destruct N as [_ N]. discriminate N.
  - intros l r' a b A B.
    assert (G : @evaluate (F64 L) vars (Add l r') =
      match l, r' with
      | Const a, Const b => Ok (f64_add a b)
      | _, _ => if @is_lit (F64 L) (f64_of_Z 0) l then @evaluate (F64 L) vars r' else if @is_lit (F64 L) (f64_of_Z 0) r' then @evaluate (F64 L) vars l
                else Ok (f64_add a b) end).
    { cbn [evaluate]. rewrite A, B. cbn. reflexivity. }
    destruct (@is_lit (F64 L) (f64_of_Z 0) l) eqn:IL.
    { pose proof (lit_val _ _ _ _ IL eq_refl A) as Z. change (val (f64_of_Z 0)) with 0 in Z.
      destruct l; try discriminate IL. destruct r'; try (right; left; split; [exact Z|]; rewrite G; exact B; fail).
      left. rewrite G. cbn in A, B. injection A as ->. injection B as ->. reflexivity. }
    destruct (@is_lit (F64 L) (f64_of_Z 0) r') eqn:IR.
    { pose proof (lit_val _ _ _ _ IR eq_refl B) as Z. change (val (f64_of_Z 0)) with 0 in Z.
      destruct r'; try discriminate IR. destruct l; try (right; right; split; [exact Z|]; rewrite G; exact A; fail).
      left. rewrite G. cbn in A, B. injection A as ->. injection B as ->. reflexivity. }
    left. rewrite G. destruct l, r'; try reflexivity. cbn in A, B. injection A as ->. injection B as ->. reflexivity.
  - intros l r' a b A B. cbn [evaluate]. rewrite A, B. reflexivity.
  - intros l r' a b A B.
    assert (G : @evaluate (F64 L) vars (Mul l r') =
      match l, r' with
      | Const a, Const b => Ok (f64_mul a b)
      | _, _ => if @is_lit (F64 L) (f64_of_Z 0) l || @is_lit (F64 L) (f64_of_Z 0) r' then Ok (f64_of_Z 0)
                else if @is_lit (F64 L) (f64_of_Z 1) l then @evaluate (F64 L) vars r' else if @is_lit (F64 L) (f64_of_Z 1) r' then @evaluate (F64 L) vars l
                else Ok (f64_mul a b) end).
    { cbn [evaluate]. rewrite A, B. cbn. reflexivity. }
    assert (CC : (exists x y, l = Const x /\ r' = Const y) \/
      @evaluate (F64 L) vars (Mul l r') =
       (if @is_lit (F64 L) (f64_of_Z 0) l || @is_lit (F64 L) (f64_of_Z 0) r' then Ok (f64_of_Z 0)
                else if @is_lit (F64 L) (f64_of_Z 1) l then @evaluate (F64 L) vars r' else if @is_lit (F64 L) (f64_of_Z 1) r' then @evaluate (F64 L) vars l
                else Ok (f64_mul a b))).
    { rewrite G. destruct l; try (right; reflexivity). destruct r'; try (right; reflexivity). left. eauto. }
    destruct CC as [(x & y & -> & ->)|E].
    { left. rewrite G. cbn in A, B. injection A as ->. injection B as ->. reflexivity. }
    rewrite E. clear E G.
    destruct (@is_lit (F64 L) (f64_of_Z 0) l) eqn:IL.
    { right; left. pose proof (lit_val _ _ _ _ IL eq_refl A) as Z. change (val (f64_of_Z 0)) with 0 in Z. rewrite Z. split; [ring|reflexivity]. }
    destruct (@is_lit (F64 L) (f64_of_Z 0) r') eqn:IR.
    { right; left. pose proof (lit_val _ _ _ _ IR eq_refl B) as Z. change (val (f64_of_Z 0)) with 0 in Z. rewrite Z. split; [ring|reflexivity]. }
    cbn [orb].
    destruct (@is_lit (F64 L) (f64_of_Z 1) l) eqn:JL.
    { right; right; left. split; [|exact B]. rewrite (lit_val _ _ _ _ JL eq_refl A). apply c1_val. }
    destruct (@is_lit (F64 L) (f64_of_Z 1) r') eqn:JR.
    { right; right; right. split; [|exact A]. rewrite (lit_val _ _ _ _ JR eq_refl B). apply c1_val. }
    left. reflexivity.
  - intros l r' a b A B NB Z. cbn [evaluate]. rewrite B. cbn. rewrite (eqb_zero b NB Z : SFeqb b (S754_zero false) = false). rewrite A. reflexivity.
  - intros e' a A. cbn [evaluate]. rewrite A. reflexivity.
  - intros e' a A N P. cbn [evaluate]. rewrite A. cbn. rewrite (ltb_zero a N P : SFltb a (S754_zero false) = false). reflexivity.
  - intros e' a A N P. cbn [evaluate]. rewrite A. cbn. rewrite (leb_zero a N P : SFleb a (S754_zero false) = false). reflexivity.
  - intros e' a A. cbn [evaluate]. rewrite A. reflexivity.
  - intros e' a A. cbn [evaluate]. rewrite A. reflexivity.
  - intros e' a A. cbn [evaluate]. rewrite A. reflexivity.
  - intros b p x y A B. cbn [evaluate]. rewrite A. cbn. rewrite B. reflexivity.
Qed.

Theorem evaluate_single_bound name v e r d : eval_bound c (single_value name v) e r d ->
  exists w, @evaluate_single_var (F64 L) name v e = Ok w /\ is_num w /\ Rabs (val w - r) <= d.
Proof.
  apply (bound_value c lg L LOK C0 (fun e w => @evaluate_single_var (F64 L) name v e = Ok w) (single_value name v)).
  - reflexivity.
  - intros x N. cbn. unfold single_value in *. destruct (String.eqb x name); [reflexivity|]. destruct N as [_ N]. discriminate N.
  - intros l r' a b A B. left. cbn [evaluate_single_var]. rewrite A, B. reflexivity.
  - intros l r' a b A B. cbn [evaluate_single_var]. rewrite A, B. reflexivity.
  - intros l r' a b A B. left. cbn [evaluate_single_var]. rewrite A, B. reflexivity.
  - intros l r' a b A B NB Z. cbn [evaluate_single_var]. rewrite B. cbn. rewrite (eqb_zero b NB Z : SFeqb b (S754_zero false) = false). rewrite A. reflexivity.
  - intros e' a A. cbn [evaluate_single_var]. rewrite A. reflexivity.
  - intros e' a A N P. cbn [evaluate_single_var]. rewrite A. cbn. rewrite (ltb_zero a N P : SFltb a (S754_zero false) = false). reflexivity.
  - intros e' a A N P. cbn [evaluate_single_var]. rewrite A. cbn. rewrite (leb_zero a N P : SFleb a (S754_zero false) = false). reflexivity.
  - intros e' a A. cbn [evaluate_single_var]. rewrite A. reflexivity.
  - intros e' a A. cbn [evaluate_single_var]. rewrite A. reflexivity.
  - intros e' a A. cbn [evaluate_single_var]. rewrite A. reflexivity.
  - intros b p x y A B. cbn [evaluate_single_var]. rewrite A. cbn. rewrite B. reflexivity.
Qed.
End Eval.

(** * The bound is about the real value *)
Theorem bound_real c lg L (LOK : libm_ok c lg L) (C0 : 0 <= c) rho e r d :
  eval_bound c rho e r d -> real_is (fun x => val (rho x)) e r.
Proof.
  assert (D0 : forall e r d, eval_bound c rho e r d -> 0 <= d).
  { intros e' r' d' H.
    assert (X : exists w, True /\ near_val w r' d')
      by (revert H; apply (bound_value c lg L LOK C0 (fun _ _ => True) rho); cbv beta; auto).
    destruct X as (w & _ & _ & W).
    pose proof (Rabs_pos (val w - r')). lra. }
  intros H. induction H.
  - apply re_const, H.
  - apply re_var.
  - apply re_add; assumption.
  - apply re_sub; assumption.
  - apply re_mul; assumption.
  - apply re_div; try assumption. intros ->. rewrite Rabs_R0 in *. pose proof (D0 _ _ _ H0). lra.
  - apply re_neg; assumption.
  - apply re_sqrt; [assumption|lra].
  - apply re_ln; [assumption|]. pose proof (D0 _ _ _ H). lra.
  - apply re_exp; assumption.
  - apply re_sin; assumption.
  - apply re_cos; assumption.
  - eapply re_pow; [eassumption|apply re_const; apply H0|]. apply pow_integer. assumption.
  - eapply re_pow; [eassumption|apply re_const; apply H0|]. apply pow_half; [assumption|lra].
  - eapply re_pow; [eassumption|eassumption|]. apply pow_positive. pose proof (D0 _ _ _ H). lra.
  - assumption.
Qed.

(** * A correctly rounded library *)
Definition nearest (x : R) : f64 :=
  SpecFloat.binary_normalize 53 1024 (ZnearestE (scaled_mantissa radix2 (SpecFloat.fexp 53 1024) x))
    (cexp radix2 (SpecFloat.fexp 53 1024) x) false.
Lemma nearest_ok x : Rabs (RN x) < bpow radix2 1024 -> is_num (nearest x) /\ val (nearest x) = RN x.
Proof.
  intros H.
  assert (E : F2R (Float radix2 (ZnearestE (scaled_mantissa radix2 (SpecFloat.fexp 53 1024) x)) (cexp radix2 (SpecFloat.fexp 53 1024) x)) = RN x)
    by (symmetry; apply (RN_fexp x)).
  destruct (norm_exact 53 1024 Hprec64 Hmax64 _ _ (eq_ind_r (fun v => generic_format radix2 (SpecFloat.fexp 53 1024) v)
    (eq_ind _ (generic_format radix2 (SpecFloat.fexp 53 1024)) (generic_format_round radix2 (SpecFloat.fexp 53 1024) ZnearestE x) _ (RN_fexp x)) E)) as (b & B & F & V & _).
  { rewrite E. exact H. }
  unfold nearest. rewrite B. destruct (is_num_B b F) as [N W]. split; [exact N|]. rewrite W, V. exact E.
Qed.
Lemma nearest_err x e : (-1074 <= e < 1024)%Z -> Rabs x <= bpow radix2 e ->
  is_num (nearest x) /\ Rabs (val (nearest x) - x) <= 1 * eps * (Rabs x + small).
Proof.
  intros E X. destruct (nearest_ok x (RN_small x e E X)) as [N V]. split; [exact N|]. rewrite V.
  destruct (RN_err x) as (t & d & -> & T & D). replace (x * (1 + t) + d - x) with (x * t + d) by ring.
  eapply Rle_trans; [apply Rabs_triang|]. rewrite Rmult_1_l, Rmult_plus_distr_l. apply Rplus_le_compat.
  - rewrite Rabs_mult, Rmult_comm. apply Rmult_le_compat_r; [apply Rabs_pos|]. eapply Rle_trans; [exact T|]. unfold eps.
    apply Rinv_le_contravar; [apply pow_lt; lra|]. apply Rle_pow; [lra|lia].
  - eapply Rle_trans; [exact D|]. unfold eps, small. replace (/ 2 ^ 52) with (bpow radix2 (-52)).
    + rewrite <- bpow_plus. apply bpow_le. lia.
    + change (bpow radix2 (-52)) with (/ IZR (2 ^ 52)). rewrite pow_IZR. reflexivity.
Qed.
Definition power_fun (a q : R) : R :=
  if Rlt_dec 0 a then Rpower a q
  else if Req_EM_T q (INR (Z.to_nat (Int_part q))) then a ^ Z.to_nat (Int_part q) else sqrt a.
Lemma power_fun_ok a q r : power_is a q r -> power_fun a q = r.
Proof.
  intros H. apply (power_is_fun a q); [|exact H]. unfold power_fun. destruct (Rlt_dec 0 a) as [P|P]; [apply pow_positive, P|].
  destruct (Req_EM_T _ _) as [E|E]; [apply pow_integer, E|]. destruct H as [K|n Q|Q K]; [contradiction| |apply pow_half; assumption].
  exfalso. apply E. subst q. rewrite Int_part_INR, Nat2Z.id. reflexivity.
Qed.
Definition rounded_libm (lg : R -> R) : libm :=
  {| l_ln := fun x => nearest (ln (val x)); l_exp := fun x => nearest (exp (val x));
     l_pow := fun x y => nearest (power_fun (val x) (val y));
     l_sin := fun x => nearest (sin (val x)); l_cos := fun x => nearest (cos (val x));
     l_lgamma := fun x => nearest (lg (val x)) |}.
Lemma half_eps : / 2 ^ 53 + bpow radix2 (-1075) <= 1 * eps.
Proof.
  assert (E : forall n, / 2 ^ n = bpow radix2 (- Z.of_nat n)).
  { intros n. rewrite bpow_opp. f_equal. rewrite pow_IZR. change (2 ^ Z.of_nat n)%Z with (radix2 ^ Z.of_nat n)%Z. apply IZR_Zpower. lia. }
  unfold eps. rewrite !E, Rmult_1_l. apply Rle_trans with (bpow radix2 (-53) + bpow radix2 (-53)).
  - apply Rplus_le_compat_l, bpow_le. lia.
  - right. change (- Z.of_nat 52)%Z with (-53 + 1)%Z. rewrite bpow_plus. change (bpow radix2 1) with 2. ring.
Qed.
Lemma b1000 x e : (e <= 10)%Z -> Rabs x <= IZR (2 ^ e) -> Rabs x <= bpow radix2 1023.
Proof.
  intros E X. eapply Rle_trans; [exact X|]. change (2 ^ e)%Z with (radix2 ^ e)%Z.
  destruct (Z_lt_le_dec e 0) as [N|N].
  - rewrite (Z.pow_neg_r _ _ N). pose proof (bpow_gt_0 radix2 1023). lra.
  - rewrite IZR_Zpower by exact N. apply bpow_le. lia.
Qed.
Theorem rounded_libm_ok lg : libm_ok 1 lg (rounded_libm lg).
Proof.
  split; cbn [rounded_libm l_ln l_exp l_pow l_sin l_cos l_lgamma].
  - intros x N P. apply (nearest_err _ 1023); [lia|]. apply (b1000 _ 10); [lia|]. change (IZR (2 ^ 10)) with 1024.
    pose proof (valid_abs x (proj1 N)) as U. rewrite Rabs_pos_eq in U by lra.
    assert (LO : bpow radix2 (-1074) <= val x).
    { rewrite <- (RN_bpow (-1074)) by lia. destruct (Rle_dec (bpow radix2 (-1074)) (val x)) as [H|H]; [rewrite RN_bpow by lia; exact H|].
      exfalso. destruct N as [V F]. destruct x as [s|s| |s m e]; try discriminate F; [revert P; cbn; apply Rlt_irrefl|].
      pose proof P as S. apply val_sign in S. subst s. rewrite val_explicit in H. cbn [cond_Zopp] in H. apply H.
      apply valid_shape in V.
      apply Rle_trans with (1 * bpow radix2 e); [rewrite Rmult_1_l; apply bpow_le; lia|]. apply Rmult_le_compat_r; [apply bpow_ge_0|]. apply (IZR_le 1). lia. }
    apply Rabs_le. pose proof ln2_bounds. split.
    + apply Rle_trans with (ln (bpow radix2 (-1074))).
      * rewrite bpow_exp, ln_exp. cbn [radix_val radix2]. lra.
      * destruct (Req_dec (bpow radix2 (-1074)) (val x)) as [->|]; [lra|]. apply Rlt_le, ln_increasing; [apply bpow_gt_0|lra].
    + apply Rle_trans with (ln (bpow radix2 1024)); [apply Rlt_le, ln_increasing; assumption|]. rewrite bpow_exp, ln_exp. cbn [radix_val radix2]. lra.
  - intros x N P. pose proof (exp_pos (val x)). replace (exp (val x) + small) with (Rabs (exp (val x)) + small) by (rewrite Rabs_pos_eq; lra).
    apply (nearest_err _ 1023); [lia|]. rewrite Rabs_pos_eq by lra. rewrite bpow_exp. apply exp_le. cbn [radix_val radix2]. pose proof ln2_bounds. lra.
  - intros x N. pose proof (SIN_bound (val x)) as B. assert (A : Rabs (sin (val x)) <= 1) by (apply Rabs_le; lra).
    destruct (RN_err (sin (val x))) as (t & d & E & T & D).
    destruct (nearest_ok (sin (val x))) as [M V].
    { apply (RN_small _ 0); [lia|exact A]. }
    split; [exact M|]. rewrite V, E. replace (sin (val x) * (1 + t) + d - sin (val x)) with (sin (val x) * t + d) by ring.
    eapply Rle_trans; [apply Rabs_triang|]. rewrite Rabs_mult.
    assert (Rabs (sin (val x)) * Rabs t <= 1 * / 2 ^ 53) by (apply Rmult_le_compat; try apply Rabs_pos; assumption).
    pose proof half_eps. lra.
  - intros x N. pose proof (COS_bound (val x)) as B. assert (A : Rabs (cos (val x)) <= 1) by (apply Rabs_le; lra).
    destruct (RN_err (cos (val x))) as (t & d & E & T & D).
    destruct (nearest_ok (cos (val x))) as [M V].
    { apply (RN_small _ 0); [lia|exact A]. }
    split; [exact M|]. rewrite V, E. replace (cos (val x) * (1 + t) + d - cos (val x)) with (cos (val x) * t + d) by ring.
    eapply Rle_trans; [apply Rabs_triang|]. rewrite Rabs_mult.
    assert (Rabs (cos (val x)) * Rabs t <= 1 * / 2 ^ 53) by (apply Rmult_le_compat; try apply Rabs_pos; assumption).
    pose proof half_eps. lra.
  - intros x y r NX NY P O. rewrite (power_fun_ok _ _ _ P). apply (nearest_err _ 1000); [lia|exact O].
  - intros x N P O. destruct (nearest_err _ 1000 ltac:(lia) O) as [M W]. split; [exact M|]. eapply Rle_trans; [exact W|].
    apply Rmult_le_compat_l; [pose proof eps_pos; lra|]. assert (small <= 1) by (unfold small; change 1 with (bpow radix2 0); apply bpow_le; lia). lra.
Qed.

(** The real value depends only on the variables that occur. *)
Lemma real_is_ext rho sig e r : (forall x, occurs x e -> rho x = sig x) -> real_is rho e r -> real_is sig e r.
Proof.
  intros H R. induction R as [| |l r' a b A IA B IB|l r' a b A IA B IB|l r' a b A IA B IB|l r' a b A IA B IB|u a A IA|u a A IA|u a A IA|u a A IA|u a A IA|u a A IA|l r' a b r A IA B IB].
  - constructor; assumption.
  - rewrite (H _ (o_var _)). constructor.
  - apply re_add; [apply IA|apply IB]; intros y O; apply H; constructor; exact O.
  - apply re_sub; [apply IA|apply IB]; intros y O; apply H; constructor; exact O.
  - apply re_mul; [apply IA|apply IB]; intros y O; apply H; constructor; exact O.
  - apply re_div; [apply IA|apply IB|assumption]; intros y O; apply H; constructor; exact O.
  - apply re_neg, IA. intros y O. apply H. constructor. exact O.
  - apply re_sqrt; [apply IA|assumption]. intros y O. apply H. constructor. exact O.
  - apply re_ln; [apply IA|assumption]. intros y O. apply H. constructor. exact O.
  - apply re_exp, IA. intros y O. apply H. constructor. exact O.
  - apply re_sin, IA. intros y O. apply H. constructor. exact O.
  - apply re_cos, IA. intros y O. apply H. constructor. exact O.
  - eapply re_pow; [apply IA|apply IB|eassumption]; intros y O; apply H; [apply o_pow_l|apply o_pow_r]; exact O.
Qed.

(** Compiled code and the evaluator agree up to their two error bounds. *)
Lemma compiled_agrees c lg L (LOK : libm_ok c lg L) (C0 : 0 <= c) e ds ps cs f args vars r d1 s d2 :
  compile_expression e ds ps cs = JOk f -> List.length args = (List.length ds + List.length ps)%nat ->
  (forall x, occurs x e -> get vars x = expression_binding ds ps cs args x) ->
  eval_bound c (value_of vars) e r d1 -> accurate (total (expression_binding ds ps cs args)) e s d2 ->
  r = s /\ exists v w, @evaluate (F64 L) vars e = Ok v /\ invoke f (map AFloat args) = Returned w /\ Rabs (val v - val w) <= d1 + d2.
Proof.
  intros F A O B C. destruct (accurate_call e ds ps cs f args s d2 F A C) as (R2 & w & W & NW & EW).
  pose proof (bound_real c lg L LOK C0 _ _ _ _ B) as R1.
  assert (RS : r = s).
  { eapply real_is_fun; [|exact R2]. eapply real_is_ext; [|exact R1]. intros x X. cbv beta. unfold value_of, total. rewrite (O x X). reflexivity. }
  split; [exact RS|]. destruct (evaluate_bound c lg L LOK C0 vars e r d1 B) as (v & V & NV & EV). exists v, w. split; [exact V|]. split; [exact W|].
  replace (val v - val w) with ((val v - r) - (val w - s)) by (rewrite RS; ring). unfold Rminus at 1. eapply Rle_trans; [apply Rabs_triang|]. rewrite Rabs_Ropp. lra.
Qed.
