(** Proofs for C59. *)
From Coq Require Import ZArith Reals Bool String List Lia Lra.
From Coq Require Import Floats.SpecFloat.
From Flocq Require Import Core IEEE754.BinarySingleNaN.
From Verif Require Import Num FloatFacts EggSpec LitFacts FloatErr AccSpec AccProofs RoundSpec RoundProofs RelErr
  DensitySpec CoreModel CombModel ExpFamModel DistModel DistFloat SumFloat SimpFloat CombFloatSpec.
Import ListNotations.
Local Open Scope R_scope.

(** ** Sums *)
Lemma step_mono m m' d d' : m <= m' -> d <= d' -> step m d <= step m' d'.
Proof.
  intros A B. unfold step. assert (0 < / 2 ^ 53) by (apply Rinv_0_lt_compat, pow_lt; lra).
  assert ((m + d) / 2 ^ 53 <= (m' + d') / 2 ^ 53) by (unfold Rdiv; apply Rmult_le_compat_r; lra). lra.
Qed.
Lemma log_total_le ts ss D : ss <> [] -> Forall2 (fun t s => t <= s + D) ts ss -> ts <> [] -> log_total ts <= log_total ss + D.
Proof.
  intros NS H NT.
  assert (E : forall a b, Forall2 (fun t s => t <= s + D) a b -> Rsum (map exp a) <= exp D * Rsum (map exp b)).
  { induction 1 as [|t s a b T _ IH]; [cbn; lra|]. cbn [map]. rewrite !Rsum_cons, Rmult_plus_distr_l, <- exp_plus. apply Rplus_le_compat; [|exact IH].
    apply exp_le. lra. }
  assert (P : forall l, l <> [] -> 0 < Rsum (map exp l)).
  { intros [|a l] Q; [congruence|]. cbn [map]. rewrite Rsum_cons. pose proof (exp_pos a).
    assert (0 <= Rsum (map exp l)) by (apply Rsum_pos; rewrite Forall_map; apply Forall_forall; intros; left; apply exp_pos). lra. }
  specialize (E _ _ H). pose proof (P _ NS) as PS. pose proof (P _ NT) as PT. unfold log_total.
  eapply Rle_trans; [apply ln_le; [exact PT|exact E]|]. rewrite ln_mult, ln_exp by (apply exp_pos || exact PS). lra.
Qed.
Lemma log_total_lipschitz {A} (f g : A -> R) l D : l <> [] -> (forall a, In a l -> Rabs (f a - g a) <= D) ->
  Rabs (log_total (map f l) - log_total (map g l)) <= D.
Proof.
  intros NE H. assert (N : forall h : A -> R, map h l <> []) by (intros h; destruct l; [congruence|discriminate]).
  assert (K : forall h k : A -> R, (forall a, In a l -> h a <= k a + D) -> Forall2 (fun t s => t <= s + D) (map h l) (map k l)).
  { intros h k Q. clear - Q. induction l as [|a l IH]; [constructor|]. constructor; [apply Q; left; reflexivity|]. apply IH. intros b B. apply Q. right. exact B. }
  pose proof (log_total_le _ _ D (N g) (K f g ltac:(intros a I; specialize (H a I); apply Rabs_le_inv in H; lra)) (N f)).
  pose proof (log_total_le _ _ D (N f) (K g f ltac:(intros a I; specialize (H a I); apply Rabs_le_inv in H; lra)) (N g)).
  apply Rabs_le. lra.
Qed.

(** ** Mixtures *)
Lemma combine_triples {A B C} (a : list A) (b : list B) (d : list C) : length b = length a -> length d = length a ->
  combine a d = map (fun p => (fst (fst p), snd p)) (combine (combine a b) d) /\
  combine d b = map (fun p => (snd p, snd (fst p))) (combine (combine a b) d).
Proof.
  revert b d. induction a as [|x a IH]; intros [|y b] [|z d] H K; try discriminate; [split; reflexivity|].
  cbn [length] in H, K. destruct (IH b d ltac:(lia) ltac:(lia)) as [E1 E2]. cbn [combine map fst snd]. rewrite E1, E2. split; reflexivity.
Qed.
Section Lib.
Context (c : R) (lg : R -> R) (L : libm) (LOK : libm_ok c lg L) (C0 : 0 <= c <= 1000000).
Notation F := (F64 L).

Lemma term_close {A} (m : Measure F A) x w M d r : is_num w -> 0 < val w -> close d r (b_ld m x) -> Rabs r <= M -> 0 <= M -> M + d <= bpow radix2 899 ->
  close (term_error c M d) (ln (val w) + r) (f64_add (l_ln L w) (b_ld m x)).
Proof.
  intros NW PW [NR R] RM M0 B. pose proof (Rabs_pos (val (b_ld m x) - r)) as D0. sizes. pose proof (ln_any w NW PW) as LW.
  assert (H9 : bpow radix2 899 <= huge) by (apply bpow_le; lia).
  destruct (ok_ln c lg L LOK w NW PW) as [NL EL].
  assert (EC : c * eps * (Rabs (ln (val w)) + small) <= c * eps * 1075) by (apply Rmult_le_compat_l; [apply Rmult_le_pos; lra|lra]).
  assert (CE : 0 <= c * eps <= / 4) by (split; [apply Rmult_le_pos; lra|apply keps; lra]).
  destruct (near_add (l_ln L w) (b_ld m x) (ln (val w)) r (c * eps * 1075) d) as [N E].
  - split; [exact NL|lra].
  - split; [exact NR|exact R].
  - unfold no_overflow. pose proof (Rabs_triang (ln (val w)) r). fold big. lra.
  - split; [exact N|]. eapply Rle_trans; [exact E|]. unfold term_error. apply step_mono; [|lra]. pose proof (Rabs_triang (ln (val w)) r). lra.
Qed.

Lemma mixture_close {A} (cs : list (Measure F A)) (ws : list f64) (rs : list R) x M d :
  cs <> [] -> length ws = length cs -> INR (length cs) <= bpow radix2 20 ->
  Forall (fun w => is_num w /\ 0 < val w) ws ->
  Forall2 (fun (m : Measure F A) r => close d r (b_ld m x) /\ Rabs r <= M) cs rs -> M + d <= bpow radix2 899 ->
  let n := INR (length cs) in
  let v := ln (Rsum (map (fun wr => val (fst wr) * exp (snd wr)) (combine ws rs))) in
  let D := term_error c M d in
  close (D + 2 * (c + 4 * (n * (c + 5 + n)) + 1) * eps * (Rabs v + D + 2 * n)) v (mixture_ld (mkMixture cs ws) x).
Proof.
  intros NE LE LN HW HC B n v D. assert (LR : length cs = length rs) by (clear - HC; induction HC; cbn [length]; congruence). set (l := combine (combine cs rs) ws).
  assert (LL : length l = length cs) by (unfold l; rewrite !combine_length; lia).
  destruct (combine_triples cs rs ws ltac:(lia) LE) as [EC ER]. fold l in EC, ER.
  assert (NL : l <> []) by (intros E; rewrite E in LL; destruct cs; [congruence|discriminate LL]).
  assert (HP : Forall (fun p : Measure F A * R => close d (snd p) (b_ld (fst p) x) /\ Rabs (snd p) <= M) (combine cs rs)).
  { clear - HC. induction HC; constructor; assumption. }
  rewrite Forall_forall in HP.
  assert (IC : forall p, In p l -> (close d (snd (fst p)) (b_ld (fst (fst p)) x) /\ Rabs (snd (fst p)) <= M) /\ In (snd p) ws).
  { intros [a b] I. split; [apply HP; eapply in_combine_l; exact I|eapply in_combine_r; exact I]. }
  rewrite Forall_forall in HW. change (bpow radix2 20) with 1048576 in LN. fold n in LN.
  assert (N1 : 1 <= n). { unfold n. rewrite <- LL. destruct l; [congruence|]. cbn [length]. rewrite S_INR. pose proof (pos_INR (length l)). lra. }
  assert (MD : 0 <= M /\ 0 <= d).
  { destruct HC as [|m r cs' rs' [[_ H1] H2]]; [congruence|]. pose proof (Rabs_pos r). pose proof (Rabs_pos (val (b_ld m x) - r)). lra. }
  set (t := fun p : Measure F A * R * f64 => f64_add (l_ln L (snd p)) (b_ld (fst (fst p)) x)).
  set (s := fun p : Measure F A * R * f64 => ln (val (snd p)) + snd (fst p)).
  assert (TC : forall p, In p l -> close D (s p) (t p)).
  { intros p I. destruct (IC p I) as [[C1 C2] I2]. destruct (HW _ I2) as [W1 W2]. apply term_close; try assumption; lra. }
  assert (E : mixture_ld (mkMixture cs ws) x = @CombModel.log_sum_exp F (map t l)).
  { unfold mixture_ld. cbn [components weights]. replace (map t l) with (map (fun cw : Measure F A * f64 => f64_add (l_ln L (snd cw)) (b_ld (fst cw) x)) (combine cs ws)) by (rewrite EC, map_map; reflexivity).
    destruct cs; [congruence|reflexivity]. }
  sizes. assert (H9 : 2 * bpow radix2 899 <= huge). { change 2 with (bpow radix2 1). rewrite <- bpow_plus. apply bpow_le. lia. }
  assert (CE : 0 <= c * eps <= / 4) by (split; [apply Rmult_le_pos; lra|apply keps; lra]).
  assert (H10 : 100000 <= bpow radix2 899) by (apply Rle_trans with (bpow radix2 30); [change (bpow radix2 30) with 1073741824; lra|apply bpow_le; lia]).
  assert (DB : 0 <= D <= bpow radix2 899 / 8 + d + 1000).
  { unfold D, term_error, step. assert (P3 : 0 < / IZR (2 ^ 300) <= 1).
    { split; [apply Rinv_0_lt_compat, IZR_lt; reflexivity|]. rewrite <- Rinv_1. apply Rinv_le_contravar; [lra|]. apply IZR_le. vm_compute. discriminate. }
    assert (P5 : 0 < / 2 ^ 53 <= / 64).
    { split; [apply Rinv_0_lt_compat, pow_lt; lra|]. apply Rinv_le_contravar; [lra|]. rewrite pow_IZR. apply IZR_le. vm_compute. discriminate. }
    unfold Rdiv. assert (0 <= (1075 + M + (d + c * eps * 1075)) * / 2 ^ 53 <= (1075 + M + (d + c * eps * 1075)) * / 64) by (split; [apply Rmult_le_pos; lra|apply Rmult_le_compat_l; lra]). lra. }
  assert (MT : map t l <> []) by (destruct l; [congruence|discriminate]).
  assert (HT1 : Forall is_num (map t l)) by (rewrite Forall_map; apply Forall_forall; intros p I; apply (TC p I)).
  assert (HT2 : Forall (fun y => Rabs (val y) <= huge) (map t l)).
  { rewrite Forall_map. apply Forall_forall. intros p I. destruct (TC p I) as [_ K]. destruct (IC p I) as [[C1 C2] I2]. destruct (HW _ I2) as [W1 W2].
    pose proof (ln_any _ W1 W2). replace (val (t p)) with (s p + (val (t p) - s p)) by ring. eapply Rle_trans; [apply Rabs_triang|].
    unfold s at 1. pose proof (Rabs_triang (ln (val (snd p))) (snd (fst p))). pose proof (bpow_gt_0 radix2 899). lra. }
  pose proof (log_sum_exp_float L c lg LOK C0 (map t l) MT HT1 HT2 ltac:(rewrite map_length, LL; change (bpow radix2 20) with 1048576; exact LN)) as K.
  cbv zeta in K. rewrite map_length, LL in K. fold n in K. rewrite <- E in K. rewrite map_map in K.
  assert (V : v = log_total (map s l)).
  { unfold v, log_total. rewrite ER, !map_map. f_equal. f_equal. apply map_ext_in. intros p I. unfold s. rewrite exp_plus, exp_ln; [reflexivity|]. apply HW, (IC p I). }
  pose proof (log_total_lipschitz (fun p => val (t p)) s l D NL (fun p I => proj2 (TC p I))) as LP. rewrite <- V in LP.
  set (u := log_total (map (fun p => val (t p)) l)) in *. set (w := mixture_ld (mkMixture cs ws) x) in *. clearbody u w v.
  assert (KB : 0 <= n * (c + 5 + n) <= 3000000000000) by (split; [apply Rmult_le_pos; lra|]; apply Rle_trans with (1048576 * (1000000 + 5 + 1048576)); [apply Rmult_le_compat; lra|lra]).
  set (k := c + 4 * (n * (c + 5 + n)) + 1) in *.
  pose proof (acc_within _ _ _ _ K ltac:(unfold k; lra) ltac:(apply keps; unfold k; lra)) as [NW EW]. split; [exact NW|].
  assert (UV : Rabs u <= Rabs v + D). { replace u with (v + (u - v)) by ring. eapply Rle_trans; [apply Rabs_triang|]. lra. }
  replace (val w - v) with ((val w - u) + (u - v)) by ring. eapply Rle_trans; [apply Rabs_triang|].
  assert (2 * k * eps * (Rabs u + 2 * n) <= 2 * k * eps * (Rabs v + D + 2 * n)) by (apply Rmult_le_compat_l; [apply Rmult_le_pos; [unfold k; lra|lra]|lra]). lra.
Qed.
End Lib.
