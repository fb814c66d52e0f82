(** Further proofs for C59: sums, checks of weights, transforms. *)
From Coq Require Import ZArith Reals Bool String List Lia Lra.
From Coq Require Import Floats.SpecFloat.
From Flocq Require Import Core IEEE754.BinarySingleNaN.
From Verif Require Import Num FloatFacts EggSpec LitFacts JitAcc FloatErr AccSpec AccProofs RoundSpec RoundProofs RelErr
  DensitySpec BuilderProofs CoreModel CombModel ExpFamModel DistModel DistFloat SumFloat SimpFloat CombFloatSpec CombFloat.
Import ListNotations.
Local Open Scope R_scope.

Lemma close_add u v a b d e : close d a u -> close e b v -> no_overflow (Rabs (a + b) + (d + e)) ->
  close (step (Rabs (a + b)) (d + e)) (a + b) (f64_add u v).
Proof. intros U V O. exact (near_add u v a b d e U V O). Qed.
Lemma close_sub u v a b d e : close d a u -> close e b v -> no_overflow (Rabs (a - b) + (d + e)) ->
  close (step (Rabs (a - b)) (d + e)) (a - b) (f64_sub u v).
Proof. intros U V O. exact (near_sub u v a b d e U V O). Qed.
Lemma close_self w : is_num w -> close 0 (val w) w.
Proof. intros N. split; [exact N|]. rewrite Rminus_diag_eq, Rabs_R0 by reflexivity. lra. Qed.
Lemma close_more d d' r w : close d r w -> d <= d' -> close d' r w.
Proof. intros [N E] D. split; [exact N|lra]. Qed.
Lemma acc_close k m r w : acc k m r w -> 0 <= k -> k * eps <= / 4 -> close (2 * k * eps * m) r w.
Proof. intros A K S. destruct (acc_within _ _ _ _ A K S) as [N E]. split; assumption. Qed.

Lemma abs_num w : is_num w -> is_num (SFabs w) /\ val (SFabs w) = Rabs (val w).
Proof.
  intros N. destruct w as [s|s| |s m e]; try (destruct N as [_ N]; discriminate N).
  - split; [split; reflexivity|]. unfold val. cbn. rewrite Rabs_R0. reflexivity.
  - split; [destruct N as [V _]; split; [exact V|reflexivity]|]. unfold val. cbn [SFabs SF2R]. destruct s; cbn [cond_Zopp].
    + change (Z.neg m) with (- Z.pos m)%Z. rewrite F2R_Zopp, Rabs_Ropp, Rabs_pos_eq; [reflexivity|]. apply F2R_ge_0. cbn. lia.
    + rewrite Rabs_pos_eq; [reflexivity|]. apply F2R_ge_0. cbn. lia.
Qed.
Lemma eps_value : eps <= 23 / 10 ^ 17.
Proof. unfold eps. rewrite pow_IZR. apply (Rmult_le_reg_l (IZR (2 ^ Z.of_nat 52))); [apply IZR_lt; reflexivity|]. rewrite Rinv_r by (apply IZR_neq; discriminate).
  change (2 ^ Z.of_nat 52)%Z with 4503599627370496%Z. lra. Qed.
Lemma tol_num : is_num (f64_dec 1 10000000000) /\ 999999 / 10 ^ 16 <= val (f64_dec 1 10000000000) <= 1000001 / 10 ^ 16.
Proof.
  replace (f64_dec 1 10000000000) with (S754_finite false 7737125245533627 (-86)) by (vm_compute; reflexivity).
  split; [split; reflexivity|]. rewrite val_explicit. cbn [cond_Zopp]. change (bpow radix2 (-86)) with (/ 77371252455336267181195264). lra.
Qed.

Section Checks.
Context (L : libm).
Notation F := (F64 L).

(** The test of the constructor, given what the computed sum is. *)
Lemma check_accepts {A} (cs : list (Measure F A)) ws S d : length cs = length ws -> close d S (fold_left (@nadd F) ws n0) ->
  Rabs (S - 1) + d <= 99 / 10 ^ 12 -> mixture_new cs ws = Some (mkMixture cs ws).
Proof.
  intros E [N K] H. unfold mixture_new. rewrite (proj2 (Nat.eqb_eq _ _) E). set (w := fold_left (@nadd F) ws n0) in *.
  destruct one_num as [N1 V1]. destruct tol_num as [NT VT]. sizes. change (@nsub F w n1) with (f64_sub w (f64_of_Z 1)). cbn zeta.
  assert (WA : Rabs (val w - 1) <= 99 / 10 ^ 12).
  { replace (val w - 1) with ((val w - S) + (S - 1)) by ring. eapply Rle_trans; [apply Rabs_triang|]. lra. }
  pose proof (acc_diff' w (f64_of_Z 1) (val w - 1) _ N N1 ltac:(rewrite V1; reflexivity) (Rle_refl _)) as AD.
  assert (WB : Rabs (val w) <= 2) by (apply Rabs_le; apply Rabs_le_inv in WA; lra).
  specialize (AD ltac:(rewrite V1, Rabs_R1; lra)). apply acc_within in AD; [|lra|apply keps; lra]. destruct AD as [ND ED].
  destruct (abs_num _ ND) as [NA VA].
  change (@nltb F (@nabs F (f64_sub w (f64_of_Z 1))) (@tolerance F)) with (SFltb (SFabs (f64_sub w (f64_of_Z 1))) (f64_dec 1 10000000000)).
  rewrite (SFltb_num _ _ NA NT), VA. destruct (Rlt_bool_spec (Rabs (val (f64_sub w (f64_of_Z 1)))) (val (f64_dec 1 10000000000))) as [Q|Q]; [reflexivity|exfalso].
  set (t := val (f64_sub w (f64_of_Z 1))) in *. assert (Rabs t <= Rabs (t - (val w - 1)) + Rabs (val w - 1)).
  { replace t with ((t - (val w - 1)) + (val w - 1)) at 1 by ring. apply Rabs_triang. }
  assert (2 * 1 * eps * Rabs (val w - 1) <= / 10 ^ 14).
  { apply Rle_trans with (2 * 1 * eps * (99 / 10 ^ 12)); [apply Rmult_le_compat_l; lra|]. lra. }
  lra.
Qed.
Lemma check_rejects {A} (cs : list (Measure F A)) ws S d : close d S (fold_left (@nadd F) ws n0) -> Rabs S + d <= huge ->
  101 / 10 ^ 12 <= Rabs (S - 1) - d -> mixture_new cs ws = None.
Proof.
  intros [N K] HB H. unfold mixture_new. destruct (Nat.eqb _ _); [|reflexivity]. set (w := fold_left (@nadd F) ws n0) in *.
  destruct one_num as [N1 V1]. destruct tol_num as [NT VT]. sizes. change (@nsub F w n1) with (f64_sub w (f64_of_Z 1)). cbn zeta.
  assert (WA : 101 / 10 ^ 12 <= Rabs (val w - 1)).
  { assert (SW : Rabs (S - 1) <= Rabs (S - val w) + Rabs (val w - 1)) by (replace (S - 1) with ((S - val w) + (val w - 1)) by ring; apply Rabs_triang).
    rewrite (Rabs_minus_sym S (val w)) in SW. lra. }
  assert (WB : Rabs (val w) <= huge).
  { replace (val w) with ((val w - S) + S) by ring. eapply Rle_trans; [apply Rabs_triang|]. lra. }
  pose proof (acc_diff' w (f64_of_Z 1) (val w - 1) _ N N1 ltac:(rewrite V1; reflexivity) (Rle_refl _)) as AD.
  specialize (AD ltac:(rewrite V1, Rabs_R1; lra)). apply acc_within in AD; [|lra|apply keps; lra]. destruct AD as [ND ED].
  destruct (abs_num _ ND) as [NA VA].
  change (@nltb F (@nabs F (f64_sub w (f64_of_Z 1))) (@tolerance F)) with (SFltb (SFabs (f64_sub w (f64_of_Z 1))) (f64_dec 1 10000000000)).
  rewrite (SFltb_num _ _ NA NT), VA. destruct (Rlt_bool_spec (Rabs (val (f64_sub w (f64_of_Z 1)))) (val (f64_dec 1 10000000000))) as [Q|Q]; [exfalso|reflexivity].
  set (t := val (f64_sub w (f64_of_Z 1))) in *. assert (Rabs (val w - 1) <= Rabs (t - (val w - 1)) + Rabs t).
  { rewrite (Rabs_minus_sym t). replace (val w - 1) with ((val w - 1 - t) + t) at 1 by ring. apply Rabs_triang. }
  assert (2 * 1 * eps * Rabs (val w - 1) <= / 1000000 * Rabs (val w - 1)) by (apply Rmult_le_compat_r; [apply Rabs_pos|lra]).
  lra.
Qed.

Lemma sum_nonneg ws : Forall (fun w => is_num w /\ 0 <= val w) ws -> map (fun x => Rabs (val x)) ws = map val ws.
Proof. induction 1 as [|w ws [_ W] _ IH]; [reflexivity|]. cbn [map]. rewrite IH, Rabs_pos_eq by exact W. reflexivity. Qed.
Lemma weights_sum ws : Forall (fun w => is_num w /\ 0 <= val w) ws -> INR (length ws) <= 10000 -> Rsum (map val ws) <= huge / 2 ->
  close (46 / 10 ^ 13 * Rsum (map val ws)) (Rsum (map val ws)) (fold_left (@nadd F) ws n0).
Proof.
  intros W N B. sizes. pose proof (pos_INR (length ws)). pose proof eps_value.
  assert (N4 : INR (length ws) <= bpow radix2 40) by (change (bpow radix2 40) with 1099511627776; lra).
  pose proof (sum_float L ws) as K. rewrite (sum_nonneg ws W) in K. specialize (K ltac:(eapply Forall_impl; [|exact W]; intros a [Q _]; exact Q) N4 ltac:(lra)).
  pose proof (acc_pos _ _ _ _ K) as P. apply acc_close in K; [|lra|apply keps; lra]. unfold fold_sum in K. eapply close_more; [exact K|].
  apply Rmult_le_compat_r; [exact P|]. apply Rle_trans with (2 * 10000 * eps); [apply Rmult_le_compat_r; lra|lra].
Qed.
Lemma new_accepts {A} (cs : list (Measure F A)) ws : length cs = length ws -> INR (length ws) <= 10000 ->
  Forall (fun w => is_num w /\ 0 <= val w) ws -> Rabs (Rsum (map val ws) - 1) <= 9 / 10 ^ 11 -> mixture_new cs ws = Some (mkMixture cs ws).
Proof.
  intros E N W H. pose proof (Rabs_le_inv _ _ H). sizes. eapply check_accepts; [exact E|apply weights_sum; [exact W|exact N|lra]|]. lra.
Qed.
Lemma new_rejects {A} (cs : list (Measure F A)) ws : INR (length ws) <= 10000 -> Rsum (map val ws) <= huge / 2 ->
  Forall (fun w => is_num w /\ 0 <= val w) ws -> 11 / 10 ^ 11 <= Rabs (Rsum (map val ws) - 1) -> mixture_new cs ws = None.
Proof.
  intros N B W H. assert (P : 0 <= Rsum (map val ws)) by (apply Rsum_pos; rewrite Forall_map; eapply Forall_impl; [|exact W]; intros a [_ Q]; exact Q). sizes.
  eapply check_rejects; [apply weights_sum; [exact W|exact N|lra]|rewrite Rabs_pos_eq by exact P; lra|].
  unfold Rabs in *. destruct (Rcase_abs (Rsum (map val ws) - 1)); lra.
Qed.

Lemma Rsum_repeat a n : Rsum (repeat a n) = INR n * a.
Proof. induction n as [|n IH]; [cbn; lra|]. cbn [repeat]. rewrite Rsum_cons, IH, S_INR. ring. Qed.
Lemma uniform_accepts {A} (cs : list (Measure F A)) : cs <> [] -> INR (length cs) <= 200000 ->
  exists w, mixture_uniform cs = Some (mkMixture cs (repeat w (length cs))) /\ rel 1 (/ INR (length cs)) w.
Proof.
  intros NE H. set (n := length cs) in *. sizes. pose proof eps_value.
  assert (N1 : 1 <= INR n). { unfold n. destruct cs; [congruence|]. cbn [length]. rewrite S_INR. pose proof (pos_INR (length cs)). lra. }
  destruct (num_nat n) as [NN VN]. { assert (IN : IZR (Z.of_nat n) <= IZR 200000) by (rewrite <- INR_IZR_INZ; exact H). apply le_IZR in IN. lia. }
  destruct one_num as [NO VO].
  assert (R : rel 1 (/ INR n) (f64_div (f64_of_Z 1) (f64_of_Z (Z.of_nat n)))).
  { replace 1 with (0 + 0 + 1) by ring. replace (/ INR n) with (1 / INR n) by (field; lra). apply rel_div; try lra.
    - apply rel_is; [exact NO|exact VO|lra].
    - apply rel_is; [exact NN|exact VN|lra].
    - assert (/ 1000000 <= 1 / INR n <= 1).
      { split; [unfold Rdiv; rewrite Rmult_1_l; apply Rinv_le_contravar; lra|]. unfold Rdiv. rewrite Rmult_1_l, <- Rinv_1. apply Rinv_le_contravar; lra. }
      split; rewrite Rabs_pos_eq; lra. }
  set (w := f64_div (f64_of_Z 1) (f64_of_Z (Z.of_nat n))) in *. exists w. split; [|exact R].
  unfold mixture_uniform. change (@ndiv F n1 (nofn (length cs))) with w. fold n.
  apply check_accepts with 1 (2 * (1 + INR n) * eps * 1).
  - rewrite repeat_length. reflexivity.
  - assert (MR : forall B (b : B), map (fun _ : unit => b) (repeat tt n) = repeat b n) by (clear; intros B b; induction n; [reflexivity|cbn [repeat map]; congruence]).
    assert (K : acc (1 + INR (length (repeat tt n))) (Rsum (map (fun _ : unit => / INR n) (repeat tt n))) (Rsum (map (fun _ : unit => / INR n) (repeat tt n))) (fold_left (@nadd F) (map (fun _ : unit => w) (repeat tt n)) n0)).
    { apply sum_acc; [lra|rewrite repeat_length; change (bpow radix2 40) with 1099511627776; lra| |].
      - apply Forall_forall. intros [] _. pose proof (rel_acc 1 _ _ ltac:(lra) R) as Q. rewrite Rabs_pos_eq in Q; [exact Q|]. left. apply Rinv_0_lt_compat. lra.
      - rewrite MR, Rsum_repeat, Rinv_r by lra. lra. }
    rewrite !MR, repeat_length, Rsum_repeat, Rinv_r in K by lra. apply acc_close in K; [exact K|lra|apply keps; lra].
  - rewrite Rminus_diag_eq, Rabs_R0 by reflexivity. assert ((1 + INR n) * eps <= 200001 * (23 / 10 ^ 17)) by (apply Rmult_le_compat; lra). lra.
Qed.

Lemma pair_accepts {A} (a b : Measure F A) w1 w2 : is_num w1 -> is_num w2 -> 0 < val w1 -> 0 < val w2 -> val w1 + val w2 <= big ->
  exists v1 v2, mixture2 a b w1 w2 = Some (mkMixture [a; b] [v1; v2]) /\
    close (5 * eps) (val w1 / (val w1 + val w2)) v1 /\ close (5 * eps) (val w2 / (val w1 + val w2)) v2.
Proof.
  intros N1 N2 P1 P2 B. sizes. set (t := val w1 + val w2) in *. assert (T : 0 < t) by (unfold t; lra).
  assert (RT : rel 1 t (f64_add w1 w2)).
  { replace 1 with (0 + 1) by ring. apply rel_add; [apply rel_exact; [exact N1|lra]|apply rel_exact; [exact N2|lra]|exact P1|exact P2|lra|lra|exact B]. }
  assert (Q : forall w, is_num w -> 0 < val w <= t -> acc 2 (val w / t + small) (val w / t) (f64_div w (f64_add w1 w2)) /\ 0 < val w / t <= 1).
  { intros w N [P HT]. assert (U : 0 < val w / t <= 1).
    { split; [apply Rdiv_lt_0_compat; assumption|]. apply (Rmult_le_reg_r t); [exact T|]. replace (val w / t * t) with (val w) by (field; lra). lra. }
    split; [|exact U]. replace 2 with (0 + 1 + 1) by ring. pose proof (acc_div 0 1 (val w) (val w) t w (f64_add w1 w2)) as K. rewrite (Rabs_pos_eq t) in K by lra.
    apply K; try lra; [|exact RT]. apply acc_exact; [exact N|]. rewrite Rabs_pos_eq; lra. }
  destruct (Q w1 N1 ltac:(unfold t; lra)) as [A1 U1]. destruct (Q w2 N2 ltac:(unfold t; lra)) as [A2 U2].
  set (v1 := f64_div w1 (f64_add w1 w2)) in *. set (v2 := f64_div w2 (f64_add w1 w2)) in *. exists v1, v2.
  assert (CL : forall w v, acc 2 (val w / t + small) (val w / t) v -> 0 < val w / t <= 1 -> close (5 * eps) (val w / t) v).
  { intros w v K U. apply acc_close in K; [|lra|lra]. eapply close_more; [exact K|]. assert (eps * (val w / t + small) <= eps * (5 / 4)) by (apply Rmult_le_compat_l; lra). lra. }
  split; [|split; apply CL; assumption]. unfold mixture2. change (@ndiv F w1 (@nadd F w1 w2)) with v1. change (@ndiv F w2 (@nadd F w1 w2)) with v2.
  pose proof (sum_acc L (fun p => fst (fst p)) (fun p => snd (fst p)) (fun p : R * R * f64 => snd p) 2
    [((val w1 / t + small, val w1 / t), v1); ((val w2 / t + small, val w2 / t), v2)] ltac:(lra)) as K. cbn [length map fst snd] in K.
  specialize (K ltac:(change (INR 2) with (1 + 1); change (bpow radix2 40) with 1099511627776; lra)).
  specialize (K ltac:(constructor; [exact A1|constructor; [exact A2|constructor]])). unfold Rsum in K. cbn [fold_right] in K. change (INR 2) with (1 + 1) in K.
  specialize (K ltac:(lra)). apply acc_close in K; [|lra|apply keps; lra].
  eapply check_accepts; [reflexivity|exact K|].
  replace (val w1 / t + (val w2 / t + 0) - 1) with 0 by (unfold t; field; unfold t in T; lra). rewrite Rabs_R0.
  assert (eps * (val w1 / t + small + (val w2 / t + small + 0)) <= eps * 4) by (apply Rmult_le_compat_l; lra). lra.
Qed.
End Checks.

(** ** Transforms *)
Lemma div_pos a b : 0 <= a -> 0 < b -> 0 <= a / b.
Proof. intros A B. apply Rmult_le_pos; [exact A|]. left. apply Rinv_0_lt_compat. exact B. Qed.

Section Trans.
Context (c : R) (lg : R -> R) (L : libm) (LOK : libm_ok c lg L) (C0 : 0 <= c <= 1000000).
Notation F := (F64 L).

Lemma push_close (m : Base F F) t y r j d e : close d r (b_ld m (inverse t y)) -> close e j (log_jac t y) ->
  no_overflow (Rabs (r + j) + (d + e)) -> close (step (Rabs (r + j)) (d + e)) (r + j) (push_ld m t y).
Proof. apply close_add. Qed.

Lemma linear_inverse a b y : is_num a -> is_num b -> is_num y -> val a <> 0 -> Rabs (val y) + Rabs (val b) <= big ->
  Rabs (val y - val b) / Rabs (val a) <= big ->
  acc 2 (Rabs ((val y - val b) / val a) + small) ((val y - val b) / val a) (inverse (@linear_transform F a b) y).
Proof.
  intros NA NB NY Z B1 B2. sizes. rewrite abs_div. replace 2 with (1 + 0 + 1) by ring.
  apply (acc_div 1 0 _ _ _ (f64_sub y b) a); try lra; [apply acc_diff; assumption|apply rel_exact; assumption].
Qed.
Lemma linear_forward a b x : is_num a -> is_num b -> is_num x -> Rabs (val a * val x) + Rabs (val b) + small <= big ->
  acc 2 (Rabs (val a * val x) + small + Rabs (val b)) (val a * val x + val b) (forward (@linear_transform F a b) x).
Proof.
  intros NA NB NX B. sizes. pose proof (Rabs_pos (val a * val x)). pose proof (Rabs_pos (val b)). replace 2 with (1 + 1) by ring. cbn [linear_transform forward].
  change (@nadd F (@nmul F a x) b) with (f64_add (f64_mul a x) b). apply acc_add; ks.
  - rewrite Rabs_mult in *. apply mul_exact_acc; [assumption|assumption|lra].
  - apply acc_more with 0 (Rabs (val b)); [apply acc_exact'; exact NB|lra|lra].
Qed.
Lemma linear_jac a b y : is_num a -> val a <> 0 ->
  acc c (Rabs (ln (Rabs (val a))) + small) (- ln (Rabs (val a))) (log_jac (@linear_transform F a b) y).
Proof.
  intros N Z. destruct (abs_num a N) as [NA VA]. cbn [linear_transform log_jac]. change (@nneg F (@nln F (@nabs F a))) with (SFopp (l_ln L (SFabs a))).
  apply acc_neg. rewrite <- VA. apply (acc_lnx c lg L LOK); [exact NA|]. rewrite VA. apply Rabs_pos_lt. exact Z.
Qed.

(** Forward, then back. *)
Lemma linear_round_trip a b x : is_num a -> is_num b -> is_num x -> val a <> 0 -> Rabs (val a * val x) + Rabs (val b) + small <= huge ->
  (Rabs (val b) + small) / Rabs (val a) <= huge -> Rabs (val x) <= huge ->
  close (12 * eps * (Rabs (val x) + (Rabs (val b) + small) / Rabs (val a) + small)) (val x)
    (inverse (@linear_transform F a b) (forward (@linear_transform F a b) x)).
Proof.
  intros NA NB NX Z B1 B2 B3. sizes. pose proof (Rabs_pos (val a * val x)). pose proof (Rabs_pos (val b)). assert (PA : 0 < Rabs (val a)) by (apply Rabs_pos_lt; exact Z).
  pose proof (linear_forward a b x NA NB NX ltac:(lra)) as AF. set (w := forward (@linear_transform F a b) x) in *.
  pose proof (acc_size _ _ _ _ AF ltac:(lra) ltac:(apply keps; lra)) as SW. apply acc_close in AF; [|lra|apply keps; lra]. destruct AF as [NW EW].
  set (m := Rabs (val x) + (Rabs (val b) + small) / Rabs (val a) + small).
  assert (MA : (Rabs (val a * val x) + small + Rabs (val b)) / Rabs (val a) <= m).
  { unfold m. rewrite Rabs_mult.
    replace ((Rabs (val a) * Rabs (val x) + small + Rabs (val b)) / Rabs (val a)) with (Rabs (val x) + (Rabs (val b) + small) / Rabs (val a)) by (field; lra). lra. }
  set (q := (val w - val b) / val a).
  assert (QX : Rabs (q - val x) <= 4 * eps * m).
  { unfold q. replace ((val w - val b) / val a - val x) with ((val w - (val a * val x + val b)) / val a) by (field; exact Z). rewrite abs_div.
    apply Rle_trans with (2 * 2 * eps * (Rabs (val a * val x) + small + Rabs (val b)) / Rabs (val a)).
    - unfold Rdiv. apply Rmult_le_compat_r; [left; apply Rinv_0_lt_compat; exact PA|exact EW].
    - unfold Rdiv. rewrite Rmult_assoc. change (2 * 2 * eps * ((Rabs (val a * val x) + small + Rabs (val b)) / Rabs (val a)) <= 4 * eps * m).
      replace (4 * eps) with (2 * 2 * eps) by ring. apply Rmult_le_compat_l; lra. }
  assert (M0 : Rabs (val x) + small <= m). { unfold m. assert (0 <= (Rabs (val b) + small) / Rabs (val a)) by (apply div_pos; lra). lra. }
  assert (MB : m <= 3 * huge) by (unfold m; lra). pose proof (Rabs_pos (val x)). clearbody m.
  assert (E1 : 4 * eps * m <= / 100 * m) by (apply Rmult_le_compat_r; lra).
  assert (QB : Rabs q <= Rabs (val x) + / 100 * m). { replace q with (val x + (q - val x)) by ring. eapply Rle_trans; [apply Rabs_triang|]. lra. }
  pose proof (linear_inverse a b w NA NB NW Z ltac:(lra) ltac:(rewrite <- abs_div; fold q; lra)) as AI. fold q in AI.
  apply acc_close in AI; [|lra|apply keps; lra]. destruct AI as [NI EI]. split; [exact NI|].
  match goal with |- Rabs (?v - val x) <= _ => replace (v - val x) with ((v - q) + (q - val x)) by ring end.
  eapply Rle_trans; [apply Rabs_triang|]. assert (2 * 2 * eps * (Rabs q + small) <= 2 * 2 * eps * (2 * m)) by (apply Rmult_le_compat_l; lra). lra.
Qed.

(** ** Exponential: the log-normal distribution *)
Lemma normal_move mu sd x x' : 0 < sd -> let z := (x - mu) / sd in let d := Rabs (x' - x) / sd in
  Rabs (ln (normal_pdf mu sd x') - ln (normal_pdf mu sd x)) <= d * (Rabs z + d).
Proof.
  intros P z d. rewrite !ln_normal_pdf by exact P. set (t := (x' - x) / sd).
  replace (- (1 / 2 * ln (2 * PI) + ln sd) + - (1 / 2) * (x' - mu) ^ 2 / sd ^ 2 - (- (1 / 2 * ln (2 * PI) + ln sd) + - (1 / 2) * (x - mu) ^ 2 / sd ^ 2))
    with (- (t * z + t * t / 2)) by (unfold t, z; field; lra).
  assert (D : d = Rabs t) by (unfold d, t; rewrite abs_div, (Rabs_pos_eq sd) by lra; reflexivity).
  rewrite Rabs_Ropp. eapply Rle_trans; [apply Rabs_triang|]. rewrite abs_div, !Rabs_mult, <- D, (Rabs_pos_eq 2) by lra.
  assert (0 <= d * d) by (apply Rmult_le_pos; rewrite D; apply Rabs_pos). lra.
Qed.
Lemma lognormal_close mu sd y : is_num mu -> is_num sd -> is_num y -> 0 < val sd -> 0 < val y -> Rabs (val mu) <= huge ->
  let z := (ln (val y) - val mu) / val sd in
  let d0 := c * eps * (Rabs (ln (val y)) + small) in let d := d0 / val sd in
  let r := ln (normal_pdf (val mu) (val sd) (ln (val y))) in
  Rabs z + d <= bpow radix2 400 -> Rabs r <= huge ->
  let e := d * (Rabs z + d) + 2 * (c + 7) * eps * ((Rabs z + d) * (Rabs z + d) + Rabs (ln (val sd)) + 2) in
  close (step (Rabs (r - ln (val y))) (e + d0)) (ln (lognormal_pdf (val mu) (val sd) (val y)))
    (push_ld (normal_base (@mkNormal F mu sd)) exp_transform y).
Proof.
  intros NM NS NY PS PY BM z d0 d r BZ BR e. sizes. pose proof (ln_any y NY PY) as LY. pose proof (ln_any sd NS PS) as LS.
  assert (PP : 0 < normal_pdf (val mu) (val sd) (ln (val y))).
  { unfold normal_pdf. apply Rmult_lt_0_compat; [|apply exp_pos]. apply Rinv_0_lt_compat, Rmult_lt_0_compat; [exact PS|]. apply sqrt_lt_R0. pose proof PI_RGT_0. lra. }
  unfold lognormal_pdf. replace (ln (normal_pdf (val mu) (val sd) (ln (val y)) / val y)) with (r + - ln (val y)).
  2:{ unfold Rdiv. rewrite ln_mult, ln_Rinv; [reflexivity|exact PY|exact PP|apply Rinv_0_lt_compat, PY]. }
  replace (r - ln (val y)) with (r + - ln (val y)) by ring.
  destruct (ok_ln c lg L LOK y NY PY) as [NL EL]. fold d0 in EL. set (w := l_ln L y) in *.
  assert (CE : 0 <= c * eps <= / 4) by (split; [apply Rmult_le_pos; lra|apply keps; lra]).
  assert (D0 : 0 <= d0 <= 1000). { unfold d0. pose proof (Rabs_pos (ln (val y))). split; [apply Rmult_le_pos; lra|]. apply Rle_trans with (/ 4 * (1074 + small)); [apply Rmult_le_compat; lra|lra]. }
  assert (DP : 0 <= d) by (unfold d; apply div_pos; lra).
  assert (B400 : 0 < bpow radix2 400 /\ bpow radix2 400 * bpow radix2 400 <= huge).
  { split; [apply bpow_gt_0|]. rewrite <- bpow_plus. apply bpow_le. lia. }
  assert (WB : Rabs (val w) <= 3000). { replace (val w) with ((val w - ln (val y)) + ln (val y)) by ring. eapply Rle_trans; [apply Rabs_triang|]. lra. }
  set (z' := (val w - val mu) / val sd). assert (DD : Rabs (val w - ln (val y)) / val sd <= d).
  { unfold d, Rdiv. apply Rmult_le_compat_r; [left; apply Rinv_0_lt_compat; exact PS|exact EL]. }
  assert (Z' : Rabs z' <= Rabs z + d).
  { replace z' with (z + (val w - ln (val y)) / val sd) by (unfold z, z'; field; lra). eapply Rle_trans; [apply Rabs_triang|]. rewrite abs_div, (Rabs_pos_eq (val sd)) by lra. lra. }
  pose proof (normal_float c lg L LOK C0 mu sd w NM NS NL PS BM ltac:(lra) ltac:(fold z'; lra)) as K. fold z' in K.
  apply acc_close in K; [|lra|apply keps; lra]. destruct K as [NK EK].
  pose proof (Rabs_pos z) as ZP. pose proof (Rabs_pos z') as ZP'.
  assert (ZZ : z' * z' <= (Rabs z + d) * (Rabs z + d)). { replace (z' * z') with (Rabs z' * Rabs z') by (rewrite <- Rabs_mult; apply Rabs_pos_eq; apply Rle_0_sqr). apply Rmult_le_compat; lra. }
  assert (CK : close e r (normal_ld (@mkNormal F mu sd) w)).
  { split; [exact NK|]. pose proof (normal_move (val mu) (val sd) (ln (val y)) (val w) PS) as MV. cbv zeta in MV. fold z in MV. fold r in MV.
    match goal with |- Rabs (?v - r) <= _ => replace (v - r) with ((v - ln (normal_pdf (val mu) (val sd) (val w))) + (ln (normal_pdf (val mu) (val sd) (val w)) - r)) by ring end.
    eapply Rle_trans; [apply Rabs_triang|]. unfold e. rewrite Rplus_comm. apply Rplus_le_compat.
    - eapply Rle_trans; [exact MV|]. assert (0 <= Rabs (val w - ln (val y)) / val sd) by (apply div_pos; [apply Rabs_pos|exact PS]). apply Rmult_le_compat; lra.
    - eapply Rle_trans; [exact EK|]. apply Rmult_le_compat_l; [|lra]. apply Rmult_le_pos; lra. }
  assert (CJ : close d0 (- ln (val y)) (SFopp w)).
  { destruct (neg_num w NL) as [NN VN]. split; [exact NN|]. rewrite VN. replace (- val w - - ln (val y)) with (- (val w - ln (val y))) by ring. rewrite Rabs_Ropp. exact EL. }
  apply (push_close (normal_base (@mkNormal F mu sd)) (@exp_transform F) y r (- ln (val y)) e d0 CK CJ).
  unfold no_overflow. fold big. pose proof (Rabs_triang r (- ln (val y))) as T. rewrite Rabs_Ropp in T.
  assert (SQ : (Rabs z + d) * (Rabs z + d) <= huge). { eapply Rle_trans; [|apply B400]. apply Rmult_le_compat; lra. }
  assert (DZ : d * (Rabs z + d) <= (Rabs z + d) * (Rabs z + d)) by (apply Rmult_le_compat_r; lra).
  assert (E1 : e <= huge + / 2 * (huge + 1074 + 2)).
  { unfold e. apply Rplus_le_compat; [lra|]. assert ((c + 7) * eps <= / 4) by (apply keps; lra).
    apply Rmult_le_compat; [apply Rmult_le_pos; lra| |lra|lra]. pose proof (Rle_0_sqr (Rabs z + d)). unfold Rsqr in *. pose proof (Rabs_pos (ln (val sd))). lra. }
  lra.
Qed.

(** ** Logit *)
Lemma exp_rel y : is_num y -> Rabs (val y) <= 600 -> rel (4 * c) (exp (val y)) (l_exp L y) /\ / bpow radix2 900 <= exp (val y) <= bpow radix2 900.
Proof.
  intros N B. apply Rabs_le_inv in B. sizes.
  assert (UP : exp 600 <= bpow radix2 900).
  { rewrite <- (exp_ln (bpow radix2 900)) by apply bpow_gt_0. apply exp_le. rewrite ln_bpow. destruct ln2_bounds. lra. }
  assert (LO : / bpow radix2 900 <= exp (val y) <= bpow radix2 900).
  { split.
    - apply Rle_trans with (/ exp 600); [apply Rinv_le_contravar; [apply exp_pos|exact UP]|]. rewrite <- exp_Ropp. apply exp_le. lra.
    - eapply Rle_trans; [|exact UP]. apply exp_le. lra. }
  split; [|exact LO]. destruct (ok_exp c lg L LOK y N ltac:(lra)) as [NE E]. replace (4 * c) with (2 * (2 * c)) by ring.
  assert (SE : small <= exp (val y)). { eapply Rle_trans; [|apply LO]. rewrite <- bpow_opp. apply bpow_le. lia. }
  apply rel_of_acc; ks. split; [exact NE|]. split; [rewrite Rabs_pos_eq; [lra|left; apply exp_pos]|].
  eapply Rle_trans; [exact E|]. apply Rle_trans with (c * eps * (2 * exp (val y))); [apply Rmult_le_compat_l; [apply Rmult_le_pos; lra|lra]|].
  pose proof (gam_lin (2 * c)). pose proof (exp_pos (val y)). replace (c * eps * (2 * exp (val y))) with (2 * c * eps * exp (val y)) by ring. apply Rmult_le_compat_r; lra.
Qed.
Lemma one_plus_rel y : is_num y -> Rabs (val y) <= 600 -> rel (4 * c + 1) (1 + exp (val y)) (f64_add (f64_of_Z 1) (l_exp L y)).
Proof.
  intros N B. destruct (exp_rel y N B) as [RE [_ UP]]. destruct one_num as [N1 V1]. sizes.
  apply rel_add; ks; [|exact RE|apply exp_pos|fold huge in UP; lra]. apply rel_more with 0; [apply rel_is; [exact N1|exact V1|lra]|lra].
Qed.
Lemma logit_inverse y : is_num y -> Rabs (val y) <= 600 -> rel (8 * c + 2) (logistic (val y)) (inverse (@logit_transform F) y).
Proof.
  intros N B. destruct (exp_rel y N B) as [RE [LO UP]]. pose proof (one_plus_rel y N B) as RO. sizes. pose proof (exp_pos (val y)) as EP.
  cbn [logit_transform inverse]. change (@ndiv F (@nexp F y) (@nadd F n1 (@nexp F y))) with (f64_div (l_exp L y) (f64_add (f64_of_Z 1) (l_exp L y))).
  replace (8 * c + 2) with (4 * c + (4 * c + 1) + 1) by ring. unfold logistic. apply rel_div; ks; [exact RE|exact RO|].
  assert (U : 0 < exp (val y) / (1 + exp (val y)) <= 1).
  { split; [apply Rdiv_lt_0_compat; lra|]. apply (Rmult_le_reg_r (1 + exp (val y))); [lra|]. replace (exp (val y) / (1 + exp (val y)) * (1 + exp (val y))) with (exp (val y)) by (field; lra). lra. }
  split; rewrite Rabs_pos_eq by lra; [|lra].
  assert (W : / 2 * Rmin 1 (exp (val y)) <= exp (val y) / (1 + exp (val y))).
  { apply (Rmult_le_reg_r (1 + exp (val y))); [lra|]. replace (exp (val y) / (1 + exp (val y)) * (1 + exp (val y))) with (exp (val y)) by (field; lra).
    set (t := exp (val y)) in *. destruct (Rle_dec 1 t); [rewrite Rmin_left by lra|rewrite Rmin_right by lra]; nra. }
  assert (SM : 4 * small <= / bpow radix2 900). { rewrite <- bpow_opp. change 4 with (bpow radix2 2). unfold small. rewrite <- bpow_plus. apply bpow_le. lia. }
  assert (4 * small <= Rmin 1 (exp (val y))) by (apply Rmin_glb; lra). lra.
Qed.
Lemma softplus_bound y : 0 <= ln (1 + exp y) <= Rabs y + 1.
Proof.
  pose proof (exp_pos y). split; [rewrite <- ln_1; apply ln_le; lra|]. rewrite <- (ln_exp (Rabs y + 1)). apply ln_le; [lra|].
  rewrite exp_plus. pose proof (exp_ineq1_le 1). assert (exp y <= exp (Rabs y)) by (apply exp_le, Rle_abs).
  assert (1 <= exp (Rabs y)) by (rewrite <- exp_0; apply exp_le, Rabs_pos). nra.
Qed.
Lemma logit_jac y : is_num y -> Rabs (val y) <= 600 ->
  acc (9 * c + 4) (3 * Rabs (val y) + 4) (ln (exp (val y) / (1 + exp (val y)) ^ 2)) (log_jac (@logit_transform F) y).
Proof.
  intros N B. destruct (neg_num y N) as [NN VN]. assert (B' : Rabs (val (SFopp y)) <= 600) by (rewrite VN, Rabs_Ropp; exact B). sizes.
  pose proof (one_plus_rel _ NN B') as RO. rewrite VN in RO. set (s := ln (1 + exp (- val y))).
  assert (SP : 0 <= s <= Rabs (val y) + 1) by (unfold s; rewrite <- (Rabs_Ropp (val y)); apply softplus_bound).
  pose proof (exp_pos (- val y)) as EN. pose proof (exp_pos (val y)) as EY. pose proof (Rabs_pos (val y)) as AP.
  pose proof (acc_ln c lg L LOK (proj1 C0) (4 * c + 1) (1 + exp (- val y)) _ RO ltac:(lra) ltac:(lra) ltac:(apply keps; lra)) as AL. fold s in AL. rewrite (Rabs_pos_eq s) in AL by lra.
  replace (c + 2 * (4 * c + 1)) with (9 * c + 2) in AL by ring.
  replace (ln (exp (val y) / (1 + exp (val y)) ^ 2)) with (- val y - s - s).
  2:{ unfold s. assert (E : exp (val y) / (1 + exp (val y)) ^ 2 = exp (- val y) * (/ (1 + exp (- val y)) * / (1 + exp (- val y)))).
      { rewrite exp_Ropp. field. split; lra. }
      rewrite E, ln_mult, ln_exp, ln_mult, !ln_Rinv; try lra; try (apply Rinv_0_lt_compat; lra). apply Rmult_lt_0_compat; apply Rinv_0_lt_compat; lra. }
  cbn [logit_transform log_jac].
  set (l := l_ln L (f64_add (f64_of_Z 1) (l_exp L (SFopp y)))) in *.
  change (acc (9 * c + 4) (3 * Rabs (val y) + 4) (- val y - s - s) (f64_sub (f64_sub (SFopp y) l) l)).
  assert (A1 : acc (9 * c + 3) (Rabs (val y) + (s + 1)) (- val y - s) (f64_sub (SFopp y) l)).
  { replace (9 * c + 3) with (9 * c + 2 + 1) by ring. apply acc_sub; ks; [|exact AL]. apply acc_more with 0 (Rabs (val y)); [|lra|lra].
    apply acc_is; [exact NN|exact VN|rewrite Rabs_Ropp; lra]. }
  apply acc_more with (9 * c + 3 + 1) (Rabs (val y) + (s + 1) + (s + 1)); [|lra|lra].
  apply acc_sub; ks; [exact A1|]. apply acc_more with (9 * c + 2) (s + 1); [exact AL|lra|lra].
Qed.
End Trans.

(** Overflow in the logit transform. *)
Lemma logit_overflow L (y : f64) : l_exp L y = S754_infinity false -> inverse (@logit_transform (F64 L)) y = S754_nan.
Proof.
  intros E. cbn [logit_transform inverse]. change (f64_div (l_exp L y) (f64_add (f64_of_Z 1) (l_exp L y)) = S754_nan). rewrite E. reflexivity.
Qed.
Lemma logit_underflow L (y : f64) : is_num y -> l_exp L (SFopp y) = S754_infinity false -> l_ln L (S754_infinity false) = S754_infinity false ->
  log_jac (@logit_transform (F64 L)) y = S754_infinity true.
Proof.
  intros [_ N] E E2. cbn [logit_transform log_jac].
  change (f64_sub (f64_sub (SFopp y) (l_ln L (f64_add (f64_of_Z 1) (l_exp L (SFopp y))))) (l_ln L (f64_add (f64_of_Z 1) (l_exp L (SFopp y)))) = S754_infinity true).
  rewrite E. change (f64_add (f64_of_Z 1) (S754_infinity false)) with (S754_infinity false). rewrite E2.
  destruct y as [b|b| |b m e]; try discriminate N; destruct b; reflexivity.
Qed.

(** A library that is accurate and overflows to infinity. *)
Definition overflowing (L : libm) : libm :=
  {| l_ln := fun x => match x with S754_infinity false => x | _ => l_ln L x end;
     l_exp := fun x => if SFleb (f64_of_Z 710) x then S754_infinity false else l_exp L x;
     l_pow := l_pow L; l_sin := l_sin L; l_cos := l_cos L; l_lgamma := l_lgamma L |}.
Lemma overflowing_ok c lg L : libm_ok c lg L -> libm_ok c lg (overflowing L).
Proof.
  intros K. destruct (num_int 710 ltac:(lia)) as [N7 V7]. split; cbn [overflowing l_ln l_exp l_pow l_sin l_cos l_lgamma]; try apply K.
  - intros x N P. destruct x as [b|[|]| |b m e]; try (apply K; assumption). destruct N as [_ N]. discriminate N.
  - intros x N P. rewrite (SFleb_num _ _ N7 N), V7. destruct (Rle_bool_spec 710 (val x)); [lra|]. apply K; assumption.
Qed.
