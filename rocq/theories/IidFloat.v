(** Joint log-densities of samples in binary64 (C70): the decomposition path
    [evaluate_iid] and the exponential-family path. *)
From Coq Require Import ZArith Reals Bool String List Lia Lra.
From Coq Require Import Floats.SpecFloat.
From Flocq Require Import Core.
From Verif Require Import Num EggSpec LitFacts EggNum FloatFacts FloatErr JitAcc AccSpec AccProofs RoundSpec RoundProofs RelErr
  DensitySpec CoreModel CombModel ExpFamModel DistModel DistSpec DistFacts BuilderProofs DistProofs DistFloat SumFloat FamFloatSpec FamFloat FactFloat FamFloat2.
Import ListNotations.
Local Open Scope R_scope.

(** Finite real sums. *)
Lemma Rsum_plus {A} (f g : A -> R) l : Rsum (map (fun x => f x + g x) l) = Rsum (map f l) + Rsum (map g l).
Proof. induction l as [|a l IH]; [cbn; ring|]. cbn [map]. rewrite !Rsum_cons, IH. ring. Qed.
Lemma Rsum_scal {A} k (f : A -> R) l : Rsum (map (fun x => k * f x) l) = k * Rsum (map f l).
Proof. induction l as [|a l IH]; [cbn; ring|]. cbn [map]. rewrite !Rsum_cons, IH. ring. Qed.
Lemma Rsum_const {A} k (l : list A) : Rsum (map (fun _ => k) l) = INR (length l) * k.
Proof. induction l as [|a l IH]; [cbn; ring|]. cbn [map length]. rewrite Rsum_cons, IH, S_INR. ring. Qed.
Lemma Rsum_le {A} (f g : A -> R) l : (forall x, In x l -> f x <= g x) -> Rsum (map f l) <= Rsum (map g l).
Proof.
  intros H. induction l as [|a l IH]; [cbn; lra|]. cbn [map]. rewrite !Rsum_cons.
  pose proof (H a (or_introl eq_refl)). specialize (IH (fun x I => H x (or_intror I))). lra.
Qed.
Lemma Rsum_ext {A} (f g : A -> R) l : (forall x, In x l -> f x = g x) -> Rsum (map f l) = Rsum (map g l).
Proof.
  intros H. induction l as [|a l IH]; [reflexivity|]. cbn [map]. rewrite !Rsum_cons.
  rewrite (H a (or_introl eq_refl)), (IH (fun x I => H x (or_intror I))). reflexivity.
Qed.
Lemma sum_acc_pos {A} k (m r : A -> R) (w : A -> f64) l : Forall (fun a => acc k (m a) (r a) (w a)) l -> 0 <= Rsum (map m l).
Proof. intros F. apply Rsum_pos. rewrite Forall_map. eapply Forall_impl; [|exact F]. intros b B. exact (acc_pos _ _ _ _ B). Qed.
Lemma one_le {A} (l : list A) : l <> [] -> 1 <= INR (length l).
Proof. destruct l as [|a l]; [congruence|]. intros _. cbn [length]. rewrite S_INR. pose proof (pos_INR (length l)). lra. Qed.

Lemma list_eq_dec_nil {A} (l : list A) : {l = []} + {l <> []}.
Proof. destruct l; [left; reflexivity|right; discriminate]. Qed.

Section Iid.
Context (L : libm).
Notation F := (F64 L).

(** A count times an accurate number. *)
Lemma times_count n k m r w : count_ok n -> acc k m r w -> 0 <= k <= 10000000000000 -> INR n * m <= big ->
  acc (k + 1) (INR n * m + small) (INR n * r) (f64_mul (@nofn F n) w).
Proof.
  intros N A K M. replace (k + 1) with (0 + k + 1) by ring. apply acc_mul; ks; [apply acc_count; exact N|exact A].
Qed.

(** The decomposition evaluated over a sample. *)
Lemma decomp_iid {X Theta} (d : Decomp F X Theta) xs th k md rd mp rp mm rm mc rc M : 0 <= k <= 1000000000000 -> count_ok (length xs) ->
  Forall (fun x => acc k (md x) (rd x) (evaluate_data_terms d x)) xs ->
  acc k mp rp (evaluate_param_terms d th) ->
  Forall (fun x => acc k (mm x) (rm x) (mixed_sum d x th)) xs ->
  acc k mc rc (constant_sum d) ->
  Rsum (map md xs) + (INR (length xs) * mp + small) + Rsum (map mm xs) + (INR (length xs) * mc + small) <= M -> M <= big ->
  acc (k + INR (length xs) + 4) M
    (Rsum (map rd xs) + INR (length xs) * rp + Rsum (map rm xs) + INR (length xs) * rc) (d_evaluate_iid d xs th).
Proof.
  intros K N HD HP HM HC B MB. sizes. pose proof (sum_acc_pos _ _ _ _ _ HD) as PD. pose proof (sum_acc_pos _ _ _ _ _ HM) as PM.
  pose proof (acc_pos _ _ _ _ HP) as PP. pose proof (acc_pos _ _ _ _ HC) as PC. pose proof (pos_INR (length xs)) as PN.
  assert (N1 : 0 <= INR (length xs) * mp) by (apply Rmult_le_pos; assumption). assert (N2 : 0 <= INR (length xs) * mc) by (apply Rmult_le_pos; assumption).
  assert (NB : INR (length xs) <= 1099511627776) by exact N.
  pose proof (sum_acc L md rd (evaluate_data_terms d) k xs ltac:(lra) N HD ltac:(lra)) as SD.
  pose proof (sum_acc L mm rm (fun x => mixed_sum d x th) k xs ltac:(lra) N HM ltac:(lra)) as SM.
  pose proof (times_count (length xs) k mp rp _ N HP ltac:(lra) ltac:(lra)) as TP.
  pose proof (times_count (length xs) k mc rc _ N HC ltac:(lra) ltac:(lra)) as TC.
  set (n := INR (length xs)) in *.
  change (d_evaluate_iid d xs th) with
    (f64_add (f64_add (f64_add (fold_left (@nadd F) (map (evaluate_data_terms d) xs) n0) (f64_mul (@nofn F (length xs)) (evaluate_param_terms d th)))
       (fold_left (@nadd F) (map (fun x => mixed_sum d x th) xs) n0)) (f64_mul (@nofn F (length xs)) (constant_sum d))).
  assert (S1 : acc (k + n + 1 + 1) (Rsum (map md xs) + (n * mp + small)) (Rsum (map rd xs) + n * rp)
    (f64_add (fold_left (@nadd F) (map (evaluate_data_terms d) xs) n0) (f64_mul (@nofn F (length xs)) (evaluate_param_terms d th)))).
  { apply acc_add; ks; [apply (acc_k (k + n)); [exact SD|lra]|apply (acc_k (k + 1)); [exact TP|lra]]. }
  assert (S2 : acc (k + n + 1 + 1 + 1) (Rsum (map md xs) + (n * mp + small) + Rsum (map mm xs)) (Rsum (map rd xs) + n * rp + Rsum (map rm xs))
    (f64_add (f64_add (fold_left (@nadd F) (map (evaluate_data_terms d) xs) n0) (f64_mul (@nofn F (length xs)) (evaluate_param_terms d th)))
       (fold_left (@nadd F) (map (fun x => mixed_sum d x th) xs) n0))).
  { apply acc_add; ks; [exact S1|apply (acc_k (k + n)); [exact SM|lra]]. }
  replace (k + n + 4) with (k + n + 1 + 1 + 1 + 1) by ring.
  eapply acc_more; [apply acc_add; [exact S2|apply (acc_k (k + 1)); [exact TC|lra]| | |]|..]; ks.
Qed.

(** Sufficient statistics added up, one or two per observation. *)
Lemma stats_one {X} (s : X -> f64) xs a : fold_left (@add_into F) (map (fun x => [s x]) xs) [a] = [fold_left (@nadd F) (map s xs) a].
Proof. revert a. induction xs as [|x xs IH]; intros a; [reflexivity|apply IH]. Qed.
Lemma stats_two {X} (s t : X -> f64) xs a b :
  fold_left (@add_into F) (map (fun x => [s x; t x]) xs) [a; b] = [fold_left (@nadd F) (map s xs) a; fold_left (@nadd F) (map t xs) b].
Proof. revert a b. induction xs as [|x xs IH]; intros a b; [reflexivity|apply IH]. Qed.

(** The family path over a sample. *)
Lemma ef_iid_one {X} (eta A : f64) (s : X -> f64) (base : Base F X) xs K ke me re k1 ms rs kA mA rA mh rh M :
  xs <> [] -> count_ok (length xs) -> 0 <= ke -> 0 <= k1 -> 0 <= kA -> ke + k1 + 1 <= K -> kA + 1 <= K -> K <= 1000000000000 ->
  acc ke me re eta -> Forall (fun x => acc k1 (ms x) (rs x) (s x)) xs -> acc kA mA rA A -> Forall (fun x => acc K (mh x) (rh x) (b_ld base x)) xs ->
  Rsum (map ms xs) <= big ->
  me * Rsum (map ms xs) + small + (INR (length xs) * mA + small) + Rsum (map mh xs) <= M -> M <= big ->
  acc (K + INR (length xs) + 2) M (re * Rsum (map rs xs) - INR (length xs) * rA + Rsum (map rh xs))
    (compute_iid (@expfam F X 1 [eta] A (fun x => [s x]) base) xs).
Proof.
  intros NE N KE K1 KA Q1 Q2 KB HE HS HA HH BS B MB. sizes. pose proof (sum_acc_pos _ _ _ _ _ HS) as PS. pose proof (sum_acc_pos _ _ _ _ _ HH) as PH.
  pose proof (acc_pos _ _ _ _ HE) as PE. pose proof (acc_pos _ _ _ _ HA) as PA. pose proof (pos_INR (length xs)) as PN.
  assert (N1 : 0 <= INR (length xs) * mA) by (apply Rmult_le_pos; assumption). assert (N2 : 0 <= me * Rsum (map ms xs)) by (apply Rmult_le_pos; assumption).
  assert (NB : INR (length xs) <= 1099511627776) by exact N.
  pose proof (sum_acc L ms rs s k1 xs ltac:(lra) N HS ltac:(lra)) as SS.
  pose proof (sum_acc L mh rh (b_ld base) K xs ltac:(lra) N HH ltac:(lra)) as SH.
  pose proof (times_count (length xs) kA mA rA _ N HA ltac:(lra) ltac:(lra)) as TA.
  replace (compute_iid (@expfam F X 1 [eta] A (fun x => [s x]) base) xs) with
    (f64_add (f64_sub (f64_add (f64_of_Z 0) (f64_mul eta (fold_left (@nadd F) (map s xs) n0))) (f64_mul (@nofn F (length xs)) A)) (fold_left (@nadd F) (map (b_ld base) xs) n0)).
  2:{ unfold compute_iid. destruct xs as [|x0 xs0]; [congruence|]. cbv zeta. cbn [ef_dim ef_natural ef_stat ef_partition ef_base expfam]. unfold sum_sufficient_stats.
      cbn [repeat]. rewrite stats_one. reflexivity. }
  set (n := INR (length xs)) in *. set (SS1 := fold_left (@nadd F) (map s xs) (@n0 F)) in *. set (nA := f64_mul _ A) in *. clearbody nA.
  assert (P1 : acc (ke + (k1 + n) + 1) (me * Rsum (map ms xs) + small) (re * Rsum (map rs xs)) (f64_mul eta SS1)) by (apply acc_mul; ks; assumption).
  assert (P2 : acc (K + n + 1) (me * Rsum (map ms xs) + small + (n * mA + small)) (re * Rsum (map rs xs) - n * rA) (f64_sub (f64_add (f64_of_Z 0) (f64_mul eta SS1)) nA)).
  { apply acc_sub; ks; [apply acc_add_zero; eapply acc_k; [exact P1|lra]|eapply acc_k; [exact TA|lra]]. }
  replace (K + n + 2) with (K + n + 1 + 1) by ring.
  eapply acc_more; [apply acc_add; [exact P2|eapply acc_k; [exact SH|lra]| | |]|..]; ks.
Qed.
Lemma ef_iid_two {X} (eta zeta A : f64) (s t : X -> f64) (base : Base F X) xs K ke me re kz mz rz k1 ms rs k2 mt rt kA mA rA mh rh M :
  xs <> [] -> count_ok (length xs) -> 0 <= ke -> 0 <= kz -> 0 <= k1 -> 0 <= k2 -> 0 <= kA ->
  ke + k1 + 1 <= K -> kz + k2 + 1 <= K -> kA + 1 <= K -> K <= 1000000000000 ->
  acc ke me re eta -> acc kz mz rz zeta -> Forall (fun x => acc k1 (ms x) (rs x) (s x)) xs -> Forall (fun x => acc k2 (mt x) (rt x) (t x)) xs ->
  acc kA mA rA A -> Forall (fun x => acc K (mh x) (rh x) (b_ld base x)) xs ->
  Rsum (map ms xs) <= big -> Rsum (map mt xs) <= big ->
  me * Rsum (map ms xs) + small + (mz * Rsum (map mt xs) + small) + (INR (length xs) * mA + small) + Rsum (map mh xs) <= M -> M <= big ->
  acc (K + INR (length xs) + 3) M (re * Rsum (map rs xs) + rz * Rsum (map rt xs) - INR (length xs) * rA + Rsum (map rh xs))
    (compute_iid (@expfam F X 2 [eta; zeta] A (fun x => [s x; t x]) base) xs).
Proof.
  intros NE N KE KZ K1 K2 KA Q1 Q3 Q2 KB HE HZ HS HT HA HH BS BT B MB. sizes. pose proof (sum_acc_pos _ _ _ _ _ HS) as PS. pose proof (sum_acc_pos _ _ _ _ _ HT) as PT. pose proof (sum_acc_pos _ _ _ _ _ HH) as PH.
  pose proof (acc_pos _ _ _ _ HE) as PE. pose proof (acc_pos _ _ _ _ HZ) as PZ. pose proof (acc_pos _ _ _ _ HA) as PA. pose proof (pos_INR (length xs)) as PN.
  assert (N1 : 0 <= INR (length xs) * mA) by (apply Rmult_le_pos; assumption). assert (N2 : 0 <= me * Rsum (map ms xs)) by (apply Rmult_le_pos; assumption).
  assert (N3 : 0 <= mz * Rsum (map mt xs)) by (apply Rmult_le_pos; assumption). assert (NB : INR (length xs) <= 1099511627776) by exact N.
  pose proof (sum_acc L ms rs s k1 xs ltac:(lra) N HS ltac:(lra)) as SS.
  pose proof (sum_acc L mt rt t k2 xs ltac:(lra) N HT ltac:(lra)) as ST.
  pose proof (sum_acc L mh rh (b_ld base) K xs ltac:(lra) N HH ltac:(lra)) as SH.
  pose proof (times_count (length xs) kA mA rA _ N HA ltac:(lra) ltac:(lra)) as TA.
  replace (compute_iid (@expfam F X 2 [eta; zeta] A (fun x => [s x; t x]) base) xs) with
    (f64_add (f64_sub (f64_add (f64_add (f64_of_Z 0) (f64_mul eta (fold_left (@nadd F) (map s xs) n0))) (f64_mul zeta (fold_left (@nadd F) (map t xs) n0)))
       (f64_mul (@nofn F (length xs)) A)) (fold_left (@nadd F) (map (b_ld base) xs) n0)).
  2:{ unfold compute_iid. destruct xs as [|x0 xs0]; [congruence|]. cbv zeta. cbn [ef_dim ef_natural ef_stat ef_partition ef_base expfam]. unfold sum_sufficient_stats.
      cbn [repeat]. rewrite stats_two. reflexivity. }
  set (n := INR (length xs)) in *. set (SS1 := fold_left (@nadd F) (map s xs) (@n0 F)) in *. set (TT1 := fold_left (@nadd F) (map t xs) (@n0 F)) in *. set (nA := f64_mul _ A) in *. clearbody nA.
  assert (P1 : acc (ke + (k1 + n) + 1) (me * Rsum (map ms xs) + small) (re * Rsum (map rs xs)) (f64_mul eta SS1)) by (apply acc_mul; ks; assumption).
  assert (P2 : acc (kz + (k2 + n) + 1) (mz * Rsum (map mt xs) + small) (rz * Rsum (map rt xs)) (f64_mul zeta TT1)) by (apply acc_mul; ks; assumption).
  assert (P3 : acc (K + n + 1) (me * Rsum (map ms xs) + small + (mz * Rsum (map mt xs) + small)) (re * Rsum (map rs xs) + rz * Rsum (map rt xs))
    (f64_add (f64_add (f64_of_Z 0) (f64_mul eta SS1)) (f64_mul zeta TT1))).
  { apply acc_add; ks; [apply acc_add_zero; eapply acc_k; [exact P1|lra]|eapply acc_k; [exact P2|lra]]. }
  assert (P4 : acc (K + n + 2) (me * Rsum (map ms xs) + small + (mz * Rsum (map mt xs) + small) + (n * mA + small)) (re * Rsum (map rs xs) + rz * Rsum (map rt xs) - n * rA)
    (f64_sub (f64_add (f64_add (f64_of_Z 0) (f64_mul eta SS1)) (f64_mul zeta TT1)) nA)).
  { replace (K + n + 2) with (K + n + 1 + 1) by ring. apply acc_sub; ks; [exact P3|eapply acc_k; [exact TA|lra]]. }
  replace (K + n + 3) with (K + n + 2 + 1) by ring.
  eapply acc_more; [apply acc_add; [exact P4|eapply acc_k; [exact SH|lra]| | |]|..]; ks.
Qed.
(** Primitive base measures contribute exact zeros. *)
Lemma prim_zero {X} (xs : list X) K : 0 <= K -> Forall (fun x => acc K 0 0 (b_ld (@prim F X) x)) xs.
Proof. intros K0. apply Forall_forall. intros x _. apply (acc_k 0); [exact acc_zero|lra]. Qed.
Lemma zero_sums {X} (xs : list X) : Rsum (map (fun _ => 0) xs) = 0.
Proof. rewrite Rsum_const. ring. Qed.

(** The same with bounds and exact values given per observation; any sample,
    the empty one included. *)
Lemma sum_huge {A} (f : A -> R) l : count_ok (length l) -> (forall x, In x l -> f x <= huge) -> Rsum (map f l) <= big.
Proof.
  intros N H. eapply Rle_trans; [apply (Rsum_le f (fun _ => huge)); exact H|]. rewrite Rsum_const. unfold count_ok in N.
  apply Rle_trans with (bpow radix2 40 * huge); [apply Rmult_le_compat_r; [apply bpow_ge_0|exact N]|]. unfold huge, big. rewrite <- bpow_plus. apply bpow_le. lia.
Qed.
Lemma slack {A} (f g : A -> R) l d : l <> [] -> 0 <= d -> (forall x, In x l -> f x + d <= g x) -> Rsum (map f l) + d <= Rsum (map g l).
Proof.
  intros NE D H. pose proof (Rsum_le _ _ l H) as S. rewrite Rsum_plus, Rsum_const in S. pose proof (one_le l NE). nra.
Qed.
Lemma sample_one {X} (eta A : f64) (s : X -> f64) (base : Base F X) xs K ke me re k1 ms rs kA mA rA mh rh sc tr :
  count_ok (length xs) -> 0 <= ke -> 0 <= k1 -> 0 <= kA -> ke + k1 + 1 <= K -> kA + 1 <= K -> K <= 1000000000000 ->
  acc ke me re eta -> (forall x, In x xs -> acc k1 (ms x) (rs x) (s x)) -> acc kA mA rA A -> (forall x, In x xs -> acc K (mh x) (rh x) (b_ld base x)) ->
  (forall x, In x xs -> ms x <= huge) ->
  (forall x, In x xs -> me * ms x + mA + mh x + 2 * small <= sc x) -> (forall x, In x xs -> re * rs x - rA + rh x = tr x) -> Rsum (map sc xs) <= big ->
  acc (K + INR (length xs) + 2) (Rsum (map sc xs)) (Rsum (map tr xs)) (compute_iid (@expfam F X 1 [eta] A (fun x => [s x]) base) xs).
Proof.
  intros N KE K1 KA Q1 Q2 KB HE HS HA HH BS SC TR M. sizes. pose proof (pos_INR (length xs)) as PN.
  destruct (list_eq_dec_nil xs) as [-> |NE].
  { cbn [map Rsum fold_right length INR compute_iid]. apply (acc_k 0); [exact acc_zero|lra]. }
  replace (Rsum (map tr xs)) with (re * Rsum (map rs xs) - INR (length xs) * rA + Rsum (map rh xs)).
  2:{ rewrite <- (Rsum_ext _ _ _ TR). rewrite (Rsum_plus (fun x => re * rs x - rA)). unfold Rminus. rewrite (Rsum_plus (fun x => re * rs x)), Rsum_scal, Rsum_const. ring. }
  rewrite <- Forall_forall in HS, HH.
  apply (ef_iid_one eta A s base xs K ke me re k1 ms rs kA mA rA mh rh); try assumption; [apply sum_huge; assumption|].
  pose proof (slack (fun x => me * ms x + mA + mh x) sc xs (2 * small) NE ltac:(lra) SC) as SL.
  rewrite (Rsum_plus (fun x => me * ms x + mA)), (Rsum_plus (fun x => me * ms x)), Rsum_scal, Rsum_const in SL. lra.
Qed.
Lemma sample_two {X} (eta zeta A : f64) (s t : X -> f64) (base : Base F X) xs K ke me re kz mz rz k1 ms rs k2 mt rt kA mA rA mh rh sc tr :
  count_ok (length xs) -> 0 <= ke -> 0 <= kz -> 0 <= k1 -> 0 <= k2 -> 0 <= kA ->
  ke + k1 + 1 <= K -> kz + k2 + 1 <= K -> kA + 1 <= K -> K <= 1000000000000 ->
  acc ke me re eta -> acc kz mz rz zeta -> (forall x, In x xs -> acc k1 (ms x) (rs x) (s x)) -> (forall x, In x xs -> acc k2 (mt x) (rt x) (t x)) ->
  acc kA mA rA A -> (forall x, In x xs -> acc K (mh x) (rh x) (b_ld base x)) ->
  (forall x, In x xs -> ms x <= huge) -> (forall x, In x xs -> mt x <= huge) ->
  (forall x, In x xs -> me * ms x + mz * mt x + mA + mh x + 3 * small <= sc x) -> (forall x, In x xs -> re * rs x + rz * rt x - rA + rh x = tr x) ->
  Rsum (map sc xs) <= big ->
  acc (K + INR (length xs) + 3) (Rsum (map sc xs)) (Rsum (map tr xs)) (compute_iid (@expfam F X 2 [eta; zeta] A (fun x => [s x; t x]) base) xs).
Proof.
  intros N KE KZ K1 K2 KA Q1 Q3 Q2 KB HE HZ HS HT HA HH BS BT SC TR M. sizes. pose proof (pos_INR (length xs)) as PN.
  destruct (list_eq_dec_nil xs) as [-> |NE].
  { cbn [map Rsum fold_right length INR compute_iid]. apply (acc_k 0); [exact acc_zero|lra]. }
  replace (Rsum (map tr xs)) with (re * Rsum (map rs xs) + rz * Rsum (map rt xs) - INR (length xs) * rA + Rsum (map rh xs)).
  2:{ rewrite <- (Rsum_ext _ _ _ TR). rewrite (Rsum_plus (fun x => re * rs x + rz * rt x - rA)). unfold Rminus.
      rewrite (Rsum_plus (fun x => re * rs x + rz * rt x)), (Rsum_plus (fun x => re * rs x)), !Rsum_scal, Rsum_const. ring. }
  rewrite <- Forall_forall in HS, HT, HH.
  apply (ef_iid_two eta zeta A s t base xs K ke me re kz mz rz k1 ms rs k2 mt rt kA mA rA mh rh); try assumption; try (apply sum_huge; assumption).
  pose proof (slack (fun x => me * ms x + mz * mt x + mA + mh x) sc xs (3 * small) NE ltac:(lra) SC) as SL.
  rewrite (Rsum_plus (fun x => me * ms x + mz * mt x + mA)), (Rsum_plus (fun x => me * ms x + mz * mt x)), (Rsum_plus (fun x => me * ms x)), !Rsum_scal, Rsum_const in SL. lra.
Qed.
Lemma zero_times w : is_num w -> acc 0 0 0 (f64_mul (@nofn F 0) w).
Proof.
  intros N. change (@nofn F 0) with (f64_of_Z 0). destruct zero_num as [N0 V0].
  assert (RZ : RN 0 = 0) by (unfold RN; apply round_0; auto with typeclass_instances).
  destruct (mul_num (f64_of_Z 0) w N0 N) as [N' V]; [rewrite V0, Rmult_0_l, RZ, Rabs_R0; apply bpow_gt_0|].
  apply acc_is; [exact N'|rewrite V, V0, Rmult_0_l; exact RZ|rewrite Rabs_R0; lra].
Qed.
Lemma decomp_sample {X Theta} (d : Decomp F X Theta) xs th k md rd mp rp mm rm mc rc sc tr : 0 <= k <= 1000000000000 -> count_ok (length xs) ->
  (forall x, In x xs -> acc k (md x) (rd x) (evaluate_data_terms d x)) ->
  acc k mp rp (evaluate_param_terms d th) ->
  (forall x, In x xs -> acc k (mm x) (rm x) (mixed_sum d x th)) ->
  acc k mc rc (constant_sum d) ->
  (forall x, In x xs -> md x + mp + mm x + mc + 2 * small <= sc x) -> (forall x, In x xs -> rd x + rp + rm x + rc = tr x) -> Rsum (map sc xs) <= big ->
  acc (k + INR (length xs) + 4) (Rsum (map sc xs)) (Rsum (map tr xs)) (d_evaluate_iid d xs th).
Proof.
  intros K N HD HP HM HC SC TR M. sizes. pose proof (pos_INR (length xs)) as PN.
  destruct (list_eq_dec_nil xs) as [-> |NE].
  { cbn [map Rsum fold_right length INR].
    change (d_evaluate_iid d [] th) with (f64_add (f64_add (f64_add (f64_of_Z 0) (f64_mul (@nofn F 0) (evaluate_param_terms d th))) (f64_of_Z 0)) (f64_mul (@nofn F 0) (constant_sum d))).
    pose proof (zero_times _ (proj1 HP)) as ZP. pose proof (zero_times _ (proj1 HC)) as ZC.
    assert (Z : forall j u v, 0 <= j <= 10 -> acc j 0 0 u -> acc 0 0 0 v -> acc (j + 1) 0 0 (f64_add u v)).
    { intros j u v J U V. rewrite <- (Rplus_0_r 0) at 1 2. apply acc_add; ks; [exact U|apply (acc_k 0); [exact V|lra]]. }
    apply (acc_k (0 + 1 + 1 + 1)); [|lra]. apply Z; [lra| |exact ZC]. apply Z; [lra| |exact acc_zero]. apply Z; [lra|exact acc_zero|exact ZP]. }
  replace (Rsum (map tr xs)) with (Rsum (map rd xs) + INR (length xs) * rp + Rsum (map rm xs) + INR (length xs) * rc).
  2:{ rewrite <- (Rsum_ext _ _ _ TR). rewrite (Rsum_plus (fun x => rd x + rp + rm x)), (Rsum_plus (fun x => rd x + rp)), (Rsum_plus rd), !Rsum_const. ring. }
  rewrite <- Forall_forall in HD, HM. apply (decomp_iid d xs th k md rd mp rp mm rm mc rc); try assumption.
  pose proof (slack (fun x => md x + mp + mm x + mc) sc xs (2 * small) NE ltac:(lra) SC) as SL.
  rewrite (Rsum_plus (fun x => md x + mp + mm x)), (Rsum_plus (fun x => md x + mp)), (Rsum_plus md), !Rsum_const in SL. lra.
Qed.
End Iid.
