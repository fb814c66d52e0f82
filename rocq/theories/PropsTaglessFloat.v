(** The interpreter-generic functions and log-densities in binary64 (C74).
    [DirectEval] computes with the machine's numbers. *)
From Coquelicot Require Import Coquelicot.
From Coq Require Import ZArith Reals Bool String List Lia Lra.
From Coq Require Import Floats.SpecFloat.
From Flocq Require Import Core.
From Verif Require Import Num EggSpec FloatErr RoundSpec RoundProofs RelErr DensitySpec CoreSpec CoreModel DistModel DistSpec DistProofs DistFloat IntSpec
  TaglessModel TaglessFloatSpec TaglessFloat TaglessFloat2.
From Verif Require JitAcc PropsTagless.
Import ListNotations.
Local Open Scope R_scope.

(** * C74: log-densities *)
(** The interpreter-generic normal, and the distribution interpreter's own. *)
Theorem C74_normal : forall c lg L mu sd x, libm_ok c lg L -> 0 <= c <= 1000000 ->
  is_num mu -> is_num sd -> is_num x -> 0 < val sd -> Rabs (val mu) <= huge -> Rabs (val x) <= huge ->
  let z := (val x - val mu) / val sd in Rabs z <= bpow radix2 400 ->
  within (2 * (c + 7)) (z * z + Rabs (ln (val sd)) + 2) (ln (normal_pdf (val mu) (val sd) (val x))) (p_normal (@DirectEval (F64 L)) x mu sd) /\
  within (2 * (c + 7)) (z * z + Rabs (ln (val sd)) + 2) (ln (normal_pdf (val mu) (val sd) (val x))) (@de_normal (F64 L) x mu sd).
Proof.
  intros c lg L mu sd x LOK C0 N1 N2 N3 P B1 B2 z B3. split; (apply acc_within; [|lra|apply keps; lra]).
  - apply (tagless_normal c lg L LOK C0); assumption.
  - rewrite eval_normal_same. apply (normal_float c lg L LOK C0); assumption.
Qed.
Print Assumptions C74_normal.
Theorem C74_standard_normal : forall c lg L x, libm_ok c lg L -> 0 <= c <= 1000000 -> is_num x -> Rabs (val x) <= bpow radix2 400 ->
  within (2 * (c + 6)) (val x * val x + 2) (ln (normal_pdf 0 1 (val x))) (p_standard_normal (@DirectEval (F64 L)) x).
Proof. intros c lg L x LOK C0 N B. apply acc_within; [apply (tagless_standard_normal c lg L LOK C0); assumption|lra|apply keps; lra]. Qed.
Print Assumptions C74_standard_normal.
(** The generic exponential computes ln rate - rate x at every x (C43: also
    outside the support); the interpreter's own returns minus infinity there. *)
Theorem C74_exponential : forall c lg L rate x, libm_ok c lg L -> 0 <= c <= 1000000 -> is_num rate -> is_num x -> 0 < val rate -> val rate * Rabs (val x) <= huge ->
  within (2 * (c + 2)) (Rabs (ln (val rate)) + val rate * Rabs (val x) + 1) (ln (val rate) - val rate * val x) (p_exponential (@DirectEval (F64 L)) x rate) /\
  (0 <= val x -> within (2 * (c + 2)) (Rabs (ln (val rate)) + val rate * val x + 1) (ln (exponential_pdf (val rate) (val x))) (@de_exponential (F64 L) x rate)) /\
  (val x < 0 -> @de_exponential (F64 L) x rate = S754_infinity true).
Proof.
  intros c lg L rate x LOK C0 N1 N2 P B. split; [|split].
  - apply acc_within; [apply (tagless_exponential c lg L LOK C0); assumption|lra|apply keps; lra].
  - intros X. rewrite Rabs_pos_eq in B by exact X. rewrite eval_exponential_same. apply acc_within; [apply (exponential_float c lg L LOK C0); assumption|lra|apply keps; lra].
  - intros X. unfold de_exponential. replace (@nleb (F64 L) n0 x) with false; [reflexivity|]. symmetry. change (SFleb (f64_of_Z 0) x = false).
    destruct zero_num as [N0 V0]. rewrite (SFleb_num _ _ N0 N2), V0. apply Rle_bool_false. exact X.
Qed.
Print Assumptions C74_exponential.
Theorem C74_cauchy : forall c lg L loc sc x, libm_ok c lg L -> 0 <= c <= 1000000 ->
  is_num loc -> is_num sc -> is_num x -> 0 < val sc -> Rabs (val loc) <= huge -> Rabs (val x) <= huge ->
  let z := (val x - val loc) / val sc in Rabs z <= bpow radix2 400 ->
  within (2 * (c + 50)) (ln (1 + z * z) + Rabs (ln (val sc)) + 5) (ln (cauchy_pdf (val loc) (val sc) (val x))) (p_cauchy (@DirectEval (F64 L)) x loc sc).
Proof.
  intros c lg L loc sc x LOK C0 N1 N2 N3 P B1 B2 z B3. rewrite tagless_cauchy_same.
  apply acc_within; [apply (cauchy_float c lg L LOK C0); assumption|lra|apply keps; lra].
Qed.
Print Assumptions C74_cauchy.
(** The Poisson pattern accurately computes its wrong formula (C43). *)
Theorem C74_poisson : forall c lg L rate x, libm_ok c lg L -> 0 <= c <= 1000000 -> is_num rate -> is_num x -> 0 < val rate <= huge -> 0 < val x <= huge ->
  within (2 * (c + 3)) (val x * Rabs (ln (val rate)) + val rate + Rabs (ln (val x)) + small * (val x + 3)) (val x * ln (val rate) - val rate - ln (val x))
    (p_poisson (@DirectEval (F64 L)) x rate).
Proof. intros c lg L rate x LOK C0 N1 N2 P X. apply acc_within; [apply (tagless_poisson c lg L LOK C0); assumption|lra|apply keps; lra]. Qed.
Print Assumptions C74_poisson.
(** The interpreter's log-gamma: the library's up to 12, beyond it Stirling's
    formula, off by at most 1/(12 a) plus rounding. *)
Theorem C74_log_gamma : forall c lg L a, libm_ok c lg L -> 0 <= c <= 1000000 -> lg_is_log_gamma lg -> is_num a ->
  (0 < val a <= 12 -> Rabs (lg (val a)) <= huge -> within c (1 + Rabs (lg (val a))) (lg (val a)) (@de_log_gamma (F64 L) a)) /\
  (12 < val a <= huge -> is_num (@de_log_gamma (F64 L) a) /\
    Rabs (val (@de_log_gamma (F64 L) a) - lg (val a)) <= 2 * (c + 7) * eps * (val a * (ln (val a) + 2) + 2) + / (12 * val a)).
Proof.
  intros c lg L a LOK C0 HG N. split.
  - intros A B. rewrite small_shape by (lra || assumption). destruct (ok_lgamma c lg L LOK a N ltac:(lra)) as [NW W]; [eapply Rle_trans; [exact B|apply bpow_le; lia]|]. split; assumption.
  - intros A. apply (large_log_gamma c lg L LOK C0 HG); assumption.
Qed.
Print Assumptions C74_log_gamma.
Theorem C74_gamma : forall c lg L a b x, libm_ok c lg L -> 0 <= c <= 1000000 -> lg_is_log_gamma lg -> is_num a -> is_num b -> is_num x ->
  (0 < val a <= 12 -> 0 < val b -> 0 < val x -> val b * val x <= huge -> Rabs (lg (val a)) <= huge ->
   within (2 * (c + 5)) (val a * Rabs (ln (val b)) + Rabs (lg (val a)) + Rabs (val a - 1) * Rabs (ln (val x)) + val b * val x + 2 + small * (2 * val a + 1))
     (ln (gamma_pdf lg (val a) (val b) (val x))) (@de_gamma (F64 L) x a b)) /\
  (12 < val a <= huge -> 0 < val b -> 0 < val x -> val b * val x <= huge ->
   is_num (@de_gamma (F64 L) x a b) /\
   Rabs (val (@de_gamma (F64 L) x a b) - ln (gamma_pdf lg (val a) (val b) (val x))) <=
     2 * (c + 10) * eps * (val a * (Rabs (ln (val b)) + Rabs (ln (val x)) + ln (val a) + 3) + val b * val x + 3) + / (12 * val a)) /\
  (val x <= 0 -> @de_gamma (F64 L) x a b = S754_infinity true).
Proof.
  intros c lg L a b x LOK C0 HG N1 N2 N3. split; [|split].
  - intros A B X BX G. rewrite gamma_small by (lra || assumption). pose proof huge_one. apply acc_within; [apply (gamma_float c lg L LOK C0); try assumption; lra|lra|apply keps; lra].
  - intros A B X BX. apply (gamma_large c lg L LOK C0 HG); assumption.
  - intros X. unfold de_gamma. replace (@nltb (F64 L) n0 x) with false; [reflexivity|]. symmetry. change (SFltb (f64_of_Z 0) x = false).
    destruct zero_num as [N0 V0]. rewrite (SFltb_num _ _ N0 N3), V0. apply Rlt_bool_false. exact X.
Qed.
Print Assumptions C74_gamma.

(** * C74: logistic and softplus *)
(** Relative accuracy from -600 on; where the exponential overflows, zero. *)
Theorem C74_logistic : forall c lg L x, libm_ok c lg L -> 0 <= c <= 1000000 -> is_num x ->
  (-600 <= val x -> within (2 * (4 * c + 5)) (logistic_fn (val x)) (logistic_fn (val x)) (t_logistic (@DirectEval (F64 L)) x)) /\
  (l_exp L (SFopp x) = S754_infinity false -> t_logistic (@DirectEval (F64 L)) x = S754_zero false) /\
  t_sigmoid (@DirectEval (F64 L)) x = t_logistic (@DirectEval (F64 L)) x /\ ef_logistic (@DirectEval (F64 L)) x = t_logistic (@DirectEval (F64 L)) x.
Proof.
  intros c lg L x LOK C0 N. split; [|split; [apply logistic_overflow|split; reflexivity]]. intros B. destruct (logistic_float c lg L LOK C0 x N B) as [R _].
  apply acc_within; [|lra|apply keps; lra]. apply rel_acc in R; [|lra]. rewrite Rabs_pos_eq in R; [exact R|]. unfold logistic_fn. pose proof (exp_pos (val x)). left. apply Rmult_lt_0_compat; [lra|apply Rinv_0_lt_compat; lra].
Qed.
Print Assumptions C74_logistic.
Theorem C74_softplus : forall c lg L x, libm_ok c lg L -> 0 <= c <= 1000000 -> is_num x -> val x <= 600 ->
  within (2 * (9 * c + 8)) (softplus_fn (val x) + 1) (softplus_fn (val x)) (t_softplus (@DirectEval (F64 L)) x) /\
  ef_softplus (@DirectEval (F64 L)) x = t_softplus (@DirectEval (F64 L)) x.
Proof. intros c lg L x LOK C0 N B. split; [|reflexivity]. apply acc_within; [apply (softplus_float c lg L LOK C0); assumption|lra|apply keps; lra]. Qed.
Print Assumptions C74_softplus.
(** The bound is absolute: far to the left all digits are lost ... *)
Theorem C74_softplus_left_refuted : forall c lg L, libm_ok c lg L -> 0 <= c <= 1000000 ->
  Rabs (val (t_softplus (@DirectEval (F64 L)) (f64_of_Z (-60)))) <= small /\ / 10 ^ 30 <= softplus_fn (val (f64_of_Z (-60))).
Proof.
  intros c lg L LOK C0. destruct (num_int (-60) ltac:(lia)) as [N V]. split.
  - eapply Rle_trans; [apply (softplus_left c lg L LOK C0 _ N); lra|]. pose proof small_pos. pose proof eps_small. pose proof eps_pos. assert (c * eps <= 1) by nra. nra.
  - rewrite V. exact softplus_left_exact.
Qed.
Print Assumptions C74_softplus_left_refuted.
(** ... and to the right it overflows with the exponential, although its value
    is at most one more than its argument. *)
Theorem C74_softplus_overflow_refuted : forall L x, is_num x -> 0 <= val x -> l_exp L x = S754_infinity false -> l_ln L (S754_infinity false) = S754_infinity false ->
  t_softplus (@DirectEval (F64 L)) x = S754_infinity false /\ val x <= softplus_fn (val x) <= val x + 1.
Proof.
  intros L x N X E1 E2. split; [apply softplus_overflow; assumption|]. unfold softplus_fn. pose proof (exp_pos (val x)) as EP. split.
  - rewrite <- (ln_exp (val x)) at 1. apply ln_le; lra.
  - rewrite <- (ln_exp (val x + 1)). apply ln_le; [lra|]. rewrite exp_plus. pose proof (exp_ineq1_le 1). pose proof (exp_ineq1_le (val x)). nra.
Qed.
Print Assumptions C74_softplus_overflow_refuted.

(** * C74: sums of exponentials, products and dot products *)
(** The generic log-sum-exp does not shift by the maximum. *)
Theorem C74_log_sum_exp : forall c lg L v w l, libm_ok c lg L -> 0 <= c <= 1000000 ->
  Forall (fun v => is_num v /\ Rabs (val v) <= 600) (v :: w :: l) -> INR (length (v :: w :: l)) <= bpow radix2 20 ->
  let t := log_total (map val (v :: w :: l)) in
  within (2 * (9 * c + 2 * INR (length (v :: w :: l)))) (Rabs t + 1) t (TaglessModel.log_sum_exp (@DirectEval (F64 L)) (v :: w :: l)).
Proof.
  intros c lg L v w l LOK C0 A N t. pose proof (naive_log_sum_exp c lg L LOK C0 v w l A N) as W. cbv zeta in W.
  assert (E : log_total (map val (v :: w :: l)) = ln (Rsum (map (fun v => exp (val v)) (v :: w :: l)))) by (unfold log_total; rewrite map_map; reflexivity).
  unfold t. rewrite E. change (bpow radix2 20) with 1048576 in N. pose proof (pos_INR (length (v :: w :: l))). apply acc_within; [exact W|lra|apply keps; lra].
Qed.
Print Assumptions C74_log_sum_exp.
Theorem C74_log_sum_exp_short : forall L v,
  TaglessModel.log_sum_exp (@DirectEval (F64 L)) [v] = v /\ TaglessModel.log_sum_exp (@DirectEval (F64 L)) [] = S754_infinity true.
Proof. intros L v. split; reflexivity. Qed.
Print Assumptions C74_log_sum_exp_short.
Theorem C74_from_roots : forall L r rs x, is_num x -> Rabs (val x) <= huge -> Forall (fun r => is_num r /\ Rabs (val r) <= huge) (r :: rs) -> count_ok (length (r :: rs)) ->
  root_size1 x (r :: rs) <= huge -> let n := INR (length (r :: rs)) in
  within (4 * n) (root_size x (r :: rs) + n * small * root_size1 x (r :: rs)) (root_product x (r :: rs)) (from_roots (@DirectEval (F64 L)) (r :: rs) x).
Proof.
  intros L r rs x NX BX A LN M n. replace (4 * n) with (2 * (2 * n)) by ring. unfold count_ok in LN. pose proof (from_roots_float L r rs x NX BX A LN M) as W.
  change (bpow radix2 40) with 1099511627776 in LN. pose proof (pos_INR (length (r :: rs))). fold n in LN, W. apply acc_within; [exact W|unfold n; lra|apply keps; lra].
Qed.
Print Assumptions C74_from_roots.
Theorem C74_dot_product : forall L ps ss, Forall is_num ps -> Forall is_num ss -> length ps = length ss -> count_ok (length ps) -> dot_size ps ss <= big ->
  exists w, dot_product (@DirectEval (F64 L)) ps ss = Some w /\
    within (2 * (1 + INR (length ps))) (dot_size ps ss) (rdot (map val ps) (map val ss)) w.
Proof.
  intros L ps ss A B E N M. destruct (tagless_dot L ps ss A B E N M) as (w & W & T). exists w. split; [exact W|].
  unfold count_ok in N. change (bpow radix2 40) with 1099511627776 in N. pose proof (pos_INR (length ps)). apply acc_within; [exact T|lra|apply keps; lra].
Qed.
Print Assumptions C74_dot_product.
Theorem C74_exp_fam_log_density : forall L ps ss A h, Forall is_num ps -> Forall is_num ss -> length ps = length ss -> count_ok (length ps) -> is_num A -> is_num h ->
  let m := dot_size ps ss + Rabs (val A) + Rabs (val h) in m <= big ->
  exists w, t_exp_fam_log_density (@DirectEval (F64 L)) ps ss A h = Some w /\
    within (2 * (3 + INR (length ps))) m (rdot (map val ps) (map val ss) - val A + val h) w.
Proof.
  intros L ps ss A h N1 N2 E N NA NH m M. destruct (tagless_density L ps ss A h N1 N2 E N NA NH M) as (w & W & T). exists w. split; [exact W|].
  unfold count_ok in N. change (bpow radix2 40) with 1099511627776 in N. pose proof (pos_INR (length ps)). apply acc_within; [exact T|lra|apply keps; lra].
Qed.
Print Assumptions C74_exp_fam_log_density.
Theorem C74_iid_log_density : forall L ps ss A n h, Forall is_num ps -> Forall is_num ss -> length ps = length ss -> count_ok (length ps) -> is_num A -> is_num n -> is_num h ->
  let m := dot_size ps ss + (Rabs (val n) * Rabs (val A) + small) + Rabs (val h) in m <= big ->
  exists w, t_iid_log_density (@DirectEval (F64 L)) ps ss A n h = Some w /\
    within (2 * (3 + INR (length ps))) m (rdot (map val ps) (map val ss) - val n * val A + val h) w.
Proof.
  intros L ps ss A n h N1 N2 E N NA NN NH m M. destruct (tagless_iid L ps ss A n h N1 N2 E N NA NN NH M) as (w & W & T). exists w. split; [exact W|].
  unfold count_ok in N. change (bpow radix2 40) with 1099511627776 in N. pose proof (pos_INR (length ps)). apply acc_within; [exact T|lra|apply keps; lra].
Qed.
Print Assumptions C74_iid_log_density.

(** * Concrete cases: a correctly rounded library *)
Example C74_normal_case : forall lg, let L := rounded_libm lg in
  within 16 28 (ln (normal_pdf 1 2 11)) (p_normal (@DirectEval (F64 L)) (f64_of_Z 11) (f64_of_Z 1) (f64_of_Z 2)).
Proof.
  intros lg L. destruct (num_int 1 ltac:(lia)) as [NA VA]. destruct (num_int 2 ltac:(lia)) as [NB VB]. destruct (num_int 11 ltac:(lia)) as [NC VC]. pose proof huge_one.
  assert (Z : (11 - 1) / 2 = 5) by lra.
  destruct (C74_normal 1 lg L (f64_of_Z 1) (f64_of_Z 2) (f64_of_Z 11) (rounded_libm_ok lg) ltac:(lra) NA NB NC) as [[N W] _]; rewrite ?VA, ?VB, ?VC, ?Z; rewrite ?Rabs_pos_eq by lra; try lra.
  { apply Rle_trans with (bpow radix2 3); [change (bpow radix2 3) with 8; lra|apply bpow_le; lia]. }
  rewrite VA, VB, VC, Z in W. split; [exact N|]. eapply Rle_trans; [exact W|]. pose proof eps_pos. pose proof JitAcc.ln2_bounds. rewrite Rabs_pos_eq by lra. apply Rmult_le_compat; nra.
Qed.
Example C74_gamma_case : exists lg, lg_is_log_gamma lg /\ let L := rounded_libm lg in
  Rabs (val (@de_gamma (F64 L) (f64_of_Z 1) (f64_of_Z 25) (f64_of_Z 1)) - ln (gamma_pdf lg 25 1 1)) <= / 250.
Proof.
  destruct PropsTagless.C43_gamma_density_case as (lg & HG & _). exists lg. split; [exact HG|]. intros L.
  destruct (num_int 1 ltac:(lia)) as [NA VA]. destruct (num_int 25 ltac:(lia)) as [NB VB]. pose proof huge_one. pose proof eps_pos. pose proof eps_small.
  destruct (C74_gamma 1 lg L (f64_of_Z 25) (f64_of_Z 1) (f64_of_Z 1) (rounded_libm_ok lg) ltac:(lra) HG NB NA NA) as (_ & G & _).
  rewrite VA, VB in G. destruct (G ltac:(lra) ltac:(lra) ltac:(lra) ltac:(lra)) as [_ W]. eapply Rle_trans; [exact W|]. rewrite ln_1, Rabs_R0.
  assert (ln 25 <= 24) by (pose proof (exp_ineq1_le (ln 25)) as T; rewrite exp_ln in T by lra; lra).
  assert (0 <= ln 25) by (rewrite <- ln_1; apply ln_le; lra).
  assert (2 * (1 + 10) * eps * (25 * (0 + 0 + ln 25 + 3) + 1 * 1 + 3) <= / 100000) by nra. lra.
Qed.
Example C74_logistic_case : forall lg, let L := rounded_libm lg in
  Rabs (val (t_logistic (@DirectEval (F64 L)) (f64_of_Z 3)) - logistic_fn 3) <= 18 * eps /\ / 2 < logistic_fn 3 < 1.
Proof.
  intros lg L. destruct (num_int 3 ltac:(lia)) as [N V]. destruct (C74_logistic 1 lg L (f64_of_Z 3) (rounded_libm_ok lg) ltac:(lra) N) as [W _]. rewrite V in W. destruct (W ltac:(lra)) as [_ E].
  assert (Q : / 2 < logistic_fn 3 < 1).
  { unfold logistic_fn. pose proof (exp_ineq1_le 3). split; apply (Rmult_lt_reg_r (1 + exp 3)); try lra; unfold Rdiv; rewrite ?Rmult_assoc, ?Rinv_l by lra; lra. }
  split; [|exact Q]. eapply Rle_trans; [exact E|]. pose proof eps_pos. nra.
Qed.
Example C74_from_roots_case : forall L, within 8 2 (-1) (from_roots (@DirectEval (F64 L)) [f64_of_Z 1; f64_of_Z 3] (f64_of_Z 2)).
Proof.
  intros L. destruct (num_int 1 ltac:(lia)) as [NA VA]. destruct (num_int 2 ltac:(lia)) as [NB VB]. destruct (num_int 3 ltac:(lia)) as [NC VC]. pose proof huge_one. pose proof small_tiny. pose proof small_pos. pose proof eps_pos.
  pose proof (C74_from_roots L (f64_of_Z 1) [f64_of_Z 3] (f64_of_Z 2) NB) as W. cbv zeta in W. rewrite VB in W. rewrite Rabs_pos_eq in W by lra.
  unfold root_size, root_size1, root_product in W. cbn [map fold_right length INR] in W. rewrite VA, VB, VC in W.
  replace (2 - 1) with 1 in W by lra. replace (2 - 3) with (-1) in W by lra. replace (Rabs (-1)) with 1 in W by (rewrite Rabs_left1; lra). rewrite Rabs_R1 in W. rewrite (Rmax_left 1 1) in W by lra.
  destruct (W ltac:(lra)) as [N E].
  - constructor; [split; [exact NA|rewrite VA, Rabs_pos_eq; lra]|constructor; [split; [exact NC|rewrite VC, Rabs_pos_eq; lra]|constructor]].
  - unfold count_ok. cbn [INR]. change (bpow radix2 40) with 1099511627776. lra.
  - lra.
  - split; [exact N|]. replace (1 * (-1 * 1)) with (-1) in E by lra. eapply Rle_trans; [exact E|]. nra.
Qed.
Example C74_dot_case : forall L, exists w, dot_product (@DirectEval (F64 L)) [f64_of_Z 2; f64_of_Z 3] [f64_of_Z 5; f64_of_Z 7] = Some w /\ within 6 32 31 w.
Proof.
  intros L. destruct (num_int 2 ltac:(lia)) as [NA VA]. destruct (num_int 3 ltac:(lia)) as [NB VB]. destruct (num_int 5 ltac:(lia)) as [NC VC]. destruct (num_int 7 ltac:(lia)) as [ND VD]. pose proof huge_one. pose proof huge_big. pose proof small_tiny. pose proof small_pos. pose proof eps_pos.
  assert (S : dot_size [f64_of_Z 2; f64_of_Z 3] [f64_of_Z 5; f64_of_Z 7] <= 32).
  { unfold dot_size, pair_size. cbn [combine map Rsum fold_right fst snd]. rewrite VA, VB, VC, VD, !Rabs_pos_eq by lra. lra. }
  destruct (C74_dot_product L [f64_of_Z 2; f64_of_Z 3] [f64_of_Z 5; f64_of_Z 7]) as (w & W & N & E); [repeat constructor; assumption|repeat constructor; assumption|reflexivity| |lra|].
  { unfold count_ok. cbn [length INR]. change (bpow radix2 40) with 1099511627776. lra. }
  exists w. split; [exact W|]. split; [exact N|]. unfold rdot in E. cbn [map combine Rsum fold_right fst snd length INR] in E. rewrite VA, VB, VC, VD in E.
  replace (2 * 5 + (3 * 7 + 0)) with 31 in E by lra. eapply Rle_trans; [exact E|]. replace (2 * (1 + (1 + 1))) with 6 by lra. apply Rmult_le_compat_l; [lra|exact S].
Qed.
