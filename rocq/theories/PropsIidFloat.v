(** Joint log-densities of samples in binary64 (C70). *)
From Coq Require Import ZArith Reals Bool String List Lia Lra.
From Coq Require Import Floats.SpecFloat.
From Flocq Require Import Core.
From Verif Require Import Num EggSpec LitFacts FloatFacts FloatErr AccSpec RoundSpec RoundProofs RelErr
  DensitySpec CoreModel CombModel ExpFamModel DistModel DistSpec DistProofs DistFloat SumFloat FamFloatSpec FamFloat FactFloat FamFloat2 FamFloat3
  IidFloatSpec IidFloat IidFloat2 IidFloat3 CombProofs2 ContProofs2 PropsRound PropsDist PropsFamFloat.
Import ListNotations.
Local Open Scope R_scope.

(** * C70: the precomputed decompositions *)
(** Normal: data-dependent terms once per observation, parameter terms and the
    constant once, multiplied by the sample size. *)
Theorem C70_normal : forall c lg L mu sd xs, libm_ok c lg L -> 0 <= c <= 1000000 ->
  is_num mu -> is_num sd -> 0 < val sd -> Rabs (val mu) <= huge -> Forall is_num xs -> count_ok (length xs) ->
  (forall x, In x xs -> Rabs (val x) <= huge /\ Rabs ((val x - val mu) / val sd) <= bpow radix2 400) ->
  Rsum (map (normal_scale mu sd) xs) <= big ->
  within (2 * (c + INR (length xs) + 10)) (Rsum (map (normal_scale mu sd) xs)) (joint_ln (fun x => normal_pdf (val mu) (val sd) (val x)) xs)
    (normal_log_density_iid (@mkNormal (F64 L) mu sd) xs).
Proof.
  intros c lg L mu sd xs LOK C0 N1 N2 P B1 NX N BX M. pose proof (pos_INR (length xs)). rewrite <- joint_sum by (intros; apply normal_pdf_pos; exact P).
  replace (c + INR (length xs) + 10) with (c + 6 + INR (length xs) + 4) by ring. apply acc_within; [apply (normal_iid_float c lg L LOK C0); assumption|lra|].
  replace (c + 6 + INR (length xs) + 4) with (c + 10 + INR (length xs)) by ring. apply len_eps; [exact N|lra].
Qed.
Print Assumptions C70_normal.
Theorem C70_cauchy : forall c lg L loc sc xs, libm_ok c lg L -> 0 <= c <= 1000000 ->
  is_num loc -> is_num sc -> 0 < val sc -> Rabs (val loc) <= huge -> Forall is_num xs -> count_ok (length xs) ->
  (forall x, In x xs -> Rabs (val x) <= huge /\ Rabs ((val x - val loc) / val sc) <= bpow radix2 400) ->
  Rsum (map (fun x => cauchy_scale (val loc) (val sc) (val x)) xs) <= big ->
  within (2 * (c + INR (length xs) + 54)) (Rsum (map (fun x => cauchy_scale (val loc) (val sc) (val x)) xs)) (joint_ln (fun x => cauchy_pdf (val loc) (val sc) (val x)) xs)
    (cauchy_log_density_iid (@mkCauchy (F64 L) loc sc) xs).
Proof.
  intros c lg L loc sc xs LOK C0 N1 N2 P B1 NX N BX M. pose proof (pos_INR (length xs)). rewrite <- joint_sum by (intros; apply cauchy_pdf_pos; exact P).
  replace (c + INR (length xs) + 54) with (c + 50 + INR (length xs) + 4) by ring. apply acc_within; [apply (cauchy_iid_float c lg L LOK C0); assumption|lra|].
  replace (c + 50 + INR (length xs) + 4) with (c + 54 + INR (length xs)) by ring. apply len_eps; [exact N|lra].
Qed.
Print Assumptions C70_cauchy.
Theorem C70_student : forall c lg L nu xs, libm_ok c lg L -> 0 <= c <= 1000000 ->
  is_num nu -> bpow radix2 (-900) <= val nu <= huge ->
  val (f64_add nu (f64_of_Z 1)) = val nu + 1 -> Rabs (lg ((val nu + 1) / 2)) <= huge -> Rabs (lg (val nu / 2)) <= huge ->
  Forall is_num xs -> count_ok (length xs) -> (forall x, In x xs -> Rabs (val x) <= bpow radix2 400 /\ val x * val x / val nu <= huge) ->
  Rsum (map (fun x => student_scale lg (val nu) (val x)) xs) <= big ->
  within (2 * (c + INR (length xs) + 29)) (Rsum (map (fun x => student_scale lg (val nu) (val x)) xs)) (joint_ln (fun x => student_pdf lg (val nu) (val x)) xs)
    (student_log_density_iid (@mkStudent (F64 L) nu) xs).
Proof.
  intros c lg L nu xs LOK C0 N1 B1 E G1 G2 NX N BX M. pose proof (pos_INR (length xs)). pose proof (bpow_gt_0 radix2 (-900)).
  rewrite <- joint_sum by (intros; apply student_pdf_pos; lra).
  replace (c + INR (length xs) + 29) with (c + 25 + INR (length xs) + 4) by ring. apply acc_within; [apply (student_iid_float c lg L LOK C0); assumption|lra|].
  replace (c + 25 + INR (length xs) + 4) with (c + 29 + INR (length xs)) by ring. apply len_eps; [exact N|lra].
Qed.
Print Assumptions C70_student.

(** * C70: exponential families, from the summed sufficient statistics *)
Theorem C70_normal_family : forall c lg L mu sd xs, libm_ok c lg L -> 0 <= c <= 1000000 ->
  is_num mu -> is_num sd -> moderate (val sd) -> at_most_moderate (val mu) -> at_most_moderate (val mu / val sd) ->
  Forall is_num xs -> count_ok (length xs) -> (forall x, In x xs -> at_most_moderate (val x) /\ at_most_moderate (val x / val sd)) ->
  within (2 * (c + INR (length xs) + 14)) (Rsum (map (fun x => family_scale (val mu) (val sd) (val x)) xs)) (joint_ln (fun x => normal_pdf (val mu) (val sd) (val x)) xs)
    (compute_iid (normal_expfam (@mkNormal (F64 L) mu sd)) xs).
Proof.
  intros c lg L mu sd xs LOK C0 N1 N2 P B1 B2 NX N BX. pose proof (pos_INR (length xs)). pose proof (bpow_gt_0 radix2 (-400)). rewrite <- joint_sum by (intros; apply normal_pdf_pos; unfold moderate in P; lra).
  replace (c + INR (length xs) + 14) with (c + 11 + INR (length xs) + 3) by ring. apply acc_within; [apply (normal_family_iid_float c lg L LOK C0); assumption|lra|].
  replace (c + 11 + INR (length xs) + 3) with (c + 14 + INR (length xs)) by ring. apply len_eps; [exact N|lra].
Qed.
Print Assumptions C70_normal_family.
(** The two normal paths over the same sample differ by at most the sum of
    their bounds ... *)
Theorem C70_normal_paths_agree : forall c lg L mu sd xs, libm_ok c lg L -> 0 <= c <= 1000000 ->
  is_num mu -> is_num sd -> moderate (val sd) -> at_most_moderate (val mu) -> at_most_moderate (val mu / val sd) ->
  Forall is_num xs -> count_ok (length xs) ->
  (forall x, In x xs -> at_most_moderate (val x) /\ at_most_moderate (val x / val sd) /\ at_most_moderate ((val x - val mu) / val sd)) ->
  Rsum (map (normal_scale mu sd) xs) <= big ->
  let d := @mkNormal (F64 L) mu sd in
  Rabs (val (compute_iid (normal_expfam d) xs) - val (normal_log_density_iid d xs)) <=
  2 * (c + INR (length xs) + 14) * eps * Rsum (map (fun x => family_scale (val mu) (val sd) (val x)) xs) +
  2 * (c + INR (length xs) + 10) * eps * Rsum (map (normal_scale mu sd) xs).
Proof.
  intros c lg L mu sd xs LOK C0 N1 N2 P B1 B2 NX N BX M d.
  assert (H : bpow radix2 400 <= huge) by (apply bpow_le; lia). pose proof (bpow_gt_0 radix2 (-400)).
  destruct (C70_normal_family c lg L mu sd xs LOK C0 N1 N2 P B1 B2 NX N) as [_ W1]; [intros x I; destruct (BX x I) as (? & ? & ?); split; assumption|].
  destruct (C70_normal c lg L mu sd xs LOK C0 N1 N2) as [_ W2]; try assumption; unfold moderate, at_most_moderate in *; try lra.
  - intros x I. destruct (BX x I) as (? & ? & ?). split; [lra|assumption].
  - fold d in W1, W2. apply Rabs_le_inv in W1. apply Rabs_le_inv in W2. apply Rabs_le. lra.
Qed.
Print Assumptions C70_normal_paths_agree.
(** ... and the family path can lose everything: for a sample of any size n at
    the mean 2^60 with unit deviation it returns zero, although the joint
    log-density is below -3n/4 and the decomposition gets it right. *)
Theorem C70_normal_cancellation_refuted : forall c lg L, libm_ok c lg L -> 0 <= c <= 1000000 ->
  exists x : f64, val x = bpow radix2 60 /\
    let d := @mkNormal (F64 L) x (f64_of_Z 1) in
    forall n, (1 <= n)%nat -> count_ok n ->
    val (compute_iid (normal_expfam d) (repeat x n)) = 0 /\
    joint_ln (fun y => normal_pdf (val x) 1 (val y)) (repeat x n) <= - (3 / 4) * INR n /\
    within (2 * (c + INR n + 10)) (2 * INR n) (joint_ln (fun y => normal_pdf (val x) 1 (val y)) (repeat x n)) (normal_log_density_iid d (repeat x n)).
Proof.
  intros c lg L LOK C0. exists far. destruct far_val as [NF VF]. split; [exact VF|]. intros d n N1 CN. destruct one_num as [NO VO].
  assert (H : bpow radix2 60 <= huge) by (apply bpow_le; lia). pose proof (bpow_gt_0 radix2 60). pose proof (bpow_gt_0 radix2 400).
  assert (SC : Rsum (map (normal_scale far (f64_of_Z 1)) (repeat far n)) = 2 * INR n).
  { rewrite map_repeat'. unfold normal_scale. rewrite VO, ln_1, Rabs_R0. unfold Rminus. rewrite Rplus_opp_r. clear. induction n as [|n IH]; [cbn; ring|]. cbn [repeat]. rewrite Rsum_cons, IH, S_INR. unfold Rdiv. ring. }
  split; [apply (normal_iid_cancellation c lg L LOK C0 n CN)|]. split.
  - rewrite <- joint_sum by (intros; apply normal_pdf_pos; lra). rewrite map_repeat'. pose proof (far_density c lg L LOK C0) as D. clear - D. induction n as [|n IH]; [cbn; lra|].
    cbn [repeat]. rewrite Rsum_cons, S_INR. lra.
  - pose proof (C70_normal c lg L far (f64_of_Z 1) (repeat far n) LOK C0 NF NO) as W. rewrite SC, repeat_length, VO in W. apply W; try assumption; try lra.
    + rewrite VF, Rabs_pos_eq by lra. exact H.
    + apply Forall_forall. intros y I. apply repeat_spec in I. subst y. exact NF.
    + intros y I. apply repeat_spec in I. subst y. split; [rewrite VF, Rabs_pos_eq by lra; exact H|]. unfold Rminus, Rdiv. rewrite Rplus_opp_r, Rmult_0_l, Rabs_R0. lra.
    + pose proof (count_small L n CN). sizes. lra.
Qed.
Print Assumptions C70_normal_cancellation_refuted.
(** The exponential family has the wrong sign on its log-partition (C29): in
    binary64 the sample value is off by 2 n ln rate, up to rounding. *)
Theorem C70_exponential_family : forall c lg L rate xs, libm_ok c lg L -> 0 <= c <= 1000000 ->
  is_num rate -> 0 < val rate -> Forall is_num xs -> count_ok (length xs) ->
  (forall x, In x xs -> Rabs (val x) <= huge /\ val rate * Rabs (val x) <= huge) ->
  within (2 * (c + INR (length xs) + 3)) (Rsum (map (fun x => exponential_scale (val rate) (val x)) xs))
    (joint_ln (fun x => exponential_pdf (val rate) (val x)) xs - 2 * INR (length xs) * ln (val rate)) (compute_iid (exponential_expfam (@mkExponential (F64 L) rate)) xs).
Proof.
  intros c lg L rate xs LOK C0 N1 P NX N BX. pose proof (pos_INR (length xs)).
  replace (joint_ln (fun x => exponential_pdf (val rate) (val x)) xs - 2 * INR (length xs) * ln (val rate)) with (Rsum (map (fun x => - (val rate * val x) - ln (val rate)) xs)).
  2:{ rewrite (joint_shift (fun x => exponential_pdf (val rate) (val x)) _ (- 2 * ln (val rate))); [ring|intros; apply exponential_pdf_pos; exact P|].
      intros x _. unfold exponential_pdf. rewrite ln_mult, ln_exp; [ring|exact P|apply exp_pos]. }
  replace (c + INR (length xs) + 3) with (c + 1 + INR (length xs) + 2) by ring. apply acc_within; [apply (exponential_family_iid_float c lg L LOK C0); assumption|lra|].
  replace (c + 1 + INR (length xs) + 2) with (c + 3 + INR (length xs)) by ring. apply len_eps; [exact N|lra].
Qed.
Print Assumptions C70_exponential_family.
Theorem C70_gamma_family : forall c lg L a b xs, libm_ok c lg L -> 0 <= c <= 1000000 ->
  is_num a -> is_num b -> 0 < val a <= huge -> 0 < val b -> Rabs (lg (val a)) <= huge ->
  Forall is_num xs -> count_ok (length xs) -> (forall x, In x xs -> 0 < val x <= huge /\ val b * val x <= huge) ->
  Rsum (map (fun x => gamma_scale lg (val a) (val b) (val x)) xs) <= big ->
  within (2 * (c + INR (length xs) + 6)) (Rsum (map (fun x => gamma_scale lg (val a) (val b) (val x)) xs)) (joint_ln (fun x => gamma_pdf lg (val a) (val b) (val x)) xs)
    (compute_iid (gamma_expfam (@mkGamma (F64 L) a b)) xs).
Proof.
  intros c lg L a b xs LOK C0 N1 N2 P B1 B2 NX N BX M. pose proof (pos_INR (length xs)). rewrite <- joint_sum by (intros; apply gamma_pdf_pos).
  replace (c + INR (length xs) + 6) with (c + 3 + INR (length xs) + 3) by ring. apply acc_within; [apply (gamma_family_iid_float c lg L LOK C0); assumption|lra|].
  replace (c + 3 + INR (length xs) + 3) with (c + 6 + INR (length xs)) by ring. apply len_eps; [exact N|lra].
Qed.
Print Assumptions C70_gamma_family.
Theorem C70_beta_family : forall c lg L a b xs, libm_ok c lg L -> 0 <= c <= 1000000 ->
  is_num a -> is_num b -> 0 < val a <= huge -> 0 < val b <= huge ->
  val (f64_add a b) = val a + val b -> Rabs (lg (val a + val b)) <= huge -> Rabs (lg (val a)) <= huge -> Rabs (lg (val b)) <= huge ->
  Forall is_num xs -> count_ok (length xs) -> (forall x, In x xs -> 0 < val x < 1) ->
  Rsum (map (fun x => beta_scale lg (val a) (val b) (val x)) xs) <= big ->
  within (2 * (c + INR (length xs) + 7)) (Rsum (map (fun x => beta_scale lg (val a) (val b) (val x)) xs)) (joint_ln (fun x => beta_pdf lg (val a) (val b) (val x)) xs)
    (compute_iid (beta_expfam (@mkBeta (F64 L) a b)) xs).
Proof.
  intros c lg L a b xs LOK C0 N1 N2 A1 B1 E G1 G2 G3 NX N BX M. pose proof (pos_INR (length xs)). rewrite <- joint_sum by (intros; apply beta_pdf_pos).
  replace (c + INR (length xs) + 7) with (c + 4 + INR (length xs) + 3) by ring. apply acc_within; [apply (beta_family_iid_float c lg L LOK C0); assumption|lra|].
  replace (c + 4 + INR (length xs) + 3) with (c + 7 + INR (length xs)) by ring. apply len_eps; [exact N|lra].
Qed.
Print Assumptions C70_beta_family.
Theorem C70_poisson_family : forall c lg L rate ks, libm_ok c lg L -> 0 <= c <= 1000000 ->
  is_num rate -> 0 < val rate <= huge -> count_ok (length ks) -> (forall k, In k ks -> count_ok k) ->
  within (2 * (c + INR (length ks) + 62)) (Rsum (map (fun k => INR k * (Rabs (ln (val rate)) + 1) + val rate + fact_scale k + 1) ks)) (joint_ln (poisson_pmf (val rate)) ks)
    (compute_iid (poisson_expfam (@mkPoisson (F64 L) rate)) ks).
Proof.
  intros c lg L rate ks LOK C0 N1 P N BK. pose proof (pos_INR (length ks)). rewrite <- (joint_sum (poisson_pmf (val rate))) by (intros; apply poisson_pos; lra).
  replace (c + INR (length ks) + 62) with (c + 60 + INR (length ks) + 2) by ring. apply acc_within; [apply (poisson_family_iid_float c lg L LOK C0); assumption|lra|].
  replace (c + 60 + INR (length ks) + 2) with (c + 62 + INR (length ks)) by ring. apply len_eps; [exact N|lra].
Qed.
Print Assumptions C70_poisson_family.
Theorem C70_bernoulli_family : forall c lg L p ks, libm_ok c lg L -> 0 <= c <= 1000000 ->
  is_num p -> bpow radix2 (-800) <= val p -> val p < 1 -> count_ok (length ks) -> (forall k, In k ks -> (k <= 1)%nat) ->
  within (2 * (family_units c (val p) + INR (length ks))) (Rsum (map (fun k => INR k * odds_scale (val p) + Rabs (ln (1 - val p)) + 2) ks)) (joint_ln (bernoulli_pmf (val p)) ks)
    (compute_iid (bernoulli_expfam (@mkBernoulli (F64 L) p)) ks).
Proof.
  intros c lg L p ks LOK C0 N1 A B N BK. pose proof (pos_INR (length ks)). pose proof (bpow_gt_0 radix2 (-800)).
  rewrite <- (joint_sum (bernoulli_pmf (val p))) by (intros k I; apply bernoulli_pos; [lra|apply BK, I]).
  destruct (logit_parts c lg L LOK C0 p N1 A B) as (_ & _ & _ & _ & _ & KE & _). apply acc_within; [apply (bernoulli_family_iid_float c lg L LOK C0); assumption|unfold family_units; lra|].
  apply len_eps; [exact N|unfold family_units; lra].
Qed.
Print Assumptions C70_bernoulli_family.
(** The geometric family counts one failure too many (C29): ln (1 - p) extra
    for each observation. *)
Theorem C70_geometric_family : forall c lg L p ks, libm_ok c lg L -> 0 <= c <= 1000000 ->
  is_num p -> 0 < val p < 1 -> count_ok (length ks) -> (forall k, In k ks -> (1 <= k)%nat /\ count_ok k) ->
  within (2 * (c + INR (length ks) + 5)) (Rsum (map (fun k => INR k * (Rabs (ln (1 - val p)) + 1) + Rabs (ln (val p)) + 1) ks))
    (joint_ln (geometric_pmf (val p)) ks + INR (length ks) * ln (1 - val p)) (compute_iid (geometric_expfam (@mkGeometric (F64 L) p)) ks).
Proof.
  intros c lg L p ks LOK C0 N1 P N BK. pose proof (pos_INR (length ks)).
  rewrite <- (joint_shift (geometric_pmf (val p)) (fun k => ln (geometric_pmf (val p) k) + ln (1 - val p))) by (try (intros k I; apply geometric_pos; [lra|apply BK, I]); reflexivity).
  replace (c + INR (length ks) + 5) with (c + 3 + INR (length ks) + 2) by ring. apply acc_within; [apply (geometric_family_iid_float c lg L LOK C0); assumption|lra|].
  replace (c + 3 + INR (length ks) + 2) with (c + 5 + INR (length ks)) by ring. apply len_eps; [exact N|lra].
Qed.
Print Assumptions C70_geometric_family.

(** * Concrete cases *)
(** Three observations from a normal with mean 1 and deviation 2, both paths. *)
Example C70_normal_case : forall lg, let L := rounded_libm lg in let xs := map f64_of_Z [1; 3; 11]%Z in
  within 30 40 (joint_ln (fun x => normal_pdf 1 2 (val x)) xs) (normal_log_density_iid (@mkNormal (F64 L) (f64_of_Z 1) (f64_of_Z 2)) xs) /\
  within 40 60 (joint_ln (fun x => normal_pdf 1 2 (val x)) xs) (compute_iid (normal_expfam (@mkNormal (F64 L) (f64_of_Z 1) (f64_of_Z 2))) xs).
Proof.
  intros lg L xs. destruct (num_int 1 ltac:(lia)) as [NA VA]. destruct (num_int 2 ltac:(lia)) as [NB VB]. destruct (num_int 3 ltac:(lia)) as [NC VC]. destruct (num_int 11 ltac:(lia)) as [ND VD].
  assert (B : 1024 <= bpow radix2 400) by (change 1024 with (bpow radix2 10); apply bpow_le; lia).
  assert (H : bpow radix2 400 <= huge) by (apply bpow_le; lia). assert (HB : huge <= big) by (apply bpow_le; lia).
  assert (S : bpow radix2 (-400) <= 1) by (change 1 with (bpow radix2 0); apply bpow_le; lia).
  assert (NX : Forall is_num xs) by (unfold xs; cbn [map]; repeat (apply Forall_cons; [assumption|]); apply Forall_nil).
  assert (CN : count_ok (length xs)) by (apply few; cbn; lra). pose proof eps_pos. destruct JitAcc.ln2_bounds as [L1 L2].
  assert (S1 : Rsum (map (normal_scale (f64_of_Z 1) (f64_of_Z 2)) xs) = 32 + 3 * ln 2).
  { unfold xs, normal_scale. cbv zeta. cbn [map]. rewrite !Rsum_cons, VA, VB, VC, VD, (Rabs_pos_eq (ln 2)) by lra. change (Rsum []) with 0. field. }
  assert (S2 : Rsum (map (fun x => family_scale (val (f64_of_Z 1)) (val (f64_of_Z 2)) (val x)) xs) = 79 / 2 + 3 * ln 2).
  { unfold xs, family_scale. cbn [map]. rewrite !Rsum_cons, VA, VB, VC, VD, (Rabs_pos_eq (ln 2)) by lra. change (Rsum []) with 0. field. }
  assert (BX : forall x, In x xs -> Rabs (val x) <= 1024 /\ Rabs (val x / val (f64_of_Z 2)) <= 1024 /\ Rabs ((val x - val (f64_of_Z 1)) / val (f64_of_Z 2)) <= 1024).
  { intros x [<-|[<-|[<-|[]]]]; rewrite ?VA, ?VB, ?VC, ?VD; repeat split; rewrite Rabs_pos_eq; lra. }
  split.
  - destruct (C70_normal 1 lg L (f64_of_Z 1) (f64_of_Z 2) xs (rounded_libm_ok lg) ltac:(lra) NA NB) as [N W]; try assumption.
    + rewrite VB; lra.
    + rewrite VA, Rabs_pos_eq; lra.
    + intros x I. destruct (BX x I) as (? & ? & ?). split; lra.
    + rewrite S1. lra.
    + split; [exact N|]. rewrite S1 in W. rewrite VA, VB in W. eapply Rle_trans; [exact W|]. unfold xs. cbn [map length INR]. nra.
  - destruct (C70_normal_family 1 lg L (f64_of_Z 1) (f64_of_Z 2) xs (rounded_libm_ok lg) ltac:(lra) NA NB) as [N W]; try assumption; unfold moderate, at_most_moderate.
    + rewrite VB; lra.
    + rewrite VA, Rabs_pos_eq; lra.
    + rewrite VA, VB, Rabs_pos_eq; lra.
    + intros x I. destruct (BX x I) as (? & ? & ?). split; lra.
    + split; [exact N|]. rewrite S2 in W. rewrite VA, VB in W. eapply Rle_trans; [exact W|]. unfold xs. cbn [map length INR]. nra.
Qed.
Example C70_cauchy_case : forall lg, let L := rounded_libm lg in let xs := map f64_of_Z [0; 3]%Z in
  within 116 20 (joint_ln (fun x => cauchy_pdf 0 1 (val x)) xs) (cauchy_log_density_iid (@mkCauchy (F64 L) (f64_of_Z 0) (f64_of_Z 1)) xs).
Proof.
  intros lg L xs. destruct (num_int 0 ltac:(lia)) as [NA VA]. destruct (num_int 1 ltac:(lia)) as [NB VB]. destruct (num_int 3 ltac:(lia)) as [NC VC].
  assert (B : 1024 <= bpow radix2 400) by (change 1024 with (bpow radix2 10); apply bpow_le; lia).
  assert (H : bpow radix2 400 <= huge) by (apply bpow_le; lia). assert (HB : huge <= big) by (apply bpow_le; lia).
  pose proof eps_pos. destruct JitAcc.ln2_bounds as [L1 L2].
  assert (LT : 0 <= ln 10 <= 9).
  { split; [rewrite <- ln_1; apply ln_le; lra|]. pose proof (exp_ineq1_le (ln 10)) as I. rewrite exp_ln in I by lra. lra. }
  assert (S1 : Rsum (map (fun x => cauchy_scale (val (f64_of_Z 0)) (val (f64_of_Z 1)) (val x)) xs) = 10 + ln 10).
  { unfold xs, cauchy_scale. cbn [map]. rewrite !Rsum_cons, VA, VB, VC. replace (1 + (0 - 0) / 1 * ((0 - 0) / 1)) with 1 by field. replace (1 + (3 - 0) / 1 * ((3 - 0) / 1)) with 10 by field.
    rewrite ln_1, Rabs_R0. change (Rsum []) with 0. ring. }
  destruct (C70_cauchy 1 lg L (f64_of_Z 0) (f64_of_Z 1) xs (rounded_libm_ok lg) ltac:(lra) NA NB) as [N W].
  - rewrite VB; lra.
  - rewrite VA, Rabs_R0; lra.
  - unfold xs; cbn [map]; repeat (apply Forall_cons; [assumption|]); apply Forall_nil.
  - apply few; cbn; lra.
  - intros x [<-|[<-|[]]]; rewrite ?VA, ?VB, ?VC; split; rewrite Rabs_pos_eq; lra.
  - rewrite S1. lra.
  - split; [exact N|]. rewrite S1 in W. rewrite VA, VB in W. eapply Rle_trans; [exact W|]. unfold xs. cbn [map length INR]. nra.
Qed.
Example C70_discrete_cases : forall lg, let L := rounded_libm lg in
  within (2 * (1 + INR 3 + 62)) (Rsum (map (fun k => INR k * (Rabs (ln 2) + 1) + 2 + fact_scale k + 1) [0; 4; 25]%nat)) (joint_ln (poisson_pmf 2) [0; 4; 25]%nat) (compute_iid (poisson_expfam (@mkPoisson (F64 L) (f64_of_Z 2))) [0; 4; 25]%nat) /\
  within (2 * (family_units 1 (1 / 4) + INR 3)) (Rsum (map (fun k => INR k * odds_scale (1 / 4) + Rabs (ln (1 - 1 / 4)) + 2) [0; 1; 1]%nat)) (joint_ln (bernoulli_pmf (1 / 4)) [0; 1; 1]%nat) (compute_iid (bernoulli_expfam (@mkBernoulli (F64 L) quarter)) [0; 1; 1]%nat).
Proof.
  intros lg L. destruct (num_int 2 ltac:(lia)) as [N V]. destruct quarter_val as [NQ VQ]. split.
  - pose proof (C70_poisson_family 1 lg L (f64_of_Z 2) [0; 4; 25]%nat (rounded_libm_ok lg)) as W. rewrite V in W. apply W; [lra|exact N|pose proof huge_one; lra|apply few; cbn; lra|].
    intros k [<-|[<-|[<-|[]]]]; apply few; cbn; lra.
  - rewrite <- VQ. apply (C70_bernoulli_family 1 lg L quarter [0; 1; 1]%nat (rounded_libm_ok lg)); [lra|exact NQ|rewrite VQ; apply tiny_quarter|rewrite VQ; lra|apply few; cbn; lra|].
    intros k [<-|[<-|[<-|[]]]]; lia.
Qed.
(** Gamma(2, 1), Beta(1, 1) and Exponential(2) samples (log-gamma is zero at 1
    and 2), and geometric and Student samples. *)
Definition no_gamma (_ : R) : R := 0.
Example C70_family_cases : let L := rounded_libm no_gamma in let xs := map f64_of_Z [1; 3]%Z in
  within 20 30 (joint_ln (fun x => gamma_pdf no_gamma 2 1 (val x)) xs) (compute_iid (gamma_expfam (@mkGamma (F64 L) (f64_of_Z 2) (f64_of_Z 1))) xs) /\
  within 20 20 (joint_ln (fun x => beta_pdf no_gamma 1 1 (val x)) [quarter]) (compute_iid (beta_expfam (@mkBeta (F64 L) (f64_of_Z 1) (f64_of_Z 1))) [quarter]) /\
  within 12 20 (joint_ln (fun x => exponential_pdf 2 (val x)) xs - 2 * 2 * ln 2) (compute_iid (exponential_expfam (@mkExponential (F64 L) (f64_of_Z 2))) xs) /\
  within (2 * (1 + INR 2 + 5)) (Rsum (map (fun k => INR k * (Rabs (ln (1 - 1 / 4)) + 1) + Rabs (ln (1 / 4)) + 1) [1; 4]%nat))
    (joint_ln (geometric_pmf (1 / 4)) [1; 4]%nat + INR 2 * ln (1 - 1 / 4)) (compute_iid (geometric_expfam (@mkGeometric (F64 L) quarter)) [1; 4]%nat) /\
  within (2 * (1 + INR 2 + 29)) (Rsum (map (fun x => student_scale no_gamma 3 (val x)) xs)) (joint_ln (fun x => student_pdf no_gamma 3 (val x)) xs) (student_log_density_iid (@mkStudent (F64 L) (f64_of_Z 3)) xs).
Proof.
  intros L xs. destruct (num_int 1 ltac:(lia)) as [NA VA]. destruct (num_int 2 ltac:(lia)) as [NB VB]. destruct (num_int 3 ltac:(lia)) as [NC VC]. destruct quarter_val as [NQ VQ].
  assert (B : 1024 <= bpow radix2 400) by (change 1024 with (bpow radix2 10); apply bpow_le; lia).
  assert (H : bpow radix2 400 <= huge) by (apply bpow_le; lia). assert (HB : huge <= big) by (apply bpow_le; lia). pose proof eps_pos. destruct JitAcc.ln2_bounds as [L1 L2].
  assert (NX : Forall is_num xs) by (unfold xs; cbn [map]; repeat (apply Forall_cons; [assumption|]); apply Forall_nil).
  assert (CN : count_ok (length xs)) by (apply few; cbn; lra).
  assert (BX : forall x, In x xs -> 1 <= val x <= 3) by (intros x [<-|[<-|[]]]; rewrite ?VA, ?VC; lra).
  assert (L3 : 0 <= ln 3 <= 2).
  { split; [rewrite <- ln_1; apply ln_le; lra|]. pose proof (exp_ineq1_le (ln 3)) as I. rewrite exp_ln in I by lra. lra. }
  split; [|split; [|split; [|split]]].
  - assert (S1 : Rsum (map (fun x => gamma_scale no_gamma (val (f64_of_Z 2)) (val (f64_of_Z 1)) (val x)) xs) = 20 + 3 * ln 3).
    { unfold xs, gamma_scale, no_gamma. cbn [map]. rewrite !Rsum_cons, VA, VB, VC, ln_1, Rabs_R0, (Rabs_pos_eq (ln 3)) by lra. change (Rsum []) with 0. ring. }
    destruct (C70_gamma_family 1 no_gamma L (f64_of_Z 2) (f64_of_Z 1) xs (rounded_libm_ok no_gamma) ltac:(lra) NB NA) as [N W]; try assumption; try (rewrite ?VA, ?VB; unfold no_gamma; rewrite ?Rabs_R0; lra).
    + intros x I. pose proof (BX x I). rewrite VA. lra.
    + rewrite S1. lra.
    + split; [exact N|]. rewrite S1 in W. rewrite VA, VB in W. eapply Rle_trans; [exact W|]. unfold xs. cbn [map length INR]. nra.
  - assert (Q1 : Rabs (ln (1 / 4)) <= 2).
    { replace (1 / 4) with (/ 4) by field. rewrite ln_Rinv, Rabs_Ropp by lra. replace 4 with (2 * 2) by ring. rewrite ln_mult by lra. rewrite Rabs_pos_eq; lra. }
    assert (Q2 : Rabs (ln (1 - 1 / 4)) <= 2).
    { pose proof (ln_le (1 / 4) (1 - 1 / 4) ltac:(lra) ltac:(lra)). pose proof (ln_le (1 - 1 / 4) 1 ltac:(lra) ltac:(lra)). rewrite ln_1 in *. apply Rabs_le_inv in Q1. apply Rabs_le. lra. }
    assert (S1 : Rsum (map (fun x => beta_scale no_gamma (val (f64_of_Z 1)) (val (f64_of_Z 1)) (val x)) [quarter]) <= 16).
    { unfold beta_scale, no_gamma. cbn [map]. rewrite !Rsum_cons, VA, VQ, Rabs_R0. change (Rsum []) with 0. lra. }
    destruct (C70_beta_family 1 no_gamma L (f64_of_Z 1) (f64_of_Z 1) [quarter] (rounded_libm_ok no_gamma) ltac:(lra) NA NA) as [N W]; try (rewrite ?VA; unfold no_gamma; rewrite ?Rabs_R0; lra).
    + replace (f64_add (f64_of_Z 1) (f64_of_Z 1)) with (f64_of_Z 2) by (vm_compute; reflexivity). rewrite VA, VB. ring.
    + apply Forall_cons; [exact NQ|apply Forall_nil].
    + apply few; cbn; lra.
    + intros x [<-|[]]. rewrite VQ. lra.
    + eapply Rle_trans; [exact S1|lra].
    + split; [exact N|]. rewrite VA in *. eapply Rle_trans; [exact W|]. cbn [length INR]. apply Rle_trans with (18 * eps * 16); [|nra].
      replace (2 * (1 + 1 + 7)) with 18 by ring. apply Rmult_le_compat_l; [lra|exact S1].
  - assert (S1 : Rsum (map (fun x => exponential_scale (val (f64_of_Z 2)) (val x)) xs) = 10 + 2 * ln 2).
    { unfold xs, exponential_scale. cbn [map]. rewrite !Rsum_cons, VA, VB, VC, (Rabs_pos_eq (ln 2)), (Rabs_pos_eq 1), (Rabs_pos_eq 3) by lra. change (Rsum []) with 0. ring. }
    destruct (C70_exponential_family 1 no_gamma L (f64_of_Z 2) xs (rounded_libm_ok no_gamma) ltac:(lra) NB) as [N W]; try assumption; try (rewrite VB; lra).
    + intros x I. pose proof (BX x I). rewrite VB, Rabs_pos_eq by lra. lra.
    + split; [exact N|]. rewrite S1 in W. rewrite VB in W. replace (INR (length xs)) with 2 in W by (cbn; ring). eapply Rle_trans; [exact W|]. nra.
  - pose proof (C70_geometric_family 1 no_gamma L quarter [1; 4]%nat (rounded_libm_ok no_gamma)) as W. rewrite VQ in W. apply W; try lra; [exact NQ|apply few; cbn; lra|].
    intros k [<-|[<-|[]]]; (split; [lia|apply few; cbn; lra]).
  - pose proof (C70_student 1 no_gamma L (f64_of_Z 3) xs (rounded_libm_ok no_gamma)) as W. rewrite VC in W.
    assert (S : bpow radix2 (-900) <= 1) by (change 1 with (bpow radix2 0); apply bpow_le; lia).
    assert (LL : forall y, 0 < y -> ln y <= y) by (intros y Y; pose proof (exp_ineq1_le (ln y)) as I; rewrite exp_ln in I by exact Y; lra).
    apply W; try assumption; try lra; try (unfold no_gamma; rewrite ?Rabs_R0; lra).
    + replace (f64_add (f64_of_Z 3) (f64_of_Z 1)) with (f64_of_Z 4) by (vm_compute; reflexivity). destruct (num_int 4 ltac:(lia)) as [_ V4]. rewrite V4. ring.
    + intros x I. pose proof (BX x I). split; [rewrite Rabs_pos_eq; lra|]. nra.
    + unfold xs, student_scale, no_gamma. cbn [map]. rewrite !Rsum_cons, VA, VC, !Rabs_R0. change (Rsum []) with 0.
      assert (P : Rabs (ln (3 * PI)) <= 12).
      { pose proof PI_RGT_0. pose proof PI_4. assert (E : 3 * PI <= 12) by lra. assert (P3 : 1 <= 3 * PI) by (pose proof PI2_1; lra). pose proof (LL (3 * PI) ltac:(lra)).
        rewrite Rabs_pos_eq; [lra|]. rewrite <- ln_1. apply ln_le; lra. }
      pose proof (LL (1 + 1 * 1 / 3) ltac:(lra)). pose proof (LL (1 + 3 * 3 / 3) ltac:(lra)). lra.
Qed.
