(** Joint log-densities of the remaining exponential families in binary64 (C70). *)
From Coq Require Import ZArith Reals Bool String List Lia Lra.
From Coq Require Import Floats.SpecFloat.
From Flocq Require Import Core.
From Verif Require Import Num EggSpec LitFacts FloatFacts FloatErr AccSpec RoundSpec RoundProofs RelErr
  DensitySpec CoreModel CombModel ExpFamModel DistModel DistSpec DistProofs DistFloat SumFloat FamFloatSpec FamFloat FactFloat FamFloat2 FamFloat3
  IidFloatSpec IidFloatSpec2 IidFloat IidFloat2 IidFloat3 IidFloat4 IidFloat5 CombProofs2 ContProofs2 DiscProofs2 PropsRound PropsDist PropsFamFloat PropsIidFloat.
Import ListNotations.
Local Open Scope R_scope.

Theorem C70_standard_normal_family : forall c lg L xs, libm_ok c lg L -> 0 <= c <= 1000000 ->
  Forall is_num xs -> count_ok (length xs) -> (forall x, In x xs -> Rabs (val x) <= bpow radix2 400) ->
  within (2 * (c + INR (length xs) + 11)) (Rsum (map (fun x => val x * val x + 2) xs)) (joint_ln (fun x => normal_pdf 0 1 (val x)) xs)
    (compute_iid (@stdnormal_expfam (F64 L)) xs).
Proof.
  intros c lg L xs LOK C0 NX N BX. pose proof (pos_INR (length xs)). rewrite <- joint_sum by (intros; apply normal_pdf_pos; lra).
  replace (c + INR (length xs) + 11) with (c + 8 + INR (length xs) + 3) by ring. apply acc_within; [apply (stdnormal_family_iid_float c lg L LOK C0); assumption|lra|].
  replace (c + 8 + INR (length xs) + 3) with (c + 11 + INR (length xs)) by ring. apply len_eps; [exact N|lra].
Qed.
Print Assumptions C70_standard_normal_family.
Theorem C70_chi_squared_family : forall c lg L k xs, libm_ok c lg L -> 0 <= c <= 1000000 ->
  is_num k -> small <= val k <= huge -> Rabs (lg (val k / 2)) <= huge ->
  Forall is_num xs -> count_ok (length xs) -> (forall x, In x xs -> 0 < val x <= huge) ->
  Rsum (map (fun x => chi_scale lg (val k) (val x)) xs) <= big ->
  within (2 * (c + INR (length xs) + 6)) (Rsum (map (fun x => chi_scale lg (val k) (val x)) xs)) (joint_ln (fun x => chi_squared_pdf lg (val k) (val x)) xs)
    (compute_iid (chi_expfam (@mkChi (F64 L) k)) xs).
Proof.
  intros c lg L k xs LOK C0 N1 P B2 NX N BX M. pose proof (pos_INR (length xs)). rewrite <- joint_sum by (intros; apply chi_pdf_pos).
  replace (c + INR (length xs) + 6) with (c + 3 + INR (length xs) + 3) by ring. apply acc_within; [apply (chi_family_iid_float c lg L LOK C0); assumption|lra|].
  replace (c + 3 + INR (length xs) + 3) with (c + 6 + INR (length xs)) by ring. apply len_eps; [exact N|lra].
Qed.
Print Assumptions C70_chi_squared_family.
Theorem C70_binomial_family : forall c lg L n p ks, libm_ok c lg L -> 0 <= c <= 1000000 ->
  (forall j : nat, lg (INR (S j)) = ln (INR (fact j))) ->
  is_num p -> bpow radix2 (-800) <= val p -> val p < 1 -> count_ok n -> count_ok (length ks) -> (forall k, In k ks -> (k <= n)%nat) ->
  within (2 * (family_units c (val p) + 1 + INR (length ks))) (Rsum (map (binomial_scale n (val p)) ks)) (joint_ln (binomial_pmf n (val p)) ks)
    (compute_iid (binomial_expfam (@mkBinomial (F64 L) n p)) ks).
Proof.
  intros c lg L n p ks LOK C0 LF N1 A B CN N BK. pose proof (pos_INR (length ks)). pose proof (bpow_gt_0 radix2 (-800)).
  rewrite <- (joint_sum (binomial_pmf n (val p))) by (intros k I; apply binomial_pmf_pos; [lra|apply BK, I]).
  destruct (logit_parts c lg L LOK C0 p N1 A B) as (_ & _ & _ & _ & _ & KE & _). apply acc_within; [apply (binomial_family_iid_float c lg L LOK C0); assumption|unfold family_units; lra|].
  apply len_eps; [exact N|unfold family_units; lra].
Qed.
Print Assumptions C70_binomial_family.

(** The negative binomial family drops the factor (1 - p)^k (C29): the joint
    log-density is off by ln (1 - p) times the total number of failures. *)
Theorem C70_negative_binomial_family : forall c lg L r p ks, libm_ok c lg L -> 0 <= c <= 1000000 ->
  (forall j : nat, lg (INR (S j)) = ln (INR (fact j))) ->
  is_num p -> bpow radix2 (-800) <= val p <= 3 / 4 -> (0 < r)%nat -> count_ok r -> count_ok (length ks) -> (forall k, In k ks -> count_ok (k + r)) ->
  within (2 * (neg_units c (val p) + INR (length ks))) (Rsum (map (negbinomial_scale r (val p)) ks))
    (joint_ln (negbinomial_pmf r (val p)) ks - INR (fold_right Nat.add 0%nat ks) * ln (1 - val p))
    (compute_iid (negbinomial_expfam (@mkNegBinomial (F64 L) r p)) ks).
Proof.
  intros c lg L r p ks LOK C0 LF N1 P R0 CR N BK. pose proof (pos_INR (length ks)). pose proof (bpow_gt_0 radix2 (-800)).
  assert (PP : forall k, In k ks -> 0 < negbinomial_pmf r (val p) k).
  { intros k _. unfold negbinomial_pmf. apply Rmult_lt_0_compat; [apply Rmult_lt_0_compat; [apply C_pos; lia|apply pow_lt; lra]|apply pow_lt; lra]. }
  rewrite <- (joint_sum (negbinomial_pmf r (val p))) by exact PP.
  replace (Rsum (map (fun k => ln (negbinomial_pmf r (val p) k)) ks) - INR (fold_right Nat.add 0%nat ks) * ln (1 - val p)) with (Rsum (map (fun k => ln (negbinomial_pmf r (val p) k) - INR k * ln (1 - val p)) ks)).
  2:{ clear. induction ks as [|k ks IH]; [cbn; ring|]. cbn [map fold_right]. rewrite !Rsum_cons, IH, plus_INR. ring. }
  destruct (logit_parts c lg L LOK C0 p N1 (proj1 P) ltac:(lra)) as (_ & _ & _ & _ & _ & KE & _). apply acc_within; [apply (negbinomial_family_iid_float c lg L LOK C0); assumption|unfold neg_units; lra|].
  apply len_eps; [exact N|unfold neg_units; lra].
Qed.
Print Assumptions C70_negative_binomial_family.

(** The categorical family normalises by the sum of the probabilities, once per
    observation. *)
Theorem C70_categorical_family : forall c lg L (qs : list f64) (l : f64) xs, libm_ok c lg L -> 0 <= c <= 1000000 ->
  Forall (fun p => is_num p /\ bpow radix2 (-400) <= val p <= 1) (qs ++ [l]) -> INR (length qs) <= bpow radix2 20 ->
  count_ok (length xs) -> (forall x, In x xs -> (x <= length qs)%nat) ->
  let ps := map val (qs ++ [l]) in
  within (2 * (categorical_units c (INR (length qs)) + INR (length xs))) (Rsum (map (fun x => Rabs (ln (nth x ps 0 / val l)) + ln (Rsum ps / val l) + 4) xs))
    (joint_ln (categorical_pmf ps) xs - INR (length xs) * ln (Rsum ps)) (compute_iid (categorical_expfam (@mkCategorical (F64 L) (qs ++ [l]))) xs).
Proof.
  intros c lg L qs l xs LOK C0 A N CN BX ps. pose proof (pos_INR (length qs)). assert (INR (length qs) <= 1048576) by (change (bpow radix2 20) with 1048576 in N; exact N).
  assert (PP : forall x, In x xs -> 0 < categorical_pmf ps x).
  { intros x I. unfold categorical_pmf. assert (In (nth x ps 0) ps) as J.
    { apply nth_In. unfold ps. rewrite map_length, app_length. cbn [length]. specialize (BX x I). lia. }
    unfold ps in J at 2. apply in_map_iff in J. destruct J as (q & <- & J). rewrite Forall_forall in A. destruct (A q J) as [_ [B _]]. pose proof (bpow_gt_0 radix2 (-400)). lra. }
  replace (joint_ln (categorical_pmf ps) xs - INR (length xs) * ln (Rsum ps)) with (Rsum (map (fun x => ln (categorical_pmf ps x) - ln (Rsum ps)) xs)).
  2:{ rewrite (joint_shift (categorical_pmf ps) _ (- ln (Rsum ps))) by (try exact PP; intros; reflexivity). ring. }
  apply Forall_app in A. destruct A as [Q QL]. apply Forall_inv in QL.
  apply acc_within; [apply (categorical_family_iid_float c lg L LOK C0); assumption|unfold categorical_units; pose proof (pos_INR (length xs)); lra|].
  apply len_eps; [exact CN|unfold categorical_units; lra].
Qed.
Print Assumptions C70_categorical_family.

(** * Concrete cases *)
Example C70_standard_normal_case : forall lg, let L := rounded_libm lg in let xs := map f64_of_Z [1; 3; -2]%Z in
  within 30 20 (joint_ln (fun x => normal_pdf 0 1 (val x)) xs) (compute_iid (@stdnormal_expfam (F64 L)) xs).
Proof.
  intros lg L xs. destruct (num_int 1 ltac:(lia)) as [NA VA]. destruct (num_int 3 ltac:(lia)) as [NB VB]. destruct (num_int (-2) ltac:(lia)) as [NC VC].
  assert (B : 1024 <= bpow radix2 400) by (change 1024 with (bpow radix2 10); apply bpow_le; lia).
  assert (S1 : Rsum (map (fun x => val x * val x + 2) xs) = 20).
  { unfold xs. cbn [map]. rewrite !Rsum_cons, VA, VB, VC. change (Rsum []) with 0. ring. }
  destruct (C70_standard_normal_family 1 lg L xs (rounded_libm_ok lg) ltac:(lra)) as [N W].
  - unfold xs; cbn [map]; repeat (apply Forall_cons; [assumption|]); apply Forall_nil.
  - apply few; cbn; lra.
  - intros x [<-|[<-|[<-|[]]]]; rewrite ?VA, ?VB, ?VC; apply Rabs_le; lra.
  - split; [exact N|]. rewrite S1 in W. replace (2 * (1 + INR (length xs) + 11)) with 30 in W by (unfold xs; cbn [map length INR]; ring). exact W.
Qed.
(** Chi-squared with two degrees of freedom, where log-gamma is zero at 1. *)
Example C70_chi_squared_case : let L := rounded_libm no_gamma in let xs := map f64_of_Z [1; 3]%Z in
  within 18 30 (joint_ln (fun x => chi_squared_pdf no_gamma 2 (val x)) xs) (compute_iid (chi_expfam (@mkChi (F64 L) (f64_of_Z 2))) xs).
Proof.
  intros L xs. destruct (num_int 1 ltac:(lia)) as [NA VA]. destruct (num_int 3 ltac:(lia)) as [NB VB]. destruct (num_int 2 ltac:(lia)) as [NC VC].
  assert (B : 1024 <= bpow radix2 400) by (change 1024 with (bpow radix2 10); apply bpow_le; lia).
  assert (H : bpow radix2 400 <= huge) by (apply bpow_le; lia). assert (HB : huge <= big) by (apply bpow_le; lia). pose proof eps_pos.
  assert (SM : small <= 1) by (change 1 with (bpow radix2 0); apply bpow_le; lia).
  assert (L3 : 0 <= ln 3 <= 2).
  { split; [rewrite <- ln_1; apply ln_le; lra|]. pose proof (exp_ineq1_le (ln 3)) as I. rewrite exp_ln in I by lra. lra. }
  assert (S1 : Rsum (map (fun x => chi_scale no_gamma 2 (val x)) xs) = 18 + 2 * ln 3).
  { unfold xs, chi_scale, no_gamma. cbn [map]. rewrite !Rsum_cons, VA, VB, ln_1, Rabs_R0, (Rabs_pos_eq (ln 3)) by lra. change (Rsum []) with 0. field. }
  destruct (C70_chi_squared_family 1 no_gamma L (f64_of_Z 2) xs (rounded_libm_ok no_gamma) ltac:(lra) NC) as [N W]; rewrite ?VC.
  - lra.
  - unfold no_gamma. rewrite Rabs_R0. lra.
  - unfold xs; cbn [map]; repeat (apply Forall_cons; [assumption|]); apply Forall_nil.
  - apply few; cbn; lra.
  - intros x [<-|[<-|[]]]; rewrite ?VA, ?VB; lra.
  - rewrite S1. lra.
  - rewrite VC in *. split; [exact N|]. rewrite S1 in W. eapply Rle_trans; [exact W|]. unfold xs. cbn [map length INR]. nra.
Qed.
Example C70_count_cases : let L := rounded_libm lg_ex in
  within (2 * (family_units 1 (1 / 4) + 1 + INR 3)) (Rsum (map (binomial_scale 5 (1 / 4)) [0; 2; 5]%nat)) (joint_ln (binomial_pmf 5 (1 / 4)) [0; 2; 5]%nat)
    (compute_iid (binomial_expfam (@mkBinomial (F64 L) 5 quarter)) [0; 2; 5]%nat) /\
  within (2 * (neg_units 1 (1 / 4) + INR 3)) (Rsum (map (negbinomial_scale 2 (1 / 4)) [0; 2; 5]%nat)) (joint_ln (negbinomial_pmf 2 (1 / 4)) [0; 2; 5]%nat - INR 7 * ln (1 - 1 / 4))
    (compute_iid (negbinomial_expfam (@mkNegBinomial (F64 L) 2 quarter)) [0; 2; 5]%nat) /\
  within (2 * (categorical_units 1 1 + INR 2)) (Rsum (map (fun x => Rabs (ln (nth x [1 / 4; 1 / 4] 0 / (1 / 4))) + ln (Rsum [1 / 4; 1 / 4] / (1 / 4)) + 4) [0; 1]%nat))
    (joint_ln (categorical_pmf [1 / 4; 1 / 4]) [0; 1]%nat - INR 2 * ln (Rsum [1 / 4; 1 / 4])) (compute_iid (categorical_expfam (@mkCategorical (F64 L) [quarter; quarter])) [0; 1]%nat).
Proof.
  intros L. destruct quarter_val as [NQ VQ]. pose proof tiny_quarter as TQ.
  assert (T4 : bpow radix2 (-400) <= 1 / 4) by (replace (1 / 4) with (bpow radix2 (-2)) by (change (bpow radix2 (-2)) with (/ 4); lra); apply bpow_le; lia).
  split; [|split].
  - rewrite <- VQ. apply (C70_binomial_family 1 lg_ex L 5 quarter [0; 2; 5]%nat (rounded_libm_ok lg_ex)); rewrite ?VQ; try assumption; try lra; try (apply few; cbn; lra); [exact lg_ex_factorial|].
    intros k [<-|[<-|[<-|[]]]]; lia.
  - rewrite <- VQ. apply (C70_negative_binomial_family 1 lg_ex L 2 quarter [0; 2; 5]%nat (rounded_libm_ok lg_ex)); rewrite ?VQ; try assumption; try lra; try lia; try (apply few; cbn; lra); [exact lg_ex_factorial|].
    intros k [<-|[<-|[<-|[]]]]; apply few; cbn; lra.
  - pose proof (C70_categorical_family 1 lg_ex L [quarter] quarter [0; 1]%nat (rounded_libm_ok lg_ex) ltac:(lra)) as W. cbn [app map] in W. rewrite VQ in W.
    apply W.
    + repeat (apply Forall_cons; [split; [exact NQ|lra]|]). apply Forall_nil.
    + cbn [length INR]. change (bpow radix2 20) with 1048576. lra.
    + apply few; cbn; lra.
    + intros x [<-|[<-|[]]]; cbn; lia.
Qed.
