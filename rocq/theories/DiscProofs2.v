(** Normalisation and moments of the discrete distributions, on the model (C31, C35). *)
From Coquelicot Require Import Coquelicot.
From Coq Require Import ZArith Reals List Bool Lra Lia Arith.
From Verif Require Import Num XRFacts DensitySpec BuilderProofs CoreModel CoreSpec CoreProofs
  CombModel CombSpec ExpFamModel DistModel DistSpec DistFacts DistProofs DistProofs2 DistProofs3 DistProofs4
  ExpFamProofs CombProofs DiscProofs.
Import ListNotations.
Local Open Scope R_scope.
Local Open Scope list_scope.
Notation C := Binomial.C.

Section D.
Context (lg : R -> R).
Notation X := (XR lg).
Notation fin r := (Fin r : X).

Lemma total_ext ld (w : nat -> R) v : (forall k, is_logdens (ld k) /\ dens (ld k) = w k) -> infinite_sum w v -> total_mass ld v.
Proof. intros E H. split; [intros k; apply E|]. eapply inf_ext; [intros k; symmetry; apply E|exact H]. Qed.
Lemma mean_ext ld (w : nat -> R) v : (forall k, dens (ld k) = w k) -> infinite_sum (fun k => INR k * w k) v -> has_mean ld v.
Proof. intros E H. apply (inf_ext (fun k => INR k * w k)); [intros k; rewrite E; reflexivity|exact H]. Qed.
Lemma variance_ext ld (w : nat -> R) m v : (forall k, dens (ld k) = w k) ->
  infinite_sum (fun k => (INR k - m) ^ 2 * w k) v -> has_variance ld m v.
Proof. intros E H. apply (inf_ext (fun k => (INR k - m) ^ 2 * w k)); [intros k; rewrite E; reflexivity|exact H]. Qed.
Lemma ld_ln v : 0 < v -> is_logdens (Fin (ln v)) /\ dens (Fin (ln v)) = v.
Proof. intros H. split; [left; eauto|cbn [dens]; apply exp_ln, H]. Qed.
Lemma ld_ninf : is_logdens NInf /\ dens NInf = 0.
Proof. split; [right|]; reflexivity. Qed.

(** ** Bernoulli *)
Lemma bernoulli_dens p d : bernoulli_new (fin p) = Some d ->
  forall k, is_logdens (bernoulli_ld d k) /\ dens (bernoulli_ld d k) = bernoulli_pmf p k.
Proof.
  intros H k. apply bernoulli_new_fin in H. destruct H as [P ->]. unfold bernoulli_ld. cbn [be_prob].
  destruct k as [|[|k]]; cbn [bernoulli_pmf]; xr_lits; xr_ops.
  - rewrite xsub_Fin. destruct (Req_dec p 1) as [->|N].
    + replace (1 - 1) with 0 by lra. rewrite xln_zero. apply ld_ninf.
    + rewrite xln_pos by lra. apply ld_ln. lra.
  - destruct (Req_dec p 0) as [->|N].
    + rewrite xln_zero. apply ld_ninf.
    + rewrite xln_pos by lra. apply ld_ln. lra.
  - apply ld_ninf.
Qed.
Lemma bernoulli_pmf_binomial p k : bernoulli_pmf p k = binomial_pmf 1 p k.
Proof.
  destruct k as [|[|k]]; cbn [bernoulli_pmf].
  - rewrite binomial_pmf_0. ring.
  - unfold binomial_pmf. cbn [Nat.leb Nat.sub]. rewrite C_n_n. ring.
  - rewrite binomial_pmf_out by lia. reflexivity.
Qed.
Lemma bernoulli_total p d : bernoulli_new (fin p) = Some d -> total_mass (bernoulli_ld d) 1.
Proof.
  intros H. eapply total_ext; [apply bernoulli_dens, H|].
  pose proof (bexp_inf p 1 (fun _ => 1)) as K. rewrite bexp_one in K.
  eapply inf_ext; [|exact K]. intros k. cbn beta. rewrite bernoulli_pmf_binomial. ring.
Qed.
Lemma bernoulli_moments p d : bernoulli_new (fin p) = Some d -> exists m v,
  bernoulli_mean d = Fin m /\ bernoulli_variance d = Fin v /\
  has_mean (bernoulli_ld d) m /\ has_variance (bernoulli_ld d) m v.
Proof.
  intros H. exists p, (p * (1 - p)). pose proof (fun k => proj2 (bernoulli_dens p d H k)) as D.
  apply bernoulli_new_fin in H. destruct H as [P ->].
  split; [reflexivity|]. split; [unfold bernoulli_variance; cbn [be_prob]; xr_lits; reflexivity|].
  assert (E : forall k, dens (bernoulli_ld (@mkBernoulli X (Fin p)) k) = binomial_pmf 1 p k)
    by (intros k; rewrite D; apply bernoulli_pmf_binomial).
  pose proof (bexp_inf p 1 INR) as K1. rewrite bexp_id in K1.
  pose proof (bexp_inf p 1 (fun k => INR k ^ 2)) as K2. rewrite bexp_sq in K2.
  pose proof (bexp_inf p 1 (fun _ => 1)) as K0. rewrite bexp_one in K0.
  cbn [INR] in K1, K2. rewrite Rmult_1_l in K1, K2. split.
  - eapply mean_ext; [exact E|exact K1].
  - eapply variance_ext; [exact E|]. replace (p * (1 - p)) with ((p * (1 - p) + p ^ 2) - p ^ 2) by ring.
    apply inf_variance; [|exact K1|exact K2]. eapply inf_ext; [|exact K0]. intros; cbn beta; ring.
Qed.
(** The family path, over the support. *)
Lemma bernoulli_family_dens p d : bernoulli_new (fin p) = Some d -> 0 < p < 1 ->
  forall k, on_support (bernoulli_support d) (ef_density (bernoulli_expfam d)) k = bernoulli_ld d k.
Proof.
  intros H P k. apply bernoulli_new_fin in H. destruct H as [_ ->]. unfold on_support, bernoulli_support.
  destruct k as [|[|k]]; cbn [Nat.eqb orb].
  - rewrite bernoulli_ef, bernoulli_direct by (try lia; exact P). cbn [INR bernoulli_pmf]. f_equal. ring.
  - rewrite bernoulli_ef, bernoulli_direct by (try lia; exact P). cbn [INR bernoulli_pmf]. f_equal. ring.
  - reflexivity.
Qed.
Lemma total_congr f g v : (forall k, f k = g k) -> total_mass g v -> total_mass f v.
Proof.
  intros E [A B]. split; [intros k; rewrite E; apply A|]. apply (inf_ext (fun k => dens (g k))); [intros k; rewrite E; reflexivity|exact B].
Qed.
Lemma bernoulli_family_total p d : bernoulli_new (fin p) = Some d -> 0 < p < 1 ->
  total_mass (on_support (bernoulli_support d) (ef_density (bernoulli_expfam d))) 1.
Proof. intros H P. eapply total_congr; [apply (bernoulli_family_dens p d H P)|]. eapply bernoulli_total, H. Qed.

(** ** Binomial *)
Lemma binomial_pmf_pos n p k : 0 < p < 1 -> (k <= n)%nat -> 0 < binomial_pmf n p k.
Proof.
  intros P K. unfold binomial_pmf. rewrite (proj2 (Nat.leb_le _ _) K). pose proof (C_pos n k K).
  apply Rmult_lt_0_compat; [apply Rmult_lt_0_compat; [assumption|]|]; apply pow_lt; lra.
Qed.
Lemma binomial_family_dens n p d : lg_factorial lg -> binomial_new n (fin p) = Some d -> 0 < p < 1 ->
  forall k, is_logdens (ef_density (binomial_expfam d) k) /\ dens (ef_density (binomial_expfam d) k) = binomial_pmf n p k.
Proof.
  intros L H P k. destruct (le_lt_dec k n) as [K|K].
  - apply binomial_new_fin in H. destruct H as [_ ->]. rewrite binomial_ef by assumption.
    apply ld_ln, binomial_pmf_pos; assumption.
  - rewrite (proj1 (outside_family lg k) n p d H P).
    + rewrite binomial_pmf_out by exact K. apply ld_ninf.
    + apply binomial_new_fin in H. destruct H as [_ ->]. unfold binomial_support. cbn [bi_n]. apply Nat.leb_gt, K.
Qed.
Lemma binomial_family_total n p d : lg_factorial lg -> binomial_new n (fin p) = Some d -> 0 < p < 1 ->
  total_mass (ef_density (binomial_expfam d)) 1.
Proof.
  intros L H P. eapply total_ext; [apply (binomial_family_dens n p d L H P)|].
  pose proof (bexp_inf p n (fun _ => 1)) as K. rewrite bexp_one in K.
  eapply inf_ext; [|exact K]. intros k. cbn beta. ring.
Qed.
Lemma binomial_family_moments n p d : lg_factorial lg -> binomial_new n (fin p) = Some d -> 0 < p < 1 -> exists m v,
  binomial_mean d = Fin m /\ binomial_variance d = Fin v /\
  has_mean (ef_density (binomial_expfam d)) m /\ has_variance (ef_density (binomial_expfam d)) m v.
Proof.
  intros L H P. exists (INR n * p), (INR n * p * (1 - p)).
  pose proof (fun k => proj2 (binomial_family_dens n p d L H P k)) as D.
  apply binomial_new_fin in H. destruct H as [_ ->].
  split; [unfold binomial_mean; cbn [bi_n bi_prob]; xr_lits; reflexivity|].
  split; [unfold binomial_variance; cbn [bi_n bi_prob]; xr_lits; reflexivity|].
  pose proof (bexp_inf p n INR) as K1. rewrite bexp_id in K1.
  pose proof (bexp_inf p n (fun k => INR k ^ 2)) as K2. rewrite bexp_sq in K2.
  pose proof (bexp_inf p n (fun _ => 1)) as K0. rewrite bexp_one in K0. split.
  - eapply mean_ext; [exact D|exact K1].
  - eapply variance_ext; [exact D|].
    replace (INR n * p * (1 - p)) with ((INR n * p * (1 - p) + (INR n * p) ^ 2) - (INR n * p) ^ 2) by ring.
    apply inf_variance; [|exact K1|exact K2]. eapply inf_ext; [|exact K0]. intros; cbn beta; ring.
Qed.
Lemma binomial_direct_total n p d : binomial_new n (fin p) = Some d -> 0 < p < 1 ->
  total_mass (binomial_ld d) (sum_f_R0 (fun k => p ^ k * (1 - p) ^ (n - k)) n).
Proof.
  intros H P. apply binomial_new_fin in H. destruct H as [_ ->].
  set (w := fun k => if Nat.leb k n then p ^ k * (1 - p) ^ (n - k) else 0).
  replace (sum_f_R0 (fun k => p ^ k * (1 - p) ^ (n - k)) n) with (sum_f_R0 w n).
  2:{ apply sum_eq. intros k K. unfold w. rewrite (proj2 (Nat.leb_le _ _) K). reflexivity. }
  apply (total_ext _ w).
  - intros k. unfold w. destruct (Nat.leb_spec k n) as [K|K].
    + rewrite binomial_direct by assumption.
      assert (E : binomial_pmf n p k = C n k * (p ^ k * (1 - p) ^ (n - k)))
        by (unfold binomial_pmf; rewrite (proj2 (Nat.leb_le _ _) K); ring).
      assert (0 < p ^ k * (1 - p) ^ (n - k)) by (apply Rmult_lt_0_compat; apply pow_lt; lra).
      pose proof (C_pos n k K). rewrite E, ln_mult by assumption.
      replace (ln (C n k) + ln (p ^ k * (1 - p) ^ (n - k)) - ln (C n k)) with (ln (p ^ k * (1 - p) ^ (n - k))) by ring.
      apply ld_ln. assumption.
    + unfold binomial_ld. cbn [bi_n]. rewrite (proj2 (Nat.leb_gt _ _) K). apply ld_ninf.
  - apply inf_finite. intros k K. unfold w. rewrite (proj2 (Nat.leb_gt _ _) K). reflexivity.
Qed.
Lemma sum_pos_term (f : nat -> R) n : (forall k, (k <= n)%nat -> 0 <= f k) -> forall j, (j <= n)%nat -> f j <= sum_f_R0 f n.
Proof.
  induction n as [|n IH]; intros P j J; cbn [sum_f_R0].
  - replace j with 0%nat by lia. lra.
  - assert (0 <= sum_f_R0 f n) by (apply cond_pos_sum_le || (clear - P; induction n as [|n IH]; cbn [sum_f_R0];
      [apply P; lia|pose proof (P (S n) ltac:(lia)); assert (0 <= sum_f_R0 f n) by (apply IH; intros; apply P; lia); lra])).
    pose proof (P (S n) ltac:(lia)). destruct (Nat.eq_dec j (S n)) as [->|N]; [lra|].
    assert (f j <= sum_f_R0 f n) by (apply IH; [intros; apply P; lia|lia]). lra.
Qed.
Lemma C_n_1 n : C (S n) 1 = INR (S n).
Proof. rewrite <- nbc_1. unfold nbc. destruct n; [rewrite C_n_n, C_n_0; reflexivity|].
  rewrite Binomial.pascal_step1 by lia. f_equal; lia. Qed.
Lemma binomial_direct_normalised n p d : binomial_new n (fin p) = Some d -> 0 < p < 1 ->
  total_mass (binomial_ld d) 1 <-> (n <= 1)%nat.
Proof.
  intros H P. pose proof (binomial_direct_total n p d H P) as T. split.
  - intros T1. pose proof (inf_unique _ _ _ (proj2 T) (proj2 T1)) as E. clear T T1 H.
    destruct (le_lt_dec n 1) as [|G]; [assumption|exfalso].
    assert (G1 : 1 = sum_f_R0 (fun k => binomial_pmf n p k) n).
    { rewrite <- (bexp_one p n). unfold bexp. apply sum_eq. intros; ring. }
    assert (Z : sum_f_R0 (fun k => binomial_pmf n p k - p ^ k * (1 - p) ^ (n - k)) n = 0).
    { transitivity (sum_f_R0 (fun k => binomial_pmf n p k) n - sum_f_R0 (fun k => p ^ k * (1 - p) ^ (n - k)) n); [apply minus_sum|].
      rewrite E, <- G1. ring. }
    pose proof (sum_pos_term (fun k => binomial_pmf n p k - p ^ k * (1 - p) ^ (n - k)) n) as Q.
    assert (Pn : forall k, (k <= n)%nat -> 1 <= C n k).
    { intros k. clear - G. revert k. induction n as [|n IH]; [lia|]. intros k K. destruct k as [|k]; [rewrite C_n_0; lra|].
      destruct (Nat.eq_dec k n) as [->|N]; [rewrite C_n_n; lra|]. rewrite <- pascal by lia.
      pose proof (C_pos n (S k) ltac:(lia)).
      destruct n as [|[|n]]; [lia| |].
      - replace k with 0%nat by lia. rewrite C_n_0, C_n_n. lra.
      - pose proof (IH ltac:(lia) k ltac:(lia)). lra. }
    assert (W : forall k, 0 < p ^ k * (1 - p) ^ (n - k)) by (intros; apply Rmult_lt_0_compat; apply pow_lt; lra).
    assert (B : forall k, (k <= n)%nat -> binomial_pmf n p k = C n k * (p ^ k * (1 - p) ^ (n - k))).
    { intros k K. unfold binomial_pmf. rewrite (proj2 (Nat.leb_le _ _) K). ring. }
    assert (0 < C n 1 - 1).
    { destruct n as [|n]; [lia|]. rewrite C_n_1, S_INR. pose proof (lt_0_INR n ltac:(lia)). lra. }
    specialize (Q ltac:(intros k K; cbn beta; rewrite (B k K); pose proof (Pn k K); pose proof (W k); nra) 1%nat ltac:(lia)).
    cbn beta in Q. rewrite Z, (B 1%nat) in Q by lia. pose proof (W 1%nat). nra.
  - intros G. destruct n as [|[|n]]; [| |lia]; cbn in T.
    + replace 1 with (1 * 1) at 1 by ring. exact T.
    + replace 1 with (1 * ((1 - p) * 1) + p * 1 * 1) at 1 by ring. exact T.
Qed.

(** ** Poisson *)
Lemma poisson_direct_total l d : poisson_new (fin l) = Some d -> total_mass (poisson_ld d) 1.
Proof.
  intros H. apply poisson_new_fin in H. destruct H as [P ->]. eapply total_ext; [|apply (poisson_total l)].
  intros k. rewrite poisson_direct by exact P. apply ld_ln. unfold poisson_pmf, Rdiv.
  pose proof (exp_pos (- l)). pose proof (Rinv_0_lt_compat _ (INR_fact_lt_0 k)).
  repeat apply Rmult_lt_0_compat; try assumption. apply pow_lt, P.
Qed.
Lemma poisson_direct_mean l d : poisson_new (fin l) = Some d -> has_mean (poisson_ld d) l.
Proof.
  intros H. apply poisson_new_fin in H. destruct H as [P ->]. eapply mean_ext; [|apply (poisson_first l)].
  intros k. rewrite poisson_direct by exact P. cbn [dens]. apply exp_ln. unfold poisson_pmf, Rdiv.
  pose proof (exp_pos (- l)). pose proof (Rinv_0_lt_compat _ (INR_fact_lt_0 k)).
  repeat apply Rmult_lt_0_compat; try assumption. apply pow_lt, P.
Qed.

(** ** Geometric *)
Lemma geometric_pmf_pos p k : 0 < p < 1 -> 0 < geometric_pmf p (S k).
Proof. intros P. cbn [geometric_pmf]. apply Rmult_lt_0_compat; [apply pow_lt|]; lra. Qed.
Lemma geometric_dens p d : geometric_new (fin p) = Some d -> p < 1 ->
  forall k, is_logdens (geometric_ld d k) /\ dens (geometric_ld d k) = geometric_pmf p k.
Proof.
  intros H P k. apply geometric_new_fin in H. destruct H as [Q ->]. destruct k as [|k]; [apply ld_ninf|].
  rewrite geometric_direct by (try lia; lra). apply ld_ln, geometric_pmf_pos. lra.
Qed.
Lemma geometric_direct_total p d : geometric_new (fin p) = Some d -> p < 1 -> total_mass (geometric_ld d) 1.
Proof.
  intros H P. eapply total_ext; [apply (geometric_dens p d H P)|]. apply geometric_new_fin in H. apply geometric_total. lra.
Qed.
Lemma geometric_moments p d : geometric_new (fin p) = Some d -> p < 1 -> exists m v,
  geometric_mean d = Fin m /\ geometric_variance d = Fin v /\
  has_mean (geometric_ld d) m /\ has_variance (geometric_ld d) m v.
Proof.
  intros H P. pose proof (fun k => proj2 (geometric_dens p d H P k)) as D.
  apply geometric_new_fin in H. destruct H as [Q ->]. exists (/ p), ((1 - p) / p ^ 2).
  split; [unfold geometric_mean, nrecip; cbn [ge_prob]; xr_lits; xr_ops; rewrite xdiv_fin by lra; f_equal; field; lra|].
  split; [unfold geometric_variance; cbn [ge_prob]; xr_lits; xr_ops; rewrite xsub_Fin, xmul_Fin, xdiv_fin by nra; f_equal; field; lra|].
  split; [eapply mean_ext; [exact D|apply geometric_first; lra]|]. eapply variance_ext; [exact D|].
  replace ((1 - p) / p ^ 2) with ((2 - p) / p ^ 2 - (/ p) ^ 2) by (field; lra).
  apply inf_variance; [apply geometric_total; lra|apply geometric_first; lra|apply geometric_second; lra].
Qed.
(** The family path sums to [1 - p] over the support. *)
Lemma geometric_family_total p d : geometric_new (fin p) = Some d -> p < 1 ->
  total_mass (on_support (geometric_support d) (ef_density (geometric_expfam d))) (1 - p).
Proof.
  intros H P. apply geometric_new_fin in H. destruct H as [Q ->].
  apply (total_ext _ (fun k => (1 - p) * geometric_pmf p k)).
  - intros k. unfold on_support, geometric_support. destruct k as [|k]; cbn [Nat.leb].
    + cbn [geometric_pmf]. rewrite Rmult_0_r. apply ld_ninf.
    + rewrite geometric_ef by (try lia; lra). pose proof (geometric_pmf_pos p k ltac:(lra)).
      rewrite <- ln_mult by lra. rewrite (Rmult_comm (1 - p)). apply ld_ln. nra.
  - pose proof (inf_scale (1 - p) _ _ (geometric_total p ltac:(lra))) as K. rewrite Rmult_1_r in K. exact K.
Qed.

(** ** Negative binomial *)
Lemma negbinomial_direct_total r p d : negbinomial_new r (fin p) = Some d -> total_mass (negbinomial_ld d) (p ^ (r - 1)).
Proof.
  intros H. apply negbinomial_new_fin in H. destruct H as (Rp & P & ->).
  apply (total_ext _ (fun k => p ^ r * (1 - p) ^ k)).
  - intros k. rewrite negbinomial_direct by exact P.
    rewrite <- !ln_pow_nat, <- ln_mult by (try apply pow_lt; lra). apply ld_ln.
    apply Rmult_lt_0_compat; apply pow_lt; lra.
  - replace (p ^ (r - 1)) with (p ^ r * / (1 - (1 - p)) ^ 1).
    + apply inf_scale. eapply inf_ext; [|apply (nb_sum 0 (1 - p)); lra]. intros k. unfold nbc. cbn beta.
      rewrite Nat.add_0_r, C_n_n. ring.
    + destruct r as [|r]; [lia|]. replace (S r - 1)%nat with r by lia. cbn [pow]. field. lra.
Qed.
Lemma negbinomial_direct_normalised r p d : negbinomial_new r (fin p) = Some d ->
  total_mass (negbinomial_ld d) 1 <-> r = 1%nat.
Proof.
  intros H. pose proof (negbinomial_direct_total r p d H) as T. apply negbinomial_new_fin in H.
  destruct H as (Rp & P & ->). split.
  - intros T1. pose proof (inf_unique _ _ _ (proj2 T) (proj2 T1)) as E.
    destruct r as [|[|r]]; [lia|reflexivity|exfalso]. replace (S (S r) - 1)%nat with (S r) in E by lia.
    cbn [pow] in E. assert (p ^ r <= 1). { rewrite <- (pow1 r). apply pow_incr. lra. }
    assert (0 < p ^ r) by (apply pow_lt; lra). nra.
  - intros ->. exact T.
Qed.
Lemma negbinomial_textbook_moments r p d : negbinomial_new r (fin p) = Some d -> exists m v,
  negbinomial_mean d = Fin m /\ negbinomial_variance d = Fin v /\
  infinite_sum (negbinomial_pmf r p) 1 /\
  infinite_sum (fun k => INR k * negbinomial_pmf r p k) m /\
  infinite_sum (fun k => (INR k - m) ^ 2 * negbinomial_pmf r p k) v.
Proof.
  intros H. apply negbinomial_new_fin in H. destruct H as (Rp & P & ->).
  exists (INR r * p / (1 - p)), (INR r * p / (1 - p) ^ 2).
  split; [unfold negbinomial_mean; cbn [nb_r nb_prob]; xr_lits; xr_ops; rewrite xsub_Fin, xmul_Fin, xdiv_fin by lra; reflexivity|].
  split; [unfold negbinomial_variance; cbn [nb_r nb_prob]; xr_lits; xr_ops; rewrite xsub_Fin, !xmul_Fin, xdiv_fin by nra; f_equal; field; lra|].
  split; [apply negbinomial_total; [exact Rp|lra]|]. split; [apply negbinomial_first; [exact Rp|lra]|].
  replace (INR r * p / (1 - p) ^ 2) with
    ((INR r * (INR r + 1) * (p / (1 - p)) ^ 2 + INR r * p / (1 - p)) - (INR r * p / (1 - p)) ^ 2) by (field; lra).
  apply inf_variance; [apply negbinomial_total|apply negbinomial_first|apply negbinomial_second]; (exact Rp || lra).
Qed.
(** Family path, one required failure: total (1-p)/(1-2p)... *)
Lemma negbinomial_family_total r p d : lg_factorial lg -> negbinomial_new r (fin p) = Some d -> p < 1/2 ->
  total_mass (ef_density (negbinomial_expfam d)) (((1 - p) ^ 2 / (1 - 2 * p)) ^ r).
Proof.
  intros L H P2. apply negbinomial_new_fin in H. destruct H as (Rp & P & ->).
  assert (O : 0 <= p / (1 - p) < 1).
  { split; [apply Rlt_le, Rdiv_lt_0_compat; lra|]. apply (Rmult_lt_reg_r (1 - p)); [lra|]. unfold Rdiv. rewrite Rmult_assoc, Rinv_l by lra. lra. }
  destruct r as [|r]; [lia|].
  apply (total_ext _ (fun k => (1 - p) ^ S r * (nbc r k * (p / (1 - p)) ^ k))).
  - intros k. rewrite negbinomial_ef by (assumption || lra). rewrite negbinomial_pmf_nbc. 
    pose proof (nbc_pos r k). assert (0 < p ^ k) by (apply pow_lt; lra). assert (0 < (1 - p) ^ k) by (apply pow_lt; lra).
    assert (0 < (1 - p) ^ S r) by (apply pow_lt; lra). assert (0 < nbc r k * p ^ k) by nra.
    rewrite <- ln_pow_nat by lra. rewrite <- ln_div by nra.
    replace ((1 - p) ^ S r * (nbc r k * (p / (1 - p)) ^ k)) with (nbc r k * p ^ k * (1 - p) ^ S r / (1 - p) ^ k).
    + apply ld_ln. apply Rdiv_lt_0_compat; nra.
    + unfold Rdiv. rewrite Rpow_mult_distr, pow_inv. ring.
  - replace (((1 - p) ^ 2 / (1 - 2 * p)) ^ S r) with ((1 - p) ^ S r * / (1 - p / (1 - p)) ^ S r).
    + apply inf_scale, nb_sum, O.
    + rewrite <- pow_inv, <- Rpow_mult_distr. f_equal. field. lra.
Qed.

(** ** Categorical *)
Lemma categorical_dens ps d : categorical_new (fins ps : list X) = Some d ->
  forall k, is_logdens (categorical_ld d k) /\ dens (categorical_ld d k) = categorical_pmf ps k.
Proof.
  intros H k. assert (K : returns (categorical_new (fins ps : list X))) by (exists d; exact H).
  apply categorical_new_iff in K. destruct K as (_ & F & _).
  apply categorical_new_keeps in H. destruct d as [q]. cbn [ca_probs] in H. subst q.
  destruct (le_lt_dec (length ps) k) as [G|G].
  - unfold categorical_ld, categorical_pmf. cbn [ca_probs]. rewrite fins_length, (proj2 (Nat.ltb_ge _ _) G).
    rewrite nth_overflow by exact G. apply ld_ninf.
  - assert (P : 0 <= nth k ps 0) by (rewrite Forall_forall in F; apply F, nth_In, G).
    destruct (Req_dec (nth k ps 0) 0) as [Z|N].
    + unfold categorical_ld, categorical_pmf. cbn [ca_probs]. rewrite fins_length, (proj2 (Nat.ltb_lt _ _) G).
      rewrite nth_fins, Z. xr_ops. rewrite xln_zero. apply ld_ninf.
    + rewrite categorical_direct by (assumption || lra). apply ld_ln. unfold categorical_pmf. lra.
Qed.
Lemma Rsum_nth (f : nat -> R -> R) : forall (ps : list R) a,
  Rsum (map (fun ip : nat * R => f (fst ip) (snd ip)) (combine (seq a (length ps)) ps)) =
  match ps with [] => 0 | _ => sum_f_R0 (fun k => f (a + k)%nat (nth k ps 0)) (length ps - 1) end.
Proof.
  induction ps as [|q ps IH]; intros a; [reflexivity|]. cbn [length seq combine map]. rewrite Rsum_cons, IH. cbn [fst snd].
  replace (S (length ps) - 1)%nat with (length ps) by lia. destruct ps as [|q' ps].
  - cbn [length sum_f_R0 nth]. rewrite Nat.add_0_r. ring.
  - rewrite (decomp_sum _ (length (q' :: ps))) by (cbn; lia). cbn [nth]. rewrite Nat.add_0_r. f_equal. cbn [length Nat.sub pred].
    rewrite Nat.sub_0_r. apply sum_eq. intros i _. replace (S a + i)%nat with (a + S i)%nat by lia. reflexivity.
Qed.
Lemma inf_nth (f : nat -> R -> R) (ps : list R) : (forall k, f k 0 = 0) ->
  infinite_sum (fun k => f k (nth k ps 0))
    (Rsum (map (fun ip : nat * R => f (fst ip) (snd ip)) (combine (seq 0 (length ps)) ps))).
Proof.
  intros Z. rewrite Rsum_nth. destruct ps as [|q ps].
  - eapply inf_ext; [|apply sums_to_zero]. intros [|k]; cbn; rewrite Z; reflexivity.
  - apply inf_finite. intros k K. rewrite nth_overflow by (cbn [length] in *; lia). apply Z.
Qed.
Lemma combine_snd {A} (ps : list A) : forall a, map (fun ip : nat * A => snd ip) (combine (seq a (length ps)) ps) = ps.
Proof. induction ps as [|q ps IH]; intros a; [reflexivity|]. cbn [length seq combine map snd]. f_equal. apply IH. Qed.
Lemma categorical_total ps d : categorical_new (fins ps : list X) = Some d ->
  total_mass (categorical_ld d) (Rsum ps) /\ Rabs (Rsum ps - 1) < / 10 ^ 10.
Proof.
  intros H. split.
  - eapply total_ext; [apply (categorical_dens ps d H)|]. pose proof (inf_nth (fun _ q => q) ps ltac:(reflexivity)) as K.
    cbn beta in K. rewrite combine_snd in K. exact K.
  - assert (K : returns (categorical_new (fins ps : list X))) by (exists d; exact H).
    apply categorical_new_iff in K. exact (proj2 (proj2 K)).
Qed.
Lemma categorical_family_total qs l d : categorical_new (fins (qs ++ [l]) : list X) = Some d ->
  Forall (fun p => 0 < p) (qs ++ [l]) -> total_mass (ef_density (categorical_expfam d)) 1.
Proof.
  intros H F. pose proof (categorical_total _ d H) as [[_ T] A]. pose proof (categorical_dens _ d H) as D.
  assert (T' : infinite_sum (categorical_pmf (qs ++ [l])) (Rsum (qs ++ [l]))) by (eapply inf_ext; [intros k; apply D|exact T]).
  assert (Z : 0 < Rsum (qs ++ [l])) by (apply Rabs_def2 in A; lra).
  pose proof (inf_scale (/ Rsum (qs ++ [l])) _ _ T') as K. rewrite Rinv_l in K by lra.
  eapply total_ext; [|exact K]. intros k. cbn beta.
  pose proof (outside_family lg k) as [_ O]. specialize (O d).
  apply categorical_new_keeps in H. destruct d as [q]. cbn [ca_probs] in H. subst q.
  destruct (le_lt_dec (length (qs ++ [l])) k) as [G|G].
  - rewrite O by (unfold categorical_support; cbn [ca_probs]; rewrite fins_length; apply Nat.ltb_ge, G).
    unfold categorical_pmf. rewrite nth_overflow by exact G. rewrite Rmult_0_r. apply ld_ninf.
  - apply Forall_app in F as F'. destruct F' as [F1 F2]. inversion F2 as [|? ? F3 _]; subst.
    rewrite categorical_ef by assumption.
    assert (0 < categorical_pmf (qs ++ [l]) k) by (unfold categorical_pmf; rewrite Forall_forall in F; apply F, nth_In, G).
    rewrite <- ln_div by assumption. rewrite Rmult_comm. apply ld_ln. apply Rdiv_lt_0_compat; assumption.
Qed.
Lemma enumerate_fins ps : enumerate (fins ps : list X) = map (fun ip : nat * R => (fst ip, fin (snd ip))) (combine (seq 0 (length ps)) ps).
Proof.
  unfold enumerate. rewrite fins_length. generalize 0%nat. induction ps as [|q ps IH]; intros a; [reflexivity|].
  cbn [fins map length seq combine fst snd]. f_equal. apply IH.
Qed.
Lemma categorical_moments ps d : categorical_new (fins ps : list X) = Some d -> exists m v,
  categorical_mean d = Fin m /\ categorical_variance d = Fin v /\
  has_mean (categorical_ld d) m /\ has_variance (categorical_ld d) m v.
Proof.
  intros H. pose proof (fun k => proj2 (categorical_dens ps d H k)) as D.
  apply categorical_new_keeps in H. destruct d as [q]. cbn [ca_probs] in H. subst q.
  set (m := Rsum (map (fun ip : nat * R => INR (fst ip) * snd ip) (combine (seq 0 (length ps)) ps))).
  set (v := Rsum (map (fun ip : nat * R => (INR (fst ip) - m) ^ 2 * snd ip) (combine (seq 0 (length ps)) ps))).
  assert (M : categorical_mean (@mkCategorical X (fins ps)) = Fin m).
  { unfold categorical_mean. cbn [ca_probs]. rewrite enumerate_fins, map_map. cbn [fst snd].
    rewrite fold_left_xsum, x_n0, xadd_0_l. unfold m. rewrite <- (xsum_fins). unfold fins. rewrite map_map. f_equal.
    apply map_ext. intros [i q]. cbn [fst snd]. rewrite x_nofn. reflexivity. }
  exists m, v. split; [exact M|]. split.
  { unfold categorical_variance. rewrite M. cbn [ca_probs]. rewrite enumerate_fins, map_map. cbn [fst snd].
    rewrite fold_left_xsum, x_n0, xadd_0_l. unfold v. rewrite <- (xsum_fins). unfold fins. rewrite map_map. f_equal.
    apply map_ext. intros [i q]. cbn [fst snd]. rewrite x_nofn. cbn [nmul nsub XR xmul xsub xadd xneg]. f_equal. ring. }
  split.
  - eapply mean_ext; [exact D|]. apply (inf_nth (fun k q => INR k * q) ps). intros; ring.
  - eapply variance_ext; [exact D|]. apply (inf_nth (fun k q => (INR k - m) ^ 2 * q) ps). intros; ring.
Qed.
(** ** Mismatched moments *)
Lemma negbinomial_own_mean p d : negbinomial_new 1 (fin p) = Some d ->
  has_mean (negbinomial_ld d) ((1 - p) / p) /\ negbinomial_mean d = Fin (p / (1 - p)).
Proof.
  intros H. apply negbinomial_new_fin in H. destruct H as (_ & P & ->). split.
  - apply (mean_ext _ (negbinomial_pmf 1 (1 - p))).
    + intros k. rewrite negbinomial_direct by exact P. rewrite negbinomial_pmf_nbc. unfold nbc.
      rewrite Nat.add_0_r, C_n_n. rewrite <- !ln_pow_nat, <- ln_mult by (try apply pow_lt; lra). cbn [dens].
      rewrite exp_ln by (apply Rmult_lt_0_compat; apply pow_lt; lra). replace (1 - (1 - p)) with p by ring. ring.
    + replace ((1 - p) / p) with (INR 1 * (1 - p) / (1 - (1 - p))) by (cbn [INR]; field; lra).
      apply negbinomial_first; [lia|lra].
  - unfold negbinomial_mean. cbn [nb_r nb_prob]. xr_lits. xr_ops. rewrite xsub_Fin, xmul_Fin, xdiv_fin by lra.
    cbn [INR]. f_equal. field. lra.
Qed.
Lemma binomial_direct_mean_wrong : exists n p d m, binomial_new n (fin p) = Some d /\
  binomial_mean d = Fin m /\ ~ has_mean (binomial_ld d) m.
Proof.
  exists 2%nat, (1/2), (@mkBinomial X 2 (Fin (1/2))), 1. split.
  { unfold binomial_new. replace (_ && _) with true; [reflexivity|]. symmetry. apply x_prob_iff. cbn. lra. }
  split; [unfold binomial_mean; cbn [bi_n bi_prob]; xr_lits; xr_ops; rewrite xmul_Fin; cbn [INR]; f_equal; lra|].
  intros M.
  set (w := fun k => if Nat.leb k 2 then 1/4 else 0).
  assert (K : has_mean (binomial_ld (@mkBinomial X 2 (Fin (1/2)))) (sum_f_R0 (fun k => INR k * w k) 2)).
  { apply (mean_ext _ w).
    - intros k. unfold w. destruct (Nat.leb_spec k 2) as [G|G].
      + rewrite binomial_direct by (assumption || lra). rewrite ln_binomial_pmf by (assumption || lra).
        replace (1 - 1/2) with (1/2) by lra.
        replace (ln (C 2 k) + INR k * ln (1/2) + (INR 2 - INR k) * ln (1/2) - ln (C 2 k)) with (INR 2 * ln (1/2)) by ring.
        rewrite <- ln_pow_nat by lra. cbn [dens]. rewrite exp_ln by (apply pow_lt; lra). cbn [pow]. lra.
      + unfold binomial_ld. cbn [bi_n]. rewrite (proj2 (Nat.leb_gt _ _) G). reflexivity.
    - apply inf_finite. intros k G. unfold w. rewrite (proj2 (Nat.leb_gt _ _) G). ring. }
  pose proof (inf_unique _ _ _ K M) as E. unfold w in E. cbn in E. lra.
Qed.
End D.
