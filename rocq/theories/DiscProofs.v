(** Normalisation and moments of the discrete distributions (C31, C35). *)
From Coquelicot Require Import Coquelicot.
From Coq Require Import ZArith Reals List Bool Lra Lia Arith.
From Verif Require Import Num XRFacts DensitySpec BuilderProofs CoreModel CoreSpec CoreProofs
  CombModel CombSpec ExpFamModel DistModel DistSpec DistFacts DistProofs DistProofs2 DistProofs3 DistProofs4
  ExpFamProofs CombProofs.
Import ListNotations.
Local Open Scope R_scope.
Local Open Scope list_scope.
Notation C := Binomial.C.

(** ** Sums *)
Lemma sums_series f l : infinite_sum f l <-> is_series f l.
Proof. apply iff_sym, is_series_Reals. Qed.
Lemma inf_ext f g l : (forall n, f n = g n) -> infinite_sum f l -> infinite_sum g l.
Proof. intros E H. apply (sums_to_ext f g l E H). Qed.
Lemma inf_finite f n : (forall k, (n < k)%nat -> f k = 0) -> infinite_sum f (sum_f_R0 f n).
Proof.
  intros Z eps E. exists n. intros m M. replace (sum_f_R0 f m) with (sum_f_R0 f n).
  - unfold R_dist. rewrite Rminus_diag_eq by reflexivity. rewrite Rabs_R0. exact E.
  - induction M as [|m M IH]; [reflexivity|]. cbn [sum_f_R0]. rewrite <- IH, Z by lia. lra.
Qed.
Lemma inf_shift f l : f 0%nat = 0 -> infinite_sum (fun k => f (S k)) l -> infinite_sum f l.
Proof.
  intros Z H. apply sums_series. apply sums_series in H. apply is_series_decr_1.
  match goal with |- is_series _ ?v => replace v with l; [exact H|] end.
  unfold plus, opp; cbn. rewrite Z. ring.
Qed.
Lemma inf_unique f a b : infinite_sum f a -> infinite_sum f b -> a = b.
Proof. apply uniqueness_sum. Qed.
Lemma inf_plus f g a b : infinite_sum f a -> infinite_sum g b -> infinite_sum (fun n => f n + g n) (a + b).
Proof. apply sums_to_plus. Qed.
Lemma inf_scale c f a : infinite_sum f a -> infinite_sum (fun n => c * f n) (c * a).
Proof. apply sums_to_scale. Qed.
(** Variance from the first three moments. *)
Lemma inf_variance (w : nat -> R) m1 m2 : infinite_sum w 1 -> infinite_sum (fun k => INR k * w k) m1 ->
  infinite_sum (fun k => INR k ^ 2 * w k) m2 ->
  infinite_sum (fun k => (INR k - m1) ^ 2 * w k) (m2 - m1 ^ 2).
Proof.
  intros H0 H1 H2.
  pose proof (inf_plus _ _ _ _ H2 (inf_plus _ _ _ _ (inf_scale (-2 * m1) _ _ H1) (inf_scale (m1 ^ 2) _ _ H0))) as K.
  replace (m2 - m1 ^ 2) with (m2 + (-2 * m1 * m1 + m1 ^ 2 * 1)) by ring.
  eapply inf_ext; [|exact K]. intros n. cbn beta. ring.
Qed.

(** ** The negative binomial series *)
Lemma C_n_0 n : C n 0 = 1.
Proof. unfold Binomial.C. rewrite Nat.sub_0_r. cbn [fact INR]. field. apply INR_fact_neq_0. Qed.
Lemma C_n_n n : C n n = 1.
Proof. unfold Binomial.C. rewrite Nat.sub_diag. cbn [fact INR]. field. apply INR_fact_neq_0. Qed.
Lemma C_S n k : (S k <= n)%nat -> INR (S k) * C n (S k) = INR (n - k) * C n k.
Proof.
  intros H. unfold Binomial.C. replace (n - k)%nat with (S (n - S k)) by lia.
  rewrite !fact_simpl, !mult_INR. pose proof (INR_fact_neq_0 k). pose proof (INR_fact_neq_0 (n - S k)).
  pose proof (not_0_INR (S k) ltac:(lia)). pose proof (not_0_INR (S (n - S k)) ltac:(lia)). field. auto.
Qed.
Definition nbc (r k : nat) : R := C (k + r) k.
Lemma nbc_sum r : forall k, sum_f_R0 (nbc r) k = nbc (S r) k.
Proof.
  induction k as [|k IH]; cbn [sum_f_R0].
  - unfold nbc. cbn [Nat.add]. rewrite !C_n_0. reflexivity.
  - rewrite IH. unfold nbc. replace (S k + S r)%nat with (S (k + S r)) by lia.
    rewrite <- pascal by lia. replace (S k + r)%nat with (k + S r)%nat by lia. reflexivity.
Qed.
Lemma nbc_pos r k : 0 < nbc r k.
Proof. apply C_pos. lia. Qed.
Lemma nb_series r q : 0 <= q < 1 -> is_series (fun k => nbc r k * q ^ k) (/ (1 - q) ^ S r).
Proof.
  intros Q. assert (AQ : Rabs q < 1) by (rewrite Rabs_right; lra).
  induction r as [|r IH].
  - eapply is_series_ext; [|replace (/ (1 - q) ^ 1) with (/ (1 - q)) by (f_equal; ring); apply is_series_geom; exact AQ].
    intros k. unfold nbc. rewrite Nat.add_0_r, C_n_n. match goal with |- ?a = ?b => change (@eq R a b) end. ring.
  - assert (A1 : ex_series (fun n => Rabs (nbc r n * q ^ n))).
    { exists (/ (1 - q) ^ S r). eapply is_series_ext; [|exact IH]. intros n. cbn beta. symmetry. apply Rabs_right.
      pose proof (nbc_pos r n). pose proof (pow_le q n (proj1 Q)). apply Rle_ge, Rmult_le_pos; lra. }
    assert (A2 : ex_series (fun n => Rabs (q ^ n))).
    { exists (/ (1 - q)). eapply is_series_ext; [|apply is_series_geom; exact AQ]. intros n. cbn beta. symmetry.
      apply Rabs_right. apply Rle_ge, pow_le; lra. }
    pose proof (is_series_mult _ _ _ _ IH (is_series_geom q AQ) A1 A2) as K.
    replace (/ (1 - q) ^ S (S r)) with (/ (1 - q) ^ S r * / (1 - q)).
    + eapply is_series_ext; [|exact K]. intros n. cbn beta. rewrite <- nbc_sum, (Rmult_comm (sum_f_R0 _ _)), scal_sum.
      apply sum_eq. intros i Hi.
      match goal with |- ?a = ?b => change (@eq R a b) end. replace (q ^ n) with (q ^ i * q ^ (n - i)); [ring|].
      rewrite <- pow_add. f_equal. lia.
    + cbn [pow]. assert (1 - q <> 0) by lra. pose proof (pow_nonzero (1 - q) r H). field. auto.
Qed.
Lemma nb_sum r q : 0 <= q < 1 -> infinite_sum (fun k => nbc r k * q ^ k) (/ (1 - q) ^ S r).
Proof. intros Q. apply sums_series, nb_series, Q. Qed.
Lemma nbc_1 k : nbc 1 k = INR (S k).
Proof.
  unfold nbc. replace (k + 1)%nat with (S k) by lia. induction k as [|k IH].
  - rewrite C_n_0. reflexivity.
  - rewrite <- pascal by lia. rewrite C_n_n, IH. rewrite !S_INR. ring.
Qed.
Lemma nbc_step r k : INR (S k) * nbc r (S k) = INR (S r) * nbc (S r) k.
Proof.
  unfold nbc. replace (S k + r)%nat with (k + S r)%nat by lia. rewrite C_S by lia.
  replace (k + S r - k)%nat with (S r) by lia. reflexivity.
Qed.

(** Textbook negative binomial: k * pmf and k(k-1) * pmf. *)
Lemma negbinomial_pmf_nbc r p k : negbinomial_pmf (S r) p k = nbc r k * p ^ k * (1 - p) ^ S r.
Proof. unfold negbinomial_pmf, nbc. replace (k + S r - 1)%nat with (k + r)%nat by lia. reflexivity. Qed.
Lemma negbinomial_total r p : (0 < r)%nat -> 0 <= p < 1 -> infinite_sum (negbinomial_pmf r p) 1.
Proof.
  intros Rp Q. destruct r as [|r]; [lia|]. pose proof (inf_scale ((1 - p) ^ S r) _ _ (nb_sum r p Q)) as K.
  rewrite Rinv_r in K by (apply pow_nonzero; lra). eapply inf_ext; [|exact K].
  intros k. rewrite negbinomial_pmf_nbc. ring.
Qed.
Lemma negbinomial_first r p : (0 < r)%nat -> 0 <= p < 1 ->
  infinite_sum (fun k => INR k * negbinomial_pmf r p k) (INR r * p / (1 - p)).
Proof.
  intros Rp Q. destruct r as [|r]; [lia|]. apply inf_shift; [cbn [INR]; ring|].
  pose proof (inf_scale (INR (S r) * p * (1 - p) ^ S r) _ _ (nb_sum (S r) p Q)) as K.
  replace (INR (S r) * p / (1 - p)) with (INR (S r) * p * (1 - p) ^ S r * / (1 - p) ^ S (S r)).
  - eapply inf_ext; [|exact K]. intros k. cbn beta. rewrite negbinomial_pmf_nbc.
    replace (INR (S k) * (nbc r (S k) * p ^ S k * (1 - p) ^ S r)) with
      ((INR (S k) * nbc r (S k)) * p ^ S k * (1 - p) ^ S r) by ring.
    rewrite nbc_step. rewrite <- (tech_pow_Rmult p k). ring.
  - rewrite <- (tech_pow_Rmult (1 - p) (S r)). field. split; [lra|apply pow_nonzero; lra].
Qed.
Lemma negbinomial_second r p : (0 < r)%nat -> 0 <= p < 1 ->
  infinite_sum (fun k => INR k ^ 2 * negbinomial_pmf r p k)
    (INR r * (INR r + 1) * (p / (1 - p)) ^ 2 + INR r * p / (1 - p)).
Proof.
  intros Rp Q. pose proof (negbinomial_first r p Rp Q) as F. destruct r as [|r]; [lia|].
  assert (K2 : infinite_sum (fun k => (INR k * (INR k - 1)) * negbinomial_pmf (S r) p k)
            (INR (S r) * (INR (S r) + 1) * (p / (1 - p)) ^ 2)).
  { apply inf_shift; [cbn [INR]; ring|]. apply inf_shift; [cbn [INR]; ring|].
    pose proof (inf_scale (INR (S r) * INR (S (S r)) * p ^ 2 * (1 - p) ^ S r) _ _ (nb_sum (S (S r)) p Q)) as K.
    replace (INR (S r) * (INR (S r) + 1) * (p / (1 - p)) ^ 2) with
      (INR (S r) * INR (S (S r)) * p ^ 2 * (1 - p) ^ S r * / (1 - p) ^ S (S (S r))).
    - eapply inf_ext; [|exact K]. intros k. cbn beta. rewrite negbinomial_pmf_nbc.
      replace (INR (S (S k)) - 1) with (INR (S k)) by (rewrite !S_INR; ring).
      replace (INR (S (S k)) * INR (S k) * (nbc r (S (S k)) * p ^ S (S k) * (1 - p) ^ S r)) with
        (INR (S k) * (INR (S (S k)) * nbc r (S (S k))) * p ^ S (S k) * (1 - p) ^ S r) by ring.
      rewrite nbc_step. replace (INR (S k) * (INR (S r) * nbc (S r) (S k))) with (INR (S r) * (INR (S k) * nbc (S r) (S k))) by ring.
      rewrite nbc_step. replace (p ^ S (S k)) with (p ^ 2 * p ^ k) by (cbn [pow]; ring). ring.
    - rewrite (S_INR (S r)). replace ((1 - p) ^ S (S (S r))) with ((1 - p) ^ S r * (1 - p) ^ 2) by (cbn [pow]; ring).
      field. split; [lra|]. apply pow_nonzero; lra. }
  eapply inf_ext; [|apply (inf_plus _ _ _ _ K2 F)]. intros k. cbn beta. ring.
Qed.
(** Textbook geometric (number of trials) = 1 + negative binomial with r = 1. *)
Lemma geometric_nb p k : geometric_pmf p (S k) = negbinomial_pmf 1 (1 - p) k.
Proof.
  rewrite negbinomial_pmf_nbc. unfold nbc. rewrite Nat.add_0_r, C_n_n. cbn [geometric_pmf].
  replace (1 - (1 - p)) with p by ring. cbn [pow]. ring.
Qed.
Lemma geometric_total p : 0 < p <= 1 -> infinite_sum (geometric_pmf p) 1.
Proof.
  intros H. apply inf_shift; [reflexivity|]. eapply inf_ext; [intros k; symmetry; apply geometric_nb|].
  apply negbinomial_total; [lia|lra].
Qed.
Lemma geometric_first p : 0 < p <= 1 -> infinite_sum (fun k => INR k * geometric_pmf p k) (/ p).
Proof.
  intros H. apply inf_shift; [cbn; ring|].
  pose proof (negbinomial_first 1 (1 - p) ltac:(lia) ltac:(lra)) as F.
  pose proof (negbinomial_total 1 (1 - p) ltac:(lia) ltac:(lra)) as T.
  pose proof (inf_plus _ _ _ _ F T) as K.
  replace (/ p) with (INR 1 * (1 - p) / (1 - (1 - p)) + 1) by (cbn [INR]; field; lra).
  eapply inf_ext; [|exact K]. intros k. cbn beta. rewrite geometric_nb, S_INR. ring.
Qed.
Lemma geometric_second p : 0 < p <= 1 -> infinite_sum (fun k => INR k ^ 2 * geometric_pmf p k) ((2 - p) / p ^ 2).
Proof.
  intros H. apply inf_shift; [cbn; ring|].
  pose proof (negbinomial_second 1 (1 - p) ltac:(lia) ltac:(lra)) as Q.
  pose proof (negbinomial_first 1 (1 - p) ltac:(lia) ltac:(lra)) as F.
  pose proof (negbinomial_total 1 (1 - p) ltac:(lia) ltac:(lra)) as T.
  pose proof (inf_plus _ _ _ _ Q (inf_plus _ _ _ _ (inf_scale 2 _ _ F) T)) as K.
  match type of K with infinite_sum _ ?v => replace ((2 - p) / p ^ 2) with v end.
  - eapply inf_ext; [|exact K]. intros k. cbn beta. rewrite geometric_nb, S_INR. ring.
  - cbn [INR]. field. lra.
Qed.

(** ** Binomial *)
Section Bin.
Context (p : R).
Definition bexp (n : nat) (g : nat -> R) : R := sum_f_R0 (fun k => binomial_pmf n p k * g k) n.
Lemma binomial_pmf_0 n : binomial_pmf n p 0 = (1 - p) ^ n.
Proof. unfold binomial_pmf. cbn [Nat.leb]. rewrite C_n_0, Nat.sub_0_r. cbn [pow]. ring. Qed.
Lemma binomial_pmf_out n k : (n < k)%nat -> binomial_pmf n p k = 0.
Proof. intros H. unfold binomial_pmf. replace (Nat.leb k n) with false; [reflexivity|]. symmetry; apply Nat.leb_gt, H. Qed.
Lemma binomial_pmf_SS n k : binomial_pmf (S n) p (S k) = (1 - p) * binomial_pmf n p (S k) + p * binomial_pmf n p k.
Proof.
  destruct (Nat.lt_trichotomy k n) as [H|[H|H]].
  - unfold binomial_pmf. rewrite !(proj2 (Nat.leb_le _ _)) by lia.
    rewrite <- pascal by exact H. replace (S n - S k)%nat with (S (n - S k)) by lia.
    replace (n - k)%nat with (S (n - S k)) by lia. cbn [pow]. ring.
  - subst k. rewrite (binomial_pmf_out n (S n)) by lia. unfold binomial_pmf. rewrite !Nat.leb_refl, !C_n_n, !Nat.sub_diag.
    cbn [pow]. ring.
  - rewrite !binomial_pmf_out by lia. ring.
Qed.
Lemma bexp_S n g : bexp (S n) g = (1 - p) * bexp n g + p * bexp n (fun k => g (S k)).
Proof.
  unfold bexp. rewrite decomp_sum by lia. cbn [pred].
  rewrite (sum_eq _ (fun i => (1 - p) * (binomial_pmf n p (S i) * g (S i)) + p * (binomial_pmf n p i * g (S i))));
    [|intros i _; rewrite binomial_pmf_SS; ring].
  rewrite plus_sum.
  assert (E1 : forall f c m, sum_f_R0 (fun i => c * f i) m = c * sum_f_R0 f m).
  { intros f c m. rewrite scal_sum. apply sum_eq. intros; ring. }
  rewrite !E1. rewrite !binomial_pmf_0.
  assert (E2 : sum_f_R0 (fun k => binomial_pmf n p k * g k) n =
               (1 - p) ^ n * g 0%nat + sum_f_R0 (fun i => binomial_pmf n p (S i) * g (S i)) n).
  { transitivity (sum_f_R0 (fun k => binomial_pmf n p k * g k) (S n)).
    - cbn [sum_f_R0]. rewrite (binomial_pmf_out n (S n)) by lia. ring.
    - rewrite decomp_sum by lia. cbn [pred]. rewrite binomial_pmf_0. reflexivity. }
  rewrite E2. cbn [pow]. ring.
Qed.
Lemma bexp_plus n f g : bexp n (fun k => f k + g k) = bexp n f + bexp n g.
Proof. unfold bexp. rewrite <- plus_sum. apply sum_eq. intros; ring. Qed.
Lemma bexp_scale n c f : bexp n (fun k => c * f k) = c * bexp n f.
Proof. unfold bexp. rewrite scal_sum. apply sum_eq. intros; ring. Qed.
Lemma bexp_ext n f g : (forall k, f k = g k) -> bexp n f = bexp n g.
Proof. intros H. apply sum_eq. intros; rewrite H; reflexivity. Qed.
Lemma bexp_0 g : bexp 0 g = g 0%nat.
Proof. unfold bexp. cbn [sum_f_R0]. rewrite binomial_pmf_0. cbn [pow]. ring. Qed.
Lemma bexp_one n : bexp n (fun _ => 1) = 1.
Proof. induction n as [|n IH]; [apply bexp_0|]. rewrite bexp_S, IH. ring. Qed.
Lemma bexp_id n : bexp n INR = INR n * p.
Proof.
  induction n as [|n IH]; [rewrite bexp_0; cbn [INR]; ring|]. rewrite bexp_S, IH.
  rewrite (bexp_ext n (fun k => INR (S k)) (fun k => INR k + 1)) by (intros; apply S_INR).
  rewrite bexp_plus, IH, bexp_one, S_INR. ring.
Qed.
Lemma bexp_sq n : bexp n (fun k => INR k ^ 2) = INR n * p * (1 - p) + (INR n * p) ^ 2.
Proof.
  induction n as [|n IH]; [rewrite bexp_0; cbn [INR]; ring|]. rewrite bexp_S, IH.
  rewrite (bexp_ext n (fun k => INR (S k) ^ 2) (fun k => INR k ^ 2 + (2 * INR k + 1))) by (intros; rewrite S_INR; ring).
  rewrite !bexp_plus, bexp_scale, IH, bexp_id, bexp_one, S_INR. ring.
Qed.
Lemma bexp_inf n g : infinite_sum (fun k => g k * binomial_pmf n p k) (bexp n g).
Proof.
  unfold bexp. rewrite (sum_eq _ (fun k => g k * binomial_pmf n p k)) by (intros; ring).
  apply inf_finite. intros k K. rewrite binomial_pmf_out by exact K. ring.
Qed.
End Bin.

(** ** Poisson *)
Lemma poisson_total l : infinite_sum (poisson_pmf l) 1.
Proof.
  pose proof (is_exp_Reals l) as E. apply is_pseries_R in E. apply sums_series in E.
  pose proof (inf_scale (exp (- l)) _ _ E) as K. rewrite <- exp_plus, Rplus_opp_l, exp_0 in K.
  eapply inf_ext; [|exact K]. intros k. unfold poisson_pmf, Rdiv. ring.
Qed.
Lemma poisson_first l : infinite_sum (fun k => INR k * poisson_pmf l k) l.
Proof.
  apply inf_shift; [cbn [INR]; ring|]. pose proof (inf_scale l _ _ (poisson_total l)) as K. rewrite Rmult_1_r in K.
  eapply inf_ext; [|exact K]. intros k. cbn beta. unfold poisson_pmf. rewrite fact_simpl, mult_INR. cbn [pow].
  pose proof (INR_fact_neq_0 k). pose proof (not_0_INR (S k) ltac:(lia)). field. auto.
Qed.
