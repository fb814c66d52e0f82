(** Further lemmas about the distributions: the scale constructor, relative closures. *)
From Coq Require Import ZArith Reals List Bool Lra Lia Arith.
From Verif Require Import Num XRFacts DensitySpec BuilderProofs CoreModel CoreSpec CoreProofs
  CombModel ExpFamModel DistModel DistSpec DistFacts DistProofs DistProofs2 DistProofs3 DistProofs4.
Import ListNotations.
Local Open Scope R_scope.
Local Open Scope list_scope.

Section D.
Context (lg : R -> R).
Notation X := (XR lg).
Notation fin r := (Fin r : X).

Lemma ln_quot a b : 0 < a -> 0 < b -> ln (a / b) = ln a - ln b.
Proof. intros A B. unfold Rdiv. rewrite ln_mult, ln_Rinv by (try apply Rinv_0_lt_compat; assumption). reflexivity. Qed.
Lemma recip_zero : nrecip (fin 0) = PInf.
Proof.
  unfold nrecip. rewrite x_n1. cbn [ndiv XR]. cbn. rewrite Req_b_refl. replace (Req_b 1 0) with false by (symmetry; apply Req_b_false; lra).
  rewrite Rltb_t by lra. reflexivity.
Qed.
Lemma recip_fin t : t <> 0 -> nrecip (fin t) = Fin (/ t).
Proof. intros H. unfold nrecip. rewrite x_n1. cbn [ndiv XR]. rewrite xdiv_fin by exact H. f_equal. field. exact H. Qed.
Lemma gamma_shape_scale a th :
  (returns (gamma_from_shape_scale (fin a) (fin th)) <-> 0 < a /\ 0 <= th) /\
  (forall d, 0 < th -> gamma_from_shape_scale (fin a) (fin th) = Some d ->
     g_shape d = Fin a /\ g_rate d = Fin (/ th) /\ gamma_scale d = Fin th /\
     forall x, 0 < x -> gamma_ld d (fin x) = Fin (ln (gamma_pdf lg a (/ th) x))).
Proof.
  unfold gamma_from_shape_scale. split.
  - destruct (Req_dec th 0) as [->|N].
    + rewrite recip_zero. unfold gamma_new. rewrite x_ltb0. split.
      * intros [d E]. destruct (Rltb 0 a) eqn:A; [|discriminate E]. apply Rltb_true in A. lra.
      * intros [A _]. rewrite Rltb_t by exact A. rewrite x_n0. eexists. reflexivity.
    + rewrite recip_fin by exact N. split.
      * intros [d E]. apply gamma_new_fin in E. destruct E as (A & B & _). split; [exact A|].
        apply Rlt_le. rewrite <- (Rinv_inv th). apply Rinv_0_lt_compat, B.
      * intros [A B]. assert (0 < / th) by (apply Rinv_0_lt_compat; lra). unfold gamma_new. rewrite !x_ltb0, !Rltb_t by assumption.
        eexists. reflexivity.
  - intros d P E. rewrite recip_fin in E by lra. pose proof E as G. apply gamma_new_fin in E. destruct E as (A & B & ->).
    split; [reflexivity|]. split; [reflexivity|].
    split; [unfold gamma_scale; cbn [g_rate]; rewrite recip_fin by lra; rewrite Rinv_inv; reflexivity|].
    intros x Px. apply gamma_direct; assumption.
Qed.
Lemma gamma_zero_scale a : 0 < a -> exists d,
  gamma_from_shape_scale (fin a) (fin 0) = Some d /\ g_rate d = PInf /\
  forall x, 0 < x -> gamma_ld d (fin x) = XNaN.
Proof.
  intros A. exists (@mkGamma X (Fin a) PInf). unfold gamma_from_shape_scale. rewrite recip_zero. split.
  - unfold gamma_new. rewrite x_ltb0, Rltb_t by exact A. rewrite x_n0. reflexivity.
  - split; [reflexivity|]. intros x Px. unfold gamma_ld, gamma_support. cbn [g_shape g_rate].
    rewrite x_ltb0, Rltb_t by exact Px. xr_lits. xr_ops.
    rewrite (xln_pos x) by exact Px. rewrite xsub_Fin, xmul_Fin.
    unfold xlgamma. cbn [xln xmul]. unfold xscale.
    replace (Req_b a 0) with false by (symmetry; apply Req_b_false; lra).
    replace (Req_b x 0) with false by (symmetry; apply Req_b_false; lra).
    rewrite !Rltb_t by assumption. reflexivity.
Qed.
Lemma normal_relative m s m' s' d d' x :
  normal_new (fin m) (fin s) = Some d -> normal_new (fin m') (fin s') = Some d' ->
  zero_overhead_wrt (normal_expfam d) (normal_base d') (fin x) = Fin (ln (normal_pdf m s x / normal_pdf m' s' x)).
Proof.
  assert (P : forall m s, 0 < s -> 0 < normal_pdf m s x).
  { intros m0 s0 H. unfold normal_pdf. apply Rmult_lt_0_compat || apply Rdiv_lt_0_compat; try apply exp_pos.
    all: try (apply Rinv_0_lt_compat || idtac; apply Rmult_lt_0_compat; [exact H|apply sqrt_lt_R0; pose proof PI_RGT_0; lra]). }
  intros H H'. destruct (c29_normal lg m s d x H) as (_ & E & _). destruct (c29_normal lg m' s' d' x H') as (E' & _).
  apply normal_new_fin in H. apply normal_new_fin in H'.
  unfold zero_overhead_wrt. cbn [normal_base continuous_base b_ld]. rewrite E. unfold normal_base, continuous_base. cbn [b_ld]. rewrite E'.
  rewrite ln_quot by (apply P; tauto). reflexivity.
Qed.
End D.
