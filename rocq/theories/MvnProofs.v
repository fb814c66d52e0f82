(** The multivariate normal (C75). *)
From Coq Require Import ZArith Reals List Bool Lra Lia Arith.
From Verif Require Import Num XRFacts DensitySpec BuilderProofs CoreSpec CoreProofs DistSpec DistFacts MvnModel MvnSpec.
Import ListNotations.
Local Open Scope R_scope.

(** * Finite sums *)
Lemma sumn_ext n f g : (forall i, (i < n)%nat -> f i = g i) -> sumn n f = sumn n g.
Proof. induction n as [|n IH]; intros H; [reflexivity|]. cbn. rewrite IH, (H n) by (intros; try apply H; lia). reflexivity. Qed.
Lemma sumn_plus n f g : sumn n (fun i => f i + g i) = sumn n f + sumn n g.
Proof. induction n; cbn; lra. Qed.
Lemma sumn_scal n c f : sumn n (fun i => c * f i) = c * sumn n f.
Proof. induction n; cbn; lra. Qed.
Lemma sumn_scal_r n c f : sumn n (fun i => f i * c) = sumn n f * c.
Proof. induction n; cbn; lra. Qed.
Lemma sumn_zero n f : (forall i, (i < n)%nat -> f i = 0) -> sumn n f = 0.
Proof. induction n as [|n IH]; intros H; [reflexivity|]. cbn. rewrite IH, (H n) by (intros; try apply H; lia). lra. Qed.
Lemma sumn_swap n m f : sumn n (fun i => sumn m (fun j => f i j)) = sumn m (fun j => sumn n (fun i => f i j)).
Proof.
  induction n as [|n IH]; cbn.
  - symmetry. apply sumn_zero. reflexivity.
  - rewrite IH, <- sumn_plus. reflexivity.
Qed.
Lemma sumn_first n f : sumn (S n) f = f 0%nat + sumn n (fun i => f (S i)).
Proof. induction n as [|n IH]; [cbn; lra|]. change (sumn (S n) f + f (S n) = f 0%nat + (sumn n (fun i => f (S i)) + f (S n))). rewrite IH. lra. Qed.
Lemma sumn_delta_l n i f : (i < n)%nat -> sumn n (fun k => delta i k * f k) = f i.
Proof.
  induction n as [|n IH]; intros H; [lia|]. cbn. destruct (Nat.eq_dec i n) as [->|D].
  - rewrite sumn_zero; [unfold delta; rewrite Nat.eqb_refl; lra|].
    intros k K. unfold delta. rewrite (proj2 (Nat.eqb_neq n k)) by lia. lra.
  - rewrite IH by lia. unfold delta. rewrite (proj2 (Nat.eqb_neq i n)) by lia. lra.
Qed.
Lemma delta_sym i j : delta i j = delta j i.
Proof. unfold delta. rewrite Nat.eqb_sym. reflexivity. Qed.
Lemma sumn_delta_r n i f : (i < n)%nat -> sumn n (fun k => f k * delta k i) = f i.
Proof. intros H. rewrite <- (sumn_delta_l n i f H). apply sumn_ext. intros k _. rewrite delta_sym. ring. Qed.

(** * Inverses *)
Lemma inverse_unique n M P Q : is_inverse n M P -> is_inverse n M Q -> forall i j, (i < n)%nat -> (j < n)%nat -> P i j = Q i j.
Proof.
  intros HP HQ i j I J.
  rewrite <- (sumn_delta_r n j (fun k => P i k)) by exact J.
  rewrite (sumn_ext n _ (fun k => sumn n (fun l => P i k * M k l * Q l j))).
  2:{ intros k K. destruct (HQ k j K J) as [<- _]. rewrite <- sumn_scal. apply sumn_ext. intros; ring. }
  rewrite sumn_swap. rewrite (sumn_ext n _ (fun l => delta i l * Q l j)); [apply (sumn_delta_l n i (fun l => Q l j)); exact I|].
  intros l L. rewrite sumn_scal_r. destruct (HP i l I L) as [_ ->]. reflexivity.
Qed.
Lemma inverse_transpose n M P : is_inverse n M P -> is_inverse n (fun i j => M j i) (fun i j => P j i).
Proof.
  intros H i j I J. destruct (H j i J I) as [A B]. rewrite (delta_sym i j), <- A at 1. split.
  - rewrite A, <- B. apply sumn_ext. intros; ring.
  - rewrite (delta_sym i j), <- A. apply sumn_ext. intros; ring.
Qed.
Lemma inverse_ext n M M' P : (forall i j, (i < n)%nat -> (j < n)%nat -> M i j = M' i j) -> is_inverse n M P -> is_inverse n M' P.
Proof.
  intros E H i j I J. destruct (H i j I J) as [A B]. split; [rewrite <- A|rewrite <- B]; apply sumn_ext; intros k K; rewrite E by assumption; reflexivity.
Qed.
Lemma inverse_sym n M P : symmetric n M -> is_inverse n M P -> symmetric n P.
Proof.
  intros S H i j I J. apply (inverse_unique n M P (fun i j => P j i) H); [|exact I|exact J].
  apply (inverse_ext n (fun i j => M j i)); [intros; apply S; assumption|]. apply inverse_transpose, H.
Qed.
Lemma inverse_swap n M P : is_inverse n M P -> is_inverse n P M.
Proof. intros H i j I J. destruct (H i j I J). auto. Qed.

(** * Quadratic forms *)
Definition bil n P (u v : nat -> R) : R := sumn n (fun i => sumn n (fun j => u i * P i j * v j)).
Lemma bil_sub_l n P u w v : bil n P (fun i => u i - w i) v = bil n P u v - bil n P w v.
Proof.
  unfold bil. replace (sumn n (fun i => sumn n (fun j => u i * P i j * v j)) - sumn n (fun i => sumn n (fun j => w i * P i j * v j)))
    with (sumn n (fun i => sumn n (fun j => u i * P i j * v j)) + (-1) * sumn n (fun i => sumn n (fun j => w i * P i j * v j))) by ring.
  rewrite <- sumn_scal, <- sumn_plus. apply sumn_ext. intros i _. rewrite <- sumn_scal, <- sumn_plus. apply sumn_ext. intros; ring.
Qed.
Lemma bil_flip n P u v : bil n P u v = bil n (fun i j => P j i) v u.
Proof. unfold bil. rewrite sumn_swap. apply sumn_ext. intros i _. apply sumn_ext. intros; ring. Qed.
Lemma bil_ext n P Q u v : (forall i j, (i < n)%nat -> (j < n)%nat -> P i j = Q i j) -> bil n P u v = bil n Q u v.
Proof. intros H. apply sumn_ext. intros i I. apply sumn_ext. intros j J. rewrite H by assumption. reflexivity. Qed.
Lemma bil_sub_r n P u w v : bil n P v (fun i => u i - w i) = bil n P v u - bil n P v w.
Proof. rewrite bil_flip, bil_sub_l, <- !(bil_flip n P). reflexivity. Qed.
Lemma quad_expand n P x mu : quad n P (fun i => x i - mu i) = bil n P x x - bil n P x mu - bil n P mu x + bil n P mu mu.
Proof. change (bil n P (fun i => x i - mu i) (fun i => x i - mu i) = bil n P x x - bil n P x mu - bil n P mu x + bil n P mu mu). rewrite bil_sub_l, !bil_sub_r. ring. Qed.

(** * The model at finite values *)
Section M.
Context (lg : R -> R).
Notation X := (XR lg).
Notation Mat := (DMat X). Notation Vec := (DVec X).

Lemma vsum_S n (f : nat -> X) : vsum (S n) f = nadd (vsum n f) (f n).
Proof. unfold vsum. rewrite seq_S, map_app, fold_left_app. reflexivity. Qed.
Lemma vsum_fin n (f : nat -> X) g : (forall i, (i < n)%nat -> f i = Fin (g i)) -> vsum n f = Fin (sumn n g).
Proof.
  induction n as [|n IH]; intros H; [apply x_n0|]. rewrite vsum_S, IH, (H n) by (intros; try apply H; lia). reflexivity.
Qed.
Lemma mat_vec_fin n M A v V : mat_is n M (A : Mat) -> vec_is n v (V : Vec) ->
  exists W, mat_vec A V = Some W /\ vec_is n (fun i => sumn n (fun j => M i j * v j)) W.
Proof.
  intros (R1 & C1 & E) (L & F). unfold mat_vec. rewrite C1, L, Nat.eqb_refl. eexists. split; [reflexivity|].
  split; [exact R1|]. intros i I. cbn [v_at]. apply vsum_fin. intros j J. rewrite E, F by assumption. reflexivity.
Qed.
Lemma vdot_fin n u U v V : vec_is n u (U : Vec) -> vec_is n v (V : Vec) -> vdot U V = Some (Fin (sumn n (fun i => u i * v i))).
Proof.
  intros (L1 & E1) (L2 & E2). unfold vdot. rewrite L1, L2, Nat.eqb_refl. f_equal. apply vsum_fin. intros i I. rewrite E1, E2 by exact I. reflexivity.
Qed.
Lemma frobenius_fin n M A Q B : mat_is n M (A : Mat) -> mat_is n Q (B : Mat) ->
  frobenius A B = Some (Fin (sumn n (fun i => sumn n (fun j => M i j * Q i j)))).
Proof.
  intros (R1 & C1 & E1) (R2 & C2 & E2). unfold frobenius. rewrite R1, R2, C1, C2, Nat.eqb_refl. cbn [andb]. f_equal.
  apply vsum_fin. intros i I. apply vsum_fin. intros j J. rewrite E1, E2 by assumption. reflexivity.
Qed.
Lemma scale_fin n c M A : mat_is n M (A : Mat) -> mat_is n (fun i j => c * M i j) (mat_scale (Fin c : X) A).
Proof. intros (R1 & C1 & E). split; [exact R1|]. split; [exact C1|]. intros i j I J. cbn [mat_scale m_at]. rewrite E by assumption. reflexivity. Qed.
Lemma outer_fin n v V : vec_is n v (V : Vec) -> mat_is n (fun i j => v i * v j) (outer V).
Proof. intros (L & E). split; [exact L|]. split; [exact L|]. intros i j I J. cbn [outer m_at]. rewrite !E by assumption. reflexivity. Qed.
Lemma mat_is_ext n M Q (A : Mat) : (forall i j, (i < n)%nat -> (j < n)%nat -> M i j = Q i j) -> mat_is n M A -> mat_is n Q A.
Proof. intros H (R1 & C1 & E). split; [exact R1|]. split; [exact C1|]. intros i j I J. rewrite E, H by assumption. reflexivity. Qed.
Lemma vec_is_ext n v w (V : Vec) : (forall i, (i < n)%nat -> v i = w i) -> vec_is n v V -> vec_is n w V.
Proof. intros H (L & E). split; [exact L|]. intros i I. rewrite E, H by exact I. reflexivity. Qed.

Context (inv : Mat -> option Mat) (det : Mat -> X).

Lemma new_parts n mu V S A d : inverts inv n S -> determines det n S -> vec_is n mu V -> mat_is n S A ->
  mvn_new inv det V A = Some d ->
  mv_mean d = V /\ mv_cov d = A /\ mv_det d = Fin (rdet n S) /\ mv_dim d = n /\
  exists P, mat_is n P (mv_prec d) /\ is_inverse n S P.
Proof.
  intros HI HD HV HA. pose proof HV as (L & _). pose proof HA as (R1 & C1 & _). unfold mvn_new.
  rewrite R1, C1, L, !Nat.eqb_refl. specialize (HI A HA). destruct (inv A) as [B|]; [|discriminate].
  intros E. injection E as <-. cbn [mv_mean mv_cov mv_det mv_dim mv_prec]. rewrite (HD A HA). auto.
Qed.
Lemma new_iff n m mu V S A : inverts inv n S -> vec_is m mu V -> mat_is n S A ->
  ((exists d, mvn_new inv det V A = Some d) <-> m = n /\ exists P, is_inverse n S P).
Proof.
  intros HI (L & _) HA. pose proof HA as (R1 & C1 & _). unfold mvn_new. rewrite R1, C1, L, Nat.eqb_refl.
  specialize (HI A HA). destruct (Nat.eqb_spec m n) as [->|D].
  - destruct (inv A) as [B|].
    + destruct HI as (P & _ & HP). split; [intros _; split; [reflexivity|exists P; exact HP]|intros _; eexists; reflexivity].
    + split; [intros (d & E); discriminate|intros [_ HP]; contradiction].
  - split; [intros (d & E); discriminate|intros [E _]; contradiction].
Qed.
Lemma new_not_square V A : m_rows A <> m_cols A -> mvn_new inv det V A = None.
Proof. intros D. unfold mvn_new. rewrite (proj2 (Nat.eqb_neq _ _) D). reflexivity. Qed.

Lemma natural_fin n mu P (d : Mvn X) : vec_is n mu (mv_mean d) -> mat_is n P (mv_prec d) ->
  exists eta : Vec * Mat, mvn_to_natural d = Some eta /\ vec_is n (fun i => sumn n (fun j => P i j * mu j)) (fst eta) /\
    mat_is n (fun i j => - (1/2) * P i j) (snd eta).
Proof.
  intros HV HP. unfold mvn_to_natural. destruct (mat_vec_fin n P _ mu _ HP HV) as (W & E & HW). rewrite E. eexists. split; [reflexivity|].
  split; [exact HW|]. cbn [snd]. rewrite x_dec. apply (mat_is_ext n (fun i j => -5 / 10 * P i j)); [intros; lra|]. apply scale_fin, HP.
Qed.
Lemma partition_fin n mu P (d : Mvn X) D : vec_is n mu (mv_mean d) -> mat_is n P (mv_prec d) -> mv_dim d = n -> mv_det d = Fin D -> 0 < D ->
  mvn_partition d = Some (Fin (1/2 * bil n P mu mu + 1/2 * (INR n * ln (2 * PI) + ln D))).
Proof.
  intros HV HP E1 E2 HD. unfold mvn_partition. destruct (mat_vec_fin n P _ mu _ HP HV) as (W & E & HW). rewrite E.
  rewrite (vdot_fin n mu _ _ _ HV HW), E1, E2. rewrite x_nhalf, x_n2, x_nofn. pose proof two_pi_pos.
  change (Some (xadd (xmul (Fin (1/2)) (Fin (sumn n (fun i => mu i * sumn n (fun j => P i j * mu j)))))
    (xmul (Fin (1/2)) (xadd (xmul (Fin (INR n)) (xln (xmul (Fin 2) (Fin PI)))) (xln (Fin D))))) = Some (Fin (1/2 * bil n P mu mu + 1/2 * (INR n * ln (2 * PI) + ln D)))).
  cbn [xmul]. rewrite !xln_pos by assumption. cbn [xmul xadd]. do 4 f_equal.
  unfold bil. apply sumn_ext. intros i _. rewrite <- sumn_scal. apply sumn_ext. intros; ring.
Qed.
Lemma dot_fin n mu P (eta : Vec * Mat) x (Xv : Vec) : vec_is n (fun i => sumn n (fun j => P i j * mu j)) (fst eta) ->
  mat_is n (fun i j => - (1/2) * P i j) (snd eta) -> vec_is n x Xv ->
  mvn_dot eta (mvn_stat Xv) = Some (Fin (bil n P x mu - 1/2 * bil n P x x)).
Proof.
  intros H1 H2 HX. unfold mvn_dot, mvn_stat. cbn [fst snd]. rewrite (vdot_fin n _ _ _ _ H1 HX), (frobenius_fin n _ _ _ _ H2 (outer_fin n x Xv HX)).
  do 2 f_equal. change (Fin (sumn n (fun i => sumn n (fun j => P i j * mu j) * x i) + sumn n (fun i => sumn n (fun j => - (1/2) * P i j * (x i * x j)))) = Fin (bil n P x mu - 1/2 * bil n P x x)).
  f_equal. unfold Rminus. f_equal.
  - unfold bil. apply sumn_ext. intros i _. rewrite <- sumn_scal_r. apply sumn_ext. intros; ring.
  - unfold bil. replace (- (1/2 * sumn n (fun i => sumn n (fun j => x i * P i j * x j)))) with (- (1/2) * sumn n (fun i => sumn n (fun j => x i * P i j * x j))) by ring.
    rewrite <- sumn_scal. apply sumn_ext. intros i _. rewrite <- sumn_scal. apply sumn_ext. intros; ring.
Qed.
(** Any covariance of positive determinant, symmetric or not. *)
Lemma density_any n mu P (d : Mvn X) D x (Xv : Vec) : vec_is n mu (mv_mean d) -> mat_is n P (mv_prec d) -> mv_dim d = n -> mv_det d = Fin D -> 0 < D -> vec_is n x Xv ->
  mvn_density d Xv = Some (Fin (bil n P x mu - 1/2 * bil n P x x - (1/2 * bil n P mu mu + 1/2 * (INR n * ln (2 * PI) + ln D)))).
Proof.
  intros HV HP E1 E2 HD HX. unfold mvn_density. destruct (natural_fin n mu P d HV HP) as (eta & -> & N1 & N2).
  rewrite (partition_fin n mu P d D HV HP E1 E2 HD), (dot_fin n mu P eta x Xv N1 N2 HX). rewrite x_n0. do 2 f_equal.
  change (xadd (xsub (Fin (bil n P x mu - 1/2 * bil n P x x)) (Fin (1/2 * bil n P mu mu + 1/2 * (INR n * ln (2 * PI) + ln D)))) (Fin 0) =
    Fin (bil n P x mu - 1/2 * bil n P x x - (1/2 * bil n P mu mu + 1/2 * (INR n * ln (2 * PI) + ln D)))).
  cbn [xsub xneg xadd]. f_equal. ring.
Qed.
Lemma ln_mvn_pdf n mu P D x : 0 < D ->
  ln (mvn_pdf n mu P D x) = - (1/2) * quad n P (fun i => x i - mu i) - 1/2 * (INR n * ln (2 * PI) + ln D).
Proof.
  intros HD. unfold mvn_pdf. pose proof two_pi_pos as TP. assert (0 < (2 * PI) ^ n) by (apply pow_lt; exact TP).
  assert (0 < (2 * PI) ^ n * D) by (apply Rmult_lt_0_compat; assumption).
  unfold Rdiv at 1. rewrite ln_mult by (try apply exp_pos; apply Rinv_0_lt_compat, sqrt_lt_R0; assumption).
  rewrite ln_exp, ln_Rinv by (apply sqrt_lt_R0; assumption).
  rewrite <- Rpower_sqrt by assumption. unfold Rpower. rewrite ln_exp, ln_mult, <- Rpower_pow by assumption. unfold Rpower. rewrite ln_exp. lra.
Qed.
Lemma density n mu V S A d P x Xv : inverts inv n S -> determines det n S -> vec_is n mu V -> mat_is n S A ->
  symmetric n S -> 0 < rdet n S -> is_inverse n S P -> mvn_new inv det V A = Some d -> vec_is n x Xv ->
  mvn_density d Xv = Some (Fin (ln (mvn_pdf n mu P (rdet n S) x))).
Proof.
  intros HI HD HV HA SY DP HP EN HX. destruct (new_parts n mu V S A d HI HD HV HA EN) as (E1 & _ & E3 & E4 & Q & MQ & IQ).
  assert (EQ : forall i j, (i < n)%nat -> (j < n)%nat -> Q i j = P i j) by (apply (inverse_unique n S); assumption).
  rewrite (density_any n mu P d (rdet n S) x Xv); try assumption; [|rewrite E1; exact HV|apply (mat_is_ext n Q); assumption].
  do 2 f_equal. rewrite ln_mvn_pdf, quad_expand by exact DP.
  rewrite (bil_flip n P mu x), (bil_ext n (fun i j => P j i) P) by (intros; apply (inverse_sym n S P SY HP); assumption). lra.
Qed.
Lemma density_negative_det n mu V S A d x Xv : inverts inv n S -> determines det n S -> vec_is n mu V -> mat_is n S A ->
  rdet n S < 0 -> mvn_new inv det V A = Some d -> vec_is n x Xv -> mvn_density d Xv = Some XNaN.
Proof.
  intros HI HD HV HA DN EN HX. destruct (new_parts n mu V S A d HI HD HV HA EN) as (E1 & _ & E3 & E4 & Q & MQ & IQ).
  rewrite <- E1 in HV. unfold mvn_density. destruct (natural_fin n mu Q d HV MQ) as (eta & -> & N1 & N2).
  rewrite (dot_fin n mu Q eta x Xv N1 N2 HX). unfold mvn_partition. destruct (mat_vec_fin n Q _ mu _ MQ HV) as (W & -> & HW).
  rewrite (vdot_fin n mu _ _ _ HV HW), E3, E4. f_equal. rewrite x_nhalf, x_n2, x_nofn, x_n0.
  match goal with |- nadd (nsub _ (nadd ?a ?b)) _ = _ => assert (E : b = XNaN) end; [|rewrite E; reflexivity].
  change (xmul (Fin (1/2)) (xadd (xmul (Fin (INR n)) (xln (xmul (Fin 2) (Fin PI)))) (xln (Fin (rdet n S)))) = XNaN).
  assert (L : xln (Fin (rdet n S)) = XNaN).
  { unfold xln. rewrite Rltb_f by lra. unfold Req_b. destruct (Req_EM_T _ _); [lra|reflexivity]. }
  rewrite L. cbn [xmul]. rewrite xln_pos by apply two_pi_pos. reflexivity.
Qed.
Lemma density_wrong_length n mu V S A d Xv : inverts inv n S -> determines det n S -> vec_is n mu V -> mat_is n S A ->
  mvn_new inv det V A = Some d -> v_len Xv <> n -> mvn_density d Xv = None.
Proof.
  intros HI HD HV HA EN NX. destruct (new_parts n mu V S A d HI HD HV HA EN) as (E1 & _ & E3 & E4 & Q & MQ & IQ).
  rewrite <- E1 in HV. unfold mvn_density. destruct (natural_fin n mu Q d HV MQ) as (eta & -> & (N1 & _) & N2).
  unfold mvn_dot, mvn_stat, vdot. cbn [fst snd]. rewrite N1, (proj2 (Nat.eqb_neq n (v_len Xv))) by (intros E; apply NX; symmetry; exact E).
  destruct (mvn_partition d); reflexivity.
Qed.

(** * Round trip *)
Lemma round_trip n mu V S A d P : inverts inv n S -> inverts inv n P -> determines det n S -> vec_is n mu V -> mat_is n S A ->
  is_inverse n S P -> mvn_new inv det V A = Some d ->
  exists eta d', mvn_to_natural d = Some eta /\ mvn_from_natural inv det eta = Some d' /\
    vec_is n mu (mv_mean d') /\ mat_is n S (mv_cov d') /\ mat_is n P (mv_prec d') /\ mv_det d' = mv_det d /\ mv_dim d' = mv_dim d.
Proof.
  intros HI HIP HD HV HA HP EN. destruct (new_parts n mu V S A d HI HD HV HA EN) as (E1 & _ & E3 & E4 & Q & MQ & IQ).
  assert (EQ : forall i j, (i < n)%nat -> (j < n)%nat -> Q i j = P i j) by (apply (inverse_unique n S); assumption).
  apply (mat_is_ext n Q P) in MQ; [|exact EQ]. clear Q IQ EQ. rewrite <- E1 in HV.
  destruct (natural_fin n mu P d HV MQ) as (eta & EE & N1 & N2). exists eta. unfold mvn_from_natural.
  assert (MP : mat_is n P (mat_scale (nint (-2) : X) (snd eta))).
  { rewrite x_nint. apply (mat_is_ext n (fun i j => -2 * (- (1/2) * P i j))); [intros; lra|]. apply scale_fin, N2. }
  pose proof (HIP _ MP) as HB. destruct (inv (mat_scale _ _)) as [B|]; [|exfalso; apply HB; exists S; apply inverse_swap, HP].
  destruct HB as (T & MB & IT).
  assert (ET : forall i j, (i < n)%nat -> (j < n)%nat -> T i j = S i j) by (apply (inverse_unique n P); [exact IT|apply inverse_swap, HP]).
  apply (mat_is_ext n T S) in MB; [|exact ET].
  destruct (mat_vec_fin n S B _ (fst eta) MB N1) as (W & EW & HW). rewrite EW.
  assert (HM : vec_is n mu W).
  { apply (vec_is_ext n (fun i => sumn n (fun j => S i j * sumn n (fun k => P j k * mu k)))); [|exact HW].
    intros i I. rewrite (sumn_ext n _ (fun j => sumn n (fun k => S i j * P j k * mu k))) by (intros; rewrite <- sumn_scal; apply sumn_ext; intros; ring).
    rewrite sumn_swap. rewrite (sumn_ext n _ (fun k => delta i k * mu k)); [apply (sumn_delta_l n i mu), I|].
    intros k K. rewrite sumn_scal_r. destruct (HP i k I K) as [-> _]. reflexivity. }
  destruct (proj2 (new_iff n n mu W S B HI HM MB)) as [d' ED]; [split; [reflexivity|exists P; exact HP]|].
  exists d'. destruct (new_parts n mu W S B d' HI HD HM MB ED) as (F1 & F2 & F3 & F4 & Q & MQ' & IQ).
  split; [exact EE|]. split; [exact ED|]. rewrite F1, F2, F3, F4, E3, E4. split; [exact HM|]. split; [exact MB|].
  split; [apply (mat_is_ext n Q); [apply (inverse_unique n S); assumption|exact MQ']|auto].
Qed.

(** * Diagonal covariances *)
Fixpoint prodn (n : nat) (s : nat -> R) : R := match n with O => 1 | S m => s 0%nat * prodn m (fun i => s (S i)) end.
Lemma rdet_ext n : forall M Q, (forall i j, (i < n)%nat -> (j < n)%nat -> M i j = Q i j) -> rdet n M = rdet n Q.
Proof.
  induction n as [|n IH]; intros M Q H; [reflexivity|]. cbn [rdet]. apply sumn_ext. intros j J. rewrite H by lia. f_equal.
  apply IH. intros i k I K. unfold minor. apply H; [lia|]. destruct (Nat.ltb k j); lia.
Qed.
Lemma rdet_diag n : forall s, rdet n (diag s) = prodn n s.
Proof.
  induction n as [|n IH]; intros s; [reflexivity|]. cbn [rdet prodn]. rewrite sumn_first, sumn_zero.
  - unfold diag at 1. cbn [Nat.eqb pow]. rewrite (rdet_ext n _ (diag (fun i => s (S i)))); [rewrite IH; ring|].
    intros i k _ _. unfold minor, diag. cbn [Nat.ltb Nat.leb Nat.eqb]. reflexivity.
  - intros i _. unfold diag at 1. cbn [Nat.eqb]. ring.
Qed.
Lemma prodn_pos n : forall s, (forall i, (i < n)%nat -> 0 < s i) -> 0 < prodn n s.
Proof.
  induction n as [|n IH]; intros s H; [cbn; lra|]. cbn. apply Rmult_lt_0_compat; [apply H; lia|]. apply IH. intros; apply H; lia.
Qed.
Lemma ln_prodn n : forall s, (forall i, (i < n)%nat -> 0 < s i) -> ln (prodn n s) = sumn n (fun i => ln (s i)).
Proof.
  induction n as [|n IH]; intros s H; [cbn; apply ln_1|]. rewrite sumn_first. cbn [prodn].
  rewrite ln_mult, IH; [reflexivity|intros; apply H; lia|apply H; lia|apply prodn_pos; intros; apply H; lia].
Qed.
Lemma diag_inverse n s : (forall i, (i < n)%nat -> s i <> 0) -> is_inverse n (diag s) (diag (fun i => / s i)).
Proof.
  intros H i j I J. split.
  - rewrite (sumn_ext n _ (fun k => delta i k * (s i * diag (fun i => / s i) k j))).
    + rewrite (sumn_delta_l n i (fun k => s i * diag (fun i => / s i) k j)) by exact I. unfold diag, delta. destruct (Nat.eqb_spec i j); [field; apply H; exact I|ring].
    + intros k K. unfold diag at 1, delta. destruct (Nat.eqb i k); ring.
  - rewrite (sumn_ext n _ (fun k => delta i k * (/ s i * diag s k j))).
    + rewrite (sumn_delta_l n i (fun k => / s i * diag s k j)) by exact I. unfold diag, delta. destruct (Nat.eqb_spec i j); [field; apply H; exact I|ring].
    + intros k K. unfold diag at 1, delta. destruct (Nat.eqb i k); ring.
Qed.
Lemma quad_diag n s v : quad n (diag s) v = sumn n (fun i => s i * (v i * v i)).
Proof.
  unfold quad. apply sumn_ext. intros i I. rewrite (sumn_ext n _ (fun j => delta i j * (v i * s i * v j))).
  - rewrite (sumn_delta_l n i (fun j => v i * s i * v j)) by exact I. ring.
  - intros j _. unfold diag, delta. destruct (Nat.eqb_spec i j); ring.
Qed.
Lemma sumn_const n c : sumn n (fun _ => c) = INR n * c.
Proof. induction n as [|n IH]; [cbn; lra|]. rewrite S_INR. cbn [sumn]. rewrite IH. ring. Qed.
Lemma ln_normal_pdf' m s x : 0 < s -> ln (normal_pdf m s x) = - (1/2) * (/ (s * s) * ((x - m) * (x - m))) - 1/2 * (ln (2 * PI) + ln (s * s)).
Proof.
  intros H. unfold normal_pdf. pose proof two_pi_pos. assert (0 < sqrt (2 * PI)) by (apply sqrt_lt_R0; assumption).
  assert (SQ : ln (sqrt (2 * PI)) = 1/2 * ln (2 * PI)) by (rewrite <- Rpower_sqrt by assumption; unfold Rpower; rewrite ln_exp; lra).
  rewrite ln_mult, ln_exp, ln_Rinv, ln_mult, SQ, (ln_mult s s) by first [assumption | apply exp_pos | apply Rmult_lt_0_compat; assumption | apply Rinv_0_lt_compat, Rmult_lt_0_compat; assumption].
  field. lra.
Qed.
Lemma independent n mu V s A d x Xv : (forall i, (i < n)%nat -> 0 < s i) ->
  inverts inv n (diag (fun i => s i * s i)) -> determines det n (diag (fun i => s i * s i)) -> vec_is n mu V -> mat_is n (diag (fun i => s i * s i)) A ->
  mvn_new inv det V A = Some d -> vec_is n x Xv ->
  mvn_density d Xv = Some (Fin (sumn n (fun i => ln (normal_pdf (mu i) (s i) (x i))))).
Proof.
  intros HS HI HD HV HA EN HX. assert (S2 : forall i, (i < n)%nat -> 0 < s i * s i) by (intros i I; apply Rmult_lt_0_compat; apply HS, I).
  assert (DP : 0 < rdet n (diag (fun i => s i * s i))) by (rewrite rdet_diag; apply prodn_pos; exact S2).
  rewrite (density n mu V (diag (fun i => s i * s i)) A d (diag (fun i => / (s i * s i))) x Xv); try assumption.
  - do 2 f_equal. rewrite ln_mvn_pdf, quad_diag, rdet_diag, ln_prodn by first [assumption | rewrite <- rdet_diag; assumption].
    rewrite (sumn_ext n (fun i => ln (normal_pdf (mu i) (s i) (x i))) (fun i => - (1/2) * (/ (s i * s i) * ((x i - mu i) * (x i - mu i))) + (- (1/2) * ln (2 * PI) + - (1/2) * ln (s i * s i)))).
    + rewrite !sumn_plus, sumn_const, !sumn_scal. ring_simplify. lra.
    + intros i I. rewrite ln_normal_pdf' by (apply HS, I). ring.
  - intros i j _ _. unfold diag. rewrite Nat.eqb_sym. destruct (Nat.eqb_spec j i) as [->|]; reflexivity.
  - apply diag_inverse. intros i I. specialize (S2 i I). lra.
Qed.
Lemma standard n x Xv : inverts inv n delta -> determines det n delta -> vec_is n x Xv ->
  exists d, mvn_standard inv det n = Some d /\ mvn_density d Xv = Some (Fin (sumn n (fun i => ln (normal_pdf 0 1 (x i))))).
Proof.
  intros HI HD HX. set (V := mkVec n (fun _ => n0) : Vec). set (A := mkMat n n (fun i j => if Nat.eqb i j then n1 else n0) : Mat).
  assert (HV : vec_is n (fun _ => 0) V) by (split; [reflexivity|]; intros; exact (x_n0 lg)).
  assert (HA : mat_is n delta A) by (split; [reflexivity|]; split; [reflexivity|]; intros i j _ _; cbn; unfold delta; destruct (Nat.eqb i j); [exact (x_n1 lg)|exact (x_n0 lg)]).
  assert (ED : forall i j, delta i j = diag (fun _ => 1 * 1) i j) by (intros i j; unfold delta, diag; destruct (Nat.eqb i j); lra).
  assert (IV : is_inverse n delta delta).
  { intros i j I J. rewrite (sumn_delta_l n i (fun k => delta k j)) by exact I. auto. }
  destruct (proj2 (new_iff n n _ V delta A HI HV HA)) as [d EN]; [split; [reflexivity|exists delta; exact IV]|].
  exists d. split; [exact EN|]. apply (independent n (fun _ => 0) V (fun _ => 1) A d x Xv); try assumption.
  - intros; lra.
  - intros B HB. assert (HB' : mat_is n delta B) by (revert HB; apply mat_is_ext; intros; symmetry; apply ED). specialize (HI B HB').
    destruct (inv B) as [C|]; [destruct HI as (P & MP & IP); exists P; split; [exact MP|revert IP; apply inverse_ext; intros; apply ED]|].
    intros (P & IP). apply HI. exists P. revert IP. apply inverse_ext. intros. symmetry. apply ED.
  - intros B HB. assert (HB' : mat_is n delta B) by (revert HB; apply mat_is_ext; intros; symmetry; apply ED). rewrite (HD B HB'). f_equal. apply rdet_ext. intros; apply ED.
  - revert HA. apply mat_is_ext. intros; apply ED.
Qed.
End M.
