(** Elementary facts about the extended-real instance. *)
From Coq Require Import ZArith Reals Bool String List Lra Lia.
From Verif Require Import Num.
Local Open Scope R_scope.

Lemma Rltb_true a b : Rltb a b = true <-> a < b.
Proof. unfold Rltb; destruct (Rlt_dec a b); split; intros; try discriminate; auto; lra. Qed.
Lemma Rltb_false a b : Rltb a b = false <-> b <= a.
Proof. unfold Rltb; destruct (Rlt_dec a b); split; intros; try discriminate; auto; lra. Qed.
Lemma Rleb_true a b : Rleb a b = true <-> a <= b.
Proof. unfold Rleb; destruct (Rle_dec a b); split; intros; try discriminate; auto; lra. Qed.
Lemma Req_b_true a b : Req_b a b = true <-> a = b.
Proof. unfold Req_b; destruct (Req_EM_T a b); split; intros; try discriminate; auto; lra. Qed.
Lemma Req_b_false a b : Req_b a b = false <-> a <> b.
Proof. unfold Req_b; destruct (Req_EM_T a b); split; intros; try discriminate; auto; lra. Qed.
Lemma Req_b_refl a : Req_b a a = true.
Proof. apply Req_b_true; reflexivity. Qed.

Lemma xdec_val m d : xdec m d = Fin (IZR m / IZR (Zpos d)).
Proof. reflexivity. Qed.

Lemma powerRZ_powerRZ_nat v z n : v <> 0 ->
  powerRZ (powerRZ v z) (Z.of_nat n) = powerRZ v (z * Z.of_nat n).
Proof.
  intros H. induction n as [|n IH].
  - rewrite Z.mul_0_r. reflexivity.
  - rewrite Nat2Z.inj_succ, Z.mul_succ_r. unfold Z.succ.
    rewrite powerRZ_add by (apply powerRZ_NOR; auto). rewrite IH.
    rewrite powerRZ_add by auto. simpl (powerRZ _ 1). ring.
Qed.
Lemma powerRZ_inv_opp v z : v <> 0 -> powerRZ v (- z) = / powerRZ v z.
Proof.
  intros H. apply (Rmult_eq_reg_r (powerRZ v z)); [|apply powerRZ_NOR; auto].
  rewrite Rinv_l by (apply powerRZ_NOR; auto). rewrite <- powerRZ_add by auto.
  rewrite Z.add_opp_diag_l. reflexivity.
Qed.
Lemma powerRZ_powerRZ v z1 z2 : v <> 0 -> powerRZ (powerRZ v z1) z2 = powerRZ v (z1 * z2).
Proof.
  intros H. destruct (Z.le_gt_cases 0 z2) as [L|L].
  - rewrite <- (Z2Nat.id z2) by auto. apply powerRZ_powerRZ_nat; auto.
  - replace z2 with (- Z.of_nat (Z.to_nat (- z2)))%Z by (rewrite Z2Nat.id; lia).
    rewrite powerRZ_inv_opp by (apply powerRZ_NOR; auto).
    rewrite powerRZ_powerRZ_nat, Z.mul_opp_r, powerRZ_inv_opp by auto. reflexivity.
Qed.

Section XRC.
Context (lg : R -> R).
Notation X := (XR lg).

Lemma x_nint z : (nint z : X) = Fin (IZR z).
Proof. unfold nint; cbn; unfold xdec; f_equal; field. Qed.
Lemma x_n0 : (n0 : X) = Fin 0. Proof. apply x_nint. Qed.
Lemma x_n1 : (n1 : X) = Fin 1. Proof. apply x_nint. Qed.
Lemma x_n2 : (n2 : X) = Fin 2. Proof. apply x_nint. Qed.
Lemma x_nm1 : (nm1 : X) = Fin (-1). Proof. apply x_nint. Qed.
Lemma x_nhalf : (nhalf : X) = Fin (1/2).
Proof. unfold nhalf; cbn; unfold xdec; f_equal; lra. Qed.
Lemma x_nofn n : (nofn n : X) = Fin (INR n).
Proof. unfold nofn; rewrite x_nint; f_equal. symmetry; apply INR_IZR_INZ. Qed.

Lemma xeqb_eq a b : xeqb a b = true -> a = b.
Proof.
  destruct a, b; cbn; intros H; try discriminate; auto.
  f_equal; apply Req_b_true; exact H.
Qed.
Lemma xeqb_refl a : a <> XNaN -> xeqb a a = true.
Proof. destruct a; cbn; intros; auto; try congruence. apply Req_b_refl. Qed.

Lemma xadd_0_l a : xadd (Fin 0) a = a.
Proof. destruct a; cbn; auto. f_equal; lra. Qed.
Lemma xadd_0_r a : xadd a (Fin 0) = a.
Proof. destruct a; cbn; auto. f_equal; lra. Qed.
Lemma xadd_comm a b : xadd a b = xadd b a.
Proof. destruct a, b; cbn; auto. f_equal; lra. Qed.
Lemma xmul_comm a b : xmul a b = xmul b a.
Proof. destruct a, b; cbn; auto. f_equal; lra. Qed.
Lemma xmul_1_l a : xmul (Fin 1) a = a.
Proof.
  destruct a; cbn; auto; [ f_equal; lra | |]; unfold xscale.
  all: replace (Req_b 1 0) with false by (symmetry; apply Req_b_false; lra).
  all: replace (Rltb 0 1) with true by (symmetry; apply Rltb_true; lra); reflexivity.
Qed.
Lemma xmul_1_r a : xmul a (Fin 1) = a.
Proof. rewrite xmul_comm; apply xmul_1_l. Qed.
Lemma xneg_invol a : xneg (xneg a) = a.
Proof. destruct a; cbn; auto. f_equal; lra. Qed.
Lemma xsub_fin a b : xsub (Fin a) (Fin b) = Fin (a - b).
Proof. reflexivity. Qed.
Lemma xdiv_fin a b : b <> 0 -> xdiv (Fin a) (Fin b) = Fin (a / b).
Proof. intros H; cbn. apply Req_b_false in H; rewrite H; reflexivity. Qed.
Lemma xln_pos a : 0 < a -> xln (Fin a) = Fin (ln a).
Proof. intros H; cbn. apply Rltb_true in H; rewrite H; reflexivity. Qed.
Lemma xsqrt_nonneg a : 0 <= a -> xsqrt (Fin a) = Fin (sqrt a).
Proof. intros H; cbn. apply Rltb_false in H; rewrite H; reflexivity. Qed.
Lemma xleb_fin a b : xleb (Fin a) (Fin b) = Rleb a b.
Proof.
  unfold xleb; cbn. unfold Rltb, Req_b, Rleb.
  destruct (Rlt_dec a b), (Req_EM_T a b), (Rle_dec a b); cbn; auto; lra.
Qed.

Lemma as_int_IZR z : as_int (IZR z) = Some z.
Proof.
  unfold as_int.
  assert (E : Int_part (IZR z) = z).
  { unfold Int_part. rewrite <- (tech_up (IZR z) (z + 1)); [lia | |];
    rewrite plus_IZR; lra. }
  rewrite E, Req_b_refl; reflexivity.
Qed.
Lemma as_int_Some e z : as_int e = Some z -> e = IZR z.
Proof.
  unfold as_int. destruct (Req_b _ _) eqn:E; [|discriminate].
  intros H; injection H as <-. apply Req_b_true in E; auto.
Qed.

Lemma xpow_0_r b : xpow b (Fin 0) = Fin 1.
Proof. destruct b; cbn; unfold xpow_fin; rewrite Req_b_refl; reflexivity. Qed.
Lemma xpow_fin_pos b e : 0 < b -> xpow (Fin b) (Fin e) = Fin (Rpower b e).
Proof.
  intros H; cbn; unfold xpow_fin.
  destruct (Req_b e 0) eqn:E.
  - apply Req_b_true in E; subst; rewrite Rpower_O; auto.
  - apply Rltb_true in H; rewrite H; reflexivity.
Qed.
Lemma xpow_fin_int b z : b <> 0 -> xpow (Fin b) (Fin (IZR z)) = Fin (powerRZ b z).
Proof.
  intros H; cbn; unfold xpow_fin.
  destruct (Req_b (IZR z) 0) eqn:E.
  - apply Req_b_true in E. apply eq_IZR in E; subst; reflexivity.
  - destruct (Rltb 0 b) eqn:P.
    + apply Rltb_true in P. rewrite <- powerRZ_Rpower; auto.
    + assert (Q : Req_b b 0 = false) by (apply Req_b_false; auto).
      rewrite Q, as_int_IZR; reflexivity.
Qed.
Lemma xpow_fin_zero e : 0 < e -> xpow (Fin 0) (Fin e) = Fin 0.
Proof.
  intros H; cbn; unfold xpow_fin.
  assert (E : Req_b e 0 = false) by (apply Req_b_false; lra); rewrite E.
  assert (P : Rltb 0 0 = false) by (apply Rltb_false; lra); rewrite P.
  rewrite Req_b_refl. apply Rltb_true in H; rewrite H; reflexivity.
Qed.
Lemma xpow_2 b : xpow (Fin b) (Fin 2) = Fin (b * b).
Proof.
  destruct (Req_EM_T b 0) as [->|H].
  - rewrite xpow_fin_zero by lra. f_equal; lra.
  - rewrite (xpow_fin_int b 2) by auto. f_equal. simpl; ring.
Qed.
Lemma xpow_1_r b : xpow (Fin b) (Fin 1) = Fin b.
Proof.
  destruct (Req_EM_T b 0) as [->|H].
  - rewrite xpow_fin_zero by lra; auto.
  - rewrite (xpow_fin_int b 1) by auto. f_equal. simpl; ring.
Qed.
Lemma Rpower_1_l e : Rpower 1 e = 1.
Proof. unfold Rpower. rewrite ln_1, Rmult_0_r, exp_0; reflexivity. Qed.
Lemma xpow_1_l e : xpow (Fin 1) (Fin e) = Fin 1.
Proof. rewrite xpow_fin_pos by lra. rewrite Rpower_1_l; reflexivity. Qed.
End XRC.
