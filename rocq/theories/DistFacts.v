(** Evaluating model terms over the extended reals. *)
From Coq Require Import ZArith Reals List Bool Lra Lia Arith.
From Verif Require Import Num XRFacts.
Import ListNotations.
Local Open Scope R_scope.

Section F.
Context (lg : R -> R).
Lemma x_dec m d : (ndec m d : XR lg) = Fin (IZR m / IZR (Zpos d)).
Proof. reflexivity. Qed.
Lemma x_nrecip r : r <> 0 -> (nrecip (Fin r : XR lg) : XR lg) = Fin (/ r).
Proof.
  intros H. unfold nrecip. rewrite x_n1. change (xdiv (Fin 1) (Fin r) = Fin (/ r)).
  rewrite xdiv_fin by exact H. f_equal. lra.
Qed.
Lemma x_ltb0 r : nltb (n0 : XR lg) (Fin r : XR lg) = Rltb 0 r.
Proof. rewrite x_n0. reflexivity. Qed.
Lemma x_leb0 r : nleb (n0 : XR lg) (Fin r : XR lg) = Rleb 0 r.
Proof. rewrite x_n0. change (xleb (Fin 0) (Fin r) = Rleb 0 r). apply xleb_fin. Qed.
Lemma x_leb1 r : nleb (Fin r : XR lg) (n1 : XR lg) = Rleb r 1.
Proof. rewrite x_n1. change (xleb (Fin r) (Fin 1) = Rleb r 1). apply xleb_fin. Qed.
Lemma x_ltb1 r : nltb (Fin r : XR lg) (n1 : XR lg) = Rltb r 1.
Proof. rewrite x_n1. reflexivity. Qed.
End F.

Lemma Rleb_false a b : Rleb a b = false <-> b < a.
Proof. unfold Rleb; destruct (Rle_dec a b); split; intros; try discriminate; auto; lra. Qed.
Lemma Rltb_t a b : a < b -> Rltb a b = true. Proof. apply Rltb_true. Qed.
Lemma Rleb_t a b : a <= b -> Rleb a b = true. Proof. apply Rleb_true. Qed.
Lemma Rltb_f a b : b <= a -> Rltb a b = false. Proof. apply Rltb_false. Qed.
Lemma Rleb_f a b : b < a -> Rleb a b = false. Proof. apply Rleb_false. Qed.

Lemma xln_zero : xln (Fin 0) = NInf.
Proof. cbn. rewrite Rltb_f by lra. rewrite Req_b_refl. reflexivity. Qed.
Lemma xln_neg a : a < 0 -> xln (Fin a) = XNaN.
Proof.
  intros H. cbn. rewrite Rltb_f by lra.
  replace (Req_b a 0) with false by (symmetry; apply Req_b_false; lra). reflexivity.
Qed.
Lemma xsub_Fin a b : xsub (Fin a) (Fin b) = Fin (a - b). Proof. reflexivity. Qed.
Lemma xadd_Fin a b : xadd (Fin a) (Fin b) = Fin (a + b). Proof. reflexivity. Qed.
Lemma xmul_Fin a b : xmul (Fin a) (Fin b) = Fin (a * b). Proof. reflexivity. Qed.
Lemma xneg_Fin a : xneg (Fin a) = Fin (- a). Proof. reflexivity. Qed.
Lemma xexp_Fin a : xexp (Fin a) = Fin (exp a). Proof. reflexivity. Qed.
Lemma xlgamma_Fin lg a : xlgamma lg (Fin a) = Fin (lg a). Proof. reflexivity. Qed.
Lemma xabs_Fin a : xabs (Fin a) = Fin (Rabs a). Proof. reflexivity. Qed.

(** Replace generic operations and literals by those of the extended reals. *)
Ltac xr_lits :=
  rewrite ?x_n0, ?x_n1, ?x_n2, ?x_nm1, ?x_nhalf, ?x_nofn, ?x_nint, ?x_dec.
Ltac xr_ops :=
  cbn [nadd nsub nmul ndiv npow nneg nabs nln nexp nsqrt nlgamma nltb nleb neqb npi nninf npinf nnan num XR].
Ltac xr_step side :=
  first [ rewrite xsub_Fin | rewrite xadd_Fin | rewrite xmul_Fin | rewrite xneg_Fin
        | rewrite xexp_Fin | rewrite xlgamma_Fin | rewrite xabs_Fin
        | rewrite xdiv_fin by side | rewrite xln_pos by side | rewrite xsqrt_nonneg by side ].
Ltac xr_with side := unfold nrecip; xr_lits; xr_ops; repeat xr_step side.
