(** The log-gamma and gamma log-density of the distribution interpreter at
    every positive shape. *)
From Coquelicot Require Import Coquelicot.
From Coq Require Import ZArith Reals Bool List Lia Lra.
From Verif Require Import Num XRFacts CoreModel CoreSpec DensitySpec BuilderProofs DistSpec DistFacts DistProofs IntSpec StirlingReal TaglessModel TaglessSpec TaglessProofs2.
Local Open Scope R_scope.
Section V.
Context (lg : R -> R) (HG : lg_is_log_gamma lg).
Notation X := (XR lg).
Notation fin r := (Fin r : X).
Lemma de_log_gamma_value a : 0 < a -> exists v, de_log_gamma (fin a) = fin v /\ (a <= 12 -> v = lg a) /\
  (12 < a -> v < lg a <= v + / (12 * a)).
Proof.
  intros A. unfold de_log_gamma. pose proof two_pi_pos as TP. xr_lits. cbn [nltb XR xltb].
  destruct (Rltb 12 a) eqn:E.
  - apply Rltb_true in E. eexists. split; [txr; reflexivity|]. split; [lra|]. intros _.
    pose proof (log_gamma_stirling lg HG a A) as S. unfold st in S. replace (1 / 2) with (/ 2) by lra. lra.
  - apply Rltb_false in E. exists (lg a). split; [reflexivity|]. split; [reflexivity|lra].
Qed.
Lemma de_gamma_value a b x : 0 < a -> 0 < b -> 0 < x -> exists v, de_gamma (fin x) (fin a) (fin b) = fin v /\
  (a <= 12 -> v = ln (gamma_pdf lg a b x)) /\ (12 < a -> ln (gamma_pdf lg a b x) < v <= ln (gamma_pdf lg a b x) + / (12 * a)).
Proof.
  intros A B P. destruct (de_log_gamma_value a A) as (v & E & S1 & S2). unfold de_gamma. rewrite x_ltb0, Rltb_t by exact P. rewrite E.
  rewrite ln_gamma_pdf by exact P. eexists. split; [txr; reflexivity|]. split; intros C; [rewrite (S1 C); ring|specialize (S2 C); lra].
Qed.
End V.
