(** Proof terms for [PropsBuild]. *)
From Coq Require Import ZArith Reals String List Bool Lra Lia Arith.
From Verif Require Import Num XRFacts ExprModel ExprSpec ExprEval ExprEval2 DensitySpec BuilderModel
  BuilderProofs.
Import ListNotations.
Local Open Scope string_scope.
Local Open Scope list_scope.
Local Open Scope R_scope.

Lemma C41_normal lg (vars : env (XR lg)) x mu s vx vm vs :
  denotes vars x vx -> denotes vars mu vm -> denotes vars s vs -> 0 < vs ->
  evaluate vars (normal_log_pdf x mu s) = Ok (Fin (ln (normal_pdf vm vs vx)) : XR lg).
Proof. intros; apply evaluate_denotes, normal_log_pdf_denotes; auto. Qed.
Lemma C41_kernel lg (vars : env (XR lg)) x mu s vx vm vs :
  denotes vars x vx -> denotes vars mu vm -> denotes vars s vs -> vs <> 0 ->
  evaluate vars (gaussian_kernel x mu s) = Ok (Fin (exp (- ((vx - vm) ^ 2 / (2 * vs ^ 2)))) : XR lg).
Proof. intros; apply evaluate_denotes, gaussian_kernel_denotes; auto. Qed.
Lemma C41_polynomial lg (vars : env (XR lg)) x v (cs : list R) : denotes vars x v ->
  evaluate vars (polynomial x (map (fun c => Fin c : XR lg) cs)) = Ok (Fin (poly cs v) : XR lg).
Proof. intros; apply evaluate_denotes, polynomial_denotes; auto. Qed.
Lemma C41_logistic lg (vars : env (XR lg)) x v : denotes vars x v ->
  evaluate vars (logistic x) = Ok (Fin (logistic_fn v) : XR lg) /\
  evaluate vars (softplus x) = Ok (Fin (softplus_fn v) : XR lg).
Proof. intros; split; apply evaluate_denotes; [apply logistic_denotes|apply softplus_denotes]; auto. Qed.
Lemma C41_pieces lg (vars : env (XR lg)) x v mu s c : get vars x = Some (Fin v) -> 0 < s ->
  evaluate vars (quadratic_term x (Fin mu : XR lg) (Fin s : XR lg))
    = Ok (Fin (- ((v - mu) ^ 2 / (2 * s ^ 2))) : XR lg) /\
  evaluate vars (linear_term x (Fin c : XR lg)) = Ok (Fin (c * v) : XR lg) /\
  evaluate vars (log_normal_constant (Fin s : XR lg)) = Ok (Fin (- ln (s * sqrt (2 * PI))) : XR lg) /\
  evaluate vars (Add (quadratic_term x (Fin mu : XR lg) (Fin s : XR lg)) (log_normal_constant (Fin s : XR lg)))
    = Ok (Fin (ln (normal_pdf mu s v)) : XR lg).
Proof.
  intros G P. repeat split; apply evaluate_denotes.
  - apply quadratic_term_denotes; auto; lra.
  - apply linear_term_denotes; auto.
  - apply log_normal_constant_denotes; auto.
  - rewrite <- pieces_normal by auto. apply d_add.
    + apply quadratic_term_denotes; auto; lra.
    + apply log_normal_constant_denotes; auto.
Qed.

Lemma C42_likelihood_prior lg (vars : env (XR lg)) x mu s vx vm vs m sc :
  get vars x = Some (Fin vx) -> get vars mu = Some (Fin vm) -> get vars s = Some (Fin vs) ->
  0 < vs -> 0 < sc ->
  evaluate vars (normal_likelihood x mu s) = Ok (Fin (ln (normal_pdf vm vs vx)) : XR lg) /\
  evaluate vars (normal_prior mu (Fin m : XR lg) (Fin sc : XR lg)) = Ok (Fin (ln (normal_pdf m sc vm)) : XR lg).
Proof. intros; split; apply evaluate_denotes; [apply likelihood_denotes|apply prior_denotes]; auto. Qed.
Lemma C42_posterior lg (vars : env (XR lg)) l p (a b : XR lg) :
  evaluate vars l = Ok a -> evaluate vars p = Ok b ->
  evaluate vars (posterior_log_density l p) = Ok (nadd a b).
Proof. intros; apply ev_add; auto. Qed.
Lemma C42_hierarchical lg (vars : env (XR lg)) x mu s tau vx vm vs vt m sc :
  get vars x = Some (Fin vx) -> get vars mu = Some (Fin vm) -> get vars s = Some (Fin vs) ->
  get vars tau = Some (Fin vt) -> 0 < vs -> 0 < sc ->
  evaluate vars (hierarchical_normal x mu s tau (Fin m : XR lg) (Fin sc : XR lg))
    = Ok (Fin (ln (normal_pdf vm vs vx) + ln (normal_pdf m sc vm) + ln (normal_pdf 0 sc vt)) : XR lg).
Proof. intros; apply evaluate_denotes, hierarchical_denotes; auto. Qed.
Lemma C42_tau lg : exists (vars : env (XR lg)) vx vm vs vt m sc,
  get vars "x" = Some (Fin vx) /\ get vars "mu" = Some (Fin vm) /\ get vars "sigma" = Some (Fin vs) /\
  get vars "tau" = Some (Fin vt) /\ 0 < vs /\ 0 < sc /\ 0 < vt /\
  evaluate vars (hierarchical_normal "x" "mu" "sigma" "tau" (Fin m : XR lg) (Fin sc : XR lg))
    <> Ok (Fin (ln (normal_pdf vm vs vx) + ln (normal_pdf m vt vm) + ln (normal_pdf 0 sc vt)) : XR lg).
Proof.
  exists [("x", Fin 0 : XR lg); ("mu", Fin 0 : XR lg); ("sigma", Fin 1 : XR lg); ("tau", Fin 2 : XR lg)],
    0, 0, 1, 2, 0, 1.
  repeat (split; [try reflexivity; lra|]).
  rewrite (C42_hierarchical lg _ "x" "mu" "sigma" "tau" 0 0 1 2 0 1) by (try reflexivity; lra).
  intros E. apply Ok_inj in E. injection E as E.
  assert (Q : ln (normal_pdf 0 1 0) = ln (normal_pdf 0 2 0)) by lra.
  rewrite !ln_normal_pdf in Q by lra.
  assert (ln 1 < ln 2) by (apply ln_increasing; lra).
  replace ((0 - 0) ^ 2) with 0 in Q by ring. unfold Rdiv in Q. rewrite !Rmult_0_r, !Rmult_0_l in Q. lra.
Qed.
Lemma C42_edges (N : Num) (vars : env N) x :
  (exists e, mixture_likelihood x [] [] [] = Some e /\ evaluate vars e = Ok nninf) /\
  evaluate vars (mixture_likelihood_old []) = Ok nninf /\
  forall ws mus sds : list N, mixture_likelihood x ws mus sds = None <->
    ~ (length ws = length mus /\ length mus = length sds).
Proof.
  split; [eexists; split; reflexivity|]. split; [reflexivity|].
  intros ws mus sds. unfold mixture_likelihood.
  destruct (Nat.eqb_spec (length ws) (length mus)), (Nat.eqb_spec (length mus) (length sds)); cbn [andb];
    try (split; [tauto|reflexivity]).
  destruct ws; split; try discriminate; tauto.
Qed.
Lemma C42_zero_weights lg (vars : env (XR lg)) v : get vars "x" = Some (Fin v) ->
  exists e, mixture_likelihood "x" [(Fin 0 : XR lg)] [(Fin 0 : XR lg)] [(Fin 1 : XR lg)] = Some e /\
    evaluate vars e = Err (InvalidLogarithm (Fin 0 : XR lg)).
Proof.
  intros G. eexists. split; [reflexivity|].
  assert (D : evaluate vars (normal_log_pdf (Var "x") (Const (Fin 0 : XR lg)) (Const (Fin 1 : XR lg)))
     = Ok (Fin (ln (normal_pdf 0 1 v)) : XR lg)).
  { apply C41_normal; try constructor; auto. lra. }
  assert (A : evaluate vars (mixture_step (Const n0) (Fin 0 : XR lg,
     normal_log_pdf (Var "x") (Const (Fin 0 : XR lg)) (Const (Fin 1 : XR lg)))) = Ok (Fin 0 : XR lg)).
  { assert (Z : evaluate vars (Const (n0 : XR lg)) = Ok (Fin 0 : XR lg)) by (cbn [evaluate]; f_equal; apply x_n0).
    unfold mixture_step, op_add at 1. cbn [fst snd].
    rewrite (ev_add lg vars _ _ _ _ Z (mixture_term lg vars 0 _ _ (Rle_refl 0) D)).
    cbn [xadd]. rewrite Rmult_0_l, Rplus_0_l. reflexivity. }
  cbn [length seq fold_left nth]. cbn [evaluate]. rewrite A. cbn [bind].
  replace (nleb (Fin 0 : XR lg) n0) with true; auto.
  rewrite x_n0. symmetry. change (xleb (Fin 0) (Fin 0) = true). rewrite xleb_fin. apply Rleb_true; lra.
Qed.

Lemma C48_last (N : Num) (l : list (string * N * string * list string)) k v ex d :
  last_call k l = Some (v, ex, d) <->
  exists l1 l2, l = l1 ++ (k, v, ex, d) :: l2 /\ (forall v' ex' d', ~ In (k, v', ex', d') l2).
Proof.
  assert (NONE : forall l : list (string * N * string * list string), last_call k l = None <-> forall v' ex' d', ~ In (k, v', ex', d') l).
  { clear. induction l as [|[[[n v] ex] d] l IH]; cbn; [tauto|].
    destruct (last_call k l) as [[[v0 e0] d0]|].
    - split; [discriminate|]. intros H. exfalso. destruct IH as [_ IH].
      discriminate IH. intros v' ex' d' I. apply (H v' ex' d'). auto.
    - destruct (String.eqb_spec k n) as [->|NE].
      + split; [discriminate|]. intros H. exfalso. apply (H v ex d). auto.
      + split; auto. intros _ v' ex' d' [E|I]; [congruence|]. destruct IH as [IH _].
        eapply IH; eauto. }
  split.
  - induction l as [|[[[n v0] e0] d0] l IH]; cbn; [discriminate|].
    destruct (last_call k l) as [[[v1 e1] d1]|] eqn:Q.
    + intros E. destruct (IH E) as (l1 & l2 & -> & H).
      exists ((n, v0, e0, d0) :: l1), l2. auto.
    + destruct (String.eqb_spec k n) as [->|NE]; [|discriminate]. intros E. injection E as -> -> ->.
      exists [], l. split; auto. apply NONE; auto.
  - intros (l1 & l2 & -> & H). induction l1 as [|[[[n v0] e0] d0] l1 IH]; cbn.
    + rewrite (proj2 (NONE l2) H), String.eqb_refl. reflexivity.
    + rewrite IH. reflexivity.
Qed.
