(** The builders evaluate to the textbook formulas (C41, C42); constant pools
    (C48); operator sugar (C50). *)
From Coq Require Import ZArith Reals String List Bool Lra Lia Arith.
From Coq Require Import Floats.SpecFloat.
From Verif Require Import Num XRFacts ExprModel ExprSpec ExprEval ExprEval2 ExprSubst ExprWitness
  DensitySpec BuilderModel.
Import ListNotations.
Local Open Scope R_scope.
Local Open Scope list_scope.

Section B.
Context (lg : R -> R).
Notation X := (XR lg).
Implicit Types (vars : env X) (e : expr X).

Lemma d_val vars e a b : denotes vars e a -> a = b -> denotes vars e b.
Proof. intros; subst; auto. Qed.

Lemma d_pown vars e a n : denotes vars e a ->
  denotes vars (Pow e (Const (Fin (INR n) : X))) (a ^ n).
Proof.
  intros D. destruct n as [|n].
  - cbn [pow]. eapply d_pow_zero; eauto. constructor.
  - destruct (Req_dec a 0) as [->|NZ].
    + rewrite pow_i by lia. apply (d_pow_base0 _ _ _ (INR (S n))); auto; [constructor|].
      apply lt_0_INR; lia.
    + eapply d_val; [apply (d_pow_int _ _ _ a (Z.of_nat (S n))); auto|].
      * eapply d_val; [constructor|apply INR_IZR_INZ].
      * rewrite pow_powerRZ. reflexivity.
Qed.
Lemma d_sq vars e a : denotes vars e a -> denotes vars (Pow e (Const (n2 : X))) (a ^ 2).
Proof.
  intros D. rewrite x_n2. replace 2 with (INR 2) by (cbn; lra). apply d_pown; auto.
Qed.
Lemma d_lit vars (c : X) r : c = Fin r -> denotes vars (Const c) r.
Proof. intros ->. constructor. Qed.

Lemma x_two_pi : (two_pi : X) = Fin (2 * PI).
Proof. unfold two_pi. rewrite x_n2. reflexivity. Qed.
Lemma two_pi_pos : 0 < 2 * PI.
Proof. pose proof PI_RGT_0; lra. Qed.

Lemma ln_normal_pdf mu s x : 0 < s ->
  ln (normal_pdf mu s x) = - (1 / 2 * ln (2 * PI) + ln s) + - (1 / 2) * (x - mu) ^ 2 / s ^ 2.
Proof.
  intros H. pose proof two_pi_pos as P. unfold normal_pdf.
  assert (0 < sqrt (2 * PI)) by (apply sqrt_lt_R0; auto).
  rewrite ln_mult, ln_exp, ln_Rinv, ln_mult by
    (auto using exp_pos, Rinv_0_lt_compat, Rmult_lt_0_compat).
  assert (E : ln (sqrt (2 * PI)) = 1 / 2 * ln (2 * PI)).
  { rewrite <- (Rpower_sqrt (2 * PI)) by auto. unfold Rpower. rewrite ln_exp. lra. }
  rewrite E. field. lra.
Qed.

Lemma normal_log_pdf_denotes vars x mu s vx vm vs :
  denotes vars x vx -> denotes vars mu vm -> denotes vars s vs -> 0 < vs ->
  denotes vars (normal_log_pdf x mu s) (ln (normal_pdf vm vs vx)).
Proof.
  intros A B C P. rewrite ln_normal_pdf by auto. unfold normal_log_pdf, op_add, op_neg, op_mul, op_div, op_sub.
  apply d_add; [apply d_neg, d_add|apply d_div].
  - apply d_mul; [apply d_lit, x_nhalf|]. apply d_ln; [apply d_lit, x_two_pi|apply two_pi_pos].
  - apply d_ln; auto.
  - apply d_mul; [apply d_neg, d_lit, x_nhalf|]. apply d_sq, d_sub; auto.
  - apply d_sq; auto.
  - apply pow_nonzero. lra.
Qed.

Lemma gaussian_kernel_denotes vars x mu s vx vm vs :
  denotes vars x vx -> denotes vars mu vm -> denotes vars s vs -> vs <> 0 ->
  denotes vars (gaussian_kernel x mu s) (exp (- ((vx - vm) ^ 2 / (2 * vs ^ 2)))).
Proof.
  intros A B C P. unfold gaussian_kernel. apply d_exp.
  eapply d_val with (a := - (1/2) * (vx - vm) ^ 2 / vs ^ 2); [|field; auto].
  apply d_div; [|apply d_sq; auto|apply pow_nonzero; auto].
  apply d_mul; [apply d_neg, d_lit, x_nhalf|]. apply d_sq, d_sub; auto.
Qed.

Lemma logistic_denotes vars x v : denotes vars x v -> denotes vars (logistic x) (logistic_fn v).
Proof.
  intros A. unfold logistic, logistic_fn. pose proof (exp_pos v) as P.
  eapply d_val with (a := 1 / (1 + exp (- v))).
  - apply d_div; [apply d_lit, x_n1|apply d_add; [apply d_lit, x_n1|apply d_exp, d_neg; auto]|].
    pose proof (exp_pos (- v)); lra.
  - rewrite exp_Ropp. field. split; lra.
Qed.
Lemma softplus_denotes vars x v : denotes vars x v -> denotes vars (softplus x) (softplus_fn v).
Proof.
  intros A. apply d_ln; [apply d_add; [apply d_lit, x_n1|apply d_exp; auto]|].
  pose proof (exp_pos v); lra.
Qed.

Lemma polynomial_from_denotes vars x v (cs : list R) : denotes vars x v ->
  forall i acc a, denotes vars acc a ->
  denotes vars (polynomial_from x i acc (map (fun c => Fin c : X) cs)) (a + poly_from i cs v).
Proof.
  intros D. induction cs as [|c cs IH]; cbn [map polynomial_from poly_from]; intros i acc a A.
  - eapply d_val; eauto. lra.
  - rewrite <- Rplus_assoc. apply IH. unfold op_add, op_mul. apply d_add; auto.
    destruct i as [|[|i]].
    + eapply d_val; [constructor|]. cbn; lra.
    + eapply d_val; [apply d_mul; [constructor|eauto]|]. cbn; lra.
    + apply d_mul; [constructor|]. rewrite x_nofn. apply d_pown; auto.
Qed.
Lemma polynomial_denotes vars x v (cs : list R) : denotes vars x v ->
  denotes vars (polynomial x (map (fun c => Fin c : X) cs)) (poly cs v).
Proof.
  intros D. unfold polynomial, poly. eapply d_val; [apply polynomial_from_denotes; eauto|].
  - apply d_lit, x_n0. - lra.
Qed.

Lemma quadratic_term_denotes vars x v mu s : get vars x = Some (Fin v) -> s <> 0 ->
  denotes vars (quadratic_term x (Fin mu : X) (Fin s : X)) (- ((v - mu) ^ 2 / (2 * s ^ 2))).
Proof.
  intros G P. unfold quadratic_term.
  eapply d_val with (a := - (1 / 2 * ((v - mu) ^ 2 / (s * s)))); [|field; auto].
  apply d_neg, d_mul; [apply d_lit, x_nhalf|]. apply d_div; [| constructor |].
  - apply d_sq, d_sub; constructor; auto.
  - apply Rmult_integral_contrapositive; auto.
Qed.
Lemma linear_term_denotes vars x v c : get vars x = Some (Fin v) ->
  denotes vars (linear_term x (Fin c : X)) (c * v).
Proof. intros G. apply d_mul; constructor; auto. Qed.
Lemma log_normal_constant_denotes vars s : 0 < s ->
  denotes vars (log_normal_constant (Fin s : X)) (- ln (s * sqrt (2 * PI))).
Proof.
  intros P. pose proof two_pi_pos as P2. unfold log_normal_constant.
  eapply d_val with (a := - (1 / 2 * ln (2 * PI)) - ln s).
  - apply d_sub; [apply d_neg, d_mul; [apply d_lit, x_nhalf|]|apply d_ln; auto; constructor].
    apply d_ln; auto. apply d_lit, x_two_pi.
  - rewrite (ln_mult s) by (auto; apply sqrt_lt_R0; auto).
    rewrite <- (Rpower_sqrt (2 * PI)) by auto. unfold Rpower. rewrite ln_exp. lra.
Qed.
(** The two pieces add up to the normal log-density. *)
Lemma pieces_normal mu s x : 0 < s ->
  - ((x - mu) ^ 2 / (2 * s ^ 2)) + - ln (s * sqrt (2 * PI)) = ln (normal_pdf mu s x).
Proof.
  intros P. pose proof two_pi_pos. rewrite ln_normal_pdf, (ln_mult s) by (auto; apply sqrt_lt_R0; auto).
  rewrite <- (Rpower_sqrt (2 * PI)) by auto. unfold Rpower. rewrite ln_exp. field. lra.
Qed.

(** ** Mixtures *)
Lemma ev_add vars l r (a b : X) : evaluate vars l = Ok a -> evaluate vars r = Ok b ->
  evaluate vars (Add l r) = Ok (xadd a b).
Proof.
  intros A B. cbn [evaluate].
  assert (Z : forall e (c : X), is_lit n0 e = true -> evaluate vars e = Ok c -> c = Fin 0).
  { intros e c L E. apply x_is_lit in L. subst e. cbn [evaluate] in E. apply Ok_inj in E.
    rewrite <- E. apply x_n0. }
  assert (G : (if is_lit n0 l then evaluate vars r
               else if is_lit n0 r then evaluate vars l
               else let? a := evaluate vars l in let? b := evaluate vars r in Ok (nadd a b))
              = Ok (xadd a b)).
  { destruct (is_lit n0 l) eqn:L1.
    - rewrite (Z _ _ L1 A), xadd_0_l. exact B.
    - destruct (is_lit n0 r) eqn:L2.
      + rewrite (Z _ _ L2 B), xadd_0_r. exact A.
      + rewrite A, B. reflexivity. }
  destruct l; try exact G. destruct r; try exact G.
  cbn [evaluate] in A, B. apply Ok_inj in A, B. subst. reflexivity.
Qed.

Lemma mixture_term vars (w l : R) c : 0 <= w -> evaluate vars c = Ok (Fin l : X) ->
  evaluate vars (Exp (op_add (Const (nln (Fin w : X))) c)) = Ok (Fin (w * exp l) : X).
Proof.
  intros W E.
  assert (A : evaluate vars (op_add (Const (nln (Fin w : X))) c) = Ok (xadd (xln (Fin w)) (Fin l)))
    by (apply ev_add; auto).
  cbn [evaluate]. rewrite A. cbn [bind]. f_equal. destruct (Req_dec w 0) as [->|NZ].
  - cbn [xln]. rewrite (proj2 (Rltb_false 0 0)) by lra. rewrite Req_b_refl. cbn. f_equal; lra.
  - rewrite xln_pos by lra. cbn. f_equal. rewrite exp_plus, exp_ln by lra. reflexivity.
Qed.

Definition weighted (ws ls : list R) : list R := map (fun p => fst p * exp (snd p)) (combine ws ls).

Lemma mixture_fold vars (ws ls : list R) (cs : list (expr X)) : Forall (Rle 0) ws ->
  length ws = length ls -> Forall2 (fun c l => evaluate vars c = Ok (Fin l : X)) cs ls ->
  forall acc a, evaluate vars acc = Ok (Fin a : X) ->
  evaluate vars (fold_left mixture_step (combine (map (fun w => Fin w : X) ws) cs) acc)
    = Ok (Fin (a + Rsum (weighted ws ls)) : X).
Proof.
  intros W L F. revert ws W L. induction F as [|c l cs ls E F IH]; intros [|w ws] W L acc a A;
    try discriminate L; cbn [map combine fold_left weighted Rsum fold_right].
  - rewrite A. do 2 f_equal. lra.
  - inversion W; subst.
    assert (S : evaluate vars (mixture_step acc (Fin w : X, c)) = Ok (Fin (a + w * exp l) : X)).
    { unfold mixture_step, op_add at 1. cbn [fst snd].
      rewrite (ev_add _ _ _ _ _ A (mixture_term _ _ _ _ H1 E)). reflexivity. }
    rewrite (IH ws H2 ltac:(cbn in L; congruence) _ _ S). do 2 f_equal.
    unfold weighted, Rsum. cbn [fst snd]. lra.
Qed.

Lemma weighted_nonneg ws ls : Forall (Rle 0) ws -> 0 <= Rsum (weighted ws ls).
Proof.
  intros W. revert ls. induction W as [|w ws P W IH]; intros [|l ls];
    try (cbn; lra). specialize (IH ls). unfold weighted, Rsum in *. cbn [combine map fold_right fst snd].
  pose proof (exp_pos l). pose proof (Rmult_le_pos w (exp l) P ltac:(lra)). lra.
Qed.
Lemma weighted_pos ws ls : Forall (Rle 0) ws -> length ws = length ls -> Exists (Rlt 0) ws ->
  0 < Rsum (weighted ws ls).
Proof.
  intros W. revert ls. induction W as [|w ws P W IH]; intros [|l ls] L E;
    try discriminate L; [inversion E|].
  unfold weighted, Rsum in *. cbn [combine map fold_right fst snd].
  pose proof (exp_pos l). inversion E as [? ? Q|? ? Q]; subst.
  - pose proof (Rmult_lt_0_compat w (exp l) Q H).
    pose proof (weighted_nonneg ws ls W) as K. unfold weighted, Rsum in K. lra.
  - pose proof (Rmult_le_pos w (exp l) P ltac:(lra)).
    specialize (IH ls ltac:(cbn in L; congruence) Q). lra.
Qed.

Lemma ln_eval vars e (a : R) : evaluate vars e = Ok (Fin a : X) -> 0 < a ->
  evaluate vars (Ln e) = Ok (Fin (ln a) : X).
Proof.
  intros E P. cbn [evaluate]. rewrite E. cbn [bind]. rewrite x_leb0_false by auto.
  change (nln (Fin a : X)) with (xln (Fin a)). rewrite xln_pos by auto. reflexivity.
Qed.

Lemma mixture_old_value vars (ws ls : list R) (cs : list (expr X)) :
  Forall (Rle 0) ws -> length ws = length ls -> Exists (Rlt 0) ws ->
  Forall2 (fun c l => evaluate vars c = Ok (Fin l : X)) cs ls ->
  evaluate vars (mixture_likelihood_old (combine (map (fun w => Fin w : X) ws) cs))
    = Ok (Fin (ln (Rsum (weighted ws ls))) : X).
Proof.
  intros W L E F. pose proof (weighted_pos ws ls W L E) as P.
  assert (LF : length cs = length ls) by (clear -F; induction F; cbn [length]; auto).
  unfold mixture_likelihood_old.
  destruct (combine (map (fun w => Fin w : X) ws) cs) as [|p q] eqn:Q.
  - destruct ws; [inversion E|]. destruct cs; [|discriminate Q]. cbn in LF. cbn in L. congruence.
  - rewrite <- Q. apply ln_eval; auto.
    assert (Z : evaluate vars (Const (n0 : X)) = Ok (Fin 0 : X)) by (cbn [evaluate]; f_equal; apply x_n0).
    rewrite (mixture_fold vars ws ls cs W L F _ _ Z). do 2 f_equal. lra.
Qed.

Lemma fold_index {A B} (f : A -> B -> A) (g : nat -> B) (l : list B) (acc : A) :
  (forall i d, (i < length l)%nat -> nth i l d = g i) ->
  fold_left (fun a i => f a (g i)) (seq 0 (length l)) acc = fold_left f l acc.
Proof.
  intros H.
  assert (E : map g (seq 0 (length l)) = l).
  { destruct l as [|b l]; [reflexivity|].
    apply (nth_ext _ _ b b); [rewrite map_length, seq_length; auto|].
    intros i L. rewrite map_length, seq_length in L.
    rewrite (nth_indep _ b (g 0%nat)) by (rewrite map_length, seq_length; auto).
    rewrite map_nth, seq_nth by auto. cbn [plus]. symmetry. apply H; auto. }
  rewrite <- E at 2. generalize (seq 0 (length l)). intros s. revert acc.
  induction s as [|i s IH]; intros acc; cbn; auto.
Qed.

Lemma mixture_value vars x v (ws mus sds : list R) :
  get vars x = Some (Fin v) -> length ws = length mus -> length mus = length sds ->
  Forall (Rle 0) ws -> Exists (Rlt 0) ws -> Forall (Rlt 0) sds ->
  exists e, mixture_likelihood x (map (fun w => Fin w : X) ws) (map (fun w => Fin w : X) mus)
              (map (fun w => Fin w : X) sds) = Some e /\
    evaluate vars e = Ok (Fin (ln (Rsum (map
      (fun p => fst p * normal_pdf (fst (snd p)) (snd (snd p)) v) (combine ws (combine mus sds))))) : X).
Proof.
  intros G L1 L2 W E S. unfold mixture_likelihood. rewrite !map_length, L1, L2, !Nat.eqb_refl.
  cbn [andb].
  set (comp := fun p : R * R => normal_log_pdf (Var x) (Const (Fin (fst p) : X)) (Const (Fin (snd p) : X))).
  set (cs := map comp (combine mus sds)).
  set (ls := map (fun p => ln (normal_pdf (fst p) (snd p) v)) (combine mus sds)).
  assert (LC : length (combine mus sds) = length ws) by (rewrite combine_length; lia).
  assert (F : Forall2 (fun c l => evaluate vars c = Ok (Fin l : X)) cs ls).
  { unfold cs, ls. assert (P : Forall (fun p => 0 < snd p) (combine mus sds)).
    { apply Forall_forall. intros [a b] I. apply in_combine_r in I. cbn.
      rewrite Forall_forall in S. auto. }
    revert P. generalize (combine mus sds). intros l0 P. clear -P G.
    induction P as [|p l Q P IH]; cbn [map]; constructor; auto.
    apply evaluate_denotes, normal_log_pdf_denotes; auto; try (apply d_var; auto; fail); apply d_const. }
  pose proof (mixture_old_value vars ws ls cs W ltac:(unfold ls; rewrite map_length; auto) E F) as V.
  exists (mixture_likelihood_old (combine (map (fun w => Fin w : X) ws) cs)). split.
  - destruct ws as [|w ws]; [inversion E|]. cbn [map].
    change ((Fin w : X) :: map (fun w => Fin w : X) ws) with (map (fun w => Fin w : X) (w :: ws)).
    assert (Q : combine (map (fun w => Fin w : X) (w :: ws)) cs <> []).
    { unfold cs. destruct mus, sds; cbn in *; discriminate. }
    unfold mixture_likelihood_old.
    destruct (combine (map (fun w => Fin w : X) (w :: ws)) cs) as [|p q] eqn:QQ; [congruence|].
    rewrite <- QQ. do 2 f_equal.
    rewrite <- (fold_index mixture_step (fun i => (nth i (map (fun w => Fin w : X) (w :: ws)) n0,
      normal_log_pdf (Var x) (Const (nth i (map (fun w => Fin w : X) mus) n0))
        (Const (nth i (map (fun w => Fin w : X) sds) n0))))
        (combine (map (fun w => Fin w : X) (w :: ws)) cs)).
    + replace (length (combine (map (fun w => Fin w : X) (w :: ws)) cs)) with (length sds).
      * reflexivity.
      * rewrite combine_length, map_length. unfold cs. rewrite map_length, LC. lia.
    + intros i d Li. rewrite combine_length, map_length in Li. unfold cs in Li. rewrite map_length, LC in Li.
      destruct d as [d1 d2].
      rewrite (combine_nth _ _ i d1 d2) by (rewrite map_length; unfold cs; rewrite map_length, LC; auto).
      f_equal.
      * apply nth_indep. rewrite map_length. lia.
      * unfold cs. rewrite (nth_indep _ d2 (comp (0, 0))) by (rewrite map_length; lia).
        rewrite map_nth. rewrite combine_nth by auto. unfold comp; cbn [fst snd].
        rewrite (nth_indep (map _ mus) n0 (Fin 0 : X)) by (rewrite map_length; lia).
        rewrite (nth_indep (map _ sds) n0 (Fin 0 : X)) by (rewrite map_length; lia).
        rewrite !(map_nth (fun w => Fin w : X)). reflexivity.
  - rewrite V. do 4 f_equal. unfold weighted, ls. clear -S L1 L2. revert mus sds L1 L2 S.
    induction ws as [|w ws IH]; intros [|m mus] [|s sds] L1 L2 S; try discriminate; auto.
    cbn [combine map fst snd]. inversion S; subst. f_equal.
    + rewrite exp_ln; auto. unfold normal_pdf.
      apply Rmult_lt_0_compat; [|apply exp_pos]. apply Rinv_0_lt_compat, Rmult_lt_0_compat; auto.
      apply sqrt_lt_R0, two_pi_pos.
    + apply IH; auto.
Qed.

(** ** C42 *)
Lemma likelihood_denotes vars x mu s vx vm vs :
  get vars x = Some (Fin vx) -> get vars mu = Some (Fin vm) -> get vars s = Some (Fin vs) -> 0 < vs ->
  denotes vars (normal_likelihood x mu s) (ln (normal_pdf vm vs vx)).
Proof. intros A B C P. apply normal_log_pdf_denotes; auto; constructor; auto. Qed.
Lemma prior_denotes vars p v m s : get vars p = Some (Fin v) -> 0 < s ->
  denotes vars (normal_prior p (Fin m : X) (Fin s : X)) (ln (normal_pdf m s v)).
Proof. intros A P. apply normal_log_pdf_denotes; auto; constructor; auto. Qed.
Lemma posterior_denotes vars l p a b : denotes vars l a -> denotes vars p b ->
  denotes vars (posterior_log_density l p) (a + b).
Proof. intros; apply d_add; auto. Qed.
Lemma hierarchical_denotes vars x mu s tau vx vm vs vt m sc :
  get vars x = Some (Fin vx) -> get vars mu = Some (Fin vm) -> get vars s = Some (Fin vs) ->
  get vars tau = Some (Fin vt) -> 0 < vs -> 0 < sc ->
  denotes vars (hierarchical_normal x mu s tau (Fin m : X) (Fin sc : X))
    (ln (normal_pdf vm vs vx) + ln (normal_pdf m sc vm) + ln (normal_pdf 0 sc vt)).
Proof.
  intros. apply d_add; [apply d_add|].
  - apply likelihood_denotes; auto.
  - apply prior_denotes; auto.
  - unfold normal_prior. apply normal_log_pdf_denotes; auto; try constructor; auto. apply d_lit, x_n0.
Qed.
End B.

(** ** C48 *)
Section Pool.
Context {N : Num}.
Definition pool_calls (l : list (string * N * string * list string)) : constant_pool :=
  fold_left (fun p c => match c with (n, v, ex, d) => pool_add p n v ex d end) l pool_new.
(** The last call for a name. *)
Fixpoint last_call (k : string) (l : list (string * N * string * list string)) :
    option (N * string * list string) :=
  match l with
  | [] => None
  | (n, v, ex, d) :: l' =>
      match last_call k l' with
      | Some r => Some r
      | None => if String.eqb k n then Some (v, ex, d) else None
      end
  end.
Definition pool_lookup (p : constant_pool) (k : string) : option (N * string * list string) :=
  match get (cp_constants p) k, get (cp_expressions p) k, get (cp_dependencies p) k with
  | Some v, Some e, Some d => Some (v, e, d)
  | _, _, _ => None
  end.
Lemma pool_last l k :
  pool_lookup (pool_calls l) k = last_call k l /\
  (last_call k l = None -> get (cp_constants (pool_calls l)) k = None /\
     get (cp_expressions (pool_calls l)) k = None /\ get (cp_dependencies (pool_calls l)) k = None).
Proof.
  unfold pool_calls.
  assert (G : forall p,
    let q := fold_left (fun p c => match c with (n, v, ex, d) => pool_add p n v ex d end) l p in
    match last_call k l with
    | Some (v, ex, d) => get (cp_constants q) k = Some v /\ get (cp_expressions q) k = Some ex /\
                         get (cp_dependencies q) k = Some d
    | None => get (cp_constants q) k = get (cp_constants p) k /\
              get (cp_expressions q) k = get (cp_expressions p) k /\
              get (cp_dependencies q) k = get (cp_dependencies p) k
    end).
  { induction l as [|[[[n v] ex] d] l IH]; intros p; cbn [fold_left last_call]; auto.
    specialize (IH (pool_add p n v ex d)). cbv zeta in *.
    destruct (last_call k l) as [[[v2 e2] d2]|]; auto.
    destruct IH as (A & B & C). rewrite A, B, C. cbn [pool_add cp_constants cp_expressions cp_dependencies].
    rewrite !get_insert. destruct (String.eqb k n); auto. }
  specialize (G pool_new). cbv zeta in G. unfold pool_lookup.
  destruct (last_call k l) as [[[v ex] d]|] eqn:Q.
  - destruct G as (-> & -> & ->). split; auto. discriminate.
  - destruct G as (-> & -> & ->). auto.
Qed.
Lemma pool_order_empty l : cp_order (pool_calls l) = [].
Proof.
  unfold pool_calls.
  assert (G : forall p, cp_order (fold_left (fun p c => match c with (n, v, ex, d) => pool_add p n v ex d end) l p)
    = cp_order p).
  { induction l as [|[[[n v] ex] d] l IH]; intros p; cbn [fold_left]; auto. rewrite IH. reflexivity. }
  rewrite G. reflexivity.
Qed.
End Pool.

(** ** C50 *)
Section Sugar.
Context (lg : R -> R).
Notation X := (XR lg).
Implicit Types (vars : env X) (e : expr X).
Notation "e ~> r" := (Ok (Fin r : X)) (only parsing, at level 70).
Lemma sugar_arith vars a b u v : denotes vars a u -> denotes vars b v ->
  evaluate vars (op_add a b) = Ok (Fin (u + v) : X) /\
  evaluate vars (op_sub a b) = Ok (Fin (u - v) : X) /\
  evaluate vars (op_mul a b) = Ok (Fin (u * v) : X) /\
  (v <> 0 -> evaluate vars (op_div a b) = Ok (Fin (u / v) : X)) /\
  evaluate vars (op_neg a) = Ok (Fin (- u) : X) /\
  (0 < u -> evaluate vars (m_powf a b) = Ok (Fin (Rpower u v) : X)).
Proof.
  intros A B. repeat split; intros; apply evaluate_denotes.
  - apply d_add; auto. - apply d_sub; auto. - apply d_mul; auto. - apply d_div; auto.
  - apply d_neg; auto. - apply d_pow_pos; auto.
Qed.
Lemma sugar_mixed vars a u c : denotes vars a u ->
  evaluate vars (op_add_f a (Fin c : X)) = Ok (Fin (u + c) : X) /\
  evaluate vars (op_f_add (Fin c : X) a) = Ok (Fin (c + u) : X) /\
  evaluate vars (op_sub_f a (Fin c : X)) = Ok (Fin (u - c) : X) /\
  evaluate vars (op_f_sub (Fin c : X) a) = Ok (Fin (c - u) : X) /\
  evaluate vars (op_mul_f a (Fin c : X)) = Ok (Fin (u * c) : X) /\
  evaluate vars (op_f_mul (Fin c : X) a) = Ok (Fin (c * u) : X) /\
  (c <> 0 -> evaluate vars (op_div_f a (Fin c : X)) = Ok (Fin (u / c) : X)) /\
  (u <> 0 -> evaluate vars (op_f_div (Fin c : X) a) = Ok (Fin (c / u) : X)).
Proof.
  intros A. repeat split; intros; apply evaluate_denotes.
  - apply d_add; auto; constructor. - apply d_add; auto; constructor.
  - apply d_sub; auto; constructor. - apply d_sub; auto; constructor.
  - apply d_mul; auto; constructor. - apply d_mul; auto; constructor.
  - apply d_div; auto; constructor. - apply d_div; auto; constructor.
Qed.
Lemma sugar_functions vars a u : denotes vars a u ->
  (0 < u -> evaluate vars (m_natural_log a) = Ok (Fin (ln u) : X)) /\
  evaluate vars (m_exponential a) = Ok (Fin (exp u) : X) /\
  (0 <= u -> evaluate vars (m_square_root a) = Ok (Fin (sqrt u) : X)) /\
  evaluate vars (m_sin a) = Ok (Fin (sin u) : X) /\
  evaluate vars (m_cos a) = Ok (Fin (cos u) : X) /\
  evaluate vars (m_square a) = Ok (Fin (u ^ 2) : X) /\
  evaluate vars (m_cube a) = Ok (Fin (u ^ 3) : X) /\
  evaluate vars (m_abs a) = Ok (Fin (Rabs u) : X).
Proof.
  intros A. repeat split; intros; apply evaluate_denotes.
  - apply d_ln; auto. - apply d_exp; auto. - apply d_sqrt; auto. - apply d_sin; auto. - apply d_cos; auto.
  - eapply d_val; [apply d_mul; eauto|cbn; lra].
  - eapply d_val; [apply d_mul; [apply d_mul|]; eauto|cbn; lra].
  - eapply d_val; [apply d_sqrt; [apply d_mul; eauto|apply Rle_0_sqr]|apply sqrt_Rsqr_abs].
Qed.
End Sugar.
(** 2^600 squared overflows. *)
Definition big600 : f64 := S754_finite false (2 ^ 52) 548.
Lemma abs_overflow (L : libm) :
  evaluate [] (m_abs (Const (big600 : F64 L))) = Ok (npinf : F64 L) /\
  nabs (big600 : F64 L) = big600 /\ neqb (big600 : F64 L) npinf = false.
Proof. repeat split; vm_compute; reflexivity. Qed.
Lemma sugar_from (N : Num) (vars : env N) (v : N) (z : Z) (x : string) :
  evaluate vars (from_f64 v) = Ok v /\ evaluate vars (from_i32 z) = Ok (nint z) /\
  evaluate vars (from_str x) = match get vars x with Some w => Ok w | None => Err (UndefinedVariable x) end.
Proof. repeat split. Qed.
