(** Calls, the Bayesian optimizer, and agreement with the evaluator. *)
From Coq Require Import ZArith Bool String List Lia.
From Coq Require Import Floats.SpecFloat.
From Verif Require Import Num ExprModel ExprSpec ConvModel JitModel JitSpec JitProofs.
Import ListNotations.

(** * Calls *)
Section Calls.
Context (f : jit_fn) (nd np : nat) (e : expr f64) (bind : list f64 -> string -> option f64).
Hypothesis code : code_of f (nd + np) e bind.
Hypothesis sig : fn_sig f = choose_signature nd np.

Lemma single_call v : call_single f v =
  if Nat.eqb nd 1 && Nat.eqb np 0 then evaluates (total (bind [v])) e else Panicked.
Proof.
  destruct code as [_ C]. unfold call_single. rewrite sig.
  destruct nd as [|[|nd']], np as [|[|np']]; try reflexivity.
  cbn [Nat.eqb andb choose_signature]. apply (C [v]). reflexivity.
Qed.

Lemma data_param_call v t : call_data_param f v t =
  if Nat.eqb nd 1 && Nat.eqb np 1 then evaluates (total (bind [v; t])) e else Panicked.
Proof.
  destruct code as [_ C]. unfold call_data_param. rewrite sig.
  destruct nd as [|[|nd']], np as [|[|np']]; try reflexivity.
  cbn [Nat.eqb andb choose_signature]. apply (C [v; t]). reflexivity.
Qed.

Lemma data_params_call v ts : call_data_params f v ts =
  if Nat.eqb nd 1 && (Nat.eqb np 2 || Nat.eqb np 3) && Nat.eqb (List.length ts) np
  then evaluates (total (bind (v :: ts))) e else Panicked.
Proof.
  destruct code as [_ C]. unfold call_data_params. rewrite sig.
  destruct nd as [|[|nd']], np as [|[|[|[|np']]]]; try reflexivity; cbn [choose_signature];
    destruct ts as [|a [|b [|c [|d ts]]]]; try reflexivity; cbn [List.length Nat.eqb andb orb].
  - apply (C [v; a; b]). reflexivity.
  - apply (C [v; a; b; c]). reflexivity.
  - destruct (Nat.eqb (List.length ts) np'); reflexivity.
Qed.

Lemma batch_call ds ps : call_batch f ds ps =
  if negb (Nat.eqb nd 1) && Nat.eqb (List.length ds) nd && Nat.eqb (List.length ps) np
  then LayoutMismatch else Panicked.
Proof.
  unfold call_batch. rewrite sig.
  destruct nd as [|[|nd']], np as [|[|np']]; try reflexivity; cbn [choose_signature];
    destruct (Nat.eqb (List.length ds) _); try reflexivity;
    destruct (Nat.eqb (List.length ps) _); reflexivity.
Qed.
End Calls.

Lemma evaluates_not_bad rho e : evaluates rho e <> BadCode /\ evaluates rho e <> LayoutMismatch /\
  evaluates rho e <> Panicked.
Proof. unfold evaluates. destruct (jit_value rho e); repeat split; discriminate. Qed.

(** * Bindings *)
Lemma get_none {T} (m : env T) x : ~ In x (map fst m) -> get m x = None.
Proof.
  intros H. destruct (get m x) eqn:E; [|reflexivity]. exfalso. apply H, get_known. congruence.
Qed.

Lemma map_fst_combine {T} (a : list string) : forall c : list T, List.length a = List.length c ->
  map fst (combine a c) = a.
Proof.
  induction a as [|h a IH]; intros [|k c] L; try discriminate; [reflexivity|].
  cbn. f_equal. apply IH. cbn in L. lia.
Qed.

Lemma lookup_nth {T} (names : list string) : forall (args : list T) i x v, NoDup names ->
  List.length names = List.length args -> nth_error names i = Some x -> nth_error args i = Some v ->
  lookup_last (combine names args) x = Some v.
Proof.
  induction names as [|k names IH]; intros [|a args] i x v ND L N A; try discriminate; [destruct i; discriminate|].
  inversion ND as [|? ? NI ND']; subst. cbn [combine]. rewrite lookup_cons. cbn in L.
  destruct i as [|i]; cbn [nth_error] in N, A.
  - injection N as ->. injection A as ->.
    destruct (lookup_last (combine names args) x) eqn:E.
    + exfalso. apply NI. apply lookup_val in E. apply in_combine_l in E. exact E.
    + rewrite String.eqb_refl. reflexivity.
  - rewrite (IH args i x v); [reflexivity | exact ND' | lia | exact N | exact A].
Qed.

Lemma expression_slot ds ps cs (args : list f64) i x v : NoDup (ds ++ ps) ->
  List.length args = List.length (ds ++ ps) ->
  nth_error (ds ++ ps) i = Some x -> nth_error args i = Some v ->
  expression_binding ds ps cs args x = Some v.
Proof.
  intros ND L N A. unfold expression_binding.
  rewrite (lookup_nth (ds ++ ps) args i x v ND (eq_sym L) N A). reflexivity.
Qed.

Lemma expression_const ds ps cs (args : list f64) x : ~ In x (ds ++ ps) ->
  expression_binding ds ps cs args x = get cs x.
Proof.
  intros H. unfold expression_binding.
  destruct (lookup_last (combine (ds ++ ps) args) x) eqn:E; [|reflexivity].
  exfalso. apply H. apply lookup_val in E. apply in_combine_l in E. exact E.
Qed.

Lemma tagless_slot ds ps cs (args : list f64) i x v : NoDup (ds ++ ps) ->
  List.length args = List.length (ds ++ ps) -> ~ In x (map fst cs) ->
  nth_error (ds ++ ps) i = Some x -> nth_error args i = Some v ->
  tagless_binding ds ps cs args x = Some v.
Proof.
  intros ND L NI N A. unfold tagless_binding. rewrite lookup_app.
  destruct (lookup_last cs x) eqn:E.
  - exfalso. apply NI. apply lookup_in. congruence.
  - apply (lookup_nth (ds ++ ps) args i x v ND (eq_sym L) N A).
Qed.

Lemma lookup_get {T} (cs : env T) x : wf_env cs -> lookup_last cs x = get cs x.
Proof.
  unfold wf_env. induction cs as [|[k v] cs IH]; intros ND; [reflexivity|].
  inversion ND as [|? ? NI ND']; subst. rewrite lookup_cons, IH by exact ND'. cbn [get].
  destruct (String.eqb_spec x k) as [->|N].
  - rewrite get_none by exact NI. reflexivity.
  - destruct (get cs x); reflexivity.
Qed.

Lemma tagless_const ds ps cs (args : list f64) x : wf_env cs -> In x (map fst cs) ->
  tagless_binding ds ps cs args x = get cs x.
Proof.
  intros W H. unfold tagless_binding. rewrite lookup_app, lookup_get by exact W.
  destruct (get cs x) eqn:E; [reflexivity|]. apply get_known in H. contradiction.
Qed.

(** * Agreement with the evaluators on exactly rounded operations *)
Lemma exact_single L x v e : exact_ops e -> forall w,
  @evaluate_single_var (F64 L) x v e = Ok w -> jit_value (fun _ => v) e = Some w.
Proof.
  induction e; intros H w E; try (destruct H; fail); cbn [evaluate_single_var jit_value] in *; cbv zeta;
    unfold ExprModel.bind in E; try (destruct H as [H1 H2]).
  - injection E as <-. reflexivity.
  - destruct (String.eqb x0 x); [|discriminate]. injection E as <-. reflexivity.
  - destruct (@evaluate_single_var (F64 L) x v e1) as [a|] eqn:E1; [|discriminate].
    destruct (@evaluate_single_var (F64 L) x v e2) as [b|] eqn:E2; [|discriminate].
    rewrite (IHe1 H1 a eq_refl), (IHe2 H2 b eq_refl). injection E as <-. reflexivity.
  - destruct (@evaluate_single_var (F64 L) x v e1) as [a|] eqn:E1; [|discriminate].
    destruct (@evaluate_single_var (F64 L) x v e2) as [b|] eqn:E2; [|discriminate].
    rewrite (IHe1 H1 a eq_refl), (IHe2 H2 b eq_refl). injection E as <-. reflexivity.
  - destruct (@evaluate_single_var (F64 L) x v e1) as [a|] eqn:E1; [|discriminate].
    destruct (@evaluate_single_var (F64 L) x v e2) as [b|] eqn:E2; [|discriminate].
    rewrite (IHe1 H1 a eq_refl), (IHe2 H2 b eq_refl). injection E as <-. reflexivity.
  - destruct (@evaluate_single_var (F64 L) x v e2) as [b|] eqn:E2; [|discriminate].
    destruct (neqb b n0); [discriminate|].
    destruct (@evaluate_single_var (F64 L) x v e1) as [a|] eqn:E1; [|discriminate].
    rewrite (IHe1 H1 a eq_refl), (IHe2 H2 b eq_refl). injection E as <-. reflexivity.
  - destruct (@evaluate_single_var (F64 L) x v e) as [a|] eqn:E1; [|discriminate].
    rewrite (IHe H a eq_refl). destruct (nltb a n0); [discriminate|]. injection E as <-. reflexivity.
  - destruct (@evaluate_single_var (F64 L) x v e) as [a|] eqn:E1; [|discriminate].
    rewrite (IHe H a eq_refl). injection E as <-. reflexivity.
Qed.

Lemma exact_multi L (vars : env f64) e : exact_ops e -> no_unit_literals e -> forall w,
  @evaluate (F64 L) vars e = Ok w -> jit_value (total (get vars)) e = Some w.
Proof.
  assert (Z0 : @n0 (F64 L) = S754_zero false) by reflexivity.
  assert (O1 : @n1 (F64 L) = f64_of_Z 1) by reflexivity.
  assert (LZ : forall l c, (forall a, l = Const a -> SFeqb a c = false) -> @is_lit (F64 L) c l = false).
  { intros l c H. destruct l; try reflexivity. cbn. apply H. reflexivity. }
  induction e; intros H U w E; try (destruct H; fail); cbn [evaluate jit_value] in *; cbv zeta;
    unfold ExprModel.bind in E; try (destruct H as [H1 H2]).
  - injection E as <-. reflexivity.
  - unfold total. change (@get (F64 L) vars x) with (@get f64 vars x) in E.
    destruct (get vars x); [|discriminate]. injection E as <-. reflexivity.
  - destruct U as (U & U1 & U2).
    assert (K : ExprModel.bind (@evaluate (F64 L) vars e1) (fun a =>
                ExprModel.bind (@evaluate (F64 L) vars e2) (fun b => Ok (@nadd (F64 L) a b))) = Ok w).
    { rewrite Z0, (LZ e1), (LZ e2) in E by (intros a ->; apply U; auto).
      destruct e1; try exact E; destruct e2; exact E. }
    unfold ExprModel.bind in K.
    destruct (@evaluate (F64 L) vars e1) as [a|] eqn:E1; [|discriminate].
    destruct (@evaluate (F64 L) vars e2) as [b|] eqn:E2; [|discriminate].
    rewrite (IHe1 H1 U1 a eq_refl), (IHe2 H2 U2 b eq_refl). injection K as <-. reflexivity.
  - destruct U as (U1 & U2).
    destruct (@evaluate (F64 L) vars e1) as [a|] eqn:E1; [|discriminate].
    destruct (@evaluate (F64 L) vars e2) as [b|] eqn:E2; [|discriminate].
    rewrite (IHe1 H1 U1 a eq_refl), (IHe2 H2 U2 b eq_refl). injection E as <-. reflexivity.
  - destruct U as (U & U1 & U2).
    assert (K : ExprModel.bind (@evaluate (F64 L) vars e1) (fun a =>
                ExprModel.bind (@evaluate (F64 L) vars e2) (fun b => Ok (@nmul (F64 L) a b))) = Ok w).
    { rewrite Z0, O1, !(LZ e1), !(LZ e2) in E by (intros a ->; apply U; auto).
      cbn [orb] in E.
      destruct e1; try exact E; destruct e2; exact E. }
    unfold ExprModel.bind in K.
    destruct (@evaluate (F64 L) vars e1) as [a|] eqn:E1; [|discriminate].
    destruct (@evaluate (F64 L) vars e2) as [b|] eqn:E2; [|discriminate].
    rewrite (IHe1 H1 U1 a eq_refl), (IHe2 H2 U2 b eq_refl). injection K as <-. reflexivity.
  - destruct U as (U1 & U2). destruct (@evaluate (F64 L) vars e2) as [b|] eqn:E2; [|discriminate].
    destruct (neqb b n0); [discriminate|].
    destruct (@evaluate (F64 L) vars e1) as [a|] eqn:E1; [|discriminate].
    rewrite (IHe1 H1 U1 a eq_refl), (IHe2 H2 U2 b eq_refl). injection E as <-. reflexivity.
  - destruct (@evaluate (F64 L) vars e) as [a|] eqn:E1; [|discriminate].
    rewrite (IHe H U a eq_refl). destruct (nltb a n0); [discriminate|]. injection E as <-. reflexivity.
  - destruct (@evaluate (F64 L) vars e) as [a|] eqn:E1; [|discriminate].
    rewrite (IHe H U a eq_refl). injection E as <-. reflexivity.
Qed.

(** * The Bayesian optimizer *)
Definition kind_fn (k : kind) (o : optimizer) : option jit_fn :=
  match k with Posterior => posterior_fn o | Likelihood => likelihood_fn o | Prior => prior_fn o end.

Lemma apply_other k o op : op_shape k op = None -> kind_fn k (apply_op o op) = kind_fn k o.
Proof.
  destruct k, op; cbn [op_shape]; try discriminate; intros _; cbn [apply_op];
    unfold compile_posterior_jit, compile_likelihood_jit, compile_prior_jit;
    destruct (compile_expression _ _ _ _); reflexivity.
Qed.

Lemma apply_same k o op e ds ps cs : op_shape k op = Some (e, ds, ps, cs) ->
  kind_fn k (apply_op o op) =
  match compile_expression e ds ps cs with JOk f => Some f | JErr _ => kind_fn k o end.
Proof.
  destruct k, op; cbn [op_shape]; try discriminate; intros [= -> -> -> ->] || intros [= -> <- -> ->]; cbn [apply_op];
    unfold compile_posterior_jit, compile_likelihood_jit, compile_prior_jit;
    destruct (compile_expression _ _ _ _); reflexivity.
Qed.

Lemma after_snoc h op : after (h ++ [op]) = apply_op (after h) op.
Proof. unfold after. rewrite fold_left_app. reflexivity. Qed.

Lemma compiled_closed e ds ps cs : (exists f, compile_expression e ds ps cs = JOk f) <-> closed_over e ds ps cs.
Proof. apply expression_ok. Qed.

(** The stored function is that of the last successful compilation. *)
Lemma stored k h : match kind_fn k (after h) with
  | None => forall nd np, ~ last_compiled k h nd np
  | Some f => exists nd np e ds ps cs, last_compiled k h nd np /\
      compile_expression e ds ps cs = JOk f /\ nd = List.length ds /\ np = List.length ps
  end.
Proof.
  induction h as [|op h IH] using rev_ind.
  - assert (E : kind_fn k (after []) = None) by (destruct k; reflexivity).
    rewrite E. intros nd np C. inversion C; destruct h; discriminate.
  - rewrite after_snoc. destruct (op_shape k op) as [[[[e ds] ps] cs]|] eqn:E.
    + rewrite (apply_same _ _ _ _ _ _ _ E).
      destruct (compile_expression e ds ps cs) as [f|err] eqn:F.
      * exists (List.length ds), (List.length ps), e, ds, ps, cs. repeat split; [|exact F].
        eapply lc_here; [exact E | apply compiled_closed; eauto].
      * assert (NC : ~ closed_over e ds ps cs).
        { intros C. apply compiled_closed in C. destruct C as [f C]. congruence. }
        destruct (kind_fn k (after h)) as [f|].
        -- destruct IH as (nd & np & e' & ds' & ps' & cs' & A & B). exists nd, np, e', ds', ps', cs'.
           split; [|exact B]. apply lc_skip; [exact A|]. intros. congruence.
        -- intros nd np C. inversion C as [h' op' e' ds' ps' cs' S CL HE|h' op' nd' np' LC NO HE];
             apply app_inj_tail in HE; destruct HE as [-> ->].
           ++ rewrite E in S. injection S as -> -> -> ->. apply NC, CL.
           ++ apply (IH _ _ LC).
    + rewrite (apply_other _ _ _ E). destruct (kind_fn k (after h)) as [f|].
      * destruct IH as (nd & np & e' & ds' & ps' & cs' & A & B). exists nd, np, e', ds', ps', cs'.
        split; [|exact B]. apply lc_skip; [exact A|]. intros. congruence.
      * intros nd np C. inversion C as [h' op' e' ds' ps' cs' S CL HE|h' op' nd' np' LC NO HE];
             apply app_inj_tail in HE; destruct HE as [-> ->]; [congruence|]. apply (IH _ _ LC).
Qed.

Lemma last_compiled_fun k h nd np : last_compiled k h nd np -> forall nd' np', last_compiled k h nd' np' ->
  nd = nd' /\ np = np'.
Proof.
  induction 1 as [h op e ds ps cs E CL|h op nd np LC IH NO]; intros nd' np' C;
    inversion C as [h' op' e' ds' ps' cs' S CL' HE|h' op' nd'' np'' LC' NO' HE];
    apply app_inj_tail in HE; destruct HE as [-> ->].
  - rewrite E in S. injection S as -> -> -> ->. split; reflexivity.
  - exfalso. eapply NO'; eassumption.
  - exfalso. eapply NO; eassumption.
  - apply IH, LC'.
Qed.

Lemma evaluate_kind_fn k o data params : evaluate_kind k o data params =
  match kind_fn k o with
  | Some f => Some (call_batch f (match k with Prior => [] | _ => data end) params)
  | None => None end.
Proof. destruct k; reflexivity. Qed.

Lemma optimizer_none k h data params :
  (forall nd np, ~ last_compiled k h nd np) <-> evaluate_kind k (after h) data params = None.
Proof.
  rewrite evaluate_kind_fn. pose proof (stored k h) as S. destruct (kind_fn k (after h)) as [f|].
  - split; [|discriminate]. destruct S as (nd & np & _ & _ & _ & _ & A & _). intros H. destruct (H _ _ A).
  - split; [reflexivity | intros _; exact S].
Qed.

Lemma optimizer_some k h nd np data params : last_compiled k h nd np ->
  evaluate_kind k (after h) data params =
  Some (if negb (Nat.eqb nd 1) &&
           Nat.eqb (List.length (match k with Prior => [] | _ => data end)) nd &&
           Nat.eqb (List.length params) np
        then LayoutMismatch else Panicked).
Proof.
  intros LC. rewrite evaluate_kind_fn. pose proof (stored k h) as S.
  destruct (kind_fn k (after h)) as [f|]; [|destruct (S _ _ LC)].
  destruct S as (nd' & np' & e & ds & ps & cs & A & B & -> & ->).
  destruct (last_compiled_fun _ _ _ _ LC _ _ A) as [-> ->].
  destruct (expression_code _ _ _ _ _ B) as [C Sg].
  f_equal. eapply batch_call; [exact C | exact Sg].
Qed.

Lemma failed_compile k o op e ds ps cs : op_shape k op = Some (e, ds, ps, cs) ->
  ~ closed_over e ds ps cs -> apply_op o op = o.
Proof.
  intros E N.
  assert (F : exists err, compile_expression e ds ps cs = JErr err).
  { destruct (compile_expression e ds ps cs) as [f|err] eqn:F; [|eauto].
    exfalso. apply N. apply compiled_closed. eauto. }
  destruct F as [err F].
  destruct k, op; cbn [op_shape] in E; try discriminate; injection E as E1 E2 E3 E4; subst; cbn [apply_op];
    unfold compile_posterior_jit, compile_likelihood_jit, compile_prior_jit; rewrite F; reflexivity.
Qed.

(** * Operands are defined before use *)
Section Scope.
Context (n : nat).

Definition scoped (b : builder) : Prop :=
  defined_before_use n (body b) /\ nvals b = (n + List.length (body b))%nat.

Definition keeps (b : builder) (m : gen nat) : Prop :=
  forall v b', scoped b -> m b = JOk (v, b') -> scoped b' /\ (v < nvals b')%nat /\ (nvals b <= nvals b')%nat.

Lemma keeps_bind b m k : keeps b m ->
  (forall v b', scoped b' -> (v < nvals b')%nat -> (nvals b <= nvals b')%nat -> keeps b' (k v)) ->
  keeps b (gbind m k).
Proof.
  intros Hm Hk w b2 S E. unfold gbind in E. destruct (m b) as [[v b1]|] eqn:F; [|discriminate].
  destruct (Hm v b1 S F) as (S1 & V1 & L1).
  destruct (Hk v b1 S1 V1 L1 w b2 S1 E) as (S2 & V2 & L2). repeat split; try apply S2; try exact V2. lia.
Qed.

Lemma keeps_ins b i : (forall a, In a (operands i) -> (a < nvals b)%nat) -> keeps b (ins i).
Proof.
  intros H v b' [S N] E. injection E as <- <-. unfold scoped. cbn [body nvals defined_before_use List.length].
  rewrite <- N. repeat split; [exact H | exact S | lia | lia | lia].
Qed.

Lemma keeps_ret b v : (v < nvals b)%nat -> keeps b (gret v).
Proof. intros H w b' S E. injection E as <- <-. repeat split; [apply S | apply S | exact H | lia]. Qed.

Ltac keep :=
  repeat match goal with
  | |- keeps _ (gbind _ _) => apply keeps_bind; [|intros ? ? ? ? ?]
  | |- keeps _ (ins _) => apply keeps_ins; cbn [operands]; intros ? HI; cbn [In] in HI;
      repeat match type of HI with _ \/ _ => destruct HI as [<-|HI] end; try contradiction; lia
  | |- keeps _ (gret _) => apply keeps_ret; lia
  end.

Lemma keeps_ln b v : (v < nvals b)%nat -> keeps b (generate_accurate_ln_call v).
Proof. intros H. unfold generate_accurate_ln_call. keep. Qed.
Lemma keeps_exp b v : (v < nvals b)%nat -> keeps b (generate_exp_call v).
Proof. intros H. unfold generate_exp_call. cbv zeta. keep. Qed.
Lemma keeps_sin b v : (v < nvals b)%nat -> keeps b (generate_sin_call v).
Proof. intros H. unfold generate_sin_call. cbv zeta. keep. Qed.
Lemma keeps_cos b v : (v < nvals b)%nat -> keeps b (generate_cos_call v).
Proof. intros H. unfold generate_cos_call. cbv zeta. keep. Qed.
Lemma keeps_powf b u v : (u < nvals b)%nat -> (v < nvals b)%nat -> keeps b (generate_pow_call u v).
Proof.
  intros H K. unfold generate_pow_call. apply keeps_bind; [apply keeps_ln, H|]. intros ? ? ? ? ?.
  apply keeps_bind; [keep|]. intros ? ? ? ? ?. apply keeps_exp. assumption.
Qed.

Local Opaque generate_accurate_ln_call generate_exp_call generate_sin_call generate_cos_call generate_pow_call.

Lemma keeps_clif vm cs e : forall b, (forall x id, get vm x = Some id -> (id < nvals b)%nat) ->
  keeps b (generate_clif vm cs e).
Proof.
  assert (W : forall (b b' : builder) , (forall x id, get vm x = Some id -> (id < nvals b)%nat) ->
    (nvals b <= nvals b')%nat -> forall x id, get vm x = Some id -> (id < nvals b')%nat).
  { intros b b' H L x id E. specialize (H x id E). lia. }
  induction e; intros b H; cbn [generate_clif]; cbv zeta;
    try solve [apply keeps_bind; [apply IHe1, H|]; intros ? ? ? ? ?;
               apply keeps_bind; [apply IHe2; eapply W; eassumption|]; intros ? ? ? ? ?; keep];
    try solve [apply keeps_bind; [apply IHe, H|]; intros ? ? ? ? ?;
               first [apply keeps_ln; assumption | apply keeps_exp; assumption | apply keeps_sin; assumption
                     | apply keeps_cos; assumption | unfold generate_sqrt_call; keep]].
  - keep.
  - destruct (get vm x) eqn:E; [apply keeps_ret; eapply H, E|].
    destruct (get cs x); [keep|]. intros v b' _ C. discriminate.
  - apply keeps_bind; [apply IHe1, H|]. intros u b1 S1 V1 L1. unfold generate_pow.
    repeat match goal with |- keeps _ (if ?c then _ else _) => destruct c; [keep|] end.
    apply keeps_bind; [apply IHe2; eapply W; eassumption|]. intros v b2 S2 V2 L2.
    apply keeps_powf; [lia | assumption].
Qed.
End Scope.

Lemma scoped_start n : scoped n (mkB n []).
Proof. split; [exact Logic.I | cbn; lia]. Qed.

Lemma expression_well_formed e ds ps cs f : compile_expression e ds ps cs = JOk f -> well_formed f.
Proof.
  unfold compile_expression. set (vm := map_slots ps _ _). intros H.
  destruct (generate_clif vm cs e _) as [[r b]|err] eqn:E; [|discriminate]. injection H as <-.
  assert (P : forall x id, get vm x = Some id -> (id < List.length ds + List.length ps)%nat).
  { intros x id V. unfold vm in V. rewrite slots_get in V. apply lookup_val, in_combine_r, in_seq in V.
    rewrite app_length in V. lia. }
  destruct (keeps_clif (List.length ds + List.length ps) vm cs e (mkB (List.length ds + List.length ps) []) P r b (scoped_start _) E) as ([A B] & C & _).
  unfold well_formed. cbn [fn_params fn_body fn_result]. split; [exact A|]. rewrite <- B. exact C.
Qed.

Lemma custom_well_formed s f : compile_custom_expression s = JOk f -> well_formed f.
Proof.
  unfold compile_custom_expression. set (vm := match cd_variables s with [] => [] | _ => _ end). intros H.
  destruct (generate_clif vm _ _ _) as [[r b]|err] eqn:E; [|discriminate]. injection H as <-.
  assert (P : forall x id, get vm x = Some id -> (id < 1)%nat).
  { intros x id V. unfold vm in V. destruct (cd_variables s); [discriminate|]. cbn in V.
    destruct (String.eqb x s0); [|discriminate]. injection V as <-. lia. }
  destruct (keeps_clif 1 vm (cd_parameters s) (cd_expression s) (mkB 1 []) P r b (scoped_start _) E) as ([A B] & C & _).
  unfold well_formed. cbn [fn_params fn_body fn_result]. split; [exact A|]. rewrite <- B. exact C.
Qed.

Lemma tagless_well_formed e ds ps cs f : compile_final_tagless e ds ps cs = JOk f -> well_formed f.
Proof.
  unfold compile_final_tagless. set (n := (List.length ds + List.length ps)%nat). intros H.
  destruct (add_constants_spec cs (map_slots ps (List.length ds) (map_slots ds 0 [])) (mkB n []))
    as (m' & b' & E & N & _ & M).
  assert (SC : scoped n b').
  { clear H M N. revert b' m' E. generalize (map_slots ps (List.length ds) (map_slots ds 0 [])).
    generalize (scoped_start n). generalize (mkB n []).
    induction cs as [|[k c] cs IH]; intros b S m b' m' E.
    - injection E as <- <-. exact S.
    - cbn [add_constants] in E. unfold gbind, ins in E.
      refine (IH _ _ _ _ _ E). destruct S as [S1 S2]. split; cbn [body nvals defined_before_use List.length operands].
      + split; [intros a []|exact S1].
      + lia. }
  unfold gbind in H. rewrite E, ir_clif in H.
  destruct (generate_clif m' [] e b') as [[r b]|[x|x]] eqn:F; cbn [relabel] in H; try discriminate.
  injection H as <-.
  assert (P : forall x id, get m' x = Some id -> (id < nvals b')%nat).
  { intros x id V. rewrite M in V. rewrite N. cbn [nvals] in *.
    destruct (lookup_last _ x) as [i|] eqn:Q.
    - injection V as <-. apply lookup_val, in_combine_r, in_seq in Q. lia.
    - rewrite slots_get in V. apply lookup_val, in_combine_r, in_seq in V. rewrite app_length in V. lia. }
  destruct (keeps_clif n m' [] e b' P r b SC F) as ([A B] & C & _).
  unfold well_formed. cbn [fn_params fn_body fn_result]. split; [exact A|]. rewrite <- B. exact C.
Qed.

(** * End to end *)
Lemma jit_value_ext r1 r2 e : (forall x, occurs x e -> r1 x = r2 x) -> jit_value r1 e = jit_value r2 e.
Proof.
  induction e; intros H; cbn [jit_value]; cbv zeta;
    try (rewrite IHe by (intros ? ?; apply H; constructor; assumption); reflexivity);
    try (rewrite IHe1, IHe2 by
      (intros ? ?; apply H; first [solve [constructor; assumption] | solve [apply o_add_r; assumption] | solve [apply o_sub_r; assumption]
        | solve [apply o_mul_r; assumption] | solve [apply o_div_r; assumption] | solve [apply o_pow_r; assumption]]); reflexivity);
    try reflexivity.
  f_equal. apply H. constructor.
Qed.

Lemma evaluates_ext r1 r2 e : (forall x, occurs x e -> r1 x = r2 x) -> evaluates r1 e = evaluates r2 e.
Proof. intros H. unfold evaluates. rewrite (jit_value_ext r1 r2) by exact H. reflexivity. Qed.

Lemma exact_single_call L x e v w f : compile_expression e [x] [] [] = JOk f -> exact_ops e ->
  @evaluate_single_var (F64 L) x v e = Ok w -> call_single f v = Returned w.
Proof.
  intros C X E. destruct (expression_code e [x] [] [] f C) as [A B].
  rewrite (single_call f 1 0 e _ A B). cbn [Nat.eqb andb].
  rewrite (evaluates_ext _ (fun _ => v)).
  - unfold evaluates. rewrite (exact_single L x v e X w E). reflexivity.
  - intros y O. assert (K : In y ([x] ++ []) \/ In y (map fst ([] : env f64))).
    { apply (proj1 (expression_ok e [x] [] []) (ex_intro _ f C) y O). }
    destruct K as [[<-|[]]|[]]. unfold total, expression_binding. cbn. rewrite String.eqb_refl. reflexivity.
Qed.

Lemma exact_call L (vars : env f64) e ds ps cs args w f : compile_expression e ds ps cs = JOk f ->
  List.length args = (List.length ds + List.length ps)%nat ->
  (forall x, occurs x e -> get vars x = expression_binding ds ps cs args x) ->
  exact_ops e -> no_unit_literals e -> @evaluate (F64 L) vars e = Ok w ->
  invoke f (map AFloat args) = Returned w.
Proof.
  intros C LA G X U E. destruct (expression_code e ds ps cs f C) as [[_ A] _].
  rewrite (A args LA). rewrite (evaluates_ext _ (total (get vars))).
  - unfold evaluates. rewrite (exact_multi L vars e X U w E). reflexivity.
  - intros y O. unfold total. rewrite (G y O). reflexivity.
Qed.
