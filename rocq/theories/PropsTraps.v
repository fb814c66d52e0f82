(** Property C71: when compiled code stops the process, and what the emitted
    logarithm, exponential, power, sine and cosine return on the arguments
    C17 does not cover.  [gives ds ps cs args e out]: the code compiled for
    [e] with data variables [ds], parameters [ps] and constants [cs], called
    with [args], has the outcome [out]; [part_of a e]: [a] is a sub-expression
    of [e]; [expanded p]: [p] is one of the literal exponents 2, 3, 4, 0.5, 1
    and 0; [trap_above] and [trap_below]: 2^31 ln 2 and its opposite, up to a
    rounding (TrapSpec.v).  [is_num v]: [v] is a finite binary64 number. *)
From Coq Require Import ZArith Reals Bool String List Lia Lra.
From Coq Require Import Floats.SpecFloat.
From Flocq Require Import Core.
From Verif Require Import Num ExprModel ExprSpec ConvModel JitModel JitSpec EggSpec FloatErr JitAcc AccSpec TrapSpec JitTraps JitTraps2 JitTraps3 JitTraps4.
Import ListNotations.
Local Open Scope string_scope.
Local Open Scope R_scope.

Definition fits (ds ps : list string) (args : list f64) : Prop := List.length args = (List.length ds + List.length ps)%nat.

(** * Which calls trap *)
(** A call traps exactly when one of the exponentials or general powers in the
    expression traps at the values of its operands. *)
Theorem C71_traps_exactly : forall ds ps cs args e o, fits ds ps args -> gives ds ps cs args e o ->
  (o = Trapped <->
   (exists a v, part_of (Exp a) e /\ gives ds ps cs args a (Returned v) /\ gives ds ps cs args (Exp a) Trapped) \/
   (exists b p x y, part_of (Pow b p) e /\ expanded p = false /\ gives ds ps cs args b (Returned x) /\
      gives ds ps cs args p (Returned y) /\ gives ds ps cs args (Pow b p) Trapped)).
Proof. intros ds ps cs args e o L. apply (call_traps ds ps cs args L). Qed.
Print Assumptions C71_traps_exactly.
(** Without exponentials and general powers no call traps, whatever the
    arguments, infinities and NaN included. *)
Theorem C71_plain_never_traps : forall ds ps cs args e o, fits ds ps args -> no_exponential e -> gives ds ps cs args e o ->
  exists v, o = Returned v.
Proof. intros ds ps cs args e o L. apply (call_plain ds ps cs args L). Qed.
Print Assumptions C71_plain_never_traps.
(** The exponential traps exactly on NaN, infinities and arguments of
    magnitude about 1.49e9 and above. *)
Theorem C71_exp_traps_exactly : forall ds ps cs args e v, fits ds ps args -> SpecFloat.valid_binary 53 1024 v = true ->
  gives ds ps cs args e (Returned v) ->
  (gives ds ps cs args (Exp e) Trapped <-> ~ is_num v \/ trap_above <= val v \/ val v <= trap_below).
Proof. intros ds ps cs args e v L. apply (call_exp_traps ds ps cs args L). Qed.
Print Assumptions C71_exp_traps_exactly.
Example C71_thresholds : 1488522235 < trap_above < 1488522236 /\ -1488522236 < trap_below < -1488522235.
Proof. unfold trap_above, trap_below. lra. Qed.
(** A power with an exponent of magnitude at most two million never traps,
    whatever the base. *)
Theorem C71_pow_returns : forall ds ps cs args b p x y, fits ds ps args ->
  gives ds ps cs args b (Returned x) -> gives ds ps cs args p (Returned y) -> is_num y -> Rabs (val y) <= 2000000 ->
  exists w, gives ds ps cs args (Pow b p) (Returned w).
Proof.
  intros ds ps cs args b p x y L B P N Y. destruct (expanded p) eqn:S.
  - apply (pow_expanded ds ps cs args L b p x y B P S).
  - destruct (powf_never_traps x y N Y) as [w W]. exists w. apply (pow_out ds ps cs args L b p x y B P S). rewrite W. reflexivity.
Qed.
Print Assumptions C71_pow_returns.
(** A power with an infinite or NaN exponent always traps. *)
Theorem C71_pow_undefined_exponent_traps : forall ds ps cs args b p x y, fits ds ps args ->
  gives ds ps cs args b (Returned x) -> gives ds ps cs args p (Returned y) ->
  SpecFloat.valid_binary 53 1024 y = true -> ~ is_num y ->
  gives ds ps cs args (Pow b p) Trapped.
Proof.
  intros ds ps cs args b p x y L B P V N. destruct (expanded p) eqn:S.
  - destruct N. apply (expanded_num ds ps cs args L p y P S V).
  - apply (pow_out ds ps cs args L b p x y B P S). rewrite (powf_inf x y V N). reflexivity.
Qed.
Print Assumptions C71_pow_undefined_exponent_traps.

(** The shipped Gaussian expression never traps. *)
Lemma normal_plain : no_exponential normal_log_density.
Proof.
  intros a P. unfold normal_log_density in P.
  repeat match goal with H : part_of _ _ |- _ => inversion H; subst; clear H end; try exact I; vm_compute; reflexivity.
Qed.
Theorem C71_normal_never_traps : forall x mu sigma, exists v,
  gives ["x"] ["mu"; "sigma"] [] [x; mu; sigma] normal_log_density (Returned v).
Proof.
  intros x mu sigma.
  destruct (compile_expression normal_log_density ["x"] ["mu"; "sigma"] []) as [f|err] eqn:F; [|vm_compute in F; discriminate F].
  destruct (C71_plain_never_traps ["x"] ["mu"; "sigma"] [] [x; mu; sigma] normal_log_density _ eq_refl normal_plain
              (ex_intro _ f (conj F eq_refl))) as [v V].
  exists v, f. split; [exact F|exact V].
Qed.
Print Assumptions C71_normal_never_traps.

(** * The exponential outside the accurate range *)
(** The exponent field wraps: the result has period 4096 ln 2 in the argument.
    Within [-708, 709] of a multiple [j] of the period it is the exponential
    of the distance ... *)
Theorem C71_exp_wraps : forall ds ps cs args e v j, fits ds ps args -> gives ds ps cs args e (Returned v) -> is_num v ->
  trap_below < val v < trap_above -> 712 <= Rabs (val v) ->
  let d := val v - 4096 * IZR j * ln 2 in -708 <= d <= 709 ->
  exists w, gives ds ps cs args (Exp e) (Returned w) /\ is_num w /\ Rabs (val w - exp d) <= / 10 ^ 6 * exp d.
Proof.
  intros ds ps cs args e v j L H N T F d D. destruct (exp_periodic v j N T F D) as (w & W & NW & E).
  exists w. split; [|split; [exact NW|exact E]]. apply (exp_out ds ps cs args L e v H). rewrite W. reflexivity.
Qed.
Print Assumptions C71_exp_wraps.
(** ... and between, it is negative. *)
Theorem C71_exp_negative : forall ds ps cs args e v j, fits ds ps args -> gives ds ps cs args e (Returned v) -> is_num v ->
  trap_below < val v < trap_above -> 712 <= Rabs (val v) -> 712 <= val v - 4096 * IZR j * ln 2 <= 2128 ->
  exists w, gives ds ps cs args (Exp e) (Returned w) /\ is_num w /\ val w < 0.
Proof.
  intros ds ps cs args e v j L H N T F D. destruct (exp_negative v j N T F D) as (w & W & NW & E).
  exists w. split; [|split; [exact NW|exact E]]. apply (exp_out ds ps cs args L e v H). rewrite W. reflexivity.
Qed.
Print Assumptions C71_exp_negative.
(** In particular for every argument of magnitude between 712 and 2126. *)
Theorem C71_exp_out_of_range_negative : forall ds ps cs args e v, fits ds ps args -> gives ds ps cs args e (Returned v) -> is_num v ->
  712 <= Rabs (val v) <= 2126 ->
  exists w, gives ds ps cs args (Exp e) (Returned w) /\ is_num w /\ val w < 0.
Proof.
  intros ds ps cs args e v L H N R. pose proof ln2_bounds as L2.
  assert (T : trap_below < val v < trap_above).
  { destruct R as [_ R]. apply Rabs_le_inv in R. unfold trap_above, trap_below. lra. }
  destruct (Rle_or_lt 0 (val v)) as [P|P].
  - rewrite Rabs_pos_eq in R by exact P.
    apply (C71_exp_negative ds ps cs args e v 0 L H N T); [rewrite Rabs_pos_eq by exact P; lra|lra].
  - rewrite Rabs_left in R by exact P.
    apply (C71_exp_negative ds ps cs args e v (-1) L H N T); [rewrite Rabs_left by exact P; lra|lra].
Qed.
Print Assumptions C71_exp_out_of_range_negative.
(** The exponential of the number 2839, about 10^1233, comes out below 1. *)
Example C71_exp_2839 : exists w, gives ["x"] [] [] [f64_of_Z 2839] (Exp (Var "x")) (Returned w) /\ is_num w /\ 8 / 10 <= val w <= 9 / 10.
Proof.
  assert (H : gives ["x"] [] [] [f64_of_Z 2839] (Var "x") (Returned (f64_of_Z 2839))).
  { apply (closed_iff ["x"] [] [] [f64_of_Z 2839] eq_refl (Var "x")); [|reflexivity].
    intros x X. inversion X; subst. left. left. reflexivity. }
  assert (V : val (f64_of_Z 2839) = 2839).
  { replace (f64_of_Z 2839) with (S754_finite false 6243027022512128 (-41)) by (vm_compute; reflexivity).
    rewrite val_explicit. cbn [cond_Zopp]. change (bpow radix2 (-41)) with (/ 2199023255552). lra. }
  pose proof ln2_bounds as L2.
  destruct (C71_exp_wraps ["x"] [] [] [f64_of_Z 2839] (Var "x") (f64_of_Z 2839) 1 eq_refl H) as (w & W & N & E).
  - split; vm_compute; reflexivity.
  - rewrite V. unfold trap_above, trap_below. lra.
  - rewrite V, Rabs_pos_eq; lra.
  - rewrite V. lra.
  - exists w. split; [exact W|]. split; [exact N|]. rewrite V in E. set (d := 2839 - 4096 * 1 * ln 2) in *.
    assert (D : -13086 / 100000 <= d <= -13085 / 100000) by (unfold d; lra).
    pose proof (exp_ineq1_le d) as L1. pose proof (exp_ineq1_le (- d)) as U1. rewrite exp_Ropp in U1. pose proof (exp_pos d) as P.
    assert (U : exp d <= / (1 - d)).
    { rewrite <- (Rinv_inv (exp d)). apply Rinv_le_contravar; lra. }
    assert (/ (1 - d) <= 885 / 1000) by (replace (885 / 1000) with (/ (1000 / 885)) by field; apply Rinv_le_contravar; lra).
    apply Rabs_le_inv in E. lra.
Qed.

(** * The logarithm on every argument *)
(** The result is always a finite number of magnitude at most 711, also for
    zero, negative numbers, infinities and NaN. *)
Theorem C71_ln_always_finite : forall ds ps cs args e v, fits ds ps args -> gives ds ps cs args e (Returned v) ->
  exists w, gives ds ps cs args (Ln e) (Returned w) /\ is_num w /\ Rabs (val w) <= 711.
Proof.
  intros ds ps cs args e v L H. exists (jit_ln v). split; [apply (ln_out ds ps cs args L e v H); reflexivity|apply ln_range].
Qed.
Print Assumptions C71_ln_always_finite.
Lemma opp_not_one v : SFeqb v (f64_of_Z (-1)) = false -> SFeqb (SFopp v) c1 = false.
Proof.
  replace (f64_of_Z (-1)) with (SFopp c1) by (vm_compute; reflexivity). generalize c1. intros c.
  destruct v as [s|s| |s m x], c as [t|t| |t n y]; try (intros Q'; exact Q' || reflexivity);
    try (destruct s, t; intros Q'; exact Q' || reflexivity).
  unfold SFeqb. destruct s, t; cbn [SFopp SFcompare negb]; try (intros Q; reflexivity);
    destruct (Z.compare x y); cbn; try (intros Q; reflexivity); try (intros Q; exact Q);
    destruct (Pos.compare_cont Eq m n); cbn; intros Q; exact Q || reflexivity.
Qed.
(** The sign is ignored, except that ln 1 is exactly 0. *)
Theorem C71_ln_ignores_sign : forall ds ps cs args e v o, fits ds ps args -> gives ds ps cs args e (Returned v) ->
  SFeqb v (f64_of_Z 1) = false -> SFeqb v (f64_of_Z (-1)) = false ->
  gives ds ps cs args (Ln (Neg e)) o <-> gives ds ps cs args (Ln e) o.
Proof.
  intros ds ps cs args e v o L H Q Q'.
  assert (HN : gives ds ps cs args (Neg e) (Returned (SFopp v))).
  { pose proof (gives_closed ds ps cs args e _ H) as C.
    assert (CN : closed ds ps cs (Neg e)) by (intros x X; inversion X; subst; apply C; assumption).
    apply (closed_iff ds ps cs args L (Neg e) _ CN). unfold evaluates. cbn [jit_value].
    rewrite (gives_returned ds ps cs args L e v H). reflexivity. }
  rewrite (ln_out ds ps cs args L _ _ HN), (ln_out ds ps cs args L _ _ H). rewrite ln_sign; [reflexivity|exact Q|].
  apply opp_not_one, Q'.
Qed.
Print Assumptions C71_ln_ignores_sign.
(** Zero and every subnormal number give about -709. *)
Theorem C71_ln_subnormal : forall ds ps cs args e v, fits ds ps args -> gives ds ps cs args e (Returned v) ->
  is_num v -> Rabs (val v) < bpow radix2 (-1022) ->
  exists w, gives ds ps cs args (Ln e) (Returned w) /\ is_num w /\ -7091 / 10 <= val w <= -7083 / 10.
Proof.
  intros ds ps cs args e v L H N B. exists (jit_ln v). split; [apply (ln_out ds ps cs args L e v H); reflexivity|].
  split; [apply ln_range|apply ln_subnormal; assumption].
Qed.
Print Assumptions C71_ln_subnormal.

(** * Powers of negative numbers *)
(** A general power ignores the sign of its base. *)
Theorem C71_pow_ignores_sign : forall ds ps cs args b p x y o, fits ds ps args ->
  gives ds ps cs args b (Returned x) -> gives ds ps cs args p (Returned y) -> expanded p = false ->
  SFeqb x (f64_of_Z 1) = false -> SFeqb x (f64_of_Z (-1)) = false ->
  gives ds ps cs args (Pow (Neg b) p) o <-> gives ds ps cs args (Pow b p) o.
Proof.
  intros ds ps cs args b p x y o L B P S Q Q'.
  assert (BN : gives ds ps cs args (Neg b) (Returned (SFopp x))).
  { pose proof (gives_closed ds ps cs args b _ B) as C.
    assert (CN : closed ds ps cs (Neg b)) by (intros z X; inversion X; subst; apply C; assumption).
    apply (closed_iff ds ps cs args L (Neg b) _ CN). unfold evaluates. cbn [jit_value].
    rewrite (gives_returned ds ps cs args L b x B). reflexivity. }
  rewrite (pow_out ds ps cs args L _ p _ y BN P S), (pow_out ds ps cs args L _ p _ y B P S). rewrite powf_sign; [reflexivity|exact Q|].
  apply opp_not_one, Q'.
Qed.
Print Assumptions C71_pow_ignores_sign.

(** * Sine and cosine beyond 4 *)
(** From magnitude 4 on (up to 2^190) the results leave [-1, 1]. *)
Theorem C71_sin_leaves_range : forall ds ps cs args e v, fits ds ps args -> gives ds ps cs args e (Returned v) ->
  is_num v -> 4 <= Rabs (val v) <= 2 ^ 190 ->
  exists w, gives ds ps cs args (Sin e) (Returned w) /\ is_num w /\ 18 / 10 <= Rabs (val w).
Proof.
  intros ds ps cs args e v L H N [A B]. exists (jit_sin v). split; [apply (sin_out ds ps cs args L e v H); reflexivity|].
  apply sin_far; assumption.
Qed.
Print Assumptions C71_sin_leaves_range.
Theorem C71_cos_leaves_range : forall ds ps cs args e v, fits ds ps args -> gives ds ps cs args e (Returned v) ->
  is_num v -> 4 <= Rabs (val v) <= 2 ^ 190 ->
  exists w, gives ds ps cs args (Cos e) (Returned w) /\ is_num w /\ 36 / 10 <= Rabs (val w).
Proof.
  intros ds ps cs args e v L H N [A B]. exists (jit_cos v). split; [apply (cos_out ds ps cs args L e v H); reflexivity|].
  apply cos_far; assumption.
Qed.
Print Assumptions C71_cos_leaves_range.
