(** Property C17: accuracy of the operators the JIT implements itself.
    [is_num v]: [v] is a finite binary64 number, [val v] the real number it
    stands for; [real_is rho e r]: the real value of [e] is [r]; [accurate rho e
    r d]: the exact value is [r] and the errors of the operations add up to at
    most [d] (AccSpec.v).  The exactly rounded operations are in PropsJit.v. *)
From Coq Require Import ZArith Reals Bool String List Lia Lra.
From Coq Require Import Floats.SpecFloat.
From Flocq Require Import Core.
From Verif Require Import Num ExprModel ExprSpec ConvModel JitModel JitSpec EggSpec FloatErr AccSpec AccProofs.
Import ListNotations.
Local Open Scope string_scope.
Local Open Scope R_scope.

(** The logarithm: absolute error 4e-12 for every positive normal operand. *)
Theorem C17_ln : forall e ds ps cs f g args v,
  compile_expression e ds ps cs = JOk g -> compile_expression (Ln e) ds ps cs = JOk f ->
  List.length args = (List.length ds + List.length ps)%nat -> invoke g (map AFloat args) = Returned v ->
  is_num v -> bpow radix2 (-1022) <= val v ->
  exists w, invoke f (map AFloat args) = Returned w /\ is_num w /\ Rabs (val w - ln (val v)) <= 4 / 10 ^ 12.
Proof. exact ln_call. Qed.
Print Assumptions C17_ln.
(** The exponential: relative error 3e-12 on [-708, 709]; it never traps there. *)
Theorem C17_exp : forall e ds ps cs f g args v,
  compile_expression e ds ps cs = JOk g -> compile_expression (Exp e) ds ps cs = JOk f ->
  List.length args = (List.length ds + List.length ps)%nat -> invoke g (map AFloat args) = Returned v ->
  is_num v -> -708 <= val v <= 709 ->
  exists w, invoke f (map AFloat args) = Returned w /\ is_num w /\ Rabs (val w - exp (val v)) <= 3 / 10 ^ 12 * exp (val v).
Proof. exact exp_call. Qed.
Print Assumptions C17_exp.
(** A power compiled through logarithm and exponential: the logarithm of the
    result is off by at most 4e-12 (1 + |exponent|). *)
Theorem C17_pow : forall b p ds ps cs f g h args v q,
  compile_expression b ds ps cs = JOk g -> compile_expression p ds ps cs = JOk h ->
  compile_expression (Pow b p) ds ps cs = JOk f -> power_code b p = Some (Exp (Mul p (Ln b))) ->
  List.length args = (List.length ds + List.length ps)%nat ->
  invoke g (map AFloat args) = Returned v -> invoke h (map AFloat args) = Returned q ->
  is_num v -> bpow radix2 (-1022) <= val v -> is_num q -> Rabs (val q) * (Rabs (ln (val v)) + 1 / 10 ^ 11) <= 707 ->
  exists w, invoke f (map AFloat args) = Returned w /\ is_num w /\
    let eps := 4 / 10 ^ 12 * (1 + Rabs (val q)) in
    Rpower (val v) (val q) * exp (- eps) <= val w <= Rpower (val v) (val q) * exp eps.
Proof. exact power_call. Qed.
Print Assumptions C17_pow.
(** Sine and cosine: the Taylor remainder plus the error of the coefficients. *)
Theorem C17_sin : forall e ds ps cs f g args v,
  compile_expression e ds ps cs = JOk g -> compile_expression (Sin e) ds ps cs = JOk f ->
  List.length args = (List.length ds + List.length ps)%nat -> invoke g (map AFloat args) = Returned v ->
  is_num v -> Rabs (val v) <= 4 ->
  exists w, invoke f (map AFloat args) = Returned w /\ is_num w /\
    Rabs (val w - sin (val v)) <= Rabs (val v) ^ 7 / 5040 + 34 / 10 ^ 13 * (Rabs (val v) ^ 3 + Rabs (val v) ^ 5) + / 10 ^ 13.
Proof. exact sin_call. Qed.
Print Assumptions C17_sin.
Theorem C17_cos : forall e ds ps cs f g args v,
  compile_expression e ds ps cs = JOk g -> compile_expression (Cos e) ds ps cs = JOk f ->
  List.length args = (List.length ds + List.length ps)%nat -> invoke g (map AFloat args) = Returned v ->
  is_num v -> Rabs (val v) <= 2 ->
  exists w, invoke f (map AFloat args) = Returned w /\ is_num w /\
    Rabs (val w - cos (val v)) <= Rabs (val v) ^ 6 / 720 + 34 / 10 ^ 13 * Rabs (val v) ^ 4 + / 10 ^ 14.
Proof. exact cos_call. Qed.
Print Assumptions C17_cos.

(** Whole expressions, of any size: the compiled call returns a finite number
    within the accumulated bound of the expression's real value. *)
Theorem C17_compiled_accuracy : forall e ds ps cs f args r d,
  compile_expression e ds ps cs = JOk f ->
  List.length args = (List.length ds + List.length ps)%nat ->
  accurate (total (expression_binding ds ps cs args)) e r d ->
  real_is (fun x => val (total (expression_binding ds ps cs args) x)) e r /\
  exists w, invoke f (map AFloat args) = Returned w /\ is_num w /\ Rabs (val w - r) <= d.
Proof. exact accurate_call. Qed.
Print Assumptions C17_compiled_accuracy.
Theorem C17_real_value_unique : forall rho e r s, real_is rho e r -> real_is rho e s -> r = s.
Proof. exact real_is_fun. Qed.
Print Assumptions C17_real_value_unique.

(** A normal log-density with location and scale as parameters: within 1e-10
    of the exact value for every point and location in [-100, 100] and scale in
    [1/2, 100]. *)
Theorem C17_normal_log_density : forall x mu sigma, is_num x -> is_num mu -> is_num sigma ->
  Rabs (val x) <= 100 -> Rabs (val mu) <= 100 -> / 2 <= val sigma <= 100 ->
  exists f w, compile_expression normal_log_density ["x"] ["mu"; "sigma"] [] = JOk f /\
    call_data_params f x [mu; sigma] = Returned w /\ is_num w /\
    let u := (val x - val mu) / val sigma in
    Rabs (val w - (- / 2 * (u * u) - ln (val sigma) - val (f64_lit 9189385332046727 10000000000000000))) <= / 10 ^ 10.
Proof.
  intros x mu sigma NX NM NS X M S.
  destruct (compile_expression normal_log_density ["x"] ["mu"; "sigma"] []) as [f|err] eqn:F; [|vm_compute in F; discriminate F].
  set (rho := total (expression_binding ["x"] ["mu"; "sigma"] [] [x; mu; sigma])).
  assert (A := normal_acc rho NX NM NS X M S).
  destruct (accurate_call _ _ _ _ _ [x; mu; sigma] _ _ F eq_refl A) as [_ (w & W & N & B)].
  exists f, w. split; [reflexivity|]. split; [|split; [exact N|exact B]].
  revert W. vm_compute in F. injection F as <-. intros W. exact W.
Qed.
Print Assumptions C17_normal_log_density.

(** * Where the emitted operators differ from the functions they stand for *)
Definition compiled_call (e : expr f64) (v : f64) (out : called) : Prop :=
  exists f, compile_expression e ["x"] [] [] = JOk f /\ call_single f v = out.
Ltac only_x := intros y Y; repeat match goal with H : occurs _ _ |- _ => inversion H; subst; clear H end; reflexivity.
Lemma call_ln v : compiled_call (Ln (Var "x")) v (Returned (jit_ln v)).
Proof. destruct (compile_x (Ln (Var "x"))) as (f & F & C); [only_x|]. exists f. split; [exact F|rewrite C; reflexivity]. Qed.
Lemma call_exp v : compiled_call (Exp (Var "x")) v (match jit_exp v with Some w => Returned w | None => Trapped end).
Proof. destruct (compile_x (Exp (Var "x"))) as (f & F & C); [only_x|]. exists f. split; [exact F|rewrite C; reflexivity]. Qed.
Lemma call_sin v : compiled_call (Sin (Var "x")) v (Returned (jit_sin v)).
Proof. destruct (compile_x (Sin (Var "x"))) as (f & F & C); [only_x|]. exists f. split; [exact F|rewrite C; reflexivity]. Qed.
Lemma call_cos v : compiled_call (Cos (Var "x")) v (Returned (jit_cos v)).
Proof. destruct (compile_x (Cos (Var "x"))) as (f & F & C); [only_x|]. exists f. split; [exact F|rewrite C; reflexivity]. Qed.
(** ln: zero, negative numbers, infinity and NaN give ordinary numbers. *)
Theorem C17_ln_domain_refuted :
  (exists w, compiled_call (Ln (Var "x")) (S754_zero false) (Returned w) /\ finite w) /\
  (exists w, compiled_call (Ln (Var "x")) (f64_of_Z (-2)) (Returned w) /\ finite w) /\
  (exists w, compiled_call (Ln (Var "x")) (S754_infinity false) (Returned w) /\ finite w) /\
  (exists w, compiled_call (Ln (Var "x")) S754_nan (Returned w) /\ finite w).
Proof. split; [|split; [|split]]; (eexists; split; [apply call_ln|vm_compute; reflexivity]). Qed.
Print Assumptions C17_ln_domain_refuted.
(** ln of the least positive number: -709.09 instead of -744.44. *)
Theorem C17_ln_subnormal_refuted : exists v w, is_num v /\ 0 < val v /\
  compiled_call (Ln (Var "x")) v (Returned w) /\ ln (val v) + 35 < val w.
Proof.
  exists (S754_finite false 1 (-1074)), (S754_finite true 6237217781087041 (-43)).
  split; [split; vm_compute; reflexivity|]. split; [rewrite JitBits.val_pos, Rmult_1_l; apply bpow_gt_0|].
  split.
  { replace (S754_finite true 6237217781087041 (-43)) with (jit_ln (S754_finite false 1 (-1074))) by (vm_compute; reflexivity). apply call_ln. }
  rewrite JitBits.val_pos, Rmult_1_l, JitAcc2.bpow2_exp, ln_exp. pose proof JitAcc.ln2_bounds as L.
  rewrite JitAcc.val_explicit. cbn [SpecFloat.cond_Zopp]. change (bpow radix2 (-43)) with (/ 8796093022208). rewrite ?opp_IZR. lra.
Qed.
Print Assumptions C17_ln_subnormal_refuted.
(** exp(0) is not 1. *)
Theorem C17_exp_zero_refuted : exists w, compiled_call (Exp (Var "x")) (S754_zero false) (Returned w) /\
  SFltb w (f64_of_Z 1) = true.
Proof.
  exists (S754_finite false 9007199254716472 (-53)). split; [|vm_compute; reflexivity]. pose proof (call_exp (S754_zero false)) as H.
  replace (jit_exp (S754_zero false)) with (Some (S754_finite false 9007199254716472 (-53))) in H by (vm_compute; reflexivity). exact H.
Qed.
Print Assumptions C17_exp_zero_refuted.
(** Below the underflow threshold the result is a huge negative number, above
    the overflow threshold it is a small negative one. *)
Theorem C17_exp_range_refuted :
  (exists w, compiled_call (Exp (Var "x")) (f64_of_Z (-750)) (Returned w) /\ finite w /\ SFltb w (f64_of_Z (- 10 ^ 290)) = true) /\
  (exists w, compiled_call (Exp (Var "x")) (f64_of_Z 1420) (Returned w) /\ finite w /\ SFltb w (f64_of_Z (-1)) = true /\
     SFltb (f64_of_Z (-2)) w = true).
Proof.
  split.
  - exists (S754_finite true 8875312452242926 913). split; [|split; vm_compute; reflexivity]. pose proof (call_exp (f64_of_Z (-750))) as H.
    replace (jit_exp (f64_of_Z (-750))) with (Some (S754_finite true 8875312452242926 913)) in H by (vm_compute; reflexivity). exact H.
  - exists (S754_finite true 6954933107573998 (-52)). split; [|repeat split; vm_compute; reflexivity]. pose proof (call_exp (f64_of_Z 1420)) as H.
    replace (jit_exp (f64_of_Z 1420)) with (Some (S754_finite true 6954933107573998 (-52))) in H by (vm_compute; reflexivity). exact H.
Qed.
Print Assumptions C17_exp_range_refuted.
(** Infinities, NaN and large arguments stop the process. *)
Theorem C17_exp_trap_refuted :
  compiled_call (Exp (Var "x")) (S754_infinity false) Trapped /\
  compiled_call (Exp (Var "x")) (S754_infinity true) Trapped /\
  compiled_call (Exp (Var "x")) S754_nan Trapped /\
  compiled_call (Exp (Var "x")) (f64_of_Z (2 ^ 40)) Trapped.
Proof.
  assert (T : forall v, jit_exp v = None -> compiled_call (Exp (Var "x")) v Trapped).
  { intros v E. pose proof (call_exp v) as H. rewrite E in H. exact H. }
  repeat split; apply T; vm_compute; reflexivity.
Qed.
Print Assumptions C17_exp_trap_refuted.
(** (-2)^5 is positive. *)
Theorem C17_pow_negative_base_refuted : exists w,
  compiled_call (Pow (Var "x") (Const (f64_of_Z 5))) (f64_of_Z (-2)) (Returned w) /\ SFltb (f64_of_Z 31) w = true.
Proof.
  exists (S754_finite false 4503599627440596 (-47)). split; [|vm_compute; reflexivity].
  destruct (compile_x (Pow (Var "x") (Const (f64_of_Z 5)))) as (f & F & C); [only_x|].
  exists f. split; [exact F|]. rewrite C. vm_compute. reflexivity.
Qed.
Print Assumptions C17_pow_negative_base_refuted.
(** No argument reduction: sin 10 > 676, cos 10 > 367. *)
Theorem C17_trig_range_refuted :
  (exists w, compiled_call (Sin (Var "x")) (f64_of_Z 10) (Returned w) /\ finite w /\ SFltb (f64_of_Z 676) w = true) /\
  (exists w, compiled_call (Cos (Var "x")) (f64_of_Z 10) (Returned w) /\ finite w /\ SFltb (f64_of_Z 367) w = true).
Proof.
  split; eexists; (split; [first [apply call_sin|apply call_cos]|]); split; vm_compute; reflexivity.
Qed.
Print Assumptions C17_trig_range_refuted.
