(** Properties C24, C25, C26, C27, C45, C46, C47: measures-core.
    [XR lg] is exact arithmetic with infinities and NaN, [F64 L] is binary64. *)
From Coq Require Import ZArith Reals Bool List Arith Lra Lia Sorting.Permutation.
From Coq Require Import Floats.SpecFloat.
From Flocq Require Import Core IEEE754.BinarySingleNaN.
From Verif Require Import Num XRFacts DensitySpec CoreModel CoreSpec CoreProofs ConvModel ConvProofs.
Import ListNotations.
Local Open Scope R_scope.
Local Open Scope list_scope.

(** * C24: algebra of log-densities.  [off_measure lay <> off_base lay] says the
    two struct fields have different addresses; C25 is about that. *)

(** Every dispatch case is the difference of the root densities. *)
Theorem C24_wrt_is_the_difference :
  forall (N : Num) T lay (m : Measure N T) (b : Base N T) x,
  off_measure lay <> off_base lay ->
  at_ lay (wrt (log_density m) b) x = nsub (b_ld m x) (b_ld b x).
Proof. intros N T lay m b x H. exact (at_differs lay _ x H). Qed.
Print Assumptions C24_wrt_is_the_difference.

(** log_density() alone is the density with respect to the root. *)
Theorem C24_default_base_is_the_root :
  forall lg T lay (m : Base (XR lg) T) x, off_measure lay <> off_base lay ->
  at_ lay (log_density {| m_self := m; m_root := primitive |}) x = b_ld m x.
Proof. exact @at_root. Qed.
Print Assumptions C24_default_base_is_the_root.

(** The counting and Lebesgue measures are their own root, contain every point,
    and have log-density zero wherever the compiler places the two fields. *)
Theorem C24_primitive : forall lg T lay x,
  at_ lay (log_density (@primitive_measure (XR lg) T)) x = Fin 0 /\
  b_support (m_self (@primitive_measure (XR lg) T)) x = true /\ b_support (m_root (@primitive_measure (XR lg) T)) x = true.
Proof.
  intros lg T lay x. split; [|split; reflexivity]. destruct (Nat.eq_dec (off_measure lay) (off_base lay)) as [E|E].
  - rewrite (at_same lay _ x E). apply x_n0.
  - rewrite (at_differs lay _ x E). cbn [primitive_measure primitive log_density ld_measure ld_base b_ld m_self m_root wrt]. rewrite x_n0. cbn. f_equal. ring.
Qed.
Print Assumptions C24_primitive.

(** Read as densities: the relative density is the quotient of the densities,
    wherever the base has positive density. *)
Theorem C24_relative_density_is_the_quotient :
  forall lg T lay (l : LogDensity (XR lg) T) x, off_measure lay <> off_base lay ->
  is_logdens (b_ld (ld_measure l) x) -> 0 < dens (b_ld (ld_base l) x) ->
  is_logdens (at_ lay l x) /\
  dens (at_ lay l x) = dens (b_ld (ld_measure l) x) / dens (b_ld (ld_base l) x).
Proof. exact @ratio. Qed.
Print Assumptions C24_relative_density_is_the_quotient.

Theorem C24_antisymmetric :
  forall lg T lay lay' (m b : Base (XR lg) T) x a c,
  off_measure lay <> off_base lay -> off_measure lay' <> off_base lay' ->
  b_ld m x = Fin a -> b_ld b x = Fin c ->
  at_ lay {| ld_measure := m; ld_base := b |} x =
  (nneg (at_ lay' {| ld_measure := b; ld_base := m |} x) : XR lg).
Proof. exact @antisym. Qed.
Print Assumptions C24_antisymmetric.

(** In binary64 too, rounding included. *)
Theorem C24_antisymmetric_in_binary64 :
  forall (L : libm) T lay lay' (m b : Base (F64 L) T) x,
  off_measure lay <> off_base lay -> off_measure lay' <> off_base lay' ->
  at_ lay {| ld_measure := m; ld_base := b |} x <> S754_nan ->
  SFeqb (at_ lay {| ld_measure := m; ld_base := b |} x)
        (SFopp (at_ lay' {| ld_measure := b; ld_base := m |} x)) = true.
Proof. exact antisym_f64. Qed.
Print Assumptions C24_antisymmetric_in_binary64.

Theorem C24_chain_rule :
  forall lg T l1 l2 l3 (m1 m2 m3 : Base (XR lg) T) x a2 a3,
  off_measure l1 <> off_base l1 -> off_measure l2 <> off_base l2 -> off_measure l3 <> off_base l3 ->
  b_ld m2 x = Fin a2 -> b_ld m3 x = Fin a3 ->
  (nadd (at_ l1 {| ld_measure := m1; ld_base := m2 |} x)
        (at_ l2 {| ld_measure := m2; ld_base := m3 |} x) : XR lg)
  = at_ l3 {| ld_measure := m1; ld_base := m3 |} x.
Proof. exact @chain. Qed.
Print Assumptions C24_chain_rule.

(** A measure with respect to itself, whatever the layout. *)
Theorem C24_self_is_zero :
  forall lg T lay (m : Base (XR lg) T) x a, b_ld m x = Fin a ->
  at_ lay {| ld_measure := m; ld_base := m |} x = Fin 0.
Proof. exact @self. Qed.
Print Assumptions C24_self_is_zero.

Theorem C24_self_is_zero_in_binary64 :
  forall (L : libm) T lay (m : Base (F64 L) T) x,
  b_ld m x <> S754_nan -> (forall s, b_ld m x <> S754_infinity s) ->
  at_ lay {| ld_measure := m; ld_base := m |} x = S754_zero false.
Proof. exact self_f64. Qed.
Print Assumptions C24_self_is_zero_in_binary64.

(** Outside both supports the answer is NaN, also for a measure against itself
    (unless the shortcut is taken). *)
Theorem C24_outside_both_supports_is_nan_refuted :
  forall lg T lay (l : LogDensity (XR lg) T) x, off_measure lay <> off_base lay ->
  b_ld (ld_measure l) x = NInf -> b_ld (ld_base l) x = NInf -> at_ lay l x = XNaN.
Proof. exact @both_outside. Qed.
Print Assumptions C24_outside_both_supports_is_nan_refuted.

Theorem C24_batch_is_pointwise :
  forall (N : Num) T (m : Base N T) xs i x, nth_error xs i = Some x ->
  nth_error (log_density_batch m xs) i = Some (log_density_at m x) /\
  length (log_density_batch m xs) = length xs.
Proof.
  intros N T m xs i x H. split; [|apply map_length].
  exact (map_nth_error (b_ld m) i xs H).
Qed.
Print Assumptions C24_batch_is_pointwise.

(** Two unit-variance bells (sizes 16 as for two f64 fields). *)
Definition bell (lg : R -> R) (mu : R) (ef : bool) : Base (XR lg) R :=
  @mkBase (XR lg) R (fun _ => true) (fun x => Fin (- ((x - mu) * (x - mu)) / 2)) ef 16.
Definition lay16 := {| off_measure := 0; off_base := 16 |}.
Example C24_example : forall lg,
  at_ lay16 {| ld_measure := bell lg 1 true; ld_base := bell lg 0 false |} 3 = Fin (5 / 2) /\
  legal_layout 16 16 lay16.
Proof.
  intros lg. split; [|left; cbn; lia]. rewrite at_differs by (cbn; lia).
  cbn. f_equal. lra.
Qed.

(** * C25: the pointer comparison *)

(** Fields of positive size never share an address, in any legal layout. *)
Theorem C25_sized_fields_never_take_the_shortcut :
  forall (N : Num) T lay (l : LogDensity N T) x,
  (0 < b_size (ld_measure l))%nat -> (0 < b_size (ld_base l))%nat ->
  legal_layout (b_size (ld_measure l)) (b_size (ld_base l)) lay ->
  at_ lay l x = nsub (b_ld (ld_measure l) x) (b_ld (ld_base l) x).
Proof. exact @at_sized. Qed.
Print Assumptions C25_sized_fields_never_take_the_shortcut.

(** So the shortcut never detects "same measure" unless a type is zero-sized. *)
Theorem C25_shortcut_needs_a_zero_sized_measure :
  forall s1 s2 lay, legal_layout s1 s2 lay -> off_measure lay = off_base lay ->
  s1 = 0%nat \/ s2 = 0%nat.
Proof. exact shortcut_needs_zero_size. Qed.
Print Assumptions C25_shortcut_needs_a_zero_sized_measure.

(** Against a zero-sized base (every Lebesgue or counting measure) there is a
    legal layout in which every log-density is reported as zero, and another in
    which it is right: the answer depends on the compiler's field placement. *)
Theorem C25_zero_sized_base_depends_on_layout_refuted :
  forall lg T (m : Base (XR lg) T), (0 < b_size m)%nat ->
  exists lay lay', legal_layout (b_size m) 0 lay /\ legal_layout (b_size m) 0 lay' /\
  forall x, at_ lay (log_density {| m_self := m; m_root := primitive |}) x = Fin 0 /\
            at_ lay' (log_density {| m_self := m; m_root := primitive |}) x = b_ld m x.
Proof.
  intros lg T m P. exists {| off_measure := 0; off_base := 0 |}, {| off_measure := 0; off_base := b_size m |}.
  split; [right; cbn; lia|]. split; [left; cbn; lia|]. intros x. split.
  - rewrite at_same by reflexivity. apply x_n0.
  - apply at_root. cbn. lia.
Qed.
Print Assumptions C25_zero_sized_base_depends_on_layout_refuted.

Example C25_example : forall lg, exists lay, legal_layout 16 0 lay /\
  at_ lay (log_density {| m_self := bell lg 0 true; m_root := primitive |}) 2 = Fin 0 /\
  b_ld (bell lg 0 true) 2 = Fin (-2).
Proof.
  intros lg. destruct (C25_zero_sized_base_depends_on_layout_refuted lg R (bell lg 0 true)) as (l & l' & A & _ & B);
    [cbn; lia|].
  exists l. split; [exact A|]. split; [exact (proj1 (B 2))|]. cbn. f_equal; lra.
Qed.

(** * C26: memoised log-densities.  [eqb] is the key type's Eq, an equivalence
    which the density respects; [evals] are the points where the density ran. *)
Theorem C26_memo_is_transparent :
  forall (T V : Type) (eqb : T -> T -> bool) (f : T -> V),
  (forall x y, eqb x y = true -> eqb y x = true) ->
  (forall x, eqb x x = true) ->
  (forall x y, eqb x y = true -> f x = f y) ->
  forall xs vs s, memo_run eqb f memo_new xs = (vs, s) ->
  vs = map f xs /\ ForallOrdPairs (fun x y => eqb x y = false) (evals s) /\
  (forall k, In k (evals s) -> In k xs) /\
  (forall x, In x xs -> exists k, In k (evals s) /\ eqb k x = true).
Proof. intros T V eqb f A B C xs vs s H. exact (memo_transparent eqb f B A C xs vs s H). Qed.
Print Assumptions C26_memo_is_transparent.

(** With Leibniz equality on keys: no point is evaluated twice, and exactly the
    points asked for are evaluated. *)
Theorem C26_memo_evaluates_each_point_once :
  forall (T V : Type) (eqb : T -> T -> bool) (f : T -> V),
  (forall x y, eqb x y = true <-> x = y) ->
  forall xs vs s, memo_run eqb f memo_new xs = (vs, s) ->
  vs = map f xs /\ NoDup (evals s) /\ (forall k, In k (evals s) <-> In k xs).
Proof.
  intros T V eqb f E xs vs s H.
  destruct (memo_transparent eqb f) with (xs := xs) (vs := vs) (s := s) as (A & B & C & D); auto.
  - intros x. apply E; reflexivity.
  - intros x y Q. apply E in Q. apply E; congruence.
  - intros x y Q. apply E in Q. congruence.
  - split; [exact A|]. split.
    + clear - B E. induction B as [|a l F _ IH]; constructor; [|exact IH].
      intros I. rewrite Forall_forall in F. specialize (F a I).
      assert (eqb a a = true) by (apply E; reflexivity). congruence.
    + intros k. split; [apply C|]. intros I. destruct (D k I) as (k' & I' & Q).
      apply E in Q. congruence.
Qed.
Print Assumptions C26_memo_evaluates_each_point_once.

(** An Eq that identifies points with different densities breaks transparency. *)
Theorem C26_sloppy_eq_breaks_the_memo_refuted :
  forall (T V : Type) (eqb : T -> T -> bool) (f : T -> V) x y, eqb x y = true -> f x <> f y ->
  exists vs s, memo_run eqb f memo_new [x; y] = (vs, s) /\ vs <> map f [x; y].
Proof.
  intros T V eqb f x y Q D. cbn. unfold memo_at; cbn. rewrite Q. do 2 eexists. split; [reflexivity|].
  cbn. congruence.
Qed.
Print Assumptions C26_sloppy_eq_breaks_the_memo_refuted.

Example C26_example :
  memo_run Nat.eqb (fun k => k * k)%nat memo_new [2; 3; 2; 2; 3; 5]%nat =
  ([4; 9; 4; 4; 9; 25]%nat, {| cache := [(5, 25); (3, 9); (2, 4)]%nat; evals := [5; 3; 2]%nat |}).
Proof. reflexivity. Qed.

(** * C27: decompositions *)
(** [evaluate] is the sum of what every builder call contributed. *)
Theorem C27_evaluate_is_the_sum_of_the_terms :
  forall lg X Theta (ts : list (term (XR lg) X Theta)) x th,
  d_evaluate (build ts) x th = xsum (map (term_value x th) ts).
Proof. exact @build_evaluate. Qed.
Print Assumptions C27_evaluate_is_the_sum_of_the_terms.

Theorem C27_insertion_order_is_irrelevant :
  forall lg X Theta (ts ts' : list (term (XR lg) X Theta)) x th, Permutation ts ts' ->
  d_evaluate (build ts) x th = d_evaluate (build ts') x th.
Proof. exact @build_perm. Qed.
Print Assumptions C27_insertion_order_is_irrelevant.

(** Infinite terms included. *)
Theorem C27_iid_is_the_sum_over_samples :
  forall lg X Theta (d : Decomp (XR lg) X Theta) xs th, xs <> [] ->
  d_evaluate_iid d xs th = xsum (map (fun x => d_evaluate d x th) xs).
Proof. exact @iid_sum. Qed.
Print Assumptions C27_iid_is_the_sum_over_samples.

Theorem C27_iid_of_no_samples_is_zero :
  forall lg X Theta (d : Decomp (XR lg) X Theta) th p c,
  evaluate_param_terms d th = Fin p -> constant_sum d = Fin c -> d_evaluate_iid d [] th = Fin 0.
Proof. exact @iid_empty. Qed.
Print Assumptions C27_iid_of_no_samples_is_zero.

(** An infinite parameter term makes the empty sum NaN. *)
Theorem C27_iid_of_no_samples_with_infinite_parameter_term_refuted :
  forall lg X Theta th,
  d_evaluate_iid (build [@TParam (XR lg) X Theta (fun _ => NInf)]) [] th = XNaN.
Proof.
  intros lg X Theta th. unfold d_evaluate_iid, build. cbn [fold_left d_add d_new param_terms data_terms mixed_terms constant_terms app map length].
  rewrite x_nofn, !fold_sum_xsum. cbn. unfold xscale. rewrite Req_b_refl. reflexivity.
Qed.
Print Assumptions C27_iid_of_no_samples_with_infinite_parameter_term_refuted.

(** The partial evaluators plus the mixed terms rebuild the whole, and each
    partial evaluator sums exactly its own kind of terms. *)
Theorem C27_partial_evaluators_rebuild_evaluate :
  forall lg X Theta (ts : list (term (XR lg) X Theta)) x th,
  let d := build ts in
  d_evaluate d x th =
    xsum [evaluate_data_terms d x; evaluate_param_terms d th; mixed_sum d x th; constant_sum d] /\
  evaluate_data_terms d x = xsum (map (data_part x) ts) /\
  evaluate_param_terms d th = xsum (map (param_part th) ts) /\
  mixed_sum d x th = xsum (map (mixed_part x th) ts) /\
  constant_sum d = xsum (map const_part ts).
Proof. exact @partials. Qed.
Print Assumptions C27_partial_evaluators_rebuild_evaluate.

Example C27_example : forall lg,
  let d : Decomp (XR lg) R R := build [@TConst (XR lg) R R (Fin 1); @TMixed (XR lg) R R (fun x t => Fin (x * t)); @TData (XR lg) R R (fun x => Fin x)] in
  d_evaluate_iid d [1; 2] 3 = Fin 14.
Proof.
  intros lg d. rewrite C27_iid_is_the_sum_over_samples by discriminate.
  cbn [map]. unfold d. rewrite !C27_evaluate_is_the_sum_of_the_terms. cbn. f_equal. lra.
Qed.

(** * C45: value_and_grad.  [A] is the AD number type, [to_constant] its value part. *)
Theorem C45_value_is_right :
  forall (A : Type) (to_constant : A -> R) (F : A -> A) (f : R -> R) x,
  to_constant (F x) = f (to_constant x) ->
  fst (value_and_grad to_constant F x) = f (to_constant x).
Proof. intros A tc F f x H. exact H. Qed.
Print Assumptions C45_value_is_right.

(** The second component is the derivative exactly where the function equals
    its own derivative. *)
Theorem C45_gradient_is_the_value_refuted :
  forall (A : Type) (to_constant : A -> R) (F : A -> A) (f : R -> R) x d,
  to_constant (F x) = f (to_constant x) -> derivable_pt_lim f (to_constant x) d ->
  (snd (value_and_grad to_constant F x) = d <-> f (to_constant x) = d).
Proof. intros A tc F f x d H _. cbn. unfold at_ad. rewrite H. reflexivity. Qed.
Print Assumptions C45_gradient_is_the_value_refuted.

(** f(x) = -x^2/2 at 2 with dual numbers: reported gradient -2, and at 4: -8
    instead of -4. *)
Example C45_example :
  let F (p : R * R) := (- (fst p * fst p) / 2, - fst p * snd p) in
  value_and_grad fst F (4, 1) = (-8, -8) /\ snd (at_ad F (4, 1)) = -4 /\
  derivable_pt_lim (fun x => - (x * x) / 2) 4 (-4).
Proof.
  cbn zeta. split; [unfold value_and_grad, at_ad; cbn; f_equal; lra|].
  split; [unfold at_ad; cbn; lra|]. exact halfsq_deriv.
Qed.

(** * C46: conversions.  Integers up to 2^53 survive; see the refuted theorem
    for larger ones. *)
Theorem C46_integers_up_to_2_53_survive :
  forall lo hi lo' hi' z fallback, (Z.abs z <= 2 ^ 53)%Z ->
  ((lo' <= z <= hi')%Z ->
     safe_convert (int_ty lo hi) (int_ty lo' hi') z = z /\
     safe_convert_or (int_ty lo hi) (int_ty lo' hi') z fallback = z) /\
  (~ (lo' <= z <= hi')%Z ->
     safe_convert (int_ty lo hi) (int_ty lo' hi') z = 0%Z /\
     safe_convert_or (int_ty lo hi) (int_ty lo' hi') z fallback = fallback).
Proof. exact int_to_int. Qed.
Print Assumptions C46_integers_up_to_2_53_survive.

Theorem C46_integer_to_float_is_exact_up_to_2_53 :
  forall lo hi z, (Z.abs z <= 2 ^ 53)%Z ->
  SF2R radix2 (safe_convert (int_ty lo hi) f64_ty z) = IZR z.
Proof. exact int_to_f64. Qed.
Print Assumptions C46_integer_to_float_is_exact_up_to_2_53.

(** f64 to f64 is the identity on every value, infinities and NaN included. *)
Theorem C46_f64_is_preserved :
  forall v fallback, safe_convert f64_ty f64_ty v = v /\ safe_convert_or f64_ty f64_ty v fallback = v /\
  safe_float_convert f64_ty f64_ty v = inl v /\
  forall one inf ninf nan, float_constant f64_ty one inf ninf nan v = v.
Proof. exact f64_to_f64. Qed.
Print Assumptions C46_f64_is_preserved.

(** Every f32 survives the trip through f64 and back. *)
Theorem C46_f32_is_preserved :
  forall x : binary_float 24 128,
  SF2R radix2 (safe_convert f32_ty f64_ty (B2SF x)) = B2R x /\
  safe_convert f32_ty f32_ty (B2SF x) = B2SF x.
Proof. exact f32_roundtrip. Qed.
Print Assumptions C46_f32_is_preserved.

(** f64 to an integer type: truncation, default outside the range. *)
Theorem C46_float_to_integer_truncates :
  forall lo hi (x : binary_float 53 1024) fallback,
  (is_finite x = false -> safe_convert f64_ty (int_ty lo hi) (B2SF x) = 0%Z /\
                          safe_convert_or f64_ty (int_ty lo hi) (B2SF x) fallback = fallback) /\
  (is_finite x = true -> (lo <= Ztrunc (B2R x) <= hi)%Z ->
     safe_convert f64_ty (int_ty lo hi) (B2SF x) = Ztrunc (B2R x)) /\
  (is_finite x = true -> ~ (lo <= Ztrunc (B2R x) <= hi)%Z ->
     safe_convert f64_ty (int_ty lo hi) (B2SF x) = 0%Z /\
     safe_convert_or f64_ty (int_ty lo hi) (B2SF x) fallback = fallback).
Proof. exact f64_to_int. Qed.
Print Assumptions C46_float_to_integer_truncates.

(** f64 to f32: the nearest f32, ties to even, or an infinity of the same sign
    when that would exceed the f32 range. *)
Theorem C46_f64_to_f32_rounds_to_nearest :
  forall x : binary_float 53 1024, is_finite x = true ->
  let r := round radix2 (FLT_exp (-149) 24) ZnearestE (B2R x) in
  (Rabs r < bpow radix2 128 ->
   exists y : binary_float 24 128, safe_convert f64_ty f32_ty (B2SF x) = B2SF y /\ is_finite y = true /\ B2R y = r /\ Bsign y = Bsign x) /\
  (bpow radix2 128 <= Rabs r -> safe_convert f64_ty f32_ty (B2SF x) = S754_infinity (Bsign x)).
Proof. exact f64_to_f32. Qed.
Print Assumptions C46_f64_to_f32_rounds_to_nearest.
(** 0.1 is not an f32; 2^200 is too large for one. *)
Example C46_f32_example :
  safe_convert f64_ty f32_ty (f64_dec 1 10) = S754_finite false 13421773 (-27) /\
  safe_convert f64_ty f32_ty (f64_of_Z (- 2 ^ 200)) = S754_infinity true.
Proof. split; vm_compute; reflexivity. Qed.

(** Every integer becomes the nearest f64, ties to even. *)
Theorem C46_integer_to_float_rounds_to_nearest :
  forall lo hi z, (Z.abs z <= 2 ^ 1000)%Z ->
  SF2R radix2 (safe_convert (int_ty lo hi) f64_ty z) = round radix2 (FLT_exp (-1074) 53) ZnearestE (IZR z).
Proof. exact int_to_f64_rounds. Qed.
Print Assumptions C46_integer_to_float_rounds_to_nearest.

(** A float type that cannot take a literal gets its own one, infinity or NaN
    for those, and zero for any other number. *)
Theorem C46_constant_fallbacks :
  forall (U : NumTy) one inf ninf nan (x : binary_float 53 1024), from_f64 U (B2SF x) = None ->
  let c := float_constant U one inf ninf nan (B2SF x) in
  (is_finite x = true -> B2R x = 1 -> c = one) /\
  (is_finite x = true -> B2R x <> 1 -> c = default U) /\
  (is_finite x = false -> is_nan x = false -> c = if Bsign x then ninf else inf) /\
  (is_nan x = true -> c = nan).
Proof. exact constant_fallback. Qed.
Print Assumptions C46_constant_fallbacks.
(** A type that takes no f64 at all meets the hypothesis. *)
Example C46_constant_example :
  let U := {| carrier := Z; to_f64 := fun _ => None; from_f64 := fun _ => None; default := 0%Z |} in
  map (float_constant U 1 2 3 4)%Z [f64_of_Z 1; f64_of_Z 7; S754_infinity true; S754_infinity false; S754_nan] = [1; 0; 3; 2; 4]%Z.
Proof. vm_compute. reflexivity. Qed.

(** The error tells which of the two steps failed. *)
Theorem C46_errors_name_the_failing_step :
  forall (S U : NumTy) (v : carrier S),
  (forall u, safe_float_convert S U v = inl u <-> exists w, to_f64 S v = Some w /\ from_f64 U w = Some u) /\
  (safe_float_convert S U v = inr FailIntermediate <-> to_f64 S v = None) /\
  (safe_float_convert S U v = inr FailTarget <-> exists w, to_f64 S v = Some w /\ from_f64 U w = None).
Proof. exact convert_result. Qed.
Print Assumptions C46_errors_name_the_failing_step.

(** 2^53+1 is a u64 but comes back as 2^53; u64::MAX comes back as 0. *)
Theorem C46_large_integers_are_changed_refuted :
  let u64 := int_ty 0 (2 ^ 64 - 1) in
  safe_convert u64 u64 (2 ^ 53 + 1)%Z = (2 ^ 53)%Z /\ safe_convert u64 u64 (2 ^ 64 - 1)%Z = 0%Z.
Proof. split; vm_compute; reflexivity. Qed.
Print Assumptions C46_large_integers_are_changed_refuted.

Example C46_example :
  safe_convert (int_ty (- 2 ^ 31) (2 ^ 31 - 1)) (int_ty 0 255) 200%Z = 200%Z /\
  safe_convert_or (int_ty (- 2 ^ 31) (2 ^ 31 - 1)) (int_ty 0 255) 300%Z 7%Z = 7%Z.
Proof. split; vm_compute; reflexivity. Qed.

(** * C47: dot products and sums of statistics *)
Theorem C47_dot_is_the_sum_of_products :
  forall lg a b, length a = length b ->
  dot_array (N := XR lg) (fins a) (fins b) = Fin (rdot a b) /\
  dot_vec (N := XR lg) (fins a) (fins b) = Fin (rdot a b).
Proof. intros lg a b _. split; [apply dot_array_fin | apply dot_vec_fin]. Qed.
Print Assumptions C47_dot_is_the_sum_of_products.

Theorem C47_dot_is_symmetric_and_linear :
  forall k a a' b, length a = length a' -> length a = length b ->
  rdot a b = rdot b a /\ rdot (vadd (vscale k a) a') b = k * rdot a b + rdot a' b.
Proof. intros k a a' b E _. split; [apply rdot_comm | apply rdot_linear; exact E]. Qed.
Print Assumptions C47_dot_is_symmetric_and_linear.

(** (eta1 - eta2).T = eta1.T - eta2.T with the library's own subtraction. *)
Theorem C47_dot_of_a_difference :
  forall lg a b t, length a = length b ->
  dot_array (N := XR lg) (array_sub (N := XR lg) (fins a) (fins b)) (fins t) =
  nsub (dot_array (N := XR lg) (fins a) (fins t)) (dot_array (N := XR lg) (fins b) (fins t)).
Proof.
  intros lg a b t E. rewrite (array_sub_fin lg) by exact E. rewrite !dot_array_fin.
  rewrite rdot_linear by (symmetry; exact E). cbn. f_equal. ring.
Qed.
Print Assumptions C47_dot_of_a_difference.

Theorem C47_sums_are_componentwise :
  forall lg n (rows : list (list R)), (forall r, In r rows -> length r = n) ->
  exists out, sum_sufficient_stats (N := XR lg) n (map fins rows) = fins out /\
    sum_arrays (N := XR lg) n (map fins rows) = fins out /\
    length out = n /\ forall i, nth i out 0 = column_sum i rows.
Proof. exact @sums_componentwise. Qed.
Print Assumptions C47_sums_are_componentwise.

(** Vectors of different lengths: the longer tail is ignored without an error. *)
Theorem C47_mismatched_lengths_are_truncated_refuted :
  forall lg a b extra, length a = length b ->
  dot_vec (N := XR lg) (fins (a ++ extra)) (fins b) = dot_vec (N := XR lg) (fins a) (fins b).
Proof.
  intros lg a b extra E. rewrite !dot_vec_fin. f_equal.
  rewrite <- (app_nil_r b) at 1. rewrite rdot_app by exact E. unfold rdot.
  destruct extra; cbn; lra.
Qed.
Print Assumptions C47_mismatched_lengths_are_truncated_refuted.

Example C47_example : forall lg,
  dot_vec (N := XR lg) (fins [1; 2; 3]) (fins [4; 5; 6]) = Fin 32 /\
  rdot [1; 2; 3] [4; 5; 6] = 32.
Proof. intros lg. rewrite dot_vec_fin. unfold rdot; cbn. split; [f_equal|]; lra. Qed.

(** C24, pairs over one root: the reported value is the log of the product of the two densities. *)
Theorem C24_shared_root_is_the_product : forall lg (T : Type) (m1 m2 : Base (XR lg) T) x,
  is_logdens (b_ld m1 x) -> is_logdens (b_ld m2 x) ->
  is_logdens (log_density_wrt_shared_root m1 m2 x) /\
  dens (log_density_wrt_shared_root m1 m2 x) = dens (b_ld m1 x) * dens (b_ld m2 x).
Proof.
  intros lg T m1 m2 x [[a A]|A] [[b B]|B]; unfold log_density_wrt_shared_root; rewrite A, B; cbn; split;
    try (left; eexists; reflexivity); try (right; reflexivity); try lra. apply exp_plus.
Qed.
Print Assumptions C24_shared_root_is_the_product.
Example C24_shared_root_case : is_logdens (Fin (ln 2)) /\ is_logdens NInf /\ dens (Fin (ln 2)) = 2.
Proof. split; [left; eauto|]. split; [right; reflexivity|]. cbn. apply exp_ln. lra. Qed.
