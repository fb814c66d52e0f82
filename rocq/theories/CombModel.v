(** Model of measures-combinators: derived measures, products, mixtures,
    pushforwards and the linear transform.

    [u64] is [nat] (no upper bound), [F::from(k)] of an unsigned integer is
    [nofn].  A panic is [None].  Left out: the text of panic messages, Debug and
    Clone, the profiling variants of the methods (same bodies), [MixtureMeasure]
    and [product_measure!] macros (they expand to the constructors below). *)
From Coq Require Import ZArith Bool List Arith.
From Verif Require Import Num CoreModel.
Import ListNotations.
Local Open Scope list_scope.

Section Derived.
Context {N : Num} {X : Type}.

(** measures/derived/weighted.rs:51-79 (in_support, root_measure, log_density_wrt_root).
    The struct holds the base measure and the log-weight (8 bytes for f64). *)
Definition weighted (m : Measure N X) (log_weight : N) : Measure N X :=
  {| m_self := {| b_support := b_support m;
                  b_ld := fun x => nadd log_weight (b_ld m x);
                  b_expfam := false; b_size := b_size m + 8 |};
     m_root := m_root m |}.

(** measures/derived/integral.rs:58-87.  [fsize] is the size of the closure. *)
Definition integral (m : Measure N X) (f : X -> N) (fsize : nat) : Measure N X :=
  {| m_self := {| b_support := b_support m;
                  b_ld := fun x => nadd (f x) (b_ld m x);
                  b_expfam := false; b_size := b_size m + fsize |};
     m_root := m_root m |}.

(** measures/derived/dirac.rs:21-31 (in_support); no log-density is implemented.
    [eqb] is the point type's [PartialEq]. *)
Definition dirac_in_support (eqb : X -> X -> bool) (point x : X) : bool := eqb x point.
End Derived.

(** * Products: measures/combinators/product.rs *)
Section Product.
Context {N : Num} {X1 X2 : Type}.

(** product.rs:35-65. *)
Definition product_base (a : Base N X1) (b : Base N X2) : Base N (X1 * X2) :=
  {| b_support := fun x => b_support a (fst x) && b_support b (snd x);
     b_ld := fun x => nadd (b_ld a (fst x)) (b_ld b (snd x));
     b_expfam := false; b_size := b_size a + b_size b |}.

(** product.rs:42-50 (root_measure) and 68-79 (product). *)
Definition product (m1 : Measure N X1) (m2 : Measure N X2) : Measure N (X1 * X2) :=
  {| m_self := product_base m1 m2; m_root := product_base (m_root m1) (m_root m2) |}.
End Product.

(** * Mixtures: measures/combinators/superposition.rs *)
Section Mixture.
Context {N : Num} {X : Type}.

(** superposition.rs:18-27; the fields are public. *)
Record Mixture := mkMixture { components : list (Measure N X); weights : list N }.

(** 1e-10 *)
Definition tolerance : N := ndec 1 10000000000.

(** superposition.rs:39-56 (new). *)
Definition mixture_new (cs : list (Measure N X)) (ws : list N) : option Mixture :=
  if Nat.eqb (length cs) (length ws) then
    let weight_sum := fold_left nadd ws n0 in
    if nltb (nabs (nsub weight_sum n1)) tolerance
    then Some {| components := cs; weights := ws |} else None
  else None.

(** superposition.rs:60-65 (uniform). *)
Definition mixture_uniform (cs : list (Measure N X)) : option Mixture :=
  let n := length cs in
  let weight := ndiv n1 (nofn n) in
  mixture_new cs (repeat weight n).

(** superposition.rs:87-93 (in_support). *)
Definition mixture_in_support (m : Mixture) (x : X) : bool :=
  existsb (fun cw => nltb n0 (snd cw) && b_support (m_self (fst cw)) x)
          (combine (components m) (weights m)).

(** superposition.rs:95-98 (root_measure): indexing an empty vector panics. *)
Definition mixture_root (m : Mixture) : option (Base N X) :=
  match components m with [] => None | c :: _ => Some (m_root c) end.

(** [x.is_infinite() && x < 0] of superposition.rs:144. *)
Definition is_neg_inf (a : N) : bool := neqb a nninf.

(** superposition.rs:132-155 (log_sum_exp). *)
Definition log_sum_exp (l : list N) : N :=
  match l with
  | [] => nninf
  | _ =>
    let max_val := fold_left (fun acc x => if nltb acc x then x else acc) l nninf in
    if is_neg_inf max_val then nninf
    else let sum_exp := fold_left nadd (map (fun x => nexp (nsub x max_val)) l) n0 in
         nadd max_val (nln sum_exp)
  end.

(** superposition.rs:107-128 (log_density_wrt_root). *)
Definition mixture_ld (m : Mixture) (x : X) : N :=
  match components m with
  | [] => nninf
  | _ => log_sum_exp (map (fun cw => nadd (nln (snd cw)) (b_ld (m_self (fst cw)) x))
                          (combine (components m) (weights m)))
  end.

(** superposition.rs:160-169 (MixtureExt::mixture) and 172-174 (uniform_mixture). *)
Definition mixture2 (a b : Measure N X) (w1 w2 : N) : option Mixture :=
  let total := nadd w1 w2 in
  mixture_new [a; b] [ndiv w1 total; ndiv w2 total].
Definition uniform_mixture2 (a b : Measure N X) : option Mixture := mixture_uniform [a; b].
End Mixture.
Arguments Mixture : clear implicits.

(** * Pushforwards: measures/combinators/pushforward.rs *)
Section Push.
Context {N : Num}.

(** The triple of closures (forward, inverse, log_abs_det_jacobian). *)
Record Transform := mkTransform { forward : N -> N; inverse : N -> N; log_jac : N -> N }.

(** pushforward.rs:55-91 (in_support, log_density_wrt_root); the root is Lebesgue. *)
Definition push_support (m : Base N N) (t : Transform) (y : N) : bool :=
  b_support m (inverse t y).
Definition push_ld (m : Base N N) (t : Transform) (y : N) : N :=
  nadd (b_ld m (inverse t y)) (log_jac t y).

(** pushforward.rs:119-129 (log_transform). *)
Definition log_transform : Transform :=
  {| forward := fun x => nln x; inverse := fun y => nexp y; log_jac := fun y => y |}.
(** pushforward.rs:132-142 (exp_transform). *)
Definition exp_transform : Transform :=
  {| forward := fun x => nexp x; inverse := fun y => nln y; log_jac := fun y => nneg (nln y) |}.
(** pushforward.rs:145-158 (linear_transform). *)
Definition linear_transform (a b : N) : Transform :=
  {| forward := fun x => nadd (nmul a x) b;
     inverse := fun y => ndiv (nsub y b) a;
     log_jac := fun _ => nneg (nln (nabs a)) |}.
(** pushforward.rs:161-179 (logit_transform). *)
Definition logit_transform : Transform :=
  {| forward := fun x => nln (ndiv x (nsub n1 x));
     inverse := fun y => let e := nexp y in ndiv e (nadd n1 e);
     log_jac := fun y => let e := nexp (nneg y) in
                nsub (nsub (nneg y) (nln (nadd n1 e))) (nln (nadd n1 e)) |}.
End Push.
Arguments Transform : clear implicits.

(** * Linear transform: measures/combinators/transform.rs.
    The scalar type is an autodiff scalar; only its arithmetic is used.
    [conv] is the conversion [T::from(x as f32)] applied to every entry. *)
Section Linear.
Context {N : Num} (conv : N -> N).

(** transform.rs:30-41. *)
Record Linear := mkLinear {
  l_matrix : list N; l_offset : list N; l_in : nat; l_out : nat; l_log_abs_det : N }.

(** transform.rs:47-58 (new). *)
Definition linear_new (matrix offset : list N) (input_dim output_dim : nat) : option Linear :=
  if Nat.eqb (length matrix) (input_dim * output_dim) then
    if Nat.eqb (length offset) output_dim then
      Some {| l_matrix := map conv matrix; l_offset := map conv offset; l_in := input_dim;
              l_out := output_dim; l_log_abs_det := n1 |}
    else None
  else None.

(** transform.rs:63-78 (transform): the two index loops. *)
Definition linear_transform_vec (t : Linear) (input : list N) : option (list N) :=
  if Nat.eqb (length input) (l_in t) then
    Some (map (fun i =>
            fold_left (fun sum j => nadd sum (nmul (nth (i * l_in t + j) (l_matrix t) n0)
                                                   (nth j input n0)))
                      (seq 0 (l_in t)) (nth i (l_offset t) n0))
          (seq 0 (l_out t)))
  else None.

(** transform.rs:88-91 (log_abs_det_jacobian); converted like the entries. *)
Definition linear_log_det (t : Linear) : N := conv (nln (nabs (l_log_abs_det t))).

(** transform.rs:110-116, 124-127, 137-141 (ComponentwiseTransform). *)
Definition componentwise (f : N -> N) (dim : nat) (input : list N) : option (list N) :=
  if Nat.eqb (length input) dim then Some (map f input) else None.
Definition componentwise_log_det : N := n0.
End Linear.
Arguments Linear : clear implicits.

(** * Combinatorial base measures *)
Section Combinatorial.
Context {N : Num}.

(** derived/factorial.rs:70-92 (LOG_FACTORIAL_TABLE), as decimal literals;
    LN_2 is 0.693147180559945309417232121458. *)
Definition log_factorial_table : list N :=
  [ n0; n0;
    ndec 693147180559945309417232121458 1000000000000000000000000000000;
    ndec 1791759469228055 1000000000000000;
    ndec 31780538303479458 10000000000000000;
    ndec 4787491742782046 1000000000000000;
    ndec 6579251212010101 1000000000000000;
    ndec 8525161361065415 1000000000000000;
    ndec 1060460290274525 100000000000000;
    ndec 1280182748008147 100000000000000;
    ndec 15104412573075518 1000000000000000;
    ndec 17502307845873887 1000000000000000;
    ndec 1998721449566189 100000000000000;
    ndec 22552163853123425 1000000000000000;
    ndec 25191221182738683 1000000000000000;
    ndec 27899271383840894 1000000000000000;
    ndec 30671860106080675 1000000000000000;
    ndec 3350507345013689 100000000000000;
    ndec 3639544520803305 100000000000000;
    ndec 39339884187199495 1000000000000000;
    ndec 42335616460753485 1000000000000000 ].

(** derived/factorial.rs:121-146 (stirling_log_factorial_precise).  The literals
    [1.0 / 12.0] etc. are divisions in f64. *)
Definition stirling (k : nat) : N :=
  if Nat.leb k 1 then n0 else
  let k_f := nofn k in
  let two_pi := nmul n2 npi in
  let base := nadd (nsub (nmul k_f (nln k_f)) k_f) (nmul nhalf (nln (nmul two_pi k_f))) in
  let k_inv := ndiv n1 k_f in
  let k_inv2 := nmul k_inv k_inv in
  let k_inv3 := nmul k_inv2 k_inv in
  let k_inv5 := nmul k_inv3 k_inv2 in
  let k_inv7 := nmul k_inv5 k_inv2 in
  let correction :=
    nsub (nadd (nsub (nmul k_inv (ndiv n1 (nint 12)))
                     (nmul k_inv3 (ndiv n1 (nint 360))))
               (nmul k_inv5 (ndiv n1 (nint 1260))))
         (nmul k_inv7 (ndiv n1 (nint 1680))) in
  nadd base correction.

(** derived/factorial.rs:103-111 (log_factorial). *)
Definition log_factorial (k : nat) : N :=
  if Nat.leb k 20 then nth k log_factorial_table n0 else stirling k.

(** derived/factorial.rs:40-50, 163-169. *)
Definition factorial_measure : Base N nat :=
  {| b_support := fun _ => true; b_ld := fun k => nneg (log_factorial k);
     b_expfam := false; b_size := 0 |}.

(** derived/binomial_coefficient.rs:61-80 (log_binomial_coefficient). *)
Definition log_binomial_coefficient (n k : nat) : N :=
  if Nat.ltb n k then nninf else
  nsub (nsub (nlgamma (nadd (nofn n) n1)) (nlgamma (nadd (nofn k) n1)))
       (nlgamma (nadd (nsub (nofn n) (nofn k)) n1)).

(** derived/binomial_coefficient.rs:41-51, 103-113. *)
Definition binomial_measure (n : nat) : Base N nat :=
  {| b_support := fun x => Nat.leb x n && true;
     b_ld := fun k => if Nat.ltb n k then nninf else log_binomial_coefficient n k;
     b_expfam := false; b_size := 8 |}.

(** derived/negative_binomial_coefficient.rs:60-75. *)
Definition log_negative_binomial_coefficient (r x : nat) : N :=
  nsub (nsub (nlgamma (nadd (nofn x) (nofn r))) (nlgamma (nadd (nofn x) n1)))
       (nlgamma (nofn r)).

(** derived/negative_binomial_coefficient.rs:41-52, 93-98. *)
Definition negative_binomial_measure (r : nat) : Base N nat :=
  {| b_support := fun _ => true; b_ld := log_negative_binomial_coefficient r;
     b_expfam := false; b_size := 8 |}.
End Combinatorial.
