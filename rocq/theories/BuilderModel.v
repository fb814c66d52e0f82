(** Model of the expression builders: symbolic-math/src/lib.rs 218-283,
    symbolic-math/src/expr.rs 1150-1186 and
    measures-bayesian/src/bayesian/mod.rs 40-132.  Definitions only. *)
From Coq Require Import ZArith Bool String List.
From Verif Require Import Num ExprModel.
Import ListNotations.

Section Builders.
Context {N : Num}.
Notation expr := (expr N).

(** [2.0 * std::f64::consts::PI], computed when the expression is built. *)
Definition two_pi : N := nmul n2 npi.

(** lib.rs 222-235.  [-half * a / b] is [((-half) * a) / b]. *)
Definition normal_log_pdf (x mu sigma : expr) : expr :=
  let half := Const nhalf in
  let normalization := op_neg (op_add (op_mul half (Ln (Const two_pi))) (Ln sigma)) in
  let quadratic := op_div (op_mul (op_neg half) (Pow (op_sub x mu) (Const n2)))
                          (Pow sigma (Const n2)) in
  op_add normalization quadratic.

(** lib.rs 238-254.  [i as f64] is [nofn i]. *)
Fixpoint polynomial_from (x : expr) (i : nat) (acc : expr) (cs : list N) : expr :=
  match cs with
  | [] => acc
  | c :: cs' =>
      let term := match i with
                  | O => Const c
                  | S O => op_mul (Const c) x
                  | _ => op_mul (Const c) (Pow x (Const (nofn i)))
                  end in
      polynomial_from x (S i) (op_add acc term) cs'
  end.
Definition polynomial (x : expr) (cs : list N) : expr := polynomial_from x 0 (Const n0) cs.

(** lib.rs 257-270 *)
Definition gaussian_kernel (x mu sigma : expr) : expr :=
  let half := Const nhalf in
  Exp (op_div (op_mul (op_neg half) (Pow (op_sub x mu) (Const n2))) (Pow sigma (Const n2))).
(** lib.rs 273-276 *)
Definition logistic (x : expr) : expr :=
  op_div (Const n1) (op_add (Const n1) (Exp (op_neg x))).
(** lib.rs 279-282 *)
Definition softplus (x : expr) : expr := Ln (op_add (Const n1) (Exp x)).

(** expr.rs 1156-1166 *)
Definition quadratic_term (x : string) (mu sigma : N) : expr :=
  Neg (Mul (Const nhalf)
           (Div (Pow (Sub (Var x) (Const mu)) (Const n2)) (Const (nmul sigma sigma)))).
(** expr.rs 1170-1172 *)
Definition linear_term (x : string) (coeff : N) : expr := Mul (Const coeff) (Var x).
(** expr.rs 1176-1185 *)
Definition log_normal_constant (sigma : N) : expr :=
  Sub (Neg (Mul (Const nhalf) (Ln (Const two_pi)))) (Ln (Const sigma)).

(** mod.rs 47-53 *)
Definition normal_likelihood (x mu sigma : string) : expr :=
  normal_log_pdf (Var x) (Var mu) (Var sigma).
(** mod.rs 58-64 *)
Definition normal_prior (p : string) (mean std : N) : expr :=
  normal_log_pdf (Var p) (Const mean) (Const std).
(** mod.rs 69-71 *)
Definition posterior_log_density (likelihood prior : expr) : expr := Add likelihood prior.
(** mod.rs 76-88 *)
Definition hierarchical_normal (x mu sigma tau : string) (mean scale : N) : expr :=
  op_add (op_add (normal_likelihood x mu sigma) (normal_prior mu mean scale))
         (normal_prior tau n0 scale).

(** One turn of the loops mod.rs 99-103 and 119-128. *)
Definition mixture_step (acc : expr) (wc : N * expr) : expr :=
  op_add acc (Exp (op_add (Const (nln (fst wc))) (snd wc))).
(** mod.rs 93-106 *)
Definition mixture_likelihood_old (comps : list (N * expr)) : expr :=
  match comps with
  | [] => Const nninf
  | _ => Ln (fold_left mixture_step comps (Const n0))
  end.
(** mod.rs 111-131; [None] is the panic of the two [assert_eq!]s. *)
Definition mixture_likelihood (x : string) (ws mus sds : list N) : option expr :=
  if Nat.eqb (length ws) (length mus) && Nat.eqb (length mus) (length sds) then
    match ws with
    | [] => Some (Const nninf)
    | _ => Some (Ln (fold_left
             (fun acc i => mixture_step acc
                (nth i ws n0, normal_log_pdf (Var x) (Const (nth i mus n0)) (Const (nth i sds n0))))
             (seq 0 (length ws)) (Const n0)))
    end
  else None.
End Builders.
