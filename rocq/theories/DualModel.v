(** Forward-mode dual numbers as a numeric type.  Definitions only.

    measures-core/src/core/autodiff.rs 1-25, 36-53 promises that existing
    measures work on AD types unchanged: the log-densities are generic in their
    number type.  The AD types themselves are outside the repository; this is
    the textbook arithmetic of value and tangent over extended reals, for one
    direction ([adfn<1>]; for [adfn<N>] it applies to each tangent).  [dg] is the
    derivative the type uses for log-gamma. *)
From Coq Require Import ZArith Reals Bool List.
From Verif Require Import Num.
Local Open Scope R_scope.

Definition dual_of (v t : R) : xreal * xreal := (Fin v, Fin t).
Definition dlift (v : xreal) : xreal * xreal := (v, Fin 0).

Definition dadd (a b : xreal * xreal) := (xadd (fst a) (fst b), xadd (snd a) (snd b)).
Definition dsub (a b : xreal * xreal) := (xsub (fst a) (fst b), xsub (snd a) (snd b)).
Definition dmul (a b : xreal * xreal) :=
  (xmul (fst a) (fst b), xadd (xmul (snd a) (fst b)) (xmul (fst a) (snd b))).
Definition ddiv (a b : xreal * xreal) :=
  (xdiv (fst a) (fst b),
   xdiv (xsub (xmul (snd a) (fst b)) (xmul (fst a) (snd b))) (xmul (fst b) (fst b))).
Definition dpow (a b : xreal * xreal) :=
  (xpow (fst a) (fst b),
   xmul (xpow (fst a) (fst b)) (xadd (xmul (snd b) (xln (fst a))) (xdiv (xmul (fst b) (snd a)) (fst a)))).
Definition dneg (a : xreal * xreal) := (xneg (fst a), xneg (snd a)).
Definition dabs (a : xreal * xreal) := (xabs (fst a), if xltb (fst a) (Fin 0) then xneg (snd a) else snd a).
Definition dln (a : xreal * xreal) := (xln (fst a), xdiv (snd a) (fst a)).
Definition dexp (a : xreal * xreal) := (xexp (fst a), xmul (snd a) (xexp (fst a))).
Definition dsqrt (a : xreal * xreal) := (xsqrt (fst a), xdiv (snd a) (xmul (Fin 2) (xsqrt (fst a)))).
Definition dsin (a : xreal * xreal) := (xtrig sin (fst a), xmul (snd a) (xtrig cos (fst a))).
Definition dcos (a : xreal * xreal) := (xtrig cos (fst a), xneg (xmul (snd a) (xtrig sin (fst a)))).
Definition dlgamma (lg dg : R -> R) (a : xreal * xreal) := (xlgamma lg (fst a), xmul (snd a) (xtrig dg (fst a))).

(** Comparisons look at the value only. *)
Definition Dual (lg dg : R -> R) : Num :=
  {| num := xreal * xreal; nadd := dadd; nsub := dsub; nmul := dmul; ndiv := ddiv;
     npow := dpow; nneg := dneg; nabs := dabs; nln := dln; nexp := dexp;
     nsqrt := dsqrt; nsin := dsin; ncos := dcos; nlgamma := dlgamma lg dg;
     neqb := fun a b => xeqb (fst a) (fst b); nltb := fun a b => xltb (fst a) (fst b); nleb := fun a b => xleb (fst a) (fst b);
     ndec := fun m d => dlift (xdec m d); npi := dlift (Fin PI); npinf := dlift PInf; nninf := dlift NInf; nnan := dlift XNaN |}.
