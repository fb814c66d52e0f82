(** The exponential families whose partition or base measure is computed in
    [f64] whatever the numeric type, at binary32 (C73).  The other families are
    the generic definitions of DistModel at [F32]. *)
From Coq Require Import ZArith Bool List.
From Coq Require Import Floats.SpecFloat.
From Verif Require Import Num CoreModel CombModel ExpFamModel DistModel SingleModel.
Import ListNotations.

Section Fam.
Context (L : libm32).
Notation F := (F32 L).

(** beta.rs:104-127. *)
Definition beta_expfam32 (d : BetaD F) : ExpFam F F :=
  expfam 2 [nsub (b_alpha d) n1; nsub (b_beta d) n1]
    (beta_partition32 L (b_alpha d) (b_beta d) : F)
    (fun x => [nln x; nln (nsub n1 x)]) prim.

(** derived/binomial_coefficient.rs:41-51, 103-113. *)
Definition binomial_measure32 (n : nat) : Base F nat :=
  {| b_support := fun x => Nat.leb x n && true;
     b_ld := fun k => if Nat.ltb n k then nninf else (log_binomial_coefficient32 L n k : F);
     b_expfam := false; b_size := 8 |}.
(** binomial.rs:101-117. *)
Definition binomial_expfam32 (d : Binomial F) : ExpFam F nat :=
  expfam 1 [log_odds (bi_prob d)]
    (nmul (nofn (bi_n d)) (nln (nadd n1 (nexp (log_odds (bi_prob d))))))
    (fun x => [nofn x]) (binomial_measure32 (bi_n d)).

(** derived/negative_binomial_coefficient.rs:41-52, 93-98. *)
Definition negative_binomial_measure32 (r : nat) : Base F nat :=
  {| b_support := fun _ => true; b_ld := fun x => (log_negative_binomial_coefficient32 L r x : F);
     b_expfam := false; b_size := 8 |}.
(** negative_binomial.rs:111-130. *)
Definition negbinomial_expfam32 (d : NegBinomial F) : ExpFam F nat :=
  let eta := log_odds (nb_prob d) in
  let exp_eta := nexp eta in
  let sigmoid := ndiv exp_eta (nadd n1 exp_eta) in
  expfam 1 [eta] (nmul (nneg (nofn (nb_r d))) (nln (nsub n1 sigmoid)))
    (fun x => [nofn x]) (negative_binomial_measure32 (nb_r d)).
End Fam.
