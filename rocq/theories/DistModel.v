(** Model of measures-distributions: the fourteen univariate distributions.

    For each: constructor(s) (a failed assertion is [None]), accessors, support,
    direct log-density, exponential-family view, conversion from natural
    parameters, and decomposition where the code has one.

    [u64]/[u8]/[usize] are [nat]; [T::from(k).unwrap()], [float_constant(k as f64)]
    are [nofn k]; [x.to_f64().unwrap()] and back is the identity (exact for f64);
    [special::Gamma::ln_gamma] is [nlgamma].  Every root measure is primitive
    (Lebesgue or counting).  Natural parameters and statistics are lists.
    Left out: Default impls, Debug/Clone, [compile_jit] (always an error). *)
From Coq Require Import ZArith Bool List Arith.
From Verif Require Import Num CoreModel CombModel ExpFamModel.
Import ListNotations.
Local Open Scope list_scope.

Section Dist.
Context {N : Num}.

(** Base measures used by the families: LebesgueMeasure, CountingMeasure
    (support everywhere, log-density zero). *)
Definition prim {X : Type} : Base N X := primitive.

(** * Normal: continuous/normal.rs *)
(** normal.rs:42-47. *)
Record Normal := mkNormal { n_mean : N; n_sd : N }.
(** normal.rs:68-71 (new). *)
Definition normal_new (mean sd : N) : option Normal :=
  if nltb n0 sd then Some {| n_mean := mean; n_sd := sd |} else None.
(** normal.rs:74-81 (variance, params). *)
Definition normal_variance (d : Normal) : N := nmul (n_sd d) (n_sd d).
Definition normal_params (d : Normal) : N * N := (n_mean d, n_sd d).
(** normal.rs:98-100 (in_support). *)
Definition normal_support (d : Normal) (x : N) : bool := true.
(** normal.rs:112-132 (log_density_decomposition). *)
Definition normal_decomposition (d : Normal) : Decomp N N (N * N) :=
  let two_pi := nmul n2 npi in
  build [ TConst (nmul (nneg nhalf) (nln two_pi));
          TParam (fun th : N * N => nneg (nln (snd th)));
          TMixed (fun (x : N) (th : N * N) =>
            let z := ndiv (nsub x (fst th)) (snd th) in
            nmul (nmul (nneg nhalf) z) z) ].
(** normal.rs:86-92 (log_density_iid). *)
Definition normal_log_density_iid (d : Normal) (xs : list N) : N :=
  d_evaluate_iid (normal_decomposition d) xs (normal_params d).
(** normal.rs:144-149 (from_natural). *)
Definition normal_from_natural (eta : list N) : option Normal :=
  match eta with
  | [eta1; eta2] =>
      let sigma2 := nneg (nrecip (nmul n2 eta2)) in
      let mu := nmul eta1 sigma2 in
      normal_new mu (nsqrt sigma2)
  | _ => None
  end.
(** normal.rs:151-174. *)
Definition normal_expfam (d : Normal) : ExpFam N N :=
  let sigma2 := normal_variance d in
  let mu2 := nmul (n_mean d) (n_mean d) in
  let inv := nrecip sigma2 in
  expfam 2 [nmul (n_mean d) inv; nmul (ndec (-5) 10) inv]
    (nadd (nmul (nln (nmul (nmul n2 npi) sigma2)) nhalf) (nmul (nmul nhalf mu2) inv))
    (fun x => [x; nmul x x]) prim.
(** normal.rs:179-186 (log_density_wrt_root). *)
Definition normal_ld (d : Normal) (x : N) : N :=
  let two_pi := nmul n2 npi in
  let z := ndiv (nsub x (n_mean d)) (n_sd d) in
  nsub (nsub (nmul (nneg nhalf) (nln two_pi)) (nln (n_sd d))) (nmul (nmul nhalf z) z).

(** * StdNormal: continuous/stdnormal.rs (no direct log-density in the code) *)
(** stdnormal.rs:51-53, 69-92. *)
Definition stdnormal_support (x : N) : bool := true.
Definition stdnormal_from_natural (eta : list N) : option unit := Some tt.
Definition stdnormal_expfam : ExpFam N N :=
  expfam 2 [n0; ndec (-5) 10] (nmul (nln (nmul n2 npi)) nhalf) (fun x => [x; nmul x x]) prim.

(** * Exponential: continuous/exponential.rs *)
Record Exponential := mkExponential { e_rate : N }.
(** exponential.rs:49-63. *)
Definition exponential_new (rate : N) : option Exponential :=
  if nltb n0 rate then Some {| e_rate := rate |} else None.
Definition exponential_mean (d : Exponential) : N := nrecip (e_rate d).
Definition exponential_variance (d : Exponential) : N :=
  let inv := nrecip (e_rate d) in nmul inv inv.
(** exponential.rs:69-71. *)
Definition exponential_support (d : Exponential) (x : N) : bool := nleb n0 x.
(** exponential.rs:87-91. *)
Definition exponential_from_natural (eta : list N) : option Exponential :=
  match eta with [e] => exponential_new (nneg e) | _ => None end.
(** exponential.rs:93-105. *)
Definition exponential_expfam (d : Exponential) : ExpFam N N :=
  expfam 1 [nneg (e_rate d)] (nln (e_rate d)) (fun x => [x]) prim.
(** exponential.rs:110-119. *)
Definition exponential_ld (d : Exponential) (x : N) : N :=
  if nleb n0 x then nsub (nln (e_rate d)) (nmul (e_rate d) x) else nninf.

(** * Gamma: continuous/gamma.rs *)
Record Gamma := mkGamma { g_shape : N; g_rate : N }.
(** gamma.rs:56-80. *)
Definition gamma_new (shape rate : N) : option Gamma :=
  if nltb n0 shape then
    if nltb n0 rate then Some {| g_shape := shape; g_rate := rate |} else None
  else None.
Definition gamma_from_shape_scale (shape scale : N) : option Gamma := gamma_new shape (nrecip scale).
Definition gamma_scale (d : Gamma) : N := nrecip (g_rate d).
Definition gamma_mean (d : Gamma) : N := ndiv (g_shape d) (g_rate d).
Definition gamma_variance (d : Gamma) : N := ndiv (g_shape d) (nmul (g_rate d) (g_rate d)).
(** gamma.rs:86-88. *)
Definition gamma_support (d : Gamma) (x : N) : bool := nltb n0 x.
(** gamma.rs:104-109. *)
Definition gamma_from_natural (eta : list N) : option Gamma :=
  match eta with [e1; e2] => gamma_new (nadd e1 n1) (nneg e2) | _ => None end.
(** gamma.rs:111-142. *)
Definition gamma_expfam (d : Gamma) : ExpFam N N :=
  expfam 2 [nsub (g_shape d) n1; nneg (g_rate d)]
    (nsub (nlgamma (g_shape d)) (nmul (g_shape d) (nln (g_rate d))))
    (fun x => [nln x; x]) prim.
(** gamma.rs:170-182. *)
Definition gamma_ld (d : Gamma) (x : N) : N :=
  if nltb n0 x then
    nsub (nadd (nsub (nmul (g_shape d) (nln (g_rate d))) (nlgamma (g_shape d)))
               (nmul (nsub (g_shape d) n1) (nln x)))
         (nmul (g_rate d) x)
  else nninf.

(** * Beta: continuous/beta.rs *)
Record BetaD := mkBeta { b_alpha : N; b_beta : N }.
(** beta.rs:56-73. *)
Definition beta_new (alpha beta : N) : option BetaD :=
  if nltb n0 alpha then
    if nltb n0 beta then Some {| b_alpha := alpha; b_beta := beta |} else None
  else None.
Definition beta_mean (d : BetaD) : N := ndiv (b_alpha d) (nadd (b_alpha d) (b_beta d)).
Definition beta_variance (d : BetaD) : N :=
  let sum := nadd (b_alpha d) (b_beta d) in
  ndiv (nmul (b_alpha d) (b_beta d)) (nmul (nmul sum sum) (nadd sum n1)).
(** beta.rs:79-81. *)
Definition beta_support (d : BetaD) (x : N) : bool := nltb n0 x && nltb x n1.
(** beta.rs:97-102. *)
Definition beta_from_natural (eta : list N) : option BetaD :=
  match eta with [e1; e2] => beta_new (nadd e1 n1) (nadd e2 n1) | _ => None end.
(** beta.rs:104-127. *)
Definition beta_expfam (d : BetaD) : ExpFam N N :=
  expfam 2 [nsub (b_alpha d) n1; nsub (b_beta d) n1]
    (nsub (nadd (nlgamma (b_alpha d)) (nlgamma (b_beta d))) (nlgamma (nadd (b_alpha d) (b_beta d))))
    (fun x => [nln x; nln (nsub n1 x)]) prim.
(** beta.rs:132-158. *)
Definition beta_ld (d : BetaD) (x : N) : N :=
  if nltb n0 x && nltb x n1 then
    nadd (nadd (nsub (nsub (nlgamma (nadd (b_alpha d) (b_beta d))) (nlgamma (b_alpha d)))
                     (nlgamma (b_beta d)))
               (nmul (nsub (b_alpha d) n1) (nln x)))
         (nmul (nsub (b_beta d) n1) (nln (nsub n1 x)))
  else nninf.

(** * ChiSquared: continuous/chi_squared.rs *)
Record ChiSquared := mkChi { c_k : N }.
(** chi_squared.rs:56-82. *)
Definition chi_new (k : N) : option ChiSquared :=
  if nltb n0 k then Some {| c_k := k |} else None.
Definition chi_shape (d : ChiSquared) : N := ndiv (c_k d) n2.
Definition chi_rate (d : ChiSquared) : N := nhalf.
Definition chi_mean (d : ChiSquared) : N := c_k d.
Definition chi_variance (d : ChiSquared) : N := nmul n2 (c_k d).
(** chi_squared.rs:88-90. *)
Definition chi_support (d : ChiSquared) (x : N) : bool := nltb n0 x.
(** chi_squared.rs:106-112. *)
Definition chi_from_natural (eta : list N) : option ChiSquared :=
  match eta with [e1; _] => chi_new (nmul n2 (nadd e1 n1)) | _ => None end.
(** chi_squared.rs:114-144. *)
Definition chi_expfam (d : ChiSquared) : ExpFam N N :=
  expfam 2 [nsub (chi_shape d) n1; nneg (chi_rate d)]
    (nadd (nlgamma (chi_shape d)) (nmul (chi_shape d) (nln n2)))
    (fun x => [nln x; x]) prim.
(** chi_squared.rs:174-201. *)
Definition chi_ld (d : ChiSquared) (x : N) : N :=
  if nltb n0 x then
    let two := nadd n1 n1 in
    let half_k := ndiv (c_k d) two in
    nsub (nadd (nsub (nmul (nneg half_k) (nln two)) (nlgamma half_k))
               (nmul (nsub half_k n1) (nln x)))
         (ndiv x two)
  else nninf.

(** * StudentT: continuous/student_t.rs *)
Record StudentT := mkStudent { t_nu : N }.
(** student_t.rs:54-57. *)
Definition student_new (nu : N) : option StudentT :=
  if nltb n0 nu then Some {| t_nu := nu |} else None.
(** student_t.rs:111-113. *)
Definition student_support (d : StudentT) (x : N) : bool := true.
(** [f64::midpoint(nu, 1.0)]; std computes (a + b) / 2 away from overflow. *)
Definition midpoint1 (nu : N) : N := ndiv (nadd nu n1) n2.
(** student_t.rs:79-83, 139-144. *)
Definition student_log_norm (nu : N) : N :=
  nsub (nsub (nlgamma (midpoint1 nu)) (nlgamma (ndiv nu n2)))
       (nmul nhalf (nln (nmul nu npi))).
(** student_t.rs:86, 153-155. *)
Definition student_kernel (x nu : N) : N :=
  nmul (nneg (midpoint1 nu)) (nln (nadd n1 (ndiv (nmul x x) nu))).
(** student_t.rs:70-89 (log_pdf), 122-124 (log_density_wrt_root). *)
Definition student_log_pdf (d : StudentT) (x : N) : N :=
  nadd (student_log_norm (t_nu d)) (student_kernel x (t_nu d)).
Definition student_ld (d : StudentT) (x : N) : N := student_log_pdf d x.
(** student_t.rs:133-160 (log_density_decomposition), 94-100 (log_density_iid). *)
Definition student_decomposition (d : StudentT) : Decomp N N N :=
  build [ TParam (fun nu : N => student_log_norm nu);
          TMixed (fun x nu : N => student_kernel x nu) ].
Definition student_log_density_iid (d : StudentT) (xs : list N) : N :=
  d_evaluate_iid (student_decomposition d) xs (t_nu d).

(** * Cauchy: continuous/cauchy.rs *)
Record Cauchy := mkCauchy { c_loc : N; c_scale : N }.
(** cauchy.rs:56-68. *)
Definition cauchy_new (loc scale : N) : option Cauchy :=
  if nltb n0 scale then Some {| c_loc := loc; c_scale := scale |} else None.
Definition cauchy_standard : option Cauchy := cauchy_new n0 n1.
(** cauchy.rs:118-120. *)
Definition cauchy_support (d : Cauchy) (x : N) : bool := true.
(** cauchy.rs:88-96 (log_pdf). *)
Definition cauchy_log_pdf (d : Cauchy) (x : N) : N :=
  let z := ndiv (nsub x (c_loc d)) (c_scale d) in
  nsub (nsub (nneg (nln npi)) (nln (c_scale d))) (nln (nadd n1 (nmul z z))).
(** cauchy.rs:131-135 (log_density_wrt_root). *)
Definition cauchy_ld (d : Cauchy) (x : N) : N :=
  let z := ndiv (nsub x (c_loc d)) (c_scale d) in
  nsub (nsub (nneg (nln (nadd n1 (nmul z z)))) (nln (c_scale d))) (nln npi).
(** cauchy.rs:144-164 (log_density_decomposition), 101-107 (log_density_iid). *)
Definition cauchy_decomposition (d : Cauchy) : Decomp N N (N * N) :=
  build [ TConst (nneg (nln npi));
          TParam (fun th : N * N => nneg (nln (snd th)));
          TMixed (fun (x : N) (th : N * N) =>
            let z := ndiv (nsub x (fst th)) (snd th) in
            nneg (nln (nadd n1 (nmul z z)))) ].
Definition cauchy_log_density_iid (d : Cauchy) (xs : list N) : N :=
  d_evaluate_iid (cauchy_decomposition d) xs (c_loc d, c_scale d).

(** * Bernoulli: discrete/bernoulli.rs *)
Record Bernoulli := mkBernoulli { be_prob : N }.
(** bernoulli.rs:54-75. *)
Definition bernoulli_new (p : N) : option Bernoulli :=
  if nleb n0 p && nleb p n1 then Some {| be_prob := p |} else None.
Definition bernoulli_mean (d : Bernoulli) : N := be_prob d.
Definition bernoulli_variance (d : Bernoulli) : N := nmul (be_prob d) (nsub n1 (be_prob d)).
Definition log_odds (p : N) : N := nln (ndiv p (nsub n1 p)).
(** bernoulli.rs:81-83. *)
Definition bernoulli_support (d : Bernoulli) (x : nat) : bool := Nat.eqb x 0 || Nat.eqb x 1.
(** bernoulli.rs:99-105. *)
Definition bernoulli_from_natural (eta : list N) : option Bernoulli :=
  match eta with
  | [e] => let exp_eta := nexp e in bernoulli_new (ndiv exp_eta (nadd n1 exp_eta))
  | _ => None
  end.
(** bernoulli.rs:107-122. *)
Definition bernoulli_expfam (d : Bernoulli) : ExpFam N nat :=
  expfam 1 [log_odds (be_prob d)] (nln (nadd n1 (nexp (log_odds (be_prob d)))))
    (fun x => [nofn x]) prim.
(** bernoulli.rs:154-160. *)
Definition bernoulli_ld (d : Bernoulli) (x : nat) : N :=
  match x with
  | 0 => nln (nsub n1 (be_prob d))
  | 1 => nln (be_prob d)
  | _ => nninf
  end.

(** * Binomial: discrete/binomial.rs *)
Record Binomial := mkBinomial { bi_n : nat; bi_prob : N }.
(** binomial.rs:49-71. *)
Definition binomial_new (n : nat) (p : N) : option Binomial :=
  if nleb n0 p && nleb p n1 then Some {| bi_n := n; bi_prob := p |} else None.
Definition binomial_mean (d : Binomial) : N := nmul (nofn (bi_n d)) (bi_prob d).
Definition binomial_variance (d : Binomial) : N :=
  nmul (nmul (nofn (bi_n d)) (bi_prob d)) (nsub n1 (bi_prob d)).
(** binomial.rs:77-79. *)
Definition binomial_support (d : Binomial) (x : nat) : bool := Nat.leb x (bi_n d).
(** binomial.rs:95-99 (from_natural): always panics. *)
Definition binomial_from_natural (eta : list N) : option Binomial := None.
(** binomial.rs:101-117. *)
Definition binomial_expfam (d : Binomial) : ExpFam N nat :=
  expfam 1 [log_odds (bi_prob d)]
    (nmul (nofn (bi_n d)) (nln (nadd n1 (nexp (log_odds (bi_prob d))))))
    (fun x => [nofn x]) (binomial_measure (bi_n d)).
(** binomial.rs:147-159. *)
Definition binomial_ld (d : Binomial) (x : nat) : N :=
  if Nat.leb x (bi_n d) then
    nadd (nmul (nofn x) (nln (bi_prob d)))
         (nmul (nsub (nofn (bi_n d)) (nofn x)) (nln (nsub n1 (bi_prob d))))
  else nninf.

(** * Poisson: discrete/poisson.rs *)
Record Poisson := mkPoisson { p_rate : N }.
(** poisson.rs:40-43. *)
Definition poisson_new (rate : N) : option Poisson :=
  if nltb n0 rate then Some {| p_rate := rate |} else None.
(** poisson.rs:49-51. *)
Definition poisson_support (d : Poisson) (x : nat) : bool := true.
(** poisson.rs:67-71. *)
Definition poisson_from_natural (eta : list N) : option Poisson :=
  match eta with [e] => poisson_new (nexp e) | _ => None end.
(** poisson.rs:73-85. *)
Definition poisson_expfam (d : Poisson) : ExpFam N nat :=
  expfam 1 [nln (p_rate d)] (p_rate d) (fun x => [nofn x]) factorial_measure.
(** poisson.rs:90-97. *)
Definition poisson_ld (d : Poisson) (x : nat) : N :=
  let k_f := nofn x in
  let log_factorial := fold_left (fun acc i => nadd acc (nln (nofn i))) (seq 1 x) n0 in
  nsub (nsub (nmul k_f (nln (p_rate d))) (p_rate d)) log_factorial.

(** * Geometric: discrete/geometric.rs *)
Record Geometric := mkGeometric { ge_prob : N }.
(** geometric.rs:55-77. *)
Definition geometric_new (p : N) : option Geometric :=
  if nltb n0 p && nleb p n1 then Some {| ge_prob := p |} else None.
Definition geometric_mean (d : Geometric) : N := nrecip (ge_prob d).
Definition geometric_variance (d : Geometric) : N :=
  ndiv (nsub n1 (ge_prob d)) (nmul (ge_prob d) (ge_prob d)).
Definition geometric_failure_prob (d : Geometric) : N := nsub n1 (ge_prob d).
(** geometric.rs:83-85. *)
Definition geometric_support (d : Geometric) (x : nat) : bool := Nat.leb 1 x.
(** geometric.rs:101-107. *)
Definition geometric_from_natural (eta : list N) : option Geometric :=
  match eta with [e] => geometric_new (nsub n1 (nexp e)) | _ => None end.
(** geometric.rs:109-124. *)
Definition geometric_expfam (d : Geometric) : ExpFam N nat :=
  expfam 1 [nln (geometric_failure_prob d)] (nneg (nln (ge_prob d))) (fun x => [nofn x]) prim.
(** geometric.rs:154-163. *)
Definition geometric_ld (d : Geometric) (x : nat) : N :=
  if Nat.leb 1 x then
    nadd (nmul (nsub (nofn x) n1) (nln (nsub n1 (ge_prob d)))) (nln (ge_prob d))
  else nninf.

(** * NegativeBinomial: discrete/negative_binomial.rs *)
Record NegBinomial := mkNegBinomial { nb_r : nat; nb_prob : N }.
(** negative_binomial.rs:51-81. *)
Definition negbinomial_new (r : nat) (p : N) : option NegBinomial :=
  if Nat.ltb 0 r then
    if nltb n0 p && nltb p n1 then Some {| nb_r := r; nb_prob := p |} else None
  else None.
Definition negbinomial_mean (d : NegBinomial) : N :=
  ndiv (nmul (nofn (nb_r d)) (nb_prob d)) (nsub n1 (nb_prob d)).
Definition negbinomial_variance (d : NegBinomial) : N :=
  let q := nsub n1 (nb_prob d) in
  ndiv (nmul (nofn (nb_r d)) (nb_prob d)) (nmul q q).
(** negative_binomial.rs:87-89. *)
Definition negbinomial_support (d : NegBinomial) (x : nat) : bool := true.
(** negative_binomial.rs:105-109 (from_natural): always panics. *)
Definition negbinomial_from_natural (eta : list N) : option NegBinomial := None.
(** negative_binomial.rs:111-130. *)
Definition negbinomial_expfam (d : NegBinomial) : ExpFam N nat :=
  let eta := log_odds (nb_prob d) in
  let exp_eta := nexp eta in
  let sigmoid := ndiv exp_eta (nadd n1 exp_eta) in
  expfam 1 [eta] (nmul (nneg (nofn (nb_r d))) (nln (nsub n1 sigmoid)))
    (fun x => [nofn x]) (negative_binomial_measure (nb_r d)).
(** negative_binomial.rs:161-169. *)
Definition negbinomial_ld (d : NegBinomial) (x : nat) : N :=
  nadd (nmul (nofn (nb_r d)) (nln (nb_prob d)))
       (nmul (nofn x) (nln (nsub n1 (nb_prob d)))).

(** * Categorical: discrete/categorical.rs *)
Record Categorical := mkCategorical { ca_probs : list N }.
(** categorical.rs:47-69 (new, uniform). *)
Definition categorical_new (ps : list N) : option Categorical :=
  match ps with
  | [] => None
  | _ =>
    if forallb (fun p => nleb n0 p) ps then
      let sum := fold_left nadd ps n0 in
      if nltb (nabs (nsub sum n1)) tolerance then Some {| ca_probs := ps |} else None
    else None
  end.
Definition categorical_uniform (k : nat) : option Categorical :=
  if Nat.ltb 0 k then categorical_new (repeat (ndiv n1 (nofn k)) k) else None.
(** categorical.rs:79-99 (mean, variance); [enumerate] pairs with indices. *)
Definition enumerate {A} (l : list A) : list (nat * A) := combine (seq 0 (length l)) l.
Definition categorical_mean (d : Categorical) : N :=
  fold_left nadd (map (fun ip => nmul (nofn (fst ip)) (snd ip)) (enumerate (ca_probs d))) n0.
Definition categorical_variance (d : Categorical) : N :=
  let mean := categorical_mean d in
  fold_left nadd
    (map (fun ip => let diff := nsub (nofn (fst ip)) mean in nmul (nmul (snd ip) diff) diff)
         (enumerate (ca_probs d))) n0.
(** categorical.rs:102-108 (log_odds). *)
Definition categorical_log_odds (d : Categorical) : list N :=
  let last_prob := nth (length (ca_probs d) - 1) (ca_probs d) n0 in
  map (fun p => nln (ndiv p last_prob)) (firstn (length (ca_probs d) - 1) (ca_probs d)).
(** categorical.rs:114-116. *)
Definition categorical_support (d : Categorical) (x : nat) : bool := Nat.ltb x (length (ca_probs d)).
(** categorical.rs:132-152. *)
Definition categorical_from_natural (eta : list N) : option Categorical :=
  let exp_etas := map nexp eta in
  let normalizer := nadd n1 (fold_left nadd exp_etas n0) in
  categorical_new (map (fun e => ndiv e normalizer) exp_etas ++ [ndiv n1 normalizer]).
(** categorical.rs:154-167. *)
Definition categorical_stat (d : Categorical) (x : nat) : list N :=
  let k := length (ca_probs d) in
  map (fun i => if Nat.ltb x (k - 1) && Nat.eqb i x then n1 else n0) (seq 0 (k - 1)).
(** categorical.rs:173-183. *)
Definition categorical_partition (d : Categorical) : N :=
  nln (nadd n1 (fold_left nadd (map nexp (categorical_log_odds d)) n0)).
(** categorical.rs:186-208: the override checks the support first. *)
Definition categorical_expfam (d : Categorical) : ExpFam N nat :=
  {| ef_dim := length (ca_probs d) - 1;
     ef_natural := categorical_log_odds d; ef_partition := categorical_partition d;
     ef_stat := categorical_stat d; ef_base := prim;
     ef_density := fun x =>
       if categorical_support d x then
         let part := nsub (dot_vec (categorical_log_odds d) (categorical_stat d x))
                          (categorical_partition d) in
         nadd part (b_ld (@prim nat) x)
       else nninf |}.
(** categorical.rs:239-245. *)
Definition categorical_ld (d : Categorical) (x : nat) : N :=
  if Nat.ltb x (length (ca_probs d)) then nln (nth x (ca_probs d) n0) else nninf.

(** * Each distribution as a measure (support, direct log-density). *)
Definition continuous_base (support : N -> bool) (ld : N -> N) (ef : bool) (size : nat) : Base N N :=
  {| b_support := support; b_ld := ld; b_expfam := ef; b_size := size |}.
Definition normal_base d := continuous_base (normal_support d) (normal_ld d) true 16.
Definition exponential_base d := continuous_base (exponential_support d) (exponential_ld d) true 8.
Definition gamma_base d := continuous_base (gamma_support d) (gamma_ld d) true 16.
Definition beta_base d := continuous_base (beta_support d) (beta_ld d) true 16.
Definition chi_base d := continuous_base (chi_support d) (chi_ld d) true 8.
Definition student_base d := continuous_base (student_support d) (student_ld d) false 8.
Definition cauchy_base d := continuous_base (cauchy_support d) (cauchy_ld d) false 16.
Definition discrete_base (support : nat -> bool) (ld : nat -> N) (size : nat) : Base N nat :=
  {| b_support := support; b_ld := ld; b_expfam := true; b_size := size |}.
Definition bernoulli_base d := discrete_base (bernoulli_support d) (bernoulli_ld d) 8.
Definition binomial_base d := discrete_base (binomial_support d) (binomial_ld d) 16.
Definition poisson_base d := discrete_base (poisson_support d) (poisson_ld d) 8.
Definition geometric_base d := discrete_base (geometric_support d) (geometric_ld d) 8.
Definition negbinomial_base d := discrete_base (negbinomial_support d) (negbinomial_ld d) 16.
Definition categorical_base d := discrete_base (categorical_support d) (categorical_ld d) 24.
End Dist.
Arguments Normal : clear implicits. Arguments Exponential : clear implicits.
Arguments Gamma : clear implicits. Arguments BetaD : clear implicits.
Arguments ChiSquared : clear implicits. Arguments StudentT : clear implicits.
Arguments Cauchy : clear implicits. Arguments Bernoulli : clear implicits.
Arguments Binomial : clear implicits. Arguments Poisson : clear implicits.
Arguments Geometric : clear implicits. Arguments NegBinomial : clear implicits.
Arguments Categorical : clear implicits.
