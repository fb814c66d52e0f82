(** Log-densities in binary32 at extreme arguments (C76). *)
From Coq Require Import ZArith Reals Bool List Lia Lra.
From Coq Require Import Floats.SpecFloat.
From Flocq Require Import Core IEEE754.BinarySingleNaN.
From Verif Require Import Num EggSpec FloatFacts RoundSpec DensitySpec CoreModel CombModel ExpFamModel DistModel DistSpec DistProofs BuilderProofs ExtSpec SingleModel SingleSpec SingleErr SingleFloat SingleFloat2
  IntSpec ExtSingleSpec ExtSingle ExtSingleSum ExtSingleMix ExtSingleDisc ExtSingleGamma ExtSingleStudent.
From Verif Require JitAcc ExtProofs GammaFun RoundProofs.
Import ListNotations.
Local Open Scope R_scope.

(** As in binary64: a finite number or minus infinity at every argument but NaN. *)
Theorem C76_single_location_scale : forall c lg L mu sd x, libm32_ok c lg L -> 0 <= c <= 1000 -> ln_edges32 L ->
  is_single mu -> is_single sd -> 0 < val sd -> not_nan32 x ->
  proper32 (normal_ld (@mkNormal (F32 L) mu sd) x) /\ proper32 (cauchy_ld (@mkCauchy (F32 L) mu sd) x).
Proof. intros c lg L mu sd x K C0 E N S P X. split; [exact (normal_proper32 c lg L K C0 mu sd x N S P X)|exact (cauchy_proper32 c lg L K C0 E mu sd x N S P X)]. Qed.
Print Assumptions C76_single_location_scale.
Theorem C76_single_exponential : forall c lg L rate x, libm32_ok c lg L -> 0 <= c <= 1000 -> is_single rate -> 0 < val rate -> not_nan32 x ->
  proper32 (exponential_ld (@mkExponential (F32 L) rate) x).
Proof. intros c lg L rate x K C0 N P X. exact (exponential_proper32 c lg L K C0 rate x N P X). Qed.
Print Assumptions C76_single_exponential.
(** Shapes up to 2^70, and from 2^-100 where the code halves them. *)
Theorem C76_single_gamma : forall c lg L a b x, libm32_ok c lg L -> 0 <= c <= 1000 -> lg_is_log_gamma lg ->
  is_single a -> is_single b -> 0 < val a <= bpow radix2 70 -> 0 < val b -> not_nan32 x -> x <> pinf -> proper32 (gamma_ld (@mkGamma (F32 L) a b) x).
Proof. intros c lg L a b x K C0 G. exact (gamma_proper32 c lg L K C0 a b x (lg_is_moderate32 lg G)). Qed.
Print Assumptions C76_single_gamma.
Theorem C76_single_chi_squared : forall c lg L k x, libm32_ok c lg L -> 0 <= c <= 1000 -> lg_is_log_gamma lg ->
  is_single k -> bpow radix2 (-100) <= val k <= bpow radix2 70 -> not_nan32 x -> x <> pinf -> proper32 (chi_ld (@mkChi (F32 L) k) x).
Proof. intros c lg L k x K C0 G. exact (chi_proper32 c lg L K C0 k x (lg_is_moderate32 lg G)). Qed.
Print Assumptions C76_single_chi_squared.
Theorem C76_single_beta : forall c lg L a b x, libm32_ok c lg L -> 0 <= c <= 1000 -> lg_is_log_gamma lg ->
  is_single a -> is_single b -> 0 < val a <= bpow radix2 69 -> 0 < val b <= bpow radix2 69 -> not_nan32 x ->
  proper32 (beta_ld (@mkBeta (F32 L) a b) x) /\ (is_single x -> 0 < val x < 1 -> is_single (beta_ld (@mkBeta (F32 L) a b) x)).
Proof. intros c lg L a b x K C0 G. exact (beta_proper32 c lg L K C0 a b x (lg_is_moderate32 lg G)). Qed.
Print Assumptions C76_single_beta.
(** Student's t is computed in binary64, where the square of a binary32 number
    fits: finite at every finite point, minus infinity at both infinities. *)
Theorem C76_single_student_t : forall c lg L nu x, libm_ok c lg (s_double L) -> 0 <= c <= 1000000 -> ln_edges (s_double L) -> lg_is_log_gamma lg ->
  is_single nu -> bpow radix2 (-100) <= val nu <= bpow radix2 69 ->
  (is_single x -> is_single (student_ld32 L nu x)) /\ (x = pinf \/ x = ninf -> student_ld32 L nu x = ninf).
Proof. intros c lg L nu x K C0 E G. exact (student_ld32_ends c lg L nu x K C0 E (lg_is_moderate32 lg G)). Qed.
Print Assumptions C76_single_student_t.
(** Discrete distributions, at every count of a 64-bit type. *)
Theorem C76_single_counts : forall c lg L p, libm32_ok c lg L -> 0 <= c <= 1000 -> is_single p -> 0 < val p < 1 ->
  (forall n k, (Z.of_nat n <= 2 ^ 64)%Z -> (k <= n)%nat -> is_single (binomial_ld (@mkBinomial (F32 L) n p) k)) /\
  (forall k, (Z.of_nat k <= 2 ^ 64)%Z -> (1 <= k)%nat -> is_single (geometric_ld (@mkGeometric (F32 L) p) k)) /\
  (forall r k, (Z.of_nat r <= 2 ^ 64)%Z -> (Z.of_nat k <= 2 ^ 64)%Z -> is_single (negbinomial_ld (@mkNegBinomial (F32 L) r p) k)).
Proof.
  intros c lg L p K C0 N P. split; [intros n k; exact (binomial_finite c lg L K C0 n p k N P)|].
  split; [intros k; exact (geometric_finite c lg L K C0 p k N P)|intros r k; exact (negbinomial_finite c lg L K C0 r p k N P)].
Qed.
Print Assumptions C76_single_counts.
Theorem C76_single_poisson : forall c lg L rate k, libm32_ok c lg L -> 0 <= c <= 1000 -> is_single rate -> 0 < val rate -> (Z.of_nat k <= 2 ^ 64)%Z ->
  proper32 (poisson_ld (@mkPoisson (F32 L) rate) k) /\ (val rate <= bpow radix2 99 -> is_single (poisson_ld (@mkPoisson (F32 L) rate) k)).
Proof. intros c lg L rate k K C0. exact (poisson_proper32 c lg L K C0 rate k). Qed.
Print Assumptions C76_single_poisson.
(** Samples of any length. *)
Theorem C76_single_samples : forall c lg L, libm32_ok c lg L -> 0 <= c <= 1000 -> ln_edges32 L ->
  (forall mu sd xs, is_single mu -> is_single sd -> 0 < val sd -> Forall not_nan32 xs ->
    proper32 (iid_log_density_fallback (normal_base (@mkNormal (F32 L) mu sd)) xs) /\
    proper32 (iid_log_density_fallback (cauchy_base (@mkCauchy (F32 L) mu sd)) xs)) /\
  (forall rate xs, is_single rate -> 0 < val rate -> Forall not_nan32 xs -> proper32 (iid_log_density_fallback (exponential_base (@mkExponential (F32 L) rate)) xs)) /\
  (forall p ks, is_single p -> 0 <= val p <= 1 -> proper32 (iid_log_density_fallback (bernoulli_base (@mkBernoulli (F32 L) p)) ks)) /\
  (forall ps ks, Forall (fun p => is_single p /\ 0 <= val p) ps -> proper32 (iid_log_density_fallback (categorical_base (@mkCategorical (F32 L) ps)) ks)).
Proof.
  intros c lg L K C0 E. split; [|split; [|split]].
  - intros mu sd xs N S P X. rewrite Forall_forall in X. split; apply (sample_proper32 L); intros x I; [exact (normal_capped c lg L K C0 mu sd x N S P (X x I))|exact (cauchy_capped c lg L K C0 E mu sd x N S P (X x I))].
  - intros rate xs N P X. rewrite Forall_forall in X. apply (sample_proper32 L). intros x I. exact (exponential_capped c lg L K C0 rate x N P (X x I)).
  - intros p ks N P. apply (sample_proper32 L). intros k _. exact (bernoulli_capped c lg L K C0 E p k N P).
  - intros ps ks H. apply (sample_proper32 L). intros k _. exact (categorical_capped c lg L K C0 E ps k H).
Qed.
Print Assumptions C76_single_samples.
(** log-sum-exp and mixtures. *)
Theorem C76_single_log_sum_exp : forall c lg L (l : list f32), libm32_ok c lg L -> 0 <= c <= 1000 -> s_exp L ninf = S754_zero false -> Forall proper32 l ->
  (Exists is_single l -> is_single (@log_sum_exp (F32 L) l)) /\ (Forall (eq ninf) l -> @log_sum_exp (F32 L) l = ninf).
Proof. intros c lg L l K C0 EE H. split; [exact (lse_finite c lg L K C0 EE l H)|exact (lse_empty L l)]. Qed.
Print Assumptions C76_single_log_sum_exp.
Theorem C76_single_mixture : forall c lg L (X : Type) (cs : list (Measure (F32 L) X)) (ws : list f32) (x : X),
  libm32_ok c lg L -> 0 <= c <= 1000 -> ln_edges32 L -> s_exp L ninf = S754_zero false ->
  Forall (fun w => is_single w /\ 0 <= val w) ws -> Forall (fun m : Measure (F32 L) X => proper32 (b_ld (m_self m) x)) cs ->
  let contributes (mw : Measure (F32 L) X * f32) := 0 < val (snd mw) /\ is_single (b_ld (m_self (fst mw)) x) in
  (Exists contributes (combine cs ws) -> is_single (mixture_ld (@mkMixture (F32 L) X cs ws) x)) /\
  (~ Exists contributes (combine cs ws) -> mixture_ld (@mkMixture (F32 L) X cs ws) x = ninf).
Proof. intros c lg L X cs ws x K C0 E EE. exact (mixture_proper32 c lg L K C0 E EE cs ws x). Qed.
Print Assumptions C76_single_mixture.

(** At plus infinity the gamma is NaN from shape 1 on, the chi-squared from 2
    degrees of freedom on. *)
Theorem C76_single_plus_infinity_refuted : forall c lg L, libm32_ok c lg L -> 0 <= c <= 1000 -> ln_edges32 L -> lg_is_log_gamma lg ->
  (forall a b, is_single a -> is_single b -> 0 < val a <= bpow radix2 70 -> 0 < val b ->
    (1 <= val a -> gamma_ld (@mkGamma (F32 L) a b) pinf = S754_nan) /\ (val a < 1 -> gamma_ld (@mkGamma (F32 L) a b) pinf = ninf)) /\
  (forall k, is_single k -> bpow radix2 (-100) <= val k <= bpow radix2 70 ->
    (2 <= val k -> chi_ld (@mkChi (F32 L) k) pinf = S754_nan) /\ (val k < 2 -> chi_ld (@mkChi (F32 L) k) pinf = ninf)).
Proof.
  intros c lg L K C0 E G. split; [intros a b; exact (gamma_at_infinity c lg L K C0 E a b (lg_is_moderate32 lg G))|intros k; exact (chi_at_infinity c lg L K C0 E k (lg_is_moderate32 lg G))].
Qed.
Print Assumptions C76_single_plus_infinity_refuted.

(** The square of the residual overflows from 2^64 on: the standard Cauchy at
    2^70 is minus infinity although its log-density is above -110. *)
Definition far70 : f32 := S754_finite false 8388608 47.
Lemma far70_val : is_single far70 /\ val far70 = bpow radix2 70.
Proof.
  split; [split; reflexivity|]. unfold val, far70, SF2R, F2R. cbn [cond_Zopp Fnum Fexp]. change (IZR (Z.pos 8388608)) with (bpow radix2 23). rewrite <- bpow_plus. reflexivity.
Qed.
Theorem C76_single_early_overflow_refuted : forall c lg L, libm32_ok c lg L -> 0 <= c <= 1000 -> ln_edges32 L ->
  exists x, is_single x /\ cauchy_ld (@mkCauchy (F32 L) (f32_of_Z 0) (f32_of_Z 1)) x = ninf /\ -110 <= ln (cauchy_pdf 0 1 (val x)).
Proof.
  intros c lg L K C0 E. exists far70. destruct far70_val as [N V]. split; [exact N|]. split.
  - destruct one_num as [N1 V1]. pose proof pi_bounds as PB.
    change (f32_sub (f32_sub (SFopp (s_ln L (f32_add (f32_of_Z 1) (f32_mul (f32_div (f32_sub far70 (f32_of_Z 0)) (f32_of_Z 1)) (f32_div (f32_sub far70 (f32_of_Z 0)) (f32_of_Z 1)))))) (s_ln L (f32_of_Z 1))) (s_ln L f32_pi) = ninf).
    replace (f32_add (f32_of_Z 1) (f32_mul (f32_div (f32_sub far70 (f32_of_Z 0)) (f32_of_Z 1)) (f32_div (f32_sub far70 (f32_of_Z 0)) (f32_of_Z 1)))) with pinf by (symmetry; vm_compute; reflexivity).
    rewrite (proj1 E). change (SFopp pinf) with ninf. rewrite sub_ninf by (apply (bn_ln c lg L K C0); [exact N1|lra]).
    apply sub_ninf, (bn_ln c lg L K C0); [apply num_pi|rewrite val_pi; lra].
  - rewrite V. pose proof ExtProofs.ln_pi_small as LP. rewrite ln_cauchy_pdf by lra. replace ((bpow radix2 70 - 0) / 1) with (bpow radix2 70) by field. rewrite ln_1.
    assert (LF : ln (1 + bpow radix2 70 * bpow radix2 70) <= 99).
    { rewrite <- bpow_plus. apply Rle_trans with (ln (bpow radix2 141)).
      - pose proof (bpow_gt_0 radix2 140). change (70 + 70)%Z with 140%Z. apply ln_le; [lra|]. change 141%Z with (1 + 140)%Z. rewrite bpow_plus. change (bpow radix2 1) with 2.
        assert (1 <= bpow radix2 140) by (apply (bpow_le radix2 0 140); lia). lra.
      - rewrite ln_bpow. destruct ln2_bounds. lra. }
    lra.
Qed.
Print Assumptions C76_single_early_overflow_refuted.

(** A library with these edges, and a mixture of two normals 2^70 apart. *)
Definition edged32 (L : libm32) : libm32 :=
  {| s_ln := fun x => match x with S754_infinity false => pinf | S754_zero _ => ninf | _ => s_ln L x end;
     s_exp := fun x => match x with S754_infinity true => S754_zero false | _ => s_exp L x end;
     s_pow := s_pow L; s_sin := s_sin L; s_cos := s_cos L; s_double := s_double L |}.
Lemma edged32_ok c lg L : libm32_ok c lg L -> libm32_ok c lg (edged32 L) /\ ln_edges32 (edged32 L) /\ s_exp (edged32 L) ninf = S754_zero false.
Proof.
  intros K. split; [|repeat split]. split; cbn [edged32 s_ln s_exp s_double].
  - intros x N P. destruct x as [b|[|]| |b m e]; try (apply K; assumption); destruct N as [_ N]; try discriminate N. cbn in P. lra.
  - intros x N P. destruct x as [b|[|]| |b m e]; try (apply K; assumption). destruct N as [_ N]; discriminate N.
  - exact (ok32_lgamma c lg L K).
Qed.
Example C76_single_case : forall lg, let L := edged32 (rounded_libm32 lg) in
  libm32_ok 1 lg L /\ ln_edges32 L /\ s_exp L ninf = S754_zero false /\ not_nan32 far70 /\
  is_single (@log_sum_exp (F32 L) [SFopp far70; ninf; far70]) /\
  proper32 (normal_ld (@mkNormal (F32 L) (f32_of_Z 0) (f32_of_Z 1)) far70) /\
  (let d mu := {| m_self := normal_base (@mkNormal (F32 L) mu (f32_of_Z 1)); m_root := primitive |} in
   mixture_ld (@mkMixture (F32 L) f32 [d far70; d (f32_of_Z 0)] [f32_of_Z 0; f32_of_Z 0]) (f32_of_Z 0) = ninf).
Proof.
  intros lg L. destruct (edged32_ok 1 lg _ (rounded_libm32_ok lg)) as (K & E & EE). fold L in K, E, EE. destruct far70_val as [N V].
  destruct one_num as [N1 V1], zero_num as [N0 V0].
  assert (P : forall mu x, is_single mu -> not_nan32 x -> proper32 (normal_ld (@mkNormal (F32 L) mu (f32_of_Z 1)) x)).
  { intros mu x M X. refine (proj1 (C76_single_location_scale 1 lg L mu (f32_of_Z 1) x K _ E M N1 _ X)); lra. }
  split; [exact K|]. split; [exact E|]. split; [exact EE|]. split; [left; exact N|]. split; [|split].
  - refine (proj1 (C76_single_log_sum_exp 1 lg L _ K _ EE _) _); [lra| |right; right; left; exact N].
    repeat apply Forall_cons; [left; split; reflexivity|right; reflexivity|left; exact N|constructor].
  - exact (P _ _ N0 (or_introl N)).
  - intros d. refine (proj2 (C76_single_mixture 1 lg L f32 _ _ _ K _ E EE _ _) _); [lra|repeat apply Forall_cons; [split; [exact N0|lra]|split; [exact N0|lra]|constructor]| |].
    + apply Forall_cons; [exact (P far70 (f32_of_Z 0) N (or_introl N0))|]. apply Forall_cons; [exact (P (f32_of_Z 0) (f32_of_Z 0) N0 (or_introl N0))|constructor].
    + intros H. apply Exists_exists in H. destruct H as (mw & I & H & _). destruct I as [<- |[<- |[]]]; cbn [snd] in H; lra.
Qed.
(** With Euler's log-gamma: gamma, chi-squared, beta and Student's t with
    parameters 1, at 2^70 and at infinity. *)
Definition edged_double (L : libm32) : libm32 :=
  {| s_ln := s_ln L; s_exp := s_exp L; s_pow := s_pow L; s_sin := s_sin L; s_cos := s_cos L; s_double := ExtProofs.edged (s_double L) |}.
Example C76_single_gamma_case : exists lg, lg_is_log_gamma lg /\ let L := edged_double (edged32 (rounded_libm32 lg)) in
  libm32_ok 1 lg L /\ ln_edges32 L /\ libm_ok 1 lg (s_double L) /\ ln_edges (s_double L) /\
  proper32 (gamma_ld (@mkGamma (F32 L) (f32_of_Z 1) (f32_of_Z 1)) far70) /\ gamma_ld (@mkGamma (F32 L) (f32_of_Z 1) (f32_of_Z 1)) pinf = S754_nan /\
  proper32 (chi_ld (@mkChi (F32 L) (f32_of_Z 1)) far70) /\ proper32 (beta_ld (@mkBeta (F32 L) (f32_of_Z 1) (f32_of_Z 1)) far70) /\
  is_single (student_ld32 L (f32_of_Z 1) far70) /\ student_ld32 L (f32_of_Z 1) pinf = ninf /\ is_single (poisson_ld (@mkPoisson (F32 L) (f32_of_Z 1)) 3).
Proof.
  destruct GammaFun.log_gamma_exists as [lg G]. exists lg. split; [exact G|]. intros L.
  destruct (edged32_ok 1 lg _ (rounded_libm32_ok lg)) as (K0 & E & _). destruct (ExtProofs.edged_ok 1 lg _ (RoundProofs.rounded_libm_ok lg)) as (KD & ED & _).
  assert (K : libm32_ok 1 lg L).
  { split; [exact (ok32_ln 1 lg _ K0)|exact (ok32_exp 1 lg _ K0)|exact (ok32_lgamma 1 lg _ K0)]. }
  change (ln_edges32 L) in E. destruct far70_val as [N V]. destruct one_num as [N1 V1]. 
  assert (B : 1 <= bpow radix2 69 /\ 1 <= bpow radix2 70 /\ 1 <= bpow radix2 99 /\ bpow radix2 (-100) <= 1) by (repeat split; [apply (bpow_le radix2 0 69)|apply (bpow_le radix2 0 70)|apply (bpow_le radix2 0 99)|apply (bpow_le radix2 (-100) 0)]; lia).
  assert (X : not_nan32 far70) by (left; exact N).
  split; [exact K|]. split; [exact E|]. split; [exact KD|]. split; [exact ED|].
  split; [refine (C76_single_gamma 1 lg L (f32_of_Z 1) (f32_of_Z 1) far70 K _ G N1 N1 _ _ X _); [lra|lra|lra|discriminate]|].
  split; [refine (proj1 (proj1 (C76_single_plus_infinity_refuted 1 lg L K _ E G) (f32_of_Z 1) (f32_of_Z 1) N1 N1 _ _) _); lra|].
  split; [refine (C76_single_chi_squared 1 lg L (f32_of_Z 1) far70 K _ G N1 _ X _); [lra|lra|discriminate]|].
  split; [refine (proj1 (C76_single_beta 1 lg L (f32_of_Z 1) (f32_of_Z 1) far70 K _ G N1 N1 _ _ X)); lra|].
  destruct (C76_single_student_t 1 lg L (f32_of_Z 1) far70 KD ltac:(lra) ED G N1 ltac:(lra)) as [S1 _].
  destruct (C76_single_student_t 1 lg L (f32_of_Z 1) pinf KD ltac:(lra) ED G N1 ltac:(lra)) as [_ S2].
  split; [exact (S1 N)|]. split; [exact (S2 (or_introl eq_refl))|].
  refine (proj2 (C76_single_poisson 1 lg L (f32_of_Z 1) 3 K _ N1 _ _) _); [lra|lra|lia|lra].
Qed.
