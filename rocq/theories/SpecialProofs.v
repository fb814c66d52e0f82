(** Special cases, defaults and symmetries of the distributions (C66). *)
From Coquelicot Require Import Coquelicot.
From Coq Require Import ZArith Reals List Bool Lra Lia Arith.
From Coq Require Import Floats.SpecFloat.
From Verif Require Import Num XRFacts DensitySpec CoreModel CoreSpec CoreProofs
  CombModel CombProofs2 ExpFamModel ExpFamSpec ExpFamProofs ContProofs2 DistModel DistSpec DistFacts DistProofs DistProofs2 DistProofs3 DistProofs4
  IntSpec GammaFun ContProofs DefaultModel ApiSpec ApiProofs.
Import ListNotations.
Local Open Scope R_scope.
Local Open Scope list_scope.

Lemma Rpower_0_r x : Rpower x 0 = 1.
Proof. unfold Rpower. rewrite Rmult_0_l. apply exp_0. Qed.

Section Special.
Context (lg : R -> R).
Notation X := (XR lg).
Notation fin r := (Fin r : X).

(** Two measures with the same support and density give the same answers. *)
Lemma has_same {P T} (pt : P -> T) (b b' : Base X T) (S S' : P -> Prop) f g :
  has_density lg pt b S f -> has_density lg pt b' S' g -> (forall p, S p <-> S' p) -> (forall p, S p -> f p = g p) ->
  (forall p, S p \/ ~ S p) -> forall p, b_support b (pt p) = b_support b' (pt p) /\ b_ld b (pt p) = b_ld b' (pt p).
Proof.
  intros [B1 B2] [C1 C2] E F D p. destruct (D p) as [H|H].
  - destruct (B1 p H) as (-> & _ & ->). destruct (C1 p (proj1 (E p) H)) as (-> & _ & ->). rewrite F by exact H. split; reflexivity.
  - assert (H' : ~ S' p) by (intros K; apply H, E, K). destruct (B2 p H) as (-> & ->). destruct (C2 p H') as (-> & ->). split; reflexivity.
Qed.

Lemma gamma_one b x : lg 1 = 0 -> 0 < b -> gamma_pdf lg 1 b x = exponential_pdf b x.
Proof.
  intros L B. unfold gamma_pdf, exponential_pdf. rewrite L, exp_0, Rpower_1 by exact B. replace (1 - 1) with 0 by ring. rewrite Rpower_0_r. field.
Qed.
Lemma chi_two x : lg 1 = 0 -> chi_squared_pdf lg 2 x = exponential_pdf (1 / 2) x.
Proof.
  intros L. unfold chi_squared_pdf, exponential_pdf. replace (2 / 2) with 1 by field. replace (1 - 1) with 0 by ring.
  rewrite L, exp_0, Rpower_0_r, Rpower_1 by lra. replace (1 / 2 * x) with (x / 2) by field. field.
Qed.
Lemma beta_one x : lg 1 = 0 -> lg 2 = 0 -> beta_pdf lg 1 1 x = 1.
Proof.
  intros L K. unfold beta_pdf. replace (1 + 1) with 2 by ring. replace (1 - 1) with 0 by ring. rewrite L, K, exp_0, !Rpower_0_r. field.
Qed.
Lemma student_one x : lg 1 = 0 -> lg (1 / 2) = ln (sqrt PI) -> student_pdf lg 1 x = cauchy_pdf 0 1 x.
Proof.
  intros L K. pose proof PI_RGT_0. assert (S : 0 < sqrt PI) by (apply sqrt_lt_R0; assumption).
  unfold student_pdf, cauchy_pdf. replace ((1 + 1) / 2) with 1 by field. rewrite L, K, exp_0, exp_ln, Rmult_1_l by exact S.
  replace (- 1) with (- (1)) by ring. rewrite Rpower_Ropp, Rpower_1 by (pose proof (pow2_ge_0 x); lra).
  rewrite sqrt_sqrt by lra. replace ((x - 0) / 1) with x by field. pose proof (pow2_ge_0 x). field. split; lra.
Qed.
Lemma beta_mirror a b x : beta_pdf lg a b x = beta_pdf lg b a (1 - x).
Proof. unfold beta_pdf. replace (1 - (1 - x)) with x by ring. rewrite (Rplus_comm b a). unfold Rdiv. rewrite (Rmult_comm (exp (lg b))). ring. Qed.
Lemma normal_mirror m s x : normal_pdf m s x = normal_pdf x s m.
Proof. unfold normal_pdf. f_equal. f_equal. unfold Rdiv. ring. Qed.
Lemma cauchy_mirror m s x : cauchy_pdf m s x = cauchy_pdf x s m.
Proof. unfold cauchy_pdf. f_equal. f_equal. unfold Rdiv. ring. Qed.

Lemma gamma_is_exponential b x d e : lg 1 = 0 -> gamma_new (fin 1) (fin b) = Some d -> exponential_new (fin b) = Some e -> x <> 0 ->
  gamma_support d (fin x) = exponential_support e (fin x) /\ gamma_ld d (fin x) = exponential_ld e (fin x).
Proof.
  intros L D E N. pose proof (gamma_has lg 1 b d D) as (G1 & G2). pose proof (exponential_has lg b e E) as (E1 & E2).
  assert (B : 0 < b) by (apply exponential_new_fin in E; tauto). specialize (G1 x). specialize (G2 x). specialize (E1 x). specialize (E2 x).
  cbn [gamma_base exponential_base continuous_base b_support b_ld] in *. unfold real in *.
  destruct (Rlt_le_dec 0 x) as [P|P].
  - destruct (G1 P) as (-> & _ & ->). destruct (E1 (Rlt_le _ _ P)) as (-> & _ & ->). rewrite gamma_one by assumption. split; reflexivity.
  - assert (Q : ~ 0 <= x) by lra. assert (Q' : ~ 0 < x) by lra. destruct (G2 Q') as (-> & ->). destruct (E2 Q) as (-> & ->). split; reflexivity.
Qed.
Lemma chi_is_exponential x d e : lg 1 = 0 -> chi_new (fin 2) = Some d -> exponential_new (fin (1 / 2)) = Some e -> x <> 0 ->
  chi_support d (fin x) = exponential_support e (fin x) /\ chi_ld d (fin x) = exponential_ld e (fin x).
Proof.
  intros L D E N. pose proof (chi_has lg 2 d D) as (G1 & G2). pose proof (exponential_has lg _ e E) as (E1 & E2).
  specialize (G1 x). specialize (G2 x). specialize (E1 x). specialize (E2 x).
  cbn [chi_base exponential_base continuous_base b_support b_ld] in *. unfold real in *.
  destruct (Rlt_le_dec 0 x) as [P|P].
  - destruct (G1 P) as (-> & _ & ->). destruct (E1 (Rlt_le _ _ P)) as (-> & _ & ->). rewrite chi_two by assumption. split; reflexivity.
  - assert (Q : ~ 0 <= x) by lra. assert (Q' : ~ 0 < x) by lra. destruct (G2 Q') as (-> & ->). destruct (E2 Q) as (-> & ->). split; reflexivity.
Qed.
(** At zero they differ. *)
Lemma zero_differs b d e : gamma_new (fin 1) (fin b) = Some d -> exponential_new (fin b) = Some e ->
  gamma_ld d (fin 0) = NInf /\ exponential_ld e (fin 0) = Fin (ln b).
Proof.
  intros D E. assert (B : 0 < b) by (apply exponential_new_fin in E; tauto). split.
  - apply (proj2 (gamma_has lg 1 b d D) 0). lra.
  - pose proof (proj1 (exponential_has lg b e E) 0 (Rle_refl 0)) as (_ & _ & V). cbn [exponential_base continuous_base b_ld] in V.
    unfold real in V. rewrite V. unfold exponential_pdf. rewrite Rmult_0_r, Ropp_0, exp_0, Rmult_1_r. reflexivity.
Qed.
Lemma student_is_cauchy x d e : lg 1 = 0 -> lg (1 / 2) = ln (sqrt PI) -> student_new (fin 1) = Some d -> cauchy_new (fin 0) (fin 1) = Some e ->
  student_ld d (fin x) = cauchy_ld e (fin x).
Proof.
  intros L K D E. pose proof (proj1 (student_has lg _ d D) x I) as (_ & _ & A). pose proof (proj1 (cauchy_has lg _ _ e E) x I) as (_ & _ & B).
  cbn [student_base cauchy_base continuous_base b_ld] in *. unfold real in *. rewrite A, B, student_one by assumption. reflexivity.
Qed.
Lemma binomial_is_bernoulli p k d e : 0 < p < 1 -> binomial_new 1 (fin p) = Some d -> bernoulli_new (fin p) = Some e ->
  binomial_support d k = bernoulli_support e k /\ binomial_ld d k = bernoulli_ld e k.
Proof.
  intros P D E. apply (has_same count _ _ _ _ _ _ (binomial_has lg 1 p d D P) (bernoulli_has lg p e E P)).
  - intros; tauto.
  - intros j H. destruct j as [|[|j]]; cbn; [ring|ring|lia].
  - intros j. lia.
Qed.
Lemma negbinomial_is_geometric p k d e : negbinomial_new 1 (fin p) = Some d -> geometric_new (fin p) = Some e ->
  negbinomial_ld d k = geometric_ld e (S k).
Proof.
  intros D E. assert (P : 0 < p < 1) by (apply negbinomial_new_fin in D; tauto).
  pose proof (proj1 (negbinomial_has lg _ p d D) k I) as (_ & _ & A). pose proof (proj1 (geometric_has lg p e E (proj2 P)) (S k)) as B.
  destruct B as (_ & _ & B); [lia|]. cbn [negbinomial_base geometric_base discrete_base b_ld] in *. unfold count in *. rewrite A, B.
  cbn [geometric_pmf]. f_equal. f_equal. ring.
Qed.

Lemma Rsum_bernoulli p ks : 0 < p < 1 -> Forall (fun k => (k <= 1)%nat) ks ->
  let s := list_sum ks in (s <= length ks)%nat /\
  Rsum (map (fun k => ln (bernoulli_pmf p k)) ks) = INR s * ln p + (INR (length ks) - INR s) * ln (1 - p).
Proof.
  intros P F s. unfold s. clear s. induction F as [|k ks K F (IL & IH)]; [split; [cbn; lia|cbn; ring]|].
  change (list_sum (k :: ks)) with (k + list_sum ks)%nat. cbn [map Rsum fold_right length] in *. unfold Rsum in IH. 
  split; [lia|]. rewrite IH. rewrite plus_INR, S_INR. destruct k as [|[|k]]; cbn [bernoulli_pmf INR]; [ring|ring|lia].
Qed.
Lemma bernoulli_sequence p d e ks : 0 < p < 1 -> bernoulli_new (fin p) = Some d -> Forall (fun k => (k <= 1)%nat) ks ->
  binomial_new (length ks) (fin p) = Some e ->
  iid_log_density (bernoulli_expfam d) ks = binomial_ld e (list_sum ks).
Proof.
  intros P D F E. rewrite (proj1 (iid_discrete lg ks) p d D P F).
  destruct (Rsum_bernoulli p ks P F) as (L & ->).
  pose proof (proj1 (binomial_has lg _ p e E P) (list_sum ks) L) as (_ & _ & B).
  cbn [binomial_base discrete_base b_ld] in B. unfold count in B. rewrite B.
  rewrite ln_mult, !ln_pow_nat, minus_INR by (try apply pow_lt; first [lra|exact L]). reflexivity.
Qed.

(** Location and scale through the linear pushforward. *)
Lemma push_linear (b : Base X X) S f s m y : has_density lg (real lg) b S f -> s <> 0 ->
  let t := linear_transform (fin s) (fin m) in
  (S ((y - m) / s) -> push_support b t (fin y) = true /\ push_ld b t (fin y) = Fin (ln (f ((y - m) / s) / Rabs s))) /\
  (~ S ((y - m) / s) -> push_support b t (fin y) = false /\ push_ld b t (fin y) = NInf).
Proof.
  intros [B B'] N t. unfold t, push_support, push_ld. cbn [inverse log_jac linear_transform].
  assert (E : (ndiv (nsub (fin y) (fin m)) (fin s) : X) = fin ((y - m) / s)) by (apply xdiv_fin; exact N).
  pose proof (Rabs_pos_lt s N) as A. rewrite E. split; intros H.
  - destruct (B ((y - m) / s) H) as (U & P & V). unfold real in *. split; [exact U|]. rewrite V.
    unfold Rdiv. rewrite ln_mult, ln_Rinv by (auto using Rinv_0_lt_compat).
    cbn [nneg nln nabs nadd XR xabs]. rewrite xln_pos by exact A. reflexivity.
  - destruct (B' ((y - m) / s) H) as (U & V). unfold real in *. split; [exact U|]. rewrite V.
    cbn [nneg nln nabs nadd XR xabs]. rewrite xln_pos by exact A. reflexivity.
Qed.
(** If the moved density is that of another measure, the two measures agree. *)
Lemma push_is (b b' : Base X X) S S' f f' s m : has_density lg (real lg) b S f -> has_density lg (real lg) b' S' f' -> s <> 0 ->
  (forall y, S' y <-> S ((y - m) / s)) -> (forall y, S' y -> f' y = f ((y - m) / s) / Rabs s) -> (forall y, S' y \/ ~ S' y) -> forall y,
  push_support b (linear_transform (fin s) (fin m)) (fin y) = b_support b' (fin y) /\
  push_ld b (linear_transform (fin s) (fin m)) (fin y) = b_ld b' (fin y).
Proof.
  intros B B' N E F D y. destruct (push_linear b S f s m y B N) as (P1 & P2). destruct (D y) as [H|H].
  - destruct (P1 (proj1 (E y) H)) as (-> & ->). destruct (proj1 B' y H) as (U & _ & V). unfold real in *. rewrite U, V, F by exact H. split; reflexivity.
  - destruct P2 as (-> & ->); [intros K; apply H, E, K|]. destruct (proj2 B' y H) as (U & V). unfold real in *. rewrite U, V. split; reflexivity.
Qed.
Lemma Rabs_sqr s : Rabs s * Rabs s = s * s.
Proof. rewrite <- Rabs_mult. apply Rabs_right. apply Rle_ge, Rle_0_sqr. Qed.
Lemma normal_moved m0 s0 s m d e : normal_new (fin m0) (fin s0) = Some d -> s <> 0 ->
  normal_new (fin (s * m0 + m)) (fin (Rabs s * s0)) = Some e -> forall y,
  push_ld (normal_base d) (linear_transform (fin s) (fin m)) (fin y) = normal_ld e (fin y).
Proof.
  intros D N E y. refine (proj2 (push_is _ (normal_base e) _ _ _ _ s m (normal_has lg _ _ d D) (normal_has lg _ _ e E) N _ _ _ y)); try tauto.
  clear y. intros y _. apply normal_new_fin in D. destruct D as (P & _). pose proof (Rabs_pos_lt s N) as A. pose proof (Rabs_sqr s) as Q.
  pose proof PI_RGT_0. assert (0 < sqrt (2 * PI)) by (apply sqrt_lt_R0; lra).
  unfold normal_pdf.
  replace ((y - (s * m0 + m)) ^ 2 / (2 * (Rabs s * s0) ^ 2)) with (((y - m) / s - m0) ^ 2 / (2 * s0 ^ 2)); [field; lra|].
  replace (2 * (Rabs s * s0) ^ 2) with (2 * ((Rabs s * Rabs s) * s0 ^ 2)) by ring. rewrite Q. field. lra.
Qed.
Lemma cauchy_moved m0 s0 s m d e : cauchy_new (fin m0) (fin s0) = Some d -> s <> 0 ->
  cauchy_new (fin (s * m0 + m)) (fin (Rabs s * s0)) = Some e -> forall y,
  push_ld (cauchy_base d) (linear_transform (fin s) (fin m)) (fin y) = cauchy_ld e (fin y).
Proof.
  intros D N E y. refine (proj2 (push_is _ (cauchy_base e) _ _ _ _ s m (cauchy_has lg _ _ d D) (cauchy_has lg _ _ e E) N _ _ _ y)); try tauto.
  clear y. intros y _. apply cauchy_new_fin in D. destruct D as (P & _). pose proof (Rabs_pos_lt s N) as A. pose proof (Rabs_sqr s) as Q.
  pose proof PI_RGT_0. unfold cauchy_pdf.
  assert (W : ((y - (s * m0 + m)) / (Rabs s * s0)) ^ 2 = (((y - m) / s - m0) / s0) ^ 2).
  { replace (((y - (s * m0 + m)) / (Rabs s * s0)) ^ 2) with ((y - (s * m0 + m)) ^ 2 / ((Rabs s * Rabs s) * s0 ^ 2)) by (field; lra).
    rewrite Q. field. lra. }
  rewrite W. pose proof (pow2_ge_0 (((y - m) / s - m0) / s0)). set (z := (((y - m) / s - m0) / s0) ^ 2) in *. field. repeat split; lra.
Qed.
Lemma gamma_moved a b s d e : gamma_new (fin a) (fin b) = Some d -> 0 < s -> gamma_new (fin a) (fin (b / s)) = Some e -> forall y,
  push_support (gamma_base d) (linear_transform (fin s) (fin 0)) (fin y) = gamma_support e (fin y) /\
  push_ld (gamma_base d) (linear_transform (fin s) (fin 0)) (fin y) = gamma_ld e (fin y).
Proof.
  intros D N E y. assert (N' : s <> 0) by lra.
  assert (SG : forall y, 0 < y <-> 0 < (y - 0) / s).
  { intros z. split; intros H; [apply Rdiv_lt_0_compat; lra|]. replace z with ((z - 0) / s * s) by (field; lra). apply Rmult_lt_0_compat; assumption. }
  refine (push_is _ (gamma_base e) _ _ _ _ s 0 (gamma_has lg _ _ d D) (gamma_has lg _ _ e E) N' _ _ _ y).
  - exact SG.
  - clear y. intros y H. apply gamma_new_fin in D. destruct D as (A & B & _). rewrite Rabs_right by lra. unfold gamma_pdf.
    rewrite Rminus_0_r. replace (b * (y / s)) with (b / s * y) by (field; lra).
    assert (T : 0 < / s) by (apply Rinv_0_lt_compat, N). unfold Rdiv. rewrite <- !Rpower_mult_distr by assumption.
    replace (Rpower (/ s) a) with (Rpower (/ s) (a - 1) * / s); [ring|].
    rewrite <- (Rpower_1 (/ s) T) at 2. rewrite <- Rpower_plus. f_equal. ring.
  - clear. intros y. destruct (Rlt_le_dec 0 y); [left|right]; lra.
Qed.
End Special.

(** ** Symmetries that hold bit for bit in binary64 *)
Lemma f64_sub_swap a b : f64_sub a b = f64_sub b a \/ f64_sub a b = SFopp (f64_sub b a).
Proof.
  destruct a as [s|s| |s m e], b as [t|t| |t n f]; try (destruct s, t; cbn; tauto); try (destruct s; cbn; tauto); try (destruct t; cbn; tauto); try (cbn; tauto).
  unfold f64_sub, SFsub. rewrite (Z.min_comm f e). cbn zeta. set (u := cond_Zopp s _). set (w := cond_Zopp t _).
  destruct (Z.eq_dec (w - u) 0) as [E|E].
  - left. rewrite E. replace (u - w)%Z with 0%Z by lia. reflexivity.
  - right. replace (u - w)%Z with (- (w - u))%Z by lia. apply bn_opp, E.
Qed.
Lemma xorb_negb_l a b : xorb (negb a) b = negb (xorb a b). Proof. destruct a, b; reflexivity. Qed.
Lemma f64_mul_opp_l a b : f64_mul (SFopp a) b = SFopp (f64_mul a b).
Proof.
  destruct a as [s|s| |s m e], b as [t|t| |t n f]; try (destruct s, t; reflexivity); try (destruct s; reflexivity); try (destruct t; reflexivity); try reflexivity.
  unfold f64_mul, SFmul. cbn [SFopp]. rewrite xorb_negb_l. apply bra_opp.
Qed.
Lemma f64_mul_opp_r a b : f64_mul a (SFopp b) = SFopp (f64_mul a b).
Proof.
  destruct a as [s|s| |s m e], b as [t|t| |t n f]; try (destruct s, t; reflexivity); try (destruct s; reflexivity); try (destruct t; reflexivity); try reflexivity.
  unfold f64_mul, SFmul. cbn [SFopp]. replace (xorb s (negb t)) with (negb (xorb s t)) by (destruct s, t; reflexivity). apply bra_opp.
Qed.
Lemma f64_div_opp_l a b : f64_div (SFopp a) b = SFopp (f64_div a b).
Proof.
  destruct a as [s|s| |s m e], b as [t|t| |t n f]; try (destruct s, t; reflexivity); try (destruct s; reflexivity); try (destruct t; reflexivity); try reflexivity.
  unfold f64_div, SFdiv. cbn [SFopp]. destruct (SFdiv_core_binary _ _ _ _ _ _) as [[mz ez] lz]. rewrite xorb_negb_l. apply bra_opp.
Qed.
Lemma opp2 (w : f64) : SFopp (SFopp w) = w. Proof. destruct w; cbn; rewrite ?negb_involutive; reflexivity. Qed.

Lemma normal_swap_f64 L (m s x : F64 L) : normal_ld (mkNormal m s) x = normal_ld (mkNormal x s) m.
Proof.
  unfold normal_ld. cbn [n_mean n_sd nsub ndiv nmul F64]. destruct (f64_sub_swap x m) as [E|E]; rewrite E; [reflexivity|].
  rewrite !f64_div_opp_l, !f64_mul_opp_r, !f64_mul_opp_l, opp2. reflexivity.
Qed.
Lemma cauchy_swap_f64 L (m s x : F64 L) : cauchy_ld (mkCauchy m s) x = cauchy_ld (mkCauchy x s) m.
Proof.
  unfold cauchy_ld. cbn [c_loc c_scale nsub ndiv nmul F64]. destruct (f64_sub_swap x m) as [E|E]; rewrite E; [reflexivity|].
  rewrite f64_div_opp_l, f64_mul_opp_r, f64_mul_opp_l, opp2. reflexivity.
Qed.
Lemma student_even_f64 L (nu x : F64 L) : student_ld (mkStudent nu) (nneg x) = student_ld (mkStudent nu) x.
Proof.
  unfold student_ld, student_log_pdf, student_kernel. cbn [t_nu nneg nmul F64].
  replace (f64_mul (SFopp x) (SFopp x)) with (f64_mul x x) by (rewrite f64_mul_opp_r, f64_mul_opp_l, opp2; reflexivity). reflexivity.
Qed.

(** ** Two categories are a coin, in every arithmetic *)
Lemma categorical_is_bernoulli (N : Num) (p : N) k :
  categorical_support (mkCategorical [nsub n1 p; p]) k = bernoulli_support (mkBernoulli p) k /\
  categorical_ld (mkCategorical [nsub n1 p; p]) k = bernoulli_ld (mkBernoulli p) k.
Proof. destruct k as [|[|k]]; split; reflexivity. Qed.

(** ** Packaged statements *)
Lemma defaults_xr lg : let N := XR lg in
    normal_new (Fin 0 : N) (Fin 1 : N) = Some normal_default /\ exponential_new (Fin 1 : N) = Some exponential_default /\
    gamma_new (Fin 1 : N) (Fin 1 : N) = Some gamma_default /\ beta_new (Fin 1 : N) (Fin 1 : N) = Some beta_default /\
    chi_new (Fin 1 : N) = Some chi_default /\ student_new (Fin 1 : N) = student_default /\ student_default <> None (A := StudentT N) /\
    cauchy_new (Fin 0 : N) (Fin 1 : N) = cauchy_default /\ cauchy_default = cauchy_standard (N := N) /\ cauchy_default <> None (A := Cauchy N) /\
    bernoulli_new (Fin (1 / 2) : N) = Some bernoulli_default /\ geometric_new (Fin (1 / 2) : N) = Some geometric_default /\
    poisson_new (Fin 1 : N) = Some poisson_default.
Proof.
  unfold normal_default, exponential_default, gamma_default, beta_default, chi_default, student_default, cauchy_default, cauchy_standard, bernoulli_default, geometric_default, poisson_default.
  rewrite x_n0, x_n1, x_nhalf.
  assert (B : @nltb (XR lg) (@n0 (XR lg)) (Fin 1) = true) by (rewrite x_ltb0; apply Rltb_t; lra).
  split; [apply normal_new_ok; lra|]. split; [unfold exponential_new; rewrite B; reflexivity|].
  split; [unfold gamma_new; rewrite B; reflexivity|]. split; [unfold beta_new; rewrite B; reflexivity|]. split; [unfold chi_new; rewrite B; reflexivity|].
  split; [reflexivity|]. split; [unfold student_new; rewrite B; discriminate|]. split; [reflexivity|]. split; [reflexivity|]. split; [unfold cauchy_new; rewrite B; discriminate|].
  split; [apply bernoulli_new_ok; lra|]. split; [apply geometric_new_ok; lra|]. unfold poisson_new; rewrite B; reflexivity.
Qed.
Lemma defaults_f64 (L : libm) : let N := F64 L in
    normal_new (f64_of_Z 0 : N) (f64_of_Z 1 : N) = Some normal_default /\ exponential_new (f64_of_Z 1 : N) = Some exponential_default /\
    gamma_new (f64_of_Z 1 : N) (f64_of_Z 1 : N) = Some gamma_default /\ beta_new (f64_of_Z 1 : N) (f64_of_Z 1 : N) = Some beta_default /\
    chi_new (f64_of_Z 1 : N) = Some chi_default /\ student_new (f64_of_Z 1 : N) = student_default /\ student_default <> None (A := StudentT N) /\
    cauchy_new (f64_of_Z 0 : N) (f64_of_Z 1 : N) = cauchy_default /\ cauchy_default = cauchy_standard (N := N) /\ cauchy_default <> None (A := Cauchy N) /\
    bernoulli_new (f64_dec 5 10 : N) = Some bernoulli_default /\ geometric_new (f64_dec 5 10 : N) = Some geometric_default /\
    poisson_new (f64_of_Z 1 : N) = Some poisson_default.
Proof. repeat split; try reflexivity; discriminate. Qed.

Lemma default_is_standard lg x :
  normal_ld (normal_default (N := XR lg)) (Fin x : XR lg) = ef_density (stdnormal_expfam (N := XR lg)) (Fin x : XR lg) /\
  ef_density (stdnormal_expfam (N := XR lg)) (Fin x : XR lg) = Fin (ln (normal_pdf 0 1 x)).
Proof.
  unfold normal_default. rewrite x_n0, x_n1. rewrite (normal_direct lg 0 1 x) by lra. rewrite stdnormal_ef. split; reflexivity.
Qed.
Lemma stdnormal_natural lg :
  (forall eta : list (XR lg), stdnormal_from_natural eta = Some tt) /\
  (forall a b, stdnormal_from_natural [Fin a : XR lg; Fin b : XR lg] = Some tt /\
     (ef_natural (stdnormal_expfam (N := XR lg)) = [Fin a : XR lg; Fin b : XR lg] <-> a = 0 /\ b = - / 2)).
Proof.
  split; [reflexivity|]. intros a b. split; [reflexivity|]. unfold stdnormal_expfam. cbn [ef_natural expfam]. rewrite x_n0.
  assert (H : (ndec (-5) 10 : XR lg) = Fin (- / 2)) by (cbn [ndec XR]; unfold xdec; f_equal; field). rewrite H.
  split; [intros E; injection E as E1 E2; split; congruence|]. intros (-> & ->). reflexivity.
Qed.
Lemma lg_1 lg : lg_is_log_gamma lg -> lg 1 = 0.
Proof. intros H. pose proof (log_gamma_factorial lg H 0%nat) as G. cbn in G. rewrite G. apply ln_1. Qed.
Lemma lg_2 lg : lg_is_log_gamma lg -> lg 2 = 0.
Proof. intros H. pose proof (log_gamma_factorial lg H 1%nat) as G. cbn in G. replace (1 + 1) with 2 in G by ring. rewrite G. apply ln_1. Qed.
Lemma gamma_special lg : lg_is_log_gamma lg ->
  (forall b d e x, gamma_new (Fin 1 : XR lg) (Fin b : XR lg) = Some d -> exponential_new (Fin b : XR lg) = Some e -> x <> 0 ->
     gamma_support d (Fin x : XR lg) = exponential_support e (Fin x : XR lg) /\ gamma_ld d (Fin x : XR lg) = exponential_ld e (Fin x : XR lg)) /\
  (forall d e x, chi_new (Fin 2 : XR lg) = Some d -> exponential_new (Fin (1 / 2) : XR lg) = Some e -> x <> 0 ->
     chi_support d (Fin x : XR lg) = exponential_support e (Fin x : XR lg) /\ chi_ld d (Fin x : XR lg) = exponential_ld e (Fin x : XR lg)).
Proof.
  intros H. pose proof (lg_1 lg H) as L. split; [intros b d e x D E N; apply (gamma_is_exponential lg b x d e L D E N)|].
  intros d e x D E N. apply (chi_is_exponential lg x d e L D E N).
Qed.
Lemma beta_student_special lg : lg_is_log_gamma lg ->
  (forall x, 0 < x < 1 -> beta_ld (beta_default (N := XR lg)) (Fin x : XR lg) = Fin 0) /\
  (forall x d e, student_default (N := XR lg) = Some d -> cauchy_standard (N := XR lg) = Some e ->
     student_ld d (Fin x : XR lg) = cauchy_ld e (Fin x : XR lg)).
Proof.
  intros H. pose proof (lg_1 lg H) as L. pose proof (lg_2 lg H) as K. split.
  - intros x P. unfold beta_default. rewrite x_n1. rewrite (beta_direct lg 1 1 x) by lra. rewrite beta_one, ln_1 by assumption. reflexivity.
  - intros x d e D E. unfold student_default in D. unfold cauchy_standard in E. rewrite x_n1 in D, E. rewrite x_n0 in E.
    apply (student_is_cauchy lg x d e L); [|exact D|exact E]. rewrite (lg_half lg H). pose proof PI_RGT_0.
    assert (S : 0 < sqrt PI) by (apply sqrt_lt_R0; assumption). rewrite <- (sqrt_sqrt PI) at 1 by lra. rewrite ln_mult by exact S. lra.
Qed.
Lemma categorical_coin (N : Num) (p : N) c d k :
  categorical_new [nsub n1 p; p] = Some c -> bernoulli_new p = Some d ->
  categorical_support c k = bernoulli_support d k /\ categorical_ld c k = bernoulli_ld d k.
Proof.
  intros C D. assert (c = mkCategorical [nsub n1 p; p]) as ->.
  { unfold categorical_new in C. destruct (forallb _ _); [|discriminate]. destruct (nltb _ _); [|discriminate]. injection C as <-. reflexivity. }
  assert (d = mkBernoulli p) as ->.
  { unfold bernoulli_new in D. destruct (_ && _); [|discriminate]. injection D as <-. reflexivity. }
  apply categorical_is_bernoulli.
Qed.
Lemma mirrors lg a b x :
  (forall d e, beta_new (Fin a : XR lg) (Fin b : XR lg) = Some d -> beta_new (Fin b : XR lg) (Fin a : XR lg) = Some e ->
     beta_support d (Fin x : XR lg) = beta_support e (Fin (1 - x) : XR lg) /\ beta_ld d (Fin x : XR lg) = beta_ld e (Fin (1 - x) : XR lg)) /\
  (forall d, normal_new (Fin a : XR lg) (Fin b : XR lg) = Some d -> normal_ld d (Fin (a + x) : XR lg) = normal_ld d (Fin (a - x) : XR lg)) /\
  (forall d, cauchy_new (Fin a : XR lg) (Fin b : XR lg) = Some d -> cauchy_ld d (Fin (a + x) : XR lg) = cauchy_ld d (Fin (a - x) : XR lg)) /\
  (forall d, student_new (Fin a : XR lg) = Some d -> student_ld d (Fin x : XR lg) = student_ld d (Fin (- x) : XR lg)).
Proof.
  split; [|split; [|split]].
  - intros d e D E. destruct (beta_has lg a b d D) as (B1 & B2). destruct (beta_has lg b a e E) as (C1 & C2).
    cbn [beta_base continuous_base b_support b_ld] in *. unfold real in *.
    destruct (Rlt_le_dec 0 x) as [P|P]; [destruct (Rlt_le_dec x 1) as [Q|Q]|].
    + destruct (B1 x (conj P Q)) as (-> & _ & ->). destruct (C1 (1 - x)) as (-> & _ & ->); [lra|]. rewrite <- beta_mirror. split; reflexivity.
    + destruct (B2 x) as (-> & ->); [lra|]. destruct (C2 (1 - x)) as (-> & ->); [lra|]. split; reflexivity.
    + destruct (B2 x) as (-> & ->); [lra|]. destruct (C2 (1 - x)) as (-> & ->); [lra|]. split; reflexivity.
  - intros d D. apply normal_new_fin in D. destruct D as (P & ->). rewrite !normal_direct by exact P. unfold normal_pdf.
    replace ((a + x - a) ^ 2) with ((a - x - a) ^ 2) by ring. reflexivity.
  - intros d D. pose proof (proj1 (cauchy_has lg _ _ d D) (a + x) I) as (_ & _ & V). pose proof (proj1 (cauchy_has lg _ _ d D) (a - x) I) as (_ & _ & W).
    cbn [cauchy_base continuous_base b_ld] in V, W. unfold real in V, W. rewrite V, W. unfold cauchy_pdf.
    replace (((a + x - a) / b) ^ 2) with (((a - x - a) / b) ^ 2) by (unfold Rdiv; ring). reflexivity.
  - intros d D. pose proof (proj1 (student_has lg _ d D) x I) as (_ & _ & V). pose proof (proj1 (student_has lg _ d D) (- x) I) as (_ & _ & W).
    cbn [student_base continuous_base b_ld] in V, W. unfold real in V, W. rewrite V, W. unfold student_pdf.
    replace ((- x) ^ 2) with (x ^ 2) by ring. reflexivity.
Qed.

(** * Accessors *)
Lemma accessors (N : Num) :
  (forall (l s : N) d, cauchy_new l s = Some d -> cauchy_location d = l /\ DefaultModel.cauchy_scale d = s) /\
  (forall (nu : N) d, student_new nu = Some d -> student_nu d = nu) /\
  (forall (ps : list N) d k, categorical_new ps = Some d ->
     num_categories d = length ps /\ (categorical_support d k = true <-> (k < num_categories d)%nat)) /\
  (forall n (d : Categorical N), categorical_uniform n = Some d -> num_categories d = n).
Proof.
  assert (C : forall (ps : list N) d, categorical_new ps = Some d -> d = mkCategorical ps).
  { intros ps d H. unfold categorical_new in H. destruct ps as [|p ps]; [discriminate|]. destruct (forallb _ _); [|discriminate].
    destruct (nltb _ _); [|discriminate]. injection H as <-. reflexivity. }
  split; [|split; [|split]].
  - intros l s d H. unfold cauchy_new in H. destruct (nltb _ _); [|discriminate]. injection H as <-. split; reflexivity.
  - intros nu d H. unfold student_new in H. destruct (nltb _ _); [|discriminate]. injection H as <-. reflexivity.
  - intros ps d k H. rewrite (C ps d H). split; [reflexivity|]. unfold categorical_support, num_categories. apply Nat.ltb_lt.
  - intros n d H. unfold categorical_uniform in H. destruct (Nat.ltb 0 n); [|discriminate]. rewrite (C _ _ H). apply repeat_length.
Qed.
Lemma odds_accessors lg p n : 0 < p < 1 ->
  (forall d, bernoulli_new (Fin p : XR lg) = Some d -> bernoulli_log_odds d = Fin (ln (p / (1 - p)))) /\
  (forall d, binomial_new n (Fin p : XR lg) = Some d -> binomial_log_odds d = Fin (ln (p / (1 - p)))) /\
  (forall d, negbinomial_new n (Fin p : XR lg) = Some d ->
     negbinomial_log_odds d = Fin (ln (p / (1 - p))) /\ negbinomial_failure_prob d = Fin (1 - p)) /\
  (forall d, geometric_new (Fin p : XR lg) = Some d -> geometric_failure_prob d = Fin (1 - p)).
Proof.
  intros P. pose proof (x_log_odds lg p P) as O. split; [|split; [|split]].
  - intros d H. unfold bernoulli_new in H. destruct (_ && _); [|discriminate]. injection H as <-. exact O.
  - intros d H. unfold binomial_new in H. destruct (_ && _); [|discriminate]. injection H as <-. exact O.
  - intros d H. unfold negbinomial_new in H. destruct (Nat.ltb 0 n); [|discriminate]. destruct (_ && _); [|discriminate]. injection H as <-. split; [exact O|].
    unfold negbinomial_failure_prob. cbn [nb_prob]. rewrite x_n1. reflexivity.
  - intros d H. unfold geometric_new in H. destruct (_ && _); [|discriminate]. injection H as <-.
    unfold geometric_failure_prob. cbn [ge_prob]. rewrite x_n1. reflexivity.
Qed.
