(** Proofs for C58. *)
From Coq Require Import ZArith Reals Bool String List Lia Lra.
From Coq Require Import Floats.SpecFloat.
From Flocq Require Import Core IEEE754.BinarySingleNaN.
From Verif Require Import Num FloatFacts ExprModel ExprSpec ExprSimplify EggSpec LitFacts FloatErr AccProofs DensitySpec AccSpec RoundSpec RoundProofs DistFloat SimpFloatSpec.
Import ListNotations.
Local Open Scope R_scope.

#[local] Instance Hprec64 : FLX.Prec_gt_0 53 := eq_refl _.
#[local] Instance Hmax64 : Prec_lt_emax 53 1024 := eq_refl _.

Definition fits (r : R) : Prop := Rabs (RN r) < bpow radix2 1024.

Lemma overflow_not m s (b : binary_float 53 1024) : B2SF b = binary_overflow 53 1024 m s -> m = mode_NE -> is_num (B2SF b) -> False.
Proof. intros E -> [_ F]. rewrite E in F. discriminate F. Qed.

Section Fin.
Context (a b : f64) (A : is_num a) (B : is_num b).
Lemma add_fin : is_num (f64_add a b) -> fits (val a + val b).
Proof.
  destruct (num_B a A) as (x & -> & X & VX), (num_B b B) as (y & -> & Y & VY). rewrite <- VX, <- VY.
  unfold f64_add. rewrite (add_equiv 53 1024 Hprec64 Hmax64).
  pose proof (Bplus_correct 53 1024 Hprec64 Hmax64 mode_NE x y X Y) as C.
  change (round radix2 (SpecFloat.fexp 53 1024) (round_mode mode_NE)) with RN in C.
  destruct (Rlt_bool_spec (Rabs (RN (B2R x + B2R y))) (bpow radix2 1024)) as [K|K]; [intros; exact K|].
  intros N. exfalso. exact (overflow_not _ _ _ (proj1 C) eq_refl N).
Qed.
Lemma sub_fin : is_num (f64_sub a b) -> fits (val a - val b).
Proof.
  destruct (num_B a A) as (x & -> & X & VX), (num_B b B) as (y & -> & Y & VY). rewrite <- VX, <- VY.
  unfold f64_sub. rewrite (sub_equiv 53 1024 Hprec64 Hmax64).
  pose proof (Bminus_correct 53 1024 Hprec64 Hmax64 mode_NE x y X Y) as C.
  change (round radix2 (SpecFloat.fexp 53 1024) (round_mode mode_NE)) with RN in C.
  destruct (Rlt_bool_spec (Rabs (RN (B2R x - B2R y))) (bpow radix2 1024)) as [K|K]; [intros; exact K|].
  intros N. exfalso. exact (overflow_not _ _ _ (proj1 C) eq_refl N).
Qed.
Lemma mul_fin : is_num (f64_mul a b) -> fits (val a * val b).
Proof.
  destruct (num_B a A) as (x & -> & X & VX), (num_B b B) as (y & -> & Y & VY). rewrite <- VX, <- VY.
  unfold f64_mul. rewrite (mul_equiv 53 1024 Hprec64 Hmax64).
  pose proof (Bmult_correct 53 1024 Hprec64 Hmax64 mode_NE x y) as C.
  change (round radix2 (SpecFloat.fexp 53 1024) (round_mode mode_NE)) with RN in C.
  destruct (Rlt_bool_spec (Rabs (RN (B2R x * B2R y))) (bpow radix2 1024)) as [K|K]; [intros; exact K|].
  intros N. exfalso. exact (overflow_not _ _ _ C eq_refl N).
Qed.
Lemma div_fin : val b <> 0 -> is_num (f64_div a b) -> fits (val a / val b).
Proof.
  destruct (num_B a A) as (x & -> & X & VX), (num_B b B) as (y & -> & Y & VY). rewrite <- VX, <- VY. intros Z.
  unfold f64_div. rewrite (div_equiv 53 1024 Hprec64 Hmax64).
  pose proof (Bdiv_correct 53 1024 Hprec64 Hmax64 mode_NE x y Z) as C.
  change (round radix2 (SpecFloat.fexp 53 1024) (round_mode mode_NE)) with RN in C.
  destruct (Rlt_bool_spec (Rabs (RN (B2R x / B2R y))) (bpow radix2 1024)) as [K|K]; [intros; exact K|].
  intros N. exfalso. exact (overflow_not _ _ _ C eq_refl N).
Qed.
End Fin.

Lemma SFeqb_num u v : is_num u -> is_num v -> SFeqb u v = Req_bool (val u) (val v).
Proof.
  intros U V. destruct (num_B u U) as (x & -> & X & VX), (num_B v V) as (y & -> & Y & VY). rewrite <- VX, <- VY.
  exact (Beqb_correct 53 1024 x y X Y).
Qed.
Lemma val_cases x y : is_num x -> is_num y -> val x = val y -> x = y \/ (val x = 0 /\ val y = 0).
Proof.
  intros X Y E. destruct (Req_EM_T (val x) 0) as [Z|Z]; [right; split; congruence|left].
  destruct X as [X F], Y as [Y G]. apply val_inj; auto.
  assert (S : forall c, finite c -> val c <> 0 -> sign_SF c = Rlt_bool (val c) 0).
  { intros [s|s| |s m e] K W; try discriminate K; [elim W; reflexivity|]. cbn [sign_SF]. symmetry. unfold val. cbn [SF2R].
    destruct s; [apply Rlt_bool_true, F2R_lt_0|apply Rlt_bool_false, F2R_ge_0]; cbn; lia. }
  rewrite (S x F Z), (S y G), E; [reflexivity|congruence].
Qed.

Section S.
Context {L : libm}.
Let F := F64 L.
Notation expr := (expr F).
Context (AF : annex_f L) (vars : env F).

Definition lib1 (f : f64 -> f64) (a r : R) : Prop := forall x, is_num x -> val x = a -> is_num (f x) /\ val (f x) = r.
Definition lib2 (f : f64 -> f64 -> f64) (a b r : R) : Prop :=
  forall x y, is_num x -> is_num y -> val x = a -> val y = b -> is_num (f x y) /\ val (f x y) = r.

(** Every operation carried out and rounded; all results finite. *)
Inductive rv : expr -> R -> Prop :=
| rv_const c r : is_num c -> val c = r -> rv (Const c) r
| rv_var x w r : get vars x = Some w -> is_num w -> val w = r -> rv (Var x) r
| rv_add e f a b r : rv e a -> rv f b -> fits (a + b) -> RN (a + b) = r -> rv (Add e f) r
| rv_sub e f a b r : rv e a -> rv f b -> fits (a - b) -> RN (a - b) = r -> rv (Sub e f) r
| rv_mul e f a b r : rv e a -> rv f b -> fits (a * b) -> RN (a * b) = r -> rv (Mul e f) r
| rv_div e f a b r : rv e a -> rv f b -> b <> 0 -> fits (a / b) -> RN (a / b) = r -> rv (Div e f) r
| rv_pow e f a b r : rv e a -> rv f b -> lib2 (l_pow L) a b r -> rv (Pow e f) r
| rv_ln e a r : rv e a -> 0 < a -> lib1 (l_ln L) a r -> rv (Ln e) r
| rv_exp e a r : rv e a -> lib1 (l_exp L) a r -> rv (Exp e) r
| rv_sqrt e a r : rv e a -> 0 <= a -> RN (sqrt a) = r -> rv (Sqrt e) r
| rv_sin e a r : rv e a -> lib1 (l_sin L) a r -> rv (Sin e) r
| rv_cos e a r : rv e a -> lib1 (l_cos L) a r -> rv (Cos e) r
| rv_neg e a r : rv e a -> - a = r -> rv (Neg e) r.

Lemma lit_num z : (Z.abs z <= 2 ^ 53)%Z -> is_num (nint z : F) /\ val (nint z : F) = IZR z.
Proof. exact (num_int z). Qed.
Lemma lit_val z (e : expr) r : (Z.abs z <= 2 ^ 53)%Z -> is_lit (nint z : F) e = true -> rv e r -> r = IZR z.
Proof.
  intros Z H R. destruct e; try discriminate H. cbn in H. inversion R; subst. destruct (lit_num z Z) as [N V].
  change (SFeqb c (f64_of_Z z) = true) in H. rewrite SFeqb_num in H by assumption. destruct (Req_bool_spec (val c) (val (f64_of_Z z))); [|discriminate H].
  etransitivity; eassumption.
Qed.

Lemma rv_eval e r : rv e r -> exists w, evaluate vars e = Ok w /\ is_num w /\ val w = r.
Proof.
  assert (RNV : forall w, is_num w -> RN (val w) = val w) by (intros w [V _]; apply RN_val, V).
  induction 1 as [c r N V|x w r G N V|e f a b r R1 I1 R2 I2 T E|e f a b r R1 I1 R2 I2 T E|e f a b r R1 I1 R2 I2 T E
    |e f a b r R1 I1 R2 I2 Z T E|e f a b r R1 I1 R2 I2 P|e a r R I P K|e a r R I K|e a r R I P K|e a r R I K|e a r R I K|e a r R I K].
  - cbn [evaluate]. eauto.
  - cbn [evaluate]. rewrite G. eauto.
  - destruct I1 as (u & E1 & N1 & V1), I2 as (v & E2 & N2 & V2).
    assert (D : is_num (f64_add u v) /\ val (f64_add u v) = r) by (rewrite <- E, <- V1, <- V2; apply add_num; try assumption; rewrite V1, V2; exact T).
    assert (G : forall s t, (s = Ok v :> res F F) -> (t = Ok u :> res F F) -> exists w, (if is_lit (n0 : F) e then s else if is_lit (n0 : F) f then t else let? a := evaluate vars e in let? b := evaluate vars f in Ok (f64_add a b)) = Ok w /\ is_num w /\ val w = r).
    { intros s t -> ->. destruct (is_lit n0 e) eqn:Q1.
      - exists v. split; [reflexivity|]. split; [exact N2|]. apply (lit_val 0) with (r := a) in Q1; [|cbn; lia|exact R1].
        rewrite <- E, Q1, Rplus_0_l, <- V2. symmetry. apply RNV, N2.
      - destruct (is_lit n0 f) eqn:Q2.
        + exists u. split; [reflexivity|]. split; [exact N1|]. apply (lit_val 0) with (r := b) in Q2; [|cbn; lia|exact R2].
          rewrite <- E, Q2, Rplus_0_r, <- V1. symmetry. apply RNV, N1.
        + rewrite E1, E2. cbn. exists (f64_add u v). tauto. }
    cbn [evaluate]. destruct e; try exact (G _ _ E2 E1). destruct f; try exact (G _ _ E2 E1).
    cbn in E1, E2. injection E1 as ->. injection E2 as ->. exists (f64_add u v). tauto.
  - destruct I1 as (u & E1 & N1 & V1), I2 as (v & E2 & N2 & V2). cbn [evaluate]. rewrite E1, E2. cbn.
    exists (f64_sub u v). split; [reflexivity|]. rewrite <- E, <- V1, <- V2. apply sub_num; try assumption. rewrite V1, V2. exact T.
  - destruct I1 as (u & E1 & N1 & V1), I2 as (v & E2 & N2 & V2).
    assert (D : is_num (f64_mul u v) /\ val (f64_mul u v) = r) by (rewrite <- E, <- V1, <- V2; apply mul_num; try assumption; rewrite V1, V2; exact T).
    assert (G : forall s t, (s = Ok v :> res F F) -> (t = Ok u :> res F F) -> exists w, (if is_lit (n0 : F) e || is_lit (n0 : F) f then Ok (n0 : F) else if is_lit (n1 : F) e then s else if is_lit (n1 : F) f then t else let? a := evaluate vars e in let? b := evaluate vars f in Ok (f64_mul a b)) = Ok w /\ is_num w /\ val w = r).
    { intros s t -> ->. destruct (lit_num 0 ltac:(cbn; lia)) as [N0 V0].
      destruct (is_lit n0 e) eqn:Q1; [|destruct (is_lit n0 f) eqn:Q2; [|destruct (is_lit n1 e) eqn:Q3; [|destruct (is_lit n1 f) eqn:Q4]]]; cbn [orb].
      - exists (n0 : F). split; [reflexivity|]. split; [exact N0|]. apply (lit_val 0) with (r := a) in Q1; [|cbn; lia|exact R1]. rewrite <- E, Q1, Rmult_0_l, RN_0. exact V0.
      - exists (n0 : F). split; [reflexivity|]. split; [exact N0|]. apply (lit_val 0) with (r := b) in Q2; [|cbn; lia|exact R2]. rewrite <- E, Q2, Rmult_0_r, RN_0. exact V0.
      - exists v. split; [reflexivity|]. split; [exact N2|]. apply (lit_val 1) with (r := a) in Q3; [|cbn; lia|exact R1].
        rewrite <- E, Q3, Rmult_1_l, <- V2. symmetry. apply RNV, N2.
      - exists u. split; [reflexivity|]. split; [exact N1|]. apply (lit_val 1) with (r := b) in Q4; [|cbn; lia|exact R2].
        rewrite <- E, Q4, Rmult_1_r, <- V1. symmetry. apply RNV, N1.
      - rewrite E1, E2. cbn. exists (f64_mul u v). tauto. }
    cbn [evaluate]. destruct e; try exact (G _ _ E2 E1). destruct f; try exact (G _ _ E2 E1).
    cbn in E1, E2. injection E1 as ->. injection E2 as ->. exists (f64_mul u v). tauto.
  - destruct I1 as (u & E1 & N1 & V1), I2 as (v & E2 & N2 & V2). cbn [evaluate]. rewrite E1, E2. cbn [bind].
    destruct (lit_num 0 ltac:(cbn; lia)) as [N0 V0].
    replace (neqb v (n0 : F)) with false.
    2:{ symmetry. change (SFeqb v (nint 0 : F) = false). rewrite (SFeqb_num _ _ N2 N0), V0, V2. apply Req_bool_false, Z. }
    exists (f64_div u v). split; [reflexivity|]. rewrite <- E, <- V1, <- V2. apply div_num; try assumption; rewrite ?V1, ?V2; assumption.
  - destruct I1 as (u & E1 & N1 & V1), I2 as (v & E2 & N2 & V2). cbn [evaluate]. rewrite E1, E2. cbn.
    exists (l_pow L u v). split; [reflexivity|]. apply P; assumption.
  - destruct I as (u & E1 & N1 & V1). cbn [evaluate]. rewrite E1. cbn [bind]. destruct (lit_num 0 ltac:(cbn; lia)) as [N0 V0].
    replace (nleb u (n0 : F)) with false.
    2:{ symmetry. change (SFleb u (nint 0 : F) = false). rewrite (SFleb_num _ _ N1 N0), V0, V1. apply Rle_bool_false, P. }
    exists (l_ln L u). split; [reflexivity|]. apply K; assumption.
  - destruct I as (u & E1 & N1 & V1). cbn [evaluate]. rewrite E1. cbn. exists (l_exp L u). split; [reflexivity|]. apply K; assumption.
  - destruct I as (u & E1 & N1 & V1). cbn [evaluate]. rewrite E1. cbn [bind]. destruct (lit_num 0 ltac:(cbn; lia)) as [N0 V0].
    replace (nltb u (n0 : F)) with false.
    2:{ symmetry. change (SFltb u (nint 0 : F) = false). rewrite (SFltb_num _ _ N1 N0), V0, V1. apply Rlt_bool_false, P. }
    exists (f64_sqrt u). split; [reflexivity|]. rewrite <- K, <- V1. apply sqrt_num; [exact N1|]. rewrite V1. exact P.
  - destruct I as (u & E1 & N1 & V1). cbn [evaluate]. rewrite E1. cbn. exists (l_sin L u). split; [reflexivity|]. apply K; assumption.
  - destruct I as (u & E1 & N1 & V1). cbn [evaluate]. rewrite E1. cbn. exists (l_cos L u). split; [reflexivity|]. apply K; assumption.
  - destruct I as (u & E1 & N1 & V1). cbn [evaluate]. rewrite E1. cbn. exists (SFopp u). split; [reflexivity|].
    rewrite <- K, <- V1. apply neg_num, N1.
Qed.
Lemma rv_num e r : rv e r -> exists w, is_num w /\ val w = r.
Proof. intros H. destruct (rv_eval e r H) as (w & _ & N & V). eauto. Qed.

Lemma lib1_at f x : (forall y z, is_num y -> is_num z -> val y = 0 -> val z = 0 -> is_num (f y) -> is_num (f z) /\ val (f z) = val (f y)) ->
  is_num x -> is_num (f x) -> lib1 f (val x) (val (f x)).
Proof.
  intros Z N M y Y E. destruct (val_cases y x Y N E) as [-> | [E1 E2]]; [auto|]. apply Z; assumption.
Qed.
Lemma lib1_exp x : is_num x -> is_num (l_exp L x) -> lib1 (l_exp L) (val x) (val (l_exp L x)).
Proof.
  apply lib1_at. intros y z Y Z E1 E2 _. destruct (af_exp L AF y Y E1) as [_ ->]. apply (af_exp L AF); assumption.
Qed.
Lemma lib1_sin x : is_num x -> is_num (l_sin L x) -> lib1 (l_sin L) (val x) (val (l_sin L x)).
Proof.
  apply lib1_at. intros y z Y Z E1 E2 _. destruct (af_sin L AF y Y E1) as [_ ->]. apply (af_sin L AF); assumption.
Qed.
Lemma lib1_cos x : is_num x -> is_num (l_cos L x) -> lib1 (l_cos L) (val x) (val (l_cos L x)).
Proof.
  apply lib1_at. intros y z Y Z E1 E2 _. destruct (af_cos L AF y Y E1) as [_ ->]. apply (af_cos L AF); assumption.
Qed.
Lemma lib1_ln x : is_num x -> 0 < val x -> is_num (l_ln L x) -> lib1 (l_ln L) (val x) (val (l_ln L x)).
Proof.
  intros N P M y Y E. destruct (val_cases y x Y N E) as [-> | [E1 E2]]; [auto|lra].
Qed.
Lemma lib2_pow x y : is_num x -> is_num y -> is_num (l_pow L x y) -> lib2 (l_pow L) (val x) (val y) (val (l_pow L x y)).
Proof.
  intros X Y M x' y' X' Y' E1 E2. destruct (val_cases y' y Y' Y E2) as [-> | [Z1 Z2]].
  - destruct (val_cases x' x X' X E1) as [-> | [Z1 Z2]]; [auto|]. apply (af_zero_pow L AF); assumption.
  - destruct (af_pow_zero L AF x y X Y Z2) as [_ ->]. apply (af_pow_zero L AF); assumption.
Qed.

Lemma num_fits w : is_num w -> fits (val w).
Proof. intros [V _]. unfold fits. rewrite RN_val by exact V. apply valid_abs, V. Qed.
Lemma num_RN w : is_num w -> RN (val w) = val w.
Proof. intros [V _]. apply RN_val, V. Qed.

Definition all_num (e : expr) : Prop := forall s, In s (subexprs e) -> exists q, evaluate vars s = Ok q /\ is_num q.

Lemma eval_rv e : all_num e -> forall w, evaluate vars e = Ok w -> rv e (val w).
Proof.
  assert (BIN : forall (l r : expr) (P : expr), subexprs P = P :: (subexprs l ++ subexprs r) -> all_num P -> all_num l /\ all_num r).
  { intros l r P E H. split; intros s I; apply H; rewrite E; right; apply in_or_app; auto. }
  assert (UN : forall (l : expr) (P : expr), subexprs P = P :: subexprs l -> all_num P -> all_num l).
  { intros l P E H s I. apply H. rewrite E. right. exact I. }
  assert (HD : forall (P : expr), all_num P -> exists q, evaluate vars P = Ok q /\ is_num q).
  { intros P H. apply H. destruct P; left; reflexivity. }
  assert (Z0 := lit_num 0 ltac:(cbn; lia)). assert (Z1 := lit_num 1 ltac:(cbn; lia)).
  induction e as [c|x|l IHl r IHr|l IHl r IHr|l IHl r IHr|l IHl r IHr|l IHl r IHr|a IHa|a IHa|a IHa|a IHa|a IHa|a IHa]; intros H w W.
  - cbn in W. injection W as <-. destruct (HD _ H) as (q & E & N). cbn in E. injection E as <-. apply rv_const; auto.
  - destruct (HD _ H) as (q & E & N). rewrite W in E. injection E as <-. cbn [evaluate] in W. destruct (get vars x) eqn:G; [|discriminate W]. injection W as ->.
    eapply rv_var; eauto.
  - destruct (BIN l r (Add l r) eq_refl H) as [Hl Hr]. destruct (HD _ Hl) as (u & E1 & N1), (HD _ Hr) as (v & E2 & N2), (HD _ H) as (w' & E & N).
    rewrite W in E. injection E as <-. specialize (IHl Hl u E1). specialize (IHr Hr v E2).
    assert (G : forall s t, s = (Ok v : res F F) -> t = (Ok u : res F F) -> (if is_lit (n0 : F) l then s else if is_lit (n0 : F) r then t else let? a := evaluate vars l in let? b := evaluate vars r in Ok (f64_add a b)) = Ok w ->
      fits (val u + val v) /\ RN (val u + val v) = val w).
    { intros s t -> -> K. destruct (is_lit n0 l) eqn:Q1.
      - injection K as ->. apply (lit_val 0) with (r := val u) in Q1; [|cbn; lia|exact IHl]. rewrite Q1, Rplus_0_l. split; [apply num_fits|apply num_RN]; exact N2.
      - destruct (is_lit n0 r) eqn:Q2.
        + injection K as ->. apply (lit_val 0) with (r := val v) in Q2; [|cbn; lia|exact IHr]. rewrite Q2, Rplus_0_r. split; [apply num_fits|apply num_RN]; exact N1.
        + rewrite E1, E2 in K. cbn in K. injection K as K. subst w. pose proof (add_fin u v N1 N2 N) as T. split; [exact T|]. symmetry. apply add_num; assumption. }
    assert (K : fits (val u + val v) /\ RN (val u + val v) = val w).
    { cbn [evaluate] in W. destruct l; try exact (G _ _ E2 E1 W). destruct r; try exact (G _ _ E2 E1 W).
      cbn in E1, E2. injection E1 as ->. injection E2 as ->. injection W as W. change (f64_add u v = w) in W. subst w.
      pose proof (add_fin u v N1 N2 N) as T. split; [exact T|]. symmetry. apply add_num; assumption. }
    eapply rv_add; [exact IHl|exact IHr|apply K|apply K].
  - destruct (BIN l r (Sub l r) eq_refl H) as [Hl Hr]. destruct (HD _ Hl) as (u & E1 & N1), (HD _ Hr) as (v & E2 & N2), (HD _ H) as (w' & E & N).
    rewrite W in E. injection E as <-. specialize (IHl Hl u E1). specialize (IHr Hr v E2). cbn [evaluate] in W. rewrite E1, E2 in W. cbn in W. injection W as W. subst w.
    pose proof (sub_fin u v N1 N2 N) as T. eapply rv_sub; [exact IHl|exact IHr|exact T|]. symmetry. apply sub_num; assumption.
  - destruct (BIN l r (Mul l r) eq_refl H) as [Hl Hr]. destruct (HD _ Hl) as (u & E1 & N1), (HD _ Hr) as (v & E2 & N2), (HD _ H) as (w' & E & N).
    rewrite W in E. injection E as <-. specialize (IHl Hl u E1). specialize (IHr Hr v E2).
    assert (FZ : fits 0) by (unfold fits; rewrite RN_0, Rabs_R0; apply bpow_gt_0).
    assert (G : forall s t, s = (Ok v : res F F) -> t = (Ok u : res F F) -> (if is_lit (n0 : F) l || is_lit (n0 : F) r then Ok (n0 : F) else if is_lit (n1 : F) l then s else if is_lit (n1 : F) r then t else let? a := evaluate vars l in let? b := evaluate vars r in Ok (f64_mul a b)) = Ok w ->
      fits (val u * val v) /\ RN (val u * val v) = val w).
    { intros s t -> -> K.
      destruct (is_lit n0 l) eqn:Q1; [|destruct (is_lit n0 r) eqn:Q2; [|destruct (is_lit n1 l) eqn:Q3; [|destruct (is_lit n1 r) eqn:Q4]]]; cbn [orb] in K.
      - injection K as <-. apply (lit_val 0) with (r := val u) in Q1; [|cbn; lia|exact IHl]. rewrite Q1, Rmult_0_l, RN_0. split; [exact FZ|symmetry; apply Z0].
      - injection K as <-. apply (lit_val 0) with (r := val v) in Q2; [|cbn; lia|exact IHr]. rewrite Q2, Rmult_0_r, RN_0. split; [exact FZ|symmetry; apply Z0].
      - injection K as ->. apply (lit_val 1) with (r := val u) in Q3; [|cbn; lia|exact IHl]. rewrite Q3, Rmult_1_l. split; [apply num_fits|apply num_RN]; exact N2.
      - injection K as ->. apply (lit_val 1) with (r := val v) in Q4; [|cbn; lia|exact IHr]. rewrite Q4, Rmult_1_r. split; [apply num_fits|apply num_RN]; exact N1.
      - rewrite E1, E2 in K. cbn in K. injection K as K. subst w. pose proof (mul_fin u v N1 N2 N) as T. split; [exact T|]. symmetry. apply mul_num; assumption. }
    assert (K : fits (val u * val v) /\ RN (val u * val v) = val w).
    { cbn [evaluate] in W. destruct l; try exact (G _ _ E2 E1 W). destruct r; try exact (G _ _ E2 E1 W).
      cbn in E1, E2. injection E1 as ->. injection E2 as ->. injection W as W. change (f64_mul u v = w) in W. subst w.
      pose proof (mul_fin u v N1 N2 N) as T. split; [exact T|]. symmetry. apply mul_num; assumption. }
    eapply rv_mul; [exact IHl|exact IHr|apply K|apply K].
  - destruct (BIN l r (Div l r) eq_refl H) as [Hl Hr]. destruct (HD _ Hl) as (u & E1 & N1), (HD _ Hr) as (v & E2 & N2), (HD _ H) as (w' & E & N).
    rewrite W in E. injection E as <-. specialize (IHl Hl u E1). specialize (IHr Hr v E2). cbn [evaluate] in W. rewrite E1, E2 in W. cbn [bind] in W.
    destruct (neqb v (n0 : F)) eqn:Q; [discriminate W|]. change (SFeqb v (nint 0 : F) = false) in Q. rewrite (SFeqb_num _ _ N2 (proj1 Z0)), (proj2 Z0) in Q.
    destruct (Req_bool_spec (val v) 0) as [?|Z]; [discriminate Q|]. injection W as W. change (f64_div u v = w) in W. subst w.
    pose proof (div_fin u v N1 N2 Z N) as T. eapply rv_div; [exact IHl|exact IHr|exact Z|exact T|]. symmetry. apply div_num; assumption.
  - destruct (BIN l r (Pow l r) eq_refl H) as [Hl Hr]. destruct (HD _ Hl) as (u & E1 & N1), (HD _ Hr) as (v & E2 & N2), (HD _ H) as (w' & E & N).
    rewrite W in E. injection E as <-. specialize (IHl Hl u E1). specialize (IHr Hr v E2). cbn [evaluate] in W. rewrite E1, E2 in W. cbn in W. injection W as W. subst w.
    eapply rv_pow; [exact IHl|exact IHr|]. apply lib2_pow; assumption.
  - pose proof (UN a (Ln a) eq_refl H) as Ha. destruct (HD _ Ha) as (u & E1 & N1), (HD _ H) as (w' & E & N).
    rewrite W in E. injection E as <-. specialize (IHa Ha u E1). cbn [evaluate] in W. rewrite E1 in W. cbn [bind] in W.
    destruct (nleb u (n0 : F)) eqn:Q; [discriminate W|]. change (SFleb u (nint 0 : F) = false) in Q. rewrite (SFleb_num _ _ N1 (proj1 Z0)), (proj2 Z0) in Q.
    destruct (Rle_bool_spec (val u) 0) as [?|Z]; [discriminate Q|]. injection W as W. change (l_ln L u = w) in W. subst w.
    eapply rv_ln; [exact IHa|exact Z|]. apply lib1_ln; assumption.
  - pose proof (UN a (Exp a) eq_refl H) as Ha. destruct (HD _ Ha) as (u & E1 & N1), (HD _ H) as (w' & E & N).
    rewrite W in E. injection E as <-. specialize (IHa Ha u E1). cbn [evaluate] in W. rewrite E1 in W. cbn in W. injection W as W. subst w.
    eapply rv_exp; [exact IHa|]. apply lib1_exp; assumption.
  - pose proof (UN a (Sqrt a) eq_refl H) as Ha. destruct (HD _ Ha) as (u & E1 & N1), (HD _ H) as (w' & E & N).
    rewrite W in E. injection E as <-. specialize (IHa Ha u E1). cbn [evaluate] in W. rewrite E1 in W. cbn [bind] in W.
    destruct (nltb u (n0 : F)) eqn:Q; [discriminate W|]. change (SFltb u (nint 0 : F) = false) in Q. rewrite (SFltb_num _ _ N1 (proj1 Z0)), (proj2 Z0) in Q.
    destruct (Rlt_bool_spec (val u) 0) as [?|Z]; [discriminate Q|]. injection W as W. change (f64_sqrt u = w) in W. subst w.
    eapply rv_sqrt; [exact IHa|exact Z|]. symmetry. apply sqrt_num; assumption.
  - pose proof (UN a (Sin a) eq_refl H) as Ha. destruct (HD _ Ha) as (u & E1 & N1), (HD _ H) as (w' & E & N).
    rewrite W in E. injection E as <-. specialize (IHa Ha u E1). cbn [evaluate] in W. rewrite E1 in W. cbn in W. injection W as W. subst w.
    eapply rv_sin; [exact IHa|]. apply lib1_sin; assumption.
  - pose proof (UN a (Cos a) eq_refl H) as Ha. destruct (HD _ Ha) as (u & E1 & N1), (HD _ H) as (w' & E & N).
    rewrite W in E. injection E as <-. specialize (IHa Ha u E1). cbn [evaluate] in W. rewrite E1 in W. cbn in W. injection W as W. subst w.
    eapply rv_cos; [exact IHa|]. apply lib1_cos; assumption.
  - pose proof (UN a (Neg a) eq_refl H) as Ha. destruct (HD _ Ha) as (u & E1 & N1), (HD _ H) as (w' & E & N).
    rewrite W in E. injection E as <-. specialize (IHa Ha u E1). cbn [evaluate] in W. rewrite E1 in W. cbn in W. injection W as W. subst w.
    eapply rv_neg; [exact IHa|]. symmetry. apply neg_num, N1.
Qed.

(** Expressions the code compares equal have equal values. *)
Lemma rv_eqb e : forall f r s, expr_eqb e f = true -> rv e r -> rv f s -> r = s.
Proof.
  induction e as [c|x|l IHl r IHr|l IHl r IHr|l IHl r IHr|l IHl r IHr|l IHl r IHr|a IHa|a IHa|a IHa|a IHa|a IHa|a IHa]; intros f p q H P Q;
    destruct f; try discriminate H; cbn [expr_eqb] in H; inversion P; subst; inversion Q; subst;
    try (apply andb_true_iff in H as [HA HB]);
    try (assert (a = a0) by (eapply IHl; eauto); assert (b = b0) by (eapply IHr; eauto); subst; reflexivity).
  - change (SFeqb c c0 = true) in H. rewrite SFeqb_num in H by assumption. destruct (Req_bool_spec (val c) (val c0)); congruence.
  - apply String.eqb_eq in H. congruence.
  - assert (a = a0) by (eapply IHl; eauto). assert (b = b0) by (eapply IHr; eauto). subst.
    destruct (rv_num l a0 ltac:(assumption)) as (u & U & <-), (rv_num r b0 ltac:(assumption)) as (v & V & <-).
    match goal with A : lib2 _ _ _ _, B : lib2 _ _ _ _ |- _ => destruct (A u v U V eq_refl eq_refl) as [_ <-]; destruct (B u v U V eq_refl eq_refl) as [_ <-] end. reflexivity.
  - assert (a0 = a1) by (eapply IHa; eauto). subst. destruct (rv_num a a1 ltac:(assumption)) as (u & U & <-).
    match goal with A : lib1 _ _ _, B : lib1 _ _ _ |- _ => destruct (A u U eq_refl) as [_ <-]; destruct (B u U eq_refl) as [_ <-] end. reflexivity.
  - assert (a0 = a1) by (eapply IHa; eauto). subst. destruct (rv_num a a1 ltac:(assumption)) as (u & U & <-).
    match goal with A : lib1 _ _ _, B : lib1 _ _ _ |- _ => destruct (A u U eq_refl) as [_ <-]; destruct (B u U eq_refl) as [_ <-] end. reflexivity.
  - assert (a0 = a1) by (eapply IHa; eauto). subst. reflexivity.
  - assert (a0 = a1) by (eapply IHa; eauto). subst. destruct (rv_num a a1 ltac:(assumption)) as (u & U & <-).
    match goal with A : lib1 _ _ _, B : lib1 _ _ _ |- _ => destruct (A u U eq_refl) as [_ <-]; destruct (B u U eq_refl) as [_ <-] end. reflexivity.
  - assert (a0 = a1) by (eapply IHa; eauto). subst. destruct (rv_num a a1 ltac:(assumption)) as (u & U & <-).
    match goal with A : lib1 _ _ _, B : lib1 _ _ _ |- _ => destruct (A u U eq_refl) as [_ <-]; destruct (B u U eq_refl) as [_ <-] end. reflexivity.
  - assert (a0 = a1) by (eapply IHa; eauto). subst. reflexivity.
Qed.

(** ** The rules *)
Lemma const_inv c a : rv (Const c) a -> is_num c /\ val c = a.
Proof. intros H. inversion H. auto. Qed.
Lemma rv_lit z : (Z.abs z <= 2 ^ 53)%Z -> rv (Const (nint z : F)) (IZR z).
Proof. intros H. destruct (lit_num z H). apply rv_const; assumption. Qed.
Lemma rv_is (e : expr) r s : rv e r -> r = s -> rv e s.
Proof. intros H <-. exact H. Qed.
Lemma rv_RN e r : rv e r -> RN r = r /\ fits r.
Proof. intros H. destruct (rv_num e r H) as (w & N & <-). split; [apply num_RN, N|apply num_fits, N]. Qed.
Lemma fold2 (f : f64 -> f64 -> f64) c d (r : R) : is_num (f c d) /\ val (f c d) = r -> rv (Const (f c d : F)) r.
Proof. intros [N V]. apply rv_const; assumption. Qed.

Lemma snd_add l r a b : rv l a -> rv r b -> fits (a + b) -> rv (simp_add l r) (RN (a + b)).
Proof.
  intros A B T.
  assert (G : rv (if is_lit (n0 : F) l then r else if is_lit (n0 : F) r then l else if expr_eqb l r then Mul (Const n2) l else Add l r) (RN (a + b))).
  { destruct (is_lit n0 l) eqn:Q1; [|destruct (is_lit n0 r) eqn:Q2; [|destruct (expr_eqb l r) eqn:Q3]].
    - apply (lit_val 0) with (r := a) in Q1; [|cbn; lia|exact A]. rewrite Q1, Rplus_0_l. destruct (rv_RN _ _ B) as [-> _]. exact B.
    - apply (lit_val 0) with (r := b) in Q2; [|cbn; lia|exact B]. rewrite Q2, Rplus_0_r. destruct (rv_RN _ _ A) as [-> _]. exact A.
    - assert (a = b) by (eapply rv_eqb; eauto). subst b. replace (a + a) with (2 * a) in * by ring.
      eapply rv_mul; [apply (rv_lit 2); cbn; lia|exact A|exact T|reflexivity].
    - eapply rv_add; eauto. }
  unfold simp_add. destruct l; try exact G. destruct r; try exact G.
  inversion A; inversion B; subst. apply (fold2 f64_add). apply add_num; assumption.
Qed.
Lemma snd_sub l r a b : rv l a -> rv r b -> fits (a - b) -> rv (simp_sub l r) (RN (a - b)).
Proof.
  intros A B T.
  assert (G : rv (if is_lit (n0 : F) r then l else if is_lit (n0 : F) l then Neg r else if expr_eqb l r then Const n0 else Sub l r) (RN (a - b))).
  { destruct (is_lit n0 r) eqn:Q1; [|destruct (is_lit n0 l) eqn:Q2; [|destruct (expr_eqb l r) eqn:Q3]].
    - apply (lit_val 0) with (r := b) in Q1; [|cbn; lia|exact B]. rewrite Q1, Rminus_0_r. destruct (rv_RN _ _ A) as [-> _]. exact A.
    - apply (lit_val 0) with (r := a) in Q2; [|cbn; lia|exact A]. rewrite Q2, Rminus_0_l, RN_opp. destruct (rv_RN _ _ B) as [-> _]. eapply rv_neg; eauto.
    - assert (a = b) by (eapply rv_eqb; eauto). subst b. replace (a - a) with 0 by ring. rewrite RN_0. apply (rv_lit 0). cbn; lia.
    - eapply rv_sub; eauto. }
  unfold simp_sub. destruct l; try exact G. destruct r; try exact G.
  inversion A; inversion B; subst. apply (fold2 f64_sub). apply sub_num; assumption.
Qed.
Lemma snd_mul l r a b : rv l a -> rv r b -> fits (a * b) ->
  expr_eqb l r = false \/ (exists c d, l = Const c /\ r = Const d) -> rv (simp_mul l r) (RN (a * b)).
Proof.
  intros A B T K.
  assert (G : expr_eqb l r = false -> rv (if is_lit (n0 : F) l || is_lit (n0 : F) r then Const n0 else if is_lit (n1 : F) l then r else if is_lit (n1 : F) r then l
    else if is_lit (nm1 : F) l then Neg r else if is_lit (nm1 : F) r then Neg l else if expr_eqb l r then Pow l (Const n2) else Mul l r) (RN (a * b))).
  { intros ->. destruct (is_lit n0 l) eqn:Q1; [|destruct (is_lit n0 r) eqn:Q2; [|destruct (is_lit n1 l) eqn:Q3; [|destruct (is_lit n1 r) eqn:Q4; [|destruct (is_lit nm1 l) eqn:Q5; [|destruct (is_lit nm1 r) eqn:Q6]]]]]; cbn [orb].
    - apply (lit_val 0) with (r := a) in Q1; [|cbn; lia|exact A]. rewrite Q1, Rmult_0_l, RN_0. apply (rv_lit 0). cbn; lia.
    - apply (lit_val 0) with (r := b) in Q2; [|cbn; lia|exact B]. rewrite Q2, Rmult_0_r, RN_0. apply (rv_lit 0). cbn; lia.
    - apply (lit_val 1) with (r := a) in Q3; [|cbn; lia|exact A]. rewrite Q3, Rmult_1_l. destruct (rv_RN _ _ B) as [-> _]. exact B.
    - apply (lit_val 1) with (r := b) in Q4; [|cbn; lia|exact B]. rewrite Q4, Rmult_1_r. destruct (rv_RN _ _ A) as [-> _]. exact A.
    - apply (lit_val (-1)) with (r := a) in Q5; [|cbn; lia|exact A]. rewrite Q5. replace (-1 * b) with (- b) by ring. rewrite RN_opp. destruct (rv_RN _ _ B) as [-> _]. eapply rv_neg; eauto.
    - apply (lit_val (-1)) with (r := b) in Q6; [|cbn; lia|exact B]. rewrite Q6. replace (a * -1) with (- a) by ring. rewrite RN_opp. destruct (rv_RN _ _ A) as [-> _]. eapply rv_neg; eauto.
    - eapply rv_mul; eauto. }
  destruct K as [E|(c & d & -> & ->)];
    [|inversion A; inversion B; subst; cbn [simp_mul]; apply (fold2 f64_mul); apply mul_num; assumption].
  unfold simp_mul. destruct l; try exact (G E). destruct r; try exact (G E).
    inversion A; inversion B; subst. apply (fold2 f64_mul). apply mul_num; assumption.
Qed.
Lemma snd_div l r a b : rv l a -> rv r b -> b <> 0 -> fits (a / b) -> rv (simp_div l r) (RN (a / b)).
Proof.
  intros A B Z T.
  assert (G : rv (if is_lit (n1 : F) r then l else if is_lit (n0 : F) l then Const n0 else if expr_eqb l r then Const n1 else Div l r) (RN (a / b))).
  { destruct (is_lit n1 r) eqn:Q1; [|destruct (is_lit n0 l) eqn:Q2; [|destruct (expr_eqb l r) eqn:Q3]].
    - apply (lit_val 1) with (r := b) in Q1; [|cbn; lia|exact B]. rewrite Q1. unfold Rdiv. rewrite Rinv_1, Rmult_1_r. destruct (rv_RN _ _ A) as [-> _]. exact A.
    - apply (lit_val 0) with (r := a) in Q2; [|cbn; lia|exact A]. rewrite Q2. unfold Rdiv. rewrite Rmult_0_l, RN_0. apply (rv_lit 0). cbn; lia.
    - assert (a = b) by (eapply rv_eqb; eauto). subst b. unfold Rdiv. rewrite Rinv_r by exact Z.
      destruct (rv_RN _ _ (rv_lit 1 ltac:(cbn; lia))) as [-> _]. apply (rv_lit 1). cbn; lia.
    - eapply rv_div; eauto. }
  unfold simp_div. destruct l; try exact G. destruct r; try exact G.
  destruct (const_inv _ _ A) as [NA <-], (const_inv _ _ B) as [NB <-]. destruct (lit_num 0 ltac:(cbn; lia)) as [N0 V0].
  replace (neqb c0 (n0 : F)) with false.
  2:{ symmetry. change (SFeqb c0 (nint 0 : F) = false). rewrite (SFeqb_num _ _ NB N0), V0. apply Req_bool_false, Z. }
  apply (fold2 f64_div). apply div_num; assumption.
Qed.
Lemma snd_neg e a : rv e a -> rv (simp_neg e) (- a).
Proof.
  intros A. destruct e; try (eapply rv_neg; eauto; fail).
  - inversion A; subst. destruct (neg_num c ltac:(assumption)) as [N V]. apply rv_const; assumption.
  - inversion A; subst. cbn [simp_neg]. rewrite Ropp_involutive. assumption.
Qed.
Lemma lib_at e f a r : rv e a -> lib1 f a r -> (forall c, e = Const c -> is_num (f c) /\ val (f c) = r).
Proof. intros A K c ->. inversion A; subst. apply K; auto. Qed.
Lemma zero_lit c : is_num c -> neqb (c : F) n0 = true -> val c = 0.
Proof.
  intros N H. destruct (lit_num 0 ltac:(cbn; lia)) as [N0 V0]. change (SFeqb c (nint 0 : F) = true) in H. rewrite (SFeqb_num _ _ N N0), V0 in H.
  destruct (Req_bool_spec (val c) 0); congruence.
Qed.
Lemma snd_sin e a r : rv e a -> lib1 (l_sin L) a r -> rv (simp_sin e) r.
Proof.
  intros A K. destruct e; try (eapply rv_sin; eauto; fail). inversion A; subst. cbn [simp_sin]. destruct (neqb (c : F) n0) eqn:Q.
  - apply zero_lit in Q; [|assumption]. destruct (af_sin L AF c ltac:(assumption) Q) as [_ E]. destruct (K c ltac:(assumption) eq_refl) as [_ <-]. rewrite E. apply (rv_lit 0). cbn; lia.
  - destruct (K c ltac:(assumption) eq_refl). apply rv_const; assumption.
Qed.
Lemma snd_cos e a r : rv e a -> lib1 (l_cos L) a r -> rv (simp_cos e) r.
Proof.
  intros A K. destruct e; try (eapply rv_cos; eauto; fail). inversion A; subst. cbn [simp_cos]. destruct (neqb (c : F) n0) eqn:Q.
  - apply zero_lit in Q; [|assumption]. destruct (af_cos L AF c ltac:(assumption) Q) as [_ E]. destruct (K c ltac:(assumption) eq_refl) as [_ <-]. rewrite E. apply (rv_lit 1). cbn; lia.
  - destruct (K c ltac:(assumption) eq_refl). apply rv_const; assumption.
Qed.
Lemma snd_exp e a r : rv e a -> lib1 (l_exp L) a r -> match e with Ln _ | Mul _ (Ln _) => False | _ => True end -> rv (simp_exp e) r.
Proof.
  intros A K S. assert (G : rv (Exp e) r) by (eapply rv_exp; eauto). destruct e; try exact G; try contradiction.
  - inversion A; subst. cbn [simp_exp]. destruct (neqb (c : F) n0) eqn:Q.
    + apply zero_lit in Q; [|assumption]. destruct (af_exp L AF c ltac:(assumption) Q) as [_ E]. destruct (K c ltac:(assumption) eq_refl) as [_ <-]. rewrite E. apply (rv_lit 1). cbn; lia.
    + destruct (K c ltac:(assumption) eq_refl). apply rv_const; assumption.
  - destruct e2; try exact G. contradiction.
Qed.
Lemma snd_ln e a r : rv e a -> 0 < a -> lib1 (l_ln L) a r -> match e with Exp _ | Pow _ _ => False | _ => True end -> rv (simp_ln e) r.
Proof.
  intros A P K S. assert (G : rv (Ln e) r) by (eapply rv_ln; eauto). destruct e; try exact G; try contradiction.
  destruct (const_inv _ _ A) as [N <-]. cbn [simp_ln]. destruct (lit_num 0 ltac:(cbn; lia)) as [N0 V0].
  replace (nltb (n0 : F) c) with true.
  2:{ symmetry. change (SFltb (nint 0 : F) c = true). rewrite (SFltb_num _ _ N0 N), V0. apply Rlt_bool_true, P. }
  destruct (K c N eq_refl). apply rv_const; assumption.
Qed.
Lemma snd_sqrt e a : rv e a -> 0 <= a -> match e with Pow _ _ => False | _ => True end -> rv (simp_sqrt e) (RN (sqrt a)).
Proof.
  intros A P S. assert (G : rv (Sqrt e) (RN (sqrt a))) by (eapply rv_sqrt; eauto). destruct e; try exact G; try contradiction.
  destruct (const_inv _ _ A) as [N <-]. cbn [simp_sqrt]. destruct (lit_num 0 ltac:(cbn; lia)) as [N0 V0].
  replace (nleb (n0 : F) c) with true.
  2:{ symmetry. change (SFleb (nint 0 : F) c = true). rewrite (SFleb_num _ _ N0 N), V0. apply Rle_bool_true, P. }
  destruct (sqrt_num c N P). apply rv_const; assumption.
Qed.
Lemma snd_pow e f a b r : rv e a -> rv f b -> lib2 (l_pow L) a b r -> match e with Pow _ _ => False | _ => True end -> rv (simp_pow_t e f) r.
Proof.
  intros A B K S. destruct (rv_num e a A) as (u & NU & EU), (rv_num f b B) as (v & NV & EV). destruct (K u v NU NV EU EV) as [_ KV].
  assert (G : rv (if is_lit (n0 : F) f then Const n1 else if is_lit (n1 : F) f then e else if is_lit (n1 : F) e then Const n1 else Pow e f) r).
  { destruct (is_lit n0 f) eqn:Q1; [|destruct (is_lit n1 f) eqn:Q2; [|destruct (is_lit n1 e) eqn:Q3]].
    - apply (lit_val 0) with (r := b) in Q1; [|cbn; lia|exact B]. destruct (af_pow_zero L AF u v NU NV) as [_ E]; [congruence|]. rewrite <- KV, E. apply (rv_lit 1). cbn; lia.
    - apply (lit_val 1) with (r := b) in Q2; [|cbn; lia|exact B]. destruct (af_pow_one L AF u v NU NV) as [_ E]; [congruence|]. rewrite <- KV, E, EU. exact A.
    - apply (lit_val 1) with (r := a) in Q3; [|cbn; lia|exact A]. destruct (af_one_pow L AF u v NU NV) as [_ E]; [congruence|]. rewrite <- KV, E. apply (rv_lit 1). cbn; lia.
    - eapply rv_pow; eauto. }
  assert (H : simp_pow_t e f = (if is_lit (n0 : F) f then Const n1 else if is_lit (n1 : F) f then e else if is_lit (n1 : F) e then Const n1 else Pow e f)
    \/ exists c d, e = Const c /\ f = Const d /\ simp_pow_t e f = Const (l_pow L c d : F)).
  { unfold simp_pow_t, simp_pow. destruct e; try contradiction; try (destruct f; [right; do 2 eexists; repeat split; reflexivity|left..]); try left;
      repeat match goal with |- context [if ?x then _ else _] => destruct x end; reflexivity. }
  destruct H as [-> |(c & d & -> & -> & ->)]; [exact G|].
  inversion A; inversion B; subst. apply (fold2 (l_pow L)). apply K; auto.
Qed.

Lemma simplify_rv e r : (forall s, In s (subexprs e) -> keeps_rounding s) -> rv e r -> rv (simplify e) r.
Proof.
  assert (BIN : forall (l r : expr) (P : expr), subexprs P = P :: (subexprs l ++ subexprs r) -> (forall s, In s (subexprs P) -> keeps_rounding s) ->
    keeps_rounding P /\ (forall s, In s (subexprs l) -> keeps_rounding s) /\ (forall s, In s (subexprs r) -> keeps_rounding s)).
  { intros l r' P E H. split; [|split]; [apply H; rewrite E; left; reflexivity| |]; intros s I; apply H; rewrite E; right; apply in_or_app; auto. }
  assert (UN : forall (l : expr) (P : expr), subexprs P = P :: subexprs l -> (forall s, In s (subexprs P) -> keeps_rounding s) ->
    keeps_rounding P /\ (forall s, In s (subexprs l) -> keeps_rounding s)).
  { intros l P E H. split; [apply H; rewrite E; left; reflexivity|]. intros s I. apply H. rewrite E. right. exact I. }
  intros H R. revert H.
  induction R as [c r N V|x w r G N V|e f a b r R1 I1 R2 I2 T E|e f a b r R1 I1 R2 I2 T E|e f a b r R1 I1 R2 I2 T E
    |e f a b r R1 I1 R2 I2 Z T E|e f a b r R1 I1 R2 I2 P|e a r R I P K|e a r R I K|e a r R I P K|e a r R I K|e a r R I K|e a r R I K]; intros H.
  - apply rv_const; assumption.
  - eapply rv_var; eauto.
  - destruct (BIN e f (Add e f) eq_refl H) as (_ & H1 & H2). rewrite simplify_add, <- E. apply snd_add; auto.
  - destruct (BIN e f (Sub e f) eq_refl H) as (_ & H1 & H2). rewrite simplify_sub, <- E. apply snd_sub; auto.
  - destruct (BIN e f (Mul e f) eq_refl H) as (H0 & H1 & H2). rewrite simplify_mul, <- E. apply snd_mul; auto.
  - destruct (BIN e f (Div e f) eq_refl H) as (_ & H1 & H2). rewrite simplify_div, <- E. apply snd_div; auto.
  - destruct (BIN e f (Pow e f) eq_refl H) as (H0 & H1 & H2). rewrite simplify_pow. eapply snd_pow; eauto.
  - destruct (UN e (Ln e) eq_refl H) as (H0 & H1). rewrite simplify_ln. eapply snd_ln; eauto.
  - destruct (UN e (Exp e) eq_refl H) as (H0 & H1). rewrite simplify_exp. eapply snd_exp; eauto.
  - destruct (UN e (Sqrt e) eq_refl H) as (H0 & H1). rewrite simplify_sqrt, <- K. apply snd_sqrt; auto.
  - destruct (UN e (Sin e) eq_refl H) as (H0 & H1). rewrite simplify_sin. eapply snd_sin; eauto.
  - destruct (UN e (Cos e) eq_refl H) as (H0 & H1). rewrite simplify_cos. eapply snd_cos; eauto.
  - destruct (UN e (Neg e) eq_refl H) as (H0 & H1). rewrite simplify_neg, <- K. apply snd_neg; auto.
Qed.

Lemma simplify_float e : all_num e -> (forall s, In s (subexprs e) -> keeps_rounding s) ->
  exists v w, evaluate vars e = Ok v /\ evaluate vars (simplify e) = Ok w /\ is_num v /\ is_num w /\ val v = val w /\ SFeqb v w = true.
Proof.
  intros A K. destruct (A e) as (v & E & N); [destruct e; left; reflexivity|].
  destruct (rv_eval _ _ (simplify_rv _ _ K (eval_rv e A v E))) as (w & E' & N' & V).
  exists v, w. repeat (split; [assumption || (symmetry; assumption)|]). rewrite SFeqb_num by assumption. apply Req_bool_true. symmetry. exact V.
Qed.
End S.
