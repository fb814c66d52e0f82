(** Log-densities of the distributions at extreme arguments (C76). *)
From Coq Require Import ZArith Reals Bool List Lia Lra.
From Coq Require Import Floats.SpecFloat.
From Flocq Require Import Core IEEE754.BinarySingleNaN.
From Verif Require Import Num JitModel EggSpec LitFacts EggNum FloatFacts FloatErr JitAcc JitAcc2 AccSpec AccProofs RoundSpec RoundProofs RelErr
  DensitySpec CoreModel CombModel ExpFamModel DistModel DistSpec DistFacts BuilderProofs DistProofs DistFloat CustomProofs ExtSpec.
Import ListNotations.
Local Open Scope R_scope.

#[local] Instance Hprec64 : FLX.Prec_gt_0 53 := eq_refl _.
#[local] Instance Hmax64 : Prec_lt_emax 53 1024 := eq_refl _.

(** * The four operations on all finite arguments *)
Lemma sign_val (b : binary_float 53 1024) : is_finite b = true -> (Bsign b = false -> 0 <= B2R b) /\ (Bsign b = true -> B2R b <= 0).
Proof.
  intros F. destruct b as [s| | |s m e H]; try discriminate F; cbn [Bsign B2R].
  - split; lra.
  - split; intros ->; cbn [cond_Zopp].
    + apply F2R_ge_0. cbn. lia.
    + apply F2R_le_0. cbn. lia.
Qed.
Section Total.
Context (a b : f64) (A : is_num a) (B : is_num b).
Lemma sub_total : (is_num (f64_sub a b) /\ val (f64_sub a b) = RN (val a - val b)) \/
  (bpow radix2 1024 <= Rabs (RN (val a - val b)) /\
   ((f64_sub a b = pinf /\ 0 <= val a /\ val b <= 0) \/ (f64_sub a b = ninf /\ val a <= 0 /\ 0 <= val b))).
Proof.
  destruct (Rlt_or_le (Rabs (RN (val a - val b))) (bpow radix2 1024)) as [H|H]; [left; apply sub_num; assumption|right; split; [exact H|]].
  destruct (num_B a A) as (x & -> & X & VX), (num_B b B) as (y & -> & Y & VY). rewrite <- VX, <- VY in *.
  unfold f64_sub. rewrite (sub_equiv 53 1024 Hprec64 Hmax64).
  pose proof (Bminus_correct 53 1024 Hprec64 Hmax64 mode_NE x y X Y) as C.
  change (round radix2 (SpecFloat.fexp 53 1024) (round_mode mode_NE)) with RN in C.
  rewrite Rlt_bool_false in C by exact H. destruct C as [-> S]. destruct (sign_val x X) as [X0 X1], (sign_val y Y) as [Y0 Y1].
  destruct (Bsign x), (Bsign y); try discriminate S; [right|left]; (split; [reflexivity|]); auto.
Qed.
Lemma add_total : (is_num (f64_add a b) /\ val (f64_add a b) = RN (val a + val b)) \/
  (bpow radix2 1024 <= Rabs (RN (val a + val b)) /\
   ((f64_add a b = pinf /\ 0 <= val a /\ 0 <= val b) \/ (f64_add a b = ninf /\ val a <= 0 /\ val b <= 0))).
Proof.
  destruct (Rlt_or_le (Rabs (RN (val a + val b))) (bpow radix2 1024)) as [H|H]; [left; apply add_num; assumption|right; split; [exact H|]].
  destruct (num_B a A) as (x & -> & X & VX), (num_B b B) as (y & -> & Y & VY). rewrite <- VX, <- VY in *.
  unfold f64_add. rewrite (add_equiv 53 1024 Hprec64 Hmax64).
  pose proof (Bplus_correct 53 1024 Hprec64 Hmax64 mode_NE x y X Y) as C.
  change (round radix2 (SpecFloat.fexp 53 1024) (round_mode mode_NE)) with RN in C.
  rewrite Rlt_bool_false in C by exact H. destruct C as [-> S]. destruct (sign_val x X) as [X0 X1], (sign_val y Y) as [Y0 Y1].
  destruct (Bsign x), (Bsign y); try discriminate S; [right|left]; (split; [reflexivity|]); auto.
Qed.
Lemma mul_total : (is_num (f64_mul a b) /\ val (f64_mul a b) = RN (val a * val b)) \/
  (bpow radix2 1024 <= Rabs (RN (val a * val b)) /\
   ((f64_mul a b = pinf /\ 0 <= val a * val b) \/ (f64_mul a b = ninf /\ val a * val b <= 0))).
Proof.
  destruct (Rlt_or_le (Rabs (RN (val a * val b))) (bpow radix2 1024)) as [H|H]; [left; apply mul_num; assumption|right; split; [exact H|]].
  destruct (num_B a A) as (x & -> & X & VX), (num_B b B) as (y & -> & Y & VY). rewrite <- VX, <- VY in *.
  unfold f64_mul. rewrite (mul_equiv 53 1024 Hprec64 Hmax64).
  pose proof (Bmult_correct 53 1024 Hprec64 Hmax64 mode_NE x y) as C.
  change (round radix2 (SpecFloat.fexp 53 1024) (round_mode mode_NE)) with RN in C.
  rewrite Rlt_bool_false in C by exact H. rewrite C. destruct (sign_val x X) as [X0 X1], (sign_val y Y) as [Y0 Y1].
  destruct (Bsign x), (Bsign y); [left|right|right|left]; (split; [reflexivity|]);
    repeat match goal with H : ?b = ?b -> _ |- _ => specialize (H eq_refl) end; nra.
Qed.
Lemma div_total : val b <> 0 -> (is_num (f64_div a b) /\ val (f64_div a b) = RN (val a / val b)) \/
  (bpow radix2 1024 <= Rabs (RN (val a / val b)) /\
   ((f64_div a b = pinf /\ 0 <= val a * val b) \/ (f64_div a b = ninf /\ val a * val b <= 0))).
Proof.
  intros Z. destruct (Rlt_or_le (Rabs (RN (val a / val b))) (bpow radix2 1024)) as [H|H]; [left; apply div_num; assumption|right; split; [exact H|]].
  destruct (num_B a A) as (x & -> & X & VX), (num_B b B) as (y & -> & Y & VY). rewrite <- VX, <- VY in *.
  unfold f64_div. rewrite (div_equiv 53 1024 Hprec64 Hmax64).
  pose proof (Bdiv_correct 53 1024 Hprec64 Hmax64 mode_NE x y Z) as C.
  change (round radix2 (SpecFloat.fexp 53 1024) (round_mode mode_NE)) with RN in C.
  rewrite Rlt_bool_false in C by exact H. rewrite C. destruct (sign_val x X) as [X0 X1], (sign_val y Y) as [Y0 Y1].
  destruct (Bsign x), (Bsign y); [left|right|right|left]; (split; [reflexivity|]);
    repeat match goal with H : ?b = ?b -> _ |- _ => specialize (H eq_refl) end; nra.
Qed.
End Total.

Lemma absorbed : RN (IZR (2 ^ 119 + 2 ^ 13)) = IZR (2 ^ 119).
Proof.
  assert (M : mag_val radix2 (IZR (2 ^ 119 + 2 ^ 13)) (mag radix2 (IZR (2 ^ 119 + 2 ^ 13))) = 120%Z).
  { apply mag_unique. rewrite Rabs_pos_eq by (apply IZR_le; lia). rewrite <- !IZR_Zpower by lia.
    split; [apply IZR_le; cbn; lia|apply IZR_lt; cbn; lia]. }
  unfold RN, round, F2R, scaled_mantissa, cexp. rewrite M. cbn [Fnum Fexp]. replace (FLT_exp (-1074) 53 120) with 67%Z by reflexivity.
  replace (bpow radix2 (-(67))) with (/ IZR (2 ^ 67)) by (rewrite bpow_opp, <- IZR_Zpower by lia; reflexivity).
  replace (bpow radix2 67) with (IZR (2 ^ 67)) by (rewrite <- IZR_Zpower by lia; reflexivity).
  assert (E : ZnearestE (IZR (2 ^ 119 + 2 ^ 13) * / IZR (2 ^ 67)) = (2 ^ 52)%Z).
  { apply Znearest_imp. replace (IZR (2 ^ 119 + 2 ^ 13) * / IZR (2 ^ 67) - IZR (2 ^ 52)) with (/ IZR (2 ^ 54)).
    - rewrite Rabs_pos_eq by (left; apply Rinv_0_lt_compat, IZR_lt; lia). apply Rinv_lt_contravar; [|apply IZR_lt; lia]. apply Rmult_lt_0_compat; apply IZR_lt; lia.
    - rewrite plus_IZR. change (2 ^ 119)%Z with (2 ^ 52 * 2 ^ 67)%Z. change (2 ^ 67)%Z with (2 ^ 54 * 2 ^ 13)%Z. rewrite !mult_IZR. field. split; apply IZR_neq; lia. }
  rewrite E. rewrite <- mult_IZR. reflexivity.
Qed.
(** A finite number is its own rounding and below the overflow threshold. *)
Lemma num_below a : is_num a -> Rabs (val a) < bpow radix2 1024.
Proof. intros N. destruct (num_B a N) as (b & -> & F & V). rewrite <- V. apply abs_B2R_lt_emax. Qed.
Lemma num_format a : is_num a -> RN (val a) = val a.
Proof.
  intros N. destruct (num_B a N) as (b & -> & F & V). rewrite <- V. apply round_generic; [apply valid_rnd_N|].
  apply (generic_format_B2R 53 1024 b).
Qed.

(** * Non-negative or plus infinity *)
Definition up (r : f64) : Prop := (is_num r /\ 0 <= val r) \/ r = pinf.
Lemma RN_pos x : 0 <= x -> 0 <= RN x.
Proof. intros H. rewrite <- (round_0 radix2 (FLT_exp (-1074) 53) ZnearestE). apply round_le; [apply FLT_exp_valid; exact Hprec64|apply valid_rnd_N|exact H]. Qed.
Lemma sub_up a b : is_num a -> up b -> proper (f64_sub a b).
Proof.
  intros N [[M P]| ->].
  - destruct (sub_total a b N M) as [[K _]|[O [(_ & A0 & B0)|(E & _)]]]; [left; exact K| |right; exact E].
    exfalso. assert (val b = 0) as Z by lra. rewrite Z, Rminus_0_r, num_format in O by exact N. pose proof (num_below a N). lra.
  - right. destruct N as [_ F]. destruct a; try discriminate F; reflexivity.
Qed.
Lemma sub_ninf b : is_num b -> f64_sub ninf b = ninf.
Proof. intros [_ F]. destruct b; try discriminate F; reflexivity. Qed.
Lemma add_ninf b : is_num b -> f64_add b ninf = ninf /\ f64_add ninf b = ninf.
Proof. intros [_ F]. destruct b; try discriminate F; split; reflexivity. Qed.
Lemma mul_up a b : is_num a -> 0 <= val a -> is_num b -> 0 <= val b -> up (f64_mul a b).
Proof.
  intros N P M Q. assert (0 <= val a * val b) as S by (apply Rmult_le_pos; assumption).
  destruct (mul_total a b N M) as [[K V]|[O [(E & _)|(E & Z)]]]; [left; split; [exact K|rewrite V; apply RN_pos; exact S]|right; exact E|].
  exfalso. replace (val a * val b) with 0 in O by lra. unfold RN in O. rewrite round_0 in O by apply valid_rnd_N. rewrite Rabs_R0 in O. pose proof (bpow_gt_0 radix2 1024). lra.
Qed.
Lemma mul_sqr z : is_num z -> up (f64_mul z z).
Proof.
  intros N. pose proof (Rle_0_sqr (val z)) as S. unfold Rsqr in S.
  destruct (mul_total z z N N) as [[K V]|[O [(E & _)|(E & Z)]]]; [left; split; [exact K|rewrite V; apply RN_pos; exact S]|right; exact E|].
  exfalso. replace (val z * val z) with 0 in O by lra. unfold RN in O. rewrite round_0 in O by apply valid_rnd_N. rewrite Rabs_R0 in O. pose proof (bpow_gt_0 radix2 1024). lra.
Qed.
Lemma mul_pinf a : is_num a -> 0 < val a -> f64_mul a pinf = pinf /\ f64_mul pinf a = pinf.
Proof.
  intros [_ F] P. destruct a as [s| | |s m e]; try discriminate F; [unfold val in P; cbn in P; lra|].
  destruct s; [|split; reflexivity]. exfalso. unfold val, SF2R in P. cbn [cond_Zopp] in P.
  assert (F2R (Float radix2 (Z.neg m) e) <= 0) by (apply F2R_le_0; cbn; lia). cbn in *. lra.
Qed.
Lemma div_pos_up a b : up a -> is_num b -> 0 < val b -> up (f64_div a b).
Proof.
  intros [[N P]| ->] M Q.
  - destruct (div_total a b N M ltac:(lra)) as [[K V]|[O [(E & _)|(E & Z)]]].
    + left. split; [exact K|]. rewrite V. apply RN_pos. apply Rmult_le_pos; [exact P|left; apply Rinv_0_lt_compat, Q].
    + right. exact E.
    + exfalso. assert (val a = 0) as Z0 by nra. rewrite Z0 in O. unfold Rdiv, RN in O. rewrite Rmult_0_l, round_0 in O by apply valid_rnd_N. rewrite Rabs_R0 in O. pose proof (bpow_gt_0 radix2 1024). lra.
  - right. destruct (mul_pinf b M Q) as [E _]. destruct M as [_ F]. destruct b as [s| | |s m e]; try discriminate F; [cbn in E; discriminate E|]. destruct s; [cbn in E; discriminate E|reflexivity].
Qed.

(** The residual: a number or an infinity. *)
Definition inf_or_num (r : f64) : Prop := is_num r \/ exists s, r = S754_infinity s.
Lemma residual x m s : not_nan x -> is_num m -> is_num s -> 0 < val s -> inf_or_num (f64_div (f64_sub x m) s).
Proof.
  intros X M S P.
  assert (D : inf_or_num (f64_sub x m)).
  { destruct X as [N|[-> | ->]].
    - destruct (sub_total x m N M) as [[K _]|[_ [(E & _)|(E & _)]]]; [left; exact K|right; eexists; exact E|right; eexists; exact E].
    - right. exists false. destruct M as [_ F]. destruct m; try discriminate F; reflexivity.
    - right. exists true. apply sub_ninf, M. }
  destruct D as [N|[t E]].
  - destruct (div_total _ s N S ltac:(lra)) as [[K _]|[_ [(E & _)|(E & _)]]]; [left; exact K|right; eexists; exact E|right; eexists; exact E].
  - rewrite E. destruct (mul_pinf s S P) as [G _]. destruct S as [_ F]. destruct s as [u| | |u k e]; try discriminate F; [cbn in G; discriminate G|].
    right. eexists. reflexivity.
Qed.
Lemma square z : inf_or_num z -> up (f64_mul z z).
Proof. intros [N|[s ->]]; [apply mul_sqr, N|right; destruct s; reflexivity]. Qed.
Lemma mul_same a b : is_num a -> is_num b -> 0 <= val a * val b -> up (f64_mul a b).
Proof.
  intros N M S. destruct (mul_total a b N M) as [[K V]|[O [(E & _)|(E & Z)]]]; [left; split; [exact K|rewrite V; apply RN_pos; exact S]|right; exact E|].
  exfalso. replace (val a * val b) with 0 in O by lra. unfold RN in O. rewrite round_0 in O by apply valid_rnd_N. rewrite Rabs_R0 in O. pose proof (bpow_gt_0 radix2 1024). lra.
Qed.
Lemma half_square z : inf_or_num z -> up (f64_mul (f64_mul (f64_dec 5 10) z) z).
Proof.
  destruct half_dec as [NH VH]. intros [N|[s ->]].
  - destruct (mul_num (f64_dec 5 10) z NH N) as [K V].
    { rewrite VH. pose proof (num_below z N) as B. apply (RN_small _ 1023); [lia|].
      rewrite Rabs_mult, (Rabs_pos_eq (/ 2)) by lra. replace (bpow radix2 1024) with (2 * bpow radix2 1023) in B; [lra|].
      change 1024%Z with (1 + 1023)%Z. rewrite bpow_plus. reflexivity. }
    apply mul_same; [exact K|exact N|]. rewrite V, VH. destruct (Rle_or_lt 0 (val z)) as [P|P].
    + apply Rmult_le_pos; [apply RN_pos; lra|exact P].
    + assert (0 <= RN (- (/ 2 * val z))) as Q by (apply RN_pos; lra). unfold RN in Q. rewrite round_NE_opp in Q. fold RN in Q. change (round radix2 (FLT_exp (-1074) 53) ZnearestE (/ 2 * val z)) with (RN (/ 2 * val z)) in Q. nra.
  - right. destruct s; vm_compute; reflexivity.
Qed.

(** * Magnitudes *)
Definition bn (e : Z) (r : f64) : Prop := is_num r /\ Rabs (val r) <= bpow radix2 e.
Lemma bn_more e f r : bn e r -> (e <= f)%Z -> bn f r.
Proof. intros [N B] H. split; [exact N|]. eapply Rle_trans; [exact B|apply bpow_le, H]. Qed.
Lemma bn_add e a b : (-1000 <= e <= 1000)%Z -> bn e a -> bn e b -> bn (e + 1) (f64_add a b).
Proof.
  intros E [N P] [M Q]. assert (T : Rabs (val a + val b) <= bpow radix2 (e + 1)).
  { rewrite bpow_plus. change (bpow radix2 1) with 2. pose proof (Rabs_triang (val a) (val b)). lra. }
  destruct (add_num a b N M) as [K V]; [apply (RN_small _ (e + 1)); [lia|exact T]|]. split; [exact K|]. rewrite V. apply RN_abs_bpow; [lia|exact T].
Qed.
Lemma bn_sub e a b : (-1000 <= e <= 1000)%Z -> bn e a -> bn e b -> bn (e + 1) (f64_sub a b).
Proof.
  intros E [N P] [M Q]. assert (T : Rabs (val a - val b) <= bpow radix2 (e + 1)).
  { rewrite bpow_plus. change (bpow radix2 1) with 2. pose proof (Rabs_triang (val a) (- val b)) as R. rewrite Rabs_Ropp in R. unfold Rminus. lra. }
  destruct (sub_num a b N M) as [K V]; [apply (RN_small _ (e + 1)); [lia|exact T]|]. split; [exact K|]. rewrite V. apply RN_abs_bpow; [lia|exact T].
Qed.
Lemma bn_mul e f a b : (-1000 <= e + f <= 1000)%Z -> bn e a -> bn f b -> bn (e + f) (f64_mul a b).
Proof.
  intros E [N P] [M Q]. assert (T : Rabs (val a * val b) <= bpow radix2 (e + f)).
  { rewrite bpow_plus, Rabs_mult. apply Rmult_le_compat; try apply Rabs_pos; assumption. }
  destruct (mul_num a b N M) as [K V]; [apply (RN_small _ (e + f)); [lia|exact T]|]. split; [exact K|]. rewrite V. apply RN_abs_bpow; [lia|exact T].
Qed.
Lemma bn_neg e a : bn e a -> bn e (SFopp a).
Proof. intros [N P]. destruct (neg_num a N) as [K V]. split; [exact K|]. rewrite V, Rabs_Ropp. exact P. Qed.
Lemma bn_half e a : (-1000 <= e <= 1000)%Z -> bn e a -> bn e (f64_div a (f64_of_Z 2)).
Proof.
  intros E [N P]. destruct two_num as [N2 V2]. assert (T : Rabs (val a / val (f64_of_Z 2)) <= bpow radix2 e).
  { rewrite V2. unfold Rdiv. rewrite Rabs_mult, (Rabs_pos_eq (/ 2)) by lra. pose proof (Rabs_pos (val a)). lra. }
  destruct (div_num a (f64_of_Z 2) N N2) as [K V]; [rewrite V2; lra|apply (RN_small _ e); [lia|exact T]|]. split; [exact K|]. rewrite V. apply RN_abs_bpow; [lia|exact T].
Qed.
Lemma bn_one : bn 0 (f64_of_Z 1).
Proof. destruct one_num as [N V]. split; [exact N|]. rewrite V, Rabs_R1. cbn. lra. Qed.

Section Dists.
Context (c : R) (lg : R -> R) (L : libm) (LOK : libm_ok c lg L) (C0 : 0 <= c <= 1000000) (LE : ln_edges L).
Notation F := (F64 L).

Lemma bn_ln x : is_num x -> 0 < val x -> bn 11 (l_ln L x).
Proof.
  intros N P. destruct (ok_ln c lg L LOK x N P) as [K E]. split; [exact K|]. pose proof (ln_any x N P) as B.
  pose proof (keps c ltac:(lra)) as CS. assert (CE : 0 <= c * eps) by (apply Rmult_le_pos; [lra|left; apply eps_pos]).
  pose proof small_tiny as ST. pose proof small_pos as SP. pose proof (Rabs_pos (ln (val x))).
  assert (c * eps * (Rabs (ln (val x)) + small) <= / 4 * 1075) by (apply Rmult_le_compat; lra).
  change (bpow radix2 11) with 2048. apply Rabs_le_inv in E. apply Rabs_le_inv in B. apply Rabs_le. lra.
Qed.

Lemma bn_lgamma t : lg_moderate lg -> is_num t -> 0 < val t <= bpow radix2 880 -> bn 901 (l_lgamma L t).
Proof.
  intros M N [P Q]. pose proof (val_range t N P) as [V _]. pose proof (M (val t) (conj V Q)) as B. fold huge in B.
  destruct (ok_lgamma c lg L LOK t N P) as [K E]; [eapply Rle_trans; [exact B|unfold huge; apply bpow_le; lia]|]. split; [exact K|].
  pose proof (keps c ltac:(lra)) as CS. assert (CE : 0 <= c * eps) by (apply Rmult_le_pos; [lra|left; apply eps_pos]).
  pose proof (Rabs_pos (lg (val t))). pose proof huge_one as H1.
  assert (c * eps * (1 + Rabs (lg (val t))) <= / 4 * (1 + huge)) by (apply Rmult_le_compat; lra).
  change 901%Z with (900 + 1)%Z. rewrite bpow_plus. change (bpow radix2 1) with 2. fold huge. apply Rabs_le_inv in E. apply Rabs_le_inv in B. apply Rabs_le. lra.
Qed.
Lemma bn_val e t : is_num t -> 0 <= val t <= bpow radix2 e -> bn e t.
Proof. intros N B. split; [exact N|]. rewrite Rabs_pos_eq; lra. Qed.
Lemma one_up u : up u -> (is_num (f64_add (f64_of_Z 1) u) /\ 1 <= val (f64_add (f64_of_Z 1) u)) \/ f64_add (f64_of_Z 1) u = pinf.
Proof.
  destruct one_num as [N1 V1]. intros [[N P]| ->]; [|right; reflexivity].
  destruct (add_total _ u N1 N) as [[K V]|[_ [(E & _)|(E & A & _)]]]; [left; split; [exact K|]|right; exact E|exfalso; lra].
  rewrite V, V1. rewrite <- V1 at 1. rewrite <- (num_format _ N1). apply round_le; [apply FLT_exp_valid; exact Hprec64|apply valid_rnd_N|]. rewrite V1. lra.
Qed.

Lemma normal_front sd : is_num sd -> 0 < val sd -> bn 12 (f64_sub (f64_mul (SFopp (f64_dec 5 10)) (l_ln L (f64_mul (f64_of_Z 2) f64_pi))) (l_ln L sd)).
Proof.
  intros NS P.
  apply (bn_sub 11 _ _ ltac:(lia)); [|apply bn_ln; assumption].
  assert (H : bn 0 (SFopp (f64_dec 5 10))).
  { apply bn_neg. destruct half_dec as [N V]. split; [exact N|]. rewrite V, Rabs_pos_eq by lra. cbn. lra. }
  apply (bn_mul 0 11 _ _ ltac:(lia) H). destruct two_num as [N2 V2]. pose proof pi_bounds as PB.
  assert (R2 : rel 2 (2 * PI) (f64_mul (f64_of_Z 2) f64_pi)).
  { sizes. replace 2 with (0 + 1 + 1) at 1 by lra. apply rel_mul; ks.
    - apply rel_is; [exact N2|exact V2|lra].
    - exact rel_pi.
    - split; rewrite Rabs_pos_eq by lra; lra. }
  apply bn_ln; [apply (proj1 R2)|apply (rel_sign _ _ _ R2); lra].
Qed.
Lemma normal_proper mu sd x : is_num mu -> is_num sd -> 0 < val sd -> not_nan x -> proper (normal_ld (@mkNormal F mu sd) x).
Proof.
  intros NM NS P X. unfold normal_ld. cbn [n_mean n_sd]. apply sub_up; [exact (proj1 (normal_front sd NS P))|apply half_square, residual; assumption].
Qed.

Lemma cauchy_proper loc sc x : is_num loc -> is_num sc -> 0 < val sc -> not_nan x -> proper (cauchy_ld (@mkCauchy F loc sc) x).
Proof.
  intros NM NS P X. unfold cauchy_ld. cbn [c_loc c_scale]. pose proof (square _ (residual x loc sc X NM NS P)) as U.
  pose proof pi_bounds as PB. assert (BP : bn 11 (l_ln L f64_pi)) by (apply bn_ln; [apply num_pi|rewrite val_pi; lra]).
  pose proof (bn_ln sc NS P) as BS. destruct (one_up _ U) as [[K V]|E].
  - left. apply (bn_sub 12 _ _ ltac:(lia)); [|apply (bn_more 11); [exact BP|lia]].
    apply (bn_sub 11 _ _ ltac:(lia)); [|exact BS]. apply bn_neg, bn_ln; [exact K|]. eapply Rlt_le_trans; [|exact V]. lra.
  - right. change (f64_sub (f64_sub (SFopp (l_ln L (f64_add (f64_of_Z 1) (f64_mul (f64_div (f64_sub x loc) sc) (f64_div (f64_sub x loc) sc))))) (l_ln L sc)) (l_ln L f64_pi) = ninf).
    rewrite E, (proj1 LE). change (SFopp pinf) with ninf. rewrite sub_ninf by apply BS. apply sub_ninf, BP.
Qed.

Lemma guard_le x : not_nan x -> (@nleb F n0 x = true /\ up x) \/ @nleb F n0 x = false.
Proof.
  intros [N|[-> | ->]]; [|left; split; [reflexivity|right; reflexivity]|right; reflexivity].
  destruct zero_num as [N0 V0]. change (@nleb F n0 x) with (SFleb (f64_of_Z 0) x). rewrite (SFleb_num _ _ N0 N), V0.
  destruct (Rle_bool_spec 0 (val x)); [left; split; [reflexivity|left; split; assumption]|right; reflexivity].
Qed.
Lemma guard_lt x : not_nan x -> (@nltb F n0 x = true /\ ((is_num x /\ 0 < val x) \/ x = pinf)) \/ @nltb F n0 x = false.
Proof.
  intros [N|[-> | ->]]; [|left; split; [reflexivity|right; reflexivity]|right; reflexivity].
  destruct zero_num as [N0 V0]. change (@nltb F n0 x) with (SFltb (f64_of_Z 0) x). rewrite (SFltb_num _ _ N0 N), V0.
  destruct (Rlt_bool_spec 0 (val x)); [left; split; [reflexivity|left; split; assumption]|right; reflexivity].
Qed.
Lemma exponential_proper rate x : is_num rate -> 0 < val rate -> not_nan x -> proper (exponential_ld (@mkExponential F rate) x).
Proof.
  intros NR P X. unfold exponential_ld. cbn [e_rate]. destruct (guard_le x X) as [[-> U]| ->]; [|right; reflexivity].
  apply sub_up; [apply bn_ln; assumption|]. destruct U as [[N Q]| ->]; [apply mul_up; [exact NR|lra|exact N|exact Q]|]. right. apply mul_pinf; assumption.
Qed.
Lemma gamma_proper a b x : lg_moderate lg -> is_num a -> is_num b -> 0 < val a <= bpow radix2 880 -> 0 < val b -> not_nan x -> x <> pinf ->
  proper (gamma_ld (@mkGamma F a b) x).
Proof.
  intros LM NA NB A B X XP. unfold gamma_ld. cbn [g_shape g_rate]. destruct (guard_lt x X) as [[-> U]| ->]; [|right; reflexivity].
  destruct U as [[N Q]|E]; [|contradiction]. apply sub_up; [|apply mul_up; [exact NB|lra|exact N|lra]].
  pose proof (bn_val 880 a NA ltac:(lra)) as BA.
  apply (bn_add 902 _ _ ltac:(lia)).
  - apply (bn_sub 901 _ _ ltac:(lia)); [|apply bn_lgamma; assumption]. apply (bn_more 891); [|lia]. apply (bn_mul 880 11 _ _ ltac:(lia) BA). apply bn_ln; assumption.
  - apply (bn_more (881 + 11)); [|lia]. apply (bn_mul 881 11 _ _ ltac:(lia)); [|apply bn_ln; assumption].
    apply (bn_sub 880 _ _ ltac:(lia) BA). apply (bn_more 0); [apply bn_one|lia].
Qed.
(** At plus infinity: NaN from shape 1 on, minus infinity below. *)
Lemma tail_at_infinity a k : is_num a -> 0 < val a <= bpow radix2 880 -> is_num k ->
  (1 <= val a -> f64_sub (f64_add k (f64_mul (f64_sub a (f64_of_Z 1)) pinf)) pinf = S754_nan) /\
  (val a < 1 -> f64_sub (f64_add k (f64_mul (f64_sub a (f64_of_Z 1)) pinf)) pinf = ninf).
Proof.
  intros NA A K. destruct one_num as [N1 V1].
  destruct (sub_num a (f64_of_Z 1) NA N1) as [N V].
  { apply (RN_small _ 881); [lia|]. rewrite V1. apply Rabs_le. change 881%Z with (1 + 880)%Z. rewrite bpow_plus. change (bpow radix2 1) with 2. pose proof (bpow_gt_0 radix2 880).
    assert (bpow radix2 0 <= bpow radix2 880) as O by (apply bpow_le; lia). change (bpow radix2 0) with 1 in O. lra. }
  rewrite V1 in V. set (d := f64_sub a (f64_of_Z 1)) in *.
  split; intros H.
  - assert (P : 0 <= val d) by (rewrite V; apply RN_pos; lra).
    destruct N as [_ F]. destruct K as [_ G]. destruct d as [s| | |[] m e]; try discriminate F; cbn [f64_mul SFmul pinf xorb].
    + destruct k; try discriminate G; reflexivity.
    + exfalso. unfold val, SF2R in P. cbn [cond_Zopp] in P. assert (F2R (Float radix2 (Z.neg m) e) < 0) by (apply F2R_lt_0; reflexivity). cbn in *. lra.
    + destruct k; try discriminate G; reflexivity.
  - assert (P : val d < 0).
    { rewrite V. sizes. assert (R1 : rel 1 (1 - val a) (f64_sub (f64_of_Z 1) a)).
      { apply rel_diff'; try assumption; rewrite ?V1; [lra|lra|]. rewrite !Rabs_pos_eq by lra. lra. }
      pose proof (rel_sign _ _ _ R1 ltac:(lra)) as S. destruct (sub_num (f64_of_Z 1) a N1 NA) as [_ W].
      { apply (RN_small _ 0); [lia|]. rewrite V1. change (bpow radix2 0) with 1. apply Rabs_le. lra. }
      rewrite W, V1 in S. replace (val a - 1) with (- (1 - val a)) by ring. unfold RN in *. rewrite round_NE_opp. lra. }
    destruct N as [_ F]. destruct K as [_ G]. destruct d as [s| | |[] m e]; try discriminate F; cbn [f64_mul SFmul pinf xorb].
    + exfalso. unfold val in P. cbn in P. lra.
    + destruct k; try discriminate G; reflexivity.
    + exfalso. unfold val, SF2R in P. cbn [cond_Zopp] in P. assert (0 < F2R (Float radix2 (Z.pos m) e)) by (apply F2R_gt_0; reflexivity). cbn in *. lra.
Qed.
Lemma gamma_at_infinity a b : lg_moderate lg -> is_num a -> is_num b -> 0 < val a <= bpow radix2 880 -> 0 < val b ->
  (1 <= val a -> gamma_ld (@mkGamma F a b) pinf = S754_nan) /\ (val a < 1 -> gamma_ld (@mkGamma F a b) pinf = ninf).
Proof.
  intros LM NA NB A B. change (gamma_ld (@mkGamma F a b) pinf) with
    (f64_sub (f64_add (f64_sub (f64_mul a (l_ln L b)) (l_lgamma L a)) (f64_mul (f64_sub a (f64_of_Z 1)) (l_ln L pinf))) (f64_mul b pinf)).
  destruct (mul_pinf b NB B) as [-> _]. rewrite (proj1 LE). pose proof (bn_val 880 a NA ltac:(lra)) as BA. apply tail_at_infinity; [exact NA|exact A|].
  apply (bn_sub 901 _ _ ltac:(lia)); [|apply bn_lgamma; assumption]. apply (bn_more 891); [|lia]. apply (bn_mul 880 11 _ _ ltac:(lia) BA). apply bn_ln; assumption.
Qed.
Lemma ln_minus p : is_num p -> 0 < val p < 1 -> bn 11 (l_ln L (f64_sub (f64_of_Z 1) p)).
Proof.
  intros N P. destruct one_num as [N1 V1]. sizes. assert (R1 : rel 1 (1 - val p) (f64_sub (f64_of_Z 1) p)).
  { apply rel_diff'; try assumption; rewrite ?V1; [lra|lra|]. rewrite !Rabs_pos_eq by lra. lra. }
  apply bn_ln; [apply (proj1 R1)|apply (rel_sign _ _ _ R1); lra].
Qed.
Lemma guard_unit x : not_nan x -> (@nltb F n0 x && @nltb F x n1 = true /\ is_num x /\ 0 < val x < 1) \/ @nltb F n0 x && @nltb F x n1 = false.
Proof.
  intros X. destruct (guard_lt x X) as [[-> [[N P]| ->]]| ->]; [|right; reflexivity|right; reflexivity]. cbn [andb].
  destruct one_num as [N1 V1]. change (@nltb F x n1) with (SFltb x (f64_of_Z 1)). rewrite (SFltb_num _ _ N N1), V1.
  destruct (Rlt_bool_spec (val x) 1); [left; split; [reflexivity|]; split; [exact N|lra]|right; reflexivity].
Qed.
(** Inside the unit interval the beta log-density is finite. *)
Lemma beta_proper a b x : lg_moderate lg -> is_num a -> is_num b -> 0 < val a <= bpow radix2 879 -> 0 < val b <= bpow radix2 879 -> not_nan x ->
  proper (beta_ld (@mkBeta F a b) x) /\ (is_num x -> 0 < val x < 1 -> is_num (beta_ld (@mkBeta F a b) x)).
Proof.
  intros LM NA NB A B X.
  assert (G : is_num x -> 0 < val x < 1 -> is_num (f64_add (f64_add (f64_sub (f64_sub (l_lgamma L (f64_add a b)) (l_lgamma L a)) (l_lgamma L b))
      (f64_mul (f64_sub a (f64_of_Z 1)) (l_ln L x))) (f64_mul (f64_sub b (f64_of_Z 1)) (l_ln L (f64_sub (f64_of_Z 1) x))))).
  { intros N P. pose proof (bn_val 879 a NA ltac:(lra)) as BA. pose proof (bn_val 879 b NB ltac:(lra)) as BB.
    assert (E879 : bpow radix2 879 <= bpow radix2 880) by (apply bpow_le; lia).
    destruct (bn_add 879 a b ltac:(lia) BA BB) as [NS BS].
    assert (PS : 0 < val (f64_add a b)).
    { destruct (add_num a b NA NB) as [_ V].
      - apply (RN_small _ 880); [lia|]. change 880%Z with (1 + 879)%Z. rewrite bpow_plus. change (bpow radix2 1) with 2. rewrite Rabs_pos_eq; lra.
      - rewrite V. apply Rlt_le_trans with (val a); [lra|]. rewrite <- (num_format a NA) at 1.
        apply round_le; [apply FLT_exp_valid; exact Hprec64|apply valid_rnd_N|lra]. }
    rewrite Rabs_pos_eq in BS by lra. change (879 + 1)%Z with 880%Z in BS.
    apply (bn_add 904 _ _ ltac:(lia)).
    - apply (bn_add 903 _ _ ltac:(lia)).
      + apply (bn_sub 902 _ _ ltac:(lia)); [|apply (bn_more 901); [apply bn_lgamma; [exact LM|exact NB|lra]|lia]].
        apply (bn_sub 901 _ _ ltac:(lia)); apply bn_lgamma; try assumption; lra.
      + apply (bn_more (880 + 11)); [|lia]. apply (bn_mul 880 11 _ _ ltac:(lia)); [|apply bn_ln; [exact N|lra]].
        apply (bn_sub 879 _ _ ltac:(lia) BA). apply (bn_more 0); [apply bn_one|lia].
    - apply (bn_more (880 + 11)); [|lia]. apply (bn_mul 880 11 _ _ ltac:(lia)); [|apply ln_minus; assumption].
      apply (bn_sub 879 _ _ ltac:(lia) BB). apply (bn_more 0); [apply bn_one|lia]. }
  unfold beta_ld. cbn [b_alpha b_beta]. destruct (guard_unit x X) as [[E [N P]]|E].
  - rewrite E. split; [left; apply G; assumption|intros _ _; apply G; assumption].
  - rewrite E. split; [right; reflexivity|]. intros N P. exfalso. destruct zero_num as [N0 V0], one_num as [N1 V1].
    change (SFltb (f64_of_Z 0) x && SFltb x (f64_of_Z 1) = false) in E. rewrite (SFltb_num _ _ N0 N), (SFltb_num _ _ N N1), V0, V1, !Rlt_bool_true in E by lra. discriminate E.
Qed.
Lemma chi_proper k x : lg_moderate lg -> is_num k -> bpow radix2 (-1000) <= val k <= bpow radix2 880 -> not_nan x -> x <> pinf ->
  proper (chi_ld (@mkChi F k) x).
Proof.
  intros LM NK K X XP. change (chi_ld (@mkChi F k) x) with
    (if @nltb F n0 x then f64_sub (f64_add (f64_sub (f64_mul (SFopp (f64_div k (f64_add (f64_of_Z 1) (f64_of_Z 1)))) (l_ln L (f64_add (f64_of_Z 1) (f64_of_Z 1)))) (l_lgamma L (f64_div k (f64_add (f64_of_Z 1) (f64_of_Z 1))))) (f64_mul (f64_sub (f64_div k (f64_add (f64_of_Z 1) (f64_of_Z 1))) (f64_of_Z 1)) (l_ln L x))) (f64_div x (f64_add (f64_of_Z 1) (f64_of_Z 1))) else ninf). destruct (guard_lt x X) as [[-> U]| ->]; [|right; reflexivity].
  destruct U as [[N Q]|E]; [|contradiction]. pose proof (bpow_gt_0 radix2 (-1000)) as K0. destruct two_num as [N2 V2].
  rewrite two_sum.
  destruct (half_exact k NK (proj1 K)) as [NH VH].
  pose proof (bn_half 880 k ltac:(lia) (bn_val 880 k NK ltac:(lra))) as BH.
  apply sub_up; [|apply (div_pos_up x (f64_of_Z 2)); [left; split; [exact N|lra]|exact N2|lra]].
  apply (bn_add 902 _ _ ltac:(lia)).
  - apply (bn_sub 901 _ _ ltac:(lia)); [|apply bn_lgamma; [exact LM|exact NH|rewrite VH; lra]].
    apply (bn_more (880 + 11)); [|lia]. apply (bn_mul 880 11 _ _ ltac:(lia)); [apply bn_neg; exact BH|apply bn_ln; [exact N2|lra]].
  - apply (bn_more (881 + 11)); [|lia]. apply (bn_mul 881 11 _ _ ltac:(lia)); [|apply bn_ln; assumption].
    apply (bn_sub 880 _ _ ltac:(lia) BH). apply (bn_more 0); [apply bn_one|lia].
Qed.
Lemma chi_at_infinity k : lg_moderate lg -> is_num k -> bpow radix2 (-1000) <= val k <= bpow radix2 880 ->
  (2 <= val k -> chi_ld (@mkChi F k) pinf = S754_nan) /\ (val k < 2 -> chi_ld (@mkChi F k) pinf = ninf).
Proof.
  intros LM NK K. change (chi_ld (@mkChi F k) pinf) with
    (f64_sub (f64_add (f64_sub (f64_mul (SFopp (f64_div k (f64_add (f64_of_Z 1) (f64_of_Z 1)))) (l_ln L (f64_add (f64_of_Z 1) (f64_of_Z 1)))) (l_lgamma L (f64_div k (f64_add (f64_of_Z 1) (f64_of_Z 1))))) (f64_mul (f64_sub (f64_div k (f64_add (f64_of_Z 1) (f64_of_Z 1))) (f64_of_Z 1)) (l_ln L pinf))) (f64_div pinf (f64_add (f64_of_Z 1) (f64_of_Z 1)))).
  pose proof (bpow_gt_0 radix2 (-1000)) as K0. destruct two_num as [N2 V2]. rewrite two_sum, (proj1 LE). change (f64_div pinf (f64_of_Z 2)) with pinf.
  destruct (half_exact k NK (proj1 K)) as [NH VH].
  pose proof (bn_half 880 k ltac:(lia) (bn_val 880 k NK ltac:(lra))) as BH.
  assert (W : is_num (f64_sub (f64_mul (SFopp (f64_div k (f64_of_Z 2))) (l_ln L (f64_of_Z 2))) (l_lgamma L (f64_div k (f64_of_Z 2))))).
  { apply (bn_sub 901 _ _ ltac:(lia)); [|apply bn_lgamma; [exact LM|exact NH|rewrite VH; lra]].
    apply (bn_more (880 + 11)); [|lia]. apply (bn_mul 880 11 _ _ ltac:(lia)); [apply bn_neg; exact BH|apply bn_ln; [exact N2|lra]]. }
  destruct (tail_at_infinity _ _ NH ltac:(rewrite VH; lra) W) as [T1 T2]. split; intros H; [apply T1|apply T2]; rewrite VH; lra.
Qed.
Lemma student_proper nu x : lg_moderate lg -> is_num nu -> bpow radix2 (-1000) <= val nu <= bpow radix2 879 -> not_nan x ->
  proper (student_ld (@mkStudent F nu) x).
Proof.
  intros LM NN K X. pose proof (bpow_gt_0 radix2 (-1000)) as K0. destruct one_num as [N1 V1]. destruct half_dec as [NH VH]. pose proof pi_bounds as PB.
  assert (E879 : bpow radix2 879 <= bpow radix2 880) by (apply bpow_le; lia).
  change (student_ld (@mkStudent F nu) x) with
    (f64_add (f64_sub (f64_sub (l_lgamma L (f64_div (f64_add nu (f64_of_Z 1)) (f64_of_Z 2))) (l_lgamma L (f64_div nu (f64_of_Z 2)))) (f64_mul (f64_dec 5 10) (l_ln L (f64_mul nu f64_pi))))
      (f64_mul (SFopp (f64_div (f64_add nu (f64_of_Z 1)) (f64_of_Z 2))) (l_ln L (f64_add (f64_of_Z 1) (f64_div (f64_mul x x) nu))))).
  destruct (half_exact nu NN (proj1 K)) as [NB VB]. pose proof (bn_val 879 nu NN ltac:(lra)) as BN.
  pose proof (bn_add 879 nu (f64_of_Z 1) ltac:(lia) BN (bn_more 0 879 _ bn_one ltac:(lia))) as BS. change (879 + 1)%Z with 880%Z in BS.
  assert (S1 : 1 <= val (f64_add nu (f64_of_Z 1))).
  { destruct (add_num nu (f64_of_Z 1) NN N1) as [_ V].
    - apply (RN_small _ 880); [lia|]. rewrite V1. change 880%Z with (1 + 879)%Z. rewrite bpow_plus. change (bpow radix2 1) with 2.
      assert (bpow radix2 0 <= bpow radix2 879) as O by (apply bpow_le; lia). change (bpow radix2 0) with 1 in O. rewrite Rabs_pos_eq; lra.
    - rewrite V, V1. rewrite <- V1 at 1. rewrite <- (num_format _ N1). apply round_le; [apply FLT_exp_valid; exact Hprec64|apply valid_rnd_N|]. rewrite V1. lra. }
  assert (SM : bpow radix2 (-1000) <= 1) by (change 1 with (bpow radix2 0); apply bpow_le; lia).
  destruct (half_exact _ (proj1 BS) ltac:(lra)) as [NM VM]. pose proof (bn_half 880 _ ltac:(lia) BS) as BM.
  set (mid := f64_div (f64_add nu (f64_of_Z 1)) (f64_of_Z 2)) in *.
  assert (M0 : 0 < val mid <= bpow radix2 880) by (pose proof (proj2 BM) as Z; rewrite Rabs_pos_eq in Z; rewrite VM in *; lra).
  assert (PN : is_num (f64_mul nu f64_pi) /\ 0 < val (f64_mul nu f64_pi)).
  { destruct (mul_num nu f64_pi NN num_pi) as [Q V].
    - apply (RN_small _ 881); [lia|]. rewrite val_pi. change 881%Z with (879 + 2)%Z. rewrite bpow_plus, Rabs_mult. apply Rmult_le_compat; try apply Rabs_pos; [apply BN|]. rewrite Rabs_pos_eq by lra. change (bpow radix2 2) with 4. lra.
    - split; [exact Q|]. rewrite V, val_pi. apply Rlt_le_trans with (val nu); [lra|]. rewrite <- (num_format nu NN) at 1.
      apply round_le; [apply FLT_exp_valid; exact Hprec64|apply valid_rnd_N|nra]. }
  assert (T : is_num (f64_sub (f64_sub (l_lgamma L mid) (l_lgamma L (f64_div nu (f64_of_Z 2)))) (f64_mul (f64_dec 5 10) (l_ln L (f64_mul nu f64_pi))))
    /\ bn 903 (f64_sub (f64_sub (l_lgamma L mid) (l_lgamma L (f64_div nu (f64_of_Z 2)))) (f64_mul (f64_dec 5 10) (l_ln L (f64_mul nu f64_pi))))).
  { assert (bn 903 (f64_sub (f64_sub (l_lgamma L mid) (l_lgamma L (f64_div nu (f64_of_Z 2)))) (f64_mul (f64_dec 5 10) (l_ln L (f64_mul nu f64_pi))))) as Z; [|split; [apply Z|exact Z]].
    apply (bn_sub 902 _ _ ltac:(lia)).
    - apply (bn_sub 901 _ _ ltac:(lia)); apply bn_lgamma; try assumption. rewrite VB. lra.
    - apply (bn_more (0 + 11)); [|lia]. apply (bn_mul 0 11 _ _ ltac:(lia)); [split; [exact NH|rewrite VH, Rabs_pos_eq by lra; cbn; lra]|apply bn_ln; apply PN]. }
  assert (U : up (f64_mul x x)) by (apply square; destruct X as [Y|[-> | ->]]; [left; exact Y|right; eexists; reflexivity|right; eexists; reflexivity]).
  destruct (one_up _ (div_pos_up _ nu U NN ltac:(lra))) as [[Q V]|E].
  - left. apply (bn_add 903 _ _ ltac:(lia)); [apply T|]. apply (bn_more (880 + 11)); [|lia]. apply (bn_mul 880 11 _ _ ltac:(lia)); [apply bn_neg; exact BM|].
    apply bn_ln; [exact Q|]. eapply Rlt_le_trans; [|exact V]. lra.
  - right. rewrite E, (proj1 LE). replace (f64_mul (SFopp mid) pinf) with ninf; [apply add_ninf, T|].
    destruct (mul_pinf mid NM (proj1 M0)) as [G _]. clearbody mid. destruct NM as [_ FM]. destruct mid as [s| | |[] m e]; try discriminate FM; try (cbn in G; discriminate G); reflexivity.
Qed.

(** * Discrete distributions *)
Lemma proper_ln p : is_num p -> 0 <= val p -> proper (l_ln L p).
Proof.
  intros N P. destruct (Rle_lt_or_eq_dec _ _ P) as [H|H]; [left; apply bn_ln; assumption|]. right.
  assert (Z : exists s, p = S754_zero s).
  { destruct N as [_ G]. destruct p as [s| | |s m e]; try discriminate G; [exists s; reflexivity|]. exfalso. symmetry in H. unfold val, SF2R in H.
    apply eq_0_F2R in H. cbn in H. destruct s; discriminate H. }
  destruct Z as [s ->]. apply (proj2 LE).
Qed.
Lemma one_minus p : is_num p -> 0 <= val p <= 1 -> is_num (f64_sub (f64_of_Z 1) p) /\ 0 <= val (f64_sub (f64_of_Z 1) p).
Proof.
  intros N P. destruct one_num as [N1 V1]. destruct (sub_num (f64_of_Z 1) p N1 N) as [K V].
  - apply (RN_small _ 0); [lia|]. rewrite V1. change (bpow radix2 0) with 1. apply Rabs_le. lra.
  - split; [exact K|]. rewrite V, V1. apply RN_pos. lra.
Qed.
Lemma bernoulli_proper p k : is_num p -> 0 <= val p <= 1 -> proper (bernoulli_ld (@mkBernoulli F p) k).
Proof.
  intros N P. destruct k as [|[|k]]; [|exact (proper_ln p N (proj1 P))|right; reflexivity].
  destruct (one_minus p N P) as [K V]. exact (proper_ln _ K V).
Qed.
Lemma categorical_proper ps k : Forall (fun p => is_num p /\ 0 <= val p) ps -> proper (categorical_ld (@mkCategorical F ps) k).
Proof.
  intros H. change (proper (if (k <? length ps)%nat then l_ln L (nth k ps (f64_of_Z 0)) else ninf)). destruct (k <? length ps)%nat eqn:K; [|right; reflexivity]. apply Nat.ltb_lt in K.
  assert (Q : is_num (nth k ps (f64_of_Z 0)) /\ 0 <= val (nth k ps (f64_of_Z 0))) by (rewrite Forall_forall in H; apply H, nth_In, K).
  exact (proper_ln _ (proj1 Q) (proj2 Q)).
Qed.
Lemma bn_count k : (Z.of_nat k <= 2 ^ 64)%Z -> bn 64 (@nofn F k).
Proof.
  intros H. destruct (num_Z (Z.of_nat k)) as [N V]; [lia|]. split; [exact N|]. change (@nofn F k) with (f64_of_Z (Z.of_nat k)). rewrite V.
  apply RN_abs_bpow; [lia|]. rewrite Rabs_pos_eq by (apply IZR_le; lia). change (bpow radix2 64) with (IZR (2 ^ 64)). apply IZR_le, H.
Qed.
Lemma binomial_finite n p k : is_num p -> 0 < val p < 1 -> (Z.of_nat n <= 2 ^ 64)%Z -> (k <= n)%nat -> is_num (binomial_ld (@mkBinomial F n p) k).
Proof.
  intros N P C K. unfold binomial_ld. cbn [bi_n bi_prob]. rewrite (proj2 (Nat.leb_le k n) K).
  apply (bn_add 76 _ _ ltac:(lia)).
  - apply (bn_more (64 + 11)); [|lia]. apply (bn_mul 64 11 _ _ ltac:(lia)); [apply bn_count; lia|apply bn_ln; [exact N|lra]].
  - apply (bn_mul 65 11 _ _ ltac:(lia)); [apply (bn_sub 64 _ _ ltac:(lia)); apply bn_count; lia|apply ln_minus; assumption].
Qed.
Lemma geometric_finite p k : is_num p -> 0 < val p < 1 -> (Z.of_nat k <= 2 ^ 64)%Z -> (1 <= k)%nat -> is_num (geometric_ld (@mkGeometric F p) k).
Proof.
  intros N P C K. unfold geometric_ld. cbn [ge_prob]. rewrite (proj2 (Nat.leb_le 1 k) K).
  apply (bn_add 76 _ _ ltac:(lia)).
  - apply (bn_mul 65 11 _ _ ltac:(lia)); [apply (bn_sub 64 _ _ ltac:(lia)); [apply bn_count; lia|apply (bn_more 0); [apply bn_one|lia]]|apply ln_minus; assumption].
  - apply (bn_more 11); [|lia]. apply bn_ln; [exact N|lra].
Qed.
Lemma negbinomial_finite r p k : is_num p -> 0 < val p < 1 -> (Z.of_nat r <= 2 ^ 64)%Z -> (Z.of_nat k <= 2 ^ 64)%Z -> is_num (negbinomial_ld (@mkNegBinomial F r p) k).
Proof.
  intros N P CR CK. unfold negbinomial_ld. cbn [nb_r nb_prob]. apply (bn_add 75 _ _ ltac:(lia)).
  - apply (bn_mul 64 11 _ _ ltac:(lia)); [apply bn_count; lia|apply bn_ln; [exact N|lra]].
  - apply (bn_mul 64 11 _ _ ltac:(lia)); [apply bn_count; lia|apply ln_minus; assumption].
Qed.
(** The log-factorial sum stays below 2^119 whatever the number of terms. *)
Lemma absorb a b : bn 119 a -> bn 13 b -> bn 119 (f64_add a b).
Proof.
  intros [N P] [M Q]. assert (T : Rabs (val a + val b) <= bpow radix2 119 + bpow radix2 13) by (eapply Rle_trans; [apply Rabs_triang|lra]).
  assert (E : RN (bpow radix2 119 + bpow radix2 13) = bpow radix2 119).
  { rewrite <- !IZR_Zpower by lia. rewrite <- plus_IZR.
    change (IZR (radix2 ^ 119 + radix2 ^ 13)) with (IZR (2 ^ 119 + 2 ^ 13)). exact absorbed. }
  destruct (add_num a b N M) as [K V].
  - apply (RN_small _ 120); [lia|]. eapply Rle_trans; [exact T|]. change 120%Z with (1 + 119)%Z. rewrite bpow_plus. change (bpow radix2 1) with 2.
    assert (bpow radix2 13 <= bpow radix2 119) by (apply bpow_le; lia). lra.
  - split; [exact K|]. rewrite V. rewrite <- E. unfold RN. rewrite <- round_NE_abs by (apply FLT_exp_valid; exact Hprec64).
    apply round_le; [apply FLT_exp_valid; exact Hprec64|apply valid_rnd_N|exact T].
Qed.
Lemma log_fact_bounded k : (Z.of_nat k <= 2 ^ 64)%Z -> bn 119 (fold_left (fun acc i => @nadd F acc (nln (nofn i))) (seq 1 k) n0).
Proof.
  induction k as [|k IH]; intros H.
  - destruct zero_num as [N V]. split; [exact N|]. change (@fold_left F nat _ (seq 1 0) n0) with (f64_of_Z 0). rewrite V, Rabs_R0. apply bpow_ge_0.
  - rewrite seq_S, fold_left_app. cbn [fold_left]. apply absorb; [apply IH; lia|]. apply (bn_more 11); [|lia].
    assert (B : bn 64 (@nofn F (1 + k))) by (apply bn_count; lia). destruct (num_Z (Z.of_nat (1 + k))) as [N V]; [lia|].
    apply bn_ln; [exact N|]. change (@nofn F (1 + k)) with (f64_of_Z (Z.of_nat (1 + k))). rewrite V.
    apply Rlt_le_trans with 1; [lra|]. destruct one_num as [N1 V1]. rewrite <- V1, <- (num_format _ N1). apply round_le; [apply FLT_exp_valid; exact Hprec64|apply valid_rnd_N|].
    rewrite V1. apply IZR_le. lia.
Qed.
Lemma poisson_proper rate k : is_num rate -> 0 < val rate -> (Z.of_nat k <= 2 ^ 64)%Z -> proper (poisson_ld (@mkPoisson F rate) k) /\
  (val rate <= bpow radix2 900 -> is_num (poisson_ld (@mkPoisson F rate) k)).
Proof.
  intros N P K. unfold poisson_ld. cbn [p_rate].
  pose proof (bn_mul 64 11 _ _ ltac:(lia) (bn_count k K) (bn_ln rate N P)) as B1. pose proof (log_fact_bounded k K) as B2.
  set (f := fold_left _ (seq 1 k) n0) in *. clearbody f.
  split.
  - change (proper (f64_sub (f64_sub (f64_mul (@nofn F k) (l_ln L rate)) rate) f)). set (a := f64_mul (@nofn F k) (l_ln L rate)). assert (BA : bn 75 a) by exact B1. clearbody a.
    destruct (sub_up a rate (proj1 BA)) as [R|R]; [left; split; [exact N|lra]| |rewrite R; right; apply sub_ninf, B2].
    destruct (Rle_lt_dec 0 (val (f64_sub a rate))) as [S|S].
    + left. apply (bn_sub 119 _ _ ltac:(lia)); [|exact B2]. apply (bn_more 75); [|lia]. split; [exact R|]. rewrite Rabs_pos_eq by exact S.
      destruct (sub_total a rate (proj1 BA) N) as [[_ V]|[_ [(E & _)|(E & _)]]]; [|rewrite E in R; destruct R as [_ R]; discriminate R..].
      rewrite V. assert (T : RN (val a - val rate) <= RN (val a)) by (apply round_le; [apply FLT_exp_valid; exact Hprec64|apply valid_rnd_N|lra]).
      rewrite (num_format a (proj1 BA)) in T. pose proof (Rle_abs (val a)). destruct BA as [_ BA]. lra.
    + destruct (sub_total _ f R (proj1 B2)) as [[Q _]|[_ [(_ & E & _)|(E & _)]]]; [left; exact Q|lra|right; exact E].
  - intros H. apply (bn_sub 901 _ _ ltac:(lia)); [|apply (bn_more 119); [exact B2|lia]].
    apply (bn_sub 900 _ _ ltac:(lia)); [apply (bn_more 75); [exact B1|lia]|apply bn_val; [exact N|lra]].
Qed.
End Dists.
