(** Log-densities in binary32 at extreme arguments (C76): ExtFloat at precision 24. *)
From Coq Require Import ZArith Reals Bool List Lia Lra.
From Coq Require Import Floats.SpecFloat.
From Flocq Require Import Core IEEE754.BinarySingleNaN.
From Verif Require Import Num EggSpec FloatFacts DensitySpec CoreModel CombModel ExpFamModel DistModel DistSpec ExtSpec SingleModel SingleSpec SingleErr SingleFloat ExtSingleSpec.
Import ListNotations.
Local Open Scope R_scope.

#[local] Instance Hprec32 : FLX.Prec_gt_0 24 := eq_refl _.
#[local] Instance Hmax32 : Prec_lt_emax 24 128 := eq_refl _.

(** * The four operations on all finite arguments *)
Lemma sign_val (b : binary_float 24 128) : is_finite b = true -> (Bsign b = false -> 0 <= B2R b) /\ (Bsign b = true -> B2R b <= 0).
Proof.
  intros F. destruct b as [s| | |s m e H]; try discriminate F; cbn [Bsign B2R].
  - split; lra.
  - split; intros ->; cbn [cond_Zopp].
    + apply F2R_ge_0. cbn. lia.
    + apply F2R_le_0. cbn. lia.
Qed.
Section Total.
Context (a b : f32) (A : is_single a) (B : is_single b).
Lemma sub_total : (is_single (f32_sub a b) /\ val (f32_sub a b) = RS (val a - val b)) \/
  (bpow radix2 128 <= Rabs (RS (val a - val b)) /\
   ((f32_sub a b = pinf /\ 0 <= val a /\ val b <= 0) \/ (f32_sub a b = ninf /\ val a <= 0 /\ 0 <= val b))).
Proof.
  destruct (Rlt_or_le (Rabs (RS (val a - val b))) (bpow radix2 128)) as [H|H]; [left; apply sub_num; assumption|right; split; [exact H|]].
  destruct (num_B a A) as (x & -> & X & VX), (num_B b B) as (y & -> & Y & VY). rewrite <- VX, <- VY in *.
  unfold f32_sub. rewrite (sub_equiv 24 128 Hprec32 Hmax32).
  pose proof (Bminus_correct 24 128 Hprec32 Hmax32 mode_NE x y X Y) as C.
  change (round radix2 (SpecFloat.fexp 24 128) (round_mode mode_NE)) with RS in C.
  rewrite Rlt_bool_false in C by exact H. destruct C as [-> S]. destruct (sign_val x X) as [X0 X1], (sign_val y Y) as [Y0 Y1].
  destruct (Bsign x), (Bsign y); try discriminate S; [right|left]; (split; [reflexivity|]); auto.
Qed.
Lemma add_total : (is_single (f32_add a b) /\ val (f32_add a b) = RS (val a + val b)) \/
  (bpow radix2 128 <= Rabs (RS (val a + val b)) /\
   ((f32_add a b = pinf /\ 0 <= val a /\ 0 <= val b) \/ (f32_add a b = ninf /\ val a <= 0 /\ val b <= 0))).
Proof.
  destruct (Rlt_or_le (Rabs (RS (val a + val b))) (bpow radix2 128)) as [H|H]; [left; apply add_num; assumption|right; split; [exact H|]].
  destruct (num_B a A) as (x & -> & X & VX), (num_B b B) as (y & -> & Y & VY). rewrite <- VX, <- VY in *.
  unfold f32_add. rewrite (add_equiv 24 128 Hprec32 Hmax32).
  pose proof (Bplus_correct 24 128 Hprec32 Hmax32 mode_NE x y X Y) as C.
  change (round radix2 (SpecFloat.fexp 24 128) (round_mode mode_NE)) with RS in C.
  rewrite Rlt_bool_false in C by exact H. destruct C as [-> S]. destruct (sign_val x X) as [X0 X1], (sign_val y Y) as [Y0 Y1].
  destruct (Bsign x), (Bsign y); try discriminate S; [right|left]; (split; [reflexivity|]); auto.
Qed.
Lemma mul_total : (is_single (f32_mul a b) /\ val (f32_mul a b) = RS (val a * val b)) \/
  (bpow radix2 128 <= Rabs (RS (val a * val b)) /\
   ((f32_mul a b = pinf /\ 0 <= val a * val b) \/ (f32_mul a b = ninf /\ val a * val b <= 0))).
Proof.
  destruct (Rlt_or_le (Rabs (RS (val a * val b))) (bpow radix2 128)) as [H|H]; [left; apply mul_num; assumption|right; split; [exact H|]].
  destruct (num_B a A) as (x & -> & X & VX), (num_B b B) as (y & -> & Y & VY). rewrite <- VX, <- VY in *.
  unfold f32_mul. rewrite (mul_equiv 24 128 Hprec32 Hmax32).
  pose proof (Bmult_correct 24 128 Hprec32 Hmax32 mode_NE x y) as C.
  change (round radix2 (SpecFloat.fexp 24 128) (round_mode mode_NE)) with RS in C.
  rewrite Rlt_bool_false in C by exact H. rewrite C. destruct (sign_val x X) as [X0 X1], (sign_val y Y) as [Y0 Y1].
  destruct (Bsign x), (Bsign y); [left|right|right|left]; (split; [reflexivity|]);
    repeat match goal with H : ?b = ?b -> _ |- _ => specialize (H eq_refl) end; nra.
Qed.
Lemma div_total : val b <> 0 -> (is_single (f32_div a b) /\ val (f32_div a b) = RS (val a / val b)) \/
  (bpow radix2 128 <= Rabs (RS (val a / val b)) /\
   ((f32_div a b = pinf /\ 0 <= val a * val b) \/ (f32_div a b = ninf /\ val a * val b <= 0))).
Proof.
  intros Z. destruct (Rlt_or_le (Rabs (RS (val a / val b))) (bpow radix2 128)) as [H|H]; [left; apply div_num; assumption|right; split; [exact H|]].
  destruct (num_B a A) as (x & -> & X & VX), (num_B b B) as (y & -> & Y & VY). rewrite <- VX, <- VY in *.
  unfold f32_div. rewrite (div_equiv 24 128 Hprec32 Hmax32).
  pose proof (Bdiv_correct 24 128 Hprec32 Hmax32 mode_NE x y Z) as C.
  change (round radix2 (SpecFloat.fexp 24 128) (round_mode mode_NE)) with RS in C.
  rewrite Rlt_bool_false in C by exact H. rewrite C. destruct (sign_val x X) as [X0 X1], (sign_val y Y) as [Y0 Y1].
  destruct (Bsign x), (Bsign y); [left|right|right|left]; (split; [reflexivity|]);
    repeat match goal with H : ?b = ?b -> _ |- _ => specialize (H eq_refl) end; nra.
Qed.
End Total.
Lemma num_below a : is_single a -> Rabs (val a) < bpow radix2 128.
Proof. intros N. destruct (num_B a N) as (b & -> & F & V). rewrite <- V. apply abs_B2R_lt_emax. Qed.
Lemma num_format a : is_single a -> RS (val a) = val a.
Proof.
  intros N. destruct (num_B a N) as (b & -> & F & V). rewrite <- V. apply round_generic; [apply valid_rnd_N|].
  apply (generic_format_B2R 24 128 b).
Qed.

(** * Non-negative or plus infinity *)
Definition up (r : f32) : Prop := (is_single r /\ 0 <= val r) \/ r = pinf.
Lemma RS_pos x : 0 <= x -> 0 <= RS x.
Proof. intros H. rewrite <- (round_0 radix2 (FLT_exp (-149) 24) ZnearestE). apply round_le; [apply FLT_exp_valid; exact Hprec32|apply valid_rnd_N|exact H]. Qed.
Lemma sub_up a b : is_single a -> up b -> proper32 (f32_sub a b).
Proof.
  intros N [[M P]| ->].
  - destruct (sub_total a b N M) as [[K _]|[O [(_ & A0 & B0)|(E & _)]]]; [left; exact K| |right; exact E].
    exfalso. assert (val b = 0) as Z by lra. rewrite Z, Rminus_0_r, num_format in O by exact N. pose proof (num_below a N). lra.
  - right. destruct N as [_ F]. destruct a; try discriminate F; reflexivity.
Qed.
Lemma sub_ninf b : is_single b -> f32_sub ninf b = ninf.
Proof. intros [_ F]. destruct b; try discriminate F; reflexivity. Qed.
Lemma add_ninf b : is_single b -> f32_add b ninf = ninf /\ f32_add ninf b = ninf.
Proof. intros [_ F]. destruct b; try discriminate F; split; reflexivity. Qed.
Lemma mul_up a b : is_single a -> 0 <= val a -> is_single b -> 0 <= val b -> up (f32_mul a b).
Proof.
  intros N P M Q. assert (0 <= val a * val b) as S by (apply Rmult_le_pos; assumption).
  destruct (mul_total a b N M) as [[K V]|[O [(E & _)|(E & Z)]]]; [left; split; [exact K|rewrite V; apply RS_pos; exact S]|right; exact E|].
  exfalso. replace (val a * val b) with 0 in O by lra. unfold RS in O. rewrite round_0 in O by apply valid_rnd_N. rewrite Rabs_R0 in O. pose proof (bpow_gt_0 radix2 128). lra.
Qed.
Lemma mul_sqr z : is_single z -> up (f32_mul z z).
Proof.
  intros N. pose proof (Rle_0_sqr (val z)) as S. unfold Rsqr in S.
  destruct (mul_total z z N N) as [[K V]|[O [(E & _)|(E & Z)]]]; [left; split; [exact K|rewrite V; apply RS_pos; exact S]|right; exact E|].
  exfalso. replace (val z * val z) with 0 in O by lra. unfold RS in O. rewrite round_0 in O by apply valid_rnd_N. rewrite Rabs_R0 in O. pose proof (bpow_gt_0 radix2 128). lra.
Qed.
Lemma mul_pinf a : is_single a -> 0 < val a -> f32_mul a pinf = pinf /\ f32_mul pinf a = pinf.
Proof.
  intros [_ F] P. destruct a as [s| | |s m e]; try discriminate F; [unfold val in P; cbn in P; lra|].
  destruct s; [|split; reflexivity]. exfalso. unfold val, SF2R in P. cbn [cond_Zopp] in P.
  assert (F2R (Float radix2 (Z.neg m) e) <= 0) by (apply F2R_le_0; cbn; lia). cbn in *. lra.
Qed.
Lemma div_pos_up a b : up a -> is_single b -> 0 < val b -> up (f32_div a b).
Proof.
  intros [[N P]| ->] M Q.
  - destruct (div_total a b N M ltac:(lra)) as [[K V]|[O [(E & _)|(E & Z)]]].
    + left. split; [exact K|]. rewrite V. apply RS_pos. apply Rmult_le_pos; [exact P|left; apply Rinv_0_lt_compat, Q].
    + right. exact E.
    + exfalso. assert (val a = 0) as Z0 by nra. rewrite Z0 in O. unfold Rdiv, RS in O. rewrite Rmult_0_l, round_0 in O by apply valid_rnd_N. rewrite Rabs_R0 in O. pose proof (bpow_gt_0 radix2 128). lra.
  - right. destruct (mul_pinf b M Q) as [E _]. destruct M as [_ F]. destruct b as [s| | |s m e]; try discriminate F; [cbn in E; discriminate E|]. destruct s; [cbn in E; discriminate E|reflexivity].
Qed.

(** The residual: a number or an infinity. *)
Definition inf_or_num (r : f32) : Prop := is_single r \/ exists s, r = S754_infinity s.
Lemma residual x m s : not_nan32 x -> is_single m -> is_single s -> 0 < val s -> inf_or_num (f32_div (f32_sub x m) s).
Proof.
  intros X M S P.
  assert (D : inf_or_num (f32_sub x m)).
  { destruct X as [N|[-> | ->]].
    - destruct (sub_total x m N M) as [[K _]|[_ [(E & _)|(E & _)]]]; [left; exact K|right; eexists; exact E|right; eexists; exact E].
    - right. exists false. destruct M as [_ F]. destruct m; try discriminate F; reflexivity.
    - right. exists true. apply sub_ninf, M. }
  destruct D as [N|[t E]].
  - destruct (div_total _ s N S ltac:(lra)) as [[K _]|[_ [(E & _)|(E & _)]]]; [left; exact K|right; eexists; exact E|right; eexists; exact E].
  - rewrite E. destruct (mul_pinf s S P) as [G _]. destruct S as [_ F]. destruct s as [u| | |u k e]; try discriminate F; [cbn in G; discriminate G|].
    right. eexists. reflexivity.
Qed.
Lemma square z : inf_or_num z -> up (f32_mul z z).
Proof. intros [N|[s ->]]; [apply mul_sqr, N|right; destruct s; reflexivity]. Qed.
Lemma mul_same a b : is_single a -> is_single b -> 0 <= val a * val b -> up (f32_mul a b).
Proof.
  intros N M S. destruct (mul_total a b N M) as [[K V]|[O [(E & _)|(E & Z)]]]; [left; split; [exact K|rewrite V; apply RS_pos; exact S]|right; exact E|].
  exfalso. replace (val a * val b) with 0 in O by lra. unfold RS in O. rewrite round_0 in O by apply valid_rnd_N. rewrite Rabs_R0 in O. pose proof (bpow_gt_0 radix2 128). lra.
Qed.
Lemma half_square z : inf_or_num z -> up (f32_mul (f32_mul (f32_dec 5 10) z) z).
Proof.
  destruct half_dec as [NH VH]. intros [N|[s ->]].
  - destruct (mul_num (f32_dec 5 10) z NH N) as [K V].
    { rewrite VH. pose proof (num_below z N) as B. apply (RS_small _ 127); [lia|].
      rewrite Rabs_mult, (Rabs_pos_eq (/ 2)) by lra. replace (bpow radix2 128) with (2 * bpow radix2 127) in B; [lra|].
      change 128%Z with (1 + 127)%Z. rewrite bpow_plus. reflexivity. }
    apply mul_same; [exact K|exact N|]. rewrite V, VH. destruct (Rle_or_lt 0 (val z)) as [P|P].
    + apply Rmult_le_pos; [apply RS_pos; lra|exact P].
    + assert (0 <= RS (- (/ 2 * val z))) as Q by (apply RS_pos; lra). unfold RS in Q. rewrite round_NE_opp in Q. fold RS in Q. change (round radix2 (FLT_exp (-149) 24) ZnearestE (/ 2 * val z)) with (RS (/ 2 * val z)) in Q. nra.
  - right. destruct s; vm_compute; reflexivity.
Qed.

(** * Magnitudes *)
Definition bn (e : Z) (r : f32) : Prop := is_single r /\ Rabs (val r) <= bpow radix2 e.
Lemma bn_more e f r : bn e r -> (e <= f)%Z -> bn f r.
Proof. intros [N B] H. split; [exact N|]. eapply Rle_trans; [exact B|apply bpow_le, H]. Qed.
Lemma bn_add e a b : (-100 <= e <= 100)%Z -> bn e a -> bn e b -> bn (e + 1) (f32_add a b).
Proof.
  intros E [N P] [M Q]. assert (T : Rabs (val a + val b) <= bpow radix2 (e + 1)).
  { rewrite bpow_plus. change (bpow radix2 1) with 2. pose proof (Rabs_triang (val a) (val b)). lra. }
  destruct (add_num a b N M) as [K V]; [apply (RS_small _ (e + 1)); [lia|exact T]|]. split; [exact K|]. rewrite V. apply RS_abs_bpow; [lia|exact T].
Qed.
Lemma bn_sub e a b : (-100 <= e <= 100)%Z -> bn e a -> bn e b -> bn (e + 1) (f32_sub a b).
Proof.
  intros E [N P] [M Q]. assert (T : Rabs (val a - val b) <= bpow radix2 (e + 1)).
  { rewrite bpow_plus. change (bpow radix2 1) with 2. pose proof (Rabs_triang (val a) (- val b)) as R. rewrite Rabs_Ropp in R. unfold Rminus. lra. }
  destruct (sub_num a b N M) as [K V]; [apply (RS_small _ (e + 1)); [lia|exact T]|]. split; [exact K|]. rewrite V. apply RS_abs_bpow; [lia|exact T].
Qed.
Lemma bn_mul e f a b : (-100 <= e + f <= 100)%Z -> bn e a -> bn f b -> bn (e + f) (f32_mul a b).
Proof.
  intros E [N P] [M Q]. assert (T : Rabs (val a * val b) <= bpow radix2 (e + f)).
  { rewrite bpow_plus, Rabs_mult. apply Rmult_le_compat; try apply Rabs_pos; assumption. }
  destruct (mul_num a b N M) as [K V]; [apply (RS_small _ (e + f)); [lia|exact T]|]. split; [exact K|]. rewrite V. apply RS_abs_bpow; [lia|exact T].
Qed.
Lemma bn_neg e a : bn e a -> bn e (SFopp a).
Proof. intros [N P]. destruct (neg_num a N) as [K V]. split; [exact K|]. rewrite V, Rabs_Ropp. exact P. Qed.
Lemma bn_half e a : (-100 <= e <= 100)%Z -> bn e a -> bn e (f32_div a (f32_of_Z 2)).
Proof.
  intros E [N P]. destruct two_num as [N2 V2]. assert (T : Rabs (val a / val (f32_of_Z 2)) <= bpow radix2 e).
  { rewrite V2. unfold Rdiv. rewrite Rabs_mult, (Rabs_pos_eq (/ 2)) by lra. pose proof (Rabs_pos (val a)). lra. }
  destruct (div_num a (f32_of_Z 2) N N2) as [K V]; [rewrite V2; lra|apply (RS_small _ e); [lia|exact T]|]. split; [exact K|]. rewrite V. apply RS_abs_bpow; [lia|exact T].
Qed.
Lemma bn_one : bn 0 (f32_of_Z 1).
Proof. destruct one_num as [N V]. split; [exact N|]. rewrite V, Rabs_R1. cbn. lra. Qed.

Section Dists.
Context (c : R) (lg : R -> R) (L : libm32) (LOK : libm32_ok c lg L) (C0 : 0 <= c <= 1000) (LE : ln_edges32 L).
Notation F := (F32 L).

Lemma bn_ln x : is_single x -> 0 < val x -> bn 11 (s_ln L x).
Proof.
  intros N P. destruct (ok32_ln c lg L LOK x N P) as [K E]. split; [exact K|]. pose proof (ln_any x N P) as B.
  pose proof (keps c ltac:(lra)) as CS. assert (CE : 0 <= c * eps32) by (apply Rmult_le_pos; [lra|left; apply eps_pos]).
  pose proof small_tiny as ST. pose proof small_pos as SP. pose proof (Rabs_pos (ln (val x))).
  assert (c * eps32 * (Rabs (ln (val x)) + small32) <= / 4 * 1075) by (apply Rmult_le_compat; lra).
  change (bpow radix2 11) with 2048. apply Rabs_le_inv in E. apply Rabs_le_inv in B. apply Rabs_le. lra.
Qed.

Lemma bn_val e t : is_single t -> 0 <= val t <= bpow radix2 e -> bn e t.
Proof. intros N B. split; [exact N|]. rewrite Rabs_pos_eq; lra. Qed.
Lemma one_up u : up u -> (is_single (f32_add (f32_of_Z 1) u) /\ 1 <= val (f32_add (f32_of_Z 1) u)) \/ f32_add (f32_of_Z 1) u = pinf.
Proof.
  destruct one_num as [N1 V1]. intros [[N P]| ->]; [|right; reflexivity].
  destruct (add_total _ u N1 N) as [[K V]|[_ [(E & _)|(E & A & _)]]]; [left; split; [exact K|]|right; exact E|exfalso; lra].
  rewrite V, V1. rewrite <- V1 at 1. rewrite <- (num_format _ N1). apply round_le; [apply FLT_exp_valid; exact Hprec32|apply valid_rnd_N|]. rewrite V1. lra.
Qed.

Lemma normal_front sd : is_single sd -> 0 < val sd -> bn 12 (f32_sub (f32_mul (SFopp (f32_dec 5 10)) (s_ln L (f32_mul (f32_of_Z 2) f32_pi))) (s_ln L sd)).
Proof.
  intros NS P.
  apply (bn_sub 11 _ _ ltac:(lia)); [|apply bn_ln; assumption].
  assert (H : bn 0 (SFopp (f32_dec 5 10))).
  { apply bn_neg. destruct half_dec as [N V]. split; [exact N|]. rewrite V, Rabs_pos_eq by lra. cbn. lra. }
  apply (bn_mul 0 11 _ _ ltac:(lia) H). destruct two_num as [N2 V2]. pose proof pi_bounds as PB.
  assert (R2 : rel 2 (2 * PI) (f32_mul (f32_of_Z 2) f32_pi)).
  { sizes. replace 2 with (0 + 1 + 1) at 1 by lra. apply rel_mul; ks.
    - apply rel_is; [exact N2|exact V2|lra].
    - exact rel_pi.
    - split; rewrite Rabs_pos_eq by lra; lra. }
  apply bn_ln; [apply (proj1 R2)|apply (rel_sign _ _ _ R2); lra].
Qed.
Lemma normal_proper32 mu sd x : is_single mu -> is_single sd -> 0 < val sd -> not_nan32 x -> proper32 (normal_ld (@mkNormal F mu sd) x).
Proof.
  intros NM NS P X. unfold normal_ld. cbn [n_mean n_sd]. apply sub_up; [exact (proj1 (normal_front sd NS P))|apply half_square, residual; assumption].
Qed.

Lemma cauchy_proper32 loc sc x : is_single loc -> is_single sc -> 0 < val sc -> not_nan32 x -> proper32 (cauchy_ld (@mkCauchy F loc sc) x).
Proof.
  intros NM NS P X. unfold cauchy_ld. cbn [c_loc c_scale]. pose proof (square _ (residual x loc sc X NM NS P)) as U.
  pose proof pi_bounds as PB. assert (BP : bn 11 (s_ln L f32_pi)) by (apply bn_ln; [apply num_pi|rewrite val_pi; lra]).
  pose proof (bn_ln sc NS P) as BS. destruct (one_up _ U) as [[K V]|E].
  - left. apply (bn_sub 12 _ _ ltac:(lia)); [|apply (bn_more 11); [exact BP|lia]].
    apply (bn_sub 11 _ _ ltac:(lia)); [|exact BS]. apply bn_neg, bn_ln; [exact K|]. eapply Rlt_le_trans; [|exact V]. lra.
  - right. change (f32_sub (f32_sub (SFopp (s_ln L (f32_add (f32_of_Z 1) (f32_mul (f32_div (f32_sub x loc) sc) (f32_div (f32_sub x loc) sc))))) (s_ln L sc)) (s_ln L f32_pi) = ninf).
    rewrite E, (proj1 LE). change (SFopp pinf) with ninf. rewrite sub_ninf by apply BS. apply sub_ninf, BP.
Qed.

Lemma guard_le x : not_nan32 x -> (@nleb F n0 x = true /\ up x) \/ @nleb F n0 x = false.
Proof.
  intros [N|[-> | ->]]; [|left; split; [reflexivity|right; reflexivity]|right; reflexivity].
  destruct zero_num as [N0 V0]. change (@nleb F n0 x) with (SFleb (f32_of_Z 0) x). rewrite (SFleb_num _ _ N0 N), V0.
  destruct (Rle_bool_spec 0 (val x)); [left; split; [reflexivity|left; split; assumption]|right; reflexivity].
Qed.
Lemma guard_lt x : not_nan32 x -> (@nltb F n0 x = true /\ ((is_single x /\ 0 < val x) \/ x = pinf)) \/ @nltb F n0 x = false.
Proof.
  intros [N|[-> | ->]]; [|left; split; [reflexivity|right; reflexivity]|right; reflexivity].
  destruct zero_num as [N0 V0]. change (@nltb F n0 x) with (SFltb (f32_of_Z 0) x). rewrite (SFltb_num _ _ N0 N), V0.
  destruct (Rlt_bool_spec 0 (val x)); [left; split; [reflexivity|left; split; assumption]|right; reflexivity].
Qed.
Lemma exponential_proper32 rate x : is_single rate -> 0 < val rate -> not_nan32 x -> proper32 (exponential_ld (@mkExponential F rate) x).
Proof.
  intros NR P X. unfold exponential_ld. cbn [e_rate]. destruct (guard_le x X) as [[-> U]| ->]; [|right; reflexivity].
  apply sub_up; [apply bn_ln; assumption|]. destruct U as [[N Q]| ->]; [apply mul_up; [exact NR|lra|exact N|exact Q]|]. right. apply mul_pinf; assumption.
Qed.
End Dists.
