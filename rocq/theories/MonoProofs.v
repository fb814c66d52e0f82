(** Rounded arithmetic never inverts an order, so the log-densities fall
    monotonically in binary64 as well (C77). *)
From Coquelicot Require Import Coquelicot.
From Coq Require Import ZArith Reals Bool List Lia Lra.
From Coq Require Import Floats.SpecFloat.
From Flocq Require Import Core IEEE754.BinarySingleNaN.
From Verif Require Import Num JitModel EggSpec LitFacts EggNum FloatFacts FloatErr JitAcc JitAcc2 AccSpec AccProofs RoundSpec RoundProofs RelErr
  DensitySpec CoreModel CombModel ExpFamModel DistModel DistSpec DistFacts BuilderProofs DistProofs DistFloat IntSpec GammaFun ExtSpec ExtFloat ExtProofs ExtInline MonoSpec.
Import ListNotations.
Local Open Scope R_scope.
#[local] Instance Hprec64 : FLX.Prec_gt_0 53 := eq_refl _.

(** * Values on the extended line: the infinities at +-2^1024 *)
Notation top := (bpow radix2 1024).
Lemma top_pos : 0 < top. Proof. apply bpow_gt_0. Qed.
Definition ev (r : f64) : R := match r with S754_infinity false => top | S754_infinity true => - top | _ => val r end.
Definition cr (t : R) : R := Rmax (- top) (Rmin top (RN t)).
Lemma RN_mono x y : x <= y -> RN x <= RN y.
Proof. intros H. apply round_le; [apply FLT_exp_valid; exact Hprec64|apply valid_rnd_N|exact H]. Qed.
Lemma RN_opp x : RN (- x) = - RN x. Proof. apply round_NE_opp. Qed.
Lemma cr_mono x y : x <= y -> cr x <= cr y.
Proof. intros H. pose proof (RN_mono x y H). unfold cr. apply Rle_max_compat_l, Rle_min_compat_l. lra. Qed.
Lemma cr_pos x : 0 <= x -> 0 <= cr x.
Proof. intros H. pose proof (RN_pos x H). pose proof top_pos. unfold cr. eapply Rle_trans; [|apply Rmax_r]. apply Rmin_glb; lra. Qed.
Lemma cr_num t : Rabs (RN t) < top -> cr t = RN t.
Proof. intros H. apply Rabs_lt_inv in H. unfold cr. rewrite Rmin_right by lra. apply Rmax_right. lra. Qed.
Lemma cr_top t : top <= RN t -> cr t = top.
Proof. intros H. pose proof top_pos. unfold cr. rewrite Rmin_left by lra. apply Rmax_right. lra. Qed.
Lemma cr_bot t : RN t <= - top -> cr t = - top.
Proof. intros H. pose proof top_pos. unfold cr. rewrite Rmin_right by lra. apply Rmax_left. lra. Qed.
Lemma cr_opp x : cr (- x) = - cr x.
Proof.
  pose proof top_pos. destruct (Rle_lt_dec top (RN x)) as [A|A]; [rewrite (cr_top x A); apply cr_bot; rewrite RN_opp; lra|].
  destruct (Rle_lt_dec (RN x) (- top)) as [B|B]; [rewrite (cr_bot x B), Ropp_involutive; apply cr_top; rewrite RN_opp; lra|].
  rewrite !cr_num; [apply RN_opp|apply Rabs_lt; lra|rewrite RN_opp; apply Rabs_lt; lra].
Qed.
Lemma cr_abs x : Rabs (cr x) = cr (Rabs x).
Proof.
  destruct (Rle_lt_dec 0 x) as [H|H].
  - rewrite (Rabs_pos_eq x) by exact H. apply Rabs_pos_eq, cr_pos, H.
  - rewrite (Rabs_left x) by exact H. rewrite cr_opp. rewrite <- (Ropp_involutive x) at 1. rewrite cr_opp, Rabs_Ropp, Rabs_pos_eq; [rewrite <- cr_opp; reflexivity|apply cr_pos; lra].
Qed.
Lemma ev_num a : is_num a -> ev a = val a.
Proof. intros [_ G]. destruct a; try discriminate G; reflexivity. Qed.
Lemma ev_inside a : is_num a -> - top < ev a < top.
Proof. intros N. rewrite ev_num by exact N. apply Rabs_lt_inv, num_below, N. Qed.
Lemma ev_any a : not_nan a -> - top <= ev a <= top.
Proof. pose proof top_pos. intros [N|[-> | ->]]; cbn [ev pinf ninf]; [pose proof (ev_inside a N); lra|lra|lra]. Qed.
Lemma num_shape a : is_num a -> (exists s, a = S754_zero s) \/ exists s m e, a = S754_finite s m e.
Proof. intros [_ G]. destruct a as [s| | |s m e]; try discriminate G; [left; eauto|right; eauto]. Qed.
Lemma at_most_ev a b : not_nan a -> not_nan b -> ev a <= ev b -> at_most a b.
Proof.
  unfold at_most. pose proof top_pos as T. intros [N|[-> | ->]] [M|[-> | ->]] H; cbn [ev pinf ninf] in H; try reflexivity; try lra.
  - rewrite SFleb_num by assumption. rewrite !ev_num in H by assumption. apply Rle_bool_true, H.
  - destruct (num_shape a N) as [[s ->]|(s & m & e & ->)]; reflexivity.
  - pose proof (ev_inside a N). lra.
  - pose proof (ev_inside b M). lra.
  - destruct (num_shape b M) as [[s ->]|(s & m & e & ->)]; reflexivity.
Qed.
Lemma ev_at_most a b : is_num a -> is_num b -> at_most a b -> ev a <= ev b.
Proof.
  intros N M. unfold at_most. rewrite SFleb_num, !ev_num by assumption. destruct (Rle_bool_spec (val a) (val b)); [intros _; assumption|discriminate].
Qed.

(** * The operations on finite arguments *)
Lemma of_total r t : (is_num r /\ val r = RN t) \/ (top <= Rabs (RN t) /\ ((r = pinf /\ 0 <= t) \/ (r = ninf /\ t <= 0))) -> not_nan r /\ ev r = cr t.
Proof.
  intros [[N V]|[O [[-> S]|[-> S]]]].
  - split; [left; exact N|]. rewrite ev_num by exact N. rewrite cr_num; [exact V|]. rewrite <- V. apply num_below, N.
  - split; [right; left; reflexivity|]. cbn [ev pinf]. symmetry. apply cr_top. rewrite Rabs_pos_eq in O; [exact O|apply RN_pos, S].
  - split; [right; right; reflexivity|]. cbn [ev ninf]. symmetry. apply cr_bot.
    assert (RN t <= 0) by (rewrite <- (Ropp_involutive t), RN_opp; pose proof (RN_pos (- t) ltac:(lra)); lra).
    rewrite Rabs_left1 in O by assumption. lra.
Qed.
Lemma ev_sub a b : is_num a -> is_num b -> not_nan (f64_sub a b) /\ ev (f64_sub a b) = cr (val a - val b).
Proof. intros A B. apply of_total. destruct (sub_total a b A B) as [H|[O [(E & S1 & S2)|(E & S1 & S2)]]]; [left; exact H|right; split; [exact O|left]|right; split; [exact O|right]]; (split; [exact E|lra]). Qed.
Lemma ev_add a b : is_num a -> is_num b -> not_nan (f64_add a b) /\ ev (f64_add a b) = cr (val a + val b).
Proof. intros A B. apply of_total. destruct (add_total a b A B) as [H|[O [(E & S1 & S2)|(E & S1 & S2)]]]; [left; exact H|right; split; [exact O|left]|right; split; [exact O|right]]; (split; [exact E|lra]). Qed.
Lemma ev_mul a b : is_num a -> is_num b -> not_nan (f64_mul a b) /\ ev (f64_mul a b) = cr (val a * val b).
Proof. intros A B. apply of_total. destruct (mul_total a b A B) as [H|[O [(E & S)|(E & S)]]]; [left; exact H|right; split; [exact O|left]|right; split; [exact O|right]]; (split; [exact E|lra]). Qed.
Lemma ev_div a b : is_num a -> is_num b -> 0 < val b -> not_nan (f64_div a b) /\ ev (f64_div a b) = cr (val a / val b).
Proof.
  intros A B P. apply of_total. pose proof (Rinv_0_lt_compat _ P) as I. unfold Rdiv.
  destruct (div_total a b A B ltac:(lra)) as [H|[O [(E & S)|(E & S)]]]; [left; exact H|right; split; [exact O|left]|right; split; [exact O|right]]; (split; [exact E|]).
  - apply Rmult_le_pos; [apply (Rmult_le_reg_r (val b)); lra|lra].
  - assert (val a <= 0) by (apply (Rmult_le_reg_r (val b)); lra). nra.
Qed.
Lemma RN_abs_le t v : is_num v -> Rabs t <= Rabs (val v) -> Rabs (RN t) <= Rabs (val v).
Proof.
  intros N H. rewrite <- (num_format v N). unfold RN at 1 2. rewrite <- !round_NE_abs by (apply FLT_exp_valid; exact Hprec64). apply RN_mono, H.
Qed.

(** * Order-preserving steps *)
Definition fle (a b : f64) : Prop := not_nan a /\ not_nan b /\ ev a <= ev b.
Lemma fle_at_most a b : fle a b -> at_most a b.
Proof. intros (A & B & H). apply at_most_ev; assumption. Qed.
Lemma fle_trans a b d : fle a b -> fle b d -> fle a d.
Proof. intros (A & B & H) (_ & D & K). split; [exact A|]. split; [exact D|lra]. Qed.
Lemma fle_top a : not_nan a -> fle a pinf.
Proof. intros A. split; [exact A|]. split; [right; left; reflexivity|]. apply ev_any, A. Qed.
Lemma fle_bot a : not_nan a -> fle ninf a.
Proof. intros A. split; [right; right; reflexivity|]. split; [exact A|]. apply ev_any, A. Qed.
Lemma top_only a : not_nan a -> top <= ev a -> a = pinf.
Proof. pose proof top_pos. intros [N|[-> | ->]] H0; [pose proof (ev_inside a N); lra|reflexivity|cbn [ev ninf] in H0; lra]. Qed.
Lemma bot_only a : not_nan a -> ev a <= - top -> a = ninf.
Proof. pose proof top_pos. intros [N|[-> | ->]] H0; [pose proof (ev_inside a N); lra|cbn [ev pinf] in H0; lra|reflexivity]. Qed.
(** An ordered pair is two numbers, or has -inf below, or +inf above. *)
Lemma fle_cases a b : fle a b -> (is_num a /\ is_num b /\ val a <= val b) \/ a = ninf \/ b = pinf.
Proof.
  pose proof top_pos. intros (A & B & H0). destruct A as [N|[-> | ->]]; [|right; right; apply top_only; [exact B|exact H0]|right; left; reflexivity].
  destruct B as [M|[-> | ->]]; [|right; right; reflexivity|cbn [ev ninf] in H0; pose proof (ev_inside a N); lra].
  left. rewrite !ev_num in H0 by assumption. auto.
Qed.
Lemma inf_sub k : is_num k -> f64_sub pinf k = pinf /\ f64_sub ninf k = ninf /\ f64_sub k pinf = ninf /\ f64_sub k ninf = pinf.
Proof. intros N. destruct (num_shape k N) as [[s ->]|(s & m & e & ->)]; repeat split; reflexivity. Qed.
Lemma inf_add k : is_num k -> f64_add k pinf = pinf /\ f64_add k ninf = ninf.
Proof. intros N. destruct (num_shape k N) as [[s ->]|(s & m & e & ->)]; repeat split; reflexivity. Qed.
Lemma nn_sub a k : not_nan a -> is_num k -> not_nan (f64_sub a k) /\ not_nan (f64_sub k a).
Proof.
  intros A K. destruct (inf_sub k K) as (E1 & E2 & E3 & E4). destruct A as [N|[-> | ->]]; [split; apply ev_sub; assumption|rewrite E1, E3|rewrite E2, E4]; (split; [right|right]); [left|right|right|left]; reflexivity.
Qed.
Lemma nn_add a k : not_nan a -> is_num k -> not_nan (f64_add k a).
Proof. intros A K. destruct (inf_add k K) as (E1 & E2). destruct A as [N|[-> | ->]]; [apply ev_add; assumption|rewrite E1; right; left; reflexivity|rewrite E2; right; right; reflexivity]. Qed.
Lemma fle_sub_l a b k : fle a b -> is_num k -> fle (f64_sub a k) (f64_sub b k).
Proof.
  intros H K. pose proof H as (A & B & _). destruct (inf_sub k K) as (E1 & E2 & _). destruct (nn_sub a k A K) as [NA _], (nn_sub b k B K) as [NB _].
  destruct (fle_cases a b H) as [(N & M & V)|[-> | ->]]; [|rewrite E2; apply fle_bot, NB|rewrite E1; apply fle_top, NA].
  split; [exact NA|]. split; [exact NB|]. rewrite (proj2 (ev_sub a k N K)), (proj2 (ev_sub b k M K)). apply cr_mono. lra.
Qed.
Lemma fle_sub_r a b k : fle a b -> is_num k -> fle (f64_sub k b) (f64_sub k a).
Proof.
  intros H K. pose proof H as (A & B & _). destruct (inf_sub k K) as (_ & _ & E3 & E4). destruct (nn_sub a k A K) as [_ NA], (nn_sub b k B K) as [_ NB].
  destruct (fle_cases a b H) as [(N & M & V)|[-> | ->]]; [|rewrite E4; apply fle_top, NB|rewrite E3; apply fle_bot, NA].
  split; [exact NB|]. split; [exact NA|]. rewrite (proj2 (ev_sub k a K N)), (proj2 (ev_sub k b K M)). apply cr_mono. lra.
Qed.
Lemma fle_add_r a b k : fle a b -> is_num k -> fle (f64_add k a) (f64_add k b).
Proof.
  intros H K. pose proof H as (A & B & _). destruct (inf_add k K) as (E1 & E2). pose proof (nn_add a k A K) as NA. pose proof (nn_add b k B K) as NB.
  destruct (fle_cases a b H) as [(N & M & V)|[-> | ->]]; [|rewrite E2; apply fle_bot, NB|rewrite E1; apply fle_top, NA].
  split; [exact NA|]. split; [exact NB|]. rewrite (proj2 (ev_add k a K N)), (proj2 (ev_add k b K M)). apply cr_mono. lra.
Qed.
Lemma nn_opp a : not_nan a -> not_nan (SFopp a) /\ ev (SFopp a) = - ev a.
Proof.
  intros [N|[-> | ->]]; cbn [SFopp ev pinf ninf negb].
  - destruct (neg_num a N) as [K V]. split; [left; exact K|]. rewrite !ev_num by assumption. exact V.
  - split; [right; right; reflexivity|reflexivity].
  - split; [right; left; reflexivity|ring].
Qed.
Lemma fle_opp a b : fle a b -> fle (SFopp b) (SFopp a).
Proof. intros (A & B & H). destruct (nn_opp a A) as [NA EA], (nn_opp b B) as [NB EB]. split; [exact NB|]. split; [exact NA|]. rewrite EA, EB. lra. Qed.
Lemma pos_finite k : is_num k -> 0 < val k -> exists m e, k = S754_finite false m e.
Proof.
  intros N P. destruct (num_shape k N) as [[s ->]|([|] & m & e & ->)]; [cbn in P; lra| |eauto].
  exfalso. unfold val, SF2R in P. cbn [cond_Zopp] in P. assert (F2R (Float radix2 (Z.neg m) e) < 0) by (apply F2R_lt_0; reflexivity). cbn in *. lra.
Qed.
Lemma fle_div a b k : fle a b -> is_num k -> 0 < val k -> fle (f64_div a k) (f64_div b k).
Proof.
  intros H K P. pose proof H as (A & B & _).
  assert (E : f64_div pinf k = pinf /\ f64_div ninf k = ninf) by (destruct (pos_finite k K P) as (m & e & ->); split; reflexivity). destruct E as [E1 E2].
  assert (NN : forall a, not_nan a -> not_nan (f64_div a k)) by (intros x [N|[-> | ->]]; [apply ev_div; assumption|rewrite E1; right; left; reflexivity|rewrite E2; right; right; reflexivity]).
  destruct (fle_cases a b H) as [(N & M & V)|[-> | ->]]; [|rewrite E2; apply fle_bot, NN, B|rewrite E1; apply fle_top, NN, A].
  split; [apply NN, A|]. split; [apply NN, B|]. rewrite (proj2 (ev_div a k N K P)), (proj2 (ev_div b k M K P)). apply cr_mono. apply Rmult_le_compat_r; [left; apply Rinv_0_lt_compat, P|exact V].
Qed.
Lemma fle_mul a b k : fle a b -> is_num k -> 0 < val k -> fle (f64_mul k a) (f64_mul k b).
Proof.
  intros H K P. pose proof H as (A & B & _).
  assert (E : f64_mul k pinf = pinf /\ f64_mul k ninf = ninf) by (destruct (pos_finite k K P) as (m & e & ->); split; reflexivity). destruct E as [E1 E2].
  assert (NN : forall a, not_nan a -> not_nan (f64_mul k a)) by (intros x [N|[-> | ->]]; [apply ev_mul; assumption|rewrite E1; right; left; reflexivity|rewrite E2; right; right; reflexivity]).
  destruct (fle_cases a b H) as [(N & M & V)|[-> | ->]]; [|rewrite E2; apply fle_bot, NN, B|rewrite E1; apply fle_top, NN, A].
  split; [apply NN, A|]. split; [apply NN, B|]. rewrite (proj2 (ev_mul k a K N)), (proj2 (ev_mul k b K M)). apply cr_mono, Rmult_le_compat_l; lra.
Qed.
Lemma fle_mul_opp a b k : fle a b -> is_num k -> 0 < val k -> fle (f64_mul (SFopp k) b) (f64_mul (SFopp k) a).
Proof.
  intros H K P. pose proof H as (A & B & _). destruct (neg_num k K) as [KN KV].
  assert (E : f64_mul (SFopp k) pinf = ninf /\ f64_mul (SFopp k) ninf = pinf) by (destruct (pos_finite k K P) as (m & e & ->); split; reflexivity). destruct E as [E1 E2].
  assert (NN : forall a, not_nan a -> not_nan (f64_mul (SFopp k) a)) by (intros x [N|[-> | ->]]; [apply ev_mul; assumption|rewrite E1; right; right; reflexivity|rewrite E2; right; left; reflexivity]).
  destruct (fle_cases a b H) as [(N & M & V)|[-> | ->]]; [|rewrite E2; apply fle_top, NN, B|rewrite E1; apply fle_bot, NN, A].
  split; [apply NN, B|]. split; [apply NN, A|]. rewrite (proj2 (ev_mul (SFopp k) a KN N)), (proj2 (ev_mul (SFopp k) b KN M)). apply cr_mono. rewrite KV. nra.
Qed.

(** * Sizes: residuals and squares *)
Definition size (a b : f64) : Prop := not_nan a /\ not_nan b /\ Rabs (ev a) <= Rabs (ev b).
Lemma size_cases a b : size a b -> (is_num a /\ is_num b /\ Rabs (val a) <= Rabs (val b)) \/ b = pinf \/ b = ninf.
Proof.
  pose proof top_pos. intros (A & B & H0). destruct B as [M|[-> | ->]]; [|right; left; reflexivity|right; right; reflexivity]. left.
  assert (Rabs (ev b) < top) by (apply Rabs_lt; apply ev_inside, M).
  destruct A as [N|[-> | ->]]; cbn [ev pinf ninf] in H0; rewrite ?Rabs_Ropp, ?(Rabs_pos_eq top) in H0 by lra; try lra.
  rewrite !ev_num in H0 by assumption. auto.
Qed.
Lemma size_inf a b : not_nan a -> b = pinf \/ b = ninf -> size a b.
Proof.
  pose proof top_pos. intros A B. split; [exact A|]. split; [right; exact B|]. pose proof (ev_any a A). 
  apply Rle_trans with top; [apply Rabs_le; lra|]. destruct B as [-> | ->]; cbn [ev pinf ninf]; rewrite ?Rabs_Ropp, Rabs_pos_eq; lra.
Qed.
Lemma size_sub x y m : is_num x -> is_num y -> is_num m -> Rabs (val x - val m) <= Rabs (val y - val m) -> size (f64_sub x m) (f64_sub y m).
Proof.
  intros X Y M H. destruct (ev_sub x m X M) as [NX EX], (ev_sub y m Y M) as [NY EY]. split; [exact NX|]. split; [exact NY|]. rewrite EX, EY, !cr_abs. apply cr_mono, H.
Qed.
Lemma size_div a b k : size a b -> is_num k -> 0 < val k -> size (f64_div a k) (f64_div b k).
Proof.
  intros H K P. pose proof H as (A & B & _).
  assert (E : f64_div pinf k = pinf /\ f64_div ninf k = ninf) by (destruct (pos_finite k K P) as (m & e & ->); split; reflexivity). destruct E as [E1 E2].
  assert (NN : forall a, not_nan a -> not_nan (f64_div a k)) by (intros x [N|[-> | ->]]; [apply ev_div; assumption|rewrite E1; right; left; reflexivity|rewrite E2; right; right; reflexivity]).
  destruct (size_cases a b H) as [(N & M & V)|I]; [|apply size_inf; [apply NN, A|destruct I as [-> | ->]; [left|right]; assumption]].
  split; [apply NN, A|]. split; [apply NN, B|]. rewrite (proj2 (ev_div a k N K P)), (proj2 (ev_div b k M K P)), !cr_abs. apply cr_mono.
  unfold Rdiv. rewrite !Rabs_mult. apply Rmult_le_compat_r; [apply Rabs_pos|exact V].
Qed.
Lemma size_mul_k a b k : size a b -> is_num k -> 0 < val k -> size (f64_mul k a) (f64_mul k b).
Proof.
  intros H K P. pose proof H as (A & B & _).
  assert (E : f64_mul k pinf = pinf /\ f64_mul k ninf = ninf) by (destruct (pos_finite k K P) as (m & e & ->); split; reflexivity). destruct E as [E1 E2].
  assert (NN : forall a, not_nan a -> not_nan (f64_mul k a)) by (intros x [N|[-> | ->]]; [apply ev_mul; assumption|rewrite E1; right; left; reflexivity|rewrite E2; right; right; reflexivity]).
  destruct (size_cases a b H) as [(N & M & V)|I]; [|apply size_inf; [apply NN, A|destruct I as [-> | ->]; [left|right]; assumption]].
  split; [apply NN, A|]. split; [apply NN, B|]. rewrite (proj2 (ev_mul k a K N)), (proj2 (ev_mul k b K M)), !cr_abs. apply cr_mono.
  rewrite !Rabs_mult. apply Rmult_le_compat_l; [apply Rabs_pos|exact V].
Qed.
Lemma up_nn a : up a -> not_nan a.
Proof. intros [[N _]| ->]; [left; exact N|right; left; reflexivity]. Qed.
Lemma up_ev a : up a -> 0 <= ev a.
Proof. pose proof top_pos. intros [[N V]| ->]; [rewrite ev_num by exact N; exact V|cbn [ev pinf]; lra]. Qed.
Lemma size_up a b : size a b -> up a -> up b -> fle a b.
Proof. intros (A & B & H) U V. split; [exact A|]. split; [exact B|]. pose proof (up_ev a U). pose proof (up_ev b V). rewrite !Rabs_pos_eq in H by assumption. exact H. Qed.
Lemma nn_inf_or_num z : not_nan z -> inf_or_num z.
Proof. intros [N|[-> | ->]]; [left; exact N|right; eexists; reflexivity|right; eexists; reflexivity]. Qed.
Lemma fle_square a b : size a b -> fle (f64_mul a a) (f64_mul b b).
Proof.
  intros H. pose proof H as (A & B & _). pose proof (square a (nn_inf_or_num a A)) as UA. pose proof (square b (nn_inf_or_num b B)) as UB.
  destruct (size_cases a b H) as [(N & M & V)|I].
  - split; [apply up_nn, UA|]. split; [apply up_nn, UB|]. rewrite (proj2 (ev_mul a a N N)), (proj2 (ev_mul b b M M)). apply cr_mono.
    replace (val a * val a) with (Rabs (val a) * Rabs (val a)) by (rewrite <- Rabs_mult; apply Rabs_pos_eq, Rle_0_sqr).
    replace (val b * val b) with (Rabs (val b) * Rabs (val b)) by (rewrite <- Rabs_mult; apply Rabs_pos_eq, Rle_0_sqr).
    apply Rmult_le_compat; try apply Rabs_pos; exact V.
  - replace (f64_mul b b) with pinf by (destruct I as [-> | ->]; reflexivity). apply fle_top, up_nn, UA.
Qed.
Lemma fle_half_square a b : size a b -> fle (f64_mul (f64_mul (f64_dec 5 10) a) a) (f64_mul (f64_mul (f64_dec 5 10) b) b).
Proof.
  intros H. pose proof H as (A & B & _). pose proof (half_square a (nn_inf_or_num a A)) as UA. pose proof (half_square b (nn_inf_or_num b B)) as UB.
  destruct half_dec as [NH VH].
  destruct (size_cases a b H) as [(N & M & V)|I].
  - pose proof (size_mul_k a b _ H NH ltac:(lra)) as HH. destruct (ev_mul _ a NH N) as [QA EA], (ev_mul _ b NH M) as [QB EB].
    set (ha := f64_mul (f64_dec 5 10) a) in *. set (hb := f64_mul (f64_dec 5 10) b) in *.
    assert (HN : is_num hb) by (apply (mul_num _ b NH M); rewrite VH; eapply Rle_lt_trans; [apply (RN_abs_le (/ 2 * val b) b M); rewrite Rabs_mult, (Rabs_pos_eq (/ 2)) by lra; pose proof (Rabs_pos (val b)); lra|apply num_below, M]).
    assert (HM : is_num ha) by (destruct (size_cases _ _ HH) as [(Q & _)|[Q|Q]]; [exact Q|rewrite Q in HN; destruct HN as [_ HN]; discriminate HN..]).
    split; [apply up_nn, UA|]. split; [apply up_nn, UB|]. rewrite (proj2 (ev_mul ha a HM N)), (proj2 (ev_mul hb b HN M)). apply cr_mono.
    assert (SA : val ha * val a = Rabs (val ha) * Rabs (val a)).
    { rewrite <- Rabs_mult. symmetry. apply Rabs_pos_eq. rewrite ev_num in EA by exact HM. rewrite EA, VH. destruct (Rle_lt_dec 0 (val a)) as [P|P].
      - apply Rmult_le_pos; [apply cr_pos; lra|exact P].
      - pose proof (cr_pos (- (/ 2 * val a)) ltac:(lra)) as Q. rewrite cr_opp in Q. nra. }
    assert (SB : val hb * val b = Rabs (val hb) * Rabs (val b)).
    { rewrite <- Rabs_mult. symmetry. apply Rabs_pos_eq. rewrite ev_num in EB by exact HN. rewrite EB, VH. destruct (Rle_lt_dec 0 (val b)) as [P|P].
      - apply Rmult_le_pos; [apply cr_pos; lra|exact P].
      - pose proof (cr_pos (- (/ 2 * val b)) ltac:(lra)) as Q. rewrite cr_opp in Q. nra. }
    rewrite SA, SB. destruct HH as (_ & _ & HH). rewrite !ev_num in HH by assumption. apply Rmult_le_compat; try apply Rabs_pos; assumption.
  - replace (f64_mul (f64_mul (f64_dec 5 10) b) b) with pinf by (destruct I as [-> | ->]; reflexivity). apply fle_top, up_nn, UA.
Qed.

(** * The log-densities *)
Section Mono.
Context (c : R) (lg : R -> R) (L : libm) (LOK : libm_ok c lg L) (C0 : 0 <= c <= 1000000).
Notation F := (F64 L).
Lemma normal_mono mu sd x y : is_num mu -> is_num sd -> 0 < val sd -> is_num x -> is_num y -> Rabs (val x - val mu) <= Rabs (val y - val mu) ->
  at_most (normal_ld (@mkNormal F mu sd) y) (normal_ld (@mkNormal F mu sd) x).
Proof.
  intros NM NS P X Y H. apply fle_at_most. unfold normal_ld. cbn [n_mean n_sd]. apply fle_sub_r; [|exact (proj1 (normal_front c lg L LOK C0 sd NS P))].
  apply fle_half_square, size_div; [apply size_sub; assumption|exact NS|exact P].
Qed.
Lemma inline_normal_mono mu sd x y : is_num mu -> is_num sd -> bpow radix2 (-510) <= val sd <= bpow radix2 510 -> is_num x -> is_num y ->
  Rabs (val x - val mu) <= Rabs (val y - val mu) -> at_most (@compile_normal F mu sd y) (@compile_normal F mu sd x).
Proof.
  intros NM NS S X Y H. apply fle_at_most. rewrite !inline_shape. destruct (square_from sd NS S) as [NQ Q]. destruct two_pi as [NP P]. destruct two_num as [N2 V2].
  pose proof (bpow_gt_0 radix2 (-1020)) as P0.
  destruct (mul_from _ _ 3 1020 NP NQ P Q ltac:(lia)) as [NV V].
  destruct (mul_from (f64_of_Z 2) _ 1 1020 N2 NQ ltac:(rewrite V2; change (bpow radix2 1) with 2; lra) Q ltac:(lia)) as [NT T].
  apply fle_sub_r; [apply fle_div; [apply fle_square, size_sub; assumption|exact NT|lra]|].
  destruct half_dec as [NH VH]. apply (bn_mul 0 11 _ _ ltac:(lia)); [|apply (bn_ln c lg L LOK C0); [exact NV|lra]].
  apply bn_neg. split; [exact NH|]. rewrite VH, Rabs_pos_eq by lra. cbn. lra.
Qed.
Lemma num_fle a b : is_num a -> is_num b -> val a <= val b -> fle a b.
Proof. intros A B H. split; [left; exact A|]. split; [left; exact B|]. rewrite !ev_num by assumption. exact H. Qed.
Lemma exponential_mono rate x y : is_num rate -> 0 < val rate -> is_num x -> is_num y -> 0 <= val x <= val y ->
  at_most (exponential_ld (@mkExponential F rate) y) (exponential_ld (@mkExponential F rate) x).
Proof.
  intros NR P X Y H. apply fle_at_most. unfold exponential_ld. cbn [e_rate]. destruct zero_num as [N0 V0].
  assert (G : forall z, is_num z -> 0 <= val z -> @nleb F n0 z = true) by (intros z Z Q; change (@nleb F n0 z) with (SFleb (f64_of_Z 0) z); rewrite (SFleb_num _ _ N0 Z), V0; apply Rle_bool_true, Q).
  rewrite !G by (assumption || lra). apply fle_sub_r; [|apply (bn_ln c lg L LOK C0); assumption]. apply fle_mul; [apply num_fle; [exact X|exact Y|lra]|exact NR|exact P].
Qed.
Context (LE : ln_edges L) (LM : ln_monotone L).
(** The logarithm on values that are at least 1 or plus infinity. *)
Lemma ln_fle a b : fle a b -> (is_num a /\ 1 <= val a) \/ a = pinf -> (is_num b /\ 1 <= val b) \/ b = pinf -> fle (l_ln L a) (l_ln L b).
Proof.
  intros H A B. assert (NL : forall z, (is_num z /\ 1 <= val z) \/ z = pinf -> not_nan (l_ln L z)).
  { intros z [[N V]| ->]; [left; apply (bn_ln c lg L LOK C0); [exact N|lra]|rewrite (proj1 LE); right; left; reflexivity]. }
  destruct B as [[NB VB]| ->]; [|rewrite (proj1 LE); apply fle_top, NL, A].
  destruct A as [[NA VA]| ->]; [|exfalso; destruct H as (_ & _ & H); pose proof (ev_inside b NB); cbn [ev pinf] in H; lra].
  destruct H as (_ & _ & H). rewrite !ev_num in H by assumption.
  assert (MA : is_num (l_ln L a)) by (apply (bn_ln c lg L LOK C0); [exact NA|lra]). assert (MB : is_num (l_ln L b)) by (apply (bn_ln c lg L LOK C0); [exact NB|lra]).
  split; [left; exact MA|]. split; [left; exact MB|]. apply ev_at_most; [exact MA|exact MB|]. apply (proj2 LM); [exact NA|exact NB|lra].
Qed.
Lemma ln_one_fle a b : up a -> up b -> fle a b -> fle (l_ln L (f64_add (f64_of_Z 1) a)) (l_ln L (f64_add (f64_of_Z 1) b)).
Proof. intros UA UB H. apply ln_fle; [apply fle_add_r; [exact H|apply one_num]|apply one_up, UA|apply one_up, UB]. Qed.
Lemma cauchy_mono loc sc x y : is_num loc -> is_num sc -> 0 < val sc -> is_num x -> is_num y -> Rabs (val x - val loc) <= Rabs (val y - val loc) ->
  at_most (cauchy_ld (@mkCauchy F loc sc) y) (cauchy_ld (@mkCauchy F loc sc) x).
Proof.
  intros NM NS P X Y H. apply fle_at_most. unfold cauchy_ld. cbn [c_loc c_scale]. pose proof pi_bounds as PB.
  pose proof (bn_ln c lg L LOK C0 f64_pi num_pi ltac:(rewrite val_pi; lra)) as BP. apply fle_sub_l; [|exact (proj1 BP)]. apply fle_sub_l; [|apply (bn_ln c lg L LOK C0); assumption].
  assert (UX : up (f64_mul (f64_div (f64_sub x loc) sc) (f64_div (f64_sub x loc) sc))) by (apply square, residual; [left; exact X|exact NM|exact NS|exact P]).
  assert (UY : up (f64_mul (f64_div (f64_sub y loc) sc) (f64_div (f64_sub y loc) sc))) by (apply square, residual; [left; exact Y|exact NM|exact NS|exact P]).
  apply fle_opp. apply ln_one_fle; [exact UX|exact UY|]. apply fle_square, size_div; [apply size_sub; assumption|exact NS|exact P].
Qed.
Lemma student_mono nu x y : lg_moderate lg -> is_num nu -> bpow radix2 (-1000) <= val nu <= bpow radix2 879 -> is_num x -> is_num y -> Rabs (val x) <= Rabs (val y) ->
  at_most (student_ld (@mkStudent F nu) y) (student_ld (@mkStudent F nu) x).
Proof.
  intros LG NN K X Y H. pose proof (bpow_gt_0 radix2 (-1000)) as K0. destruct one_num as [N1 V1]. destruct half_dec as [NH VH]. pose proof pi_bounds as PB.
  assert (E879 : bpow radix2 879 <= bpow radix2 880) by (apply bpow_le; lia).
  apply fle_at_most.
  assert (E : forall x, student_ld (@mkStudent F nu) x =
    (f64_add (f64_sub (f64_sub (l_lgamma L (f64_div (f64_add nu (f64_of_Z 1)) (f64_of_Z 2))) (l_lgamma L (f64_div nu (f64_of_Z 2)))) (f64_mul (f64_dec 5 10) (l_ln L (f64_mul nu f64_pi))))
      (f64_mul (SFopp (f64_div (f64_add nu (f64_of_Z 1)) (f64_of_Z 2))) (l_ln L (f64_add (f64_of_Z 1) (f64_div (f64_mul x x) nu)))))) by reflexivity.
  rewrite !E. clear E.
  destruct (half_exact nu NN (proj1 K)) as [NB VB]. pose proof (bn_val 879 nu NN ltac:(lra)) as BN.
  pose proof (bn_add 879 nu (f64_of_Z 1) ltac:(lia) BN (bn_more 0 879 _ bn_one ltac:(lia))) as BS. change (879 + 1)%Z with 880%Z in BS.
  assert (S1 : 1 <= val (f64_add nu (f64_of_Z 1))).
  { destruct (add_num nu (f64_of_Z 1) NN N1) as [_ V].
    - apply (RN_small _ 880); [lia|]. rewrite V1. change 880%Z with (1 + 879)%Z. rewrite bpow_plus. change (bpow radix2 1) with 2.
      assert (bpow radix2 0 <= bpow radix2 879) as O by (apply bpow_le; lia). change (bpow radix2 0) with 1 in O. rewrite Rabs_pos_eq; lra.
    - rewrite V, V1. rewrite <- V1 at 1. rewrite <- (num_format _ N1). apply RN_mono. rewrite V1. lra. }
  assert (SM : bpow radix2 (-1000) <= 1) by (change 1 with (bpow radix2 0); apply bpow_le; lia).
  destruct (half_exact _ (proj1 BS) ltac:(lra)) as [NM VM]. pose proof (bn_half 880 _ ltac:(lia) BS) as BM.
  set (mid := f64_div (f64_add nu (f64_of_Z 1)) (f64_of_Z 2)) in *.
  assert (M0 : 0 < val mid <= bpow radix2 880) by (pose proof (proj2 BM) as Z; rewrite Rabs_pos_eq in Z; rewrite VM in *; lra).
  assert (PN : is_num (f64_mul nu f64_pi) /\ 0 < val (f64_mul nu f64_pi)).
  { destruct (mul_num nu f64_pi NN num_pi) as [Q V].
    - apply (RN_small _ 881); [lia|]. rewrite val_pi. change 881%Z with (879 + 2)%Z. rewrite bpow_plus, Rabs_mult. apply Rmult_le_compat; try apply Rabs_pos; [apply BN|]. rewrite Rabs_pos_eq by lra. change (bpow radix2 2) with 4. lra.
    - split; [exact Q|]. rewrite V, val_pi. apply Rlt_le_trans with (val nu); [lra|]. rewrite <- (num_format nu NN) at 1. apply RN_mono. nra. }
  apply fle_add_r.
  - apply fle_mul_opp; [|exact NM|lra].
    apply ln_one_fle; [apply div_pos_up; [apply square; left; assumption|exact NN|lra]..|].
    apply fle_div; [|exact NN|lra]. apply fle_square. split; [left; exact X|]. split; [left; exact Y|]. rewrite !ev_num by assumption. exact H.
  - apply (bn_sub 902 _ _ ltac:(lia)).
    + apply (bn_sub 901 _ _ ltac:(lia)); apply (bn_lgamma c lg L LOK C0); try assumption. rewrite VB. lra.
    + apply (bn_more (0 + 11)); [|lia]. apply (bn_mul 0 11 _ _ ltac:(lia)); [split; [exact NH|rewrite VH, Rabs_pos_eq by lra; cbn; lra]|apply (bn_ln c lg L LOK C0); apply PN].
Qed.
Lemma geometric_mono p k l : is_num p -> 0 < val p < 1 -> (1 <= k <= l)%nat -> (Z.of_nat l <= 2 ^ 64)%Z ->
  at_most (geometric_ld (@mkGeometric F p) l) (geometric_ld (@mkGeometric F p) k).
Proof.
  intros N P K B. apply fle_at_most. unfold geometric_ld. cbn [ge_prob]. rewrite !(proj2 (Nat.leb_le 1 _)) by lia. destruct one_num as [N1 V1].
  pose proof (bn_ln c lg L LOK C0 p N ltac:(lra)) as BP. pose proof (ln_minus c lg L LOK C0 p N P) as BQ.
  assert (Q : is_num (f64_sub (f64_of_Z 1) p) /\ 0 < val (f64_sub (f64_of_Z 1) p) <= 1).
  { sizes. assert (R1 : rel 1 (1 - val p) (f64_sub (f64_of_Z 1) p)) by (apply rel_diff'; try assumption; rewrite ?V1; [lra|lra|rewrite !Rabs_pos_eq by lra; lra]).
    split; [apply R1|]. split; [apply (rel_sign _ _ _ R1); lra|]. destruct (ev_sub (f64_of_Z 1) p N1 N) as [_ E]. rewrite ev_num in E by apply R1. rewrite E.
    apply Rle_trans with (cr (val (f64_of_Z 1))); [apply cr_mono; lra|]. rewrite cr_num by (rewrite (num_format _ N1); apply num_below, N1). rewrite (num_format _ N1). lra. }
  assert (LQ : val (l_ln L (f64_sub (f64_of_Z 1) p)) <= 0).
  { destruct LM as [L1 LM']. pose proof (LM' _ _ (proj1 Q) N1 ltac:(rewrite V1; exact (proj2 Q))) as A. pose proof (bn_ln c lg L LOK C0 _ N1 ltac:(lra)) as B1.
    pose proof (ev_at_most _ _ (proj1 BQ) (proj1 B1) A) as E. rewrite !ev_num, L1 in E by (apply BQ || apply B1). exact E. }
  set (q := l_ln L (f64_sub (f64_of_Z 1) p)) in *.
  assert (S : forall j, (Z.of_nat j <= 2 ^ 64)%Z -> bn 65 (f64_sub (@nofn F j) (f64_of_Z 1))) by (intros j J; apply (bn_sub 64 _ _ ltac:(lia)); [apply bn_count, J|apply (bn_more 0); [apply bn_one|lia]]).
  pose proof (S k ltac:(lia)) as SK. pose proof (S l ltac:(lia)) as SL.
  assert (FK : fle (f64_sub (@nofn F k) (f64_of_Z 1)) (f64_sub (@nofn F l) (f64_of_Z 1))).
  { apply fle_sub_l; [|exact N1]. apply num_fle; [apply (bn_count L k); lia|apply (bn_count L l); lia|]. change (@nofn F k) with (f64_of_Z (Z.of_nat k)). change (@nofn F l) with (f64_of_Z (Z.of_nat l)).
    rewrite (proj2 (CustomProofs.num_Z (Z.of_nat k) ltac:(lia))), (proj2 (CustomProofs.num_Z (Z.of_nat l) ltac:(lia))). apply RN_mono, IZR_le. lia. }
  destruct FK as (_ & _ & FK). rewrite !ev_num in FK by (apply SK || apply SL).
  pose proof (bn_mul 65 11 _ _ ltac:(lia) SK BQ) as MK. pose proof (bn_mul 65 11 _ _ ltac:(lia) SL BQ) as ML.
  change (fle (f64_add (f64_mul (f64_sub (@nofn F l) (f64_of_Z 1)) q) (l_ln L p)) (f64_add (f64_mul (f64_sub (@nofn F k) (f64_of_Z 1)) q) (l_ln L p))).
  assert (ME : val (f64_mul (f64_sub (@nofn F l) (f64_of_Z 1)) q) <= val (f64_mul (f64_sub (@nofn F k) (f64_of_Z 1)) q)).
  { rewrite <- !ev_num by (apply MK || apply ML). rewrite (proj2 (ev_mul _ _ (proj1 SL) (proj1 BQ))), (proj2 (ev_mul _ _ (proj1 SK) (proj1 BQ))). apply cr_mono. nra. }
  destruct (ev_add _ _ (proj1 ML) (proj1 BP)) as [NL EL], (ev_add _ _ (proj1 MK) (proj1 BP)) as [NK EK].
  split; [exact NL|]. split; [exact NK|]. rewrite EL, EK. apply cr_mono. lra.
Qed.
End Mono.
