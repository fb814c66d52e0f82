(** Monotone log-densities in binary32 (C77): MonoProofs and MonoSum at precision 24. *)
From Coq Require Import ZArith Reals Bool List Lia Lra.
From Coq Require Import Floats.SpecFloat.
From Flocq Require Import Core IEEE754.BinarySingleNaN.
From Verif Require Import Num EggSpec FloatFacts DensitySpec CoreModel CombModel ExpFamModel DistModel DistSpec ExtSpec SingleModel SingleSpec SingleErr SingleFloat ExtSingleSpec ExtSingle ExtSingleSum ExtSingleDisc MonoSpec.
Import ListNotations.
Local Open Scope R_scope.
#[local] Instance Hprec32 : FLX.Prec_gt_0 24 := eq_refl _.

(** * Values on the extended line: the infinities at +-2^1024 *)
Notation top := (bpow radix2 128).
Lemma top_pos : 0 < top. Proof. apply bpow_gt_0. Qed.
Definition ev (r : f32) : R := match r with S754_infinity false => top | S754_infinity true => - top | _ => val r end.
Definition cr (t : R) : R := Rmax (- top) (Rmin top (RS t)).
Lemma RS_mono x y : x <= y -> RS x <= RS y.
Proof. intros H. apply round_le; [apply FLT_exp_valid; exact Hprec32|apply valid_rnd_N|exact H]. Qed.
Lemma cr_mono x y : x <= y -> cr x <= cr y.
Proof. intros H. pose proof (RS_mono x y H). unfold cr. apply Rle_max_compat_l, Rle_min_compat_l. lra. Qed.
Lemma cr_pos x : 0 <= x -> 0 <= cr x.
Proof. intros H. pose proof (RS_pos x H). pose proof top_pos. unfold cr. eapply Rle_trans; [|apply Rmax_r]. apply Rmin_glb; lra. Qed.
Lemma cr_num t : Rabs (RS t) < top -> cr t = RS t.
Proof. intros H. apply Rabs_lt_inv in H. unfold cr. rewrite Rmin_right by lra. apply Rmax_right. lra. Qed.
Lemma cr_top t : top <= RS t -> cr t = top.
Proof. intros H. pose proof top_pos. unfold cr. rewrite Rmin_left by lra. apply Rmax_right. lra. Qed.
Lemma cr_bot t : RS t <= - top -> cr t = - top.
Proof. intros H. pose proof top_pos. unfold cr. rewrite Rmin_right by lra. apply Rmax_left. lra. Qed.
Lemma cr_opp x : cr (- x) = - cr x.
Proof.
  pose proof top_pos. destruct (Rle_lt_dec top (RS x)) as [A|A]; [rewrite (cr_top x A); apply cr_bot; rewrite RS_opp; lra|].
  destruct (Rle_lt_dec (RS x) (- top)) as [B|B]; [rewrite (cr_bot x B), Ropp_involutive; apply cr_top; rewrite RS_opp; lra|].
  rewrite !cr_num; [apply RS_opp|apply Rabs_lt; lra|rewrite RS_opp; apply Rabs_lt; lra].
Qed.
Lemma cr_abs x : Rabs (cr x) = cr (Rabs x).
Proof.
  destruct (Rle_lt_dec 0 x) as [H|H].
  - rewrite (Rabs_pos_eq x) by exact H. apply Rabs_pos_eq, cr_pos, H.
  - rewrite (Rabs_left x) by exact H. rewrite cr_opp. rewrite <- (Ropp_involutive x) at 1. rewrite cr_opp, Rabs_Ropp, Rabs_pos_eq; [rewrite <- cr_opp; reflexivity|apply cr_pos; lra].
Qed.
Lemma ev_num a : is_single a -> ev a = val a.
Proof. intros [_ G]. destruct a; try discriminate G; reflexivity. Qed.
Lemma ev_inside a : is_single a -> - top < ev a < top.
Proof. intros N. rewrite ev_num by exact N. apply Rabs_lt_inv, num_below, N. Qed.
Lemma ev_any a : not_nan32 a -> - top <= ev a <= top.
Proof. pose proof top_pos. intros [N|[-> | ->]]; cbn [ev pinf ninf]; [pose proof (ev_inside a N); lra|lra|lra]. Qed.
Lemma num_shape a : is_single a -> (exists s, a = S754_zero s) \/ exists s m e, a = S754_finite s m e.
Proof. intros [_ G]. destruct a as [s| | |s m e]; try discriminate G; [left; eauto|right; eauto]. Qed.
Lemma at_most_ev a b : not_nan32 a -> not_nan32 b -> ev a <= ev b -> at_most a b.
Proof.
  unfold at_most. pose proof top_pos as T. intros [N|[-> | ->]] [M|[-> | ->]] H; cbn [ev pinf ninf] in H; try reflexivity; try lra.
  - rewrite SFleb_num by assumption. rewrite !ev_num in H by assumption. apply Rle_bool_true, H.
  - destruct (num_shape a N) as [[s ->]|(s & m & e & ->)]; reflexivity.
  - pose proof (ev_inside a N). lra.
  - pose proof (ev_inside b M). lra.
  - destruct (num_shape b M) as [[s ->]|(s & m & e & ->)]; reflexivity.
Qed.
Lemma ev_at_most a b : is_single a -> is_single b -> at_most a b -> ev a <= ev b.
Proof.
  intros N M. unfold at_most. rewrite SFleb_num, !ev_num by assumption. destruct (Rle_bool_spec (val a) (val b)); [intros _; assumption|discriminate].
Qed.

(** * The operations on finite arguments *)
Lemma of_total r t : (is_single r /\ val r = RS t) \/ (top <= Rabs (RS t) /\ ((r = pinf /\ 0 <= t) \/ (r = ninf /\ t <= 0))) -> not_nan32 r /\ ev r = cr t.
Proof.
  intros [[N V]|[O [[-> S]|[-> S]]]].
  - split; [left; exact N|]. rewrite ev_num by exact N. rewrite cr_num; [exact V|]. rewrite <- V. apply num_below, N.
  - split; [right; left; reflexivity|]. cbn [ev pinf]. symmetry. apply cr_top. rewrite Rabs_pos_eq in O; [exact O|apply RS_pos, S].
  - split; [right; right; reflexivity|]. cbn [ev ninf]. symmetry. apply cr_bot.
    assert (RS t <= 0) by (rewrite <- (Ropp_involutive t), RS_opp; pose proof (RS_pos (- t) ltac:(lra)); lra).
    rewrite Rabs_left1 in O by assumption. lra.
Qed.
Lemma ev_sub a b : is_single a -> is_single b -> not_nan32 (f32_sub a b) /\ ev (f32_sub a b) = cr (val a - val b).
Proof. intros A B. apply of_total. destruct (sub_total a b A B) as [H|[O [(E & S1 & S2)|(E & S1 & S2)]]]; [left; exact H|right; split; [exact O|left]|right; split; [exact O|right]]; (split; [exact E|lra]). Qed.
Lemma ev_add a b : is_single a -> is_single b -> not_nan32 (f32_add a b) /\ ev (f32_add a b) = cr (val a + val b).
Proof. intros A B. apply of_total. destruct (add_total a b A B) as [H|[O [(E & S1 & S2)|(E & S1 & S2)]]]; [left; exact H|right; split; [exact O|left]|right; split; [exact O|right]]; (split; [exact E|lra]). Qed.
Lemma ev_mul a b : is_single a -> is_single b -> not_nan32 (f32_mul a b) /\ ev (f32_mul a b) = cr (val a * val b).
Proof. intros A B. apply of_total. destruct (mul_total a b A B) as [H|[O [(E & S)|(E & S)]]]; [left; exact H|right; split; [exact O|left]|right; split; [exact O|right]]; (split; [exact E|lra]). Qed.
Lemma ev_div a b : is_single a -> is_single b -> 0 < val b -> not_nan32 (f32_div a b) /\ ev (f32_div a b) = cr (val a / val b).
Proof.
  intros A B P. apply of_total. pose proof (Rinv_0_lt_compat _ P) as I. unfold Rdiv.
  destruct (div_total a b A B ltac:(lra)) as [H|[O [(E & S)|(E & S)]]]; [left; exact H|right; split; [exact O|left]|right; split; [exact O|right]]; (split; [exact E|]).
  - apply Rmult_le_pos; [apply (Rmult_le_reg_r (val b)); lra|lra].
  - assert (val a <= 0) by (apply (Rmult_le_reg_r (val b)); lra). nra.
Qed.
Lemma RS_abs_le t v : is_single v -> Rabs t <= Rabs (val v) -> Rabs (RS t) <= Rabs (val v).
Proof.
  intros N H. rewrite <- (num_format v N). unfold RS at 1 2. rewrite <- !round_NE_abs by (apply FLT_exp_valid; exact Hprec32). apply RS_mono, H.
Qed.

(** * Order-preserving steps *)
Definition fle (a b : f32) : Prop := not_nan32 a /\ not_nan32 b /\ ev a <= ev b.
Lemma fle_at_most a b : fle a b -> at_most a b.
Proof. intros (A & B & H). apply at_most_ev; assumption. Qed.
Lemma fle_trans a b d : fle a b -> fle b d -> fle a d.
Proof. intros (A & B & H) (_ & D & K). split; [exact A|]. split; [exact D|lra]. Qed.
Lemma fle_top a : not_nan32 a -> fle a pinf.
Proof. intros A. split; [exact A|]. split; [right; left; reflexivity|]. apply ev_any, A. Qed.
Lemma fle_bot a : not_nan32 a -> fle ninf a.
Proof. intros A. split; [right; right; reflexivity|]. split; [exact A|]. apply ev_any, A. Qed.
Lemma top_only a : not_nan32 a -> top <= ev a -> a = pinf.
Proof. pose proof top_pos. intros [N|[-> | ->]] H0; [pose proof (ev_inside a N); lra|reflexivity|cbn [ev ninf] in H0; lra]. Qed.
Lemma bot_only a : not_nan32 a -> ev a <= - top -> a = ninf.
Proof. pose proof top_pos. intros [N|[-> | ->]] H0; [pose proof (ev_inside a N); lra|cbn [ev pinf] in H0; lra|reflexivity]. Qed.
(** An ordered pair is two numbers, or has -inf below, or +inf above. *)
Lemma fle_cases a b : fle a b -> (is_single a /\ is_single b /\ val a <= val b) \/ a = ninf \/ b = pinf.
Proof.
  pose proof top_pos. intros (A & B & H0). destruct A as [N|[-> | ->]]; [|right; right; apply top_only; [exact B|exact H0]|right; left; reflexivity].
  destruct B as [M|[-> | ->]]; [|right; right; reflexivity|cbn [ev ninf] in H0; pose proof (ev_inside a N); lra].
  left. rewrite !ev_num in H0 by assumption. auto.
Qed.
Lemma inf_sub k : is_single k -> f32_sub pinf k = pinf /\ f32_sub ninf k = ninf /\ f32_sub k pinf = ninf /\ f32_sub k ninf = pinf.
Proof. intros N. destruct (num_shape k N) as [[s ->]|(s & m & e & ->)]; repeat split; reflexivity. Qed.
Lemma inf_add k : is_single k -> f32_add k pinf = pinf /\ f32_add k ninf = ninf.
Proof. intros N. destruct (num_shape k N) as [[s ->]|(s & m & e & ->)]; repeat split; reflexivity. Qed.
Lemma nn_sub a k : not_nan32 a -> is_single k -> not_nan32 (f32_sub a k) /\ not_nan32 (f32_sub k a).
Proof.
  intros A K. destruct (inf_sub k K) as (E1 & E2 & E3 & E4). destruct A as [N|[-> | ->]]; [split; apply ev_sub; assumption|rewrite E1, E3|rewrite E2, E4]; (split; [right|right]); [left|right|right|left]; reflexivity.
Qed.
Lemma nn_add a k : not_nan32 a -> is_single k -> not_nan32 (f32_add k a).
Proof. intros A K. destruct (inf_add k K) as (E1 & E2). destruct A as [N|[-> | ->]]; [apply ev_add; assumption|rewrite E1; right; left; reflexivity|rewrite E2; right; right; reflexivity]. Qed.
Lemma fle_sub_l a b k : fle a b -> is_single k -> fle (f32_sub a k) (f32_sub b k).
Proof.
  intros H K. pose proof H as (A & B & _). destruct (inf_sub k K) as (E1 & E2 & _). destruct (nn_sub a k A K) as [NA _], (nn_sub b k B K) as [NB _].
  destruct (fle_cases a b H) as [(N & M & V)|[-> | ->]]; [|rewrite E2; apply fle_bot, NB|rewrite E1; apply fle_top, NA].
  split; [exact NA|]. split; [exact NB|]. rewrite (proj2 (ev_sub a k N K)), (proj2 (ev_sub b k M K)). apply cr_mono. lra.
Qed.
Lemma fle_sub_r a b k : fle a b -> is_single k -> fle (f32_sub k b) (f32_sub k a).
Proof.
  intros H K. pose proof H as (A & B & _). destruct (inf_sub k K) as (_ & _ & E3 & E4). destruct (nn_sub a k A K) as [_ NA], (nn_sub b k B K) as [_ NB].
  destruct (fle_cases a b H) as [(N & M & V)|[-> | ->]]; [|rewrite E4; apply fle_top, NB|rewrite E3; apply fle_bot, NA].
  split; [exact NB|]. split; [exact NA|]. rewrite (proj2 (ev_sub k a K N)), (proj2 (ev_sub k b K M)). apply cr_mono. lra.
Qed.
Lemma fle_add_r a b k : fle a b -> is_single k -> fle (f32_add k a) (f32_add k b).
Proof.
  intros H K. pose proof H as (A & B & _). destruct (inf_add k K) as (E1 & E2). pose proof (nn_add a k A K) as NA. pose proof (nn_add b k B K) as NB.
  destruct (fle_cases a b H) as [(N & M & V)|[-> | ->]]; [|rewrite E2; apply fle_bot, NB|rewrite E1; apply fle_top, NA].
  split; [exact NA|]. split; [exact NB|]. rewrite (proj2 (ev_add k a K N)), (proj2 (ev_add k b K M)). apply cr_mono. lra.
Qed.
Lemma nn_opp a : not_nan32 a -> not_nan32 (SFopp a) /\ ev (SFopp a) = - ev a.
Proof.
  intros [N|[-> | ->]]; cbn [SFopp ev pinf ninf negb].
  - destruct (neg_num a N) as [K V]. split; [left; exact K|]. rewrite !ev_num by assumption. exact V.
  - split; [right; right; reflexivity|reflexivity].
  - split; [right; left; reflexivity|ring].
Qed.
Lemma fle_opp a b : fle a b -> fle (SFopp b) (SFopp a).
Proof. intros (A & B & H). destruct (nn_opp a A) as [NA EA], (nn_opp b B) as [NB EB]. split; [exact NB|]. split; [exact NA|]. rewrite EA, EB. lra. Qed.
Lemma pos_finite k : is_single k -> 0 < val k -> exists m e, k = S754_finite false m e.
Proof.
  intros N P. destruct (num_shape k N) as [[s ->]|([|] & m & e & ->)]; [cbn in P; lra| |eauto].
  exfalso. unfold val, SF2R in P. cbn [cond_Zopp] in P. assert (F2R (Float radix2 (Z.neg m) e) < 0) by (apply F2R_lt_0; reflexivity). cbn in *. lra.
Qed.
Lemma fle_div a b k : fle a b -> is_single k -> 0 < val k -> fle (f32_div a k) (f32_div b k).
Proof.
  intros H K P. pose proof H as (A & B & _).
  assert (E : f32_div pinf k = pinf /\ f32_div ninf k = ninf) by (destruct (pos_finite k K P) as (m & e & ->); split; reflexivity). destruct E as [E1 E2].
  assert (NN : forall a, not_nan32 a -> not_nan32 (f32_div a k)) by (intros x [N|[-> | ->]]; [apply ev_div; assumption|rewrite E1; right; left; reflexivity|rewrite E2; right; right; reflexivity]).
  destruct (fle_cases a b H) as [(N & M & V)|[-> | ->]]; [|rewrite E2; apply fle_bot, NN, B|rewrite E1; apply fle_top, NN, A].
  split; [apply NN, A|]. split; [apply NN, B|]. rewrite (proj2 (ev_div a k N K P)), (proj2 (ev_div b k M K P)). apply cr_mono. apply Rmult_le_compat_r; [left; apply Rinv_0_lt_compat, P|exact V].
Qed.
Lemma fle_mul a b k : fle a b -> is_single k -> 0 < val k -> fle (f32_mul k a) (f32_mul k b).
Proof.
  intros H K P. pose proof H as (A & B & _).
  assert (E : f32_mul k pinf = pinf /\ f32_mul k ninf = ninf) by (destruct (pos_finite k K P) as (m & e & ->); split; reflexivity). destruct E as [E1 E2].
  assert (NN : forall a, not_nan32 a -> not_nan32 (f32_mul k a)) by (intros x [N|[-> | ->]]; [apply ev_mul; assumption|rewrite E1; right; left; reflexivity|rewrite E2; right; right; reflexivity]).
  destruct (fle_cases a b H) as [(N & M & V)|[-> | ->]]; [|rewrite E2; apply fle_bot, NN, B|rewrite E1; apply fle_top, NN, A].
  split; [apply NN, A|]. split; [apply NN, B|]. rewrite (proj2 (ev_mul k a K N)), (proj2 (ev_mul k b K M)). apply cr_mono, Rmult_le_compat_l; lra.
Qed.
Lemma fle_mul_opp a b k : fle a b -> is_single k -> 0 < val k -> fle (f32_mul (SFopp k) b) (f32_mul (SFopp k) a).
Proof.
  intros H K P. pose proof H as (A & B & _). destruct (neg_num k K) as [KN KV].
  assert (E : f32_mul (SFopp k) pinf = ninf /\ f32_mul (SFopp k) ninf = pinf) by (destruct (pos_finite k K P) as (m & e & ->); split; reflexivity). destruct E as [E1 E2].
  assert (NN : forall a, not_nan32 a -> not_nan32 (f32_mul (SFopp k) a)) by (intros x [N|[-> | ->]]; [apply ev_mul; assumption|rewrite E1; right; right; reflexivity|rewrite E2; right; left; reflexivity]).
  destruct (fle_cases a b H) as [(N & M & V)|[-> | ->]]; [|rewrite E2; apply fle_top, NN, B|rewrite E1; apply fle_bot, NN, A].
  split; [apply NN, B|]. split; [apply NN, A|]. rewrite (proj2 (ev_mul (SFopp k) a KN N)), (proj2 (ev_mul (SFopp k) b KN M)). apply cr_mono. rewrite KV. nra.
Qed.

(** * Sizes: residuals and squares *)
Definition size (a b : f32) : Prop := not_nan32 a /\ not_nan32 b /\ Rabs (ev a) <= Rabs (ev b).
Lemma size_cases a b : size a b -> (is_single a /\ is_single b /\ Rabs (val a) <= Rabs (val b)) \/ b = pinf \/ b = ninf.
Proof.
  pose proof top_pos. intros (A & B & H0). destruct B as [M|[-> | ->]]; [|right; left; reflexivity|right; right; reflexivity]. left.
  assert (Rabs (ev b) < top) by (apply Rabs_lt; apply ev_inside, M).
  destruct A as [N|[-> | ->]]; cbn [ev pinf ninf] in H0; rewrite ?Rabs_Ropp, ?(Rabs_pos_eq top) in H0 by lra; try lra.
  rewrite !ev_num in H0 by assumption. auto.
Qed.
Lemma size_inf a b : not_nan32 a -> b = pinf \/ b = ninf -> size a b.
Proof.
  pose proof top_pos. intros A B. split; [exact A|]. split; [right; exact B|]. pose proof (ev_any a A). 
  apply Rle_trans with top; [apply Rabs_le; lra|]. destruct B as [-> | ->]; cbn [ev pinf ninf]; rewrite ?Rabs_Ropp, Rabs_pos_eq; lra.
Qed.
Lemma size_sub x y m : is_single x -> is_single y -> is_single m -> Rabs (val x - val m) <= Rabs (val y - val m) -> size (f32_sub x m) (f32_sub y m).
Proof.
  intros X Y M H. destruct (ev_sub x m X M) as [NX EX], (ev_sub y m Y M) as [NY EY]. split; [exact NX|]. split; [exact NY|]. rewrite EX, EY, !cr_abs. apply cr_mono, H.
Qed.
Lemma size_div a b k : size a b -> is_single k -> 0 < val k -> size (f32_div a k) (f32_div b k).
Proof.
  intros H K P. pose proof H as (A & B & _).
  assert (E : f32_div pinf k = pinf /\ f32_div ninf k = ninf) by (destruct (pos_finite k K P) as (m & e & ->); split; reflexivity). destruct E as [E1 E2].
  assert (NN : forall a, not_nan32 a -> not_nan32 (f32_div a k)) by (intros x [N|[-> | ->]]; [apply ev_div; assumption|rewrite E1; right; left; reflexivity|rewrite E2; right; right; reflexivity]).
  destruct (size_cases a b H) as [(N & M & V)|I]; [|apply size_inf; [apply NN, A|destruct I as [-> | ->]; [left|right]; assumption]].
  split; [apply NN, A|]. split; [apply NN, B|]. rewrite (proj2 (ev_div a k N K P)), (proj2 (ev_div b k M K P)), !cr_abs. apply cr_mono.
  unfold Rdiv. rewrite !Rabs_mult. apply Rmult_le_compat_r; [apply Rabs_pos|exact V].
Qed.
Lemma size_mul_k a b k : size a b -> is_single k -> 0 < val k -> size (f32_mul k a) (f32_mul k b).
Proof.
  intros H K P. pose proof H as (A & B & _).
  assert (E : f32_mul k pinf = pinf /\ f32_mul k ninf = ninf) by (destruct (pos_finite k K P) as (m & e & ->); split; reflexivity). destruct E as [E1 E2].
  assert (NN : forall a, not_nan32 a -> not_nan32 (f32_mul k a)) by (intros x [N|[-> | ->]]; [apply ev_mul; assumption|rewrite E1; right; left; reflexivity|rewrite E2; right; right; reflexivity]).
  destruct (size_cases a b H) as [(N & M & V)|I]; [|apply size_inf; [apply NN, A|destruct I as [-> | ->]; [left|right]; assumption]].
  split; [apply NN, A|]. split; [apply NN, B|]. rewrite (proj2 (ev_mul k a K N)), (proj2 (ev_mul k b K M)), !cr_abs. apply cr_mono.
  rewrite !Rabs_mult. apply Rmult_le_compat_l; [apply Rabs_pos|exact V].
Qed.
Lemma up_nn a : up a -> not_nan32 a.
Proof. intros [[N _]| ->]; [left; exact N|right; left; reflexivity]. Qed.
Lemma up_ev a : up a -> 0 <= ev a.
Proof. pose proof top_pos. intros [[N V]| ->]; [rewrite ev_num by exact N; exact V|cbn [ev pinf]; lra]. Qed.
Lemma size_up a b : size a b -> up a -> up b -> fle a b.
Proof. intros (A & B & H) U V. split; [exact A|]. split; [exact B|]. pose proof (up_ev a U). pose proof (up_ev b V). rewrite !Rabs_pos_eq in H by assumption. exact H. Qed.
Lemma nn_inf_or_num z : not_nan32 z -> inf_or_num z.
Proof. intros [N|[-> | ->]]; [left; exact N|right; eexists; reflexivity|right; eexists; reflexivity]. Qed.
Lemma fle_square a b : size a b -> fle (f32_mul a a) (f32_mul b b).
Proof.
  intros H. pose proof H as (A & B & _). pose proof (square a (nn_inf_or_num a A)) as UA. pose proof (square b (nn_inf_or_num b B)) as UB.
  destruct (size_cases a b H) as [(N & M & V)|I].
  - split; [apply up_nn, UA|]. split; [apply up_nn, UB|]. rewrite (proj2 (ev_mul a a N N)), (proj2 (ev_mul b b M M)). apply cr_mono.
    replace (val a * val a) with (Rabs (val a) * Rabs (val a)) by (rewrite <- Rabs_mult; apply Rabs_pos_eq, Rle_0_sqr).
    replace (val b * val b) with (Rabs (val b) * Rabs (val b)) by (rewrite <- Rabs_mult; apply Rabs_pos_eq, Rle_0_sqr).
    apply Rmult_le_compat; try apply Rabs_pos; exact V.
  - replace (f32_mul b b) with pinf by (destruct I as [-> | ->]; reflexivity). apply fle_top, up_nn, UA.
Qed.
Lemma fle_half_square a b : size a b -> fle (f32_mul (f32_mul (f32_dec 5 10) a) a) (f32_mul (f32_mul (f32_dec 5 10) b) b).
Proof.
  intros H. pose proof H as (A & B & _). pose proof (half_square a (nn_inf_or_num a A)) as UA. pose proof (half_square b (nn_inf_or_num b B)) as UB.
  destruct half_dec as [NH VH].
  destruct (size_cases a b H) as [(N & M & V)|I].
  - pose proof (size_mul_k a b _ H NH ltac:(lra)) as HH. destruct (ev_mul _ a NH N) as [QA EA], (ev_mul _ b NH M) as [QB EB].
    set (ha := f32_mul (f32_dec 5 10) a) in *. set (hb := f32_mul (f32_dec 5 10) b) in *.
    assert (HN : is_single hb) by (apply (mul_num _ b NH M); rewrite VH; eapply Rle_lt_trans; [apply (RS_abs_le (/ 2 * val b) b M); rewrite Rabs_mult, (Rabs_pos_eq (/ 2)) by lra; pose proof (Rabs_pos (val b)); lra|apply num_below, M]).
    assert (HM : is_single ha) by (destruct (size_cases _ _ HH) as [(Q & _)|[Q|Q]]; [exact Q|rewrite Q in HN; destruct HN as [_ HN]; discriminate HN..]).
    split; [apply up_nn, UA|]. split; [apply up_nn, UB|]. rewrite (proj2 (ev_mul ha a HM N)), (proj2 (ev_mul hb b HN M)). apply cr_mono.
    assert (SA : val ha * val a = Rabs (val ha) * Rabs (val a)).
    { rewrite <- Rabs_mult. symmetry. apply Rabs_pos_eq. rewrite ev_num in EA by exact HM. rewrite EA, VH. destruct (Rle_lt_dec 0 (val a)) as [P|P].
      - apply Rmult_le_pos; [apply cr_pos; lra|exact P].
      - pose proof (cr_pos (- (/ 2 * val a)) ltac:(lra)) as Q. rewrite cr_opp in Q. nra. }
    assert (SB : val hb * val b = Rabs (val hb) * Rabs (val b)).
    { rewrite <- Rabs_mult. symmetry. apply Rabs_pos_eq. rewrite ev_num in EB by exact HN. rewrite EB, VH. destruct (Rle_lt_dec 0 (val b)) as [P|P].
      - apply Rmult_le_pos; [apply cr_pos; lra|exact P].
      - pose proof (cr_pos (- (/ 2 * val b)) ltac:(lra)) as Q. rewrite cr_opp in Q. nra. }
    rewrite SA, SB. destruct HH as (_ & _ & HH). rewrite !ev_num in HH by assumption. apply Rmult_le_compat; try apply Rabs_pos; assumption.
  - replace (f32_mul (f32_mul (f32_dec 5 10) b) b) with pinf by (destruct I as [-> | ->]; reflexivity). apply fle_top, up_nn, UA.
Qed.

(** * The log-densities *)
Section Mono.
Context (c : R) (lg : R -> R) (L : libm32) (LOK : libm32_ok c lg L) (C0 : 0 <= c <= 1000).
Notation F := (F32 L).
Lemma normal_mono mu sd x y : is_single mu -> is_single sd -> 0 < val sd -> is_single x -> is_single y -> Rabs (val x - val mu) <= Rabs (val y - val mu) ->
  at_most (normal_ld (@mkNormal F mu sd) y) (normal_ld (@mkNormal F mu sd) x).
Proof.
  intros NM NS P X Y H. apply fle_at_most. unfold normal_ld. cbn [n_mean n_sd]. apply fle_sub_r; [|exact (proj1 (normal_front c lg L LOK C0 sd NS P))].
  apply fle_half_square, size_div; [apply size_sub; assumption|exact NS|exact P].
Qed.
Lemma num_fle a b : is_single a -> is_single b -> val a <= val b -> fle a b.
Proof. intros A B H. split; [left; exact A|]. split; [left; exact B|]. rewrite !ev_num by assumption. exact H. Qed.
Lemma exponential_mono rate x y : is_single rate -> 0 < val rate -> is_single x -> is_single y -> 0 <= val x <= val y ->
  at_most (exponential_ld (@mkExponential F rate) y) (exponential_ld (@mkExponential F rate) x).
Proof.
  intros NR P X Y H. apply fle_at_most. unfold exponential_ld. cbn [e_rate]. destruct zero_num as [N0 V0].
  assert (G : forall z, is_single z -> 0 <= val z -> @nleb F n0 z = true) by (intros z Z Q; change (@nleb F n0 z) with (SFleb (f32_of_Z 0) z); rewrite (SFleb_num _ _ N0 Z), V0; apply Rle_bool_true, Q).
  rewrite !G by (assumption || lra). apply fle_sub_r; [|apply (bn_ln c lg L LOK C0); assumption]. apply fle_mul; [apply num_fle; [exact X|exact Y|lra]|exact NR|exact P].
Qed.
Context (LE : ln_edges32 L) (LM : ln_monotone32 L).
(** The logarithm on values that are at least 1 or plus infinity. *)
Lemma ln_fle a b : fle a b -> (is_single a /\ 1 <= val a) \/ a = pinf -> (is_single b /\ 1 <= val b) \/ b = pinf -> fle (s_ln L a) (s_ln L b).
Proof.
  intros H A B. assert (NL : forall z, (is_single z /\ 1 <= val z) \/ z = pinf -> not_nan32 (s_ln L z)).
  { intros z [[N V]| ->]; [left; apply (bn_ln c lg L LOK C0); [exact N|lra]|rewrite (proj1 LE); right; left; reflexivity]. }
  destruct B as [[NB VB]| ->]; [|rewrite (proj1 LE); apply fle_top, NL, A].
  destruct A as [[NA VA]| ->]; [|exfalso; destruct H as (_ & _ & H); pose proof (ev_inside b NB); cbn [ev pinf] in H; lra].
  destruct H as (_ & _ & H). rewrite !ev_num in H by assumption.
  assert (MA : is_single (s_ln L a)) by (apply (bn_ln c lg L LOK C0); [exact NA|lra]). assert (MB : is_single (s_ln L b)) by (apply (bn_ln c lg L LOK C0); [exact NB|lra]).
  split; [left; exact MA|]. split; [left; exact MB|]. apply ev_at_most; [exact MA|exact MB|]. apply (proj2 LM); [exact NA|exact NB|lra].
Qed.
Lemma ln_one_fle a b : up a -> up b -> fle a b -> fle (s_ln L (f32_add (f32_of_Z 1) a)) (s_ln L (f32_add (f32_of_Z 1) b)).
Proof. intros UA UB H. apply ln_fle; [apply fle_add_r; [exact H|apply one_num]|apply one_up, UA|apply one_up, UB]. Qed.
Lemma cauchy_mono loc sc x y : is_single loc -> is_single sc -> 0 < val sc -> is_single x -> is_single y -> Rabs (val x - val loc) <= Rabs (val y - val loc) ->
  at_most (cauchy_ld (@mkCauchy F loc sc) y) (cauchy_ld (@mkCauchy F loc sc) x).
Proof.
  intros NM NS P X Y H. apply fle_at_most. unfold cauchy_ld. cbn [c_loc c_scale]. pose proof pi_bounds as PB.
  pose proof (bn_ln c lg L LOK C0 f32_pi num_pi ltac:(rewrite val_pi; lra)) as BP. apply fle_sub_l; [|exact (proj1 BP)]. apply fle_sub_l; [|apply (bn_ln c lg L LOK C0); assumption].
  assert (UX : up (f32_mul (f32_div (f32_sub x loc) sc) (f32_div (f32_sub x loc) sc))) by (apply square, residual; [left; exact X|exact NM|exact NS|exact P]).
  assert (UY : up (f32_mul (f32_div (f32_sub y loc) sc) (f32_div (f32_sub y loc) sc))) by (apply square, residual; [left; exact Y|exact NM|exact NS|exact P]).
  apply fle_opp. apply ln_one_fle; [exact UX|exact UY|]. apply fle_square, size_div; [apply size_sub; assumption|exact NS|exact P].
Qed.
End Mono.

(** * Samples *)
Lemma at_most_fle a b : not_nan32 a -> not_nan32 b -> at_most a b -> fle a b.
Proof.
  intros A B H. split; [exact A|]. split; [exact B|]. destruct A as [N|[-> | ->]]; [| |apply ev_any, B].
  - destruct B as [M|[-> | ->]]; [apply ev_at_most; assumption|apply ev_any; left; exact N|].
    exfalso. unfold at_most in H. destruct (num_shape a N) as [[s ->]|(s & m & e & ->)]; discriminate H.
  - destruct B as [M|[-> | ->]]; [|right; reflexivity|discriminate H]. exfalso. unfold at_most in H. destruct (num_shape b M) as [[s ->]|([] & m & e & ->)]; discriminate H.
Qed.
Lemma partial_nn a : partial_sum a -> not_nan32 a.
Proof. intros [-> |[N _]]; [right; right; reflexivity|left; exact N]. Qed.
Lemma capped_nn a : capped a -> not_nan32 a.
Proof. intros [-> |[N _]]; [right; right; reflexivity|left; exact N]. Qed.
Lemma step_mono a a' b b' : partial_sum a -> partial_sum a' -> capped b -> capped b' -> fle a a' -> fle b b' -> fle (f32_add a b) (f32_add a' b').
Proof.
  intros A A' B B' H K. pose proof (partial_nn _ (step a b A B)) as N. pose proof (partial_nn _ (step a' b' A' B')) as N'.
  destruct A as [-> |[NA _]]; [replace (f32_add ninf b) with ninf; [apply fle_bot, N'|destruct B as [-> |[NB _]]; [reflexivity|symmetry; apply (proj2 (add_ninf b NB))]]|].
  destruct B as [-> |[NB _]]; [rewrite (proj1 (add_ninf a NA)); apply fle_bot, N'|].
  destruct A' as [-> |[NA' _]]; [destruct H as (_ & _ & H); pose proof (ev_inside a NA); cbn [ev ninf] in H; lra|].
  destruct B' as [-> |[NB' _]]; [destruct K as (_ & _ & K); pose proof (ev_inside b NB); cbn [ev ninf] in K; lra|].
  split; [exact N|]. split; [exact N'|]. rewrite (proj2 (ev_add a b NA NB)), (proj2 (ev_add a' b' NA' NB')).
  destruct H as (_ & _ & H), K as (_ & _ & K). rewrite !ev_num in H, K by assumption. apply cr_mono. lra.
Qed.
Lemma sum_mono_from l l' : Forall2 (fun b b' => capped b /\ capped b' /\ at_most b b') l l' -> forall a a', partial_sum a -> partial_sum a' -> fle a a' ->
  fle (fold_left f32_add l a) (fold_left f32_add l' a').
Proof.
  induction 1 as [|b b' l l' (B & B' & E) _ IH]; intros a a' A A' H; cbn [fold_left]; [exact H|].
  apply IH; [apply step; assumption|apply step; assumption|]. apply step_mono; try assumption. apply at_most_fle; [apply capped_nn, B|apply capped_nn, B'|exact E].
Qed.
Lemma sum_mono l l' : Forall2 (fun b b' => capped b /\ capped b' /\ at_most b b') l l' -> at_most (fold_left f32_add l (f32_of_Z 0)) (fold_left f32_add l' (f32_of_Z 0)).
Proof.
  intros H. destruct zero_num as [N0 V0]. assert (P0 : partial_sum (f32_of_Z 0)) by (right; split; [exact N0|rewrite V0; apply bpow_ge_0]).
  apply fle_at_most, (sum_mono_from l l' H); [exact P0|exact P0|]. split; [left; exact N0|]. split; [left; exact N0|right; reflexivity].
Qed.
(** The pair is ordered the other way round in the samples. *)
Lemma sample_mono L {X} (b : Base (F32 L) X) xs ys : Forall2 (fun x y => capped (b_ld b x) /\ capped (b_ld b y) /\ at_most (b_ld b y) (b_ld b x)) xs ys ->
  at_most (iid_log_density_fallback b ys) (iid_log_density_fallback b xs).
Proof.
  intros H. apply (sum_mono (map (b_ld b) ys) (map (b_ld b) xs)). induction H as [|x y xs ys (A & B & E) _ IH]; cbn [map]; constructor; [auto|exact IH].
Qed.

(** * Bernoulli and categorical *)
Section Order.
Context (c : R) (lg : R -> R) (L : libm32) (LOK : libm32_ok c lg L) (C0 : 0 <= c <= 1000) (LE : ln_edges32 L) (LM : ln_monotone32 L).
Notation F := (F32 L).
Lemma ln_order p q : is_single p -> is_single q -> 0 <= val p <= val q -> at_most (s_ln L p) (s_ln L q).
Proof.
  intros NP NQ H. destruct (Rle_lt_or_eq_dec 0 (val p) (proj1 H)) as [P|P]; [apply (proj2 LM); [exact NP|exact NQ|lra]|].
  destruct (num_shape p NP) as [[s ->]|(s & m & e & ->)].
  - rewrite (proj2 LE). apply fle_at_most, fle_bot, capped_nn, (ln_capped c lg L LOK C0 LE q NQ). lra.
  - exfalso. symmetry in P. unfold val, SF2R in P. apply eq_0_F2R in P. cbn in P. destruct s; discriminate P.
Qed.
Lemma bernoulli_order p : is_single p -> 0 <= val p <= 1 ->
  (/ 2 <= val p -> at_most (bernoulli_ld (@mkBernoulli F p) 0) (bernoulli_ld (@mkBernoulli F p) 1)) /\
  (val p <= / 2 -> at_most (bernoulli_ld (@mkBernoulli F p) 1) (bernoulli_ld (@mkBernoulli F p) 0)).
Proof.
  intros N P. destruct one_num as [N1 V1]. destruct (one_minus p N P) as [K V].
  assert (E : val (f32_sub (f32_of_Z 1) p) = RS (1 - val p)).
  { rewrite <- ev_num by exact K. rewrite (proj2 (ev_sub _ _ N1 N)), V1. apply cr_num. apply (RS_small _ 0); [lia|]. change (bpow radix2 0) with 1. apply Rabs_le. lra. }
  assert (Q : RS (val p) = val p) by (apply round_generic; [apply valid_rnd_N|apply format_val, N]).
  split; intros H.
  - apply (ln_order (f32_sub (f32_of_Z 1) p) p K N). split; [exact V|]. rewrite E. rewrite <- Q at 2. apply RS_mono. lra.
  - apply (ln_order p (f32_sub (f32_of_Z 1) p) N K). split; [lra|]. rewrite E. rewrite <- Q at 1. apply RS_mono. lra.
Qed.
Lemma categorical_order ps i j : Forall (fun p => is_single p /\ 0 <= val p) ps -> (i < length ps)%nat -> (j < length ps)%nat ->
  val (nth i ps (f32_of_Z 0)) <= val (nth j ps (f32_of_Z 0)) -> at_most (categorical_ld (@mkCategorical F ps) i) (categorical_ld (@mkCategorical F ps) j).
Proof.
  intros H I J D. rewrite Forall_forall in H.
  assert (E : forall k, (k < length ps)%nat -> categorical_ld (@mkCategorical F ps) k = s_ln L (nth k ps (f32_of_Z 0))).
  { intros k K. change (categorical_ld (@mkCategorical F ps) k) with (if (k <? length ps)%nat then s_ln L (nth k ps (f32_of_Z 0)) else ninf). rewrite (proj2 (Nat.ltb_lt k (length ps)) K). reflexivity. }
  rewrite (E i I), (E j J). destruct (H _ (nth_In ps (f32_of_Z 0) I)) as [NI VI]. destruct (H _ (nth_In ps (f32_of_Z 0) J)) as [NJ VJ]. apply ln_order; [exact NI|exact NJ|lra].
Qed.
Lemma single_fmt w : is_single w -> RS (val w) = val w.
Proof. intros N. apply round_generic; [apply valid_rnd_N|apply format_val, N]. Qed.
Lemma geometric_mono p k l : is_single p -> 0 < val p < 1 -> (1 <= k <= l)%nat -> (Z.of_nat l <= 2 ^ 64)%Z ->
  at_most (geometric_ld (@mkGeometric F p) l) (geometric_ld (@mkGeometric F p) k).
Proof.
  intros N P K B. apply fle_at_most. unfold geometric_ld. cbn [ge_prob]. rewrite !(proj2 (Nat.leb_le 1 _)) by lia. destruct one_num as [N1 V1].
  pose proof (bn_ln c lg L LOK C0 p N ltac:(lra)) as BP. pose proof (ln_minus c lg L LOK C0 p N P) as BQ.
  assert (Q : is_single (f32_sub (f32_of_Z 1) p) /\ 0 < val (f32_sub (f32_of_Z 1) p) <= 1).
  { sizes. assert (R1 : rel 1 (1 - val p) (f32_sub (f32_of_Z 1) p)) by (apply rel_diff'; try assumption; rewrite ?V1; [lra|lra|rewrite !Rabs_pos_eq by lra; lra]).
    split; [apply R1|]. split; [apply (rel_sign _ _ _ R1); lra|]. destruct (ev_sub (f32_of_Z 1) p N1 N) as [_ E]. rewrite ev_num in E by apply R1. rewrite E.
    apply Rle_trans with (cr (val (f32_of_Z 1))); [apply cr_mono; lra|]. rewrite cr_num by (rewrite (single_fmt _ N1); apply num_below, N1). rewrite (single_fmt _ N1). lra. }
  assert (LQ : val (s_ln L (f32_sub (f32_of_Z 1) p)) <= 0).
  { destruct LM as [L1 LM']. pose proof (LM' _ _ (proj1 Q) N1 ltac:(rewrite V1; exact (proj2 Q))) as A. pose proof (bn_ln c lg L LOK C0 _ N1 ltac:(lra)) as B1.
    pose proof (ev_at_most _ _ (proj1 BQ) (proj1 B1) A) as E. rewrite !ev_num, L1 in E by (apply BQ || apply B1). exact E. }
  set (q := s_ln L (f32_sub (f32_of_Z 1) p)) in *.
  assert (S : forall j, (Z.of_nat j <= 2 ^ 64)%Z -> bn 65 (f32_sub (@nofn F j) (f32_of_Z 1))) by (intros j J; apply (bn_sub 64 _ _ ltac:(lia)); [apply bn_count, J|apply (bn_more 0); [apply bn_one|lia]]).
  pose proof (S k ltac:(lia)) as SK. pose proof (S l ltac:(lia)) as SL.
  assert (FK : fle (f32_sub (@nofn F k) (f32_of_Z 1)) (f32_sub (@nofn F l) (f32_of_Z 1))).
  { apply fle_sub_l; [|exact N1]. apply num_fle; [apply (bn_count L k); lia|apply (bn_count L l); lia|]. change (@nofn F k) with (f32_of_Z (Z.of_nat k)). change (@nofn F l) with (f32_of_Z (Z.of_nat l)).
    rewrite (proj2 (ExtSingleDisc.num_Z (Z.of_nat k) ltac:(lia))), (proj2 (ExtSingleDisc.num_Z (Z.of_nat l) ltac:(lia))). apply RS_mono, IZR_le. lia. }
  destruct FK as (_ & _ & FK). rewrite !ev_num in FK by (apply SK || apply SL).
  pose proof (bn_mul 65 11 _ _ ltac:(lia) SK BQ) as MK. pose proof (bn_mul 65 11 _ _ ltac:(lia) SL BQ) as ML.
  change (fle (f32_add (f32_mul (f32_sub (@nofn F l) (f32_of_Z 1)) q) (s_ln L p)) (f32_add (f32_mul (f32_sub (@nofn F k) (f32_of_Z 1)) q) (s_ln L p))).
  assert (ME : val (f32_mul (f32_sub (@nofn F l) (f32_of_Z 1)) q) <= val (f32_mul (f32_sub (@nofn F k) (f32_of_Z 1)) q)).
  { rewrite <- !ev_num by (apply MK || apply ML). rewrite (proj2 (ev_mul _ _ (proj1 SL) (proj1 BQ))), (proj2 (ev_mul _ _ (proj1 SK) (proj1 BQ))). apply cr_mono. nra. }
  destruct (ev_add _ _ (proj1 ML) (proj1 BP)) as [NL EL], (ev_add _ _ (proj1 MK) (proj1 BP)) as [NK EK].
  split; [exact NL|]. split; [exact NK|]. rewrite EL, EK. apply cr_mono. lra.
Qed.
End Order.
