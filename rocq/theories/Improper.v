(** Toolbox for improper integrals (C32, C35).  No part of the code is modelled here. *)
From Coquelicot Require Import Coquelicot.
From Coq Require Import ZArith Reals List Bool Lra Lia Arith Classical_Pred_Type Classical_Prop.
From Verif Require Import IntSpec.
Local Open Scope R_scope.

Lemma inside_seg (A B : Rbar) (a b x : R) : Rbar_lt A a -> Rbar_lt b B -> a <= x <= b -> inside A B x.
Proof.
  intros H K [X Y]. split.
  - eapply Rbar_lt_le_trans; [exact H|exact X].
  - eapply Rbar_le_lt_trans; [|exact K]. exact Y.
Qed.
Lemma inside_lt (A : Rbar) (a x : R) : Rbar_lt A a -> a <= x -> Rbar_lt A x.
Proof. intros H X. eapply Rbar_lt_le_trans; [exact H|exact X]. Qed.
Lemma inside_gt (B : Rbar) (b x : R) : Rbar_lt b B -> x <= b -> Rbar_lt x B.
Proof. intros H X. eapply Rbar_le_lt_trans; [|exact H]. exact X. Qed.
Lemma seg (a b x : R) : a <= b -> Rmin a b <= x <= Rmax a b -> a <= x <= b.
Proof. intros H. rewrite Rmin_left, Rmax_right by exact H. auto. Qed.
Lemma seg' (a b x : R) : a <= b -> Rmin a b < x < Rmax a b -> a < x < b.
Proof. intros H. rewrite Rmin_left, Rmax_right by exact H. auto. Qed.
Lemma ex_int (f : R -> R) (a b : R) : a <= b -> (forall x, a <= x <= b -> continuous f x) -> ex_RInt f a b.
Proof. intros H C. apply (ex_RInt_continuous (V := R_CompleteNormedModule)). intros x Hx. apply C, seg; assumption. Qed.
Lemma int_correct (f : R -> R) (a b : R) : ex_RInt f a b -> is_RInt f a b (RInt f a b).
Proof. apply (RInt_correct (V := R_CompleteNormedModule)). Qed.
Lemma int_unique (f : R -> R) (a b v : R) : is_RInt f a b v -> RInt f a b = v.
Proof. apply (is_RInt_unique (V := R_CompleteNormedModule)). Qed.

Section I.
Context (A B : Rbar).
Lemma integral_unique f l l' : integral A B f l -> integral A B f l' -> l = l'.
Proof.
  intros H K. apply Rminus_diag_uniq.
  destruct (Req_dec (l - l') 0) as [|N]; [assumption|exfalso].
  set (e := Rabs (l - l') / 2). assert (E : 0 < e) by (unfold e; pose proof (Rabs_pos_lt _ N); lra).
  destruct (H e E) as (a0 & b0 & I1 & I2 & L & P). destruct (K e E) as (a1 & b1 & J1 & J2 & M & Q).
  set (a := Rmin a0 a1). set (b := Rmax b0 b1).
  assert (Aa : Rbar_lt A a) by (unfold a, Rmin; destruct Rle_dec; [apply I1|apply J1]).
  assert (Bb : Rbar_lt b B) by (unfold b, Rmax; destruct Rle_dec; [apply J2|apply I2]).
  destruct (P a b Aa (Rmin_l _ _) (Rmax_l _ _) Bb) as (v & V & D).
  destruct (Q a b Aa (Rmin_r _ _) (Rmax_r _ _) Bb) as (v' & V' & D').
  assert (v = v') by (rewrite <- (int_unique _ _ _ _ V); apply int_unique, V'). subst v'.
  unfold e in *. revert D D'. unfold Rabs. repeat destruct Rcase_abs; lra.
Qed.
Lemma integral_ext f g l : (forall x, inside A B x -> f x = g x) -> integral A B f l -> integral A B g l.
Proof.
  intros E H eps P. destruct (H eps P) as (a0 & b0 & I1 & I2 & L & Q). exists a0, b0. repeat (split; [assumption|]).
  intros a b Ha La Lb Hb. destruct (Q a b Ha La Lb Hb) as (v & V & D). exists v. split; [|exact D].
  apply (is_RInt_ext (V := R_NormedModule) f); [|exact V]. intros x X. apply seg' in X; [|lra]. apply E.
  apply (inside_seg A B a b); [assumption|assumption|lra].
Qed.
Lemma integral_plus f g l l' : integral A B f l -> integral A B g l' -> integral A B (fun x => f x + g x) (l + l').
Proof.
  intros H K eps E. destruct (H (eps / 2) ltac:(lra)) as (a0 & b0 & I1 & I2 & L & P).
  destruct (K (eps / 2) ltac:(lra)) as (a1 & b1 & J1 & J2 & M & Q).
  exists (Rmin a0 a1), (Rmax b0 b1).
  assert (X1 : inside A B (Rmin a0 a1)) by (unfold Rmin; destruct Rle_dec; assumption).
  assert (X2 : inside A B (Rmax b0 b1)) by (unfold Rmax; destruct Rle_dec; assumption).
  split; [exact X1|]. split; [exact X2|].
  pose proof (Rmin_l a0 a1). pose proof (Rmax_l b0 b1). pose proof (Rmin_r a0 a1). pose proof (Rmax_r b0 b1).
  split; [lra|]. intros a b Ha La Lb Hb.
  destruct (P a b Ha ltac:(lra) ltac:(lra) Hb) as (v & V & D). destruct (Q a b Ha ltac:(lra) ltac:(lra) Hb) as (v' & V' & D').
  exists (v + v'). split; [apply (is_RInt_plus (V := R_NormedModule) f g a b v v'); assumption|].
  revert D D'. unfold Rabs. repeat destruct Rcase_abs; lra.
Qed.
Lemma integral_scal c f l : integral A B f l -> integral A B (fun x => c * f x) (c * l).
Proof.
  intros H eps E. set (k := Rabs c + 1). assert (K : 0 < k) by (unfold k; pose proof (Rabs_pos c); lra).
  destruct (H (eps / k)) as (a0 & b0 & I1 & I2 & L & P); [apply Rdiv_lt_0_compat; assumption|].
  exists a0, b0. repeat (split; [assumption|]). intros a b Ha La Lb Hb. destruct (P a b Ha La Lb Hb) as (v & V & D).
  exists (c * v). split; [apply (is_RInt_scal (V := R_NormedModule) f a b c v V)|].
  replace (c * v - c * l) with (c * (v - l)) by ring. rewrite Rabs_mult.
  apply Rle_lt_trans with (Rabs c * (eps / k)).
  - apply Rmult_le_compat_l; [apply Rabs_pos|lra].
  - assert (0 < eps / k) by (apply Rdiv_lt_0_compat; assumption).
    replace eps with (k * (eps / k)) at 2 by (field; lra). apply Rmult_lt_compat_r; [assumption|]. unfold k. lra.
Qed.
Lemma integral_minus f g l l' : integral A B f l -> integral A B g l' -> integral A B (fun x => f x - g x) (l - l').
Proof.
  intros H K. replace (l - l') with (l + (-1) * l') by ring.
  apply (integral_ext (fun x => f x + (-1) * g x)); [intros; ring|]. apply integral_plus; [exact H|]. apply integral_scal, K.
Qed.
Lemma integral_le f g l l' : (forall x, inside A B x -> f x <= g x) -> integral A B f l -> integral A B g l' -> l <= l'.
Proof.
  intros E H K. apply Rnot_lt_le. intros N. set (e := (l - l') / 2). assert (P0 : 0 < e) by (unfold e; lra).
  destruct (H e P0) as (a0 & b0 & I1 & I2 & L & P). destruct (K e P0) as (a1 & b1 & J1 & J2 & M & Q).
  set (a := Rmin a0 a1). set (b := Rmax b0 b1).
  assert (Aa : Rbar_lt A a) by (unfold a, Rmin; destruct Rle_dec; [apply I1|apply J1]).
  assert (Bb : Rbar_lt b B) by (unfold b, Rmax; destruct Rle_dec; [apply J2|apply I2]).
  assert (U1 : a <= a0) by apply Rmin_l. assert (U2 : b0 <= b) by apply Rmax_l.
  destruct (P a b Aa (Rmin_l _ _) (Rmax_l _ _) Bb) as (v & V & D).
  destruct (Q a b Aa (Rmin_r _ _) (Rmax_r _ _) Bb) as (v' & V' & D').
  assert (v <= v'). { apply (is_RInt_le f g a b); [lra|assumption|assumption|]. intros x X. apply E, (inside_seg A B a b); try assumption. lra. }
  unfold e in *. revert D D'. unfold Rabs. repeat destruct Rcase_abs; lra.
Qed.
Lemma integral_nonneg_seg (f : R -> R) (l a b : R) : (forall x, inside A B x -> 0 <= f x) -> (forall x, inside A B x -> continuous f x) ->
  integral A B f l -> Rbar_lt A a -> a <= b -> Rbar_lt b B -> RInt f a b <= l.
Proof.
  intros P C H Ha Lab Hb. apply Rnot_lt_le. intros N. destruct (H (RInt f a b - l) ltac:(lra)) as (a0 & b0 & I1 & I2 & L & Q).
  set (a' := Rmin a a0). set (b' := Rmax b b0).
  assert (U1 : a' <= a) by apply Rmin_l. assert (U2 : a' <= a0) by apply Rmin_r. assert (U3 : b <= b') by apply Rmax_l. assert (U4 : b0 <= b') by apply Rmax_r.
  assert (Aa : Rbar_lt A a') by (unfold a', Rmin; destruct Rle_dec; [assumption|apply I1]).
  assert (Bb : Rbar_lt b' B) by (unfold b', Rmax; destruct Rle_dec; [apply I2|assumption]).
  destruct (Q a' b' Aa ltac:(assumption) ltac:(assumption) Bb) as (v & V & D).
  assert (X1 : ex_RInt f a' a) by (apply ex_int; [lra|]; intros; apply C, (inside_seg A B a' b'); try assumption; lra).
  assert (X2 : ex_RInt f a b) by (apply ex_int; [lra|]; intros; apply C, (inside_seg A B a' b'); try assumption; lra).
  assert (X3 : ex_RInt f b b') by (apply ex_int; [lra|]; intros; apply C, (inside_seg A B a' b'); try assumption; lra).
  assert (E : v = RInt f a' a + RInt f a b + RInt f b b').
  { rewrite <- (int_unique _ _ _ _ V). apply int_unique.
    apply (is_RInt_Chasles (V := R_NormedModule) f a' b b'); [|apply int_correct, X3].
    apply (is_RInt_Chasles (V := R_NormedModule) f a' a b); apply int_correct; assumption. }
  assert (0 <= RInt f a' a) by (apply RInt_ge_0; [lra|assumption|]; intros x X; apply P, (inside_seg A B a' b'); try assumption; lra).
  assert (0 <= RInt f b b') by (apply RInt_ge_0; [lra|assumption|]; intros x X; apply P, (inside_seg A B a' b'); try assumption; lra).
  revert D. unfold Rabs. destruct Rcase_abs; lra.
Qed.
(** Existence for bounded non-negative functions. *)
Lemma integral_exists (f : R -> R) (M : R) : (exists x, inside A B x) -> (forall x, inside A B x -> 0 <= f x) -> (forall x, inside A B x -> continuous f x) ->
  (forall a b : R, Rbar_lt A a -> a <= b -> Rbar_lt b B -> RInt f a b <= M) -> exists l, integral A B f l.
Proof.
  intros [x0 X0] P C Bd.
  destruct (completeness (fun v => exists a b : R, Rbar_lt A a /\ a <= b /\ Rbar_lt b B /\ v = RInt f a b)) as [l [Ub Lub]].
  - exists M. intros v (a & b & H1 & H2 & H3 & ->). apply Bd; assumption.
  - exists (RInt f x0 x0). exists x0, x0. destruct X0. repeat split; try assumption; lra.
  - exists l. intros eps E.
    assert (N : ~ (forall v : R, (exists a b : R, Rbar_lt A a /\ a <= b /\ Rbar_lt b B /\ v = RInt f a b) -> v <= l - eps)).
    { intros K. specialize (Lub (l - eps) K). lra. }
    destruct (Classical_Pred_Type.not_all_ex_not _ _ N) as [v Nv]. apply Classical_Prop.imply_to_and in Nv.
    destruct Nv as [(a0 & b0 & H1 & H2 & H3 & ->) G]. apply Rnot_le_lt in G.
    exists a0, b0. split; [apply (inside_seg A B a0 b0); try assumption; lra|]. split; [apply (inside_seg A B a0 b0); try assumption; lra|].
    split; [exact H2|]. intros a b Ha La Lb Hb.
    assert (X1 : ex_RInt f a a0) by (apply ex_int; [lra|]; intros; apply C, (inside_seg A B a b); try assumption; lra).
    assert (X2 : ex_RInt f a0 b0) by (apply ex_int; [lra|]; intros; apply C, (inside_seg A B a b); try assumption; lra).
    assert (X3 : ex_RInt f b0 b) by (apply ex_int; [lra|]; intros; apply C, (inside_seg A B a b); try assumption; lra).
    assert (X : is_RInt f a b (RInt f a a0 + RInt f a0 b0 + RInt f b0 b)).
    { apply (is_RInt_Chasles (V := R_NormedModule) f a b0 b); [|apply int_correct, X3].
      apply (is_RInt_Chasles (V := R_NormedModule) f a a0 b0); apply int_correct; assumption. }
    assert (0 <= RInt f a a0) by (apply RInt_ge_0; [lra|assumption|]; intros x Hx; apply P, (inside_seg A B a b); try assumption; lra).
    assert (0 <= RInt f b0 b) by (apply RInt_ge_0; [lra|assumption|]; intros x Hx; apply P, (inside_seg A B a b); try assumption; lra).
    eexists. split; [exact X|].
    assert (RInt f a b <= l). { apply Ub. exists a, b. repeat split; try assumption; lra. }
    rewrite (int_unique _ _ _ _ X) in *. rewrite Rabs_left1; lra.
Qed.
Lemma integral_exists_le (f g : R -> R) (l' : R) : (exists x, inside A B x) -> (forall x, inside A B x -> 0 <= f x <= g x) ->
  (forall x, inside A B x -> continuous f x) -> (forall x, inside A B x -> continuous g x) ->
  integral A B g l' -> exists l, integral A B f l.
Proof.
  intros N P Cf Cg H. apply (integral_exists f l'); [exact N|intros; apply P; assumption|exact Cf|].
  intros a b Ha L Hb. apply Rle_trans with (RInt g a b).
  - apply RInt_le; [exact L| | |].
    + apply ex_int; [exact L|]. intros; apply Cf, (inside_seg A B a b); assumption.
    + apply ex_int; [exact L|]. intros; apply Cg, (inside_seg A B a b); assumption.
    + intros x X. apply P, (inside_seg A B a b); try assumption. lra.
  - apply integral_nonneg_seg; try assumption. intros x X. destruct (P x X). lra.
Qed.
(** Limits of a primitive at the two ends. *)
Definition lim_at_left (F : R -> R) (l : R) : Prop :=
  forall eps : R, 0 < eps -> exists a0 : R, inside A B a0 /\ forall a : R, Rbar_lt A a -> a <= a0 -> Rabs (F a - l) < eps.
Definition lim_at_right (F : R -> R) (l : R) : Prop :=
  forall eps : R, 0 < eps -> exists b0 : R, inside A B b0 /\ forall b : R, b0 <= b -> Rbar_lt b B -> Rabs (F b - l) < eps.
Lemma integral_derive (F f : R -> R) (la lb : R) : (forall x, inside A B x -> is_derive F x (f x)) -> (forall x, inside A B x -> continuous f x) ->
  lim_at_left F la -> lim_at_right F lb -> integral A B f (lb - la).
Proof.
  intros D C La Lb eps E. destruct (La (eps / 2) ltac:(lra)) as (a0 & I1 & P). destruct (Lb (eps / 2) ltac:(lra)) as (b0 & I2 & Q).
  exists (Rmin a0 b0), (Rmax a0 b0).
  assert (X1 : inside A B (Rmin a0 b0)) by (unfold Rmin; destruct Rle_dec; assumption).
  assert (X2 : inside A B (Rmax a0 b0)) by (unfold Rmax; destruct Rle_dec; assumption).
  split; [exact X1|]. split; [exact X2|].
  pose proof (Rmin_l a0 b0). pose proof (Rmin_r a0 b0). pose proof (Rmax_l a0 b0). pose proof (Rmax_r a0 b0). split; [lra|].
  intros a b Ha Ia Ib Hb. exists (F b - F a). split.
  - apply (is_RInt_derive (V := R_CompleteNormedModule) F f).
    + intros x X. apply seg in X; [|lra]. apply D, (inside_seg A B a b); assumption.
    + intros x X. apply seg in X; [|lra]. apply C, (inside_seg A B a b); assumption.
  - specialize (P a Ha ltac:(lra)). specialize (Q b ltac:(lra) Hb). revert P Q. unfold Rabs. repeat destruct Rcase_abs; lra.
Qed.
End I.
(** Substitution with an increasing change of variable. *)
Lemma integral_subst (A B C D : Rbar) (f phi dphi : R -> R) (l : R) :
  (forall x, inside C D x -> inside A B (phi x)) ->
  (forall x, inside C D x -> is_derive phi x (dphi x) /\ continuous dphi x) ->
  (forall a0 : R, inside A B a0 -> exists c0, inside C D c0 /\ forall c : R, Rbar_lt C c -> c <= c0 -> phi c <= a0) ->
  (forall b0 : R, inside A B b0 -> exists d0, inside C D d0 /\ forall d : R, d0 <= d -> Rbar_lt d D -> b0 <= phi d) ->
  (forall x, inside A B x -> continuous f x) ->
  integral A B f l -> integral C D (fun x => dphi x * f (phi x)) l.
Proof.
  intros Map Der Lo Hi Cf H eps E. destruct (H eps E) as (a0 & b0 & I1 & I2 & L & P).
  destruct (Lo a0 I1) as (c0 & K1 & Lc). destruct (Hi b0 I2) as (d0 & K2 & Ld).
  exists (Rmin c0 d0), (Rmax c0 d0).
  assert (X1 : inside C D (Rmin c0 d0)) by (unfold Rmin; destruct Rle_dec; assumption).
  assert (X2 : inside C D (Rmax c0 d0)) by (unfold Rmax; destruct Rle_dec; assumption).
  split; [exact X1|]. split; [exact X2|].
  pose proof (Rmin_l c0 d0). pose proof (Rmin_r c0 d0). pose proof (Rmax_l c0 d0). pose proof (Rmax_r c0 d0). split; [lra|].
  intros c d Hc Ic Id Hd.
  assert (Ic' : inside C D c) by (apply (inside_seg C D c d); try assumption; lra).
  assert (Id' : inside C D d) by (apply (inside_seg C D c d); try assumption; lra).
  destruct (P (phi c) (phi d) (proj1 (Map c Ic')) (Lc c Hc ltac:(lra)) (Ld d ltac:(lra) Hd) (proj2 (Map d Id'))) as (v & V & Dv).
  exists v. split; [|exact Dv].
  rewrite <- (int_unique _ _ _ _ V). apply (is_RInt_comp (V := R_CompleteNormedModule) f phi dphi c d).
  - intros x X. apply seg in X; [|lra]. apply Cf, Map, (inside_seg C D c d); assumption.
  - intros x X. apply seg in X; [|lra]. apply Der, (inside_seg C D c d); assumption.
Qed.
(** Existence from a dominating function with a bounded primitive. *)
Lemma integral_exists_primitive (A B : Rbar) (f g G : R -> R) (M : R) : (exists x, inside A B x) ->
  (forall x, inside A B x -> 0 <= f x <= g x) -> (forall x, inside A B x -> continuous f x) -> (forall x, inside A B x -> continuous g x) ->
  (forall x, inside A B x -> is_derive G x (g x)) -> (forall x, inside A B x -> 0 <= G x <= M) -> exists l, integral A B f l.
Proof.
  intros N P Cf Cg D Bd. apply (integral_exists A B f M); [exact N|intros; apply P; assumption|exact Cf|].
  intros a b Ha L Hb. apply Rle_trans with (RInt g a b).
  - apply RInt_le; [exact L| | |].
    + apply ex_int; [exact L|]. intros; apply Cf, (inside_seg A B a b); assumption.
    + apply ex_int; [exact L|]. intros; apply Cg, (inside_seg A B a b); assumption.
    + intros x X. apply P, (inside_seg A B a b); try assumption. lra.
  - assert (V : is_RInt g a b (G b - G a)).
    { apply (is_RInt_derive (V := R_CompleteNormedModule) G g).
      + intros x X. apply seg in X; [|lra]. apply D, (inside_seg A B a b); assumption.
      + intros x X. apply seg in X; [|lra]. apply Cg, (inside_seg A B a b); assumption. }
    rewrite (int_unique _ _ _ _ V).
    destruct (Bd a ltac:(apply (inside_seg A B a b); try assumption; lra)).
    destruct (Bd b ltac:(apply (inside_seg A B a b); try assumption; lra)). lra.
Qed.
(** A function continuous at the left end is integrable from that end. *)
Lemma integral_from (c : R) (f : R -> R) (l : R) : (forall x, c <= x -> continuous f x) -> integral c p_infty f l ->
  forall eps, 0 < eps -> exists b0, c <= b0 /\ forall b, b0 <= b -> Rabs (RInt f c b - l) < eps.
Proof.
  intros C H eps E. destruct (H (eps / 2) ltac:(lra)) as (a0 & b0 & [I1 _] & [I2 _] & L & P). cbn in I1, I2.
  assert (Cc : continuity_pt f c). { apply continuity_pt_filterlim. apply (C c). lra. }
  destruct (Cc 1 Rlt_0_1) as (d & Dpos & Dc).
  set (M := Rabs (f c) + 1). assert (Mpos : 0 < M) by (unfold M; pose proof (Rabs_pos (f c)); lra).
  exists b0. split; [lra|]. intros b Lb.
  set (h := Rmin (Rmin (d / 2) (a0 - c)) (eps / (4 * M))).
  assert (E4 : 0 < eps / (4 * M)) by (apply Rdiv_lt_0_compat; lra).
  assert (Hh : 0 < h) by (unfold h; repeat apply Rmin_glb_lt; lra).
  assert (h1 : h <= d / 2) by (unfold h; eapply Rle_trans; [apply Rmin_l|apply Rmin_l]).
  assert (h2 : h <= a0 - c) by (unfold h; eapply Rle_trans; [apply Rmin_l|apply Rmin_r]).
  assert (h3 : h <= eps / (4 * M)) by (unfold h; apply Rmin_r).
  destruct (P (c + h) b) as (v & V & Dv); [cbn; lra|lra|exact Lb|exact Logic.I|].
  assert (X : ex_RInt f c (c + h)) by (apply ex_int; [lra|]; intros; apply C; lra).
  assert (W : is_RInt f c b (RInt f c (c + h) + v)) by (apply (is_RInt_Chasles (V := R_NormedModule) f c (c + h) b); [apply int_correct, X|exact V]).
  rewrite (int_unique _ _ _ _ W).
  assert (Bn : Rabs (RInt f c (c + h)) <= (c + h - c) * M).
  { apply abs_RInt_le_const; [lra|exact X|]. intros t Ht. destruct (Req_dec t c) as [->|Nt]; [unfold M; lra|].
    specialize (Dc t). unfold R_dist, D_x, no_cond in Dc.
    assert (Q : Rabs (f t - f c) < 1). { apply Dc. split; [split; [exact Logic.I|congruence]|]. unfold dist; cbn. unfold R_dist. rewrite Rabs_right; lra. }
    unfold M. revert Q. unfold Rabs. repeat destruct Rcase_abs; lra. }
  assert (h * M <= eps / 4). { apply Rle_trans with (eps / (4 * M) * M); [apply Rmult_le_compat_r; lra|]. right. field. lra. }
  revert Bn Dv. replace (c + h - c) with h by ring. unfold Rabs. repeat destruct Rcase_abs; lra.
Qed.
Lemma integral_even (f : R -> R) (l : R) : (forall x, continuous f x) -> (forall x, f (- x) = f x) ->
  integral 0 p_infty f l -> integral m_infty p_infty f (2 * l).
Proof.
  intros C Ev H eps E. destruct (integral_from 0 f l (fun x _ => C x) H (eps / 2) ltac:(lra)) as (b0 & B0 & P).
  exists (- b0), b0. split; [split; exact Logic.I|]. split; [split; exact Logic.I|]. split; [lra|].
  intros a b _ La Lb _. assert (Xa : ex_RInt f 0 (- a)) by (apply ex_int; [lra|intros; apply C]).
  assert (Xb : ex_RInt f 0 b) by (apply ex_int; [lra|intros; apply C]).
  assert (W : is_RInt f a 0 (RInt f 0 (- a))).
  { apply (is_RInt_ext (V := R_NormedModule) (fun y => opp (opp (f (- y))))).
    - intros x _. cbn. rewrite Ev. unfold opp; cbn. ring.
    - rewrite <- (opp_opp (RInt f 0 (- a))). apply (is_RInt_opp (V := R_NormedModule)).
      apply (is_RInt_swap (V := R_NormedModule)). rewrite opp_opp || idtac.
      apply (is_RInt_comp_opp (V := R_NormedModule)). rewrite Ropp_0. apply int_correct, Xa. }
  exists (RInt f 0 (- a) + RInt f 0 b). split; [apply (is_RInt_Chasles (V := R_NormedModule) f a 0 b); [exact W|apply int_correct, Xb]|].
  pose proof (P (- a) ltac:(lra)) as Q1. pose proof (P b Lb) as Q2. revert Q1 Q2. unfold Rabs. repeat destruct Rcase_abs; lra.
Qed.
Lemma integral_odd (f : R -> R) (l : R) : (forall x, continuous f x) -> (forall x, f (- x) = - f x) ->
  integral 0 p_infty f l -> integral m_infty p_infty f 0.
Proof.
  intros C Od H eps E. destruct (integral_from 0 f l (fun x _ => C x) H (eps / 2) ltac:(lra)) as (b0 & B0 & P).
  exists (- b0), b0. split; [split; exact Logic.I|]. split; [split; exact Logic.I|]. split; [lra|].
  intros a b _ La Lb _. assert (Xa : ex_RInt f 0 (- a)) by (apply ex_int; [lra|intros; apply C]).
  assert (Xb : ex_RInt f 0 b) by (apply ex_int; [lra|intros; apply C]).
  assert (W : is_RInt f a 0 (- RInt f 0 (- a))).
  { apply (is_RInt_ext (V := R_NormedModule) (fun y => opp (f (- y)))).
    - intros x _. cbn. rewrite Od. unfold opp; cbn. ring.
    - apply (is_RInt_swap (V := R_NormedModule)). 
      apply (is_RInt_comp_opp (V := R_NormedModule)). rewrite Ropp_0. apply int_correct, Xa. }
  exists (- RInt f 0 (- a) + RInt f 0 b). split; [apply (is_RInt_Chasles (V := R_NormedModule) f a 0 b); [exact W|apply int_correct, Xb]|].
  pose proof (P (- a) ltac:(lra)) as Q1. pose proof (P b Lb) as Q2. revert Q1 Q2. unfold Rabs. repeat destruct Rcase_abs; lra.
Qed.
(** Affine changes of variable. *)
Lemma integral_scale (f : R -> R) (l c : R) : 0 < c -> (forall x, 0 < x -> continuous f x) ->
  integral 0 p_infty f l -> integral 0 p_infty (fun x => c * f (c * x)) l.
Proof.
  intros Hc C H. apply (integral_subst 0 p_infty 0 p_infty f (fun x => c * x) (fun _ => c) l); [| | | | |exact H].
  - intros x [X _]. cbn in *. split; [|exact Logic.I]. cbn. apply Rmult_lt_0_compat; assumption.
  - intros x _. split; [auto_derive; [exact Logic.I|ring]|apply continuous_const].
  - intros a0 [X _]. cbn in X. exists (a0 / c). split; [split; [cbn; apply Rdiv_lt_0_compat; assumption|exact Logic.I]|].
    intros y _ Hy. replace a0 with (c * (a0 / c)) by (field; lra). apply Rmult_le_compat_l; lra.
  - intros a0 [X _]. cbn in X. exists (a0 / c). split; [split; [cbn; apply Rdiv_lt_0_compat; assumption|exact Logic.I]|].
    intros y Hy _. replace a0 with (c * (a0 / c)) by (field; lra). apply Rmult_le_compat_l; lra.
  - intros x [X _]. cbn in X. apply C, X.
Qed.
Lemma integral_affine (f : R -> R) (l mu s : R) : 0 < s -> (forall x, continuous f x) ->
  integral m_infty p_infty f l -> integral m_infty p_infty (fun x => / s * f ((x - mu) / s)) l.
Proof.
  intros Hs C H. apply (integral_subst m_infty p_infty m_infty p_infty f (fun x => (x - mu) / s) (fun _ => / s) l); [| | | | |exact H].
  - intros x _. split; exact Logic.I.
  - intros x _. split; [auto_derive; [exact Logic.I|field; lra]|apply continuous_const].
  - intros a0 _. exists (mu + s * a0). split; [split; exact Logic.I|]. intros y _ Hy.
    apply (Rmult_le_reg_l s); [exact Hs|]. replace (s * ((y - mu) / s)) with (y - mu) by (field; lra). lra.
  - intros a0 _. exists (mu + s * a0). split; [split; exact Logic.I|]. intros y Hy _.
    apply (Rmult_le_reg_l s); [exact Hs|]. replace (s * ((y - mu) / s)) with (y - mu) by (field; lra). lra.
  - intros x _. apply C.
Qed.
