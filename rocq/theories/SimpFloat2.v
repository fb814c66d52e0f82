(** More for C58: the hypotheses hold of a correctly rounded library, and the
    cancelled logarithm. *)
From Coq Require Import ZArith Reals Bool String List Lia Lra.
From Coq Require Import Floats.SpecFloat.
From Flocq Require Import Core IEEE754.BinarySingleNaN.
From Verif Require Import Num FloatFacts ExprModel ExprSpec ExprSimplify EggSpec LitFacts FloatErr AccProofs DensitySpec AccSpec RoundSpec RoundProofs DistFloat SimpFloatSpec SimpFloat.
Import ListNotations.
Local Open Scope R_scope.

Lemma nearest_num w x : is_num w -> x = val w -> is_num (nearest x) /\ val (nearest x) = val w.
Proof.
  intros N ->. pose proof (num_fits w N) as T. destruct (nearest_ok _ T) as [M V]. split; [exact M|]. rewrite V. apply num_RN, N.
Qed.
Lemma nearest_Z z x : (Z.abs z <= 2 ^ 53)%Z -> x = IZR z -> is_num (nearest x) /\ val (nearest x) = IZR z.
Proof.
  intros Z ->. destruct (num_int z Z) as [N V]. destruct (nearest_num _ (IZR z) N (eq_sym V)) as [M W]. split; [exact M|]. rewrite W. exact V.
Qed.
Lemma Int_part_0 : Int_part 0 = 0%Z. Proof. exact (Int_part_INR 0). Qed.
Lemma Int_part_1 : Int_part 1 = 1%Z. Proof. exact (Int_part_INR 1). Qed.
Lemma power_fun_0 a : power_fun a 0 = 1.
Proof.
  unfold power_fun. destruct (Rlt_dec 0 a); [apply Rpower_O; assumption|]. rewrite Int_part_0. cbn. destruct (Req_EM_T 0 0); [reflexivity|lra].
Qed.
Lemma power_fun_1 a : power_fun a 1 = a.
Proof.
  unfold power_fun. destruct (Rlt_dec 0 a); [apply Rpower_1; assumption|]. rewrite Int_part_1. change (Z.to_nat 1) with 1%nat. rewrite pow_1. change (INR 1) with 1. destruct (Req_EM_T 1 1); [reflexivity|lra].
Qed.
Lemma rounded_annex lg : annex_f (rounded_libm lg).
Proof.
  split; cbn [rounded_libm l_exp l_sin l_cos l_pow].
  - intros x _ ->. apply (nearest_Z 1); [cbn; lia|apply exp_0].
  - intros x _ ->. apply (nearest_Z 0); [cbn; lia|apply sin_0].
  - intros x _ ->. apply (nearest_Z 1); [cbn; lia|apply cos_0].
  - intros x y _ _ ->. apply (nearest_Z 1); [cbn; lia|apply power_fun_0].
  - intros x y N _ ->. apply nearest_num; [exact N|apply power_fun_1].
  - intros x y _ _ ->. apply (nearest_Z 1); [cbn; lia|]. unfold power_fun. destruct (Rlt_dec 0 1); [|lra].
    unfold Rpower. rewrite ln_1, Rmult_0_r. apply exp_0.
  - intros x x' y _ _ _ -> -> N. auto.
Qed.

(** No binary64 number other than 1 is closer to 1 than 2^-53. *)
Lemma near_one v : is_num v -> val v = 1 \/ bpow radix2 (-53) <= Rabs (val v - 1).
Proof.
  intros [V _]. assert (G : generic_format radix2 (FLT_exp (-1074) 53) (val v)).
  { pose proof (RN_val v V) as E. rewrite <- E. apply generic_format_round; [apply FLT_exp_valid; reflexivity|apply valid_rnd_N]. }
  assert (G1 : generic_format radix2 (FLT_exp (-1074) 53) 1).
  { change 1 with (bpow radix2 0). apply generic_format_bpow. unfold FLT_exp. cbn. lia. }
  pose proof (FLT_exp_valid (-1074) 53 (prec_gt_0_ := eq_refl)) as VE.
  assert (P : 0 < bpow radix2 (-53)) by apply bpow_gt_0.
  assert (D : bpow radix2 (-52) = 2 * bpow radix2 (-53)).
  { change (-52)%Z with (1 + -53)%Z. rewrite bpow_plus. reflexivity. }
  destruct (Rtotal_order (val v) 1) as [H|[H|H]]; [right|left; exact H|right].
  - apply (pred_ge_gt radix2 (FLT_exp (-1074) 53)) in H; [|exact G|exact G1].
    change 1 with (bpow radix2 0) in H at 1. rewrite pred_bpow in H. change (FLT_exp (-1074) 53 0) with (-53)%Z in H. change (bpow radix2 0) with 1 in H.
    rewrite Rabs_left1 by lra. lra.
  - apply (succ_le_lt radix2 (FLT_exp (-1074) 53)) in H; [|exact G1|exact G].
    rewrite succ_eq_pos in H by lra. change 1 with (bpow radix2 0) in H at 2. rewrite ulp_bpow in H. change (FLT_exp (-1074) 53 (0 + 1)) with (-52)%Z in H.
    rewrite Rabs_pos_eq by lra. lra.
Qed.

Lemma eps_bpow : eps = bpow radix2 (-52).
Proof. unfold eps. change (bpow radix2 (-52)) with (/ IZR (2 ^ 52)). rewrite pow_IZR. reflexivity. Qed.

(** 2^-60 *)
Definition tiny_x : f64 := f64_dec 1 (2 ^ 60).
Lemma tiny_num : is_num tiny_x /\ val tiny_x = bpow radix2 (-60).
Proof.
  replace tiny_x with (S754_finite false 4503599627370496 (-112)) by (vm_compute; reflexivity).
  split; [split; reflexivity|]. unfold val, SF2R, F2R. cbn [Fnum Fexp cond_Zopp]. change 4503599627370496%Z with (radix2 ^ 52)%Z.
  rewrite IZR_Zpower by lia. rewrite <- bpow_plus. reflexivity.
Qed.

Lemma ln_far u : 0 < u -> bpow radix2 (-53) <= Rabs (u - 1) -> bpow radix2 (-54) <= Rabs (ln u).
Proof.
  intros P H. assert (T : 0 < bpow radix2 (-54)) by apply bpow_gt_0. assert (T2 : bpow radix2 (-53) = 2 * bpow radix2 (-54)).
  { change (-53)%Z with (1 + -54)%Z. rewrite bpow_plus. reflexivity. }
  assert (T3 : bpow radix2 (-54) <= / 4) by (change (/ 4) with (bpow radix2 (-2)); apply bpow_le; lia).
  set (t := bpow radix2 (-54)) in *. clearbody t. rewrite T2 in H.
  assert (E1 : exp t <= 1 + 2 * t).
  { pose proof (exp_ineq1_le (- t)) as Q. rewrite exp_Ropp in Q. pose proof (exp_pos t) as EP. apply Rmult_le_reg_l with (1 - t); [lra|].
    apply Rle_trans with 1; [|nra]. apply Rmult_le_reg_r with (/ exp t); [apply Rinv_0_lt_compat, EP|]. rewrite Rmult_assoc, Rinv_r by lra. lra. }
  assert (E2 : 1 - 2 * t <= exp (- t)) by (pose proof (exp_ineq1_le (- t)); lra).
  unfold Rabs in *. destruct (Rcase_abs (u - 1)) as [C|C].
  - assert (K : u <= exp (- t)) by lra. assert (L : ln u <= - t).
    { rewrite <- (ln_exp (- t)). destruct K as [K|K]; [left; apply ln_increasing; assumption|right; rewrite K; reflexivity]. }
    destruct (Rcase_abs (ln u)); lra.
  - assert (K : exp t <= u) by lra. assert (L : t <= ln u).
    { rewrite <- (ln_exp t). destruct K as [K|K]; [left; apply ln_increasing; [apply exp_pos|assumption]|right; rewrite K; reflexivity]. }
    destruct (Rcase_abs (ln u)); lra.
Qed.

Lemma ln_exp_loses c lg L : libm_ok c lg L -> 0 <= c <= 1000 ->
  exists w, @evaluate (F64 L) [("x"%string, tiny_x)] (Ln (Exp (Var "x"))) = Ok w /\ is_num w /\ val w <> val tiny_x.
Proof.
  intros K C. destruct tiny_num as [NX VX]. destruct (num_int 0 ltac:(cbn; lia)) as [N0 V0].
  assert (XS : 0 < val tiny_x <= / 4).
  { rewrite VX. split; [apply bpow_gt_0|]. change (/ 4) with (bpow radix2 (-2)). apply bpow_le. lia. }
  assert (SM : 0 < small <= / 1000 * bpow radix2 (-60)).
  { unfold small. split; [apply bpow_gt_0|]. apply Rle_trans with (bpow radix2 (-10) * bpow radix2 (-60)); [rewrite <- bpow_plus; apply bpow_le; lia|].
    apply Rmult_le_compat_r; [apply bpow_ge_0|]. change (bpow radix2 (-10)) with (/ 1024). lra. }
  assert (EP : 0 < eps <= / 1000 * / 1000 * / 100).
  { rewrite eps_bpow. split; [apply bpow_gt_0|]. apply Rle_trans with (bpow radix2 (-30)); [apply bpow_le; lia|]. change (bpow radix2 (-30)) with (/ 1073741824). lra. }
  destruct (ok_exp _ _ _ K tiny_x NX ltac:(lra)) as [NU EU]. set (u := l_exp L tiny_x) in *.
  assert (X1 : 1 <= exp (val tiny_x) <= 2).
  { split; [pose proof (exp_ineq1_le (val tiny_x)); lra|]. apply Rle_trans with (exp (/ 4)); [destruct (Req_dec (val tiny_x) (/ 4)) as [-> |]; [lra|left; apply exp_increasing; lra]|].
    apply Rle_trans with (exp (/ 2)); [left; apply exp_increasing; lra|]. pose proof (exp_ineq1_le (- / 2)) as Q. rewrite exp_Ropp in Q. pose proof (exp_pos (/ 2)).
    apply Rmult_le_reg_r with (/ exp (/ 2)); [apply Rinv_0_lt_compat; assumption|]. rewrite Rinv_r by lra. lra. }
  assert (T60 : 0 < bpow radix2 (-60)) by apply bpow_gt_0.
  assert (T60' : bpow radix2 (-54) = 64 * bpow radix2 (-60)).
  { change (-54)%Z with (6 + -60)%Z. rewrite bpow_plus. reflexivity. }
  assert (T1 : bpow radix2 (-60) <= / 4) by (change (/ 4) with (bpow radix2 (-2)); apply bpow_le; lia).
  assert (CE : 0 <= c * eps <= / 100000) by (split; [apply Rmult_le_pos; lra|nra]).
  assert (UP : 0 < val u).
  { assert (c * eps * (exp (val tiny_x) + small) <= / 100000 * 3) by (apply Rmult_le_compat; lra).
    unfold Rabs in EU. destruct (Rcase_abs (val u - exp (val tiny_x))); lra. }
  destruct (ok_ln _ _ _ K u NU UP) as [NW EW]. set (w := l_ln L u) in *.
  exists w. split.
  - assert (Q : SFleb u (f64_of_Z 0) = false) by (rewrite (SFleb_num _ _ NU N0), V0; apply Rle_bool_false, UP).
    transitivity (if SFleb u (f64_of_Z 0) then Err (InvalidLogarithm (u : F64 L)) else Ok (w : F64 L)); [reflexivity|]. rewrite Q. reflexivity.
  - split; [exact NW|]. rewrite VX. destruct (near_one u NU) as [E|E].
    + rewrite E, ln_1, Rabs_R0, Rminus_0_r, Rplus_0_l in EW. intros Q. rewrite Q, Rabs_pos_eq in EW by lra. nra.
    + pose proof (ln_far _ UP E) as F. intros Q. rewrite Q in EW. rewrite T60' in F. set (l := ln (val u)) in *. clearbody l. clearbody u w.
      assert (Rabs l <= bpow radix2 (-60) + c * eps * (Rabs l + small)).
      { apply Rle_trans with (Rabs (bpow radix2 (-60)) + Rabs (bpow radix2 (-60) - l)).
        - replace l with (bpow radix2 (-60) - (bpow radix2 (-60) - l)) at 1 by ring. unfold Rminus at 1. eapply Rle_trans; [apply Rabs_triang|]. rewrite Rabs_Ropp. lra.
        - rewrite (Rabs_pos_eq (bpow radix2 (-60))) by lra. lra. }
      nra.
Qed.

(** ** The syntactic condition *)
Section Calm.
Context {L : libm}.
Let F := F64 L.
Notation expr := (expr F).
Fixpoint no_pow (e : expr) : bool :=
  match e with
  | Const _ | Var _ => true
  | Add l r | Sub l r | Mul l r | Div l r => no_pow l && no_pow r
  | Pow _ _ => false
  | Ln a | Exp a | Sqrt a | Sin a | Cos a | Neg a => no_pow a
  end.
Ltac bools := repeat match goal with H : _ && _ = true |- _ => apply andb_true_iff in H as [? ?] | |- _ && _ = true => apply andb_true_iff; split end.
Ltac cases := repeat match goal with |- context [if ?b then _ else _] => destruct b end.

Lemma const_ne (c : F) (r : expr) : (exists d, r = Const d) \/ (expr_eqb (Const c : expr) r = false /\ expr_eqb r (Const c : expr) = false).
Proof. destruct r; try (right; split; reflexivity). left. eauto. Qed.

Lemma calm_mul (l r : expr) : calm (Mul l r) = true -> calm l = true /\ calm r = true /\
  ((exists c, l = Const c) \/ (exists c, r = Const c)).
Proof.
  intros H. destruct l; try (split; [reflexivity|split; [exact H|left; eauto]]; fail);
    (destruct r; try discriminate H; (split; [exact H|split; [reflexivity|right; eauto]])).
Qed.
Lemma mul_shape (l r : expr) : (exists c, l = Const c) \/ (exists c, r = Const c) ->
  expr_eqb (simplify l) (simplify r) = false \/ exists c d, simplify l = Const c /\ simplify r = Const d.
Proof.
  intros [(c & ->)|(c & ->)]; change (simplify (Const c : expr)) with (Const c : expr).
  - destruct (const_ne c (simplify r)) as [(d & E)|[E _]]; [right; eauto|left; exact E].
  - destruct (const_ne c (simplify l)) as [(d & E)|[_ E]]; [right; eauto|left; exact E].
Qed.

Lemma np_bin (l r : expr) : no_pow l = true -> no_pow r = true ->
  no_pow (simp_add l r) = true /\ no_pow (simp_sub l r) = true /\ no_pow (simp_div l r) = true /\
  (expr_eqb l r = false \/ (exists c d, l = Const c /\ r = Const d) -> no_pow (simp_mul l r) = true).
Proof.
  intros A B. split; [|split; [|split]].
  - destruct l; destruct r; unfold simp_add; cases; cbn [no_pow] in *; rewrite ?A, ?B; reflexivity || assumption.
  - destruct l; destruct r; unfold simp_sub; cases; cbn [no_pow] in *; rewrite ?A, ?B; reflexivity || assumption.
  - destruct l; destruct r; unfold simp_div; cases; cbn [no_pow] in *; rewrite ?A, ?B; reflexivity || assumption.
  - intros [E|(c & d & -> & ->)]; [|reflexivity].
    destruct l; destruct r; unfold simp_mul; rewrite ?E; cases; cbn [no_pow] in *; rewrite ?A, ?B; reflexivity || assumption.
Qed.
Lemma nl_bin (l r : expr) : no_ln_exp l = true -> no_ln_exp r = true ->
  no_ln_exp (simp_add l r) = true /\ no_ln_exp (simp_sub l r) = true /\ no_ln_exp (simp_div l r) = true /\ no_ln_exp (simp_mul l r) = true.
Proof.
  intros A B. split; [|split; [|split]].
  - destruct l; destruct r; unfold simp_add; cases; cbn [no_ln_exp] in *; rewrite ?A, ?B; reflexivity || assumption.
  - destruct l; destruct r; unfold simp_sub; cases; cbn [no_ln_exp] in *; rewrite ?A, ?B; reflexivity || assumption.
  - destruct l; destruct r; unfold simp_div; cases; cbn [no_ln_exp] in *; rewrite ?A, ?B; reflexivity || assumption.
  - destruct l; destruct r; unfold simp_mul; cases; cbn [no_ln_exp] in *; rewrite ?A, ?B; reflexivity || assumption.
Qed.
Lemma nl_exp (e : expr) : no_ln_exp e = true -> match e with Ln _ | Mul _ (Ln _) | Exp _ => False | _ => True end.
Proof.
  destruct e as [| | | |a b| | | | | | | |]; cbn [no_ln_exp]; intros H; try exact I; try discriminate H.
  destruct b; try exact I. rewrite andb_false_r in H. discriminate H.
Qed.

Lemma kr_ln (b : expr) : no_pow b = true -> match b with Ln _ | Mul _ (Ln _) | Exp _ => False | _ => True end -> match b with Exp _ | Pow _ _ => False | _ => True end.
Proof. destruct b; cbn; try discriminate; tauto. Qed.
Lemma kr_exp (b : expr) : match b with Ln _ | Mul _ (Ln _) | Exp _ => False | _ => True end -> match b with Ln _ | Mul _ (Ln _) => False | _ => True end.
Proof. destruct b; try tauto. Qed.
Lemma kr_pow (b : expr) : no_pow b = true -> match b with Pow _ _ => False | _ => True end.
Proof. destruct b; cbn; try discriminate; tauto. Qed.

Lemma calm_shape (e : expr) : calm e = true ->
  no_pow (simplify e) = true /\ (no_ln_exp e = true -> no_ln_exp (simplify e) = true) /\
  forall s, In s (subexprs e) -> keeps_rounding s.
Proof.
  induction e as [c|x|l IHl r IHr|l IHl r IHr|l IHl r IHr|l IHl r IHr|l IHl r IHr|a IHa|a IHa|a IHa|a IHa|a IHa|a IHa]; intros C.
  - split; [reflexivity|]. split; [auto|]. intros s [<-|[]]. exact I.
  - split; [reflexivity|]. split; [auto|]. intros s [<-|[]]. exact I.
  - cbn [calm] in C. bools. destruct (IHl ltac:(assumption)) as (P1 & N1 & K1), (IHr ltac:(assumption)) as (P2 & N2 & K2). rewrite simplify_add.
    split; [apply np_bin; assumption|]. split; [cbn [no_ln_exp]; intros Q; bools; apply nl_bin; auto|].
    intros s [<-|S]; [exact I|]. apply in_app_or in S as [S|S]; auto.
  - cbn [calm] in C. bools. destruct (IHl ltac:(assumption)) as (P1 & N1 & K1), (IHr ltac:(assumption)) as (P2 & N2 & K2). rewrite simplify_sub.
    split; [apply np_bin; assumption|]. split; [cbn [no_ln_exp]; intros Q; bools; apply nl_bin; auto|].
    intros s [<-|S]; [exact I|]. apply in_app_or in S as [S|S]; auto.
  - destruct (calm_mul _ _ C) as (C1 & C2 & S). destruct (IHl C1) as (P1 & N1 & K1), (IHr C2) as (P2 & N2 & K2). rewrite simplify_mul.
    split; [apply np_bin; auto using mul_shape|]. split; [cbn [no_ln_exp]; intros Q; bools; apply nl_bin; auto|].
    intros s [<-|T]; [exact (mul_shape l r S)|]. apply in_app_or in T as [T|T]; auto.
  - cbn [calm] in C. bools. destruct (IHl ltac:(assumption)) as (P1 & N1 & K1), (IHr ltac:(assumption)) as (P2 & N2 & K2). rewrite simplify_div.
    split; [apply np_bin; assumption|]. split; [cbn [no_ln_exp]; intros Q; bools; apply nl_bin; auto|].
    intros s [<-|S]; [exact I|]. apply in_app_or in S as [S|S]; auto.
  - discriminate C.
  - cbn [calm] in C. bools. destruct (IHa ltac:(assumption)) as (P & N & K). rewrite simplify_ln. specialize (N ltac:(assumption)). pose proof (nl_exp _ N) as S.
    split; [|split; [discriminate|intros s [<-|T]; [|auto]]].
    + destruct (simplify a); try discriminate P; try exact P; try contradiction; cbn [simp_ln]; cases; reflexivity.
    + exact (kr_ln _ P S).
  - cbn [calm] in C. bools. destruct (IHa ltac:(assumption)) as (P & N & K). rewrite simplify_exp. specialize (N ltac:(assumption)). pose proof (nl_exp _ N) as S.
    split; [|split; [discriminate|intros s [<-|T]; [|auto]]].
    + destruct (simplify a) as [| | | |u v| | | | | | | |]; try exact P; try contradiction; cbn [simp_exp]; cases; try reflexivity. destruct v; try exact P; contradiction.
    + exact (kr_exp _ S).
  - cbn [calm] in C. destruct (IHa C) as (P & N & K). rewrite simplify_sqrt. split; [|split; [|intros s [<-|T]; [|auto]]].
    + destruct (simplify a); try exact P; try discriminate P; cbn [simp_sqrt]; cases; reflexivity.
    + cbn [no_ln_exp]. intros Q. specialize (N Q). destruct (simplify a); try exact N; try discriminate P; cbn [simp_sqrt]; cases; reflexivity.
    + exact (kr_pow _ P).
  - cbn [calm] in C. destruct (IHa C) as (P & N & K). rewrite simplify_sin. split; [|split; [|intros s [<-|T]; [exact I|auto]]].
    + destruct (simplify a); try exact P; cbn [simp_sin]; cases; reflexivity.
    + cbn [no_ln_exp]. intros Q. specialize (N Q). destruct (simplify a); try exact N; cbn [simp_sin]; cases; reflexivity.
  - cbn [calm] in C. destruct (IHa C) as (P & N & K). rewrite simplify_cos. split; [|split; [|intros s [<-|T]; [exact I|auto]]].
    + destruct (simplify a); try exact P; cbn [simp_cos]; cases; reflexivity.
    + cbn [no_ln_exp]. intros Q. specialize (N Q). destruct (simplify a); try exact N; cbn [simp_cos]; cases; reflexivity.
  - cbn [calm] in C. destruct (IHa C) as (P & N & K). rewrite simplify_neg. split; [|split; [|intros s [<-|T]; [exact I|auto]]].
    + destruct (simplify a); try exact P; reflexivity.
    + cbn [no_ln_exp]. intros Q. specialize (N Q). destruct (simplify a); try exact N; reflexivity.
Qed.
End Calm.
