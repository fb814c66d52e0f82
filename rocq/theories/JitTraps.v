(** When compiled code traps, and what its operators do outside the ranges
    where they approximate the functions they stand for (C71). *)
From Coq Require Import ZArith Reals Bool List Lia Lra String.
From Coq Require Import Floats.SpecFloat.
From Flocq Require Import Core IEEE754.BinarySingleNaN.
From Verif Require Import Num ConvModel FloatFacts ConvProofs ExprModel JitModel JitSpec EggSpec LitFacts FloatErr JitBits JitAcc JitAcc2 TrapSpec.
Import ListNotations.
Local Open Scope R_scope.

#[local] Instance Hprec64 : FLX.Prec_gt_0 53 := eq_refl _.
#[local] Instance Hmax64 : Prec_lt_emax 53 1024 := eq_refl _.

(** * Traps of whole expressions *)

Lemma pow_const rho b c v : jit_value rho b = Some v ->
  jit_value rho (Pow b (Const c)) = if special_exponent c then jit_value rho (Pow b (Const c)) else jit_powf v c.
Proof.
  intros B. destruct (special_exponent c) eqn:S; [reflexivity|]. cbn [jit_value]. rewrite B. cbn [obnd]. unfold special_exponent in S.
  cbn [existsb] in S. repeat (apply orb_false_elim in S; destruct S as [? S]).
  repeat match goal with H : SFeqb c ?k = false |- _ => rewrite H; clear H end. reflexivity.
Qed.
Lemma pow_special rho b c v : special_exponent c = true -> jit_value rho b = Some v -> jit_value rho (Pow b (Const c)) <> None.
Proof.
  intros S B. cbn [jit_value]. rewrite B. cbn [obnd]. unfold special_exponent in S. cbn [existsb] in S.
  destruct (SFeqb c (f64_of_Z 2)); [discriminate|]. destruct (SFeqb c (f64_of_Z 3)); [discriminate|].
  destruct (SFeqb c (f64_of_Z 4)); [discriminate|]. destruct (SFeqb c (f64_lit 5 10)); [discriminate|].
  destruct (SFeqb c (f64_of_Z 1)); [discriminate|]. destruct (SFeqb c (S754_zero false)); [discriminate|]. discriminate S.
Qed.
Lemma pow_other rho b p x y : expanded p = false -> jit_value rho b = Some x -> jit_value rho p = Some y ->
  jit_value rho (Pow b p) = jit_powf x y.
Proof.
  intros S B P. destruct p as [c| | | | | | | | | | | | ]; try (cbn [jit_value] in *; rewrite B, ?P; cbn [obnd]; try rewrite P; reflexivity).
  cbn [expanded] in S. rewrite (pow_const rho b c x B), S. cbn [jit_value] in P. injection P as <-. reflexivity.
Qed.
Lemma pow_none_l rho b p : jit_value rho b = None -> jit_value rho (Pow b p) = None.
Proof. intros B. destruct p; cbn [jit_value]; rewrite B; reflexivity. Qed.
Lemma pow_none_r rho b p : jit_value rho p = None -> jit_value rho (Pow b p) = None.
Proof.
  intros P. destruct p; try (cbn [jit_value] in P |- *; rewrite P; destruct (jit_value rho b); reflexivity).
  discriminate P.
Qed.

(** The trapping steps of an expression. *)
Definition trapping_step (rho : string -> f64) (e : expr f64) : Prop :=
  (exists a v, part_of (Exp a) e /\ jit_value rho a = Some v /\ jit_exp v = None) \/
  (exists b p x y, part_of (Pow b p) e /\ expanded p = false /\ jit_value rho b = Some x /\ jit_value rho p = Some y /\
     jit_powf x y = None).

Lemma step_in rho a e : (forall t, part_of t a -> part_of t e) -> trapping_step rho a -> trapping_step rho e.
Proof.
  intros I [(c & v & P & H)|(b & p & x & y & P & H)]; [left; exists c, v|right; exists b, p, x, y]; (split; [apply I, P|exact H]).
Qed.
Lemma none_part rho a e : part_of a e -> jit_value rho a = None -> jit_value rho e = None.
Proof.
  intros P N.
  induction P; try exact N;
    try (cbn [jit_value]; rewrite IHP; try destruct (jit_value rho l); reflexivity).
  - apply pow_none_l, IHP.
  - apply pow_none_r, IHP.
Qed.

Ltac bin_case IHl IHr cl cr H :=
  cbn [jit_value] in H;
  match type of H with context [obnd (jit_value ?rho ?l) _] =>
    destruct (jit_value rho l) as [v|] eqn:V;
    [cbn [obnd] in H; match type of H with context [obnd (jit_value ?rho ?r) _] =>
       destruct (jit_value rho r) as [w|] eqn:W; [discriminate H|refine (step_in rho r _ _ (IHr eq_refl)); intros t T; apply cr, T] end
    |refine (step_in rho l _ _ (IHl eq_refl)); intros t T; apply cl, T] end.
Ltac un_case IH c H :=
  cbn [jit_value] in H;
  match type of H with context [obnd (jit_value ?rho ?a) _] =>
    destruct (jit_value rho a) as [v|] eqn:V;
    [discriminate H|refine (step_in rho a _ _ (IH eq_refl)); intros t T; apply c, T] end.
Theorem traps_iff rho e : jit_value rho e = None <-> trapping_step rho e.
Proof.
  split.
  - induction e as [c|x|l IHl r IHr|l IHl r IHr|l IHl r IHr|l IHl r IHr|l IHl r IHr|a IH|a IH|a IH|a IH|a IH|a IH]; intros H;
      try discriminate H.
    + bin_case IHl IHr (@Part_add_l f64) (@Part_add_r f64) H.
    + bin_case IHl IHr (@Part_sub_l f64) (@Part_sub_r f64) H.
    + bin_case IHl IHr (@Part_mul_l f64) (@Part_mul_r f64) H.
    + bin_case IHl IHr (@Part_div_l f64) (@Part_div_r f64) H.
    + destruct (jit_value rho l) as [x|] eqn:X.
      2:{ refine (step_in rho l _ _ (IHl eq_refl)). intros t T. apply Part_pow_l, T. }
      destruct (jit_value rho r) as [y|] eqn:Y.
      2:{ refine (step_in rho r _ _ (IHr eq_refl)). intros t T. apply Part_pow_r, T. }
      destruct (expanded r) eqn:S.
      { destruct r as [c| | | | | | | | | | | | ]; try discriminate S. destruct (pow_special rho l c x S X H). }
      rewrite (pow_other rho l r x y S X Y) in H. right. exists l, r, x, y. repeat split; try assumption. apply Part_self.
    + un_case IH (@Part_ln f64) H.
    + cbn [jit_value] in H. destruct (jit_value rho a) as [v|] eqn:V.
      * left. exists a, v. repeat split; try assumption. apply Part_self.
      * refine (step_in rho a _ _ (IH eq_refl)). intros t T. apply Part_exp, T.
    + un_case IH (@Part_sqrt f64) H.
    + un_case IH (@Part_sin f64) H.
    + un_case IH (@Part_cos f64) H.
    + un_case IH (@Part_neg f64) H.
  - intros [(a & v & P & V & T)|(b & p & x & y & P & S & X & Y & T)]; apply (none_part rho _ e P).
    + cbn [jit_value]. rewrite V. exact T.
    + rewrite (pow_other rho b p x y S X Y). exact T.
Qed.
Theorem no_exponential_returns rho e : no_exponential e -> exists v, jit_value rho e = Some v.
Proof.
  intros N. destruct (jit_value rho e) as [v|] eqn:V; [exists v; reflexivity|]. exfalso. apply traps_iff in V.
  destruct V as [(a & v & P & _)|(b & p & x & y & P & S & _)]; specialize (N _ P); cbn in N; [exact N|congruence].
Qed.

(** * Where the exponential traps *)
Lemma format_num w : is_num w -> generic_format radix2 (FLT_exp (-1074) 53) (val w).
Proof. intros N. destruct (num_B w N) as (b & -> & _ & V). rewrite <- V. apply (generic_format_B2R 53 1024). Qed.
Lemma trap_above_val : trap_above = IZR 6243314768165359 * bpow radix2 (-22).
Proof. unfold trap_above. change (bpow radix2 (-22)) with (/ 4194304). lra. Qed.
Lemma trap_below_val : trap_below = - (IZR 6243314768165360 * bpow radix2 (-22)).
Proof. unfold trap_below. change (bpow radix2 (-22)) with (/ 4194304). lra. Qed.

(** A number above [m * 2^-22], in the binade of 2^30, is at least the next. *)
Lemma next_above m v : (2 ^ 52 <= m < 2 ^ 53 - 1)%Z -> generic_format radix2 (FLT_exp (-1074) 53) v ->
  IZR m * bpow radix2 (-22) < v -> IZR (m + 1) * bpow radix2 (-22) <= v.
Proof.
  intros M F L.
  assert (FM : generic_format radix2 (FLT_exp (-1074) 53) (IZR m * bpow radix2 (-22))).
  { apply generic_format_FLT. exists (Float radix2 m (-22)); [reflexivity| |cbn; lia]. cbn. rewrite Z.abs_eq by lia. lia. }
  assert (P : 0 < IZR m * bpow radix2 (-22)).
  { apply Rmult_lt_0_compat; [apply IZR_lt; lia|apply bpow_gt_0]. }
  pose proof (succ_le_lt radix2 (FLT_exp (-1074) 53) _ _ FM F L) as S.
  rewrite succ_eq_pos in S by lra. rewrite ulp_neq_0 in S by lra. unfold cexp in S.
  rewrite (mag_unique radix2 _ 31) in S.
  - change (FLT_exp (-1074) 53 31) with (-22)%Z in S. rewrite plus_IZR. lra.
  - rewrite Rabs_pos_eq by lra. change (31 - 1)%Z with 30%Z. split.
    + replace (bpow radix2 30) with (bpow radix2 52 * bpow radix2 (-22)) by (rewrite <- bpow_plus; reflexivity).
      apply Rmult_le_compat_r; [apply bpow_ge_0|]. change (bpow radix2 52) with (IZR (2 ^ 52)). apply IZR_le. lia.
    + replace (bpow radix2 31) with (bpow radix2 53 * bpow radix2 (-22)) by (rewrite <- bpow_plus; reflexivity).
      apply Rmult_lt_compat_r; [apply bpow_gt_0|]. change (bpow radix2 53) with (IZR (2 ^ 53)). apply IZR_lt. lia.
Qed.

Lemma RN_mono a b : a <= b -> RN a <= RN b.
Proof. apply round_le; typeclasses eauto. Qed.
Lemma mul_over a b : is_num a -> is_num b -> bpow radix2 1024 <= Rabs (RN (val a * val b)) ->
  exists s, f64_mul a b = S754_infinity s.
Proof.
  intros A B. destruct (num_B a A) as (x & -> & X & VX), (num_B b B) as (y & -> & Y & VY). rewrite <- VX, <- VY. intros H.
  unfold f64_mul. rewrite (mul_equiv 53 1024 Hprec64 Hmax64).
  pose proof (Bmult_correct 53 1024 Hprec64 Hmax64 mode_NE x y) as C.
  change (round radix2 (SpecFloat.fexp 53 1024) (round_mode mode_NE)) with RN in C.
  rewrite Rlt_bool_false in C by exact H. rewrite C. eexists. reflexivity.
Qed.

Lemma exp_none_range v k : sf_trunc (f64_floor (v [*] c_ln2_inv)) = Some k ->
  (jit_exp v = None <-> (k < - 2 ^ 31 \/ 2 ^ 31 <= k)%Z).
Proof.
  intros K. unfold jit_exp. cbv zeta. rewrite K.
  destruct (Z.leb_spec (- 2 ^ 31) k), (Z.ltb_spec k (2 ^ 31)); cbn [andb]; split; intros Q; try discriminate Q; try reflexivity; lia.
Qed.
Lemma exp_none_inf v : sf_trunc (f64_floor (v [*] c_ln2_inv)) = None -> jit_exp v = None.
Proof. intros K. unfold jit_exp. cbv zeta. rewrite K. reflexivity. Qed.

(** The product with the constant at the thresholds. *)
Definition ta : f64 := S754_finite false 6243314768165359 (-22).
Definition ta' : f64 := S754_finite false 6243314768165358 (-22).
Definition tb : f64 := S754_finite true 6243314768165360 (-22).
Definition tb' : f64 := S754_finite true 6243314768165359 (-22).
Lemma at_threshold x p : is_num x -> Rabs (val x) <= 2 ^ 31 -> x [*] c_ln2_inv = p -> RN (val x * val c_ln2_inv) = val p.
Proof.
  intros N B <-. destruct (mul_num x c_ln2_inv N c_ln2_inv_num) as [_ V]; [|symmetry; exact V].
  apply (RN_fits _ (2 ^ 32)); [|lra]. rewrite Rabs_mult, c_ln2_inv_val, (Rabs_pos_eq (_ / _)) by lra.
  apply Rle_trans with (2 ^ 31 * (6497320848556798 / 4503599627370496)); [apply Rmult_le_compat_r; lra|lra].
Qed.
Lemma ta_num : is_num ta. Proof. split; reflexivity. Qed.
Lemma ta'_num : is_num ta'. Proof. split; reflexivity. Qed.
Lemma tb_num : is_num tb. Proof. split; reflexivity. Qed.
Lemma tb'_num : is_num tb'. Proof. split; reflexivity. Qed.
Ltac small_val := unfold ta, ta', tb, tb'; rewrite val_explicit; cbn [cond_Zopp]; change (bpow radix2 (-22)) with (/ 4194304); rewrite ?opp_IZR; apply Rabs_le; lra.
Lemma RN_ta : RN (trap_above * val c_ln2_inv) = 2 ^ 31.
Proof.
  replace trap_above with (val ta) by (rewrite trap_above_val; reflexivity).
  rewrite (at_threshold ta (S754_finite false 4503599627370496 (-21)) ta_num); [|small_val|vm_compute; reflexivity].
  rewrite val_explicit. cbn [cond_Zopp]. change (bpow radix2 (-21)) with (/ 2097152). rewrite ?opp_IZR. lra.
Qed.
Lemma RN_ta' : RN (val ta' * val c_ln2_inv) < 2 ^ 31.
Proof.
  rewrite (at_threshold ta' (S754_finite false 9007199254740990 (-22)) ta'_num); [|small_val|vm_compute; reflexivity].
  rewrite val_explicit. cbn [cond_Zopp]. change (bpow radix2 (-22)) with (/ 4194304). lra.
Qed.
Lemma RN_tb : RN (trap_below * val c_ln2_inv) < - 2 ^ 31.
Proof.
  replace trap_below with (val tb).
  2:{ unfold tb. rewrite trap_below_val, val_explicit. cbn [cond_Zopp]. change (- (6243314768165360))%Z with (-6243314768165360)%Z. lra. }
  rewrite (at_threshold tb (S754_finite true 4503599627370497 (-21)) tb_num); [|small_val|vm_compute; reflexivity].
  rewrite val_explicit. cbn [cond_Zopp]. change (bpow radix2 (-21)) with (/ 2097152). rewrite ?opp_IZR. lra.
Qed.
Lemma RN_tb' : RN (val tb' * val c_ln2_inv) = - 2 ^ 31.
Proof.
  rewrite (at_threshold tb' (S754_finite true 4503599627370496 (-21)) tb'_num); [|small_val|vm_compute; reflexivity].
  rewrite val_explicit. cbn [cond_Zopp]. change (bpow radix2 (-21)) with (/ 2097152). rewrite ?opp_IZR. lra.
Qed.
Lemma product_range v : is_num v ->
  (2 ^ 31 <= RN (val v * val c_ln2_inv) <-> trap_above <= val v) /\
  (RN (val v * val c_ln2_inv) < - 2 ^ 31 <-> val v <= trap_below).
Proof.
  intros N. pose proof (format_num v N) as F. pose proof RN_ta as A. pose proof RN_ta' as A'. pose proof RN_tb as B. pose proof RN_tb' as B'.
  assert (C : 0 <= val c_ln2_inv) by (rewrite c_ln2_inv_val; lra).
  assert (M : forall a b, a <= b -> RN (a * val c_ln2_inv) <= RN (b * val c_ln2_inv)).
  { intros a b L. apply RN_mono, Rmult_le_compat_r; assumption. }
  split; split; intros H.
  - destruct (Rle_or_lt trap_above (val v)) as [L|L]; [exact L|]. exfalso.
    destruct (Rle_or_lt (val v) (val ta')) as [L'|L'].
    + pose proof (M _ _ L'). lra.
    + unfold ta' in L'. rewrite val_explicit in L'. cbn [cond_Zopp] in L'. apply next_above in L'; [|lia|exact F].
      rewrite trap_above_val in L. change (6243314768165358 + 1)%Z with 6243314768165359%Z in L'. lra.
  - pose proof (M _ _ H). lra.
  - destruct (Rle_or_lt (val v) trap_below) as [L|L]; [exact L|]. exfalso.
    destruct (Rle_or_lt (val tb') (val v)) as [L'|L'].
    + pose proof (M _ _ L'). lra.
    + assert (L2 : IZR 6243314768165359 * bpow radix2 (-22) < - val v).
      { unfold tb' in L'. rewrite val_explicit in L'. cbn [cond_Zopp] in L'.
        change (- (6243314768165359))%Z with (- (6243314768165359))%Z in L'. rewrite opp_IZR in L'. lra. }
      apply next_above in L2; [|lia|apply generic_format_opp, F].
      rewrite trap_below_val in L. change (6243314768165359 + 1)%Z with 6243314768165360%Z in L2. lra.
  - pose proof (M _ _ H). lra.
Qed.
Theorem exp_traps v : is_num v -> (jit_exp v = None <-> trap_above <= val v \/ val v <= trap_below).
Proof.
  intros N. destruct (product_range v N) as [PA PB].
  destruct (Rlt_or_le (Rabs (RN (val v * val c_ln2_inv))) (bpow radix2 1024)) as [S|S].
  - destruct (mul_num v c_ln2_inv N c_ln2_inv_num S) as [NP VP]. destruct (floor_num _ NP) as (_ & _ & T). rewrite VP in T.
    rewrite (exp_none_range v _ T), <- PA, <- PB. set (t := RN _) in *. pose proof (Zfloor_lb t) as L. pose proof (Zfloor_ub t) as U.
    assert (E1 : - 2 ^ 31 = IZR (- 2 ^ 31)) by (rewrite opp_IZR; f_equal; rewrite pow_IZR; reflexivity).
    assert (E2 : 2 ^ 31 = IZR (2 ^ 31)) by (rewrite pow_IZR; reflexivity).
    split; intros [H|H].
    + right. rewrite E1. apply Rlt_le_trans with (IZR (Zfloor t) + 1); [exact U|]. rewrite <- plus_IZR. apply IZR_le. lia.
    + left. rewrite E2. eapply Rle_trans; [apply IZR_le, H|exact L].
    + right. apply Zfloor_lub. rewrite <- E2. exact H.
    + left. apply lt_IZR. rewrite <- E1. lra.
  - destruct (mul_over v c_ln2_inv N c_ln2_inv_num S) as (s & E). split; intros _.
    + assert (G : 2 ^ 31 <= bpow radix2 1024).
      { apply Rle_trans with (bpow radix2 31); [right; reflexivity || (change (bpow radix2 31) with 2147483648; lra)|apply bpow_le; lia]. }
      destruct (Rle_or_lt 0 (RN (val v * val c_ln2_inv))) as [P|P].
      * left. apply PA. rewrite Rabs_pos_eq in S by exact P. lra.
      * right. apply PB. rewrite Rabs_left in S by exact P.
        assert (2 ^ 31 < bpow radix2 1024).
        { apply Rle_lt_trans with (bpow radix2 31); [change (bpow radix2 31) with 2147483648; lra|apply bpow_lt; lia]. }
        lra.
    + apply exp_none_inf. rewrite E. reflexivity.
Qed.
Theorem exp_traps_inf v : SpecFloat.valid_binary 53 1024 v = true -> ~ is_num v -> jit_exp v = None.
Proof.
  intros V N. destruct v as [s|s| |s m e].
  - exfalso. apply N. split; [exact V|reflexivity].
  - destruct s; vm_compute; reflexivity.
  - vm_compute. reflexivity.
  - exfalso. apply N. split; [exact V|reflexivity].
Qed.

(** * The exponential on its whole non-trapping range *)
Lemma exp_reduce_wide x : is_num x -> Rabs (val x) <= 1488522238 ->
  let kf := f64_floor (x [*] c_ln2_inv) in
  exists k, sf_trunc kf = Some k /\
  is_num (x [-] kf [*] c_ln2) /\ - / 2 ^ 20 <= val (x [-] kf [*] c_ln2) <= 726821 / 2 ^ 20 /\
  Rabs (val (x [-] kf [*] c_ln2) - (val x - IZR k * ln 2)) <= 5 / 10 ^ 7.
Proof.
  intros N XA kf. set (v := val x) in *. pose proof (Rabs_le_inv _ _ XA) as X.
  pose proof ln2_bounds as L2. pose proof c_ln2_err as CE. pose proof c_ln2_inv_err as IE.
  apply Rabs_le_inv in CE, IE.
  assert (CI : 144 / 100 <= val c_ln2_inv <= 14426951 / 10000000) by (rewrite c_ln2_inv_val; lra).
  pose proof (fun y Y => mul_num y c_ln2 Y c_ln2_num) as MC. pose proof (mul_num x c_ln2_inv N c_ln2_inv_num) as MI.
  fold v in MI. remember (val c_ln2) as c eqn:Ec in *. clear Ec. remember (val c_ln2_inv) as ci eqn:Eci in *. clear Eci.
  assert (TB : Rabs (v * ci) <= 2147484000).
  { rewrite Rabs_mult, (Rabs_pos_eq ci) by lra.
    apply Rle_trans with (1488522238 * (14426951 / 10000000)); [|lra]. apply Rmult_le_compat; try apply Rabs_pos; lra. }
  destruct (MI (RN_fits _ 2147484000 TB ltac:(lra))) as [NT VT]. clear MI.
  pose proof (RN_le_err _ 2147484000 TB) as RT. apply Rabs_le_inv in RT, TB.
  destruct (floor_num _ NT) as (NK & VK & TK). fold kf in NK, VK, TK. rewrite VT in VK, TK.
  set (t := RN (v * ci)) in *. set (k := Zfloor t) in *.
  pose proof (Zfloor_lb t) as KL. pose proof (Zfloor_ub t) as KU. fold k in KL, KU.
  assert (TL : Rabs (t * ln 2 - v) <= 22 / 10 ^ 8).
  { replace (t * ln 2 - v) with ((t - v * ci) * ln 2 + v * (ci * ln 2 - 1)) by ring.
    eapply Rle_trans; [apply Rabs_triang|]. rewrite !Rabs_mult, (Rabs_pos_eq (ln 2)) by lra.
    apply Rle_trans with (25 / 10 ^ 8 * (6932 / 10000) + 1488522238 * (3 / 10 ^ 17)); [|lra].
    apply Rplus_le_compat; apply Rmult_le_compat; try apply Rabs_pos; try lra; apply Rabs_le; lra. }
  apply Rabs_le_inv in TL.
  assert (KB : -2147484002 <= IZR k <= 2147484002) by lra.
  assert (S1 : IZR k * ln 2 <= t * ln 2) by (apply Rmult_le_compat_r; lra).
  assert (S2 : t * ln 2 <= (IZR k + 1) * ln 2) by (apply Rmult_le_compat_r; lra).
  assert (PB : Rabs (IZR k * c) <= 1488523000).
  { rewrite Rabs_mult, (Rabs_pos_eq c) by lra. assert (Rabs (IZR k) <= 2147484002) by (apply Rabs_le; lra).
    apply Rle_trans with (2147484002 * (69314719 / 100000000)); [|lra]. apply Rmult_le_compat; try apply Rabs_pos; lra. }
  destruct (MC _ NK) as [NP VP].
  { rewrite VK. apply (RN_fits _ 1488523000 PB). lra. }
  rewrite VK in VP. pose proof (RN_le_err _ 1488523000 PB) as RP. apply Rabs_le_inv in RP, PB.
  set (p := RN (IZR k * c)) in *.
  assert (KE : Rabs (IZR k * c - IZR k * ln 2) <= 52 / 10 ^ 9).
  { replace (IZR k * c - IZR k * ln 2) with (IZR k * (c - ln 2)) by ring. rewrite Rabs_mult.
    apply Rle_trans with (2147484002 * (24 / 10 ^ 18)); [|lra]. apply Rmult_le_compat; try apply Rabs_pos; apply Rabs_le; lra. }
  apply Rabs_le_inv in KE.
  assert (SB : Rabs (v - p) <= 1) by (apply Rabs_le; lra).
  destruct (sub_num _ _ N NP) as [NR VR].
  { rewrite VP. fold v. apply (RN_fits _ 1 SB). lra. }
  rewrite VP in VR. fold v in VR. pose proof (RN_le_err _ 1 SB) as RR. apply Rabs_le_inv in RR.
  exists k. split; [exact TK|]. split; [exact NR|]. rewrite VR.
  split; [lra|]. apply Rabs_le. lra.
Qed.

Lemma exp_scaled_wide x : is_num x -> Rabs (val x) <= 1488522238 ->
  let kf := f64_floor (x [*] c_ln2_inv) in let q := exp_ratio (x [-] kf [*] c_ln2) in
  exists k, sf_trunc kf = Some k /\ is_num q /\ 9 / 10 <= val q <= 3 /\
  - (2 / 10 ^ 6) <= val x - IZR k * ln 2 <= 693152 / 10 ^ 6 /\
  Rabs (val q - exp (val x - IZR k * ln 2)) <= / 10 ^ 6 * exp (val x - IZR k * ln 2).
Proof.
  intros N X kf q. destruct (exp_reduce_wide x N X) as (k & TK & NR & RB & RE). fold kf in TK, NR, RB, RE.
  destruct (exp_ratio_acc _ NR RB) as [NQ QE]. fold q in NQ, QE.
  exists k. split; [exact TK|]. split; [exact NQ|].
  set (r := val (x [-] kf [*] c_ln2)) in *. set (s := val x - IZR k * ln 2) in *.
  pose proof (exp_near (r - s) ltac:(lra)) as EN.
  assert (EN' : Rabs (exp (r - s) - 1) <= 6 / 10 ^ 7).
  { eapply Rle_trans; [exact EN|]. pose proof (Rabs_pos (r - s)).
    assert (2 * Rabs (r - s) * Rabs (r - s) <= 2 * (5 / 10 ^ 7) * (5 / 10 ^ 7)) by (apply Rmult_le_compat; lra). lra. }
  apply Rabs_le_inv in EN'.
  assert (ER : exp r = exp s * exp (r - s)) by (rewrite <- exp_plus; f_equal; ring).
  pose proof (exp_pos s) as SP.
  assert (RL : 99 / 100 <= exp r) by (pose proof (exp_ineq1_le r); lra).
  assert (RU : exp r <= 29 / 10).
  { apply Rle_trans with (exp (7 / 10)); [apply exp_le; lra|].
    replace (7 / 10) with (7 / 20 + 7 / 20) by field. rewrite exp_plus.
    pose proof (exp_ineq1_le (- (7 / 20))) as E. rewrite exp_Ropp in E. pose proof (exp_pos (7 / 20)).
    assert (Y : exp (7 / 20) <= 20 / 13).
    { rewrite <- (Rinv_inv (exp (7 / 20))). replace (20 / 13) with (/ (13 / 20)) by field. apply Rinv_le_contravar; lra. }
    assert (exp (7 / 20) * exp (7 / 20) <= 20 / 13 * (20 / 13)) by (apply Rmult_le_compat; lra). lra. }
  apply Rabs_le_inv in QE, RE. split; [lra|].
  split; [lra|].
  assert (EU : exp r <= exp s * (1 + 6 / 10 ^ 7)) by (rewrite ER; apply Rmult_le_compat_l; lra).
  assert (EL : exp s * (1 - 6 / 10 ^ 7) <= exp r) by (rewrite ER; apply Rmult_le_compat_l; lra).
  apply Rabs_le. lra.
Qed.

Lemma shift_period q k j : shift_exponent q (k + 4096 * j) = shift_exponent q k.
Proof.
  unfold shift_exponent. f_equal. replace (f64_bits q + (k + 4096 * j) * 2 ^ 52)%Z with (f64_bits q + k * 2 ^ 52 + j * 2 ^ 64)%Z by ring.
  apply Z_mod_plus_full.
Qed.

Lemma some_inj {T} (a b : T) : Some a = Some b -> a = b. Proof. congruence. Qed.
(** Outside the accurate range the reduction count is far from -1, 0, 1. *)
Lemma exp_shifted x : is_num x -> trap_below < val x < trap_above -> 712 <= Rabs (val x) ->
  exists q k, jit_exp x = Some (shift_exponent q k) /\ normal_pos q /\ 9 / 10 <= val q <= 3 /\
  - (2 / 10 ^ 6) <= val x - IZR k * ln 2 <= 693152 / 10 ^ 6 /\
  Rabs (val q - exp (val x - IZR k * ln 2)) <= / 10 ^ 6 * exp (val x - IZR k * ln 2).
Proof.
  intros N [B A] F.
  assert (W : Rabs (val x) <= 1488522238).
  { unfold trap_above in A. unfold trap_below in B. apply Rabs_le. lra. }
  destruct (exp_scaled_wide x N W) as (k & K & NQ & QB & SB & QE). cbv zeta in *.
  destruct (jit_exp x) as [w|] eqn:J.
  2:{ apply exp_traps in J; [|exact N]. lra. }
  unfold jit_exp in J. cbv zeta in J. rewrite K in J.
  set (q := exp_ratio _) in *.
  destruct ((- 2 ^ 31 <=? k)%Z && (k <? 2 ^ 31)%Z); [|discriminate J]. apply some_inj in J.
  pose proof ln2_bounds as L2.
  assert (KN : forall z, (z = -1 \/ z = 0 \/ z = 1)%Z -> (k =? z)%Z = false).
  { intros z Z1. apply Z.eqb_neq. intros ->. revert F.
    assert (Z2 : -1 <= IZR z <= 1) by (split; apply IZR_le; lia).
    assert (-1 <= IZR z * ln 2 <= 1).
    { split; [apply Rle_trans with (-1 * ln 2); [lra|apply Rmult_le_compat_r; lra]
             |apply Rle_trans with (1 * ln 2); [apply Rmult_le_compat_r; lra|lra]]. }
    unfold Rabs. destruct (Rcase_abs (val x)); lra. }
  rewrite !KN in J by tauto. exists q, k. rewrite J. split; [reflexivity|]. split; [|repeat split; assumption || lra].
  split; [exact NQ|]. apply Rle_trans with (bpow radix2 (-1)); [apply bpow_le; lia|]. change (bpow radix2 (-1)) with (/ 2). lra.
Qed.

(** Near a multiple of 4096 ln 2 the result is the exponential of the distance. *)
Theorem exp_periodic x j : is_num x -> trap_below < val x < trap_above -> 712 <= Rabs (val x) ->
  let d := val x - 4096 * IZR j * ln 2 in -708 <= d <= 709 ->
  exists w, jit_exp x = Some w /\ is_num w /\ Rabs (val w - exp d) <= / 10 ^ 6 * exp d.
Proof.
  intros N T F d D. destruct (exp_shifted x N T F) as (q & k & J & NQ & QB & SB & QE).
  set (k' := (k - 4096 * j)%Z).
  assert (KK : k = (k' + 4096 * j)%Z) by (unfold k'; ring).
  assert (S : val x - IZR k * ln 2 = d - IZR k' * ln 2).
  { unfold d. rewrite KK, plus_IZR, mult_IZR. ring. }
  rewrite S in *. set (s := d - IZR k' * ln 2) in *.
  assert (XS : exp d = exp s * bpow radix2 k').
  { rewrite bpow2_exp, <- exp_plus. f_equal. unfold s. ring. }
  exists (shift_exponent q k'). split; [rewrite J, KK, shift_period; reflexivity|].
  assert (QD : Rabs (val q * bpow radix2 k' - exp d) <= / 10 ^ 6 * exp d).
  { rewrite XS. replace (val q * bpow radix2 k' - exp s * bpow radix2 k') with ((val q - exp s) * bpow radix2 k') by ring.
    pose proof (bpow_gt_0 radix2 k'). rewrite Rabs_mult, (Rabs_pos_eq (bpow radix2 k')), <- Rmult_assoc by lra. apply Rmult_le_compat_r; lra. }
  assert (LOW : bpow radix2 (-1022) <= exp (-708) / (13 / 10)).
  { pose proof ln2_bounds as L2. rewrite bpow2_exp. apply Rle_trans with (exp (-708 + - (3 / 10))); [apply exp_le; lra|].
    rewrite exp_plus, exp_Ropp. unfold Rdiv. apply Rmult_le_compat_l; [apply Rlt_le, exp_pos|].
    apply Rinv_le_contravar; [lra|]. pose proof (exp_ineq1_le (3 / 10)). lra. }
  assert (HIGH : 17 / 10 * exp 709 <= bpow radix2 1024).
  { pose proof ln2_bounds as L2. rewrite bpow2_exp. apply Rle_trans with (exp (7 / 10 + 709)); [|apply exp_le; lra].
    rewrite exp_plus. apply Rmult_le_compat_r; [apply Rlt_le, exp_pos|]. pose proof (exp_ineq1_le (7 / 10)). lra. }
  assert (EL : exp (-708) <= exp d) by (apply exp_le; lra).
  assert (EU : exp d <= exp 709) by (apply exp_le; lra).
  pose proof (exp_pos (-708)). pose proof (exp_pos 709).
  pose proof (Rabs_le_inv _ _ QD) as QD'. set (ex := exp d) in *.
  destruct (shift_normal q k' NQ) as [NS VS]; [lra|lra|].
  split; [exact NS|]. rewrite VS. exact QD.
Qed.

Lemma of_bits_negative a b p : (1 <= a <= 2046)%Z -> (0 <= b < two52)%Z -> (two52 + b = Zpos p)%Z ->
  f64_of_bits ((a + 2048) * two52 + b) = S754_finite true p (a - 1075).
Proof.
  intros A B P. unfold f64_of_bits. destruct (field_split (a + 2048) b B) as [Q R]. cbv zeta. rewrite Q, R, P.
  replace (two63 <=? (a + 2048) * two52 + b)%Z with true.
  2:{ symmetry. apply Z.leb_le. change two63 with (2048 * two52)%Z. nia. }
  replace ((a + 2048) mod 2048)%Z with a.
  2:{ rewrite <- (Z.mul_1_l 2048) at 1. rewrite Z_mod_plus_full, Z.mod_small by lia. reflexivity. }
  destruct (Z.eqb_spec a 0); [lia|]. destruct (Z.eqb_spec a 2047); [lia|]. reflexivity.
Qed.

(** In between the result is a negative number. *)
Theorem exp_negative x j : is_num x -> trap_below < val x < trap_above -> 712 <= Rabs (val x) ->
  712 <= val x - 4096 * IZR j * ln 2 <= 2128 ->
  exists w, jit_exp x = Some w /\ is_num w /\ val w < 0.
Proof.
  intros N T F D. destruct (exp_shifted x N T F) as (q & k & J & NQ & QB & SB & QE).
  set (k' := (k - 4096 * j)%Z).
  assert (KK : k = (k' + 4096 * j)%Z) by (unfold k'; ring).
  assert (S : val x - IZR k * ln 2 = val x - 4096 * IZR j * ln 2 - IZR k' * ln 2).
  { rewrite KK, plus_IZR, mult_IZR. ring. }
  rewrite S in SB. clear S QE. set (d := val x - 4096 * IZR j * ln 2) in *. pose proof ln2_bounds as L2.
  assert (KB : (1027 <= k' <= 3070)%Z).
  { assert (1026 < IZR k').
    { apply (Rmult_lt_reg_r (ln 2)); [lra|]. lra. }
    assert (IZR k' < 3071) by (apply (Rmult_lt_reg_r (ln 2)); lra).
    apply lt_IZR in H, H0. lia. }
  exists (shift_exponent q k'). split; [rewrite J, KK, shift_period; reflexivity|].
  destruct (normal_shape q NQ) as (m & e & -> & M & E).
  rewrite val_pos in QB.
  assert (B1 : (IZR (Zpos m) < bpow radix2 53)) by (rewrite <- two53_bpow; apply IZR_lt; lia).
  assert (B2 : (bpow radix2 52 <= IZR (Zpos m))) by (rewrite <- two52_bpow; apply IZR_le; lia).
  pose proof (bpow_gt_0 radix2 e) as G.
  assert (E1 : (-53 <= e)%Z).
  { assert (X : bpow radix2 (-1) < bpow radix2 (53 + e)).
    { change (bpow radix2 (-1)) with (/ 2). apply Rlt_le_trans with (9 / 10); [lra|]. rewrite bpow_plus.
      eapply Rle_trans; [apply QB|]. apply Rmult_le_compat_r; lra. }
    apply lt_bpow in X. lia. }
  assert (E2 : (e <= -51)%Z).
  { assert (X : bpow radix2 (52 + e) < bpow radix2 2).
    { change (bpow radix2 2) with 4. apply Rle_lt_trans with 3; [|lra]. rewrite bpow_plus.
      eapply Rle_trans; [|apply QB]. apply Rmult_le_compat_r; lra. }
    apply lt_bpow in X. lia. }
  unfold shift_exponent. rewrite (bits_normal m e) by lia. change (2 ^ 52)%Z with two52.
  replace ((e + 1075) * two52 + (Zpos m - two52) + k' * two52)%Z with ((e + k' - 973 + 2048) * two52 + (Zpos m - two52))%Z by ring.
  rewrite Z.mod_small.
  2:{ change (2 ^ 64)%Z with (4096 * two52)%Z. assert (0 < two52)%Z by reflexivity. split; nia. }
  rewrite (of_bits_negative (e + k' - 973) (Zpos m - two52) m) by lia. split.
  - split; [|reflexivity]. apply (shape_valid true m); lia.
  - rewrite val_explicit. cbn [cond_Zopp]. rewrite opp_IZR, <- Ropp_mult_distr_l.
    apply Ropp_lt_gt_0_contravar, Rmult_gt_0_compat; [apply IZR_lt; lia|apply bpow_gt_0].
Qed.
