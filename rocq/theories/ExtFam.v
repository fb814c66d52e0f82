(** The exponential-family path of the normal distributions at extreme
    arguments and scales (C76). *)
From Coq Require Import ZArith Reals Bool List Lia Lra.
From Coq Require Import Floats.SpecFloat.
From Flocq Require Import Core IEEE754.BinarySingleNaN.
From Verif Require Import Num JitModel EggSpec LitFacts EggNum FloatFacts FloatErr JitAcc JitAcc2 AccSpec AccProofs RoundSpec RoundProofs RelErr
  DensitySpec CoreModel CombModel ExpFamModel DistModel DistSpec DistFacts BuilderProofs DistProofs DistFloat CombSpec FamFloatSpec FamFloat ExtSpec ExtFloat ExtProofs.
Import ListNotations.
Local Open Scope R_scope.

#[local] Instance Hprec64 : FLX.Prec_gt_0 53 := eq_refl _.
#[local] Instance Hmax64 : Prec_lt_emax 53 1024 := eq_refl _.

Lemma neg_shape d : is_num d -> val d < 0 -> exists m e, d = S754_finite true m e.
Proof.
  intros [_ F] P. destruct d as [s| | |[] m e]; try discriminate F; [|eauto|].
  - exfalso. unfold val in P. cbn in P. lra.
  - exfalso. unfold val, SF2R in P. cbn [cond_Zopp] in P. assert (0 < F2R (Float radix2 (Z.pos m) e)) by (apply F2R_gt_0; reflexivity). cbn in *. lra.
Qed.
Lemma pos_shape d : is_num d -> 0 <= val d -> (exists s, d = S754_zero s) \/ exists m e, d = S754_finite false m e.
Proof.
  intros [_ F] P. destruct d as [s| | |[] m e]; try discriminate F; [eauto| |eauto].
  exfalso. unfold val, SF2R in P. cbn [cond_Zopp] in P. assert (F2R (Float radix2 (Z.neg m) e) < 0) by (apply F2R_lt_0; reflexivity). cbn in *. lra.
Qed.
Definition dn (r : f64) : Prop := (is_num r /\ val r <= 0) \/ r = ninf.
Lemma mul_dn a b : is_num a -> val a <= 0 -> is_num b -> 0 <= val b -> dn (f64_mul a b).
Proof.
  intros N P M Q. assert (S : val a * val b <= 0) by nra.
  destruct (mul_total a b N M) as [[K V]|[O [(E & Z)|(E & _)]]]; [left; split; [exact K|]| |right; exact E].
  - rewrite V. unfold RN. rewrite <- (round_0 radix2 (FLT_exp (-1074) 53) ZnearestE). apply round_le; [apply FLT_exp_valid; exact Hprec64|apply valid_rnd_N|exact S].
  - exfalso. replace (val a * val b) with 0 in O by lra. unfold RN in O. rewrite round_0 in O by apply valid_rnd_N. rewrite Rabs_R0 in O. pose proof (bpow_gt_0 radix2 1024). lra.
Qed.
Lemma nan_through a b c : f64_add (f64_sub S754_nan a) b = S754_nan /\ f64_add (f64_sub c S754_nan) b = S754_nan.
Proof. split; [|rewrite (proj1 (nan_r c))]; reflexivity. Qed.

Lemma tiny_square sd : is_num sd -> 0 < val sd <= bpow radix2 (-540) -> f64_mul sd sd = S754_zero false.
Proof.
  intros N P. assert (S : 0 < val sd * val sd <= bpow radix2 (-1080)).
  { split; [apply Rmult_lt_0_compat; lra|]. change (-1080)%Z with (-540 + -540)%Z. rewrite bpow_plus. apply Rmult_le_compat; lra. }
  assert (Z : RN (val sd * val sd) = 0).
  { unfold RN. destruct (mag radix2 (val sd * val sd)) as [ex E]. specialize (E ltac:(lra)). rewrite Rabs_pos_eq in E by lra.
    apply (round_N_small_pos radix2 (FLT_exp (-1074) 53) (fun t => negb (Z.even t)) _ ex E).
    assert (ex - 1 < -1079)%Z by (apply (lt_bpow radix2); eapply Rle_lt_trans; [apply E|]; eapply Rle_lt_trans; [apply S|apply bpow_lt; lia]).
    unfold FLT_exp. lia. }
  destruct (mul_num sd sd N N) as [K V]; [rewrite Z, Rabs_R0; apply bpow_gt_0|]. rewrite Z in V.
  assert (Q : exists s, f64_mul sd sd = S754_zero s).
  { destruct (pos_shape _ K ltac:(lra)) as [Q|(m & e & Q)]; [exact Q|]. exfalso. rewrite Q in V. unfold val, SF2R in V. apply eq_0_F2R in V. discriminate V. }
  destruct Q as [s Q]. destruct (pos_shape sd N ltac:(lra)) as [[s' ->]|(m & e & ->)]; [destruct s'; reflexivity|]. rewrite Q.
  unfold f64_mul, SFmul in Q. cbn [xorb] in Q. unfold SpecFloat.binary_round_aux in Q.
  repeat match type of Q with context [let '(_, _) := ?t in _] => destruct t end.
  match type of Q with context [match ?t with Z0 => _ | _ => _ end] => destruct t end; [injection Q as <-; reflexivity| |discriminate Q].
  match type of Q with context [if ?t then _ else _] => destruct t end; discriminate Q.
Qed.
Lemma proper_plus_zero r : proper r -> proper (f64_add r (f64_of_Z 0)).
Proof.
  destruct zero_num as [N0 V0]. intros [N| ->]; [left|right; reflexivity].
  apply add_num; [exact N|exact N0|]. rewrite V0, Rplus_0_r, num_format by exact N. apply num_below, N.
Qed.

Section Fam.
Context (c : R) (lg : R -> R) (L : libm) (LOK : libm_ok c lg L) (C0 : 0 <= c <= 1000000) (LE : ln_edges L).
Let F := F64 L.
Lemma stdnormal_shape x : @ef_density F f64 stdnormal_expfam x =
    f64_add (f64_sub (f64_add (f64_add (f64_of_Z 0) (f64_mul (f64_of_Z 0) x)) (f64_mul (f64_dec (-5) 10) (f64_mul x x)))
       (f64_mul (l_ln L (f64_mul (f64_of_Z 2) f64_pi)) (f64_dec 5 10))) (f64_of_Z 0).
Proof. reflexivity. Qed.
Lemma normal_shape mu sd x : ef_density (normal_expfam (@mkNormal F mu sd)) x =
    let v := f64_mul sd sd in let inv := f64_div (f64_of_Z 1) v in
     f64_add (f64_sub (f64_add (f64_add (f64_of_Z 0) (f64_mul (f64_mul mu inv) x)) (f64_mul (f64_mul (f64_dec (-5) 10) inv) (f64_mul x x)))
       (f64_add (f64_mul (l_ln L (f64_mul (f64_mul (f64_of_Z 2) f64_pi) v)) (f64_dec 5 10)) (f64_mul (f64_mul (f64_dec 5 10) (f64_mul mu mu)) inv))) (f64_of_Z 0).
Proof. reflexivity. Qed.

Lemma stdnormal_ef_proper x : is_num x -> proper (@ef_density F f64 stdnormal_expfam x).
Proof.
  intros N. rewrite stdnormal_shape. destruct zero_num as [N0 V0]. pose proof pi_bounds as PB. destruct two_num as [N2 V2].
  assert (Z : f64_add (f64_of_Z 0) (f64_mul (f64_of_Z 0) x) = f64_of_Z 0).
  { destruct N as [_ N]. destruct x as [s| | |s m e]; try discriminate N; destruct s; reflexivity. }
  rewrite Z.
  assert (BA : bn 11 (f64_mul (l_ln L (f64_mul (f64_of_Z 2) f64_pi)) (f64_dec 5 10))).
  { apply (bn_mul 11 0 _ _ ltac:(lia)).
    - assert (R2 : rel 2 (2 * PI) (f64_mul (f64_of_Z 2) f64_pi)).
      { sizes. replace 2 with (0 + 1 + 1) at 1 by lra. apply rel_mul; ks.
        - apply rel_is; [exact N2|exact V2|lra].
        - exact rel_pi.
        - split; rewrite Rabs_pos_eq by lra; lra. }
      apply (bn_ln c lg L LOK C0); [apply (proj1 R2)|apply (rel_sign _ _ _ R2); lra].
    - destruct half_dec as [NH VH]. split; [exact NH|]. rewrite VH, Rabs_pos_eq by lra. cbn. lra. }
  destruct mhalf_dec as [NG VG].
  destruct (mul_sqr x N) as [[U P]| ->].
  - set (u := f64_mul x x) in *. clearbody u. set (A := f64_mul (l_ln L _) _) in *. clearbody A.
    destruct (mul_num _ u NG U) as [K V].
    { rewrite VG. eapply Rle_lt_trans; [|exact (num_below u U)]. rewrite <- (num_format u U) at 2. unfold RN. rewrite <- !round_NE_abs by (apply FLT_exp_valid; exact Hprec64).
      apply round_le; [apply FLT_exp_valid; exact Hprec64|apply valid_rnd_N|]. rewrite Rabs_mult, Rabs_Ropp, (Rabs_pos_eq (/ 2)) by lra. pose proof (Rabs_pos (val u)). lra. }
    rewrite VG in V. set (w := f64_mul _ u) in *.
    assert (W : val w <= 0) by (rewrite V; unfold RN; rewrite <- (round_0 radix2 (FLT_exp (-1074) 53) ZnearestE); apply round_le; [apply FLT_exp_valid; exact Hprec64|apply valid_rnd_N|lra]).
    clearbody w. destruct (add_num (f64_of_Z 0) w N0 K) as [K1 V1]; [rewrite V0, Rplus_0_l, num_format by exact K; apply num_below, K|].
    rewrite V0, Rplus_0_l, num_format in V1 by exact K. set (z := f64_add (f64_of_Z 0) w) in *. clearbody z.
    apply proper_plus_zero. destruct (sub_total z A K1 (proj1 BA)) as [[Q _]|[O [(_ & Q & _)|(Q & _)]]]; [left; exact Q| |right; exact Q].
    exfalso. replace (val z) with 0 in O by lra. rewrite Rminus_0_l in O. destruct BA as [NA BA]. unfold RN in O. rewrite round_NE_opp, Rabs_Ropp in O. fold RN in O.
    change (bpow radix2 1024 <= Rabs (RN (val A))) in O. rewrite num_format in O by exact NA. pose proof (num_below A NA). lra.
  - right. set (w := f64_mul (l_ln L _) _) in *. clearbody w. destruct BA as [[_ G] _].
    destruct w; try discriminate G; reflexivity.
Qed.
Lemma stdnormal_ef_infinite : @ef_density F f64 stdnormal_expfam pinf = S754_nan /\ @ef_density F f64 stdnormal_expfam ninf = S754_nan.
Proof. rewrite !stdnormal_shape. split; reflexivity. Qed.

Lemma normal_ef_infinite mu sd : is_num mu -> is_num sd -> moderate (val sd) ->
  (0 <= val mu -> ef_density (normal_expfam (@mkNormal F mu sd)) pinf = S754_nan) /\
  (val mu <= 0 -> ef_density (normal_expfam (@mkNormal F mu sd)) ninf = S754_nan).
Proof.
  intros NM NS MS. assert (MS0 : 0 < val sd) by (destruct (mod_bounds _ MS) as (S0 & _); exact S0). destruct (variance_parts c lg L LOK C0 sd NS MS) as (R1 & R2 & _). rewrite !normal_shape. cbv zeta in *.
  set (inv := f64_div _ _) in *. set (lv := l_ln L _) in *. clearbody inv lv.
  assert (IP : 0 < val inv) by (apply (rel_sign _ _ _ R2), Rinv_0_lt_compat, Rmult_lt_0_compat; apply MS0). pose proof (proj1 R2) as NI.
  assert (E2 : exists m e, f64_mul (f64_dec (-5) 10) inv = S754_finite true m e).
  { destruct mhalf_dec as [NG VG]. destruct (mod_bounds _ MS) as (S0 & S1 & S2).
    assert (RH : rel 3 (- (/ 2 * / (val sd * val sd))) (f64_mul (f64_dec (-5) 10) inv)).
    { replace 3 with (0 + 2 + 1) by lra. rewrite Ropp_mult_distr_l. apply rel_mul; ks; [apply rel_is; [exact NG|exact VG|lra]|exact R2|].
      assert (I1 : bpow radix2 (-800) <= / (val sd * val sd) <= bpow radix2 800).
      { change (-800)%Z with (- (800))%Z. rewrite bpow_opp. split; [apply Rinv_le_contravar; [apply Rmult_lt_0_compat; exact S0|exact S2]|].
        rewrite <- (Rinv_inv (bpow radix2 800)). apply Rinv_le_contravar; [apply Rinv_0_lt_compat, bpow_gt_0|]. rewrite <- bpow_opp. exact S1. }
      unfold normal_range. rewrite Rabs_mult, Rabs_Ropp, !Rabs_pos_eq by (try lra; pose proof (bpow_gt_0 radix2 (-800)); lra).
      assert (bpow radix2 (-800) = 4 * bpow radix2 (-802)) by (change (-800)%Z with (2 + -802)%Z; rewrite bpow_plus; reflexivity).
      assert (small <= bpow radix2 (-802)) by (unfold small; apply bpow_le; lia). assert (bpow radix2 800 <= big) by (unfold big; apply bpow_le; lia). set (i := / (val sd * val sd)) in *. clearbody i. pose proof (bpow_gt_0 radix2 (-802)). lra. }
    apply neg_shape; [exact (proj1 RH)|]. pose proof (rel_sign _ _ _ (rel_neg _ _ _ RH)) as S. destruct (neg_num _ (proj1 RH)) as [_ E]. rewrite E in S.
    rewrite Ropp_involutive in S. assert (0 < / (val sd * val sd)) by (apply Rinv_0_lt_compat, Rmult_lt_0_compat; exact S0). lra. }
  destruct E2 as (m & e & ->). change (f64_mul pinf pinf) with pinf. change (f64_mul ninf ninf) with pinf.
  split; intros P.
  - assert (U : up (f64_mul mu inv)) by (apply mul_up; [exact NM|exact P|exact NI|lra]).
    assert (QQ : f64_add (f64_add (f64_of_Z 0) (f64_mul (f64_mul mu inv) pinf)) (f64_mul (S754_finite true m e) pinf) = S754_nan).
    { destruct U as [[U W]| ->]; [|reflexivity]. destruct (pos_shape _ U W) as [[s ->]|(m' & e' & ->)]; reflexivity. }
    rewrite QQ. exact (proj1 (nan_through _ _ S754_nan)).
  - assert (QQ : f64_add (f64_add (f64_of_Z 0) (f64_mul (f64_mul mu inv) ninf)) (f64_mul (S754_finite true m e) pinf) = S754_nan).
    { assert (D : dn (f64_mul mu inv)) by (apply mul_dn; [exact NM|exact P|exact NI|lra]).
      destruct D as [[U W]| ->]; [|reflexivity]. destruct (Rle_lt_or_eq_dec _ _ W) as [H|H].
      - destruct (neg_shape _ U H) as (m' & e' & ->). reflexivity.
      - destruct (pos_shape _ U ltac:(lra)) as [[s ->]|(m' & e' & QE)]; [reflexivity|]. exfalso. rewrite QE in H. unfold val, SF2R in H. apply eq_0_F2R in H. discriminate H. }
    rewrite QQ. exact (proj1 (nan_through _ _ S754_nan)).
Qed.
Lemma normal_ef_tiny mu sd x : is_num mu -> is_num sd -> 0 < val sd <= bpow radix2 (-540) ->
  ef_density (normal_expfam (@mkNormal F mu sd)) x = S754_nan.
Proof.
  intros NM NS P. rewrite normal_shape. cbv zeta.
  rewrite (tiny_square sd NS P). change (f64_div (f64_of_Z 1) (S754_zero false)) with pinf.
  replace (f64_mul (f64_mul (f64_of_Z 2) f64_pi) (S754_zero false)) with (S754_zero false : f64) by (symmetry; vm_compute; reflexivity). rewrite (proj2 LE).
  change (f64_mul ninf (f64_dec 5 10)) with ninf.
  assert (Q : f64_add ninf (f64_mul (f64_mul (f64_dec 5 10) (f64_mul mu mu)) pinf) = S754_nan).
  { destruct half_dec as [NH VH]. destruct (mul_sqr mu NM) as [[U W]| ->]; [|reflexivity].
    destruct (mul_up (f64_dec 5 10) _ NH ltac:(lra) U W) as [[K T]| ->]; [|reflexivity].
    destruct (pos_shape _ K T) as [[s ->]|(m & e & ->)]; [destruct s|]; reflexivity. }
  rewrite Q. exact (proj2 (nan_through S754_nan _ _)).
Qed.
Lemma huge_square sd : is_num sd -> bpow radix2 512 <= val sd -> f64_mul sd sd = pinf.
Proof.
  intros N P. pose proof (bpow_gt_0 radix2 512) as Q. assert (S : bpow radix2 1024 <= val sd * val sd).
  { change 1024%Z with (512 + 512)%Z. rewrite bpow_plus. apply Rmult_le_compat; lra. }
  assert (O : bpow radix2 1024 <= RN (val sd * val sd)).
  { replace (bpow radix2 1024) with (RN (bpow radix2 1024)); [apply round_le; [apply FLT_exp_valid; exact Hprec64|apply valid_rnd_N|exact S]|].
    apply round_generic; [apply valid_rnd_N|]. apply generic_format_bpow. unfold FLT_exp. lia. }
  destruct (mul_total sd sd N N) as [[K V]|[_ [(E & _)|(_ & Z)]]]; [|exact E|].
  - exfalso. pose proof (num_below _ K) as B. rewrite V, Rabs_pos_eq in B by (pose proof (bpow_gt_0 radix2 1024); lra). lra.
  - exfalso. pose proof (bpow_gt_0 radix2 1024). lra.
Qed.
Lemma mul_zero a s : is_num a -> exists z, f64_mul a (S754_zero s) = S754_zero z /\ f64_mul (S754_zero s) a = S754_zero z.
Proof. intros [_ G]. destruct a as [t| | |t m e]; try discriminate G; exists (xorb t s); split; destruct s, t; reflexivity. Qed.
Lemma normal_ef_huge mu sd x : is_num mu -> is_num sd -> is_num x -> bpow radix2 512 <= val sd -> at_most_moderate (val mu) -> at_most_moderate (val x) ->
  ef_density (normal_expfam (@mkNormal F mu sd)) x = ninf.
Proof.
  intros NM NS NX P BM BX. unfold at_most_moderate in *. rewrite normal_shape. cbv zeta. rewrite (huge_square sd NS P).
  change (f64_div (f64_of_Z 1) pinf) with (S754_zero false : f64). destruct half_dec as [NH VH]. destruct mhalf_dec as [NG VG].
  assert (BH : bn 0 (f64_dec 5 10)) by (split; [exact NH|rewrite VH, Rabs_pos_eq by lra; cbn; lra]).
  pose proof (bn_mul 400 400 mu mu ltac:(lia) (conj NM BM) (conj NM BM)) as BMM. pose proof (bn_mul 400 400 x x ltac:(lia) (conj NX BX) (conj NX BX)) as BXX.
  destruct (bn_mul 0 800 _ _ ltac:(lia) BH BMM) as [K _].
  destruct (mul_zero mu false NM) as (z1 & -> & _). destruct (mul_zero x z1 NX) as (z2 & _ & ->).
  destruct (mul_zero _ false NG) as (z3 & -> & _). destruct (mul_zero _ z3 (proj1 BXX)) as (z4 & _ & ->).
  destruct (mul_zero _ false K) as (z5 & -> & _).
  replace (f64_mul (f64_mul (f64_of_Z 2) f64_pi) pinf) with pinf by (symmetry; vm_compute; reflexivity). rewrite (proj1 LE).
  change (f64_mul pinf (f64_dec 5 10)) with pinf. destruct z2, z4, z5; reflexivity.
Qed.
End Fam.
Lemma ln_normal_huge mu sd x : is_num sd -> bpow radix2 512 <= val sd -> at_most_moderate (val mu) -> at_most_moderate (val x) ->
  -1300 <= ln (normal_pdf (val mu) (val sd) (val x)).
Proof.
  intros NS P BM BX. unfold at_most_moderate in *. pose proof (bpow_gt_0 radix2 512) as Q. pose proof ln_pi_small as LP. pose proof PI_RGT_0. destruct ln2_bounds as [L1 L2].
  rewrite ln_normal_pdf by lra. pose proof (ln_any _ NS ltac:(lra)) as LA. apply Rabs_le_inv in LA. rewrite ln_mult by lra.
  assert (Z : Rabs ((val x - val mu) / val sd) <= 1).
  { unfold Rdiv. rewrite Rabs_mult, (Rabs_pos_eq (/ val sd)) by (left; apply Rinv_0_lt_compat; lra). apply (Rmult_le_reg_r (val sd)); [lra|]. rewrite Rmult_assoc, Rinv_l by lra.
    pose proof (Rabs_triang (val x) (- val mu)) as T. rewrite Rabs_Ropp in T. assert (bpow radix2 512 = bpow radix2 112 * bpow radix2 400) by (rewrite <- bpow_plus; reflexivity).
    assert (2 <= bpow radix2 112) by (apply (bpow_le radix2 1 112); lia). pose proof (bpow_gt_0 radix2 400). unfold Rminus. nra. }
  replace (- (1 / 2) * (val x - val mu) ^ 2 / val sd ^ 2) with (- (1 / 2) * ((val x - val mu) / val sd * ((val x - val mu) / val sd))) by (field; lra).
  apply Rabs_le_inv in Z. nra.
Qed.
Definition near600 : f64 := S754_finite false 4503599627370496 (-652).
Lemma near600_val : is_num near600 /\ val near600 = bpow radix2 (-600).
Proof.
  split; [split; reflexivity|]. unfold val, near600, SF2R, F2R. cbn [cond_Zopp Fnum Fexp]. change (IZR (Z.pos 4503599627370496)) with (bpow radix2 52). rewrite <- bpow_plus. reflexivity.
Qed.
