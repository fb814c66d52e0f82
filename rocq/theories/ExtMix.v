(** log-sum-exp and mixtures at extreme arguments (C76). *)
From Coq Require Import ZArith Reals Bool List Lia Lra.
From Coq Require Import Floats.SpecFloat.
From Flocq Require Import Core IEEE754.BinarySingleNaN.
From Verif Require Import Num JitModel EggSpec LitFacts EggNum FloatFacts FloatErr JitAcc JitAcc2 AccSpec AccProofs RoundSpec RoundProofs RelErr
  DensitySpec CoreModel CombModel ExpFamModel DistModel DistSpec DistFacts BuilderProofs DistProofs DistFloat ExtSpec ExtFloat ExtSum.
Import ListNotations.
Local Open Scope R_scope.

#[local] Instance Hprec64 : FLX.Prec_gt_0 53 := eq_refl _.
#[local] Instance Hmax64 : Prec_lt_emax 53 1024 := eq_refl _.

(** * Adding a logarithm never overflows *)
Definition largest : R := bpow radix2 1024 - bpow radix2 971.
Lemma below_largest a : is_num a -> Rabs (val a) <= largest.
Proof. intros N. destruct (num_B a N) as (b & -> & F & V). rewrite <- V. apply (abs_B2R_le_emax_minus_prec 53 1024 Hprec64 b). Qed.
Lemma largest_format : generic_format radix2 (FLT_exp (-1074) 53) largest.
Proof.
  apply generic_format_FLT. exists (Float radix2 (2 ^ 53 - 1) 971); [|cbn; lia|cbn; lia].
  unfold largest, F2R. cbn [Fnum Fexp]. rewrite minus_IZR. change (IZR (2 ^ 53)) with (bpow radix2 53). change 1024%Z with (53 + 971)%Z. rewrite bpow_plus. ring.
Qed.
Lemma RN_above_largest : RN (largest + bpow radix2 13) < bpow radix2 1024.
Proof.
  destruct (round_N_pt radix2 (FLT_exp (-1074) 53) (fun t => negb (Z.even t)) (largest + bpow radix2 13)) as [_ H].
  specialize (H largest largest_format). fold ZnearestE in H. change (Rabs (RN (largest + bpow radix2 13) - (largest + bpow radix2 13)) <= Rabs (largest - (largest + bpow radix2 13))) in H.
  pose proof (bpow_gt_0 radix2 13). replace (largest - (largest + bpow radix2 13)) with (- bpow radix2 13) in H by ring. rewrite Rabs_Ropp, (Rabs_pos_eq (bpow radix2 13)) in H by lra.
  apply Rabs_le_inv in H. unfold largest in *. assert (bpow radix2 15 < bpow radix2 971) by (apply bpow_lt; lia).
  change (bpow radix2 15) with (IZR (4 * 8192)) in *. change (bpow radix2 13) with (IZR 8192) in *. rewrite mult_IZR in *. lra.
Qed.
Lemma add_small a b : is_num a -> bn 13 b -> is_num (f64_add a b) /\ val (f64_add a b) = RN (val a + val b).
Proof.
  intros N [M B]. apply add_num; [exact N|exact M|]. eapply Rle_lt_trans; [|exact RN_above_largest].
  unfold RN. rewrite <- round_NE_abs by (apply FLT_exp_valid; exact Hprec64). apply (RN_le (Rabs (val a + val b))). eapply Rle_trans; [apply Rabs_triang|].
  pose proof (below_largest a N). lra.
Qed.
Lemma add_small' a b : is_num a -> bn 13 b -> is_num (f64_add b a).
Proof.
  intros N [M B]. apply add_num; [exact M|exact N|]. eapply Rle_lt_trans; [|exact RN_above_largest].
  unfold RN. rewrite <- round_NE_abs by (apply FLT_exp_valid; exact Hprec64). apply (RN_le (Rabs (val b + val a))). eapply Rle_trans; [apply Rabs_triang|].
  pose proof (below_largest a N). lra.
Qed.

(** * The maximum *)
Definition fmax (acc x : f64) : f64 := if SFltb acc x then x else acc.
Lemma ltb_ninf x : is_num x -> SFltb ninf x = true /\ SFltb x ninf = false.
Proof. intros [_ G]. destruct x as [s| | |s m e]; try discriminate G; destruct s; split; reflexivity. Qed.
Lemma fmax_proper a x : proper a -> proper x -> proper (fmax a x) /\
  ((is_num a \/ is_num x) -> is_num (fmax a x)) /\ (is_num a -> val a <= val (fmax a x)) /\ (is_num x -> val x <= val (fmax a x)).
Proof.
  unfold fmax. intros [A| ->] [X| ->].
  - rewrite (SFltb_num _ _ A X). destruct (Rlt_bool_spec (val a) (val x)); repeat apply conj; try (intros; (assumption || lra)); left; assumption.
  - rewrite (proj2 (ltb_ninf a A)). repeat apply conj; try (intros; (assumption || lra)); [left; assumption|]. intros [_ G]. discriminate G.
  - rewrite (proj1 (ltb_ninf x X)). repeat apply conj; try (intros; (assumption || lra)); [left; assumption|]. intros [_ G]. discriminate G.
  - change (SFltb ninf ninf) with false. repeat apply conj; [right; reflexivity|tauto|intros [_ G]; discriminate G|intros [_ G]; discriminate G].
Qed.
Lemma max_list l a : proper a -> Forall proper l -> let m := fold_left fmax l a in proper m /\
  ((is_num a \/ Exists is_num l) -> is_num m) /\ (is_num a -> val a <= val m) /\ (forall x, In x l -> is_num x -> val x <= val m) /\ (m = a \/ In m l).
Proof.
  intros A H. revert a A. induction H as [|x l X _ IH]; intros a A; cbn [fold_left].
  - repeat apply conj; try (intros; (assumption || lra)); [|intros x []|left; reflexivity]. intros [N|N]; [exact N|inversion N].
  - destruct (fmax_proper a x A X) as (P & Q & R1 & R2). specialize (IH _ P). cbv zeta in *. destruct IH as (I1 & I2 & I3 & I4 & I5). repeat apply conj.
    + exact I1.
    + intros [N|N]; apply I2; [left; apply Q; left; exact N|]. inversion N as [? ? N'|? ? N']; subst; [left; apply Q; right; exact N'|right; exact N'].
    + intros N. specialize (R1 N). specialize (I3 (Q (or_introl N))). lra.
    + intros y [<- |Y] N; [|apply I4; assumption]. specialize (R2 N). specialize (I3 (Q (or_intror N))). lra.
    + destruct I5 as [E|E]; [|right; right; exact E]. rewrite E. unfold fmax. destruct (SFltb a x); [right; left; reflexivity|left; reflexivity].
Qed.

(** * The sum of the exponentials *)
Definition term (t : f64) : Prop := is_num t /\ - bpow radix2 (-1000) <= val t <= 2.
Definition before (a : f64) : Prop := is_num a /\ - bpow radix2 (-900) <= val a <= bpow radix2 119.
Definition after (a : f64) : Prop := is_num a /\ / 2 <= val a <= bpow radix2 119.
Lemma RN_fixed x : generic_format radix2 (FLT_exp (-1074) 53) x -> RN x = x.
Proof. intros H. apply round_generic; [apply valid_rnd_N|exact H]. Qed.
Lemma half_fixed : RN (/ 2) = / 2.
Proof. apply RN_fixed. replace (/ 2) with (bpow radix2 (-1)) by (cbn; lra). apply generic_format_bpow. unfold FLT_exp. lia. Qed.
Lemma top_fixed : forall x, x <= bpow radix2 119 + bpow radix2 13 -> RN x <= bpow radix2 119.
Proof. intros x H. eapply Rle_trans; [apply (RN_le _ _ H)|]. right. rewrite <- !IZR_Zpower by lia. rewrite <- plus_IZR. exact absorbed. Qed.
Lemma nearest_to x f : generic_format radix2 (FLT_exp (-1074) 53) f -> Rabs (RN x - x) <= Rabs (f - x).
Proof. intros H. destruct (round_N_pt radix2 (FLT_exp (-1074) 53) (fun t => negb (Z.even t)) x) as [_ K]. exact (K f H). Qed.

Definition low900 : f64 := S754_finite true 4503599627370496 (-952).
Definition low1000 : f64 := S754_finite true 4503599627370496 (-1052).
Definition half : f64 := S754_finite false 4503599627370496 (-53).
Lemma low900_val : is_num low900 /\ val low900 = - bpow radix2 (-900).
Proof.
  split; [split; reflexivity|]. unfold val, low900, SF2R. cbn [cond_Zopp]. change (Z.neg 4503599627370496) with (- Z.pos 4503599627370496)%Z. rewrite F2R_Zopp. f_equal. unfold F2R. cbn [Fnum Fexp].
  change (IZR (Z.pos 4503599627370496)) with (bpow radix2 52). rewrite <- bpow_plus. reflexivity.
Qed.
Lemma low1000_val : is_num low1000 /\ val low1000 = - bpow radix2 (-1000).
Proof.
  split; [split; reflexivity|]. unfold val, low1000, SF2R. cbn [cond_Zopp]. change (Z.neg 4503599627370496) with (- Z.pos 4503599627370496)%Z. rewrite F2R_Zopp. f_equal. unfold F2R. cbn [Fnum Fexp].
  change (IZR (Z.pos 4503599627370496)) with (bpow radix2 52). rewrite <- bpow_plus. reflexivity.
Qed.
Lemma half_val : is_num half /\ val half = / 2.
Proof.
  split; [split; reflexivity|]. unfold val, half, SF2R, F2R. cbn [cond_Zopp Fnum Fexp]. change (IZR (Z.pos 4503599627370496)) with (bpow radix2 52). rewrite <- bpow_plus. cbn. lra.
Qed.
Lemma RN_low a : is_num a -> Rabs (val a) <= 1 -> f64_add a low1000 = a -> RN (val a - bpow radix2 (-1000)) = val a.
Proof.
  intros N B E. destruct low1000_val as [M V]. assert (S : bn 13 low1000).
  { split; [exact M|]. rewrite V, Rabs_Ropp, Rabs_pos_eq by apply bpow_ge_0. apply bpow_le. lia. }
  destruct (add_small a low1000 N S) as [_ W]. rewrite E, V in W. unfold Rminus. symmetry. exact W.
Qed.
Lemma low_fixed : RN (- bpow radix2 (-900) - bpow radix2 (-1000)) = - bpow radix2 (-900).
Proof.
  destruct low900_val as [N V]. rewrite <- V. apply RN_low; [exact N| |vm_compute; reflexivity]. rewrite V, Rabs_Ropp, Rabs_pos_eq by apply bpow_ge_0. apply (bpow_le radix2 (-900) 0). lia.
Qed.
Lemma half_low : RN (/ 2 - bpow radix2 (-1000)) = / 2.
Proof. destruct half_val as [N V]. rewrite <- V. apply RN_low; [exact N| |vm_compute; reflexivity]. rewrite V, Rabs_pos_eq; lra. Qed.
Lemma two_top : 2 <= bpow radix2 13.
Proof. change 2 with (bpow radix2 1). apply bpow_le. lia. Qed.
Lemma add_term a t : is_num a -> term t -> is_num (f64_add a t) /\ val (f64_add a t) = RN (val a + val t).
Proof.
  intros N (M & L & U). apply add_small; [exact N|]. split; [exact M|]. pose proof two_top. assert (bpow radix2 (-1000) <= 1) by (apply (bpow_le radix2 (-1000) 0); lia). apply Rabs_le. lra.
Qed.
Lemma before_step a t : before a -> term t -> before (f64_add a t).
Proof.
  intros (N & A & B) T. destruct (add_term a t N T) as [K V]. destruct T as (_ & L & U). split; [exact K|]. rewrite V. pose proof two_top. split; [|apply top_fixed; lra].
  rewrite <- low_fixed. apply RN_le. lra.
Qed.
Lemma main_step a t : before a -> term t -> 3/4 <= val t -> after (f64_add a t).
Proof.
  intros (N & A & B) T G. destruct (add_term a t N T) as [K V]. destruct T as (_ & L & U). split; [exact K|]. rewrite V. pose proof two_top. split; [|apply top_fixed; lra].
  rewrite <- half_fixed at 1. apply RN_le. assert (bpow radix2 (-900) <= bpow radix2 (-2)) by (apply bpow_le; lia). change (bpow radix2 (-2)) with (/ 4) in *. lra.
Qed.
Lemma after_step a t : after a -> term t -> after (f64_add a t).
Proof.
  intros (N & A & B) T. destruct (add_term a t N T) as [K V]. destruct T as (_ & L & U). split; [exact K|]. rewrite V. pose proof two_top. split; [|apply top_fixed; lra].
  rewrite <- half_low. apply RN_le. lra.
Qed.
Lemma after_sum l a : after a -> Forall term l -> after (fold_left f64_add l a).
Proof. intros A H. revert a A. induction H as [|t l T _ IH]; intros a A; cbn [fold_left]; [exact A|]. apply IH, after_step; assumption. Qed.
Lemma whole_sum l a : before a -> Forall term l -> Exists (fun t => 3/4 <= val t) l -> after (fold_left f64_add l a).
Proof.
  intros A H. revert a A. induction H as [|t l T H IH]; intros a A E; cbn [fold_left]; [inversion E|].
  inversion E as [? ? G|? ? G]; subst; [apply after_sum; [apply main_step; assumption|exact H]|]. apply IH; [apply before_step; assumption|exact G].
Qed.

(** * log-sum-exp *)
Section LSE.
Context (c : R) (lg : R -> R) (L : libm) (LOK : libm_ok c lg L) (C0 : 0 <= c <= 1000000) (LE : ln_edges L) (EE : l_exp L ninf = S754_zero false).
Let F := F64 L.
Lemma exp_nonpositive d : is_num d -> val d <= 0 -> term (l_exp L d) /\ (val d = 0 -> 3/4 <= val (l_exp L d)).
Proof.
  intros N D. destruct (ok_exp c lg L LOK d N ltac:(lra)) as [M E].
  assert (X1 : exp (val d) <= 1). { rewrite <- exp_0. destruct (Rle_lt_or_eq_dec _ _ D) as [H| ->]; [left; apply exp_increasing, H|lra]. }
  pose proof (exp_pos (val d)) as X0. assert (S : 0 < small <= / 1000). { unfold small. split; [apply bpow_gt_0|]. eapply Rle_trans; [apply (bpow_le radix2 (-1000) (-10)); lia|]. cbn. lra. }
  assert (CE : 0 <= c * eps <= / 1000). { unfold eps. split; [apply Rmult_le_pos; [lra|]; left; apply Rinv_0_lt_compat; lra|]. lra. }
  assert (B : c * eps * (exp (val d) + small) <= / 1000 * exp (val d) + small).
  { rewrite Rmult_plus_distr_l. apply Rplus_le_compat; [apply Rmult_le_compat_r; lra|]. rewrite <- (Rmult_1_l small) at 2. apply Rmult_le_compat_r; lra. }
  apply Rabs_le_inv in E. split; [split; [exact M|]; unfold small in *; lra|]. intros Z. rewrite Z, exp_0 in *. lra.
Qed.
Lemma exp_term x m : proper x -> is_num m -> (is_num x -> val x <= val m) -> term (l_exp L (f64_sub x m)) /\ (x = m -> 3/4 <= val (l_exp L (f64_sub x m))).
Proof.
  assert (Z : term (S754_zero false)). { split; [split; reflexivity|]. change (val (S754_zero false)) with 0. pose proof (bpow_ge_0 radix2 (-1000)). lra. }
  intros [N| ->] M H; [|rewrite sub_ninf by exact M; rewrite EE; split; [exact Z|intros <-; destruct M as [_ M]; discriminate M]].
  specialize (H N). destruct (sub_total x m N M) as [[K V]|[O [(E & A & B)|(E & A & B)]]].
  - assert (D : val (f64_sub x m) <= 0). { rewrite V. rewrite <- RN_0. apply RN_le. lra. }
    destruct (exp_nonpositive _ K D) as [T G]. split; [exact T|]. intros <-. apply G. rewrite V, Rminus_eq_0. apply RN_0.
  - exfalso. assert (val x - val m = 0) by lra. rewrite H0, RN_0, Rabs_R0 in O. pose proof (bpow_gt_0 radix2 1024). lra.
  - rewrite E, EE. split; [exact Z|]. intros <-. exfalso. rewrite Rminus_eq_0, RN_0, Rabs_R0 in O. pose proof (bpow_gt_0 radix2 1024). lra.
Qed.
Lemma lse_unfold (l : list f64) m : l <> [] -> fold_left fmax l ninf = m -> is_num m ->
  @log_sum_exp F l = f64_add m (l_ln L (fold_left f64_add (map (fun x => l_exp L (f64_sub x m)) l) (f64_of_Z 0))).
Proof.
  intros NE E M. destruct l as [|x l]; [contradiction|].
  change (@log_sum_exp F (x :: l)) with (if SFeqb (fold_left fmax (x :: l) ninf) ninf then ninf else
    f64_add (fold_left fmax (x :: l) ninf) (l_ln L (fold_left f64_add (map (fun y => l_exp L (f64_sub y (fold_left fmax (x :: l) ninf))) (x :: l)) (f64_of_Z 0)))).
  rewrite E. replace (SFeqb m ninf) with false; [reflexivity|]. destruct M as [_ G]. destruct m as [s| | |s p e]; try discriminate G; destruct s; reflexivity.
Qed.
Lemma lse_finite (l : list f64) : Forall proper l -> Exists is_num l -> is_num (@log_sum_exp F l).
Proof.
  intros H E. destruct (max_list l ninf (or_intror eq_refl) H) as (_ & N & _ & U & I). cbv zeta in *. specialize (N (or_intror E)). set (m := fold_left fmax l ninf) in *.
  rewrite (lse_unfold l m); [|intros ->; inversion E|reflexivity|exact N]. apply add_small; [exact N|].
  apply (bn_more 11); [|lia]. destruct I as [I|I]; [rewrite I in N; destruct N as [_ N]; discriminate N|]. rewrite Forall_forall in H.
  destruct zero_num as [N0 V0]. destruct (whole_sum (map (fun x => l_exp L (f64_sub x m)) l) (f64_of_Z 0)) as (K & A & B).
  - split; [exact N0|]. rewrite V0. pose proof (bpow_ge_0 radix2 (-900)). pose proof (bpow_ge_0 radix2 119). lra.
  - apply Forall_forall. intros t T. apply in_map_iff in T. destruct T as (x & <- & X). apply exp_term; [apply H, X|exact N|intros NX; exact (U x X NX)].
  - apply Exists_exists. exists (l_exp L (f64_sub m m)). split; [apply (in_map (fun x => l_exp L (f64_sub x m)) l m I)|]. apply exp_term; [left; exact N|exact N|intros _; lra|reflexivity].
  - apply (bn_ln c lg L LOK C0); [exact K|lra].
Qed.
Lemma lse_empty (l : list f64) : Forall (eq ninf) l -> @log_sum_exp F l = ninf.
Proof.
  intros H. destruct l as [|x l]; [reflexivity|].
  assert (E : fold_left fmax (x :: l) ninf = ninf). { clear -H. induction H as [|y l' <- _ IH]; [reflexivity|]. exact IH. }
  change (@log_sum_exp F (x :: l)) with (if SFeqb (fold_left fmax (x :: l) ninf) ninf then ninf else
    f64_add (fold_left fmax (x :: l) ninf) (l_ln L (fold_left f64_add (map (fun y => l_exp L (f64_sub y (fold_left fmax (x :: l) ninf))) (x :: l)) (f64_of_Z 0)))).
  rewrite E. reflexivity.
Qed.
Lemma lse_spec (l : list f64) : Forall proper l -> (Exists is_num l /\ is_num (@log_sum_exp F l)) \/ (Forall (eq ninf) l /\ @log_sum_exp F l = ninf).
Proof.
  intros H. assert (D : Exists is_num l \/ Forall (eq ninf) l).
  { clear -H. induction H as [|x l [X|X] _ IH]; [right; constructor|left; left; exact X|]. destruct IH as [IH|IH]; [left; right; exact IH|right; constructor; [symmetry; exact X|exact IH]]. }
  destruct D as [D|D]; [left; split; [exact D|apply lse_finite; assumption]|right; split; [exact D|apply lse_empty, D]].
Qed.

(** * Mixtures *)
Lemma weighted_term w d : is_num w -> 0 <= val w -> proper d ->
  (0 < val w /\ is_num d /\ is_num (f64_add (l_ln L w) d)) \/ ((val w = 0 \/ d = ninf) /\ f64_add (l_ln L w) d = ninf).
Proof.
  intros N P D. destruct (Rle_lt_or_eq_dec _ _ P) as [H|H].
  - pose proof (bn_ln c lg L LOK C0 w N H) as B. destruct D as [D| ->]; [left|right].
    + split; [exact H|]. split; [exact D|]. apply add_small'; [exact D|apply (bn_more 11); [exact B|lia]].
    + split; [right; reflexivity|]. apply (proj1 (add_ninf _ (proj1 B))).
  - right. split; [left; symmetry; exact H|]. assert (E : l_ln L w = ninf).
    { destruct N as [_ G]. destruct w as [s| | |s m e]; try discriminate G; [apply (proj2 LE)|]. exfalso. symmetry in H. unfold val, SF2R in H. apply eq_0_F2R in H. cbn in H. destruct s; discriminate H. }
    rewrite E. destruct D as [D| ->]; [apply (proj2 (add_ninf d D))|reflexivity].
Qed.
Lemma mixture_proper {X} (cs : list (Measure F X)) (ws : list f64) (x : X) : Forall (fun w => is_num w /\ 0 <= val w) ws -> Forall (fun m : Measure F X => proper (b_ld (m_self m) x)) cs ->
  let contributes (mw : Measure F X * f64) := 0 < val (snd mw) /\ is_num (b_ld (m_self (fst mw)) x) in
  (Exists contributes (combine cs ws) -> is_num (mixture_ld (@mkMixture F X cs ws) x)) /\
  (~ Exists contributes (combine cs ws) -> mixture_ld (@mkMixture F X cs ws) x = ninf).
Proof.
  intros W C contributes. set (T := map (fun mw : Measure F X * f64 => f64_add (l_ln L (snd mw)) (b_ld (m_self (fst mw)) x)) (combine cs ws)).
  assert (E : mixture_ld (@mkMixture F X cs ws) x = @log_sum_exp F T). { destruct cs; reflexivity. }
  assert (A : forall mw, In mw (combine cs ws) -> is_num (snd mw) /\ 0 <= val (snd mw) /\ proper (b_ld (m_self (fst mw)) x)).
  { intros [m w] I. rewrite Forall_forall in W, C. destruct (W w (in_combine_r _ _ _ _ I)) as [W1 W2]. split; [exact W1|]. split; [exact W2|]. exact (C m (in_combine_l _ _ _ _ I)). }
  assert (P : Forall proper T).
  { apply Forall_forall. intros t I. apply in_map_iff in I. destruct I as (mw & <- & I). destruct (A mw I) as (A1 & A2 & A3). destruct (weighted_term _ _ A1 A2 A3) as [(_ & _ & K)|[_ K]]; [left; exact K|right; exact K]. }
  rewrite E. split; intros H.
  - apply lse_finite; [exact P|]. apply Exists_exists in H. destruct H as (mw & I & H1 & H2). apply Exists_exists. eexists. split; [apply in_map_iff; exists mw; split; [reflexivity|exact I]|].
    destruct (A mw I) as (A1 & A2 & A3). destruct (weighted_term _ _ A1 A2 A3) as [(_ & _ & K)|[[Z|Z] _]]; [exact K|lra|]. rewrite Z in H2. destruct H2 as [_ H2]. discriminate H2.
  - apply lse_empty. apply Forall_forall. intros t I. apply in_map_iff in I. destruct I as (mw & <- & I). destruct (A mw I) as (A1 & A2 & A3).
    destruct (weighted_term _ _ A1 A2 A3) as [(K1 & K2 & _)|[_ K]]; [|symmetry; exact K]. exfalso. apply H. apply Exists_exists. exists mw. split; [exact I|split; assumption].
Qed.
End LSE.

(** * NaN terms *)
Lemma lse_all_nan L n : @log_sum_exp (F64 L) (repeat S754_nan n) = ninf.
Proof.
  destruct n as [|n]; [reflexivity|]. change (repeat S754_nan (S n)) with (S754_nan :: repeat S754_nan n).
  assert (E : fold_left fmax (S754_nan :: repeat S754_nan n) ninf = ninf). { cbn [fold_left]. change (fmax ninf S754_nan) with ninf. induction n as [|n IH]; [reflexivity|exact IH]. }
  change (@log_sum_exp (F64 L) (S754_nan :: repeat S754_nan n)) with (if SFeqb (fold_left fmax (S754_nan :: repeat S754_nan n) ninf) ninf then ninf else
    f64_add (fold_left fmax (S754_nan :: repeat S754_nan n) ninf) (l_ln L (fold_left f64_add (map (fun y => l_exp L (f64_sub y (fold_left fmax (S754_nan :: repeat S754_nan n) ninf))) (S754_nan :: repeat S754_nan n)) (f64_of_Z 0)))).
  rewrite E. reflexivity.
Qed.
Lemma add_nan a : f64_add a S754_nan = S754_nan.
Proof. destruct a as [[]|[]| |[] m e]; reflexivity. Qed.
Lemma mixture_all_nan L {X} (cs : list (Measure (F64 L) X)) ws (x : X) : Forall (fun m : Measure (F64 L) X => b_ld (m_self m) x = S754_nan) cs ->
  mixture_ld (@mkMixture (F64 L) X cs ws) x = ninf.
Proof.
  intros H. assert (E : mixture_ld (@mkMixture (F64 L) X cs ws) x = @log_sum_exp (F64 L) (map (fun mw : Measure (F64 L) X * f64 => f64_add (l_ln L (snd mw)) (b_ld (m_self (fst mw)) x)) (combine cs ws))) by (destruct cs; reflexivity).
  rewrite E. replace (map _ (combine cs ws)) with (repeat S754_nan (length (combine cs ws))); [apply lse_all_nan|]. clear E. rewrite <- (map_id (combine cs ws)) at 1. rewrite map_length.
  revert ws. induction H as [|m cs M _ IH]; intros [|w ws]; try reflexivity. cbn [combine map length repeat fst snd]. rewrite M. f_equal; [symmetry; apply add_nan|apply IH].
Qed.

(** A library with these edges. *)
Definition edged_exp (L : libm) : libm :=
  {| l_ln := l_ln L; l_exp := fun x => match x with S754_infinity true => S754_zero false | _ => l_exp L x end;
     l_pow := l_pow L; l_sin := l_sin L; l_cos := l_cos L; l_lgamma := l_lgamma L |}.
Lemma edged_exp_ok c lg L : libm_ok c lg L -> ln_edges L -> libm_ok c lg (edged_exp L) /\ ln_edges (edged_exp L) /\ l_exp (edged_exp L) ninf = S754_zero false.
Proof.
  intros K E. split; [|split; [exact E|reflexivity]]. split; cbn [edged_exp l_ln l_exp l_pow l_sin l_cos l_lgamma]; try apply K.
  intros x N P. destruct x as [b|[|]| |b m e]; try (apply K; assumption). destruct N as [_ N]; discriminate N.
Qed.
