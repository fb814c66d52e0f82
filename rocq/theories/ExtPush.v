(** Pushforwards, products and reweighted measures at extreme arguments (C76). *)
From Coq Require Import ZArith Reals Bool List Lia Lra.
From Coq Require Import Floats.SpecFloat.
From Flocq Require Import Core IEEE754.BinarySingleNaN.
From Verif Require Import Num JitModel EggSpec LitFacts EggNum FloatFacts FloatErr JitAcc JitAcc2 AccSpec AccProofs RoundSpec RoundProofs RelErr
  DensitySpec CoreModel CombModel ExpFamModel DistModel DistSpec DistFacts BuilderProofs DistProofs DistFloat CombFloat2 ExtSpec ExtFloat ExtSum ExtMix.
Import ListNotations.
Local Open Scope R_scope.

#[local] Instance Hprec64 : FLX.Prec_gt_0 53 := eq_refl _.
#[local] Instance Hmax64 : Prec_lt_emax 53 1024 := eq_refl _.

(** * Sums *)
Lemma proper_shift a b : proper a -> bn 13 b -> proper (f64_add a b) /\ (is_num a -> is_num (f64_add a b)) /\ (a = ninf -> f64_add a b = ninf).
Proof.
  intros A B. assert (H : is_num a -> is_num (f64_add a b)) by (intros N; apply (proj1 (add_small a b N B))).
  assert (G : a = ninf -> f64_add a b = ninf) by (intros ->; apply (proj2 (add_ninf b (proj1 B)))).
  split; [|split; assumption]. destruct A as [A|A]; [left; apply H, A|right; apply G, A].
Qed.
Lemma capped_add a b : capped a -> capped b -> proper (f64_add a b).
Proof.
  intros [-> |[N A]] [-> |[M B]]; [right; reflexivity|right; apply (proj2 (add_ninf b M))|right; apply (proj1 (add_ninf a N))|].
  destruct (add_total a b N M) as [[K V]|[O [(_ & A0 & B0)|(E & _)]]]; [left; exact K| |right; exact E].
  exfalso. assert (S : bn 13 b) by (split; [exact M|rewrite Rabs_pos_eq; assumption]). pose proof (below_largest a N) as Q.
  assert (Rabs (RN (val a + val b)) < bpow radix2 1024); [|lra].
  eapply Rle_lt_trans; [|exact RN_above_largest]. unfold RN. rewrite <- round_NE_abs by (apply FLT_exp_valid; exact Hprec64). apply (RN_le (Rabs (val a + val b))). eapply Rle_trans; [apply Rabs_triang|]. destruct S as [_ S]. lra.
Qed.
Lemma proper_capped a : proper a -> (is_num a -> val a <= bpow radix2 13) -> capped a.
Proof. intros [N|E] H; [right; split; [exact N|apply H, N]|left; exact E]. Qed.

(** * The normal at an infinity *)
Section Push.
Context (c : R) (lg : R -> R) (L : libm) (LOK : libm_ok c lg L) (C0 : 0 <= c <= 1000000) (LE : ln_edges L).
Let F := F64 L.
Lemma normal_at_infinity mu sd s : is_num mu -> is_num sd -> 0 < val sd -> normal_ld (@mkNormal F mu sd) (S754_infinity s) = ninf.
Proof.
  intros NM NS P. pose proof (normal_front c lg L LOK C0 sd NS P) as [NF _].
  change (f64_sub (f64_sub (f64_mul (SFopp (f64_dec 5 10)) (l_ln L (f64_mul (f64_of_Z 2) f64_pi))) (l_ln L sd))
    (f64_mul (f64_mul (f64_dec 5 10) (f64_div (f64_sub (S754_infinity s) mu) sd)) (f64_div (f64_sub (S754_infinity s) mu) sd)) = ninf).
  assert (Z : f64_div (f64_sub (S754_infinity s) mu) sd = S754_infinity s).
  { destruct (mul_pinf sd NS P) as [E _]. destruct NM as [_ M], NS as [_ S]. destruct mu as [a| | |a m e]; try discriminate M; destruct sd as [b| | |b k f]; try discriminate S; try discriminate E; destruct b; try discriminate E; destruct s; reflexivity. }
  rewrite Z. set (front := f64_sub (f64_mul _ _) _) in *. replace (f64_mul (f64_mul (f64_dec 5 10) (S754_infinity s)) (S754_infinity s)) with pinf by (destruct s; vm_compute; reflexivity).
  destruct NF as [_ G]. clearbody front. destruct front as [b| | |b m e]; try discriminate G; reflexivity.
Qed.

(** ** Through exp (log-normal) *)
Lemma exp_push mu sd y : is_num mu -> is_num sd -> 0 < val sd -> is_num y -> 0 < val y -> proper (push_ld (normal_base (@mkNormal F mu sd)) exp_transform y).
Proof.
  intros NM NS P NY Y. pose proof (bn_ln c lg L LOK C0 y NY Y) as B.
  change (proper (f64_add (normal_ld (@mkNormal F mu sd) (l_ln L y)) (SFopp (l_ln L y)))).
  apply proper_shift; [apply (normal_proper c lg L LOK C0); try assumption; left; apply B|]. apply bn_neg. apply (bn_more 11); [exact B|lia].
Qed.
Lemma exp_push_ends mu sd : is_num mu -> is_num sd -> 0 < val sd ->
  push_ld (normal_base (@mkNormal F mu sd)) exp_transform pinf = ninf /\
  (forall s, push_ld (normal_base (@mkNormal F mu sd)) exp_transform (S754_zero s) = S754_nan).
Proof.
  intros NM NS P. split; [|intros s].
  - change (f64_add (normal_ld (@mkNormal F mu sd) (l_ln L pinf)) (SFopp (l_ln L pinf)) = ninf). rewrite (proj1 LE). unfold pinf. rewrite normal_at_infinity by assumption. reflexivity.
  - change (f64_add (normal_ld (@mkNormal F mu sd) (l_ln L (S754_zero s))) (SFopp (l_ln L (S754_zero s))) = S754_nan). rewrite (proj2 LE). unfold ninf. rewrite normal_at_infinity by assumption. reflexivity.
Qed.

(** ** Through a linear map *)
Lemma any_residual y b a : not_nan y -> is_num b -> is_num a -> val a <> 0 -> not_nan (f64_div (f64_sub y b) a).
Proof.
  intros Y B A Z.
  assert (D : inf_or_num (f64_sub y b)).
  { destruct Y as [N|[-> | ->]].
    - destruct (sub_total y b N B) as [[K _]|[_ [(E & _)|(E & _)]]]; [left; exact K|right; eexists; exact E|right; eexists; exact E].
    - right. exists false. destruct B as [_ G]. destruct b; try discriminate G; reflexivity.
    - right. exists true. apply sub_ninf, B. }
  destruct D as [N|[t E]].
  - destruct (div_total _ a N A Z) as [[K _]|[_ [(E & _)|(E & _)]]]; [left; exact K|right; left; exact E|right; right; exact E].
  - rewrite E. destruct A as [_ G]. destruct a as [u| | |u k e]; try discriminate G; [cbn in Z; contradiction|]. right. destruct t, u; [left|right|right|left]; reflexivity.
Qed.
Lemma abs_ln a : is_num a -> val a <> 0 -> bn 11 (l_ln L (SFabs a)).
Proof. intros N Z. destruct (CombFloat2.abs_num a N) as [K V]. apply (bn_ln c lg L LOK C0); [exact K|]. rewrite V. apply Rabs_pos_lt, Z. Qed.
Lemma linear_push (m : Base F f64) a b y : is_num a -> val a <> 0 -> is_num b -> not_nan y -> (forall x, not_nan x -> proper (b_ld m x)) ->
  proper (@push_ld F m (@linear_transform F a b) y).
Proof.
  intros A Z B Y H. change (proper (f64_add (b_ld m (f64_div (f64_sub y b) a)) (SFopp (l_ln L (SFabs a))))).
  apply proper_shift; [apply H, any_residual; assumption|]. apply bn_neg, (bn_more 11); [apply abs_ln; assumption|lia].
Qed.

(** ** Through ln *)
Context (EX : exp_edges L).
Lemma exp_not_nan y : not_nan y -> not_nan (l_exp L y).
Proof.
  destruct EX as (EL & EH & EM). intros [N|[-> | ->]]; [|rewrite EH; right; left; reflexivity|rewrite EL; left; split; reflexivity].
  destruct (Rle_lt_dec (val y) 709) as [H|H]; [left; apply (ok_exp c lg L LOK y N H)|]. destruct (EM y N H) as [[K _]|E]; [left; exact K|right; left; exact E].
Qed.
Lemma log_push rate y : is_num rate -> 0 < val rate -> (is_num y \/ y = ninf) -> proper (push_ld (exponential_base (@mkExponential F rate)) log_transform y).
Proof.
  intros NR P Y. assert (NN : not_nan y) by (destruct Y as [Y|Y]; [left; exact Y|right; right; exact Y]).
  pose proof (exponential_capped c lg L LOK C0 rate _ NR P (exp_not_nan y NN)) as C.
  change (proper (f64_add (@exponential_ld (F64 L) (@mkExponential (F64 L) rate) (l_exp L y)) y)).
  change (capped (@exponential_ld (F64 L) (@mkExponential (F64 L) rate) (l_exp L y))) in C.
  set (d := @exponential_ld (F64 L) (@mkExponential (F64 L) rate) (l_exp L y)) in *. clearbody d. destruct Y as [Y| ->].
  - destruct C as [-> |[K B]]; [right; apply (proj2 (add_ninf y Y))|].
    destruct (Rle_lt_dec (val y) (bpow radix2 13)) as [H|H]; [apply capped_add; [right; split; assumption|right; split; assumption]|].
    destruct (add_total _ y K Y) as [[Q _]|[O [(E & A0 & B0)|(E & _)]]]; [left; exact Q| |right; exact E].
    left. assert (S : bn 13 d) by (split; [exact K|rewrite Rabs_pos_eq; assumption]). exact (add_small' y _ Y S).
  - right. destruct C as [-> |[K B]]; [reflexivity|]. apply (proj1 (add_ninf _ K)).
Qed.
Lemma log_push_end rate : is_num rate -> 0 < val rate -> push_ld (exponential_base (@mkExponential F rate)) log_transform pinf = S754_nan.
Proof.
  intros NR P. change (f64_add (exponential_ld (@mkExponential F rate) (l_exp L pinf)) pinf = S754_nan). rewrite (proj1 (proj2 EX)).
  change (exponential_ld (@mkExponential F rate) pinf) with (f64_sub (l_ln L rate) (f64_mul rate pinf)). rewrite (proj1 (mul_pinf rate NR P)).
  destruct (bn_ln c lg L LOK C0 rate NR P) as [[_ G] _]. destruct (l_ln L rate) as [s| | |s m e]; try discriminate G; reflexivity.
Qed.
End Push.

(** * Products and reweighted measures *)
Lemma product_proper L {X Y} (m1 : Measure (F64 L) X) (m2 : Measure (F64 L) Y) x y : capped (b_ld (m_self m1) x) -> capped (b_ld (m_self m2) y) -> proper (b_ld (m_self (product m1 m2)) (x, y)).
Proof. intros A B. exact (capped_add _ _ A B). Qed.
Lemma weighted_proper L {X} (m : Measure (F64 L) X) w x : is_num w -> Rabs (val w) <= bpow radix2 13 -> proper (b_ld (m_self m) x) ->
  proper (b_ld (m_self (CombModel.weighted m w)) x) /\ (is_num (b_ld (m_self (CombModel.weighted m w)) x) <-> is_num (b_ld (m_self m) x)).
Proof.
  intros W B H. change (proper (f64_add w (b_ld (m_self m) x)) /\ (is_num (f64_add w (b_ld (m_self m) x)) <-> is_num (b_ld (m_self m) x))).
  destruct H as [H|H]; [|rewrite H, (proj1 (add_ninf w W)); split; [right; reflexivity|tauto]].
  pose proof (add_small' _ w H (conj W B)) as K. split; [left; exact K|tauto].
Qed.

(** A library with these edges. *)
Definition edged_top (L : libm) : libm :=
  {| l_ln := l_ln L; l_exp := fun x => match x with S754_infinity true => S754_zero false | S754_infinity false => pinf | _ => if SFltb (f64_of_Z 709) x then pinf else l_exp L x end;
     l_pow := l_pow L; l_sin := l_sin L; l_cos := l_cos L; l_lgamma := l_lgamma L |}.
Lemma top_num : is_num (f64_of_Z 709) /\ val (f64_of_Z 709) = 709.
Proof. apply (num_int 709). vm_compute. discriminate. Qed.
Lemma edged_top_ok c lg L : libm_ok c lg L -> ln_edges L -> libm_ok c lg (edged_top L) /\ ln_edges (edged_top L) /\ exp_edges (edged_top L).
Proof.
  intros K E. destruct top_num as [N9 V9].
  assert (X : forall x, is_num x -> l_exp (edged_top L) x = if Rlt_bool 709 (val x) then pinf else l_exp L x).
  { intros x N. rewrite <- V9, <- (SFltb_num _ _ N9 N). destruct N as [_ G]. destruct x as [s| | |s m e]; try discriminate G; reflexivity. }
  split; [|split; [exact E|]].
  - split; try apply K. intros x N P. rewrite (X x N). rewrite Rlt_bool_false by exact P. apply K; assumption.
  - split; [reflexivity|]. split; [reflexivity|]. intros x N P. rewrite (X x N), Rlt_bool_true by exact P. right. reflexivity.
Qed.
