(** Log-densities of independent samples of any length at extreme arguments
    (C76). *)
From Coq Require Import ZArith Reals Bool List Lia Lra.
From Coq Require Import Floats.SpecFloat.
From Flocq Require Import Core IEEE754.BinarySingleNaN.
From Verif Require Import Num JitModel EggSpec LitFacts EggNum FloatFacts FloatErr JitAcc JitAcc2 AccSpec AccProofs RoundSpec RoundProofs RelErr
  DensitySpec CoreModel CombModel ExpFamModel DistModel DistSpec DistFacts BuilderProofs DistProofs DistFloat ExtSpec ExtFloat.
Import ListNotations.
Local Open Scope R_scope.

#[local] Instance Hprec64 : FLX.Prec_gt_0 53 := eq_refl _.
#[local] Instance Hmax64 : Prec_lt_emax 53 1024 := eq_refl _.

Definition capped (r : f64) : Prop := r = ninf \/ (is_num r /\ val r <= bpow radix2 13).
Definition partial_sum (r : f64) : Prop := r = ninf \/ (is_num r /\ val r <= bpow radix2 119).
Lemma RN_le x y : x <= y -> RN x <= RN y.
Proof. intros H. apply round_le; [apply FLT_exp_valid; exact Hprec64|apply valid_rnd_N|exact H]. Qed.
Lemma step a b : partial_sum a -> capped b -> partial_sum (f64_add a b).
Proof.
  intros [-> |[N A]] [-> |[M B]].
  - left. reflexivity.
  - left. apply (proj2 (add_ninf b M)).
  - left. apply (proj1 (add_ninf a N)).
  - assert (U : RN (val a + val b) <= bpow radix2 119).
    { eapply Rle_trans; [apply (RN_le _ (bpow radix2 119 + bpow radix2 13)); lra|]. right. rewrite <- !IZR_Zpower by lia. rewrite <- plus_IZR. exact absorbed. }
    destruct (add_total a b N M) as [[K V]|[O [(_ & A0 & B0)|(E & _)]]]; [right; split; [exact K|rewrite V; exact U]| |left; exact E].
    exfalso. rewrite Rabs_pos_eq in O by (apply RN_pos; lra). assert (bpow radix2 119 < bpow radix2 1024) by (apply bpow_lt; lia). lra.
Qed.
Lemma sum_partial l a : Forall capped l -> partial_sum a -> partial_sum (fold_left f64_add l a).
Proof. intros H. revert a. induction H as [|b l B _ IH]; intros a A; cbn [fold_left]; [exact A|]. apply IH, step; assumption. Qed.
Lemma sum_proper l : Forall capped l -> proper (fold_left f64_add l (f64_of_Z 0)).
Proof.
  intros H. destruct zero_num as [N0 V0]. destruct (sum_partial l (f64_of_Z 0) H) as [E|[N _]]; [|right; exact E|left; exact N].
  right. split; [exact N0|]. rewrite V0. apply bpow_ge_0.
Qed.
Lemma sub_capped a u : bn 13 a -> up u -> capped (f64_sub a u).
Proof.
  intros [N A] U. destruct (sub_up a u N U) as [K|E]; [|left; exact E]. right. split; [exact K|].
  destruct U as [[M P]| ->]; [|destruct N as [_ G]; destruct K as [_ K]; destruct a; try discriminate G; discriminate K].
  destruct (sub_total a u N M) as [[_ V]|[_ [(E & _)|(E & _)]]]; [|rewrite E in K; destruct K as [_ K]; discriminate K..].
  rewrite V. eapply Rle_trans; [apply (RN_le _ (val a)); lra|]. rewrite num_format by exact N. pose proof (Rle_abs (val a)). lra.
Qed.
Lemma bn_capped e a : (e <= 13)%Z -> bn e a -> capped a.
Proof. intros E [N B]. right. split; [exact N|]. pose proof (Rle_abs (val a)). assert (bpow radix2 e <= bpow radix2 13) by (apply bpow_le, E). lra. Qed.

Section Caps.
Context (c : R) (lg : R -> R) (L : libm) (LOK : libm_ok c lg L) (C0 : 0 <= c <= 1000000) (LE : ln_edges L).
Let F := F64 L.
Lemma normal_capped mu sd x : is_num mu -> is_num sd -> 0 < val sd -> not_nan x -> capped (normal_ld (@mkNormal F mu sd) x).
Proof.
  intros NM NS P X. apply (sub_capped _ _ (bn_more 12 13 _ (normal_front c lg L LOK C0 sd NS P) ltac:(lia))). apply half_square, residual; assumption.
Qed.
Lemma cauchy_capped loc sc x : is_num loc -> is_num sc -> 0 < val sc -> not_nan x -> capped (cauchy_ld (@mkCauchy F loc sc) x).
Proof.
  intros NM NS P X. destruct (cauchy_proper c lg L LOK C0 LE loc sc x NM NS P X) as [K|E]; [|left; exact E].
  pose proof pi_bounds as PB. assert (BP : bn 11 (l_ln L f64_pi)) by (apply (bn_ln c lg L LOK C0); [apply num_pi|rewrite val_pi; lra]).
  pose proof (bn_ln c lg L LOK C0 sc NS P) as BS. pose proof (square _ (residual x loc sc X NM NS P)) as U. revert K.
  change (is_num (f64_sub (f64_sub (SFopp (l_ln L (f64_add (f64_of_Z 1) (f64_mul (f64_div (f64_sub x loc) sc) (f64_div (f64_sub x loc) sc))))) (l_ln L sc)) (l_ln L f64_pi)) ->
    capped (f64_sub (f64_sub (SFopp (l_ln L (f64_add (f64_of_Z 1) (f64_mul (f64_div (f64_sub x loc) sc) (f64_div (f64_sub x loc) sc))))) (l_ln L sc)) (l_ln L f64_pi))).
  destruct (one_up _ U) as [[K V]| ->].
  - intros _. apply (bn_capped 13); [lia|]. apply (bn_sub 12 _ _ ltac:(lia)); [|apply (bn_more 11); [exact BP|lia]].
    apply (bn_sub 11 _ _ ltac:(lia)); [|exact BS]. apply bn_neg, (bn_ln c lg L LOK C0); [exact K|]. eapply Rlt_le_trans; [|exact V]. lra.
  - rewrite (proj1 LE). change (SFopp pinf) with ninf. rewrite sub_ninf by apply BS. rewrite sub_ninf by apply BP. intros _. left. reflexivity.
Qed.
Lemma exponential_capped rate x : is_num rate -> 0 < val rate -> not_nan x -> capped (exponential_ld (@mkExponential F rate) x).
Proof.
  intros NR P X. change (capped (if @nleb (F64 L) n0 x then f64_sub (l_ln L rate) (f64_mul rate x) else ninf)). destruct (guard_le L x X) as [[-> U]| ->]; [|left; reflexivity].
  apply sub_capped; [apply (bn_more 11); [apply (bn_ln c lg L LOK C0); assumption|lia]|].
  destruct U as [[N Q]| ->]; [apply mul_up; [exact NR|lra|exact N|exact Q]|]. right. apply mul_pinf; assumption.
Qed.
Lemma ln_capped p : is_num p -> 0 <= val p -> capped (l_ln L p).
Proof.
  intros N P. destruct (Rle_lt_or_eq_dec _ _ P) as [H|H]; [apply (bn_capped 11); [lia|apply (bn_ln c lg L LOK C0); assumption]|]. left.
  destruct N as [_ G]. destruct p as [s| | |s m e]; try discriminate G; [apply (proj2 LE)|]. exfalso. symmetry in H. unfold val, SF2R in H.
  apply eq_0_F2R in H. cbn in H. destruct s; discriminate H.
Qed.
Lemma bernoulli_capped p k : is_num p -> 0 <= val p <= 1 -> capped (bernoulli_ld (@mkBernoulli F p) k).
Proof.
  intros N P. destruct k as [|[|k]]; [|exact (ln_capped p N (proj1 P))|left; reflexivity].
  destruct (one_minus p N P) as [K V]. exact (ln_capped _ K V).
Qed.
Lemma categorical_capped ps k : Forall (fun p => is_num p /\ 0 <= val p) ps -> capped (categorical_ld (@mkCategorical F ps) k).
Proof.
  intros H. change (capped (if (k <? length ps)%nat then l_ln L (nth k ps (f64_of_Z 0)) else ninf)). destruct (k <? length ps)%nat eqn:K; [|left; reflexivity]. apply Nat.ltb_lt in K.
  assert (Q : is_num (nth k ps (f64_of_Z 0)) /\ 0 <= val (nth k ps (f64_of_Z 0))) by (rewrite Forall_forall in H; apply H, nth_In, K).
  exact (ln_capped _ (proj1 Q) (proj2 Q)).
Qed.
Lemma sample_proper {X} (b : Base F X) xs : (forall x, In x xs -> capped (b_ld b x)) -> proper (iid_log_density_fallback b xs).
Proof. intros H. apply sum_proper. apply Forall_forall. intros y Y. apply in_map_iff in Y. destruct Y as (x & <- & I). apply H, I. Qed.
End Caps.
