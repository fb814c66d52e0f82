(** The exponential-family path of the normal rises away from its mean (C77). *)
From Coquelicot Require Import Coquelicot.
From Coq Require Import ZArith Reals Bool List Lia Lra.
From Coq Require Import Floats.SpecFloat.
From Flocq Require Import Core IEEE754.BinarySingleNaN.
From Verif Require Import Num JitModel EggSpec LitFacts EggNum FloatFacts FloatErr JitAcc JitAcc2 AccSpec AccProofs RoundSpec RoundProofs RelErr
  DensitySpec CoreModel CombModel ExpFamModel DistModel DistSpec DistFacts BuilderProofs DistProofs DistFloat CombFloat2 IntSpec GammaFun ExtSpec ExtFloat ExtProofs FamFloatSpec ExtFam ExtInline MonoSpec MonoProofs.
Local Open Scope R_scope.

Definition fam_mean : f64 := f64_of_Z 205008146833.
Definition fam_away : f64 := f64_of_Z 205008147007.
Definition half_sq : f64 := f64_mul (f64_mul (f64_dec 5 10) (f64_mul fam_mean fam_mean)) (f64_of_Z 1).
Definition stat (x : f64) : f64 := f64_add (f64_add (f64_of_Z 0) (f64_mul (f64_mul fam_mean (f64_of_Z 1)) x)) (f64_mul (f64_mul (f64_dec (-5) 10) (f64_of_Z 1)) (f64_mul x x)).
Lemma closed_num a : SpecFloat.valid_binary 53 1024 a = true -> is_finite_SF a = true -> is_num a.
Proof. intros H G. split; assumption. Qed.
Lemma absorbed K : bn 11 K -> is_num (f64_add K half_sq) /\ val (f64_add K half_sq) = val half_sq.
Proof.
  intros [NK BK]. assert (NB : is_num half_sq) by (apply closed_num; (vm_compute; reflexivity)).
  destruct (CustomProofs.num_Z 2048 ltac:(lia)) as [N1 V1], (CustomProofs.num_Z (-2048) ltac:(lia)) as [N2 V2].
  assert (F : forall z, is_num (f64_of_Z z) -> (Z.abs z <= 2048)%Z -> val (f64_of_Z z) = IZR z -> f64_add (f64_of_Z z) half_sq = half_sq -> RN (IZR z + val half_sq) = val half_sq).
  { intros z N Z V E. rewrite <- V. destruct (ev_add (f64_of_Z z) half_sq N NB) as [_ Q]. rewrite E, ev_num in Q by exact NB.
    rewrite cr_num in Q; [symmetry; exact Q|]. pose proof (num_below _ NB) as B. 
    destruct (add_total (f64_of_Z z) half_sq N NB) as [[_ W]|[_ [(W & _)|(W & _)]]]; [rewrite <- W, E; exact B|rewrite E in W; vm_compute in W; discriminate W..]. }
  destruct (num_int 2048 ltac:(vm_compute; discriminate)) as [M1 U1]. destruct (num_int (-2048) ltac:(vm_compute; discriminate)) as [M2 U2].
  pose proof (F 2048%Z M1 ltac:(lia) U1 ltac:(vm_compute; reflexivity)) as A1. pose proof (F (-2048)%Z M2 ltac:(lia) U2 ltac:(vm_compute; reflexivity)) as A2.
  change (bpow radix2 11) with 2048 in BK. apply Rabs_le_inv in BK.
  assert (E : RN (val K + val half_sq) = val half_sq).
  { apply Rle_antisym; [rewrite <- A1 at 2|rewrite <- A2 at 1]; apply RN_mono; lra. }
  destruct (add_num K half_sq NK NB) as [N V]; [rewrite E; apply num_below, NB|]. split; [exact N|]. rewrite V. exact E.
Qed.
Section Fam.
Context (c : R) (lg : R -> R) (L : libm) (LOK : libm_ok c lg L) (C0 : 0 <= c <= 1000000).
Notation F := (F64 L).
Lemma fam_shape x : ef_density (normal_expfam (@mkNormal F fam_mean (f64_of_Z 1))) x =
  f64_add (f64_sub (stat x) (f64_add (f64_mul (l_ln L (f64_mul (f64_mul (f64_of_Z 2) f64_pi) (f64_of_Z 1))) (f64_dec 5 10)) half_sq)) (f64_of_Z 0).
Proof.
  rewrite normal_shape. assert (E1 : f64_mul (f64_of_Z 1) (f64_of_Z 1) = f64_of_Z 1) by (vm_compute; reflexivity).
  assert (E2 : f64_div (f64_of_Z 1) (f64_of_Z 1) = f64_of_Z 1) by (vm_compute; reflexivity). cbv zeta. rewrite E1, E2. reflexivity.
Qed.
Lemma fam_value x k : (Z.abs k <= 2 ^ 53)%Z -> is_num (stat x) -> val (stat x) - val half_sq = IZR k ->
  is_num (ef_density (normal_expfam (@mkNormal F fam_mean (f64_of_Z 1))) x) /\ val (ef_density (normal_expfam (@mkNormal F fam_mean (f64_of_Z 1))) x) = IZR k.
Proof.
  intros B NS E. rewrite fam_shape.
  assert (BK : bn 11 (f64_mul (l_ln L (f64_mul (f64_mul (f64_of_Z 2) f64_pi) (f64_of_Z 1))) (f64_dec 5 10))).
  { destruct half_dec as [NH VH]. apply (bn_mul 11 0 _ _ ltac:(lia)); [|split; [exact NH|rewrite VH, Rabs_pos_eq by lra; cbn; lra]].
    replace (f64_mul (f64_mul (f64_of_Z 2) f64_pi) (f64_of_Z 1)) with (f64_mul (f64_of_Z 2) f64_pi) by (vm_compute; reflexivity).
    destruct two_pi as [N P]. apply (bn_ln c lg L LOK C0); [exact N|lra]. }
  destruct (absorbed _ BK) as [NA VA]. set (a := f64_add _ half_sq) in *. clearbody a.
  destruct (num_int k B) as [NK VK]. assert (RK : RN (IZR k) = IZR k) by (rewrite <- VK; apply num_format, NK).
  assert (AK : Rabs (IZR k) < bpow radix2 1024) by (rewrite <- VK; apply num_below, NK).
  destruct (sub_num (stat x) a NS NA) as [N1 V1]; [rewrite VA, E, RK; exact AK|]. rewrite VA, E, RK in V1.
  destruct zero_num as [N0 V0]. destruct (add_num (f64_sub (stat x) a) (f64_of_Z 0) N1 N0) as [N2 V2]; [rewrite V1, V0, Rplus_0_r, RK; exact AK|].
  split; [exact N2|]. rewrite V2, V1, V0, Rplus_0_r. exact RK.
Qed.
Lemma diff_val (a b : f64) m n e : a = S754_finite false m e -> b = S754_finite false n e -> val a - val b = IZR (Zpos m - Zpos n) * bpow radix2 e.
Proof. intros -> ->. unfold val, SF2R. cbn [cond_Zopp]. unfold F2R. cbn [Fnum Fexp]. rewrite minus_IZR. ring. Qed.
Lemma fam_rises :
  let ld := ef_density (normal_expfam (@mkNormal F fam_mean (f64_of_Z 1))) in
  is_num (ld fam_mean) /\ val (ld fam_mean) = 0 /\ is_num (ld fam_away) /\ val (ld fam_away) = 4194304.
Proof.
  intros ld. destruct (fam_value fam_mean 0) as [A B]; [lia|apply closed_num; (vm_compute; reflexivity)|replace (stat fam_mean) with half_sq by (vm_compute; reflexivity); ring|].
  destruct (fam_value fam_away 4194304) as [A' B']; [lia|apply closed_num; (vm_compute; reflexivity)| |auto].
  let m := eval vm_compute in (stat fam_away) in let n := eval vm_compute in half_sq in
  lazymatch m with S754_finite _ ?p ?e => lazymatch n with S754_finite _ ?q _ => rewrite (diff_val (stat fam_away) half_sq p q e ltac:(vm_compute; reflexivity) ltac:(vm_compute; reflexivity)) end end.
  change 4194304%Z with (Zpos 1 * 2 ^ 22)%Z. cbn [Z.sub Z.opp Z.add Z.pos_sub Pos.sub Pos.sub_mask]. vm_compute Z.pos_sub.
  cbn. lra.
Qed.
End Fam.
