(** The exponential-family paths in binary32 (C73): categorical family,
    cancellation; FamFloat3 at precision 24. *)
From Coq Require Import ZArith Reals Bool String List Lia Lra.
From Coq Require Import Floats.SpecFloat.
From Flocq Require Import Core.
From Verif Require Import Num EggSpec FloatFacts
  DensitySpec CoreModel CombModel ExpFamModel DistModel DistSpec DistFacts BuilderProofs DistProofs FamFloatSpec.
From Verif Require SumFloat FamFloat3 RoundSpec.
From Verif Require Import SingleModel SingleSpec SingleErr SingleFloat SingleFamModel SingleFamSpec SingleFam SingleFam2 SingleFloat2 SingleFloat3.
Import ListNotations.
Local Open Scope R_scope.

Definition Rsum_cons := SumFloat.Rsum_cons.
Definition Rsum_pos := SumFloat.Rsum_pos.
Definition pick_sum {A} := @FamFloat3.pick_sum A.
Definition Rsum_map_plus {A} := @FamFloat3.Rsum_map_plus A.
Definition Rsum_map_const {A} := @FamFloat3.Rsum_map_const A.

(** Adding up values that are themselves accurate, left to right. *)
Lemma fold_acc {A} (m r : A -> R) (w : A -> f32) k l : 0 <= k -> (k + INR (length l)) * eps32 <= / 4 ->
  Forall (fun a => acc k (m a) (r a) (w a)) l ->
  forall j m0 r0 w0, acc j m0 r0 w0 -> 0 <= j -> (j + INR (length l)) * eps32 <= / 4 -> m0 + Rsum (map m l) <= big32 ->
  acc (Rmax j k + INR (length l)) (m0 + Rsum (map m l)) (r0 + Rsum (map r l)) (fold_left (fun s a => f32_add s (w a)) l w0).
Proof.
  intros K KE F. induction F as [|a l HA F IH]; intros j m0 r0 w0 W J JE M.
  - cbn [map Rsum fold_right fold_left length INR]. rewrite !Rplus_0_r. eapply acc_more; [exact W|pose proof (Rmax_l j k); lra|lra].
  - cbn [map fold_left length] in *. rewrite !Rsum_cons in *. rewrite S_INR in *. pose proof eps_pos as EP. pose proof (pos_INR (length l)) as PL.
    assert (S0 : 0 <= Rsum (map m l)).
    { apply Rsum_pos. rewrite Forall_map. eapply Forall_impl; [|exact F]. intros b B. exact (acc_pos _ _ _ _ B). }
    pose proof (acc_pos _ _ _ _ W). pose proof (acc_pos _ _ _ _ HA). pose proof (Rmax_l j k). pose proof (Rmax_r j k).
    assert (X : acc (Rmax j k + 1) (m0 + m a) (r0 + r a) (f32_add w0 (w a))).
    { apply acc_add; try lra.
      - eapply acc_more; [exact W|lra|lra].
      - eapply acc_more; [exact HA|lra|lra].
      - unfold Rmax. destruct (Rle_dec j k); nra. }
    specialize (IH ltac:(nra) (Rmax j k + 1) _ _ _ X ltac:(lra)).
    rewrite <- !Rplus_assoc. replace (Rmax (Rmax j k + 1) k) with (Rmax j k + 1) in IH by (symmetry; apply Rmax_left; lra).
    replace (Rmax j k + INR (length l) + 1) with (Rmax j k + 1 + INR (length l)) by ring. apply IH; [|lra].
    unfold Rmax. destruct (Rle_dec j k); nra.
Qed.
Lemma fold_map_add {A} (w : A -> f32) l s : fold_left f32_add (map w l) s = fold_left (fun s a => f32_add s (w a)) l s.
Proof. revert s. induction l as [|a l IH]; intros s; [reflexivity|apply IH]. Qed.

Lemma len_eps (n : nat) k : INR n <= bpow radix2 18 -> k <= 1700000 -> (k + INR n) * eps32 <= / 4.
Proof. intros H K. apply keps. change (bpow radix2 18) with 262144 in H. lra. Qed.

(** Plain sums. *)
Section Num.
Context (L : libm32).
Notation F := (F32 L).
Lemma sum_acc {A} (m r : A -> R) (w : A -> f32) k l : 0 <= k <= 1700000 -> INR (length l) <= bpow radix2 18 ->
  Forall (fun a => acc k (m a) (r a) (w a)) l -> Rsum (map m l) <= big32 ->
  acc (k + INR (length l)) (Rsum (map m l)) (Rsum (map r l)) (fold_left (@nadd F) (map w l) n0).
Proof.
  intros K N HA M. change (@nadd F) with f32_add. change (@n0 F) with (f32_of_Z 0). rewrite fold_map_add. destruct zero_num as [N0 V0].
  replace (Rsum (map m l)) with (0 + Rsum (map m l)) by ring. replace (Rsum (map r l)) with (0 + Rsum (map r l)) by ring.
  replace k with (Rmax 0 k) at 1 by (apply Rmax_right; lra).
  apply fold_acc; try lra; try assumption; try (apply len_eps; lra || assumption).
  apply acc_is; try assumption. rewrite Rabs_R0. lra.
Qed.
Lemma zip_dot_fold a b s : @zip_dot F s a b = fold_left (fun s p => f32_add s (f32_mul (fst p) (snd p))) (combine a b) s.
Proof. revert b s. induction a as [|x a IH]; intros [|y b] s; try reflexivity. apply IH. Qed.
End Num.

Section Fam.
Context (c : R) (lg : R -> R) (L : libm32) (LOK : libm32_ok c lg L) (C0 : 0 <= c <= 1000).
Notation F := (F32 L).

Definition cat_ok (p : f32) : Prop := is_single p /\ bpow radix2 (-40) <= val p <= 1.
Lemma ratio_range a b : bpow radix2 (-40) <= a <= 1 -> bpow radix2 (-40) <= b <= 1 ->
  bpow radix2 (-40) <= a / b <= bpow radix2 40 /\ Rabs (ln (a / b)) <= 28.
Proof.
  intros [A1 A2] [B1 B2]. pose proof (bpow_gt_0 radix2 (-40)) as P. destruct ln2_bounds as [L1 L2].
  assert (R1 : bpow radix2 (-40) <= a / b).
  { apply (Rmult_le_reg_r b); [lra|]. unfold Rdiv. rewrite (Rmult_assoc a), Rinv_l, Rmult_1_r by lra. nra. }
  assert (R2 : a / b <= bpow radix2 40).
  { apply (Rmult_le_reg_r b); [lra|]. unfold Rdiv. rewrite (Rmult_assoc a), Rinv_l, Rmult_1_r by lra. apply Rle_trans with 1; [lra|].
    replace 1 with (bpow radix2 40 * bpow radix2 (-40)) by (rewrite <- bpow_plus; reflexivity). apply Rmult_le_compat_l; [apply bpow_ge_0|lra]. }
  split; [lra|]. apply Rabs_le. split.
  - apply Rle_trans with (ln (bpow radix2 (-40))); [rewrite ln_bpow; lra|apply ln_le; lra].
  - apply Rle_trans with (ln (bpow radix2 40)); [apply ln_le; lra|rewrite ln_bpow; lra].
Qed.
Lemma odds_entry q l : cat_ok q -> cat_ok l ->
  acc (c + 2) (Rabs (ln (val q / val l)) + 1) (ln (val q / val l)) (s_ln L (f32_div q l)) /\
  rel (4 * c + 58 * (c + 2)) (val q / val l) (s_exp L (s_ln L (f32_div q l))).
Proof.
  intros [NQ Q] [NL B]. destruct (ratio_range _ _ Q B) as [[R1 R2] R3]. pose proof (bpow_gt_0 radix2 (-40)) as P. sizes. pose proof (Rabs_pos (ln (val q / val l))).
  assert (RR : rel 1 (val q / val l) (f32_div q l)).
  { replace 1 with (0 + 0 + 1) by lra. apply rel_div; ks; [apply rel_is; [exact NQ|reflexivity|lra]|apply rel_is; [exact NL|reflexivity|lra]|].
    split; rewrite Rabs_pos_eq by lra; [eapply Rle_trans; [|exact R1]; unfold small32; change 2 with (bpow radix2 1); rewrite <- bpow_plus; apply bpow_le; lia|].
    apply Rle_trans with huge32; [|lra]. eapply Rle_trans; [exact R2|apply bpow_le; lia]. }
  pose proof (acc_lnr c lg L LOK C0 1 _ _ RR ltac:(lra) ltac:(lra)) as A. replace (c + 2 * 1) with (c + 2) in A by ring.
  split; [exact A|]. assert (A' : acc (c + 2) 29 (ln (val q / val l)) (s_ln L (f32_div q l))) by (eapply acc_more; [exact A|lra|lra]).
  pose proof (exp_acc c lg L LOK C0 _ _ _ _ A' ltac:(lra) ltac:(lra) ltac:(nra) ltac:(apply keps; lra)) as E.
  rewrite exp_ln in E by lra. replace (4 * c + 58 * (c + 2)) with (4 * c + 2 * (c + 2) * 29) by ring. exact E.
Qed.

Lemma cat_odds qs l : @categorical_log_odds F (@mkCategorical F (qs ++ [l])) = map (fun q => s_ln L (f32_div q l)) qs.
Proof.
  unfold categorical_log_odds. cbn [ca_probs]. rewrite app_length. cbn [length]. replace (length qs + 1 - 1)%nat with (length qs) by lia.
  rewrite firstn_app, firstn_all, Nat.sub_diag. cbn [firstn]. rewrite app_nil_r, app_nth2, Nat.sub_diag by lia. reflexivity.
Qed.
Lemma cat_partition_float qs l : Forall cat_ok qs -> cat_ok l -> INR (length qs) <= bpow radix2 18 ->
  let t := Rsum (map val (qs ++ [l])) / val l in
  acc (c + 4 * (4 * c + 58 * (c + 2) + INR (length qs) + 1)) (ln t + 1) (ln t) (@categorical_partition F (@mkCategorical F (qs ++ [l]))) /\ 0 <= ln t <= 1000.
Proof.
  intros Q QL N t. unfold categorical_partition. rewrite cat_odds, map_map. set (K := 4 * c + 58 * (c + 2)). set (n := INR (length qs)) in *.
  assert (K0 : 0 <= K <= 63000) by (unfold K; lra). assert (n0' : 0 <= n <= 262144) by (unfold n; split; [apply pos_INR|change (bpow radix2 18) with 262144 in N; exact N]).
  destruct QL as [NL BL]. pose proof (bpow_gt_0 radix2 (-40)) as P. destruct one_num as [N1 V1]. sizes. set (S := Rsum (map (fun q => val q / val l) qs)).
  assert (P40' : bpow radix2 40 * 262144 <= huge32).
  { change 262144 with (bpow radix2 18). rewrite <- bpow_plus. apply bpow_le. lia. }
  assert (SB : 0 <= S <= bpow radix2 40 * n).
  { unfold S, n. clear -Q BL P. induction Q as [|q qs [_ Q] _ IH]; [cbn; rewrite Rmult_0_r; lra|]. cbn [map length]. rewrite Rsum_cons, S_INR.
    destruct (ratio_range _ _ Q BL) as [[R1 R2] _]. split; lra. }
  assert (SH : S <= huge32) by (eapply Rle_trans; [apply SB|]; eapply Rle_trans; [|exact P40']; apply Rmult_le_compat_l; [apply bpow_ge_0|lra]).
  assert (AS : acc (K + n) S S (fold_left (@nadd F) (map (fun q => s_exp L (s_ln L (f32_div q l))) qs) n0)).
  { unfold n. apply (sum_acc L (fun q => val q / val l) (fun q => val q / val l) (fun q => s_exp L (s_ln L (f32_div q l))) K qs); [lra| |rewrite Forall_forall in *|apply Rle_trans with huge32; [exact SH|lra]].
    - fold n. apply Rle_trans with (bpow radix2 18); [exact N|apply bpow_le; lia].
    - intros q I. destruct (odds_entry q l (Q q I) (conj NL BL)) as [_ E]. fold K in E. apply rel_acc in E; [|lra]. destruct (ratio_range _ _ (proj2 (Q q I)) BL) as [[R1 _] _].
      rewrite Rabs_pos_eq in E by lra. exact E. }
  assert (T : t = 1 + S).
  { unfold t, S. rewrite map_app. clear -BL P. cbn [map]. induction qs as [|q qs IH]; cbn [map app]; rewrite ?Rsum_cons; [cbn; field; lra|].
    unfold Rdiv in *. rewrite Rmult_plus_distr_r, IH. ring. }
  set (f := fold_left _ _ _) in *.
  assert (A1 : acc (K + n + 1) t t (f32_add (f32_of_Z 1) f)).
  { rewrite T. apply acc_add; ks; [|exact AS]. apply (acc_k 0); [|lra]. apply (acc_is _ 1 1 N1 V1). rewrite Rabs_R1. lra. }
  apply rel_of_acc in A1; ks.
  pose proof (acc_ln c lg L LOK (proj1 C0) _ _ _ A1 ltac:(lra) ltac:(lra) ltac:(apply keps; lra)) as A2.
  assert (L0 : 0 <= ln t) by (rewrite <- ln_1; apply ln_le; lra).
  assert (L1 : ln t <= 1000).
  { apply Rle_trans with (ln (bpow radix2 59)); [apply ln_le; [lra|]|rewrite ln_bpow; destruct ln2_bounds; lra]. rewrite T.
    apply Rle_trans with (bpow radix2 58 + bpow radix2 58); [|replace (bpow radix2 59) with (2 * bpow radix2 58); [lra|change 2 with (bpow radix2 1); rewrite <- bpow_plus; reflexivity]].
    apply Rplus_le_compat; [change 1 with (bpow radix2 0); apply bpow_le; lia|]. replace (bpow radix2 58) with (bpow radix2 40 * bpow radix2 18) by (rewrite <- bpow_plus; reflexivity).
    eapply Rle_trans; [apply SB|]. apply Rmult_le_compat_l; [apply bpow_ge_0|exact N]. }
  split; [|lra]. rewrite (Rabs_pos_eq (ln t)) in A2 by exact L0. replace (c + 4 * (K + n + 1)) with (c + 2 * (2 * (K + n + 1))) by ring. exact A2.
Qed.

Lemma categorical_fam_float qs l x : Forall cat_ok qs -> cat_ok l -> INR (length qs) <= bpow radix2 18 -> (x <= length qs)%nat ->
  let ps := map val (qs ++ [l]) in
  acc (categorical_units32 c (INR (length qs))) (Rabs (ln (nth x ps 0 / val l)) + ln (Rsum ps / val l) + 4)
    (ln (categorical_pmf ps x) - ln (Rsum ps)) (ef_density (categorical_expfam (@mkCategorical F (qs ++ [l]))) x).
Proof.
  intros Q QL N X ps. destruct (cat_partition_float qs l Q QL N) as [TP BP]. cbv zeta in TP, BP. fold ps in TP, BP.
  unfold categorical_expfam, categorical_support. cbn [ef_density ca_probs]. 
  assert (LT : Nat.ltb x (@length (num F) (qs ++ [l])) = true) by (apply Nat.ltb_lt; change (x < @length f32 (qs ++ [l]))%nat; rewrite app_length; cbn; lia). rewrite LT. clear LT.
  cbv zeta. rewrite cat_odds. set (part := categorical_partition _) in *. set (n := INR (length qs)) in *.
  change (@nadd F) with f32_add. change (@nsub F) with f32_sub. change (b_ld prim x) with (f32_of_Z 0).
  assert (EC : combine (map (fun q => s_ln L (f32_div q l)) qs) (@categorical_stat F (@mkCategorical F (qs ++ [l])) x) =
    map (fun p => (s_ln L (f32_div (fst p) l), if Nat.ltb x (length qs) && Nat.eqb (snd p) x then f32_of_Z 1 else f32_of_Z 0)) (combine qs (seq 0 (length qs)))).
  { unfold categorical_stat. cbn [ca_probs]. rewrite app_length. cbn [length]. replace (length qs + 1 - 1)%nat with (length qs) by lia.
    change (@n1 F) with (f32_of_Z 1). change (@n0 F) with (f32_of_Z 0). generalize (Nat.ltb x (length qs)). intros b. generalize 0%nat. clear. induction qs as [|q qs IH]; intros a; [reflexivity|]. cbn [map length seq combine fst snd]. rewrite IH. reflexivity. }
  set (cs := combine qs (seq 0 (length qs))). set (w := fun p : f32 * nat => f32_mul (s_ln L (f32_div (fst p) l)) (if Nat.ltb x (length qs) && Nat.eqb (snd p) x then f32_of_Z 1 else f32_of_Z 0)).
  assert (EF : fold_left (fun s p => f32_add s (f32_mul (fst p) (snd p))) (map (fun p : f32 * nat => (s_ln L (f32_div (fst p) l), if Nat.ltb x (length qs) && Nat.eqb (snd p) x then f32_of_Z 1 else f32_of_Z 0)) cs) (f32_of_Z 0)
    = fold_left f32_add (map w cs) (f32_of_Z 0)).
  { rewrite (fold_map_add w). unfold w. clearbody cs. clear. set (z0 := f32_of_Z 0). assert (H : forall s, fold_left (fun s p => f32_add s (f32_mul (fst p) (snd p))) (map (fun p : f32 * nat => (s_ln L (f32_div (fst p) l), if Nat.ltb x (length qs) && Nat.eqb (snd p) x then f32_of_Z 1 else z0)) cs) s =
      fold_left (fun s p => f32_add s (f32_mul (s_ln L (f32_div (fst p) l)) (if Nat.ltb x (length qs) && Nat.eqb (snd p) x then f32_of_Z 1 else z0))) cs s).
    { induction cs as [|p cs IH]; intros s; [reflexivity|]. apply IH. }
    apply H. }
  fold cs in EC. pose proof (eq_trans (f_equal (fun z => fold_left (fun s p => f32_add s (f32_mul (fst p) (snd p))) z (f32_of_Z 0)) EC) EF) as ED. clear EC EF.
  match goal with |- acc _ _ _ (f32_add (f32_sub ?d part) _) => assert (DOT : d = fold_left f32_add (map w cs) (f32_of_Z 0)) by (unfold dot_vec; rewrite zip_dot_fold; exact ED) end.
  rewrite DOT. clear DOT ED.
  destruct one_num as [N1 V1]. destruct zero_num as [N0 V0]. sizes.
  assert (LC : length cs = length qs) by (unfold cs; rewrite combine_length, seq_length; lia).
  assert (ND : 0 <= n <= 262144) by (unfold n; split; [apply pos_INR|change (bpow radix2 18) with 262144 in N; exact N]).
  set (eta := fun q : f32 => ln (val q / val l)). set (dl := fun i : nat => if Nat.eqb i x then 1 else 0).
  set (m := fun p : f32 * nat => (Rabs (eta (fst p)) + 1) * dl (snd p) + small32). set (r := fun p : f32 * nat => eta (fst p) * dl (snd p)).
  assert (SEQ : forall p, In p cs -> cat_ok (fst p) /\ (snd p < length qs)%nat).
  { intros [q i] I. unfold cs in I. split; [apply in_combine_l in I; rewrite Forall_forall in Q; apply Q, I|apply in_combine_r, in_seq in I; cbn; lia]. }
  assert (TERM : Forall (fun p => acc (c + 2 + 1) (m p) (r p) (w p)) cs).
  { apply Forall_forall. intros p I. destruct (SEQ p I) as [CQ IX]. destruct (odds_entry (fst p) l CQ QL) as [A _]. destruct (ratio_range _ _ (proj2 CQ) (proj2 QL)) as [_ LB].
    unfold m, r, w, dl, eta. destruct (Nat.eqb_spec (snd p) x) as [E|E].
    - replace (Nat.ltb x (length qs)) with true by (symmetry; apply Nat.ltb_lt; lia). cbn [andb]. replace (c + 2 + 1) with (c + 2 + 0 + 1) by ring.
      apply acc_mul; ks; [exact A|]. apply (acc_is _ 1 1 N1 V1). rewrite Rabs_R1. lra.
    - rewrite andb_false_r. replace (c + 2 + 1) with (c + 2 + 0 + 1) by ring. apply acc_mul; ks; [exact A|]. apply (acc_is _ 0 0 N0 V0). rewrite Rabs_R0. lra. }
  assert (ME : Rsum (map m cs) = (if Nat.ltb x (length qs) then Rabs (eta (nth x qs (f32_of_Z 0))) + 1 else 0) + n * small32).
  { unfold m. rewrite (Rsum_map_plus (fun p => (Rabs (eta (fst p)) + 1) * dl (snd p)) (fun _ => small32)), Rsum_map_const, LC. fold n. f_equal.
    unfold cs, dl. rewrite (pick_sum (fun q => Rabs (eta q) + 1) (f32_of_Z 0)) by lia. rewrite Nat.sub_0_r. reflexivity. }
  assert (RE : Rsum (map r cs) = if Nat.ltb x (length qs) then eta (nth x qs (f32_of_Z 0)) else 0).
  { unfold r, cs, dl. rewrite (pick_sum eta (f32_of_Z 0)) by lia. rewrite Nat.sub_0_r. reflexivity. }
  assert (PX : nth x ps 0 = val (nth x (qs ++ [l]) (f32_of_Z 0)) /\ cat_ok (nth x (qs ++ [l]) (f32_of_Z 0))).
  { split; [unfold ps; rewrite <- V0, map_nth; reflexivity|]. assert (I : In (nth x (qs ++ [l]) (f32_of_Z 0)) (qs ++ [l])) by (apply nth_In; rewrite app_length; cbn; lia).
    apply in_app_or in I. rewrite Forall_forall in Q. destruct I as [I|[<-|[]]]; [apply Q, I|exact QL]. }
  destruct PX as [PX CX]. destruct QL as [NL BL]. destruct (ratio_range _ _ (proj2 CX) BL) as [[RX _] LX]. rewrite <- PX in LX, RX. pose proof (bpow_gt_0 radix2 (-40)) as P4.
  assert (ET : (if Nat.ltb x (length qs) then eta (nth x qs (f32_of_Z 0)) else 0) = ln (nth x ps 0 / val l)).
  { rewrite PX. destruct (Nat.ltb_spec x (length qs)) as [Lt|Ge]; [rewrite app_nth1 by exact Lt; reflexivity|]. assert (x = length qs) by lia. subst x. rewrite app_nth2, Nat.sub_diag by lia. cbn [nth].
    unfold Rdiv. rewrite Rinv_r, ln_1 by lra. reflexivity. }
  assert (MB : Rsum (map m cs) <= Rabs (ln (nth x ps 0 / val l)) + 2).
  { rewrite ME. assert (n * small32 <= 1) by nra. rewrite <- ET. destruct (Nat.ltb _ _); [lra|rewrite Rabs_R0; lra]. }
  assert (TD : acc (c + 2 + 1 + n) (Rsum (map m cs)) (ln (nth x ps 0 / val l)) (fold_left f32_add (map w cs) (f32_of_Z 0))).
  { rewrite <- ET, <- RE. unfold n. rewrite <- LC. apply (sum_acc L); [lra| |exact TERM|lra]. rewrite LC. fold n. apply Rle_trans with (bpow radix2 18); [exact N|apply bpow_le; lia]. }
  unfold categorical_pmf. set (t := Rsum ps / val l) in *. set (lx := ln (nth x ps 0 / val l)) in *.
  assert (PP : 0 < nth x ps 0) by (rewrite PX; destruct CX; lra).
  assert (PS : 0 < Rsum ps).
  { unfold ps. rewrite map_app. cbn [map]. clear -Q BL P4. induction Q as [|q qs [_ Q] _ IH]; cbn [map app]; rewrite Rsum_cons; [cbn; lra|]. cbn [map app] in IH. lra. }
  replace (ln (nth x ps 0) - ln (Rsum ps)) with (lx - ln t + 0).
  2:{ unfold lx, t, Rdiv. rewrite !ln_mult by (try apply Rinv_0_lt_compat; lra). ring. }
  unfold categorical_units32. set (K := c + 4 * (4 * c + 58 * (c + 2) + n + 1)) in *. assert (KB : c + 2 + 1 + n <= K <= 1500000) by (unfold K; lra). clearbody K.
  eapply acc_more; [apply (acc_add (K + 1)); [apply (acc_sub K); [apply (acc_k (c + 2 + 1 + n)); [exact TD|lra]|exact TP| | |]|apply (acc_k 0); [exact acc_zero|lra]| | |]|..]; ks.
Qed.

(** Cancellation: far from the origin the family path loses everything. *)
Definition far : f32 := S754_finite false 8388608 (-9).
Lemma far_val : is_single far /\ val far = bpow radix2 14.
Proof.
  split; [vm_compute; split; reflexivity|]. unfold far. rewrite val_explicit. cbn [cond_Zopp]. change (IZR 8388608) with (bpow radix2 23). rewrite <- bpow_plus. reflexivity.
Qed.
Definition top : f32 := S754_finite false 8388608 4.
Lemma top_val : is_single top /\ val top = bpow radix2 27.
Proof.
  split; [vm_compute; split; reflexivity|]. unfold top. rewrite val_explicit. cbn [cond_Zopp]. change (IZR 8388608) with (bpow radix2 23). rewrite <- bpow_plus. reflexivity.
Qed.
Lemma absorbed d : 0 <= d <= 7 -> RS (d + bpow radix2 27) = bpow radix2 27.
Proof.
  intros D. unfold RS, round, scaled_mantissa, F2R. cbn [Fnum Fexp].
  assert (B : bpow radix2 10 = 1024) by reflexivity.
  assert (M : (mag radix2 (d + bpow radix2 27) = 28 :> Z)%Z).
  { apply mag_unique_pos. change (28 - 1)%Z with 27%Z. split; [lra|]. replace (bpow radix2 28) with (2 * bpow radix2 27) by (change 2 with (bpow radix2 1); rewrite <- bpow_plus; reflexivity).
    assert (bpow radix2 10 <= bpow radix2 27) by (apply bpow_le; lia). lra. }
  unfold cexp. rewrite M. change (FLT_exp (-149) 24 28) with 4%Z. change (- (4))%Z with (-4)%Z.
  assert (Z : ZnearestE ((d + bpow radix2 27) * bpow radix2 (-4)) = (2 ^ 23)%Z).
  { apply Znearest_imp. rewrite Rmult_plus_distr_r, <- bpow_plus. change (bpow radix2 (27 + -4)) with (IZR (2 ^ 23)).
    replace (d * bpow radix2 (-4) + IZR (2 ^ 23) - IZR (2 ^ 23)) with (d * bpow radix2 (-4)) by ring.
    change (bpow radix2 (-4)) with (/ 16). rewrite Rabs_pos_eq; lra. }
  rewrite Z. change (IZR (2 ^ 23)) with (bpow radix2 23). rewrite <- bpow_plus. reflexivity.
Qed.
Lemma normal_cancellation :
  let d := @mkNormal F far (f32_of_Z 1) in
  val (ef_density (normal_expfam d) far) = 0 /\ ln (normal_pdf (val far) 1 (val far)) <= - 3 / 4 /\
  Rabs (val (normal_ld d far) - ln (normal_pdf (val far) 1 (val far))) <= / 1000.
Proof.
  intros d. unfold d. destruct far_val as [NF VF]. destruct top_val as [NT VT]. destruct one_num as [N1 V1]. sizes. pose proof pi_bounds as PB.
  change (ef_density (normal_expfam (@mkNormal F far (f32_of_Z 1))) far) with
    (let v := f32_mul (f32_of_Z 1) (f32_of_Z 1) in let inv := f32_div (f32_of_Z 1) v in
     f32_add (f32_sub (f32_add (f32_add (f32_of_Z 0) (f32_mul (f32_mul far inv) far)) (f32_mul (f32_mul (f32_dec (-5) 10) inv) (f32_mul far far)))
       (f32_add (f32_mul (s_ln L (f32_mul (f32_mul (f32_of_Z 2) f32_pi) v)) (f32_dec 5 10)) (f32_mul (f32_mul (f32_dec 5 10) (f32_mul far far)) inv))) (f32_of_Z 0)).
  cbv zeta. replace (f32_mul (f32_of_Z 1) (f32_of_Z 1)) with (f32_of_Z 1) by (vm_compute; reflexivity).
  replace (f32_div (f32_of_Z 1) (f32_of_Z 1)) with (f32_of_Z 1) by (vm_compute; reflexivity).
  replace (f32_add (f32_add (f32_of_Z 0) (f32_mul (f32_mul far (f32_of_Z 1)) far)) (f32_mul (f32_mul (f32_dec (-5) 10) (f32_of_Z 1)) (f32_mul far far))) with top by (vm_compute; reflexivity).
  replace (f32_mul (f32_mul (f32_dec 5 10) (f32_mul far far)) (f32_of_Z 1)) with top by (vm_compute; reflexivity).
  assert (MD : moderate32 (val (f32_of_Z 1))) by (rewrite V1; split; [change 1 with (bpow radix2 0); apply bpow_le; lia|change 1 with (bpow radix2 0); apply bpow_le; lia]).
  destruct (variance_parts c lg L LOK C0 (f32_of_Z 1) N1 MD) as (_ & _ & TL & _). cbv zeta in TL.
  replace (f32_mul (f32_of_Z 1) (f32_of_Z 1)) with (f32_of_Z 1) in TL by (vm_compute; reflexivity).
  set (lv := s_ln L _) in *. clearbody lv. rewrite V1, ln_1, Rabs_R0 in TL.
  replace (2 * 0 + 3) with 3 in TL by ring. replace (ln (2 * PI) + 2 * 0) with (ln (2 * PI)) in TL by ring.
  assert (LP : 15 / 10 <= ln (2 * PI) <= 2).
  { split; [|apply ln_two_pi]. rewrite <- (ln_exp (15 / 10)). apply ln_le; [apply exp_pos|]. pose proof (exp_pos (15 / 10)) as EP. pose proof exp_le_3 as E3. pose proof (exp_pos 1).
    assert (E : exp (15 / 10) * exp (15 / 10) = exp 1 * exp 1 * exp 1) by (rewrite <- !exp_plus; f_equal; lra).
    assert (exp 1 * exp 1 * exp 1 <= 27) by nra. nra. }
  destruct half_dec as [NH VH].
  assert (TH : acc (c + 10) 2 (ln (2 * PI) * (1 / 2)) (f32_mul lv (f32_dec 5 10))).
  { replace (c + 10) with (c + 8 + 1 + 1) by ring. apply (acc_more (c + 8 + 0 + 1) _ (3 * (1 / 2) + small32)); [|lra|lra]. apply acc_mul; ks; [exact TL|]. apply (acc_is _ (1 / 2) (1 / 2) NH); [rewrite VH; lra|rewrite Rabs_pos_eq; lra]. }
  set (h := f32_mul lv _) in *. clearbody h. destruct TH as (NHH & _ & EH). pose proof (gam_up (c + 10) ltac:(lra) ltac:(apply keps; lra)) as G.
  assert (HB : 0 <= val h <= 7).
  { assert (gam (c + 10) * 2 <= / 10) by nra. apply Rabs_le_inv in EH. lra. }
  assert (AB : is_single (f32_add h top) /\ val (f32_add h top) = bpow radix2 27).
  { rewrite <- (absorbed _ HB), <- VT. apply add_num; [exact NHH|exact NT|]. rewrite VT, absorbed by exact HB. rewrite Rabs_pos_eq by apply bpow_ge_0. apply bpow_lt. lia. }
  destruct AB as [NA VA]. set (z := f32_add h top) in *. clearbody z.
  assert (RZ : RS 0 = 0) by (unfold RS; apply round_0; auto with typeclass_instances).
  assert (AD : is_single (f32_sub top z) /\ val (f32_sub top z) = 0).
  { replace 0 with (RS (val top - val z)); [|rewrite VT, VA, Rminus_diag_eq by reflexivity; exact RZ]. apply sub_num; [exact NT|exact NA|].
    rewrite VT, VA, Rminus_diag_eq, RZ, Rabs_R0 by reflexivity. apply bpow_gt_0. }
  destruct AD as [ND VD]. destruct zero_num as [N0 V0].
  split; [|].
  - destruct (add_num (f32_sub top z) (f32_of_Z 0) ND N0) as [_ W]; [rewrite VD, V0, Rplus_0_r, RZ, Rabs_R0; apply bpow_gt_0|]. rewrite W, VD, V0, Rplus_0_r. exact RZ.
  - assert (EV : ln (normal_pdf (val far) 1 (val far)) = - (ln (2 * PI) / 2)).
    { rewrite ln_normal_pdf by lra. rewrite ln_1. field_simplify. field. }
    split; [rewrite EV; lra|]. pose proof (normal_float c lg L LOK C0 far (f32_of_Z 1) far NF N1 NF ltac:(rewrite V1; lra)) as T. cbv zeta in T. rewrite V1 in T.
    assert (FB : Rabs (val far) <= huge32) by (rewrite VF, Rabs_pos_eq by apply bpow_ge_0; apply bpow_le; lia).
    assert (Z0 : (val far - val far) / 1 = 0) by field. rewrite Z0, ln_1, Rabs_R0 in T. specialize (T FB FB (bpow_ge_0 _ _)). destruct T as (_ & _ & T).
    eapply Rle_trans; [exact T|]. pose proof (gam_up (c + 7) ltac:(lra) ltac:(apply keps; lra)) as G2. nra.
Qed.
End Fam.

(** The beta family. *)
Lemma beta_fam_single c d lg L a b x : libm32_ok c lg L -> 0 <= c <= 1000 -> RoundSpec.libm_ok d lg (s_double L) -> 0 <= d <= 1000000 ->
  is_single a -> is_single b -> is_single x -> bpow radix2 (-20) <= val a <= bpow radix2 8 -> bpow radix2 (-20) <= val b <= bpow radix2 8 -> 0 < val x < 1 ->
  Rabs (lg (val a)) <= huge32 -> Rabs (lg (val b)) <= huge32 -> Rabs (lg (val a + val b)) <= huge32 ->
  within32 (2 * (c + 8)) (Rabs (lg (val a)) + Rabs (lg (val b)) + Rabs (lg (val a + val b)) + 3 + (val a + 1) * (Rabs (ln (val x)) + 1) + (val b + 1) * (Rabs (ln (1 - val x)) + 1) + 1)
    (ln (beta_pdf lg (val a) (val b) (val x))) (ef_density (beta_expfam32 L (@mkBeta (F32 L) a b)) x).
Proof.
  intros LOK C0 LD D0 NA NB NX A B X GA GB GS. destruct (sum_exact_double a b NA NB A B) as [N E]. pose proof (bpow_gt_0 radix2 (-20)) as P. sizes.
  assert (H8 : bpow radix2 8 <= huge32) by (apply bpow_le; lia).
  pose proof (beta_partition_single d lg L a b LD D0 NA NB ltac:(lra) ltac:(lra) E N GA GB GS) as W.
  pose proof (Rabs_pos (lg (val a))). pose proof (Rabs_pos (lg (val b))). pose proof (Rabs_pos (lg (val a + val b))).
  apply acc_of_within in W; [|unfold Rminus; eapply Rle_trans; [apply Rabs_triang|]; rewrite Rabs_Ropp; eapply Rle_trans; [apply Rplus_le_compat_r, Rabs_triang|]; lra].
  rewrite ln_beta_pdf by exact X.
  pose proof (beta_fam_float c lg L LOK C0 a b x _ _ _ NA NB NX ltac:(lra) ltac:(lra) X W ltac:(lra)) as T.
  replace ((val a - 1) * ln (val x) + (val b - 1) * ln (1 - val x) - (lg (val a) + lg (val b) - lg (val a + val b)))
    with (lg (val a + val b) - lg (val a) - lg (val b) + (val a - 1) * ln (val x) + (val b - 1) * ln (1 - val x)) in T by ring.
  apply acc_within; [exact T|lra|apply keps; lra].
Qed.
Lemma binomial_measure_single L n k :
  ((k <= n)%nat -> b_ld (binomial_measure32 L n) k = log_binomial_coefficient32 L n k) /\
  ((n < k)%nat -> b_ld (binomial_measure32 L n) k = S754_infinity true) /\
  (b_support (binomial_measure32 L n) k = true <-> (k <= n)%nat).
Proof.
  unfold binomial_measure32. cbn [b_ld b_support]. split; [|split].
  - intros H. rewrite (proj2 (Nat.ltb_ge n k) H). reflexivity.
  - intros H. rewrite (proj2 (Nat.ltb_lt n k) H). reflexivity.
  - rewrite andb_true_r. apply Nat.leb_le.
Qed.
