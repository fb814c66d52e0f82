(** Joint log-densities of samples in binary64 (C70): the categorical family. *)
From Coq Require Import ZArith Reals Bool String List Lia Lra.
From Coq Require Import Floats.SpecFloat.
From Flocq Require Import Core.
From Verif Require Import Num EggSpec LitFacts EggNum FloatFacts FloatErr JitAcc AccSpec AccProofs RoundSpec RoundProofs RelErr
  DensitySpec CoreModel CombModel ExpFamModel DistModel DistSpec DistFacts BuilderProofs DistProofs DistFloat SumFloat FamFloatSpec FamFloat FactFloat FamFloat2 FamFloat3 IidFloatSpec IidFloat IidFloat2 IidFloat3.
Import ListNotations.
Local Open Scope R_scope.

(** One-hot vectors added up are counts. *)
Definition occ (xs : list nat) (i : nat) : nat := count_occ Nat.eq_dec xs i.
Lemma count_sum {A} (f : A -> R) (d : A) qs xs :
  Rsum (map (fun p => f (fst p) * INR (occ xs (snd p))) (combine qs (seq 0 (length qs)))) =
  Rsum (map (fun x => if Nat.ltb x (length qs) then f (nth x qs d) else 0) xs).
Proof.
  induction xs as [|x xs IH].
  - cbn [map]. rewrite (Rsum_ext _ (fun _ => 0)) by (intros; cbn; ring). rewrite Rsum_const. cbn. ring.
  - cbn [map]. rewrite Rsum_cons, <- IH. pose proof (pick_sum f d qs 0 x ltac:(lia)) as P. rewrite Nat.sub_0_r in P. rewrite <- P.
    rewrite <- Rsum_plus. apply Rsum_ext. intros p _. unfold occ. cbn [count_occ]. destruct (Nat.eq_dec x (snd p)) as [E|E]; destruct (Nat.eqb_spec (snd p) x) as [G|G]; try congruence; rewrite ?S_INR; ring.
Qed.

Section Fam.
Context (c : R) (lg : R -> R) (L : libm) (LOK : libm_ok c lg L) (C0 : 0 <= c <= 1000000).
Notation F := (F64 L).

Lemma add_into_map (a : nat -> f64) (g : nat -> nat -> f64) (ids xs : list nat) :
  fold_left (@add_into F) (map (fun x => map (g x) ids) xs) (map a ids) = map (fun i => fold_left f64_add (map (fun x => g x i) xs) (a i)) ids.
Proof.
  revert a. induction xs as [|x xs IH]; intros a; [reflexivity|]. cbn [map fold_left].
  assert (E : @add_into F (map a ids) (map (g x) ids) = map (fun i => f64_add (a i) (g x i)) ids).
  { clear. unfold add_into. induction ids as [|i ids IH]; [reflexivity|]. cbn [map]. f_equal. exact IH. }
  refine (eq_trans (f_equal (fun z => fold_left (@add_into F) _ z) E) _). exact (IH (fun i => f64_add (a i) (g x i))).
Qed.
Lemma repeat_map {A} (z : A) ids n : length ids = n -> repeat z n = map (fun _ : nat => z) ids.
Proof. intros <-. induction ids as [|i ids IH]; [reflexivity|]. cbn. f_equal. exact IH. Qed.
Lemma occ_sum K i xs : (i < K)%nat -> (Z.of_nat (length xs) < 2 ^ 53)%Z -> forall a w, dyadic a 0 w -> (0 <= a)%Z -> (a + Z.of_nat (length xs) < 2 ^ 53)%Z ->
  dyadic (a + Z.of_nat (occ xs i)) 0 (fold_left f64_add (map (fun x => if Nat.ltb x K && Nat.eqb i x then f64_of_Z 1 else f64_of_Z 0) xs) w).
Proof.
  intros IK _. induction xs as [|x xs IH]; intros a w W A B; [cbn; rewrite Z.add_0_r; exact W|].
  cbn [map fold_left length] in *. unfold occ in *. cbn [count_occ]. destruct (Nat.eq_dec x i) as [E|E].
  - subst x. rewrite Nat.eqb_refl. replace (Nat.ltb i K) with true by (symmetry; apply Nat.ltb_lt; exact IK). cbn [andb].
    replace (a + Z.of_nat (S (count_occ Nat.eq_dec xs i)))%Z with (a + 1 + Z.of_nat (count_occ Nat.eq_dec xs i))%Z by lia. apply IH; try lia.
    apply dyadic_add; try lia; [exact W|]. destruct one_num as [N V]. split; [exact N|]. rewrite V. change (bpow radix2 0) with 1. ring.
  - replace (Nat.eqb i x) with false by (symmetry; apply Nat.eqb_neq; congruence). rewrite andb_false_r. apply IH; try lia.
    replace a with (a + 0)%Z by lia. apply dyadic_add; try lia; [exact W|apply dyadic_zero].
Qed.
Lemma occ_le xs i : (occ xs i <= length xs)%nat.
Proof. apply count_occ_bound. Qed.

Lemma categorical_family_iid_float qs l xs : Forall (cat_ok) qs -> cat_ok l -> INR (length qs) <= bpow radix2 20 -> count_ok (length xs) ->
  (forall x, In x xs -> (x <= length qs)%nat) ->
  let ps := map val (qs ++ [l]) in
  acc (categorical_units c (INR (length qs)) + INR (length xs)) (Rsum (map (fun x => Rabs (ln (nth x ps 0 / val l)) + ln (Rsum ps / val l) + 4) xs))
    (Rsum (map (fun x => ln (categorical_pmf ps x) - ln (Rsum ps)) xs)) (compute_iid (categorical_expfam (@mkCategorical F (qs ++ [l]))) xs).
Proof.
  intros Q QL N NX X ps. destruct (cat_partition_float c lg L LOK C0 qs l Q QL N) as [TP BP]. cbv zeta in TP, BP. fold ps in TP, BP. sizes.
  destruct (list_eq_dec_nil xs) as [-> |NE].
  { cbn [map Rsum fold_right length INR compute_iid]. pose proof (pos_INR (length qs)). apply (acc_k 0); [exact acc_zero|unfold categorical_units; lra]. }
  set (n := INR (length qs)) in *. set (part := @categorical_partition F _) in *.
  assert (ND : 0 <= n <= 1048576) by (unfold n; split; [apply pos_INR|change (bpow radix2 20) with 1048576 in N; exact N]).
  assert (MX : INR (length xs) <= 1099511627776) by exact NX. pose proof (one_le xs NE) as OX.
  assert (ZX : (Z.of_nat (length xs) < 2 ^ 53)%Z).
  { apply lt_IZR. rewrite <- INR_IZR_INZ. change (IZR (2 ^ 53)) with 9007199254740992. lra. }
  set (cnt := fun i => fold_left f64_add (map (fun x => if Nat.ltb x (length qs) && Nat.eqb i x then f64_of_Z 1 else f64_of_Z 0) xs) (f64_of_Z 0)).
  set (cs := combine qs (seq 0 (length qs))).
  set (w := fun p : f64 * nat => f64_mul (l_ln L (f64_div (fst p) l)) (cnt (snd p))).
  replace (compute_iid (categorical_expfam (@mkCategorical F (qs ++ [l]))) xs) with
    (f64_add (f64_sub (fold_left f64_add (map w cs) (f64_of_Z 0)) (f64_mul (@nofn F (length xs)) part)) (fold_left f64_add (map (fun _ => f64_of_Z 0) xs) (f64_of_Z 0))).
  2:{ unfold compute_iid. destruct xs as [|x0 xs0]; [congruence|]. set (xs := x0 :: xs0) in *. cbv zeta. unfold categorical_expfam. cbn [ef_dim ef_natural ef_stat ef_partition ef_base ca_probs]. fold part.
      rewrite cat_odds. unfold sum_sufficient_stats, categorical_stat. cbn [ca_probs]. 
      assert (LE : (@length (num F) (qs ++ [l]) - 1)%nat = length qs) by (change (@length f64 (qs ++ [l]) - 1 = length qs)%nat; rewrite app_length; cbn; lia). rewrite !LE.
      assert (SE : fold_left (@add_into F) (map (fun x => map (fun i => if Nat.ltb x (length qs) && Nat.eqb i x then @n1 F else @n0 F) (seq 0 (length qs))) xs) (repeat (@n0 F) (length qs)) = map cnt (seq 0 (length qs))).
      { rewrite (repeat_map (@n0 F) (seq 0 (length qs))) by apply seq_length.
        apply (add_into_map (fun _ => f64_of_Z 0) (fun x i => if Nat.ltb x (length qs) && Nat.eqb i x then f64_of_Z 1 else f64_of_Z 0)). }
      match goal with |- _ = nadd (nsub (dot_array _ ?z) _) _ => replace z with (map cnt (seq 0 (length qs))) by (symmetry; exact SE) end.
      unfold dot_array, dot_vec. rewrite zip_dot_fold, fold_map_add.
      match goal with |- f64_add (f64_sub ?a _) _ = nadd (nsub ?b _) _ => assert (HD : a = b); [|rewrite <- HD; reflexivity] end.
      unfold cs, w. clearbody cnt. change (@n0 F) with (f64_of_Z 0).
      assert (HC : forall b s, fold_left (fun s p => f64_add s (f64_mul (l_ln L (f64_div (fst p) l)) (cnt (snd p)))) (combine qs (seq b (length qs))) s =
        fold_left (fun s p => f64_add s (f64_mul (fst p) (snd p))) (combine (map (fun q => l_ln L (f64_div q l)) qs) (map cnt (seq b (length qs)))) s).
      { clear. induction qs as [|q qs IH]; intros b s; [reflexivity|]. cbn [length seq combine map fold_left fst snd]. apply IH. }
      apply HC. }
  clearbody part. destruct one_num as [N1 V1]. destruct zero_num as [N0 V0].
  assert (LC : length cs = length qs) by (unfold cs; rewrite combine_length, seq_length; lia).
  set (eta := fun q => ln (val q / val l)).
  set (m := fun p : f64 * nat => (Rabs (eta (fst p)) + 1) * INR (occ xs (snd p)) + small). set (r := fun p : f64 * nat => eta (fst p) * INR (occ xs (snd p))).
  assert (SEQ : forall p, In p cs -> cat_ok (fst p) /\ (snd p < length qs)%nat).
  { intros [q i] I. unfold cs in I. split; [apply in_combine_l in I; rewrite Forall_forall in Q; apply Q, I|apply in_combine_r, in_seq in I; cbn; lia]. }
  assert (CNT : forall i, (i < length qs)%nat -> acc 0 (INR (occ xs i)) (INR (occ xs i)) (cnt i)).
  { intros i I. destruct (occ_sum (length qs) i xs I ZX 0 (f64_of_Z 0) (dyadic_zero 0) ltac:(lia) ltac:(lia)) as [NC VC]. change (bpow radix2 0) with 1 in VC. rewrite Z.add_0_l, Rmult_1_r, <- INR_IZR_INZ in VC.
    apply acc_is; [exact NC|exact VC|]. rewrite Rabs_pos_eq; [lra|apply pos_INR]. }
  assert (OB : forall i, 0 <= INR (occ xs i) <= 1099511627776) by (intros i; split; [apply pos_INR|pose proof (le_INR _ _ (occ_le xs i)); lra]).
  assert (HB : 1000000000000000000 <= huge) by (apply Rle_trans with (bpow radix2 60); [change (bpow radix2 60) with 1152921504606846976; lra|apply bpow_le; lia]).
  assert (EB : forall q, cat_ok q -> Rabs (eta q) <= 279) by (intros q CQ; exact (proj2 (ratio_range _ _ (proj2 CQ) (proj2 QL)))).
  assert (TERM : Forall (fun p => acc (c + 2 + 1) (m p) (r p) (w p)) cs).
  { apply Forall_forall. intros p I. destruct (SEQ p I) as [CQ IX]. destruct (odds_entry c lg L LOK C0 (fst p) l CQ QL) as [A _]. specialize (EB _ CQ). specialize (OB (snd p)). pose proof (Rabs_pos (eta (fst p))).
    unfold m, r, w. replace (c + 2 + 1) with (c + 2 + 0 + 1) by ring. apply acc_mul; ks; [exact A|apply CNT, IX|].
    apply Rle_trans with (280 * 1099511627776); [apply Rmult_le_compat; unfold eta in *; lra|lra]. }
  assert (ME : Rsum (map m cs) = Rsum (map (fun x => if Nat.ltb x (length qs) then Rabs (eta (nth x qs (f64_of_Z 0))) + 1 else 0) xs) + n * small).
  { unfold m. rewrite (Rsum_map_plus (fun p => (Rabs (eta (fst p)) + 1) * INR (occ xs (snd p))) (fun _ => small)), Rsum_map_const, LC. fold n. f_equal.
    apply (count_sum (fun q => Rabs (eta q) + 1)). }
  assert (RE : Rsum (map r cs) = Rsum (map (fun x => if Nat.ltb x (length qs) then eta (nth x qs (f64_of_Z 0)) else 0) xs)) by apply (count_sum eta).
  assert (PX : forall x, In x xs -> nth x ps 0 = val (nth x (qs ++ [l]) (f64_of_Z 0)) /\ cat_ok (nth x (qs ++ [l]) (f64_of_Z 0))).
  { intros x IX. specialize (X x IX). split; [unfold ps; rewrite <- V0, map_nth; reflexivity|]. assert (I : In (nth x (qs ++ [l]) (f64_of_Z 0)) (qs ++ [l])) by (apply nth_In; rewrite app_length; cbn; lia).
    apply in_app_or in I. rewrite Forall_forall in Q. destruct I as [I|[<-|[]]]; [apply Q, I|exact QL]. }
  pose proof (bpow_gt_0 radix2 (-400)) as P4. assert (PL : 0 < val l) by (destruct QL; lra).
  assert (ET : forall x, In x xs -> (if Nat.ltb x (length qs) then eta (nth x qs (f64_of_Z 0)) else 0) = ln (nth x ps 0 / val l)).
  { intros x I. destruct (PX x I) as [PXx _]. specialize (X x I). rewrite PXx. destruct (Nat.ltb_spec x (length qs)) as [Lt|Ge]; [rewrite app_nth1 by exact Lt; reflexivity|]. assert (x = length qs) by lia. subst x. rewrite app_nth2, Nat.sub_diag by lia. cbn [nth].
    unfold Rdiv. rewrite Rinv_r, ln_1 by lra. reflexivity. }
  assert (LX : forall x, In x xs -> Rabs (ln (nth x ps 0 / val l)) <= 279).
  { intros x I. destruct (PX x I) as [-> CX]. apply (EB _ CX). }
  rewrite (Rsum_ext _ _ xs ET) in RE.
  set (sx := Rsum (map (fun x => Rabs (ln (nth x ps 0 / val l))) xs)).
  assert (MB : Rsum (map m cs) <= sx + INR (length xs) + / 2).
  { rewrite ME. assert (n * small <= / 2) by nra. assert (HS : Rsum (map (fun x => if Nat.ltb x (length qs) then Rabs (eta (nth x qs (f64_of_Z 0))) + 1 else 0) xs) <= Rsum (map (fun x => Rabs (ln (nth x ps 0 / val l)) + 1) xs)).
    { apply Rsum_le. intros x I. rewrite <- (ET x I). destruct (Nat.ltb _ _); [lra|rewrite Rabs_R0; lra]. }
    rewrite (Rsum_plus (fun x => Rabs (ln (nth x ps 0 / val l)))), Rsum_const, Rmult_1_r in HS. fold sx in HS. lra. }
  assert (SXB : 0 <= sx <= INR (length xs) * 279).
  { split; [apply Rsum_pos; rewrite Forall_map; apply Forall_forall; intros; apply Rabs_pos|]. rewrite <- (Rsum_const 279 xs). apply Rsum_le. exact LX. }
  assert (TD : acc (c + 2 + 1 + n) (Rsum (map m cs)) (Rsum (map (fun x => ln (nth x ps 0 / val l)) xs)) (fold_left f64_add (map w cs) (f64_of_Z 0))).
  { rewrite <- RE. unfold n. rewrite <- LC. apply (sum_acc L); [lra| |exact TERM|lra]. rewrite LC. fold n. apply Rle_trans with (bpow radix2 20); [exact N|apply bpow_le; lia]. }
  set (t := Rsum ps / val l) in *.
  assert (PS : 0 < Rsum ps).
  { unfold ps. rewrite map_app. cbn [map]. clear -Q PL P4. induction Q as [|q qs [_ Q] _ IH]; cbn [map app]; rewrite Rsum_cons; [cbn; lra|]. cbn [map app] in IH. lra. }
  assert (TR : Rsum (map (fun x => ln (categorical_pmf ps x) - ln (Rsum ps)) xs) = Rsum (map (fun x => ln (nth x ps 0 / val l)) xs) - INR (length xs) * ln t + 0).
  { rewrite (Rsum_ext _ (fun x => ln (nth x ps 0 / val l) + - ln t)); [rewrite (Rsum_plus (fun x => ln (nth x ps 0 / val l))), Rsum_const; ring|].
    intros x I. destruct (PX x I) as [PXx CX]. assert (0 < nth x ps 0) by (rewrite PXx; destruct CX; lra). unfold categorical_pmf, t, Rdiv. rewrite !ln_mult by (try apply Rinv_0_lt_compat; lra). ring. }
  rewrite TR. rewrite (Rsum_plus (fun x => Rabs (ln (nth x ps 0 / val l)) + ln t)), (Rsum_plus (fun x => Rabs (ln (nth x ps 0 / val l)))), !Rsum_const. fold sx.
  set (M := INR (length xs)) in *.
  assert (TB : 0 <= M * ln t <= 1099511627776 * 1000) by (split; [apply Rmult_le_pos; lra|apply Rmult_le_compat; lra]).
  unfold categorical_units. set (K := c + 4 * (4 * c + 560 * (c + 2) + n + 1)) in *. assert (KB : c + 2 + 1 + n <= K <= 10000000000) by (unfold K; lra). clearbody K.
  assert (TN : acc (K + 1) (M * (ln t + 1) + small) (M * ln t) (f64_mul (@nofn F (length xs)) part)) by (unfold M in *; apply times_count; try assumption; lra).
  assert (TZ : acc (0 + M) 0 0 (fold_left f64_add (map (fun _ => f64_of_Z 0) xs) (f64_of_Z 0))).
  { pose proof (sum_acc L (fun _ : nat => 0) (fun _ => 0) (fun _ => f64_of_Z 0) 0 xs ltac:(lra) NX) as S. rewrite !Rsum_const, Rmult_0_r in S. apply S; [|lra]. apply Forall_forall. intros; exact acc_zero. }
  eapply acc_more; [apply (acc_add (K + 2 + M)); [apply (acc_k (K + 1 + 1)); [apply (acc_sub (K + 1)); [apply (acc_k (c + 2 + 1 + n)); [exact TD|lra]|exact TN| | |]|lra]|apply (acc_k (0 + M)); [exact TZ|lra]| | |]|..]; ks.
Qed.
End Fam.
