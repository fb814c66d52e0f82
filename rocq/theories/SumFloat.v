(** Sums, dot products, polynomials and log-sum-exp in binary64 (C54). *)
From Coq Require Import ZArith Reals Bool String List Lia Lra.
From Coq Require Import Floats.SpecFloat.
From Flocq Require Import Core IEEE754.BinarySingleNaN.
From Verif Require Import Num EggSpec LitFacts EggNum FloatFacts FloatErr AccSpec AccProofs RoundSpec RoundProofs RelErr
  DensitySpec CoreSpec CombSpec CoreModel CombModel ExpFamModel TaglessModel TaglessSpec DistFloat.
Import ListNotations.
Local Open Scope R_scope.

Lemma gam_mult n k : 0 <= k -> INR n * gam k <= gam (INR n * k).
Proof.
  intros K. pose proof (gam_pos k K) as G. induction n as [|n IH]; [cbn [INR]; rewrite !Rmult_0_l; unfold gam; rewrite Rmult_0_l, exp_0; lra|].
  rewrite S_INR. replace ((INR n + 1) * k) with (INR n * k + k) by ring.
  pose proof (gam_prod (INR n * k) k) as P. pose proof (gam_pos (INR n * k) ltac:(apply Rmult_le_pos; [apply pos_INR|exact K])). nra.
Qed.
Lemma Rsum_cons a l : Rsum (a :: l) = a + Rsum l. Proof. reflexivity. Qed.
Lemma Rsum_pos l : Forall (fun a => 0 <= a) l -> 0 <= Rsum l.
Proof. induction 1 as [|a l A _ IH]; [cbn; lra|rewrite Rsum_cons; lra]. Qed.

(** Adding up values that are themselves accurate, left to right. *)
Lemma fold_acc {A} (m r : A -> R) (w : A -> f64) k l : 0 <= k -> (k + INR (length l)) * eps <= / 4 ->
  Forall (fun a => acc k (m a) (r a) (w a)) l ->
  forall j m0 r0 w0, acc j m0 r0 w0 -> 0 <= j -> (j + INR (length l)) * eps <= / 4 -> m0 + Rsum (map m l) <= big ->
  acc (Rmax j k + INR (length l)) (m0 + Rsum (map m l)) (r0 + Rsum (map r l)) (fold_left (fun s a => f64_add s (w a)) l w0).
Proof.
  intros K KE F. induction F as [|a l HA F IH]; intros j m0 r0 w0 W J JE M.
  - cbn [map Rsum fold_right fold_left length INR]. rewrite !Rplus_0_r. eapply acc_more; [exact W|pose proof (Rmax_l j k); lra|lra].
  - cbn [map fold_left length] in *. rewrite !Rsum_cons in *. rewrite S_INR in *. pose proof eps_pos as EP. pose proof (pos_INR (length l)) as PL.
    assert (S0 : 0 <= Rsum (map m l)).
    { apply Rsum_pos. rewrite Forall_map. eapply Forall_impl; [|exact F]. intros b B. exact (acc_pos _ _ _ _ B). }
    pose proof (acc_pos _ _ _ _ W). pose proof (acc_pos _ _ _ _ HA). pose proof (Rmax_l j k). pose proof (Rmax_r j k).
    assert (X : acc (Rmax j k + 1) (m0 + m a) (r0 + r a) (f64_add w0 (w a))).
    { apply acc_add; try lra.
      - eapply acc_more; [exact W|lra|lra].
      - eapply acc_more; [exact HA|lra|lra].
      - unfold Rmax. destruct (Rle_dec j k); nra. }
    specialize (IH ltac:(nra) (Rmax j k + 1) _ _ _ X ltac:(lra)).
    rewrite <- !Rplus_assoc. replace (Rmax (Rmax j k + 1) k) with (Rmax j k + 1) in IH by (symmetry; apply Rmax_left; lra).
    replace (Rmax j k + INR (length l) + 1) with (Rmax j k + 1 + INR (length l)) by ring. apply IH; [|lra].
    unfold Rmax. destruct (Rle_dec j k); nra.
Qed.
Lemma fold_map_add {A} (w : A -> f64) l s : fold_left f64_add (map w l) s = fold_left (fun s a => f64_add s (w a)) l s.
Proof. revert s. induction l as [|a l IH]; intros s; [reflexivity|apply IH]. Qed.

Lemma len_eps (n : nat) k : INR n <= bpow radix2 40 -> k <= 50000000000000 -> (k + INR n) * eps <= / 4.
Proof. intros H K. apply keps. change (bpow radix2 40) with 1099511627776 in H. lra. Qed.

(** Plain sums. *)
Section Num.
Context (L : libm).
Notation F := (F64 L).
Lemma sum_acc {A} (m r : A -> R) (w : A -> f64) k l : 0 <= k <= 10000000000000 -> INR (length l) <= bpow radix2 40 ->
  Forall (fun a => acc k (m a) (r a) (w a)) l -> Rsum (map m l) <= big ->
  acc (k + INR (length l)) (Rsum (map m l)) (Rsum (map r l)) (fold_left (@nadd F) (map w l) n0).
Proof.
  intros K N HA M. change (@nadd F) with f64_add. change (@n0 F) with (f64_of_Z 0). rewrite fold_map_add. destruct zero_num as [N0 V0].
  replace (Rsum (map m l)) with (0 + Rsum (map m l)) by ring. replace (Rsum (map r l)) with (0 + Rsum (map r l)) by ring.
  replace k with (Rmax 0 k) at 1 by (apply Rmax_right; lra).
  apply fold_acc; try lra; try assumption; try (apply len_eps; lra || assumption).
  apply acc_is; try assumption. rewrite Rabs_R0. lra.
Qed.
Lemma sum_float xs : Forall is_num xs -> INR (length xs) <= bpow radix2 40 -> Rsum (map (fun x => Rabs (val x)) xs) <= big ->
  acc (INR (length xs)) (Rsum (map (fun x => Rabs (val x)) xs)) (Rsum (map val xs)) (@fold_sum F xs).
Proof.
  intros A N M. replace (INR (length xs)) with (0 + INR (length xs)) by ring. unfold fold_sum. rewrite <- (map_id xs) at 4.
  apply sum_acc; try assumption; [lra|]. eapply Forall_impl; [|exact A]. intros x X. apply acc_exact'; exact X.
Qed.

(** Dot products; the shorter list decides. *)
Lemma zip_dot_fold a b s : @zip_dot F s a b = fold_left (fun s p => f64_add s (f64_mul (fst p) (snd p))) (combine a b) s.
Proof. revert b s. induction a as [|x a IH]; intros [|y b] s; try reflexivity. apply IH. Qed.
Lemma mul_exact_acc x y : is_num x -> is_num y -> Rabs (val x) * Rabs (val y) <= big -> acc 1 (Rabs (val x) * Rabs (val y) + small) (val x * val y) (f64_mul x y).
Proof. intros X Y B. replace 1 with (0 + 0 + 1) by lra. apply acc_mul; try apply acc_exact'; try assumption; try lra. Qed.
Lemma sum_ge {A} (m : A -> R) l a : (forall b, In b l -> 0 <= m b) -> In a l -> m a <= Rsum (map m l).
Proof.
  intros P I. induction l as [|b l IH]; [contradiction|]. cbn [map]. rewrite Rsum_cons.
  assert (0 <= Rsum (map m l)) by (apply Rsum_pos; rewrite Forall_map; apply Forall_forall; intros; apply P; right; assumption).
  pose proof (P b (or_introl eq_refl)). destruct I as [-> | I]; [lra|]. specialize (IH (fun c C => P c (or_intror C)) I). lra.
Qed.
Lemma pairs_acc l : Forall is_num (map fst l) -> Forall is_num (map snd l) -> Rsum (map pair_size l) <= big ->
  Forall (fun p => acc 1 (pair_size p) (val (fst p) * val (snd p)) (f64_mul (fst p) (snd p))) l.
Proof.
  intros A B M. rewrite Forall_forall. intros p I. apply mul_exact_acc.
  - rewrite Forall_map, Forall_forall in A. apply A, I.
  - rewrite Forall_map, Forall_forall in B. apply B, I.
  - assert (pair_size p <= Rsum (map pair_size l)).
    { apply sum_ge; [|exact I]. intros q _. unfold pair_size. pose proof small_pos. pose proof (Rmult_le_pos _ _ (Rabs_pos (val (fst q))) (Rabs_pos (val (snd q)))). lra. }
    unfold pair_size in H at 1. pose proof small_pos. lra.
Qed.
Lemma combine_num {A B} (P : A -> Prop) (Q : B -> Prop) a b : Forall P a -> Forall Q b -> Forall P (map fst (combine a b)) /\ Forall Q (map snd (combine a b)).
Proof.
  intros HA. revert b. induction HA as [|x a X HA IH]; intros b HB; [split; constructor|].
  destruct HB as [|y b Y HB]; [split; constructor|]. destruct (IH b HB). split; constructor; assumption.
Qed.
Lemma dot_float a b : Forall is_num a -> Forall is_num b -> INR (length (combine a b)) <= bpow radix2 40 -> Rsum (map pair_size (combine a b)) <= big ->
  acc (1 + INR (length (combine a b))) (Rsum (map pair_size (combine a b))) (rdot (map val a) (map val b)) (@dot_array F a b) /\
  acc (1 + INR (length (combine a b))) (Rsum (map pair_size (combine a b))) (rdot (map val a) (map val b)) (@dot_vec F a b).
Proof.
  intros A B N M. destruct (combine_num _ _ a b A B) as [A' B']. unfold dot_array, dot_vec. rewrite zip_dot_fold, <- fold_map_add.
  assert (E : rdot (map val a) (map val b) = Rsum (map (fun p => val (fst p) * val (snd p)) (combine a b))).
  { unfold rdot. f_equal. clear. revert b. induction a as [|x a IH]; intros [|y b]; try reflexivity. cbn [map combine]. f_equal. apply IH. }
  rewrite E. split; apply sum_acc; try assumption; try lra; apply pairs_acc; assumption.
Qed.

(** A linear map: offset plus the row's dot product. *)
Lemma affine_float b0 l : is_num b0 -> Forall is_num (map fst l) -> Forall is_num (map snd l) -> INR (length l) <= bpow radix2 40 ->
  Rabs (val b0) + Rsum (map pair_size l) <= big ->
  acc (1 + INR (length l)) (Rabs (val b0) + Rsum (map pair_size l)) (val b0 + Rsum (map (fun p => val (fst p) * val (snd p)) l))
    (fold_left (fun s p => f64_add s (f64_mul (fst p) (snd p))) l b0).
Proof.
  intros B0 A B N M. replace 1 with (Rmax 0 1) at 1 by (apply Rmax_right; lra).
  apply fold_acc; try assumption; try lra; try (apply len_eps; lra || assumption).
  - apply pairs_acc; try assumption. pose proof (Rabs_pos (val b0)). lra.
  - apply acc_exact'; assumption.
Qed.

(** Horner's rule, any degree. *)
Lemma poly_from_shift k l x : poly_from (S k) l x = x * poly_from k l x.
Proof. revert k. induction l as [|c l IH]; intros k; cbn [poly_from]; [ring|]. rewrite IH. cbn [pow]. ring. Qed.
Lemma poly_cons c l x : poly (c :: l) x = c + x * poly l x.
Proof. unfold poly. cbn [poly_from]. rewrite poly_from_shift. cbn [pow]. ring. Qed.
Lemma poly_nonneg l x : Forall (fun a => 0 <= a) l -> 0 <= x -> 0 <= poly l x.
Proof. intros A X. induction A as [|a l A _ IH]; [unfold poly; cbn; lra|]. rewrite poly_cons. assert (0 <= x * poly l x) by (apply Rmult_le_pos; assumption). lra. Qed.
Lemma padded_pos l : Forall (fun a => 0 <= a) (padded l).
Proof. unfold padded. rewrite Forall_map. apply Forall_forall. intros a _. pose proof (Rabs_pos (val a)). pose proof small_pos. lra. Qed.
Lemma poly_mono l x y : Forall (fun a => 0 <= a) l -> 0 <= x <= y -> poly l x <= poly l y.
Proof.
  intros HA X. induction HA as [|a l A HA IH]; [unfold poly; cbn; lra|]. rewrite !poly_cons.
  assert (x * poly l x <= y * poly l y) by (apply Rmult_le_compat; try lra; apply poly_nonneg; assumption || lra). lra.
Qed.
Lemma poly_suffix a l y : 0 <= a -> Forall (fun a => 0 <= a) l -> 1 <= y -> poly l y <= poly (a :: l) y.
Proof. intros A HA Y. rewrite poly_cons. pose proof (poly_nonneg l y HA ltac:(lra)). nra. Qed.
Definition hstep (x : f64) (s a : f64) : f64 := f64_add (f64_mul s x) a.
Lemma horner_acc x c l : is_num x -> is_num c -> Forall is_num l -> INR (length l) <= bpow radix2 40 ->
  poly (padded (l ++ [c])) (Rmax 1 (Rabs (val x))) <= big ->
  acc (2 * INR (length l)) (poly (padded (l ++ [c])) (Rabs (val x))) (poly (map val (l ++ [c])) (val x)) (fold_left (hstep x) (rev l) c).
Proof.
  intros NX NC HA. induction HA as [|a l A HA IH]; intros N M.
  - cbn [app length INR rev fold_left padded map]. rewrite !poly_cons. unfold poly. cbn [poly_from]. rewrite !Rmult_0_r, !Rplus_0_r.
    pose proof small_pos. eapply acc_more; [apply acc_exact'; exact NC|lra|lra].
  - cbn [app length rev padded map] in *. fold (padded (l ++ [c])) in *. rewrite fold_left_app. cbn [fold_left]. rewrite S_INR in *.
    pose proof (Rmax_l 1 (Rabs (val x))) as M1. pose proof (Rmax_r 1 (Rabs (val x))) as M2. pose proof (Rabs_pos (val x)) as X0. pose proof small_pos as SP. pose proof (Rabs_pos (val a)) as A0.
    assert (M' : poly (padded (l ++ [c])) (Rmax 1 (Rabs (val x))) <= big).
    { eapply Rle_trans; [|exact M]. apply poly_suffix; [lra|apply padded_pos|exact M1]. }
    assert (B : poly (Rabs (val a) + small :: padded (l ++ [c])) (Rabs (val x)) <= big).
    { eapply Rle_trans; [|exact M]. apply poly_mono; [constructor; [lra|apply padded_pos]|lra]. }
    pose proof (IH ltac:(lra) M') as W. pose proof (pos_INR (length l)) as PL. rewrite !poly_cons in *.
    pose proof (poly_nonneg (padded (l ++ [c])) (Rabs (val x)) (padded_pos _) X0) as P0.
    set (m := poly (padded (l ++ [c])) (Rabs (val x))) in *. set (r := poly (map val (l ++ [c])) (val x)) in *.
    assert (MX : 0 <= Rabs (val x) * m) by (apply Rmult_le_pos; assumption).
    assert (KE : (2 * INR (length l) + 1) * eps <= / 4) by (apply keps; change (bpow radix2 40) with 1099511627776 in N; lra).
    pose proof eps_pos as EP.
    assert (T : acc (2 * INR (length l) + 1) (m * Rabs (val x) + small) (r * val x) (f64_mul (fold_left (hstep x) (rev l) c) x)).
    { replace (2 * INR (length l) + 1) with (2 * INR (length l) + 0 + 1) by ring. apply acc_mul; try lra; [exact W|apply acc_exact'; exact NX]. }
    unfold hstep at 1. eapply acc_more; [|split; [|apply Rle_refl]|apply Rle_refl]; [|lra].
    replace (2 * (INR (length l) + 1)) with (2 * INR (length l) + 1 + 1) by ring.
    replace (Rabs (val a) + small + Rabs (val x) * m) with (m * Rabs (val x) + small + Rabs (val a)) by ring.
    replace (val a + val x * r) with (r * val x + val a) by ring.
    apply acc_add; try lra; [exact T|]. eapply acc_more; [apply acc_exact'; exact A|lra|lra].
Qed.
Lemma horner_float cs x : is_num x -> Forall is_num cs -> INR (length cs) <= bpow radix2 40 -> poly (padded cs) (Rmax 1 (Rabs (val x))) <= big ->
  acc (2 * INR (length cs)) (poly (padded cs) (Rabs (val x))) (poly (map val cs) (val x)) (horner (@DirectEval F) cs x).
Proof.
  intros NX HA N M. destruct cs as [|a cs].
  - cbn [length INR]. unfold poly. cbn [padded map poly_from]. rewrite Rmult_0_r. destruct zero_num as [N0 V0]. apply acc_is; [exact N0|exact V0|rewrite Rabs_R0; lra].
  - destruct (exists_last (l := a :: cs) ltac:(discriminate)) as (l & c & E). rewrite E in *.
    apply Forall_app in HA as [HL HC]. rewrite app_length, plus_INR in *. cbn [length INR] in *. apply Forall_inv in HC.
    assert (H : horner (@DirectEval F) (l ++ [c]) x = fold_left (hstep x) (rev l) c).
    { rewrite <- E. unfold horner. destruct cs as [|b cs]; [destruct l as [|? [|? ?]]; try discriminate E; injection E as ->; reflexivity|].
      rewrite E. rewrite rev_app_distr. reflexivity. }
    rewrite H. eapply acc_more; [apply horner_acc; try assumption; lra|pose proof (pos_INR (length l)); lra|apply Rle_refl].
Qed.

(** * log-sum-exp *)
Context (c : R) (lg : R -> R) (LOK : libm_ok c lg L) (C0 : 0 <= c <= 1000000).
Definition vmax (a : f64) (l : list f64) : f64 := fold_left (fun s x => if SFltb s x then x else s) l a.
Lemma vmax_spec l : Forall is_num l -> forall a, is_num a -> is_num (vmax a l) /\ (vmax a l = a \/ In (vmax a l) l) /\ val a <= val (vmax a l) /\ (forall b, In b l -> val b <= val (vmax a l)).
Proof.
  induction 1 as [|x l X HL IH]; intros a A; [cbn; repeat split; try apply A; try tauto; lra|].
  change (vmax a (x :: l)) with (vmax (if SFltb a x then x else a) l). rewrite (SFltb_num a x A X).
  destruct (Rlt_bool_spec (val a) (val x)) as [H|H].
  - destruct (IH x X) as (N & I & G & S). split; [exact N|]. split; [cbn [In]; destruct I as [-> | I]; tauto|]. split; [lra|].
    intros b [<- | B]; [exact G|apply S, B].
  - destruct (IH a A) as (N & I & G & S). split; [exact N|]. split; [cbn [In]; tauto|]. split; [exact G|].
    intros b [<- | B]; [lra|apply S, B].
Qed.
Lemma max_from_ninf x l : is_num x -> fold_left (fun s y => if @nltb F s y then y else s) (x :: l) (@nninf F) = vmax x l.
Proof.
  intros [_ X]. cbn [fold_left]. change (@nltb F) with SFltb. change (@nninf F) with (S754_infinity true).
  replace (SFltb (S754_infinity true) x) with true; [reflexivity|]. destruct x as [s|s| |s m e]; try discriminate X; destruct s; reflexivity.
Qed.

(** [exp (x - max)] to within a few units, absolutely. *)
Lemma te_bound t : 0 <= t -> t * exp (- t) <= 1.
Proof. intros T. rewrite exp_Ropp. pose proof (exp_pos t). apply (Rmult_le_reg_r (exp t)); [lra|]. rewrite Rmult_assoc, Rinv_l, Rmult_1_l, Rmult_1_r by lra. pose proof (exp_ineq1_le t). lra. Qed.
Lemma exp_near t d g : t <= 0 -> 0 <= g <= / 4 -> Rabs (d - t) <= g * Rabs t -> Rabs (exp d - exp t) <= 2 * g.
Proof.
  intros T G H. rewrite (Rabs_left1 t T) in H. apply Rabs_le_inv in H. pose proof (exp_pos d) as E1. pose proof (exp_pos t) as E2.
  set (s := - t * (1 - g)). assert (S0 : 0 <= s) by (unfold s; apply Rmult_le_pos; lra). pose proof (te_bound s S0) as B.
  assert (X : forall a b, a <= b -> exp b - exp a <= (b - a) * exp b).
  { intros a b _. pose proof (exp_ineq1_le (a - b)) as I. pose proof (exp_pos b). replace (exp a) with (exp b * exp (a - b)) by (rewrite <- exp_plus; f_equal; ring). nra. }
  assert (Y : exp d <= exp (- s)) by (apply exp_le; unfold s; lra). assert (Z : exp t <= exp (- s)) by (apply exp_le; unfold s; nra).
  assert (Q : g * - t * exp (- s) <= 2 * g).
  { replace (g * - t * exp (- s)) with (g / (1 - g) * (s * exp (- s))) by (unfold s; field; lra).
    apply Rle_trans with (g / (1 - g) * 1).
    - apply Rmult_le_compat_l; [apply Rmult_le_pos; [lra|left; apply Rinv_0_lt_compat; lra]|exact B].
    - rewrite Rmult_1_r. apply (Rmult_le_reg_r (1 - g)); [lra|]. unfold Rdiv. rewrite Rmult_assoc, Rinv_l by lra. nra. }
  pose proof (exp_pos (- s)) as E3. apply Rabs_le. split.
  - destruct (Rle_dec d t) as [C|C].
    + pose proof (X d t C). assert ((t - d) * exp t <= g * - t * exp (- s)) by (apply Rmult_le_compat; lra). lra.
    + assert (exp t <= exp d) by (apply exp_le; lra). lra.
  - destruct (Rle_dec t d) as [C|C].
    + pose proof (X t d C). assert ((d - t) * exp d <= g * - t * exp (- s)) by (apply Rmult_le_compat; lra). lra.
    + assert (exp d <= exp t) by (apply exp_le; lra). lra.
Qed.
Lemma exp_shift_float x mx : is_num x -> is_num mx -> val x <= val mx -> Rabs (val x) + Rabs (val mx) <= big ->
  acc (c + 5) 1 (exp (val x - val mx)) (l_exp L (f64_sub x mx)).
Proof.
  intros X M LE B. sizes. destruct (acc_diff x mx X M B) as (N & _ & E). set (t := val x - val mx) in *. assert (T : t <= 0) by (unfold t; lra). clearbody t.
  pose proof (gam_up 1 ltac:(lra) ltac:(lra)) as G. pose proof (gam_pos 1 ltac:(lra)) as G0.
  pose proof (exp_near t (val (f64_sub x mx)) (gam 1) T ltac:(lra) E) as HE.
  assert (D0 : val (f64_sub x mx) <= 0). { rewrite (Rabs_left1 t T) in E. apply Rabs_le_inv in E. nra. }
  destruct (ok_exp c lg L LOK (f64_sub x mx) N ltac:(lra)) as [N' W].
  assert (E1 : exp (val (f64_sub x mx)) <= 1) by (rewrite <- exp_0; apply exp_le; exact D0).
  assert (E2 : exp t <= 1) by (rewrite <- exp_0; apply exp_le; exact T). pose proof (exp_pos t). pose proof (exp_pos (val (f64_sub x mx))).
  split; [exact N'|]. split; [rewrite Rabs_pos_eq; lra|].
  replace (val (l_exp L (f64_sub x mx)) - exp t) with ((val (l_exp L (f64_sub x mx)) - exp (val (f64_sub x mx))) + (exp (val (f64_sub x mx)) - exp t)) by ring.
  eapply Rle_trans; [apply Rabs_triang|]. pose proof (gam_lin (c + 5)).
  assert (c * eps * (exp (val (f64_sub x mx)) + small) <= c * eps * (1 + small)) by (apply Rmult_le_compat_l; [apply Rmult_le_pos|]; lra).
  assert (c * eps * small <= eps). { assert (c * small <= 1) by nra. nra. }
  lra.
Qed.
Lemma exp_total_shift m l : Rsum (map exp l) = exp m * Rsum (map (fun x => exp (x - m)) l).
Proof. induction l as [|a l IH]; [cbn; ring|]. cbn [map]. rewrite !Rsum_cons, IH. replace a with (m + (a - m)) at 1 by ring. rewrite exp_plus. ring. Qed.
Lemma const_sum {A} (l : list A) k : Rsum (map (fun _ => k) l) = INR (length l) * k.
Proof. induction l as [|a l IH]; [cbn; ring|]. cbn [map length]. rewrite Rsum_cons, IH, S_INR. ring. Qed.
Lemma log_sum_exp_cons x l : is_num x -> @CombModel.log_sum_exp F (x :: l) =
  if @is_neg_inf F (vmax x l) then @nninf F
  else f64_add (vmax x l) (l_ln L (fold_left (@nadd F) (map (fun y => l_exp L (f64_sub y (vmax x l))) (x :: l)) n0)).
Proof. intros X. rewrite <- (max_from_ninf x l X). reflexivity. Qed.
Lemma log_sum_exp_float l : l <> [] -> Forall is_num l -> Forall (fun x => Rabs (val x) <= huge) l -> INR (length l) <= bpow radix2 20 ->
  let n := INR (length l) in let v := log_total (map val l) in
  acc (c + 4 * (n * (c + 5 + n)) + 1) (Rabs v + 2 * n) v (@CombModel.log_sum_exp F l).
Proof.
  intros NE HN HB HL n v. destruct l as [|x0 l0]; [congruence|]. set (l := x0 :: l0) in *. change (bpow radix2 20) with 1048576 in HL.
  fold n in HL. assert (N1 : 1 <= n) by (unfold n, l; cbn [length]; rewrite S_INR; pose proof (pos_INR (length l0)); lra).
  pose proof (Forall_inv HN) as NX0. pose proof (Forall_inv_tail HN) as NL0. sizes.
  destruct (vmax_spec l0 NL0 x0 NX0) as (NM & IM & GM & SM).
  unfold l at 1. rewrite (log_sum_exp_cons x0 l0 NX0). fold l. set (mx := vmax x0 l0) in *.
  assert (IN : In mx l) by (unfold l; cbn [In]; destruct IM as [I|I]; [left; symmetry; exact I|right; exact I]).
  assert (MAX : forall b, In b l -> val b <= val mx) by (intros b [<- | B]; [exact GM|apply SM, B]).
  assert (MB : Rabs (val mx) <= huge) by (rewrite Forall_forall in HB; apply HB, IN).
  assert (NI : @is_neg_inf F mx = false).
  { change (SFeqb mx (S754_infinity true) = false). destruct NM as [_ FM]. destruct mx as [s|s| |s m e]; try discriminate FM; destruct s; reflexivity. }
  rewrite NI.
  set (S := Rsum (map (fun x => exp (val x - val mx)) l)).
  assert (S1 : 1 <= S).
  { replace 1 with (exp (val mx - val mx)) by (rewrite Rminus_diag_eq by reflexivity; apply exp_0).
    apply (sum_ge (fun x => exp (val x - val mx)) l mx); [intros; left; apply exp_pos|exact IN]. }
  assert (HI : Forall (fun x => acc (c + 5) 1 (exp (val x - val mx)) (l_exp L (f64_sub x mx))) l).
  { rewrite Forall_forall in *. intros x I. apply exp_shift_float; try assumption; [apply HN, I|apply MAX, I|]. specialize (HB x I). cbv beta in HB. lra. }
  assert (SN : acc (c + 5 + n) n S (fold_left (@nadd F) (map (fun x => l_exp L (f64_sub x mx)) l) n0)).
  { replace n with (Rsum (map (fun _ : f64 => 1) l)) at 2 by (rewrite const_sum; unfold n; ring).
    apply (sum_acc (fun _ => 1) (fun x => exp (val x - val mx))); try lra; try assumption.
    - change (bpow radix2 40) with 1099511627776. fold n. lra.
    - rewrite const_sum. fold n. lra. }
  set (w := fold_left (@nadd F) (map (fun x => l_exp L (f64_sub x mx)) l) n0) in *.
  set (k := n * (c + 5 + n)).
  assert (K0 : 0 <= k <= 3000000000000) by (unfold k; split; [apply Rmult_le_pos; lra|]; apply Rle_trans with (1048576 * (1000000 + 5 + 1048576)); [apply Rmult_le_compat; lra|lra]).
  assert (SK : acc k S S w).
  { destruct SN as (NW & BS & ES). split; [exact NW|]. split; [rewrite Rabs_pos_eq; lra|]. eapply Rle_trans; [exact ES|].
    pose proof (gam_mult (length l) (c + 5 + n) ltac:(lra)) as G. fold n in G. fold k in G. pose proof (gam_pos k ltac:(lra)). nra. }
  assert (SB : S <= n) by (destruct SN as (_ & B & _); rewrite Rabs_pos_eq in B; lra).
  pose proof (rel_of_acc _ _ _ SK ltac:(lra) ltac:(lra) ltac:(apply keps; lra)) as RR.
  pose proof (acc_ln c lg L LOK ltac:(lra) _ _ _ RR ltac:(lra) ltac:(lra) ltac:(apply keps; lra)) as TL.
  assert (LS : 0 <= ln S <= n - 1).
  { split; [rewrite <- ln_1; apply ln_le; lra|]. pose proof (exp_ineq1_le (ln S)) as I. rewrite exp_ln in I by lra. lra. }
  rewrite (Rabs_pos_eq (ln S)) in TL by lra.
  assert (V : v = val mx + ln S).
  { unfold v, log_total. rewrite (exp_total_shift (val mx)), map_map. fold S. rewrite ln_mult, ln_exp by (apply exp_pos || lra). reflexivity. }
  assert (A : Rabs (val mx) <= Rabs v + ln S).
  { replace (val mx) with (v + - ln S) by lra. eapply Rle_trans; [apply Rabs_triang|]. rewrite Rabs_Ropp, (Rabs_pos_eq (ln S)); lra. }
  rewrite V at 2. replace (c + 4 * k + 1) with (c + 2 * (2 * k) + 1) by ring.
  eapply acc_more; [apply (acc_add (c + 2 * (2 * k)) (Rabs (val mx)) (ln S + 1)); [eapply acc_more; [apply acc_exact'; exact NM| |apply Rle_refl]|exact TL| | |]|..]; try lra; try (apply keps; lra).

Qed.
End Num.

(** A linear map applied to a vector, one coordinate. *)
Lemma nth_num l i : Forall is_num l -> is_num (nth i l (f64_of_Z 0)).
Proof. intros H. destruct (Nat.lt_ge_cases i (length l)) as [I|I]; [rewrite Forall_forall in H; apply H, nth_In, I|rewrite nth_overflow by exact I; apply zero_num]. Qed.
Lemma nth_val l i : nth i (map val l) 0 = val (nth i l (f64_of_Z 0)).
Proof. rewrite <- (proj2 zero_num) at 1. apply map_nth. Qed.
Lemma fold_map_gen {A B C} (f : C -> B -> C) (g : A -> B) l s : fold_left f (map g l) s = fold_left (fun s a => f s (g a)) l s.
Proof. revert s. induction l as [|a l IH]; intros s; [reflexivity|apply IH]. Qed.
Lemma linear_float L (t : Linear (F64 L)) (x : list f64) ys i : @linear_transform_vec (F64 L) t x = Some ys -> (i < l_out t)%nat ->
  Forall is_num (l_matrix t) -> Forall is_num (l_offset t) -> Forall is_num x -> INR (length x) <= bpow radix2 40 ->
  let b := nth i (l_offset t) (f64_of_Z 0) in
  Rabs (val b) + Rsum (map pair_size (row (l_matrix t) x i)) <= big ->
  acc (1 + INR (length x)) (Rabs (val b) + Rsum (map pair_size (row (l_matrix t) x i)))
    (affine (map val (l_matrix t)) (map val (l_offset t)) (map val x) i) (nth i ys (f64_of_Z 0)).
Proof.
  intros E I HA HB HX N b M. unfold linear_transform_vec in E. change (@length (num (F64 L)) x) with (length x) in E. destruct (Nat.eqb (length x) (l_in t)) eqn:D; [|discriminate E]. apply Nat.eqb_eq in D.
  injection E as <-. rewrite <- D in *.
  set (g := fun i : nat => fold_left (fun sum j => f64_add sum (f64_mul (nth (i * length x + j) (l_matrix t) (f64_of_Z 0)) (nth j x (f64_of_Z 0)))) (seq 0 (length x)) (nth i (l_offset t) (f64_of_Z 0))).
  match goal with |- acc _ _ _ ?w => change w with (nth i (map g (seq 0 (l_out t))) (f64_of_Z 0)) end.
  rewrite nth_indep with (d' := g 0%nat) by (rewrite map_length, seq_length; exact I).
  rewrite map_nth, seq_nth by exact I. rewrite Nat.add_0_l.
  assert (R : g i = fold_left (fun s p => f64_add s (f64_mul (fst p) (snd p))) (row (l_matrix t) x i) b) by (unfold row; rewrite fold_map_gen; reflexivity).
  rewrite R. replace (affine _ _ _ _) with (val b + Rsum (map (fun p => val (fst p) * val (snd p)) (row (l_matrix t) x i))).
  - assert (LR : length x = length (row (l_matrix t) x i)) by (unfold row; rewrite map_length, seq_length; reflexivity). rewrite LR at 1.
    apply affine_float; try assumption.
    + apply nth_num, HB.
    + unfold row. rewrite map_map. apply Forall_map, Forall_forall. intros j _. apply nth_num, HA.
    + unfold row. rewrite map_map. apply Forall_map, Forall_forall. intros j _. apply nth_num, HX.
    + rewrite <- LR. exact N.
  - unfold affine, b, row. rewrite map_length, nth_val, map_map. f_equal. f_equal. apply map_ext. intros j. cbn [fst snd]. rewrite !nth_val. reflexivity.
Qed.

(** An independent sample: the log-densities added up. *)
Lemma iid_float {X} c (L : libm) (b : Base (F64 L) X) (m r : X -> R) xs k : 0 <= c -> 0 <= k <= 10000000000000 -> INR (length xs) <= bpow radix2 40 ->
  Forall (fun x => acc k (m x) (r x) (b_ld b x)) xs -> Rsum (map m xs) <= big ->
  acc (k + INR (length xs)) (Rsum (map m xs)) (Rsum (map r xs)) (@iid_log_density_fallback (F64 L) X b xs).
Proof. intros C K N A M. unfold iid_log_density_fallback. apply sum_acc; assumption. Qed.
Lemma ln_prod {X} (f : X -> R) xs : (forall x, 0 < f x) -> Rsum (map (fun x => ln (f x)) xs) = ln (fold_right Rmult 1 (map f xs)).
Proof.
  intros P. assert (Q : forall l, 0 < fold_right Rmult 1 (map f l)) by (induction l as [|a l IH]; [cbn; lra|cbn; apply Rmult_lt_0_compat; [apply P|exact IH]]).
  induction xs as [|x xs IH]; [cbn; symmetry; apply ln_1|]. cbn [map fold_right]. rewrite Rsum_cons, IH, ln_mult by (apply P || apply Q). reflexivity.
Qed.
