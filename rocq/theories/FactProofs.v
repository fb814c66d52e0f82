(** Proofs for C40: the combinatorial base measures, and the Poisson family path. *)
From Coquelicot Require Import Coquelicot.
From Coq Require Import ZArith Reals List Bool Lra Lia Arith.
From Verif Require Import Num XRFacts DensitySpec BuilderProofs CoreModel CoreSpec CoreProofs
  CombModel CombSpec ExpFamModel DistModel DistSpec DistFacts DistProofs DistProofs2 DistProofs3 DistProofs4
  ExpFamProofs CombProofs Wallis Stirling DiscProofs DiscProofs2.
Import ListNotations.
Local Open Scope R_scope.
Local Open Scope list_scope.
Notation C := Binomial.C.

Definition tabZ : list (Z * positive) :=
  [ (0, 1%positive); (0, 1%positive);
    (693147180559945309417232121458, 1000000000000000000000000000000%positive);
    (1791759469228055, 1000000000000000%positive);
    (31780538303479458, 10000000000000000%positive);
    (4787491742782046, 1000000000000000%positive);
    (6579251212010101, 1000000000000000%positive);
    (8525161361065415, 1000000000000000%positive);
    (1060460290274525, 100000000000000%positive);
    (1280182748008147, 100000000000000%positive);
    (15104412573075518, 1000000000000000%positive);
    (17502307845873887, 1000000000000000%positive);
    (1998721449566189, 100000000000000%positive);
    (22552163853123425, 1000000000000000%positive);
    (25191221182738683, 1000000000000000%positive);
    (27899271383840894, 1000000000000000%positive);
    (30671860106080675, 1000000000000000%positive);
    (3350507345013689, 100000000000000%positive);
    (3639544520803305, 100000000000000%positive);
    (39339884187199495, 1000000000000000%positive);
    (42335616460753485, 1000000000000000%positive) ]%Z.
(** 10^30 * table entry, exactly; and the distance to the certified bound. *)
Definition tab_scaled (k : nat) : Z := let md := nth k tabZ (0, 1%positive)%Z in (fst md * (scaleZ / Zpos (snd md)))%Z.
Definition tab_ok (k : nat) (F : Z) : bool :=
  let md := nth k tabZ (0, 1%positive)%Z in
  (Z.eqb (scaleZ / Zpos (snd md) * Zpos (snd md)) scaleZ &&
   Z.leb (tab_scaled k - F) (4 * 10 ^ 15) &&
   Z.leb (F + 35 * Z.of_nat k * Z.of_nat k - tab_scaled k) (4 * 10 ^ 15))%Z.
Definition lnstep (i : nat) : Z := atsum 34 (2 * Z.of_nat (S i) + 1).
Fixpoint tab_check (i : nat) (L F : Z) (n : nat) {struct n} : bool :=
  match n with
  | O => true
  | S m => andb (tab_check (S i) (L + lnstep i)%Z (F + L)%Z m) (tab_ok i F)
  end.
Lemma lnlo_S i : lnlo (S i) = (lnlo i + lnstep i)%Z. Proof. unfold lnstep. cbn [lnlo]. reflexivity. Qed.
Lemma factlo_S i : factlo (S i) = (factlo i + lnlo i)%Z. Proof. cbn [factlo]. reflexivity. Qed.
Opaque atsum lnstep lnlo factlo tab_ok.
Lemma tab_check_sound n : forall i, tab_check i (lnlo i) (factlo i) n = true ->
  forall k, (i <= k < i + n)%nat -> tab_ok k (factlo k) = true.
Proof.
  induction n as [|n IH]; intros i H k K; [lia|]. cbn [tab_check] in H. apply andb_prop in H. destruct H as [H2 H1].
  destruct (Nat.eq_dec k i) as [->|N]; [exact H1|]. apply (IH (S i)); [rewrite lnlo_S, factlo_S; exact H2|lia].
Qed.
Lemma tab_all : tab_check 0 0 0 21 = true.
Proof. vm_compute. reflexivity. Qed.
Opaque scaleZ factlo.
Definition tabR (k : nat) : R := let md := nth k tabZ (0, 1%positive)%Z in IZR (fst md) / IZR (Zpos (snd md)).
Lemma tabR_close k : (k <= 20)%nat -> Rabs (tabR k - ln (INR (fact k))) <= 4 / 10 ^ 15.
Proof.
  intros K. pose proof tab_all as T. apply tab_check_sound with (k := k) in T; [|lia].
  Transparent tab_ok. unfold tab_ok in T. Opaque tab_ok. apply andb_prop in T. destruct T as [T T3]. apply andb_prop in T. destruct T as [T1 T2].
  apply Z.eqb_eq in T1. apply Z.leb_le in T2, T3. pose proof (factlo_bounds k) as B.
  assert (SP : 0 < IZR scaleZ) by (rewrite scaleZ_val; apply pow_lt; lra).
  assert (E : IZR (tab_scaled k) = IZR scaleZ * tabR k).
  { unfold tab_scaled, tabR. set (md := nth k tabZ (0%Z, 1%positive)) in *. rewrite mult_IZR.
    rewrite <- T1 at 2. rewrite mult_IZR. field. apply IZR_neq. lia. }
  apply IZR_le in T2, T3. rewrite minus_IZR in T2, T3. rewrite plus_IZR, !mult_IZR, <- INR_IZR_INZ in T3. rewrite E in *.
  rewrite mult_IZR in T2. replace (IZR (10 ^ 15)) with (10 ^ 15) in * by (rewrite pow_IZR; reflexivity).
  assert (H : Rabs (IZR scaleZ * (tabR k - ln (INR (fact k)))) <= 4 * 10 ^ 15) by (apply Rabs_le; lra).
  rewrite Rabs_mult, (Rabs_right (IZR scaleZ)) in H by lra.
  apply (Rmult_le_reg_l (IZR scaleZ)); [exact SP|]. eapply Rle_trans; [exact H|]. rewrite scaleZ_val.
  replace (10 ^ 30 * (4 / 10 ^ 15)) with (4 * 10 ^ 15); [lra|]. field.
Qed.

Section D.
Context (lg : R -> R).
Notation X := (XR lg).
Lemma table_value k : (k <= 20)%nat -> (log_factorial k : X) = Fin (tabR k).
Proof.
  intros K. unfold log_factorial. rewrite (proj2 (Nat.leb_le _ _) K). unfold tabR, log_factorial_table, tabZ.
  do 21 (destruct k as [|k]; [cbn [nth fst snd]; rewrite ?x_n0, ?x_dec; f_equal; try lra; reflexivity|]). lia.
Qed.
Lemma stirling_value k : (2 <= k)%nat -> (stirling k : X) =
  Fin (INR k * ln (INR k) - INR k + / 2 * ln (2 * PI * INR k) + S4 (INR k)).
Proof.
  intros K. pose proof (lt_0_INR k ltac:(lia)) as P. pose proof PI_RGT_0. assert (0 < 2 * PI * INR k) by nra.
  unfold stirling. replace (Nat.leb k 1) with false by (symmetry; apply Nat.leb_gt; lia).
  cbv zeta. xr_lits. xr_ops. 
  repeat first [rewrite xmul_Fin | rewrite xsub_Fin | rewrite xadd_Fin | rewrite xdiv_fin by lra | rewrite xln_pos by assumption].
  f_equal. unfold S4. field. lra.
Qed.
Lemma log_factorial_close k : exists v, (log_factorial k : X) = Fin v /\ Rabs (v - ln (INR (fact k))) <= 4 / 10 ^ 15 /\
  ((21 <= k)%nat -> 0 <= ln (INR (fact k)) - v <= / (1188 * INR k ^ 9)).
Proof.
  destruct (le_lt_dec k 20) as [K|K].
  - exists (tabR k). split; [apply table_value, K|]. split; [apply tabR_close, K|lia].
  - eexists. unfold log_factorial. replace (Nat.leb k 20) with false by (symmetry; apply Nat.leb_gt; lia).
    split; [apply stirling_value; lia|]. pose proof (stirling_series k ltac:(lia)) as B. split; [|intros _; exact B].
    assert (P : 21 <= INR k) by (replace 21 with (INR 21) by (rewrite INR_IZR_INZ; reflexivity); apply le_INR; lia).
    assert (T : T5 (INR k) <= 4 / 10 ^ 15).
    { unfold T5. apply Rle_trans with (/ (1188 * 21 ^ 9)).
      - apply Rinv_le_contravar; [apply Rmult_lt_0_compat; [lra|apply pow_lt; lra]|]. apply Rmult_le_compat_l; [lra|]. apply pow_incr. lra.
      - apply (Rmult_le_reg_r (1188 * 21 ^ 9)); [apply Rmult_lt_0_compat; [lra|apply pow_lt; lra]|]. rewrite Rinv_l; [|apply Rgt_not_eq, Rmult_lt_0_compat; [lra|apply pow_lt; lra]]. lra. }
    rewrite Rabs_left1; lra.
Qed.
(** ** The Poisson family path *)
Lemma series_between (w g : nat -> R) a b t : (forall k, 0 <= w k) -> (forall k, a <= g k <= b) -> 0 <= a ->
  infinite_sum w t -> exists u, infinite_sum (fun k => w k * g k) u /\ a * t <= u <= b * t.
Proof.
  intros W G A T. apply sums_series in T.
  assert (Tb : is_series (fun k => w k * b) (t * b)) by (apply (is_series_scal_r b w t T)).
  assert (Ta : is_series (fun k => w k * a) (t * a)) by (apply (is_series_scal_r a w t T)).
  assert (E : ex_series (fun k => w k * g k)).
  { apply (ex_series_le (V := R_CompleteNormedModule) _ (fun k => w k * b)); [|exists (t * b); exact Tb].
    intros k. unfold norm; cbn. unfold abs; cbn. pose proof (W k). destruct (G k). rewrite Rabs_right by (apply Rle_ge, Rmult_le_pos; lra). nra. }
  exists (Series (fun k => w k * g k)). split; [apply sums_series, Series_correct, E|].
  split.
  - rewrite Rmult_comm. rewrite <- (is_series_unique _ _ Ta). apply Series_le; [|exact E].
    intros k. pose proof (W k). destruct (G k). split; nra.
  - rewrite (Rmult_comm b). rewrite <- (is_series_unique _ _ Tb). apply Series_le; [|exists (t * b); exact Tb].
    intros k. pose proof (W k). destruct (G k). split; nra.
Qed.
Lemma exp_close e : Rabs e <= 4 / 10 ^ 15 -> 1 - 4 / 10 ^ 15 <= exp e <= 1 + 8 / 10 ^ 15.
Proof.
  intros H. assert (H' : - (4 / 10 ^ 15) <= e <= 4 / 10 ^ 15) by (split; revert H; unfold Rabs; destruct Rcase_abs; lra).
  pose proof (exp_ineq1_le e). split; [lra|]. pose proof (exp_ineq1_le (- e)) as E. rewrite exp_Ropp in E.
  pose proof (exp_pos e). assert (1 - 4 / 10 ^ 15 <= / exp e) by lra.
  apply (Rmult_le_compat_r (exp e)) in H2; [|lra]. rewrite Rinv_l in H2 by lra. lra.
Qed.
Lemma poisson_pmf_pos l k : 0 < l -> 0 < poisson_pmf l k.
Proof.
  intros P. unfold poisson_pmf, Rdiv. pose proof (exp_pos (- l)). pose proof (Rinv_0_lt_compat _ (INR_fact_lt_0 k)).
  assert (0 < l ^ k) by (apply pow_lt, P). repeat apply Rmult_lt_0_compat; assumption.
Qed.
Lemma poisson_family_close l (d : Poisson X) k : poisson_new (Fin l : X) = Some d -> exists v,
  ef_density (poisson_expfam d) k = Fin v /\ Rabs (v - ln (poisson_pmf l k)) <= 4 / 10 ^ 15.
Proof.
  intros H. apply poisson_new_fin in H. destruct H as [P ->]. destruct (log_factorial_close k) as (v & V & B & _).
  eexists. split; [apply poisson_ef; [exact P|exact V]|].
  replace (ln (poisson_pmf l k) + (ln (INR (fact k)) - v) - ln (poisson_pmf l k)) with (- (v - ln (INR (fact k)))) by ring.
  rewrite Rabs_Ropp. exact B.
Qed.
Lemma poisson_family_total l (d : Poisson X) : poisson_new (Fin l : X) = Some d ->
  exists t, total_mass (ef_density (poisson_expfam d)) t /\ Rabs (t - 1) <= / 10 ^ 14.
Proof.
  intros H. pose proof (fun k => poisson_family_close l d k H) as F.
  assert (P : 0 < l) by (apply poisson_new_fin in H; tauto).
  set (g := fun k => dens (ef_density (poisson_expfam d) k) / poisson_pmf l k).
  destruct (series_between (poisson_pmf l) g (1 - 4 / 10 ^ 15) (1 + 8 / 10 ^ 15) 1) as (t & T & B).
  - intros k. apply Rlt_le, poisson_pmf_pos, P.
  - intros k. unfold g. destruct (F k) as (v & V & C). rewrite V. cbn [dens]. pose proof (poisson_pmf_pos l k P) as Q.
    replace (exp v / poisson_pmf l k) with (exp (v - ln (poisson_pmf l k))); [apply exp_close, C|].
    unfold Rminus. rewrite exp_plus, exp_Ropp, exp_ln by exact Q. reflexivity.
  - lra.
  - apply poisson_total.
  - exists t. split; [|apply Rabs_le; lra]. split.
    + intros k. destruct (F k) as (v & V & _). rewrite V. left. eauto.
    + eapply inf_ext; [|exact T]. intros k. unfold g. cbn beta. pose proof (poisson_pmf_pos l k P). field. lra.
Qed.
(** ** The coefficient measures *)
Lemma binomial_measure_values n k : lg_factorial lg ->
  (b_support (@binomial_measure X n) k = true <-> (k <= n)%nat) /\
  b_ld (@binomial_measure X n) k = if Nat.leb k n then Fin (ln (C n k)) else NInf.
Proof.
  intros L. unfold binomial_measure. cbn [b_support b_ld]. rewrite andb_true_r, Nat.leb_le. split; [tauto|].
  destruct (Nat.leb_spec k n) as [K|K].
  - replace (Nat.ltb n k) with false by (symmetry; apply Nat.ltb_ge, K). apply x_binomial_coefficient; assumption.
  - replace (Nat.ltb n k) with true by (symmetry; apply Nat.ltb_lt, K). reflexivity.
Qed.
Lemma negative_binomial_measure_values r k : lg_factorial lg -> (0 < r)%nat ->
  b_support (@negative_binomial_measure X r) k = true /\
  b_ld (@negative_binomial_measure X r) k = Fin (ln (C (k + r - 1) k)).
Proof. intros L R0. split; [reflexivity|]. apply x_negbinomial_coefficient; assumption. Qed.
Lemma factorial_measure_values k :
  b_support (@factorial_measure X) k = true /\
  exists v, b_ld (@factorial_measure X) k = Fin (- v) /\ Rabs (v - ln (INR (fact k))) <= 4 / 10 ^ 15 /\
  ((21 <= k)%nat -> 0 <= ln (INR (fact k)) - v <= / (1188 * INR k ^ 9)).
Proof.
  split; [reflexivity|]. destruct (log_factorial_close k) as (v & V & B). exists v. split; [|exact B].
  unfold factorial_measure. cbn [b_ld]. rewrite V. reflexivity.
Qed.
End D.
