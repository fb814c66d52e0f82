(** Values of the library's final-tagless functions in exact arithmetic. *)
From Coquelicot Require Import Coquelicot.
From Coq Require Import ZArith Reals Bool List Lia Lra.
From Verif Require Import Num XRFacts DensitySpec BuilderProofs DistSpec CombSpec DistFacts DistProofs Stirling TaglessModel TaglessSpec.
Import ListNotations.
Local Open Scope R_scope.
Local Open Scope list_scope.

Ltac tside := first [ assumption | lra | nra
  | (apply Rgt_not_eq; first [assumption | lra | nra | apply exp_pos])
  | apply exp_pos | apply two_pi_pos | apply PI_RGT_0
  | (apply Rmult_lt_0_compat; first [assumption | lra | nra | apply two_pi_pos | apply PI_RGT_0 | apply exp_pos]) ].
Ltac topen := cbn [DirectEval e_constant e_var e_add e_sub e_mul e_div e_pow e_neg e_ln e_exp e_sqrt e_sin e_cos Repr].
Ltac txr := topen; xr_with tside.

Section V.
Context (lg : R -> R).
Notation X := (XR lg).
Notation D := (@DirectEval X).
Notation fin r := (Fin r : X).
Notation fins l := (map (fun r => Fin r : X) l).

(** * Logistic and softplus *)
Lemma direct_logistic x : t_logistic D (fin x) = fin (logistic_fn x).
Proof.
  unfold t_logistic, logistic_fn. pose proof (exp_pos x). pose proof (exp_pos (- x)). txr. f_equal.
  rewrite exp_Ropp. field. split; lra.
Qed.
Lemma direct_softplus x : t_softplus D (fin x) = fin (softplus_fn x).
Proof. unfold t_softplus, softplus_fn. pose proof (exp_pos x). txr. reflexivity. Qed.

Lemma logistic_unit x : 0 < logistic_fn x < 1.
Proof.
  unfold logistic_fn. pose proof (exp_pos x). split.
  - apply Rdiv_lt_0_compat; lra.
  - apply (Rmult_lt_reg_r (1 + exp x)); [lra|]. unfold Rdiv. rewrite Rmult_assoc, Rinv_l by lra. lra.
Qed.
Lemma logistic_increasing x y : x < y -> logistic_fn x < logistic_fn y.
Proof.
  intros H. unfold logistic_fn. apply exp_increasing in H. pose proof (exp_pos x). pose proof (exp_pos y).
  apply (Rmult_lt_reg_r ((1 + exp x) * (1 + exp y))); [nra|].
  replace (exp x / (1 + exp x) * ((1 + exp x) * (1 + exp y))) with (exp x * (1 + exp y)) by (field; lra).
  replace (exp y / (1 + exp y) * ((1 + exp x) * (1 + exp y))) with (exp y * (1 + exp x)) by (field; lra). nra.
Qed.
Lemma logistic_symmetric x : logistic_fn (- x) = 1 - logistic_fn x.
Proof. unfold logistic_fn. rewrite exp_Ropp. pose proof (exp_pos x). field. lra. Qed.
Lemma softplus_derivative x : derivable_pt_lim softplus_fn x (logistic_fn x).
Proof.
  apply is_derive_Reals. unfold softplus_fn, logistic_fn. pose proof (exp_pos x). auto_derive; [lra|]. field. lra.
Qed.

(** * Polynomials *)
Lemma poly_from_shift k l x : poly_from (S k) l x = x * poly_from k l x.
Proof. revert k. induction l as [|c l IH]; intros k; cbn [poly_from]; [ring|]. rewrite IH. cbn [pow]. ring. Qed.
Lemma poly_cons c l x : poly (c :: l) x = c + x * poly l x.
Proof. unfold poly. cbn [poly_from]. rewrite poly_from_shift. cbn [pow]. ring. Qed.

Lemma horner_fold x l acc :
  fold_left (fun result coeff : X => e_add D (e_mul D result (fin x)) (e_constant D coeff)) (rev (fins l)) (fin acc) =
  fin (poly l x + acc * x ^ List.length l).
Proof.
  revert acc. induction l as [|c l IH]; intros acc.
  - cbn. unfold poly. cbn. f_equal. ring.
  - cbn [map rev]. rewrite fold_left_app. cbn [fold_left].
    transitivity (xadd (xmul (fin (poly l x + acc * x ^ List.length l)) (fin x)) (fin c)).
    + rewrite <- IH. reflexivity.
    + cbn [xmul xadd]. f_equal. rewrite poly_cons. cbn [List.length pow]. ring.
Qed.
Lemma poly_snoc l c x : poly (l ++ [c]) x = poly l x + c * x ^ List.length l.
Proof. induction l as [|a l IH]; cbn [app List.length pow]; rewrite ?poly_cons, ?IH; unfold poly; cbn [poly_from pow]; ring. Qed.

Lemma direct_horner cs x : horner D (fins cs) (fin x) = fin (poly cs x).
Proof.
  destruct cs as [|a [|b cs]].
  - apply x_n0.
  - cbn. unfold poly. cbn. f_equal. ring.
  - unfold horner. cbn [map].
    change (rev (fin a :: fin b :: fins cs)) with (rev (fins (a :: b :: cs))).
    destruct (exists_last (l := a :: b :: cs) ltac:(discriminate)) as (l & c & E). rewrite E.
    rewrite map_app, rev_app_distr. cbn [map rev app]. rewrite poly_snoc. apply (horner_fold x l c).
Qed.
Lemma direct_horner_expr cs x : horner_expr D (fins cs) (fin x) = fin (poly cs x).
Proof. rewrite <- direct_horner. unfold horner_expr, horner. destruct cs as [|a [|b cs]]; reflexivity. Qed.

Lemma root_fold x l acc :
  fold_left (fun result root : X => e_mul D result (e_sub D (fin x) (e_constant D root))) (fins l) (fin acc) =
  fin (acc * root_product l x).
Proof.
  revert acc. induction l as [|r l IH]; intros acc; cbn [map fold_left].
  - cbn. f_equal. ring.
  - etransitivity; [apply (IH (acc * (x - r)))|]. f_equal. cbn [root_product fold_right]. fold (root_product l x). ring.
Qed.
Lemma direct_from_roots rs x : from_roots D (fins rs) (fin x) = fin (root_product rs x).
Proof.
  destruct rs as [|r rs]; cbn [map from_roots].
  - apply x_n1.
  - etransitivity; [apply (root_fold x rs (x - r))|]. reflexivity.
Qed.
Lemma root_product_zero rs x : root_product rs x = 0 <-> In x rs.
Proof.
  induction rs as [|r rs IH]; cbn [root_product fold_right In]; [lra|]. fold (root_product rs x). split.
  - intros H. apply Rmult_integral in H. destruct H as [H|H]; [left; lra|right; apply IH, H].
  - intros [->|H]; [ring|]. apply IH in H. rewrite H. ring.
Qed.

(** Derivative of [sum c_i x^(k+i)]. *)
Lemma derivative_coeffs_fin k l : derivative_coeffs k (fins l) = fins (map (fun p => fst p * INR (snd p)) (combine l (seq k (List.length l)))).
Proof.
  revert k. induction l as [|c l IH]; intros k; [reflexivity|]. cbn [map derivative_coeffs List.length seq combine fst snd].
  rewrite x_nofn. f_equal. apply IH.
Qed.
Lemma poly_from_derivative k l x : derivable_pt_lim (poly_from (S k) l) x
  (poly_from k (map (fun p => fst p * INR (snd p)) (combine l (seq (S k) (List.length l)))) x).
Proof.
  revert k. induction l as [|c l IH]; intros k.
  - apply is_derive_Reals. cbn. apply (is_derive_const (V := R_NormedModule) 0).
  - apply is_derive_Reals. cbn [poly_from List.length seq combine map fst snd].
    specialize (IH (S k)). apply is_derive_Reals in IH.
    apply (is_derive_plus (V := R_NormedModule) (fun x => c * x ^ S k) (poly_from (S (S k)) l)); [|exact IH].
    auto_derive; [exact Logic.I|]. cbn [pred]. rewrite ?S_INR. destruct k; cbn; ring.
Qed.
Lemma poly_derivative c l x : derivable_pt_lim (poly (c :: l)) x
  (poly (map (fun p => fst p * INR (snd p)) (combine l (seq 1 (List.length l)))) x).
Proof.
  apply is_derive_Reals. unfold poly at 1. cbn [poly_from]. pose proof (poly_from_derivative 0 l x) as H. apply is_derive_Reals in H.
  replace (poly _ x) with (plus 0 (poly_from 0 (map (fun p => fst p * INR (snd p)) (combine l (seq 1 (List.length l)))) x)) by (unfold plus; cbn; unfold poly; ring).
  apply (is_derive_plus (V := R_NormedModule) (fun x => c * x ^ 0) (poly_from 1 l)); [|exact H].
  cbn. apply (is_derive_const (V := R_NormedModule) (c * 1)).
Qed.
Lemma direct_horner_derivative cs x : exists d, horner_derivative D (fins cs) (fin x) = fin d /\ derivable_pt_lim (poly cs) x d.
Proof.
  destruct cs as [|c [|b cs]].
  - exists 0. split; [apply x_n0|]. apply is_derive_Reals. apply (is_derive_const (V := R_NormedModule) 0).
  - exists 0. split; [apply x_n0|]. apply is_derive_Reals. unfold poly. cbn.
    apply (is_derive_const (V := R_NormedModule) (c * 1 + 0)).
  - eexists. split; [|apply poly_derivative].
    unfold horner_derivative. cbn [map]. change (fin b :: fins cs) with (fins (b :: cs)).
    rewrite derivative_coeffs_fin. apply direct_horner.
Qed.

(** * Distribution patterns *)
Lemma pattern_standard_normal x : p_standard_normal D (fin x) = fin (ln (normal_pdf 0 1 x)).
Proof. pose proof two_pi_pos. rewrite ln_normal_pdf by lra. unfold p_standard_normal. txr. rewrite ln_1. f_equal. field. Qed.
Lemma pattern_normal m s x : 0 < s -> p_normal D (fin x) (fin m) (fin s) = fin (ln (normal_pdf m s x)).
Proof. intros P. pose proof two_pi_pos. rewrite ln_normal_pdf by exact P. unfold p_normal. txr. f_equal. field. lra. Qed.
Lemma pattern_exponential l x : 0 < l -> p_exponential D (fin x) (fin l) = fin (ln (exponential_pdf l x)).
Proof. intros P. rewrite ln_exponential_pdf by exact P. unfold p_exponential. txr. reflexivity. Qed.
Lemma pattern_cauchy x0 g x : 0 < g -> p_cauchy D (fin x) (fin x0) (fin g) = fin (ln (cauchy_pdf x0 g x)).
Proof.
  intros P. pose proof PI_RGT_0 as Q. rewrite ln_cauchy_pdf by exact P.
  assert (0 < 1 + (x - x0) / g * ((x - x0) / g)) by (generalize ((x - x0) / g); intros; nra). unfold p_cauchy. txr. reflexivity.
Qed.

Lemma ln_poisson l k : 0 < l -> ln (poisson_pmf l k) = INR k * ln l - l - ln (INR (fact k)).
Proof.
  intros P. unfold poisson_pmf, Rdiv. pose proof (INR_fact_lt_0 k). pose proof (exp_pos (- l)). pose proof (pow_lt l k P).
  rewrite !ln_mult, ln_Rinv, ln_exp by (repeat apply Rmult_lt_0_compat; auto using Rinv_0_lt_compat).
  enough (ln (l ^ k) = INR k * ln l) by lra. rewrite <- Rpower_pow by exact P. unfold Rpower. apply ln_exp.
Qed.
Lemma pattern_poisson l k : 0 < l -> (1 <= k)%nat ->
  p_poisson D (fin (INR k)) (fin l) = fin (ln (poisson_pmf l k) + (ln (INR (fact k)) - ln (INR k))).
Proof.
  intros P K. rewrite ln_poisson by exact P. assert (0 < INR k) by (apply lt_0_INR; lia). unfold p_poisson. txr. f_equal. ring.
Qed.
Lemma pattern_poisson_zero l : 0 < l -> p_poisson D (fin 0) (fin l) = PInf.
Proof. intros P. unfold p_poisson. txr. rewrite xln_zero. reflexivity. Qed.
Lemma fact_above k : (3 <= k)%nat -> (k < fact k)%nat.
Proof.
  intros K. induction K as [|k K IH]; [cbn; lia|]. rewrite fact_simpl. nia.
Qed.
Lemma pattern_poisson_right l k : 0 < l -> (p_poisson D (fin (INR k)) (fin l) = fin (ln (poisson_pmf l k)) <-> k = 1%nat \/ k = 2%nat).
Proof.
  intros P. destruct k as [|k].
  - change (INR 0) with 0. rewrite pattern_poisson_zero by exact P. split; [discriminate|intros []; lia].
  - rewrite pattern_poisson by (assumption || lia). split.
    + intros H. apply (f_equal (fun v : xreal => match v with Fin r => r | _ => 0 end)) in H. cbv beta iota in H. assert (E : ln (INR (fact (S k))) = ln (INR (S k))) by lra.
      apply ln_inv in E; [|apply INR_fact_lt_0|apply lt_0_INR; lia]. apply INR_eq in E.
      destruct k as [|[|k]]; try lia. pose proof (fact_above (S (S (S k))) ltac:(lia)). lia.
    + intros H. f_equal. destruct H as [H|H]; injection H as ->; cbn [fact Nat.mul Nat.add]; ring.
Qed.
Lemma pattern_poisson_above l k : 0 < l -> (3 <= k)%nat -> exists v,
  p_poisson D (fin (INR k)) (fin l) = fin v /\ ln (poisson_pmf l k) < v.
Proof.
  intros P K. rewrite pattern_poisson by (assumption || lia). eexists. split; [reflexivity|].
  enough (ln (INR k) < ln (INR (fact k))) by lra. apply ln_increasing; [apply lt_0_INR; lia|].
  apply lt_INR, fact_above, K.
Qed.

(** The interpreter for distributions. *)
Lemma eval_normal m s x : 0 < s -> de_normal (fin x) (fin m) (fin s) = fin (ln (normal_pdf m s x)).
Proof. intros P. pose proof two_pi_pos. rewrite ln_normal_pdf by exact P. unfold de_normal. txr. f_equal. field. lra. Qed.
Lemma eval_exponential l x : 0 < l -> de_exponential (fin x) (fin l) =
  if Rle_dec 0 x then fin (ln (exponential_pdf l x)) else NInf.
Proof.
  intros P. unfold de_exponential. rewrite x_leb0. unfold Rleb. destruct (Rle_dec 0 x); [|reflexivity].
  rewrite ln_exponential_pdf by exact P. txr. reflexivity.
Qed.
Lemma eval_gamma_small a b x : 0 < b -> 0 < x -> a <= 12 -> de_gamma (fin x) (fin a) (fin b) = fin (ln (gamma_pdf lg a b x)).
Proof.
  intros B P A. rewrite ln_gamma_pdf by exact P. unfold de_gamma, de_log_gamma. rewrite x_ltb0, Rltb_t by exact P.
  xr_lits. cbn [nltb XR xltb]. rewrite Rltb_f by lra. txr. reflexivity.
Qed.
Lemma eval_gamma_outside a b x : x <= 0 -> de_gamma (fin x) a b = NInf.
Proof. intros P. unfold de_gamma. rewrite x_ltb0, Rltb_f by exact P. reflexivity. Qed.
Lemma stirling_lg n : lg_factorial lg -> (1 <= n)%nat -> exists v,
  de_log_gamma (fin (INR n)) = fin v /\ (n <= 12 -> v = lg (INR n))%nat /\
  ((12 < n)%nat -> v < lg (INR n) /\ lg (INR n) - v <= / (12 * INR n)).
Proof.
  intros F N. unfold de_log_gamma. pose proof two_pi_pos as TP. xr_lits. cbn [nltb XR xltb].
  assert (PN : 0 < INR n) by (apply lt_0_INR; lia).
  destruct (Rltb 12 (INR n)) eqn:E.
  - apply Rltb_true in E. replace 12 with (INR 12) in E by (cbn; ring). apply INR_lt in E.
    eexists. split; [txr; reflexivity|]. split; [lia|]. intros _.
    destruct n as [|k]; [lia|].
    assert (L : lg (INR (S k)) = ln (INR (fact (S k))) - ln (INR (S k))).
    { rewrite ln_fact_S. rewrite (F k). ring. }
    rewrite L. set (n := S k) in *. pose proof (stirling_series n N) as ST.
    rewrite (ln_mult (2 * PI)) in ST by lra.
    assert (SB : 0 < S4 (INR n) + 0 /\ S4 (INR n) + T5 (INR n) <= / (12 * INR n)).
    { assert (G : 13 <= INR n) by (replace 13 with (INR 13) by (cbn; ring); apply le_INR; lia).
      set (r := / INR n). assert (R1 : 0 < r <= / 13).
      { unfold r. split; [apply Rinv_0_lt_compat; lra|]. apply Rinv_le_contravar; lra. }
      replace (S4 (INR n)) with (r * (/ 12 - r ^ 2 / 360 + r ^ 4 / 1260 - r ^ 6 / 1680)) by (unfold S4, r; field; lra).
      replace (T5 (INR n)) with (r ^ 9 / 1188) by (unfold T5, r; field; lra).
      replace (/ (12 * INR n)) with (r / 12) by (unfold r; field; lra).
      assert (0 < r ^ 2 <= 1) by (split; [apply pow_lt; lra|]; cbn; nra).
      assert (H4 : r ^ 4 = r ^ 2 * r ^ 2) by ring. assert (H6 : r ^ 6 = r ^ 4 * r ^ 2) by ring.
      assert (H9 : r ^ 9 = r * (r ^ 6 * r ^ 2)) by ring.
      assert (0 < r ^ 4 <= r ^ 2) by (rewrite H4; nra). assert (0 < r ^ 6 <= r ^ 4) by (rewrite H6; nra).
      assert (0 < r ^ 6 * r ^ 2 <= r ^ 6) by nra.
      split; [rewrite Rplus_0_r; apply Rmult_lt_0_compat; lra|]. rewrite H9.
      replace (r * (/ 12 - r ^ 2 / 360 + r ^ 4 / 1260 - r ^ 6 / 1680) + r * (r ^ 6 * r ^ 2) / 1188)
        with (r * (/ 12 - r ^ 2 / 360 + r ^ 4 / 1260 - r ^ 6 / 1680 + (r ^ 6 * r ^ 2) / 1188)) by field.
      replace (r / 12) with (r * / 12) by field. apply Rmult_le_compat_l; lra. }
    split; lra.
  - assert (L : (n <= 12)%nat).
    { apply Rltb_false in E. replace 12 with (INR 12) in E by (cbn; ring). apply INR_le, E. }
    exists (lg (INR n)). split; [reflexivity|]. split; [reflexivity|lia].
Qed.

(** * Exponential-family operations *)
Lemma dot_fold ps ss acc : List.length ps = List.length ss ->
  fold_left (fun (result : X) q => e_add D result (e_mul D (fst q) (snd q))) (combine (fins ps) (fins ss)) (fin acc) =
  fin (acc + inner ps ss).
Proof.
  revert ss acc. induction ps as [|p ps IH]; intros [|s ss] acc L; try discriminate L.
  - cbn. f_equal. ring.
  - cbn [map combine fold_left]. etransitivity; [apply (IH ss (acc + p * s)); injection L; auto|].
    f_equal. unfold inner. cbn [combine map fold_right fst snd]. ring.
Qed.
Lemma direct_dot ps ss : List.length ps = List.length ss -> dot_product D (fins ps) (fins ss) = Some (fin (inner ps ss)).
Proof.
  intros L. unfold dot_product. rewrite !map_length, L, Nat.eqb_refl. destruct ps as [|p ps], ss as [|s ss]; try discriminate L.
  - cbn [map]. f_equal. apply x_n0.
  - cbn [map]. f_equal. etransitivity; [apply (dot_fold ps ss (p * s)); injection L; auto|].
    f_equal.
Qed.
Lemma inner_add ps a b : List.length a = List.length ps -> List.length b = List.length ps ->
  inner ps (map (fun p => fst p + snd p) (combine a b)) = inner ps a + inner ps b.
Proof.
  revert a b. induction ps as [|p ps IH]; intros [|x a] [|y b] A B; try discriminate; unfold inner; cbn [combine map fold_right fst snd]; [lra|].
  fold (inner ps (map (fun p => fst p + snd p) (combine a b))). fold (inner ps a). fold (inner ps b).
  rewrite IH by (cbn in *; lia). ring.
Qed.
Lemma direct_exp_fam ps ss a h : List.length ps = List.length ss ->
  t_exp_fam_log_density D (fins ps) (fins ss) (fin a) (fin h) = Some (fin (inner ps ss - a + h)).
Proof. intros L. unfold t_exp_fam_log_density. rewrite direct_dot by exact L. reflexivity. Qed.
Lemma direct_iid ps ss a n h : List.length ps = List.length ss ->
  t_iid_log_density D (fins ps) (fins ss) (fin a) (fin n) (fin h) = Some (fin (inner ps ss - n * a + h)).
Proof. intros L. unfold t_iid_log_density. rewrite direct_dot by exact L. reflexivity. Qed.


Lemma nth_error_fins v j : (j < List.length v)%nat -> nth_error (fins v) j = Some (fin (nth j v 0)).
Proof. intros H. rewrite (nth_error_nth' _ (fin 0)) by (rewrite map_length; exact H). f_equal. apply (map_nth (fun r => fin r)). Qed.
Lemma direct_column j acc rest : Forall (fun v => (j < List.length v)%nat) rest ->
  sum_column D j (fin acc) (map (fun v => fins v) rest) = Some (fin (acc + total_of (map (fun v => nth j v 0) rest))).
Proof.
  revert acc. induction rest as [|v rest IH]; intros acc F; cbn [map sum_column].
  - f_equal. cbn. f_equal. ring.
  - inversion F; subst. change (Repr D) with (num X). rewrite nth_error_fins by assumption.
    etransitivity; [apply (IH (acc + nth j v 0)); assumption|]. f_equal. f_equal. unfold total_of. cbn [map fold_right]. ring.
Qed.
Lemma direct_columns first rest k full : Forall (fun v => List.length v = (k + List.length first)%nat) rest ->
  (forall i, (i < List.length first)%nat -> nth (k + i) full 0 = nth i first 0) ->
  sum_columns D k (fins first) (map (fun v => fins v) rest) =
  Some (fins (map (fun j => nth j full 0 + total_of (map (fun v => nth j v 0) rest)) (seq k (List.length first)))).
Proof.
  revert k. induction first as [|x first IH]; intros k F E; cbn [map sum_columns List.length seq]; [reflexivity|].
  rewrite direct_column.
  - rewrite (IH (S k)).
    + cbn [option_map]. f_equal. cbn [map]. f_equal. specialize (E 0%nat). rewrite Nat.add_0_r in E. rewrite E by (cbn; lia). reflexivity.
    + eapply Forall_impl; [|exact F]. cbn. intros; lia.
    + intros i L. specialize (E (S i)). rewrite Nat.add_succ_r in E. apply E. cbn. lia.
  - eapply Forall_impl; [|exact F]. cbn. intros; lia.
Qed.
Lemma direct_sum_stats d v vs : Forall (fun v => List.length v = d) (v :: vs) ->
  sum_sufficient_stats D (map (fun v => fins v) (v :: vs)) = Some (fins (vsum d (v :: vs))).
Proof.
  intros F. inversion F; subst. cbn [map sum_sufficient_stats].
  rewrite (direct_columns v vs 0 v); [reflexivity|assumption|reflexivity].
Qed.
Lemma inner_vsum ps vs : Forall (fun v => List.length v = List.length ps) vs ->
  inner ps (vsum (List.length ps) vs) = total_of (map (inner ps) vs).
Proof.
  intros F. unfold vsum. revert F.
  assert (IC : forall p x ps l, inner (p :: ps) (x :: l) = p * x + inner ps l) by reflexivity.
  assert (TC : forall x l, total_of (x :: l) = x + total_of l) by reflexivity.
  assert (G : forall ps k (ws : list (list R)),
    inner ps (map (fun j => total_of (map (fun v => nth j v 0) ws)) (seq k (List.length ps))) =
    total_of (map (fun v => inner ps (map (fun j => nth j v 0) (seq k (List.length ps)))) ws)).
  { clear - IC TC. intros ps. induction ps as [|p ps IH]; intros k ws.
    - induction ws as [|w ws IHw]; [reflexivity|]. cbn [map]. rewrite TC, <- IHw. change (0 = 0 + 0). ring.
    - cbn [List.length seq map]. rewrite IC, IH. clear IH.
      induction ws as [|w ws IH]; cbn [map]; rewrite ?TC; [change (p * 0 + 0 = 0); ring|].
      rewrite <- IH, IC. ring. }
  intros F. rewrite G. f_equal. apply map_ext_in. intros v V. rewrite Forall_forall in F. specialize (F v V). f_equal.
  rewrite <- F. clear. induction v as [|x v IH]; [reflexivity|]. cbn [List.length seq map nth]. f_equal.
  rewrite <- seq_shift, map_map. exact IH.
Qed.

Lemma lse_fold l acc : fold_left (fun (sum : X) w => e_add D sum (e_exp D w)) (fins l) (fin acc) =
  fin (acc + total_of (map exp l)).
Proof.
  revert acc. induction l as [|x l IH]; intros acc; cbn [map fold_left].
  - cbn. f_equal. ring.
  - etransitivity; [apply (IH (acc + exp x))|]. f_equal. cbn [total_of fold_right]. fold (total_of (map exp l)). ring.
Qed.
Lemma total_exp_pos l : 0 <= total_of (map exp l).
Proof. induction l as [|x l IH]; cbn [map total_of fold_right]; [lra|]. fold (total_of (map exp l)). pose proof (exp_pos x). lra. Qed.
Lemma direct_log_sum_exp x l : log_sum_exp D (fins (x :: l)) = fin (ln (total_of (map exp (x :: l)))).
Proof.
  destruct l as [|y l].
  - cbn. rewrite Rplus_0_r, ln_exp. reflexivity.
  - change (e_ln D (fold_left (fun (sum : X) w => e_add D sum (e_exp D w)) (fins (y :: l)) (fin (exp x))) = fin (ln (total_of (map exp (x :: y :: l))))).
    rewrite lse_fold. cbn [DirectEval e_ln]. cbn [nln XR]. pose proof (exp_pos x). pose proof (total_exp_pos (y :: l)).
    apply xln_pos. change (0 < exp x + total_of (map exp (y :: l))). lra.
Qed.

(** Array helpers. *)
Lemma direct_dot_array ps ss : dot_product_array (fins ps) (fins ss) = fin (inner ps ss).
Proof.
  unfold dot_product_array. rewrite x_n0.
  assert (G : forall ss acc, fold_left nadd (map (fun p => nmul (fst p) (snd p)) (combine (fins ps) (fins ss))) (fin acc) = fin (acc + inner ps ss)).
  { clear. induction ps as [|p ps IH]; intros [|s ss] acc; try (cbn; f_equal; ring).
    - cbn [map combine fold_left]. etransitivity; [apply (IH ss (acc + p * s))|]. f_equal. unfold inner. cbn [combine map fold_right fst snd]. ring. }
  rewrite G. f_equal. ring.
Qed.

Lemma nth_map_seq (f : nat -> R) n j : (j < n)%nat -> nth j (map f (seq 0 n)) 0 = f j.
Proof.
  intros L. rewrite (nth_indep _ 0 (f 0%nat)) by (rewrite map_length, seq_length; exact L).
  rewrite (map_nth f), seq_nth by exact L. reflexivity.
Qed.
Lemma add_into_none (r : list X) s : add_into r s = None <-> (List.length r < List.length s)%nat.
Proof.
  revert s. induction r as [|x r IH]; intros [|y s]; cbn [add_into List.length]; try (split; [discriminate|lia]).
  - split; [lia|reflexivity].
  - specialize (IH s). destruct (add_into r s); cbn [option_map]; split; try discriminate; try reflexivity; intros H.
    + assert (K : (List.length r < List.length s)%nat) by lia. apply IH in K. discriminate.
    + assert (K : (List.length r < List.length s)%nat) by (apply IH; reflexivity). lia.
Qed.
Lemma add_into_len (r s r' : list X) : add_into r s = Some r' -> List.length r' = List.length r.
Proof.
  revert s r'. induction r as [|x r IH]; intros [|y s] r' H; cbn [add_into] in H; try discriminate;
    try (injection H as <-; reflexivity).
  destruct (add_into r s) as [q|] eqn:E; [|discriminate]. injection H as <-. cbn. f_equal. apply (IH s q E).
Qed.
Lemma sum_array_panics (first : list X) rest :
  sum_stats_array (first :: rest) = None <-> exists v, In v rest /\ (List.length first < List.length v)%nat.
Proof.
  unfold sum_stats_array.
  assert (G : forall (l : list (list X)) (r : list X), add_all r l = None <-> exists v, In v l /\ (List.length r < List.length v)%nat).
  { clear. induction l as [|v l IH]; intros r; cbn [add_all].
    - split; [discriminate|intros (v & [] & _)].
    - destruct (add_into r v) as [r'|] eqn:E.
      + rewrite IH. rewrite (add_into_len r v r' E). split.
        * intros (w & A & B). exists w. split; [right; exact A|exact B].
        * intros (w & [<-|A] & B); [|exists w; tauto]. apply add_into_none in B. congruence.
      + split; [|reflexivity]. intros _. exists v. split; [left; reflexivity|]. apply add_into_none, E. }
  rewrite G, repeat_length. split.
  - intros (v & [<-|A] & B); [lia|]. exists v. tauto.
  - intros (v & A & B). exists v. split; [right; exact A|exact B].
Qed.
Lemma add_into_fin a b : List.length b = List.length a ->
  add_into (fins a) (fins b) = Some (fins (map (fun j => nth j a 0 + nth j b 0) (seq 0 (List.length a)))).
Proof.
  revert b. induction a as [|x a IH]; intros [|y b] L; try discriminate L; [reflexivity|].
  cbn [map add_into List.length seq nth]. rewrite (IH b) by (injection L; auto). cbn [option_map]. f_equal. f_equal.
  rewrite <- seq_shift, !map_map. reflexivity.
Qed.
Lemma sum_array_value d v vs : Forall (fun w => List.length w = d) (v :: vs) ->
  sum_stats_array (map (fun v => fins v) (v :: vs)) = Some (fins (vsum d (v :: vs))).
Proof.
  intros F. assert (LV : List.length v = d) by (inversion F; assumption).
  unfold sum_stats_array. cbn [map]. change (fins v :: map (fun v => fins v) vs) with (map (fun v => fins v) (v :: vs)).
  rewrite map_length, LV.
  assert (Z : forall n, repeat (n0 : X) n = fins (repeat 0 n)).
  { intros n. induction n; cbn [repeat map]; [reflexivity|]. rewrite IHn, x_n0. reflexivity. }
  rewrite Z.
  assert (G : forall l r, Forall (fun w => List.length w = List.length r) l ->
    add_all (fins r) (map (fun v => fins v) l) =
    Some (fins (map (fun j => nth j r 0 + total_of (map (fun v => nth j v 0) l)) (seq 0 (List.length r))))).
  { clear. induction l as [|w l IH]; intros r F; cbn [map add_all].
    - f_equal. f_equal. unfold total_of. cbn. apply (nth_ext _ _ 0 0); [rewrite map_length, seq_length; reflexivity|].
      intros n L. rewrite nth_map_seq by exact L. ring.
    - inversion F; subst. rewrite add_into_fin by assumption. rewrite IH.
      + rewrite map_length, seq_length. f_equal. f_equal. apply map_ext_in. intros j J. apply in_seq in J.
        rewrite nth_map_seq by lia. unfold total_of. cbn [map fold_right Nat.add]. ring.
      + rewrite map_length, seq_length. assumption. }
  rewrite (G (v :: vs) (repeat 0 d)) by (rewrite repeat_length; exact F).
  rewrite repeat_length. f_equal. f_equal. unfold vsum. apply map_ext_in. intros j J.
  replace (nth j (repeat 0 d) 0) with 0; [ring|]. symmetry. apply nth_repeat.
Qed.
Lemma sum_stats_panics (first : list X) rest :
  sum_sufficient_stats D (first :: rest) = None <-> exists v, In v rest /\ (List.length v < List.length first)%nat.
Proof.
  cbn [sum_sufficient_stats].
  assert (G1 : forall rest j s, sum_column D j s rest = None <-> exists v, In v rest /\ (List.length v <= j)%nat).
  { clear. induction rest as [|v rest IH]; intros j s; cbn [sum_column].
    - split; [discriminate|intros (v & [] & _)].
    - destruct (nth_error v j) eqn:E.
      + rewrite IH. assert (K : (j < List.length v)%nat) by (apply nth_error_Some; congruence). split.
        * intros (w & A & B). exists w. split; [right; exact A|exact B].
        * intros (w & [<-|A] & B); [lia|]. exists w. tauto.
      + split; [|reflexivity]. intros _. exists v. split; [left; reflexivity|]. apply nth_error_None, E. }
  assert (G2 : forall first j, sum_columns D j first rest = None <->
    exists v, In v rest /\ (List.length v < j + List.length first)%nat /\ (0 < List.length first)%nat).
  { clear - G1. induction first as [|x first IH]; intros j; cbn [sum_columns List.length].
    - split; [discriminate|intros (v & _ & _ & L); lia].
    - destruct (sum_column D j x rest) as [s|] eqn:E.
      + assert (K : forall v, In v rest -> (j < List.length v)%nat).
        { intros v V. destruct (Nat.lt_ge_cases j (List.length v)); [assumption|]. exfalso.
          assert (Q : sum_column D j x rest = None) by (apply G1; exists v; tauto). congruence. }
        specialize (IH (S j)). destruct (sum_columns D (S j) first rest) as [ss|]; cbn [option_map]; (split; [try discriminate|try reflexivity]).
        * intros (v & A & B & C). exfalso. specialize (K v A).
          assert (Q : Some ss = None :> option (list (Repr D))) by (apply IH; exists v; split; [exact A|destruct first; cbn in *; lia]). discriminate Q.
        * intros _. destruct (proj1 IH eq_refl) as (v & A & B & C). exists v. repeat split; [exact A|lia|lia].
      + split; [|reflexivity]. intros _. apply G1 in E. destruct E as (v & A & B). exists v. repeat split; [exact A|cbn in *; lia|cbn in *; lia]. }
  rewrite G2. cbn [Nat.add]. split.
  - intros (v & A & B & _). exists v. tauto.
  - intros (v & A & B). exists v. repeat split; [exact A|exact B|cbn in *; lia].
Qed.
End V.
