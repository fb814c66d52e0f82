(** Proofs about custom log-densities and compilation statistics. *)
From Coq Require Import ZArith Reals Bool String List Lia Lra.
From Coq Require Import Floats.SpecFloat.
From Flocq Require Import Core.
From Verif Require Import Num ExprModel ExprSpec ExprEval JitModel JitSpec JitProofs JitProofs2 CustomModel CustomSpec
  TaglessModel EggSpec FloatErr LitFacts AccSpec AccProofs RoundSpec RoundProofs DistFloat.
Import ListNotations.
Local Open Scope string_scope.
Local Open Scope list_scope.

Lemma increasing_head x l : increasing (x :: l) -> forall y, In y l -> String.compare x y = Lt.
Proof.
  revert x. induction l as [|z l IH]; intros x H y I; [destruct I|].
  destruct H as [A B]. destruct I as [<-|I]; [exact A|].
  specialize (IH z B y I). clear - A IH. revert y z A IH.
  induction x as [|a x IHx]; intros y z A B.
  - destruct z, y; try discriminate; reflexivity.
  - destruct z as [|b z]; [discriminate|]. destruct y as [|c y]; [discriminate|]. cbn in *.
    unfold Ascii.compare in *.
    destruct (N.compare_spec (Ascii.N_of_ascii a) (Ascii.N_of_ascii b)) as [E1|E1|E1];
    destruct (N.compare_spec (Ascii.N_of_ascii b) (Ascii.N_of_ascii c)) as [E2|E2|E2]; try discriminate;
    destruct (N.compare_spec (Ascii.N_of_ascii a) (Ascii.N_of_ascii c)) as [E3|E3|E3]; try reflexivity; try lia.
    apply (IHx y z A B).
Qed.

Section Custom.
Variable L : libm.
Notation fresh e ps := (custom_new L e ps).

Lemma first_is_least e x ps : firstn 1 (cd_variables (fresh e ps)) = [x] <-> first_name x e.
Proof.
  cbn [custom_new cd_variables]. pose proof (@variables_increasing (F64 L) e) as I. pose proof (@variables_occurs (F64 L) e) as O.
  destruct (@variables (F64 L) e) as [|z l] eqn:V.
  - split; [discriminate|]. intros [A _]. apply O in A. destruct A.
  - pose proof (increasing_head z l I) as H. cbn [firstn]. split.
    + intros E. injection E as ->. split; [apply O; left; reflexivity|].
      intros y OY NE. apply O in OY. destruct OY as [->|OY]; [congruence|]. apply H, OY.
    + intros [OX LT]. f_equal. destruct (string_dec z x) as [E|NE]; [exact E|exfalso].
      assert (A : String.compare x z = Lt) by (apply LT; [apply O; left; reflexivity|exact NE]).
      apply O in OX. destruct OX as [->|OX]; [congruence|]. pose proof (H x OX) as B.
      rewrite String.compare_antisym, A in B. discriminate.
Qed.
Lemma some_first e ps x : occurs x e -> exists z, first_name z e /\ firstn 1 (cd_variables (fresh e ps)) = [z].
Proof.
  intros OX. apply (@variables_occurs (F64 L)) in OX. destruct (@variables (F64 L) e) as [|z l] eqn:V; [destruct OX|].
  exists z. assert (F : firstn 1 (cd_variables (fresh e ps)) = [z]) by (cbn [custom_new cd_variables]; rewrite V; reflexivity).
  split; [apply (first_is_least e z ps), F|exact F].
Qed.
Lemma known_in (ps : env f64) x : In x (map fst ps) <-> get ps x <> None.
Proof. symmetry. apply get_known. Qed.

Lemma custom_compiles e ps x : data_variable x e ps ->
  ((exists f, compile_custom_expression (fresh e ps) = JOk f) <-> first_name x e).
Proof.
  intros (O & N & R). rewrite custom_ok. cbn [custom_new cd_parameters cd_expression]. change (@variables (F64 L) e) with (cd_variables (fresh e ps)) || idtac. split.
  - intros H. destruct (H x O) as [I|I]; [|apply known_in in I; congruence].
    destruct (some_first e ps x O) as (z & FZ & FE). rewrite FE in I. destruct I as [->|[]]. exact FZ.
  - intros F y OY. apply (first_is_least e x ps) in F. rewrite F.
    destruct (string_dec y x) as [->|NE]; [left; left; reflexivity|right]. apply known_in, R; assumption.
Qed.
Lemma custom_two_unknown e ps x y : occurs x e -> occurs y e -> x <> y -> get ps x = None -> get ps y = None ->
  exists err, compile_custom_expression (fresh e ps) = JErr err.
Proof.
  intros OX OY NE NX NY. destruct (compile_custom_expression (fresh e ps)) as [f|err] eqn:E; [exfalso|eauto].
  pose proof (proj1 (custom_ok (fresh e ps)) (ex_intro _ f E)) as H. change (cd_parameters (fresh e ps)) with ps in H. destruct (some_first e ps x OX) as (z & _ & F). rewrite F in H.
  destruct (H x OX) as [[A|[]]|A]; [|apply known_in in A; congruence].
  destruct (H y OY) as [[B|[]]|B]; [|apply known_in in B; congruence]. congruence.
Qed.
(** The bindings of the compiled code: the input for the first name. *)
Lemma custom_binding_first e ps x v : first_name x e -> forall y,
  custom_binding (fresh e ps) [v] y = if String.eqb y x then Some v else get ps y.
Proof.
  intros F y. apply (first_is_least e x ps) in F. unfold custom_binding. rewrite F. cbn [List.length firstn].
  unfold expression_binding, lookup_last. cbn [app combine rev get custom_new cd_parameters].
  destruct (String.eqb_spec y x) as [->|NE]; reflexivity.
Qed.
Lemma custom_call e ps x v f : first_name x e -> compile_custom_expression (fresh e ps) = JOk f ->
  call_single f v = evaluates (fun y => if String.eqb y x then v else total (get ps) y) e.
Proof.
  intros F C. destruct (custom_code _ f C) as [[P A] S]. unfold call_single. rewrite S.
  change [AFloat v] with (map AFloat [v]). rewrite (A [v] eq_refl). apply evaluates_ext. intros y _. unfold total.
  rewrite (custom_binding_first e ps x v F y). destruct (String.eqb y x); reflexivity.
Qed.
Lemma custom_exact e ps x v w f : first_name x e -> compile_custom_expression (fresh e ps) = JOk f ->
  exact_ops e -> no_unit_literals e -> custom_evaluate_single L (fresh e ps) x v = Ok w -> call_single f v = Returned w.
Proof.
  intros F C X U E. rewrite (custom_call e ps x v f F C).
  rewrite (evaluates_ext _ (total (get (insert ps x v)))).
  - unfold evaluates. rewrite (exact_multi L (insert ps x v) e X U w E). reflexivity.
  - intros y _. unfold total. rewrite get_insert. destruct (String.eqb y x); reflexivity.
Qed.
Lemma custom_accurate c lg e ps x v f r d1 s d2 : libm_ok c lg L -> (0 <= c)%R -> first_name x e ->
  compile_custom_expression (fresh e ps) = JOk f ->
  eval_bound c (value_of (insert ps x v)) e r d1 -> accurate (value_of (insert ps x v)) e s d2 ->
  r = s /\ exists a b, custom_evaluate_single L (fresh e ps) x v = Ok a /\ call_single f v = Returned b /\ (Rabs (val a - val b) <= d1 + d2)%R.
Proof.
  intros LOK C0 F C B A. destruct (accurate_value _ _ _ _ A) as (w & W & NW & EW).
  pose proof (bound_real c lg L LOK C0 _ _ _ _ B) as R1.
  assert (RS : r = s) by (eapply real_is_fun; [exact R1|apply (accurate_real _ _ _ _ A)]).
  split; [exact RS|]. destruct (evaluate_bound c lg L LOK C0 _ e r d1 B) as (a & E & NA & EA). exists a, w. split; [exact E|].
  split.
  - rewrite (custom_call e ps x v f F C). rewrite (evaluates_ext _ (value_of (insert ps x v))).
    + unfold evaluates. rewrite W. reflexivity.
    + intros y _. unfold total, value_of. rewrite get_insert. destruct (String.eqb y x); reflexivity.
  - replace (val a - val w)%R with ((val a - r) - (val w - s))%R by (rewrite RS; ring). unfold Rminus at 1. eapply Rle_trans; [apply Rabs_triang|]. rewrite Rabs_Ropp. lra.
Qed.
(** Every name a parameter: the code still takes an input, for the first. *)
Lemma custom_closed e ps : (forall y, occurs y e -> get ps y <> None) ->
  exists f, compile_custom_expression (fresh e ps) = JOk f.
Proof. intros H. apply custom_ok. intros y O. right. apply known_in, H, O. Qed.
End Custom.

(** * Statistics *)
Lemma count_app {A} (p : node A -> bool) l r : List.length (filter p (l ++ r)) = (List.length (filter p l) + List.length (filter p r))%nat.
Proof. rewrite filter_app, app_length. reflexivity. Qed.
Lemma instructions_count e : estimate_expr_instructions e =
  (how_many is_const e + how_many is_binary e + 3 * (how_many is_function e + how_many is_neg e))%nat.
Proof. induction e; unfold how_many in *; cbn [nodes filter is_const is_binary is_function is_neg estimate_expr_instructions List.length]; rewrite ?count_app; lia. Qed.
Lemma complexity_count e : estimate_complexity e =
  (how_many is_leaf e + how_many is_binary e + how_many is_neg e + 3 * how_many is_function e)%nat.
Proof. induction e; unfold how_many in *; cbn [nodes filter is_leaf is_binary is_function is_neg estimate_complexity List.length]; rewrite ?count_app; lia. Qed.
Lemma constants_count e : @count_constants f64 e = how_many is_const e.
Proof. induction e; unfold how_many in *; cbn [nodes filter is_const count_constants List.length]; rewrite ?count_app; lia. Qed.
Lemma operators_count L e : @complexity (F64 L) e = (how_many is_binary e + how_many is_function e + how_many is_neg e)%nat.
Proof. induction e; unfold how_many in *; cbn [nodes filter is_binary is_function is_neg complexity List.length]; rewrite ?count_app; lia. Qed.

(** The number of instructions generated for arithmetic over the arguments. *)
Lemma arithmetic_body vm cs e : arithmetic e -> (forall x, occurs x e -> get vm x <> None) -> forall b v b',
  generate_clif vm cs e b = JOk (v, b') -> List.length (body b') = (List.length (body b) + estimate_expr_instructions e)%nat.
Proof.
  assert (BIN : forall e1 e2 op,
    (forall b v b', generate_clif vm cs e1 b = JOk (v, b') -> List.length (body b') = (List.length (body b) + estimate_expr_instructions e1)%nat) ->
    (forall b v b', generate_clif vm cs e2 b = JOk (v, b') -> List.length (body b') = (List.length (body b) + estimate_expr_instructions e2)%nat) ->
    forall b v b', gbind (generate_clif vm cs e1) (fun a => gbind (generate_clif vm cs e2) (fun c => ins (op a c))) b = JOk (v, b') ->
    List.length (body b') = (List.length (body b) + (1 + estimate_expr_instructions e1 + estimate_expr_instructions e2))%nat).
  { intros e1 e2 op H1 H2 b v b'. unfold gbind. destruct (generate_clif vm cs e1 b) as [[v1 b1]|] eqn:E1; [|discriminate].
    destruct (generate_clif vm cs e2 b1) as [[v2 b2]|] eqn:E2; [|discriminate]. intros E. injection E as <- <-. cbn.
    rewrite (H2 _ _ _ E2), (H1 _ _ _ E1). lia. }
  induction e as [c|y|l IHl r IHr|l IHl r IHr|l IHl r IHr|l IHl r IHr|l IHl r IHr|a IHa|a IHa|a IHa|a IHa|a IHa|a IHa];
    intros A H; try destruct A.
  - intros b v b' E. injection E as <- <-. cbn. lia.
  - intros b v b'. cbn [generate_clif estimate_expr_instructions]. destruct (get vm y) as [k|] eqn:G; [|exfalso; apply (H y); [constructor|exact G]].
    intros E. injection E as <- <-. lia.
  - apply BIN; [apply IHl|apply IHr]; try assumption; intros x O; apply H; [apply o_add_l|apply o_add_r]; exact O.
  - apply BIN; [apply IHl|apply IHr]; try assumption; intros x O; apply H; [apply o_sub_l|apply o_sub_r]; exact O.
  - apply BIN; [apply IHl|apply IHr]; try assumption; intros x O; apply H; [apply o_mul_l|apply o_mul_r]; exact O.
  - apply BIN; [apply IHl|apply IHr]; try assumption; intros x O; apply H; [apply o_div_l|apply o_div_r]; exact O.
Qed.
Lemma arithmetic_instructions e ds ps cs f : compile_expression e ds ps cs = JOk f -> arithmetic e ->
  (forall x, occurs x e -> In x (ds ++ ps)) ->
  clif_instructions (fn_stats f) = (List.length (fn_body f) + List.length ds + List.length ps + 2)%nat.
Proof.
  unfold compile_expression. set (vm := map_slots ps _ _). intros E A O.
  destruct (generate_clif vm cs e _) as [[r b]|] eqn:G; [|discriminate]. injection E as <-. cbn [fn_stats fn_body clif_instructions].
  pose proof (arithmetic_body vm cs e A) as B. rewrite (B) with (b := mkB (List.length ds + List.length ps) []) (v := r); [|  | exact G].
  - cbn. unfold estimate_clif_instructions. lia.
  - intros x X. apply slot_known, O, X.
Qed.

(** * The estimated speedup *)
Local Open Scope R_scope.
Lemma num_Z z : (Z.abs z <= 2 ^ 64)%Z -> is_num (f64_of_Z z) /\ val (f64_of_Z z) = RN (IZR z).
Proof.
  intros H. assert (X : F2R (Float radix2 z 0) = IZR z) by (unfold F2R; cbn [Fnum Fexp]; change (bpow radix2 0) with 1; ring).
  unfold f64_of_Z. change f64_prec with 53%Z. change f64_emax with 1024%Z. rewrite (FloatFacts.bn_equiv 53 1024 Hprec64 Hmax64).
  pose proof (BinarySingleNaN.binary_normalize_correct 53 1024 Hprec64 Hmax64 BinarySingleNaN.mode_NE z 0 false) as C. rewrite X in C.
  cbn [BinarySingleNaN.round_mode] in C. rewrite RN_fexp in C.
  rewrite Rlt_bool_true in C.
  - destruct C as (V & F & _). destruct (is_num_B _ F) as [N W]. split; [exact N|]. rewrite W. exact V.
  - apply (RN_small _ 64); [lia|]. rewrite <- abs_IZR. change (bpow radix2 64) with (IZR (2 ^ 64)). apply IZR_le, H.
Qed.
Definition speed (n : nat) : R := RN (15 + RN (RN (sqrt (RN (INR n))) * 2)).
Lemma speed_mono n m : (n <= m)%nat -> speed n <= speed m.
Proof.
  intros H. unfold speed. apply RN_le, Rplus_le_compat_l, RN_le, Rmult_le_compat_r; [lra|]. apply RN_le, sqrt_le_1_alt, RN_le, le_INR, H.
Qed.
Lemma min_num a b : is_num a -> is_num b -> is_num (f64_min a b) /\ val (f64_min a b) = Rmin (val b) (val a).
Proof.
  intros A B. assert (E : f64_min a b = if SFltb b a then b else a) by (destruct a, b; try reflexivity; destruct A as [_ A], B as [_ B]; discriminate).
  rewrite E, (SFltb_num b a B A). unfold Rmin. destruct (Rlt_bool_spec (val b) (val a)); destruct (Rle_dec (val b) (val a)); split; try assumption; lra.
Qed.
Lemma speed_le n : (Z.of_nat n <= 2 ^ 64)%Z -> RN (INR n) <= bpow radix2 64 /\ 0 <= RN (INR n) /\ sqrt (RN (INR n)) <= bpow radix2 32.
Proof.
  intros H. assert (A : RN (INR n) <= bpow radix2 64).
  { rewrite <- (RN_bpow 64) by lia. apply RN_le. rewrite INR_IZR_INZ. change (bpow radix2 64) with (IZR (2 ^ 64)). apply IZR_le, H. }
  split; [exact A|]. split; [rewrite <- RN_0; apply RN_le, pos_INR|].
  rewrite <- (sqrt_square (bpow radix2 32)) by apply bpow_ge_0. apply sqrt_le_1_alt. rewrite <- bpow_plus. exact A.
Qed.
Lemma speedup_val n : (Z.of_nat n <= 2 ^ 64)%Z -> is_num (estimate_speedup n) /\ val (estimate_speedup n) = Rmin 100 (speed n).
Proof.
  intros H. destruct (num_Z (Z.of_nat n) ltac:(lia)) as [N0 V0]. rewrite <- INR_IZR_INZ in V0. destruct (speed_le n H) as (B1 & B2 & B3).
  destruct (sqrt_num _ N0) as [N1 V1]; [rewrite V0; exact B2|]. rewrite V0 in V1.
  destruct (num_int 2 ltac:(lia)) as [N2 V2]. destruct (num_int 15 ltac:(lia)) as [N15 V15]. destruct (num_int 100 ltac:(lia)) as [N100 V100].
  pose proof (sqrt_pos (RN (INR n))) as S0.
  assert (Q : 0 <= RN (sqrt (RN (INR n))) <= bpow radix2 32).
  { split; [rewrite <- RN_0; apply RN_le, S0|]. rewrite <- (RN_bpow 32) by lia. apply RN_le, B3. }
  change (bpow radix2 32) with 4294967296 in Q.
  assert (M : Rabs (RN (sqrt (RN (INR n))) * 2) <= bpow radix2 33) by (change (bpow radix2 33) with 8589934592; rewrite Rabs_pos_eq; lra).
  destruct (mul_num _ _ N1 N2) as [N3 V3]; [rewrite V1, V2; apply (RN_small _ 33); [lia|exact M]|]. rewrite V1, V2 in V3.
  assert (Q2 : 0 <= RN (RN (sqrt (RN (INR n))) * 2) <= 8589934592).
  { pose proof (RN_abs_bpow _ 33 ltac:(lia) M) as T. change (bpow radix2 33) with 8589934592 in T. apply Rabs_le_inv in T.
    split; [|lra]. rewrite <- RN_0. apply RN_le. lra. }
  destruct (add_num _ _ N15 N3) as [N4 V4].
  { rewrite V15, V3. apply (RN_small _ 34); [lia|]. change (bpow radix2 34) with 17179869184. rewrite Rabs_pos_eq; lra. }
  rewrite V15, V3 in V4. unfold estimate_speedup. destruct (min_num _ _ N4 N100) as [N5 V5]. split; [exact N5|].
  rewrite V5, V100, V4. reflexivity.
Qed.
Lemma speed_low n : 15 <= speed n.
Proof.
  assert (R15 : RN 15 = 15).
  { destruct (num_int 15 ltac:(lia)) as [[N _] V]. rewrite <- V. apply RN_val. exact N. }
  unfold speed. rewrite <- R15 at 1. apply RN_le. rewrite <- (Rplus_0_r 15) at 1. apply Rplus_le_compat_l. rewrite <- RN_0. apply RN_le.
  rewrite <- (Rmult_0_l 2). apply Rmult_le_compat_r; [lra|]. rewrite <- RN_0. apply RN_le, sqrt_pos.
Qed.
Lemma speed_high n : (1807 <= n)%nat -> 100 <= speed n.
Proof.
  intros H. apply Rle_trans with (speed 1807); [|apply speed_mono, H].
  destruct (speedup_val 1807) as [_ V]; [lia|].
  assert (E : estimate_speedup 1807 = f64_of_Z 100) by (vm_compute; reflexivity). rewrite E in V.
  destruct (num_int 100 ltac:(lia)) as [_ V100]. rewrite V100 in V. rewrite V at 1. apply Rmin_r.
Qed.
Lemma speed_close n : (n <= 1806)%nat -> Rabs (speed n - (15 + 2 * sqrt (INR n))) <= / 10 ^ 13 /\ 15 + 2 * sqrt (INR n) <= 100.
Proof.
  intros H. assert (R : RN (INR n) = INR n).
  { rewrite INR_IZR_INZ. destruct (num_int (Z.of_nat n) ltac:(lia)) as [N V]. destruct (num_Z (Z.of_nat n) ltac:(lia)) as [_ V']. congruence. }
  assert (S : 0 <= sqrt (INR n) <= 42.5).
  { split; [apply sqrt_pos|]. rewrite <- (sqrt_square 42.5) by lra. apply sqrt_le_1_alt. apply Rle_trans with (INR 1806); [apply le_INR, H|]. rewrite INR_IZR_INZ. cbn. lra. }
  unfold speed. rewrite R. set (q := sqrt (INR n)) in *. clearbody q.
  assert (TB : 0 <= / IZR (2 ^ 300) <= / 10 ^ 30).
  { split; [left; apply Rinv_0_lt_compat, IZR_lt; reflexivity|]. apply Rinv_le_contravar; [apply pow_lt; lra|]. rewrite pow_IZR. apply IZR_le. vm_compute. discriminate. }
  pose proof (RN_abs q) as E1. rewrite (Rabs_pos_eq q) in E1 by lra. assert (A0 : 0 <= RN q) by (rewrite <- RN_0; apply RN_le; lra). set (a := RN q) in *. clearbody a.
  pose proof (RN_abs (a * 2)) as E2. assert (B0 : 0 <= RN (a * 2)) by (rewrite <- RN_0; apply RN_le; lra). set (b := RN (a * 2)) in *. clearbody b.
  pose proof (RN_abs (15 + b)) as E3. set (d := RN (15 + b)) in *. clearbody d. set (t := / IZR (2 ^ 300)) in *. clearbody t.
  rewrite (pow_IZR 2 53) in *. change (IZR (2 ^ Z.of_nat 53)) with 9007199254740992 in *.
  apply Rabs_le_inv in E1. rewrite (Rabs_pos_eq (a * 2)) in E2 by lra. apply Rabs_le_inv in E2. rewrite (Rabs_pos_eq (15 + b)) in E3 by lra. apply Rabs_le_inv in E3.
  split; [|lra]. apply Rabs_le. lra.
Qed.
Lemma speedup_props n : (Z.of_nat n <= 2 ^ 64)%Z ->
  is_num (estimate_speedup n) /\ 15 <= val (estimate_speedup n) <= 100 /\
  Rabs (val (estimate_speedup n) - Rmin (15 + 2 * sqrt (INR n)) 100) <= / 10 ^ 13.
Proof.
  intros H. destruct (speedup_val n H) as [N V]. split; [exact N|]. rewrite V. pose proof (speed_low n) as A. split.
  - unfold Rmin. destruct (Rle_dec 100 (speed n)); lra.
  - destruct (le_lt_dec 1807 n) as [G|G].
    + pose proof (speed_high n G). assert (I : 1807 <= INR n) by (apply le_INR in G; rewrite (INR_IZR_INZ 1807) in G; exact G).
      assert (S : 42.5 <= sqrt (INR n)) by (rewrite <- (sqrt_square 42.5) by lra; apply sqrt_le_1_alt; lra).
      rewrite Rmin_left, Rmin_right by lra. rewrite Rminus_diag_eq, Rabs_R0 by reflexivity. left. apply Rinv_0_lt_compat, pow_lt. lra.
    + destruct (speed_close n ltac:(lia)) as [C D]. rewrite (Rmin_left _ 100) by exact D. unfold Rmin. destruct (Rle_dec 100 (speed n)) as [K|K]; [|exact C].
      apply Rabs_le_inv in C. apply Rabs_le. lra.
Qed.
Lemma speedup_mono n m : (n <= m)%nat -> (Z.of_nat m <= 2 ^ 64)%Z -> val (estimate_speedup n) <= val (estimate_speedup m).
Proof.
  intros H M. destruct (speedup_val n ltac:(lia)) as [_ ->]. destruct (speedup_val m M) as [_ ->]. pose proof (speed_mono n m H).
  unfold Rmin. destruct (Rle_dec 100 (speed n)), (Rle_dec 100 (speed m)); lra.
Qed.
Lemma reported_speedups L e :
  expression_speedup L e = estimate_speedup (how_many is_binary e + how_many is_function e + how_many is_neg e) /\
  tagless_speedup e = estimate_speedup (how_many is_leaf e + how_many is_binary e + how_many is_neg e + 3 * how_many is_function e) /\
  ((Z.of_nat (how_many is_leaf e + how_many is_binary e + how_many is_neg e + 3 * how_many is_function e) <= 2 ^ 64)%Z ->
   val (expression_speedup L e) <= val (tagless_speedup e)).
Proof.
  unfold expression_speedup, tagless_speedup. rewrite operators_count, complexity_count. split; [reflexivity|]. split; [reflexivity|].
  intros B. apply speedup_mono; [|exact B].
  assert (K : forall a b n f, (b + f + n <= a + b + n + 3 * f)%nat) by (intros; lia). apply K.
Qed.
