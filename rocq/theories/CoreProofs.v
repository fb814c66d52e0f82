From Coq Require Import ZArith Reals Bool List Arith Lra Lia Sorting.Permutation SetoidList.
From Coq Require Import Floats.SpecFloat.
From Verif Require Import Num XRFacts DensitySpec CoreModel CoreSpec.
Import ListNotations.
Local Open Scope R_scope.
Local Open Scope list_scope.

(** ** Layout *)
Lemma distinct_offsets s1 s2 lay : (0 < s1)%nat -> (0 < s2)%nat ->
  legal_layout s1 s2 lay -> Nat.eqb (off_measure lay) (off_base lay) = false.
Proof. intros A B [H|H]; apply Nat.eqb_neq; lia. Qed.

Lemma shortcut_needs_zero_size s1 s2 lay : legal_layout s1 s2 lay ->
  off_measure lay = off_base lay -> s1 = 0%nat \/ s2 = 0%nat.
Proof. intros [H|H] E; lia. Qed.

Section Gen.
Context {N : Num} {T : Type}.
Lemma compute_sub (m b : Base N T) x : compute m b x = nsub (b_ld m x) (b_ld b x).
Proof. unfold compute; destruct (b_expfam m), (b_expfam b); reflexivity. Qed.

Lemma at_differs lay (l : LogDensity N T) x : off_measure lay <> off_base lay ->
  at_ lay l x = nsub (b_ld (ld_measure l) x) (b_ld (ld_base l) x).
Proof.
  intros H; unfold at_. apply Nat.eqb_neq in H; rewrite H. apply compute_sub.
Qed.
Lemma at_same lay (l : LogDensity N T) x : off_measure lay = off_base lay -> at_ lay l x = n0.
Proof. intros H; unfold at_. apply Nat.eqb_eq in H; rewrite H; reflexivity. Qed.

Lemma at_sized lay (l : LogDensity N T) x :
  (0 < b_size (ld_measure l))%nat -> (0 < b_size (ld_base l))%nat ->
  legal_layout (b_size (ld_measure l)) (b_size (ld_base l)) lay ->
  at_ lay l x = nsub (b_ld (ld_measure l) x) (b_ld (ld_base l) x).
Proof.
  intros A B H. apply at_differs. apply Nat.eqb_neq. exact (distinct_offsets _ _ lay A B H).
Qed.
End Gen.

Section XRD.
Context (lg : R -> R).
Notation X := (XR lg).
Context {T : Type}.

Lemma at_root lay (m : Base X T) (x : T) : off_measure lay <> off_base lay ->
  at_ lay (log_density {| m_self := m; m_root := primitive |}) x = b_ld m x.
Proof.
  intros H. rewrite at_differs by exact H. cbn [log_density ld_measure ld_base m_self m_root primitive b_ld].
  rewrite x_n0. cbn. unfold xsub. cbn. rewrite Ropp_0. apply xadd_0_r.
Qed.

Lemma ratio lay (l : LogDensity X T) x : off_measure lay <> off_base lay ->
  is_logdens (b_ld (ld_measure l) x) -> 0 < dens (b_ld (ld_base l) x) ->
  is_logdens (at_ lay l x) /\
  dens (at_ lay l x) = dens (b_ld (ld_measure l) x) / dens (b_ld (ld_base l) x).
Proof.
  intros H A B. rewrite at_differs by exact H. cbn [nsub XR].
  destruct (b_ld (ld_base l) x) as [b| | |]; cbn in B; try lra.
  destruct A as [[a ->]| ->]; cbn.
  - split; [left; eexists; reflexivity|]. unfold Rdiv. rewrite <- exp_Ropp, <- exp_plus. reflexivity.
  - split; [right; reflexivity|]. unfold Rdiv. rewrite Rmult_0_l. reflexivity.
Qed.

Lemma antisym lay lay' (m b : Base X T) x a c :
  off_measure lay <> off_base lay -> off_measure lay' <> off_base lay' ->
  b_ld m x = Fin a -> b_ld b x = Fin c ->
  at_ lay {| ld_measure := m; ld_base := b |} x =
  (nneg (at_ lay' {| ld_measure := b; ld_base := m |} x) : X).
Proof.
  intros L1 L2 A C. rewrite !at_differs by assumption. cbn [ld_measure ld_base].
  rewrite A, C. cbn. f_equal; lra.
Qed.

Lemma chain l1 l2 l3 (m1 m2 m3 : Base X T) x a2 a3 :
  off_measure l1 <> off_base l1 -> off_measure l2 <> off_base l2 -> off_measure l3 <> off_base l3 ->
  b_ld m2 x = Fin a2 -> b_ld m3 x = Fin a3 ->
  (nadd (at_ l1 {| ld_measure := m1; ld_base := m2 |} x)
        (at_ l2 {| ld_measure := m2; ld_base := m3 |} x) : X)
  = at_ l3 {| ld_measure := m1; ld_base := m3 |} x.
Proof.
  intros L1 L2 L3 A2 A3. rewrite !at_differs by assumption. cbn [ld_measure ld_base].
  rewrite A2, A3. destruct (b_ld m1 x); cbn; auto. f_equal; lra.
Qed.

Lemma self lay (m : Base X T) x a : b_ld m x = Fin a ->
  at_ lay {| ld_measure := m; ld_base := m |} x = Fin 0.
Proof.
  intros A. destruct (Nat.eq_dec (off_measure lay) (off_base lay)) as [E|E].
  - rewrite at_same by exact E. apply x_n0.
  - rewrite at_differs by exact E. cbn [ld_measure ld_base]. rewrite A. cbn. f_equal; lra.
Qed.

Lemma both_outside lay (l : LogDensity X T) x : off_measure lay <> off_base lay ->
  b_ld (ld_measure l) x = NInf -> b_ld (ld_base l) x = NInf -> at_ lay l x = XNaN.
Proof. intros H A B. rewrite at_differs by exact H. rewrite A, B. reflexivity. Qed.
End XRD.

(** ** Binary64 *)
Lemma bra_opp sx m e l :
  binary_round_aux f64_prec f64_emax (negb sx) m e l =
  SFopp (binary_round_aux f64_prec f64_emax sx m e l).
Proof.
  unfold binary_round_aux.
  destruct (shr_fexp f64_prec f64_emax m e l) as [a b].
  destruct (shr_fexp f64_prec f64_emax _ b loc_Exact) as [c d].
  destruct (shr_m c); try reflexivity. destruct (Z.leb _ _); reflexivity.
Qed.
Lemma bn_opp z e : z <> 0%Z ->
  binary_normalize f64_prec f64_emax (- z) e false = SFopp (binary_normalize f64_prec f64_emax z e false).
Proof.
  destruct z as [|p|p]; intros H; [congruence| |]; cbn [Z.opp binary_normalize];
  unfold binary_round; destruct (shl_align p e _) as [m e'].
  - apply (bra_opp false).
  - rewrite (bra_opp false). destruct (binary_round_aux _ _ false _ _ _) as [[]|[]| |[] ? ?]; reflexivity.
Qed.

Lemma f64_sub_self a : a <> S754_nan -> (forall s, a <> S754_infinity s) ->
  f64_sub a a = S754_zero false.
Proof.
  destruct a as [s|s| |s m e]; intros A B; [| exfalso; eapply B; reflexivity | congruence |].
  - destruct s; reflexivity.
  - unfold f64_sub, SFsub. rewrite Z.min_id. cbn zeta.
    set (v := cond_Zopp _ _). replace (v - v)%Z with 0%Z by lia. reflexivity.
Qed.

Lemma f64_sub_antisym a b : f64_sub a b <> S754_nan ->
  SFeqb (f64_sub a b) (SFopp (f64_sub b a)) = true.
Proof.
  assert (Q : forall v, v <> S754_nan -> SFeqb v v = true).
  { intros v H. destruct v as [s|s| |s m e]; try congruence; try (destruct s; reflexivity).
    destruct s; unfold SFeqb, SFcompare; rewrite Z.compare_refl, Pos.compare_cont_refl; reflexivity. }
  destruct a as [s|s| |s m e], b as [t|t| |t n f]; intros H;
    try (now destruct s, t); try (exfalso; now apply H); try now destruct t.
  - unfold f64_sub, SFsub. cbn [SFopp]. apply Q; discriminate.
  - unfold f64_sub, SFsub. cbn [SFopp]. rewrite negb_involutive. apply Q; discriminate.
  - unfold f64_sub, SFsub in *. rewrite (Z.min_comm f e). cbn zeta in *.
    set (u := cond_Zopp s _) in *. set (w := cond_Zopp t _) in *.
    destruct (Z.eq_dec (u - w) 0) as [E|E].
    + replace (w - u)%Z with 0%Z by lia. rewrite E. reflexivity.
    + replace (w - u)%Z with (- (u - w))%Z by lia. rewrite bn_opp by exact E.
      replace (SFopp (SFopp (binary_normalize f64_prec f64_emax (u - w) (Z.min e f) false)))
        with (binary_normalize f64_prec f64_emax (u - w) (Z.min e f) false)
        by (destruct (binary_normalize _ _ _ _ _) as [[]|[]| |[] ? ?]; reflexivity).
      apply Q, H.
Qed.

Lemma self_f64 (L : libm) T lay (m : Base (F64 L) T) x :
  b_ld m x <> S754_nan -> (forall s, b_ld m x <> S754_infinity s) ->
  at_ lay {| ld_measure := m; ld_base := m |} x = S754_zero false.
Proof.
  intros A B. destruct (Nat.eq_dec (off_measure lay) (off_base lay)) as [E|E].
  - rewrite at_same by exact E. reflexivity.
  - rewrite at_differs by exact E. cbn [ld_measure ld_base]. apply f64_sub_self; assumption.
Qed.

Lemma antisym_f64 (L : libm) T lay lay' (m b : Base (F64 L) T) x :
  off_measure lay <> off_base lay -> off_measure lay' <> off_base lay' ->
  at_ lay {| ld_measure := m; ld_base := b |} x <> S754_nan ->
  SFeqb (at_ lay {| ld_measure := m; ld_base := b |} x)
        (SFopp (at_ lay' {| ld_measure := b; ld_base := m |} x)) = true.
Proof.
  intros L1 L2. rewrite !at_differs by assumption. cbn [ld_measure ld_base]. apply f64_sub_antisym.
Qed.

(** ** Memo *)
Section MemoP.
Context {T V : Type} (eqb : T -> T -> bool) (f : T -> V).
Hypothesis refl : forall x, eqb x x = true.
Hypothesis sym : forall x y, eqb x y = true -> eqb y x = true.
Hypothesis trans : forall x y z, eqb x y = true -> eqb y z = true -> eqb x z = true.
Hypothesis resp : forall x y, eqb x y = true -> f x = f y.

Definition minv (s : Memo T V) : Prop :=
  (forall k v, In (k, v) (cache s) -> v = f k) /\ map fst (cache s) = evals s /\
  ForallOrdPairs (fun x y => eqb x y = false) (evals s).

Lemma lookup_hit (c : list (T * V)) x v : lookup eqb c x = Some v ->
  exists k, In (k, v) c /\ eqb k x = true.
Proof.
  induction c as [|[k w] c IH]; cbn; [discriminate|].
  destruct (eqb k x) eqn:E.
  - intros H; injection H as ->. exists k; auto.
  - intros H. destruct (IH H) as (k' & A & B). exists k'; auto.
Qed.
Lemma lookup_miss (c : list (T * V)) x : lookup eqb c x = None -> forall k, In k (map fst c) -> eqb k x = false.
Proof.
  induction c as [|[k w] c IH]; cbn; [contradiction|].
  destruct (eqb k x) eqn:E; [discriminate|]. intros H k' [<-|I]; auto.
Qed.

Lemma memo_at_ok s x v s' : minv s -> memo_at eqb f s x = (v, s') ->
  v = f x /\ minv s' /\ incl (evals s) (evals s') /\
  (exists k, In k (evals s') /\ eqb k x = true) /\
  (forall k, In k (evals s') -> In k (evals s) \/ k = x).
Proof.
  intros (A & B & C). unfold memo_at. destruct (lookup eqb (cache s) x) as [w|] eqn:E.
  - intros H; injection H as <- <-. apply lookup_hit in E. destruct E as (k & I & K).
    split; [rewrite (A _ _ I); apply resp; exact K|].
    split; [repeat split; auto|]. split; [apply incl_refl|]. split; [|auto].
    exists k; split; [|exact K]. rewrite <- B. apply in_map_iff. exists (k, w); auto.
  - intros H; injection H as <- <-. split; [reflexivity|]. split; [|split; [|split]].
    + unfold minv; cbn. split; [|split].
      * intros k v [I|I]; [injection I as <- <-; reflexivity | auto].
      * rewrite B; reflexivity.
      * constructor; [|exact C]. apply Forall_forall. intros y I.
        destruct (eqb x y) eqn:Q; [|reflexivity]. apply sym in Q.
        rewrite (lookup_miss _ _ E y) in Q; [discriminate|]. rewrite B; exact I.
    + cbn. apply incl_tl, incl_refl.
    + exists x; cbn; auto.
    + cbn. intros k [->|I]; auto.
Qed.

Lemma memo_run_ok xs : forall s vs s', minv s -> memo_run eqb f s xs = (vs, s') ->
  vs = map f xs /\ minv s' /\ incl (evals s) (evals s') /\
  (forall x, In x xs -> exists k, In k (evals s') /\ eqb k x = true) /\
  (forall k, In k (evals s') -> In k (evals s) \/ In k xs).
Proof.
  induction xs as [|x xs IH]; cbn; intros s vs s' I H.
  - injection H as <- <-. split; [reflexivity|]. split; [exact I|]. split; [apply incl_refl|].
    split; [contradiction|auto].
  - destruct (memo_at eqb f s x) as [v s1] eqn:E1. destruct (memo_run eqb f s1 xs) as [ws s2] eqn:E2.
    injection H as <- <-. destruct (memo_at_ok _ _ _ _ I E1) as (A & I1 & B & (k & K1 & K2) & C).
    destruct (IH _ _ _ I1 E2) as (A' & I2 & B' & D & C').
    split; [congruence|]. split; [exact I2|]. split; [eapply incl_tran; eauto|]. split.
    + intros y [<-|Y]; [exists k; auto | auto].
    + intros y Y. destruct (C' y Y) as [Z|Z]; [destruct (C y Z) as [W|W]; auto | auto].
Qed.

Lemma memo_transparent xs vs s : memo_run eqb f memo_new xs = (vs, s) ->
  vs = map f xs /\ ForallOrdPairs (fun x y => eqb x y = false) (evals s) /\
  (forall k, In k (evals s) -> In k xs) /\
  (forall x, In x xs -> exists k, In k (evals s) /\ eqb k x = true).
Proof.
  intros H. assert (I : minv memo_new) by (repeat split; [contradiction | constructor]).
  destruct (memo_run_ok _ _ _ _ I H) as (A & (_ & _ & B) & _ & D & C).
  split; [exact A|]. split; [exact B|]. split; [|exact D].
  intros k K. destruct (C k K) as [[]|K']; exact K'.
Qed.
End MemoP.

(** ** Decomposition *)
Lemma xadd_assoc a b c : xadd (xadd a b) c = xadd a (xadd b c).
Proof. destruct a, b, c; cbn; auto. f_equal; lra. Qed.

Lemma xsum_app l1 l2 : xsum (l1 ++ l2) = xadd (xsum l1) (xsum l2).
Proof.
  induction l1 as [|a l IH]; [change (xsum l2 = xadd (Fin 0) (xsum l2)); now rewrite xadd_0_l|].
  change (xadd a (xsum (l ++ l2)) = xadd (xadd a (xsum l)) (xsum l2)).
  now rewrite IH, xadd_assoc.
Qed.
Lemma xsum_perm l1 l2 : Permutation l1 l2 -> xsum l1 = xsum l2.
Proof.
  induction 1.
  - reflexivity.
  - change (xadd x (xsum l) = xadd x (xsum l')). congruence.
  - change (xadd y (xadd x (xsum l)) = xadd x (xadd y (xsum l))).
    rewrite <- !xadd_assoc. f_equal. apply xadd_comm.
  - congruence.
Qed.
Lemma xsum_fins l : xsum (fins l) = Fin (Rsum l).
Proof. induction l; [reflexivity|]. change (xadd (Fin a) (xsum (fins l)) = Fin (a + Rsum l)). rewrite IHl; reflexivity. Qed.

Section DecP.
Context (lg : R -> R).
Notation N := (XR lg).
Context {X Theta : Type}.

Lemma fold_left_xsum (l : list N) : forall a : N, fold_left (@nadd N) l a = xadd a (xsum l).
Proof.
  induction l as [|b l IH]; intros a; cbn [fold_left]; [cbn; now rewrite xadd_0_r|].
  rewrite IH. cbn [xsum fold_right]. fold (xsum l). cbn [nadd XR]. apply xadd_assoc.
Qed.
Lemma fold_sum_xsum (l : list N) : fold_sum l = xsum l.
Proof. unfold fold_sum. rewrite fold_left_xsum, x_n0. apply xadd_0_l. Qed.

Lemma xadd_swap a b c d : xadd (xadd a b) (xadd c d) = xadd (xadd a c) (xadd b d).
Proof. destruct a, b, c, d; cbn; auto. f_equal; lra. Qed.

Lemma evaluate_sum (d : Decomp N X Theta) x th :
  d_evaluate d x th =
  xsum (map (fun g => g x) (data_terms d) ++ map (fun g => g th) (param_terms d) ++
        map (fun g => g x th) (mixed_terms d) ++ constant_terms d).
Proof.
  unfold d_evaluate, evaluate_data_terms, evaluate_param_terms, mixed_sum, constant_sum.
  rewrite !fold_sum_xsum, !xsum_app. cbn [nadd XR]. rewrite !xadd_assoc. reflexivity.
Qed.

Lemma build_sum ts x th : forall d : Decomp N X Theta,
  d_evaluate (fold_left d_add ts d) x th =
  xadd (d_evaluate d x th) (xsum (map (term_value x th) ts)).
Proof.
  induction ts as [|t ts IH]; intros d; cbn [fold_left map]; [cbn; now rewrite xadd_0_r|].
  rewrite IH. change (xsum (term_value x th t :: map (term_value x th) ts))
    with (xadd (term_value x th t) (xsum (map (term_value x th) ts))).
  rewrite <- xadd_assoc. f_equal. rewrite !evaluate_sum.
  transitivity (xsum ((map (fun g => g x) (data_terms d) ++ map (fun g => g th) (param_terms d) ++
        map (fun g => g x th) (mixed_terms d) ++ constant_terms d) ++ [term_value x th t])).
  2:{ rewrite xsum_app. cbn. rewrite xadd_0_r. reflexivity. }
  apply xsum_perm. destruct t; cbn [d_add data_terms param_terms mixed_terms constant_terms term_value];
    rewrite ?map_app, <- ?app_assoc; cbn [map app].
  - apply Permutation_app_head. rewrite !app_assoc. apply Permutation_cons_append.
  - do 2 apply Permutation_app_head. rewrite !app_assoc. apply Permutation_cons_append.
  - do 3 apply Permutation_app_head. apply Permutation_cons_append.
  - reflexivity.
Qed.

Lemma build_evaluate ts x th :
  d_evaluate (build ts : Decomp N X Theta) x th = xsum (map (term_value x th) ts).
Proof.
  unfold build. rewrite build_sum. rewrite (evaluate_sum d_new). cbn [d_new data_terms param_terms mixed_terms constant_terms map app].
  apply xadd_0_l.
Qed.

Lemma build_perm ts ts' x th : Permutation ts ts' ->
  d_evaluate (build ts : Decomp N X Theta) x th = d_evaluate (build ts') x th.
Proof. intros P. rewrite !build_evaluate. apply xsum_perm, Permutation_map, P. Qed.

Lemma xmul_S n a : (0 < n)%nat -> xmul (Fin (INR (S n))) a = xadd (xmul (Fin (INR n)) a) a.
Proof.
  intros P. assert (Q : 0 < INR n) by (apply lt_0_INR; lia).
  rewrite S_INR. destruct a; cbn; auto; [f_equal; lra| |]; unfold xscale.
  all: replace (Req_b (INR n + 1) 0) with false by (symmetry; apply Req_b_false; lra).
  all: replace (Req_b (INR n) 0) with false by (symmetry; apply Req_b_false; lra).
  all: replace (Rltb 0 (INR n + 1)) with true by (symmetry; apply Rltb_true; lra).
  all: replace (Rltb 0 (INR n)) with true by (symmetry; apply Rltb_true; lra).
  all: reflexivity.
Qed.
Lemma xmul_nat n a : (0 < n)%nat -> xmul (Fin (INR n)) a = xsum (repeat a n).
Proof.
  intros P. destruct n as [|n]; [lia|]. clear P. induction n as [|n IH].
  - change (xmul (Fin 1) a = xadd a (Fin 0)). now rewrite xmul_1_l, xadd_0_r.
  - rewrite xmul_S by lia. rewrite IH. rewrite xadd_comm. reflexivity.
Qed.

Lemma xsum_map_add {A} (f g : A -> xreal) l :
  xsum (map (fun a => xadd (f a) (g a)) l) = xadd (xsum (map f l)) (xsum (map g l)).
Proof.
  induction l as [|a l IH]; cbn; [f_equal; lra|].
  change (xadd (xadd (f a) (g a)) (xsum (map (fun a => xadd (f a) (g a)) l)) =
          xadd (xadd (f a) (xsum (map f l))) (xadd (g a) (xsum (map g l)))).
  rewrite IH. apply xadd_swap.
Qed.
Lemma map_const {A B} (b : B) (l : list A) : map (fun _ => b) l = repeat b (length l).
Proof. induction l; cbn; congruence. Qed.

Lemma iid_sum (d : Decomp N X Theta) xs th : xs <> [] ->
  d_evaluate_iid d xs th = xsum (map (fun x => d_evaluate d x th) xs).
Proof.
  intros H. unfold d_evaluate_iid, d_evaluate, evaluate_data_terms, evaluate_param_terms, mixed_sum, constant_sum.
  cbn [nadd nmul XR]. rewrite x_nofn. rewrite !fold_sum_xsum.
  assert (P : (0 < length xs)%nat) by (destruct xs; [congruence | cbn; lia]).
  rewrite !xmul_nat by exact P. rewrite <- !(map_const _ xs).
  rewrite !xsum_map_add. reflexivity.
Qed.

Lemma iid_empty (d : Decomp N X Theta) th p c :
  evaluate_param_terms d th = Fin p -> constant_sum d = Fin c -> d_evaluate_iid d [] th = Fin 0.
Proof.
  unfold evaluate_param_terms, constant_sum, d_evaluate_iid. intros E1 E2. cbn zeta. rewrite E1, E2.
  cbn [map length]. rewrite x_nofn, fold_sum_xsum. cbn. f_equal. ring.
Qed.

Lemma rebuild (d : Decomp N X Theta) x th :
  d_evaluate d x th = nadd (nadd (nadd (evaluate_data_terms d x) (evaluate_param_terms d th)) (mixed_sum d x th)) (constant_sum d).
Proof. reflexivity. Qed.
End DecP.

(** ** Dot products *)
Section DotP.
Context (lg : R -> R).
Notation N := (XR lg).

Lemma zip_dot_fin a : forall b c, zip_dot (N:=N) (Fin c) (fins a) (fins b) = Fin (c + rdot a b).
Proof.
  unfold rdot. induction a as [|x a IH]; intros [|y b] c; cbn [fins map zip_dot combine Rsum fold_right];
    try (f_equal; lra).
  cbn [nadd nmul XR xadd xmul]. fold (fins a) (fins b). rewrite IH. f_equal. cbn [fst snd].
  fold (Rsum (map (fun p => fst p * snd p) (combine a b))). lra.
Qed.
Lemma dot_vec_fin a b : dot_vec (N:=N) (fins a) (fins b) = Fin (rdot a b).
Proof. unfold dot_vec. rewrite x_n0, zip_dot_fin. f_equal; lra. Qed.
Lemma dot_array_fin a b : dot_array (N:=N) (fins a) (fins b) = Fin (rdot a b).
Proof. unfold dot_array. rewrite x_n0, zip_dot_fin. f_equal; lra. Qed.

Definition vadd (a b : list R) := map (fun p => fst p + snd p) (combine a b).
Definition vscale (k : R) (a : list R) := map (Rmult k) a.

Lemma rdot_comm a : forall b, rdot a b = rdot b a.
Proof.
  unfold rdot. induction a as [|x a IH]; intros [|y b]; cbn; auto.
  fold (Rsum (map (fun p => fst p * snd p) (combine a b))).
  fold (Rsum (map (fun p => fst p * snd p) (combine b a))). rewrite IH; lra.
Qed.
Lemma rdot_linear k : forall a a' b, length a = length a' ->
  rdot (vadd (vscale k a) a') b = k * rdot a b + rdot a' b.
Proof.
  unfold rdot. induction a as [|x a IH]; intros [|y a'] b E; try discriminate; [cbn; lra|].
  destruct b as [|z b]; [cbn; lra|].
  specialize (IH a' b ltac:(cbn in E; lia)).
  change ((k * x + y) * z + Rsum (map (fun p => fst p * snd p) (combine (vadd (vscale k a) a') b)) =
    k * (x * z + Rsum (map (fun p => fst p * snd p) (combine a b))) +
    (y * z + Rsum (map (fun p => fst p * snd p) (combine a' b)))). rewrite IH. lra.
Qed.
Lemma rdot_app a : forall b c d, length a = length b -> rdot (a ++ c) (b ++ d) = rdot a b + rdot c d.
Proof.
  unfold rdot. induction a as [|x a IH]; intros [|y b] c d E; try discriminate;
    [change (Rsum (map (fun p => fst p * snd p) (combine c d)) = 0 + Rsum (map (fun p => fst p * snd p) (combine c d))); lra|].
  specialize (IH b c d ltac:(cbn in E; lia)).
  change (x * y + Rsum (map (fun p => fst p * snd p) (combine (a ++ c) (b ++ d))) =
    x * y + Rsum (map (fun p => fst p * snd p) (combine a b)) +
    Rsum (map (fun p => fst p * snd p) (combine c d))). rewrite IH. lra.
Qed.

Lemma array_sub_fin a : forall b, length a = length b ->
  array_sub (N:=N) (fins a) (fins b) = fins (vadd (vscale (-1) b) a).
Proof.
  induction a as [|x a IH]; intros [|y b] E; try discriminate; [reflexivity|].
  cbn [fins map array_sub vadd vscale combine]. fold (fins a) (fins b).
  rewrite IH by (cbn in E; lia). cbn [fst snd map]. f_equal. cbn. f_equal; lra.
Qed.

Lemma add_arrays_fin a : forall b, add_arrays (N:=N) (fins a) (fins b) = fins (vadd a b).
Proof.
  induction a as [|x a IH]; intros [|y b]; cbn [fins map add_arrays vadd combine]; auto.
  fold (fins a) (fins b). rewrite IH. reflexivity.
Qed.
Lemma add_into_fin a : forall b, length a = length b ->
  add_into (N:=N) (fins a) (fins b) = fins (vadd a b).
Proof.
  induction a as [|x a IH]; intros [|y b] E; try discriminate; cbn [fins map add_into vadd combine]; auto.
  fold (fins a) (fins b). rewrite IH by (cbn in E; lia). reflexivity.
Qed.
Lemma vadd_length a b : length a = length b -> length (vadd a b) = length a.
Proof. intros E. unfold vadd. rewrite map_length, combine_length. lia. Qed.
Lemma vadd_nth a : forall b i, length a = length b -> nth i (vadd a b) 0 = nth i a 0 + nth i b 0.
Proof.
  induction a as [|x a IH]; intros [|y b] i E; try discriminate; [destruct i; cbn; lra|].
  destruct i as [|i]; cbn; [reflexivity|]. apply IH. cbn in E; lia.
Qed.
Lemma repeat_fins n : repeat (n0 : N) n = fins (repeat 0 n).
Proof. rewrite x_n0. unfold fins. induction n as [|n IH]; [reflexivity|]. cbn [repeat map]. f_equal. exact IH. Qed.

Lemma sum_gen (rows : list (list R)) n : forall acc,
  (forall r, In r rows -> length r = n) -> length acc = n ->
  exists out, fold_left (add_into (N:=N)) (map fins rows) (fins acc) = fins out /\
    fold_left (add_arrays (N:=N)) (map fins rows) (fins acc) = fins out /\
    length out = n /\ forall i, nth i out 0 = nth i acc 0 + column_sum i rows.
Proof.
  induction rows as [|r rows IH]; intros acc H E; cbn [map fold_left].
  - exists acc. split; [reflexivity|]. split; [reflexivity|]. split; [exact E|].
    intros i. unfold column_sum; cbn. lra.
  - assert (Hr : length r = n) by (apply H; now left).
    rewrite add_into_fin by congruence. rewrite add_arrays_fin.
    destruct (IH (vadd acc r)) as (out & A & B & C & D).
    + intros r' I; apply H; now right.
    + rewrite vadd_length; congruence.
    + exists out. split; [exact A|]. split; [exact B|]. split; [exact C|].
      intros i. rewrite D, vadd_nth by congruence.
      change (column_sum i (r :: rows)) with (nth i r 0 + column_sum i rows). lra.
Qed.
Lemma sums_componentwise n (rows : list (list R)) : (forall r, In r rows -> length r = n) ->
  exists out, sum_sufficient_stats (N:=N) n (map fins rows) = fins out /\
    sum_arrays (N:=N) n (map fins rows) = fins out /\
    length out = n /\ forall i, nth i out 0 = column_sum i rows.
Proof.
  intros H. unfold sum_sufficient_stats, sum_arrays, default_array. rewrite repeat_fins.
  destruct (sum_gen rows n (repeat 0 n) H (repeat_length _ _)) as (out & A & B & C & D).
  exists out. split; [exact A|]. split; [exact B|]. split; [exact C|].
  intros i. rewrite D. assert (Z : nth i (repeat 0 n) 0 = 0) by apply nth_repeat. lra.
Qed.
End DotP.

Section DecP2.
Context (lg : R -> R).
Notation N := (XR lg).
Context {X Theta : Type}.
Lemma partials_gen (ts : list (term N X Theta)) x th : forall d : Decomp N X Theta,
  let d' := fold_left d_add ts d in
  evaluate_data_terms d' x = xadd (evaluate_data_terms d x) (xsum (map (data_part x) ts)) /\
  evaluate_param_terms d' th = xadd (evaluate_param_terms d th) (xsum (map (param_part th) ts)) /\
  mixed_sum d' x th = xadd (mixed_sum d x th) (xsum (map (mixed_part x th) ts)) /\
  constant_sum d' = xadd (constant_sum d) (xsum (map const_part ts)).
Proof.
  induction ts as [|t ts IH]; intros d; cbn [fold_left map].
  - cbv zeta. change (xsum []) with (Fin 0). rewrite !xadd_0_r. auto.
  - cbv zeta in IH. destruct (IH (d_add d t)) as (A & B & C & D). cbv zeta. rewrite A, B, C, D. clear.
    repeat match goal with |- context [xsum (?a :: ?l)] => change (xsum (a :: l)) with (xadd a (xsum l)) end.
    rewrite <- !xadd_assoc.
    unfold evaluate_data_terms, evaluate_param_terms, mixed_sum, constant_sum. rewrite !fold_sum_xsum.
    destruct t; cbn [data_part param_part mixed_part const_part];
      cbn [d_add data_terms param_terms mixed_terms constant_terms];
      rewrite ?map_app, ?xsum_app; rewrite ?xadd_0_r;
      cbn [map xsum fold_right]; rewrite ?xadd_0_r; auto.
Qed.
Lemma partials (ts : list (term N X Theta)) x th :
  let d := build ts in
  d_evaluate d x th =
    xsum [evaluate_data_terms d x; evaluate_param_terms d th; mixed_sum d x th; constant_sum d] /\
  evaluate_data_terms d x = xsum (map (data_part x) ts) /\
  evaluate_param_terms d th = xsum (map (param_part th) ts) /\
  mixed_sum d x th = xsum (map (mixed_part x th) ts) /\
  constant_sum d = xsum (map const_part ts).
Proof.
  cbv zeta. split.
  - unfold d_evaluate. cbn [xsum fold_right nadd XR]. rewrite xadd_0_r, !xadd_assoc. reflexivity.
  - destruct (partials_gen ts x th d_new) as (A & B & C & D). unfold build. rewrite A, B, C, D.
    unfold evaluate_data_terms, evaluate_param_terms, mixed_sum, constant_sum. rewrite !fold_sum_xsum.
    cbn [d_new data_terms param_terms mixed_terms constant_terms map].
    change (xsum []) with (Fin 0). rewrite !xadd_0_l. auto.
Qed.
End DecP2.

Lemma halfsq_deriv : derivable_pt_lim (fun x => - (x * x) / 2) 4 (-4).
Proof.
  assert (H : derivable_pt_lim (fun x => (- (1/2)) * (x * x)) 4 (- (1/2) * (1 * 4 + 4 * 1))).
  { apply (derivable_pt_lim_scal (fun x => x * x)). apply (derivable_pt_lim_mult id id); apply derivable_pt_lim_id. }
  replace (-4) with (- (1/2) * (1 * 4 + 4 * 1)) by lra.
  intros eps E. destruct (H eps E) as [d Q]. exists d. intros h A B.
  specialize (Q h A B). replace (- ((4 + h) * (4 + h)) / 2 - - (4 * 4) / 2) with (- (1 / 2) * ((4 + h) * (4 + h)) - - (1 / 2) * (4 * 4)) by lra. exact Q.
Qed.
