(** Positive definite matrices: positive determinant and an inverse (C75). *)
From Coq Require Import Reals List Bool Lra Lia Arith.
From Verif Require Import Num CoreSpec MvnModel MvnSpec MvnProofs.
Local Open Scope R_scope.

(** * Columns *)
Definition setc (c : nat) (u : nat -> R) (M : nat -> nat -> R) (i k : nat) : R := if Nat.eqb k c then u i else M i k.
Lemma minor_setc_same n c u M i k : (i < n)%nat -> (k < n)%nat -> minor c (setc c u M) i k = minor c M i k.
Proof. intros _ _. unfold minor, setc. destruct (Nat.ltb_spec k c); [rewrite (proj2 (Nat.eqb_neq k c)) by lia|rewrite (proj2 (Nat.eqb_neq (S k) c)) by lia]; reflexivity. Qed.
Definition below (j c : nat) : nat := if Nat.ltb c j then c else pred c.
Lemma minor_setc_other n j c u M i k : j <> c -> (i < n)%nat -> (k < n)%nat ->
  minor j (setc c u M) i k = setc (below j c) (fun i => u (S i)) (minor j M) i k.
Proof.
  intros D _ _. unfold minor, setc, below.
  destruct (Nat.ltb_spec k j), (Nat.ltb_spec c j).
  - reflexivity.
  - rewrite (proj2 (Nat.eqb_neq k c)), (proj2 (Nat.eqb_neq k (pred c))) by lia. destruct (Nat.ltb_spec k j); [reflexivity|lia].
  - rewrite (proj2 (Nat.eqb_neq (S k) c)), (proj2 (Nat.eqb_neq k c)) by lia. destruct (Nat.ltb_spec k j); [lia|reflexivity].
  - destruct (Nat.eqb_spec (S k) c), (Nat.eqb_spec k (pred c)); try lia; reflexivity.
Qed.
Lemma rdet_lin n : forall c a b u v M, (c < n)%nat ->
  rdet n (setc c (fun i => a * u i + b * v i) M) = a * rdet n (setc c u M) + b * rdet n (setc c v M).
Proof.
  induction n as [|n IH]; intros c a b u v M C; [lia|]. cbn [rdet].
  rewrite <- !sumn_scal, <- sumn_plus. apply sumn_ext. intros j J.
  destruct (Nat.eq_dec j c) as [->|D].
  - assert (E : forall w, rdet n (minor c (setc c w M)) = rdet n (minor c M)) by (intros w; apply rdet_ext; intros; apply (minor_setc_same n); assumption).
    rewrite !E. unfold setc. rewrite Nat.eqb_refl. ring.
  - assert (E : forall w, rdet n (minor j (setc c w M)) = rdet n (setc (below j c) (fun i => w (S i)) (minor j M)))
      by (intros w; apply rdet_ext; intros; apply (minor_setc_other n); assumption).
    rewrite !E. rewrite (IH (below j c) a b (fun i => u (S i)) (fun i => v (S i))).
    2:{ unfold below. destruct (Nat.ltb_spec c j); lia. }
    assert (F : forall w, setc c w M 0%nat j = M 0%nat j) by (intros w; unfold setc; rewrite (proj2 (Nat.eqb_neq j c)) by exact D; reflexivity).
    rewrite !F. ring.
Qed.
Lemma rdet_adjacent n : forall c M, (S c < n)%nat -> (forall i, (i < n)%nat -> M i c = M i (S c)) -> rdet n M = 0.
Proof.
  induction n as [|n IH]; intros c M C E; [lia|]. cbn [rdet].
  set (f := fun j => (-1) ^ j * M 0%nat j * rdet n (minor j M)).
  assert (Z : forall j, (j < S n)%nat -> j <> c -> j <> S c -> f j = 0).
  { intros j J J1 J2. unfold f. assert (Q : rdet n (minor j M) = 0); [|rewrite Q; ring].
    apply (IH (below j c)).
    - unfold below. destruct (Nat.ltb_spec c j); lia.
    - intros i I. unfold minor, below. destruct (Nat.ltb_spec c j) as [H|H].
      + destruct (Nat.ltb_spec c j); [|lia]. destruct (Nat.ltb_spec (S c) j); [|lia]. apply E. lia.
      + destruct (Nat.ltb_spec (pred c) j); [lia|]. destruct (Nat.ltb_spec (S (pred c)) j); [lia|].
        replace (S (pred c)) with c by lia. apply E. lia. }
  assert (P : f c + f (S c) = 0).
  { unfold f. rewrite (rdet_ext n (minor (S c) M) (minor c M)).
    - rewrite (E 0%nat) by lia. cbn [pow]. ring.
    - intros i k I K. unfold minor. destruct (Nat.ltb_spec k (S c)), (Nat.ltb_spec k c); try reflexivity; try lia.
      replace k with c by lia. apply E. lia. }
  assert (G : forall m, (m <= S n)%nat -> sumn m f = if Nat.ltb (S c) m then f c + f (S c) else if Nat.ltb c m then f c else 0).
  { induction m as [|m IHm]; intros Hm; [reflexivity|]. cbn [sumn]. rewrite IHm by lia.
    destruct (Nat.ltb_spec (S c) m), (Nat.ltb_spec (S c) (S m)), (Nat.ltb_spec c m), (Nat.ltb_spec c (S m)); try lia.
    - rewrite (Z m) by lia. ring.
    - replace m with (S c) by lia. ring.
    - replace m with c by lia. ring.
    - rewrite (Z m) by lia. ring. }
  rewrite G by lia. destruct (Nat.ltb_spec (S c) (S n)); [exact P|lia].
Qed.
Lemma setc_id n c M i k : (i < n)%nat -> (k < n)%nat -> setc c (fun i => M i c) M i k = M i k.
Proof. intros _ _. unfold setc. destruct (Nat.eqb_spec k c) as [->|]; reflexivity. Qed.
(** Exchanging two adjacent columns changes the sign. *)
Lemma rdet_swap n c u v M : (S c < n)%nat -> rdet n (setc c u (setc (S c) v M)) = - rdet n (setc c v (setc (S c) u M)).
Proof.
  intros C.
  assert (Z : forall w, rdet n (setc c w (setc (S c) w M)) = 0).
  { intros w. apply (rdet_adjacent n c); [exact C|]. intros i _. unfold setc. rewrite !Nat.eqb_refl, (proj2 (Nat.eqb_neq (S c) c)) by lia. reflexivity. }
  assert (A : forall w z t, rdet n (setc c w (setc (S c) (fun i => 1 * z i + 1 * t i) M)) =
              rdet n (setc c w (setc (S c) z M)) + rdet n (setc c w (setc (S c) t M))).
  { intros w z t.
    assert (K : forall y, rdet n (setc c w (setc (S c) y M)) = rdet n (setc (S c) y (setc c w M))).
    { intros y. apply rdet_ext. intros i k _ _. unfold setc. destruct (Nat.eqb_spec k c), (Nat.eqb_spec k (S c)); try reflexivity; lia. }
    rewrite !K, rdet_lin by lia. ring. }
  pose proof (Z (fun i => 1 * u i + 1 * v i)) as H. rewrite rdet_lin in H by lia. rewrite !A, !Z in H. lra.
Qed.
Lemma rdet_first_equal n : forall c M, (0 < c < n)%nat -> (forall i, (i < n)%nat -> M i 0%nat = M i c) -> rdet n M = 0.
Proof.
  induction c as [|c IH]; intros M C E; [lia|]. destruct (Nat.eq_dec c 0) as [->|D].
  - apply (rdet_adjacent n 0%nat); [lia|exact E].
  - rewrite (rdet_ext n M (setc c (fun i => M i c) (setc (S c) (fun i => M i (S c)) M))).
    2:{ intros i k _ _. unfold setc. destruct (Nat.eqb_spec k c) as [->|]; [reflexivity|]. destruct (Nat.eqb_spec k (S c)) as [->|]; reflexivity. }
    rewrite rdet_swap by lia. rewrite IH; [ring|lia|].
    intros i I. unfold setc. rewrite (proj2 (Nat.eqb_neq 0 c)), (proj2 (Nat.eqb_neq 0 (S c))), Nat.eqb_refl by lia. apply E, I.
Qed.
(** Subtracting multiples of the first column from the others. *)
Lemma rdet_clear n q M : forall m, (m < n)%nat ->
  rdet n (fun i k => if Nat.eqb k 0 then M i k else if Nat.leb k m then M i k - q k * M i 0%nat else M i k) = rdet n M.
Proof.
  induction m as [|m IH]; intros H.
  - apply rdet_ext. intros i k _ _. destruct (Nat.eqb_spec k 0); [reflexivity|]. destruct (Nat.leb_spec k 0); [lia|reflexivity].
  - rewrite <- IH by lia.
    set (W := fun i k => if Nat.eqb k 0 then M i k else if Nat.leb k m then M i k - q k * M i 0%nat else M i k).
    rewrite (rdet_ext n _ (setc (S m) (fun i => 1 * W i (S m) + (- q (S m)) * W i 0%nat) W)).
    2:{ intros i k _ _. unfold setc, W. destruct (Nat.eqb_spec k (S m)) as [->|].
        - cbn [Nat.eqb]. rewrite (proj2 (Nat.leb_le (S m) (S m))), (proj2 (Nat.leb_gt (S m) m)) by lia. ring.
        - destruct (Nat.eqb_spec k 0); [reflexivity|]. destruct (Nat.leb_spec k (S m)), (Nat.leb_spec k m); try reflexivity; lia. }
    rewrite rdet_lin by exact H. rewrite (rdet_ext n (setc (S m) (fun i => W i (S m)) W) W) by (intros; apply (setc_id n); assumption).
    rewrite (rdet_first_equal n (S m) (setc (S m) (fun i => W i 0%nat) W)); [ring|lia|].
    intros i _. unfold setc. rewrite Nat.eqb_refl. reflexivity.
Qed.

(** * The Schur complement of the first entry *)
Definition schur (M : nat -> nat -> R) (i j : nat) : R := M (S i) (S j) - M 0%nat (S j) / M 0%nat 0%nat * M (S i) 0%nat.
Lemma rdet_schur n M : M 0%nat 0%nat <> 0 -> rdet (S n) M = M 0%nat 0%nat * rdet n (schur M).
Proof.
  intros A. rewrite <- (rdet_clear (S n) (fun k => M 0%nat k / M 0%nat 0%nat) M n) by lia. cbn [rdet]. rewrite sumn_first, sumn_zero.
  - cbn [Nat.eqb pow]. rewrite (rdet_ext n _ (schur M)); [ring|].
    intros i j _ J. unfold minor, schur. destruct (Nat.ltb_spec j 0); [lia|]. destruct (Nat.eqb_spec (S j) 0); [lia|].
    destruct (Nat.leb_spec (S j) n); [|lia]. reflexivity.
  - intros i I. destruct (Nat.eqb_spec (S i) 0); [lia|]. destruct (Nat.leb_spec (S i) n); [|lia].
    replace (M 0%nat (S i) - M 0%nat (S i) / M 0%nat 0%nat * M 0%nat 0%nat) with 0 by (field; exact A). ring.
Qed.
Lemma quad_S n M v : quad (S n) M v =
  v 0%nat * M 0%nat 0%nat * v 0%nat + v 0%nat * sumn n (fun j => M 0%nat (S j) * v (S j)) +
  sumn n (fun i => M (S i) 0%nat * v (S i)) * v 0%nat + quad n (fun i j => M (S i) (S j)) (fun i => v (S i)).
Proof.
  unfold quad. rewrite sumn_first, sumn_first.
  rewrite (sumn_ext n (fun i => sumn (S n) (fun j => v (S i) * M (S i) j * v j))
             (fun i => M (S i) 0%nat * v (S i) * v 0%nat + sumn n (fun j => v (S i) * M (S i) (S j) * v (S j)))).
  2:{ intros i _. rewrite sumn_first. ring. }
  rewrite sumn_plus, sumn_scal_r. rewrite (sumn_ext n (fun i => v 0%nat * M 0%nat (S i) * v (S i)) (fun i => v 0%nat * (M 0%nat (S i) * v (S i)))) by (intros; ring).
  rewrite sumn_scal. ring.
Qed.
Lemma pd_first n M : positive_definite (S n) M -> 0 < M 0%nat 0%nat.
Proof.
  intros [_ H]. pose proof (H (fun i => delta i 0)) as Q. rewrite quad_S in Q.
  rewrite (sumn_zero n (fun j => M 0%nat (S j) * delta (S j) 0)), (sumn_zero n (fun j => M (S j) 0%nat * delta (S j) 0)) in Q by (intros; unfold delta; cbn; ring).
  unfold quad in Q. rewrite (sumn_zero n (fun i => sumn n _)) in Q by (intros; apply sumn_zero; intros; unfold delta; cbn; ring).
  unfold delta in Q. cbn in Q. assert (0 < M 0%nat 0%nat * 1 + 0); [|lra].
  assert (E : exists i, (i < S n)%nat /\ (if Nat.eqb i 0 then 1 else 0) <> 0) by (exists 0%nat; split; [lia|cbn; lra]).
  specialize (Q E). lra.
Qed.
Lemma pd_schur n M : positive_definite (S n) M -> positive_definite n (schur M).
Proof.
  intros H. pose proof (pd_first n M H) as A. destruct H as [S H]. split.
  - intros i j I J. unfold schur. rewrite (S (Datatypes.S i) (Datatypes.S j)), (S 0%nat (Datatypes.S j)), (S (Datatypes.S i) 0%nat) by lia. field. lra.
  - intros v (i0 & I0 & V0).
    set (b := sumn n (fun j => M 0%nat (Datatypes.S j) * v j)).
    set (w := fun i => match i with O => - (b / M 0%nat 0%nat) | Datatypes.S k => v k end).
    pose proof (H w (ex_intro _ (Datatypes.S i0) (conj (proj1 (Nat.succ_lt_mono _ _) I0) V0))) as Q.
    rewrite quad_S in Q. cbn [w] in Q. fold b in Q.
    rewrite (sumn_ext n (fun i => M (Datatypes.S i) 0%nat * v i) (fun j => M 0%nat (Datatypes.S j) * v j)) in Q by (intros; rewrite S by lia; reflexivity).
    fold b in Q.
    assert (E : quad n (schur M) v = quad n (fun i j => M (Datatypes.S i) (Datatypes.S j)) v - b * b / M 0%nat 0%nat).
    { unfold quad, schur.
      rewrite (sumn_ext n _ (fun i => sumn n (fun j => v i * M (Datatypes.S i) (Datatypes.S j) * v j) + (- (b / M 0%nat 0%nat)) * (M 0%nat (Datatypes.S i) * v i))).
      - rewrite sumn_plus, sumn_scal. fold b. field. lra.
      - intros i I.
        rewrite (sumn_ext n _ (fun j => v i * M (Datatypes.S i) (Datatypes.S j) * v j + (- (v i * M (Datatypes.S i) 0%nat / M 0%nat 0%nat)) * (M 0%nat (Datatypes.S j) * v j))).
        + rewrite sumn_plus, sumn_scal. fold b. rewrite (S (Datatypes.S i) 0%nat) by lia. field. lra.
        + intros j J. field. lra. }
    rewrite E. replace (quad n (fun i j => M (Datatypes.S i) (Datatypes.S j)) v - b * b / M 0%nat 0%nat)
      with (- (b / M 0%nat 0%nat) * M 0%nat 0%nat * - (b / M 0%nat 0%nat) + - (b / M 0%nat 0%nat) * b + b * - (b / M 0%nat 0%nat) +
            quad n (fun i j => M (Datatypes.S i) (Datatypes.S j)) v) by (field; lra).
    exact Q.
Qed.
Lemma pd_determinant n : forall M, positive_definite n M -> 0 < rdet n M.
Proof.
  induction n as [|n IH]; intros M H; [cbn; lra|]. pose proof (pd_first n M H) as A. rewrite rdet_schur by lra.
  apply Rmult_lt_0_compat; [exact A|]. apply IH, pd_schur, H.
Qed.

(** * The inverse *)
Definition block (M Q : nat -> nat -> R) (n i j : nat) : R :=
  let a := M 0%nat 0%nat in
  match i, j with
  | O, O => / a + sumn n (fun k => M 0%nat (S k) * sumn n (fun l => Q k l * M (S l) 0%nat)) / (a * a)
  | O, S j => - (sumn n (fun k => M 0%nat (S k) * Q k j) / a)
  | S i, O => - (sumn n (fun l => Q i l * M (S l) 0%nat) / a)
  | S i, S j => Q i j
  end.
Lemma block_right n M Q : M 0%nat 0%nat <> 0 -> is_inverse n (schur M) Q ->
  forall i j, (i < S n)%nat -> (j < S n)%nat -> sumn (S n) (fun k => M i k * block M Q n k j) = delta i j.
Proof.
  intros A H i j I J. set (a := M 0%nat 0%nat) in *. rewrite sumn_first.
  set (qc := fun k => sumn n (fun l => Q k l * M (S l) 0%nat)).
  assert (SQ : forall i' j', (i' < n)%nat -> (j' < n)%nat -> sumn n (fun k => M (S i') (S k) * Q k j') =
            delta i' j' + M (S i') 0%nat / a * sumn n (fun k => M 0%nat (S k) * Q k j')).
  { intros i' j' I' J'. destruct (H i' j' I' J') as [<- _]. rewrite <- sumn_scal, <- sumn_plus. apply sumn_ext. intros k _. unfold schur. fold a. field. exact A. }
  assert (SC : forall i', (i' < n)%nat -> sumn n (fun k => M (S i') (S k) * qc k) =
            M (S i') 0%nat + M (S i') 0%nat / a * sumn n (fun k => M 0%nat (S k) * qc k)).
  { intros i' I'.
    assert (W : forall g, sumn n (fun k => g k * qc k) = sumn n (fun l => sumn n (fun k => g k * Q k l) * M (S l) 0%nat)).
    { intros g. unfold qc. rewrite (sumn_ext n _ (fun k => sumn n (fun l => g k * Q k l * M (S l) 0%nat))).
      - rewrite sumn_swap. apply sumn_ext. intros l _. apply sumn_scal_r.
      - intros k _. rewrite <- sumn_scal. apply sumn_ext. intros; ring. }
    rewrite (W (fun k => M (S i') (S k))), (W (fun k => M 0%nat (S k))).
    rewrite (sumn_ext n _ (fun l => delta i' l * M (S l) 0%nat + M (S i') 0%nat / a * (sumn n (fun k => M 0%nat (S k) * Q k l) * M (S l) 0%nat))).
    - rewrite sumn_plus, sumn_scal, (sumn_delta_l n i' (fun l => M (S l) 0%nat)) by exact I'. reflexivity.
    - intros l L. rewrite SQ by assumption. ring. }
  destruct i as [|i], j as [|j]; cbn [block].
  - rewrite (sumn_ext n (fun k => M 0%nat (S k) * - (sumn n (fun l => Q k l * M (S l) 0%nat) / M 0%nat 0%nat)) (fun k => (- / a) * (M 0%nat (S k) * qc k)))
      by (intros; unfold qc; fold a; field; exact A).
    rewrite sumn_scal. fold a. change (delta 0 0) with 1.
    change (sumn n (fun k => M 0%nat (S k) * sumn n (fun l => Q k l * M (S l) 0%nat))) with (sumn n (fun k => M 0%nat (S k) * qc k)). field. exact A.
  - fold a. change (delta 0 (S j)) with 0. field. exact A.
  - rewrite (sumn_ext n (fun k => M (S i) (S k) * - (sumn n (fun l => Q k l * M (S l) 0%nat) / M 0%nat 0%nat)) (fun k => (- / a) * (M (S i) (S k) * qc k)))
      by (intros; unfold qc; fold a; field; exact A).
    rewrite sumn_scal, SC by lia. fold a. change (delta (S i) 0) with 0.
    change (sumn n (fun k => M 0%nat (S k) * sumn n (fun l => Q k l * M (S l) 0%nat))) with (sumn n (fun k => M 0%nat (S k) * qc k)). field. exact A.
  - rewrite SQ by lia. fold a. change (delta (S i) (S j)) with (delta i j). field. exact A.
Qed.
Lemma pd_inverse n : forall M, positive_definite n M -> exists P, is_inverse n M P.
Proof.
  induction n as [|n IH]; intros M H; [exists M; intros i j I; lia|].
  pose proof (pd_first n M H) as A. destruct (IH (schur M) (pd_schur n M H)) as [Q HQ].
  pose proof (inverse_sym n (schur M) Q (proj1 (pd_schur n M H)) HQ) as SQ. destruct H as [SM _].
  exists (block M Q n). pose proof (block_right n M Q (Rgt_not_eq _ _ A) HQ) as RI.
  assert (SB : symmetric (S n) (block M Q n)).
  { assert (B : forall j, (j < n)%nat -> sumn n (fun k => M 0%nat (S k) * Q k j) = sumn n (fun l => Q j l * M (S l) 0%nat)).
    { intros j J. apply sumn_ext. intros k K. rewrite (SM 0%nat (S k)), (SQ k j) by lia. ring. }
    intros [|i] [|j] I J; cbn [block]; [reflexivity|rewrite B by lia; reflexivity|rewrite B by lia; reflexivity|apply SQ; lia]. }
  intros i j I J. split; [apply RI; assumption|]. rewrite delta_sym, <- (RI j i J I). apply sumn_ext. intros k K.
  rewrite (SB i k), (SM k j) by assumption. ring.
Qed.
(** The inverse of a positive definite matrix is positive definite. *)
Lemma pd_of_inverse n M P : positive_definite n M -> is_inverse n M P -> positive_definite n P.
Proof.
  intros [SM H] HP. split; [apply (inverse_sym n M P SM HP)|]. intros v (i0 & I0 & V0).
  set (w := fun i => sumn n (fun j => P i j * v j)).
  assert (E : forall i, (i < n)%nat -> sumn n (fun k => M i k * w k) = v i).
  { intros i I. unfold w. rewrite (sumn_ext n _ (fun k => sumn n (fun j => M i k * P k j * v j))).
    - rewrite sumn_swap, (sumn_ext n _ (fun j => delta i j * v j)); [apply sumn_delta_l, I|].
      intros j J. rewrite sumn_scal_r. destruct (HP i j I J) as [-> _]. reflexivity.
    - intros k _. rewrite <- sumn_scal. apply sumn_ext. intros; ring. }
  assert (Q : quad n P v = quad n M w).
  { unfold quad. rewrite (sumn_ext n _ (fun i => v i * w i)).
    - rewrite (sumn_ext n (fun i => sumn n (fun j => w i * M i j * w j)) (fun i => v i * w i)); [reflexivity|].
      intros i I. rewrite <- (E i I) at 1. rewrite <- sumn_scal_r. apply sumn_ext. intros; ring.
    - intros i _. unfold w. rewrite <- sumn_scal. apply sumn_ext. intros; ring. }
  rewrite Q. apply H.
  assert (D : forall m, (m <= n)%nat -> (forall i, (i < m)%nat -> w i = 0) \/ exists i, (i < m)%nat /\ w i <> 0).
  { induction m as [|m IHm]; intros L; [left; intros; lia|]. destruct IHm as [Z|(i & I & W)]; [lia| |right; exists i; split; [lia|exact W]].
    destruct (Req_dec (w m) 0) as [W|W]; [|right; exists m; split; [lia|exact W]].
    left. intros i I. destruct (Nat.eq_dec i m) as [->|]; [exact W|apply Z; lia]. }
  destruct (D n (le_n n)) as [Z|X]; [|exact X]. exfalso. apply V0. rewrite <- (E i0 I0). apply sumn_zero. intros k K. rewrite (Z k K). ring.
Qed.

Section Densities.
Context {lg : R -> R}.
Notation X := (XR lg).
Context (inv : DMat X -> option (DMat X)) (det : DMat X -> X).
Lemma density_pd n mu V M A : inverts inv n M -> determines det n M -> vec_is n mu V -> mat_is n M A -> positive_definite n M ->
  exists d P, mvn_new inv det V A = Some d /\ is_inverse n M P /\ 0 < rdet n M /\
    forall x Xv, vec_is n x Xv -> mvn_density d Xv = Some (Fin (ln (mvn_pdf n mu P (rdet n M) x))).
Proof.
  intros HI HD HV HA H. destruct (pd_inverse n M H) as [P HP]. pose proof (pd_determinant n M H) as D.
  destruct (proj2 (new_iff lg inv det n n mu V M A HI HV HA)) as [d E]; [split; [reflexivity|exists P; exact HP]|].
  exists d, P. split; [exact E|]. split; [exact HP|]. split; [exact D|]. intros x Xv HX.
  apply (density lg inv det n mu V M A d P x Xv); try assumption. apply H.
Qed.
Lemma mode_pd n mu M P D x : positive_definite n M -> is_inverse n M P -> 0 < D -> (exists i, (i < n)%nat /\ x i <> mu i) ->
  ln (mvn_pdf n mu P D x) < ln (mvn_pdf n mu P D mu).
Proof.
  intros H HP HD (i & I & E). destruct (pd_of_inverse n M P H HP) as [_ Q].
  assert (G : 0 < sqrt ((2 * PI) ^ n * D)).
  { apply sqrt_lt_R0, Rmult_lt_0_compat; [apply pow_lt; pose proof PI_RGT_0; lra|exact HD]. }
  apply ln_increasing; unfold mvn_pdf; [apply Rdiv_lt_0_compat; [apply exp_pos|exact G]|].
  apply Rmult_lt_compat_r; [apply Rinv_0_lt_compat, G|]. apply exp_increasing.
  assert (Z : quad n P (fun i => mu i - mu i) = 0).
  { unfold quad. apply sumn_zero. intros; apply sumn_zero; intros. ring. }
  rewrite Z. pose proof (Q (fun i => x i - mu i)) as K. assert (0 < quad n P (fun i => x i - mu i)); [|lra].
  apply K. exists i. split; [exact I|]. lra.
Qed.
Lemma mode_density n mu V M A d x Xv : inverts inv n M -> determines det n M -> vec_is n mu V -> mat_is n M A -> positive_definite n M ->
  mvn_new inv det V A = Some d -> vec_is n x Xv -> (exists i, (i < n)%nat /\ x i <> mu i) ->
  exists a b, mvn_density d Xv = Some (Fin a) /\ mvn_density d V = Some (Fin b) /\ a < b.
Proof.
  intros HI HD HV HA H E HX N. destruct (density_pd n mu V M A HI HD HV HA H) as (d' & P & E' & HP & D & F).
  rewrite E in E'. injection E' as <-. exists (ln (mvn_pdf n mu P (rdet n M) x)), (ln (mvn_pdf n mu P (rdet n M) mu)).
  split; [apply F, HX|]. split; [apply F, HV|]. apply (mode_pd n mu M P); assumption.
Qed.
End Densities.
