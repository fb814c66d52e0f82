(** Dual numbers carry derivatives through the generic code (C64). *)
From Coquelicot Require Import Coquelicot.
From Coq Require Import ZArith Reals List Bool Lra Lia Arith.
From Verif Require Import Num XRFacts DensitySpec BuilderProofs CoreModel CoreProofs CombModel ExpFamModel DistModel DistSpec DistFacts DistProofs
  TaglessModel TaglessSpec DualModel DualSpec.
Import ListNotations.
Local Open Scope R_scope.
Local Open Scope list_scope.

Lemma Req_b_f a b : a <> b -> Req_b a b = false.
Proof. apply Req_b_false. Qed.

Section Du.
Context (lg dg : R -> R).
Notation X := (XR lg).
Notation D := (Dual lg dg).

(** The dual number [d] has value [v] and follows the real computation [F]. *)
Definition tracks (F : R -> X) (t v : R) (d : D) : Prop :=
  exists (g : R -> R) l, locally t (fun u => F u = Fin (g u)) /\ g t = v /\ d = (Fin v, Fin l) /\ is_derive g t l.

Lemma track_var f t d : carries f t d -> tracks (fun u => Fin (f u)) t (f t) d.
Proof.
  intros (l & E & H). exists f, l. split; [|split; [reflexivity|split; [exact E|apply is_derive_Reals, H]]]. apply filter_forall. reflexivity.
Qed.
Lemma track_read F t v d f : tracks F t v d -> locally t (fun u => F u = Fin (f u)) -> carries f t d.
Proof.
  intros (g & l & L & V & E & H) L'. assert (Q : locally t (fun u => g u = f u)).
  { generalize (filter_and _ _ L L'). apply filter_imp. intros u [A B]. rewrite A in B. injection B as B. exact B. }
  exists l. split; [|apply is_derive_Reals; exact (is_derive_ext_loc g f t l Q H)].
  pose proof (locally_singleton _ _ Q) as S. cbn in S. rewrite <- S, V. exact E.
Qed.

(** ** Local sign *)
Lemma near f t d (P : R -> Prop) : carries f t d -> locally (f t) P -> locally t (fun u => P (f u)).
Proof.
  intros (l & _ & H) L. apply is_derive_Reals in H. pose proof (ex_derive_continuous f t (ex_intro _ l H)) as C. exact (C P L).
Qed.
Lemma near_pos f t d : carries f t d -> 0 < f t -> locally t (fun u => 0 < f u).
Proof. intros C P. apply (near f t d (fun y => 0 < y) C). apply (open_gt 0), P. Qed.
Lemma near_lt f t d b : carries f t d -> f t < b -> locally t (fun u => f u < b).
Proof. intros C P. apply (near f t d (fun y => y < b) C). apply (open_lt b), P. Qed.
Lemma near_neg f t d : carries f t d -> f t < 0 -> locally t (fun u => f u < 0).
Proof. intros C. apply (near_lt f t d 0 C). Qed.

(** ** One lemma per operation *)
Lemma track_lift (c : R) t : tracks (fun _ => Fin c) t c (Fin c, Fin 0).
Proof.
  exists (fun _ => c), 0. split; [apply filter_forall; reflexivity|split; [reflexivity|split; [reflexivity|]]]. apply (is_derive_const (K := R_AbsRing) (V := R_NormedModule)).
Qed.
Lemma track_dec m p t : tracks (fun _ => ndec m p) t (IZR m / IZR (Zpos p)) (ndec m p).
Proof. apply track_lift. Qed.
Lemma track_pi t : tracks (fun _ => npi) t PI npi.
Proof. apply track_lift. Qed.
Lemma track_int z t : tracks (fun _ => nint z) t (IZR z) (nint z).
Proof. replace (IZR z) with (IZR z / 1) by lra. apply track_dec. Qed.
Lemma track_ofn k t : tracks (fun _ => nofn k) t (INR k) (nofn k).
Proof. rewrite INR_IZR_INZ. apply track_int. Qed.

Lemma track_un (F : R -> X) t v d (op : xreal -> xreal) (f : R -> R) f' : tracks F t v d -> locally v (fun y => op (Fin y) = Fin (f y)) -> is_derive f v f' ->
  exists l, d = (Fin v, Fin l) /\ tracks (fun u => op (F u)) t (f v) (Fin (f v), Fin (l * f')).
Proof.
  intros (g & l & L & V & E & H) O Hf. exists l. split; [exact E|]. exists (fun u => f (g u)), (l * f'). subst v. split; [|split; [reflexivity|split; [reflexivity|]]].
  - pose proof (ex_derive_continuous g t (ex_intro _ l H)) as C. specialize (C _ O). unfold filtermap in C. generalize (filter_and _ _ L C). apply filter_imp. intros u [A B]. rewrite A. exact B.
  - exact (is_derive_comp f g t f' l Hf H).
Qed.
Ltac bin := intros (g & l & L & V & E & H) (g' & l' & L' & V' & E' & H'); subst.

Lemma track_add F G t v w d e : tracks F t v d -> tracks G t w e -> tracks (fun u => nadd (F u) (G u)) t (v + w) (nadd d e).
Proof.
  bin. exists (fun u => g u + g' u), (l + l'). split; [|split; [reflexivity|split; [reflexivity|]]].
  - generalize (filter_and _ _ L L'). apply filter_imp. intros u [A B]. rewrite A, B. reflexivity.
  - apply (is_derive_plus g g' t l l' H H').
Qed.
Lemma track_sub F G t v w d e : tracks F t v d -> tracks G t w e -> tracks (fun u => nsub (F u) (G u)) t (v - w) (nsub d e).
Proof.
  bin. exists (fun u => g u - g' u), (l - l'). split; [|split; [reflexivity|split; [reflexivity|]]].
  - generalize (filter_and _ _ L L'). apply filter_imp. intros u [A B]. rewrite A, B. reflexivity.
  - apply (is_derive_minus g g' t l l' H H').
Qed.
Lemma track_mul F G t v w d e : tracks F t v d -> tracks G t w e -> tracks (fun u => nmul (F u) (G u)) t (v * w) (nmul d e).
Proof.
  bin. exists (fun u => g u * g' u), (l * g' t + g t * l'). split; [|split; [reflexivity|split; [reflexivity|]]].
  - generalize (filter_and _ _ L L'). apply filter_imp. intros u [A B]. rewrite A, B. reflexivity.
  - apply (is_derive_mult (K := R_AbsRing) g g' t l l' H H'). intros a b. apply Rmult_comm.
Qed.
Lemma track_div F G t v w d e : tracks F t v d -> tracks G t w e -> w <> 0 -> tracks (fun u => ndiv (F u) (G u)) t (v / w) (ndiv d e).
Proof.
  bin. intros W. exists (fun u => g u / g' u), ((l * g' t - g t * l') / (g' t * g' t)).
  assert (Z : locally t (fun u => g' u <> 0)).
  { pose proof (ex_derive_continuous g' t (ex_intro _ l' H')) as C. apply (C (fun y => y <> 0)). apply (open_neq 0), W. }
  split; [|split; [reflexivity|split]].
  - generalize (filter_and _ _ (filter_and _ _ L L') Z). apply filter_imp. intros u [[A B] Q]. rewrite A, B. cbn. rewrite Req_b_f by exact Q. reflexivity.
  - cbn. unfold ddiv. cbn. rewrite !Req_b_f; [reflexivity| |exact W]. apply Rmult_integral_contrapositive_currified; exact W.
  - replace ((l * g' t - g t * l') / (g' t * g' t)) with ((l * g' t - g t * l') / g' t ^ 2) by (field; exact W). apply (is_derive_div g g' t l l' H H' W).
Qed.
Lemma track_neg F t v d : tracks F t v d -> tracks (fun u => nneg (F u)) t (- v) (nneg d).
Proof.
  intros H. destruct (track_un F t v d xneg (fun y => - y) (-1) H) as (l & E & T).
  - apply filter_forall. reflexivity.
  - auto_derive; [exact I|ring].
  - subst d. replace (@nneg D (Fin v, Fin l)) with ((Fin (- v), Fin (l * -1)) : D); [exact T|]. cbn. unfold dneg. cbn. do 2 f_equal. ring.
Qed.
Lemma track_ln F t v d : tracks F t v d -> 0 < v -> tracks (fun u => nln (F u)) t (ln v) (nln d).
Proof.
  intros H P. destruct (track_un F t v d xln ln (/ v) H) as (l & E & T).
  - apply filter_imp with (P := fun y => 0 < y); [|apply (open_gt 0), P]. intros y Y. cbn. rewrite Rltb_t by exact Y. reflexivity.
  - auto_derive; [exact P|]. field. lra.
  - subst d. replace (@nln D (Fin v, Fin l)) with ((Fin (ln v), Fin (l * / v)) : D); [exact T|]. cbn. unfold dln. cbn. rewrite Rltb_t by exact P. rewrite Req_b_f by lra. reflexivity.
Qed.
Lemma track_exp F t v d : tracks F t v d -> tracks (fun u => nexp (F u)) t (exp v) (nexp d).
Proof.
  intros H. destruct (track_un F t v d xexp exp (exp v) H) as (l & E & T).
  - apply filter_forall. reflexivity.
  - auto_derive; [exact I|ring].
  - subst d. exact T.
Qed.
Lemma track_sqrt F t v d : tracks F t v d -> 0 < v -> tracks (fun u => nsqrt (F u)) t (sqrt v) (nsqrt d).
Proof.
  intros H P. pose proof (sqrt_lt_R0 v P) as S. destruct (track_un F t v d xsqrt sqrt (/ (2 * sqrt v)) H) as (l & E & T).
  - apply filter_imp with (P := fun y => 0 < y); [|apply (open_gt 0), P]. intros y Y. cbn. rewrite Rltb_f by lra. reflexivity.
  - auto_derive; [exact P|]. field. lra.
  - subst d. replace (@nsqrt D (Fin v, Fin l)) with ((Fin (sqrt v), Fin (l * / (2 * sqrt v))) : D); [exact T|]. cbn. unfold dsqrt. cbn. rewrite Rltb_f by lra. cbn. rewrite Req_b_f by lra. reflexivity.
Qed.
Lemma track_sin F t v d : tracks F t v d -> tracks (fun u => nsin (F u)) t (sin v) (nsin d).
Proof.
  intros H. destruct (track_un F t v d (xtrig sin) sin (cos v) H) as (l & E & T).
  - apply filter_forall. reflexivity.
  - auto_derive; [exact I|ring].
  - subst d. exact T.
Qed.
Lemma track_cos F t v d : tracks F t v d -> tracks (fun u => ncos (F u)) t (cos v) (ncos d).
Proof.
  intros H. destruct (track_un F t v d (xtrig cos) cos (- sin v) H) as (l & E & T).
  - apply filter_forall. reflexivity.
  - auto_derive; [exact I|ring].
  - subst d. replace (@ncos D (Fin v, Fin l)) with ((Fin (cos v), Fin (l * - sin v)) : D); [exact T|]. cbn. unfold dcos. cbn. do 2 f_equal. ring.
Qed.
Lemma track_abs F t v d : tracks F t v d -> v <> 0 -> tracks (fun u => nabs (F u)) t (Rabs v) (nabs d).
Proof.
  intros H N. destruct (Rlt_or_le v 0) as [P|P].
  - destruct (track_un F t v d xabs Rabs (-1) H) as (l & E & T).
    + apply filter_forall. reflexivity.
    + apply is_derive_ext_loc with (f := fun y => - y); [|auto_derive; [exact I|ring]]. apply filter_imp with (P := fun y => y < 0); [|apply (open_lt 0), P]. intros y Y. cbn. rewrite Rabs_left by exact Y. reflexivity.
    + subst d. replace (@nabs D (Fin v, Fin l)) with ((Fin (Rabs v), Fin (l * -1)) : D); [exact T|]. cbn. unfold dabs. cbn. rewrite Rltb_t by exact P. cbn. do 2 f_equal. ring.
  - destruct (track_un F t v d xabs Rabs 1 H) as (l & E & T).
    + apply filter_forall. reflexivity.
    + apply is_derive_ext_loc with (f := fun y => y); [|auto_derive; [exact I|ring]]. apply filter_imp with (P := fun y => 0 < y); [|apply (open_gt 0); lra]. intros y Y. cbn. rewrite Rabs_pos_eq by lra. reflexivity.
    + subst d. replace (@nabs D (Fin v, Fin l)) with ((Fin (Rabs v), Fin (l * 1)) : D); [exact T|]. cbn. unfold dabs. cbn. rewrite Rltb_f by exact P. cbn. do 2 f_equal. ring.
Qed.
Lemma track_lgamma F t v d : digamma_of lg dg -> tracks F t v d -> 0 < v -> tracks (fun u => nlgamma (F u)) t (lg v) (nlgamma d).
Proof.
  intros DG H P. destruct (track_un F t v d (xlgamma lg) lg (dg v) H) as (l & E & T).
  - apply filter_forall. reflexivity.
  - apply is_derive_Reals, DG, P.
  - subst d. exact T.
Qed.
Lemma track_pow F G t v w d e : tracks F t v d -> tracks G t w e -> 0 < v -> tracks (fun u => npow (F u) (G u)) t (Rpower v w) (npow d e).
Proof.
  bin. intros P. exists (fun u => Rpower (g u) (g' u)), (Rpower (g t) (g' t) * (l' * ln (g t) + g' t * l / g t)).
  assert (Z : locally t (fun u => 0 < g u)).
  { pose proof (ex_derive_continuous g t (ex_intro _ l H)) as C. apply (C (fun y => 0 < y)). apply (open_gt 0), P. }
  assert (PF : forall b x, 0 < b -> xpow_fin b x = Fin (Rpower b x)).
  { intros b x B. unfold xpow_fin. destruct (Req_b x 0) eqn:Q; [|rewrite Rltb_t by exact B; reflexivity]. unfold Req_b in Q. destruct (Req_EM_T x 0) as [->|]; [|discriminate]. rewrite Rpower_O by exact B. reflexivity. }
  split; [|split; [reflexivity|split]].
  - generalize (filter_and _ _ (filter_and _ _ L L') Z). apply filter_imp. intros u [[A B] Q]. rewrite A, B. exact (PF _ _ Q).
  - cbn. unfold dpow. cbn. rewrite PF, Rltb_t by exact P. cbn. rewrite Req_b_f by lra. reflexivity.
  - unfold Rpower. apply is_derive_Reals in H. apply is_derive_Reals in H'. apply is_derive_Reals.
    replace (exp (g' t * ln (g t)) * (l' * ln (g t) + g' t * l / g t)) with (exp (g' t * ln (g t)) * (l' * ln (g t) + g' t * (/ g t * l))) by (field; lra).
    apply (derivable_pt_lim_comp (fun u => g' u * ln (g u)) exp); [|apply derivable_pt_lim_exp].
    apply (derivable_pt_lim_mult g' (fun u => ln (g u))); [exact H'|]. apply (derivable_pt_lim_comp g ln); [exact H|]. apply derivable_pt_lim_ln, P.
Qed.
Lemma track_loc F G t v d : tracks F t v d -> locally t (fun u => G u = F u) -> tracks G t v d.
Proof.
  intros (g & l & L & R) Q. exists g, l. split; [|exact R]. generalize (filter_and _ _ L Q). apply filter_imp. intros u [A B]. rewrite B. exact A.
Qed.
Lemma track_val F t v w d : tracks F t v d -> v = w -> tracks F t w d.
Proof. intros H <-. exact H. Qed.
Lemma track_fst F t v d : tracks F t v d -> fst d = Fin v.
Proof. intros (g & l & _ & _ & -> & _). reflexivity. Qed.

(** A sum over a list. *)
Lemma track_fold {A} (fx : A -> R -> X) (fd : A -> D) (fv : A -> R) t xs : (forall a, In a xs -> tracks (fx a) t (fv a) (fd a)) ->
  forall F v d, tracks F t v d -> exists w, tracks (fun u => fold_left (fun acc a => nadd acc (fx a u)) xs (F u)) t w (fold_left (fun acc a => nadd acc (fd a)) xs d).
Proof.
  induction xs as [|a xs IH]; intros H F v d T; cbn [fold_left]; [exists v; exact T|].
  apply (IH (fun b I => H b (or_intror I)) (fun u => nadd (F u) (fx a u)) (v + fv a)). apply track_add; [exact T|apply H; left; reflexivity].
Qed.

End Du.
