(** Dual numbers through generic programs, collections and mixtures (C64). *)
From Coquelicot Require Import Coquelicot.
From Coq Require Import ZArith Reals List Bool Lra Lia Arith.
From Verif Require Import Num XRFacts DensitySpec BuilderProofs CoreModel CoreSpec CoreProofs CombModel CombProofs ExpFamModel DistModel DistSpec DistFacts DistProofs
  DistProofs4 ExpFamSpec ExpFamProofs TaglessModel TaglessSpec TaglessProofs2 DualModel DualSpec DualProofs DualProofs2.
Import ListNotations.
Local Open Scope R_scope.
Local Open Scope list_scope.

Lemma F2_length {A B} (P : A -> B -> Prop) l m : Forall2 P l m -> length l = length m.
Proof. induction 1; cbn; congruence. Qed.

Section Du.
Context (lg dg : R -> R).
Notation X := (XR lg).
Notation D := (Dual lg dg).
Notation tracks := (tracks lg dg).

(** ** Operations on carried functions *)
Lemma c_ext f g t d : carries f t d -> (forall u, f u = g u) -> carries g t d.
Proof.
  intros (l & E & H) Q. exists l. rewrite <- Q. split; [exact E|]. apply is_derive_Reals. apply (is_derive_ext f); [exact Q|]. apply is_derive_Reals, H.
Qed.
Lemma c_const c t : carries (fun _ => c) t (Fin c, Fin 0).
Proof. exists 0. split; [reflexivity|apply derivable_pt_lim_const]. Qed.
Ltac rd H := eapply (track_read lg dg); [exact H|]; apply filter_forall; reflexivity.
Lemma c_add f g t (d e : D) : carries f t d -> carries g t e -> carries (fun u => f u + g u) t (nadd d e).
Proof. intros A B. rd (track_add lg dg _ _ _ _ _ _ _ (track_var lg dg _ _ _ A) (track_var lg dg _ _ _ B)). Qed.
Lemma c_sub f g t (d e : D) : carries f t d -> carries g t e -> carries (fun u => f u - g u) t (nsub d e).
Proof. intros A B. rd (track_sub lg dg _ _ _ _ _ _ _ (track_var lg dg _ _ _ A) (track_var lg dg _ _ _ B)). Qed.
Lemma c_mul f g t (d e : D) : carries f t d -> carries g t e -> carries (fun u => f u * g u) t (nmul d e).
Proof. intros A B. rd (track_mul lg dg _ _ _ _ _ _ _ (track_var lg dg _ _ _ A) (track_var lg dg _ _ _ B)). Qed.
Lemma c_div f g t (d e : D) : carries f t d -> carries g t e -> g t <> 0 -> carries (fun u => f u / g u) t (ndiv d e).
Proof.
  intros A B N. eapply (track_read lg dg); [exact (track_div lg dg _ _ _ _ _ _ _ (track_var lg dg _ _ _ A) (track_var lg dg _ _ _ B) N)|].
  pose proof (near g t e (fun y => y <> 0) B ltac:(apply (open_neq 0), N)) as L. revert L. apply filter_imp. intros u U. cbn. rewrite Req_b_f by exact U. reflexivity.
Qed.
Lemma c_neg f t (d : D) : carries f t d -> carries (fun u => - f u) t (nneg d).
Proof. intros A. rd (track_neg lg dg _ _ _ _ (track_var lg dg _ _ _ A)). Qed.
Lemma c_exp f t (d : D) : carries f t d -> carries (fun u => exp (f u)) t (nexp d).
Proof. intros A. rd (track_exp lg dg _ _ _ _ (track_var lg dg _ _ _ A)). Qed.
Lemma c_sin f t (d : D) : carries f t d -> carries (fun u => sin (f u)) t (nsin d).
Proof. intros A. rd (track_sin lg dg _ _ _ _ (track_var lg dg _ _ _ A)). Qed.
Lemma c_cos f t (d : D) : carries f t d -> carries (fun u => cos (f u)) t (ncos d).
Proof. intros A. rd (track_cos lg dg _ _ _ _ (track_var lg dg _ _ _ A)). Qed.
Lemma c_ln f t (d : D) : carries f t d -> 0 < f t -> carries (fun u => ln (f u)) t (nln d).
Proof.
  intros A P. eapply (track_read lg dg); [exact (track_ln lg dg _ _ _ _ (track_var lg dg _ _ _ A) P)|]. generalize (near_pos _ _ _ A P). apply filter_imp. intros u U. cbn. rewrite Rltb_t by exact U. reflexivity.
Qed.
Lemma c_sqrt f t (d : D) : carries f t d -> 0 < f t -> carries (fun u => sqrt (f u)) t (nsqrt d).
Proof.
  intros A P. eapply (track_read lg dg); [exact (track_sqrt lg dg _ _ _ _ (track_var lg dg _ _ _ A) P)|]. generalize (near_pos _ _ _ A P). apply filter_imp. intros u U. cbn. rewrite Rltb_f by lra. reflexivity.
Qed.
Lemma c_pow f g t (d e : D) : carries f t d -> carries g t e -> 0 < f t -> carries (fun u => Rpower (f u) (g u)) t (npow d e).
Proof.
  intros A B P. eapply (track_read lg dg); [exact (track_pow lg dg _ _ _ _ _ _ _ (track_var lg dg _ _ _ A) (track_var lg dg _ _ _ B) P)|]. generalize (near_pos _ _ _ A P). apply filter_imp. intros u U. cbn. unfold xpow_fin.
  destruct (Req_b (g u) 0) eqn:Q; [|rewrite Rltb_t by exact U; reflexivity]. unfold Req_b in Q. destruct (Req_EM_T (g u) 0) as [->|]; [|discriminate]. rewrite Rpower_O by exact U. reflexivity.
Qed.

(** ** Generic programs *)
Lemma dual_term_carries (p : term R) (a : nat -> R -> R) (da : nat -> D) t : (forall i, In i (inputs p) -> carries (a i) t (da i)) -> smooth_at p (fun i => a i t) ->
  carries (fun u => real_of p (fun i => a i u)) t (@interpret D DirectEval da (dual_term p)).
Proof.
  induction p as [i|x|c|l IHl r IHr|l IHl r IHr|l IHl r IHr|l IHl r IHr|l IHl r IHr|q IH|q IH|q IH|q IH|q IH|q IH]; intros C S; cbn [real_of dual_term interpret smooth_at inputs] in *.
  - apply C. left. reflexivity.
  - cbn. replace (xdec 0 1) with (Fin 0) by (unfold xdec; f_equal; lra). apply c_const.
  - apply c_const.
  - apply c_add; [apply IHl|apply IHr]; try tauto; intros i I; apply C, in_or_app; tauto.
  - apply c_sub; [apply IHl|apply IHr]; try tauto; intros i I; apply C, in_or_app; tauto.
  - apply c_mul; [apply IHl|apply IHr]; try tauto; intros i I; apply C, in_or_app; tauto.
  - apply c_div; [apply IHl|apply IHr|]; try tauto; intros i I; apply C, in_or_app; tauto.
  - apply c_pow; [apply IHl|apply IHr|]; try tauto; intros i I; apply C, in_or_app; tauto.
  - apply c_neg, IH; assumption.
  - apply c_ln; [apply IH|]; tauto.
  - apply c_exp, IH; assumption.
  - apply c_sqrt; [apply IH|]; tauto.
  - apply c_sin, IH; assumption.
  - apply c_cos, IH; assumption.
Qed.

(** ** Sums *)
Lemma c_zero t : carries (fun _ => 0) t (@n0 D).
Proof. replace (@n0 D) with (Fin 0, Fin 0); [apply c_const|]. cbn. unfold dlift, xdec. do 2 f_equal. lra. Qed.
Lemma c_fold t fs (ds : list D) : Forall2 (fun f d => carries f t d) fs ds -> forall f d, carries f t d ->
  carries (fun u => f u + Rsum (map (fun g : R -> R => g u) fs)) t (fold_left nadd ds d).
Proof.
  induction 1 as [|g e fs ds G F IH]; intros f d C; cbn [map fold_left].
  - eapply c_ext; [exact C|]. intros u. unfold Rsum. cbn. ring.
  - eapply c_ext; [apply (IH (fun u => f u + g u)), c_add; assumption|]. intros u. cbv beta. rewrite Rsum_cons. ring.
Qed.
Lemma c_sum t fs (ds : list D) : Forall2 (fun f d => carries f t d) fs ds -> carries (fun u => Rsum (map (fun g : R -> R => g u) fs)) t (fold_left nadd ds n0).
Proof. intros F. eapply c_ext; [exact (c_fold t fs ds F _ _ (c_zero t))|]. intros u. cbv beta. ring. Qed.

(** ** Mixtures *)
Lemma pick_max t : forall fs (ds : list D), Forall2 (fun f d => carries f t d) fs ds -> forall f (d : D), carries f t d ->
  exists g, carries g t (fold_left (fun acc x : D => if nltb acc x then x else acc) ds d).
Proof.
  induction 1 as [|g e fs ds G F IH]; intros f d C; cbn [fold_left]; [exists f; exact C|]. destruct (nltb d e); eapply IH; eassumption.
Qed.
Lemma c_lse t fs (ds : list D) : Forall2 (fun f d => carries f t d) fs ds -> fs <> [] ->
  carries (fun u => ln (Rsum (map (fun f : R -> R => exp (f u)) fs))) t (CombModel.log_sum_exp ds).
Proof.
  intros F N. unfold CombModel.log_sum_exp. destruct F as [|f0 d0 fs ds C0 F]; [congruence|]. remember (d0 :: ds) as dl eqn:ED. 
  assert (M : exists g, carries g t (fold_left (fun acc x : D => if nltb acc x then x else acc) dl nninf)).
  { subst dl. cbn [fold_left]. assert (L : @nltb D nninf d0 = true) by (cbn; rewrite (c_fst _ _ _ C0); reflexivity). rewrite L. eapply pick_max; eassumption. }
  assert (FA : Forall2 (fun f d => carries f t d) (f0 :: fs) dl) by (subst dl; constructor; assumption). 
  destruct M as [g CM]. set (mx := fold_left (fun acc x : D => if nltb acc x then x else acc) dl nninf) in *. assert (NI : is_neg_inf mx = false) by (unfold is_neg_inf; cbn; rewrite (c_fst _ _ _ CM); reflexivity). rewrite NI. subst dl.
  remember (f0 :: fs) as gs eqn:EG. remember (d0 :: ds) as dl. clear Heqdl C0 F NI.
  assert (S : carries (fun u => Rsum (map (fun f : R -> R => exp (f u - g u)) gs)) t (fold_left nadd (map (fun x : D => nexp (nsub x mx)) dl) n0)).
  { assert (F2 : Forall2 (fun f d => carries f t d) (map (fun (f : R -> R) (u : R) => exp (f u - g u)) gs) (map (fun x : D => nexp (nsub x mx)) dl)).
    { clear EG N. clearbody mx. induction FA; constructor; [|assumption]. apply c_exp, c_sub; assumption. }
    eapply c_ext; [exact (c_sum t _ _ F2)|]. intros u. cbv beta. rewrite map_map. reflexivity. }
  assert (PS : forall u, 0 < Rsum (map (fun f : R -> R => exp (f u - g u)) gs)).
  { intros u. subst gs. apply Rsum_pos; [|discriminate]. apply Forall_forall. intros y I. apply in_map_iff in I. destruct I as (f & <- & _). apply exp_pos. }
  eapply c_ext; [exact (c_add _ _ _ _ _ CM (c_ln _ _ _ S (PS t)))|]. intros u. cbv beta. rewrite <- (ln_exp (g u)) at 1. rewrite <- ln_mult; [|apply exp_pos|apply PS]. f_equal.
  clear. induction gs as [|f gs IH]; cbn [map]; [unfold Rsum; cbn; ring|]. rewrite !Rsum_cons, <- IH. replace (exp (f u)) with (exp (g u) * exp (f u - g u)) by (rewrite <- exp_plus; f_equal; ring). ring.
Qed.
Lemma c_mixture {T} t fs (cs : list (Measure D T)) ws (dws : list D) x : Forall2 (fun f (c : Measure D T) => carries f t (b_ld (m_self c) x)) fs cs -> Forall2 (fun w d => carries w t d /\ 0 < w t) ws dws ->
  length fs = length ws -> fs <> [] ->
  carries (fun u => ln (Rsum (map (fun p : (R -> R) * (R -> R) => fst p u * exp (snd p u)) (combine ws fs)))) t (mixture_ld (mkMixture cs dws) x).
Proof.
  intros F W L N. unfold mixture_ld. cbn [components weights]. destruct cs as [|c0 cs0] eqn:EC; [inversion F; subst; congruence|]. rewrite <- EC in *. clear EC c0 cs0.
  assert (F2 : Forall2 (fun f d => carries f t d) (map (fun (p : (R -> R) * (R -> R)) (u : R) => ln (fst p u) + snd p u) (combine ws fs))
            (map (fun cw : Measure D T * D => nadd (nln (snd cw)) (b_ld (m_self (fst cw)) x)) (combine cs dws)) /\
          locally t (fun u => Forall (fun p : (R -> R) * (R -> R) => 0 < fst p u) (combine ws fs))).
  { clear N. revert ws dws W L. induction F as [|f c fs cs C F IH]; intros ws dws W L.
    - destruct W; [|discriminate]. cbn. split; [constructor|apply filter_forall; constructor].
    - destruct W as [|w d ws dws [CW PW] W]; [discriminate|]. cbn [combine map fst snd]. destruct (IH ws dws W ltac:(cbn in L; lia)) as [I J]. split; [constructor; [apply c_add; [apply c_ln; assumption|exact C]|exact I]|].
      generalize (filter_and _ _ (near_pos _ _ _ CW PW) J). apply filter_imp. intros u [A B]. constructor; assumption. }
  destruct F2 as [F2 P]. apply c_lse in F2.
  - destruct F2 as (l & E & H). exists l. assert (Q : locally t (fun u => ln (Rsum (map (fun f : R -> R => exp (f u)) (map (fun (p : (R -> R) * (R -> R)) (u : R) => ln (fst p u) + snd p u) (combine ws fs)))) =
        ln (Rsum (map (fun p : (R -> R) * (R -> R) => fst p u * exp (snd p u)) (combine ws fs))))).
    { revert P. apply filter_imp. intros u A. f_equal. rewrite map_map. f_equal. apply map_ext_in. intros p I. rewrite Forall_forall in A. rewrite exp_plus, exp_ln by (apply A, I). reflexivity. }
    split; [rewrite <- (locally_singleton _ _ Q); exact E|]. apply is_derive_Reals. eapply is_derive_ext_loc; [exact Q|]. apply is_derive_Reals, H.
  - destruct ws, fs; try discriminate; congruence.
Qed.

(** ** Collections *)
Definition ltracks (t : R) (Fs : list (R -> X)) (ds : list D) : Prop := Forall2 (fun F d => exists v, tracks F t v d) Fs ds.
Definition at_u (u : R) (Fs : list (R -> X)) : list X := map (fun F : R -> X => F u) Fs.
Lemma l_add t Fs ds : ltracks t Fs ds -> forall Gs es, ltracks t Gs es ->
  exists Hs, ltracks t Hs (CoreModel.add_into ds es) /\ forall u, at_u u Hs = CoreModel.add_into (at_u u Fs) (at_u u Gs).
Proof.
  induction 1 as [|F d Fs ds [v H] FA IH]; intros Gs es GA.
  - exists []. split; [constructor|reflexivity].
  - destruct GA as [|G e Gs es [w K] GA].
    + exists (F :: Fs). split; [constructor; [exists v; exact H|exact FA]|reflexivity].
    + destruct (IH Gs es GA) as (Hs & I & J). exists ((fun u => nadd (F u) (G u)) :: Hs). split; [constructor; [exists (v + w); apply track_add; assumption|exact I]|].
      intros u. cbn [at_u map CoreModel.add_into]. f_equal. apply J.
Qed.
Lemma l_fold t Fss dss : Forall2 (ltracks t) Fss dss -> forall Fs ds, ltracks t Fs ds ->
  exists Hs, ltracks t Hs (fold_left CoreModel.add_into dss ds) /\ forall u, at_u u Hs = fold_left CoreModel.add_into (map (at_u u) Fss) (at_u u Fs).
Proof.
  induction 1 as [|Gs es Fss dss G F IH]; intros Fs ds H; cbn [fold_left map].
  - exists Fs. split; [exact H|reflexivity].
  - destruct (l_add t Fs ds H Gs es G) as (Hs & I & J). destruct (IH Hs _ I) as (Ks & A & B). exists Ks. split; [exact A|]. intros u. rewrite B, J. reflexivity.
Qed.
Lemma l_dot t Fs ds : ltracks t Fs ds -> forall Gs es, ltracks t Gs es -> forall F v d, tracks F t v d ->
  exists H w, tracks H t w (zip_dot d ds es) /\ forall u, H u = zip_dot (F u) (at_u u Fs) (at_u u Gs).
Proof.
  induction 1 as [|G d Fs ds [v H] FA IH]; intros Gs es GA F w d0 T0.
  - exists F, w. split; [exact T0|reflexivity].
  - destruct GA as [|G' e Gs es [w' K] GA].
    + exists F, w. split; [exact T0|reflexivity].
    + destruct (IH Gs es GA (fun u => nadd (F u) (nmul (G u) (G' u))) _ _ (track_add lg dg _ _ _ _ _ _ _ T0 (track_mul lg dg _ _ _ _ _ _ _ H K))) as (Q & q & A & B). exists Q, q. split; [exact A|]. intros u. rewrite B. reflexivity.
Qed.
Lemma l_sum t : forall Fs ds, ltracks t Fs ds -> forall F v d, tracks F t v d ->
  exists H w, tracks H t w (fold_left nadd ds d) /\ forall u, H u = fold_left nadd (at_u u Fs) (F u).
Proof.
  induction 1 as [|G d Fs ds [v H] FA IH]; intros F w d0 T0; cbn [fold_left].
  - exists F, w. split; [exact T0|reflexivity].
  - destruct (IH (fun u => nadd (F u) (G u)) _ _ (track_add lg dg _ _ _ _ _ _ _ T0 H)) as (Q & q & A & B). exists Q, q. split; [exact A|]. intros u. rewrite B. reflexivity.
Qed.
Lemma l_repeat t n : ltracks t (repeat (fun _ => n0) n) (repeat n0 n) /\ forall u, at_u u (repeat (fun _ => n0) n) = repeat n0 n.
Proof.
  split; [|intros u; induction n as [|n IH]; [reflexivity|cbn [repeat at_u map]; f_equal; exact IH]]. induction n; cbn [repeat]; constructor; [|assumption]. exists 0. apply track_int.
Qed.
(** [ex u] is the family at the point [u] of the curves, [dx] the dual one. *)
Lemma l_iid {A B} (ex : R -> ExpFam X A) (dx : ExpFam D B) t (xs : R -> list A) (ds : list B) Es Pp Ss Bs :
  (forall u, ef_natural (ex u) = at_u u Es) -> ltracks t Es (ef_natural dx) ->
  (forall u, ef_partition (ex u) = Pp u) -> (exists p, tracks Pp t p (ef_partition dx)) ->
  (forall u, ef_dim (ex u) = ef_dim dx) -> (forall u, length (xs u) = length ds) ->
  (forall u, map (ef_stat (ex u)) (xs u) = map (at_u u) Ss) -> Forall2 (ltracks t) Ss (map (ef_stat dx) ds) ->
  (forall u, map (b_ld (ef_base (ex u))) (xs u) = at_u u Bs) -> ltracks t Bs (map (b_ld (ef_base dx)) ds) ->
  exists F v, tracks F t v (compute_iid dx ds) /\ forall u, F u = compute_iid (ex u) (xs u).
Proof.
  intros E1 E2 P1 [p P2] DM LN S1 S2 B1 B2. destruct ds as [|d0 ds0].
  { exists (fun _ => n0), 0. split; [apply track_int|]. intros u. specialize (LN u). destruct (xs u); [reflexivity|discriminate]. }
  destruct (l_repeat t (ef_dim dx)) as [R1 R2]. destruct (l_fold t _ _ S2 _ _ R1) as (Hs & H1 & H2). destruct (l_dot t _ _ E2 _ _ H1 (fun _ => n0) 0 n0 (track_int lg dg 0 t)) as (Q & q & Q1 & Q2).
  destruct (l_sum t _ _ B2 (fun _ => n0) 0 n0 (track_int lg dg 0 t)) as (W & w & W1 & W2).
  exists (fun u => nadd (nsub (Q u) (nmul (nofn (length (d0 :: ds0))) (Pp u))) (W u)). eexists. split.
  - unfold compute_iid, sum_sufficient_stats, dot_array. cbv zeta. eapply track_add; [|exact W1]. eapply track_sub; [exact Q1|]. eapply track_mul; [apply track_ofn|exact P2].
  - intros u. unfold compute_iid. specialize (LN u). pose proof (S1 u) as S1u. pose proof (B1 u) as B1u. destruct (xs u) as [|y ys]; [discriminate|]. cbv zeta. rewrite LN, E1, P1, DM, S1u, B1u, Q2, W2, H2, R2. reflexivity.
Qed.

Context (DG : digamma_of lg dg).
Ltac track1 :=
  match goal with
  | H : tracks ?F ?t ?v ?d |- tracks ?F ?t _ ?d => exact H
  | |- tracks _ _ _ (nadd _ _) => eapply track_add
  | |- tracks _ _ _ (nsub _ _) => eapply track_sub
  | |- tracks _ _ _ (nmul _ _) => eapply track_mul
  | |- tracks _ _ _ (ndiv _ _) => eapply track_div
  | |- tracks _ _ _ (nneg _) => eapply track_neg
  | |- tracks _ _ _ (nln _) => eapply track_ln
  | |- tracks _ _ _ (nexp _) => eapply track_exp
  | |- tracks _ _ _ (nsqrt _) => eapply track_sqrt
  | |- tracks _ _ _ (nlgamma _) => eapply (track_lgamma lg dg _ _ _ _ DG)
  | |- tracks _ _ _ (nofn _) => eapply track_ofn
  | |- tracks _ _ _ (nint _) => eapply track_int
  | |- tracks _ _ _ (ndec _ _) => eapply track_dec
  | |- tracks _ _ _ npi => eapply track_pi
  end.
Ltac lits := unfold nrecip, n0, n1, n2, nhalf, nm1.
Ltac track := lits; repeat track1.
Ltac tv C := let T := fresh "T" in pose proof (track_var lg dg _ _ _ C) as T.
Ltac side := first [ assumption | lra | nra | (apply Rgt_not_eq; first [lra | nra | assumption])
  | (apply Rmult_lt_0_compat; first [lra | nra | apply Rmult_lt_0_compat; lra]) ].
(** The collections of the library's families: samples and parameters may both vary. *)
Lemma l_map2 t (h : D -> list D) (G : (R -> R) -> list (R -> X)) fs (ds : list D) (P : (R -> R) -> Prop) :
  (forall f d, carries f t d -> P f -> ltracks t (G f) (h d)) -> Forall2 (fun f d => carries f t d) fs ds -> Forall P fs -> Forall2 (ltracks t) (map G fs) (map h ds).
Proof.
  intros K F. induction F as [|f d fs ds C F IH]; intros Q; cbn [map]; [constructor|]. apply Forall_cons_iff in Q. destruct Q as [Q Q']. constructor; [apply K; assumption|apply IH, Q'].
Qed.
Lemma l_zero {B} t (ds : list B) : ltracks t (repeat (fun _ => n0) (length ds)) (map (fun _ => n0) ds).
Proof. induction ds; cbn [length repeat map]; constructor; [exists 0; apply track_int|assumption]. Qed.
Lemma at_zero {A} u (xs : list A) : map (fun _ : A => n0) xs = at_u u (repeat (fun _ : R => n0) (length xs)).
Proof. induction xs; cbn [map length repeat at_u]; [reflexivity|]. f_equal. exact IHxs. Qed.


(** A family with samples in the real line: its parts, at every point of the curves and at the dual point. *)
Lemma dual_iid (ex : R -> ExpFam X X) (dx : ExpFam D D) t fs (ds : list D) (P : (R -> R) -> Prop) Es Pp (St : (R -> R) -> list (R -> X)) :
  Forall2 (fun f d => carries f t d) fs ds -> Forall P fs ->
  (forall u, ef_natural (ex u) = at_u u Es) -> ltracks t Es (ef_natural dx) ->
  (forall u, ef_partition (ex u) = Pp u) -> (exists p, tracks Pp t p (ef_partition dx)) -> (forall u, ef_dim (ex u) = ef_dim dx) ->
  (forall u f, ef_stat (ex u) (Fin (f u) : X) = at_u u (St f)) -> (forall f d, carries f t d -> P f -> ltracks t (St f) (ef_stat dx d)) ->
  (forall u, ef_base (ex u) = prim) -> ef_base dx = prim ->
  exists F v, tracks F t v (iid_log_density dx ds) /\ forall u, F u = iid_log_density (ex u) (fins (map (fun f : R -> R => f u) fs) : list X).
Proof.
  intros F PF E1 E2 P1 P2 DM S1 S2 B1 B2. pose proof (F2_length _ _ _ F) as LN. change (length fs = @length (num D) ds) in LN.
  apply (l_iid ex dx t (fun u => fins (map (fun f : R -> R => f u) fs)) ds Es Pp (map St fs) (repeat (fun _ => n0) (length ds))); try assumption.
  - intros u. unfold fins. rewrite !map_length. exact LN.
  - intros u. unfold fins. rewrite !map_map. apply map_ext. intros f. apply S1.
  - eapply l_map2; [exact S2|exact F|exact PF].
  - intros u. rewrite B1, <- LN. cbn [b_ld prim primitive]. rewrite <- (map_length (fun f : R -> R => f u) fs), <- (map_length (fun r : R => Fin r)). apply (at_zero u (fins (map (fun f : R -> R => f u) fs))).
  - rewrite B2. apply l_zero.
Qed.
Ltac parts := unfold expfam; cbn [ef_natural ef_partition ef_stat ef_base ef_dim n_mean n_sd e_rate g_shape g_rate b_alpha b_beta c_k]; cbv zeta.
Lemma all_true {A} (l : list A) : Forall (fun _ => True) l.
Proof. apply Forall_forall. intros; exact I. Qed.
Lemma near_all (P : R -> Prop) t fs (ds : list D) : (forall f d, carries f t d -> P (f t) -> locally t (fun u => P (f u))) -> Forall2 (fun f d => carries f t d) fs ds ->
  Forall (fun f : R -> R => P (f t)) fs -> locally t (fun u => Forall P (map (fun f : R -> R => f u) fs)).
Proof.
  intros K. induction 1 as [|f d fs ds C F IH]; intros Q; [apply filter_forall; constructor|]. apply Forall_cons_iff in Q. destruct Q as [Q Q']. generalize (filter_and _ _ (K f d C Q) (IH Q')). apply filter_imp.
  intros u [A B]. constructor; assumption.
Qed.

Lemma dual_iid_normal mu sd t dm ds fs (dxs : list D) : carries mu t dm -> carries sd t ds -> Forall2 (fun f d => carries f t d) fs dxs -> 0 < sd t ->
  carries (fun u => Rsum (map (fun f : R -> R => ln (normal_pdf (mu u) (sd u) (f u))) fs)) t (iid_log_density (normal_expfam (@mkNormal D dm ds)) dxs).
Proof.
  intros Cm Cs F P. tv Cm. tv Cs. pose proof PI_RGT_0.
  pose (nx := fun u => normal_expfam (@mkNormal X (Fin (mu u)) (Fin (sd u)))).
  destruct (dual_iid nx (normal_expfam (@mkNormal D dm ds)) t fs dxs (fun _ => True) [(fun u => nth 0 (ef_natural (nx u)) n0); (fun u => nth 1 (ef_natural (nx u)) n0)]
     (fun u => ef_partition (nx u)) (fun f => [(fun u => Fin (f u)); (fun u => @nmul X (Fin (f u)) (Fin (f u)))])) as (Q & q & Q1 & Q2); try reflexivity.
  - exact F.
  - apply all_true.
  - unfold nx, normal_expfam, normal_variance. parts. cbn [nth]. repeat constructor; eexists; track; side.
  - unfold nx, normal_expfam, normal_variance. parts. eexists. track; side.
  - intros f d C _. tv C. unfold normal_expfam. parts. repeat constructor; eexists; track.
  - eapply (track_read lg dg Q); [exact Q1|]. generalize (near_pos _ _ _ Cs P). apply filter_imp. intros u U. rewrite Q2. unfold nx.
    rewrite (proj1 (iid_continuous lg (map (fun f : R -> R => f u) fs)) _ _ _ (normal_new_ok lg _ _ U)), map_map. reflexivity.
Qed.
Lemma gtz x : 0 < x -> @nltb X n0 (Fin x) = true.
Proof. intros H. cbn. unfold xdec. cbn. apply Rltb_t. lra. Qed.
Lemma dual_iid_exponential r t dr fs (dxs : list D) : carries r t dr -> Forall2 (fun f d => carries f t d) fs dxs -> 0 < r t ->
  carries (fun u => Rsum (map (fun f : R -> R => ln (exponential_pdf (r u) (f u)) - 2 * ln (r u)) fs)) t (iid_log_density (exponential_expfam (@mkExponential D dr)) dxs).
Proof.
  intros Cr F P. tv Cr.
  pose (nx := fun u => exponential_expfam (@mkExponential X (Fin (r u)))).
  destruct (dual_iid nx (exponential_expfam (@mkExponential D dr)) t fs dxs (fun _ => True) [(fun u => nth 0 (ef_natural (nx u)) n0)]
     (fun u => ef_partition (nx u)) (fun f => [(fun u => Fin (f u))])) as (Q & q & Q1 & Q2); try reflexivity.
  - exact F.
  - apply all_true.
  - unfold nx, exponential_expfam. parts. cbn [nth]. repeat constructor; eexists; track; side.
  - unfold nx, exponential_expfam. parts. eexists. track; side.
  - intros f d C _. tv C. unfold exponential_expfam. parts. repeat constructor; eexists; track.
  - eapply (track_read lg dg Q); [exact Q1|]. generalize (near_pos _ _ _ Cr P). apply filter_imp. intros u U. rewrite Q2. unfold nx.
    destruct (iid_continuous lg (map (fun f : R -> R => f u) fs)) as (_ & _ & _ & _ & K). rewrite (K (r u)), map_map; [reflexivity|]. unfold exponential_new. rewrite gtz by exact U. reflexivity.
Qed.
Lemma dual_iid_gamma a b t da db fs (dxs : list D) : carries a t da -> carries b t db -> Forall2 (fun f d => carries f t d) fs dxs -> 0 < a t -> 0 < b t -> Forall (fun f : R -> R => 0 < f t) fs ->
  carries (fun u => Rsum (map (fun f : R -> R => ln (gamma_pdf lg (a u) (b u) (f u))) fs)) t (iid_log_density (gamma_expfam (@mkGamma D da db)) dxs).
Proof.
  intros Ca Cb F P P' PF. tv Ca. tv Cb.
  pose (nx := fun u => gamma_expfam (@mkGamma X (Fin (a u)) (Fin (b u)))).
  destruct (dual_iid nx (gamma_expfam (@mkGamma D da db)) t fs dxs (fun f => 0 < f t) [(fun u => nth 0 (ef_natural (nx u)) n0); (fun u => nth 1 (ef_natural (nx u)) n0)]
     (fun u => ef_partition (nx u)) (fun f => [(fun u => @nln X (Fin (f u))); (fun u => Fin (f u))])) as (Q & q & Q1 & Q2); try reflexivity.
  - exact F.
  - exact PF.
  - unfold nx, gamma_expfam. parts. cbn [nth]. repeat constructor; eexists; track; side.
  - unfold nx, gamma_expfam. parts. eexists. track; side.
  - intros f d C PX. tv C. unfold gamma_expfam. parts. repeat constructor; eexists; track; side.
  - eapply (track_read lg dg Q); [exact Q1|]. generalize (filter_and _ _ (filter_and _ _ (near_pos _ _ _ Ca P) (near_pos _ _ _ Cb P')) (near_all (fun x => 0 < x) t fs dxs (fun f d => near_pos f t d) F PF)).
    apply filter_imp. intros u [[U U'] UF]. rewrite Q2. unfold nx.
    destruct (iid_continuous lg (map (fun f : R -> R => f u) fs)) as (_ & K & _). rewrite (K (a u) (b u)), map_map; [reflexivity| |exact UF]. unfold gamma_new. rewrite !gtz by assumption. reflexivity.
Qed.
Lemma near_unit f t (d : D) : carries f t d -> 0 < f t < 1 -> locally t (fun u => 0 < f u < 1).
Proof. intros C [A B]. exact (filter_and _ _ (near_pos _ _ _ C A) (near_lt _ _ _ _ C B)). Qed.
Lemma dual_iid_beta a b t da db fs (dxs : list D) : carries a t da -> carries b t db -> Forall2 (fun f d => carries f t d) fs dxs -> 0 < a t -> 0 < b t -> Forall (fun f : R -> R => 0 < f t < 1) fs ->
  carries (fun u => Rsum (map (fun f : R -> R => ln (beta_pdf lg (a u) (b u) (f u))) fs)) t (iid_log_density (beta_expfam (@mkBeta D da db)) dxs).
Proof.
  intros Ca Cb F P P' PF. tv Ca. tv Cb.
  pose (nx := fun u => beta_expfam (@mkBeta X (Fin (a u)) (Fin (b u)))).
  destruct (dual_iid nx (beta_expfam (@mkBeta D da db)) t fs dxs (fun f => 0 < f t < 1) [(fun u => nth 0 (ef_natural (nx u)) n0); (fun u => nth 1 (ef_natural (nx u)) n0)]
     (fun u => ef_partition (nx u)) (fun f => [(fun u => @nln X (Fin (f u))); (fun u => @nln X (@nsub X n1 (Fin (f u))))])) as (Q & q & Q1 & Q2); try reflexivity.
  - exact F.
  - exact PF.
  - unfold nx, beta_expfam. parts. cbn [nth]. repeat constructor; eexists; track; side.
  - unfold nx, beta_expfam. parts. eexists. track; side.
  - intros f d C PX. tv C. unfold beta_expfam. parts. repeat constructor; eexists; track; side.
  - eapply (track_read lg dg Q); [exact Q1|]. generalize (filter_and _ _ (filter_and _ _ (near_pos _ _ _ Ca P) (near_pos _ _ _ Cb P')) (near_all (fun x => 0 < x < 1) t fs dxs (fun f d => near_unit f t d) F PF)).
    apply filter_imp. intros u [[U U'] UF]. rewrite Q2. unfold nx.
    destruct (iid_continuous lg (map (fun f : R -> R => f u) fs)) as (_ & _ & K & _). rewrite (K (a u) (b u)), map_map; [reflexivity| |exact UF]. unfold beta_new. rewrite !gtz by assumption. reflexivity.
Qed.
Lemma dual_iid_chi k t dk fs (dxs : list D) : carries k t dk -> Forall2 (fun f d => carries f t d) fs dxs -> 0 < k t -> Forall (fun f : R -> R => 0 < f t) fs ->
  carries (fun u => Rsum (map (fun f : R -> R => ln (chi_squared_pdf lg (k u) (f u))) fs)) t (iid_log_density (chi_expfam (@mkChi D dk)) dxs).
Proof.
  intros Ca F P PF. tv Ca.
  pose (nx := fun u => chi_expfam (@mkChi X (Fin (k u)))).
  destruct (dual_iid nx (chi_expfam (@mkChi D dk)) t fs dxs (fun f => 0 < f t) [(fun u => nth 0 (ef_natural (nx u)) n0); (fun u => nth 1 (ef_natural (nx u)) n0)]
     (fun u => ef_partition (nx u)) (fun f => [(fun u => @nln X (Fin (f u))); (fun u => Fin (f u))])) as (Q & q & Q1 & Q2); try reflexivity.
  - exact F.
  - exact PF.
  - unfold nx, chi_expfam, chi_shape, chi_rate. parts. cbn [nth]. repeat constructor; eexists; track; side.
  - unfold nx, chi_expfam, chi_shape, chi_rate. parts. eexists. track; side.
  - intros f d C PX. tv C. unfold chi_expfam. parts. repeat constructor; eexists; track; side.
  - eapply (track_read lg dg Q); [exact Q1|]. generalize (filter_and _ _ (near_pos _ _ _ Ca P) (near_all (fun x => 0 < x) t fs dxs (fun f d => near_pos f t d) F PF)).
    apply filter_imp. intros u [U UF]. rewrite Q2. unfold nx.
    destruct (iid_continuous lg (map (fun f : R -> R => f u) fs)) as (_ & _ & _ & K & _). rewrite (K (k u)), map_map; [reflexivity| |exact UF]. unfold chi_new. rewrite !gtz by assumption. reflexivity.
Qed.

(** Counts do not vary: only the parameters do. *)
Lemma dual_iid_counts (ex : R -> ExpFam X nat) (dx : ExpFam D nat) t (ks : list nat) Es Pp :
  (forall u, ef_natural (ex u) = at_u u Es) -> ltracks t Es (ef_natural dx) ->
  (forall u, ef_partition (ex u) = Pp u) -> (exists p, tracks Pp t p (ef_partition dx)) -> (forall u, ef_dim (ex u) = ef_dim dx) ->
  (forall u, ef_stat (ex u) = fun x => [nofn x]) -> (ef_stat dx = fun x => [nofn x]) ->
  (forall u, ef_base (ex u) = prim) -> ef_base dx = prim ->
  exists F v, tracks F t v (iid_log_density dx ks) /\ forall u, F u = iid_log_density (ex u) ks.
Proof.
  intros E1 E2 P1 P2 DM S1 S2 B1 B2.
  apply (l_iid ex dx t (fun _ => ks) ks Es Pp (map (fun k => [fun _ => nofn k]) ks) (repeat (fun _ => n0) (length ks))); try assumption.
  - reflexivity.
  - intros u. rewrite S1, map_map. reflexivity.
  - rewrite S2. induction ks; cbn [map]; constructor; [|assumption]. repeat constructor. eexists. apply track_ofn.
  - intros u. rewrite B1. cbn [b_ld prim primitive]. apply (at_zero u ks).
  - rewrite B2. apply l_zero.
Qed.
Lemma dual_iid_bernoulli p t dp ks : carries p t dp -> 0 < p t < 1 -> Forall (fun k => (k <= 1)%nat) ks ->
  carries (fun u => Rsum (map (fun k => ln (bernoulli_pmf (p u) k)) ks)) t (iid_log_density (bernoulli_expfam (@mkBernoulli D dp)) ks).
Proof.
  intros Cp P K. tv Cp. pose (nx := fun u => bernoulli_expfam (@mkBernoulli X (Fin (p u)))). assert (0 < p t / (1 - p t)) by (apply Rdiv_lt_0_compat; lra).
  destruct (dual_iid_counts nx (bernoulli_expfam (@mkBernoulli D dp)) t ks [(fun u => nth 0 (ef_natural (nx u)) n0)] (fun u => ef_partition (nx u))) as (Q & q & Q1 & Q2); try reflexivity.
  - unfold nx, bernoulli_expfam, log_odds. parts. cbn [nth be_prob]. repeat constructor; eexists; track; side.
  - unfold nx, bernoulli_expfam, log_odds. parts. cbn [be_prob]. eexists. track; try side. match goal with |- context [exp ?z] => pose proof (exp_pos z); lra end.
  - eapply (track_read lg dg Q); [exact Q1|]. generalize (near_unit _ _ _ Cp P). apply filter_imp. intros u U. rewrite Q2. unfold nx. 
    apply (proj1 (iid_discrete lg ks) (p u)); [apply bernoulli_new_ok; lra|exact U|exact K].
Qed.
Lemma dual_iid_geometric p t dp ks : carries p t dp -> 0 < p t < 1 -> Forall (fun k => (1 <= k)%nat) ks ->
  carries (fun u => Rsum (map (fun k => ln (geometric_pmf (p u) k) + ln (1 - p u)) ks)) t (iid_log_density (geometric_expfam (@mkGeometric D dp)) ks).
Proof.
  intros Cp P K. tv Cp. pose (nx := fun u => geometric_expfam (@mkGeometric X (Fin (p u)))).
  destruct (dual_iid_counts nx (geometric_expfam (@mkGeometric D dp)) t ks [(fun u => nth 0 (ef_natural (nx u)) n0)] (fun u => ef_partition (nx u))) as (Q & q & Q1 & Q2); try reflexivity.
  - unfold nx, geometric_expfam, geometric_failure_prob. parts. cbn [nth ge_prob]. repeat constructor; eexists; track; side.
  - unfold nx, geometric_expfam. parts. cbn [ge_prob]. eexists. track; side.
  - eapply (track_read lg dg Q); [exact Q1|]. generalize (near_unit _ _ _ Cp P). apply filter_imp. intros u U. rewrite Q2. unfold nx. 
    destruct (iid_discrete lg ks) as (_ & _ & G & _). apply (G (p u)); [apply geometric_new_ok; lra|lra|exact K].
Qed.
(** The fallback sums the measure's own log-densities. *)
Lemma dual_iid_fallback {T} t (b : Base D T) (xs : list T) fs : Forall2 (fun f x => carries f t (b_ld b x)) fs xs ->
  carries (fun u => Rsum (map (fun f : R -> R => f u) fs)) t (iid_log_density_fallback b xs).
Proof. intros F. unfold iid_log_density_fallback. apply c_sum. induction F; cbn [map]; constructor; assumption. Qed.
Lemma dual_categorical ps (dps : list D) t k : Forall2 (fun f d => carries f t d) ps dps -> (k < length ps)%nat -> 0 < nth k ps (fun _ => 0) t ->
  carries (fun u => ln (nth k ps (fun _ => 0) u)) t (categorical_ld (@mkCategorical D dps) k).
Proof.
  intros F K P. pose proof (F2_length _ _ _ F) as LN. unfold categorical_ld. cbn [ca_probs]. rewrite (proj2 (Nat.ltb_lt k (length dps))) by (change (length ps = @length (num D) dps) in LN; lia).
  apply c_ln; [|exact P]. clear P LN. revert k K. induction F as [|f d ps dps C F IH]; intros k K; [cbn in K; lia|]. destruct k as [|k]; cbn [nth]; [exact C|]. apply IH. cbn in K. lia.
Qed.

(** ** Polynomials *)
Lemma c_id t : carries (fun u => u) t (Fin t, Fin 1).
Proof. exists 1. split; [reflexivity|apply derivable_pt_lim_id]. Qed.
Lemma c_horner_fold t l : forall f (d : D), carries f t d ->
  carries (fun u => poly l u + f u * u ^ length l) t
    (fold_left (fun result coeff : D => nadd (nmul result ((Fin t, Fin 1) : D)) coeff) (rev (map (fun c => (Fin c, Fin 0) : D) l)) d).
Proof.
  induction l as [|c l IH]; intros f d C.
  - cbn [map rev fold_left]. eapply c_ext; [exact C|]. intros u. unfold poly. cbn. ring.
  - cbn [map rev]. rewrite fold_left_app. cbn [fold_left]. eapply c_ext; [apply c_add; [apply c_mul; [apply IH, C|apply c_id]|apply (c_const c)]|].
    intros u. cbv beta. rewrite poly_cons. cbn [length pow]. unfold id. ring.
Qed.
Lemma c_horner cs t : carries (poly cs) t (horner (DirectEval (N := D)) (map (fun c => (Fin c, Fin 0) : D) cs) ((Fin t, Fin 1) : D)).
Proof.
  destruct cs as [|c [|b cs]].
  - cbn. unfold xdec, dlift. replace (0 / 1) with 0 by lra. eapply c_ext; [apply (c_const 0)|]. reflexivity.
  - cbn. eapply c_ext; [apply (c_const c)|]. intros u. unfold poly. cbn. ring.
  - assert (G : forall l, l <> [] -> carries (poly l) t (match rev (map (fun c => (Fin c, Fin 0) : D) l) with [] => @n0 D
                 | last :: rest => fold_left (fun result coeff : D => nadd (nmul result ((Fin t, Fin 1) : D)) coeff) rest last end)).
    { intros l NL. destruct (exists_last NL) as (l' & a & ->). rewrite map_app, rev_app_distr. cbn [map rev app].
      eapply c_ext; [apply (c_horner_fold t l' _ _ (c_const a t))|]. intros u. cbv beta. symmetry. apply poly_snoc. }
    apply (G (c :: b :: cs)). discriminate.
Qed.
Lemma dual_horner cs t : horner (DirectEval (N := D)) (map (fun c => (Fin c, Fin 0) : D) cs) ((Fin t, Fin 1) : D) =
  (horner (DirectEval (N := X)) (map (fun c => Fin c : X) cs) (Fin t : X), horner_derivative (DirectEval (N := X)) (map (fun c => Fin c : X) cs) (Fin t : X)).
Proof.
  destruct (c_horner cs t) as (l & E & H). destruct (direct_horner_derivative lg cs t) as (l' & E' & H'). rewrite E, (direct_horner lg cs t), E', (uniqueness_limite _ _ _ _ H H'). reflexivity.
Qed.

(** ** A closed form, and the helper that drops the tangent *)
Lemma normal_score m s x : 0 < s -> normal_ld (@mkNormal D (dual_of m 0) (dual_of s 0)) (dual_of x 1) = dual_of (ln (normal_pdf m s x)) (- ((x - m) / s ^ 2)).
Proof.
  intros P. pose proof (c_id x) as CX.
  destruct (dual_normal lg dg (fun _ => m) (fun _ => s) (fun u => u) x _ _ _ (c_const m x) (c_const s x) CX P) as (l & E & H). unfold dual_of in *. rewrite E. rewrite (uniqueness_limite _ _ _ (- ((x - m) / s ^ 2)) H); [reflexivity|].
  pose proof PI_RGT_0 as PP. assert (S2 : 0 < sqrt (2 * PI)) by (apply sqrt_lt_R0; lra).
  apply is_derive_Reals. apply (is_derive_ext (fun u => - ln (s * sqrt (2 * PI)) + - ((u - m) ^ 2 / (2 * s ^ 2)))).
  { intros u. unfold normal_pdf. rewrite (ln_mult (/ (s * sqrt (2 * PI)))); [|apply Rinv_0_lt_compat, Rmult_lt_0_compat; assumption|apply exp_pos]. rewrite ln_Rinv, ln_exp by (apply Rmult_lt_0_compat; assumption). reflexivity. }
  auto_derive; [exact I|]. field. lra.
Qed.
Lemma helper_drops m s x : 0 < s ->
  value_and_grad (fun d : D => fst d) (fun d : D => normal_ld (@mkNormal D (dual_of m 0) (dual_of s 0)) d) (dual_of x 1) = (Fin (ln (normal_pdf m s x)), Fin (ln (normal_pdf m s x))).
Proof. intros P. unfold value_and_grad, at_ad. rewrite normal_score by exact P. reflexivity. Qed.
Lemma zero_weight {T} (c c' : Measure D T) x a a' b b' : b_ld (m_self c) x = dual_of a a' -> b_ld (m_self c') x = dual_of b b' ->
  mixture_ld (mkMixture [c; c'] [dual_of 1 0; dual_of 0 0]) x = (Fin a, XNaN).
Proof.
  intros E E'. unfold mixture_ld. cbn [components weights combine map fst snd]. rewrite E, E'.
  assert (L1 : @nln D (dual_of 1 0) = (Fin 0, Fin 0)).
  { unfold dual_of. cbn -[Rltb Req_b ln]. unfold dln. cbn -[Rltb Req_b ln]. rewrite Rltb_t by lra. rewrite Req_b_f by lra. rewrite ln_1. do 2 f_equal. lra. }
  assert (L0 : @nln D (dual_of 0 0) = (NInf, XNaN)).
  { unfold dual_of. cbn -[Rltb Req_b ln]. unfold dln. cbn -[Rltb Req_b ln]. rewrite Rltb_f by lra. unfold Req_b. destruct (Req_EM_T 0 0) as [_|N]; [reflexivity|congruence]. }
  rewrite L1, L0. unfold CombModel.log_sum_exp. assert (E1 : @nadd D (Fin 0, Fin 0) (dual_of a a') = dual_of a a') by (unfold dual_of; cbn; unfold dadd; cbn; rewrite !Rplus_0_l; reflexivity). rewrite E1.
  change (@nadd D (NInf, XNaN) (dual_of b b')) with (NInf, XNaN). 
  change (@nadd D (dual_of a a') (nln (@nadd D (@nadd D n0 (nexp (@nsub D (dual_of a a') (dual_of a a')))) (nexp (@nsub D (NInf, XNaN) (dual_of a a'))))) = (Fin a, XNaN)).
  unfold dual_of. cbn -[exp ln Rltb Req_b xdec]. unfold dadd, dln, dexp, dsub. cbn -[exp ln Rltb Req_b xdec].
  replace (a + - a) with 0 by lra. rewrite exp_0.
  replace (xadd (xadd (xdec 0 1) (Fin 1)) (Fin 0)) with (Fin 1) by (unfold xdec; cbn; f_equal; lra). cbn -[ln Rltb Req_b].
  rewrite Rltb_t by lra. rewrite ln_1. cbn. do 2 f_equal. lra.
Qed.
End Du.
