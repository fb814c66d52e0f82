(** Products, weighted and integral measures, mixtures (C36-C38). *)
From Coquelicot Require Import Coquelicot.
From Coq Require Import ZArith Reals List Bool Lra Lia Arith Sorting.Permutation.
From Verif Require Import Num XRFacts DensitySpec BuilderProofs CoreModel CoreSpec CoreProofs
  CombModel CombSpec DistSpec DistFacts DistProofs DistProofs2 ExpFamProofs.
Import ListNotations.
Local Open Scope R_scope.
Local Open Scope list_scope.

Lemma Rsum_nil : Rsum [] = 0. Proof. reflexivity. Qed.
Lemma Rsum_cons x l : Rsum (x :: l) = x + Rsum l. Proof. reflexivity. Qed.
Lemma Rsum_perm l l' : Permutation l l' -> Rsum l = Rsum l'.
Proof. induction 1; rewrite ?Rsum_cons; lra. Qed.

(** ** log-densities *)
Lemma dens_nonneg a : 0 <= dens a.
Proof. destruct a; cbn; try lra. left; apply exp_pos. Qed.
Lemma logdens_add a b : is_logdens a -> is_logdens b ->
  is_logdens (xadd a b) /\ dens (xadd a b) = dens a * dens b.
Proof.
  intros [[x ->]| ->] [[y ->]| ->]; cbn; split; try (left; eexists; reflexivity); try (right; reflexivity); try lra.
  apply exp_plus.
Qed.
Lemma logdens_fin r : is_logdens (Fin r). Proof. left; eexists; reflexivity. Qed.
Lemma logdens_pos a : is_logdens a -> (a = NInf <-> dens a = 0).
Proof.
  intros [[x ->]| ->]; cbn; split; intros H; try discriminate; auto.
  pose proof (exp_pos x). lra.
Qed.
Lemma xadd_assoc a b c : xadd (xadd a b) c = xadd a (xadd b c).
Proof. destruct a, b, c; cbn; auto. f_equal. lra. Qed.
Lemma logdens_inj a b : is_logdens a -> is_logdens b -> dens a = dens b -> a = b.
Proof.
  intros [[x ->]| ->] [[y ->]| ->]; cbn; intros H; auto.
  - f_equal. apply exp_inv. exact H.
  - pose proof (exp_pos x). lra.
  - pose proof (exp_pos y). lra.
Qed.

Section Comb.
Context (lg : R -> R).
Notation X := (XR lg).

(** ** Products *)
Lemma rectangle {A B} (f : A -> R) (g : B -> R) s t :
  Rsum (map (fun xy => f (fst xy) * g (snd xy)) (list_prod s t)) = Rsum (map f s) * Rsum (map g t).
Proof.
  induction s as [|x s IH]; cbn [list_prod map]; [rewrite !Rsum_nil; ring|].
  rewrite map_app, Rsum_app, IH, map_map, Rsum_cons. cbn [fst snd]. rewrite Rsum_scale. ring.
Qed.

Lemma product_mass {A B} (m1 : Measure X A) (m2 : Measure X B) s t :
  (forall x, In x s -> is_logdens (b_ld m1 x)) -> (forall y, In y t -> is_logdens (b_ld m2 y)) ->
  mass (b_ld (product m1 m2)) (list_prod s t) = mass (b_ld m1) s * mass (b_ld m2) t.
Proof.
  intros H G. unfold mass. rewrite <- rectangle. f_equal. apply map_ext_in. intros [x y] I.
  apply in_prod_iff in I. destruct I as [I J]. cbn [product m_self product_base b_ld fst snd].
  apply (logdens_add _ _ (H x I) (G y J)).
Qed.

(** Relative densities of products. *)
Lemma product_relative {A B} lay l1 l2 (m1 b1 : Measure X A) (m2 b2 : Measure X B) x y :
  off_measure lay <> off_base lay -> off_measure l1 <> off_base l1 -> off_measure l2 <> off_base l2 ->
  finite (b_ld b1 x) -> finite (b_ld b2 y) ->
  at_ lay (wrt (log_density (product m1 m2)) (product b1 b2)) (x, y) =
  nadd (at_ l1 (wrt (log_density m1) b1) x) (at_ l2 (wrt (log_density m2) b2) y).
Proof.
  intros L L1 L2 (c1 & E1) (c2 & E2). rewrite !at_differs by assumption.
  cbn [wrt log_density ld_measure ld_base product m_self product_base b_ld fst snd]. rewrite E1, E2.
  cbn [nadd nsub XR]. destruct (b_ld m1 x), (b_ld m2 y); cbn; auto. f_equal. lra.
Qed.

(** ** log_sum_exp *)
Definition pick (acc x : X) : X := if nltb acc x then x else acc.
Lemma pick_logdens (a x : X) : is_logdens a -> is_logdens x -> is_logdens (pick a x).
Proof. unfold pick. intros; destruct (nltb a x); assumption. Qed.
Lemma pick_ninf (a x : X) : is_logdens a -> is_logdens x -> pick a x = NInf -> a = NInf /\ x = NInf.
Proof.
  unfold pick. cbn [nltb XR]. intros [[r ->]| ->] [[s ->]| ->]; cbn; intros H; auto; try discriminate.
  destruct (Rltb r s); discriminate.
Qed.
Lemma fold_pick (l : list X) : forall a : X, is_logdens a -> Forall is_logdens l ->
  is_logdens (fold_left pick l a) /\
  (fold_left pick l a = NInf -> a = NInf /\ Forall (fun x => x = NInf) l).
Proof.
  induction l as [|x l IH]; intros a A F; cbn [fold_left]; [split; auto|].
  inversion F as [|? ? Fx Fl]; subst.
  destruct (IH (pick a x) (pick_logdens a x A Fx) Fl) as [I J]. split; [exact I|].
  intros E. destruct (J E) as [P Q]. destruct (pick_ninf a x A Fx P). auto.
Qed.
Lemma dens_all_ninf l : Forall (fun x => x = NInf) l -> Rsum (map dens l) = 0.
Proof.
  induction 1 as [|x l E F IH]; cbn [map]; [apply Rsum_nil|]. rewrite Rsum_cons, IH, E. cbn. lra.
Qed.
Lemma fold_shift m : forall (l : list X) a, Forall is_logdens l ->
  fold_left (@nadd X) (map (fun x => nexp (nsub x (Fin m : X))) l) (Fin a : X) =
  Fin (a + Rsum (map dens l) * exp (- m)).
Proof.
  induction l as [|x l IH]; intros a F; cbn [map fold_left].
  - rewrite Rsum_nil. f_equal. lra.
  - inversion F as [|? ? Fx Fl]; subst.
    assert (E : (nexp (nsub x (Fin m : X)) : X) = Fin (dens x * exp (- m))).
    { destruct Fx as [[r ->]| ->]; cbn; f_equal; [rewrite <- exp_plus; f_equal; lra|lra]. }
    rewrite E. cbn [nadd XR]. rewrite xadd_Fin, IH by exact Fl. rewrite Rsum_cons. f_equal. ring.
Qed.
Lemma Rsum_dens_nonneg l : 0 <= Rsum (map dens l).
Proof.
  induction l as [|x l IH]; cbn [map]; [rewrite Rsum_nil; lra|]. rewrite Rsum_cons.
  pose proof (dens_nonneg x). lra.
Qed.
Lemma Rsum_dens_zero l : Forall is_logdens l -> Rsum (map dens l) = 0 -> Forall (fun x => x = NInf) l.
Proof.
  induction 1 as [|x l Fx Fl IH]; intros E; constructor; cbn [map] in E; rewrite Rsum_cons in E;
    pose proof (dens_nonneg x); pose proof (Rsum_dens_nonneg l).
  - apply logdens_pos; auto. lra.
  - apply IH. lra.
Qed.
Lemma lse_correct (l : list X) : Forall is_logdens l ->
  is_logdens (log_sum_exp l) /\ dens (log_sum_exp l) = Rsum (map dens l).
Proof.
  intros F. unfold log_sum_exp. destruct l as [|x0 l0].
  { split; [right; reflexivity|]. cbn [map]. rewrite Rsum_nil. reflexivity. }
  remember (x0 :: l0) as l. clear Heql x0 l0.
  change (fold_left (fun acc x : X => if nltb acc x then x else acc) l nninf) with (fold_left pick l NInf).
  assert (Hn : is_logdens NInf) by (right; reflexivity).
  destruct (fold_pick l NInf Hn F) as [[[m E]|E] J]; rewrite E in *.
  - change (is_neg_inf (Fin m : X)) with false. cbn [negb].
    rewrite x_n0, fold_shift by exact F. rewrite Rplus_0_l.
    assert (0 < Rsum (map dens l)).
    { destruct (Rsum_dens_nonneg l) as [P|P]; [exact P|]. symmetry in P. apply Rsum_dens_zero in P; [|exact F].
      exfalso. clear J F. assert (K : fold_left pick l NInf = NInf).
      { clear E. induction P as [|x l -> P IH]; [reflexivity|]. cbn [fold_left]. exact IH. }
      rewrite K in E. discriminate. }
    pose proof (exp_pos (- m)). assert (0 < Rsum (map dens l) * exp (- m)) by (apply Rmult_lt_0_compat; assumption).
    cbn [nadd nln XR]. rewrite xln_pos by assumption. rewrite xadd_Fin. split; [apply logdens_fin|].
    cbn [dens]. rewrite exp_plus, exp_ln by assumption.
    rewrite exp_Ropp. field. pose proof (exp_pos m). lra.
  - change (is_neg_inf (NInf : X)) with true. cbn iota. split; [right; reflexivity|].
    destruct (J eq_refl) as [_ Q]. rewrite dens_all_ninf by exact Q. reflexivity.
Qed.

(** ** Mixtures *)
Lemma ln_weight w : 0 <= w -> is_logdens (nln (Fin w : X)) /\ dens (nln (Fin w : X)) = w.
Proof.
  intros H. cbn [nln XR]. destruct H as [H| <-].
  - rewrite xln_pos by exact H. split; [apply logdens_fin|]. cbn. apply exp_ln, H.
  - rewrite xln_zero. split; [right; reflexivity|reflexivity].
Qed.
Lemma mixture_terms {A} (ws : list R) : forall (cs : list (Measure X A)) x,
  Forall (fun w => 0 <= w) ws -> Forall (fun c : Measure X A => is_logdens (b_ld (m_self c) x)) cs ->
  Forall is_logdens (map (fun cw : Measure X A * X => nadd (nln (snd cw)) (b_ld (m_self (fst cw)) x)) (combine cs (fins ws : list X))) /\
  Rsum (map dens (map (fun cw : Measure X A * X => nadd (nln (snd cw)) (b_ld (m_self (fst cw)) x)) (combine cs (fins ws : list X)))) =
  mixture_density ws (map (fun c : Measure X _ => b_ld (m_self c)) cs) x.
Proof.
  induction ws as [|w ws IH]; intros cs x F G.
  - destruct cs; cbn; split; auto.
  - destruct cs as [|c cs]; [cbn; split; auto|].
    inversion F as [|? ? Fw Fl]; inversion G as [|? ? Gc Gl]; subst.
    destruct (IH cs x Fl Gl) as [P Q]. destruct (ln_weight w Fw) as [R1 R2].
    destruct (logdens_add _ _ R1 Gc) as [S1 S2].
    cbn [fins map combine fst snd]. split; [constructor; [exact S1|exact P]|].
    unfold mixture_density. cbn [combine map fst snd]. rewrite !Rsum_cons.
    unfold mixture_density in Q. unfold fins in Q. rewrite Q. cbn [nadd XR] in *. rewrite S2, R2. reflexivity.
Qed.
Lemma mixture_correct {A} (ws : list R) (cs : list (Measure X A)) x :
  Forall (fun w => 0 <= w) ws -> Forall (fun c : Measure X A => is_logdens (b_ld (m_self c) x)) cs ->
  is_logdens (mixture_ld (mkMixture cs (fins ws : list X)) x) /\
  dens (mixture_ld (mkMixture cs (fins ws : list X)) x) = mixture_density ws (map (fun c : Measure X _ => b_ld (m_self c)) cs) x.
Proof.
  intros F G. destruct (mixture_terms ws cs x F G) as [P Q]. destruct (lse_correct _ P) as [R1 R2].
  unfold mixture_ld. cbn [components weights]. rewrite <- Q, <- R2. destruct cs; [|split; [exact R1|reflexivity]].
  split; [right; reflexivity|]. cbn. reflexivity.
Qed.

Lemma mixture_order {A} (ws ws' : list R) (cs cs' : list (Measure X A)) x :
  Forall (fun w => 0 <= w) ws -> Forall (fun w => 0 <= w) ws' ->
  Forall (fun c : Measure X A => is_logdens (b_ld (m_self c) x)) cs -> Forall (fun c : Measure X A => is_logdens (b_ld (m_self c) x)) cs' ->
  Permutation (combine ws cs) (combine ws' cs') ->
  mixture_ld (mkMixture cs (fins ws : list X)) x = mixture_ld (mkMixture cs' (fins ws' : list X)) x.
Proof.
  intros F F' G G' P.
  destruct (mixture_correct ws cs x F G) as [A1 A2]. destruct (mixture_correct ws' cs' x F' G') as [B1 B2].
  apply logdens_inj; auto. rewrite A2, B2. unfold mixture_density.
  assert (E : forall (ws : list R) (cs : list (Measure X A)),
    map (fun wc => fst wc * dens (snd wc x)) (combine ws (map (fun c : Measure X _ => b_ld (m_self c)) cs)) =
    map (fun wc : R * Measure X A => fst wc * dens (b_ld (m_self (snd wc)) x)) (combine ws cs)).
  { clear. induction ws as [|w ws IH]; intros [|c cs]; cbn; auto. f_equal. apply IH. }
  rewrite !E. apply Rsum_perm, Permutation_map, P.
Qed.

Lemma mixture_support_iff {A} (ws : list R) (cs : list (Measure X A)) x :
  mixture_in_support (mkMixture cs (fins ws : list X)) x = true <->
  exists w c, In (c, w) (combine cs ws) /\ 0 < w /\ b_support c x = true.
Proof.
  unfold mixture_in_support. cbn [components weights]. rewrite existsb_exists. unfold fins.
  assert (E : forall (ws : list R) (cs : list (Measure X A)),
    combine cs (map Fin ws : list X) = map (fun cw => (fst cw, Fin (snd cw) : X)) (combine cs ws)).
  { clear. induction ws as [|w ws IH]; intros [|c cs]; cbn; auto. f_equal. apply IH. }
  rewrite E. split.
  - intros ([c w] & I & H). apply in_map_iff in I. destruct I as ([c' w'] & K & I). cbn [fst snd] in *.
    injection K as -> <-. apply andb_prop in H. destruct H as [H1 H2].
    rewrite x_ltb0 in H1. exists w', c. split; [exact I|]. split; [apply Rltb_true, H1|exact H2].
  - intros (w & c & I & W & S). exists (c, Fin w : X). split.
    + apply in_map_iff. exists (c, w). auto.
    + cbn [fst snd]. rewrite x_ltb0, Rltb_t by exact W. exact S.
Qed.

(** Sums over all naturals are linear. *)
Lemma sums_to_plus f g a b : sums_to f a -> sums_to g b -> sums_to (fun n => f n + g n) (a + b).
Proof.
  unfold sums_to. intros F G. apply is_series_Reals. apply is_series_Reals in F. apply is_series_Reals in G.
  apply (is_series_plus (V := R_NormedModule) f g a b F G).
Qed.
Lemma sums_to_scale c f a : sums_to f a -> sums_to (fun n => c * f n) (c * a).
Proof.
  unfold sums_to. intros F. apply is_series_Reals. apply is_series_Reals in F.
  apply (is_series_scal_l (V := R_NormedModule) c f a F).
Qed.
Lemma sums_to_zero : sums_to (fun _ => 0) 0.
Proof.
  intros eps E. exists 0%nat. intros n _. rewrite sum_cte, Rmult_0_l. unfold R_dist.
  rewrite Rminus_0_r, Rabs_R0. exact E.
Qed.
Lemma sums_to_ext f g a : (forall n, f n = g n) -> sums_to f a -> sums_to g a.
Proof.
  intros E F. apply is_series_Reals. apply is_series_Reals in F.
  apply (is_series_ext f g a E F).
Qed.
Lemma mixture_density_sums (ws : list R) : forall (lds : list (nat -> xreal)) totals,
  Forall2 (fun ld t => sums_to (fun n => dens (ld n)) t) lds totals -> length ws = length lds ->
  sums_to (mixture_density ws lds) (Rsum (map (fun p => fst p * snd p) (combine ws totals))).
Proof.
  induction ws as [|w ws IH]; intros lds totals F L.
  - destruct lds; [|discriminate]. inversion F; subst. cbn [combine map]. rewrite Rsum_nil.
    eapply sums_to_ext; [|apply sums_to_zero]. intros n. unfold mixture_density. cbn [combine map].
    symmetry; apply Rsum_nil.
  - destruct lds as [|ld lds]; [discriminate|]. inversion F as [|? t ? ts H1 H2]; subst.
    cbn [combine map fst snd]. rewrite Rsum_cons. cbn [length] in L.
    eapply sums_to_ext; [|apply sums_to_plus; [apply (sums_to_scale w), H1|apply (IH lds ts H2); lia]].
    intros n. cbn beta. unfold mixture_density. cbn [combine map fst snd]. rewrite Rsum_cons. reflexivity.
Qed.
Lemma mixture_normalised (ws : list R) (cs : list (Measure X nat)) :
  Forall (fun w => 0 <= w) ws -> Rsum ws = 1 -> length ws = length cs ->
  (forall c k, In c cs -> is_logdens (b_ld (m_self c) k)) ->
  (forall c, In c cs -> sums_to (fun k => dens (b_ld (m_self c) k)) 1) ->
  sums_to (fun k => dens (mixture_ld (mkMixture cs (fins ws : list X)) k)) 1.
Proof.
  intros F S1 L G N.
  assert (E : Rsum (map (fun p => fst p * snd p) (combine ws (repeat 1 (length cs)))) = 1).
  { rewrite <- L. transitivity (Rsum ws); [|exact S1]. clear. induction ws as [|w ws IH]; [reflexivity|]. cbn [length repeat combine map fst snd].
    rewrite !Rsum_cons, IH. ring. }
  eapply sums_to_ext; [|rewrite <- E; apply (mixture_density_sums ws (map (fun c : Measure X _ => b_ld (m_self c)) cs))].
  - intros k. symmetry. apply mixture_correct; [exact F|]. apply Forall_forall. intros c I. apply G, I.
  - clear - N. induction cs as [|c cs IH]; cbn; constructor; [apply N; left; reflexivity|].
    apply IH. intros c' I. apply N. right; exact I.
  - rewrite map_length. exact L.
Qed.
Lemma mixture_interval (ws : list R) : forall (lds : list (xreal -> xreal)) totals a b,
  Forall2 (fun ld t => mass_between ld a b t) lds totals -> length ws = length lds ->
  is_RInt (fun x => mixture_density ws lds (Fin x)) a b (Rsum (map (fun p => fst p * snd p) (combine ws totals))).
Proof.
  induction ws as [|w ws IH]; intros lds totals a b F L.
  - destruct lds; [|discriminate]. inversion F; subst. cbn [combine map]. rewrite Rsum_nil.
    apply (is_RInt_ext (fun _ => 0)); [intros; unfold mixture_density; cbn [combine map]; rewrite Rsum_nil; reflexivity|].
    pose proof (is_RInt_const (V := R_NormedModule) a b 0) as K.
    replace (scal (b - a) (0 : R_NormedModule)) with 0 in K by (unfold scal; cbn; unfold mult; cbn; ring).
    exact K.
  - destruct lds as [|ld lds]; [discriminate|]. inversion F as [|? t ? ts H1 H2]; subst.
    cbn [combine map fst snd]. rewrite Rsum_cons. cbn [length] in L.
    apply (is_RInt_ext (fun x => plus (scal w (dens (ld (Fin x)))) (mixture_density ws lds (Fin x)))).
    + intros x _. unfold mixture_density. cbn [combine map fst snd]. rewrite Rsum_cons. reflexivity.
    + apply (is_RInt_plus (V := R_NormedModule)); [apply (is_RInt_scal (V := R_NormedModule)), H1|apply (IH lds ts a b H2); lia].
Qed.
Lemma mixture_density_nonneg {A} ws : forall (lds : list (A -> xreal)) x, Forall (fun w => 0 <= w) ws ->
  0 <= mixture_density ws lds x.
Proof.
  induction ws as [|w ws IH]; intros [|ld lds] x F; unfold mixture_density; cbn [combine map]; rewrite ?Rsum_nil; try lra.
  inversion F as [|? ? Fw Fl]; subst. rewrite Rsum_cons. cbn [fst snd].
  specialize (IH lds x Fl). unfold mixture_density in IH. pose proof (dens_nonneg (ld x)).
  assert (0 <= w * dens (ld x)) by (apply Rmult_le_pos; assumption). lra.
Qed.
Lemma mixture_density_zero {A} ws : forall (lds : list (A -> xreal)) x, Forall (fun w => 0 <= w) ws ->
  (mixture_density ws lds x = 0 <-> forall w ld, In (w, ld) (combine ws lds) -> w = 0 \/ dens (ld x) = 0).
Proof.
  induction ws as [|w ws IH]; intros [|ld lds] x F; unfold mixture_density; cbn [combine map];
    try (rewrite Rsum_nil; split; [intros _ ? ? []|reflexivity]).
  inversion F as [|? ? Fw Fl]; subst. rewrite Rsum_cons. cbn [fst snd].
  pose proof (mixture_density_nonneg ws lds x Fl) as N. specialize (IH lds x Fl).
  unfold mixture_density in IH, N. pose proof (dens_nonneg (ld x)).
  assert (0 <= w * dens (ld x)) by (apply Rmult_le_pos; assumption). split.
  - intros E w' ld' [K|K].
    + injection K as <- <-. apply Rmult_integral. lra.
    + apply (proj1 IH); [lra|exact K].
  - intros K. assert (E : w * dens (ld x) = 0).
    { destruct (K w ld (or_introl eq_refl)) as [-> | ->]; ring. }
    rewrite E, (proj2 IH); [ring|]. intros w' ld' I. apply K. right; exact I.
Qed.
Lemma mixture_ninf {A} (ws : list R) (cs : list (Measure X A)) x :
  Forall (fun w => 0 <= w) ws -> Forall (fun c : Measure X A => is_logdens (b_ld c x)) cs ->
  (mixture_ld (mkMixture cs (fins ws : list X)) x = NInf <->
   forall w c, In (w, c) (combine ws cs) -> w = 0 \/ b_ld c x = NInf).
Proof.
  intros F G. destruct (mixture_correct ws cs x F G) as [P Q].
  rewrite (logdens_pos _ P), Q, mixture_density_zero by exact F. rewrite Forall_forall in G.
  assert (E : combine ws (map (fun c : Measure X A => b_ld c) cs : list (A -> xreal)) =
              map (fun wc : R * Measure X A => (fst wc, b_ld (m_self (snd wc)) : A -> xreal)) (combine ws cs)).
  { clear. revert cs. induction ws as [|w ws IH]; intros [|c cs]; cbn; auto. f_equal. apply IH. }
  rewrite E. split.
  - intros H w c I. destruct (H w (b_ld c : A -> xreal)) as [K|K]; [|left; exact K|].
    + apply in_map_iff. exists (w, c). auto.
    + right. apply logdens_pos; [|exact K]. apply G. eapply in_combine_r. exact I.
  - intros H w ld I. apply in_map_iff in I. destruct I as ([w' c] & K & I). cbn [fst snd] in K.
    injection K as <- <-. destruct (H w' c I) as [K|K]; [left; exact K|right].
    change (b_ld (m_self c) x) with (b_ld c x). rewrite K. reflexivity.
Qed.
Lemma mixture_mass_between (ws : list R) (cs : list (Measure X X)) masses a b :
  Forall (fun w => 0 <= w) ws -> length ws = length cs ->
  (forall c x, In c cs -> is_logdens (b_ld (m_self c) (Fin x))) ->
  Forall2 (fun (c : Measure X X) t => mass_between (b_ld c) a b t) cs masses ->
  mass_between (mixture_ld (mkMixture cs (fins ws : list X))) a b
    (Rsum (map (fun p => fst p * snd p) (combine ws masses))).
Proof.
  intros F L G M. unfold mass_between. eapply is_RInt_ext; [|apply (mixture_interval ws (map (fun c : Measure X X => b_ld c) cs))].
  - intros x _. symmetry. apply mixture_correct; [exact F|]. apply Forall_forall. intros c I. apply G, I.
  - clear - M. induction M; cbn; constructor; auto.
  - rewrite map_length. exact L.
Qed.
Lemma mixture2_ok {A} (a b : Measure X A) w1 w2 : 0 < w1 + w2 ->
  mixture2 a b (Fin w1 : X) (Fin w2 : X) =
  Some (mkMixture [a; b] (fins [w1 / (w1 + w2); w2 / (w1 + w2)] : list X)).
Proof.
  intros H. unfold mixture2, mixture_new. cbn [length Nat.eqb fold_left].
  cbn [nadd nsub ndiv nabs XR]. rewrite xadd_Fin, !xdiv_fin by lra. rewrite x_n0, x_n1, !xadd_Fin, xsub_Fin, xabs_Fin.
  replace (0 + w1 / (w1 + w2) + w2 / (w1 + w2) - 1) with 0 by (field; lra). rewrite Rabs_R0.
  unfold tolerance. rewrite x_dec. cbn [nltb XR xltb]. rewrite Rltb_t by lra. reflexivity.
Qed.
Lemma mixture_uniform_ok {A} (cs : list (Measure X A)) : cs <> [] ->
  mixture_uniform cs = Some (mkMixture cs (fins (repeat (/ INR (length cs)) (length cs)) : list X)).
Proof.
  intros H. assert (L : (0 < length cs)%nat) by (destruct cs; [congruence|cbn; lia]).
  unfold mixture_uniform. rewrite x_uniform_weights by exact L.
  assert (Q : returns (mixture_new cs (fins (repeat (/ INR (length cs)) (length cs)) : list X))).
  { apply mixture_new_iff. split; [rewrite repeat_length; reflexivity|apply uniform_sum, L]. }
  destruct Q as [d E]. rewrite E. unfold mixture_new in E. destruct (Nat.eqb _ _); [|discriminate]. destruct (nltb _ _); [|discriminate]. symmetry. exact E.
Qed.
Lemma uniform_average {A} (cs : list (Measure X A)) x :
  cs <> [] -> Forall (fun c : Measure X A => is_logdens (b_ld (m_self c) x)) cs ->
  exists m, mixture_uniform cs = Some m /\ is_logdens (mixture_ld m x) /\
    dens (mixture_ld m x) = Rsum (map (fun c : Measure X A => dens (b_ld (m_self c) x)) cs) / INR (length cs).
Proof.
  intros H D. eexists. split; [apply mixture_uniform_ok, H|].
  assert (W : Forall (fun w => 0 <= w) (repeat (/ INR (length cs)) (length cs))).
  { apply Forall_forall. intros w I. apply repeat_spec in I. subst w. destruct cs; [congruence|]. left. apply Rinv_0_lt_compat, lt_0_INR. cbn; lia. }
  destruct (mixture_correct _ cs x W D) as [P Q]. split; [exact P|]. rewrite Q. unfold mixture_density.
  unfold Rdiv. rewrite Rmult_comm. generalize (/ INR (length cs)). intros r. clear. induction cs as [|a cs IH]; [cbn; ring|]. cbn [length repeat map combine]. rewrite !Rsum_cons, IH. cbn [fst snd]. ring.
Qed.
Lemma uniform_average2 {A} (a b : Measure X A) x : is_logdens (b_ld (m_self a) x) -> is_logdens (b_ld (m_self b) x) ->
  exists m, uniform_mixture2 a b = Some m /\ is_logdens (mixture_ld m x) /\
    dens (mixture_ld m x) = (dens (b_ld (m_self a) x) + dens (b_ld (m_self b) x)) / 2.
Proof.
  intros P Q. destruct (uniform_average [a; b] x) as (m & E & D & V); [discriminate|auto|]. exists m. split; [exact E|]. split; [exact D|].
  rewrite V. cbn. field.
Qed.
End Comb.
