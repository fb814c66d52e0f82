(** Constructors (C34) and supports (C33). *)
From Coq Require Import ZArith Reals List Bool Lra Lia Arith.
From Coq Require Import Floats.SpecFloat.
From Flocq Require Import Core IEEE754.BinarySingleNaN.
From Verif Require Import Num XRFacts DensitySpec BuilderProofs CoreModel CoreSpec CoreProofs
  CombModel ExpFamModel DistModel DistSpec DistFacts DistProofs.
Import ListNotations.
Local Open Scope R_scope.
Local Open Scope list_scope.

(** ** Comparisons with literals *)
Section XRc.
Context (lg : R -> R).
Lemma x_pos_iff (v : XR lg) : nltb (n0 : XR lg) v = true <-> xpos v.
Proof.
  rewrite x_n0. destruct v as [r| | |]; cbn [XR nltb xltb xpos]; try (split; [discriminate|tauto]);
    try tauto. apply Rltb_true.
Qed.
Lemma x_prob_iff (v : XR lg) : nleb (n0 : XR lg) v && nleb v (n1 : XR lg) = true <-> xprob v.
Proof.
  rewrite x_n0, x_n1. destruct v as [r| | |]; cbn [XR nleb xleb xltb xeqb orb andb xprob];
    try (split; [discriminate|tauto]).
  change (xleb (Fin 0) (Fin r) && xleb (Fin r) (Fin 1) = true <-> 0 <= r <= 1).
  rewrite !xleb_fin, andb_true_iff, !Rleb_true. tauto.
Qed.
Lemma x_geo_iff (v : XR lg) : nltb (n0 : XR lg) v && nleb v (n1 : XR lg) = true <-> xprob v /\ xpos v.
Proof.
  rewrite andb_true_iff, x_pos_iff. rewrite x_n1. destruct v as [r| | |];
   cbn [XR nleb xleb xltb xeqb orb xprob xpos]; try (split; [intros [? ?]; try discriminate; tauto | tauto]).
  change (0 < r /\ xleb (Fin r) (Fin 1) = true <-> 0 <= r <= 1 /\ 0 < r).
  rewrite xleb_fin, Rleb_true. split; intros; lra.
Qed.
Lemma x_nb_iff (v : XR lg) : nltb (n0 : XR lg) v && nltb v (n1 : XR lg) = true <-> exists p, v = Fin p /\ 0 < p < 1.
Proof.
  rewrite andb_true_iff, x_pos_iff. rewrite x_n1. destruct v as [r| | |];
   cbn [XR nltb xltb xpos]; try (split; [intros [? ?]; try discriminate; tauto | intros (p & E & _); discriminate]).
  rewrite Rltb_true. split; [intros H; exists r; auto|]. intros (p & E & H). injection E as ->. exact H.
Qed.
End XRc.

Section F64c.
Context (L : libm).
Lemma B2R_one : exists o : b64, B2SF o = (n1 : F64 L) /\ is_finite o = true /\ B2R o = 1.
Proof.
  assert (V : valid_binary 53 1024 (S754_finite false 4503599627370496 (-52)) = true) by reflexivity.
  exists (SF2B _ V). rewrite B2SF_SF2B, is_finite_SF2B, B2R_SF2B.
  split; [unfold n1, nint; cbn [F64 ndec]; vm_compute; reflexivity|].
  split; [reflexivity|]. unfold SF2R, F2R. simpl. lra.
Qed.
Lemma f_n0 : (n0 : F64 L) = S754_zero false. Proof. reflexivity. Qed.

Lemma f_pos_iff (v : b64) : @nltb (F64 L) n0 (B2SF v) = true <-> bpos v.
Proof.
  rewrite f_n0. change (S754_zero false) with (B2SF (B754_zero false : b64)).
  change (@nltb (F64 L) (B2SF (B754_zero false : b64)) (B2SF v)) with (Bltb (B754_zero false : b64) v).
  unfold bpos. destruct (is_finite v) eqn:E.
  - rewrite Bltb_correct by (auto; reflexivity). change (B2R (B754_zero false : b64)) with 0.
    destruct (Rlt_bool_spec 0 (B2R v)).
    + split; auto.
    + split; [discriminate|]. intros [->|[_ ?]]; [discriminate|lra].
  - destruct v as [s|[|]| |]; try discriminate E; cbn.
    + split; [discriminate|]. intros [H|[H _]]; discriminate.
    + split; auto.
    + split; [discriminate|]. intros [H|[H _]]; discriminate.
Qed.
Lemma f_leb0_iff (v : b64) : @nleb (F64 L) n0 (B2SF v) = true <->
  v = B754_infinity false \/ (is_finite v = true /\ 0 <= B2R v).
Proof.
  rewrite f_n0. change (S754_zero false) with (B2SF (B754_zero false : b64)).
  change (@nleb (F64 L) (B2SF (B754_zero false : b64)) (B2SF v)) with (Bleb (B754_zero false : b64) v).
  destruct (is_finite v) eqn:E.
  - rewrite Bleb_correct by (auto; reflexivity). change (B2R (B754_zero false : b64)) with 0.
    destruct (Rle_bool_spec 0 (B2R v)).
    + split; auto.
    + split; [discriminate|]. intros [->|[_ ?]]; [discriminate|lra].
  - destruct v as [s|[|]| |]; try discriminate E; cbn.
    + split; [discriminate|]. intros [H|[H _]]; discriminate.
    + split; auto.
    + split; [discriminate|]. intros [H|[H _]]; discriminate.
Qed.
Lemma f_leb1_iff (v : b64) : @nleb (F64 L) (B2SF v) n1 = true <->
  v = B754_infinity true \/ (is_finite v = true /\ B2R v <= 1).
Proof.
  destruct B2R_one as (o & E1 & F1 & V1). rewrite <- E1.
  change (@nleb (F64 L) (B2SF v) (B2SF o)) with (Bleb v o).
  destruct (is_finite v) eqn:E.
  - rewrite Bleb_correct, V1 by auto.
    destruct (Rle_bool_spec (B2R v) 1).
    + split; auto.
    + split; [discriminate|]. intros [->|[_ ?]]; [discriminate|lra].
  - destruct o as [so|so| |so mo eo Ho]; try discriminate F1; destruct v as [s|[|]| |]; try discriminate E; cbn;
      try (split; [discriminate|intros [H|[H _]]; discriminate]); split; auto.
Qed.
Lemma f_ltb1_iff (v : b64) : @nltb (F64 L) (B2SF v) n1 = true <->
  v = B754_infinity true \/ (is_finite v = true /\ B2R v < 1).
Proof.
  destruct B2R_one as (o & E1 & F1 & V1). rewrite <- E1.
  change (@nltb (F64 L) (B2SF v) (B2SF o)) with (Bltb v o).
  destruct (is_finite v) eqn:E.
  - rewrite Bltb_correct, V1 by auto.
    destruct (Rlt_bool_spec (B2R v) 1).
    + split; auto.
    + split; [discriminate|]. intros [->|[_ ?]]; [discriminate|lra].
  - destruct o as [so|so| |so mo eo Ho]; try discriminate F1; destruct v as [s|[|]| |]; try discriminate E; cbn;
      try (split; [discriminate|intros [H|[H _]]; discriminate]); split; auto.
Qed.
Lemma f_prob_iff (v : b64) : @nleb (F64 L) n0 (B2SF v) && @nleb (F64 L) (B2SF v) n1 = true <-> bprob v.
Proof.
  rewrite andb_true_iff, f_leb0_iff, f_leb1_iff. unfold bprob. split.
  - intros [[A|[A A']] [B|[B B']]]; subst; try discriminate. auto.
  - intros [F [A B]]. auto.
Qed.
Lemma f_geo_iff (v : b64) : @nltb (F64 L) n0 (B2SF v) && @nleb (F64 L) (B2SF v) n1 = true <->
  is_finite v = true /\ 0 < B2R v <= 1.
Proof.
  rewrite andb_true_iff, f_pos_iff, f_leb1_iff. unfold bpos. split.
  - intros [[A|[A A']] [B|[B B']]]; subst; try discriminate. auto.
  - intros [F [A B]]. auto.
Qed.
Lemma f_nb_iff (v : b64) : @nltb (F64 L) n0 (B2SF v) && @nltb (F64 L) (B2SF v) n1 = true <->
  is_finite v = true /\ 0 < B2R v < 1.
Proof.
  rewrite andb_true_iff, f_pos_iff, f_ltb1_iff. unfold bpos. split.
  - intros [[A|[A A']] [B|[B B']]]; subst; try discriminate. auto.
  - intros [F [A B]]. auto.
Qed.
End F64c.

(** ** Constructors, for any number type *)
Section Ctor.
Context {N : Num}.
Ltac ctor := intros; split; [intros [d E]; repeat match type of E with context[if ?c then _ else _] =>
    destruct c eqn:?; try discriminate E end; auto | ].
Lemma returns_if {A} (c : bool) (x : A) : returns (if c then Some x else None) <-> c = true.
Proof. destruct c; split; intros H; auto; [exists x; auto|destruct H; discriminate|discriminate]. Qed.
Lemma returns_if2 {A} (c c' : bool) (x : A) :
  returns (if c then if c' then Some x else None else None) <-> c = true /\ c' = true.
Proof.
  destruct c; [rewrite returns_if; tauto|]. split; [intros [? H]; discriminate|intros [H _]; discriminate].
Qed.
End Ctor.

(** ** Sums close to one *)
Section Cat.
Context (lg : R -> R).
Notation X := (XR lg).
Lemma x_fold_fins ps : fold_left (@nadd X) (fins ps) (n0 : X) = Fin (Rsum ps).
Proof. rewrite fold_left_xsum, x_n0, xadd_0_l. apply xsum_fins. Qed.
Lemma x_tolerance ps :
  nltb (nabs (nsub (fold_left (@nadd X) (fins ps) (n0 : X)) (n1 : X))) (tolerance : X) = true <->
  Rabs (Rsum ps - 1) < / 10 ^ 10.
Proof.
  rewrite x_fold_fins, x_n1. unfold tolerance. rewrite x_dec. xr_ops. rewrite xsub_Fin, xabs_Fin.
  cbn [xltb]. rewrite Rltb_true. replace (IZR 1 / 10000000000) with (/ 10 ^ 10) by (cbn [pow]; field).
  tauto.
Qed.
Lemma categorical_new_iff ps : returns (categorical_new (fins ps : list X)) <->
  ps <> [] /\ Forall (fun p => 0 <= p) ps /\ Rabs (Rsum ps - 1) < / 10 ^ 10.
Proof.
  unfold categorical_new. destruct ps as [|p ps].
  - split; [intros [? H]; discriminate|tauto].
  - cbn [fins map]. change (Fin p :: map Fin ps) with (fins (p :: ps)).
    match goal with |- context[if forallb ?f ?l then _ else _] =>
      assert (E : forallb f l = true <-> Forall (fun p => 0 <= p) (p :: ps)) end.
    { rewrite forallb_forall, Forall_forall. split; intros H q Hq.
      - specialize (H (Fin q) (in_map Fin _ _ Hq)). cbv beta in H. rewrite x_leb0 in H.
        apply Rleb_true; exact H.
      - apply in_map_iff in Hq. destruct Hq as (r & <- & Hr). rewrite x_leb0. apply Rleb_true. auto. }
    change (@cons xreal (Fin p) (map Fin ps)) with (fins (p :: ps)).
    rewrite returns_if2, x_tolerance, E. split; [intros [A B]|intros (_ & A & B)]; auto.
    split; [discriminate|auto].
Qed.
Lemma categorical_new_keeps ps d : categorical_new (ps : list X) = Some d -> ca_probs d = ps.
Proof.
  unfold categorical_new. destruct ps as [|p ps]; [discriminate|].
  destruct (forallb _ _); [|discriminate]. destruct (nltb _ _); [|discriminate].
  intros H; injection H as <-; reflexivity.
Qed.
Lemma Rsum_repeat a k : Rsum (repeat a k) = INR k * a.
Proof.
  induction k as [|k IH]; [cbn; lra|]. rewrite S_INR. change (a + Rsum (repeat a k) = (INR k + 1) * a).
  rewrite IH. lra.
Qed.
Lemma map_repeat' {A B} (f : A -> B) a k : map f (repeat a k) = repeat (f a) k.
Proof. induction k; cbn; congruence. Qed.
Lemma x_uniform_weights k : (0 < k)%nat ->
  repeat (ndiv (n1 : X) (nofn k)) k = fins (repeat (/ INR k) k).
Proof.
  intros K. assert (0 < INR k) by (apply lt_0_INR; exact K).
  rewrite x_n1, x_nofn. xr_ops. rewrite xdiv_fin by lra. replace (1 / INR k) with (/ INR k) by lra.
  unfold fins. rewrite map_repeat'. reflexivity.
Qed.
Lemma uniform_sum k : (0 < k)%nat -> Rabs (Rsum (repeat (/ INR k) k) - 1) < / 10 ^ 10.
Proof.
  intros K. assert (0 < INR k) by (apply lt_0_INR; exact K). rewrite Rsum_repeat, Rinv_r, Rminus_diag_eq by lra.
  rewrite Rabs_R0. apply Rinv_0_lt_compat, pow_lt; lra.
Qed.
Lemma categorical_uniform_iff k : returns (categorical_uniform k : option (Categorical X)) <-> (0 < k)%nat.
Proof.
  unfold categorical_uniform. destruct (Nat.ltb_spec 0 k).
  - rewrite x_uniform_weights, categorical_new_iff by assumption. split; [auto|intros _].
    split; [destruct k; [lia|discriminate]|]. split; [|apply uniform_sum; assumption].
    apply Forall_forall. intros q Hq. apply repeat_spec in Hq. subst.
    apply Rlt_le, Rinv_0_lt_compat, lt_0_INR; assumption.
  - split; [intros [? E]; discriminate|lia].
Qed.
Lemma categorical_uniform_probs k d : categorical_uniform k = Some d -> ca_probs d = (fins (repeat (/ INR k) k) : list X).
Proof.
  unfold categorical_uniform. destruct (Nat.ltb_spec 0 k); [|discriminate].
  intros E. apply categorical_new_keeps in E. rewrite E. apply x_uniform_weights; assumption.
Qed.
Lemma mixture_new_iff {T} (cs : list (Measure X T)) ws : returns (mixture_new cs (fins ws : list X)) <->
  length cs = length ws /\ Rabs (Rsum ws - 1) < / 10 ^ 10.
Proof.
  unfold mixture_new. rewrite returns_if2, x_tolerance, Nat.eqb_eq, fins_length. tauto.
Qed.
Lemma mixture_uniform_iff {T} (cs : list (Measure X T)) : returns (mixture_uniform cs) <-> cs <> [].
Proof.
  unfold mixture_uniform. destruct cs as [|c cs].
  - split; [|tauto]. intros [d E]. unfold mixture_new in E. cbn [length repeat fold_left Nat.eqb] in E.
    rewrite x_n0, x_n1 in E. unfold tolerance in E. rewrite x_dec in E.
    revert E. xr_ops. rewrite xsub_Fin, xabs_Fin. cbn [xltb]. rewrite Rltb_f; [discriminate|].
    replace (0 - 1) with (-1) by lra. rewrite Rabs_left by lra. lra.
  - rewrite x_uniform_weights by (cbn; lia). rewrite mixture_new_iff. split; [discriminate|intros _].
    split; [rewrite repeat_length; reflexivity|apply uniform_sum; cbn; lia].
Qed.
End Cat.
