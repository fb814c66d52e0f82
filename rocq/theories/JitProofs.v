(** Correctness of the JIT's code generation. *)
From Coq Require Import ZArith Bool String List Lia.
From Coq Require Import Floats.SpecFloat.
From Verif Require Import Num ExprModel ExprSpec ConvModel JitModel JitSpec.
Import ListNotations.
Local Open Scope Z_scope.

(** * Words *)
Lemma land_low w : Z.land w 0x000FFFFFFFFFFFFF = w mod 2 ^ 52.
Proof. change 0x000FFFFFFFFFFFFF with (Z.ones 52). apply Z.land_ones. lia. Qed.

Lemma land_exp w : Z.shiftr (Z.land w 0x7FF0000000000000) 52 = (w / 2 ^ 52) mod 2 ^ 11.
Proof.
  rewrite Z.shiftr_land. change (Z.shiftr 0x7FF0000000000000 52) with (Z.ones 11).
  rewrite Z.land_ones by lia. rewrite Z.shiftr_div_pow2 by lia. reflexivity.
Qed.

Lemma lor_one a : 0 <= a < 2 ^ 52 -> Z.lor a 0x3FF0000000000000 = 1023 * 2 ^ 52 + a.
Proof.
  intros H. assert (E : Z.land a 0x3FF0000000000000 = 0).
  { change 0x3FF0000000000000 with (Z.shiftl 1023 52).
    apply Z.bits_inj'. intros n Hn. rewrite Z.land_spec, Z.bits_0.
    destruct (Z.lt_ge_cases n 52) as [L|L].
    - rewrite Z.shiftl_spec_low by assumption. apply andb_false_r.
    - replace a with (a mod 2 ^ 52) by (apply Z.mod_small, H).
      rewrite Z.mod_pow2_bits_high by lia. reflexivity. }
  rewrite <- Z.lxor_lor, <- Z.add_nocarry_lxor by assumption.
  change 0x3FF0000000000000 with (1023 * 2 ^ 52). lia.
Qed.

Lemma mod52 w : 0 <= w mod 2 ^ 52 < 2 ^ 52.
Proof. apply Z.mod_pos_bound. reflexivity. Qed.

Lemma signed_sub a : 0 <= a < 2 ^ 11 -> signed64 ((a - 1023) mod two64) = a - 1023.
Proof.
  intros H. unfold signed64, two63, two64.
  destruct (Z.lt_ge_cases a 1023).
  - replace ((a - 1023) mod 18446744073709551616) with (a - 1023 + 18446744073709551616).
    2:{ apply Z.mod_unique with (q := -1); lia. }
    destruct (Z.leb_spec 9223372036854775808 (a - 1023 + 18446744073709551616)); lia.
  - rewrite Z.mod_small by lia. destruct (Z.leb_spec 9223372036854775808 (a - 1023)); lia.
Qed.

Lemma sext k : - 2 ^ 31 <= k < 2 ^ 31 ->
  forall w, (w + Z.shiftl (if 2147483648 <=? k mod 4294967296 then k mod 4294967296 + (two64 - 4294967296)
                      else k mod 4294967296) 52 mod two64) mod two64 = (w + k * 2 ^ 52) mod 2 ^ 64.
Proof.
  intros H w. change two64 with (2 ^ 64).
  rewrite Z.add_mod_idemp_r by discriminate. rewrite Z.shiftl_mul_pow2 by lia.
  assert (E : exists q, (if 2147483648 <=? k mod 4294967296 then k mod 4294967296 + (2 ^ 64 - 4294967296)
                      else k mod 4294967296) = k + q * 2 ^ 64).
  { destruct (Z.lt_ge_cases k 0).
    - replace (k mod 4294967296) with (k + 4294967296) by (apply Z.mod_unique with (q := -1); lia).
      exists 1. destruct (Z.leb_spec 2147483648 (k + 4294967296)); lia.
    - rewrite Z.mod_small by lia. exists 0. destruct (Z.leb_spec 2147483648 k); lia. }
  destruct E as [q ->].
  replace (w + (k + q * 2 ^ 64) * 2 ^ 52) with (w + k * 2 ^ 52 + (q * 2 ^ 52) * 2 ^ 64) by ring.
  apply Z.mod_add. discriminate.
Qed.

Lemma to_i32 x : f64_to_i32 x =
  match sf_trunc x with
  | Some k => if (- 2 ^ 31 <=? k) && (k <? 2 ^ 31) then Val (k mod 4294967296) else Trap
  | None => Trap
  end.
Proof.
  destruct x as [s|s| |s m e]; try reflexivity.
  cbn [f64_to_i32 sf_trunc].
  replace (if 0 <=? e then Z.pos m * 2 ^ e else Z.pos m / 2 ^ - e)
    with (if e <? 0 then Z.pos m / 2 ^ - e else Z.pos m * 2 ^ e)
    by (destruct (Z.leb_spec 0 e), (Z.ltb_spec e 0); lia).
  set (t := if e <? 0 then _ else _). set (v := if s then - t else t). clearbody v.
  change (-2147483648) with (- 2 ^ 31).
  replace (v <=? 2147483647) with (v <? 2 ^ 31)
    by (destruct (Z.leb_spec v 2147483647), (Z.ltb_spec v (2 ^ 31)); lia).
  reflexivity.
Qed.

(** * Running code *)
Definition extends (b b' : builder) : Prop := exists is, body b' = is ++ body b.

(** Instructions in program order. *)
Fixpoint run_fwd (vs : list cval) (is : list inst) : outcome (list cval) :=
  match is with
  | [] => Val vs
  | i :: rest => obind (step vs i) (fun r => run_fwd (vs ++ [r]) rest)
  end.

Lemma run_fwd_app is : forall vs js, run_fwd vs (is ++ js) = obind (run_fwd vs is) (fun ws => run_fwd ws js).
Proof.
  induction is as [|i is IH]; intros vs js; [reflexivity|].
  cbn [app run_fwd]. destruct (step vs i); cbn [obind]; [apply IH | reflexivity..].
Qed.

Lemma run_rev args is : forall bd, run args (rev is ++ bd) = obind (run args bd) (fun vs => run_fwd vs is).
Proof.
  induction is as [|i is IH] using rev_ind; intros bd.
  - cbn. destruct (run args bd); reflexivity.
  - rewrite rev_app_distr. cbn [rev app run]. rewrite IH.
    destruct (run args bd) as [vs| |]; cbn [obind]; [|reflexivity..].
    rewrite run_fwd_app. destruct (run_fwd vs is) as [ws| |]; cbn [obind run_fwd]; reflexivity.
Qed.

Lemma run_app args is bd : run args (is ++ bd) = obind (run args bd) (fun vs => run_fwd vs (rev is)).
Proof. rewrite <- run_rev, rev_involutive. reflexivity. Qed.

Lemma run_trap args b b' : extends b b' -> run args (body b) = Trap -> run args (body b') = Trap.
Proof. intros [is E] H. rewrite E, run_app, H. reflexivity. Qed.

Definition good args b vs : Prop := run args (body b) = Val vs /\ List.length vs = nvals b.

Lemma lk (vs l : list cval) k : nth_error (vs ++ l) (k + List.length vs) = nth_error l k.
Proof. rewrite nth_error_app2 by lia. f_equal. lia. Qed.

Lemma lk_old (vs l : list cval) a x : nth_error vs a = Some x -> nth_error (vs ++ l) a = Some x.
Proof. intros H. rewrite nth_error_app1; [exact H|]. apply nth_error_Some. congruence. Qed.

(** One step, naming the new value. *)
Lemma fwd_step {T} (K : T -> cval) vs l i is r (P : outcome (list cval) -> Prop) :
  step (vs ++ l) i = Val (K r) ->
  (forall y, y = r -> P (run_fwd (vs ++ (l ++ [K y])) is)) -> P (run_fwd (vs ++ l) (i :: is)).
Proof.
  intros H Q. cbn [run_fwd]. rewrite H. cbn [obind]. rewrite <- app_assoc. apply Q. reflexivity.
Qed.

Ltac depth t n :=
  match t with
  | n => constr:(O)
  | S ?t' => let d := depth t' n in constr:(S d)
  end.

Ltac lookups vs :=
  repeat match goal with
  | |- context [nth_error (vs ++ ?l) ?a] =>
      first [ (let d := depth a (List.length vs) in
               change (nth_error (vs ++ l) a) with (nth_error (vs ++ l) (d + List.length vs));
               rewrite (lk vs l d);
               let r := eval cbn [nth_error] in (nth_error l d) in
               change (nth_error l d) with r; cbv beta iota)
            | (erewrite (lk_old vs l a) by eassumption; cbv beta iota) ]
  end.

Ltac exec_as K vs :=
  eapply (fwd_step K);
  [ unfold step, float1, word1, half1; lookups vs;
    try match goal with H : f64_to_i32 _ = _ |- _ => subst; rewrite H end;
    cbn [obind]; reflexivity
  | cbn [app]; let y := fresh "y" in let E := fresh "E" in intros y E ].

Ltac exec1 vs := first [exec_as VF vs | exec_as V64 vs | exec_as VB vs | exec_as V32 vs].

(** A generator that always succeeds, only appending. *)
Definition always (m : gen nat) : Prop := forall b, exists v b', m b = JOk (v, b') /\ extends b b'.

Lemma always_ins i : always (ins i).
Proof. intros b. eexists _, _. split; [reflexivity|]. exists [i]. reflexivity. Qed.

Lemma extends_trans a b c : extends a b -> extends b c -> extends a c.
Proof. intros [i E] [j F]. exists (j ++ i). rewrite F, E. apply app_assoc. Qed.

Lemma always_bind m k : always m -> (forall v, always (k v)) -> always (gbind m k).
Proof.
  intros Hm Hk b. destruct (Hm b) as (v & b1 & E & X). destruct (Hk v b1) as (w & b2 & F & Y).
  exists w, b2. split; [unfold gbind; rewrite E; exact F|]. eapply extends_trans; eauto.
Qed.

Lemma always_ret v : always (gret v).
Proof. intros b. exists v, b. split; [reflexivity|]. exists []. reflexivity. Qed.

Ltac always :=
  repeat match goal with
  | |- always (ins _) => apply always_ins
  | |- always (gret _) => apply always_ret
  | |- always (gbind _ _) => apply always_bind; [|intro]
  end.

Lemma always_ln v : always (generate_accurate_ln_call v).
Proof. unfold generate_accurate_ln_call. always. Qed.
Lemma always_exp v : always (generate_exp_call v).
Proof. unfold generate_exp_call. cbv zeta. always. Qed.
Lemma always_sin v : always (generate_sin_call v).
Proof. unfold generate_sin_call. cbv zeta. always. Qed.
Lemma always_cos v : always (generate_cos_call v).
Proof. unfold generate_cos_call. cbv zeta. always. Qed.
Lemma always_pow b e : always (generate_pow_call b e).
Proof.
  unfold generate_pow_call. apply always_bind; [apply always_ln|]. intro.
  apply always_bind; [apply always_ins|]. intro. apply always_exp.
Qed.

(** [computes args b m vs o]: where [vs] are the values defined so far, [m]
    leaves a value equal to [o], or code that traps. *)
Definition computes args b (m : gen nat) vs (o : option f64) : Prop :=
  forall v b', m b = JOk (v, b') ->
  match o with
  | Some x => exists l, good args b' (vs ++ l) /\ nth_error (vs ++ l) v = Some (VF x)
  | None => run args (body b') = Trap
  end.

Ltac start m :=
  match goal with b : builder |- _ => destruct b as [nb bd] end;
  intros [Hrun Hlen] Hval; cbn [nvals body] in Hrun, Hlen; intros ? ?; unfold m; cbv beta iota zeta delta [gbind ins nvals body];
  intros HE; injection HE as <- <-.

Lemma finish args bd vs is n k x : run args bd = Val vs ->
  (exists l, run_fwd (vs ++ []) is = Val (vs ++ l) /\ (List.length l + List.length vs = n)%nat /\
    nth_error l k = Some x) ->
  exists l, (run args (rev is ++ bd) = Val (vs ++ l) /\ List.length (vs ++ l) = n) /\
            nth_error (vs ++ l) (k + List.length vs) = Some x.
Proof.
  intros H (l & K & L & M). rewrite app_nil_r in K. exists l. rewrite run_rev, H. cbn [obind].
  rewrite K, app_length, lk. repeat split; [lia | exact M].
Qed.

Lemma finish_trap args bd vs is : run args bd = Val vs -> run_fwd (vs ++ []) is = Trap ->
  run args (rev is ++ bd) = Trap.
Proof. intros H K. rewrite app_nil_r in K. rewrite run_rev, H. exact K. Qed.

Lemma fwd_trap vs l i is : step (vs ++ l) i = Trap -> run_fwd (vs ++ l) (i :: is) = Trap.
Proof. intros H. cbn [run_fwd]. rewrite H. reflexivity. Qed.

(** Split a body into the instructions just added and the rest. *)
Ltac strip bd c acc :=
  match c with
  | bd => constr:(acc)
  | ?i :: ?c' => let acc' := constr:(i :: acc) in strip bd c' acc'
  end.

Ltac added k :=
  match goal with
  | H : run ?args ?bd = Val _ |- context [run ?args ?code] =>
      let l := strip bd code (@nil inst) in k args bd l
  end.

Ltac finish vs :=
  added ltac:(fun args bd is =>
  match goal with
  | H : run args bd = Val _ |- exists l, _ /\ nth_error _ ?id = _ =>
      let d := depth id (List.length vs) in
      refine (finish args bd vs is _ d _ H _);
      pattern (run_fwd (vs ++ []) is);
      repeat (exec1 vs); cbv beta; cbn [run_fwd]; eexists; split; [reflexivity|];
      split; [reflexivity|]; cbn [nth_error]; do 2 f_equal
  end).

Ltac finish_trap vs :=
  added ltac:(fun args bd is =>
  match goal with
  | H : run args bd = Val _ |- _ =>
      refine (finish_trap args bd vs is H _);
      pattern (run_fwd (vs ++ []) is);
      repeat (exec1 vs); cbv beta; apply fwd_trap;
      unfold step, float1, word1, half1; lookups vs; subst;
      match goal with H : f64_to_i32 _ = _ |- _ => rewrite H end; reflexivity
  end).

Local Opaque f64_add f64_sub f64_mul f64_div f64_floor f64_lit f64_of_bits f64_bits f64_of_Z SFeqb
  Z.modulo Z.div Z.add Z.sub Z.mul Z.shiftl Z.shiftr Z.land Z.lor c1 c0 c2 chalf c_ln2 c_ln2_inv.

Lemma ln_computes args b vs v x : good args b vs -> nth_error vs v = Some (VF x) ->
  computes args b (generate_accurate_ln_call v) vs (Some (jit_ln x)).
Proof.
  start generate_accurate_ln_call. subst nb. unfold good. cbn [nvals body].
  finish vs. unfold jit_ln, ln_ratio. subst.
  change (0x7FF0000000000000 mod two64) with 0x7FF0000000000000.
  change (0x000FFFFFFFFFFFFF mod two64) with 0x000FFFFFFFFFFFFF.
  change (0x3FF0000000000000 mod two64) with 0x3FF0000000000000.
  change (1023 mod two64) with 1023. change (52 mod 64) with 52.
  rewrite land_exp, land_low, lor_one by apply mod52.
  rewrite signed_sub by (apply Z.mod_pos_bound; reflexivity).
  reflexivity.
Qed.

Lemma exp_computes args b vs v x : good args b vs -> nth_error vs v = Some (VF x) ->
  computes args b (generate_exp_call v) vs (jit_exp x).
Proof.
  start generate_exp_call. subst nb. unfold good. cbn [nvals body].
  pose proof (to_i32 (f64_floor (x [*] c_ln2_inv))) as Hk.
  unfold jit_exp. destruct (sf_trunc (f64_floor (x [*] c_ln2_inv))) as [k|]; [|finish_trap vs].
  destruct (- 2 ^ 31 <=? k) eqn:A; [|finish_trap vs].
  destruct (k <? 2 ^ 31) eqn:B; [|finish_trap vs]. cbn [andb] in *.
  apply Z.leb_le in A. apply Z.ltb_lt in B.
  finish vs. unfold exp_ratio, shift_exponent. subst.
  change (52 mod 64) with 52. rewrite sext by (split; assumption).
  assert (Q : forall c, - 2 ^ 31 <= c < 2 ^ 31 ->
    (k mod 4294967296 =? c mod 4294967296) = (k =? c)).
  { intros c Hc. destruct (Z.eqb_spec k c) as [->|N]; [apply Z.eqb_refl|].
    apply Z.eqb_neq. intros E. apply N.
    assert (W : (k - c) mod 4294967296 = 0) by (rewrite Zminus_mod, E, Z.sub_diag; reflexivity).
    apply Z.mod_divide in W; [|discriminate]. destruct W as [q W]. nia. }
  rewrite !Q by (split; discriminate || reflexivity). reflexivity.
Qed.

Lemma sin_computes args b vs v x : good args b vs -> nth_error vs v = Some (VF x) ->
  computes args b (generate_sin_call v) vs (Some (jit_sin x)).
Proof.
  start generate_sin_call. subst nb. unfold good. cbn [nvals body].
  finish vs. subst. reflexivity.
Qed.

Lemma cos_computes args b vs v x : good args b vs -> nth_error vs v = Some (VF x) ->
  computes args b (generate_cos_call v) vs (Some (jit_cos x)).
Proof.
  start generate_cos_call. subst nb. unfold good. cbn [nvals body].
  finish vs. subst. reflexivity.
Qed.

(** * Expressions *)
Local Opaque generate_accurate_ln_call generate_exp_call generate_sin_call generate_cos_call.

Definition appends (m : gen nat) : Prop := forall b v b', m b = JOk (v, b') -> extends b b'.

Lemma always_appends m : always m -> appends m.
Proof. intros H b v b' E. destruct (H b) as (w & c & F & X). congruence. Qed.

Lemma appends_bind m k : appends m -> (forall v, appends (k v)) -> appends (gbind m k).
Proof.
  intros Hm Hk b v b' E. unfold gbind in E. destruct (m b) as [[w b1]|] eqn:F; [|discriminate].
  eapply extends_trans; [eapply Hm, F | eapply Hk, E].
Qed.

Lemma appends_ins i : appends (ins i).
Proof. apply always_appends, always_ins. Qed.
Lemma appends_ret v : appends (gret v).
Proof. apply always_appends, always_ret. Qed.

Lemma appends_pow v p m : appends m -> appends (generate_pow v p m).
Proof.
  intros H. unfold generate_pow.
  repeat match goal with
  | |- appends (if ?c then _ else _) => destruct c
  | |- appends (ins _) => apply appends_ins
  | |- appends (gret _) => apply appends_ret
  | |- appends (gbind _ _) => apply appends_bind; [|intro]
  end; [exact H | apply always_appends, always_pow].
Qed.

Lemma appends_fail e : appends (gfail e).
Proof. intros b v b' H. discriminate. Qed.

Lemma appends_clif vm cs e : appends (generate_clif vm cs e).
Proof.
  induction e; cbn [generate_clif]; cbv zeta;
    repeat (apply appends_bind; [assumption|intro]);
    try solve [apply appends_ins | apply always_appends; first
      [apply always_ln | apply always_exp | apply always_sin | apply always_cos | apply always_ins]].
  - destruct (get vm x); [apply appends_ret|].
    destruct (get cs x); [apply appends_ins | apply appends_fail].
  - apply appends_pow. assumption.
Qed.

Lemma computes_bind args b m k vs o f :
  computes args b m vs o ->
  (forall v b1 l x, o = Some x -> good args b1 (vs ++ l) -> nth_error (vs ++ l) v = Some (VF x) ->
    computes args b1 (k v) (vs ++ l) (f x)) ->
  (forall v, appends (k v)) ->
  computes args b (gbind m k) vs (obnd o f).
Proof.
  intros Hm Hk Ha w b2 E. unfold gbind in E. destruct (m b) as [[v b1]|] eqn:F; [|discriminate].
  specialize (Hm v b1 F). destruct o as [x|]; cbn [obnd].
  - destruct Hm as (l & G & N). specialize (Hk v b1 l x eq_refl G N w b2 E).
    destruct (f x) as [y|]; [|exact Hk].
    destruct Hk as (l2 & G2 & N2). exists (l ++ l2). rewrite app_assoc. split; assumption.
  - eapply run_trap; [eapply Ha, E | exact Hm].
Qed.

Lemma computes_ret args b vs v x : good args b vs -> nth_error vs v = Some (VF x) ->
  computes args b (gret v) vs (Some x).
Proof.
  intros G N w b' E. injection E as <- <-. exists []. rewrite app_nil_r. split; assumption.
Qed.

Lemma computes_ins args b vs i x : good args b vs -> step vs i = Val (VF x) ->
  computes args b (ins i) vs (Some x).
Proof.
  intros [G L] H w b' E. injection E as <- <-. exists [VF x]. unfold good. cbn [body nvals run].
  rewrite G. cbn [obind]. rewrite H. cbn [obind]. repeat split.
  - rewrite app_length. cbn. lia.
  - rewrite nth_error_app2 by lia. rewrite L, Nat.sub_diag. reflexivity.
Qed.

Lemma computes_ins2 args b vs i u v x y z : good args b vs ->
  nth_error vs u = Some (VF x) -> nth_error vs v = Some (VF y) ->
  (float1 vs u (fun a => float1 vs v (fun c => Val (VF (z a c)))) = step vs i) ->
  computes args b (ins i) vs (Some (z x y)).
Proof.
  intros G A B E. apply computes_ins; [exact G|]. rewrite <- E. unfold float1. rewrite A, B. reflexivity.
Qed.

Lemma computes_bin args b vs m1 m2 op (z : f64 -> f64 -> f64) o1 o2 :
  (forall vs u v, float1 vs u (fun a => float1 vs v (fun c => Val (VF (z a c)))) = step vs (op u v)) ->
  appends m2 -> computes args b m1 vs o1 ->
  (forall b1 l, good args b1 (vs ++ l) -> computes args b1 m2 (vs ++ l) o2) ->
  computes args b (gbind m1 (fun u => gbind m2 (fun v => ins (op u v)))) vs
    (obnd o1 (fun x => obnd o2 (fun y => Some (z x y)))).
Proof.
  intros Hop Ha H1 H2. apply computes_bind; [exact H1 | |].
  2:{ intros v. apply appends_bind; [exact Ha|]. intro. apply appends_ins. }
  intros u b1 l x _ G N. apply computes_bind; [apply H2, G | | intro; apply appends_ins].
  intros v b2 l2 y _ G2 N2. eapply computes_ins2; [exact G2 | apply lk_old, N | exact N2 | apply Hop].
Qed.

Lemma computes_powf args b vs u v x y : good args b vs ->
  nth_error vs u = Some (VF x) -> nth_error vs v = Some (VF y) ->
  computes args b (generate_pow_call u v) vs (jit_powf x y).
Proof.
  intros G A B. unfold generate_pow_call, jit_powf.
  change (jit_exp (y [*] jit_ln x)) with (obnd (Some (jit_ln x)) (fun l => obnd (Some (y [*] l)) jit_exp)).
  apply computes_bind; [apply ln_computes; assumption | |].
  2:{ intro. apply appends_bind; [apply appends_ins|]. intro. apply always_appends, always_exp. }
  intros w b1 l z E G1 N1. injection E as <-.
  apply computes_bind; [ | | intro; apply always_appends, always_exp].
  - eapply computes_ins2; [exact G1 | apply lk_old, B | exact N1 | reflexivity].
  - intros p b2 l2 q _ G2 N2. apply exp_computes; assumption.
Qed.

Local Opaque generate_pow_call.

Lemma computes_ext args b m vs o o' : o = o' -> computes args b m vs o -> computes args b m vs o'.
Proof. intros ->. exact (fun H => H). Qed.

Section Expr.
Context (vm : env nat) (cs : env f64) (rho : string -> f64) (args : list cval).

(** Every name mapped to a slot holds its value. *)
Definition slots_hold (vs : list cval) : Prop :=
  forall x id, get vm x = Some id -> nth_error vs id = Some (VF (rho x)).

Lemma slots_hold_app vs l : slots_hold vs -> slots_hold (vs ++ l).
Proof. intros H x id E. apply lk_old, H, E. Qed.

Hypothesis consts : forall x c, get vm x = None -> get cs x = Some c -> rho x = c.

Lemma pow_computes p b vs u x : good args b vs -> nth_error vs u = Some (VF x) ->
  (forall b vs, good args b vs -> slots_hold vs ->
    computes args b (generate_clif vm cs p) vs (jit_value rho p)) ->
  slots_hold vs ->
  computes args b (generate_pow u p (generate_clif vm cs p)) vs
    (match p with
     | Const c =>
            if SFeqb c (f64_of_Z 2) then Some (x [*] x)
            else if SFeqb c (f64_of_Z 3) then Some (x [*] x [*] x)
            else if SFeqb c (f64_of_Z 4) then Some (x [*] x [*] (x [*] x))
            else if SFeqb c (f64_lit 5 10) then Some (f64_sqrt x)
            else if SFeqb c (f64_of_Z 1) then Some x
            else if SFeqb c (S754_zero false) then Some (f64_of_Z 1)
            else jit_powf x c
     | _ => obnd (jit_value rho p) (jit_powf x)
     end).
Proof.
  intros G N H S. unfold generate_pow.
  assert (K : computes args b (gbind (generate_clif vm cs p) (generate_pow_call u)) vs
                (obnd (jit_value rho p) (jit_powf x))).
  { apply computes_bind; [apply H; assumption | | intro; apply always_appends, always_pow].
    intros v b1 l y _ G1 N1. apply computes_powf; [exact G1 | apply lk_old, N | exact N1]. }
  destruct p; try exact K. unfold lit_is.
  Local Transparent c1 c0 c2 chalf.
  change c2 with (f64_of_Z 2). change chalf with (f64_lit 5 10). change c1 with (f64_of_Z 1).
  change c0 with (S754_zero false).
  destruct (SFeqb c (f64_of_Z 2)).
  { eapply (computes_ins2 _ _ _ _ u u x x f64_mul); [exact G|exact N|exact N|reflexivity]. }
  assert (Q : forall z w y, (forall vs v, float1 vs v (fun a => float1 vs (w v) (fun c => Val (VF (f64_mul a c)))) = step vs (z v)) ->
     (forall b1 l v, good args b1 (vs ++ l) -> nth_error (vs ++ l) v = Some (VF (x [*] x)) ->
        nth_error (vs ++ l) (w v) = Some (VF y)) ->
     computes args b (gbind (ins (Fmul u u)) (fun v => ins (z v))) vs (Some (x [*] x [*] y))).
  { intros z w y Hz Hw.
    change (Some (x [*] x [*] y)) with (obnd (Some (x [*] x)) (fun s => Some (s [*] y))).
    apply computes_bind; [ | | intro; apply appends_ins].
    - eapply (computes_ins2 _ _ _ _ u u x x f64_mul); [exact G|exact N|exact N|reflexivity].
    - intros v b1 l s E G1 N1. injection E as <-.
      eapply (computes_ins2 _ _ _ _ v (w v) _ y f64_mul); [exact G1|exact N1| |apply Hz].
      eapply Hw; eassumption. }
  destruct (SFeqb c (f64_of_Z 3)).
  { apply (Q (fun v => Fmul v u) (fun _ => u)); [reflexivity|].
    intros b1 l v _ _. apply lk_old, N. }
  destruct (SFeqb c (f64_of_Z 4)).
  { apply (Q (fun v => Fmul v v) (fun v => v)); [reflexivity|]. intros b1 l v _ M. exact M. }
  destruct (SFeqb c (f64_lit 5 10)).
  { apply computes_ins; [exact G|]. unfold step, float1. rewrite N. reflexivity. }
  destruct (SFeqb c (f64_of_Z 1)); [apply computes_ret; assumption|].
  destruct (SFeqb c (S754_zero false)); [apply computes_ins; [exact G|reflexivity]|].
  exact K.
Qed.

Lemma clif_computes e : forall b vs, good args b vs -> slots_hold vs ->
  computes args b (generate_clif vm cs e) vs (jit_value rho e).
Proof.
  induction e; intros b vs G S; cbn [generate_clif jit_value]; cbv zeta.
  - apply computes_ins; [exact G | reflexivity].
  - destruct (get vm x) as [id|] eqn:E.
    + apply computes_ret; [exact G | apply S, E].
    + destruct (get cs x) as [c|] eqn:F.
      * rewrite (consts x c E F). apply computes_ins; [exact G | reflexivity].
      * intros v b' H. discriminate.
  - apply computes_bin; [reflexivity | apply appends_clif | apply IHe1; assumption |].
    intros b1 l G1. apply IHe2; [exact G1 | apply slots_hold_app, S].
  - apply computes_bin; [reflexivity | apply appends_clif | apply IHe1; assumption |].
    intros b1 l G1. apply IHe2; [exact G1 | apply slots_hold_app, S].
  - apply computes_bin; [reflexivity | apply appends_clif | apply IHe1; assumption |].
    intros b1 l G1. apply IHe2; [exact G1 | apply slots_hold_app, S].
  - apply computes_bin; [reflexivity | apply appends_clif | apply IHe1; assumption |].
    intros b1 l G1. apply IHe2; [exact G1 | apply slots_hold_app, S].
  - (* Pow *)
    eapply computes_ext.
    2:{ apply computes_bind; [apply IHe1; assumption | | intro; apply appends_pow, appends_clif].
        intros v b1 l x _ G1 N1. apply pow_computes with (x := x);
          [exact G1 | exact N1 | exact IHe2 | apply slots_hold_app, S]. }
    destruct e2; cbn [jit_value]; cbv zeta; try reflexivity;
      (destruct (jit_value rho e1); reflexivity).
  - apply computes_bind; [apply IHe; assumption | | intro; apply always_appends, always_ln].
    intros v b1 l x _ G1 N1. apply ln_computes; assumption.
  - apply computes_bind; [apply IHe; assumption | | intro; apply always_appends, always_exp].
    intros v b1 l x _ G1 N1. apply exp_computes; assumption.
  - apply computes_bind; [apply IHe; assumption | | intro; apply appends_ins].
    intros v b1 l x _ G1 N1. apply computes_ins; [exact G1|]. unfold step, float1. rewrite N1. reflexivity.
  - apply computes_bind; [apply IHe; assumption | | intro; apply always_appends, always_sin].
    intros v b1 l x _ G1 N1. apply sin_computes; assumption.
  - apply computes_bind; [apply IHe; assumption | | intro; apply always_appends, always_cos].
    intros v b1 l x _ G1 N1. apply cos_computes; assumption.
  - apply computes_bind; [apply IHe; assumption | | intro; apply appends_ins].
    intros v b1 l x _ G1 N1. apply computes_ins; [exact G1|]. unfold step, float1. rewrite N1. reflexivity.
Qed.

(** Success is decided by the variables. *)
Definition known (x : string) : Prop := get vm x <> None \/ get cs x <> None.

Lemma clif_ok e : (forall x, occurs x e -> known x) -> always (generate_clif vm cs e).
Proof.
  induction e; intros H; cbn [generate_clif]; cbv zeta;
    repeat (apply always_bind; [solve [auto using o_add_l, o_add_r, o_sub_l, o_sub_r, o_mul_l, o_mul_r,
       o_div_l, o_div_r, o_pow_l, o_pow_r, o_ln, o_exp, o_sqrt, o_sin, o_cos, o_neg]|intro]);
    try solve [apply always_ins | apply always_ln | apply always_exp | apply always_sin | apply always_cos].
  - destruct (get vm x) eqn:E; [apply always_ret|]. destruct (get cs x) eqn:F; [apply always_ins|].
    destruct (H x (o_var x)); contradiction.
  - unfold generate_pow.
    repeat match goal with |- always (if ?c then _ else _) => destruct c end; always.
    + apply IHe2. auto using o_pow_r.
    + apply always_pow.
Qed.

Lemma clif_err e : forall b err, generate_clif vm cs e b = JErr err ->
  exists x, occurs x e /\ get vm x = None /\ get cs x = None /\ err = UnsupportedExpression x.
Proof.
  assert (BE : forall (m : gen nat) (k : nat -> gen nat) b err, gbind m k b = JErr err ->
    m b = JErr err \/ exists v b', k v b' = JErr err).
  { intros m k b err E. unfold gbind in E. destruct (m b) as [[v b']|]; [right; eauto | left; congruence]. }
  assert (NA : forall (m : gen nat) b err, always m -> m b = JErr err -> False).
  { intros m b err Ha E. destruct (Ha b) as (v & b' & F & _). congruence. }
  induction e; intros b err E; cbn [generate_clif] in E; cbv zeta in E;
    try (discriminate E);
    try solve [apply BE in E; destruct E as [E|(v & b' & E)];
      [ apply IHe1 in E; destruct E as (y & O & R); exists y; split; [constructor; exact O | exact R]
      | apply BE in E; destruct E as [E|(w & b2 & E)];
        [ apply IHe2 in E; destruct E as (y & O & R); exists y; split; [|exact R];
          first [apply o_add_r | apply o_sub_r | apply o_mul_r | apply o_div_r]; exact O
        | discriminate E ] ] ];
    try solve [apply BE in E; destruct E as [E|(v & b' & E)];
      [ apply IHe in E; destruct E as (y & O & R); exists y; split; [constructor; exact O | exact R]
      | exfalso; eapply NA; [|exact E]; first [apply always_ln | apply always_exp | apply always_sin | apply always_cos | apply always_ins] ] ].
  - destruct (get vm x) eqn:F; [discriminate|]. destruct (get cs x) eqn:F2; [discriminate|].
    injection E as <-. exists x. repeat split; [constructor | assumption..].
  - apply BE in E; destruct E as [E|(v & b' & E)].
    + apply IHe1 in E; destruct E as (y & O & R); exists y; split; [constructor; exact O | exact R].
    + unfold generate_pow in E.
      repeat match type of E with
      | (if ?c then _ else _) _ = _ => destruct c; [discriminate E|] end.
      apply BE in E; destruct E as [E|(w & b2 & E)].
      * apply IHe2 in E. destruct E as (y & O & R). exists y. split; [apply o_pow_r; exact O | exact R].
      * exfalso. eapply NA; [|exact E]. apply always_pow.
Qed.
End Expr.

(** * Slots *)
Lemma get_app {T} (l l' : env T) x :
  get (l ++ l') x = match get l x with Some v => Some v | None => get l' x end.
Proof.
  induction l as [|[k v] l IH]; [reflexivity|]. cbn. destruct (String.eqb x k); [reflexivity | apply IH].
Qed.

Lemma get_ins {T} (m : env T) k v x : get (insert m k v) x = if String.eqb x k then Some v else get m x.
Proof.
  induction m as [|[k' v'] m IH]; [reflexivity|]. cbn [insert].
  destruct (String.eqb_spec k k') as [->|N]; cbn [get].
  - destruct (String.eqb x k'); reflexivity.
  - rewrite IH. destruct (String.eqb_spec x k') as [->|M]; [|reflexivity].
    destruct (String.eqb_spec k' k); [congruence | reflexivity].
Qed.

Lemma lookup_cons {T} k (v : T) l x : lookup_last ((k, v) :: l) x =
  match lookup_last l x with Some w => Some w | None => if String.eqb x k then Some v else None end.
Proof. unfold lookup_last. cbn [rev]. rewrite get_app. reflexivity. Qed.

Lemma lookup_app {T} (l l' : list (string * T)) x : lookup_last (l ++ l') x =
  match lookup_last l' x with Some w => Some w | None => lookup_last l x end.
Proof. unfold lookup_last. rewrite rev_app_distr, get_app. reflexivity. Qed.

Lemma map_slots_get names : forall s m x, get (map_slots names s m) x =
  match lookup_last (combine names (seq s (List.length names))) x with
  | Some i => Some i | None => get m x end.
Proof.
  induction names as [|k names IH]; intros s m x; [reflexivity|].
  cbn [map_slots List.length seq combine]. rewrite IH, lookup_cons, get_ins.
  destruct (lookup_last _ x); [reflexivity|]. destruct (String.eqb x k); reflexivity.
Qed.

Lemma slots_get ds ps x : get (map_slots ps (List.length ds) (map_slots ds 0 [])) x =
  lookup_last (combine (ds ++ ps) (seq 0 (List.length (ds ++ ps)))) x.
Proof.
  rewrite map_slots_get, map_slots_get. rewrite app_length, seq_app. cbn [Nat.add get].
  assert (E : forall (a b : list string) (c d : list nat), List.length a = List.length c ->
    combine (a ++ b) (c ++ d) = combine a c ++ combine b d).
  { induction a as [|h a IH]; intros b [|n c] d L; try discriminate; [reflexivity|].
    cbn. f_equal. apply IH. cbn in L. lia. }
  rewrite E by (rewrite seq_length; reflexivity). rewrite lookup_app.
  destruct (lookup_last (combine ps _) x); [reflexivity|]. destruct (lookup_last _ x); reflexivity.
Qed.

Lemma lookup_map {T U} (f : T -> U) (names : list string) : forall l x,
  lookup_last (combine names (map f l)) x = option_map f (lookup_last (combine names l) x).
Proof.
  induction names as [|k names IH]; intros [|v l] x; try reflexivity.
  cbn [map combine]. rewrite !lookup_cons, IH.
  destruct (lookup_last (combine names l) x); [reflexivity|]. cbn. destruct (String.eqb x k); reflexivity.
Qed.

Lemma lookup_in {T} (l : list (string * T)) x : lookup_last l x <> None <-> In x (map fst l).
Proof.
  induction l as [|[k v] l IH]; [cbn; tauto|].
  rewrite lookup_cons. cbn [map fst In].
  destruct (lookup_last l x) eqn:E.
  - split; [intros _; right; apply IH; discriminate | discriminate].
  - destruct (String.eqb_spec x k) as [->|N].
    + split; [now left | discriminate].
    + split; [congruence|]. intros [C|C]; [congruence|]. apply IH in C. congruence.
Qed.

Lemma lookup_val {T} (l : list (string * T)) x v : lookup_last l x = Some v -> In (x, v) l.
Proof.
  induction l as [|[k w] l IH]; [discriminate|]. rewrite lookup_cons.
  destruct (lookup_last l x) eqn:E.
  - intros H. right. apply IH, H.
  - destruct (String.eqb_spec x k) as [->|N]; [|discriminate]. intros [= ->]. now left.
Qed.

Lemma args_as_map (d : f64) (args : list f64) :
  args = map (fun i => nth i args d) (seq 0 (List.length args)).
Proof.
  induction args as [|a args IH]; [reflexivity|].
  cbn [List.length seq map nth]. rewrite <- seq_shift, map_map. cbn [nth]. f_equal. exact IH.
Qed.

Lemma slot_value ds ps (args : list f64) x id : List.length args = List.length (ds ++ ps) ->
  get (map_slots ps (List.length ds) (map_slots ds 0 [])) x = Some id ->
  exists v, lookup_last (combine (ds ++ ps) args) x = Some v /\ nth_error args id = Some v.
Proof.
  intros L H. rewrite slots_get in H.
  exists (nth id args S754_nan). split.
  - rewrite (args_as_map S754_nan args) at 1. rewrite lookup_map, L, H. reflexivity.
  - apply nth_error_nth'. apply lookup_val in H. apply in_combine_r in H.
    apply in_seq in H. lia.
Qed.

Lemma slot_none ds ps (args : list f64) x : List.length args = List.length (ds ++ ps) ->
  get (map_slots ps (List.length ds) (map_slots ds 0 [])) x = None ->
  lookup_last (combine (ds ++ ps) args) x = None.
Proof.
  intros L H. rewrite slots_get in H.
  rewrite (args_as_map S754_nan args). rewrite lookup_map, L, H. reflexivity.
Qed.

Lemma slot_known ds ps x :
  get (map_slots ps (List.length ds) (map_slots ds 0 [])) x <> None <-> In x (ds ++ ps).
Proof.
  rewrite slots_get, lookup_in.
  assert (E : forall (a : list string) (c : list nat), List.length a = List.length c -> map fst (combine a c) = a).
  { induction a as [|h a IH]; intros [|n c] L; try discriminate; [reflexivity|].
    cbn. f_equal. apply IH. cbn in L. lia. }
  rewrite E by (rewrite seq_length; reflexivity). tauto.
Qed.

Lemma get_known {T} (m : env T) x : get m x <> None <-> In x (map fst m).
Proof.
  induction m as [|[k v] m IH]; [cbn; tauto|]. cbn [get map fst In].
  destruct (String.eqb_spec x k) as [->|N].
  - split; [now left | discriminate].
  - rewrite IH. split; [now right|]. intros [C|C]; [congruence | exact C].
Qed.

Lemma floats_map (args : list f64) : floats (map AFloat args) = Some (map VF args).
Proof. induction args as [|a args IH]; [reflexivity|]. cbn. unfold floats in IH. rewrite IH. reflexivity. Qed.

(** * Whole functions *)
Lemma invoke_computes n r b e rho args sg st :
  List.length args = n ->
  (match jit_value rho e with
   | Some x => exists l, good (map VF args) b l /\ nth_error l r = Some (VF x)
   | None => run (map VF args) (body b) = Trap
   end) ->
  invoke (mkFn n (body b) r sg st) (map AFloat args) = evaluates rho e.
Proof.
  intros L H. unfold invoke, evaluates. rewrite floats_map, map_length, L.
  cbn [fn_params fn_body fn_result]. rewrite Nat.eqb_refl.
  destruct (jit_value rho e) as [x|].
  - destruct H as (l & [G _] & N). rewrite G, N. reflexivity.
  - rewrite H. reflexivity.
Qed.

Lemma good_start args n : List.length args = n -> good (map VF args) (mkB n []) (map VF args).
Proof. intros L. split; [reflexivity|]. cbn. rewrite map_length. exact L. Qed.

Lemma clif_known vm cs e : forall b v b', generate_clif vm cs e b = JOk (v, b') ->
  forall x, occurs x e -> known vm cs x.
Proof.
  assert (B2 : forall e1 e2 (k : nat -> nat -> gen nat) b v b',
    gbind (generate_clif vm cs e1) (fun u => gbind (generate_clif vm cs e2) (k u)) b = JOk (v, b') ->
    (exists w c, generate_clif vm cs e1 b = JOk (w, c)) /\
    (exists w c d, generate_clif vm cs e2 d = JOk (w, c))).
  { intros e1 e2 k b v b' H. unfold gbind in H.
    destruct (generate_clif vm cs e1 b) as [[w c]|] eqn:F1; [|discriminate].
    destruct (generate_clif vm cs e2 c) as [[w2 c2]|] eqn:F2; [|discriminate]. split; eauto. }
  assert (B1 : forall e1 (k : nat -> gen nat) b v b',
    gbind (generate_clif vm cs e1) k b = JOk (v, b') ->
    (exists w c, generate_clif vm cs e1 b = JOk (w, c))).
  { intros e1 k b v b' H. unfold gbind in H.
    destruct (generate_clif vm cs e1 b) as [[w c]|] eqn:F1; [|discriminate]. eauto. }
  induction e; intros b v b' H y O; cbn [generate_clif] in H; cbv zeta in H; inversion O; subst;
    try solve [apply B2 in H; destruct H as [(w & c & H1') (w2 & c2 & d & H2')];
               first [eapply IHe1; eassumption | eapply IHe2; eassumption]];
    try solve [apply B1 in H; destruct H as (w & c & H'); eapply IHe; eassumption].
  - unfold known. destruct (get vm x); [left; discriminate|].
    destruct (get cs x); [right; discriminate|discriminate].
  - apply B1 in H. destruct H as (w & c & H'). eapply IHe1; eassumption.
  - assert (NL : forall c, lit_is c e2 = false).
    { intros c. destruct e2; try reflexivity. match goal with K : occurs _ (Const _) |- _ => inversion K end. }
    unfold generate_pow in H. unfold gbind at 1 in H.
    destruct (generate_clif vm cs e1 b) as [[w c]|] eqn:F1; [|discriminate].
    rewrite !NL in H. apply B1 in H. destruct H as (w2 & c2 & H'). eapply IHe2; eassumption.
Qed.

Lemma expression_ok e ds ps cs :
  (exists f, compile_expression e ds ps cs = JOk f) <->
  (forall x, occurs x e -> In x (ds ++ ps) \/ In x (map fst cs)).
Proof.
  unfold compile_expression. set (vm := map_slots ps _ _).
  split.
  - intros [f H] x O.
    destruct (generate_clif vm cs e _) as [[r b]|err] eqn:E; [|discriminate].
    destruct (clif_known _ _ _ _ _ _ E x O) as [A|A]; [left; apply slot_known, A | right; apply get_known, A].
  - intros H. destruct (clif_ok vm cs e) with (b := mkB (List.length ds + List.length ps) []) as (v & b' & E & _).
    + intros x O. destruct (H x O) as [A|A]; [left; apply slot_known, A | right; apply get_known, A].
    + rewrite E. eauto.
Qed.

Lemma expression_code e ds ps cs f : compile_expression e ds ps cs = JOk f ->
  code_of f (List.length ds + List.length ps) e (expression_binding ds ps cs) /\
  fn_sig f = choose_signature (List.length ds) (List.length ps).
Proof.
  unfold compile_expression. set (vm := map_slots ps _ _). intros H.
  destruct (generate_clif vm cs e _) as [[r b]|err] eqn:E; [|discriminate]. injection H as <-.
  split; [|reflexivity]. split; [reflexivity|]. intros args L.
  assert (LA : List.length args = List.length (ds ++ ps)) by (rewrite app_length; exact L).
  set (rho := total (expression_binding ds ps cs args)).
  apply invoke_computes; [exact L|].
  refine (_ (clif_computes vm cs rho (map VF args) _ _ _ _ (good_start _ _ L) _ r b E)).
  - destruct (jit_value rho e); [|exact (fun h => h)]. intros (l & G & N). eauto.
  - intros x c V K. unfold rho, total, expression_binding. rewrite (slot_none ds ps args x LA V), K. reflexivity.
  - intros x id V. destruct (slot_value ds ps args x id LA V) as (v & A & B).
    unfold rho, total, expression_binding. rewrite A. rewrite nth_error_map, B. reflexivity.
Qed.

Lemma expression_err e ds ps cs err : compile_expression e ds ps cs = JErr err ->
  exists x, err = UnsupportedExpression x /\ occurs x e /\ ~ In x (ds ++ ps) /\ ~ In x (map fst cs).
Proof.
  unfold compile_expression. set (vm := map_slots ps _ _). intros H.
  destruct (generate_clif vm cs e _) as [[r b]|err'] eqn:E; [discriminate|]. injection H as <-.
  apply clif_err in E. destruct E as (x & O & A & B & ->). exists x. repeat split; [exact O | |].
  - intros C. apply slot_known in C. apply C, A.
  - intros C. apply get_known in C. apply C, B.
Qed.

Lemma custom_code s f : compile_custom_expression s = JOk f ->
  code_of f 1 (cd_expression s) (custom_binding s) /\ fn_sig f = SingleInput.
Proof.
  unfold compile_custom_expression. set (vm := match cd_variables s with [] => [] | _ => _ end). intros H.
  destruct (generate_clif vm _ _ _) as [[r b]|err] eqn:E; [|discriminate]. injection H as <-.
  split; [|reflexivity]. split; [reflexivity|]. intros args L.
  set (rho := total (custom_binding s args)).
  apply invoke_computes; [exact L|].
  refine (_ (clif_computes vm (cd_parameters s) rho (map VF args) _ _ _ _ (good_start _ _ L) _ r b E)).
  - destruct (jit_value rho (cd_expression s)); [|exact (fun h => h)]. intros (l & G & N). eauto.
  - intros x c V K. unfold rho, total, custom_binding, expression_binding. unfold vm in V.
    destruct (cd_variables s) as [|y ys]; cbn in *; [rewrite K; reflexivity|].
    destruct args as [|a [|]]; try discriminate. unfold lookup_last. cbn.
    destruct (String.eqb x y); [discriminate|]. rewrite K. reflexivity.
  - intros x id V. unfold rho, total, custom_binding, expression_binding. unfold vm in V.
    destruct (cd_variables s) as [|y ys]; cbn in *; [discriminate|].
    destruct args as [|a [|]]; try discriminate. unfold lookup_last. cbn.
    destruct (String.eqb x y); [|discriminate]. injection V as <-. reflexivity.
Qed.

Lemma custom_ok s : (exists f, compile_custom_expression s = JOk f) <->
  (forall x, occurs x (cd_expression s) -> In x (firstn 1 (cd_variables s)) \/ In x (map fst (cd_parameters s))).
Proof.
  unfold compile_custom_expression. set (vm := match cd_variables s with [] => [] | _ => _ end).
  assert (V : forall x, get vm x <> None <-> In x (firstn 1 (cd_variables s))).
  { intros x. unfold vm. destruct (cd_variables s) as [|y ys]; [cbn; tauto|].
    rewrite get_known. reflexivity. }
  split.
  - intros [f H] x O. destruct (generate_clif vm _ _ _) as [[r b]|err] eqn:E; [|discriminate].
    destruct (clif_known _ _ _ _ _ _ E x O) as [A|A]; [left; apply V, A | right; apply get_known, A].
  - intros H. destruct (clif_ok vm (cd_parameters s) (cd_expression s)) with (b := mkB 1 []) as (v & b' & E & _).
    + intros x O. destruct (H x O) as [A|A]; [left; apply V, A | right; apply get_known, A].
    + rewrite E. eauto.
Qed.

(** * Final-tagless code *)
Definition relabel {T} (r : jres T) : jres T :=
  match r with JErr (UnsupportedExpression x) => JErr (CompilationError x) | _ => r end.

Lemma relabel_bind (m m' : gen nat) (k k' : nat -> gen nat) b :
  m' b = relabel (m b) -> (forall v b1, k' v b1 = relabel (k v b1)) ->
  gbind m' k' b = relabel (gbind m k b).
Proof.
  intros H K. unfold gbind. rewrite H. destruct (m b) as [[v b1]|[x|x]]; cbn [relabel]; [apply K | reflexivity..].
Qed.

Lemma relabel_always (m : gen nat) b : always m -> m b = relabel (m b).
Proof. intros H. destruct (H b) as (v & b' & E & _). rewrite E. reflexivity. Qed.

Lemma ir_clif vm e : forall b, generate_ir vm e b = relabel (generate_clif vm [] e b).
Proof.
  induction e; intros b; cbn [generate_ir generate_clif]; cbv zeta;
    try solve [repeat (apply relabel_bind; [auto | intros ? ?]);
      apply relabel_always; first [apply always_ins | apply always_ln | apply always_exp
        | apply always_sin | apply always_cos]].
  - destruct (get vm x); reflexivity.
  - apply relabel_bind; [auto|]. intros v b1. unfold generate_pow.
    repeat match goal with |- (if ?c then _ else _) _ = _ => destruct c; [reflexivity|] end.
    apply relabel_bind; [auto|]. intros w b2. apply relabel_always, always_pow.
Qed.

Lemma add_constants_spec cs : forall m b, exists m' b', add_constants cs m b = JOk (m', b') /\
  nvals b' = (nvals b + List.length cs)%nat /\
  (forall args vs, good args b vs -> good args b' (vs ++ map VF (map snd cs))) /\
  (forall x, get m' x =
     match lookup_last (combine (map fst cs) (seq (nvals b) (List.length cs))) x with
     | Some i => Some i | None => get m x end).
Proof.
  induction cs as [|[k c] cs IH]; intros m b.
  - exists m, b. split; [reflexivity|]. split; [cbn; lia|]. split; [|reflexivity].
    intros args vs G. cbn [map]. rewrite app_nil_r. exact G.
  - cbn [add_constants]. unfold gbind, ins. cbn [nvals body].
    destruct (IH (insert m k (nvals b)) (mkB (S (nvals b)) (F64const c :: body b))) as (m' & b' & E & N & G & H).
    exists m', b'. split; [exact E|]. split; [rewrite N; cbn; lia|]. split.
    + intros args vs [A B]. cbn [map snd].
      replace (vs ++ VF c :: map VF (map snd cs)) with ((vs ++ [VF c]) ++ map VF (map snd cs))
        by (rewrite <- app_assoc; reflexivity).
      apply G. split; cbn [body nvals run]; [rewrite A; reflexivity|]. rewrite app_length. cbn. lia.
    + intros x. rewrite H, get_ins. cbn [map fst List.length seq combine nvals]. rewrite lookup_cons.
      destruct (lookup_last _ x); [reflexivity|]. destruct (String.eqb x k); reflexivity.
Qed.

Lemma combine_split' {A B} (l : list (A * B)) : combine (map fst l) (map snd l) = l.
Proof. induction l as [|[a b] l IH]; [reflexivity|]. cbn. f_equal. exact IH. Qed.

Lemma shift_lookup names : forall n s x,
  lookup_last (combine names (seq (n + s) (List.length names))) x =
  option_map (Nat.add n) (lookup_last (combine names (seq s (List.length names))) x).
Proof.
  induction names as [|k names IH]; intros n s x; [reflexivity|].
  cbn [List.length seq combine]. rewrite !lookup_cons. rewrite <- Nat.add_succ_r, IH.
  destruct (lookup_last _ x); [reflexivity|]. cbn. destruct (String.eqb x k); reflexivity.
Qed.

Lemma tagless_slots ds ps cs (args : list f64) x id m' :
  List.length args = List.length (ds ++ ps) ->
  (forall x, get m' x =
     match lookup_last (combine (map fst cs) (seq (List.length args) (List.length cs))) x with
     | Some i => Some i | None => get (map_slots ps (List.length ds) (map_slots ds 0 [])) x end) ->
  get m' x = Some id ->
  nth_error (map VF args ++ map VF (map snd cs)) id = Some (VF (total (tagless_binding ds ps cs args) x)).
Proof.
  intros L H E. rewrite H in E. clear H.
  replace (List.length args) with (List.length args + 0)%nat in E at 1 by lia.
  replace (List.length cs) with (List.length (map fst cs)) in E at 1 by apply map_length.
  rewrite shift_lookup in E.
  assert (Q : lookup_last cs x =
     option_map (fun i => nth i (map snd cs) S754_nan) (lookup_last (combine (map fst cs) (seq 0 (List.length (map fst cs)))) x)).
  { rewrite <- (combine_split' cs) at 1. rewrite (args_as_map S754_nan (map snd cs)) at 1.
    rewrite lookup_map, !map_length. reflexivity. }
  unfold total, tagless_binding. rewrite lookup_app.
  destruct (lookup_last (combine (map fst cs) _) x) as [i|] eqn:F; cbn [option_map] in *.
  - injection E as <-. rewrite Q.
    rewrite nth_error_app2 by (rewrite map_length; lia). rewrite map_length.
    replace (List.length args + i - List.length args)%nat with i by lia.
    rewrite nth_error_map. rewrite nth_error_nth' with (d := S754_nan); [reflexivity|].
    apply lookup_val, in_combine_r, in_seq in F. rewrite map_length in *. lia.
  - destruct (slot_value ds ps args x id L E) as (v & A & B). rewrite Q, A.
    apply lk_old. rewrite nth_error_map, B. reflexivity.
Qed.

Lemma tagless_known ds ps (cs : env f64) n m' :
  (forall x, get m' x =
     match lookup_last (combine (map fst cs) (seq n (List.length cs))) x with
     | Some i => Some i | None => get (map_slots ps (List.length ds) (map_slots ds 0 [])) x end) ->
  forall x, get m' x <> None <-> In x (ds ++ ps) \/ In x (map fst cs).
Proof.
  intros H x. rewrite H.
  assert (E : forall (a : list string) (c : list nat), List.length a = List.length c -> map fst (combine a c) = a).
  { induction a as [|h a IH]; intros [|k c] L; try discriminate; [reflexivity|].
    cbn. f_equal. apply IH. cbn in L. lia. }
  pose proof (lookup_in (combine (map fst cs) (seq n (List.length cs))) x) as K.
  rewrite E in K by (rewrite map_length, seq_length; reflexivity).
  destruct (lookup_last _ x).
  - split; [intros _; right; apply K|]; discriminate.
  - rewrite slot_known. split; [tauto|]. intros [A|A]; [exact A|]. apply K in A. congruence.
Qed.

Lemma tagless_code e ds ps cs f : compile_final_tagless e ds ps cs = JOk f ->
  code_of f (List.length ds + List.length ps) e (tagless_binding ds ps cs) /\
  fn_sig f = choose_signature (List.length ds) (List.length ps).
Proof.
  unfold compile_final_tagless. set (n := (List.length ds + List.length ps)%nat). intros H.
  destruct (add_constants_spec cs (map_slots ps (List.length ds) (map_slots ds 0 [])) (mkB n []))
    as (m' & b' & E & N & G & M).
  unfold gbind in H. rewrite E, ir_clif in H.
  destruct (generate_clif m' [] e b') as [[r b]|[x|x]] eqn:F; cbn [relabel] in H; try discriminate.
  injection H as <-. split; [|reflexivity]. split; [reflexivity|]. intros args L.
  assert (LA : List.length args = List.length (ds ++ ps)) by (rewrite app_length; exact L).
  set (rho := total (tagless_binding ds ps cs args)).
  apply invoke_computes; [exact L|].
  refine (_ (clif_computes m' [] rho (map VF args) _ e b' _ (G _ _ (good_start _ _ L)) _ r b F)).
  - destruct (jit_value rho e); [|exact (fun h => h)]. intros (l & G1 & N1). eauto.
  - intros x c _ K. discriminate.
  - intros x id V. apply (tagless_slots ds ps cs args x id m' LA); [|exact V].
    intros y. rewrite M. cbn [nvals]. rewrite L. reflexivity.
Qed.

Lemma tagless_ok e ds ps cs :
  (exists f, compile_final_tagless e ds ps cs = JOk f) <->
  (forall x, occurs x e -> In x (ds ++ ps) \/ In x (map fst cs)).
Proof.
  unfold compile_final_tagless. set (n := (List.length ds + List.length ps)%nat).
  destruct (add_constants_spec cs (map_slots ps (List.length ds) (map_slots ds 0 [])) (mkB n []))
    as (m' & b' & E & N & G & M).
  unfold gbind. rewrite E, ir_clif. cbn [nvals] in M. pose proof (tagless_known ds ps cs n m' M) as T.
  split.
  - intros [f H] x O. destruct (generate_clif m' [] e b') as [[r b]|[y|y]] eqn:F; cbn [relabel] in H; try discriminate.
    destruct (clif_known _ _ _ _ _ _ F x O) as [A|A]; [apply T, A | contradiction].
  - intros H. destruct (clif_ok m' [] e) with (b := b') as (v & b2 & F & _).
    + intros x O. left. apply T, H, O.
    + rewrite F. cbn [relabel]. eauto.
Qed.

Lemma tagless_err e ds ps cs err : compile_final_tagless e ds ps cs = JErr err ->
  exists x, err = CompilationError x /\ occurs x e /\ ~ In x (ds ++ ps) /\ ~ In x (map fst cs).
Proof.
  unfold compile_final_tagless. set (n := (List.length ds + List.length ps)%nat). intros H.
  destruct (add_constants_spec cs (map_slots ps (List.length ds) (map_slots ds 0 [])) (mkB n []))
    as (m' & b' & E & N & G & M).
  unfold gbind in H. rewrite E, ir_clif in H. cbn [nvals] in M.
  destruct (generate_clif m' [] e b') as [[r b]|err'] eqn:F; cbn [relabel] in H; [discriminate|].
  apply clif_err in F. destruct F as (x & O & A & _ & ->). injection H as <-. exists x.
  pose proof (tagless_known ds ps cs n m' M x) as T.
  repeat split; [exact O | intros C; apply T; [left; exact C | exact A] | intros C; apply T; [right; exact C | exact A]].
Qed.
