(** C64, C65: the loop with one press, two presses; finish_iteration. *)
From Coq Require Import Lia.
From Verif Require Import Base BaseFacts SigModel SigSpec SigFacts.
Local Open Scope nat_scope.
Local Arguments presses : simpl never.

Lemma tick_quiet {B} sched (f : M B) v : sched (clock v) = false -> (tick sched ;;; f) v = f (with_clock v (S (clock v))).
Proof. intros H. unfold mbind, tick. now rewrite H. Qed.
Lemma tick_outer {B} sched (f : M B) v : sched (clock v) = true -> current v = Outer true -> (tick sched ;;; f) v = (Raise KeyboardInterrupt, with_clock v (S (clock v))).
Proof. intros H C. unfold mbind, tick, deliver. rewrite H. cbn. now rewrite C. Qed.

(** Inside break_loop's call [call], whose event is [e]; [b]: one press has been seen. *)
Definition inside (call e : nat) (b : bool) (w : world) : Prop :=
  current w = Break call /\ attribute w = e /\ counts w call = (if b then 1 else 0) /\ events w e = b.

Lemma tick_inside {B} sched (f : M B) call e b v : inside call e b v -> (b = true -> sched (clock v) = false) ->
  exists v1, (tick sched ;;; f) v = f v1 /\ inside call e (b || sched (clock v)) v1 /\ clock v1 = S (clock v) /\ trace v1 = trace v.
Proof.
  intros (I1 & I2 & I3 & I4) Hb. unfold mbind, tick, deliver. destruct (sched (clock v)) eqn:Sv.
  - destruct b; [discriminate (Hb eq_refl)|]. cbn [current with_clock counts clock]. rewrite I1, I3. cbn [Nat.eqb].
    eexists; split; [reflexivity|]. cbn. split; [|auto]. split; [exact I1|]. split; [exact I2|]. cbn. rewrite <- I2. rewrite !set_nat_same. auto.
  - eexists; split; [reflexivity|]. rewrite orb_false_r. cbn. repeat split; assumption.
Qed.
Lemma tick_abort {B} sched (f : M B) call e v : inside call e true v -> sched (clock v) = true ->
  exists v1, (tick sched ;;; f) v = (Raise KeyboardInterrupt, v1) /\ clock v1 = S (clock v) /\ trace v1 = trace v /\ current v1 = Break call /\ 2 <= counts v1 call.
Proof.
  intros (I1 & I2 & I3 & I4) Hs. unfold mbind, tick, deliver. rewrite Hs. cbn [current with_clock counts clock]. rewrite I1, I3. cbn [Nat.eqb].
  eexists; split; [reflexivity|]. cbn. rewrite set_nat_same. auto.
Qed.

(** The set-up without presses. *)
Lemma setup_quiet {A} sched (k : nat -> handler -> M A) w : (forall u, clock w <= u < clock w + 5 -> sched u = false) ->
  exists w0 call e, setup sched k w = k call (current w) w0 /\ inside call e false w0 /\ clock w0 = clock w + 5 /\ trace w0 = trace w /\ fresh w <= call < fresh w0 /\ fresh w <= e < fresh w0.
Proof.
  intros H. unfold setup. rewrite tick_quiet by (apply H; lia). unfold new_event, clear_event, setsignal. rewrite do_then. cbn [with_clock with_events with_attribute with_fresh clock current counts requested events attribute fresh trace].
  rewrite tick_quiet by (apply H; cbn; lia). rewrite do_then. cbn [with_clock with_events with_attribute with_fresh clock current counts requested events attribute fresh trace].
  rewrite tick_quiet by (apply H; cbn; lia). rewrite call_then. cbn [with_clock with_events with_attribute with_fresh with_counts with_requested clock current counts requested events attribute fresh trace].
  rewrite tick_quiet by (apply H; cbn; lia). rewrite get_then. cbn [with_clock with_events with_attribute with_fresh with_counts with_requested clock current counts requested events attribute fresh trace].
  rewrite tick_quiet by (apply H; cbn; lia). rewrite do_then. cbn [with_clock with_current with_events with_attribute with_fresh with_counts with_requested clock current counts requested events attribute fresh trace].
  eexists _, _, _. split; [reflexivity|]. unfold inside. cbn. rewrite !set_nat_same. repeat split; lia.
Qed.

(** *** one press *)
Section One.
Variables (sched : nat -> bool) (t : nat).
(** From [start] on, there is no press but at [t]. *)
Definition single (start : nat) := forall u, start <= u -> sched u = Nat.eqb u t.

Lemma or_press b u : (b = true <-> t < u) -> (b || Nat.eqb u t = true <-> t < S u).
Proof. intros H. rewrite orb_true_iff, H. destruct (Nat.eqb_spec u t); [split; [lia|auto]|]. split; [intros [Q|Q]; [lia|discriminate]|intros; left; lia]. Qed.

Lemma works_run call e next : forall acts b v, inside call e b v -> single (clock v) -> (b = true <-> t < clock v) ->
  exists v1 b1 l, run sched (works acts next) v = run sched next v1 /\ inside call e b1 v1 /\ (b1 = true <-> t < clock v1) /\ clock v1 = clock v + length acts /\
    trace v1 = trace v ++ l /\ map snd l = acts.
Proof.
  induction acts as [|a acts IH]; intros b v I H B.
  - exists v, b, []. cbn. rewrite app_nil_r. repeat split; try assumption; try (apply B); try apply I; lia.
  - cbn [works fold_right run]. destruct (tick_inside sched (mdo (fun w => with_trace w (trace w ++ [(clock w, a)])) ;;; run sched (fold_right Work next acts)) call e b v I) as (v1 & E & I1 & C1 & T1).
    { intros ->. rewrite H by lia. apply Nat.eqb_neq. destruct B as [B _]. specialize (B eq_refl). lia. }
    rewrite E, do_then. set (v2 := with_trace v1 _). rewrite (H (clock v)) in I1 by lia.
    destruct (IH (b || Nat.eqb (clock v) t) v2) as (v3 & b3 & l & E3 & I3 & B3 & C3 & T3 & L3).
    { exact I1. } { intros u Hu. apply H. cbn in Hu. lia. } { cbn. rewrite C1. now apply or_press. }
    exists v3, b3, ((clock v1, a) :: l). split; [exact E3|]. split; [exact I3|]. split; [exact B3|]. split; [cbn in *; lia|]. split.
    + rewrite T3. cbn. rewrite T1, <- app_assoc. reflexivity.
    + cbn. now rewrite L3.
Qed.

Lemma asks_shift acts s : forall i, asks_at acts s (S i) = asks_at (fun k => acts (S k)) (S s + length (acts 0)) i.
Proof. induction i as [|i IH]; [reflexivity|]. cbn [asks_at] in *. rewrite IH. reflexivity. Qed.
Lemma whole_S acts j : whole_iterations acts (S j) = acts 0 ++ whole_iterations (fun k => acts (S k)) j.
Proof. unfold whole_iterations. cbn [seq map concat]. f_equal. now rewrite <- seq_shift, map_map. Qed.

Lemma grange_run call e : forall n first (acts : nat -> list nat) b v, inside call e b v -> single (clock v) -> (b = true <-> t < clock v) ->
  exists v1 b1 l j, run sched (grange (seq first n) e (fun i => works (acts i)) (Return 0)) v = (Ok 0, v1) /\ inside call e b1 v1 /\ (b1 = true <-> t < clock v1) /\
    j <= n /\ trace v1 = trace v ++ l /\ map snd l = whole_iterations (fun k => acts (first + k)) j /\
    (forall i, i < j -> asks_at (fun k => acts (first + k)) (clock v) i < t) /\ (j < n -> t <= asks_at (fun k => acts (first + k)) (clock v) j) /\
    clock v1 = asks_at (fun k => acts (first + k)) (clock v) j + (if j <? n then 1 else 0).
Proof.
  induction n as [|n IH]; intros first acts b v I H B.
  - exists v, b, [], 0. cbn. rewrite app_nil_r. split; [reflexivity|]. split; [exact I|]. split; [exact B|]. repeat (split; [first [lia|reflexivity]|]). lia.
  - cbn [seq grange run].
    match goal with |- context [(tick sched ;;; ?f) v] => destruct (tick_inside sched f call e b v I) as (v1 & E & I1 & C1 & T1) end.
    { intros ->. rewrite H by lia. apply Nat.eqb_neq. destruct B as [B _]. specialize (B eq_refl). lia. }
    rewrite E. rewrite (H (clock v)) in I1 by lia. set (b1 := b || Nat.eqb (clock v) t) in *.
    assert (B1 : b1 = true <-> t < clock v1) by (rewrite C1; now apply or_press).
    assert (EV : events v1 e = b1) by apply I1. unfold mbind at 1. rewrite EV. destruct b1.
    + exists v1, true, [], 0. cbn [run mret]. rewrite app_nil_r. split; [reflexivity|]. split; [exact I1|]. split; [exact B1|]. split; [lia|]. split; [exact T1|]. split; [reflexivity|]. split; [lia|].
      split; [intros _; cbn [asks_at]; destruct B1 as [B1 _]; specialize (B1 eq_refl); lia|cbn [asks_at Nat.ltb Nat.leb]; lia].
    + destruct (works_run call e (grange (seq (S first) n) e (fun i => works (acts i)) (Return 0)) (acts first) false v1 I1) as (v2 & b2 & l2 & E2 & I2 & B2 & C2 & T2 & L2).
      { intros u Hu. apply H. lia. } { exact B1. }
      rewrite E2. destruct (IH (S first) acts b2 v2 I2) as (v3 & b3 & l3 & j & E3 & I3 & B3 & J3 & T3 & L3 & A3 & S3 & C3).
      { intros u Hu. apply H. lia. } { exact B2. }
      assert (FE : (fun k => acts (first + S k)) = (fun k => acts (S first + k))) by (apply FunctionalExtensionality.functional_extensionality; intros k; f_equal; lia).
      assert (AS : forall i, asks_at (fun k => acts (first + k)) (clock v) (S i) = asks_at (fun k => acts (S first + k)) (clock v2) i).
      { intros i. rewrite asks_shift, FE. f_equal. rewrite C2, C1. now rewrite Nat.add_0_r. }
      exists v3, b3, (l2 ++ l3), (S j). split; [exact E3|]. split; [exact I3|]. split; [exact B3|]. split; [lia|]. split; [rewrite T3, T2, T1, app_assoc; reflexivity|]. split.
      { rewrite map_app, L2, L3, whole_S, FE, Nat.add_0_r. reflexivity. }
      split.
      { intros i Hi. destruct i as [|i]; [cbn [asks_at]|rewrite AS; apply A3; lia]. destruct (Nat.lt_ge_cases (clock v) t) as [L|L]; [exact L|].
        destruct B1 as [_ B1]. rewrite C1 in B1. discriminate (B1 ltac:(lia)). }
      split; [intros Hj; rewrite AS; apply S3; lia|]. rewrite AS, C3. reflexivity.
Qed.
End One.

Lemma asks_at_ge acts s : forall i, s <= asks_at acts s i.
Proof. induction i as [|i IH]; cbn [asks_at]; lia. Qed.
Lemma break_one sched t n actions w : clock w + 5 <= t -> (forall u, clock w <= u -> sched u = Nat.eqb u t) -> current w = Outer true ->
  let (r, w') := break_loop sched (run sched (grange_loop n actions)) w in
  exists j l, j <= n /\ trace w' = trace w ++ l /\ map snd l = whole_iterations actions j /\
    (forall i, i < j -> asks_at actions (clock w + 7) i < t) /\ (j < n -> t <= asks_at actions (clock w + 7) j) /\
    current w' = current w /\ clock w' = asks_at actions (clock w + 7) j + (if j <? n then 3 else 2) /\
    (r = Ok tt \/ (r = Raise KeyboardInterrupt /\ t = clock w' - 1)).
Proof.
  intros Ht Hs CO. rewrite break_loop_setup.
  destruct (setup_quiet sched (fun call original => tail sched (run sched (grange_loop n actions)) original) w) as (w0 & call & e & E & I & C & T & _ & _).
  { intros u Hu. rewrite Hs by lia. apply Nat.eqb_neq. lia. }
  rewrite E. unfold tail, finally.
  assert (SG : single sched t (clock w0)) by (intros u Hu; apply Hs; lia).
  match goal with |- context [(tick sched ;;; ?f) w0] => destruct (tick_inside sched f call e false w0 I ltac:(discriminate)) as (w1 & E1 & I1 & C1 & T1) end.
  rewrite E1. rewrite SG in I1 by lia. cbn [orb] in I1. unfold grange_loop. cbn [run].
  unfold mbind at 1.
  match goal with |- context [(tick sched ;;; ?f) w1] => destruct (tick_inside sched f call e _ w1 I1) as (w2 & E2 & I2 & C2 & T2) end.
  { intros Q. rewrite SG by lia. apply Nat.eqb_eq in Q. apply Nat.eqb_neq. lia. }
  rewrite E2. rewrite SG in I2 by lia. unfold mbind at 1. assert (AT : attribute w2 = e) by apply I2. rewrite AT.
  assert (B2 : Nat.eqb (clock w0) t || Nat.eqb (clock w1) t = true <-> t < clock w2).
  { rewrite orb_true_iff, !Nat.eqb_eq. lia. }
  destruct (grange_run sched t call e n 0 actions _ w2 I2) as (w3 & b3 & l & j & E3 & I3 & B3 & J & T3 & L3 & A3 & S3 & C3).
  { intros u Hu. apply SG. lia. } { exact B2. }
  rewrite E3. cbn [mret]. cbn [Nat.add] in *. change (fun k => actions k) with actions in *. replace (clock w2) with (clock w + 7) in * by lia.
  match goal with |- context [(tick sched ;;; ?f) w3] => destruct (tick_inside sched f call e b3 w3 I3) as (w4 & E4 & I4 & C4 & T4) end.
  { intros ->. rewrite SG by lia. apply Nat.eqb_neq. destruct B3 as [B3 _]. specialize (B3 eq_refl). lia. }
  rewrite E4. unfold setsignal. rewrite do_then. unfold clear_event.
  pose proof (asks_at_ge actions (clock w + 7) j) as GE.
  assert (CL : clock w4 + 1 = asks_at actions (clock w + 7) j + (if j <? n then 3 else 2)) by (destruct (j <? n); lia).
  assert (TR : trace w4 = trace w ++ l) by congruence.
  destruct (sched (clock w4)) eqn:F.
  - rewrite tick_outer by (cbn; assumption). exists j, l. cbn [with_clock with_current clock trace current]. split; [exact J|]. split; [exact TR|]. split; [exact L3|]. split; [exact A3|]. split; [exact S3|]. split; [reflexivity|]. split; [lia|].
    right. split; [reflexivity|]. rewrite SG in F by lia. apply Nat.eqb_eq in F. lia.
  - rewrite tick_quiet by (cbn; assumption). exists j, l. cbn [with_clock with_current with_events clock trace current]. split; [exact J|]. split; [exact TR|]. split; [exact L3|]. split; [exact A3|]. split; [exact S3|]. split; [reflexivity|]. split; [lia|]. now left.
Qed.

(** *** two presses *)
Section Two.
Variables (sched : nat -> bool) (t1 t2 : nat).
Hypotheses (H12 : t1 < t2) (P1 : sched t1 = true) (P2 : sched t2 = true).
(** The first two presses from [start] on. *)
Definition first_two (start : nat) := forall u, start <= u < t2 -> sched u = true -> u = t1.

Lemma simple_two call e : forall p, simple p -> forall b v, inside call e b v -> first_two (clock v) -> clock v <= t2 -> (b = true <-> t1 < clock v) ->
  let (r, v1) := run sched p v in exists l, trace v1 = trace v ++ l /\ (forall u a, In (u, a) l -> u <= t2) /\
   ((clock v1 <= t2 /\ (exists b1, inside call e b1 v1 /\ (b1 = true <-> t1 < clock v1))) \/ (r = Raise KeyboardInterrupt /\ clock v1 = S t2 /\ current v1 = Break call /\ 2 <= counts v1 call)).
Proof.
  assert (NX : forall B (f : M B) b v, inside call e b v -> first_two (clock v) -> clock v <= t2 -> (b = true <-> t1 < clock v) ->
    (exists v1, (tick sched ;;; f) v = (Raise KeyboardInterrupt, v1) /\ clock v1 = S t2 /\ trace v1 = trace v /\ current v1 = Break call /\ 2 <= counts v1 call) \/
    (exists v1 b1, (tick sched ;;; f) v = f v1 /\ inside call e b1 v1 /\ first_two (clock v1) /\ clock v1 = S (clock v) /\ clock v1 <= t2 /\ (b1 = true <-> t1 < clock v1) /\ trace v1 = trace v)).
  { intros B f b v I F L Bv. destruct (Nat.eq_dec (clock v) t2) as [Q|Q].
    - assert (bt : b = true) by (apply Bv; lia). subst b. destruct (tick_abort sched f call e v I) as (v1 & E & C & T & K & N); [now rewrite Q|]. left. exists v1. repeat (split; [assumption || lia|]). exact N.
    - destruct (tick_inside sched f call e b v I) as (v1 & E & I1 & C1 & T1).
      { intros ->. destruct (sched (clock v)) eqn:Z; [|reflexivity]. assert (clock v = t1) by (apply F; [lia|exact Z]). destruct Bv as [Bv _]. specialize (Bv eq_refl). lia. }
      right. exists v1, (b || sched (clock v)). split; [exact E|]. split; [exact I1|]. split; [intros u Hu; apply F; lia|]. split; [exact C1|]. split; [lia|]. split; [|exact T1].
      rewrite orb_true_iff, Bv, C1. destruct (sched (clock v)) eqn:Z.
      + assert (clock v = t1) by (apply F; [lia|exact Z]). split; [lia|now right].
      + split; [intros [Q'|Q']; [lia|discriminate]|]. intros Q'. left. destruct (Nat.eq_dec (clock v) t1) as [Q2|Q2]; [rewrite Q2 in Z; congruence|lia]. }
  induction 1 as [x|x|a k Hk IH|k Hk IH|ev k Hk IH]; intros b v I F L Bv; cbn [run].
  - exists []. cbn. rewrite app_nil_r. split; [reflexivity|]. split; [intros u a []|]. left. eauto.
  - exists []. cbn. rewrite app_nil_r. split; [reflexivity|]. split; [intros u a []|]. left. eauto.
  - match goal with |- context [(tick sched ;;; ?f) v] => destruct (NX _ f b v I F L Bv) as [(v1 & E & C & T & K & N)|(v1 & b1 & E & I1 & F1 & C1 & L1 & B1 & T1)] end; rewrite E.
    + exists []. rewrite app_nil_r. split; [exact T|]. split; [intros u x []|]. auto.
    + rewrite do_then. set (v2 := with_trace v1 _). specialize (IH b1 v2 I1 F1 L1 B1). destruct (run sched k v2) as [r v3]. destruct IH as (l & T3 & L3 & Z).
      exists ((clock v1, a) :: l). split; [rewrite T3; cbn; rewrite T1, <- app_assoc; reflexivity|]. split; [|exact Z]. intros u x [Q|Q]; [injection Q as <- <-; exact L1|eauto].
  - match goal with |- context [(tick sched ;;; ?f) v] => destruct (NX _ f b v I F L Bv) as [(v1 & E & C & T & K & N)|(v1 & b1 & E & I1 & F1 & C1 & L1 & B1 & T1)] end; rewrite E.
    + exists []. rewrite app_nil_r. split; [exact T|]. split; [intros u x []|]. auto.
    + unfold mbind. specialize (IH (attribute v1) b1 v1 I1 F1 L1 B1). rewrite T1 in IH. exact IH.
  - match goal with |- context [(tick sched ;;; ?f) v] => destruct (NX _ f b v I F L Bv) as [(v1 & E & C & T & K & N)|(v1 & b1 & E & I1 & F1 & C1 & L1 & B1 & T1)] end; rewrite E.
    + exists []. rewrite app_nil_r. split; [exact T|]. split; [intros u x []|]. auto.
    + unfold mbind. specialize (IH (events v1 ev) b1 v1 I1 F1 L1 B1). rewrite T1 in IH. exact IH.
Qed.
End Two.

Lemma break_two sched t1 t2 p w : simple p -> clock w + 5 <= t1 -> t1 < t2 -> sched t1 = true -> sched t2 = true ->
  (forall u, clock w <= u < t2 -> sched u = true -> u = t1) ->
  let (r, w') := break_loop sched (run sched p) w in
  S t2 < clock w' -> r = Raise KeyboardInterrupt /\ clock w' <= t2 + 3 /\ (sched (S t2) = false -> current w' = current w) /\
    exists l, trace w' = trace w ++ l /\ forall u a, In (u, a) l -> u <= t2.
Proof.
  intros Sp Ht H12 P1 P2 F2. rewrite break_loop_setup.
  destruct (setup_quiet sched (fun call original => tail sched (run sched p) original) w) as (w0 & call & e & E & I & C & T & _ & _).
  { intros u Hu. destruct (sched u) eqn:Z; [|reflexivity]. specialize (F2 u ltac:(lia) Z). lia. }
  rewrite E. unfold tail, finally.
  match goal with |- context [(tick sched ;;; ?f) w0] => destruct (tick_inside sched f call e false w0 I ltac:(discriminate)) as (w1 & E1 & I1 & C1 & T1) end.
  rewrite E1. cbn [orb] in I1.
  assert (B1 : sched (clock w0) = true <-> t1 < clock w1).
  { split; intros Q; [specialize (F2 (clock w0) ltac:(lia) Q); lia|]. replace (clock w0) with t1 by lia. exact P1. }
  pose proof (simple_two sched t1 t2 H12 P1 P2 call e p Sp _ w1 I1) as R.
  specialize (R ltac:(intros u Hu; apply F2; lia) ltac:(lia) B1).
  unfold mbind at 1. destruct (run sched p w1) as [r2 w2]. destruct R as (l & Tl & Ll & R).
  assert (TR : trace w2 = trace w ++ l) by congruence.
  assert (FN : forall r0 : outcome unit, let (r, w') := match (tick sched ;;; setsignal (current w) ;;; tick sched ;;; clear_event) w2 with (Ok _, w3) => (r0, w3) | (Raise x, w3) => (Raise x, w3) end in
   (r = Raise KeyboardInterrupt \/ r = r0) /\ clock w' <= clock w2 + 2 /\ trace w' = trace w2 /\ (sched (clock w2) = false -> current w' = current w)).
  { intros r0. match goal with |- context [(tick sched ;;; ?f) w2] => destruct (tick_then sched f w2) as [(v & Ev & Cv & Tv & Kv & Sv & Bv)|(v & Ev & Cv & Tv & Kv & _ & _ & Nv)] end; rewrite Ev.
    - split; [now left|]. split; [lia|]. split; [exact Tv|]. congruence.
    - unfold setsignal. rewrite do_then. unfold clear_event.
      match goal with |- context [(tick sched ;;; ?f) ?vv] => destruct (tick_then sched f vv) as [(u & Eu & Cu & Tu & Ku & Su & Bu)|(u & Eu & Cu & Tu & Ku & _ & _ & Nu)] end; rewrite Eu; cbn in *.
      + split; [now left|]. split; [lia|]. split; [congruence|]. intros; exact Cu.
      + split; [now right|]. split; [lia|]. split; [congruence|]. intros; exact Cu. }
  destruct R as [(L2 & b2 & I2 & B2)|(-> & C2 & K2 & N2)].
  - destruct (Nat.eq_dec (clock w2) t2) as [Q|Q].
    + assert (b2 = true) by (apply B2; lia). subst b2.
      destruct (tick_abort sched (setsignal (current w) ;;; tick sched ;;; clear_event) call e w2 I2 ltac:(now rewrite Q)) as (v & Ev & Cv & _).
      destruct r2; unfold mret; rewrite Ev; lia.
    + destruct r2 as [x|x]; unfold mret; [specialize (FN (Ok tt))|specialize (FN (Raise x))]; destruct ((tick sched ;;; setsignal (current w) ;;; tick sched ;;; clear_event) w2) as [[y|y] w3]; destruct FN as (_ & FN & _); lia.
  - specialize (FN (Raise KeyboardInterrupt)). destruct ((tick sched ;;; setsignal (current w) ;;; tick sched ;;; clear_event) w2) as [[y|y] w3]; destruct FN as (F1 & F3 & F4 & F5); intros _;
    (split; [destruct F1; assumption|]); (split; [lia|]); (split; [rewrite C2 in F5; exact F5|]); exists l; split; congruence || exact Ll.
Qed.

(** *** finish_iteration *)
(** The same but for what Ctrl+C presses may have changed in a finish_iteration handler. *)
Definition alike (v w : world) : Prop := clock v = clock w /\ trace v = trace w /\ events v = events w /\ attribute v = attribute w.

Lemma tick_finish {B} sched (f : M B) call v : current v = Finish call -> (counts v call = 0 <-> requested v call = false) ->
  exists v1, (tick sched ;;; f) v = f v1 /\ alike v1 (with_clock v (S (clock v))) /\ current v1 = Finish call /\ (counts v1 call = 0 <-> requested v1 call = false) /\
    requested v1 call = requested v call || sched (clock v).
Proof.
  intros C Z. unfold mbind, tick, deliver. destruct (sched (clock v)) eqn:E.
  - cbn [current with_clock clock counts]. rewrite C. destruct (Nat.eqb_spec (S (counts v call)) 1) as [Q|Q]; (eexists; split; [reflexivity|]); split; try (repeat split; reflexivity); (split; [exact C|]); cbn.
    + rewrite !set_nat_same. rewrite orb_true_r. split; [split; discriminate|reflexivity].
    + rewrite set_nat_same, orb_true_r. destruct (requested v call) eqn:RQ; [|destruct Z as [_ Z]; specialize (Z eq_refl); lia]. split; [split; discriminate|reflexivity].
  - eexists; split; [reflexivity|]. split; [repeat split; reflexivity|]. rewrite orb_false_r. cbn. auto.
Qed.

Lemma simple_finish sched call : forall p, simple p -> forall v w, alike v w -> current v = Finish call -> (counts v call = 0 <-> requested v call = false) ->
  let (r, v1) := run sched p v in let (r2, w1) := run silent p w in
  r = r2 /\ alike v1 w1 /\ current v1 = Finish call /\ (counts v1 call = 0 <-> requested v1 call = false) /\ clock v <= clock v1 /\
  (requested v1 call = true <-> requested v call = true \/ 1 <= presses sched (clock v) (clock v1)).
Proof.
  assert (P0 : forall a, presses sched a a = 0) by (intros a; apply presses_none; lia).
  assert (ST : forall v v1, requested v1 call = requested v call || sched (clock v) -> clock v1 = S (clock v) -> forall v2, clock v1 <= clock v2 ->
     (requested v2 call = true <-> requested v1 call = true \/ 1 <= presses sched (clock v1) (clock v2)) -> (requested v2 call = true <-> requested v call = true \/ 1 <= presses sched (clock v) (clock v2))).
  { intros v v1 Q C v2 L R. rewrite R, Q, orb_true_iff. rewrite (presses_add sched (clock v) (clock v1)) by lia. rewrite C, presses_one. destruct (sched (clock v)).
    - split; [intros _; right; lia|intros _; left; now right].
    - split; [intros [[?|?]|?]; [now left|discriminate|right; lia]|intros [?|?]; [left; now left|right; lia]]. }
  induction 1 as [x|x|a k Hk IH|k Hk IH|ev k Hk IH]; intros v w A C Z; cbn [run].
  - cbn. rewrite P0. split; [reflexivity|]. split; [exact A|]. split; [exact C|]. split; [exact Z|]. split; [lia|]. split; [now left|intros [?|?]; [assumption|lia]].
  - cbn. rewrite P0. split; [reflexivity|]. split; [exact A|]. split; [exact C|]. split; [exact Z|]. split; [lia|]. split; [now left|intros [?|?]; [assumption|lia]].
  - match goal with |- context [(tick sched ;;; ?f) v] => destruct (tick_finish sched f call v C Z) as (v1 & E & A1 & C1 & Z1 & R1) end. rewrite E. rewrite tick_quiet by reflexivity. rewrite !do_then.
    destruct A as (K & T & V & B). destruct A1 as (K1 & T1 & V1 & B1). cbn in K1, T1, V1, B1.
    set (v2 := with_trace v1 _). set (w2 := with_trace _ _).
    assert (A2 : alike v2 w2). { repeat split; cbn; congruence. }
    specialize (IH v2 w2 A2 C1 Z1). destruct (run sched k v2) as [r v3]. destruct (run silent k w2) as [r2 w3]. destruct IH as (I1 & I2 & I3 & I4 & I5 & I6).
    change (clock v2) with (clock v1) in I5, I6. change (requested v2 call) with (requested v1 call) in I6.
    split; [exact I1|]. split; [exact I2|]. split; [exact I3|]. split; [exact I4|]. split; [lia|]. apply (ST v v1); assumption.
  - match goal with |- context [(tick sched ;;; ?f) v] => destruct (tick_finish sched f call v C Z) as (v1 & E & A1 & C1 & Z1 & R1) end. rewrite E. rewrite tick_quiet by reflexivity. unfold mbind.
    destruct A as (K & T & V & B). destruct A1 as (K1 & T1 & V1 & B1). cbn in K1, T1, V1, B1.
    set (w2 := with_clock w _).
    assert (A2 : alike v1 w2). { repeat split; cbn; congruence. }
    replace (attribute w2) with (attribute v1) by (cbn; congruence).
    specialize (IH (attribute v1) v1 w2 A2 C1 Z1). destruct (run sched (k (attribute v1)) v1) as [r v3]. destruct (run silent (k (attribute v1)) w2) as [r2 w3]. destruct IH as (I1 & I2 & I3 & I4 & I5 & I6).
    split; [exact I1|]. split; [exact I2|]. split; [exact I3|]. split; [exact I4|]. split; [lia|]. apply (ST v v1); assumption.
  - match goal with |- context [(tick sched ;;; ?f) v] => destruct (tick_finish sched f call v C Z) as (v1 & E & A1 & C1 & Z1 & R1) end. rewrite E. rewrite tick_quiet by reflexivity. unfold mbind.
    destruct A as (K & T & V & B). destruct A1 as (K1 & T1 & V1 & B1). cbn in K1, T1, V1, B1.
    set (w2 := with_clock w _).
    assert (A2 : alike v1 w2). { repeat split; cbn; congruence. }
    replace (events w2 ev) with (events v1 ev) by (cbn; congruence).
    specialize (IH (events v1 ev) v1 w2 A2 C1 Z1). destruct (run sched (k (events v1 ev)) v1) as [r v3]. destruct (run silent (k (events v1 ev)) w2) as [r2 w3]. destruct IH as (I1 & I2 & I3 & I4 & I5 & I6).
    split; [exact I1|]. split; [exact I2|]. split; [exact I3|]. split; [exact I4|]. split; [lia|]. apply (ST v v1); assumption.
Qed.

Lemma fsetup_quiet {A} sched (k : nat -> handler -> M A) w : (forall u, clock w <= u < clock w + 3 -> sched u = false) ->
  fsetup sched k w = k (fresh w) (current w) (with_current (with_clock (with_fresh (with_requested (with_counts w (set_nat (counts w) (fresh w) 0)) (set_nat (requested w) (fresh w) false)) (S (fresh w))) (clock w + 3)) (Finish (fresh w))).
Proof.
  intros H. unfold fsetup. rewrite tick_quiet by (apply H; lia). rewrite call_then. rewrite tick_quiet by (apply H; cbn; lia). rewrite get_then. rewrite tick_quiet by (apply H; cbn; lia). unfold setsignal. rewrite do_then.
  cbn. replace (clock w + 3) with (S (S (S (clock w)))) by lia. reflexivity.
Qed.

Lemma finish_defers sched p w : simple p -> current w = Outer true -> (forall u, clock w <= u < clock w + 3 -> sched u = false) ->
  let (r, w') := finish_iteration sched (run sched p) w in
  let (r0, w0) := finish_iteration silent (run silent p) w in
  trace w' = trace w0 /\ clock w' = clock w0 /\ current w' = current w /\
  r = match r0 with
      | Raise e => Raise e
      | Ok v => if Nat.eqb (presses sched (clock w + 3) (clock w')) 0 then Ok v else Raise KeyboardInterrupt
      end.
Proof.
  intros Sp CO H. rewrite !finish_setup. rewrite (fsetup_quiet sched) by exact H. rewrite (fsetup_quiet silent) by reflexivity.
  set (v0 := with_current _ _). assert (A0 : alike v0 v0) by (repeat split). assert (K0 : clock v0 = clock w + 3) by reflexivity.
  assert (C0 : current v0 = Finish (fresh w)) by reflexivity. assert (Z0 : counts v0 (fresh w) = 0 <-> requested v0 (fresh w) = false) by (cbn; rewrite !set_nat_same; split; reflexivity).
  assert (R0 : requested v0 (fresh w) = false) by (cbn; apply set_nat_same). clearbody v0. set (call := fresh w) in *.
  unfold ftail, finally. unfold mbind at 1. 
  match goal with |- context [(tick sched ;;; ?f) v0] => destruct (tick_finish sched f call v0 C0 Z0) as (v1 & E & A1 & C1 & Z1 & R1) end. rewrite E. clear E.
  unfold mbind at 3. rewrite (tick_quiet silent) by reflexivity. rewrite R0 in R1. cbn [orb] in R1.
  pose proof (simple_finish silent call p Sp (with_clock v0 (S (clock v0))) (with_clock v0 (S (clock v0)))) as SS.
  specialize (SS ltac:(repeat split) C0 Z0).
  pose proof (simple_finish sched call p Sp v1 _ A1 C1 Z1) as SF. destruct (run sched p v1) as [r2 v2]. destruct (run silent p (with_clock v0 (S (clock v0)))) as [r3 w2]. destruct SF as (-> & A2 & C2 & Z2 & L2 & R2).
  assert (RW : requested w2 call = false).
  { destruct SS as (_ & _ & _ & _ & _ & SS). destruct (requested w2 call); [|reflexivity]. destruct SS as [SS _]. destruct (SS eq_refl) as [Q|Q]; [cbn in Q; congruence|].
    assert (presses silent (clock (with_clock v0 (S (clock v0)))) (clock w2) = 0) by (apply presses_none; reflexivity). lia. }
  match goal with |- context [(tick sched ;;; ?f) v2] => destruct (tick_finish sched f call v2 C2 Z2) as (v3 & E & A3 & C3 & Z3 & R3) end. rewrite E. clear E.
  rewrite (tick_quiet silent) by reflexivity. unfold setsignal at 1 2, mdo at 1 2.
  destruct A1 as (K1 & T1 & _). destruct A2 as (K2 & T2 & _). destruct A3 as (K3 & T3 & _). cbn in K1, T1, K3, T3.
  assert (RQ : requested v3 call = true <-> 1 <= presses sched (clock w + 3) (clock v3)).
  { assert (PE : presses sched (clock w + 3) (clock v3) = (if sched (clock v0) then 1 else 0) + presses sched (clock v1) (clock v2) + (if sched (clock v2) then 1 else 0)).
    { rewrite (presses_add sched (clock w + 3) (clock v1)) by lia. rewrite (presses_add sched (clock v1) (clock v2) (clock v3)) by lia. rewrite K3, (presses_one sched (clock v2)). rewrite K1, <- K0, presses_one. lia. }
    rewrite R3, orb_true_iff, R2, R1, PE. destruct (sched (clock v0)), (sched (clock v2)).
    - split; intros; [lia|tauto].
    - split; intros; [lia|tauto].
    - split; intros; [lia|tauto].
    - split; [intros [[?|?]|?]; [discriminate|lia|discriminate]|intros; left; right; lia]. }
  destruct r3 as [x|x].
  - set (u := with_current v3 (current w)). set (u0 := with_current (with_clock w2 _) (current w)).
    assert (Cu : current u = Outer true) by exact CO. assert (Ku : clock u = clock u0) by (cbn; congruence). assert (Tu : trace u = trace u0) by (cbn; congruence).
    assert (Ku3 : clock u = clock v3) by reflexivity. assert (Ru : requested u call = requested v3 call) by reflexivity.
    assert (RF : requested u0 call = false).
    { exact RW. }
    rewrite (tick_quiet silent) by reflexivity. cbn [with_clock requested]. rewrite RF.
    assert (LE : clock w + 3 <= clock v3) by lia.
    destruct (sched (clock u)) eqn:Su.
    + rewrite tick_outer by assumption. cbn [with_clock trace clock current]. split; [exact Tu|]. split; [congruence|]. split; [reflexivity|].
      destruct (Nat.eqb_spec (presses sched (clock w + 3) (S (clock u))) 0) as [Q|Q]; [|reflexivity]. rewrite (presses_none) in Q. rewrite (Q (clock u)) in Su; [discriminate|lia].
    + rewrite tick_quiet by assumption. cbn [with_clock requested]. rewrite Ru.
      assert (PX : presses sched (clock w + 3) (S (clock u)) = presses sched (clock w + 3) (clock v3)) by (rewrite (presses_add sched (clock w + 3) (clock u)) by lia; rewrite presses_one, Su, Ku3; lia).
      destruct (requested v3 call) eqn:RV; cbn [with_clock trace clock current]; (split; [exact Tu|]); (split; [congruence|]); (split; [reflexivity|]); rewrite PX.
      * destruct (Nat.eqb_spec (presses sched (clock w + 3) (clock v3)) 0) as [Q|Q]; [|reflexivity]. destruct RQ as [RQ _]. specialize (RQ eq_refl). lia.
      * destruct (Nat.eqb_spec (presses sched (clock w + 3) (clock v3)) 0) as [Q|Q]; [reflexivity|]. destruct RQ as [_ RQ]. discriminate (RQ ltac:(lia)).
  - cbn. split; [congruence|]. split; [congruence|]. split; reflexivity.
Qed.

(** A press while the decorator is being set up goes to the caller's handler: nothing has been done yet. *)
Lemma break_early sched p w u : current w = Outer true -> clock w <= u < clock w + 5 -> sched u = true ->
  let (r, w') := break_loop sched (run sched p) w in r = Raise KeyboardInterrupt /\ trace w' = trace w /\ current w' = current w.
Proof.
  intros C Hu Su. rewrite break_loop_setup. unfold setup, new_event, clear_event, setsignal.
  destruct (sched (clock w)) eqn:E0; [rewrite tick_outer by assumption; cbn; auto|]. rewrite tick_quiet by assumption. rewrite do_then.
  destruct (sched (S (clock w))) eqn:E1; [rewrite tick_outer by assumption; cbn; auto|]. rewrite tick_quiet by assumption. rewrite do_then.
  destruct (sched (S (S (clock w)))) eqn:E2; [rewrite tick_outer by assumption; cbn; auto|]. rewrite tick_quiet by assumption. rewrite call_then.
  destruct (sched (S (S (S (clock w))))) eqn:E3; [rewrite tick_outer by assumption; cbn; auto|]. rewrite tick_quiet by assumption. rewrite get_then.
  destruct (sched (S (S (S (S (clock w)))))) eqn:E4; [rewrite tick_outer by assumption; cbn; auto|].
  exfalso. assert (Q : u = clock w \/ u = S (clock w) \/ u = S (S (clock w)) \/ u = S (S (S (clock w))) \/ u = S (S (S (S (clock w))))) by lia.
  destruct Q as [Q|[Q|[Q|[Q|Q]]]]; subst u; congruence.
Qed.
Lemma finish_early sched p w u : current w = Outer true -> clock w <= u < clock w + 3 -> sched u = true ->
  let (r, w') := finish_iteration sched (run sched p) w in r = Raise KeyboardInterrupt /\ trace w' = trace w /\ current w' = current w.
Proof.
  intros C Hu Su. rewrite finish_setup. unfold fsetup, setsignal.
  destruct (sched (clock w)) eqn:E0; [rewrite tick_outer by assumption; cbn; auto|]. rewrite tick_quiet by assumption. rewrite call_then.
  destruct (sched (S (clock w))) eqn:E1; [rewrite tick_outer by assumption; cbn; auto|]. rewrite tick_quiet by assumption. rewrite get_then.
  destruct (sched (S (S (clock w)))) eqn:E2; [rewrite tick_outer by assumption; cbn; auto|].
  exfalso. assert (Q : u = clock w \/ u = S (clock w) \/ u = S (S (clock w))) by lia.
  destruct Q as [Q|[Q|Q]]; subst u; congruence.
Qed.

(** *** what does not hold *)

Lemma handler_lost : exists sched p, simple p /\ presses sched 0 10 = 2 /\
  let (r, w') := break_loop sched (run sched p) idle in r = Raise KeyboardInterrupt /\ current w' <> current idle.
Proof. exists (at_instants [6; 7]), (Work 1 (Return 0)). split; [repeat constructor|]. split; [reflexivity|]. cbn. split; [reflexivity|discriminate]. Qed.
Lemma second_press_ignored : exists sched p t1 t2, simple p /\ 3 <= t1 < t2 /\ sched t1 = true /\ sched t2 = true /\
  let (r, w') := finish_iteration sched (run sched p) idle in exists u a, In (u, a) (trace w') /\ t2 + 3 < u.
Proof.
  exists (at_instants [4; 5]), (works [1; 2; 3; 4; 5; 6; 7; 8] (Return 0)), 4, 5. split; [repeat constructor|]. split; [lia|]. split; [reflexivity|]. split; [reflexivity|].
  cbn. exists 12, 8. split; [tauto|lia].
Qed.
Lemma recursion_not_stopped : exists t, let (r, w') := break_loop (at_instants [t]) (run (at_instants [t]) recursive) idle in
   r = Ok tt /\ (exists u, In (u, 10) (trace w') /\ u < t) /\ exists u, In (u, 1) (trace w') /\ t < u /\ exists u', In (u', 2) (trace w') /\ u < u'.
Proof.
  exists 17. vm_compute. split; [reflexivity|].
  split; [exists 15; split; [tauto|lia]|]. exists 19. split; [tauto|]. split; [lia|]. exists 21. split; [tauto|lia].
Qed.

Lemma break_at_most_one sched p w : (forall c, fresh w <= c -> counts w c = 0) ->
  let (r, w') := break_loop sched (run sched p) w in presses sched (clock w) (clock w') <= 1 -> current w' = current w.
Proof.
  intros Z. pose proof (break_loop_restores sched p w Z) as B. destruct (break_loop sched (run sched p) w) as [r w']. intros L. destruct B as [B|(_ & _ & _ & B)]; [exact B|lia].
Qed.
Lemma break_undisturbed p w :
  exists w0 q w1, run silent p w0 = (q, w1) /\ trace w0 = trace w /\
  let (r, w') := break_loop silent (run silent p) w in
  trace w' = trace w1 /\ current w' = current w /\ events w' (attribute w') = false /\ r = match q with Ok _ => Ok tt | Raise e => Raise e end.
Proof.
  rewrite break_loop_setup. destruct (setup_quiet silent (fun call original => tail silent (run silent p) original) w ltac:(reflexivity)) as (w0 & call & e & E & I & C & T & _ & _).
  destruct (run silent p (with_clock w0 (S (clock w0)))) as [q w1] eqn:R. exists (with_clock w0 (S (clock w0))), q, w1. split; [exact R|]. split; [exact T|].
  rewrite E. unfold tail, finally. rewrite (tick_quiet silent) by reflexivity. unfold mbind at 1. rewrite R.
  destruct q as [x|x]; unfold mret; rewrite (tick_quiet silent) by reflexivity; unfold setsignal; rewrite do_then; rewrite (tick_quiet silent) by reflexivity; cbn; rewrite set_nat_same; auto.
Qed.
