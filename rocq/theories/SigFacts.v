(** C64, C65: Ctrl+C decorators. *)
From Coq Require Import Lia.
From Verif Require Import Base BaseFacts SigModel SigSpec.
Local Open Scope nat_scope.
Local Arguments presses : simpl never.

(** *** counting presses *)
Lemma presses_add sched a b c : a <= b -> b <= c -> presses sched a c = presses sched a b + presses sched b c.
Proof.
  intros H1 H2. unfold presses. replace (c - a) with ((b - a) + (c - b)) by lia. rewrite seq_app, filter_app, app_length.
  replace (a + (b - a)) with b by lia. reflexivity.
Qed.
Lemma presses_one sched a : presses sched a (S a) = if sched a then 1 else 0.
Proof. unfold presses. replace (S a - a) with 1 by lia. cbn. now destruct (sched a). Qed.
Lemma presses_le sched a a' b b' : a' <= a -> b <= b' -> presses sched a b <= presses sched a' b'.
Proof.
  intros H1 H2. destruct (le_lt_dec a b) as [L|L].
  - rewrite (presses_add sched a' a b') by lia. rewrite (presses_add sched a b b') by lia. lia.
  - unfold presses at 1. replace (b - a) with 0 by lia. cbn. lia.
Qed.
Lemma presses_in sched a b t : a <= t < b -> sched t = true -> 1 <= presses sched a b.
Proof. intros H E. pose proof (presses_le sched t a (S t) b ltac:(lia) ltac:(lia)) as P. rewrite presses_one, E in P. exact P. Qed.
Lemma presses_two sched a b t u : a <= t -> t < u -> u < b -> sched t = true -> sched u = true -> 2 <= presses sched a b.
Proof.
  intros H1 H2 H3 E F. rewrite (presses_add sched a u b) by lia. pose proof (presses_in sched a u t ltac:(lia) E). pose proof (presses_in sched u b u ltac:(lia) F). lia.
Qed.
Lemma presses_none sched a b : presses sched a b = 0 <-> forall t, a <= t < b -> sched t = false.
Proof.
  split.
  - intros H t Ht. destruct (sched t) eqn:E; [|reflexivity]. pose proof (presses_in sched a b t Ht E). lia.
  - intros H. unfold presses. assert (Z : forall l, (forall t, In t l -> sched t = false) -> length (filter sched l) = 0).
    { induction l as [|x l IH]; intros Hl; [reflexivity|]. cbn [filter]. rewrite (Hl x) by now left. apply IH. intros t Ht. apply Hl. now right. }
    apply Z. intros t Ht. apply in_seq in Ht. apply H. lia.
Qed.

(** *** one instant *)
Lemma set_nat_same {A} (f : nat -> A) k v : set_nat f k v k = v.
Proof. unfold set_nat. now rewrite Nat.eqb_refl. Qed.
Lemma set_nat_other {A} (f : nat -> A) k v j : j <> k -> set_nat f k v j = f j.
Proof. intros H. unfold set_nat. destruct (Nat.eqb_spec j k); [contradiction|reflexivity]. Qed.

Lemma tick_frame sched w : let (r, w1) := tick sched w in
  clock w1 = S (clock w) /\ current w1 = current w /\ attribute w1 = attribute w /\ fresh w1 = fresh w /\ trace w1 = trace w /\
  (sched (clock w) = false -> r = Ok tt /\ w1 = with_clock w (S (clock w))) /\
  (forall c, counts w1 c <= counts w c + presses sched (clock w) (clock w1)) /\
  (forall e, r = Raise e -> e = KeyboardInterrupt /\ sched (clock w) = true /\
     (current w = Outer true \/ exists c, current w = Break c /\ 1 <= counts w c)).
Proof.
  assert (BUMP : forall c c', set_nat (counts w) c (S (counts w c)) c' <= counts w c' + 1).
  { intros c c'. unfold set_nat. destruct (Nat.eqb_spec c' c) as [-> |]; lia. }
  unfold tick. destruct (sched (clock w)) eqn:E.
  - assert (P1 : presses sched (clock w) (S (clock w)) = 1) by (rewrite presses_one, E; reflexivity).
    unfold deliver. cbn [current with_clock clock counts]. destruct (current w) as [[|]|c|c] eqn:C.
    + cbn [current with_clock clock counts attribute fresh trace]. rewrite P1. do 7 (split; [first [solve [auto]|discriminate|intros; lia]|]). intros e Q. injection Q as <-. auto.
    + cbn [current with_clock clock counts attribute fresh trace]. rewrite P1. do 7 (split; [first [solve [auto]|discriminate|intros; lia]|]). intros e Q. discriminate.
    + destruct (Nat.eqb_spec (S (counts w c)) 1) as [Q|Q]; cbn [current with_clock with_counts with_events clock counts attribute fresh trace]; rewrite P1; do 7 (split; [first [solve [auto]|discriminate|intros; apply BUMP]|]).
      * intros e Z. discriminate.
      * intros e Z. injection Z as <-. split; [reflexivity|]. split; [reflexivity|]. right. exists c. split; [reflexivity|lia].
    + destruct (Nat.eqb_spec (S (counts w c)) 1) as [Q|Q]; cbn [current with_clock with_counts with_requested clock counts attribute fresh trace]; rewrite P1; do 7 (split; [first [solve [auto]|discriminate|intros; apply BUMP]|]);
      intros e Z; discriminate.
  - cbn [current with_clock clock counts attribute fresh trace]. do 7 (split; [first [solve [auto]|intros; lia]|]). intros e Z. discriminate.
Qed.

(** *** clocks and counters along a computation *)
Definition reach (sched : nat -> bool) (w w' : world) : Prop :=
  clock w <= clock w' /\ fresh w <= fresh w' /\ forall c, counts w' c <= counts w c + presses sched (clock w) (clock w').
Lemma reach_refl sched w : reach sched w w.
Proof. repeat split; intros; lia. Qed.
Lemma reach_trans sched a b c : reach sched a b -> reach sched b c -> reach sched a c.
Proof.
  intros (A1 & A2 & A3) (B1 & B2 & B3). split; [lia|]. split; [lia|]. intros k. rewrite (presses_add sched (clock a) (clock b)) by lia.
  specialize (A3 k). specialize (B3 k). lia.
Qed.
Definition reaches {A} sched (m : M A) := forall w, reach sched w (snd (m w)).
Lemma reaches_tick sched : reaches sched (tick sched).
Proof.
  intros w. pose proof (tick_frame sched w) as T. destruct (tick sched w) as [r w1]. destruct T as (A & _ & _ & B & _ & _ & C & _). cbn [snd].
  split; [lia|]. split; [lia|]. exact C.
Qed.
Lemma reaches_bind {A B} sched (m : M A) (f : A -> M B) : reaches sched m -> (forall a, reaches sched (f a)) -> reaches sched (mbind m f).
Proof.
  intros Hm Hf w. unfold mbind. specialize (Hm w). destruct (m w) as [[a|e] w1]; cbn [snd] in Hm; [|exact Hm].
  eapply reach_trans; [exact Hm|]. apply Hf.
Qed.
Lemma reaches_do sched f : (forall w, clock (f w) = clock w /\ fresh w <= fresh (f w) /\ forall c, counts (f w) c <= counts w c) -> reaches sched (mdo f).
Proof. intros H w. cbn. destruct (H w) as (A & B & C). split; [lia|]. split; [lia|]. intros c. specialize (C c). lia. Qed.
Lemma reaches_finally {A} sched (m : M A) f : reaches sched m -> reaches sched f -> reaches sched (finally m f).
Proof.
  intros Hm Hf w. unfold finally. specialize (Hm w). destruct (m w) as [r w1]. cbn [snd] in Hm. specialize (Hf w1).
  destruct (f w1) as [[u|e] w2]; cbn [snd] in *; eapply reach_trans; eassumption.
Qed.
Lemma reaches_new_call sched : reaches sched new_call.
Proof.
  intros w. cbn. split; [cbn; lia|]. split; [cbn; lia|]. intros c. cbn. unfold set_nat. destruct (Nat.eqb c (fresh w)); lia.
Qed.
Lemma reaches_new_event sched : reaches sched new_event.
Proof. apply reaches_do. intros w. cbn. repeat split; intros; lia. Qed.
Lemma reaches_clear sched : reaches sched clear_event.
Proof. apply reaches_do. intros w. cbn. repeat split; intros; lia. Qed.
Lemma reaches_setsignal sched h : reaches sched (setsignal h).
Proof. apply reaches_do. intros w. cbn. repeat split; intros; lia. Qed.
Lemma reaches_ret {A} sched (a : A) : reaches sched (mret a).
Proof. intros w. apply reach_refl. Qed.
Lemma reaches_get {A} sched (g : world -> A) : reaches sched (fun w => (Ok (g w), w)).
Proof. intros w. apply reach_refl. Qed.
Lemma reaches_break {A} sched (m : M A) : reaches sched m -> reaches sched (break_loop sched m).
Proof.
  intros H. unfold break_loop. repeat (apply reaches_bind; [first [apply reaches_tick|apply reaches_new_event|apply reaches_clear|apply reaches_new_call|apply reaches_get|apply reaches_setsignal]|intros ?]).
  apply reaches_finally.
  - apply reaches_bind; [apply reaches_tick|intros ?]. apply reaches_bind; [exact H|intros ?]. apply reaches_ret.
  - repeat (apply reaches_bind; [first [apply reaches_tick|apply reaches_setsignal]|intros ?]). apply reaches_clear.
Qed.
Lemma reaches_finish {A} sched (m : M A) : reaches sched m -> reaches sched (finish_iteration sched m).
Proof.
  intros H. unfold finish_iteration. repeat (apply reaches_bind; [first [apply reaches_tick|apply reaches_new_call|apply reaches_get|apply reaches_setsignal]|intros ?]).
  apply reaches_bind.
  - apply reaches_finally; [apply reaches_bind; [apply reaches_tick|intros ?; exact H]|apply reaches_bind; [apply reaches_tick|intros ?; apply reaches_setsignal]].
  - intros v. apply reaches_bind; [apply reaches_tick|intros ?]. intros w. cbn. destruct (requested w a0); apply reach_refl.
Qed.
Lemma reaches_run sched p : reaches sched (run sched p).
Proof.
  induction p as [v|e|a k IH|k IH|ev k IH|p IHp h IHh k IHk|p IHp k IHk|p IHp k IHk]; cbn [run].
  - apply reaches_ret.
  - intros w. apply reach_refl.
  - apply reaches_bind; [apply reaches_tick|intros ?]. apply reaches_bind; [|intros ?; exact IH]. apply reaches_do. intros w. cbn. repeat split; intros; lia.
  - apply reaches_bind; [apply reaches_tick|intros ?]. apply reaches_bind; [apply reaches_get|intros ?; apply IH].
  - apply reaches_bind; [apply reaches_tick|intros ?]. apply reaches_bind; [apply (reaches_get sched (fun w => events w ev))|intros ?; apply IH].
  - apply reaches_bind; [|intros ?; apply IHk]. intros w. specialize (IHp w). destruct (run sched p w) as [[v|e] w1]; cbn [snd] in *; [exact IHp|].
    eapply reach_trans; [exact IHp|apply IHh].
  - apply reaches_bind; [now apply reaches_break|intros ?; exact IHk].
  - apply reaches_bind; [now apply reaches_finish|intros ?; apply IHk].
Qed.

(** *** the installed handler *)
(** Afterwards the handler is the same, or that of a call made meanwhile. *)
Definition keeps {A} (m : M A) := forall w, current (snd (m w)) = current w \/ exists c, fresh w <= c /\ current (snd (m w)) = Break c.
Definition steady {A} (m : M A) := forall w, current (snd (m w)) = current w.

Lemma steady_tick sched : steady (tick sched).
Proof. intros w. pose proof (tick_frame sched w) as T. destruct (tick sched w). now destruct T as (_ & T & _). Qed.
Lemma keeps_bind {A B} sched (m : M A) (f : A -> M B) : reaches sched m -> keeps m -> (forall a, keeps (f a)) -> keeps (mbind m f).
Proof.
  intros R Hm Hf w. unfold mbind. specialize (Hm w). specialize (R w). destruct (m w) as [[a|e] w1]; cbn [snd] in *; [|exact Hm].
  destruct R as (_ & F & _). destruct (Hf a w1) as [E|(c & L & E)]; [rewrite E; exact Hm|right; exists c; split; [lia|exact E]].
Qed.
Lemma steady_keeps {A} (m : M A) : steady m -> keeps m.
Proof. intros H w. left. apply H. Qed.

(** The end of break_loop: restoring may be prevented only by a late second press. *)
Definition tail {A} sched (m : M A) (original : handler) : M unit :=
  finally (tick sched ;;; (_ <- m ;; mret tt)) (tick sched ;;; setsignal original ;;; tick sched ;;; clear_event).

Lemma tail_restores {A} sched (m : M A) original w : reaches sched m -> keeps m ->
  (exists c, current w = Break c) ->
  let (r, w') := tail sched m original w in
  current w' = original \/
  (exists c, current w' = Break c /\ (current w = Break c \/ fresh w <= c) /\ r = Raise KeyboardInterrupt /\ clock w < clock w' /\ sched (clock w' - 1) = true /\
     2 <= counts w c + presses sched (clock w) (clock w')).
Proof.
  intros R K [c0 C0]. unfold tail, finally.
  assert (RB : reaches sched (tick sched ;;; (_ <- m ;; mret tt))) by (apply reaches_bind; [apply reaches_tick|intros ?; apply reaches_bind; [exact R|intros ?; apply reaches_ret]]).
  assert (KB : keeps (tick sched ;;; (_ <- m ;; mret tt))).
  { apply (keeps_bind sched); [apply reaches_tick|apply steady_keeps, steady_tick|intros ?]. apply (keeps_bind sched); [exact R|exact K|intros ?]. apply steady_keeps. intros v. reflexivity. }
  specialize (RB w). specialize (KB w). destruct ((tick sched ;;; (_ <- m ;; mret tt)) w) as [r w1]. cbn [snd] in *.
  unfold mbind at 1. pose proof (tick_frame sched w1) as T. destruct (tick sched w1) as [r2 w2]. destruct T as (T1 & T2 & _ & _ & _ & _ & _ & T8).
  destruct r2 as [u|e].
  - unfold setsignal, clear_event, mdo, mbind. pose proof (tick_frame sched (with_current w2 original)) as U. destruct (tick sched (with_current w2 original)) as [r3 w3].
    destruct U as (_ & U & _). destruct r3; left; exact U.
  - right. destruct (T8 e eq_refl) as (-> & S1 & [O|(c & C1 & C2)]).
    + exfalso. destruct KB as [Q|(c & _ & Q)]; congruence.
    + exists c. destruct RB as (RB1 & RB2 & RB3). rewrite T2. split; [exact C1|]. split; [|split; [reflexivity|split; [lia|split]]].
      * destruct KB as [Q|(c' & L & Q)]; [left; congruence|right; replace c with c' by congruence; exact L].
      * rewrite T1. replace (S (clock w1) - 1) with (clock w1) by lia. exact S1.
      * rewrite T1. rewrite (presses_add sched (clock w) (clock w1)) by lia. rewrite presses_one, S1. specialize (RB3 c). lia.
Qed.

(** The beginning of break_loop. *)
Definition setup {A} sched (k : nat -> handler -> M A) : M A :=
  tick sched ;;; new_event ;;;
  tick sched ;;; clear_event ;;;
  tick sched ;;; (call <- new_call ;;
  tick sched ;;; (original <- getsignal ;;
  tick sched ;;; setsignal (Break call) ;;; k call original)).
Lemma break_loop_setup {A} sched (m : M A) w : break_loop sched m w = setup sched (fun call original => tail sched m original) w.
Proof. reflexivity. Qed.

(** One instant before [f]: it raises, or [f] continues in a world that differs little. *)
Lemma tick_then {B} sched (f : M B) v :
  (exists v1, (tick sched ;;; f) v = (Raise KeyboardInterrupt, v1) /\ current v1 = current v /\ trace v1 = trace v /\ clock v1 = S (clock v) /\
     sched (clock v) = true /\ (current v = Outer true \/ exists c, current v = Break c /\ 1 <= counts v c)) \/
  (exists v1, (tick sched ;;; f) v = f v1 /\ current v1 = current v /\ trace v1 = trace v /\ clock v1 = S (clock v) /\ fresh v1 = fresh v /\ attribute v1 = attribute v /\
     (forall c, counts v1 c <= counts v c + presses sched (clock v) (clock v1))).
Proof.
  unfold mbind. pose proof (tick_frame sched v) as T. destruct (tick sched v) as [[u|e] v1]; destruct T as (T1 & T2 & T3 & T4 & T5 & T6 & T7 & T8).
  - right. exists v1. repeat split; assumption.
  - left. destruct (T8 e eq_refl) as (-> & Q1 & Q2). exists v1. auto 10.
Qed.
Lemma do_then {B} g (f : M B) v : (mdo g ;;; f) v = f (g v).
Proof. reflexivity. Qed.

Lemma call_then {B} (f : nat -> M B) v : (call <- new_call ;; f call) v =
  f (fresh v) (with_fresh (with_requested (with_counts v (set_nat (counts v) (fresh v) 0)) (set_nat (requested v) (fresh v) false)) (S (fresh v))).
Proof. reflexivity. Qed.
Lemma get_then {B} (f : handler -> M B) v : (h <- getsignal ;; f h) v = f (current v) v.
Proof. reflexivity. Qed.

Lemma setup_cases {A} sched (k : nat -> handler -> M A) w :
  (exists w1, setup sched k w = (Raise KeyboardInterrupt, w1) /\ current w1 = current w /\ trace w1 = trace w /\ clock w < clock w1 <= clock w + 5) \/
  (exists w0 call, setup sched k w = k call (current w) w0 /\ current w0 = Break call /\ fresh w <= call < fresh w0 /\
     clock w0 = clock w + 5 /\ trace w0 = trace w /\
     (forall c, counts w0 c <= counts w c + presses sched (clock w) (clock w0))).
Proof.
  unfold setup, new_event, clear_event, setsignal.
  destruct (tick_then sched (mdo (fun w0 => with_fresh (with_attribute (with_events w0 (set_nat (events w0) (fresh w0) false)) (fresh w0)) (S (fresh w0))) ;;;
     tick sched ;;; mdo (fun w0 => with_events w0 (set_nat (events w0) (attribute w0) false)) ;;;
  tick sched ;;; (call <- new_call ;;
  tick sched ;;; (original <- getsignal ;;
  tick sched ;;; mdo (fun w0 => with_current w0 (Break call)) ;;; k call original))) w) as [(v & E & C & T & K & _)|(v & E & C & T & K & F & _ & N)];
    [left; exists v; rewrite E; do 3 (split; [assumption || reflexivity|]); lia|].
  rewrite E, do_then. clear E. set (v' := with_fresh _ _).
  assert (C' : current v' = current w) by exact C. assert (T' : trace v' = trace w) by exact T. assert (K' : clock v' = clock w + 1) by (cbn; lia).
  assert (F' : fresh w <= fresh v') by (cbn; lia). assert (N' : forall c, counts v' c <= counts w c + presses sched (clock w) (clock v')) by exact N.
  clearbody v'. clear v C T K F N.
  match goal with |- context [(tick sched ;;; ?f) v'] => destruct (tick_then sched f v') as [(v & E & C & T & K & _)|(v & E & C & T & K & F & _ & N)] end;
    [left; exists v; rewrite E; split; [reflexivity|]; split; [congruence|]; split; [congruence|lia]|].
  rewrite E, do_then. clear E. set (v2 := with_events _ _).
  assert (C2 : current v2 = current w) by (cbn; congruence). assert (T2 : trace v2 = trace w) by (cbn; congruence). assert (K2 : clock v2 = clock w + 2) by (cbn; lia).
  assert (F2 : fresh w <= fresh v2) by (cbn; lia).
  assert (N2 : forall c, counts v2 c <= counts w c + presses sched (clock w) (clock v2)).
  { intros c. cbn. rewrite (presses_add sched (clock w) (clock v')) by lia. specialize (N c). specialize (N' c). lia. }
  clearbody v2. clear v v' C T K F N C' T' K' F' N'.
  match goal with |- context [(tick sched ;;; ?f) v2] => destruct (tick_then sched f v2) as [(v & E & C & T & K & _)|(v & E & C & T & K & F & _ & N)] end;
    [left; exists v; rewrite E; split; [reflexivity|]; split; [congruence|]; split; [congruence|lia]|].
  rewrite E, call_then. clear E. set (call := fresh v). set (v3 := with_fresh _ _).
  assert (CA : fresh w <= call < fresh v3) by (cbn; unfold call; lia).
  assert (C3 : current v3 = current w) by (cbn; congruence). assert (T3 : trace v3 = trace w) by (cbn; congruence). assert (K3 : clock v3 = clock w + 3) by (cbn; lia).
  assert (N3 : forall c, counts v3 c <= counts w c + presses sched (clock w) (clock v3)).
  { intros c. cbn. rewrite (presses_add sched (clock w) (clock v2)) by lia. specialize (N c). specialize (N2 c). unfold set_nat. destruct (Nat.eqb c call); lia. }
  clearbody v3 call. clear v v2 C T K F N C2 T2 K2 F2 N2.
  match goal with |- context [(tick sched ;;; ?f) v3] => destruct (tick_then sched f v3) as [(v & E & C & T & K & _)|(v & E & C & T & K & F & _ & N)] end;
    [left; exists v; rewrite E; split; [reflexivity|]; split; [congruence|]; split; [congruence|lia]|].
  rewrite E, get_then. clear E. rewrite C, C3.
  match goal with |- context [(tick sched ;;; ?f) v] => destruct (tick_then sched f v) as [(u & E & C' & T' & K' & _)|(u & E & C' & T' & K' & F' & _ & N')] end;
    [left; exists u; rewrite E; split; [reflexivity|]; split; [congruence|]; split; [congruence|lia]|].
  right. rewrite E, do_then. exists (with_current u (Break call)), call. split; [reflexivity|]. split; [reflexivity|]. split; [cbn; lia|]. split; [cbn; lia|]. split; [cbn; congruence|].
  intros c. cbn. rewrite (presses_add sched (clock w) (clock v)), (presses_add sched (clock w) (clock v3)) by lia.
  specialize (N c). specialize (N' c). specialize (N3 c). lia.
Qed.

Lemma keeps_tail {A} sched (m : M A) original w : reaches sched m -> keeps m -> forall c0, current w = Break c0 ->
  current (snd (tail sched m original w)) = original \/ exists c, (c0 = c \/ fresh w <= c) /\ current (snd (tail sched m original w)) = Break c.
Proof.
  intros R K c0 C. pose proof (tail_restores sched m original w R K (ex_intro _ c0 C)) as T. destruct (tail sched m original w) as [r w']. cbn [snd].
  destruct T as [T|(c & T & O & _)]; [now left|right]. exists c. split; [|exact T]. destruct O as [O|O]; [left; congruence|now right].
Qed.
Lemma keeps_break {A} sched (m : M A) : reaches sched m -> keeps m -> keeps (break_loop sched m).
Proof.
  intros R K w. rewrite break_loop_setup. destruct (setup_cases sched (fun call original => tail sched m original) w) as [(w1 & E & C & _)|(w0 & call & E & C & F & _)]; rewrite E; cbn [snd].
  - now left.
  - destruct (keeps_tail sched m (current w) w0 R K call C) as [Q|(c & L & Q)]; [now left|right]. exists c. split; [|exact Q]. destruct L as [<- |L]; lia.
Qed.

(** finish_iteration. *)
Definition ftail {A} sched (m : M A) (call : nat) (original : handler) : M A :=
  (result <- finally (tick sched ;;; m) (tick sched ;;; setsignal original) ;;
  tick sched ;;; (fun w => if requested w call then (Raise KeyboardInterrupt, w) else (Ok result, w))).
Definition fsetup {A} sched (k : nat -> handler -> M A) : M A :=
  tick sched ;;; (call <- new_call ;;
  tick sched ;;; (original <- getsignal ;;
  tick sched ;;; setsignal (Finish call) ;;; k call original)).
Lemma finish_setup {A} sched (m : M A) w : finish_iteration sched m w = fsetup sched (fun call original => ftail sched m call original) w.
Proof. reflexivity. Qed.
Lemma fsetup_cases {A} sched (k : nat -> handler -> M A) w :
  (exists w1, fsetup sched k w = (Raise KeyboardInterrupt, w1) /\ current w1 = current w /\ trace w1 = trace w /\ clock w < clock w1 <= clock w + 3) \/
  (exists w0 call, fsetup sched k w = k call (current w) w0 /\ current w0 = Finish call /\ fresh w <= call < fresh w0 /\
     clock w0 = clock w + 3 /\ trace w0 = trace w /\
     (forall c, counts w0 c <= counts w c + presses sched (clock w) (clock w0))).
Proof.
  unfold fsetup, setsignal.
  match goal with |- context [(tick sched ;;; ?f) w] => destruct (tick_then sched f w) as [(v & E & C & T & K & _)|(v & E & C & T & K & F & _ & N)] end;
    [left; exists v; rewrite E; split; [reflexivity|]; split; [congruence|]; split; [congruence|lia]|].
  rewrite E, call_then. clear E. set (call := fresh v). set (v3 := with_fresh _ _).
  assert (CA : fresh w <= call < fresh v3) by (cbn; unfold call; lia).
  assert (C3 : current v3 = current w) by (cbn; congruence). assert (T3 : trace v3 = trace w) by (cbn; congruence). assert (K3 : clock v3 = clock w + 1) by (cbn; lia).
  assert (N3 : forall c, counts v3 c <= counts w c + presses sched (clock w) (clock v3)).
  { intros c. cbn. specialize (N c). unfold set_nat. destruct (Nat.eqb c call); lia. }
  clearbody v3 call. clear v C T K F N.
  match goal with |- context [(tick sched ;;; ?f) v3] => destruct (tick_then sched f v3) as [(v & E & C & T & K & _)|(v & E & C & T & K & F & _ & N)] end;
    [left; exists v; rewrite E; split; [reflexivity|]; split; [congruence|]; split; [congruence|lia]|].
  rewrite E, get_then. clear E. rewrite C, C3.
  match goal with |- context [(tick sched ;;; ?f) v] => destruct (tick_then sched f v) as [(u & E & C' & T' & K' & _)|(u & E & C' & T' & K' & F' & _ & N')] end;
    [left; exists u; rewrite E; split; [reflexivity|]; split; [congruence|]; split; [congruence|lia]|].
  right. rewrite E, do_then. exists (with_current u (Finish call)), call. split; [reflexivity|]. split; [reflexivity|]. split; [cbn; lia|]. split; [cbn; lia|]. split; [cbn; congruence|].
  intros c. cbn. rewrite (presses_add sched (clock w) (clock v)), (presses_add sched (clock w) (clock v3)) by lia.
  specialize (N c). specialize (N' c). specialize (N3 c). lia.
Qed.
Lemma ftail_restores {A} sched (m : M A) call original w : reaches sched m -> keeps m ->
  (exists c, current w = Finish c) ->
  let (r, w') := ftail sched m call original w in
  current w' = original \/
  (exists c, current w' = Break c /\ fresh w <= c /\ r = Raise KeyboardInterrupt /\ clock w < clock w' /\ sched (clock w' - 1) = true /\
     2 <= counts w c + presses sched (clock w) (clock w')).
Proof.
  intros R K [c0 C0]. unfold ftail, finally.
  assert (RB : reaches sched (tick sched ;;; m)) by (apply reaches_bind; [apply reaches_tick|intros ?; exact R]).
  assert (KB : keeps (tick sched ;;; m)) by (apply (keeps_bind sched); [apply reaches_tick|apply steady_keeps, steady_tick|intros ?; exact K]).
  specialize (RB w). specialize (KB w). unfold mbind at 1. destruct ((tick sched ;;; m) w) as [r w1]. cbn [snd] in *.
  unfold mbind at 1. pose proof (tick_frame sched w1) as T. destruct (tick sched w1) as [r2 w2]. destruct T as (T1 & T2 & _ & _ & _ & _ & _ & T8).
  destruct r2 as [u|e].
  - unfold setsignal, mdo. destruct r as [v|e]; [|left; reflexivity]. unfold mbind. pose proof (tick_frame sched (with_current w2 original)) as U. destruct (tick sched (with_current w2 original)) as [r3 w3].
    destruct U as (_ & U & _). destruct r3; [destruct (requested w3 call)|]; left; exact U.
  - right. destruct (T8 e eq_refl) as (-> & S1 & [O|(c & C1 & C2)]).
    + exfalso. destruct KB as [Q|(c & _ & Q)]; congruence.
    + exists c. destruct RB as (RB1 & RB2 & RB3). rewrite T2. split; [exact C1|]. split; [|split; [reflexivity|split; [lia|split]]].
      * destruct KB as [Q|(c' & L & Q)]; [congruence|]. replace c with c' by congruence; exact L.
      * rewrite T1. replace (S (clock w1) - 1) with (clock w1) by lia. exact S1.
      * rewrite T1. rewrite (presses_add sched (clock w) (clock w1)) by lia. rewrite presses_one, S1. specialize (RB3 c). lia.
Qed.
Lemma keeps_finish {A} sched (m : M A) : reaches sched m -> keeps m -> keeps (finish_iteration sched m).
Proof.
  intros R K w. rewrite finish_setup. destruct (fsetup_cases sched (fun call original => ftail sched m call original) w) as [(w1 & E & C & _)|(w0 & call & E & C & F & _)]; rewrite E; cbn [snd].
  - now left.
  - pose proof (ftail_restores sched m call (current w) w0 R K (ex_intro _ call C)) as T. destruct (ftail sched m call (current w) w0) as [r w']. cbn [snd].
    destruct T as [T|(c & T & L & _)]; [now left|right]. exists c. split; [lia|exact T].
Qed.
Lemma keeps_run sched p : keeps (run sched p).
Proof.
  induction p as [v|e|a k IH|k IH|ev k IH|p IHp h IHh k IHk|p IHp k IHk|p IHp k IHk]; cbn [run].
  - intros w; now left.
  - intros w; now left.
  - apply (keeps_bind sched); [apply reaches_tick|apply steady_keeps, steady_tick|intros ?]. apply (keeps_bind sched); [|intros w; now left|intros ?; exact IH]. apply reaches_do. intros w. cbn. repeat split; intros; lia.
  - apply (keeps_bind sched); [apply reaches_tick|apply steady_keeps, steady_tick|intros ?]. apply (keeps_bind sched); [apply reaches_get|intros w; now left|intros ?; apply IH].
  - apply (keeps_bind sched); [apply reaches_tick|apply steady_keeps, steady_tick|intros ?]. apply (keeps_bind sched); [apply (reaches_get sched (fun w => events w ev))|intros w; now left|intros ?; apply IH].
  - apply (keeps_bind sched); [| |intros ?; apply IHk].
    + intros w. pose proof (reaches_run sched p w) as R. destruct (run sched p w) as [[v|e] w1]; cbn [snd] in *; [exact R|].
      eapply reach_trans; [exact R|apply reaches_run].
    + intros w. pose proof (reaches_run sched p w) as R. specialize (IHp w). destruct (run sched p w) as [[v|e] w1]; cbn [snd] in *; [exact IHp|].
      destruct R as (_ & R & _). destruct (IHh e w1) as [Q|(c & L & Q)]; [rewrite Q; exact IHp|right; exists c; split; [lia|exact Q]].
  - apply (keeps_bind sched); [apply reaches_break, reaches_run|apply keeps_break; [apply reaches_run|exact IHp]|intros ?; exact IHk].
  - apply (keeps_bind sched); [apply reaches_finish, reaches_run|apply keeps_finish; [apply reaches_run|exact IHp]|intros ?; apply IHk].
Qed.

(** T1 *)
Lemma break_loop_restores sched p w : (forall c, fresh w <= c -> counts w c = 0) ->
  let (r, w') := break_loop sched (run sched p) w in
  current w' = current w \/
  (r = Raise KeyboardInterrupt /\ clock w + 5 < clock w' /\ sched (clock w' - 1) = true /\ 2 <= presses sched (clock w) (clock w')).
Proof.
  intros Z. rewrite break_loop_setup. destruct (setup_cases sched (fun call original => tail sched (run sched p) original) w) as [(w1 & E & C & _)|(w0 & call & E & C & F & K & _ & N)]; rewrite E.
  - now left.
  - pose proof (tail_restores sched (run sched p) (current w) w0 (reaches_run sched p) (keeps_run sched p) (ex_intro _ call C)) as T.
    pose proof (reaches_run) as _. destruct (tail sched (run sched p) (current w) w0) as [r w'].
    destruct T as [T|(c & _ & L & -> & T1 & T2 & T3)]; [now left|right]. split; [reflexivity|]. split; [lia|]. split; [exact T2|].
    rewrite (presses_add sched (clock w) (clock w0)) by lia. specialize (N c). rewrite (Z c) in N; [lia|]. destruct L as [L|L]; [replace c with call by congruence; lia|lia].
Qed.
Lemma finish_restores sched p w : (forall c, fresh w <= c -> counts w c = 0) ->
  let (r, w') := finish_iteration sched (run sched p) w in
  current w' = current w \/
  (r = Raise KeyboardInterrupt /\ clock w + 3 < clock w' /\ sched (clock w' - 1) = true /\ 2 <= presses sched (clock w) (clock w')).
Proof.
  intros Z. rewrite finish_setup. destruct (fsetup_cases sched (fun call original => ftail sched (run sched p) call original) w) as [(w1 & E & C & _)|(w0 & call & E & C & F & K & _ & N)]; rewrite E.
  - now left.
  - pose proof (ftail_restores sched (run sched p) call (current w) w0 (reaches_run sched p) (keeps_run sched p) (ex_intro _ call C)) as T.
    destruct (ftail sched (run sched p) call (current w) w0) as [r w'].
    destruct T as [T|(c & _ & L & -> & T1 & T2 & T3)]; [now left|right]. split; [reflexivity|]. split; [lia|]. split; [exact T2|].
    rewrite (presses_add sched (clock w) (clock w0)) by lia. specialize (N c). rewrite (Z c) in N by lia. lia.
Qed.
