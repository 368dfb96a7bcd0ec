(** C64, C65: the Ctrl+C decorators. *)
From Coq Require Import Lia.
From Verif Require Import Base SigModel SigSpec SigFacts SigFacts2 SigWitness.
Local Open Scope nat_scope.

(** ** C64 break_loop and grange *)
(** The caller's handler is back unless a second press arrived exactly when it was to be restored. *)
Theorem C64_restores_partial :
  forall sched p w,
  (forall c, fresh w <= c -> counts w c = 0) ->
  let (r, w') := break_loop sched (run sched p) w in
  current w' = current w \/
  (r = Raise KeyboardInterrupt /\ clock w + 5 < clock w' /\ sched (clock w' - 1) = true /\ 2 <= presses sched (clock w) (clock w')).
Proof. exact break_loop_restores. Qed.
Print Assumptions C64_restores_partial.
Theorem C64_restores_one_press :
  forall sched p w,
  (forall c, fresh w <= c -> counts w c = 0) ->
  let (r, w') := break_loop sched (run sched p) w in presses sched (clock w) (clock w') <= 1 -> current w' = current w.
Proof. exact break_at_most_one. Qed.
Print Assumptions C64_restores_one_press.
Theorem C64_one_press_stops :
  forall sched t n actions w,
  clock w + 5 <= t -> (forall u, clock w <= u -> sched u = Nat.eqb u t) -> current w = Outer true ->
  let (r, w') := break_loop sched (run sched (grange_loop n actions)) w in
  exists j l, j <= n /\ trace w' = trace w ++ l /\ map snd l = whole_iterations actions j /\
    (forall i, i < j -> asks_at actions (clock w + 7) i < t) /\ (j < n -> t <= asks_at actions (clock w + 7) j) /\
    current w' = current w /\ clock w' = asks_at actions (clock w + 7) j + (if j <? n then 3 else 2) /\
    (r = Ok tt \/ (r = Raise KeyboardInterrupt /\ t = clock w' - 1)).
Proof. exact break_one. Qed.
Print Assumptions C64_one_press_stops.
Theorem C64_second_press_aborts :
  forall sched t1 t2 p w,
  simple p -> clock w + 5 <= t1 -> t1 < t2 -> sched t1 = true -> sched t2 = true ->
  (forall u, clock w <= u < t2 -> sched u = true -> u = t1) ->
  let (r, w') := break_loop sched (run sched p) w in
  S t2 < clock w' -> r = Raise KeyboardInterrupt /\ clock w' <= t2 + 3 /\ (sched (S t2) = false -> current w' = current w) /\
    exists l, trace w' = trace w ++ l /\ forall u a, In (u, a) l -> u <= t2.
Proof. exact break_two. Qed.
Print Assumptions C64_second_press_aborts.
Theorem C64_press_before_start :
  forall sched p w u,
  current w = Outer true -> clock w <= u < clock w + 5 -> sched u = true ->
  let (r, w') := break_loop sched (run sched p) w in r = Raise KeyboardInterrupt /\ trace w' = trace w /\ current w' = current w.
Proof. exact break_early. Qed.
Print Assumptions C64_press_before_start.
Theorem C64_undisturbed :
  forall p w,
  exists w0 q w1, run silent p w0 = (q, w1) /\ trace w0 = trace w /\
  let (r, w') := break_loop silent (run silent p) w in
  trace w' = trace w1 /\ current w' = current w /\ events w' (attribute w') = false /\ r = match q with Ok _ => Ok tt | Raise e => Raise e end.
Proof. exact break_undisturbed. Qed.
Print Assumptions C64_undisturbed.
Theorem C64_handler_lost_refuted :
  exists sched p, simple p /\ presses sched 0 10 = 2 /\
  let (r, w') := break_loop sched (run sched p) idle in r = Raise KeyboardInterrupt /\ current w' <> current idle.
Proof. exact handler_lost. Qed.
Print Assumptions C64_handler_lost_refuted.
Theorem C64_recursion_refuted :
  exists t, let (r, w') := break_loop (at_instants [t]) (run (at_instants [t]) recursive) idle in
   r = Ok tt /\ (exists u, In (u, 10) (trace w') /\ u < t) /\ exists u, In (u, 1) (trace w') /\ t < u /\ exists u', In (u', 2) (trace w') /\ u < u'.
Proof. exact recursion_not_stopped. Qed.
Print Assumptions C64_recursion_refuted.
Example C64_case : let sched := at_instants [11] in
  clock idle + 5 <= 11 /\ (forall u, sched u = Nat.eqb u 11) /\
  let (r, w') := break_loop sched (run sched (grange_loop 3 two_actions)) idle in r = Ok tt /\ map snd (trace w') = [0; 1; 10; 11] /\ current w' = Outer true.
Proof. exact stop_demo. Qed.
Example C64_case_abort : let sched := at_instants [8; 11] in let p := works [1; 2; 3; 4; 5; 6; 7] (Return 0) in
  simple p /\ (forall u, 0 <= u < 11 -> sched u = true -> u = 8) /\
  let (r, w') := break_loop sched (run sched p) idle in r = Raise KeyboardInterrupt /\ clock w' = 14 /\ map snd (trace w') = [1; 2; 3; 4; 5] /\ current w' = Outer true.
Proof. exact abort_demo. Qed.

(** ** C65 finish_iteration *)
Theorem C65_defers :
  forall sched p w,
  simple p -> current w = Outer true -> (forall u, clock w <= u < clock w + 3 -> sched u = false) ->
  let (r, w') := finish_iteration sched (run sched p) w in
  let (r0, w0) := finish_iteration silent (run silent p) w in
  trace w' = trace w0 /\ clock w' = clock w0 /\ current w' = current w /\
  r = match r0 with
      | Raise e => Raise e
      | Ok v => if Nat.eqb (presses sched (clock w + 3) (clock w')) 0 then Ok v else Raise KeyboardInterrupt
      end.
Proof. exact finish_defers. Qed.
Print Assumptions C65_defers.
Theorem C65_restores_partial :
  forall sched p w,
  (forall c, fresh w <= c -> counts w c = 0) ->
  let (r, w') := finish_iteration sched (run sched p) w in
  current w' = current w \/
  (r = Raise KeyboardInterrupt /\ clock w + 3 < clock w' /\ sched (clock w' - 1) = true /\ 2 <= presses sched (clock w) (clock w')).
Proof. exact finish_restores. Qed.
Print Assumptions C65_restores_partial.
Theorem C65_press_before_start :
  forall sched p w u,
  current w = Outer true -> clock w <= u < clock w + 3 -> sched u = true ->
  let (r, w') := finish_iteration sched (run sched p) w in r = Raise KeyboardInterrupt /\ trace w' = trace w /\ current w' = current w.
Proof. exact finish_early. Qed.
Print Assumptions C65_press_before_start.
Theorem C65_second_press_refuted :
  exists sched p t1 t2, simple p /\ 3 <= t1 < t2 /\ sched t1 = true /\ sched t2 = true /\
  let (r, w') := finish_iteration sched (run sched p) idle in exists u a, In (u, a) (trace w') /\ t2 + 3 < u.
Proof. exact second_press_ignored. Qed.
Print Assumptions C65_second_press_refuted.
Example C65_case : let sched := at_instants [4; 6] in let p := works [1; 2; 3; 4] (Return 9) in
  simple p /\ (forall u, 0 <= u < 3 -> sched u = false) /\
  let (r, w') := finish_iteration sched (run sched p) idle in r = Raise KeyboardInterrupt /\ map snd (trace w') = [1; 2; 3; 4] /\ current w' = Outer true.
Proof. exact finish_demo. Qed.
