(** Model of discrete1/utils/decorators.py: Ctrl+C handling around long loops.  Definitions only.

    Time advances by one before every atomic step of the program ([tick]).  At each instant the schedule says
    whether SIGINT is delivered; it then runs the handler that is installed at that instant, which may raise
    in the middle of the program.  Several pending SIGINTs are one delivery, as in CPython.  Threads, and
    installing handlers outside the main thread, are not modelled. *)
From Verif Require Import Base.

(** A SIGINT handler: one from outside the library (raising KeyboardInterrupt or not), or the inner function
    [handler] of one call of a decorated function, identified by a number. *)
Inductive handler := Outer (raises : bool) | Break (call : nat) | Finish (call : nat).

(** [current]: the installed handler.  [counts], [requested]: the local variables interrupt_count and
    exit_requested of each call.  [events]: the flags of all Event objects; [attribute]: the event that
    [wrapper.stop_event] refers to.  [fresh]: the next unused number.  [trace]: the work done so far, with the
    instants at which it was done. *)
Record world := mkWorld {
  clock : nat; current : handler; counts : nat -> nat; requested : nat -> bool; events : nat -> bool;
  attribute : nat; fresh : nat; trace : list (nat * nat) }.

Definition set_nat {A} (f : nat -> A) (k : nat) (v : A) : nat -> A := fun j => if Nat.eqb j k then v else f j.
Definition with_clock (w : world) n := mkWorld n (current w) (counts w) (requested w) (events w) (attribute w) (fresh w) (trace w).
Definition with_current (w : world) h := mkWorld (clock w) h (counts w) (requested w) (events w) (attribute w) (fresh w) (trace w).
Definition with_counts (w : world) c := mkWorld (clock w) (current w) c (requested w) (events w) (attribute w) (fresh w) (trace w).
Definition with_requested (w : world) q := mkWorld (clock w) (current w) (counts w) q (events w) (attribute w) (fresh w) (trace w).
Definition with_events (w : world) e := mkWorld (clock w) (current w) (counts w) (requested w) e (attribute w) (fresh w) (trace w).
Definition with_attribute (w : world) a := mkWorld (clock w) (current w) (counts w) (requested w) (events w) a (fresh w) (trace w).
Definition with_fresh (w : world) n := mkWorld (clock w) (current w) (counts w) (requested w) (events w) (attribute w) n (trace w).
Definition with_trace (w : world) t := mkWorld (clock w) (current w) (counts w) (requested w) (events w) (attribute w) (fresh w) t.

(** Effectful computations that may raise. *)
Definition M (A : Type) := world -> outcome A * world.
Definition mret {A} (a : A) : M A := fun w => (Ok a, w).
Definition mraise {A} (e : exn) : M A := fun w => (Raise e, w).
Definition mbind {A B} (m : M A) (f : A -> M B) : M B :=
  fun w => match m w with (Ok a, w1) => f a w1 | (Raise e, w1) => (Raise e, w1) end.
Definition mdo (f : world -> world) : M unit := fun w => (Ok tt, f w).
Notation "x <- m ;; k" := (mbind m (fun x => k)) (at level 61, m at next level, right associativity).
Notation "m ;;; k" := (mbind m (fun _ => k)) (at level 61, right associativity).
(** [try: m finally: f] *)
Definition finally {A} (m : M A) (f : M unit) : M A :=
  fun w => let (r, w1) := m w in
    match f w1 with (Ok _, w2) => (r, w2) | (Raise e, w2) => (Raise e, w2) end.

(** The handlers: Python's default one raises KeyboardInterrupt; decorators.py:64-73 (break_loop) sets the
    event the attribute refers to at that moment, and raises from the second time on; decorators.py:175-183
    (finish_iteration) only notes the request. *)
Definition deliver : M unit := fun w =>
  match current w with
  | Outer raises => if raises then (Raise KeyboardInterrupt, w) else (Ok tt, w)
  | Break c =>
      let n := S (counts w c) in
      let w1 := with_counts w (set_nat (counts w) c n) in
      if Nat.eqb n 1 then (Ok tt, with_events w1 (set_nat (events w1) (attribute w1) true))
      else (Raise KeyboardInterrupt, w1)
  | Finish c =>
      let n := S (counts w c) in
      let w1 := with_counts w (set_nat (counts w) c n) in
      if Nat.eqb n 1 then (Ok tt, with_requested w1 (set_nat (requested w1) c true)) else (Ok tt, w1)
  end.
(** One instant passes. *)
Definition tick (sched : nat -> bool) : M unit := fun w =>
  let w1 := with_clock w (S (clock w)) in if sched (clock w) then deliver w1 else (Ok tt, w1).

(** [threading.Event()] (line 60): a new event, not set, which the attribute now refers to. *)
Definition new_event : M unit := mdo (fun w =>
  with_fresh (with_attribute (with_events w (set_nat (events w) (fresh w) false)) (fresh w)) (S (fresh w))).
(** [wrapper.stop_event.clear()] *)
Definition clear_event : M unit := mdo (fun w => with_events w (set_nat (events w) (attribute w) false)).
(** The local variables of a new call (lines 62, 172-173). *)
Definition new_call : M nat := fun w =>
  (Ok (fresh w), with_fresh (with_requested (with_counts w (set_nat (counts w) (fresh w) 0%nat))
                              (set_nat (requested w) (fresh w) false)) (S (fresh w))).
(** [signal.getsignal(signal.SIGINT)] and [signal.signal(signal.SIGINT, h)] *)
Definition getsignal : M handler := fun w => (Ok (current w), w).
Definition setsignal (h : handler) : M unit := mdo (fun w => with_current w h).

(** decorators.py:58-84 break_loop: the wrapper around [func].  The value of [func] is dropped (line 79). *)
Definition break_loop {A} (sched : nat -> bool) (func : M A) : M unit :=
  tick sched ;;; new_event ;;;
  tick sched ;;; clear_event ;;;
  tick sched ;;; (call <- new_call ;;
  tick sched ;;; (original <- getsignal ;;
  tick sched ;;; setsignal (Break call) ;;;
  finally (tick sched ;;; (_ <- func ;; mret tt))
    (tick sched ;;; setsignal original ;;; tick sched ;;; clear_event))).

(** decorators.py:170-198 finish_iteration. *)
Definition finish_iteration {A} (sched : nat -> bool) (func : M A) : M A :=
  tick sched ;;; (call <- new_call ;;
  tick sched ;;; (original <- getsignal ;;
  tick sched ;;; setsignal (Finish call) ;;;
  (result <- finally (tick sched ;;; func) (tick sched ;;; setsignal original) ;;
  tick sched ;;; (fun w => if requested w call then (Raise KeyboardInterrupt, w) else (Ok result, w))))).

(** The wrapped functions: any program of atomic pieces of work, queries of [wrapper.stop_event] and of an
    event, try/except, calls of functions decorated with break_loop (sharing the one attribute: the function
    itself) and with finish_iteration.  Its value is a number. *)
Inductive prog :=
| Return (v : nat)
| Throw (e : exn)
| Work (a : nat) (k : prog)
| Stop_event (k : nat -> prog)
| Is_set (event : nat) (k : bool -> prog)
| Catch (p : prog) (h : exn -> prog) (k : nat -> prog)
| Call_break (p : prog) (k : prog)
| Call_finish (p : prog) (k : nat -> prog).

Fixpoint run (sched : nat -> bool) (p : prog) : M nat :=
  match p with
  | Return v => mret v
  | Throw e => mraise e
  | Work a k => tick sched ;;; mdo (fun w => with_trace w (trace w ++ [(clock w, a)])) ;;; run sched k
  | Stop_event k => tick sched ;;; (e <- (fun w => (Ok (attribute w), w)) ;; run sched (k e))
  | Is_set event k => tick sched ;;; (b <- (fun w => (Ok (events w event), w)) ;; run sched (k b))
  | Catch p h k => (v <- (fun w => match run sched p w with (Ok v, w1) => (Ok v, w1) | (Raise e, w1) => run sched (h e) w1 end) ;; run sched (k v))
  | Call_break p k => break_loop sched (run sched p) ;;; run sched k
  | Call_finish p k => (v <- finish_iteration sched (run sched p) ;; run sched (k v))
  end.

(** decorators.py:87-131 grange, as used in a for loop: [values] are those of the range, [iteration v next] is
    the loop body for the value [v], continued by [next]. *)
Fixpoint grange (values : list nat) (event : nat) (iteration : nat -> prog -> prog) (after : prog) : prog :=
  match values with
  | [] => after
  | v :: rest => Is_set event (fun set => if set then after else iteration v (grange rest event iteration after))
  end.
(** A loop body made of the given pieces of work, one after the other. *)
Definition works (actions : list nat) (next : prog) : prog := fold_right Work next actions.
(** [for i in grange(n, stop_event=wrapper.stop_event)] (the pattern of train.py:635, 736). *)
Definition grange_loop (n : nat) (actions : nat -> list nat) : prog :=
  Stop_event (fun e => grange (seq 0 n) e (fun i => works (actions i)) (Return 0)).
