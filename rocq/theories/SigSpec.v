(** Specification vocabulary for the Ctrl+C decorators, independent of the model's code. *)
From Verif Require Import Base SigModel.

(** Number of Ctrl+C presses at instants [a, b). *)
Definition presses (sched : nat -> bool) (a b : nat) : nat := length (filter sched (seq a (b - a))).

(** Programs without try/except and without further decorated calls. *)
Inductive simple : prog -> Prop :=
| simple_return v : simple (Return v)
| simple_throw e : simple (Throw e)
| simple_work a k : simple k -> simple (Work a k)
| simple_event k : (forall e, simple (k e)) -> simple (Stop_event k)
| simple_is_set e k : (forall b, simple (k b)) -> simple (Is_set e k).

(** The instant at which a loop that starts at [start] asks for its [i]-th value, if nothing stops it. *)
Fixpoint asks_at (actions : nat -> list nat) (start i : nat) : nat :=
  match i with
  | O => start
  | S k => S (asks_at actions start k) + length (actions k)
  end.
(** The actions of the first [j] iterations. *)
Definition whole_iterations (actions : nat -> list nat) (j : nat) : list nat := concat (map actions (seq 0 j)).

(** Never interrupted. *)
Definition silent : nat -> bool := fun _ => false.

(** Nothing has happened yet; Python's own handler is installed. *)
Definition idle : world := mkWorld 0 (Outer true) (fun _ => 0%nat) (fun _ => false) (fun _ => false) 0 0 [].
(** Ctrl+C is pressed at these instants. *)
Definition at_instants (l : list nat) : nat -> bool := fun u => existsb (Nat.eqb u) l.
(** A decorated function whose loop calls it again in its first iteration. *)
Definition recursive : prog := Stop_event (fun e => grange (seq 0 3) e (fun i next => if Nat.eqb i 0 then Call_break (Work 10 (Return 0)) next else Work i next) (Return 0)).
