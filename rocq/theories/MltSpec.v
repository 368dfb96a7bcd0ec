(** What the training theorems talk about: the epochs as they would run one after another, the best of them,
    means over samples, networks that act sample by sample. *)
From Coq Require Import Reals List Bool.
From Verif Require Import Base MltModel.
Local Open Scope nat_scope.

Section Epochs.
Context {W Opt : Type}.
Variable one_epoch : nat -> W -> Opt -> W * Opt * loss * loss.
(** Weights and optimizer after k epochs numbered first, first+1, ... *)
Fixpoint after (first : nat) (w : W) (o : Opt) (k : nat) : W * Opt :=
  match k with
  | O => (w, o)
  | S i => let (w', o') := after first w o i in
           match one_epoch (first + i) w' o' with (w'', o'', _, _) => (w'', o'') end
  end.
(** The losses of the i-th of those epochs. *)
Definition train_loss_of (first : nat) (w : W) (o : Opt) (i : nat) : loss :=
  let (w', o') := after first w o i in match one_epoch (first + i) w' o' with (_, _, l, _) => l end.
Definition val_loss_of (first : nat) (w : W) (o : Opt) (i : nat) : loss :=
  let (w', o') := after first w o i in match one_epoch (first + i) w' o' with (_, _, _, l) => l end.
End Epochs.

(** j of n epochs numbered first, first+1, ... run before the stop event is seen. *)
Definition epochs_run (stopped : nat -> bool) (first n j : nat) : Prop :=
  j <= n /\ (forall i, i < j -> stopped (first + i) = false) /\ (j < n -> stopped (first + j) = true).

(** Among the first j losses, k is the first smallest one below the bound (a NaN is not below anything). *)
Definition best_epoch (bound : loss) (l : nat -> loss) (j k : nat) : Prop :=
  k < j /\ loss_lt (l k) bound = true /\
  (forall i, i < j -> loss_lt (l i) (l k) = false) /\
  (forall i, i < k -> loss_lt (l i) bound = true -> loss_lt (l k) (l i) = true).
Definition no_improvement (bound : loss) (l : nat -> loss) (j : nat) : Prop :=
  forall i, i < j -> loss_lt (l i) bound = false.

(** The network treats every row alike: its output on a batch lists its outputs on the rows. *)
Definition row_wise {A B : Type} (forward : list A -> list B) (f : A -> B) : Prop :=
  forall rows, forward rows = map f rows.

(** The dimensions of consecutive layers fit: [chain a b layers] says that a vector of length a can pass
    through the layers and comes out with length b. *)
Fixpoint chain (a b : nat) (layers : list layer) : Prop :=
  match layers with
  | [] => a = b
  | Linear i o :: rest => a = i /\ chain o b rest
  | (Activation | Dropout) :: rest => chain a b rest
  end.
Definition linear_outputs (layers : list layer) : list nat :=
  flat_map (fun l => match l with Linear _ o => [o] | _ => [] end) layers.
Definition activations (layers : list layer) : nat :=
  length (filter (fun l => match l with Activation => true | _ => false end) layers).
Definition dropouts (layers : list layer) : nat :=
  length (filter (fun l => match l with Dropout => true | _ => false end) layers).

(** A toy network: the weights count the epochs, the losses depend on the weights only. *)
Definition counting (val : nat -> loss) (epoch w : nat) (o : unit) : nat * unit * loss * loss := (S w, o, Finite 0, val (S w)).
Definition never (k : nat) : bool := false.
(** Losses 1, 2, 0. *)
Definition up_then_down (w : nat) : loss := match w with 3 => Finite 0 | _ => Finite (INR w) end.
