(** What the theorems about data preparation, normalization, metrics and prediction talk about. *)
From Coq Require Import Reals List Bool String.
From Verif Require Import Base MlmModel.
Local Open Scope R_scope.

(** No label value belongs to two splits; no two splits have the same name. *)
Definition disjoint_labels (splits : list (string * list R)) : Prop :=
  ForallOrdPairs (fun a b => forall x, In x (snd a) -> In x (snd b) -> False) splits.
Definition distinct_names (splits : list (string * list R)) : Prop := NoDup (map fst splits).
(** A label that some split names. *)
Definition covered (splits : list (string * list R)) (x : R) : Prop := exists s, In s splits /\ In x (snd s).

(** z is x rounded up. *)
Definition rounded_up (x : R) (k : nat) : Prop := x <= INR k < x + 1.

(** A transformer that treats rows alike; one that leaves its argument alone. *)
Definition by_rows (t : transform) (f : list R -> list R) : Prop := forall r, fst (t r) = map f r.
Definition leaves_argument (t : transform) : Prop := forall r, snd (t r) = r.

(** All fluxes of a sample are zero. *)
Definition no_flux (groups : nat) (s : sample) : Prop := forall g, (g < groups)%nat -> inputs s g = 0.
