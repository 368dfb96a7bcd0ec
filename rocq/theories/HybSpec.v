(** Specification vocabulary for energy-group collapsing, independent of the model's code. *)
From Verif Require Import Base.
Open Scope R_scope.

(** [idx] cuts the fine groups [0 .. fine-1] into [coarse] nonempty consecutive blocks. *)
Definition partition (fine coarse : nat) (idx : nat -> nat) : Prop :=
  idx 0%nat = 0%nat /\ idx coarse = fine /\ forall c, (c < coarse)%nat -> (idx c < idx (c + 1))%nat.

(** fine group [g] lies in coarse group [c] *)
Definition in_group (idx : nat -> nat) (c g : nat) : Prop := (idx c <= g < idx (c + 1))%nat.

(** sum over the fine groups of coarse group [c] *)
Definition group_sum (idx : nat -> nat) (c : nat) (f : nat -> R) : R :=
  rsum (idx (c + 1)%nat - idx c) (fun k => f (idx c + k)%nat).

(** energy edges [e 0 .. e n] strictly increasing or strictly decreasing *)
Definition monotone_edges (n : nat) (e : vec) : Prop :=
  (forall g, (g < n)%nat -> e g < e (g + 1)%nat) \/ (forall g, (g < n)%nat -> e (g + 1)%nat < e g).

Definition width (e : vec) (g : nat) : R := e (g + 1)%nat - e g.
Definition block_width (e : vec) (idx : nat -> nat) (c : nat) : R := e (idx (c + 1)%nat) - e (idx c).

(** coarse flux [F] spread over the fine groups in proportion to their widths *)
Definition spread (e : vec) (idx : nat -> nat) (owner : nat -> nat) (F : vec) : vec :=
  fun g => F (owner g) * (width e g / block_width e idx (owner g)).

(** one fine group per coarse group *)
Definition identity_grid (n : nat) (idx : nat -> nat) : Prop := forall c, (c <= n)%nat -> idx c = c.
