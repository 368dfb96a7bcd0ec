(** Specification vocabulary for the manufactured problems: the transport equation for real
    functions, independent of the model's code. *)
From Coq Require Import ZArith.
From Verif Require Import Base ManModel.
Open Scope R_scope.

(** The array-valued function [f] tabulates [psi] on every grid and every set of ordinates. *)
Definition tabulates (f : nat -> vec -> nat -> vec -> mat2) (psi : R -> R -> R) : Prop :=
  forall cells x angles angle_x i n, (i < cells)%nat -> (n < angles)%nat ->
    f cells x angles angle_x i n = psi (x i) (angle_x n).
Definition tabulates_td (f : nat -> vec -> nat -> vec -> nat -> vec -> mat3) (psi : R -> R -> R -> R) : Prop :=
  forall cells x angles angle_x times edges_t k i n, (k < times)%nat -> (i < cells)%nat -> (n < angles)%nat ->
    f cells x angles angle_x times edges_t k i n = psi (edges_t k) (x i) (angle_x n).

(** The Riemann integral of [f] over the directions -1 <= mu <= 1 is [v]. *)
Definition over_directions (f : R -> R) (v : R) : Prop :=
  exists pr : Riemann_integrable f (-1) 1, RiemannInt pr = v.

(** [s] is the neutrons scattered isotropically, with cross section [ratio], into each direction at
    [x]; nothing is asked of the flux when nothing scatters. *)
Definition scattered (ratio : R) (psi : R -> R -> R) (x s : R) : Prop :=
  (ratio = 0 /\ s = 0) \/ exists phi, over_directions (psi x) phi /\ s = ratio / 2 * phi.

(** mu dpsi/dx + sigma psi = scattering + q at the point (x, mu) *)
Definition balanced (sigma ratio : R) (psi q : R -> R -> R) (x mu : R) : Prop :=
  exists dpsi s, derivable_pt_lim (fun y => psi y mu) x dpsi /\ scattered ratio psi x s /\
    mu * dpsi + sigma * psi x mu = s + q x mu.

(** (1/v) dpsi/dt + mu dpsi/dx + sigma psi = q at the point (t, x, mu) *)
Definition balanced_td (velocity sigma : R) (psi q : R -> R -> R -> R) (t x mu : R) : Prop :=
  exists dt dx, derivable_pt_lim (fun s => psi s x mu) t dt /\ derivable_pt_lim (fun y => psi t y mu) x dx /\
    1 / velocity * dt + mu * dx + sigma * psi t x mu = q t x mu.

(** The first [n] terms of the sequence s + sum of a * r^k over the pairs (a, r). *)
Definition exponential_sum (s : R) (terms : list (R * R)) (n : nat) : list R :=
  map (fun k => fold_left (fun acc t => acc + fst t * snd t ^ k) terms s) (seq 0 n).

(** The calls of spatial_error that count [m] cells: the first axis for one dimension, the first two
    axes for two. *)
Inductive counts_cells : list nat -> Z -> nat -> Prop :=
| count_1 d rest : counts_cells (d :: rest) 1 d
| count_2 d e rest : counts_cells (d :: e :: rest) 2 (d * e).
