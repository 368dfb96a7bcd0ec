(** Specification vocabulary for mesh convergence: the discrete-ordinates equations with a continuous
    space variable, independent of the model's code. *)
From Verif Require Import Base SlabModel SlabSpec MgModel MgSpec.
Open Scope R_scope.

(** [f] has three derivatives on the closed interval, the second and third bounded. *)
Definition smooth_cell (a b M2 M3 : R) (f : R -> R) : Prop :=
  exists f1 f2 f3, forall y, a <= y <= b ->
    derivable_pt_lim f y (f1 y) /\ derivable_pt_lim f1 y (f2 y) /\ derivable_pt_lim f2 y (f3 y) /\
    Rabs (f2 y) <= M2 /\ Rabs (f3 y) <= M3.

(** Edges [x] of the cells of the slab, their centres, and the value at edge [k] of a function given
    cell by cell. *)
Definition cell_edges (P : sn) (x : vec) : Prop := forall i, (i < cells P)%nat -> x (S i) = x i + dx P i.
Definition centre (x : vec) (i : nat) : R := (x i + x (S i)) / 2.
Definition edge_value (P : sn) (x : vec) (f : nat -> R -> R) (k : nat) : R :=
  if Nat.ltb k (cells P) then f k (x k) else f (cells P - 1)%nat (x (cells P)).

(** A continuous angular flux of one group, smooth inside every cell: [psi m i] is the flux of ordinate
    [m] in cell [i].  At every cell centre it satisfies mu psi' + sigma psi = source; it takes its
    inflow from the boundary array and, at a reflective side, from the mirrored ordinate. *)
Definition continuous_flux (P : sn) (sigma : vec) (source : mat2) (inflow : vec) (x : vec) (M2 M3 : R)
    (psi : nat -> nat -> R -> R) : Prop :=
  (forall m i, (m < angles P)%nat -> (i < cells P)%nat -> smooth_cell (x i) (x (S i)) M2 M3 (psi m i)) /\
  (forall m i, (m < angles P)%nat -> (S i < cells P)%nat -> psi m i (x (S i)) = psi m (S i) (x (S i))) /\
  (forall m i, (m < angles P)%nat -> (i < cells P)%nat ->
     exists d, derivable_pt_lim (psi m i) (centre x i) d /\
       mu P m * d + sigma i * psi m i (centre x i) = source m i) /\
  (forall m, (m < angles P)%nat ->
     let k := inflow_edge (cells P) (mu P m) in
     edge_value P x (psi m) k = inflow m +
       (if enters_reflective (mu P) (bc_left P) (bc_right P) m
        then edge_value P x (psi (angles P - m - 1)%nat) k else 0)).

(** Scalar flux of a continuous solution at the cell centres. *)
Definition centre_flux (P : sn) (x : vec) (psi : nat -> nat -> R -> R) : vec :=
  fun i => rsum (angles P) (fun m => wt P m * psi m i (centre x i)).

(** All groups: the source is emitted by the exact scalar flux. *)
Definition continuous_solution (P : sn) (groups : nat) (xs_total : mat2) (xs_scatter : mat3)
    (external boundary : arr3) (x : vec) (M2 M3 : R) (psi : nat -> nat -> nat -> R -> R) : Prop :=
  forall g, (g < groups)%nat ->
    continuous_flux P (fun i => xs_total (medium P i) g)
      (mg_source (medium P) groups xs_scatter external (fun i h => centre_flux P x (psi h) i) g)
      (fun m => mg_boundary boundary (mu P) g m) x M2 M3 (psi g).

(** Mesh data: at least one cell, cells of width at most [h], ordinates at least [mu0] away from zero
    and symmetric, and directions ordered so that a mirror is fed before it
    is read. *)
Definition regular_mesh (P : sn) (h mu0 : R) : Prop :=
  (0 < cells P)%nat /\ 0 < mu0 /\ (forall i, (i < cells P)%nat -> 0 < dx P i <= h) /\
  (forall m, (m < angles P)%nat -> mu0 <= Rabs (mu P m)) /\
  symmetric_quadrature (angles P) (mu P) /\ ordered_for (angles P) (mu P) (bc_left P) (bc_right P).

(** Error constants for a slab of thickness [L]: at an edge, and at a cell centre. *)
Definition edge_constant (L sigma mu0 M2 M3 : R) : R := 2 * L * (M3 / 24 + sigma * M2 / (8 * mu0)).
Definition centre_constant (L sigma mu0 M2 M3 : R) : R := edge_constant L sigma mu0 M2 M3 + M2 / 8.

(** A mesh of the interval from [a] to [b] with vacuum (inflow given) on both sides. *)
Definition meshes (P : sn) (x : vec) (a b : R) : Prop :=
  cell_edges P x /\ x 0%nat = a /\ x (cells P) = b /\ bc_left P = 0%nat /\ bc_right P = 0%nat.

(** Quadrature sum of a tabulated angular flux. *)
Definition quadrature (P : sn) (flux : mat2) : vec := fun i => rsum (angles P) (fun m => wt P m * flux i m).

(** Two materials meeting at an edge at [c]: material 0 to its left, 1 to its right. *)
Definition interface (P : sn) (x : vec) (c : R) : Prop :=
  forall i, (i < cells P)%nat -> (medium P i = 0%nat /\ x (S i) <= c) \/ (medium P i = 1%nat /\ c <= x i).
