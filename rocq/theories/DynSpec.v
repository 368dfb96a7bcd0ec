(** Specification vocabulary for the long-time behaviour of time-dependent slabs, independent of the model's code. *)
From Verif Require Import Base SlabModel SlabSpec MgModel MgSpec TimeModel TimeSpec EnSpec SupSpec CritModel CritSpec.
Open Scope R_scope.

(** [A] (cell, ordinate, group) is the angular flux of the source [q]: its edge fluxes satisfy the
    diamond-difference equations with total cross sections [xs_total] and the inflow of [boundary]. *)
Definition angular_flux_of (P : sn) (groups : nat) (xs_total : mat2) (q : mat3) (boundary : arr3) (A : mat3) : Prop :=
  exists E : mat3, forall g m, (g < groups)%nat -> (m < angles P)%nat ->
    (forall i, (i < cells P)%nat -> A i m g = (E g m i + E g m (S i)) / 2 /\
       mu P m / dx P i * (E g m (S i) - E g m i) + xs_total (medium P i) g * A i m g = q i m g) /\
    E g m (inflow_edge (cells P) (mu P m))
    = reflected_in (cells P) (angles P) (mu P) (bc_left P) (bc_right P) (E g) m + mg_boundary boundary (mu P) g m.

(** What the collisions of a scalar flux send out. *)
Definition collided (P : sn) (groups : nat) (transfer : mat3) (phi : mat2) : mat3 :=
  fun i _ g => rsum groups (fun h => transfer (medium P i) g h * phi i h).

Definition positive3 (P : sn) (groups : nat) (A : mat3) : Prop :=
  forall i m g, (i < cells P)%nat -> (m < angles P)%nat -> (g < groups)%nat -> 0 < A i m g.
Definition below3 (P : sn) (groups : nat) (A B : mat3) : Prop :=
  forall i m g, (i < cells P)%nat -> (m < angles P)%nat -> (g < groups)%nat -> A i m g <= B i m g.
Definition within3 (P : sn) (groups : nat) (d : R) (A B : mat3) : Prop :=
  forall i m g, (i < cells P)%nat -> (m < angles P)%nat -> (g < groups)%nat -> Rabs (A i m g - B i m g) <= d.

(** [A] is a positive angular flux that keeps its shape and grows like exp(a t) (dies out if [a < 0]):
    a A / v + mu dA/dx + sigma_t A = collisions of A, nothing entering. *)
Definition alpha_mode (P : sn) (groups : nat) (velocity : vec) (xs_total : mat2) (transfer : mat3) (a : R) (A : mat3) : Prop :=
  positive3 P groups A /\
  exists E, step_equation P groups velocity xs_total transfer no_inflow no_inflow (fun i m g => a * A i m g) (scalar_flux P A) E A.

(** A backward Euler run without sources. *)
Definition free_history (P : sn) (groups : nat) (velocity : vec) (dt : R) (xs_total : mat2) (transfer : mat3)
    (steps : nat) (psi : nat -> mat3) : Prop :=
  exact_history false P groups velocity dt xs_total transfer (fun _ => no_inflow) (fun _ => no_inflow) steps psi.

(** What the stopping rule of the outer iteration (relative change below 1e-8, or 100 sweeps) leaves of a flux of
    size one, when every sweep shrinks errors by [c]. *)
Definition stop_error (c : R) (cells : nat) : R :=
  c * (/ 10 ^ 8 * INR cells) / (1 - c) + 2 * c ^ 100 / (1 - c ^ 100).
