(** Specification vocabulary for time-dependent slab transport: the implicit step equations,
    independent of the model's code. *)
From Verif Require Import Base SlabModel SlabSpec MgModel MgSpec.
From Verif Require Import TimeModel.  (* only for the record [arr4] of inputs *)
Open Scope R_scope.

(** The coarse count that a list or a number of counts prescribes for a step: the entry of that
    step, or the number itself at every step. *)
Definition count_at (a : per_step) (step n : nat) : Prop :=
  match a with
  | Const m => n = m
  | Each len f => (step < len)%nat /\ n = f step
  | OtherType => False
  end.

(** Time derivatives of the two schemes at the new time; all arrays are (cell, ordinate, group). *)
Definition euler_derivative (dt : R) (new old : mat3) : mat3 :=
  fun i m g => (new i m g - old i m g) / dt.
Definition bdf2_derivative (dt : R) (new old older : mat3) : mat3 :=
  fun i m g => (3 * new i m g - 4 * old i m g + older i m g) / (2 * dt).

(** The discrete-ordinates, diamond-difference transport equation of every group and ordinate at
    the new time,
      (1/v) dpsi/dt + mu dpsi/dx + sigma_t psi = sum_h sigma_(g<-h) emit_h + external,
    for the cell averages [psi] of an edge flux [E] (group, ordinate, edge) with the prescribed
    (and reflected) inflow; [emit] is the scalar flux that emits. *)
Definition step_equation (P : sn) (groups : nat) (velocity : vec) (xs_total : mat2)
    (xs_scatter : mat3) (external boundary : arr3) (derivative : mat3) (emit : mat2) (E : mat3)
    (psi : mat3) : Prop :=
  forall g m, (g < groups)%nat -> (m < angles P)%nat ->
    (forall i, (i < cells P)%nat ->
       psi i m g = (E g m i + E g m (S i)) / 2 /\
       derivative i m g / velocity g + mu P m / dx P i * (E g m (S i) - E g m i)
       + xs_total (medium P i) g * psi i m g
       = rsum groups (fun h => xs_scatter (medium P i) g h * emit i h)
         + at3 external i (bidx (d3b external) m) (bidx (d3c external) g)) /\
    E g m (inflow_edge (cells P) (mu P m))
    = reflected_in (cells P) (angles P) (mu P) (bc_left P) (bc_right P) (E g) m
      + mg_boundary boundary (mu P) g m.

(** scalar flux of an angular flux *)
Definition scalar_flux (P : sn) (psi : mat3) : mat2 :=
  fun i g => rsum (angles P) (fun m => wt P m * psi i m g).

Definition agree3 (n angles groups : nat) (f g : mat3) : Prop :=
  forall i m h, (i < n)%nat -> (m < angles)%nat -> (h < groups)%nat -> f i m h = g i m h.

(** The exact solution of one implicit step: the emitting flux is the scalar flux itself.
    [derivative] turns the new angular flux into the time derivative. *)
Definition exact_step (P : sn) (groups : nat) (velocity : vec) (xs_total : mat2)
    (xs_scatter : mat3) (external boundary : arr3) (derivative : mat3 -> mat3) (phi : mat2) : Prop :=
  exists E psi,
    step_equation P groups velocity xs_total xs_scatter external boundary (derivative psi) phi E psi /\
    agree2 (cells P) groups phi (scalar_flux P psi).

(** The derivative used at step [k] of a run with angular history [psi] ([psi 0] is the initial
    flux): backward Euler always, or BDF2 after a first backward Euler step. *)
Definition run_derivative (second_order : bool) (dt : R) (psi : nat -> mat3) (k : nat) (new : mat3)
  : mat3 :=
  if second_order
  then match k with
       | O => euler_derivative dt new (psi 0%nat)
       | S j => bdf2_derivative dt new (psi k) (psi j)
       end
  else euler_derivative dt new (psi k).

(** numerator of the implicit term: 1/(v dt), or 3/(2 v dt) *)
Definition run_weight (second_order : bool) (k : nat) : R :=
  if second_order then match k with O => 1 | S _ => 3 / 2 end else 1.

(** sigma_t + weight/(v dt) *)
Definition effective_total (weight : R) (xs_total : mat2) (velocity : vec) (dt : R) : mat2 :=
  fun m g => xs_total m g + weight / (velocity g * dt).

(** A whole history: every step satisfies its equation.  [ext k], [bnd k] are the source and the
    boundary of step [k], [emit k] its emitting scalar flux. *)
Definition time_history (second_order : bool) (P : sn) (groups : nat) (velocity : vec) (dt : R)
    (xs_total : mat2) (xs_scatter : mat3) (ext bnd : nat -> arr3) (steps : nat)
    (psi : nat -> mat3) (emit : nat -> mat2) : Prop :=
  forall k, (k < steps)%nat ->
    exists E, step_equation P groups velocity xs_total xs_scatter (ext k) (bnd k)
                (run_derivative second_order dt psi k (psi (S k))) (emit k) E (psi (S k)).

(** Row of a time-dependent input in force at step [k]: the only row, or row [k]. *)
Definition step_row (a : arr4) (k : nat) : arr3 :=
  mkArr3 (d4b a) (d4c a) (at4 a (bidx (d4a a) k)).

(** steady state: the equation without time derivative, emitting flux = own scalar flux *)
Definition steady (P : sn) (groups : nat) (xs_total : mat2) (xs_scatter : mat3)
    (external boundary : arr3) (psi : mat3) : Prop :=
  exists E, step_equation P groups (fun _ => 1) xs_total xs_scatter external boundary
              (fun _ _ _ => 0) (scalar_flux P psi) E psi.

(** the array has one row, or a row for every step *)
Definition rows_for (a : arr4) (steps : nat) : Prop := d4a a = 1%nat \/ (steps <= d4a a)%nat.

(** the angular and group axes are full or of length one *)
Definition broadcasts (P : sn) (groups : nat) (a : arr4) : Prop :=
  (d4b a = 1%nat \/ d4b a = angles P) /\ (d4c a = 1%nat \/ d4c a = groups).

(** scalar flux a step starts from *)
Definition step_start (P : sn) (flux_last : mat3) (ft : nat -> mat2) (k : nat) : mat2 :=
  match k with O => scalar_flux P flux_last | S j => ft j end.

(** ** Collision splitting *)

(** sum of [f] over the fine groups owned by coarse group [c] *)
Definition collected (groups : nat) (owner : nat -> nat) (f : vec) (c : nat) : R :=
  rsum groups (fun g => if Nat.eqb c (owner g) then f g else 0).

(** First collisions of the uncollided flux [fu], collected in the coarse groups. *)
Definition first_collisions (P : sn) (groups groups_c : nat) (xs_scatter : mat3) (owner : nat -> nat)
    (fu : mat2) : arr3 :=
  mkArr3 1 groups_c (fun i _ c =>
    collected groups owner (fun g => rsum groups (fun h => xs_scatter (medium P i) g h * fu i h)) c).

Definition no_inflow : arr3 := mkArr3 1 1 (fun _ _ _ => 0).

(** The coarse problem for the collided flux of step [k]: coarse ordinates (in [PC]), coarse groups,
    the first collisions as source, vacuum inflow. *)
Definition collided_flux (second_order : bool) (P PC : sn) (groups groups_c : nat) (velocity_c : vec)
    (dt : R) (total_c : mat2) (scatter_c xs_scatter : mat3) (owner : nat -> nat) (k : nat)
    (fu fc : mat2) : Prop :=
  mg_solution PC groups_c (effective_total (run_weight second_order k) total_c velocity_c dt)
    scatter_c (first_collisions P groups groups_c xs_scatter owner fu) no_inflow fc.

(** The uncollided flux of step [k]: the step without any scattering or fission. *)
Definition uncollided_flux (second_order : bool) (P : sn) (groups : nat) (velocity : vec) (dt : R)
    (xs_total : mat2) (external boundary : arr3) (psi : nat -> mat3) (k : nat) (fu : mat2) : Prop :=
  exact_step P groups velocity xs_total (fun _ _ _ => 0) external boundary
    (run_derivative second_order dt psi k) fu.

(** uncollided plus collided flux, the latter distributed over the fine groups *)
Definition recombined (owner : nat -> nat) (factor : vec) (fu fc : mat2) : mat2 :=
  fun i g => fu i g + fc i (owner g) * factor g.
