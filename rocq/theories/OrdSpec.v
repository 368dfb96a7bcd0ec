(** Specification vocabulary for the order of accuracy of the time-dependent solvers: fluxes that depend on a
    continuous time, independent of the model's code. *)
From Verif Require Import Base SlabModel SlabSpec MgModel MgSpec TimeModel TimeSpec ConvSpec EnSpec.
Open Scope R_scope.

(** [f1] is the derivative of [f] on the closed interval, and [f] has a second (and a third) bounded derivative. *)
Definition twice_smooth (a b M2 : R) (f f1 : R -> R) : Prop :=
  exists f2, forall t, a <= t <= b ->
    derivable_pt_lim f t (f1 t) /\ derivable_pt_lim f1 t (f2 t) /\ Rabs (f2 t) <= M2.
Definition thrice_smooth (a b M2 M3 : R) (f f1 : R -> R) : Prop :=
  exists f2 f3, forall t, a <= t <= b ->
    derivable_pt_lim f t (f1 t) /\ derivable_pt_lim f1 t (f2 t) /\ derivable_pt_lim f2 t (f3 t) /\
    Rabs (f2 t) <= M2 /\ Rabs (f3 t) <= M3.

(** An angular flux (cell, ordinate, group) that depends on time, and its time derivative: two bounded derivatives are
    asked for backward Euler, three for BDF2. *)
Definition smooth_in_time (second_order : bool) (P : sn) (groups : nat) (t0 t1 M2 M3 : R) (flux slope : R -> mat3) : Prop :=
  forall i m g, (i < cells P)%nat -> (m < angles P)%nat -> (g < groups)%nat ->
    if second_order then thrice_smooth t0 t1 M2 M3 (fun t => flux t i m g) (fun t => slope t i m g)
    else twice_smooth t0 t1 M2 (fun t => flux t i m g) (fun t => slope t i m g).

(** The equations with continuous time: at every time the flux satisfies the transport equations of the mesh with
    its true time derivative and its own scalar flux. *)
Definition evolves (P : sn) (groups : nat) (velocity : vec) (xs_total : mat2) (transfer : mat3)
    (source inflow : R -> arr3) (t0 t1 : R) (flux slope : R -> mat3) : Prop :=
  forall t, t0 <= t <= t1 ->
    exists E, step_equation P groups velocity xs_total transfer (source t) (inflow t) (slope t) (scalar_flux P (flux t)) E (flux t).

(** time after [k] steps *)
Definition time_at (t0 dt : R) (k : nat) : R := t0 + INR k * dt.

(** The inputs of step [k] are the values at the end of that step. *)
Definition source_rows (P : sn) (groups : nat) (t0 dt : R) (steps : nat) (ext : nat -> arr3) (source : R -> arr3) : Prop :=
  forall k i m g, (k < steps)%nat -> (i < cells P)%nat -> (m < angles P)%nat -> (g < groups)%nat ->
    at3 (ext k) i (bidx (d3b (ext k)) m) (bidx (d3c (ext k)) g)
    = at3 (source (time_at t0 dt (S k))) i (bidx (d3b (source (time_at t0 dt (S k)))) m) (bidx (d3c (source (time_at t0 dt (S k)))) g).
Definition inflow_rows (P : sn) (groups : nat) (t0 dt : R) (steps : nat) (bnd : nat -> arr3) (inflow : R -> arr3) : Prop :=
  forall k m g, (k < steps)%nat -> (m < angles P)%nat -> (g < groups)%nat ->
    mg_boundary (bnd k) (mu P) g m = mg_boundary (inflow (time_at t0 dt (S k))) (mu P) g m.

(** What the time discretization contributes after the time [T] (times the size of a unit flux): first order in [dt] for
    backward Euler, second order for BDF2 and its single backward Euler step. *)
Definition time_error (second_order : bool) (dt T M2 M3 : R) : R :=
  if second_order then (3 * M2 + 6 * T * M3) * dt ^ 2 else T * M2 / 2 * dt.

(** Scattering of the difference between the scalar flux that emits and the one that is left at the end of a step: what
    the iterations of the step have not resolved. *)
Definition unresolved (P : sn) (groups : nat) (transfer : mat3) (emit : mat2) (psi : mat3) : mat3 :=
  fun i _ g => rsum groups (fun h => transfer (medium P i) g h * (emit i h - scalar_flux P psi i h)).

Definition unit_flux : mat3 := fun _ _ _ => 1.

(** ** Continuous space and time *)

(** [psi g m i y t]: flux of group [g] and ordinate [m] at the place [y] of cell [i] and the time [t]; [slope] is its time
    derivative.  In space: three derivatives inside every cell, the second and third bounded by [X2], [X3], continuous
    across the edges, and the second space derivative of the time derivative bounded by [X2t].  In time: as above.  At
    every cell centre it satisfies
      (1/v) dpsi/dt + mu dpsi/dx + sigma_t psi = sum_h sigma_(g<-h) sum_m w_m psi_h + source;
    it takes its inflow from the boundary and, at a reflective side, from the mirrored ordinate. *)
Definition transport_solution (second_order : bool) (P : sn) (groups : nat) (velocity : vec) (xs_total : mat2) (transfer : mat3)
    (source inflow : R -> arr3) (x : vec) (t0 t1 X2 X3 X2t M2 M3 : R)
    (psi slope : nat -> nat -> nat -> R -> R -> R) : Prop :=
  (forall g m i t, (g < groups)%nat -> (m < angles P)%nat -> (i < cells P)%nat -> t0 <= t <= t1 ->
     smooth_cell (x i) (x (S i)) X2 X3 (fun y => psi g m i y t) /\
     exists s1, twice_smooth (x i) (x (S i)) X2t (fun y => slope g m i y t) s1) /\
  (forall g m i t, (g < groups)%nat -> (m < angles P)%nat -> (S i < cells P)%nat -> t0 <= t <= t1 ->
     psi g m i (x (S i)) t = psi g m (S i) (x (S i)) t) /\
  (forall g m i y, (g < groups)%nat -> (m < angles P)%nat -> (i < cells P)%nat -> x i <= y <= x (S i) ->
     if second_order then thrice_smooth t0 t1 M2 M3 (psi g m i y) (slope g m i y)
     else twice_smooth t0 t1 M2 (psi g m i y) (slope g m i y)) /\
  (forall g m i t, (g < groups)%nat -> (m < angles P)%nat -> (i < cells P)%nat -> t0 <= t <= t1 ->
     exists d, derivable_pt_lim (fun y => psi g m i y t) (centre x i) d /\
       slope g m i (centre x i) t / velocity g + mu P m * d + xs_total (medium P i) g * psi g m i (centre x i) t
       = rsum groups (fun h => transfer (medium P i) g h * rsum (angles P) (fun n => wt P n * psi h n i (centre x i) t))
         + at3 (source t) i (bidx (d3b (source t)) m) (bidx (d3c (source t)) g)) /\
  (forall g m t, (g < groups)%nat -> (m < angles P)%nat -> t0 <= t <= t1 ->
     let k := inflow_edge (cells P) (mu P m) in
     edge_value P x (fun i y => psi g m i y t) k = mg_boundary (inflow t) (mu P) g m +
       (if enters_reflective (mu P) (bc_left P) (bc_right P) m
        then edge_value P x (fun i y => psi g (angles P - m - 1)%nat i y t) k else 0)).

(** values at the cell centres *)
Definition at_centres (x : vec) (psi : nat -> nat -> nat -> R -> R -> R) (t : R) : mat3 :=
  fun i m g => psi g m i (centre x i) t.

(** What one cell contributes to the space discretization error, divided by the square of the cell width. *)
Definition space_defect (P : sn) (velocity : vec) (xs_total : mat2) (X2 X3 X2t : R) : mat3 :=
  fun i m g => X2t / (8 * velocity g) + Rabs (mu P m) * X3 / 24 + 3 * xs_total (medium P i) g * X2 / 8.

(** Largest distance (reaction norm) between what the iterations of a step return and the exact step, with [rho] the
    contraction of a sweep, [n] cells and fluxes of size [M]: either a hundred sweeps were made, or the stopping tolerance
    [10^-8] was met before. *)
Definition iteration_error (rho : R) (n : nat) (M : R) : R :=
  2 * rho ^ 100 * M / (1 - rho ^ 100) + rho * (/ 10 ^ 8 * INR n * M) / (1 - rho).
(** The source error this leaves in a step, when [velocity * sigma_t] is at most [S]. *)
Definition iteration_residual (P : sn) (groups : nat) (c dt S M : R) : R :=
  let rho := rsum (angles P) (wt P) * c in
  c * ((1 + rho) * iteration_error rho (cells P) M) * sqrt (rsum (angles P) (wt P) * INR groups * (S + 3 / (2 * dt))).

(** ** A slab of one cell in which hybrid runs stay first order

    Unit width, ordinates 1/2 and -1/2, unit total cross section; group 0 scatters into group 1 only, always.  With unit
    sources in group 0 and unit inflow the flux is one everywhere, at all times.  The coarse problem has a single group. *)
Definition lone : sn := mkSn 1 (fun _ => 0%nat) (fun _ => 1) 2 (fun m => if Nat.eqb m 0 then 1 / 2 else - (1 / 2)) (fun _ => 1 / 2) 0 0.
Definition lone_total : mat2 := fun _ _ => 1.
Definition lone_down : mat3 := fun _ o h => if andb (Nat.eqb o 1) (Nat.eqb h 0) then 1 else 0.
Definition lone_coarse : mat3 := fun _ _ _ => 1 / 2.
Definition lone_ext : arr4 := mkArr4 1 1 2 (fun _ _ _ g => if Nat.eqb g 0 then 1 else 0).
Definition lone_bnd : arr4 := mkArr4 1 1 1 (fun _ _ _ _ => 1).
Definition unit_speed : vec := fun _ => 1.
(** A BDF2 hybrid run of [steps] steps of length [dt] on it, one coarse group, the same ordinates. *)
Definition lone_run (steps : nat) (dt : R) : outcome (nat -> mat2) :=
  hybrid_run true lone lone 1 2 1 unit_flux lone_total lone_total (Scatter3 lone_down) (Scatter3 lone_coarse)
    (FissionMatrix (fun _ _ _ => 0)) (FissionMatrix (fun _ _ _ => 0)) unit_speed unit_speed lone_ext lone_bnd
    (fun _ => 0%nat) (fun _ => 1 / 2) steps dt 1.
