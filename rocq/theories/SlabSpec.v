(** Specification vocabulary for slab transport, independent of the model's code:
    the diamond-difference discrete-ordinates equations and their totals. *)
From Verif Require Import Base SlabModel.  (* SlabModel only for the record [sn] of inputs *)
Open Scope R_scope.

(** Diamond-difference balance of one ordinate on [n] cells: [psi i] and [psi (S i)]
    are the angular flux on the left and right edge of cell [i],
    [mu/dx (psi_right - psi_left) + sigma_t (psi_left + psi_right)/2 = q]. *)
Definition dd_balance (n : nat) (mu : R) (dx sigt q psi : vec) : Prop :=
  forall i, (i < n)%nat ->
    mu / dx i * (psi (S i) - psi i) + sigt i * ((psi i + psi (S i)) / 2) = q i.

(** Where an ordinate enters and leaves a slab of [n] cells. *)
Definition inflow_edge (n : nat) (mu : R) : nat := if Rlt_dec 0 mu then 0%nat else n.
Definition outflow_edge (n : nat) (mu : R) : nat := if Rlt_dec 0 mu then n else 0%nat.

(** A full discrete-ordinates sweep: every ordinate satisfies the balance with its own
    source [q m i] and inflow [inflow m]; [phi] is the quadrature sum of the cell averages. *)
Definition slab_transport (n angles : nat) (mu wt dx sigt : vec) (q : mat2) (inflow : vec)
    (psi : mat2) (phi : vec) : Prop :=
  (forall m, (m < angles)%nat -> dd_balance n (mu m) dx sigt (q m) (psi m)) /\
  (forall m, (m < angles)%nat -> psi m (inflow_edge n (mu m)) = inflow m) /\
  (forall i, (i < n)%nat ->
     phi i = rsum angles (fun m => wt m * ((psi m i + psi m (S i)) / 2))).

(** Every divisor met by a sweep is nonzero (otherwise the compiled kernels raise
    ZeroDivisionError). *)
Definition divisors_ok (n : nat) (mu : R) (dx sigt : vec) : Prop :=
  forall i, (i < n)%nat -> dx i <> 0 /\ Rabs mu / dx i + sigt i / 2 <> 0.

(** Emission density of ordinate [m] in cell [i]: in-scatter from the scalar flux
    [flux_old], the external source (column [m], or column 0 of a one-column array) and
    the off-group scatter. *)
Definition iso_source (medium : nat -> nat) (xs_scatter off : vec) (external : arr2)
    (flux_old : vec) : mat2 :=
  fun m i => xs_scatter (medium i) * flux_old i
             + at2 external i (bidx (cols2 external) m) + off i.

(** Net leakage: out-current minus in-current over both faces. *)
Definition total_leakage (n angles : nat) (mu wt : vec) (psi : mat2) : R :=
  rsum angles (fun m => wt m * mu m * (psi m n - psi m 0%nat)).

(** Boundary value prescribed for ordinate [m]: row 0 (left) for right-going ordinates,
    row 1 (right) for left-going ones; column [m], or 0 for an angle-independent array. *)
Definition boundary_in (boundary : arr2) (mu : vec) (m : nat) : R :=
  at2 boundary (if Rlt_dec 0 (mu m) then 0%nat else 1%nat) (bidx (cols2 boundary) m).

(** An ordinate [m] leaves through a reflective side. *)
Definition leaves_reflective (mu : vec) (bc_left bc_right m : nat) : bool :=
  if Rlt_dec 0 (mu m) then Nat.eqb bc_right 1
  else if Rlt_dec (mu m) 0 then Nat.eqb bc_left 1 else false.

(** Contribution of the mirrored ordinate, available only when it was swept earlier. *)
Definition reflected_in (n angles : nat) (mu : vec) (bc_left bc_right : nat) (psi : mat2)
    (m : nat) : R :=
  let m' := (angles - m - 1)%nat in
  if andb (Nat.ltb m' m) (leaves_reflective mu bc_left bc_right m')
  then psi m' (outflow_edge n (mu m')) else 0.

Definition nonzero_ordinates (angles : nat) (mu : vec) : Prop :=
  forall m, (m < angles)%nat -> mu m <> 0.

(** [mu_{N-1-m} = - mu_m] *)
Definition symmetric_quadrature (angles : nat) (mu : vec) : Prop :=
  forall m, (m < angles)%nat -> mu (angles - m - 1)%nat = - mu m.

(** An ordinate [m] enters through a reflective side. *)
Definition enters_reflective (mu : vec) (bc_left bc_right m : nat) : bool :=
  if Rlt_dec 0 (mu m) then Nat.eqb bc_left 1 else Nat.eqb bc_right 1.

(** Ideal boundary condition: prescribed value, plus at a reflective side the flux of the
    mirrored ordinate at the same edge. *)
Definition reflective_inflow (n angles : nat) (mu : vec) (bc_left bc_right : nat)
    (boundary : arr2) (psi : mat2) : vec :=
  fun m => boundary_in boundary mu m +
           (if enters_reflective mu bc_left bc_right m
            then psi (angles - m - 1)%nat (inflow_edge n (mu m)) else 0).

(** Ordinates flowing toward a reflective side come before their mirror images. *)
Definition ordered_for (angles : nat) (mu : vec) (bc_left bc_right : nat) : Prop :=
  forall m, (m < angles)%nat -> enters_reflective mu bc_left bc_right m = true ->
            (angles - m - 1 < m)%nat.

(** Largest deviation bound between two fluxes. *)
Definition within (n : nat) (d : R) (f g : vec) : Prop :=
  forall i, (i < n)%nat -> Rabs (f i - g i) <= d.

(** Index reversal. *)
Definition mirrored (n : nat) (f : vec) : vec := fun i => f (n - 1 - i)%nat.

(** No ordinate of the problem divides by zero. *)
Definition good_divisors (P : sn) (xs_total : vec) : Prop :=
  forall m, (m < angles P)%nat ->
    divisors_ok (cells P) (mu P m) (dx P) (fun i => xs_total (medium P i)).

(** Every cell is thin enough for every ordinate: [dx sigma_t <= 2 |mu|]. *)
Definition thin_mesh (P : sn) (xs_total : vec) : Prop :=
  forall m i, (m < angles P)%nat -> (i < cells P)%nat ->
    0 < dx P i /\ 0 <= xs_total (medium P i) /\
    dx P i * xs_total (medium P i) <= 2 * Rabs (mu P m).

(** Linear combination of two vectors. *)
Definition lin (a b : R) (f g : vec) : vec := fun i => a * f i + b * g i.

(** The same slab seen from the other side: cells reversed, directions negated, boundary
    flags exchanged; rows of a source (or of the two-row boundary array) reversed. *)
Definition mirror_sn (P : sn) : sn :=
  mkSn (cells P) (fun i => medium P (cells P - 1 - i)%nat) (mirrored (cells P) (dx P))
       (angles P) (fun m => - mu P m) (wt P) (bc_right P) (bc_left P).

Definition mirror_rows (n : nat) (a : arr2) : arr2 :=
  mkArr2 (cols2 a) (fun i j => at2 a (n - 1 - i)%nat j).

(** The stopping test of an iteration is met by two successive fluxes: no entry of the new one is
    zero, and the Euclidean norm of the relative change, divided by the number of cells, is below
    [tol]. *)
Definition settled (n : nat) (new old : vec) (tol : R) : Prop :=
  (forall i, (i < n)%nat -> new i <> 0) /\
  sqrt (rsum n (fun i => ((new i - old i) / new i / INR n) ^ 2)) < tol.
