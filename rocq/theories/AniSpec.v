(** Specification vocabulary for slab transport with Legendre scattering, independent of the model's code. *)
From Verif Require Import Base SlabModel SlabSpec MgModel MgSpec InfSpec.
Open Scope R_scope.

(** Legendre moment [l] of the cell averages of an angular flux given on cell edges. *)
Definition edge_moment (P : sn) (psi : mat2) (i l : nat) : R :=
  rsum (angles P) (fun m => wt P m * legendre l (mu P m) * ((psi m i + psi m (S i)) / 2)).

(** Emission density of group [g]: isotropic scattering from the other groups, scattering within the group
    with [nm] Legendre moments, and the external source. *)
Definition aniso_emission (P : sn) (groups nm : nat) (xs_scatter : mat4) (external : arr3) (phi : mat2) (psi : mat3)
    (g : nat) : mat2 :=
  fun m i => rsum groups (fun h => if Nat.eqb h g then 0 else xs_scatter (medium P i) g h 0%nat * phi i h)
    + rsum nm (fun l => (2 * INR l + 1) * xs_scatter (medium P i) g g l * edge_moment P (psi g) i l * legendre l (mu P m))
    + at3 external i (bidx (d3b external) m) (bidx (d3c external) g).

(** [psi g m i]: every group satisfies the diamond-difference equations with the source it and the others emit. *)
Definition aniso_transport (P : sn) (groups nm : nat) (xs_total : mat2) (xs_scatter : mat4) (external boundary : arr3)
    (psi : mat3) (phi : mat2) : Prop :=
  forall g, (g < groups)%nat ->
    slab_transport (cells P) (angles P) (mu P) (wt P) (dx P) (fun i => xs_total (medium P i) g)
      (aniso_emission P groups nm xs_scatter external phi psi g)
      (fun m => reflected_in (cells P) (angles P) (mu P) (bc_left P) (bc_right P) (psi g) m + mg_boundary boundary (mu P) g m)
      (psi g) (fun i => phi i g).
Definition aniso_solution (P : sn) (groups nm : nat) (xs_total : mat2) (xs_scatter : mat4) (external boundary : arr3)
    (phi : mat2) : Prop :=
  exists psi, aniso_transport P groups nm xs_total xs_scatter external boundary psi phi.

(** The weights sum to one and the quadrature is exact for all products of two of the [nm] Legendre moments
    (polynomials up to degree [2 nm - 2]; a Gauss rule of [nm] ordinates or more is). *)
Definition exact_products (P : sn) (nm : nat) : Prop :=
  rsum (angles P) (wt P) = 1 /\ exact_moments (angles P) (2 * nm - 1) (mu P) (wt P).

(** Precomputed tables hold P_l(mu_n) and w_n P_l(mu_n). *)
Definition legendre_tables (P : sn) (nm : nat) (leg legw : mat2) : Prop :=
  forall l n, (l < nm)%nat -> (n < angles P)%nat ->
    leg l n = legendre l (mu P n) /\ legw l n = wt P n * legendre l (mu P n).

(** Coupling: scattering into [g] is at most [k g h] times the geometric mean of the total cross sections, no
    within-group Legendre moment exceeds [k g g] times the total, and the rows of [k] sum to at most [c]. *)
Definition aniso_coupled (P : sn) (groups nm : nat) (xs_total : mat2) (xs_scatter : mat4) (c : R) : Prop :=
  exists k : mat2,
    (forall g h, (g < groups)%nat -> (h < groups)%nat -> 0 <= k g h) /\
    (forall g, (g < groups)%nat -> rsum groups (k g) <= c) /\
    (forall i g h, (i < cells P)%nat -> (g < groups)%nat -> (h < groups)%nat ->
      Rabs (xs_scatter (medium P i) g h 0%nat) <= k g h * sqrt (xs_total (medium P i) g * xs_total (medium P i) h)) /\
    (forall i g l, (i < cells P)%nat -> (g < groups)%nat -> (l < nm)%nat ->
      Rabs (xs_scatter (medium P i) g g l) <= k g g * xs_total (medium P i) g).

(** Size of the moments [0 .. nm-1] of an angular flux: square root of [sum dx sigma_t (2l+1) f_l^2]. *)
Definition moment_norm (P : sn) (nm : nat) (xs_total : vec) (f : mat2) : R :=
  sqrt (rsum (cells P) (fun i => rsum nm (fun l => dx P i * xs_total (medium P i) * (2 * INR l + 1) * Rsqr (f i l)))).

(** Scalar flux without any higher moment, as a table of moments. *)
Definition only_scalar (phi : vec) : mat2 := fun i l => if Nat.eqb l 0 then phi i else 0.

(** Tables handed to the source iteration are right, or left to it to compute. *)
Definition usable_tables (P : sn) (nm : nat) (given : option (mat2 * mat2)) : Prop :=
  match given with Some (leg, legw) => legendre_tables P nm leg legw | None => True end.

(** Emission density of group [g] with the Legendre moments of every transfer, from whichever group. *)
Definition full_emission (P : sn) (groups nm : nat) (xs_scatter : mat4) (external : arr3) (psi : mat3) (g : nat) : mat2 :=
  fun m i => rsum groups (fun h => rsum nm (fun l =>
      (2 * INR l + 1) * xs_scatter (medium P i) g h l * edge_moment P (psi h) i l * legendre l (mu P m)))
    + at3 external i (bidx (d3b external) m) (bidx (d3c external) g).
Definition full_transport (P : sn) (groups nm : nat) (xs_total : mat2) (xs_scatter : mat4) (external boundary : arr3)
    (psi : mat3) (phi : mat2) : Prop :=
  forall g, (g < groups)%nat ->
    slab_transport (cells P) (angles P) (mu P) (wt P) (dx P) (fun i => xs_total (medium P i) g)
      (full_emission P groups nm xs_scatter external psi g)
      (fun m => reflected_in (cells P) (angles P) (mu P) (bc_left P) (bc_right P) (psi g) m + mg_boundary boundary (mu P) g m)
      (psi g) (fun i => phi i g).
Definition full_solution (P : sn) (groups nm : nat) (xs_total : mat2) (xs_scatter : mat4) (external boundary : arr3)
    (phi : mat2) : Prop :=
  exists psi, full_transport P groups nm xs_total xs_scatter external boundary psi phi.
