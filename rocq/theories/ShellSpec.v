(** Vocabulary for the sign of spherical fluxes. *)
From Verif Require Import Base SlabModel SlabSpec SphereModel SphereSpec MgModel MgSpec CritModel CritSpec InfSpec AniSpec.
Open Scope R_scope.

(** A sphere as the solver needs it: positive widths and weights, inward ordinates first, no zero ordinate, weights times
    cosines summing to zero, non-degenerate weighted-diamond parameters. *)
Definition sound_sphere (P : sn) : Prop :=
  nonzero_ordinates (angles P) (mu P) /\ inward_first (angles P) (mu P) /\
  (forall k, (k < angles P)%nat -> 0 < wt P k) /\ rsum (angles P) (fun k => mu P k * wt P k) = 0 /\
  (forall i, (i < cells P)%nat -> 0 < dx P i) /\
  (forall m, (m < angles P)%nat -> tau_coef (mu P) (wt P) m <> 0).
(** Sources that cannot be negative. *)
Definition nonneg_data (P : sn) (groups : nat) (external boundary : arr3) : Prop :=
  (forall i m g, (i < cells P)%nat -> (g < groups)%nat -> 0 <= at3 external i m g) /\
  (forall s m g, (g < groups)%nat -> 0 <= at3 boundary s m g).

(** One group of a multigroup sphere: the spherical equations with the emission (scattering from every group plus external source) of
    the flux [seen], and the incoming flux prescribed at the surface; the starting direction reads the first ordinate's data. *)
Definition ball_group (P : sn) (groups : nat) (xs_total : mat2) (xs_scatter : mat3) (external boundary : arr3)
    (g : nat) (seen : mat2) (out : vec) : Prop :=
  exists start psi hm hp,
    sphere_transport (cells P) (angles P) (mu P) (wt P) (dx P) (fun i => xs_total (medium P i) g)
      (mg_source (medium P) groups xs_scatter external seen g) (mg_source (medium P) groups xs_scatter external seen g 0%nat)
      (fun m => at3 boundary 1%nat (bidx (d3b boundary) m) (bidx (d3c boundary) g))
      (at3 boundary 1%nat 0%nat (bidx (d3c boundary) g)) start psi hm hp out.
(** Every group emits with the flux itself. *)
Definition ball_solution (P : sn) (groups : nat) (xs_total : mat2) (xs_scatter : mat3) (external boundary : arr3) (phi : mat2) : Prop :=
  forall g, (g < groups)%nat -> ball_group P groups xs_total xs_scatter external boundary g phi (fun i => phi i g).
(** What group [g] sees during a sweep from [old] to [new]: groups before it already renewed, groups after it not, itself as [own]. *)
Definition sweep_sees (new old : mat2) (own : vec) (g : nat) : mat2 :=
  fun i h => if Nat.ltb h g then new i h else if Nat.eqb h g then own i else old i h.

(** Emission seen by group [g] when it scatters within itself with [nm] Legendre moments [mom] of its own angular flux and receives
    isotropic scattering from the other groups: in a direction of cosine [c], with the external source of column [n]. *)
Definition legendre_emission (P : sn) (groups nm : nat) (xs_scatter : mat4) (external : arr3) (g : nat) (others mom : mat2) (c : R) (n : nat) : vec :=
  fun i => rsum groups (fun h => if Nat.eqb h g then 0 else xs_scatter (medium P i) g h 0%nat * others i h)
    + rsum nm (fun l => (2 * INR l + 1) * xs_scatter (medium P i) g g l * mom i l * legendre l c)
    + at3 external i n (bidx (d3c external) g).
(** One group of a sphere with that emission.  The starting direction (cosine -1) is given the isotropic part only. *)
Definition ball_legendre (P : sn) (groups nm : nat) (xs_total : mat2) (xs_scatter : mat4) (external boundary : arr3)
    (g : nat) (others mom psi : mat2) (out : vec) : Prop :=
  exists start hm hp,
    sphere_transport (cells P) (angles P) (mu P) (wt P) (dx P) (fun i => xs_total (medium P i) g)
      (fun m => legendre_emission P groups nm xs_scatter external g others mom (mu P m) (bidx (d3b external) m))
      (legendre_emission P groups 1 xs_scatter external g others mom (-1) 0%nat)
      (fun m => at3 boundary 1%nat (bidx (d3b boundary) m) (bidx (d3c boundary) g))
      (at3 boundary 1%nat 0%nat (bidx (d3c boundary) g)) start psi hm hp out.

(** [(phi, k)] sustains itself in a sphere: the spherical equations with scattering, source emission / k and nothing entering. *)
Definition ball_eigenpair (P : sn) (groups : nat) (xs_total : mat2) (xs_scatter : mat3) (f : fission_data) (phi : mat2) (k : R) : Prop :=
  ball_solution P groups xs_total xs_scatter (mkArr3 1 groups (fun i _ g => emission groups f (medium P) phi i g / k))
    (mkArr3 1 1 (fun _ _ _ => 0)) phi.
(** Volume of cell [i], with the radii the library uses. *)
Definition shell_volume (P : sn) (i : nat) : R := ball_volume (code_rout (dx P) i) - ball_volume (code_rin (dx P) i).

(** Isotropic sources that are nowhere negative, with a uniform isotropic flux entering, give a flux that is nowhere negative. *)
Definition keeps_sign (P : sn) (sigt : vec) : Prop :=
  forall q e start psi hm hp phi,
    sphere_transport (cells P) (angles P) (mu P) (wt P) (dx P) sigt (fun _ => q) q (fun _ => e) e start psi hm hp phi ->
    (forall i, (i < cells P)%nat -> 0 <= q i) -> 0 <= e -> forall i, (i < cells P)%nat -> 0 <= phi i.
