(** Specification vocabulary for problems in which neutrons are lost on the whole, independent of the
    model's code. *)
From Verif Require Import Base SlabModel SlabSpec MgModel MgSpec.
Open Scope R_scope.

(** [phi] is the scalar flux of one group fed by the isotropic source [q] alone: nothing enters from outside. *)
Definition flux_of (P : sn) (sigt q phi : vec) : Prop :=
  exists psi, slab_transport (cells P) (angles P) (mu P) (wt P) (dx P) sigt (fun _ i => q i)
    (fun m => reflected_in (cells P) (angles P) (mu P) (bc_left P) (bc_right P) psi m) psi phi.

(** [p] is a positive flux that one flight and collision reduces: the neutrons that the collisions of [p]
    send out make a flux of at most [c p]. *)
Definition damping (P : sn) (groups : nat) (xs_total : mat2) (transfer : mat3) (c : R) (p : mat2) : Prop :=
  positive2 (cells P) groups p /\
  forall g, (g < groups)%nat -> exists u,
    flux_of P (fun i => xs_total (medium P i) g)
      (fun i => rsum groups (fun h => Rabs (transfer (medium P i) g h) * p i h)) u /\
    forall i, (i < cells P)%nat -> u i <= c * p i g.

(** Every collision of a neutron of group [h], in any cell, sends out at most [c] neutrons on average,
    counted over all groups they are sent to. *)
Definition yields_below (P : sn) (groups : nat) (xs_total : mat2) (transfer : mat3) (c : R) : Prop :=
  forall i h, (i < cells P)%nat -> (h < groups)%nat ->
    rsum (angles P) (wt P) * rsum groups (fun g => Rabs (transfer (medium P i) g h)) <= c * xs_total (medium P i) h.

(** Distance measured against [p]. *)
Definition within_of (n groups : nat) (p : mat2) (d : R) (f g : mat2) : Prop :=
  forall i h, (i < n)%nat -> (h < groups)%nat -> Rabs (f i h - g i h) <= d * p i h.

(** A slab and cross sections with which every sweep keeps fluxes nonnegative. *)
Definition positive_sweeps (P : sn) (groups : nat) (xs_total : mat2) : Prop :=
  nonzero_ordinates (angles P) (mu P) /\ mg_thin P groups xs_total /\
  (forall m, (m < angles P)%nat -> 0 <= wt P m).

(** Some direction of positive weight leaves the slab through a side that does not reflect. *)
Definition leaky (P : sn) : Prop :=
  exists m, (m < angles P)%nat /\ 0 < wt P m /\ leaves_reflective (mu P) (bc_left P) (bc_right P) m = false.
