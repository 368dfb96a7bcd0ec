(** Specification vocabulary for energy estimates of slab transport, independent of the model's code. *)
From Verif Require Import Base SlabModel SlabSpec MgModel MgSpec TimeModel TimeSpec.
Open Scope R_scope.

(** Sum over groups, cells and ordinates. *)
Definition total3 (P : sn) (groups : nat) (f : mat3) : R :=
  rsum groups (fun g => rsum (cells P) (fun i => rsum (angles P) (fun m => f i m g))).

(** Size of an angular flux: the square root of [sum dx w psi^2 / v]. *)
Definition density_norm (P : sn) (groups : nat) (velocity : vec) (psi : mat3) : R :=
  sqrt (total3 P groups (fun i m g => dx P i * wt P m * Rsqr (psi i m g) / velocity g)).
(** Size of a source: the square root of [sum dx w v q^2]. *)
Definition source_norm (P : sn) (groups : nat) (velocity : vec) (q : mat3) : R :=
  sqrt (total3 P groups (fun i m g => dx P i * wt P m * velocity g * Rsqr (q i m g))).
(** Size of a scalar flux of one group: the square root of [sum dx sigma_t phi^2]. *)
Definition reaction_norm (P : sn) (xs_total phi : vec) : R :=
  sqrt (rsum (cells P) (fun i => dx P i * xs_total (medium P i) * Rsqr (phi i))).

(** No multiplication: in every cell the mean of what scatters into and out of a group is at most what it
    removes (entries of [transfer]: group scattered into, group scattered from). *)
Definition no_multiplication (P : sn) (groups : nat) (xs_total : mat2) (transfer : mat3) : Prop :=
  forall i g, (i < cells P)%nat -> (g < groups)%nat ->
    rsum (angles P) (wt P) *
      ((rsum groups (fun h => Rabs (transfer (medium P i) g h)) + rsum groups (fun h => Rabs (transfer (medium P i) h g))) / 2)
    <= xs_total (medium P i) g.

(** The same with something left over: every group of every cell absorbs. *)
Definition absorbing (P : sn) (groups : nat) (xs_total : mat2) (transfer : mat3) : Prop :=
  forall i g, (i < cells P)%nat -> (g < groups)%nat ->
    rsum (angles P) (wt P) *
      ((rsum groups (fun h => Rabs (transfer (medium P i) g h)) + rsum groups (fun h => Rabs (transfer (medium P i) h g))) / 2)
    < xs_total (medium P i) g.

(** Distance of two multigroup fluxes: no group differs by more than [d] in the reaction norm. *)
Definition near_energy (P : sn) (groups : nat) (xs_total : mat2) (d : R) (f g : mat2) : Prop :=
  forall h, (h < groups)%nat -> reaction_norm P (fun m => xs_total m h) (fun i => f i h - g i h) <= d.

(** Coupling: scattering from group [h] into group [g] is at most [k g h] times the geometric mean of the two
    total cross sections, and each row of [k] sums to at most [c].  With one group: scattering is at most [c sigma_t]. *)
Definition coupled_below (P : sn) (groups : nat) (xs_total : mat2) (xs_scatter : mat3) (c : R) : Prop :=
  exists k : mat2,
    (forall g h, (g < groups)%nat -> (h < groups)%nat -> 0 <= k g h) /\
    (forall g, (g < groups)%nat -> rsum groups (k g) <= c) /\
    forall i g h, (i < cells P)%nat -> (g < groups)%nat -> (h < groups)%nat ->
      Rabs (xs_scatter (medium P i) g h) <= k g h * sqrt (xs_total (medium P i) g * xs_total (medium P i) h).

(** What a step emits beside the scattering of its own angular flux: the external source and the scattering
    of the difference between the emitting scalar flux and the flux's own. *)
Definition step_input (P : sn) (groups : nat) (transfer : mat3) (external : arr3) (emit : mat2) (psi : mat3) : mat3 :=
  fun i m g => at3 external i (bidx (d3b external) m) (bidx (d3c external) g)
    + rsum groups (fun h => transfer (medium P i) g h * (emit i h - scalar_flux P psi i h)).

Definition minus3 (a b : mat3) : mat3 := fun i m g => a i m g - b i m g.

(** An exact history: every step is solved exactly (the emitting flux is the new scalar flux). *)
Definition exact_history (second_order : bool) (P : sn) (groups : nat) (velocity : vec) (dt : R) (xs_total : mat2)
    (transfer : mat3) (ext bnd : nat -> arr3) (steps : nat) (psi : nat -> mat3) : Prop :=
  time_history second_order P groups velocity dt xs_total transfer ext bnd steps psi (fun k => scalar_flux P (psi (S k))).
