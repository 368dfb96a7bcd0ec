(** Vocabulary for the outputs of the fixed-source drivers. *)
From Verif Require Import Base SlabModel SlabSpec MgModel MgSpec.
Open Scope R_scope.

(** Scattering plus fission production. *)
Definition mixed (s : mat3) (f : fission_data) : mat3 := fun m o i => s m o i + fission_entry f m o i.

(** [psi k m g], the angular flux on cell edge [k]: in every group and direction it satisfies the
    diamond-difference equations with the source emitted by the scalar flux [phi] in all groups plus the
    external source, and the boundary conditions. *)
Definition carried_by (P : sn) (groups : nat) (xs_total : mat2) (xs : mat3) (external boundary : arr3)
    (phi : mat2) (psi : mat3) : Prop :=
  forall g, (g < groups)%nat ->
    (forall m, (m < angles P)%nat ->
       dd_balance (cells P) (mu P m) (dx P) (fun i => xs_total (medium P i) g)
         (mg_source (medium P) groups xs external phi g m) (fun k => psi k m g)) /\
    (forall m, (m < angles P)%nat ->
       psi (inflow_edge (cells P) (mu P m)) m g
       = reflected_in (cells P) (angles P) (mu P) (bc_left P) (bc_right P) (fun m k => psi k m g) m
         + mg_boundary boundary (mu P) g m).

(** Cell averages of edge values; quadrature sums over the directions. *)
Definition centres (n angles groups : nat) (psi_e psi_c : mat3) : Prop :=
  forall i m g, (i < n)%nat -> (m < angles)%nat -> (g < groups)%nat ->
    psi_c i m g = (psi_e i m g + psi_e (S i) m g) / 2.
Definition direction_sums (rows angles groups : nat) (w : vec) (psi : mat3) (phi : mat2) : Prop :=
  forall k g, (k < rows)%nat -> (g < groups)%nat -> phi k g = rsum angles (fun m => w m * psi k m g).

(** The four results of one problem: scalar and angular flux, at cell centres and cell edges. *)
Record four_outputs := mkFour { scalar_c : mat2; scalar_e : mat2; angular_c : mat3; angular_e : mat3 }.

(** Nonnegative data. *)
Definition nonneg_problem (P : sn) (groups : nat) (xs : mat3) (external boundary : arr3) : Prop :=
  (forall m, (m < angles P)%nat -> 0 <= wt P m) /\
  (forall i g h, (i < cells P)%nat -> (g < groups)%nat -> (h < groups)%nat -> 0 <= xs (medium P i) g h) /\
  (forall m i g, (m < angles P)%nat -> (i < cells P)%nat -> (g < groups)%nat ->
      0 <= at3 external i (bidx (d3b external) m) (bidx (d3c external) g)) /\
  (forall m g, (m < angles P)%nat -> (g < groups)%nat -> 0 <= mg_boundary boundary (mu P) g m).

(** Sum over the directions of an angular flux. *)
Definition over_directions (angles : nat) (w : vec) (psi : mat3) : mat2 :=
  fun i g => rsum angles (fun m => w m * psi i m g).

(** Net leakage through both faces in all groups. *)
Definition leakage (P : sn) (groups : nat) (psi : mat3) : R :=
  rsum groups (fun g => total_leakage (cells P) (angles P) (mu P) (wt P) (fun m k => psi k m g)).
