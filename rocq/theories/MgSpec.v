(** Specification vocabulary for multigroup slab transport, independent of the model's code. *)
From Verif Require Import Base SlabModel SlabSpec MgModel.
Open Scope R_scope.

(** Full emission density of group [g], ordinate [m], cell [i]: scattering from every group
    (the row of the scattering matrix is the group scattered into) plus the external source,
    read at index 0 of any axis of length one. *)
Definition mg_source (medium : nat -> nat) (groups : nat) (xs_scatter : mat3) (external : arr3)
    (phi : mat2) (g : nat) : mat2 :=
  fun m i => rsum groups (fun h => xs_scatter (medium i) g h * phi i h)
             + at3 external i (bidx (d3b external) m) (bidx (d3c external) g).

Definition mg_boundary (boundary : arr3) (mu : vec) (g m : nat) : R :=
  at3 boundary (if Rlt_dec 0 (mu m) then 0%nat else 1%nat) (bidx (d3b boundary) m)
    (bidx (d3c boundary) g).

(** [psi g m i]: every group satisfies the diamond-difference equations with the source
    emitted by all groups of [phi]. *)
Definition mg_transport (P : sn) (groups : nat) (xs_total : mat2) (xs_scatter : mat3)
    (external boundary : arr3) (psi : mat3) (phi : mat2) : Prop :=
  forall g, (g < groups)%nat ->
    slab_transport (cells P) (angles P) (mu P) (wt P) (dx P) (fun i => xs_total (medium P i) g)
      (mg_source (medium P) groups xs_scatter external phi g)
      (fun m => reflected_in (cells P) (angles P) (mu P) (bc_left P) (bc_right P) (psi g) m
                + mg_boundary boundary (mu P) g m)
      (psi g) (fun i => phi i g).

Definition mg_solution (P : sn) (groups : nat) (xs_total : mat2) (xs_scatter : mat3)
    (external boundary : arr3) (phi : mat2) : Prop :=
  exists psi, mg_transport P groups xs_total xs_scatter external boundary psi phi.

(** No sweep of any group divides by zero / every cell is thin for every group. *)
Definition mg_divisors (P : sn) (groups : nat) (xs_total : mat2) : Prop :=
  forall g, (g < groups)%nat -> good_divisors P (fun m => xs_total m g).
Definition mg_thin (P : sn) (groups : nat) (xs_total : mat2) : Prop :=
  forall g, (g < groups)%nat -> thin_mesh P (fun m => xs_total m g).

(** Scattering ratio: out of all scattering into group [g], at most [c sigma_t]. *)
Definition mg_ratio (P : sn) (groups : nat) (xs_total : mat2) (xs_scatter : mat3) (c : R) : Prop :=
  forall g i, (g < groups)%nat -> (i < cells P)%nat ->
    rsum groups (fun h => Rabs (xs_scatter (medium P i) g h)) <= c * xs_total (medium P i) g.

Definition within2 (n groups : nat) (d : R) (f g : mat2) : Prop :=
  forall i h, (i < n)%nat -> (h < groups)%nat -> Rabs (f i h - g i h) <= d.

Definition agree2 (n groups : nat) (f g : mat2) : Prop :=
  forall i h, (i < n)%nat -> (h < groups)%nat -> f i h = g i h.

(** Reading one entry of (isotropic or Legendre) scattering data. *)
Definition entry (s : scatter_data) (m o i l : nat) : R :=
  match s with Scatter3 xs => xs m o i | Scatter4 _ xs => xs m o i l end.

Definition fission_entry (f : fission_data) (m o i : nat) : R :=
  match f with FissionMatrix xs => xs m o i | FissionVector chi nusigf => chi m o * nusigf m i end.

(** scattering plus fission *)
Definition total_transfer (xs_scatter : mat3) (xs_fission : fission_data) : mat3 :=
  fun m o i => xs_scatter m o i + fission_entry xs_fission m o i.

Definition same_rank (s t : scatter_data) : Prop :=
  match s, t with Scatter3 _, Scatter3 _ => True | Scatter4 n _, Scatter4 k _ => n = k | _, _ => False end.

(** Coarse cross sections: width-weighted columns, rows summed. *)
Definition coarse_scatter (xs : mat3) (delta_fine delta_coarse : vec) (edges : nat -> nat) : mat3 :=
  fun m gg og =>
    range_sum (edges gg) (edges (gg + 1)%nat) (fun r =>
      range_sum (edges og) (edges (og + 1)%nat) (fun c => xs m r c * delta_fine c)) / delta_coarse og.

Definition coarse_total (xs : mat2) (delta_fine delta_coarse star : vec) (edges : nat -> nat) : mat2 :=
  fun m gg => range_sum (edges gg) (edges (gg + 1)%nat) (fun g => xs m g * delta_fine g)
              / delta_coarse gg + star gg.

(** scatter_prod *)
Definition mat_total (groups : nat) (xs : mat3) (m : nat) : R :=
  rsum groups (fun o => rsum groups (fun i => xs m o i)).

Definition label_for (label : ml_label) (nn : nat) : list R :=
  match label with OneLabel l => l | LabelPerModel ls => ls nn | NoLabel => nil end.

Definition matching_columns (P : sn) (external boundary : arr3) : Prop :=
  d3b external = d3b boundary /\ (d3b external = 1%nat \/ (angles P <= d3b external)%nat).

(** As [settled], for fluxes of several groups (the norm is divided by the number of cells only). *)
Definition settled2 (cells groups : nat) (new old : mat2) (tol : R) : Prop :=
  (forall i g, (i < cells)%nat -> (g < groups)%nat -> new i g <> 0) /\
  sqrt (rsum cells (fun i => rsum groups (fun g => ((new i g - old i g) / new i g / INR cells) ^ 2))) < tol.

(** What "terminates with a documented reason" says of one outer loop. *)
Definition documented_exit (sweep : mat2 -> outcome mat2) (cells groups cap : nat) (tol : R)
    (old flux : mat2) : Prop :=
  exists n x,
    (1 <= n <= cap)%nat /\ x 0%nat = old /\ flux = x n /\
    (forall k, (k < n)%nat -> sweep (x k) = Ok (x (S k))) /\
    (forall k, (0 < k < n)%nat -> ~ settled2 cells groups (x k) (x (k - 1)%nat) tol) /\
    ((n < cap)%nat -> settled2 cells groups (x n) (x (n - 1)%nat) tol).

(** Entrywise order of multigroup fluxes. *)
Definition positive2 (n groups : nat) (v : mat2) : Prop :=
  forall i g, (i < n)%nat -> (g < groups)%nat -> 0 < v i g.
Definition below2 (n groups : nat) (v w : mat2) : Prop :=
  forall i g, (i < n)%nat -> (g < groups)%nat -> v i g <= w i g.

(** A slab with positive widths, non-negative weights and no direction parallel to it; if a side reflects, the
    quadrature is symmetric. *)
Definition symmetric_weights (angles : nat) (wt : vec) : Prop :=
  forall m, (m < angles)%nat -> wt (angles - m - 1)%nat = wt m.
Definition sound_slab (P : sn) : Prop :=
  (forall i, (i < cells P)%nat -> 0 < dx P i) /\ (forall m, (m < angles P)%nat -> 0 <= wt P m) /\
  nonzero_ordinates (angles P) (mu P) /\
  ((bc_left P <> 1%nat /\ bc_right P <> 1%nat) \/
   (symmetric_quadrature (angles P) (mu P) /\ symmetric_weights (angles P) (wt P))).
(** Every cell transmits a part of what enters it: [dx sigma_t < 2 |mu|]. *)
Definition transmitting (P : sn) (groups : nat) (xs_total : mat2) : Prop :=
  forall m i g, (m < angles P)%nat -> (i < cells P)%nat -> (g < groups)%nat ->
    dx P i * xs_total (medium P i) g < 2 * Rabs (mu P m).
