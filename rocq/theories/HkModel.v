(** Model of the hybrid k-eigenvalue driver: discrete1/critical1d.py hybrid_power_iteration and
    _collided_terms.  Definitions only. *)
From Verif Require Import Base SlabModel SphereModel MgModel CritModel HybModel MainModel TimeModel.
Open Scope R_scope.

(** Loop state: fine flux, keff, coarse collided flux (kept between passes as the starting guess). *)
Definition hk_state : Type := mat2 * R * mat2.

(** critical1d.py:592-639, one pass of the while loop.  [source_u], [source_c] are zeroed by their
    kernels.  [PC] is the problem with the collided ordinates.  Every [coarse_idx] entry is taken to
    be below [groups_c]. *)
Definition hk_step (P PC : sn) (groups groups_c : nat) (xs_total_u : mat2) (xs_scatter_u xs_fission_u : mat3)
    (xs_total_c : mat2) (xs_scatter_c : mat3) (coarse_idx : nat -> nat) (factor : vec) (geometry : nat)
    (st : hk_state) : outcome hk_state :=
  let '(flux_old, keff, flux_c) := st in
  let source_u := fission_mat_prod (cells P) groups flux_old xs_fission_u zeros2 (medium P) keff in
  bind (known_source_scalar P groups xs_total_u (as_source groups source_u) no_boundary geometry 0)
    (fun flux_u =>
  let source_c := hybrid_source_collided (cells P) groups flux_u xs_scatter_u zeros2 (medium P) coarse_idx in
  bind (source_iteration PC groups_c flux_c xs_total_c (Scatter3 xs_scatter_c) (as_source groups_c source_c)
          no_boundary geometry None) (fun flux_c =>
  let flux_u := fun i g => flux_u i g + flux_c i (coarse_idx g) * factor g in
  let keff := update_keff_mat (cells P) groups flux_u flux_old xs_fission_u (medium P) keff in
  let n := norm2 (cells P) groups flux_u in
  Ok (fun i g => flux_u i g / n, keff, flux_c))).

(** critical1d.py:656-686 _collided_terms *)
Definition hk_collided_terms (P : sn) (leggauss : nat -> vec * vec) (groups angles_c groups_c : nat)
    (xs_total : mat2) (xs_scatter : mat3) (edges_g : vec) (idx_u idx_c : nat -> nat)
  : outcome (sn * mat2 * mat3) :=
  let e g := edges_g (idx_u g) in
  let '(total_c, scatter_c) :=
    if Nat.eqb groups_c groups then (xs_total, xs_scatter)
    else match coarsen_materials xs_total (Some xs_scatter) None e idx_c with
         | (t, Some s, _) => (t, s)
         | (t, None, _) => (t, fun _ _ _ => 0)
         end in
  bind (if Nat.eqb angles_c (angles P) then Ok (mu P, wt P)
        else angular_x leggauss angles_c [bc_left P; bc_right P]) (fun xw =>
  Ok (with_angles P angles_c (fst xw) (snd xw), total_c, scatter_c)).

Definition hk_change (cells groups : nat) (new old : hk_state) : option R :=
  flux_change cells groups (fst new) (fst old).

(** critical1d.py:489-653 hybrid_power_iteration.  [guess] is np.random.rand; [count] is 1 at the
    first test.  Returns (flux_u, keff). *)
Definition hk_power_iteration (P : sn) (leggauss : nat -> vec * vec) (groups angles_c groups_c : nat)
    (xs_total : mat2) (xs_scatter xs_fission : mat3) (edges_g : vec) (idx_u idx_c : nat -> nat)
    (geometry : nat) (guess : mat2) : outcome (mat2 * R) :=
  let '(_, coarse_idx, factor) := indexing edges_g idx_u groups_c idx_c in
  bind (hk_collided_terms P leggauss groups angles_c groups_c xs_total xs_scatter edges_g idx_u idx_c)
    (fun '(PC, total_c, scatter_c) =>
  bind (iterate count_kk
          (hk_step P PC groups groups_c xs_total xs_scatter xs_fission total_c scatter_c coarse_idx factor geometry)
          (hk_change (cells P) groups) change_kk count_kk 1
          (power_start (cells P) groups guess, zeros2))
    (fun st => Ok (fst st))).
