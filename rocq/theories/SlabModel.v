(** Model of the slab-geometry sweeps of discrete1/spatial_sweep.py and of
    tools.reflector_corrector.  Definitions only. *)
From Verif Require Import Base.
Open Scope R_scope.

(** spatial_sweep.py:24-25  [count_nn = 100], [change_nn = 1e-12] *)
Definition count_nn : nat := 100.
Definition change_nn : R := / 10 ^ 12.

(** Geometry and quadrature arguments shared by the sweep drivers:
    [medium_map], [delta_x] (length cells), [angle_x], [angle_w] (length angles)
    and the two flags [bc_x].  Grouping only; spatial_sweep.py:268-281. *)
Record sn := mkSn {
  cells : nat;
  medium : nat -> nat;
  dx : vec;
  angles : nat;
  mu : vec;
  wt : vec;
  bc_left : nat;
  bc_right : nat
}.

(** tools.py:278-309 reflector_corrector.  Simplification: none. *)
Definition reflector_corrector (P : sn) (reflector : vec) (edge : R) (nn : nat) : vec :=
  let reflected_idx := (angles P - nn - 1)%nat in
  let toward_right := if Rlt_dec 0 (mu P nn) then Nat.eqb (bc_right P) 1 else false in
  let toward_left := if Rlt_dec (mu P nn) 0 then Nat.eqb (bc_left P) 1 else false in
  if orb toward_right toward_left then upd reflector reflected_idx edge else reflector.

(** spatial_sweep.py:396-442 slab_forward_iso.  [flux] is updated in place in the
    code; here the pair (outgoing edge flux, new flux) is returned. *)
Definition slab_forward_iso (P : sn) (flux flux_old xs_total xs_scatter off_scatter
    external : vec) (edge1 angle_x angle_w : R) (edges : nat) : R * vec :=
  let flux := if Nat.eqb edges 1 then upd flux 0 (flux 0%nat + angle_w * edge1) else flux in
  for_up (cells P) (fun ii st =>
    let '(edge1, flux) := st in
    let m := medium P ii in
    let edge2 :=
      (xs_scatter m * flux_old ii + external ii + off_scatter ii
       + edge1 * (angle_x / dx P ii - 0.5 * xs_total m))
      / (angle_x / dx P ii + 0.5 * xs_total m) in
    let flux :=
      if Nat.eqb edges 1 then upd flux (ii + 1) (flux (ii + 1)%nat + angle_w * edge2)
      else upd flux ii (flux ii + 0.5 * angle_w * (edge1 + edge2)) in
    (edge2, flux)) (edge1, flux).

(** spatial_sweep.py:451-498 slab_backward_iso. *)
Definition slab_backward_iso (P : sn) (flux flux_old xs_total xs_scatter off_scatter
    external : vec) (edge1 angle_x angle_w : R) (edges : nat) : R * vec :=
  let flux := if Nat.eqb edges 1
              then upd flux (cells P) (flux (cells P) + angle_w * edge1) else flux in
  for_down (cells P) (fun ii st =>
    let '(edge1, flux) := st in
    let m := medium P ii in
    let edge2 :=
      (xs_scatter m * flux_old ii + external ii + off_scatter ii
       + edge1 * (- angle_x / dx P ii - 0.5 * xs_total m))
      / (- angle_x / dx P ii + 0.5 * xs_total m) in
    let flux :=
      if Nat.eqb edges 1 then upd flux ii (flux ii + angle_w * edge2)
      else upd flux ii (flux ii + 0.5 * angle_w * (edge1 + edge2)) in
    (edge2, flux)) (edge1, flux).

(** spatial_sweep.py:318-371, the body of the while loop of slab_isotropic_sn:
    zero the flux and the reflector, sweep every ordinate.  State of the
    ordinate loop: (flux, reflector). *)
Definition slab_iso_pass (P : sn) (xs_total xs_scatter off_scatter : vec)
    (external boundary : arr2) (edges : nat) (flux_old : vec) : outcome vec :=
  bind
    (for_up_err (angles P) (fun nn st =>
       let '(flux, reflector) := st in
       let qq := bidx (cols2 external) nn in
       let bc := bidx (cols2 boundary) nn in
       if Rlt_dec 0 (mu P nn) then
         let edge1 := reflector nn + at2 boundary 0%nat bc in
         let '(edge1, flux) :=
           slab_forward_iso P flux flux_old xs_total xs_scatter off_scatter
             (fun i => at2 external i qq) edge1 (mu P nn) (wt P nn) edges in
         Ok (flux, reflector_corrector P reflector edge1 nn)
       else if Rlt_dec (mu P nn) 0 then
         let edge1 := reflector nn + at2 boundary 1%nat bc in
         let '(edge1, flux) :=
           slab_backward_iso P flux flux_old xs_total xs_scatter off_scatter
             (fun i => at2 external i qq) edge1 (mu P nn) (wt P nn) edges in
         Ok (flux, reflector_corrector P reflector edge1 nn)
       else Raise DiscontinuityAt0)
      (zeros, zeros))
    (fun st => Ok (fst st)).

(** spatial_sweep.py:268-387 slab_isotropic_sn.  The [except RuntimeWarning] branch
    (l.376-379) is unreachable unless the caller turns numpy warnings into
    errors and is not modelled. *)
Definition slab_isotropic_sn (P : sn) (flux_old xs_total xs_scatter off_scatter : vec)
    (external boundary : arr2) (edges : nat) : outcome vec :=
  iterate count_nn (slab_iso_pass P xs_total xs_scatter off_scatter external boundary edges)
    (rel_change (cells P)) change_nn count_nn 1 flux_old.

(** spatial_sweep.py:646-696 slab_forward_aniso; returns (edge, flux, psi).
    [psi] is [np.empty]: entries are defined only for cells. *)
Definition slab_forward_aniso (P : sn) (flux xs_total anisotropic off_scatter
    external : vec) (edge1 angle_x angle_w : R) (edges : nat) : R * vec * vec :=
  let flux := if Nat.eqb edges 1 then upd flux 0 (flux 0%nat + angle_w * edge1) else flux in
  for_up (cells P) (fun ii st =>
    let '(edge1, flux, psi) := st in
    let m := medium P ii in
    let edge2 :=
      (anisotropic ii + external ii + off_scatter ii
       + edge1 * (angle_x / dx P ii - 0.5 * xs_total m))
      / (angle_x / dx P ii + 0.5 * xs_total m) in
    let psi := upd psi ii (0.5 * (edge1 + edge2)) in
    let flux :=
      if Nat.eqb edges 1 then upd flux (ii + 1) (flux (ii + 1)%nat + angle_w * edge2)
      else upd flux ii (flux ii + 0.5 * angle_w * (edge1 + edge2)) in
    (edge2, flux, psi)) (edge1, flux, zeros).

(** spatial_sweep.py:705-751 slab_backward_aniso. *)
Definition slab_backward_aniso (P : sn) (flux xs_total anisotropic off_scatter
    external : vec) (edge1 angle_x angle_w : R) (edges : nat) : R * vec * vec :=
  let flux := if Nat.eqb edges 1
              then upd flux (cells P) (flux (cells P) + angle_w * edge1) else flux in
  for_down (cells P) (fun ii st =>
    let '(edge1, flux, psi) := st in
    let m := medium P ii in
    let edge2 :=
      (anisotropic ii + external ii + off_scatter ii
       + edge1 * (- angle_x / dx P ii - 0.5 * xs_total m))
      / (- angle_x / dx P ii + 0.5 * xs_total m) in
    let psi := upd psi ii (0.5 * (edge1 + edge2)) in
    let flux :=
      if Nat.eqb edges 1 then upd flux ii (flux ii + angle_w * edge2)
      else upd flux ii (flux ii + 0.5 * angle_w * (edge1 + edge2)) in
    (edge2, flux, psi)) (edge1, flux, zeros).

(** spatial_sweep.py:583  [np.einsum("xl,xl,ln->xn", xs_scatter_w, flux_moments, P)] *)
Definition aniso_source (n_moments : nat) (xs_scatter_w flux_moments leg : mat2) : mat2 :=
  fun x n => rsum n_moments (fun l => xs_scatter_w x l * flux_moments x l * leg l n).

(** spatial_sweep.py:578-627, body of the while loop of slab_anisotropic_sn.
    State: (flux, flux_moments); [leg] is P, [legw] is P_weights. *)
Definition slab_aniso_pass (P : sn) (n_moments : nat) (xs_total : vec) (xs_scatter_w : mat2)
    (off_scatter : vec) (external boundary : arr2) (edges : nat) (leg legw : mat2)
    (old : vec * mat2) : outcome (vec * mat2) :=
  let anisotropic := aniso_source n_moments xs_scatter_w (snd old) leg in
  bind
    (for_up_err (angles P) (fun nn st =>
       let '(flux, moments, reflector) := st in
       let qq := bidx (cols2 external) nn in
       let bc := bidx (cols2 boundary) nn in
       if Rlt_dec 0 (mu P nn) then
         let edge1 := reflector nn + at2 boundary 0%nat bc in
         let '(edge1, flux, psi) :=
           slab_forward_aniso P flux xs_total (fun i => anisotropic i nn) off_scatter
             (fun i => at2 external i qq) edge1 (mu P nn) (wt P nn) edges in
         Ok (flux, (fun x l => moments x l + psi x * legw l nn),
             reflector_corrector P reflector edge1 nn)
       else if Rlt_dec (mu P nn) 0 then
         let edge1 := reflector nn + at2 boundary 1%nat bc in
         let '(edge1, flux, psi) :=
           slab_backward_aniso P flux xs_total (fun i => anisotropic i nn) off_scatter
             (fun i => at2 external i qq) edge1 (mu P nn) (wt P nn) edges in
         Ok (flux, (fun x l => moments x l + psi x * legw l nn),
             reflector_corrector P reflector edge1 nn)
       else Raise DiscontinuityAt0)
      (zeros, zeros2, zeros))
    (fun st => Ok (fst st)).

(** spatial_sweep.py:506-637 slab_anisotropic_sn.  The argument [xs_self_scatter] only
    provides the number of moments in the code. *)
Definition slab_anisotropic_sn (P : sn) (flux_old : vec) (n_moments : nat) (xs_total : vec)
    (xs_scatter_w : mat2) (off_scatter : vec) (external boundary : arr2) (edges : nat)
    (leg legw : mat2) : outcome vec :=
  bind
    (iterate count_nn
       (slab_aniso_pass P n_moments xs_total xs_scatter_w off_scatter external boundary
          edges leg legw)
       (fun new old => rel_change (cells P) (fst new) (fst old)) change_nn count_nn 1
       (flux_old, fun x l => if Nat.eqb l 0 then flux_old x else 0))
    (fun st => Ok (fst st)).

(** spatial_sweep.py:1433-1554 slab_known_source_sn.  [flux] has shape (_, xdim); the
    driver's [zero] array is the literal zero vector.  Nothing is raised for a
    zero ordinate: [edge1] then keeps the value of the previous ordinate and is
    still handed to reflector_corrector.  State: (flux, reflector, edge1).
    [xdim = 0] cannot occur. *)
Definition slab_known_source_sn (P : sn) (flux : mat2) (xdim : nat) (xs_total : vec)
    (source boundary : arr2) (edges : nat) : mat2 :=
  let '(flux, _, _) :=
    for_up (angles P) (fun nn st =>
      let '(flux, reflector, edge1) := st in
      let qq := bidx (cols2 source) nn in
      let bc := bidx (cols2 boundary) nn in
      let col := if Nat.eqb xdim 1 then 0%nat else nn in
      let w := if Nat.eqb xdim 1 then wt P nn else 1 in
      let '(edge1, flux) :=
        if Rlt_dec 0 (mu P nn) then
          let '(e, c) :=
            slab_forward_iso P (fun i => flux i col) zeros xs_total zeros zeros
              (fun i => at2 source i qq) (reflector nn + at2 boundary 0%nat bc)
              (mu P nn) w edges in
          (e, set_col flux col c)
        else if Rlt_dec (mu P nn) 0 then
          let '(e, c) :=
            slab_backward_iso P (fun i => flux i col) zeros xs_total zeros zeros
              (fun i => at2 source i qq) (reflector nn + at2 boundary 1%nat bc)
              (mu P nn) w edges in
          (e, set_col flux col c)
        else (edge1, flux) in
      (flux, reflector_corrector P reflector edge1 nn, edge1))
      (flux, zeros, 0) in
  flux.

(** spatial_sweep.py:1828-1887 slab_forward_scatter. *)
Definition slab_forward_scatter (P : sn) (flux xs_total scatter_source external : vec)
    (edge1 angle_x angle_w : R) : R * vec :=
  for_up (cells P) (fun ii st =>
    let '(edge1, flux) := st in
    let m := medium P ii in
    let edge2 :=
      (scatter_source ii + external ii + edge1 * (angle_x / dx P ii - 0.5 * xs_total m))
      / (angle_x / dx P ii + 0.5 * xs_total m) in
    (edge2, upd flux ii (flux ii + 0.5 * angle_w * (edge1 + edge2)))) (edge1, flux).

(** spatial_sweep.py:1895-1956 slab_backward_scatter. *)
Definition slab_backward_scatter (P : sn) (flux xs_total scatter_source external : vec)
    (edge1 angle_x angle_w : R) : R * vec :=
  for_down (cells P) (fun ii st =>
    let '(edge1, flux) := st in
    let m := medium P ii in
    let edge2 :=
      (scatter_source ii + external ii + edge1 * (- angle_x / dx P ii - 0.5 * xs_total m))
      / (- angle_x / dx P ii + 0.5 * xs_total m) in
    (edge2, upd flux ii (flux ii + 0.5 * angle_w * (edge1 + edge2)))) (edge1, flux).

(** spatial_sweep.py:1732-1820 slab_scatter_source_sn.  Note that line 1786 chooses the
    boundary column from [external.shape[1]]; when that column does not exist
    in [boundary] numpy raises IndexError. *)
Definition slab_scatter_source_sn (P : sn) (xs_total scatter_source : vec)
    (external boundary : arr2) : outcome vec :=
  bind
    (for_up_err (angles P) (fun nn st =>
       let '(flux, reflector) := st in
       let qq := bidx (cols2 external) nn in
       let bc := bidx (cols2 external) nn in
       if Rlt_dec 0 (mu P nn) then
         if Nat.ltb bc (cols2 boundary) then
           let edge1 := reflector nn + at2 boundary 0%nat bc in
           let '(edge1, flux) :=
             slab_forward_scatter P flux xs_total scatter_source
               (fun i => at2 external i qq) edge1 (mu P nn) (wt P nn) in
           Ok (flux, reflector_corrector P reflector edge1 nn)
         else Raise IndexError
       else if Rlt_dec (mu P nn) 0 then
         if Nat.ltb bc (cols2 boundary) then
           let edge1 := reflector nn + at2 boundary 1%nat bc in
           let '(edge1, flux) :=
             slab_backward_scatter P flux xs_total scatter_source
               (fun i => at2 external i qq) edge1 (mu P nn) (wt P nn) in
           Ok (flux, reflector_corrector P reflector edge1 nn)
         else Raise IndexError
       else Raise DiscontinuityAt0)
      (zeros, zeros))
    (fun st => Ok (fst st)).
