(** Model of the time-dependent drivers: discrete1/timed1d.py, discrete1/hybrid1d.py,
    discrete1/vhybrid1d.py.  Definitions only.  Progress bars are not modelled. *)
From Verif Require Import Base SlabModel SphereModel MgModel HybModel MainModel.
Open Scope R_scope.

(** An array of shape (d4a, rows, d4b, d4c): the [external] and [boundary] arguments. *)
Record arr4 := mkArr4 { d4a : nat; d4b : nat; d4c : nat; at4 : nat -> mat3 }.

(** [a[0 if a.shape[0] == 1 else step]]; an index past the first axis raises IndexError. *)
Definition row4 (a : arr4) (step : nat) : outcome arr3 :=
  let qq := bidx (d4a a) step in
  if Nat.ltb qq (d4a a) then Ok (mkArr3 (d4b a) (d4c a) (at4 a qq)) else Raise IndexError.

(** [external[qq] + b] where [b] has shape (cells, angles, groups): every axis of the external row
    has to be 1 or equal.  (When [angles] or [groups] is 1 numpy would also accept a longer
    external axis; that case is given the same ValueError here.) *)
Definition add_external (angles groups : nat) (external : arr3) (b : mat3) : outcome arr3 :=
  if andb (orb (Nat.eqb (d3b external) 1) (Nat.eqb (d3b external) angles))
          (orb (Nat.eqb (d3c external) 1) (Nat.eqb (d3c external) groups))
  then Ok (mkArr3 angles groups (fun i n g =>
             at3 external i (bidx (d3b external) n) (bidx (d3c external) g) + b i n g))
  else Raise ValueError.

(** [np.sum(psi * angle_w[None, :, None], axis=1)] *)
Definition angle_sum (P : sn) (psi : mat3) : mat2 :=
  fun i g => rsum (angles P) (fun n => psi i n g * wt P n).

(** [xs_total + num / (velocity * dt)] *)
Definition star_total (num : R) (xs_total : mat2) (velocity : vec) (dt : R) : mat2 :=
  fun m g => xs_total m g + num / (velocity g * dt).

(** Loop state of the drivers: starting scalar flux, the last two angular fluxes, the rows of
    [flux_time] written so far. *)
Record tstate := mkT { t_old : mat2; t_psi1 : mat3; t_psi2 : mat3; t_flux : nat -> mat2 }.

Definition set_row (ft : nat -> mat2) (step : nat) (flux : mat2) : nat -> mat2 :=
  fun k => if Nat.eqb k step then flux else ft k.

(** timed1d.py:92-121 and 211-258: source iteration, then the angular solve with the emission of the
    new scalar flux.  [_time_right_side] is compiled for three-dimensional scattering only: numba
    raises TypeError for anything else. *)
Definition timed_solve (P : sn) (groups : nat) (flux_old xs_total_v : mat2)
    (xs_matrix : scatter_data) (q_star boundary : arr3) (geometry : nat) : outcome (mat2 * mat3) :=
  bind (source_iteration P groups flux_old xs_total_v xs_matrix q_star boundary geometry None)
    (fun flux =>
      match xs_matrix with
      | Scatter4 _ _ => Raise TypeError
      | Scatter3 xs =>
          let q := time_right_side (cells P) (angles P) groups (at3 q_star) flux xs (medium P) in
          bind (known_source_angular P groups xs_total_v (mkArr3 (angles P) groups q) boundary
                  geometry 0)
            (fun psi => Ok (flux, psi))
      end).

(** timed1d.py:15-130 backward_euler *)
Definition timed_bdf1_body (P : sn) (groups : nat) (xs_total : mat2) (xs_matrix : scatter_data)
    (velocity : vec) (external boundary : arr4) (dt : R) (geometry step : nat) (st : tstate)
  : outcome tstate :=
  bind (row4 external step) (fun ext =>
  bind (add_external (angles P) groups ext
          (fun i n g => 1 / (velocity g * dt) * t_psi1 st i n g)) (fun q_star =>
  bind (row4 boundary step) (fun bnd =>
  bind (timed_solve P groups (t_old st) (star_total 1 xs_total velocity dt) xs_matrix q_star bnd
          geometry) (fun r =>
  Ok (mkT (fst r) (snd r) (t_psi2 st) (set_row (t_flux st) step (fst r))))))).

Definition timed_backward_euler (P : sn) (materials groups : nat) (flux_last : mat3)
    (xs_total : mat2) (xs_scatter : scatter_data) (xs_fission : fission_data) (velocity : vec)
    (external boundary : arr4) (steps : nat) (dt : R) (geometry : nat) : outcome (nat -> mat2) :=
  bind (for_up_err steps
          (timed_bdf1_body P groups xs_total (transfer_matrix materials groups xs_scatter xs_fission)
             velocity external boundary dt geometry)
          (mkT (angle_sum P flux_last) flux_last (fun _ _ _ => 0) (fun _ => zeros2)))
    (fun st => Ok (t_flux st)).

(** timed1d.py:199-209, hybrid1d.py:548-559: the source of a BDF2 run *)
Definition bdf2_source (velocity : vec) (dt : R) (step : nat) (psi1 psi2 : mat3) : mat3 :=
  fun i n g =>
    if Nat.eqb step 0 then 1 / (velocity g * dt) * psi1 i n g
    else 2 / (velocity g * dt) * psi1 i n g - 1 / (2 * velocity g * dt) * psi2 i n g.

(** timed1d.py:133-266 bdf2.  [xs_total_v] is replaced after step 0, so it is the BDF1 one at step 0
    and the BDF2 one afterwards. *)
Definition timed_bdf2_body (P : sn) (groups : nat) (xs_total : mat2) (xs_matrix : scatter_data)
    (velocity : vec) (external boundary : arr4) (dt : R) (geometry step : nat) (st : tstate)
  : outcome tstate :=
  bind (row4 external step) (fun ext =>
  bind (add_external (angles P) groups ext
          (bdf2_source velocity dt step (t_psi1 st) (t_psi2 st))) (fun q_star =>
  bind (row4 boundary step) (fun bnd =>
  bind (timed_solve P groups (t_old st)
          (star_total (if Nat.eqb step 0 then 1 else 1.5) xs_total velocity dt)
          xs_matrix q_star bnd geometry) (fun r =>
  Ok (mkT (fst r) (snd r) (t_psi1 st) (set_row (t_flux st) step (fst r))))))).

Definition timed_bdf2 (P : sn) (materials groups : nat) (flux_last_1 : mat3)
    (xs_total : mat2) (xs_scatter : scatter_data) (xs_fission : fission_data) (velocity : vec)
    (external boundary : arr4) (steps : nat) (dt : R) (geometry : nat) : outcome (nat -> mat2) :=
  bind (for_up_err steps
          (timed_bdf2_body P groups xs_total (transfer_matrix materials groups xs_scatter xs_fission)
             velocity external boundary dt geometry)
          (mkT (angle_sum P flux_last_1) flux_last_1 (fun _ _ _ => 0) (fun _ => zeros2)))
    (fun st => Ok (t_flux st)).

(** the same spatial problem with other ordinates *)
Definition with_angles (P : sn) (angles_c : nat) (angle_x angle_w : vec) : sn :=
  mkSn (cells P) (medium P) (dx P) angles_c angle_x angle_w (bc_left P) (bc_right P).

(** [np.zeros((2, 1, 1))] *)
Definition boundary_c : arr3 := mkArr3 1 1 (fun _ _ _ => 0).

(** hybrid1d.py:612-673 _hybrid_method; returns the changed [q_star].  [flux_u] and [flux_c] are
    rebound locally, so the caller's [flux_u] is never used again and its [flux_c] stays zero: every
    collided iteration starts from zeros.  [_hybrid_source_collided] is compiled for
    three-dimensional scattering only (TypeError otherwise).  [PC] is the problem with the collided
    ordinates.  In a run [_hybrid_source_total] also gets [xs_scatter_u]. *)
Definition hybrid_method (P PC : sn) (groups groups_c : nat) (xs_total_u xs_total_c : mat2)
    (xs_scatter_u xs_scatter_c : scatter_data) (q_star boundary_u : arr3)
    (coarse_idx : nat -> nat) (factor : vec) (geometry : nat) : outcome arr3 :=
  bind (known_source_scalar P groups xs_total_u q_star boundary_u geometry 0) (fun flux_u =>
    match xs_scatter_u with
    | Scatter4 _ _ => Raise TypeError
    | Scatter3 xs_u =>
        let source_c := hybrid_source_collided (cells P) groups flux_u xs_u zeros2 (medium P)
                          coarse_idx in
        bind (source_iteration PC groups_c zeros2 xs_total_c xs_scatter_c
                (mkArr3 1 groups_c (fun i _ g => source_c i g)) boundary_c geometry None)
          (fun flux_c =>
            Ok (mkArr3 (angles P) groups
                  (snd (hybrid_source_total (cells P) (angles P) groups flux_u flux_c xs_u
                          (at3 q_star) (medium P) coarse_idx factor))))
    end).

(** hybrid1d.py:143-302 backward_euler *)
Definition hybrid_bdf1_body (P PC : sn) (groups groups_c : nat) (xs_total_u xs_total_c : mat2)
    (xs_u xs_c : scatter_data) (velocity_u velocity_c : vec) (external boundary : arr4)
    (coarse_idx : nat -> nat) (factor : vec) (dt : R) (geometry step : nat) (st : tstate)
  : outcome tstate :=
  bind (row4 external step) (fun ext =>
  bind (add_external (angles P) groups ext
          (fun i n g => 1 / (velocity_u g * dt) * t_psi1 st i n g)) (fun q_star =>
  bind (row4 boundary step) (fun bnd =>
  bind (hybrid_method P PC groups groups_c (star_total 1 xs_total_u velocity_u dt)
          (star_total 1 xs_total_c velocity_c dt) xs_u xs_c q_star bnd coarse_idx factor geometry)
    (fun q =>
  bind (known_source_angular P groups (star_total 1 xs_total_u velocity_u dt) q bnd geometry 0)
    (fun psi =>
  Ok (mkT (t_old st) psi (t_psi2 st) (set_row (t_flux st) step (angle_sum P psi)))))))).

Definition hybrid_backward_euler (P PC : sn) (materials groups groups_c : nat) (flux_last : mat3)
    (xs_total_u xs_total_c : mat2) (xs_scatter_u xs_scatter_c : scatter_data)
    (xs_fission_u xs_fission_c : fission_data) (velocity_u velocity_c : vec)
    (external boundary : arr4) (coarse_idx : nat -> nat) (factor : vec) (steps : nat) (dt : R)
    (geometry : nat) : outcome (nat -> mat2) :=
  bind (for_up_err steps
          (hybrid_bdf1_body P PC groups groups_c xs_total_u xs_total_c
             (transfer_matrix materials groups xs_scatter_u xs_fission_u)
             (transfer_matrix materials groups_c xs_scatter_c xs_fission_c)
             velocity_u velocity_c external boundary coarse_idx factor dt geometry)
          (mkT (angle_sum P flux_last) flux_last (fun _ _ _ => 0) (fun _ => zeros2)))
    (fun st => Ok (t_flux st)).

(** hybrid1d.py:431-609 bdf2 *)
Definition hybrid_bdf2_body (P PC : sn) (groups groups_c : nat) (xs_total_u xs_total_c : mat2)
    (xs_u xs_c : scatter_data) (velocity_u velocity_c : vec) (external boundary : arr4)
    (coarse_idx : nat -> nat) (factor : vec) (dt : R) (geometry step : nat) (st : tstate)
  : outcome tstate :=
  let num := if Nat.eqb step 0 then 1 else 1.5 in
  bind (row4 external step) (fun ext =>
  bind (add_external (angles P) groups ext
          (bdf2_source velocity_u dt step (t_psi1 st) (t_psi2 st))) (fun q_star =>
  bind (row4 boundary step) (fun bnd =>
  bind (hybrid_method P PC groups groups_c (star_total num xs_total_u velocity_u dt)
          (star_total num xs_total_c velocity_c dt) xs_u xs_c q_star bnd coarse_idx factor geometry)
    (fun q =>
  bind (known_source_angular P groups (star_total num xs_total_u velocity_u dt) q bnd geometry 0)
    (fun psi =>
  Ok (mkT (t_old st) psi (t_psi1 st) (set_row (t_flux st) step (angle_sum P psi)))))))).

Definition hybrid_bdf2 (P PC : sn) (materials groups groups_c : nat) (flux_last_1 : mat3)
    (xs_total_u xs_total_c : mat2) (xs_scatter_u xs_scatter_c : scatter_data)
    (xs_fission_u xs_fission_c : fission_data) (velocity_u velocity_c : vec)
    (external boundary : arr4) (coarse_idx : nat -> nat) (factor : vec) (steps : nat) (dt : R)
    (geometry : nat) : outcome (nat -> mat2) :=
  bind (for_up_err steps
          (hybrid_bdf2_body P PC groups groups_c xs_total_u xs_total_c
             (transfer_matrix materials groups xs_scatter_u xs_fission_u)
             (transfer_matrix materials groups_c xs_scatter_c xs_fission_c)
             velocity_u velocity_c external boundary coarse_idx factor dt geometry)
          (mkT (angle_sum P flux_last_1) flux_last_1 (fun _ _ _ => 0) (fun _ => zeros2)))
    (fun st => Ok (t_flux st)).

(** hybrid1d.py:17-140 auto_bdf1 and 305-428 auto_bdf2, for three-dimensional scattering and fission
    matrices ([chi] absent).  The two-element [bc_x] is passed on to angular_x. *)
Definition auto_collided (P : sn) (leggauss : nat -> vec * vec) (groups angles_c groups_c : nat)
    (xs_total : mat2) (xs_scatter xs_fission : mat3) (velocity : vec)
    (edges_g : vec) (idx_u idx_c : nat -> nat)
  : outcome (sn * mat2 * mat3 * mat3 * vec * (nat -> nat) * vec) :=
  let '(_, coarse_idx, factor) := indexing edges_g idx_u groups_c idx_c in
  let e g := edges_g (idx_u g) in
  let '(total_c, scatter_c, fission_c, velocity_c) :=
    if Nat.eqb groups_c groups then (xs_total, xs_scatter, xs_fission, velocity)
    else
      match coarsen_materials xs_total (Some xs_scatter) (Some xs_fission) e idx_c with
      | (t, Some s, Some f) => (t, s, f, coarsen_velocity velocity idx_c)
      | (t, _, _) => (t, fun _ _ _ => 0, fun _ _ _ => 0, coarsen_velocity velocity idx_c)
      end in
  bind (if Nat.eqb angles_c (angles P) then Ok (mu P, wt P)
        else angular_x leggauss angles_c [bc_left P; bc_right P]) (fun xw =>
  Ok (with_angles P angles_c (fst xw) (snd xw), total_c, scatter_c, fission_c, velocity_c,
      coarse_idx, factor)).

Definition auto_bdf1 (P : sn) (leggauss : nat -> vec * vec) (materials groups : nat)
    (flux_last : mat3) (xs_total : mat2) (xs_scatter xs_fission : mat3) (velocity : vec)
    (external boundary : arr4) (angles_c groups_c : nat) (edges_g : vec) (idx_u idx_c : nat -> nat)
    (steps : nat) (dt : R) (geometry : nat) : outcome (nat -> mat2) :=
  bind (auto_collided P leggauss groups angles_c groups_c xs_total xs_scatter xs_fission velocity
          edges_g idx_u idx_c)
    (fun '(PC, total_c, scatter_c, fission_c, velocity_c, coarse_idx, factor) =>
  hybrid_backward_euler P PC materials groups groups_c flux_last xs_total total_c
    (Scatter3 xs_scatter) (Scatter3 scatter_c) (FissionMatrix xs_fission) (FissionMatrix fission_c)
    velocity velocity_c external boundary coarse_idx factor steps dt geometry).

Definition auto_bdf2 (P : sn) (leggauss : nat -> vec * vec) (materials groups : nat)
    (flux_last : mat3) (xs_total : mat2) (xs_scatter xs_fission : mat3) (velocity : vec)
    (external boundary : arr4) (angles_c groups_c : nat) (edges_g : vec) (idx_u idx_c : nat -> nat)
    (steps : nat) (dt : R) (geometry : nat) : outcome (nat -> mat2) :=
  bind (auto_collided P leggauss groups angles_c groups_c xs_total xs_scatter xs_fission velocity
          edges_g idx_u idx_c)
    (fun '(PC, total_c, scatter_c, fission_c, velocity_c, coarse_idx, factor) =>
  hybrid_bdf2 P PC materials groups groups_c flux_last xs_total total_c
    (Scatter3 xs_scatter) (Scatter3 scatter_c) (FissionMatrix xs_fission) (FissionMatrix fission_c)
    velocity velocity_c external boundary coarse_idx factor steps dt geometry).

(** An [int] argument, a numpy array with one entry per step ([len] of them), or any other type
    (a list, a numpy integer), for which neither isinstance test succeeds. *)
Inductive per_step :=
| Const (n : nat)
| Each (len : nat) (f : nat -> nat)
| OtherType.

Definition at_step (a : per_step) (step : nat) : outcome nat :=
  match a with
  | Const n => Ok n
  | Each len f => if Nat.ltb step len then Ok (f step) else Raise IndexError
  | OtherType => Raise UnboundLocalError
  end.

(** vhybrid1d.py:279-351 _variable_hybrid_method; returns the changed [q_star].  [delta_fine] is the
    width vector of [edges_g], the whole stock grid returned by energy_grid_change. *)
Definition variable_hybrid_method (P : sn) (leggauss : nat -> vec * vec) (angles_c groups groups_c : nat)
    (xs_total : mat2) (star_u star_c : vec) (xs : mat3) (q_star boundary_u : arr3)
    (coarse_idx : nat -> nat) (factor : vec) (idx_c : nat -> nat) (edges_g : vec) (geometry : nat)
  : outcome arr3 :=
  bind (known_source_scalar P groups (fun m g => xs_total m g + star_u g) q_star boundary_u
          geometry 0) (fun flux_u =>
  let source_c := hybrid_source_collided (cells P) groups flux_u xs zeros2 (medium P) coarse_idx in
  bind (angular_x leggauss angles_c [bc_left P; bc_right P]) (fun xw =>
  let flux_c := coarsen_flux groups_c flux_u zeros2 idx_c in
  bind (variable_source_iteration_iso (with_angles P angles_c (fst xw) (snd xw)) groups_c flux_c
          xs_total star_c xs (mkArr3 1 groups_c (fun i _ g => source_c i g)) boundary_c
          (coarse_diff edges_g idx_c) (ediff edges_g) idx_c geometry) (fun flux_c =>
  Ok (mkArr3 (angles P) groups
        (snd (hybrid_source_total (cells P) (angles P) groups flux_u flux_c xs (at3 q_star)
                (medium P) coarse_idx factor)))))).

(** vhybrid1d.py:11-131 backward_euler.  The grid of step [step] is computed before the loop for an
    int and inside it for an array; energy_grid_change has no state, so both are written here as one
    call per step (an exception of the call before the loop is raised even for zero steps: see
    [vhybrid_precheck]).  Without fission xs_fission is the zero array. *)
Definition vhybrid_precheck (stock : nat -> nat * vec) (table : nat -> nat -> option (nat -> nat))
    (grid groups : nat) (groups_c : per_step) : outcome unit :=
  match groups_c with
  | Const n => bind (energy_grid_change stock table grid groups n) (fun _ => Ok tt)
  | _ => Ok tt
  end.

(** [q_star] of vhybrid1d: l.87 and l.214-223.  [two] is true in bdf2. *)
Definition vhybrid_source (two : bool) (velocity : vec) (dt : R) (step : nat) (psi1 psi2 : mat3)
  : mat3 :=
  fun i n g =>
    if orb (negb two) (Nat.eqb step 0) then 1 / (velocity g * dt) * psi1 i n g
    else 4 / 3 * (1.5 / (velocity g * dt)) * psi1 i n g
         - 1 / 3 * (1.5 / (velocity g * dt)) * psi2 i n g.

(** [star_coef_u], [star_coef_c]: numerator 1, and 1.5 after step 0 of bdf2 *)
Definition vhybrid_num (two : bool) (step : nat) : R :=
  if orb (negb two) (Nat.eqb step 0) then 1 else 1.5.

Definition vhybrid_body (two : bool) (P : sn) (leggauss : nat -> vec * vec)
    (stock : nat -> nat * vec) (table : nat -> nat -> option (nat -> nat)) (grid groups : nat)
    (groups_c angles_c : per_step) (xs_total : mat2) (xs : mat3) (velocity : vec)
    (external boundary : arr4) (dt : R) (geometry step : nat) (st : tstate) : outcome tstate :=
  let num := vhybrid_num two step in
  let star_u g := num / (velocity g * dt) in
  (* groups_c of a type that is neither int nor ndarray: the grid names are unbound when
     _variable_hybrid_method is called, after q_star *)
  bind (match groups_c with
        | OtherType => Ok None
        | _ => bind (at_step groups_c step) (fun gc =>
               bind (energy_grid_change stock table grid groups gc) (fun r => Ok (Some (gc, r))))
        end) (fun grid_c =>
  bind (match angles_c with OtherType => Ok None | _ => bind (at_step angles_c step) (fun a => Ok (Some a)) end)
    (fun angle_c =>
  bind (row4 external step) (fun ext =>
  bind (add_external (angles P) groups ext
          (vhybrid_source two velocity dt step (t_psi1 st) (t_psi2 st))) (fun q_star =>
  match angle_c, grid_c with
  | Some angle_c, Some (gc, (coarse_idx, factor, idx_c, edges_g)) =>
      let star_c c := num / (coarsen_velocity velocity idx_c c * dt) in
      bind (row4 boundary step) (fun bnd =>
      bind (variable_hybrid_method P leggauss angle_c groups gc xs_total star_u star_c xs q_star bnd
              coarse_idx factor idx_c edges_g geometry) (fun q =>
      bind (known_source_angular P groups (fun m g => xs_total m g + star_u g) q bnd geometry 0)
        (fun psi =>
      Ok (mkT (t_old st) psi (if two then t_psi1 st else t_psi2 st)
            (set_row (t_flux st) step (angle_sum P psi))))))
  | _, _ => Raise UnboundLocalError
  end)))).

Definition vhybrid_drive (two : bool) (P : sn) (leggauss : nat -> vec * vec)
    (stock : nat -> nat * vec) (table : nat -> nat -> option (nat -> nat)) (grid groups : nat)
    (groups_c angles_c : per_step) (flux_last : mat3) (xs_total : mat2) (xs_scatter xs_fission : mat3)
    (velocity : vec) (external boundary : arr4) (steps : nat) (dt : R) (geometry : nat)
  : outcome (nat -> mat2) :=
  bind (vhybrid_precheck stock table grid groups groups_c) (fun _ =>
  bind (for_up_err steps
          (vhybrid_body two P leggauss stock table grid groups groups_c angles_c xs_total
             (fun m o i => xs_scatter m o i + xs_fission m o i) velocity external boundary dt geometry)
          (mkT (angle_sum P flux_last) flux_last (fun _ _ _ => 0) (fun _ => zeros2)))
    (fun st => Ok (t_flux st))).

(** vhybrid1d.py:11-131 *)
Definition vhybrid_backward_euler := vhybrid_drive false.
(** vhybrid1d.py:134-276 *)
Definition vhybrid_bdf2 := vhybrid_drive true.

(** The two schemes of each driver under one name, to state properties of both at once. *)
Definition timed_run (two : bool) := if two then timed_bdf2 else timed_backward_euler.
Definition hybrid_run (two : bool) := if two then hybrid_bdf2 else hybrid_backward_euler.
Definition auto_run (two : bool) := if two then auto_bdf2 else auto_bdf1.
Definition vhybrid_run (two : bool) := if two then vhybrid_bdf2 else vhybrid_backward_euler.
