(** Model of the infinite-medium drivers for scattering data of either rank:
    multi_group_0d.py source_iteration and critical0d.py power_iteration. *)
From Verif Require Import Base SlabModel MgModel CritModel.
Open Scope R_scope.

(** [xs_scatter] of rank 2, or of rank 3 with the Legendre moment last *)
Inductive scatter_0d :=
| Scatter0Iso (xs : mat2)
| Scatter0Aniso (nm : nat) (xs : mat3).

(** multi_group_0d.py:25-83 source_iteration.  [given] holds the optional [P] and [P_weights]; when P is None
    both are rebuilt from the ordinates. *)
Definition source_iteration_any_0d (angles groups : nat) (angle_x wt xs_total : vec) (xs_scatter : scatter_0d)
    (ext_rows : nat) (external : arr2) (given : option (mat2 * mat2)) (flux_old : vec) : outcome vec :=
  match xs_scatter with
  | Scatter0Iso xs => source_iteration_0d angles groups wt xs_total xs ext_rows external flux_old
  | Scatter0Aniso nm xs =>
      match given with
      | Some (leg, legw) => source_iteration_aniso_0d angles groups nm wt leg legw xs_total xs ext_rows external flux_old
      | None => bind (legendre_polynomials nm angle_x) (fun leg =>
          source_iteration_aniso_0d angles groups nm wt leg (fun l n => wt n * leg l n) xs_total xs ext_rows external flux_old)
      end
  end.

(** critical0d.py:46-77, one pass of the loop body of power_iteration *)
Definition critical_step_0d (angles groups : nat) (angle_x wt xs_total : vec) (xs_scatter : scatter_0d)
    (fission : fission_0d) (st : vec * R) : outcome (vec * R) :=
  let '(flux_old, keff) := st in
  let source := fission_source_0d groups fission flux_old keff in
  bind (source_iteration_any_0d angles groups angle_x wt xs_total xs_scatter 1 (mkArr2 groups (fun _ g => source g)) None flux_old) (fun flux =>
    let keff := update_keff_0d groups fission flux flux_old keff in
    let n := norm1 groups flux in
    Ok (fun g => flux g / n, keff)).
(** critical0d.py:17-80 power_iteration; [angle_x] and [wt] are what angular_x returns and [guess] is the random
    start.  The test precedes [count += 1]: up to 101 passes. *)
Definition critical_0d (angles groups : nat) (angle_x wt xs_total : vec) (xs_scatter : scatter_0d)
    (fission : fission_0d) (guess : vec) : outcome (vec * R) :=
  iterate (count_kk + 1) (critical_step_0d angles groups angle_x wt xs_total xs_scatter fission)
    (fun new old => vec_change groups (fst new) (fst old)) change_kk count_kk 0
    (fun g => guess g / Rabs (norm1 groups guess), norm1 groups guess).
