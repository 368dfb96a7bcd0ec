(** Model of the fixed-source drivers discrete1/fixed1d.py.  Definitions only. *)
From Verif Require Import Base SlabModel SphereModel MgModel DmdModel.
Open Scope R_scope.

(** The argument [angular]: the object False, the object True, or anything else ([0], numpy.bool_, ...).
    The code tests [angular is False]. *)
Inductive py_flag := FlagFalse | FlagTrue | FlagOther.
Definition is_false (a : py_flag) : bool := match a with FlagFalse => true | _ => false end.

(** A two-dimensional (scalar flux) or three-dimensional (angular flux) result. *)
Inductive fixed_output := ScalarOut (phi : mat2) | AngularOut (psi : mat3).

(** fixed1d.py:225-315 known_source_calculation.  [_source_total] is compiled for three-dimensional
    scattering only (tools.py:312-315): numba raises TypeError for four-dimensional data. *)
Definition known_source_calculation (P : sn) (groups : nat) (flux xs_total : mat2) (xs_scatter : scatter_data)
    (external boundary : arr3) (geometry : nat) (angular : py_flag) (edges : nat) : outcome fixed_output :=
  match xs_scatter with
  | Scatter4 _ _ => Raise TypeError
  | Scatter3 xs =>
      let source := mkArr3 (angles P) groups
        (source_total (cells P) (angles P) groups (fun _ _ _ => 0) flux xs (medium P) external) in
      if andb (is_false angular) (Nat.eqb edges 1)
      then bind (known_source_scalar P groups xs_total source boundary geometry edges) (fun phi => Ok (ScalarOut phi))
      else bind (known_source_angular P groups xs_total source boundary geometry edges) (fun psi => Ok (AngularOut psi))
  end.

(** fixed1d.py:94-113 and 203-222: what follows the iteration *)
Definition fixed_output_of (P : sn) (groups : nat) (xs_total : mat2) (xs_matrix : scatter_data)
    (external boundary : arr3) (geometry : nat) (angular : py_flag) (edges : nat) (flux : mat2) : outcome fixed_output :=
  if andb (is_false angular) (Nat.eqb edges 0) then Ok (ScalarOut flux)
  else known_source_calculation P groups flux xs_total xs_matrix external boundary geometry angular edges.

(** fixed1d.py:14-113 source_iteration *)
Definition fixed_source_iteration (P : sn) (materials groups : nat) (xs_total : mat2) (xs_scatter : scatter_data)
    (xs_fission : fission_data) (external boundary : arr3) (geometry : nat) (angular : py_flag) (edges : nat)
  : outcome fixed_output :=
  let xs_matrix := transfer_matrix materials groups xs_scatter xs_fission in
  bind (source_iteration P groups zeros2 xs_total xs_matrix external boundary geometry None)
    (fixed_output_of P groups xs_total xs_matrix external boundary geometry angular edges).

(** fixed1d.py:116-222 dynamic_mode_decomp *)
Definition fixed_dynamic_mode_decomp (svd : nat -> nat -> mat2 -> mat2 * vec * mat2) (P : sn) (materials groups : nat)
    (xs_total : mat2) (xs_scatter : scatter_data) (xs_fission : fission_data) (external boundary : arr3)
    (geometry : nat) (angular : py_flag) (edges warm K : nat) : outcome fixed_output :=
  let xs_matrix := transfer_matrix materials groups xs_scatter xs_fission in
  bind (dynamic_mode_decomp svd P groups zeros2 xs_total xs_matrix external boundary geometry warm K None)
    (fixed_output_of P groups xs_total xs_matrix external boundary geometry angular edges).
