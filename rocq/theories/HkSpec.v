(** Specification vocabulary of the hybrid k-eigenvalue driver. *)
From Verif Require Import Base SlabModel MgModel CritSpec.
Open Scope R_scope.

(** Isotropic fission source of the flux [phi] divided by [k] (the same for every ordinate). *)
Definition hk_source (P : sn) (groups : nat) (xs_fission : mat3) (phi : mat2) (k : R) : arr3 :=
  mkArr3 1 groups (fun i _ g => emission groups (FissionMatrix xs_fission) (medium P) phi i g / k).
