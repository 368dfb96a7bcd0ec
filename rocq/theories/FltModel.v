(** The slab solver of discrete1/spatial_sweep.py, discrete1/tools.py and discrete1/multi_group.py in
    floating-point arithmetic: every operation of the code is followed by the rounding function [rnd].
    The order of the operations is that of the source; numba compiles these kernels without fastmath, so
    nothing is reassociated or contracted.  Not modelled: overflow, infinities and NaN, and the division
    by a computed zero (the theorems exclude it).  Definitions only. *)
From Coq Require Import ZArith.
From Verif Require Import Base SlabModel MgModel HybModel.
From Flocq Require Import Core.
Open Scope R_scope.

Section Rounded.
Variable rnd : R -> R.

Definition fadd (x y : R) : R := rnd (x + y).
Definition fsub (x y : R) : R := rnd (x - y).
Definition fmul (x y : R) : R := rnd (x * y).
Definition fdiv (x y : R) : R := rnd (x / y).

(** spatial_sweep.py:429-434 and 484-489: the edge flux leaving a cell; [angle] is [angle_x] or
    [-angle_x]. *)
Definition flt_edge2 (s f ext off edge1 angle width total : R) : R :=
  fdiv (fadd (fadd (fadd (fmul s f) ext) off)
             (fmul edge1 (fsub (fdiv angle width) (fmul 0.5 total))))
       (fadd (fdiv angle width) (fmul 0.5 total)).

(** spatial_sweep.py:396-442 slab_forward_iso *)
Definition flt_forward_iso (P : sn) (flux flux_old xs_total xs_scatter off_scatter external : vec)
    (edge1 angle_x angle_w : R) (edges : nat) : R * vec :=
  let flux := if Nat.eqb edges 1 then upd flux 0 (fadd (flux 0%nat) (fmul angle_w edge1)) else flux in
  for_up (cells P) (fun ii st =>
    let '(edge1, flux) := st in
    let m := medium P ii in
    let edge2 := flt_edge2 (xs_scatter m) (flux_old ii) (external ii) (off_scatter ii) edge1 angle_x
                   (dx P ii) (xs_total m) in
    let flux :=
      if Nat.eqb edges 1 then upd flux (ii + 1) (fadd (flux (ii + 1)%nat) (fmul angle_w edge2))
      else upd flux ii (fadd (flux ii) (fmul (fmul 0.5 angle_w) (fadd edge1 edge2))) in
    (edge2, flux)) (edge1, flux).

(** spatial_sweep.py:451-498 slab_backward_iso *)
Definition flt_backward_iso (P : sn) (flux flux_old xs_total xs_scatter off_scatter external : vec)
    (edge1 angle_x angle_w : R) (edges : nat) : R * vec :=
  let flux := if Nat.eqb edges 1
              then upd flux (cells P) (fadd (flux (cells P)) (fmul angle_w edge1)) else flux in
  for_down (cells P) (fun ii st =>
    let '(edge1, flux) := st in
    let m := medium P ii in
    let edge2 := flt_edge2 (xs_scatter m) (flux_old ii) (external ii) (off_scatter ii) edge1 (- angle_x)
                   (dx P ii) (xs_total m) in
    let flux :=
      if Nat.eqb edges 1 then upd flux ii (fadd (flux ii) (fmul angle_w edge2))
      else upd flux ii (fadd (flux ii) (fmul (fmul 0.5 angle_w) (fadd edge1 edge2))) in
    (edge2, flux)) (edge1, flux).

(** spatial_sweep.py:318-371, one pass of the while loop of slab_isotropic_sn *)
Definition flt_iso_pass (P : sn) (xs_total xs_scatter off_scatter : vec) (external boundary : arr2)
    (edges : nat) (flux_old : vec) : outcome vec :=
  bind
    (for_up_err (angles P) (fun nn st =>
       let '(flux, reflector) := st in
       let qq := bidx (cols2 external) nn in
       let bc := bidx (cols2 boundary) nn in
       if Rlt_dec 0 (mu P nn) then
         let edge1 := fadd (reflector nn) (at2 boundary 0%nat bc) in
         let '(edge1, flux) :=
           flt_forward_iso P flux flux_old xs_total xs_scatter off_scatter
             (fun i => at2 external i qq) edge1 (mu P nn) (wt P nn) edges in
         Ok (flux, reflector_corrector P reflector edge1 nn)
       else if Rlt_dec (mu P nn) 0 then
         let edge1 := fadd (reflector nn) (at2 boundary 1%nat bc) in
         let '(edge1, flux) :=
           flt_backward_iso P flux flux_old xs_total xs_scatter off_scatter
             (fun i => at2 external i qq) edge1 (mu P nn) (wt P nn) edges in
         Ok (flux, reflector_corrector P reflector edge1 nn)
       else Raise DiscontinuityAt0)
      (zeros, zeros))
    (fun st => Ok (fst st)).

(** [np.linalg.norm((new - old) / new / cells)]: the quotients are rounded one by one; the norm (whose
    order of summation numpy does not specify) is an arbitrary function [norm].  None stands for inf or
    nan, as in Base.rel_change. *)
Definition flt_change (norm : vec -> R) (cells : nat) (new old : vec) : option R :=
  if has_zero cells new then None
  else Some (norm (fun i => if Nat.ltb i cells
                            then fdiv (fdiv (fsub (new i) (old i)) (new i)) (INR cells) else 0)).

(** spatial_sweep.py:268-387 slab_isotropic_sn *)
Definition flt_isotropic_sn (norm : vec -> R) (P : sn) (flux_old xs_total xs_scatter off_scatter : vec)
    (external boundary : arr2) (edges : nat) : outcome vec :=
  iterate count_nn (flt_iso_pass P xs_total xs_scatter off_scatter external boundary edges)
    (flt_change norm (cells P)) change_nn count_nn 1 flux_old.

(** tools.py:145-181 _off_scatter *)
Definition flt_off_scatter (cells groups : nat) (flux flux_old : mat2) (medium : nat -> nat)
    (xs_scatter : mat3) (gg : nat) : vec :=
  for_up cells (fun ii off =>
    let mat := medium ii in
    let off := for_up gg (fun og off =>
                 upd off ii (fadd (off ii) (fmul (xs_scatter mat gg og) (flux ii og)))) off in
    for_up (groups - (gg + 1)) (fun k off =>
      let og := (gg + 1 + k)%nat in
      upd off ii (fadd (off ii) (fmul (xs_scatter mat gg og) (flux_old ii og)))) off) zeros.

(** multi_group.py:136-191 _one_sweep_iso, geometry 1 *)
Definition flt_one_sweep (norm : vec -> R) (P : sn) (groups : nat) (xs_total : mat2) (xs_scatter : mat3)
    (external boundary : arr3) (flux_old : mat2) : outcome mat2 :=
  for_up_err groups (fun gg flux =>
    let qq := bidx (d3c external) gg in
    let bc := bidx (d3c boundary) gg in
    let off := flt_off_scatter (cells P) groups flux flux_old (medium P) xs_scatter gg in
    bind (flt_isotropic_sn norm P (fun i => flux_old i gg) (fun m => xs_total m gg)
            (fun m => xs_scatter m gg gg) off (slice3 external qq) (slice3 boundary bc) 0)
      (fun c => Ok (set_col flux gg c))) zeros2.

(** the group-by-group quotients of [np.linalg.norm((flux - flux_old) / flux / cells_x)] *)
Definition flt_change2 (norm : mat2 -> R) (cells groups : nat) (new old : mat2) : option R :=
  if has_zero2 cells groups new then None
  else Some (norm (fun i g => if andb (Nat.ltb i cells) (Nat.ltb g groups)
                              then fdiv (fdiv (fsub (new i g) (old i g)) (new i g)) (INR cells) else 0)).

(** multi_group.py:269-353 source_iteration_iso, geometry 1 *)
Definition flt_source_iteration (norm : vec -> R) (norm2 : mat2 -> R) (P : sn) (groups : nat)
    (flux_old xs_total : mat2) (xs_scatter : mat3) (external boundary : arr3) : outcome mat2 :=
  iterate count_gg (flt_one_sweep norm P groups xs_total xs_scatter external boundary)
    (flt_change2 norm2 (cells P) groups) change_gg count_gg 1 flux_old.
End Rounded.

(** utils/hybrid.py:14-31 energy_coarse_index in floating point.  [np.linspace(0, coarse - 1, num, dtype=np.int32)]
    computes the step once, multiplies, puts the end point in place exactly and applies [floor]; with one
    point (or none) no step is computed.  [int(fine / coarse)] truncates the rounded quotient.  The sums of
    [index] add small integers and are exact; int32 wrap-around is not modelled. *)
Definition flt_linspace_idx (rnd : R -> R) (coarse num : nat) : list nat :=
  if Nat.eqb num 1 then [0%nat]
  else let step := fdiv rnd (INR (coarse - 1)) (INR (num - 1)) in
       map (fun k => if Nat.eqb k (num - 1) then (coarse - 1)%nat
                     else Z.to_nat (Zfloor (fmul rnd (INR k) step))) (seq 0 num).

Definition flt_coarse_sizes (rnd : R -> R) (fine coarse : nat) : nat -> nat :=
  fun j => (Z.to_nat (Ztrunc (fdiv rnd (INR fine) (INR coarse)))
            + (if existsb (Nat.eqb j) (flt_linspace_idx rnd coarse (fine mod coarse)) then 1 else 0))%nat.

Definition flt_energy_coarse_index (rnd : R -> R) (fine coarse : nat) : outcome (nat -> nat) :=
  if Nat.eqb coarse 0 then Raise ZeroDivisionError
  else if Nat.eqb (nsum coarse (flt_coarse_sizes rnd fine coarse)) fine
       then Ok (fun j => nsum j (flt_coarse_sizes rnd fine coarse))
       else Raise AssertionError.
