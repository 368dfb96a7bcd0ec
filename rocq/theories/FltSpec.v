(** Vocabulary for floating-point arithmetic: rounding functions, independent of the solver. *)
From Coq Require Import ZArith.
From Verif Require Import Base SlabModel SlabSpec.
From Flocq Require Import Core.
Open Scope R_scope.

(** Correct rounding in some fixed format: monotone, zero and representable numbers are kept. *)
Definition correct_rounding (rnd : R -> R) : Prop :=
  (forall x y, x <= y -> rnd x <= rnd y) /\ rnd 0 = 0 /\ (forall x, rnd (rnd x) = rnd x).

(** Every rounding changes a number by at most the fraction [u] of it. *)
Definition relative_rounding (u : R) (rnd : R -> R) : Prop := forall x, Rabs (rnd x - x) <= u * Rabs x.

(** Rounding commutes with the scaling by [s]. *)
Definition scales (s : R) (rnd : R -> R) : Prop := forall x, rnd (s * x) = s * rnd x.

(** IEEE 754 binary64, round to nearest even: with gradual underflow, and with unbounded exponents. *)
Definition binary64 : R -> R := round radix2 (FLT_exp (-1074) 53) ZnearestE.
Definition binary64_unbounded : R -> R := round radix2 (FLX_exp 53) ZnearestE.

(** Data without negative entries: external source, boundary source (as they are used), off-group source. *)
Definition nonneg_data (P : sn) (off : vec) (external boundary : arr2) : Prop :=
  (forall i m, (i < cells P)%nat -> (m < angles P)%nat -> 0 <= at2 external i (bidx (cols2 external) m)) /\
  (forall m, (m < angles P)%nat -> 0 <= boundary_in boundary (mu P) m) /\
  (forall i, (i < cells P)%nat -> 0 <= off i).
(** Entrywise at most. *)
Definition data_le (P : sn) (off off' : vec) (external external' boundary boundary' : arr2) : Prop :=
  cols2 external = cols2 external' /\ cols2 boundary = cols2 boundary' /\
  (forall i m, (i < cells P)%nat -> (m < angles P)%nat ->
     at2 external i (bidx (cols2 external) m) <= at2 external' i (bidx (cols2 external) m)) /\
  (forall m, (m < angles P)%nat -> boundary_in boundary (mu P) m <= boundary_in boundary' (mu P) m) /\
  (forall i, (i < cells P)%nat -> off i <= off' i).

(** The quotient [|mu| / dx] does not round to zero. *)
Definition no_underflow (rnd : R -> R) (P : sn) : Prop :=
  forall m i, (m < angles P)%nat -> (i < cells P)%nat -> 0 < rnd (Rabs (mu P m) / dx P i).

(** All numbers of an array multiplied by [s]. *)
Definition scaled1 (s : R) (f : vec) : vec := fun i => s * f i.
Definition scaled2 (s : R) (a : arr2) : arr2 := mkArr2 (cols2 a) (fun i j => s * at2 a i j).
Definition scaled3 (s : R) (a : arr3) : arr3 := mkArr3 (d3b a) (d3c a) (fun i j k => s * at3 a i j k).

(** How far [p] roundings of relative size [k] can carry a number of size 1. *)
Definition growth (k : R) (p : nat) : R := (1 + k) ^ p - 1.

(** The sources of every cell are at most [sigma_t Q] and the boundary values at most [Q]; a side that
    reflects has no source of its own. *)
Definition sources_below (P : sn) (xs_total xs_scatter off : vec) (external boundary : arr2) (flux_old : vec) (Q : R) : Prop :=
  (forall i m, (i < cells P)%nat -> (m < angles P)%nat ->
     Rabs (xs_scatter (medium P i) * flux_old i) + Rabs (at2 external i (bidx (cols2 external) m)) + Rabs (off i)
     <= xs_total (medium P i) * Q) /\
  (forall m, (m < angles P)%nat -> Rabs (boundary_in boundary (mu P) m) <= Q) /\
  (forall m, (m < angles P)%nat -> leaves_reflective (mu P) (bc_left P) (bc_right P) (angles P - m - 1) = true ->
     boundary_in boundary (mu P) m = 0).
