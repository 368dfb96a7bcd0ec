(** Model of discrete1/utils/manufactured.py, of the manufactured sources of discrete1/external1d.py
    and of the manufactured boundaries of discrete1/boundary1d.py.  Definitions only.
    Arrays of shape (cells, angles) or (cells, angles, 1) are [mat2]; time-dependent arrays of shape
    (times, cells, angles, 1) are [mat3]; the trailing energy axis of length one is dropped. *)
From Coq Require Import ZArith.
From Verif Require Import Base.
Open Scope R_scope.

(** [for n, mu in enumerate(angle_x): flux[:, n] = column mu] on a zero array of shape
    (len(x), len(angle_x)).  Entries outside the array stay zero. *)
Definition fill_columns (cells : nat) (x : vec) (angles : nat) (angle_x : vec) (f : R -> R -> R) : mat2 :=
  for_up angles (fun n flux => set_col flux n (fun i => if Nat.ltb i cells then f (x i) (angle_x n) else 0))
    zeros2.

(** [flux[mask, n] = f] : only the cells whose coordinate satisfies the mask are written. *)
Definition set_col_where (flux : mat2) (n cells : nat) (x : vec) (mask : R -> bool) (f : R -> R) : mat2 :=
  set_col flux n (fun i => if Nat.ltb i cells && mask (x i) then f (x i) else flux i n).
Definition r_lt (a b : R) : bool := if Rlt_dec a b then true else false.
Definition r_le (a b : R) : bool := if Rle_dec a b then true else false.

(** manufactured.py:10-18 solution_ss_01 *)
Definition solution_ss_01 (cells : nat) (x : vec) (angles : nat) (angle_x : vec) : mat2 :=
  fill_columns cells x angles angle_x
    (fun x mu => if r_lt 0 mu then 1 else 1 - exp ((1 - x) / mu)).

(** manufactured.py:21-29 solution_ss_02 *)
Definition solution_ss_02 (cells : nat) (x : vec) (angles : nat) (angle_x : vec) : mat2 :=
  fill_columns cells x angles angle_x
    (fun x mu => if r_lt 0 mu then 0.5 + 0.5 * exp (- x / mu) else 0.5 - 0.5 * exp ((1 - x) / mu)).

(** manufactured.py:32-37 solution_ss_03 *)
Definition solution_ss_03 (cells : nat) (x : vec) (angles : nat) (angle_x : vec) : mat2 :=
  fill_columns cells x angles angle_x (fun x mu => 0.5 + 0.25 * x ^ 2 * exp mu).

(** manufactured.py:40-47 solution_ss_04 *)
Definition solution_ss_04 (cells : nat) (x : vec) (angles : nat) (angle_x : vec) : mat2 :=
  let length_x := 2 in
  for_up angles (fun n flux =>
    let flux := set_col_where flux n cells x (fun y => r_le y 1) (fun y => -2 * y ^ 2 + 2 * length_x * y) in
    set_col_where flux n cells x (fun y => r_lt 1 y) (fun y => 0.25 * y - 0.125 * length_x + 0.5 * length_x ^ 2))
    zeros2.

(** manufactured.py:50-59 solution_ss_05 *)
Definition solution_ss_05 (cells : nat) (x : vec) (angles : nat) (angle_x : vec) : mat2 :=
  let length_x := 2 in
  for_up angles (fun n flux =>
    let mu := angle_x n in
    let flux := set_col_where flux n cells x (fun y => r_le y 1)
                  (fun y => -2 * exp mu * y ^ 2 + 2 * length_x ^ 2 * y) in
    set_col_where flux n cells x (fun y => r_lt 1 y)
      (fun y => length_x * exp mu * y + length_x ^ 2 * (length_x - exp mu)))
    zeros2.

(** The common loop nest of the time-dependent arrays. *)
Definition fill_times (cells : nat) (x : vec) (angles : nat) (angle_x : vec) (times : nat) (edges_t : vec)
    (f : R -> R -> R -> R) : mat3 :=
  for_up times (fun cc flux => fun t =>
    if Nat.eqb t cc then fill_columns cells x angles angle_x (f (edges_t cc)) else flux t)
    (fun _ _ _ => 0).

(** manufactured.py:62-68 solution_td_01 *)
Definition solution_td_01 (cells : nat) (x : vec) (angles : nat) (angle_x : vec) (times : nat) (edges_t : vec) : mat3 :=
  fill_times cells x angles angle_x times edges_t
    (fun tt x mu => (- x) * (x - 2) * sin (x - 0.1 * tt) + 2).

(** manufactured.py:71-77 solution_td_02 *)
Definition solution_td_02 (cells : nat) (x : vec) (angles : nat) (angle_x : vec) (times : nat) (edges_t : vec) : mat3 :=
  fill_times cells x angles angle_x times edges_t
    (fun tt x mu => 1 + sin (x - 0.5 * tt) + cos mu).

(** external1d.py:25-60 manufactured_ss_03 *)
Definition external_ss_03 (cells : nat) (x : vec) (angles : nat) (angle_x : vec) : mat2 :=
  let const1 := 0.5 in let const2 := 0.25 in
  fill_columns cells x angles angle_x (fun x mu =>
    const2 * mu * exp mu * 2 * x + const1 + const2 * x ^ 2 * exp mu
    - 0.9 / 2 * (2 * const1 + const2 * x ^ 2 * (exp 1 - exp (-1)))).

(** external1d.py:63-105 manufactured_ss_04 *)
Definition external_ss_04 (cells : nat) (x : vec) (angles : nat) (angle_x : vec) : mat2 :=
  let length_x := 2 in
  let quasi x mu :=
    let c := 0.3 in
    2 * length_x * mu - 4 * x * mu - 2 * x ^ 2 + 2 * length_x * x - c * (-2 * x ^ 2 + 2 * length_x * x) in
  let scatter x mu :=
    let c := 0.9 in
    let const := -0.125 * length_x + 0.5 * length_x ^ 2 in
    0.25 * (mu + x) + const - c * (0.25 * x + const) in
  for_up angles (fun n external =>
    let mu := angle_x n in
    let external := set_col_where external n cells x (fun y => r_lt y (0.5 * length_x)) (fun y => quasi y mu) in
    set_col_where external n cells x (fun y => r_lt (0.5 * length_x) y) (fun y => scatter y mu))
    zeros2.

(** external1d.py:108-158 manufactured_ss_05 *)
Definition external_ss_05 (cells : nat) (x : vec) (angles : nat) (angle_x : vec) : mat2 :=
  let length_x := 2 in
  let quasi x mu :=
    let c := 0.3 in
    mu * (2 * length_x ^ 2 - 4 * exp mu * x) - 2 * exp mu * x ^ 2 + 2 * length_x ^ 2 * x
    - c / 2 * (-2 * x ^ 2 * (exp 1 - exp (-1)) + 4 * length_x ^ 2 * x) in
  let scatter x mu :=
    let c := 0.9 in
    let const := length_x ^ 3 - length_x ^ 2 * exp mu in
    length_x * mu * exp mu + length_x * x * exp mu + const
    - c / 2 * (2 * length_x ^ 3 + (exp 1 - exp (-1)) * (x * length_x - length_x ^ 2)) in
  for_up angles (fun n external =>
    let mu := angle_x n in
    let external := set_col_where external n cells x (fun y => r_lt y (0.5 * length_x)) (fun y => quasi y mu) in
    set_col_where external n cells x (fun y => r_lt (0.5 * length_x) y) (fun y => scatter y mu))
    zeros2.

(** external1d.py:161-186 manufactured_td_01 *)
Definition external_td_01 (cells : nat) (x : vec) (angles : nat) (angle_x : vec) (times : nat) (edges_t : vec) : mat3 :=
  fill_times cells x angles angle_x times edges_t (fun tt x mu =>
    2 + x * (-0.2 - x * (-0.1 + mu) + 2 * mu) * cos (0.1 * tt - x)
    + ((-2 + x) * x + 2 * (x - 1) * mu) * sin (0.1 * tt - x)).

(** external1d.py:189-215 manufactured_td_02 *)
Definition external_td_02 (cells : nat) (x : vec) (angles : nat) (angle_x : vec) (times : nat) (edges_t : vec) : mat3 :=
  fill_times cells x angles angle_x times edges_t (fun tt x mu =>
    1 + (mu - 0.5) * cos (0.5 * tt - x) + cos mu - sin (0.5 * tt - x)).

(** boundary1d.py:23-43 manufactured_ss_03: shape (2, angles, 1) *)
Definition boundary_ss_03 (angles : nat) (angle_x : vec) : mat2 := fun side n =>
  if Nat.ltb n angles then
    if Nat.eqb side 0 then 0.5 else if Nat.eqb side 1 then 0.5 + 0.25 * exp (angle_x n) else 0
  else 0.

(** boundary1d.py:46-60 manufactured_ss_04 and 63-77 manufactured_ss_05: shape (2, 1, 1) *)
Definition boundary_ss_04 : vec :=
  let length_x := 2 in upd zeros 1 (0.5 * length_x ^ 2 + 0.125 * length_x).
Definition boundary_ss_05 : vec :=
  let length_x := 2 in upd zeros 1 (length_x ^ 3).

(** boundary1d.py:80-107 manufactured_td_02: shape (times, 2, angles, 1) *)
Definition boundary_td_02 (angles : nat) (angle_x : vec) (times : nat) (edges_t : vec) : mat3 :=
  let length_x := PI in
  for_up times (fun cc b => for_up angles (fun nn b => fun t side n =>
      if Nat.eqb t cc && Nat.eqb n nn then
        if Nat.eqb side 0 then 1 + sin (0 - 0.5 * edges_t cc) + cos (angle_x nn)
        else if Nat.eqb side 1 then 1 + sin (length_x - 0.5 * edges_t cc) + cos (angle_x nn)
        else b t side n
      else b t side n) b)
    (fun _ _ _ => 0).

(** manufactured.py:83-106 spatial_error.  [ds] is the shape of [approx] and [dr] that of
    [reference]; [diff k] is the k-th entry of [approx - reference] in any order.  Power of zero with a
    negative exponent raises; an unsupported [ndims] leaves [normalized] unbound; ndims = 2 needs a
    second axis. *)
Fixpoint size_of (shape : list nat) : nat :=
  match shape with [] => 1%nat | d :: rest => (d * size_of rest)%nat end.
Definition eqb_shape (a b : list nat) : bool := if list_eq_dec Nat.eq_dec a b then true else false.
Definition root_inverse (n : nat) : outcome R :=
  if Nat.eqb n 0 then Raise ZeroDivisionError else Ok (/ sqrt (INR n)).
Definition spatial_error (ds dr : list nat) (approx reference : vec) (ndims : Z) : outcome R :=
  if negb (eqb_shape ds dr) then Raise AssertionError
  else
    bind (if Z.eqb ndims 1 then match ds with d :: _ => root_inverse d | _ => Raise IndexError end
          else if Z.eqb ndims 2 then match ds with d :: e :: _ => root_inverse (d * e) | _ => Raise IndexError end
          else Raise UnboundLocalError)
      (fun normalized => Ok (normalized * sqrt (rsum (size_of ds) (fun k => Rsqr (approx k - reference k))))).

(** manufactured.py:108-131 order_accuracy.  [ln] and the divisions are those of the reals; zero or
    negative errors and a ratio of one (inf or nan in numpy) are outside the model. *)
Definition order_accuracy (error1 error2 ratio : R) : R := ln (error1 / error2) / ln ratio.

(** manufactured.py:134-165 wynn_epsilon.  [lst[ii - 1]] raises when the list is too short; a
    negative array dimension raises ValueError. *)
Definition wynn_cell (error : mat2) (ii jj : nat) : R :=
  let d := error (ii - 1)%nat (jj - 2)%nat - error (ii - 2)%nat (jj - 2)%nat in
  if Req_EM_T d 0 then error (ii - 2)%nat (jj - 3)%nat
  else error (ii - 2)%nat (jj - 3)%nat + 1 / d.
Definition set_cell (e : mat2) (r c : nat) (v : R) : mat2 :=
  fun i j => if Nat.eqb i r && Nat.eqb j c then v else e i j.
Definition wynn_table (N : nat) (lst : list R) : mat2 :=
  let first := for_up N (fun k e => set_cell e (k + 1) 1 (nth k lst 0)) zeros2 in
  for_up (N - 1) (fun a e =>
    let ii := (a + 3)%nat in
    for_up (ii - 2) (fun b e => let jj := (b + 3)%nat in
      set_cell e (ii - 1) (jj - 1) (wynn_cell e ii jj)) e) first.
Definition wynn_epsilon (lst : list R) (rank : Z) : outcome R :=
  let N1 := (2 * rank + 2)%Z in
  if Z.ltb N1 0 then Raise ValueError
  else
    let N := (Z.to_nat N1 - 1)%nat in
    if Nat.ltb (length lst) N then Raise IndexError
    else if Z.eqb N1 0 then Raise IndexError
    else Ok (Rabs (wynn_table N lst N N)).
