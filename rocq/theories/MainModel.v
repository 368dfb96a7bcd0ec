(** Model of discrete1/main.py (quadrature, energy grids, speeds, time grids, material maps).
    Definitions only. *)
From Coq Require Import String Ascii.
From Verif Require Import Base SlabModel MgModel HybModel.
Open Scope R_scope.

(** [a.argsort()] of the first [n] entries; numpy leaves the order of equal keys open, here they
    stay in place. *)
Fixpoint insert_by (key : vec) (k : nat) (l : list nat) : list nat :=
  match l with
  | [] => [k]
  | j :: t => if Rle_dec (key j) (key k) then j :: insert_by key k t else k :: l
  end.
Definition argsort (n : nat) (key : vec) : list nat := for_up n (insert_by key) [].

(** [a[idx]] *)
Definition take (a : vec) (idx : list nat) : vec := fun i => a (nth i idx 0%nat).

(** main.py:29-64 angular_x.  [leggauss n] is np.polynomial.legendre.leggauss (n ordinates, n
    weights; it raises ValueError for [n = 0]).  [bc_x] is a list of nonnegative ints; [idx] is
    unbound when it is neither [1, 0] nor [0, 1]. *)
Definition angular_x (leggauss : nat -> vec * vec) (n : nat) (bc_x : list nat) : outcome (vec * vec) :=
  if Nat.eqb n 0 then Raise ValueError else
  let x := fst (leggauss n) in
  let w := fun i => snd (leggauss n) i / rsum n (snd (leggauss n)) in
  if Nat.ltb 0 (list_sum bc_x) then
    match bc_x with
    | [1%nat; 0%nat] => let idx := argsort n x in Ok (take x idx, take w idx)
    | [0%nat; 1%nat] => let idx := rev (argsort n x) in Ok (take x idx, take w idx)
    | _ => Raise UnboundLocalError
    end
  else Ok (x, w).

(** main.py:67-141 energy_grid.  [stock grid] is (number of groups, edges) of the packaged grid,
    [table grid groups] the packaged index table, None standing for KeyError.  Returns
    (edges_g, edges_gidx_fine, optional edges_gidx_coarse). *)
Definition known_grid (grid : nat) : bool :=
  orb (Nat.eqb grid 87) (orb (Nat.eqb grid 361) (Nat.eqb grid 618)).

Definition grid_index (table : option (nat -> nat)) (optimize : bool) (fine coarse : nat)
  : outcome (nat -> nat) :=
  match table, optimize with
  | Some idx, true => Ok idx
  | _, _ => energy_coarse_index fine coarse
  end.

Definition energy_grid (stock : nat -> nat * vec) (table : nat -> nat -> option (nat -> nat))
    (grid groups_fine : nat) (groups_coarse : option nat) (optimize : bool)
  : outcome (vec * (nat -> nat) * option (nat -> nat)) :=
  if known_grid grid then
    let '(n, edges_g) := stock grid in
    bind (grid_index (table grid groups_fine) optimize n groups_fine) (fun fine =>
      match groups_coarse with
      | None => Ok (edges_g, fine, None)
      | Some c =>
          bind (grid_index (table grid c) optimize groups_fine c) (fun coarse =>
            Ok (edges_g, fine, Some coarse))
      end)
  else Raise UnboundLocalError.

(** utils/hybrid.py:381-423 energy_grid_change: (coarse_idx, factor, edges_gidx_c, edges_g).  The
    returned edges are those of the whole stock grid. *)
Definition energy_grid_change (stock : nat -> nat * vec) (table : nat -> nat -> option (nat -> nat))
    (grid groups_u groups_c : nat) : outcome ((nat -> nat) * vec * (nat -> nat) * vec) :=
  bind (energy_grid stock table grid groups_u (Some groups_c) true) (fun r =>
    match r with
    | (edges_g, fine, Some coarse) =>
        let e g := edges_g (fine g) in
        Ok (collided_index groups_c coarse,
            hybrid_factor (ediff e) (coarse_diff e coarse) groups_c coarse, coarse, edges_g)
    | _ => Raise ValueError
    end).

(** constants.py:20-23 *)
Definition mass_neutron : R := 167493 / 10 ^ 32.
Definition ev_to_joules : R := 160218 / 10 ^ 24.
Definition light_speed : R := 299792460.

(** main.py:144-169 energy_velocity; [None] is [edges_g is None]. *)
Definition energy_velocity (edges_g : option vec) : vec :=
  match edges_g with
  | None => fun _ => 1
  | Some e => fun g =>
      let center := 0.5 * (e (g + 1)%nat + e g) in
      let gamma := ev_to_joules * center / (mass_neutron * light_speed ^ 2) + 1 in
      light_speed / gamma * sqrt (gamma ^ 2 - 1) * 100
  end.

(** [np.sort] *)
Fixpoint insert_sorted (x : R) (l : list R) : list R :=
  match l with
  | [] => [x]
  | y :: t => if Rle_dec x y then x :: l else y :: insert_sorted x t
  end.
Definition np_sort (l : list R) : list R := fold_right insert_sorted [] l.

(** [l[k] = v] *)
Fixpoint list_set (l : list R) (k : nat) (v : R) : list R :=
  match l, k with
  | [], _ => []
  | _ :: t, O => v :: t
  | y :: t, S k => y :: list_set t k v
  end.

(** main.py:194-198 the intermediate times *)
Fixpoint half_steps (gamma : R) (l : list R) : list R :=
  match l with
  | a :: ((b :: _) as t) =>
      (if Req_EM_T gamma 0.5 then 0.5 * (b + a) else a + (b - a) * gamma) :: half_steps gamma t
  | _ => []
  end.

(** main.py:172-204 gamma_time_steps *)
Definition gamma_time_steps (edges_t : list R) (gamma : R) (half_step : bool) : outcome (list R) :=
  let combined := np_sort (edges_t ++ half_steps gamma edges_t) in
  if half_step then
    if Nat.ltb (length combined) 3 then Raise IndexError
    else Ok (list_set combined 1 (0.5 * (nth 0 combined 0 + nth 2 combined 0)))
  else Ok combined.

(** [s.split(c)] for a one-character separator: always at least one piece. *)
Fixpoint split_on (c : ascii) (s : string) : list string :=
  match s with
  | EmptyString => [EmptyString]
  | String a t =>
      if Ascii.eqb a c then EmptyString :: split_on c t
      else match split_on c t with
           | [] => [String a EmptyString]
           | p :: ps => String a p :: ps
           end
  end.

(** [np.argmin(np.fabs(x - edges))] over [n + 1] edges: the first minimum. *)
Definition nearest (n : nat) (edges : vec) (x : R) : nat :=
  for_up n (fun k best =>
    if Rlt_dec (Rabs (x - edges (k + 1)%nat)) (Rabs (x - edges best)) then (k + 1)%nat else best) 0%nat.

(** A layer: material index (or label) and the width string. *)
Record layer := mkLayer { layer_index : R; layer_width : string }.

(** main.py:229-234, one region: [start, stop = region.split("-")] needs exactly two pieces and
    [float] must accept both ([float_of] is Python's float on strings). *)
Definition fill_region (float_of : string -> option R) (n : nat) (edges : vec) (idx : R)
    (region : string) (map_ : vec) : outcome vec :=
  match split_on "-"%char region with
  | [a; b] =>
      match float_of a, float_of b with
      | Some start, Some stop =>
          let i1 := nearest n edges start in
          let i2 := nearest n edges stop in
          Ok (fun i => if andb (Nat.leb i1 i) (Nat.ltb i i2) then idx else map_ i)
      | _, _ => Raise ValueError
      end
  | _ => Raise ValueError
  end.

Fixpoint fold_err {A St : Type} (f : A -> St -> outcome St) (l : list A) (s : St) : outcome St :=
  match l with
  | [] => Ok s
  | a :: t => bind (f a s) (fold_err f t)
  end.

(** main.py:207-237 spatial1d for [n] cells; materials and labels are both reals here (the int32
    dtype of the default case is not modelled). *)
Definition spatial1d (float_of : string -> option R) (layers : list layer) (n : nat) (edges : vec)
    (check : bool) : outcome vec :=
  bind (fold_err (fun l m =>
          fold_err (fill_region float_of n edges (layer_index l)) (split_on ","%char (layer_width l)) m)
          layers (fun _ => -1)) (fun m =>
    if andb check (has_zero n (fun i => m i + 1)) then Raise AssertionError else Ok m).
