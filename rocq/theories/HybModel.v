(** Model of discrete1/utils/hybrid.py and of the hybrid kernels of discrete1/tools.py.
    Definitions only. *)
From Verif Require Import Base SlabModel MgModel.
Open Scope R_scope.

(** integer [np.sum], [np.cumsum] *)
Fixpoint nsum (n : nat) (f : nat -> nat) : nat :=
  match n with O => 0%nat | S k => (nsum k f + f k)%nat end.

(** [np.linspace(0, coarse - 1, num, dtype=np.int32)]: [num] equally spaced points, truncated.
    Exact arithmetic: the float rounding of the step is not modelled. *)
Definition linspace_idx (coarse num : nat) : list nat :=
  if Nat.eqb num 1 then [0%nat]
  else map (fun k => (k * (coarse - 1) / (num - 1))%nat) (seq 0 num).

(** utils/hybrid.py:14-31 energy_coarse_index.  [index[list] += 1] adds one at every index that
    occurs in the list (once, even if it occurs twice). *)
Definition coarse_sizes (fine coarse : nat) : nat -> nat :=
  fun j => ((fine / coarse)
            + (if existsb (Nat.eqb j) (linspace_idx coarse (fine mod coarse)) then 1 else 0))%nat.

Definition energy_coarse_index (fine coarse : nat) : outcome (nat -> nat) :=
  if Nat.eqb coarse 0 then Raise ZeroDivisionError
  else if Nat.eqb (nsum coarse (coarse_sizes fine coarse)) fine
       then Ok (fun j => nsum j (coarse_sizes fine coarse))
       else Raise AssertionError.

(** [np.diff] *)
Definition ediff (e : vec) : vec := fun g => e (g + 1)%nat - e g.
(** [np.diff(np.asarray(edges_g)[edges_gidx])] *)
Definition coarse_diff (e : vec) (idx : nat -> nat) : vec := fun c => e (idx (c + 1)%nat) - e (idx c).

(** utils/hybrid.py:113-150 _xs_vector_coarsen *)
Definition xs_vector_coarsen (vector : mat2) (edges_g : vec) (idx : nat -> nat) : mat2 :=
  fun mat gg => range_sum (idx gg) (idx (gg + 1)%nat) (fun g => vector mat g * ediff edges_g g)
                / coarse_diff edges_g idx gg.

(** utils/hybrid.py:153-193 _xs_matrix_coarsen: both divisions act on the last axis (the group
    scattered from); [None] is passed through. *)
Definition xs_matrix_coarsen (matrix : option mat3) (edges_g : vec) (idx : nat -> nat)
  : option mat3 :=
  match matrix with
  | None => None
  | Some m =>
      Some (fun mat a b =>
        range_sum (idx a) (idx (a + 1)%nat) (fun r =>
          range_sum (idx b) (idx (b + 1)%nat) (fun c => m mat r c * ediff edges_g c))
        / coarse_diff edges_g idx b)
  end.

(** utils/hybrid.py:34-70 coarsen_materials *)
Definition coarsen_materials (xs_total : mat2) (xs_scatter xs_fission : option mat3)
    (edges_g : vec) (idx : nat -> nat) : mat2 * option mat3 * option mat3 :=
  (xs_vector_coarsen xs_total edges_g idx, xs_matrix_coarsen xs_scatter edges_g idx,
   xs_matrix_coarsen xs_fission edges_g idx).

(** utils/hybrid.py:73-110 coarsen_external on one row (all leading axes are carried along
    unchanged): (length of the last axis, entries).  A one-column array is returned as it is. *)
Definition coarsen_external (last : nat) (external : vec) (edges_g : vec) (groups_c : nat)
    (idx : nat -> nat) (weight : bool) : nat * vec :=
  if Nat.eqb last 1 then (last, external)
  else
    (groups_c,
     fun gg =>
       if weight
       then range_sum (idx gg) (idx (gg + 1)%nat) (fun g => external g * ediff edges_g g)
            / coarse_diff edges_g idx gg
       else range_sum (idx gg) (idx (gg + 1)%nat) external).

(** utils/hybrid.py:196-218 coarsen_velocity: [np.mean] over the fine groups. *)
Definition coarsen_velocity (vector : vec) (idx : nat -> nat) : vec :=
  fun gg => range_sum (idx gg) (idx (gg + 1)%nat) vector / INR (idx (gg + 1)%nat - idx gg).

(** utils/hybrid.py:272-301 collided_index *)
Definition collided_index (groups_c : nat) (idx : nat -> nat) : nat -> nat :=
  for_up groups_c (fun count ci g =>
    if andb (Nat.leb (idx count) g) (Nat.ltb g (idx (count + 1)%nat)) then count else ci g)
    (fun _ => 0%nat).

(** utils/hybrid.py:304-335 uncollided_index *)
Definition uncollided_index (groups_c : nat) (idx : nat -> nat) : nat -> nat :=
  for_up groups_c (fun count fi j => if Nat.eqb j (count + 1) then idx (count + 1)%nat else fi j)
    (fun _ => 0%nat).

(** utils/hybrid.py:338-375 hybrid_factor: [factor[ii] /= delta_coarse[count]] *)
Definition hybrid_factor (delta_fine delta_coarse : vec) (groups_c : nat) (idx : nat -> nat) : vec :=
  for_up groups_c (fun count factor =>
    for_up (idx (count + 1)%nat - idx count) (fun k factor =>
      upd factor (idx count + k) (factor (idx count + k)%nat / delta_coarse count)) factor)
    delta_fine.

(** utils/hybrid.py:226-269 indexing: (fine_idx, coarse_idx, factor) *)
Definition indexing (edges_g : vec) (idx_fine : nat -> nat) (groups_c : nat) (idx_coarse : nat -> nat)
  : (nat -> nat) * (nat -> nat) * vec :=
  let e g := edges_g (idx_fine g) in
  (uncollided_index groups_c idx_coarse, collided_index groups_c idx_coarse,
   hybrid_factor (ediff e) (coarse_diff e idx_coarse) groups_c idx_coarse).

(** tools.py:1238-1274 _hybrid_source_collided, and the order-0 slice used by
    _hybrid_source_collided_aniso (tools.py:1282-1326).  The (cells, 1, coarse) array is written
    as a (cells, coarse) one. *)
Definition hybrid_source_collided (cells groups : nat) (flux_u : mat2) (xs_scatter : mat3)
    (source_c : mat2) (medium : nat -> nat) (coarse_idx : nat -> nat) : mat2 :=
  for_up cells (fun ii src =>
    let mat := medium ii in
    for_up groups (fun og src =>
      for_up groups (fun ig src =>
        fun i g => if andb (Nat.eqb i ii) (Nat.eqb g (coarse_idx og))
                   then src i g + flux_u ii ig * xs_scatter mat og ig else src i g) src) src)
    (fun i g => source_c i g * 0).

Definition hybrid_source_collided_aniso (cells groups : nat) (flux_u : mat2) (xs_scatter : mat4)
    (source_c : mat2) (medium : nat -> nat) (coarse_idx : nat -> nat) : mat2 :=
  hybrid_source_collided cells groups flux_u (fun m o i => xs_scatter m o i 0%nat) source_c medium
    coarse_idx.

(** tools.py:1334-1379 _hybrid_source_total: the state is (flux_u, q_star). *)
Definition hybrid_source_total (cells angles groups : nat) (flux_u flux_c : mat2)
    (xs_scatter_u : mat3) (q_star : mat3) (medium coarse_idx : nat -> nat) (factor : vec)
  : mat2 * mat3 :=
  for_up cells (fun ii st =>
    let mat := medium ii in
    let flux_u := for_up groups (fun og fu =>
                    fun i g => if andb (Nat.eqb i ii) (Nat.eqb g og)
                               then fu ii og + flux_c ii (coarse_idx og) * factor og else fu i g)
                    (fst st) in
    let q := for_up groups (fun og q =>
               let one_group := for_up groups (fun ig s => s + flux_u ii ig * xs_scatter_u mat og ig) 0 in
               for_up angles (fun nn q => upd3 q ii nn og (q ii nn og + one_group)) q) (snd st) in
    (flux_u, q)) (flux_u, q_star).

(** tools.py:1387-1451 _hybrid_source_total_aniso *)
Definition hybrid_source_total_aniso (cells angles groups nm : nat) (flux_u flux_c : mat2)
    (xs_scatter_u : mat4) (q_star : mat3) (medium coarse_idx : nat -> nat) (factor : vec)
    (leg : mat2) : mat2 * mat3 :=
  for_up cells (fun ii st =>
    let mat := medium ii in
    let flux_u := for_up groups (fun og fu =>
                    fun i g => if andb (Nat.eqb i ii) (Nat.eqb g og)
                               then fu ii og + flux_c ii (coarse_idx og) * factor og else fu i g)
                    (fst st) in
    let q := for_up groups (fun og q =>
               for_up angles (fun nn q =>
                 let scatter := for_up nm (fun ll s =>
                   if Nat.eqb ll 0 then
                     let group_sum := for_up groups (fun ig t => t + flux_u ii ig * xs_scatter_u mat og ig ll) 0 in
                     s + (2 * INR ll + 1) * group_sum * leg ll nn
                   else s) 0 in
                 upd3 q ii nn og (q ii nn og + scatter)) q) (snd st) in
    (flux_u, q)) (flux_u, q_star).

(** tools.py:915-961 _hybrid_fission_source *)
Definition hybrid_fission_source (cells groups : nat) (flux_u : mat2) (xs_fission : mat3)
    (source_c : mat2) (medium : nat -> nat) (keff : R) (coarse_idx : nat -> nat) : mat2 :=
  let src := for_up cells (fun ii src =>
    let mat := medium ii in
    if Req_EM_T (rsum groups (fun o => rsum groups (fun i => xs_fission mat o i))) 0 then src
    else for_up groups (fun og src =>
           let one_group := for_up groups (fun ig s => s + flux_u ii ig * xs_fission mat og ig) 0 in
           fun i g => if andb (Nat.eqb i ii) (Nat.eqb g (coarse_idx og))
                      then src i g + one_group else src i g) src)
    (fun i g => source_c i g * 0) in
  fun i g => src i g / keff.

(** tools.py:965-991 _hybrid_combine_fluxes: assigns, does not add. *)
Definition hybrid_combine_fluxes (cells groups : nat) (flux_u flux_c : mat2)
    (coarse_idx : nat -> nat) (factor : vec) : mat2 :=
  for_up cells (fun ii fu =>
    for_up groups (fun gg fu =>
      fun i g => if andb (Nat.eqb i ii) (Nat.eqb g gg)
                 then flux_c ii (coarse_idx gg) * factor gg else fu i g) fu) flux_u.

(** tools.py:1459-1486 reaction_rates: [rate[ii] = flux[ii] @ xs_matrix[mat].T] for every entry of
    the medium map, which is taken to have one entry per cell. *)
Definition reaction_rates (cells groups : nat) (flux : mat2) (xs_matrix : mat3)
    (medium : nat -> nat) : mat2 :=
  for_up cells (fun ii rate =>
    let mat := medium ii in
    fun i o => if Nat.eqb i ii then rsum groups (fun g => flux ii g * xs_matrix mat o g) else rate i o)
    (fun _ _ => 0).
