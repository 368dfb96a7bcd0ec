(** Model of the multigroup drivers of discrete1/multi_group.py and of the multigroup kernels
    of discrete1/tools.py.  Definitions only. *)
From Verif Require Import Base SlabModel SphereModel.
Open Scope R_scope.

Definition mat4 := nat -> nat -> nat -> nat -> R.

(** multi_group.py:35-39 [count_gg, change_gg, count_pp, change_pp] *)
Definition count_gg : nat := 100.
Definition change_gg : R := / 10 ^ 8.
Definition count_pp : nat := 50.
Definition change_pp : R := / 10 ^ 8.

(** [a[:, :, k]] of a three-dimensional array *)
Definition slice3 (a : arr3) (k : nat) : arr2 := mkArr2 (d3b a) (fun i n => at3 a i n k).

(** [a[i, j, k] = v] *)
Definition upd3 (a : mat3) (i j k : nat) (v : R) : mat3 :=
  fun x y z => if andb (Nat.eqb x i) (andb (Nat.eqb y j) (Nat.eqb z k)) then v else a x y z.

(** tools.py:145-181 _off_scatter.  [off_scatter] is zeroed and filled in place in the code and
    returned here. *)
Definition off_scatter (cells groups : nat) (flux flux_old : mat2) (medium : nat -> nat)
    (xs_scatter : mat3) (gg : nat) : vec :=
  for_up cells (fun ii off =>
    let mat := medium ii in
    let off := for_up gg (fun og off =>
                 upd off ii (off ii + xs_scatter mat gg og * flux ii og)) off in
    for_up (groups - (gg + 1)) (fun k off =>
      let og := (gg + 1 + k)%nat in
      upd off ii (off ii + xs_scatter mat gg og * flux_old ii og)) off) zeros.

(** multi_group.py:136-191 _one_sweep_iso.  The caller's [flux] is zeroed first; [off_scatter] is
    recomputed for every group, so neither is carried over.  A geometry other than 1 and 2
    leaves the column at zero. *)
Definition one_sweep_iso (P : sn) (groups : nat) (xs_total : mat2) (xs_scatter : mat3)
    (external boundary : arr3) (geometry : nat) (flux_old : mat2) : outcome mat2 :=
  for_up_err groups (fun gg flux =>
    let qq := bidx (d3c external) gg in
    let bc := bidx (d3c boundary) gg in
    let off := off_scatter (cells P) groups flux flux_old (medium P) xs_scatter gg in
    if Nat.eqb geometry 1 then
      bind (slab_isotropic_sn P (fun i => flux_old i gg) (fun m => xs_total m gg)
              (fun m => xs_scatter m gg gg) off (slice3 external qq) (slice3 boundary bc) 0)
        (fun c => Ok (set_col flux gg c))
    else if Nat.eqb geometry 2 then
      bind (sphere_isotropic_sn P (fun i => flux_old i gg) (fun m => xs_total m gg)
              (fun m => xs_scatter m gg gg) off (slice3 external qq) (slice3 boundary bc) 0)
        (fun c => Ok (set_col flux gg c))
    else Ok flux) zeros2.

(** multi_group.py:194-266 _one_sweep_aniso; the scattering array has the Legendre order last. *)
Definition one_sweep_aniso (P : sn) (groups nm : nat) (xs_total : mat2) (xs_scatter : mat4)
    (external boundary : arr3) (geometry : nat) (leg legw : mat2) (flux_old : mat2)
  : outcome mat2 :=
  for_up_err groups (fun gg flux =>
    let qq := bidx (d3c external) gg in
    let bc := bidx (d3c boundary) gg in
    let off := off_scatter (cells P) groups flux flux_old (medium P)
                 (fun m o i => xs_scatter m o i 0%nat) gg in
    let xs_self := fun x l => xs_scatter (medium P x) gg gg l in
    let xs_w := fun x l => xs_self x l * (2 * INR l + 1) in
    if Nat.eqb geometry 1 then
      bind (slab_anisotropic_sn P (fun i => flux_old i gg) nm (fun m => xs_total m gg)
              xs_w off (slice3 external qq) (slice3 boundary bc) 0 leg legw)
        (fun c => Ok (set_col flux gg c))
    else if Nat.eqb geometry 2 then
      bind (sphere_anisotropic_sn P (fun i => flux_old i gg) nm (fun m => xs_total m gg)
              xs_self xs_w off (slice3 external qq) (slice3 boundary bc) 0 leg legw)
        (fun c => Ok (set_col flux gg c))
    else Ok flux) zeros2.

(** multi_group.py:269-353 source_iteration_iso; the [except RuntimeWarning] branch is
    unreachable unless numpy warnings are errors, and not modelled. *)
Definition source_iteration_iso (P : sn) (groups : nat) (flux_old xs_total : mat2)
    (xs_scatter : mat3) (external boundary : arr3) (geometry : nat) : outcome mat2 :=
  iterate count_gg (one_sweep_iso P groups xs_total xs_scatter external boundary geometry)
    (rel_change2 (cells P) groups) change_gg count_gg 1 flux_old.

(** multi_group.py:356-451 source_iteration_aniso *)
Definition source_iteration_aniso (P : sn) (groups nm : nat) (flux_old xs_total : mat2)
    (xs_scatter : mat4) (external boundary : arr3) (geometry : nat) (leg legw : mat2)
  : outcome mat2 :=
  iterate count_gg
    (one_sweep_aniso P groups nm xs_total xs_scatter external boundary geometry leg legw)
    (rel_change2 (cells P) groups) change_gg count_gg 1 flux_old.

(** tools.py:559-585 legendre_polynomials.  [P = np.zeros((n_moments, angles))], rows filled by the
    three-term recurrence; [n_moments = 0] raises IndexError at [P[0] = 1.0]. *)
Definition legendre_polynomials (n_moments : nat) (angle_x : vec) : outcome mat2 :=
  if Nat.eqb n_moments 0 then Raise IndexError
  else
    let p0 : mat2 := fun l n => if Nat.eqb l 0 then 1 else 0 in
    if Nat.eqb n_moments 1 then Ok p0
    else
      let p1 : mat2 := fun l n => if Nat.eqb l 1 then angle_x n else p0 l n in
      Ok (for_up (n_moments - 2) (fun k p =>
            let ii := (k + 2)%nat in
            fun l n => if Nat.eqb l ii
                       then ((2 * INR ii - 1) * angle_x n * p (ii - 1)%nat n
                             - (INR ii - 1) * p (ii - 2)%nat n) / INR ii
                       else p l n) p1).

(** [xs_scatter] of rank 3 or 4 *)
Inductive scatter_data :=
| Scatter3 (xs : mat3)
| Scatter4 (nm : nat) (xs : mat4).

(** multi_group.py:42-133 source_iteration; [P], [P_weights] are recomputed when P is None. *)
Definition source_iteration (P : sn) (groups : nat) (flux_old xs_total : mat2)
    (xs_scatter : scatter_data) (external boundary : arr3) (geometry : nat)
    (leg_legw : option (mat2 * mat2)) : outcome mat2 :=
  match xs_scatter with
  | Scatter3 xs => source_iteration_iso P groups flux_old xs_total xs external boundary geometry
  | Scatter4 nm xs =>
      match leg_legw with
      | Some (leg, legw) =>
          source_iteration_aniso P groups nm flux_old xs_total xs external boundary geometry leg legw
      | None =>
          bind (legendre_polynomials nm (mu P)) (fun leg =>
            source_iteration_aniso P groups nm flux_old xs_total xs external boundary geometry
              leg (fun l n => wt P n * leg l n))
      end
  end.

(** [np.sum(a[lo:hi])] *)
Definition range_sum (lo hi : nat) (f : vec) : R := rsum (hi - lo) (fun k => f (lo + k)%nat).

(** tools.py:189-245 _variable_off_scatter.  [xs] is the array handed over by the caller, already
    sliced to the rows of coarse group [gg] ([rows] of them). *)
Definition variable_off_scatter (cells groups_c rows : nat) (flux flux_old : mat2)
    (medium : nat -> nat) (xs : mat3) (gg : nat) (edges : nat -> nat) : vec :=
  for_up groups_c (fun og off =>
    let block m := rsum rows (fun r => range_sum (edges og) (edges (og + 1)%nat) (fun c => xs m r c)) in
    if Nat.ltb og gg then
      for_up cells (fun ii off => upd off ii (off ii + block (medium ii) * flux ii og)) off
    else if Nat.ltb gg og then
      for_up cells (fun ii off => upd off ii (off ii + block (medium ii) * flux_old ii og)) off
    else off) zeros.

(** multi_group.py:602-613 collapse of fine data to coarse group [gg] *)
Definition collapse_scatter (xs : mat3) (delta_fine delta_coarse : vec) (edges : nat -> nat)
    (gg : nat) : vec :=
  fun m => range_sum (edges gg) (edges (gg + 1)%nat) (fun r =>
             range_sum (edges gg) (edges (gg + 1)%nat) (fun c => xs m r c * delta_fine c))
           / delta_coarse gg.

Definition collapse_total (xs_total : mat2) (delta_fine delta_coarse star : vec)
    (edges : nat -> nat) (gg : nat) : vec :=
  fun m => range_sum (edges gg) (edges (gg + 1)%nat) (fun g => xs_total m g * delta_fine g)
           / delta_coarse gg + star gg.

(** multi_group.py:571-672, body of the while loop of _variable_source_iteration_iso.  The whole
    in-progress [flux] is divided by [delta_coarse] before every group (l.617). *)
Definition variable_sweep_iso (P : sn) (groups : nat) (xs_total : mat2) (star : vec)
    (xs_scatter : mat3) (external boundary : arr3) (delta_coarse delta_fine : vec)
    (edges : nat -> nat) (geometry : nat) (flux_old : mat2) : outcome mat2 :=
  for_up_err groups (fun gg flux =>
    let qq := bidx (d3c external) gg in
    let bc := bidx (d3c boundary) gg in
    let xs_scatter_c := collapse_scatter xs_scatter delta_fine delta_coarse edges gg in
    let xs_total_c := collapse_total xs_total delta_fine delta_coarse star edges gg in
    let off := variable_off_scatter (cells P) groups (edges (gg + 1)%nat - edges gg)
                 (fun i g => flux i g / delta_coarse g) (fun i g => flux_old i g / delta_coarse g)
                 (medium P) (fun m r c => xs_scatter m (edges gg + r)%nat c * delta_fine c)
                 gg edges in
    if Nat.eqb geometry 1 then
      bind (slab_isotropic_sn P (fun i => flux_old i gg) xs_total_c xs_scatter_c off
              (slice3 external qq) (slice3 boundary bc) 0)
        (fun c => Ok (set_col flux gg c))
    else if Nat.eqb geometry 2 then
      bind (sphere_isotropic_sn P (fun i => flux_old i gg) xs_total_c xs_scatter_c off
              (slice3 external qq) (slice3 boundary bc) 0)
        (fun c => Ok (set_col flux gg c))
    else Ok flux) zeros2.

Definition variable_source_iteration_iso (P : sn) (groups : nat) (flux_old xs_total : mat2)
    (star : vec) (xs_scatter : mat3) (external boundary : arr3) (delta_coarse delta_fine : vec)
    (edges : nat -> nat) (geometry : nat) : outcome mat2 :=
  iterate count_gg
    (variable_sweep_iso P groups xs_total star xs_scatter external boundary delta_coarse
       delta_fine edges geometry)
    (rel_change2 (cells P) groups) change_gg count_gg 1 flux_old.

(** multi_group.py:675-795 _variable_source_iteration_aniso *)
Definition variable_sweep_aniso (P : sn) (groups nm : nat) (xs_total : mat2) (star : vec)
    (xs_scatter : mat4) (external boundary : arr3) (delta_coarse delta_fine : vec)
    (edges : nat -> nat) (geometry : nat) (leg legw : mat2) (flux_old : mat2) : outcome mat2 :=
  for_up_err groups (fun gg flux =>
    let qq := bidx (d3c external) gg in
    let bc := bidx (d3c boundary) gg in
    let xs_scatter_c m l :=
      collapse_scatter (fun m o i => xs_scatter m o i l) delta_fine delta_coarse edges gg m in
    let xs_total_c := collapse_total xs_total delta_fine delta_coarse star edges gg in
    let off := variable_off_scatter (cells P) groups (edges (gg + 1)%nat - edges gg)
                 (fun i g => flux i g / delta_coarse g) (fun i g => flux_old i g / delta_coarse g)
                 (medium P) (fun m r c => xs_scatter m (edges gg + r)%nat c 0%nat * delta_fine c)
                 gg edges in
    let xs_self x l := xs_scatter_c (medium P x) l in
    let xs_w x l := xs_self x l * (2 * INR l + 1) in
    if Nat.eqb geometry 1 then
      bind (slab_anisotropic_sn P (fun i => flux_old i gg) nm xs_total_c xs_w off
              (slice3 external qq) (slice3 boundary bc) 0 leg legw)
        (fun c => Ok (set_col flux gg c))
    else if Nat.eqb geometry 2 then
      bind (sphere_anisotropic_sn P (fun i => flux_old i gg) nm xs_total_c xs_self xs_w off
              (slice3 external qq) (slice3 boundary bc) 0 leg legw)
        (fun c => Ok (set_col flux gg c))
    else Ok flux) zeros2.

Definition variable_source_iteration_aniso (P : sn) (groups nm : nat) (flux_old xs_total : mat2)
    (star : vec) (xs_scatter : mat4) (external boundary : arr3) (delta_coarse delta_fine : vec)
    (edges : nat -> nat) (geometry : nat) (leg legw : mat2) : outcome mat2 :=
  iterate count_gg
    (variable_sweep_aniso P groups nm xs_total star xs_scatter external boundary delta_coarse
       delta_fine edges geometry leg legw)
    (rel_change2 (cells P) groups) change_gg count_gg 1 flux_old.

(** multi_group.py:1264-1355 source_iteration_collect.  The loop carries the array [tracked_flux] of
    [count_gg] snapshots (a write outside it is an IndexError); the value handed to np.save is
    the list of rows [0 .. count-2].  Returns (flux, saved rows). *)
Fixpoint collect_loop (fuel : nat) (sweep : mat2 -> outcome mat2)
    (change : mat2 -> mat2 -> option R) (count : nat) (flux_old : mat2) (tracked : nat -> mat2)
  : outcome (mat2 * list mat2) :=
  match fuel with
  | O => Raise OutOfFuel
  | S f =>
      bind (sweep flux_old) (fun flux =>
        let converged := orb (below (change flux flux_old) change_gg) (Nat.leb count_gg count) in
        let count := S count in
        if Nat.ltb (count - 2) count_gg then
          let tracked k := if Nat.eqb k (count - 2) then flux else tracked k in
          if converged then Ok (flux, map tracked (seq 0 (count - 1)))
          else collect_loop f sweep change count flux tracked
        else Raise IndexError)
  end.

Definition source_iteration_collect (P : sn) (groups : nat) (flux_old xs_total : mat2)
    (xs_scatter : mat3) (external boundary : arr3) (geometry : nat)
  : outcome (mat2 * list mat2) :=
  collect_loop count_gg (one_sweep_iso P groups xs_total xs_scatter external boundary geometry)
    (rel_change2 (cells P) groups) 1 flux_old (fun _ => zeros2).

(** multi_group.py:1095-1174 known_source_angular: [edges] is 0 or 1; the slab kernel fills
    [angular_flux[:, :, gg]] in place, the spherical one raises (see SphereModel).  For another
    geometry known_source_sn returns None and the array stays zero. *)
Definition known_source_angular (P : sn) (groups : nat) (xs_total : mat2)
    (source boundary : arr3) (geometry edges : nat) : outcome mat3 :=
  for_up_err groups (fun gg psi =>
    let qq := bidx (d3c source) gg in
    let bc := bidx (d3c boundary) gg in
    match known_source_sn P (fun i n => psi i n gg) (d3b source) (fun m => xs_total m gg)
            (slice3 source qq) (slice3 boundary bc) geometry edges with
    | None => Ok psi
    | Some r => bind r (fun a => Ok (fun i n g => if Nat.eqb g gg then a i n else psi i n g))
    end) (fun _ _ _ => 0).

(** multi_group.py:1177-1256 known_source_scalar: [scalar_flux] has shape (cells+edges, groups, 1). *)
Definition known_source_scalar (P : sn) (groups : nat) (xs_total : mat2)
    (source boundary : arr3) (geometry edges : nat) : outcome mat2 :=
  for_up_err groups (fun gg phi =>
    let qq := bidx (d3c source) gg in
    let bc := bidx (d3c boundary) gg in
    match known_source_sn P (fun i _ => phi i gg) 1 (fun m => xs_total m gg)
            (slice3 source qq) (slice3 boundary bc) geometry edges with
    | None => Ok phi
    | Some r => bind r (fun a => Ok (set_col phi gg (fun i => a i 0%nat)))
    end) zeros2.

(** tools.py:109-139 _transfer_matrix; in-place assembly, here on the array [out]. *)
Definition transfer_matrix_kernel (materials groups : nat) (out xs_scatter : mat3)
    (chi nusigf : mat2) : mat3 :=
  for_up materials (fun mat out =>
    for_up groups (fun og out =>
      for_up groups (fun ig out =>
        upd3 out mat og ig (xs_scatter mat og ig + chi mat og * nusigf mat ig)) out) out) out.

Inductive fission_data :=
| FissionMatrix (xs : mat3)
| FissionVector (chi nusigf : mat2).

(** tools.py:67-105 transfer_matrix *)
Definition transfer_matrix (materials groups : nat) (xs_scatter : scatter_data)
    (fission : fission_data) : scatter_data :=
  match fission, xs_scatter with
  | FissionMatrix f, Scatter4 nm xs =>
      Scatter4 nm (fun m o i l => if Nat.eqb l 0 then xs m o i l + f m o i else xs m o i l)
  | FissionVector chi nusigf, Scatter4 nm xs =>
      let k := transfer_matrix_kernel materials groups (fun m o i => xs m o i 0%nat)
                 (fun m o i => xs m o i 0%nat) chi nusigf in
      Scatter4 nm (fun m o i l => if Nat.eqb l 0 then k m o i else xs m o i l)
  | FissionMatrix f, Scatter3 xs => Scatter3 (fun m o i => xs m o i + f m o i)
  | FissionVector chi nusigf, Scatter3 xs =>
      Scatter3 (transfer_matrix_kernel materials groups xs xs chi nusigf)
  end.

(** tools.py:315-362 _source_total: [source] (cells, angles, groups) is zeroed, then filled. *)
Definition source_total (cells angles groups : nat) (source : mat3) (flux : mat2)
    (xs_scatter : mat3) (medium : nat -> nat) (external : arr3) : mat3 :=
  for_up cells (fun ii source =>
    let mat := medium ii in
    for_up groups (fun og source =>
      let og_q := bidx (d3c external) og in
      let one_group := for_up groups (fun ig s => s + flux ii ig * xs_scatter mat og ig) 0 in
      for_up angles (fun nn source =>
        let nn_q := bidx (d3b external) nn in
        upd3 source ii nn og (one_group + at3 external ii nn_q og_q)) source) source)
    (fun i n g => source i n g * 0).

(** tools.py:370-445 _source_total_aniso: as above with a sum over Legendre orders, of which only
    order 0 sees the scalar flux. *)
Definition source_total_aniso (cells angles groups nm : nat) (source : mat3) (flux : mat2)
    (xs_scatter : mat4) (medium : nat -> nat) (external : arr3) (leg : mat2) : mat3 :=
  for_up cells (fun ii source =>
    let mat := medium ii in
    for_up groups (fun og source =>
      let og_q := bidx (d3c external) og in
      for_up angles (fun nn source =>
        let nn_q := bidx (d3b external) nn in
        let scatter :=
          for_up nm (fun ll s =>
            let group_sum := for_up groups (fun ig t =>
              if Nat.eqb ll 0 then t + xs_scatter mat og ig ll * flux ii ig else t) 0 in
            s + (2 * INR ll + 1) * group_sum * leg ll nn) 0 in
        upd3 source ii nn og (scatter + at3 external ii nn_q og_q)) source) source)
    (fun i n g => source i n g * 0).

(** tools.py:449-484 _time_right_side: adds the scatter source to [q_star] for all angles. *)
Definition time_right_side (cells angles groups : nat) (q_star : mat3) (flux : mat2)
    (xs_scatter : mat3) (medium : nat -> nat) : mat3 :=
  for_up cells (fun ii q =>
    let mat := medium ii in
    for_up groups (fun og q =>
      let one_group := for_up groups (fun ig s => s + flux ii ig * xs_scatter mat og ig) 0 in
      for_up angles (fun nn q => upd3 q ii nn og (q ii nn og + one_group)) q) q) q_star.

(** tools.py:492-551 _time_right_side_aniso *)
Definition time_right_side_aniso (cells angles groups nm : nat) (q_star : mat3) (flux : mat2)
    (xs_scatter : mat4) (medium : nat -> nat) (leg : mat2) : mat3 :=
  for_up cells (fun ii q =>
    let mat := medium ii in
    for_up groups (fun og q =>
      for_up angles (fun nn q =>
        let scatter :=
          for_up nm (fun ll s =>
            if Nat.eqb ll 0 then
              let group_sum := for_up groups (fun ig t => t + flux ii ig * xs_scatter mat og ig ll) 0 in
              s + (2 * INR ll + 1) * group_sum * leg ll nn
            else s) 0 in
        upd3 q ii nn og (q ii nn og + scatter)) q) q) q_star.

(** tools.py:249-275 _coarsen_flux *)
Definition coarsen_flux (groups_c : nat) (fine coarse : mat2) (edges : nat -> nat) : mat2 :=
  for_up groups_c (fun gg coarse =>
    set_col coarse gg (fun i => range_sum (edges gg) (edges (gg + 1)%nat) (fun g => fine i g)))
    coarse.

(** tools.py:1168-1227 scatter_prod: cells of a material whose scattering matrix sums to zero are
    skipped and keep what [source] held. *)
Definition scatter_prod (cells groups : nat) (flux : mat2) (xs_scatter : mat3) (source : mat2)
    (medium : nat -> nat) : mat2 :=
  for_up cells (fun ii source =>
    let mat := medium ii in
    if Req_EM_T (rsum groups (fun o => rsum groups (fun i => xs_scatter mat o i))) 0 then source
    else for_up groups (fun og source =>
           let one_group := for_up groups (fun ig s => s + flux ii ig * xs_scatter mat og ig) 0 in
           fun i g => if andb (Nat.eqb i ii) (Nat.eqb g og) then one_group else source i g) source)
    source.

(** Entries of the [models] list: an int placeholder or a model, whose predict method maps
    (number of rows, flux rows, label) to rows.  A model is an arbitrary function. *)
Inductive ml_model :=
| Placeholder
| Model (predict : nat -> mat2 -> list R -> mat2).

(** [np.argwhere(medium_map == nn).flatten()] *)
Definition cells_of (cells : nat) (medium : nat -> nat) (nn : nat) : list nat :=
  filter (fun i => Nat.eqb (medium i) nn) (seq 0 cells).
(** position of cell [i] in that list *)
Definition rank_of (medium : nat -> nat) (nn i : nat) : nat := length (cells_of i medium nn).

(** The [label] argument: absent, one list of floats, or one list per model. *)
Inductive ml_label :=
| NoLabel
| OneLabel (l : list R)
| LabelPerModel (ls : nat -> list R).

(** tools.py:1081-1164 scatter_prod_predict.  [label[0]] on None raises TypeError (l.1131) before
    anything else; the numba kernel scatter_prod runs on the rows of one material only. *)
Definition scatter_prod_predict (cells groups : nat) (flux : mat2) (xs_scatter : mat3)
    (medium : nat -> nat) (models : list ml_model) (label : ml_label) : outcome mat2 :=
  match label with
  | NoLabel => Raise TypeError
  | _ =>
      Ok (for_up (length models) (fun nn source =>
        let idx := cells_of cells medium nn in
        let rows := length idx in
        let mat_flux : mat2 := fun k g => flux (nth k idx 0%nat) g in
        match nth nn models Placeholder with
        | Placeholder =>
            let out := scatter_prod rows groups mat_flux xs_scatter
                         (fun k g => source (nth k idx 0%nat) g)
                         (fun k => medium (nth k idx 0%nat)) in
            fun i g => if andb (Nat.ltb i cells) (Nat.eqb (medium i) nn)
                       then out (rank_of medium nn i) g else source i g
        | Model predict =>
            if Req_EM_T (rsum rows (fun k => rsum groups (fun g => mat_flux k g))) 0 then source
            else
              let scale k := rsum groups (fun g => mat_flux k g * xs_scatter nn g 0%nat) in
              let lab := match label with
                         | OneLabel l => l | LabelPerModel ls => ls nn | NoLabel => nil end in
              let out := predict rows mat_flux lab in
              fun i g => if andb (Nat.ltb i cells) (Nat.eqb (medium i) nn)
                         then out (rank_of medium nn i) g
                              * (scale (rank_of medium nn i)
                                 / rsum groups (fun h => out (rank_of medium nn i) h))
                         else source i g
        end) zeros2)
  end.

(** multi_group.py:1358-1461 ml_source_iteration; a geometry other than 1 and 2 assigns None to a
    column of floats, which numpy turns into nan: not modelled ([TypeError] stands for it). *)
Definition ml_sweep (P : sn) (groups : nat) (xs_total : mat2) (xs_scatter : mat3)
    (external boundary : arr3) (geometry : nat) (models : list ml_model) (label : ml_label)
    (flux_old : mat2) : outcome mat2 :=
  bind (scatter_prod_predict (cells P) groups flux_old xs_scatter (medium P) models label)
    (fun source =>
      for_up_err groups (fun gg flux =>
        let qq := bidx (d3c external) gg in
        let bc := bidx (d3c boundary) gg in
        match scatter_source_sn P (fun m => xs_total m gg) (fun i => source i gg)
                (slice3 external qq) (slice3 boundary bc) geometry with
        | Some r => bind r (fun c => Ok (set_col flux gg c))
        | None => Raise TypeError
        end) zeros2).

Definition ml_source_iteration (P : sn) (groups : nat) (flux_old xs_total : mat2)
    (xs_scatter : mat3) (external boundary : arr3) (geometry : nat)
    (models : list ml_model) (label : ml_label) : outcome mat2 :=
  iterate count_pp
    (ml_sweep P groups xs_total xs_scatter external boundary geometry models label)
    (rel_change2 (cells P) groups) change_pp count_pp 1 flux_old.

(** ml/tools.py:362-388 update_cross_sections; [modelled m] is [m in model_idx]. *)
Definition update_cross_sections (groups : nat) (xs_matrix : mat3) (modelled : nat -> bool) : mat3 :=
  fun mat g h => if modelled mat
                 then (if Nat.eqb h 0 then rsum groups (fun o => xs_matrix mat o g) else 0)
                 else xs_matrix mat g h.
