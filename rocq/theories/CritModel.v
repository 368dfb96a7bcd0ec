(** Model of the k-eigenvalue drivers: discrete1/critical1d.py, discrete1/critical0d.py, the
    infinite-medium solver discrete1/multi_group_0d.py and the fission kernels of
    discrete1/tools.py.  Definitions only. *)
From Coq Require Import ZArith.
From Verif Require Import Base SlabModel SphereModel MgModel.
Open Scope R_scope.

(** critical1d.py:23-27, critical0d.py:13-14 [count_kk, change_kk, count_pp, change_pp] *)
Definition count_kk : nat := 100.
Definition change_kk : R := / 10 ^ 6.
Definition ml_count_pp : nat := 50.
Definition ml_change_pp : R := / 10 ^ 5.

(** [xs[mat].sum()] of a (groups, groups) and of a (groups,) row *)
Definition matrix_total (groups : nat) (xs : mat3) (m : nat) : R :=
  rsum groups (fun o => rsum groups (fun i => xs m o i)).
Definition row_total (groups : nat) (xs : mat2) (m : nat) : R := rsum groups (xs m).

(** tools.py:682-744 fission_mat_prod.  The (cells, 1, groups) source is written as a (cells,
    groups) array: the middle axis has length one.  [source *= 0.0] first. *)
Definition fission_mat_prod (cells groups : nat) (flux : mat2) (xs_fission : mat3) (source : mat2)
    (medium : nat -> nat) (keff : R) : mat2 :=
  for_up cells (fun ii source =>
    let mat := medium ii in
    if Req_EM_T (matrix_total groups xs_fission mat) 0 then source
    else for_up groups (fun og source =>
           let one_group := for_up groups (fun ig s => s + flux ii ig * xs_fission mat og ig) 0 in
           fun i g => if andb (Nat.eqb i ii) (Nat.eqb g og) then one_group / keff else source i g) source)
    (fun i g => source i g * 0).

(** tools.py:795-860 fission_vec_prod *)
Definition fission_vec_prod (cells groups : nat) (flux chi nusigf source : mat2)
    (medium : nat -> nat) (keff : R) : mat2 :=
  for_up cells (fun ii source =>
    let mat := medium ii in
    if Req_EM_T (row_total groups chi mat) 0 then source
    else for_up groups (fun og source =>
           let one_group := for_up groups (fun ig s => s + flux ii ig * chi mat og * nusigf mat ig) 0 in
           fun i g => if andb (Nat.eqb i ii) (Nat.eqb g og) then one_group / keff else source i g) source)
    (fun i g => source i g * 0).

(** tools.py:748-787 _update_keff_mat: the state is (rate_new, rate_old). *)
Definition update_keff_mat (cells groups : nat) (flux flux_old : mat2) (xs_fission : mat3)
    (medium : nat -> nat) (keff : R) : R :=
  let rates := for_up cells (fun ii r =>
    let mat := medium ii in
    if Req_EM_T (matrix_total groups xs_fission mat) 0 then r
    else for_up groups (fun og r => for_up groups (fun ig r =>
           (fst r + flux ii ig * xs_fission mat og ig,
            snd r + flux_old ii ig * xs_fission mat og ig)) r) r) (0, 0) in
  (fst rates * keff) / snd rates.

(** tools.py:866-907 _update_keff_vec *)
Definition update_keff_vec (cells groups : nat) (flux flux_old chi nusigf : mat2)
    (medium : nat -> nat) (keff : R) : R :=
  let rates := for_up cells (fun ii r =>
    let mat := medium ii in
    if Req_EM_T (row_total groups chi mat) 0 then r
    else for_up groups (fun og r => for_up groups (fun ig r =>
           (fst r + flux ii ig * chi mat og * nusigf mat ig,
            snd r + flux_old ii ig * chi mat og * nusigf mat ig)) r) r) (0, 0) in
  (fst rates * keff) / snd rates.

(** [np.linalg.norm] of a (cells, groups) array *)
Definition norm2 (cells groups : nat) (f : mat2) : R :=
  sqrt (rsum cells (fun i => rsum groups (fun g => Rsqr (f i g)))).

(** [chi is None] selects the matrix kernels (critical1d.py:89-92, 110-116) *)
Definition fission_source (cells groups : nat) (fission : fission_data) (medium : nat -> nat)
    (source flux : mat2) (keff : R) : mat2 :=
  match fission with
  | FissionMatrix xs => fission_mat_prod cells groups flux xs source medium keff
  | FissionVector chi nusigf => fission_vec_prod cells groups flux chi nusigf source medium keff
  end.
Definition update_keff (cells groups : nat) (fission : fission_data) (medium : nat -> nat)
    (flux flux_old : mat2) (keff : R) : R :=
  match fission with
  | FissionMatrix xs => update_keff_mat cells groups flux flux_old xs medium keff
  | FissionVector chi nusigf => update_keff_vec cells groups flux flux_old chi nusigf medium keff
  end.

Definition as_source (groups : nat) (s : mat2) : arr3 := mkArr3 1 groups (fun i _ g => s i g).
(** critical1d.py:73 [boundary = np.zeros((2, 1, 1))] *)
Definition no_boundary : arr3 := mkArr3 1 1 (fun _ _ _ => 0).

(** critical1d.py:87-119, one pass of the while loop of power_iteration.  [source] is the array
    kept between passes; the kernels zero it first, so it is not carried. *)
Definition power_step (P : sn) (groups : nat) (xs_total : mat2) (xs_scatter : scatter_data)
    (fission : fission_data) (geometry : nat) (st : mat2 * R) : outcome (mat2 * R) :=
  let '(flux_old, keff) := st in
  let source := fission_source (cells P) groups fission (medium P) zeros2 flux_old keff in
  bind (source_iteration P groups flux_old xs_total xs_scatter (as_source groups source) no_boundary
          geometry None) (fun flux =>
    let keff := update_keff (cells P) groups fission (medium P) flux flux_old keff in
    let n := norm2 (cells P) groups flux in
    Ok (fun i g => flux i g / n, keff)).

Definition flux_change (cells groups : nat) (new old : mat2 * R) : option R :=
  rel_change2 cells groups (fst new) (fst old).

(** critical1d.py:30-135 power_iteration.  [guess] stands for np.random.rand(cells_x, groups);
    l.78 [np.linalg.norm(keff)] of a scalar is its absolute value.  The number of passes
    ([counter=True]) is not returned here, see C31. *)
Definition power_start (cells groups : nat) (guess : mat2) : mat2 * R :=
  let keff := norm2 cells groups guess in
  (fun i g => guess i g / Rabs keff, keff).

Definition power_iteration (P : sn) (groups : nat) (xs_total : mat2) (xs_scatter : scatter_data)
    (fission : fission_data) (geometry : nat) (guess : mat2) : outcome (mat2 * R) :=
  iterate count_kk (power_step P groups xs_total xs_scatter fission geometry)
    (flux_change (cells P) groups) change_kk count_kk 1 (power_start (cells P) groups guess).

(** Python indexing of the first axis of length [n]: -1 is the last row. *)
Definition py_index (n : nat) (k : Z) : option nat :=
  if (k <? - Z.of_nat n)%Z then None
  else if (k <? 0)%Z then Some (Z.to_nat (Z.of_nat n + k))
  else if (k <? Z.of_nat n)%Z then Some (Z.to_nat k) else None.

(** critical1d.py:138-275 collect_power_iteration.  [count] starts at 0 and is tested before it is
    incremented; row [count - 2] of the tracked array is then written. *)
Fixpoint collect_power_loop (fuel : nat) (step : mat2 * R -> outcome (mat2 * R))
    (change : mat2 * R -> mat2 * R -> option R) (count : nat) (st : mat2 * R)
    (tracked : nat -> mat2) : outcome (mat2 * R * list mat2) :=
  match fuel with
  | O => Raise OutOfFuel
  | S f =>
      bind (step st) (fun new =>
        let converged := orb (below (change new st) change_kk) (Nat.leb count_kk count) in
        let count := S count in
        match py_index count_kk (Z.of_nat count - 2) with
        | None => Raise IndexError
        | Some row =>
            let tracked k := if Nat.eqb k row then fst new else tracked k in
            if converged then Ok (new, map tracked (seq 0 (count - 1)))
            else collect_power_loop f step change count new tracked
        end)
  end.

(** The group solve of the collecting loop is source_iteration_collect, whose saved snapshots go to
    another file (C24); isotropic scattering only. *)
Definition collect_step (P : sn) (groups : nat) (xs_total : mat2) (xs_scatter : mat3)
    (fission : fission_data) (geometry : nat) (st : mat2 * R) : outcome (mat2 * R) :=
  let '(flux_old, keff) := st in
  let source := fission_source (cells P) groups fission (medium P) zeros2 flux_old keff in
  bind (source_iteration_collect P groups flux_old xs_total xs_scatter (as_source groups source)
          no_boundary geometry) (fun r =>
    let flux := fst r in
    let keff := update_keff (cells P) groups fission (medium P) flux flux_old keff in
    let n := norm2 (cells P) groups flux in
    Ok (fun i g => flux i g / n, keff)).

Definition collect_power_iteration (P : sn) (groups : nat) (xs_total : mat2) (xs_scatter : mat3)
    (fission : fission_data) (geometry : nat) (guess : mat2) : outcome (mat2 * R * list mat2) :=
  collect_power_loop (count_kk + 1) (collect_step P groups xs_total xs_scatter fission geometry)
    (flux_change (cells P) groups) 0 (power_start (cells P) groups guess) (fun _ => zeros2).

(** tools.py:1001-1078 fission_prod_predict; the label is handed to predict unchanged. *)
Definition fission_prod_predict (cells groups : nat) (flux : mat2) (xs_fission : mat3)
    (medium : nat -> nat) (keff : R) (models : list ml_model) (label : list R) : mat2 :=
  for_up (length models) (fun nn source =>
    let idx := cells_of cells medium nn in
    let rows := length idx in
    let mat_flux : mat2 := fun k g => flux (nth k idx 0%nat) g in
    match nth nn models Placeholder with
    | Placeholder =>
        let out := fission_mat_prod rows groups mat_flux xs_fission
                     (fun k g => source (nth k idx 0%nat) g)
                     (fun k => medium (nth k idx 0%nat)) keff in
        fun i g => if andb (Nat.ltb i cells) (Nat.eqb (medium i) nn)
                   then out (rank_of medium nn i) g else source i g
    | Model predict =>
        if Req_EM_T (rsum rows (fun k => rsum groups (fun g => mat_flux k g))) 0 then source
        else
          let scale k := rsum groups (fun g => mat_flux k g * xs_fission nn g 0%nat) in
          let out := predict rows mat_flux label in
          fun i g => if andb (Nat.ltb i cells) (Nat.eqb (medium i) nn)
                     then out (rank_of medium nn i) g / keff
                          * (scale (rank_of medium nn i)
                             / rsum groups (fun h => out (rank_of medium nn i) h))
                     else source i g
    end) zeros2.

(** Result of [np.linalg.norm((new - old) / new / cells)] when entries of [new] may vanish:
    0/0 makes it nan, otherwise x/0 makes it inf. *)
Inductive float_change := Fin (c : R) | Inf | Nan.

Definition float_change2 (cells groups : nat) (new old : mat2) : float_change :=
  if has_zero2 cells groups new then
    if has_zero2 cells groups (fun i g => if Req_EM_T (new i g) 0 then old i g else 1)
    then Nan else Inf
  else Fin (sqrt (rsum cells (fun i => rsum groups (fun g =>
         Rsqr ((new i g - old i g) / new i g / INR cells))))).

(** [a > b] and [a < tol] on floats *)
Definition float_gt (a b : float_change) : bool :=
  match a, b with
  | Fin x, Fin y => if Rlt_dec y x then true else false
  | Inf, Fin _ => true
  | _, _ => false
  end.
Definition float_below (a : float_change) (tol : R) : bool :=
  match a with Fin x => if Rlt_dec x tol then true else false | _ => false end.

(** critical1d.py:397-470, one pass of the while loop of ml_power_iteration.  [FissionMatrix] is
    [chi is None]; with fission models the cross sections are read as a matrix whatever chi is
    ([fission_models] non-empty with vector data is outside the model: Scatter data below). *)
Definition ml_power_step (P : sn) (groups : nat) (xs_total : mat2) (xs_scatter : mat3)
    (fission : fission_data) (geometry : nat) (fission_models scatter_models : list ml_model)
    (fission_label : list R) (scatter_label : ml_label) (st : mat2 * R) : outcome (mat2 * R) :=
  let '(flux_old, keff_old) := st in
  let with_models := negb (Nat.eqb (length fission_models) 0) in
  let source :=
    if with_models then
      fission_prod_predict (cells P) groups flux_old
        (match fission with FissionMatrix xs => xs | FissionVector _ _ => fun _ _ _ => 0 end)
        (medium P) 1 fission_models fission_label
    else fission_source (cells P) groups fission (medium P) zeros2 flux_old keff_old in
  bind (if Nat.eqb (length scatter_models) 0 then
          source_iteration P groups flux_old xs_total (Scatter3 xs_scatter) (as_source groups source)
            no_boundary geometry None
        else
          ml_source_iteration P groups flux_old xs_total xs_scatter (as_source groups source)
            no_boundary geometry scatter_models scatter_label) (fun flux =>
    let n := norm2 (cells P) groups flux in
    let keff := if with_models then n
                else update_keff (cells P) groups fission (medium P) flux flux_old keff_old in
    Ok (fun i g => flux i g / n, keff)).

(** critical1d.py:395-486 the loop: early exit with the previous pair when the change grew and at
    least 20 passes were made. *)
Fixpoint ml_power_loop (fuel : nat) (step : mat2 * R -> outcome (mat2 * R))
    (change : mat2 * R -> mat2 * R -> float_change) (count : nat) (change_old : float_change)
    (st : mat2 * R) : outcome (mat2 * R * nat) :=
  match fuel with
  | O => Raise OutOfFuel
  | S f =>
      bind (step st) (fun new =>
        let count := S count in
        let c := change new st in
        if andb (float_gt c change_old) (Nat.leb 20 count) then Ok (st, count)
        else if orb (float_below c ml_change_pp) (Nat.leb ml_count_pp count) then Ok (new, count)
        else ml_power_loop f step change count c new)
  end.

(** critical1d.py:278-486 ml_power_iteration.  With no models at all it calls power_iteration (whose
    start is random: [guess]) and ignores [flux_old]; the pass counter is dropped in that case. *)
Definition ml_power_iteration (P : sn) (groups : nat) (flux_old xs_total : mat2)
    (xs_scatter : mat3) (fission : fission_data) (geometry : nat)
    (fission_models scatter_models : list ml_model) (fission_label : list R)
    (scatter_label : ml_label) (guess : mat2) : outcome (mat2 * R) :=
  if andb (Nat.eqb (length fission_models) 0) (Nat.eqb (length scatter_models) 0) then
    power_iteration P groups xs_total (Scatter3 xs_scatter) fission geometry guess
  else
    bind (ml_power_loop ml_count_pp
            (ml_power_step P groups xs_total xs_scatter fission geometry fission_models scatter_models
               fission_label scatter_label)
            (fun new old => float_change2 (cells P) groups (fst new) (fst old)) 0 (Fin 100)
            (flux_old, 1))
      (fun r => Ok (fst r)).

(** tools.py:1495-1525 _off_scatter_0d *)
Definition off_scatter_0d (groups : nat) (flux flux_old : vec) (xs_scatter : mat2) (gg : nat) : R :=
  let low := for_up gg (fun og s => s + xs_scatter gg og * flux og) 0 in
  for_up (groups - (gg + 1)) (fun k s =>
    s + xs_scatter gg (gg + 1 + k)%nat * flux_old (gg + 1 + k)%nat) low.

(** [np.linalg.norm((new - old) / new)] of a scalar and of a (groups,) vector *)
Definition scalar_change (new old : R) : option R :=
  if Req_EM_T new 0 then None else Some (Rabs ((new - old) / new)).
Definition vec_change (groups : nat) (new old : vec) : option R :=
  if has_zero groups new then None
  else Some (sqrt (rsum groups (fun g => Rsqr ((new g - old g) / new g)))).

(** multi_group_0d.py:151-215 discrete_ordinates_iso.  [external] is the (n_angles or 1,) column. *)
Definition pass_0d (angles : nat) (wt : vec) (xs_total xs_scatter off : R) (ext_len : nat)
    (external : vec) (flux_old : R) : R :=
  for_up angles (fun nn flux =>
    flux + (xs_scatter * flux_old + external (bidx ext_len nn) + off) * wt nn / xs_total) 0.

Definition discrete_ordinates_0d (angles : nat) (wt : vec) (xs_total xs_scatter off : R)
    (ext_len : nat) (external : vec) (flux_old : R) : outcome R :=
  iterate count_nn (fun x => Ok (pass_0d angles wt xs_total xs_scatter off ext_len external x))
    scalar_change change_nn count_nn 1 flux_old.

(** multi_group_0d.py:86-148 source_iteration_iso; [external] is an (n_angles or 1, groups or 1)
    array. *)
Definition sweep_0d (angles groups : nat) (wt xs_total : vec) (xs_scatter : mat2)
    (ext_rows : nat) (external : arr2) (flux_old : vec) : outcome vec :=
  for_up_err groups (fun gg flux =>
    let qq := bidx (cols2 external) gg in
    let off := off_scatter_0d groups flux flux_old xs_scatter gg in
    bind (discrete_ordinates_0d angles wt (xs_total gg) (xs_scatter gg gg) off ext_rows
            (fun n => at2 external n qq) (flux_old gg))
      (fun v => Ok (upd flux gg v))) zeros.

Definition source_iteration_0d (angles groups : nat) (wt xs_total : vec) (xs_scatter : mat2)
    (ext_rows : nat) (external : arr2) (flux_old : vec) : outcome vec :=
  iterate count_gg (sweep_0d angles groups wt xs_total xs_scatter ext_rows external)
    (vec_change groups) change_gg count_gg 1 flux_old.

(** multi_group_0d.py:302-392 discrete_ordinates_aniso: state (scalar flux, moments). *)
Definition aniso_pass_0d (angles nm : nat) (wt : vec) (leg legw : mat2) (xs_total : R)
    (xs_scatter_w : vec) (off : R) (ext_len : nat) (external : vec) (st : R * vec) : R * vec :=
  let moments := snd st in
  let anisotropic n := rsum nm (fun l => xs_scatter_w l * moments l * leg l n) in
  for_up angles (fun nn acc =>
    let angular := (anisotropic nn + external (bidx ext_len nn) + off) / xs_total in
    (fst acc + angular * wt nn, fun l => snd acc l + angular * legw l nn)) (0, zeros).

Definition discrete_ordinates_aniso_0d (angles nm : nat) (wt : vec) (leg legw : mat2)
    (xs_total : R) (xs_scatter_w : vec) (off : R) (ext_len : nat) (external : vec)
    (flux_old : R) : outcome R :=
  bind (iterate count_nn
          (fun st => Ok (aniso_pass_0d angles nm wt leg legw xs_total xs_scatter_w off ext_len external st))
          (fun new old => scalar_change (fst new) (fst old)) change_nn count_nn 1
          (flux_old, fun l => if Nat.eqb l 0 then flux_old else 0))
    (fun st => Ok (fst st)).

(** multi_group_0d.py:218-299 source_iteration_aniso *)
Definition sweep_aniso_0d (angles groups nm : nat) (wt : vec) (leg legw : mat2) (xs_total : vec)
    (xs_scatter : mat3) (ext_rows : nat) (external : arr2) (flux_old : vec) : outcome vec :=
  for_up_err groups (fun gg flux =>
    let qq := bidx (cols2 external) gg in
    let off := off_scatter_0d groups flux flux_old (fun o i => xs_scatter o i 0%nat) gg in
    bind (discrete_ordinates_aniso_0d angles nm wt leg legw (xs_total gg)
            (fun l => xs_scatter gg gg l * (2 * INR l + 1)) off ext_rows
            (fun n => at2 external n qq) (flux_old gg))
      (fun v => Ok (upd flux gg v))) zeros.

Definition source_iteration_aniso_0d (angles groups nm : nat) (wt : vec) (leg legw : mat2)
    (xs_total : vec) (xs_scatter : mat3) (ext_rows : nat) (external : arr2) (flux_old : vec)
  : outcome vec :=
  iterate count_gg (sweep_aniso_0d angles groups nm wt leg legw xs_total xs_scatter ext_rows external)
    (vec_change groups) change_gg count_gg 1 flux_old.

(** tools.py:1528-1672 _fission_mat_source_0d, _fission_vec_source_0d, _update_keff_mat_0d,
    _update_keff_vec_0d *)
Inductive fission_0d :=
| FissionMatrix0 (xs : mat2)
| FissionVector0 (chi nusigf : vec).

Definition fission_source_0d (groups : nat) (fission : fission_0d) (flux : vec) (keff : R) : vec :=
  for_up groups (fun og source =>
    upd source og
      (match fission with
       | FissionMatrix0 xs => for_up groups (fun ig s => s + flux ig * xs og ig) 0
       | FissionVector0 chi nusigf => for_up groups (fun ig s => s + flux ig * chi og * nusigf ig) 0
       end / keff)) zeros.

Definition update_keff_0d (groups : nat) (fission : fission_0d) (flux flux_old : vec) (keff : R) : R :=
  let rates := for_up groups (fun og r => for_up groups (fun ig r =>
    match fission with
    | FissionMatrix0 xs => (fst r + flux ig * xs og ig, snd r + flux_old ig * xs og ig)
    | FissionVector0 chi nusigf =>
        (fst r + flux ig * chi og * nusigf ig, snd r + flux_old ig * chi og * nusigf ig)
    end) r) (0, 0) in
  (fst rates * keff) / snd rates.

Definition norm1 (groups : nat) (f : vec) : R := sqrt (rsum groups (fun g => Rsqr (f g))).

(** critical0d.py:17-80 power_iteration; here too the test precedes [count += 1]: up to 101 passes.
    Isotropic scattering (rank-2 matrix). *)
Definition power_step_0d (angles groups : nat) (wt xs_total : vec) (xs_scatter : mat2)
    (fission : fission_0d) (st : vec * R) : outcome (vec * R) :=
  let '(flux_old, keff) := st in
  let source := fission_source_0d groups fission flux_old keff in
  bind (source_iteration_0d angles groups wt xs_total xs_scatter 1 (mkArr2 groups (fun _ g => source g))
          flux_old) (fun flux =>
    let keff := update_keff_0d groups fission flux flux_old keff in
    let n := norm1 groups flux in
    Ok (fun g => flux g / n, keff)).

Definition power_iteration_0d (angles groups : nat) (wt xs_total : vec) (xs_scatter : mat2)
    (fission : fission_0d) (guess : vec) : outcome (vec * R) :=
  iterate (count_kk + 1) (power_step_0d angles groups wt xs_total xs_scatter fission)
    (fun new old => vec_change groups (fst new) (fst old)) change_kk count_kk 0
    (fun g => guess g / Rabs (norm1 groups guess), norm1 groups guess).
