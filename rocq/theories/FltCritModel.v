(** The power iteration of discrete1/critical1d.py in floating-point arithmetic, for slabs with isotropic
    scattering; as FltModel, every operation is followed by the rounding [rnd].  The numba kernels divide
    with Python's rules: a zero divisor raises ZeroDivisionError.  Where numpy divides (the normalisations)
    a zero divisor would give infinities or NaN, which are not modelled: the model raises there too.
    Definitions only. *)
From Coq Require Import ZArith.
From Verif Require Import Base SlabModel MgModel CritModel FltModel.
Open Scope R_scope.

Section Rounded.
Variable rnd : R -> R.

(** [xs[mat].sum()] in a numba kernel: the entries in the order of the array *)
Definition flt_matrix_total (groups : nat) (xs : mat3) (m : nat) : R :=
  for_up groups (fun o s => for_up groups (fun i s => fadd rnd s (xs m o i)) s) 0.
Definition flt_row_total (groups : nat) (xs : mat2) (m : nat) : R :=
  for_up groups (fun i s => fadd rnd s (xs m i)) 0.

(** tools.py:682-744 fission_mat_prod *)
Definition flt_fission_mat_prod (cells groups : nat) (flux : mat2) (xs_fission : mat3)
    (medium : nat -> nat) (keff : R) : mat2 :=
  for_up cells (fun ii source =>
    let mat := medium ii in
    if Req_EM_T (flt_matrix_total groups xs_fission mat) 0 then source
    else for_up groups (fun og source =>
           let one_group := for_up groups (fun ig s => fadd rnd s (fmul rnd (flux ii ig) (xs_fission mat og ig))) 0 in
           fun i g => if andb (Nat.eqb i ii) (Nat.eqb g og) then fdiv rnd one_group keff else source i g) source)
    zeros2.
(** tools.py:795-860 fission_vec_prod *)
Definition flt_fission_vec_prod (cells groups : nat) (flux chi nusigf : mat2)
    (medium : nat -> nat) (keff : R) : mat2 :=
  for_up cells (fun ii source =>
    let mat := medium ii in
    if Req_EM_T (flt_row_total groups chi mat) 0 then source
    else for_up groups (fun og source =>
           let one_group := for_up groups (fun ig s =>
                              fadd rnd s (fmul rnd (fmul rnd (flux ii ig) (chi mat og)) (nusigf mat ig))) 0 in
           fun i g => if andb (Nat.eqb i ii) (Nat.eqb g og) then fdiv rnd one_group keff else source i g) source)
    zeros2.
(** tools.py:748-787 _update_keff_mat and 866-907 _update_keff_vec: the two accumulated rates *)
Definition flt_rates_mat (cells groups : nat) (flux flux_old : mat2) (xs_fission : mat3) (medium : nat -> nat) : R * R :=
  for_up cells (fun ii r =>
    let mat := medium ii in
    if Req_EM_T (flt_matrix_total groups xs_fission mat) 0 then r
    else for_up groups (fun og r => for_up groups (fun ig r =>
           (fadd rnd (fst r) (fmul rnd (flux ii ig) (xs_fission mat og ig)),
            fadd rnd (snd r) (fmul rnd (flux_old ii ig) (xs_fission mat og ig)))) r) r) (0, 0).
Definition flt_rates_vec (cells groups : nat) (flux flux_old chi nusigf : mat2) (medium : nat -> nat) : R * R :=
  for_up cells (fun ii r =>
    let mat := medium ii in
    if Req_EM_T (flt_row_total groups chi mat) 0 then r
    else for_up groups (fun og r => for_up groups (fun ig r =>
           (fadd rnd (fst r) (fmul rnd (fmul rnd (flux ii ig) (chi mat og)) (nusigf mat ig)),
            fadd rnd (snd r) (fmul rnd (fmul rnd (flux_old ii ig) (chi mat og)) (nusigf mat ig)))) r) r) (0, 0).
(** tools.py:787 and 907 [(rate_new * keff) / rate_old] *)
Definition flt_update_keff (cells groups : nat) (fission : fission_data) (medium : nat -> nat)
    (flux flux_old : mat2) (keff : R) : outcome R :=
  let r := match fission with
           | FissionMatrix xs => flt_rates_mat cells groups flux flux_old xs medium
           | FissionVector chi nusigf => flt_rates_vec cells groups flux flux_old chi nusigf medium
           end in
  if Req_EM_T (snd r) 0 then Raise ZeroDivisionError else Ok (fdiv rnd (fmul rnd (fst r) keff) (snd r)).
(** critical1d.py:89-92.  With [keff = 0] the kernels raise in the first fissile cell; without fissile
    cells the update of k raises in the same pass (its rates are 0), so the test comes first here. *)
Definition flt_fission_source (cells groups : nat) (fission : fission_data) (medium : nat -> nat)
    (flux : mat2) (keff : R) : outcome mat2 :=
  if Req_EM_T keff 0 then Raise ZeroDivisionError
  else Ok (match fission with
           | FissionMatrix xs => flt_fission_mat_prod cells groups flux xs medium keff
           | FissionVector chi nusigf => flt_fission_vec_prod cells groups flux chi nusigf medium keff
           end).

(** critical1d.py:87-119, one pass.  [norm], [norm2]: the norms of the convergence tests (quotients);
    [norm_flux]: [np.linalg.norm(flux)], whose order of summation numpy does not specify. *)
Definition flt_power_step (norm : vec -> R) (norm2 norm_flux : mat2 -> R) (P : sn) (groups : nat) (xs_total : mat2)
    (xs_scatter : mat3) (fission : fission_data) (st : mat2 * R) : outcome (mat2 * R) :=
  let '(flux_old, keff) := st in
  bind (flt_fission_source (cells P) groups fission (medium P) flux_old keff) (fun source =>
  bind (flt_source_iteration rnd norm norm2 P groups flux_old xs_total xs_scatter (as_source groups source) no_boundary)
    (fun flux =>
  bind (flt_update_keff (cells P) groups fission (medium P) flux flux_old keff) (fun keff =>
  if Req_EM_T (norm_flux flux) 0 then Raise ZeroDivisionError
  else Ok (fun i g => fdiv rnd (flux i g) (norm_flux flux), keff)))).
(** critical1d.py:75-78; [norm_k] is [np.linalg.norm] of the scalar keff *)
Definition flt_power_start (norm_flux : mat2 -> R) (norm_k : R -> R) (guess : mat2) : outcome (mat2 * R) :=
  let keff := norm_flux guess in
  if Req_EM_T (norm_k keff) 0 then Raise ZeroDivisionError
  else Ok (fun i g => fdiv rnd (guess i g) (norm_k keff), keff).
(** critical1d.py:30-135 power_iteration *)
Definition flt_power_iteration (norm : vec -> R) (norm2 norm_flux : mat2 -> R) (norm_k : R -> R) (P : sn) (groups : nat)
    (xs_total : mat2) (xs_scatter : mat3) (fission : fission_data) (guess : mat2) : outcome (mat2 * R) :=
  bind (flt_power_start norm_flux norm_k guess) (fun st =>
    iterate count_kk (flt_power_step norm norm2 norm_flux P groups xs_total xs_scatter fission)
      (fun new old => flt_change2 rnd norm2 (cells P) groups (fst new) (fst old)) change_kk count_kk 1 st).
End Rounded.
