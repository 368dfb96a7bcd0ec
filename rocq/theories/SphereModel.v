(** Model of the spherical-geometry sweeps of discrete1/spatial_sweep.py and of its
    three dispatchers.  Definitions only. *)
From Verif Require Import Base SlabModel.
Open Scope R_scope.

(** spatial_sweep.py:1000-1004 (repeated in every spherical kernel, e.g. 1076-1080,
    1316-1320): surface areas and volume of cell [ii] *)
Definition area1 (P : sn) (ii : nat) : R := 4 * PI * (INR ii * dx P ii) ^ 2.
Definition area2 (P : sn) (ii : nat) : R := 4 * PI * (INR (ii + 1) * dx P ii) ^ 2.
Definition volume (P : sn) (ii : nat) : R :=
  4 / 3 * PI * ((INR (ii + 1) * dx P ii) ^ 3 - (INR ii * dx P ii) ^ 3).

(** spatial_sweep.py:924-950 angle_coef_corrector *)
Definition angle_coef_corrector (alpha_minus angle_x angle_w : R) (nn angles : nat) : R :=
  if negb (Nat.eqb nn (angles - 1)) then alpha_minus - angle_x * angle_w else 0.

(** spatial_sweep.py:896-920 _half_angle_iso; returns the new half_angle array. *)
Definition half_angle_iso (P : sn) (flux xs_total xs_scatter off_scatter external : vec)
    (angle_plus : R) : vec :=
  snd (for_down (cells P) (fun ii st =>
    let '(angle_plus, half_angle) := st in
    let m := medium P ii in
    let h := (2 * angle_plus
              + dx P ii * (external ii + off_scatter ii + xs_scatter m * flux ii))
             / (2 + xs_total m * dx P ii) in
    (2 * h - angle_plus, upd half_angle ii h)) (angle_plus, zeros)).

(** spatial_sweep.py:959-1027 sphere_forward_iso.  [flux] and [half_angle] are updated in
    place in the code and returned here.  The callers pass [angle_w] twice when a scalar
    flux is accumulated, and [weight = 1] for an angular flux. *)
Definition sphere_forward_iso (P : sn) (flux flux_old half_angle xs_total xs_scatter
    off_scatter external : vec) (angle_x angle_w weight tau alpha_plus alpha_minus : R)
    (edges : nat) : vec * vec :=
  let edge1 := half_angle 0%nat in
  let flux := if Nat.eqb edges 1 then upd flux 0 (flux 0%nat + weight * edge1) else flux in
  let '(_, flux, half_angle) :=
    for_up (cells P) (fun ii st =>
      let '(edge1, flux, half_angle) := st in
      let m := medium P ii in
      let center :=
        (angle_x * (area2 P ii + area1 P ii) * edge1
         + (1 / angle_w) * (area2 P ii - area1 P ii) * (alpha_plus + alpha_minus) * half_angle ii
         + volume P ii * (external ii + off_scatter ii + flux_old ii * xs_scatter m))
        / (2 * angle_x * area2 P ii
           + 2 / angle_w * (area2 P ii - area1 P ii) * alpha_plus
           + xs_total m * volume P ii) in
      let flux :=
        if Nat.eqb edges 1
        then upd flux (ii + 1) (flux (ii + 1)%nat + weight * (2 * center - edge1))
        else upd flux ii (flux ii + weight * center) in
      let half_angle :=
        if negb (Nat.eqb ii 0)
        then upd half_angle ii (1 / tau * (center - (1 - tau) * half_angle ii))
        else half_angle in
      (2 * center - edge1, flux, half_angle)) (edge1, flux, half_angle) in
  (flux, half_angle).

(** spatial_sweep.py:1036-1103 sphere_backward_iso *)
Definition sphere_backward_iso (P : sn) (flux flux_old half_angle xs_total xs_scatter
    off_scatter external : vec) (boundary angle_x angle_w weight tau alpha_plus alpha_minus : R)
    (edges : nat) : vec * vec :=
  let edge1 := boundary in
  let flux := if Nat.eqb edges 1
              then upd flux (cells P) (flux (cells P) + weight * edge1) else flux in
  let '(_, flux, half_angle) :=
    for_down (cells P) (fun ii st =>
      let '(edge1, flux, half_angle) := st in
      let m := medium P ii in
      let center :=
        (- angle_x * (area2 P ii + area1 P ii) * edge1
         + (1 / angle_w) * (area2 P ii - area1 P ii) * (alpha_plus + alpha_minus) * half_angle ii
         + volume P ii * (external ii + off_scatter ii + flux_old ii * xs_scatter m))
        / (2 * - angle_x * area1 P ii
           + 2 / angle_w * (area2 P ii - area1 P ii) * alpha_plus
           + xs_total m * volume P ii) in
      let flux :=
        if Nat.eqb edges 1
        then upd flux (ii + 1) (flux (ii + 1)%nat + weight * (2 * center - edge1))
        else upd flux ii (flux ii + weight * center) in
      let half_angle :=
        if negb (Nat.eqb ii 0)
        then upd half_angle ii (1 / tau * (center - (1 - tau) * half_angle ii))
        else half_angle in
      (2 * center - edge1, flux, half_angle)) (edge1, flux, half_angle) in
  (flux, half_angle).

(** spatial_sweep.py:804-884, the body of the while loop of sphere_isotropic_sn.  State of
    the ordinate loop: (flux, half_angle, angle_minus, alpha_minus). *)
Definition sphere_iso_pass (P : sn) (xs_total xs_scatter off_scatter : vec)
    (external boundary : arr2) (edges : nat) (flux_old : vec) : outcome vec :=
  let half_angle :=
    half_angle_iso P flux_old xs_total xs_scatter off_scatter
      (fun i => at2 external i 0%nat) (at2 boundary 1%nat 0%nat) in
  bind
    (for_up_err (angles P) (fun nn st =>
       let '(flux, half_angle, angle_minus, alpha_minus) := st in
       let qq := bidx (cols2 external) nn in
       let bc := bidx (cols2 boundary) nn in
       let angle_plus := angle_minus + 2 * wt P nn in
       let tau := (mu P nn - angle_minus) / (angle_plus - angle_minus) in
       let alpha_plus := angle_coef_corrector alpha_minus (mu P nn) (wt P nn) nn (angles P) in
       if Rlt_dec 0 (mu P nn) then
         let '(flux, half_angle) :=
           sphere_forward_iso P flux flux_old half_angle xs_total xs_scatter off_scatter
             (fun i => at2 external i qq) (mu P nn) (wt P nn) (wt P nn) tau
             alpha_plus alpha_minus edges in
         Ok (flux, half_angle, angle_plus, alpha_plus)
       else if Rlt_dec (mu P nn) 0 then
         let '(flux, half_angle) :=
           sphere_backward_iso P flux flux_old half_angle xs_total xs_scatter off_scatter
             (fun i => at2 external i qq) (at2 boundary 1%nat bc) (mu P nn) (wt P nn) (wt P nn)
             tau alpha_plus alpha_minus edges in
         Ok (flux, half_angle, angle_plus, alpha_plus)
       else Raise DiscontinuityAt0)
      (zeros, half_angle, -1, 0))
    (fun st => let '(flux, _, _, _) := st in Ok flux).

(** spatial_sweep.py:759-887 sphere_isotropic_sn *)
Definition sphere_isotropic_sn (P : sn) (flux_old xs_total xs_scatter off_scatter : vec)
    (external boundary : arr2) (edges : nat) : outcome vec :=
  iterate count_nn (sphere_iso_pass P xs_total xs_scatter off_scatter external boundary edges)
    (rel_change (cells P)) change_nn count_nn 1 flux_old.

(** spatial_sweep.py:1240-1268 _half_angle_aniso; the L=0 cross section is indexed by cell. *)
Definition half_angle_aniso (P : sn) (flux xs_total xs_scatter_l0 off_scatter external : vec)
    (angle_plus : R) : vec :=
  snd (for_down (cells P) (fun ii st =>
    let '(angle_plus, half_angle) := st in
    let m := medium P ii in
    let h := (2 * angle_plus
              + dx P ii * (external ii + off_scatter ii + xs_scatter_l0 ii * flux ii))
             / (2 + xs_total m * dx P ii) in
    (2 * h - angle_plus, upd half_angle ii h)) (angle_plus, zeros)).

(** spatial_sweep.py:1277-1346 sphere_forward_aniso; returns (flux, half_angle, psi). *)
Definition sphere_forward_aniso (P : sn) (flux half_angle xs_total anisotropic
    off_scatter external : vec) (angle_x angle_w weight tau alpha_plus alpha_minus : R)
    (edges : nat) : vec * vec * vec :=
  let edge1 := half_angle 0%nat in
  let flux := if Nat.eqb edges 1 then upd flux 0 (flux 0%nat + weight * edge1) else flux in
  let '(_, flux, half_angle, psi) :=
    for_up (cells P) (fun ii st =>
      let '(edge1, flux, half_angle, psi) := st in
      let m := medium P ii in
      let center :=
        (angle_x * (area2 P ii + area1 P ii) * edge1
         + (1 / angle_w) * (area2 P ii - area1 P ii) * (alpha_plus + alpha_minus) * half_angle ii
         + volume P ii * (external ii + off_scatter ii + anisotropic ii))
        / (2 * angle_x * area2 P ii
           + 2 / angle_w * (area2 P ii - area1 P ii) * alpha_plus
           + xs_total m * volume P ii) in
      let psi := upd psi ii center in
      let flux :=
        if Nat.eqb edges 1
        then upd flux (ii + 1) (flux (ii + 1)%nat + weight * (2 * center - edge1))
        else upd flux ii (flux ii + weight * center) in
      let half_angle :=
        if negb (Nat.eqb ii 0)
        then upd half_angle ii (1 / tau * (center - (1 - tau) * half_angle ii))
        else half_angle in
      (2 * center - edge1, flux, half_angle, psi)) (edge1, flux, half_angle, zeros) in
  (flux, half_angle, psi).

(** spatial_sweep.py:1355-1424 sphere_backward_aniso *)
Definition sphere_backward_aniso (P : sn) (flux half_angle xs_total anisotropic
    off_scatter external : vec) (boundary angle_x angle_w weight tau alpha_plus alpha_minus : R)
    (edges : nat) : vec * vec * vec :=
  let edge1 := boundary in
  let flux := if Nat.eqb edges 1
              then upd flux (cells P) (flux (cells P) + weight * edge1) else flux in
  let '(_, flux, half_angle, psi) :=
    for_down (cells P) (fun ii st =>
      let '(edge1, flux, half_angle, psi) := st in
      let m := medium P ii in
      let center :=
        (- angle_x * (area2 P ii + area1 P ii) * edge1
         + (1 / angle_w) * (area2 P ii - area1 P ii) * (alpha_plus + alpha_minus) * half_angle ii
         + volume P ii * (external ii + off_scatter ii + anisotropic ii))
        / (2 * - angle_x * area1 P ii
           + 2 / angle_w * (area2 P ii - area1 P ii) * alpha_plus
           + xs_total m * volume P ii) in
      let psi := upd psi ii center in
      let flux :=
        if Nat.eqb edges 1
        then upd flux (ii + 1) (flux (ii + 1)%nat + weight * (2 * center - edge1))
        else upd flux ii (flux ii + weight * center) in
      let half_angle :=
        if negb (Nat.eqb ii 0)
        then upd half_angle ii (1 / tau * (center - (1 - tau) * half_angle ii))
        else half_angle in
      (2 * center - edge1, flux, half_angle, psi)) (edge1, flux, half_angle, zeros) in
  (flux, half_angle, psi).

(** spatial_sweep.py:1150-1228, body of the while loop of sphere_anisotropic_sn; the state
    carried between passes is (flux, flux_moments). *)
Definition sphere_aniso_pass (P : sn) (n_moments : nat) (xs_total : vec)
    (xs_self_scatter xs_scatter_w : mat2) (off_scatter : vec) (external boundary : arr2)
    (edges : nat) (leg legw : mat2) (old : vec * mat2) : outcome (vec * mat2) :=
  let flux_old := fst old in
  let anisotropic := aniso_source n_moments xs_scatter_w (snd old) leg in
  let half_angle :=
    half_angle_aniso P flux_old xs_total (fun i => xs_self_scatter i 0%nat) off_scatter
      (fun i => at2 external i 0%nat) (at2 boundary 1%nat 0%nat) in
  bind
    (for_up_err (angles P) (fun nn st =>
       let '(flux, moments, half_angle, angle_minus, alpha_minus) := st in
       let qq := bidx (cols2 external) nn in
       let bc := bidx (cols2 boundary) nn in
       let angle_plus := angle_minus + 2 * wt P nn in
       let tau := (mu P nn - angle_minus) / (angle_plus - angle_minus) in
       let alpha_plus := angle_coef_corrector alpha_minus (mu P nn) (wt P nn) nn (angles P) in
       if Rlt_dec 0 (mu P nn) then
         let '(flux, half_angle, psi) :=
           sphere_forward_aniso P flux half_angle xs_total (fun i => anisotropic i nn) off_scatter
             (fun i => at2 external i qq) (mu P nn) (wt P nn) (wt P nn) tau
             alpha_plus alpha_minus edges in
         Ok (flux, (fun x l => moments x l + psi x * legw l nn), half_angle, angle_plus, alpha_plus)
       else if Rlt_dec (mu P nn) 0 then
         let '(flux, half_angle, psi) :=
           sphere_backward_aniso P flux half_angle xs_total (fun i => anisotropic i nn) off_scatter
             (fun i => at2 external i qq) (at2 boundary 1%nat bc) (mu P nn) (wt P nn) (wt P nn)
             tau alpha_plus alpha_minus edges in
         Ok (flux, (fun x l => moments x l + psi x * legw l nn), half_angle, angle_plus, alpha_plus)
       else Raise DiscontinuityAt0)
      (zeros, zeros2, half_angle, -1, 0))
    (fun st => let '(flux, moments, _, _, _) := st in Ok (flux, moments)).

(** spatial_sweep.py:1111-1231 sphere_anisotropic_sn *)
Definition sphere_anisotropic_sn (P : sn) (flux_old : vec) (n_moments : nat) (xs_total : vec)
    (xs_self_scatter xs_scatter_w : mat2) (off_scatter : vec) (external boundary : arr2)
    (edges : nat) (leg legw : mat2) : outcome vec :=
  bind
    (iterate count_nn
       (sphere_aniso_pass P n_moments xs_total xs_self_scatter xs_scatter_w off_scatter
          external boundary edges leg legw)
       (fun new old => rel_change (cells P) (fst new) (fst old)) change_nn count_nn 1
       (flux_old, fun x l => if Nat.eqb l 0 then flux_old x else 0))
    (fun st => Ok (fst st)).

(** spatial_sweep.py:1557-1724 sphere_known_source_sn.  Line 1607 rebinds [flux] to a
    one-dimensional array, so the first sweep of a nonzero ordinate evaluates
    [flux[:, 0]] (or [flux[:, nn]]) and numpy raises IndexError; ordinates equal to zero
    are skipped.  [xdim >= 1]; the result of a run without nonzero ordinate is the zero
    array of shape (cells,). *)
Definition sphere_known_source_sn (P : sn) (flux : mat2) (xdim : nat) (xs_total : vec)
    (source boundary : arr2) (edges : nat) : outcome vec :=
  for_up_err (angles P) (fun nn flux =>
    if Rlt_dec 0 (mu P nn) then Raise IndexError
    else if Rlt_dec (mu P nn) 0 then Raise IndexError
    else Ok flux) zeros.

(** spatial_sweep.py:2086-2100 _half_angle_scatter *)
Definition half_angle_scatter (P : sn) (xs_total scatter_source external : vec)
    (angle_plus : R) : vec :=
  snd (for_down (cells P) (fun ii st =>
    let '(angle_plus, half_angle) := st in
    let m := medium P ii in
    let h := (2 * angle_plus + dx P ii * (external ii + scatter_source ii))
             / (2 + xs_total m * dx P ii) in
    (2 * h - angle_plus, upd half_angle ii h)) (angle_plus, zeros)).

(** spatial_sweep.py:2108-2195 sphere_forward_scatter *)
Definition sphere_forward_scatter (P : sn) (flux half_angle xs_total scatter_source
    external : vec) (angle_x angle_w weight tau alpha_plus alpha_minus : R) : vec * vec :=
  let '(_, flux, half_angle) :=
    for_up (cells P) (fun ii st =>
      let '(edge1, flux, half_angle) := st in
      let m := medium P ii in
      let center :=
        (angle_x * (area2 P ii + area1 P ii) * edge1
         + (1 / angle_w) * (area2 P ii - area1 P ii) * (alpha_plus + alpha_minus) * half_angle ii
         + volume P ii * (external ii + scatter_source ii))
        / (2 * angle_x * area2 P ii
           + 2 / angle_w * (area2 P ii - area1 P ii) * alpha_plus
           + xs_total m * volume P ii) in
      let half' :=
        if negb (Nat.eqb ii 0)
        then upd half_angle ii (1 / tau * (center - (1 - tau) * half_angle ii))
        else half_angle in
      (2 * center - edge1, upd flux ii (flux ii + weight * center), half'))
      (half_angle 0%nat, flux, half_angle) in
  (flux, half_angle).

(** spatial_sweep.py:2203-2294 sphere_backward_scatter; the [boundary] argument is ignored
    (line 2262: [edge1 = numba.float64(0.0)]). *)
Definition sphere_backward_scatter (P : sn) (flux half_angle xs_total scatter_source
    external : vec) (boundary angle_x angle_w weight tau alpha_plus alpha_minus : R)
  : vec * vec :=
  let '(_, flux, half_angle) :=
    for_down (cells P) (fun ii st =>
      let '(edge1, flux, half_angle) := st in
      let m := medium P ii in
      let center :=
        (- angle_x * (area2 P ii + area1 P ii) * edge1
         + (1 / angle_w) * (area2 P ii - area1 P ii) * (alpha_plus + alpha_minus) * half_angle ii
         + volume P ii * (external ii + scatter_source ii))
        / (2 * - angle_x * area1 P ii
           + 2 / angle_w * (area2 P ii - area1 P ii) * alpha_plus
           + xs_total m * volume P ii) in
      let half' :=
        if negb (Nat.eqb ii 0)
        then upd half_angle ii (1 / tau * (center - (1 - tau) * half_angle ii))
        else half_angle in
      (2 * center - edge1, upd flux ii (flux ii + weight * center), half'))
      (0, flux, half_angle) in
  (flux, half_angle).

(** spatial_sweep.py:1964-2080 sphere_scatter_source_sn; as in the slab version the boundary
    column is chosen from [external.shape[1]] (l.2025). *)
Definition sphere_scatter_source_sn (P : sn) (xs_total scatter_source : vec)
    (external boundary : arr2) : outcome vec :=
  let half_angle :=
    half_angle_scatter P xs_total scatter_source (fun i => at2 external i 0%nat)
      (at2 boundary 1%nat 0%nat) in
  bind
    (for_up_err (angles P) (fun nn st =>
       let '(flux, half_angle, angle_minus, alpha_minus) := st in
       let qq := bidx (cols2 external) nn in
       let bc := bidx (cols2 external) nn in
       let angle_plus := angle_minus + 2 * wt P nn in
       let tau := (mu P nn - angle_minus) / (angle_plus - angle_minus) in
       let alpha_plus := angle_coef_corrector alpha_minus (mu P nn) (wt P nn) nn (angles P) in
       if Rlt_dec 0 (mu P nn) then
         let '(flux, half_angle) :=
           sphere_forward_scatter P flux half_angle xs_total scatter_source
             (fun i => at2 external i qq) (mu P nn) (wt P nn) (wt P nn) tau
             alpha_plus alpha_minus in
         Ok (flux, half_angle, angle_plus, alpha_plus)
       else if Rlt_dec (mu P nn) 0 then
         if Nat.ltb bc (cols2 boundary) then
           let '(flux, half_angle) :=
             sphere_backward_scatter P flux half_angle xs_total scatter_source
               (fun i => at2 external i qq) (at2 boundary 1%nat bc) (mu P nn) (wt P nn) (wt P nn)
               tau alpha_plus alpha_minus in
           Ok (flux, half_angle, angle_plus, alpha_plus)
         else Raise IndexError
       else Raise DiscontinuityAt0)
      (zeros, half_angle, -1, 0))
    (fun st => let '(flux, _, _, _) := st in Ok flux).

(** Dispatchers.  Python passes positionally; the four trailing arguments of the
    anisotropic slab driver are modelled as untyped Python values because the call at
    spatial_sweep.py:117-134 passes them in another order than the signature
    (l.506-522) declares. *)
Inductive pyval :=
| PyFlags (left right : nat)        (* bc_x: a sequence of two flags *)
| PyInt (n : nat)                   (* edges *)
| PyMatrix (a : mat2)               (* P or P_weights *)
| PyNone.

(** [xs_scatter] : one value per material, or (cells, n_moments) *)
Inductive scatter_xs :=
| Iso (xs : vec)
| Aniso (n_moments : nat) (xs : mat2).

(** spatial_sweep.py:506-522, 583: with [P] not a matrix [np.einsum("xl,xl,ln->xn", ...)]
    rejects the operand (a flag sequence is one-dimensional, an int has no dimension):
    ValueError.  The remaining tests follow the order in which the driver uses its
    arguments; only the first can be reached by the calls in the code. *)
Definition slab_anisotropic_py (P : sn) (flux_old : vec) (n_moments : nat) (xs_total : vec)
    (xs_scatter_w : mat2) (off_scatter : vec) (external boundary : arr2)
    (bc_x edges P_leg P_weights : pyval) : outcome vec :=
  match P_leg with
  | PyMatrix leg =>
      match bc_x, edges, P_weights with
      | PyFlags l r, PyInt e, PyMatrix legw =>
          slab_anisotropic_sn
            (mkSn (cells P) (medium P) (dx P) (angles P) (mu P) (wt P) l r)
            flux_old n_moments xs_total xs_scatter_w off_scatter external boundary e leg legw
      | _, _, _ => Raise TypeError
      end
  | _ => Raise ValueError
  end.

(** spatial_sweep.py:127-134: [xs_scatter * (2 * np.arange(L+1) + 1)[None, :]] *)
Definition moment_weighted (xs : mat2) : mat2 := fun x l => xs x l * (2 * INR l + 1).

(** spatial_sweep.py:34-167 discrete_ordinates.  [geometry] other than 1 or 2 returns None in
    Python, represented by [None]. *)
Definition discrete_ordinates (P : sn) (flux_old xs_total : vec) (xs_scatter : scatter_xs)
    (off_scatter : vec) (external boundary : arr2) (geometry : nat) (leg legw : option mat2)
  : option (outcome vec) :=
  let edges := 0%nat in
  let opt o := match o with Some a => PyMatrix a | None => PyNone end in
  match xs_scatter with
  | Iso xs =>
      if Nat.eqb geometry 1 then
        Some (slab_isotropic_sn P flux_old xs_total xs off_scatter external boundary edges)
      else if Nat.eqb geometry 2 then
        Some (sphere_isotropic_sn P flux_old xs_total xs off_scatter external boundary edges)
      else None
  | Aniso n_moments xs =>
      if Nat.eqb geometry 1 then
        (* positional call: (..., angle_w, P, P_weights, bc_x, edges) into
           (..., angle_w, bc_x, edges, P, P_weights) *)
        Some (slab_anisotropic_py P flux_old n_moments xs_total (moment_weighted xs) off_scatter
                external boundary (opt leg) (opt legw)
                (PyFlags (bc_left P) (bc_right P)) (PyInt edges))
      else if Nat.eqb geometry 2 then
        Some (match leg, legw with
              | Some leg, Some legw =>
                  sphere_anisotropic_sn P flux_old n_moments xs_total xs (moment_weighted xs)
                    off_scatter external boundary edges leg legw
              | _, _ => Raise ValueError
              end)
      else None
  end.

(** spatial_sweep.py:170-210 known_source_sn *)
Definition known_source_sn (P : sn) (flux : mat2) (xdim : nat) (xs_total : vec)
    (source boundary : arr2) (geometry edges : nat) : option (outcome mat2) :=
  if Nat.eqb geometry 1 then
    Some (Ok (slab_known_source_sn P flux xdim xs_total source boundary edges))
  else if Nat.eqb geometry 2 then
    Some (bind (sphere_known_source_sn P flux xdim xs_total source boundary edges)
            (fun f => Ok (fun i _ => f i)))
  else None.

(** spatial_sweep.py:213-260 scatter_source_sn *)
Definition scatter_source_sn (P : sn) (xs_total scatter_source : vec)
    (external boundary : arr2) (geometry : nat) : option (outcome vec) :=
  if Nat.eqb geometry 1 then
    Some (slab_scatter_source_sn P xs_total scatter_source external boundary)
  else if Nat.eqb geometry 2 then
    Some (sphere_scatter_source_sn P xs_total scatter_source external boundary)
  else None.
