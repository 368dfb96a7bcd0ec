(** Specification vocabulary for spherical transport, independent of the model's code. *)
From Verif Require Import Base SlabModel SlabSpec.  (* SlabModel only for the record [sn] *)
Open Scope R_scope.

Definition sphere_area (r : R) : R := 4 * PI * r ^ 2.
Definition ball_volume (r : R) : R := 4 / 3 * PI * r ^ 3.

(** Diamond-difference balance of one ordinate over the shells between the radii
    [rin i] and [rout i]:
    [mu (A_out psi_out - A_in psi_in) + (A_out - A_in)/w (alpha_plus hp - alpha_minus hm)
       + sigma_t V c = V q],  with [c = (psi_in + psi_out)/2 = (hm + hp)/2]. *)
Definition shell_balance (n : nat) (rin rout : vec) (mu w alpha_minus alpha_plus : R)
    (sigt q psi hm hp : vec) : Prop :=
  forall i, (i < n)%nat ->
    let a_in := sphere_area (rin i) in
    let a_out := sphere_area (rout i) in
    let v := ball_volume (rout i) - ball_volume (rin i) in
    let c := (psi i + psi (S i)) / 2 in
    c = (hm i + hp i) / 2 /\
    mu * (a_out * psi (S i) - a_in * psi i)
    + (a_out - a_in) / w * (alpha_plus * hp i - alpha_minus * hm i)
    + sigt i * v * c = v * q i.

(** The radii the library uses: cell [i] lies between [i dx_i] and [(i+1) dx_i]. *)
Definition code_rin (dx : vec) : vec := fun i => INR i * dx i.
Definition code_rout (dx : vec) : vec := fun i => INR (S i) * dx i.

(** The radii of the mesh the user describes: running sums of the widths. *)
Definition mesh_radius (dx : vec) : vec := fun i => rsum i dx.

(** Angular differencing coefficients: [alpha_{m+1} = alpha_m - mu_m w_m], 0 at both ends. *)
Definition alpha_coef (angles : nat) (mu wt : vec) (m : nat) : R :=
  if Nat.ltb m angles then - rsum m (fun k => mu k * wt k) else 0.

(** Weighted-diamond parameter: position of [mu_m] in the angular cell that starts at
    [-1 + 2 sum_{k<m} w_k] and has width [2 w_m]. *)
Definition tau_coef (mu wt : vec) (m : nat) : R :=
  (mu m - (-1 + 2 * rsum m wt)) / (2 * wt m).

(** Every divisor of a spherical sweep is nonzero. *)
Definition sphere_divisors (P : sn) (xs_total : vec) : Prop :=
  (forall i, (i < cells P)%nat -> 2 + xs_total (medium P i) * dx P i <> 0) /\
  (forall m, (m < angles P)%nat -> wt P m <> 0 /\ tau_coef (mu P) (wt P) m <> 0) /\
  (forall m i, (m < angles P)%nat -> (i < cells P)%nat ->
     let a1 := sphere_area (code_rin (dx P) i) in
     let a2 := sphere_area (code_rout (dx P) i) in
     2 * Rabs (mu P m) * (if Rlt_dec 0 (mu P m) then a2 else a1)
     + 2 / wt P m * (a2 - a1) * alpha_coef (angles P) (mu P) (wt P) (S m)
     + xs_total (medium P i) * (ball_volume (code_rout (dx P) i) - ball_volume (code_rin (dx P) i))
     <> 0).

(** A full spherical sweep.  [start] are the edge values of the starting direction mu = -1,
    [hm m] the half-angle fluxes entering ordinate [m], [hp m] the ones leaving it. *)
Definition sphere_transport (n angles : nat) (mu wt dx sigt : vec) (q : mat2) (q0 : vec)
    (bnd : vec) (bnd0 : R) (start : vec) (psi hm hp : mat2) (phi : vec) : Prop :=
  (* starting direction: slab equation with mu = -1 *)
  dd_balance n (-1) dx sigt q0 start /\ start n = bnd0 /\
  (forall i, (i < n)%nat -> hm 0%nat i = (start i + start (S i)) / 2) /\
  (* every ordinate *)
  (forall m, (m < angles)%nat ->
     shell_balance n (code_rin dx) (code_rout dx) (mu m) (wt m)
       (alpha_coef angles mu wt m) (alpha_coef angles mu wt (S m)) sigt (q m) (psi m) (hm m) (hp m)) /\
  (* inflow: prescribed at the surface, the starting direction at the centre *)
  (forall m, (m < angles)%nat -> (0 < mu m -> psi m 0%nat = hm m 0%nat) /\ (mu m < 0 -> psi m n = bnd m)) /\
  (* weighted diamond in angle, except in the innermost cell *)
  (forall m i, (m < angles)%nat -> (0 < i < n)%nat ->
     (psi m i + psi m (S i)) / 2
     = tau_coef mu wt m * hm (S m) i + (1 - tau_coef mu wt m) * hm m i) /\
  (forall m, (m < angles)%nat -> (0 < n)%nat -> hm (S m) 0%nat = hm m 0%nat) /\
  (forall i, (i < n)%nat ->
     phi i = rsum angles (fun m => wt m * ((psi m i + psi m (S i)) / 2))).

(** Net outflow through the surfaces of cell [i]. *)
Definition shell_leakage (angles : nat) (mu wt rin rout : vec) (psi : mat2) (i : nat) : R :=
  rsum angles (fun m => wt m * mu m *
    (sphere_area (rout i) * psi m (S i) - sphere_area (rin i) * psi m i)).

(** Negative ordinates first, positive ones last. *)
Definition inward_first (angles : nat) (mu : vec) : Prop :=
  forall m k, (m < angles)%nat -> (k < angles)%nat -> mu m < 0 -> 0 < mu k -> (m < k)%nat.
