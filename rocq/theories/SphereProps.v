(** Property theorems of the spherical solvers and the dispatchers (C15-C20, C76, and the
    spherical parts of C08-C10, C13, C14).  Vocabulary: SlabSpec.v, SphereSpec.v. *)
From Coq Require Import Lra Lia.
From Verif Require Import Base BaseFacts SlabModel SlabSpec SlabFacts SlabFacts3 SlabFacts5 SlabWitness.
From Verif Require Import SphereModel SphereSpec SphereFacts SphereFacts2 SphereWitness.
Open Scope R_scope.

(** ** C08, C09, C10 in spherical geometry *)
Theorem C08_sphere_zero_ordinate :
  forall P flux_old xs_total xs_scatter off external boundary edges m,
  (m < angles P)%nat -> mu P m = 0 ->
  sphere_isotropic_sn P flux_old xs_total xs_scatter off external boundary edges = Raise DiscontinuityAt0.
Proof. exact sphere_driver_zero. Qed.
Print Assumptions C08_sphere_zero_ordinate.
Theorem C09_sphere_trace :
  forall P flux_old xs_total xs_scatter off external boundary edges flux,
  sphere_isotropic_sn P flux_old xs_total xs_scatter off external boundary edges = Ok flux ->
  exists n x,
    (1 <= n <= 100)%nat /\ x 0%nat = flux_old /\ flux = x n /\
    (forall k, (k < n)%nat ->
       sphere_iso_pass P xs_total xs_scatter off external boundary edges (x k) = Ok (x (S k))) /\
    (forall k, (0 < k < n)%nat -> ~ settled (cells P) (x k) (x (k - 1)%nat) (/ 10 ^ 12)) /\
    ((n < 100)%nat -> settled (cells P) (x n) (x (n - 1)%nat) (/ 10 ^ 12)).
Proof. exact sphere_driver_trace. Qed.
Print Assumptions C09_sphere_trace.
Theorem C09_sphere_total :
  forall P flux_old xs_total xs_scatter off external boundary,
  nonzero_ordinates (angles P) (mu P) ->
  exists flux, sphere_isotropic_sn P flux_old xs_total xs_scatter off external boundary 0 = Ok flux.
Proof. exact sphere_driver_total. Qed.
Print Assumptions C09_sphere_total.
Theorem C10_sphere_fixed_point :
  forall P xs_total xs_scatter off external boundary flux,
  sphere_iso_pass P xs_total xs_scatter off external boundary 0 flux = Ok flux ->
  (forall i, (i < cells P)%nat -> flux i <> 0) ->
  sphere_isotropic_sn P flux xs_total xs_scatter off external boundary 0 = Ok flux.
Proof. exact sphere_driver_fixed. Qed.
Print Assumptions C10_sphere_fixed_point.
Example C09_sphere_case : exists flux,
  sphere_isotropic_sn ball zeros demo_total demo_scatter zeros one_src no_src 0 = Ok flux.
Proof. apply sphere_driver_total. exact ball_nonzero. Qed.

(** ** C13 DJINN sweep in spherical geometry: equal for a vacuum surface only *)
Theorem C13_sphere_scatter_sweep_partial :
  forall P xs_total xs_scatter off external boundary phi ss,
  (forall n, (n < angles P)%nat -> mu P n < 0 ->
     (bidx (cols2 external) n < cols2 boundary)%nat /\
     at2 boundary 1%nat (bidx (cols2 boundary) n) = 0) ->
  (forall i, (i < cells P)%nat -> ss i = off i + phi i * xs_scatter (medium P i)) ->
  sphere_scatter_source_sn P xs_total ss external boundary
  = sphere_iso_pass P xs_total xs_scatter off external boundary 0 phi.
Proof. exact sphere_scatter_equals_pass. Qed.
Print Assumptions C13_sphere_scatter_sweep_partial.
Theorem C13_sphere_surface_source_refuted :
  exists f g,
  sphere_scatter_source_sn core zeros zeros no_src (mkArr2 1 (fun _ _ => 1)) = Ok f /\
  sphere_iso_pass core zeros zeros zeros no_src (mkArr2 1 (fun _ _ => 1)) 0 zeros = Ok g /\
  f 0%nat = 3 / 4 /\ g 0%nat = 1.
Proof. exact core_scatter_differs. Qed.
Print Assumptions C13_sphere_surface_source_refuted.
Example C13_sphere_case : forall n, (n < angles ball)%nat -> mu ball n < 0 ->
     (bidx (cols2 one_src) n < cols2 no_src)%nat /\
     at2 no_src 1%nat (bidx (cols2 no_src) n) = 0.
Proof. intros n Hn _. small n Hn; cbn; split; (lia || reflexivity). Qed.

(** ** C14 One Legendre moment in spherical geometry *)
Theorem C14_sphere_one_moment_is_isotropic :
  forall P flux_old xs_total xs_scatter xs0 xs_w off external boundary leg legw,
  (forall i, (i < cells P)%nat -> xs0 i 0%nat = xs_scatter (medium P i) /\ xs_w i 0%nat = xs_scatter (medium P i)) ->
  (forall m, (m < angles P)%nat -> leg 0%nat m = 1 /\ legw 0%nat m = wt P m) ->
  sphere_anisotropic_sn P flux_old 1 xs_total xs0 xs_w off external boundary 0 leg legw
  = sphere_isotropic_sn P flux_old xs_total xs_scatter off external boundary 0.
Proof. exact sphere_aniso_is_iso. Qed.
Print Assumptions C14_sphere_one_moment_is_isotropic.
Example C14_sphere_case : exists xs0 leg legw : mat2,
  (forall i, (i < cells ball)%nat -> xs0 i 0%nat = demo_scatter (medium ball i) /\ xs0 i 0%nat = demo_scatter (medium ball i)) /\
  (forall m, (m < angles ball)%nat -> leg 0%nat m = 1 /\ legw 0%nat m = wt ball m).
Proof. exists (fun i _ => demo_scatter i), (fun _ _ => 1), (fun _ _ => 1 / 2). split; intros; split; reflexivity. Qed.

(** ** C15 The dispatcher *)
Theorem C15_isotropic_dispatch :
  forall P flux_old xs_total xs off external boundary leg legw,
  discrete_ordinates P flux_old xs_total (Iso xs) off external boundary 1 leg legw
    = Some (slab_isotropic_sn P flux_old xs_total xs off external boundary 0) /\
  discrete_ordinates P flux_old xs_total (Iso xs) off external boundary 2 leg legw
    = Some (sphere_isotropic_sn P flux_old xs_total xs off external boundary 0).
Proof. exact dispatch_iso. Qed.
Print Assumptions C15_isotropic_dispatch.
Theorem C15_sphere_anisotropic_dispatch :
  forall P flux_old xs_total nm xs off external boundary leg legw,
  discrete_ordinates P flux_old xs_total (Aniso nm xs) off external boundary 2 (Some leg) (Some legw)
    = Some (sphere_anisotropic_sn P flux_old nm xs_total xs (fun x l => xs x l * (2 * INR l + 1))
              off external boundary 0 leg legw).
Proof. exact dispatch_aniso_sphere. Qed.
Print Assumptions C15_sphere_anisotropic_dispatch.
(** the documented slab call always fails: its arguments are passed in the wrong order *)
Theorem C15_slab_anisotropic_refuted :
  forall P flux_old xs_total nm xs off external boundary leg legw,
  discrete_ordinates P flux_old xs_total (Aniso nm xs) off external boundary 1 leg legw
    = Some (Raise ValueError).
Proof. exact dispatch_aniso_slab. Qed.
Print Assumptions C15_slab_anisotropic_refuted.

Example C15_case : (exists flux, discrete_ordinates ball zeros demo_total (Iso demo_scatter) zeros one_src no_src 2 None None = Some (Ok flux)) /\
  exists flux, discrete_ordinates demo zeros demo_total (Iso demo_scatter) zeros one_src no_src 1 None None = Some (Ok flux).
Proof.
  split.
  - destruct (sphere_driver_total ball zeros demo_total demo_scatter zeros one_src no_src ball_nonzero) as [f E]. exists f. cbn [discrete_ordinates]. rewrite <- E. reflexivity.
  - destruct (driver_total demo zeros demo_total demo_scatter zeros one_src no_src 0 demo_nonzero) as [f E]. exists f. cbn [discrete_ordinates]. rewrite <- E. reflexivity.
Qed.

(** ** C16 Known-source solves in spherical geometry always fail *)
Theorem C16_sphere_known_source_refuted :
  forall P flux xdim xs_total source boundary edges,
  (exists m, (m < angles P)%nat /\ mu P m <> 0) ->
  known_source_sn P flux xdim xs_total source boundary 2 edges = Some (Raise IndexError).
Proof. exact sphere_known_fails. Qed.
Print Assumptions C16_sphere_known_source_refuted.
Example C16_case : exists m, (m < angles ball)%nat /\ mu ball m <> 0.
Proof. exists 0%nat. split; [cbn; lia|apply ball_nonzero; cbn; lia]. Qed.

(** ** C17 Each spherical sweep solves the curvilinear diamond equations, uniquely *)
Theorem C17_sphere_sweep :
  forall P xs_total xs_scatter off external boundary edges flux_old flux,
  nonzero_ordinates (angles P) (mu P) -> sphere_divisors P xs_total -> edges <> 1%nat ->
  (forall i, (i < cells P)%nat -> dx P i <> 0) ->
  sphere_iso_pass P xs_total xs_scatter off external boundary edges flux_old = Ok flux ->
  exists start psi hm hp,
    sphere_transport (cells P) (angles P) (mu P) (wt P) (dx P) (fun i => xs_total (medium P i))
      (iso_source (medium P) xs_scatter off external flux_old)
      (fun i => xs_scatter (medium P i) * flux_old i + at2 external i 0%nat + off i)
      (fun m => at2 boundary 1%nat (bidx (cols2 boundary) m)) (at2 boundary 1%nat 0%nat)
      start psi hm hp flux.
Proof. exact sphere_pass_transport. Qed.
Print Assumptions C17_sphere_sweep.
Theorem C17_unique_solution :
  forall P xs_total q q0 bnd bnd0 s1 p1 hm1 hp1 phi1 s2 p2 hm2 hp2 phi2,
  nonzero_ordinates (angles P) (mu P) -> sphere_divisors P xs_total ->
  (forall i, (i < cells P)%nat -> dx P i <> 0) ->
  let T := sphere_transport (cells P) (angles P) (mu P) (wt P) (dx P)
             (fun i => xs_total (medium P i)) q q0 bnd bnd0 in
  T s1 p1 hm1 hp1 phi1 -> T s2 p2 hm2 hp2 phi2 ->
  forall i, (i < cells P)%nat -> phi1 i = phi2 i.
Proof. exact sphere_transport_unique. Qed.
Print Assumptions C17_unique_solution.
Example C17_case : nonzero_ordinates (angles ball) (mu ball) /\ sphere_divisors ball demo_total /\
  (forall i, (i < cells ball)%nat -> dx ball i <> 0) /\
  exists flux, sphere_iso_pass ball demo_total demo_scatter zeros one_src no_src 0 zeros = Ok flux.
Proof.
  split; [exact ball_nonzero|]. split; [exact ball_divisors|]. split; [intros; cbn; lra|].
  eexists. apply sphere_iso_pass_ok; [exact ball_nonzero|reflexivity].
Qed.

(** ** C18 Conservation.  In every cell the balance holds up to the angular redistribution
    left over by the code's closures; it vanishes in the outer cells when every angular
    weight is the diamond one, and does not in general. *)
Theorem C18_cell_balance_partial :
  forall n angles mu wt dx sigt q q0 bnd bnd0 start psi hm hp phi i,
  sphere_transport n angles mu wt dx sigt q q0 bnd bnd0 start psi hm hp phi ->
  (forall m, (m < angles)%nat -> wt m <> 0) -> (i < n)%nat ->
  shell_leakage angles mu wt (code_rin dx) (code_rout dx) psi i
  + sigt i * (ball_volume (code_rout dx i) - ball_volume (code_rin dx i)) * phi i
  = (ball_volume (code_rout dx i) - ball_volume (code_rin dx i))
    * rsum angles (fun m => wt m * q m i)
    - (sphere_area (code_rout dx i) - sphere_area (code_rin dx i))
      * rsum angles (fun m => alpha_coef angles mu wt (S m) * hp m i
                              - alpha_coef angles mu wt m * hm m i).
Proof. exact sphere_cell_balance. Qed.
Print Assumptions C18_cell_balance_partial.
Theorem C18_outer_cells_diamond_partial :
  forall n angles mu wt dx sigt q q0 bnd bnd0 start psi hm hp phi i,
  sphere_transport n angles mu wt dx sigt q q0 bnd bnd0 start psi hm hp phi ->
  (forall m, (m < angles)%nat -> wt m <> 0) ->
  (forall m, (S m < angles)%nat -> tau_coef mu wt m = 1 / 2) -> (0 < i < n)%nat ->
  shell_leakage angles mu wt (code_rin dx) (code_rout dx) psi i
  + sigt i * (ball_volume (code_rout dx i) - ball_volume (code_rin dx i)) * phi i
  = (ball_volume (code_rout dx i) - ball_volume (code_rin dx i))
    * rsum angles (fun m => wt m * q m i).
Proof. exact sphere_cell_conservation. Qed.
Print Assumptions C18_outer_cells_diamond_partial.
Theorem C18_conservation_refuted :
  exists P xs_total xs_scatter off external boundary flux_old flux,
    nonzero_ordinates (angles P) (mu P) /\ sphere_divisors P xs_total /\
    sphere_iso_pass P xs_total xs_scatter off external boundary 0 flux_old = Ok flux /\
    (exists start psi hm hp,
       sphere_transport (cells P) (angles P) (mu P) (wt P) (dx P) (fun i => xs_total (medium P i))
         (iso_source (medium P) xs_scatter off external flux_old)
         (fun i => xs_scatter (medium P i) * flux_old i + at2 external i 0%nat + off i)
         (fun m => at2 boundary 1%nat (bidx (cols2 boundary) m)) (at2 boundary 1%nat 0%nat)
         start psi hm hp flux) /\
    forall start psi hm hp,
      sphere_transport (cells P) (angles P) (mu P) (wt P) (dx P) (fun i => xs_total (medium P i))
        (iso_source (medium P) xs_scatter off external flux_old)
        (fun i => xs_scatter (medium P i) * flux_old i + at2 external i 0%nat + off i)
        (fun m => at2 boundary 1%nat (bidx (cols2 boundary) m)) (at2 boundary 1%nat 0%nat)
        start psi hm hp flux ->
      rsum (cells P) (fun i =>
        shell_leakage (angles P) (mu P) (wt P) (code_rin (dx P)) (code_rout (dx P)) psi i
        + xs_total (medium P i) * (ball_volume (code_rout (dx P) i) - ball_volume (code_rin (dx P) i)) * flux i)
      <> rsum (cells P) (fun i =>
           (ball_volume (code_rout (dx P) i) - ball_volume (code_rin (dx P) i))
           * rsum (angles P) (fun m => wt P m * iso_source (medium P) xs_scatter off external flux_old m i)).
Proof.
  destruct (sphere_driver_total core zeros zeros zeros zeros one_src no_src core_nonzero) as [_ _].
  pose proof (sphere_iso_pass_ok core zeros zeros zeros one_src no_src 0 zeros core_nonzero eq_refl) as E.
  eexists core, zeros, zeros, zeros, one_src, no_src, zeros, _.
  split; [exact core_nonzero|]. split; [exact core_divisors|]. split; [exact E|]. split.
  - apply (sphere_pass_transport core zeros zeros zeros one_src no_src 0 zeros _ core_nonzero core_divisors).
    + discriminate.
    + intros i _. cbn. lra.
    + exact E.
  - intros start psi hm hp HT. destruct (core_not_conserved start psi hm hp _ HT) as [H1 H2].
    pose proof PI_RGT_0. change (cells core) with 1%nat. cbn [rsum]. rewrite H1, H2. unfold zeros. lra.
Qed.
Print Assumptions C18_conservation_refuted.
Example C18_case : (forall m, (m < angles ball)%nat -> wt ball m <> 0) /\
  (forall m, (S m < angles ball)%nat -> tau_coef (mu ball) (wt ball) m = 1 / 2).
Proof. split; [intros; cbn; lra|]. intros m Hm. apply ball_tau. lia. Qed.

(** ** C19 The shells tile the ball exactly when the mesh is uniform *)
Theorem C19_uniform_mesh_partial :
  forall n dx d,
  (forall i, (i < n)%nat -> dx i = d) ->
  (forall i, (i < n)%nat -> code_rin dx i = mesh_radius dx i /\ code_rout dx i = mesh_radius dx (S i)) /\
  rsum n (fun i => ball_volume (code_rout dx i) - ball_volume (code_rin dx i)) = ball_volume (rsum n dx).
Proof. exact shells_tile. Qed.
Print Assumptions C19_uniform_mesh_partial.
Theorem C19_contiguous_iff_uniform :
  forall n dx,
  (forall i, (S i < n)%nat -> code_rout dx i = code_rin dx (S i)) <->
  (forall i, (i < n)%nat -> dx i = dx 0%nat).
Proof. exact shells_contiguous_iff. Qed.
Print Assumptions C19_contiguous_iff_uniform.
Theorem C19_nonuniform_refuted :
  exists P xs_total external boundary flux,
    sphere_divisors P xs_total /\ (forall i, (i < cells P)%nat -> 0 < dx P i) /\
    sphere_iso_pass P xs_total zeros zeros external boundary 0 zeros = Ok flux /\
    forall start psi hm hp,
      sphere_transport (cells P) (angles P) (mu P) (wt P) (dx P) (fun i => xs_total (medium P i))
        (iso_source (medium P) zeros zeros external zeros)
        (fun i => zeros (medium P i) * zeros i + at2 external i 0%nat + zeros i)
        (fun m => at2 boundary 1%nat (bidx (cols2 boundary) m)) (at2 boundary 1%nat 0%nat)
        start psi hm hp flux ->
      ~ forall m, (m < angles P)%nat ->
          shell_balance (cells P) (mesh_radius (dx P)) (fun i => mesh_radius (dx P) (S i))
            (mu P m) (wt P m) (alpha_coef (angles P) (mu P) (wt P) m)
            (alpha_coef (angles P) (mu P) (wt P) (S m)) (fun i => xs_total (medium P i))
            (iso_source (medium P) zeros zeros external zeros m) (psi m) (hm m) (hp m).
Proof.
  eexists uneven, zeros, one_src, no_src, _.
  split; [exact uneven_divisors|]. split; [intros i Hi; small i Hi; cbn; lra|].
  split; [apply sphere_iso_pass_ok; [exact uneven_nonzero|reflexivity]|].
  intros start psi hm hp HT H. apply (uneven_wrong_shells start psi hm hp _ HT).
  exact (H 0%nat ltac:(cbn; lia)).
Qed.
Print Assumptions C19_nonuniform_refuted.
Example C19_case : forall i, (i < cells ball)%nat -> dx ball i = 1.
Proof. reflexivity. Qed.

(** ** C20 The flat infinite-medium solution is preserved *)
Theorem C20_sphere_pass_flat :
  forall P xs_total xs_scatter off external boundary flux_old c,
  let W := rsum (angles P) (wt P) in
  nonzero_ordinates (angles P) (mu P) -> sphere_divisors P xs_total -> (0 < angles P)%nat ->
  rsum (angles P) (fun k => mu P k * wt P k) = 0 ->
  (forall i, (i < cells P)%nat -> flux_old i = W * c) ->
  (forall m i, (m < angles P)%nat -> (i < cells P)%nat ->
     xs_total (medium P i) * c
     = xs_scatter (medium P i) * (W * c) + at2 external i (bidx (cols2 external) m) + off i) ->
  (forall m, (m < angles P)%nat -> at2 boundary 1%nat (bidx (cols2 boundary) m) = c) ->
  exists flux,
    sphere_iso_pass P xs_total xs_scatter off external boundary 0 flux_old = Ok flux /\
    forall i, (i < cells P)%nat -> flux i = W * c.
Proof. exact sphere_pass_flat. Qed.
Print Assumptions C20_sphere_pass_flat.
Theorem C20_sphere_driver_flat :
  forall P xs_total xs_scatter off external boundary flux_old c,
  let W := rsum (angles P) (wt P) in
  nonzero_ordinates (angles P) (mu P) -> sphere_divisors P xs_total -> (0 < angles P)%nat ->
  rsum (angles P) (fun k => mu P k * wt P k) = 0 -> W * c <> 0 ->
  (forall i, (i < cells P)%nat -> flux_old i = W * c) ->
  (forall m i, (m < angles P)%nat -> (i < cells P)%nat ->
     xs_total (medium P i) * c
     = xs_scatter (medium P i) * (W * c) + at2 external i (bidx (cols2 external) m) + off i) ->
  (forall m, (m < angles P)%nat -> at2 boundary 1%nat (bidx (cols2 boundary) m) = c) ->
  exists flux,
    sphere_isotropic_sn P flux_old xs_total xs_scatter off external boundary 0 = Ok flux /\
    forall i, (i < cells P)%nat -> flux i = W * c.
Proof. exact sphere_driver_flat. Qed.
Print Assumptions C20_sphere_driver_flat.
Example C20_case :
  rsum (angles ball) (fun k => mu ball k * wt ball k) = 0 /\
  rsum (angles ball) (wt ball) * 2 <> 0 /\
  (forall m i, (m < angles ball)%nat -> (i < cells ball)%nat ->
     demo_total (medium ball i) * 2
     = demo_scatter (medium ball i) * (rsum (angles ball) (wt ball) * 2)
       + at2 flat_ext i (bidx (cols2 flat_ext) m) + zeros i).
Proof.
  split; [exact ball_sum|]. split; [cbn; lra|].
  intros m i Hm Hi. unfold demo_total, demo_scatter, flat_ext, zeros. small i Hi; cbn; lra.
Qed.

(** ** C76 No division by zero for an inward-first quadrature *)
Theorem C76_divisors_positive :
  forall P xs_total,
  nonzero_ordinates (angles P) (mu P) -> inward_first (angles P) (mu P) ->
  (forall k, (k < angles P)%nat -> 0 < wt P k) ->
  rsum (angles P) (fun k => mu P k * wt P k) = 0 ->
  (forall i, (i < cells P)%nat -> 0 < dx P i /\ 0 <= xs_total (medium P i)) ->
  (forall m, (m < angles P)%nat -> tau_coef (mu P) (wt P) m <> 0) ->
  sphere_divisors P xs_total.
Proof. exact sphere_divisors_positive. Qed.
Print Assumptions C76_divisors_positive.
Example C76_case : nonzero_ordinates (angles ball) (mu ball) /\ inward_first (angles ball) (mu ball) /\
  (forall k, (k < angles ball)%nat -> 0 < wt ball k) /\
  rsum (angles ball) (fun k => mu ball k * wt ball k) = 0 /\
  (forall m, (m < angles ball)%nat -> tau_coef (mu ball) (wt ball) m <> 0).
Proof.
  split; [exact ball_nonzero|]. split; [exact ball_inward|]. split; [exact ball_weights|].
  split; [exact ball_sum|]. intros m Hm. rewrite ball_tau by exact Hm. lra.
Qed.
