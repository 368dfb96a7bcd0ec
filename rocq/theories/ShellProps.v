(** Multigroup spheres: the sign of the flux (C142) and what the sweeps solve, with isotropic (C143) and Legendre (C145) scattering, critical
    spheres (C146, C147), what conservation (C18) comes to on fine meshes, and
    convergence of source iteration (C148). *)
From Coq Require Import Lra Lia.
From Verif Require Import Base BaseFacts SlabModel SlabSpec SphereModel SphereSpec MgModel MgSpec CritModel CritSpec HybModel HybSpec MainModel TimeModel TimeSpec InfSpec AniSpec ShellSpec ShellFacts ShellFacts2 ShellFacts3 ShellFacts4 ShellFacts5 ShellFacts6 ShellFacts7 ShellFacts8 ShellFacts9 ShellFacts10.
Open Scope R_scope.

(** ** C142 Nonnegative data give nonnegative spherical fluxes on fine meshes *)
Theorem C142_one_cell_partial :
  forall P groups old xs_total xs_scatter external boundary given flux,
  cells P = 1%nat -> sound_sphere P -> nonneg_data P groups external boundary ->
  (forall g, (g < groups)%nat -> 0 <= xs_total (medium P 0%nat) g /\ 0 <= old 0%nat g) ->
  (forall g h, (g < groups)%nat -> (h < groups)%nat -> 0 <= xs_scatter (medium P 0%nat) g h) ->
  source_iteration P groups old xs_total (Scatter3 xs_scatter) external boundary 2 given = Ok flux ->
  forall g, (g < groups)%nat -> 0 <= flux 0%nat g.
Proof. exact one_cell_nonneg. Qed.
Print Assumptions C142_one_cell_partial.
(** Any mesh, groups, scattering and illumination, if there are two ordinates and the sphere is optically small. *)
Theorem C142_two_ordinates_partial :
  forall P groups old xs_total xs_scatter external boundary given flux a,
  angles P = 2%nat -> mu P 0%nat = - a -> mu P 1%nat = a -> 0 < a <= 14 / 15 -> wt P 0%nat = / 2 -> wt P 1%nat = / 2 ->
  (forall i, (i < cells P)%nat -> 0 < dx P i) ->
  (forall i m g, (i < cells P)%nat -> 0 <= at3 external i m g) -> (forall m g, 0 <= at3 boundary 1%nat m g) ->
  (forall i g, (i < cells P)%nat -> (g < groups)%nat -> 0 <= xs_total (medium P i) g /\ 0 <= old i g) ->
  (forall i g h, (i < cells P)%nat -> (g < groups)%nat -> (h < groups)%nat -> 0 <= xs_scatter (medium P i) g h) ->
  (forall g, (g < groups)%nat -> rsum (cells P) (fun i => xs_total (medium P i) g * dx P i) <= 2 / 3 * a) ->
  source_iteration P groups old xs_total (Scatter3 xs_scatter) external boundary 2 given = Ok flux ->
  forall i g, (i < cells P)%nat -> (g < groups)%nat -> 0 <= flux i g.
Proof. exact two_ordinates_nonneg. Qed.
Print Assumptions C142_two_ordinates_partial.
(** However fine the mesh (any number of cells from two, any width, at most a thirtieth of a mean free path per cell): there is a
    sphere with nonnegative data, without scattering, on which every run returns a negative flux. *)
Theorem C142_fine_mesh_refuted : forall n d sigma, (2 <= n)%nat -> 0 < d -> 0 <= sigma -> sigma * d <= 1 / 30 ->
  exists P external boundary, cells P = n /\ (forall i, dx P i = d) /\ sound_sphere P /\ nonneg_data P 1 external boundary /\
    forall old given,
      (exists flux, source_iteration P 1 old (fun _ _ => sigma) (Scatter3 (fun _ _ _ => 0)) external boundary 2 given = Ok flux) /\
      forall flux, source_iteration P 1 old (fun _ _ => sigma) (Scatter3 (fun _ _ _ => 0)) external boundary 2 given = Ok flux ->
        exists i, (i < n)%nat /\ flux i 0%nat < 0.
Proof.
  intros n d sigma Hn Hd Hs Ht. exists (lit_ball n d), lit_ext, lit_bnd. split; [reflexivity|]. split; [reflexivity|].
  split; [apply lit_sound; exact Hd|]. split; [apply lit_data|]. intros old given. split.
  - apply ball_total. apply (lit_sound n d Hd).
  - intros flux E. exact (lit_ball_negative n d sigma old given flux Hn Hd Hs Ht E).
Qed.
Print Assumptions C142_fine_mesh_refuted.
Example C142_case : exists P external boundary flux, cells P = 1%nat /\ sound_sphere P /\ nonneg_data P 2 external boundary /\
  at3 boundary 1%nat 1%nat 0%nat = 1 /\
  source_iteration P 2 (fun _ _ => 1) (fun _ _ => 2) (Scatter3 (fun _ g h => if Nat.eqb g h then 1 else 1 / 2)) external boundary 2 None = Ok flux.
Proof.
  destruct (ball_total (lit_ball 1 1) 2 (fun _ _ => 1) (fun _ _ => 2) (fun _ g h => if Nat.eqb g h then 1 else 1 / 2) lit_ext lit_bnd None
    (proj1 (lit_sound 1 1 Rlt_0_1))) as [flux E].
  exists (lit_ball 1 1), lit_ext, lit_bnd, flux. split; [reflexivity|]. split; [apply lit_sound; lra|]. split; [|split; [reflexivity|exact E]].
  split; [intros; cbn; lra|]. intros s m g _. cbn [lit_bnd at3]. destruct (Nat.eqb s 1); [|lra]. unfold lamp. destruct (Nat.eqb m 1); lra.
Qed.
Example C142_case_two : exists P external boundary flux, cells P = 3%nat /\ angles P = 2%nat /\ mu P 0%nat = - (1 / 2) /\ mu P 1%nat = 1 / 2 /\
  wt P 0%nat = / 2 /\ wt P 1%nat = / 2 /\ (forall i, (i < cells P)%nat -> 0 < dx P i) /\ dx P 0%nat <> dx P 1%nat /\
  (forall i m g, (i < cells P)%nat -> 0 <= at3 external i m g) /\ (forall m g, 0 <= at3 boundary 1%nat m g) /\ at3 boundary 1%nat 0%nat 1%nat = 2 /\
  (forall g, (g < 2)%nat -> rsum (cells P) (fun i => (fun _ _ => 1 / 20) (medium P i) g * dx P i) <= 2 / 3 * (1 / 2)) /\
  source_iteration P 2 (fun _ _ => 1) (fun _ _ => 1 / 20) (Scatter3 (fun _ _ _ => 1 / 60)) external boundary 2 None = Ok flux.
Proof.
  set (P := mkSn 3 (fun _ => 0%nat) (fun i => INR i + 1) 2 (fun m => match m with O => - (1 / 2) | _ => 1 / 2 end) (fun _ => / 2) 0 0).
  destruct (ball_total P 2 (fun _ _ => 1) (fun _ _ => 1 / 20) (fun _ _ _ => 1 / 60) (mkArr3 1 1 (fun i _ _ => INR i)) (mkArr3 2 2 (fun s m g => if Nat.eqb m 0 then 2 else 0)) None) as [flux E].
  { intros m Hm. destruct m as [|m]; cbn; lra. }
  exists P, (mkArr3 1 1 (fun i _ _ => INR i)), (mkArr3 2 2 (fun s m g => if Nat.eqb m 0 then 2 else 0)), flux.
  do 6 (split; [reflexivity|]). split; [intros i _; cbn [P dx]; pose proof (pos_INR i); lra|]. split; [cbn; lra|]. split; [intros; apply pos_INR|].
  split; [intros m g; cbn [at3]; destruct (Nat.eqb m 0); lra|]. split; [reflexivity|]. split; [intros g _; cbn; lra|exact E].
Qed.

(** ** C143 The multigroup spherical solver solves the multigroup spherical equations *)
Theorem C143_returns :
  forall P groups old xs_total xs_scatter external boundary given,
  nonzero_ordinates (angles P) (mu P) ->
  exists flux, source_iteration P groups old xs_total (Scatter3 xs_scatter) external boundary 2 given = Ok flux.
Proof. exact ball_total. Qed.
Print Assumptions C143_returns.
Theorem C143_run :
  forall P groups old xs_total xs_scatter external boundary given flux,
  sound_sphere P -> (forall i g, (i < cells P)%nat -> (g < groups)%nat -> 0 <= xs_total (medium P i) g) ->
  source_iteration P groups old xs_total (Scatter3 xs_scatter) external boundary 2 given = Ok flux ->
  exists n x, (1 <= n <= 100)%nat /\ x 0%nat = old /\ flux = x n /\
    ((n < 100)%nat -> settled2 (cells P) groups (x n) (x (n - 1)%nat) (/ 10 ^ 8)) /\
    (forall k, (0 < k < n)%nat -> ~ settled2 (cells P) groups (x k) (x (k - 1)%nat) (/ 10 ^ 8)) /\
    forall k g, (k < n)%nat -> (g < groups)%nat ->
      exists p y, (1 <= p <= 100)%nat /\ y 0%nat = (fun i => x k i g) /\ (fun i => x (S k) i g) = y p /\
        ((p < 100)%nat -> settled (cells P) (y p) (y (p - 1)%nat) (/ 10 ^ 12)) /\
        forall j, (j < p)%nat -> ball_group P groups xs_total xs_scatter external boundary g (sweep_sees (x (S k)) (x k) (y j) g) (y (S j)).
Proof. exact ball_run. Qed.
Print Assumptions C143_run.
Theorem C143_solution_kept :
  forall P groups xs_total xs_scatter external boundary phi given,
  sound_sphere P -> (forall i g, (i < cells P)%nat -> (g < groups)%nat -> 0 <= xs_total (medium P i) g) ->
  ball_solution P groups xs_total xs_scatter external boundary phi ->
  exists flux, source_iteration P groups phi xs_total (Scatter3 xs_scatter) external boundary 2 given = Ok flux /\ agree2 (cells P) groups flux phi.
Proof. exact ball_kept. Qed.
Print Assumptions C143_solution_kept.
Theorem C143_group_unique :
  forall P groups xs_total xs_scatter external boundary g s1 s2 o1 o2,
  sound_sphere P -> (forall i, (i < cells P)%nat -> 0 <= xs_total (medium P i) g) ->
  (forall i h, (i < cells P)%nat -> (h < groups)%nat -> s1 i h = s2 i h) ->
  ball_group P groups xs_total xs_scatter external boundary g s1 o1 -> ball_group P groups xs_total xs_scatter external boundary g s2 o2 ->
  forall i, (i < cells P)%nat -> o1 i = o2 i.
Proof. exact ball_group_unique. Qed.
Print Assumptions C143_group_unique.
Theorem C143_infinite_medium :
  forall P groups xs_total xs_scatter external boundary (c : vec),
  sound_sphere P -> let W := rsum (angles P) (wt P) in
  (forall g m i, (g < groups)%nat -> (m < angles P)%nat -> (i < cells P)%nat ->
     xs_total (medium P i) g * c g = rsum groups (fun h => xs_scatter (medium P i) g h * (W * c h)) + at3 external i (bidx (d3b external) m) (bidx (d3c external) g)) ->
  (forall g m, (g < groups)%nat -> (m < angles P)%nat -> at3 boundary 1%nat (bidx (d3b boundary) m) (bidx (d3c boundary) g) = c g) ->
  (0 < angles P)%nat ->
  ball_solution P groups xs_total xs_scatter external boundary (fun _ g => W * c g).
Proof. exact ball_flat. Qed.
Print Assumptions C143_infinite_medium.
Example C143_case : exists P external boundary, cells P = 3%nat /\ sound_sphere P /\
  ball_solution P 2 (fun _ _ => 2) (fun _ _ _ => 1 / 2) external boundary (fun _ _ => 1).
Proof.
  exists (lit_ball 3 1), (mkArr3 1 1 (fun _ _ _ => 1)), (mkArr3 1 1 (fun _ _ _ => 1)). split; [reflexivity|]. split; [apply lit_sound; lra|].
  assert (W : rsum 4 four_wt = 1) by (cbn [rsum]; unfold four_wt; lra).
  pose proof (ball_flat (lit_ball 3 1) 2 (fun _ _ => 2) (fun _ _ _ => 1 / 2) (mkArr3 1 1 (fun _ _ _ => 1)) (mkArr3 1 1 (fun _ _ _ => 1)) (fun _ => 1)) as F.
  cbv zeta in F. change (rsum (angles (lit_ball 3 1)) (wt (lit_ball 3 1))) with (rsum 4 four_wt) in F. rewrite W, Rmult_1_l in F.
  apply F; [apply lit_sound; lra| |reflexivity|cbn; lia]. intros; cbn [rsum at3]; lra.
Qed.

(** ** C145 Spheres with Legendre scattering: what every pass solves *)
Theorem C145_returns :
  forall P groups nm old xs_total xs external boundary given,
  (0 < nm)%nat -> nonzero_ordinates (angles P) (mu P) ->
  exists flux, source_iteration P groups old xs_total (Scatter4 nm xs) external boundary 2 given = Ok flux.
Proof. exact aniso_ball_total. Qed.
Print Assumptions C145_returns.
Theorem C145_run :
  forall P groups nm old xs_total xs external boundary given flux,
  sound_sphere P -> (0 < nm)%nat -> usable_tables P nm given ->
  (forall i g, (i < cells P)%nat -> (g < groups)%nat -> 0 <= xs_total (medium P i) g) ->
  source_iteration P groups old xs_total (Scatter4 nm xs) external boundary 2 given = Ok flux ->
  exists n x, (1 <= n <= 100)%nat /\ x 0%nat = old /\ flux = x n /\
    ((n < 100)%nat -> settled2 (cells P) groups (x n) (x (n - 1)%nat) (/ 10 ^ 8)) /\
    (forall k, (0 < k < n)%nat -> ~ settled2 (cells P) groups (x k) (x (k - 1)%nat) (/ 10 ^ 8)) /\
    forall k g, (k < n)%nat -> (g < groups)%nat ->
      exists p (psi : nat -> mat2) y, (1 <= p <= 100)%nat /\ y 0%nat = (fun i => x k i g) /\ (fun i => x (S k) i g) = y p /\
        ((p < 100)%nat -> settled (cells P) (y p) (y (p - 1)%nat) (/ 10 ^ 12)) /\
        (forall j, (0 < j < p)%nat -> ~ settled (cells P) (y j) (y (j - 1)%nat) (/ 10 ^ 12)) /\
        forall j, (j < p)%nat ->
          ball_legendre P groups nm xs_total xs external boundary g (sweep_sees (x (S k)) (x k) (y j) g)
            (if Nat.eqb j 0 then only_scalar (fun i => x k i g) else edge_moment P (psi j)) (psi (S j)) (y (S j)).
Proof. exact aniso_ball_run. Qed.
Print Assumptions C145_run.
Theorem C145_pass_unique :
  forall P groups nm xs_total xs external boundary g s1 s2 m1 m2 p1 p2 o1 o2,
  sound_sphere P -> (0 < nm)%nat -> (forall i, (i < cells P)%nat -> 0 <= xs_total (medium P i) g) ->
  (forall i h, (i < cells P)%nat -> (h < groups)%nat -> h <> g -> s1 i h = s2 i h) ->
  (forall i l, (i < cells P)%nat -> (l < nm)%nat -> m1 i l = m2 i l) ->
  ball_legendre P groups nm xs_total xs external boundary g s1 m1 p1 o1 -> ball_legendre P groups nm xs_total xs external boundary g s2 m2 p2 o2 ->
  (forall i, (i < cells P)%nat -> o1 i = o2 i) /\ (forall m i, (m < angles P)%nat -> (i < cells P)%nat -> p1 m i = p2 m i /\ p1 m (S i) = p2 m (S i)).
Proof. exact ball_legendre_unique. Qed.
Print Assumptions C145_pass_unique.
Theorem C145_infinite_medium :
  forall P groups nm xs_total xs external boundary (c : vec) given,
  sound_sphere P -> (0 < nm)%nat -> (0 < angles P)%nat -> usable_tables P nm given ->
  (forall i g, (i < cells P)%nat -> (g < groups)%nat -> 0 <= xs_total (medium P i) g) -> let W := rsum (angles P) (wt P) in
  (forall l, (0 < l < nm)%nat -> rsum (angles P) (fun m => wt P m * legendre l (mu P m)) = 0) ->
  (forall g m i, (g < groups)%nat -> (m < angles P)%nat -> (i < cells P)%nat ->
     xs_total (medium P i) g * c g = rsum groups (fun h => xs (medium P i) g h 0%nat * (W * c h)) + at3 external i (bidx (d3b external) m) (bidx (d3c external) g)) ->
  (forall g m, (g < groups)%nat -> (m < angles P)%nat -> at3 boundary 1%nat (bidx (d3b boundary) m) (bidx (d3c boundary) g) = c g) ->
  exists flux, source_iteration P groups (fun _ g => W * c g) xs_total (Scatter4 nm xs) external boundary 2 given = Ok flux /\
    agree2 (cells P) groups flux (fun _ g => W * c g).
Proof. exact aniso_ball_flat_kept. Qed.
Print Assumptions C145_infinite_medium.
Example C145_case : exists P external boundary flux, cells P = 3%nat /\ sound_sphere P /\ rsum (angles P) (wt P) = 1 /\
  rsum (angles P) (fun m => wt P m * legendre 1 (mu P m)) = 0 /\
  source_iteration P 2 (fun _ _ => 1) (fun _ _ => 2) (Scatter4 2 (fun _ g h l => if Nat.eqb l 0 then 1 / 2 else if Nat.eqb g h then 1 / 4 else 1 / 8)) external boundary 2 None = Ok flux /\
  agree2 3 2 flux (fun _ _ => 1).
Proof.
  assert (W : rsum 4 four_wt = 1) by (cbn [rsum]; unfold four_wt; lra).
  assert (M : rsum 4 (fun m => four_wt m * legendre 1 (mu (lit_ball 3 1) m)) = 0).
  { destruct (lit_sound 3 1 Rlt_0_1) as (_ & _ & _ & Z & _). rewrite <- Z. cbn [lit_ball angles mu wt rsum legendre legendre_pair fst snd]. lra. }
  destruct (aniso_ball_flat_kept (lit_ball 3 1) 2 2 (fun _ _ => 2) (fun _ g h l => if Nat.eqb l 0 then 1 / 2 else if Nat.eqb g h then 1 / 4 else 1 / 8)
    (mkArr3 1 1 (fun _ _ _ => 1)) (mkArr3 1 1 (fun _ _ _ => 1)) (fun _ => 1) None (lit_sound 3 1 Rlt_0_1)) as (flux & E & A); try (cbn; lia).
  - intros; lra.
  - intros l Hl. replace l with 1%nat by lia. exact M.
  - intros g m i _ _ _. change (rsum (angles (lit_ball 3 1)) (wt (lit_ball 3 1))) with (rsum 4 four_wt). rewrite W. cbn [rsum at3 Nat.eqb]. lra.
  - reflexivity.
  - change (rsum (angles (lit_ball 3 1)) (wt (lit_ball 3 1))) with (rsum 4 four_wt) in E, A. rewrite W, Rmult_1_l in E, A.
    exists (lit_ball 3 1), (mkArr3 1 1 (fun _ _ _ => 1)), (mkArr3 1 1 (fun _ _ _ => 1)), flux. split; [reflexivity|]. split; [apply lit_sound; lra|].
    split; [exact W|]. split; [exact M|]. split; [exact E|exact A].
Qed.

(** ** C18 Conservation on fine meshes *)
(** However fine the mesh, a source in the central cell of a sphere with two ordinates (cosines -a and a) loses a fraction
    [3 a (2 - 3 a) / ((2 + sigma d) (6 a + sigma d))] of its particles: (2 - 3 a)/4 when the sphere is empty. *)
Theorem C18_lost_fraction_refuted : forall n d sigma a, (1 <= n)%nat -> 0 < d -> 0 <= sigma -> 0 < a < 1 ->
  exists P, cells P = n /\ (forall i, dx P i = d) /\ angles P = 2%nat /\ mu P 0%nat = - a /\ mu P 1%nat = a /\ sound_sphere P /\
    forall old,
      let run := source_iteration P 1 old (fun _ _ => sigma) (Scatter3 (fun _ _ _ => 0)) (mkArr3 1 1 (fun i _ _ => if Nat.eqb i 0 then 1 else 0))
                   (mkArr3 1 1 (fun _ _ _ => 0)) 2 None in
      (exists flux, run = Ok flux) /\
      forall flux, run = Ok flux ->
        exists start psi hm hp,
          sphere_transport n 2 (mu P) (wt P) (dx P) (fun _ => sigma) (fun _ i => if Nat.eqb i 0 then 1 else 0) (fun i => if Nat.eqb i 0 then 1 else 0)
            (fun _ => 0) 0 start psi hm hp (fun i => flux i 0%nat) /\
          rsum n (fun i => shell_leakage 2 (mu P) (wt P) (code_rin (dx P)) (code_rout (dx P)) psi i + sigma * shell_volume P i * flux i 0%nat)
          = (1 - 3 * a * (2 - 3 * a) / ((2 + sigma * d) * (6 * a + sigma * d)))
            * rsum n (fun i => shell_volume P i * rsum 2 (fun m => wt P m * (if Nat.eqb i 0 then 1 else 0))).
Proof.
  intros n d sg a Hn Hd Hs Ha. exists (pair_ball n d a). split; [reflexivity|]. split; [reflexivity|]. split; [reflexivity|]. split; [reflexivity|]. split; [reflexivity|].
  split; [apply pair_sound; assumption|]. intros old. cbv zeta. split; [apply ball_total; apply (pair_sound n d a Hd Ha)|].
  intros flux E. destruct (spark_solve n d a sg 1 old (fun i _ => if Nat.eqb i 0 then 1 else 0) flux Hn Hd Hs Ha (fun _ _ => eq_refl) E) as (s & psi & hm & hp & T).
  exists s, psi, hm, hp. split; [exact T|]. exact (proj1 (spark_balance n d a sg 1 s psi hm hp _ Hn Hd Hs Ha T)).
Qed.
Print Assumptions C18_lost_fraction_refuted.

(** ** C146 Power iteration works on spheres *)
Theorem C146_returns :
  forall P groups xs_total xs_scatter f guess,
  nonzero_ordinates (angles P) (mu P) ->
  match xs_scatter with Scatter3 _ => True | Scatter4 nm _ => (0 < nm)%nat end ->
  exists r, power_iteration P groups xs_total xs_scatter f 2 guess = Ok r.
Proof. exact ball_power_total. Qed.
Print Assumptions C146_returns.
Theorem C146_eigenpair_returned :
  forall P groups xs_total xs_scatter f phi k,
  sound_sphere P -> (forall i g, (i < cells P)%nat -> (g < groups)%nat -> 0 <= xs_total (medium P i) g) ->
  nonneg_fission (cells P) groups (medium P) f ->
  ball_eigenpair P groups xs_total xs_scatter f phi k ->
  0 < k -> norm2 (cells P) groups phi = 1 ->
  production (cells P) groups f (medium P) phi <> 0 ->
  (forall i g, (i < cells P)%nat -> (g < groups)%nat -> phi i g <> 0) ->
  exists flux,
    power_iteration P groups xs_total (Scatter3 xs_scatter) f 2 (fun i g => k * phi i g) = Ok (flux, k) /\
    agree2 (cells P) groups flux phi.
Proof. exact ball_power_eigenpair. Qed.
Print Assumptions C146_eigenpair_returned.
Theorem C146_balance :
  forall P groups xs_total xs_scatter f phi k g,
  sound_sphere P -> k <> 0 -> ball_eigenpair P groups xs_total xs_scatter f phi k -> (g < groups)%nat ->
  exists start psi hm hp,
    sphere_transport (cells P) (angles P) (mu P) (wt P) (dx P) (fun i => xs_total (medium P i) g)
      (fun _ i => rsum groups (fun h => xs_scatter (medium P i) g h * phi i h) + emission groups f (medium P) phi i g / k)
      (fun i => rsum groups (fun h => xs_scatter (medium P i) g h * phi i h) + emission groups f (medium P) phi i g / k)
      (fun _ => 0) 0 start psi hm hp (fun i => phi i g) /\
    k * (rsum (cells P) (fun i => shell_leakage (angles P) (mu P) (wt P) (code_rin (dx P)) (code_rout (dx P)) psi i
           + shell_volume P i * (xs_total (medium P i) g * phi i g - rsum (angles P) (wt P) * rsum groups (fun h => xs_scatter (medium P i) g h * phi i h)))
         + rsum (cells P) (fun i => (sphere_area (code_rout (dx P) i) - sphere_area (code_rin (dx P) i))
             * rsum (angles P) (fun m => alpha_coef (angles P) (mu P) (wt P) (S m) * hp m i - alpha_coef (angles P) (mu P) (wt P) m * hm m i)))
    = rsum (angles P) (wt P) * rsum (cells P) (fun i => shell_volume P i * emission groups f (medium P) phi i g).
Proof. exact ball_eigen_balance. Qed.
Print Assumptions C146_balance.
Example C146_case : exists P f phi k, cells P = 3%nat /\ sound_sphere P /\ nonneg_fission 3 1 (medium P) f /\ 0 < k /\
  ball_eigenpair P 1 (fun _ _ => 0) (fun _ _ _ => 0) f phi k /\ production 3 1 f (medium P) phi <> 0.
Proof.
  destruct (ball_power_total (pair_ball 3 1 (1 / 2)) 1 (fun _ _ => 0) (Scatter3 (fun _ _ _ => 0)) (core_fission 1) (fun _ _ => 1)
    (proj1 (pair_sound 3 1 (1 / 2) Rlt_0_1 ltac:(lra))) I) as [[phi k] E].
  destruct (core_run 3 1 (1 / 2) 0 1 (fun _ _ => 1) phi k ltac:(lia) ltac:(lra) ltac:(lra) ltac:(lra) ltac:(lra) ltac:(lra) E) as (Hk & Hf & s & psi & hm & hp & T).
  exists (pair_ball 3 1 (1 / 2)), (core_fission 1), phi, k. split; [reflexivity|]. split; [apply pair_sound; lra|]. split; [apply core_nonneg; lra|].
  split; [rewrite Hk; rewrite Rmult_1_l; apply core_gain_pos; lra|]. split; [|rewrite core_production by lia; lra].
  intros g Hg. replace g with 0%nat by lia. exists s, psi, hm, hp. eapply ball_ext; [| |reflexivity|exact T]; intros; unfold mg_source; cbn [rsum at3 d3c bidx Nat.eqb];
    rewrite core_emission; unfold spark_q; destruct (Nat.eqb i 0); unfold Rdiv; ring.
Qed.

(** ** C147 At an eigenpair of a sphere k is production over losses *)
(** However fine the mesh, whatever the guess: the k reported for a sphere of two ordinates with a fissile central cell, times the losses,
    differs from the production by the fraction of C18. *)
Theorem C147_k_refuted : forall n d sigma a nu, (1 <= n)%nat -> 0 < d -> 0 <= sigma -> 0 < a < 1 -> 0 < nu ->
  exists P f, cells P = n /\ (forall i, dx P i = d) /\ angles P = 2%nat /\ mu P 0%nat = - a /\ mu P 1%nat = a /\ sound_sphere P /\
    nonneg_fission n 1 (medium P) f /\
    forall guess, 0 < guess 0%nat 0%nat ->
      (exists r, power_iteration P 1 (fun _ _ => sigma) (Scatter3 (fun _ _ _ => 0)) f 2 guess = Ok r) /\
      forall flux k, power_iteration P 1 (fun _ _ => sigma) (Scatter3 (fun _ _ _ => 0)) f 2 guess = Ok (flux, k) ->
        0 < k /\ 0 < flux 0%nat 0%nat /\ ball_eigenpair P 1 (fun _ _ => sigma) (fun _ _ _ => 0) f flux k /\
        exists start psi hm hp,
          sphere_transport n 2 (mu P) (wt P) (dx P) (fun _ => sigma) (fun _ i => emission 1 f (medium P) flux i 0%nat / k)
            (fun i => emission 1 f (medium P) flux i 0%nat / k) (fun _ => 0) 0 start psi hm hp (fun i => flux i 0%nat) /\
          k * rsum n (fun i => shell_leakage 2 (mu P) (wt P) (code_rin (dx P)) (code_rout (dx P)) psi i + sigma * shell_volume P i * flux i 0%nat)
          = (1 - 3 * a * (2 - 3 * a) / ((2 + sigma * d) * (6 * a + sigma * d)))
            * (rsum 2 (wt P) * rsum n (fun i => shell_volume P i * emission 1 f (medium P) flux i 0%nat)).
Proof.
  intros n d sg a nu Hn Hd Hs Ha Hnu. exists (pair_ball n d a), (core_fission nu). split; [reflexivity|]. split; [reflexivity|]. split; [reflexivity|]. split; [reflexivity|]. split; [reflexivity|].
  split; [apply pair_sound; assumption|]. split; [apply core_nonneg; lra|]. intros guess Hg.
  split; [apply ball_power_total; [apply (pair_sound n d a Hd Ha)|exact I]|].
  intros flux k E. destruct (core_run n d a sg nu guess flux k Hn Hd Hs Ha Hnu Hg E) as (Hk & Hf & s & psi & hm & hp & T).
  assert (Hkp : 0 < k) by (rewrite Hk; apply Rmult_lt_0_compat; [exact Hnu|apply core_gain_pos; lra]).
  assert (Q : forall i, emission 1 (core_fission nu) (medium (pair_ball n d a)) flux i 0%nat / k = spark_q (nu * flux 0%nat 0%nat / k) i).
  { intros i. rewrite core_emission. unfold spark_q. destruct (Nat.eqb i 0); [reflexivity|unfold Rdiv; ring]. }
  assert (T' : sphere_transport n 2 (mu (pair_ball n d a)) (wt (pair_ball n d a)) (dx (pair_ball n d a)) (fun _ => sg)
    (fun _ i => emission 1 (core_fission nu) (medium (pair_ball n d a)) flux i 0%nat / k) (fun i => emission 1 (core_fission nu) (medium (pair_ball n d a)) flux i 0%nat / k)
    (fun _ => 0) 0 s psi hm hp (fun i => flux i 0%nat)).
  { eapply ball_ext; [| |reflexivity|exact T]; intros; rewrite Q; reflexivity. }
  split; [exact Hkp|]. split; [exact Hf|]. split.
  - intros g Hg'. replace g with 0%nat by lia. exists s, psi, hm, hp. eapply ball_ext; [| |reflexivity|exact T'];
      intros; unfold mg_source; cbn [rsum at3 d3c bidx Nat.eqb]; ring.
  - exists s, psi, hm, hp. split; [exact T'|].
    pose proof (proj1 (spark_balance n d a sg (nu * flux 0%nat 0%nat / k) s psi hm hp _ Hn Hd Hs Ha T)) as B.
    change (mu (pair_ball n d a)) with (pair_mu a). change (wt (pair_ball n d a)) with (fun _ : nat => 1 / 2). change (dx (pair_ball n d a)) with (fun _ : nat => d).
    unfold shell_volume. change (dx (pair_ball n d a)) with (fun _ : nat => d). rewrite B.
    rewrite <- Rmult_assoc, (Rmult_comm k), Rmult_assoc. f_equal. rewrite <- !rsum_scal. apply rsum_ext. intros i Hi.
    rewrite core_emission. unfold spark_q. cbn [rsum]. destruct (Nat.eqb i 0); field; lra.
Qed.
Print Assumptions C147_k_refuted.
Example C147_case : 0 < 3 * (1 / 2) * (2 - 3 * (1 / 2)) / ((2 + 0 * 1) * (6 * (1 / 2) + 0 * 1)) /\
  exists P f r, sound_sphere P /\ cells P = 3%nat /\ power_iteration P 1 (fun _ _ => 0) (Scatter3 (fun _ _ _ => 0)) f 2 (fun _ _ => 1) = Ok r.
Proof.
  split; [lra|]. destruct (ball_power_total (pair_ball 3 1 (1 / 2)) 1 (fun _ _ => 0) (Scatter3 (fun _ _ _ => 0)) (core_fission 1) (fun _ _ => 1)
    (proj1 (pair_sound 3 1 (1 / 2) Rlt_0_1 ltac:(lra))) I) as [r E].
  exists (pair_ball 3 1 (1 / 2)), (core_fission 1), r. split; [apply pair_sound; lra|]. split; [reflexivity|exact E].
Qed.

(** ** C148 Source iteration on spheres converges to the only solution when every material absorbs *)
(** Spheres whose sweeps keep the sign of isotropic sources ([keeps_sign]): one solution, geometric convergence, a bound on the distance
    of what is returned, and fluxes that grow with the sources. *)
Theorem C148_unique_partial :
  forall (P : sn) (groups : nat) (xs_total : mat2) (xs_scatter : mat3) (external boundary : arr3) (c : R),
    sound_sphere P ->
    (forall i g : nat, (i < cells P)%nat -> (g < groups)%nat -> 0 <= xs_total (medium P i) g) ->
    (forall g : nat, (g < groups)%nat -> keeps_sign P (fun i : nat => xs_total (medium P i) g)) ->
    0 <= c ->
    rsum (angles P) (wt P) * c < 1 ->
    mg_ratio P groups xs_total xs_scatter c ->
    exists sol : mat2,
      ball_solution P groups xs_total xs_scatter external boundary sol /\
      (forall other : mat2,
       ball_solution P groups xs_total xs_scatter external boundary other ->
       agree2 (cells P) groups other sol).
Proof. exact @ball_one_solution. Qed.
Print Assumptions C148_unique_partial.
Theorem C148_error_partial :
  forall (P : sn) (groups : nat) (xs_total : mat2) (xs_scatter : mat3) (external boundary : arr3) (c : R),
    sound_sphere P ->
    (forall i g : nat, (i < cells P)%nat -> (g < groups)%nat -> 0 <= xs_total (medium P i) g) ->
    (forall g : nat, (g < groups)%nat -> keeps_sign P (fun i : nat => xs_total (medium P i) g)) ->
    0 <= c ->
    rsum (angles P) (wt P) * c < 1 ->
    mg_ratio P groups xs_total xs_scatter c ->
    forall (sol old : mat2) (given : option (mat2 * mat2)) (flux : mat2),
    ball_solution P groups xs_total xs_scatter external boundary sol ->
    source_iteration P groups old xs_total (Scatter3 xs_scatter) external boundary 2 given = Ok flux ->
    exists n : nat,
      (1 <= n <= 100)%nat /\
      (forall d : R,
       0 <= d ->
       within2 (cells P) groups d old sol ->
       within2 (cells P) groups ((rsum (angles P) (wt P) * c) ^ n * d) flux sol) /\
      ((n < 100)%nat ->
       forall M : R,
       0 <= M ->
       (forall i g : nat, (i < cells P)%nat -> (g < groups)%nat -> Rabs (flux i g) <= M) ->
       within2 (cells P) groups
         (rsum (angles P) (wt P) * c * (/ 10 ^ 8 * INR (cells P) * M) / (1 - rsum (angles P) (wt P) * c))
         flux sol).
Proof. exact @ball_run_contracts. Qed.
Print Assumptions C148_error_partial.
Theorem C148_monotone_partial :
  forall P groups xs_total xs_scatter e1 e2 b1 b2 dq db c s1 s2,
  sound_sphere P -> (forall g, (g < groups)%nat -> keeps_sign P (fun i => xs_total (medium P i) g)) ->
  0 <= c -> rsum (angles P) (wt P) * c < 1 -> mg_ratio P groups xs_total xs_scatter c ->
  (forall i g h, (i < cells P)%nat -> (g < groups)%nat -> (h < groups)%nat -> 0 <= xs_scatter (medium P i) g h) ->
  (forall i m g, (i < cells P)%nat -> (g < groups)%nat ->
     0 <= dq i g /\ at3 e2 i (bidx (d3b e2) m) (bidx (d3c e2) g) = at3 e1 i (bidx (d3b e1) m) (bidx (d3c e1) g) + dq i g) ->
  (forall m g, (g < groups)%nat ->
     0 <= db g /\ at3 b2 1%nat (bidx (d3b b2) m) (bidx (d3c b2) g) = at3 b1 1%nat (bidx (d3b b1) m) (bidx (d3c b1) g) + db g) ->
  ball_solution P groups xs_total xs_scatter e1 b1 s1 -> ball_solution P groups xs_total xs_scatter e2 b2 s2 ->
  forall i g, (i < cells P)%nat -> (g < groups)%nat -> s1 i g <= s2 i g.
Proof. exact ball_monotone. Qed.
Print Assumptions C148_monotone_partial.
(** Spheres that do: one cell, any quadrature and optical size; any mesh, two ordinates, optically small. *)
Theorem C148_one_cell_partial :
  forall P sigt,
  cells P = 1%nat -> sound_sphere P -> 0 <= sigt 0%nat -> keeps_sign P sigt.
Proof. exact one_cell_keeps_sign. Qed.
Print Assumptions C148_one_cell_partial.
Theorem C148_two_ordinates_partial :
  forall P sigt a,
  angles P = 2%nat -> mu P 0%nat = - a -> mu P 1%nat = a -> 0 < a <= 14 / 15 -> wt P 0%nat = / 2 -> wt P 1%nat = / 2 ->
  (forall i, (i < cells P)%nat -> 0 < dx P i /\ 0 <= sigt i) -> rsum (cells P) (fun i => sigt i * dx P i) <= 2 / 3 * a -> keeps_sign P sigt.
Proof. exact two_keeps_sign. Qed.
Print Assumptions C148_two_ordinates_partial.
(** In general not: a sphere of two materials, both scattering less than 84 % of what they collide, on which the equations without any
    source or illumination have a solution for every flux in the outer cell. *)
Theorem C148_unique_refuted : exists P xs_total xs_scatter external boundary c,
  sound_sphere P /\ (forall i g, (i < cells P)%nat -> (g < 1)%nat -> 0 <= xs_total (medium P i) g) /\
  (forall i g h, (i < cells P)%nat -> 0 <= xs_scatter (medium P i) g h) /\
  0 <= c /\ rsum (angles P) (wt P) * c < 21 / 25 /\ mg_ratio P 1 xs_total xs_scatter c /\
  (forall i m g, at3 external i m g = 0) /\ (forall s m g, at3 boundary s m g = 0) /\
  forall x, exists phi, ball_solution P 1 xs_total xs_scatter external boundary phi /\ phi 1%nat 0%nat = x.
Proof.
  exists rim_sn, rim_total, (rim_scatter (11353840159360 / 13663397612451)), no_source, no_source, (11353840159360 / 13663397612451).
  split; [exact rim_sound|]. split; [exact rim_totals|]. split.
  { intros i g h Hi. change (i < 2)%nat in Hi. destruct i as [|[|i]]; [| |lia]; cbn [rim_sn medium rim_scatter]; lra. }
  destruct rim_many as [Hc H]. split; [lra|]. split; [rewrite rim_weights; lra|]. split; [apply rim_ratio; lra|].
  split; [reflexivity|]. split; [reflexivity|]. intros x. eexists. split; [apply (H x)|]. cbn [rim_phi]. lra.
Qed.
Print Assumptions C148_unique_refuted.
(** The same sphere with a scattering ratio of nine tenths: the only solution is zero, and every run makes 10000 within-group passes, each
    multiplying the flux of the outer cell by more than 1.08, and returns that as the answer. *)
Theorem C148_diverges_refuted : exists P xs_total xs_scatter external boundary growth,
  sound_sphere P /\ rsum (angles P) (wt P) = 1 /\ mg_ratio P 1 xs_total xs_scatter (9 / 10) /\ cells P = 2%nat /\
  ball_solution P 1 xs_total xs_scatter external boundary (fun _ _ => 0) /\
  (forall other, ball_solution P 1 xs_total xs_scatter external boundary other -> agree2 2 1 other (fun _ _ => 0)) /\
  27 / 25 < growth /\
  (forall old given, exists flux, source_iteration P 1 old xs_total (Scatter3 xs_scatter) external boundary 2 given = Ok flux) /\
  forall old given flux, source_iteration P 1 old xs_total (Scatter3 xs_scatter) external boundary 2 given = Ok flux ->
    flux 1%nat 0%nat = growth ^ (100 * 100) * old 1%nat 0%nat.
Proof.
  exists rim_sn, rim_total, (rim_scatter (9 / 10)), no_source, no_source, rim_growth.
  split; [exact rim_sound|]. split; [exact rim_weights|]. split; [apply rim_ratio; lra|]. split; [reflexivity|]. split; [exact rim_dark|].
  split; [exact rim_zero|]. split; [unfold rim_growth; lra|]. split; [|exact rim_blows_up].
  intros old given. apply ball_total. apply rim_sound.
Qed.
Print Assumptions C148_diverges_refuted.
(** More light from outside, a negative flux at the centre: an optically thick ball of one absorber. *)
Theorem C148_monotone_refuted : exists P external dark lit s1 s2,
  sound_sphere P /\ (forall s m g, at3 dark s m g = 0 /\ at3 lit s m g = 1) /\
  ball_solution P 1 (fun _ _ => 10) (fun _ _ _ => 0) external dark s1 /\ ball_solution P 1 (fun _ _ => 10) (fun _ _ _ => 0) external lit s2 /\
  s2 0%nat 0%nat < s1 0%nat 0%nat.
Proof.
  exists dip_sn, no_source, no_source, (mkArr3 1 1 (fun _ _ _ => 1)), (fun _ _ => 0), (fun i _ => dip_phi i).
  split; [exact dip_sound|]. split; [split; reflexivity|]. split; [exact dip_dark|]. split; [exact dip_lit|]. cbn [dip_phi]. lra.
Qed.
Print Assumptions C148_monotone_refuted.
Example C148_case : exists P, cells P = 3%nat /\ sound_sphere P /\ (forall g, (g < 2)%nat -> keeps_sign P (fun i => (fun _ _ => 1 / 20) (medium P i) g)) /\
  rsum (angles P) (wt P) * (2 / 3) < 1 /\ mg_ratio P 2 (fun _ _ => 1 / 20) (fun _ _ _ => 1 / 60) (2 / 3) /\ dx P 0%nat <> dx P 1%nat.
Proof.
  exists (mkSn 3 (fun _ => 0%nat) (fun i => INR i + 1) 2 (fun m => match m with O => - (1 / 2) | _ => 1 / 2 end) (fun _ => / 2) 0 0).
  assert (D : forall i : nat, 0 < INR i + 1) by (intros i; pose proof (pos_INR i); lra).
  split; [reflexivity|]. split.
  - apply (two_sound _ (1 / 2)); try reflexivity; [lra|]. intros i _. apply D.
  - split; [|split; [cbn; lra|split; [|cbn; lra]]].
    + intros g _. apply (two_keeps_sign _ _ (1 / 2)); try reflexivity; [lra| |cbn; lra]. intros i _. split; [apply D|lra].
    + intros g i _ _. cbn [rsum]. rewrite !Rabs_right by lra. lra.
Qed.

(** ** C90 Configurations the time-dependent drivers cannot run: which exception *)
Theorem C90_legendre_kind :
  forall two P materials groups flux_last xs_total nm s f velocity external boundary steps dt geometry,
  geometry = 1%nat \/ geometry = 2%nat -> (0 < nm)%nat -> nonzero_ordinates (angles P) (mu P) ->
  (0 < steps)%nat -> rows_for external steps -> rows_for boundary steps -> broadcasts P groups external ->
  timed_run two P materials groups flux_last xs_total (Scatter4 nm s) f velocity external boundary steps dt geometry = Raise TypeError.
Proof. exact timed_legendre_kind. Qed.
Print Assumptions C90_legendre_kind.
Theorem C90_sphere_kind :
  forall two P materials groups flux_last xs_total s f velocity external boundary steps dt,
  (exists m, (m < angles P)%nat) -> (0 < groups)%nat -> nonzero_ordinates (angles P) (mu P) ->
  (0 < steps)%nat -> rows_for external steps -> rows_for boundary steps -> broadcasts P groups external ->
  timed_run two P materials groups flux_last xs_total (Scatter3 s) f velocity external boundary steps dt 2 = Raise IndexError.
Proof. exact timed_sphere_kind. Qed.
Print Assumptions C90_sphere_kind.
Theorem C90_hybrid_kind :
  forall two P PC materials groups groups_c flux_last Tu Tc su sc fu fc vu vc external boundary ci fac steps dt,
  (0 < steps)%nat -> rows_for external steps -> rows_for boundary steps -> broadcasts P groups external ->
  ((0 < groups)%nat -> (exists m, (m < angles P)%nat /\ mu P m <> 0) ->
   hybrid_run two P PC materials groups groups_c flux_last Tu Tc su sc fu fc vu vc external boundary ci fac steps dt 2 = Raise IndexError) /\
  (forall nm s, su = Scatter4 nm s ->
   hybrid_run two P PC materials groups groups_c flux_last Tu Tc su sc fu fc vu vc external boundary ci fac steps dt 1 = Raise TypeError).
Proof. exact hybrid_kind. Qed.
Print Assumptions C90_hybrid_kind.
Example C90_kind_case : exists P external boundary, cells P = 3%nat /\ nonzero_ordinates (angles P) (mu P) /\ (exists m, (m < angles P)%nat /\ mu P m <> 0) /\
  rows_for external 4 /\ rows_for boundary 4 /\ broadcasts P 2 external /\ at4 external 1%nat 1%nat 1%nat 1%nat <> 0.
Proof.
  exists (mkSn 3 (fun _ => 0%nat) (fun i => INR i + 1) 2 (fun m => match m with O => - (1 / 2) | _ => 1 / 2 end) (fun _ => / 2) 0 0),
    (mkArr4 4 2 2 (fun _ _ _ _ => 1)), (mkArr4 1 2 1 (fun _ _ _ _ => 0)).
  split; [reflexivity|]. split; [intros m Hm; cbn in *; destruct m as [|m]; lra|].
  split; [exists 0%nat; cbn; split; [lia|lra]|]. unfold rows_for, broadcasts. cbn. repeat split; try lra; try (right; lia); lia.
Qed.
