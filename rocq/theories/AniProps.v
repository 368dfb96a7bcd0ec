(** Anisotropic (Legendre) scattering on slabs of any cell thickness: C140 and C141. *)
From Coq Require Import Lra Lia.
From Verif Require Import Base SlabModel SlabSpec MgModel MgSpec EnSpec InfSpec AniSpec AniFacts AniFacts2 AniFacts3 AniFacts4 AniFacts5 AniFacts6 AniWitness AniFacts7.
Open Scope R_scope.

(** ** C140 Legendre scattering on a slab defines one flux, and the sweeps approach it *)
Theorem C140_orthogonal :
  forall P nm l m,
  exact_products P nm -> (l < nm)%nat -> (m < nm)%nat ->
  rsum (angles P) (fun n => wt P n * (legendre l (mu P n) * legendre m (mu P n))) = if Nat.eqb l m then / (2 * INR l + 1) else 0.
Proof. exact table_orthogonal. Qed.
Print Assumptions C140_orthogonal.
Theorem C140_solution :
  forall P groups nm xs_total xs external boundary c,
  sound_slab P -> (0 < nm)%nat -> exact_products P nm ->
  (forall i h, (i < cells P)%nat -> (h < groups)%nat -> 0 <= xs_total (medium P i) h) ->
  0 <= c < 1 -> aniso_coupled P groups nm xs_total xs c ->
  exists sol, aniso_solution P groups nm xs_total xs external boundary sol /\
    forall other, aniso_solution P groups nm xs_total xs external boundary other -> agree2 (cells P) groups other sol.
Proof. exact aniso_exactly_one. Qed.
Print Assumptions C140_solution.
Theorem C140_within_group :
  forall P nm flux_old xs_total (x : mat2) off external boundary leg legw flux c psi sol,
  sound_slab P -> (0 < nm)%nat -> exact_products P nm -> (forall i, (i < cells P)%nat -> 0 <= xs_total (medium P i)) -> 0 <= c ->
  (forall i l, (i < cells P)%nat -> (l < nm)%nat -> Rabs (x i l) <= c * xs_total (medium P i)) ->
  legendre_tables P nm leg legw ->
  slab_transport (cells P) (angles P) (mu P) (wt P) (dx P) (fun i => xs_total (medium P i))
    (fun m i => rsum nm (fun l => (2 * INR l + 1) * x i l * edge_moment P psi i l * legendre l (mu P m))
       + at2 external i (bidx (cols2 external) m) + off i)
    (fun m => reflected_in (cells P) (angles P) (mu P) (bc_left P) (bc_right P) psi m + boundary_in boundary (mu P) m) psi sol ->
  slab_anisotropic_sn P flux_old nm xs_total (fun i l => x i l * (2 * INR l + 1)) off external boundary 0 leg legw = Ok flux ->
  exists n, (1 <= n <= 100)%nat /\
    reaction_norm P xs_total (fun i => flux i - sol i)
      <= c ^ n * moment_norm P nm xs_total (fun i l => only_scalar flux_old i l - edge_moment P psi i l).
Proof. exact within_group. Qed.
Print Assumptions C140_within_group.
Theorem C140_sweep :
  forall (P : sn) (groups nm : nat) (xs_total : mat2) (xs : mat4) (c : R),
    sound_slab P ->
    (0 < nm)%nat ->
    exact_products P nm ->
    (forall i h : nat, (i < cells P)%nat -> (h < groups)%nat -> 0 <= xs_total (medium P i) h) ->
    0 <= c < 1 ->
    aniso_coupled P groups nm xs_total xs c ->
    forall (external boundary : arr3) (leg legw : mat2),
    legendre_tables P nm leg legw ->
    forall (old new : mat2) (psi : mat3) (sol : mat2) (d H : R),
    aniso_transport P groups nm xs_total xs external boundary psi sol ->
    one_sweep_aniso P groups nm xs_total xs external boundary 1 leg legw old = Ok new ->
    0 <= d ->
    0 <= H ->
    near_energy P groups xs_total d old sol ->
    (forall g : nat,
     (g < groups)%nat ->
     moment_norm P nm (fun m : nat => xs_total m g)
       (fun i l : nat => if l =? 0 then 0 else edge_moment P (psi g) i l) <= H) ->
    near_energy P groups xs_total (c * (d + H)) new sol.
Proof. exact @aniso_sweep. Qed.
Print Assumptions C140_sweep.
Theorem C140_returns :
  forall P groups nm old xs_total xs external boundary given,
  (0 < nm)%nat -> nonzero_ordinates (angles P) (mu P) ->
  exists flux, source_iteration P groups old xs_total (Scatter4 nm xs) external boundary 1 given = Ok flux.
Proof. exact aniso_total. Qed.
Print Assumptions C140_returns.
Example C140_case given old : sound_slab forward /\ exact_products forward 2 /\
  (forall i h, (i < cells forward)%nat -> (h < 2)%nat -> 0 <= peaked_total (medium forward i) h) /\
  aniso_coupled forward 2 2 peaked_total peaked_scatter (3 / 4) /\
  exists sol flux, aniso_solution forward 2 2 peaked_total peaked_scatter peaked_ext peaked_bnd sol /\
    source_iteration forward 2 old peaked_total (Scatter4 2 peaked_scatter) peaked_ext peaked_bnd 1 given = Ok flux.
Proof.
  split; [apply forward_sound|]. split; [apply forward_exact|]. split; [apply peaked_nonneg|]. split; [apply peaked_coupled|].
  destruct (aniso_exactly_one forward 2 2 peaked_total peaked_scatter peaked_ext peaked_bnd (3 / 4)) as (sol & S & _);
    [apply forward_sound|lia|apply forward_exact|apply peaked_nonneg|lra|apply peaked_coupled|].
  destruct (aniso_total forward 2 2 old peaked_total peaked_scatter peaked_ext peaked_bnd given) as (flux & E); [lia|apply forward_sound|].
  exists sol, flux. split; assumption.
Qed.

(** ** C141 A source iteration with Legendre scattering that stopped is accurate *)
Theorem C141_error_partial :
  forall P groups nm xs_total xs external boundary c given old flux psi sol,
  sound_slab P -> (0 < nm)%nat -> exact_products P nm ->
  (forall i h, (i < cells P)%nat -> (h < groups)%nat -> 0 <= xs_total (medium P i) h) ->
  0 <= c < 1 -> aniso_coupled P groups nm xs_total xs c -> usable_tables P nm given ->
  aniso_transport P groups nm xs_total xs external boundary psi sol ->
  source_iteration P groups old xs_total (Scatter4 nm xs) external boundary 1 given = Ok flux ->
  exists n, (1 <= n <= 100)%nat /\
    forall d H, 0 <= d -> 0 <= H -> near_energy P groups xs_total d old sol ->
      (forall g, (g < groups)%nat -> moment_norm P nm (fun m => xs_total m g) (fun i l => if Nat.eqb l 0 then 0 else edge_moment P (psi g) i l) <= H) ->
      near_energy P groups xs_total (c ^ n * d + c * H / (1 - c)) flux sol.
Proof. exact aniso_iteration. Qed.
Print Assumptions C141_error_partial.
(** the starting flux is returned unchanged, more than a quarter away from the only solution *)
Theorem C141_stopping_refuted : exists P nm xs_total xs external boundary c start,
  sound_slab P /\ (0 < nm)%nat /\ exact_products P nm /\ (forall i h, (i < cells P)%nat -> (h < 1)%nat -> 0 <= xs_total (medium P i) h) /\
  0 <= c < 1 /\ aniso_coupled P 1 nm xs_total xs c /\
  (exists sol, aniso_solution P 1 nm xs_total xs external boundary sol) /\
  forall given, usable_tables P nm given ->
    exists flux, source_iteration P 1 start xs_total (Scatter4 nm xs) external boundary 1 given = Ok flux /\ agree2 (cells P) 1 flux start /\
      forall sol, aniso_solution P 1 nm xs_total xs external boundary sol ->
        exists i, (i < cells P)%nat /\ / 4 * Rabs (sol i 0%nat) < Rabs (flux i 0%nat - sol i 0%nat).
Proof.
  exists forward, 2%nat, beam_total, beam_scatter, beam_ext, beam_bnd, (1 / 2), beam_start.
  split; [apply forward_sound|]. split; [lia|]. split; [apply forward_exact|]. split; [intros; unfold beam_total; lra|]. split; [lra|]. split; [apply beam_coupled|].
  split; [exists beam_flux, beam_psi; exact beam_solves|].
  intros given Hg. destruct (beam_stops given Hg) as (flux & E & A). exists flux. split; [exact E|]. split; [exact A|].
  destruct (aniso_exactly_one forward 1 2 beam_total beam_scatter beam_ext beam_bnd (1 / 2)) as (s & _ & U);
    [apply forward_sound|lia|apply forward_exact|intros; unfold beam_total; lra|lra|apply beam_coupled|].
  intros sol S. exists 1%nat. split; [cbn; lia|]. rewrite A by lia. rewrite (U sol S) by (cbn; lia).
  rewrite <- (U beam_flux (ex_intro _ beam_psi beam_solves)) by (cbn; lia). unfold beam_flux, beam_start. cbn [Nat.eqb]. rewrite Rabs_right, Rabs_left; lra.
Qed.
Print Assumptions C141_stopping_refuted.
Example C141_case : aniso_transport forward 1 2 beam_total beam_scatter beam_ext beam_bnd beam_psi beam_flux /\
  usable_tables forward 2 (Some ((fun l n => legendre l (mu forward n)), (fun l n => wt forward n * legendre l (mu forward n)))) /\
  near_energy forward 1 beam_total 2 beam_start beam_flux.
Proof.
  split; [exact beam_solves|]. split; [intros l n _ _; split; reflexivity|]. intros h Hh. assert (h = 0)%nat as -> by lia. unfold reaction_norm.
  rewrite <- (sqrt_square 2) by lra. apply sqrt_le_1_alt. assert (G : gauss <= 1) by (apply Rle_trans with (sqrt 1); [apply sqrt_le_1_alt; lra|rewrite sqrt_1; lra]).
  pose proof gauss_pos. cbn [rsum cells forward dx]. unfold beam_total, beam_start, beam_flux, Rsqr. cbn [Nat.eqb]. replace (12 - 5215 / 437) with (29 / 437) by lra. replace (2 - 1225 / 437) with (- (351 / 437)) by lra. lra.
Qed.

(** ** C144 Every Legendre moment of every transfer cross section enters the solution *)
(** the solver solves the equations with all moments when the transfer between groups is isotropic ... *)
Theorem C144_isotropic_transfer_partial :
  forall P groups nm xs_total xs external boundary psi phi,
  (0 < nm)%nat ->
  (forall i g h l, (i < cells P)%nat -> (g < groups)%nat -> (h < groups)%nat -> (0 < l < nm)%nat -> g <> h -> xs (medium P i) g h l = 0) ->
  (full_transport P groups nm xs_total xs external boundary psi phi <-> aniso_transport P groups nm xs_total xs external boundary psi phi).
Proof. exact full_is_aniso. Qed.
Print Assumptions C144_isotropic_transfer_partial.
(** ... because it reads nothing else, in slabs and spheres *)
Theorem C144_moments_ignored_refuted :
  forall P groups nm old xs_total xs xs' external boundary geometry given,
  (forall m g h, xs m g h 0%nat = xs' m g h 0%nat) -> (forall m g l, xs m g g l = xs' m g g l) ->
  source_iteration P groups old xs_total (Scatter4 nm xs) external boundary geometry given
  = source_iteration P groups old xs_total (Scatter4 nm xs') external boundary geometry given.
Proof. exact transfer_ignored. Qed.
Print Assumptions C144_moments_ignored_refuted.
(** a beam slowing down forwards: every run is off by a third *)
Theorem C144_transfer_refuted : exists P xs_total xs external boundary,
  sound_slab P /\ exact_products P 2 /\ (forall m g, 0 < xs_total m g) /\
  (forall m g h l, Rabs (xs m g h l) <= xs m g h 0%nat) /\ (forall m g, rsum 2 (fun h => xs m g h 0%nat) <= / 2 * xs_total m g) /\
  (exists sol, full_solution P 2 2 xs_total xs external boundary sol) /\
  forall old given,
    (exists flux, source_iteration P 2 old xs_total (Scatter4 2 xs) external boundary 1 given = Ok flux) /\
    forall flux sol, source_iteration P 2 old xs_total (Scatter4 2 xs) external boundary 1 given = Ok flux ->
      full_solution P 2 2 xs_total xs external boundary sol -> sol 1%nat 1%nat - flux 1%nat 1%nat = / 3 * sol 1%nat 1%nat /\ 0 < sol 1%nat 1%nat.
Proof.
  exists forward, slow_total, slow_scatter, slow_ext, slow_bnd. split; [apply forward_sound|]. split; [apply forward_exact|]. split; [intros; unfold slow_total; lra|].
  split; [intros m g h l; unfold slow_scatter; destruct (andb _ _); [|rewrite Rabs_R0; lra]; cbn [Nat.eqb]; destruct (Nat.eqb l 0); rewrite Rabs_right; lra|].
  split; [intros m g; unfold slow_scatter, slow_total; cbn [rsum Nat.eqb]; destruct (Nat.eqb g 1); cbn [andb]; lra|].
  split; [exists slow_flux, slow_psi; exact slow_solves|]. intros old given. split; [apply aniso_total; [lia|apply forward_sound]|].
  intros flux sol E S. rewrite (slow_run old given flux E), (slow_unique sol S). lra.
Qed.
Print Assumptions C144_transfer_refuted.
Example C144_case : exists P xs_total xs external boundary psi phi, sound_slab P /\
  full_transport P 2 2 xs_total xs external boundary psi phi /\ xs 0%nat 1%nat 0%nat 1%nat <> 0 /\ 0 < phi 1%nat 1%nat.
Proof.
  exists forward, slow_total, slow_scatter, slow_ext, slow_bnd, slow_psi, slow_flux. split; [apply forward_sound|]. split; [exact slow_solves|].
  unfold slow_scatter, slow_flux. cbn [Nat.eqb andb]. split; lra.
Qed.
