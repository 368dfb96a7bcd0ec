(** Variable-grid hybrid runs that keep all energy groups (and change their ordinates only): the order of the unsplit scheme. *)
From Coq Require Import Lra Lia Psatz FunctionalExtensionality.
From Verif Require Import Base BaseFacts SlabModel SlabSpec MgModel MgSpec MgFacts MgFacts2 HybModel HybSpec HybFacts HybFacts2 MainModel TimeModel TimeSpec TimeFacts TimeFacts2 TimeFacts3 TimeFacts4 TimeFacts5.
From Verif Require Import EnSpec EnFacts EnFacts2 EnFacts3 EnFacts4 EnFacts5 EnFacts6 EnFacts7 OrdSpec OrdFacts OrdFacts2 OrdFacts3 OrdFacts8 OrdFacts9 OrdFacts10 OrdFacts13 OrdFacts14 OrdFacts15 OrdFacts16 OrdFacts17 OrdFacts18 OrdFacts19 MainSpec MainFacts2.
Open Scope R_scope.

(** *** runs whose steps leave scattering of the size of the square of the step *)
Section Squared.
Variables (two : bool) (P : sn) (G : nat) (Tu : mat2) (X : mat3) (vu : vec).
Variable run : mat3 -> arr4 -> arr4 -> nat -> R -> outcome (nat -> mat2).
Hypothesis HP : sound_slab P.
Hypothesis HM : no_multiplication P G Tu X.
Hypothesis HVu : forall g, (g < G)%nat -> 0 < vu g.
Let N := density_norm P G vu.
Hypothesis HRes : exists dt0 K, 0 < dt0 /\ 0 <= K /\
  forall start external boundary steps dt ft, 0 < dt -> dt <= dt0 ->
  run start external boundary steps dt = Ok ft ->
  exists psi emit, psi 0%nat = start /\
    time_history two P G vu dt Tu X (step_row external) (step_row boundary) steps psi emit /\
    forall k, (k < steps)%nat -> ft k = scalar_flux P (psi (S k)) /\
      source_norm P G vu (unresolved P G X (emit k) (psi (S k))) <= K * dt ^ 2 * N (psi (S k)).

Lemma squared_order T : 0 <= T -> exists dt0 K, 0 < dt0 /\ 0 <= K /\
  forall start external boundary steps dt ft, 0 < dt -> dt <= dt0 -> INR steps * dt <= T ->
  run start external boundary steps dt = Ok ft ->
  forall source inflow t0 M2 M3 B flux slope, 0 <= M2 -> 0 <= M3 -> 0 <= B ->
    source_rows P G t0 dt steps (step_row external) source -> inflow_rows P G t0 dt steps (step_row boundary) inflow ->
    smooth_in_time two P G t0 (time_at t0 dt steps) M2 M3 flux slope ->
    evolves P G vu Tu X source inflow t0 (time_at t0 dt steps) flux slope ->
    (forall t, t0 <= t <= time_at t0 dt steps -> N (flux t) <= B) ->
    forall k, (k < steps)%nat ->
    sqrt (rsum G (fun g => rsum (cells P) (fun i => dx P i * Rsqr (ft k i g - scalar_flux P (flux (time_at t0 dt (S k))) i g) / vu g)))
    <= sqrt (rsum (angles P) (wt P)) * (2 * ((if two then sqrt 2 else 1) * N (minus3 start (flux t0)) + time_error two dt (INR (S k) * dt) M2 M3 * N unit_flux))
       + K * dt ^ 2 * (INR (S k) * dt * B).
Proof.
  intros HT. destruct HRes as (dt0 & K & P0 & PK & HR). destruct (step_small two K T PK HT) as (dt1 & P1 & HS).
  set (b := if two then 6 else 1) in *. assert (Pb : 0 <= b) by (unfold b; destruct two; lra).
  pose proof (sqrt_pos (rsum (angles P) (wt P))) as Pw.
  exists (Rmin 1 (Rmin dt0 dt1)), (sqrt (rsum (angles P) (wt P)) * (2 * (b * K))). split; [repeat apply Rmin_glb_lt; try assumption; lra|].
  split; [apply Rmult_le_pos; [exact Pw|]; apply Rmult_le_pos; [lra|]; apply Rmult_le_pos; assumption|].
  intros start external boundary steps dt ft Hdt Hle Hst E source inflow t0 M2 M3 B flux slope PM2 PM3 PB HRo HI HSm HE HB k Hk.
  pose proof (Rmin_l 1 (Rmin dt0 dt1)) as M0. pose proof (Rmin_r 1 (Rmin dt0 dt1)) as M1.
  pose proof (Rmin_l dt0 dt1) as ML. pose proof (Rmin_r dt0 dt1) as MR.
  destruct (HR start external boundary steps dt ft Hdt ltac:(lra) E) as (psi & emit & H0 & HH & Hres).
  assert (Pk2 : 0 <= K * dt ^ 2) by (apply Rmult_le_pos; [exact PK|apply pow_le; lra]).
  assert (SM : INR (S k) * (b * dt * (K * dt ^ 2)) <= / 2).
  { eapply Rle_trans; [|apply (HS dt steps (S k) Hdt ltac:(lra) ltac:(lia) Hst)]. apply Rmult_le_compat_l; [apply pos_INR|].
    apply Rmult_le_compat_l; [apply Rmult_le_pos; lra|]. apply Rmult_le_compat_l; [exact PK|]. cbn [pow].
    assert (0 <= dt * (1 - dt)) by (apply Rmult_le_pos; lra). lra. }
  pose proof (history_order two P G vu dt Tu X _ _ steps psi emit (K * dt ^ 2) source inflow t0 M2 M3 B flux slope
    HP HM HVu Hdt PM2 PM3 PB Pk2 HH (fun j Hj => proj2 (Hres j Hj)) HRo HI HSm HE HB (S k) ltac:(lia) SM) as Bd.
  destruct (Hres k Hk) as (R1 & _). eapply Rle_trans; [apply (output_norm P G vu HP HVu psi (flux (time_at t0 dt (S k))) ft k R1)|].
  apply (Rmult_le_compat_l _ _ _ Pw) in Bd. eapply Rle_trans; [exact Bd|]. rewrite H0. fold N b. right. ring.
Qed.
End Squared.

(** *** the coarse grid of a step that keeps all groups *)
Lemma partition_identity n idx : partition n n idx -> identity_grid n idx.
Proof.
  intros (A & B & C). assert (L : forall j, (j <= n)%nat -> (j <= idx j)%nat).
  { induction j as [|j IH]; intros Hj; [lia|]. specialize (IH ltac:(lia)). specialize (C j ltac:(lia)). rewrite Nat.add_1_r in C. lia. }
  assert (U : forall d, (d <= n)%nat -> (idx (n - d) <= n - d)%nat).
  { induction d as [|d IH]; intros Hd; [rewrite Nat.sub_0_r, B; lia|]. specialize (IH ltac:(lia)). specialize (C (n - S d)%nat ltac:(lia)).
    replace (n - S d + 1)%nat with (n - d)%nat in C by lia. lia. }
  intros j Hj. specialize (L j Hj). specialize (U (n - j)%nat ltac:(lia)). replace (n - (n - j))%nat with j in U by lia. lia.
Qed.

Lemma partition_size fine coarse idx : partition fine coarse idx -> (coarse <= fine)%nat.
Proof.
  intros (A & B & C). rewrite <- B. assert (L : forall j, (j <= coarse)%nat -> (j <= idx j)%nat); [|apply L; lia].
  induction j as [|j IH]; intros Hj; [lia|]. specialize (IH ltac:(lia)). specialize (C j ltac:(lia)). rewrite Nat.add_1_r in C. lia.
Qed.

Lemma kept_grid stock table grid G ci fac idx e : monotone_edges (fst (stock grid)) (snd (stock grid)) ->
  (forall ed fine coarse, energy_grid stock table grid G (Some G) true = Ok (ed, fine, coarse) -> partition (fst (stock grid)) G fine) ->
  energy_grid_change stock table grid G G = Ok (ci, fac, idx, e) -> partition G G idx ->
  identity_grid G idx /\ (forall g, (g < G)%nat -> ci g = g /\ fac g = 1) /\ monotone_edges G e.
Proof.
  intros He Hf E HPa. pose proof (partition_identity G idx HPa) as HI. split; [exact HI|].
  unfold energy_grid_change in E. destruct (energy_grid stock table grid G (Some G) true) as [[[ed fine] [coarse|]]|] eqn:Eg; cbn [bind] in E; try discriminate.
  specialize (Hf ed fine (Some coarse) eq_refl). injection E as <- <- -> ->.
  assert (Hed : e = snd (stock grid)).
  { unfold energy_grid in Eg. destruct (known_grid grid); [|discriminate]. destruct (stock grid) as [n ed']. destruct (grid_index _ _ _ _); cbn [bind] in Eg; [|discriminate].
    destruct (grid_index (table grid G) true G G); cbn [bind] in Eg; [|discriminate]. injection Eg as <- _ _. reflexivity. }
  rewrite <- Hed in He. split.
  - intros g Hg. destruct (collided_index_eq G G idx HPa g Hg) as (A1 & A2).
    assert (A3 : collided_index G idx g = g). { destruct A2 as (B1 & B2). rewrite HI in B1, B2 by lia. lia. }
    split; [exact A3|]. rewrite (hybrid_factor_eq G G idx _ _ HPa g g Hg); [|destruct A2 as (B1 & B2); rewrite A3 in *; split; assumption].
    unfold ediff, coarse_diff. rewrite !HI by lia.
    destruct (widths_positive _ G fine e Hf He g Hg) as (W & _ & _). unfold block_width in W.
    apply Rinv_r. exact W.
  - pose proof (partition_size _ _ _ Hf) as L. destruct He as [He|He]; [left|right]; intros g Hg; apply He; lia.
Qed.

Section Variable_kept.
Variables (two : bool) (P : sn) (leggauss : nat -> vec * vec) (stock : nat -> nat * vec)
  (table : nat -> nat -> option (nat -> nat)) (grid G : nat) (groups_c angles_c : per_step) (Tu : mat2) (s f : mat3) (vu : vec).
Let X : mat3 := fun m o i => s m o i + f m o i.
Hypothesis HP : sound_slab P.
Hypothesis Hangles : angles P <> 1%nat.
Hypothesis HM : no_multiplication P G Tu (fun m o i => s m o i + f m o i).
Hypothesis HVu : forall g, (g < G)%nat -> 0 < vu g.
Hypothesis Hedges : monotone_edges (fst (stock grid)) (snd (stock grid)).
Hypothesis Hkept : forall k gc, count_at groups_c k gc -> gc = G.
Hypothesis Hgrids : forall ci fac idx e, energy_grid_change stock table grid G G = Ok (ci, fac, idx, e) -> partition G G idx.
Hypothesis Hfine : forall ed fine coarse, energy_grid stock table grid G (Some G) true = Ok (ed, fine, coarse) -> partition (fst (stock grid)) G fine.
Hypothesis Hquads : forall k ac xw, count_at angles_c k ac ->
  angular_x leggauss ac [bc_left P; bc_right P] = Ok xw ->
  sound_slab (with_angles P ac (fst xw) (snd xw)) /\ rsum ac (snd xw) = rsum (angles P) (wt P).
Let N := density_norm P G vu.
Let run start external boundary steps dt :=
  vhybrid_run two P leggauss stock table grid G groups_c angles_c start Tu s f vu external boundary steps dt 1.
Let step := variable_step two P leggauss stock table grid G Tu s f vu.

Definition kept_good (j : nat) (dt0 K : R) : Prop :=
  forall gc ac, count_at groups_c j gc -> count_at angles_c j ac ->
  forall k dt ext bnd psi fl emit, 0 < dt -> dt <= dt0 -> step k dt ext bnd psi fl gc ac emit ->
  source_norm P G vu (unresolved P G X emit (psi (S k))) <= K * dt ^ 2 * N (psi (S k)).

Lemma one_kept j : exists dt0 K, 0 < dt0 /\ 0 <= K /\ kept_good j dt0 K.
Proof.
  assert (Vac : (forall gc ac ci fac idx e xw, count_at groups_c j gc -> count_at angles_c j ac ->
    energy_grid_change stock table grid G gc = Ok (ci, fac, idx, e) -> angular_x leggauss ac [bc_left P; bc_right P] = Ok xw -> False) ->
    exists dt0 K, 0 < dt0 /\ 0 <= K /\ kept_good j dt0 K).
  { intros F. exists 1, 0. split; [lra|]. split; [lra|]. intros gc ac Hg Ha k dt ext bnd psi fl emit _ _ (ci & fac & idx & e & xw & fu & fc & E & A & B & _).
    destruct (F gc ac ci fac idx e xw Hg Ha A B). }
  destruct (at_step angles_c j) as [ac|] eqn:Ea.
  2:{ apply Vac. intros gc' ac ci fac idx e0 xw _ Ha _ _. apply at_step_count in Ha. congruence. }
  apply at_step_count in Ea.
  assert (exists r, energy_grid_change stock table grid G G = r) as (r & Er) by (eexists; reflexivity).
  destruct r as [[[[ci fac] idx] e]|].
  2:{ apply Vac. intros gc' ac' ci fac idx e0 xw Hg _ A _. rewrite (Hkept _ _ Hg) in A. congruence. }
  assert (exists r, angular_x leggauss ac [bc_left P; bc_right P] = r) as (rx & Ex) by (eexists; reflexivity).
  destruct rx as [xw|].
  2:{ apply Vac. intros gc' ac' ci' fac' idx' e' xw _ Ha _ B. rewrite (count_at_one _ _ _ _ Ha Ea) in B. congruence. }
  clear Vac. pose proof (Hgrids ci fac idx e Er) as HPa. destruct (Hquads j ac xw Ea Ex) as (HPC & HWW).
  destruct (kept_grid stock table grid G ci fac idx e Hedges Hfine Er HPa) as (HI & Hcf & HEd).
  set (PC := with_angles P ac (fst xw) (snd xw)) in *. set (Tc := xs_vector_coarsen Tu e idx). set (vc := coarsen_velocity vu idx).
  set (Xc := coarse_scatter X (ediff e) (coarse_diff e idx) idx).
  assert (HTu : forall i g, (i < cells P)%nat -> (g < G)%nat -> 0 <= Tu (medium P i) g) by (intros i g Hi Hg; apply (sound_total P G Tu _ i g HP HM Hi Hg)).
  assert (HVV : forall g, (g < G)%nat -> vc g = vu g) by (intros g Hg; apply (velocity_facts G G idx vu HPa); assumption).
  assert (HTc : forall i g, (i < cells P)%nat -> (g < G)%nat -> 0 <= Tc (medium P i) g).
  { intros i g Hi Hg. unfold Tc. rewrite (vector_identity G idx e Tu (medium P i) HPa HI HEd g Hg). apply HTu; assumption. }
  destruct (transfer_bound P G X) as (tau & Ptau & Htau). destruct (transfer_bound P G Xc) as (tauc & Ptauc & Htauc).
  destruct (kept_residual_from P PC G vu vc Tu Tc X (tau + 1) tauc HP HPC eq_refl eq_refl (fun i _ => eq_refl) HWW HVu HVV HTu HTc ltac:(lra))
    as (dt0 & K & P0 & PK & HR); [intros i g h Hi Hg Hh; specialize (Htau i g h Hi Hg Hh); lra|exact Ptauc|].
  exists dt0, K. split; [exact P0|]. split; [exact PK|].
  intros gc' ac' Hg' Ha' k dt ext bnd psi fl emit Hdt Hle (ci' & fac' & idx' & e' & xw' & fu & fc & E & B1 & B2 & B3 & B4 & B5 & B6 & B7).
  rewrite (Hkept _ _ Hg') in *. rewrite (count_at_one _ _ _ _ Ha' Ea) in *.
  rewrite Er in B1. injection B1 as <- <- <- <-. rewrite Ex in B2. injection B2 as <-. subst emit.
  replace (K * dt ^ 2) with (K * (dt * dt)) by ring.
  apply (HR two dt k Xc ci fac ext bnd (mkArr3 1 G (fun i _ g => hybrid_source_collided (cells P) G fu X zeros2 (medium P) ci i g)) psi
    (coarsen_flux G fu zeros2 idx) fu fc E Hdt Hle); try assumption; try reflexivity.
  - intros g Hg. apply Hcf, Hg.
  - intros g Hg. apply Hcf, Hg.
  - intros i m c Hi. apply (collided_source_spec P G G fu X ci i m c Hi).
  - intros i g Hi Hg. rewrite coarsen_flux_sum by exact Hg. unfold group_sum. rewrite !HI by lia. replace (g + 1 - g)%nat with 1%nat by lia.
    cbn [rsum]. rewrite Nat.add_0_r. ring.
Qed.

Lemma variable_kept_resolved : exists dt0 K, 0 < dt0 /\ 0 <= K /\
  forall start external boundary steps dt ft, 0 < dt -> dt <= dt0 ->
  run start external boundary steps dt = Ok ft ->
  exists psi emit, psi 0%nat = start /\
    time_history two P G vu dt Tu X (step_row external) (step_row boundary) steps psi emit /\
    forall k, (k < steps)%nat -> ft k = scalar_flux P (psi (S k)) /\
      source_norm P G vu (unresolved P G X (emit k) (psi (S k))) <= K * dt ^ 2 * N (psi (S k)).
Proof.
  destruct (common_constants (grid_steps groups_c angles_c) kept_good) as (dt0 & K & P0 & PK & HG).
  - intros j dt K dt' K' H Hd Hle HK gc ac Hg Ha k d ext bnd psi fl emit Pd Hd' HS.
    eapply Rle_trans; [apply (H gc ac Hg Ha k d ext bnd psi fl emit Pd ltac:(lra) HS)|].
    apply Rmult_le_compat_r; [apply sqrt_pos|]. apply Rmult_le_compat_r; [apply pow_le|]; lra.
  - exact one_kept.
  - exists dt0, K. split; [exact P0|]. split; [exact PK|]. intros start external boundary steps dt ft Hdt Hle E.
    destruct (variable_history two P leggauss stock table grid G groups_c angles_c Tu s f vu HP Hangles HM HVu start external boundary steps dt ft Hdt E) as (psi & emit & H0 & HH & HS).
    exists psi, emit. split; [exact H0|]. split; [exact HH|]. intros k Hk. destruct (HS k Hk) as (R1 & gc & ac & Hg & Ha & R2). split; [exact R1|].
    destruct (grid_steps_all groups_c angles_c k gc ac Hg Ha) as (j & Hj & Hg' & Ha').
    exact (HG j Hj gc ac Hg' Ha' k dt (step_row external k) (step_row boundary k) psi (ft k) (emit k) Hdt Hle R2).
Qed.

Lemma variable_kept_order T : 0 <= T -> exists dt0 K, 0 < dt0 /\ 0 <= K /\
  forall start external boundary steps dt ft, 0 < dt -> dt <= dt0 -> INR steps * dt <= T ->
  run start external boundary steps dt = Ok ft ->
  forall source inflow t0 M2 M3 B flux slope, 0 <= M2 -> 0 <= M3 -> 0 <= B ->
    source_rows P G t0 dt steps (step_row external) source -> inflow_rows P G t0 dt steps (step_row boundary) inflow ->
    smooth_in_time two P G t0 (time_at t0 dt steps) M2 M3 flux slope ->
    evolves P G vu Tu X source inflow t0 (time_at t0 dt steps) flux slope ->
    (forall t, t0 <= t <= time_at t0 dt steps -> N (flux t) <= B) ->
    forall k, (k < steps)%nat ->
    sqrt (rsum G (fun g => rsum (cells P) (fun i => dx P i * Rsqr (ft k i g - scalar_flux P (flux (time_at t0 dt (S k))) i g) / vu g)))
    <= sqrt (rsum (angles P) (wt P)) * (2 * ((if two then sqrt 2 else 1) * N (minus3 start (flux t0)) + time_error two dt (INR (S k) * dt) M2 M3 * N unit_flux))
       + K * dt ^ 2 * (INR (S k) * dt * B).
Proof. exact (squared_order two P G Tu X vu run HP HM HVu variable_kept_resolved T). Qed.
End Variable_kept.

(** *** the conditions on the grids and the ordinates *)
Lemma kept_partition stock table grid G : (1 <= G <= fst (stock grid))%nat ->
  (forall idx, table grid G = Some idx -> partition (fst (stock grid)) G idx /\ partition G G idx) ->
  (forall ci fac idx e, energy_grid_change stock table grid G G = Ok (ci, fac, idx, e) -> partition G G idx) /\
  (forall ed fine coarse, energy_grid stock table grid G (Some G) true = Ok (ed, fine, coarse) -> partition (fst (stock grid)) G fine).
Proof.
  intros HG Ht. split.
  - intros ci fac idx e. apply (grids_partition stock table grid G (Const G)) with (k := 0%nat); [|reflexivity].
    intros k gc Hk. cbn [count_at] in Hk. subst gc. split; [lia|]. intros idx' E. apply Ht. exact E.
  - intros ed fine coarse. unfold energy_grid. destruct (known_grid grid); [|discriminate].
    destruct (stock grid) as [n ed'] eqn:Es. cbn [fst] in *.
    destruct (grid_index (table grid G) true n G) as [i|] eqn:E; cbn [bind]; [|discriminate].
    destruct (grid_index (table grid G) true G G); cbn [bind]; [|discriminate]. intros J. injection J as _ <- _.
    unfold grid_index in E. destruct (table grid G) as [t|].
    + injection E as <-. apply (Ht t eq_refl).
    + destruct (coarse_index_partition n G HG) as (i' & Ei & Hi & _). rewrite Ei in E. injection E as <-. exact Hi.
Qed.

Lemma quads_weight P leggauss angles_c : sound_slab P -> rsum (angles P) (wt P) = 1 -> (bc_left P + bc_right P <= 1)%nat ->
  (forall k ac, count_at angles_c k ac -> exists h, (ac = 2 * h)%nat /\ (0 < h)%nat /\ gauss_pairs ac (fst (leggauss ac)) (snd (leggauss ac))) ->
  forall k ac xw, count_at angles_c k ac -> angular_x leggauss ac [bc_left P; bc_right P] = Ok xw ->
  sound_slab (with_angles P ac (fst xw) (snd xw)) /\ rsum ac (snd xw) = rsum (angles P) (wt P).
Proof.
  intros HP HW Hb H k ac xw Hk E. split; [exact (quads_sound P leggauss angles_c HP Hb H k ac xw Hk E)|].
  destruct (H k ac Hk) as (h & -> & Hh & Hg).
  destruct (angular_solver_order leggauss h (bc_left P) (bc_right P) Hh Hg Hb) as (x & w & E' & _ & _ & _ & Hw & _).
  rewrite E' in E. injection E as <-. cbn [fst snd]. rewrite HW. exact Hw.
Qed.
