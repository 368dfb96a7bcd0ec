(** Variable-grid hybrid runs: every step leaves unresolved scattering of the size of the step. *)
From Coq Require Import Lra Lia Psatz FunctionalExtensionality.
From Verif Require Import Base BaseFacts SlabModel SlabSpec MgModel MgSpec MgFacts MgFacts2 HybModel HybSpec HybFacts HybFacts2 MainModel TimeModel TimeSpec TimeFacts TimeFacts2 TimeFacts3 TimeFacts4 TimeFacts5.
From Verif Require Import EnSpec EnFacts EnFacts2 EnFacts3 EnFacts4 EnFacts5 EnFacts6 EnFacts7 OrdSpec OrdFacts OrdFacts2 OrdFacts3 OrdFacts8 OrdFacts9 OrdFacts10 OrdFacts14 OrdFacts15 OrdFacts16.
Open Scope R_scope.

Lemma choose_steps {A} (a0 : A) N (Q : nat -> A -> Prop) : (forall j, (j < N)%nat -> exists y, Q j y) ->
  exists F, forall j, (j < N)%nat -> Q j (F j).
Proof.
  induction N as [|N IH]; intros H; [exists (fun _ => a0); lia|].
  destruct (IH ltac:(intros; apply H; lia)) as [F HF]. destruct (H N ltac:(lia)) as [y Hy].
  exists (fun j => if Nat.eqb j N then y else F j). intros j Hj. destruct (Nat.eqb_spec j N) as [-> |]; [exact Hy|apply HF; lia].
Qed.

(** constants good for one index are good for finitely many *)
Lemma common_constants n (Q : nat -> R -> R -> Prop) :
  (forall j dt K dt' K', Q j dt K -> 0 < dt' -> dt' <= dt -> K <= K' -> Q j dt' K') ->
  (forall j, exists dt K, 0 < dt /\ 0 <= K /\ Q j dt K) -> exists dt K, 0 < dt /\ 0 <= K /\ forall j, (j < n)%nat -> Q j dt K.
Proof.
  intros Hm H. induction n as [|n (dt & K & A & B & C)]; [exists 1, 0; split; [lra|]; split; [lra|intros; lia]|].
  destruct (H n) as (dt' & K' & A' & B' & C').
  exists (Rmin dt dt'), (Rmax K K'). pose proof (Rmin_l dt dt'). pose proof (Rmin_r dt dt'). pose proof (Rmax_l K K'). pose proof (Rmax_r K K').
  assert (M : 0 < Rmin dt dt') by (apply Rmin_glb_lt; assumption).
  split; [exact M|]. split; [lra|]. intros j Hj. destruct (Nat.eq_dec j n) as [-> |].
  - apply (Hm n dt' K'); try assumption.
  - apply (Hm j dt K); try assumption. apply C. lia.
Qed.

(** the grids of all steps are those of finitely many *)
Definition grid_steps (a b : per_step) : nat := match a with Each n _ => n | _ => match b with Each n _ => n | _ => 1%nat end end.
Lemma grid_steps_all a b k x y : count_at a k x -> count_at b k y -> exists j, (j < grid_steps a b)%nat /\ count_at a j x /\ count_at b j y.
Proof.
  destruct a as [m|n f|]; destruct b as [m'|n' f'|]; cbn [count_at grid_steps]; intros Ha Hb; try contradiction.
  - exists 0%nat. repeat split; try assumption. lia.
  - exists k. repeat split; try assumption; lia.
  - exists k. repeat split; try assumption; lia.
  - exists k. repeat split; try assumption; lia.
Qed.

Lemma count_at_one a k x y : count_at a k x -> count_at a k y -> x = y.
Proof. destruct a as [m|n f|]; cbn [count_at]; [congruence|intros (_ & ->) (_ & ->); reflexivity|contradiction]. Qed.

Lemma grid_owner stock table grid groups gc ci fac idx e : energy_grid_change stock table grid groups gc = Ok (ci, fac, idx, e) ->
  ci = collided_index gc idx /\ e = snd (stock grid).
Proof.
  unfold energy_grid_change, energy_grid. destruct (known_grid grid); cbn [bind]; [|discriminate].
  destruct (stock grid) as [n ed]. destruct (grid_index _ _ _ _) as [fine|]; cbn [bind]; [|discriminate].
  destruct (grid_index (table grid gc) true groups gc) as [coarse|]; cbn [bind]; [|discriminate].
  intros H. injection H as <- _ <- <-. split; reflexivity.
Qed.

Section Variable_run.
Variables (two : bool) (P : sn) (leggauss : nat -> vec * vec) (stock : nat -> nat * vec)
  (table : nat -> nat -> option (nat -> nat)) (grid G : nat) (groups_c angles_c : per_step) (Tu : mat2) (s f : mat3) (vu : vec).
Let X : mat3 := fun m o i => s m o i + f m o i.
Hypothesis HP : sound_slab P.
Hypothesis Hangles : angles P <> 1%nat.
Hypothesis HM : no_multiplication P G Tu (fun m o i => s m o i + f m o i).
Hypothesis HVu : forall g, (g < G)%nat -> 0 < vu g.
Hypothesis Hedges : monotone_edges G (snd (stock grid)).
Hypothesis Hgrids : forall k gc ci fac idx e, count_at groups_c k gc ->
  energy_grid_change stock table grid G gc = Ok (ci, fac, idx, e) -> partition G gc idx.
Hypothesis Hquads : forall k ac xw, count_at angles_c k ac ->
  angular_x leggauss ac [bc_left P; bc_right P] = Ok xw -> sound_slab (with_angles P ac (fst xw) (snd xw)).
Let N := density_norm P G vu.
Let run start external boundary steps dt :=
  vhybrid_run two P leggauss stock table grid G groups_c angles_c start Tu s f vu external boundary steps dt 1.

(** what one step does *)
Definition variable_step (k : nat) (dt : R) (ext bnd : arr3) (psi : nat -> mat3) (fl : mat2) (gc ac : nat) (emit : mat2) : Prop :=
  exists ci fac idx e xw fu fc E,
    energy_grid_change stock table grid G gc = Ok (ci, fac, idx, e) /\
    angular_x leggauss ac [bc_left P; bc_right P] = Ok xw /\
    emit = recombined ci fac fu fc /\
    step_equation P G vu Tu X ext bnd (run_derivative two dt psi k (psi (S k))) emit E (psi (S k)) /\
    fl = scalar_flux P (psi (S k)) /\
    uncollided_flux two P G vu dt Tu ext bnd psi k fu /\
    source_iteration_iso (with_angles P ac (fst xw) (snd xw)) gc (coarsen_flux gc fu zeros2 idx)
      (effective_total (run_weight two k) (xs_vector_coarsen Tu e idx) (coarsen_velocity vu idx) dt)
      (coarse_scatter X (ediff e) (coarse_diff e idx) idx)
      (mkArr3 1 gc (fun i _ g => hybrid_source_collided (cells P) G fu X zeros2 (medium P) ci i g)) no_inflow 1 = Ok fc.

Lemma variable_history start external boundary steps dt ft : 0 < dt -> run start external boundary steps dt = Ok ft ->
  exists psi emit, psi 0%nat = start /\
    time_history two P G vu dt Tu X (step_row external) (step_row boundary) steps psi emit /\
    forall k, (k < steps)%nat -> ft k = scalar_flux P (psi (S k)) /\ exists gc ac, count_at groups_c k gc /\ count_at angles_c k ac /\
      variable_step k dt (step_row external k) (step_row boundary k) psi (ft k) gc ac (emit k).
Proof.
  intros Hdt Er. assert (Hv : forall g, (g < G)%nat -> vu g <> 0) by (intros g Hg; specialize (HVu g Hg); lra).
  assert (Hnz : nonzero_ordinates (angles P) (mu P)) by apply HP.
  assert (Hd : forall k, (k < steps)%nat -> mg_divisors P G (effective_total (run_weight two k) Tu vu dt)) by (intros; eapply run_divisors; eassumption).
  destruct (vhybrid_trace two P leggauss stock table grid G groups_c angles_c start Tu s f vu external boundary steps dt ft Er) as (x & H0 & Hs & Hft & Hsrc).
  set (psi := fun j => t_psi1 (x j)) in *.
  assert (HS : forall k, (k < steps)%nat -> exists emit, exists gc ac, count_at groups_c k gc /\ count_at angles_c k ac /\
      variable_step k dt (step_row external k) (step_row boundary k) psi (ft k) gc ac emit).
  { intros k Hk.
    destruct (vhybrid_body_ok two P leggauss stock table grid G groups_c angles_c Tu s f vu external boundary dt k _ _ (Hs k Hk))
      as (gc & ac & ci & fac & idx & e & xw & qf & fu & fc & A1 & A2 & A3 & A4 & Eq & E1 & E2 & E3 & _ & _).
    rewrite Hsrc in Eq by exact Hk. subst qf.
    destruct (hybrid_step_sweeps P G _ _ _ X ci fac _ _ _ Hangles Hnz (Hd k Hk) E1 E3) as [(Eu & pu & HEu & Au) [E HE]].
    exists (recombined ci fac fu fc), gc, ac. split; [apply at_step_count; exact A1|]. split; [apply at_step_count; exact A2|].
    exists ci, fac, idx, e, xw, fu, fc, E. split; [exact A3|]. split; [exact A4|]. split; [reflexivity|]. split; [|split; [apply Hft; exact Hk|split; [|exact E2]]].
    - apply (sweep_step P G vu dt Tu X (step_row external k) (step_row boundary k) (run_weight two k)
               (run_source two vu dt psi k) (run_derivative two dt psi k (psi (S k))) (recombined ci fac fu fc)) in HE;
        [exact HE|intros; apply run_derivative_eq; [apply Hv; assumption|lra]].
    - exists Eu, pu. split; [|exact Au].
      apply (sweep_step P G vu dt Tu (fun _ _ _ => 0) (step_row external k) (step_row boundary k) (run_weight two k)
               (run_source two vu dt psi k)); [intros; apply run_derivative_eq; [apply Hv; assumption|lra]|].
      eapply sweep_eq_ext; [|exact HEu]. intros i m g Hi Hm Hg. cbv beta.
      rewrite (rsum_ext G _ (fun _ => 0)) by (intros; ring). rewrite rsum_zero. ring. }
  destruct (choose_steps zeros2 steps _ HS) as (emit & HE).
  exists psi, emit. split; [unfold psi; rewrite H0; reflexivity|]. split.
  - intros k Hk. destruct (HE k Hk) as (gc & ac & _ & _ & ci & fac & idx & e & xw & fu & fc & E & _ & _ & _ & B & _). exists E. exact B.
  - intros k Hk. split; [apply Hft; exact Hk|]. exact (HE k Hk).
Qed.

Definition grid_good (j : nat) (dt0 K : R) : Prop :=
  forall gc ac, count_at groups_c j gc -> count_at angles_c j ac ->
  forall k dt ext bnd psi fl emit, 0 < dt -> dt <= dt0 -> variable_step k dt ext bnd psi fl gc ac emit ->
  source_norm P G vu (unresolved P G X emit (psi (S k))) <= K * dt * N (psi (S k)).

Lemma one_grid j : exists dt0 K, 0 < dt0 /\ 0 <= K /\ grid_good j dt0 K.
Proof.
  assert (Vac : (forall gc ac ci fac idx e xw, count_at groups_c j gc -> count_at angles_c j ac ->
    energy_grid_change stock table grid G gc = Ok (ci, fac, idx, e) -> angular_x leggauss ac [bc_left P; bc_right P] = Ok xw -> False) ->
    exists dt0 K, 0 < dt0 /\ 0 <= K /\ grid_good j dt0 K).
  { intros F. exists 1, 0. split; [lra|]. split; [lra|]. intros gc ac Hg Ha k dt ext bnd psi fl emit _ _ (ci & fac & idx & e & xw & fu & fc & E & A & B & _).
    destruct (F gc ac ci fac idx e xw Hg Ha A B). }
  destruct (at_step groups_c j) as [gc|] eqn:Eg.
  2:{ apply Vac. intros gc ac ci fac idx e0 xw Hg _ _ _. apply at_step_count in Hg. congruence. }
  destruct (at_step angles_c j) as [ac|] eqn:Ea.
  2:{ apply Vac. intros gc' ac ci fac idx e0 xw _ Ha _ _. apply at_step_count in Ha. congruence. }
  apply at_step_count in Eg. apply at_step_count in Ea.
  destruct (energy_grid_change stock table grid G gc) as [[[[ci fac] idx] e]|] eqn:Er.
  2:{ apply Vac. intros gc' ac' ci fac idx e0 xw Hg _ A _. rewrite (count_at_one _ _ _ _ Hg Eg) in A. congruence. }
  destruct (angular_x leggauss ac [bc_left P; bc_right P]) as [xw|] eqn:Ex.
  2:{ apply Vac. intros gc' ac' ci' fac' idx' e' xw _ Ha _ B. rewrite (count_at_one _ _ _ _ Ha Ea) in B. congruence. }
  clear Vac. pose proof (Hgrids j gc ci fac idx e Eg Er) as HPa. pose proof (Hquads j ac xw Ea Ex) as HPC.
  destruct (grid_owner _ _ _ _ _ _ _ _ _ Er) as (Hci & He).
  assert (HEd : monotone_edges G e) by (rewrite He; exact Hedges).
  assert (HTu : forall i g, (i < cells P)%nat -> (g < G)%nat -> 0 <= Tu (medium P i) g) by (intros i g Hi Hg; apply (sound_total P G Tu _ i g HP HM Hi Hg)).
  destruct (variable_collided P G gc ac vu Tu X idx e xw ci HP HPC HPa HEd HVu HTu) as (dt1 & kap & P1 & Pk & HC).
  destruct (transfer_bound P G X) as (tau & Ptau & Htau).
  set (F := rsum G (fun g => Rabs (fac g))).
  assert (HF : 0 <= F) by (apply rsum_nonneg; intros; apply Rabs_pos).
  assert (Hfac : forall g, (g < G)%nat -> Rabs (fac g) <= F) by (intros g Hg; apply (rsum_term_le G (fun g => Rabs (fac g)) g); [intros; apply Rabs_pos|exact Hg]).
  assert (Hown : forall g, (g < G)%nat -> (ci g < gc)%nat) by (intros g Hg; rewrite Hci; apply (collided_index_eq G gc idx HPa g Hg)).
  destruct (step_from_pos P G vu tau F kap HP HVu Ptau HF Pk) as (PW & PV & PG & _ & PK0).
  set (W := rsum (angles P) (wt P)) in *. set (V := rsum G vu) in *.
  set (K0 := W * V * (INR G * tau) * (4 * (INR G * tau) * (W * V) + 2 * F * kap)) in *.
  set (A2 := F * kap). set (A3 := 4 * (INR G * tau) * (W * V)).
  assert (Q2 : 0 <= A2) by (unfold A2; apply Rmult_le_pos; assumption).
  assert (Q3 : 0 <= A3) by (unfold A3; apply Rmult_le_pos; [apply Rmult_le_pos; [lra|exact PG]|apply Rmult_le_pos; assumption]).
  exists (Rmin dt1 (/ (A2 + A3 + 1))), K0. split; [apply Rmin_glb_lt; [exact P1|apply Rinv_0_lt_compat; lra]|]. split; [exact PK0|].
  intros gc' ac' Hg' Ha' k dt ext bnd psi fl emit Hdt Hle (ci' & fac' & idx' & e' & xw' & fu & fc & E & B1 & B2 & B3 & B4 & B5 & B6 & B7).
  rewrite (count_at_one _ _ _ _ Hg' Eg) in *. rewrite (count_at_one _ _ _ _ Ha' Ea) in *.
  rewrite Er in B1. injection B1 as <- <- <- <-. rewrite Ex in B2. injection B2 as <-. subst emit.
  pose proof (Rmin_l dt1 (/ (A2 + A3 + 1))) as ML. pose proof (Rmin_r dt1 (/ (A2 + A3 + 1))) as MR.
  assert (Hd : dt * (A2 + A3 + 1) <= 1).
  { assert (Hle' : dt <= / (A2 + A3 + 1)) by lra. apply (Rmult_le_compat_r (A2 + A3 + 1)) in Hle'; [|lra]. rewrite Rinv_l in Hle' by lra. exact Hle'. }
  assert (Z2 : 0 <= dt * A2) by (apply Rmult_le_pos; lra). assert (Z3 : 0 <= dt * A3) by (apply Rmult_le_pos; lra).
  assert (D2 : dt * A2 <= 1) by lra. assert (D3 : dt * A3 <= 1) by lra.
  replace (K0 * dt) with (dt * K0) by ring.
  apply (step_residual_from two P G gc vu dt Tu X ci fac tau F kap HP Hown HVu Hdt HTu Ptau Htau HF Hfac Pk D2 D3 k ext bnd psi fu fc E B4 B6).
  intros l Hl Hu c Hc. apply (HC dt (run_weight two k) fu fc Hdt ltac:(lra)); try assumption.
  unfold run_weight. destruct two; [destruct k|]; lra.
Qed.

Lemma variable_resolved : exists dt0 K, 0 < dt0 /\ 0 <= K /\
  forall start external boundary steps dt ft, 0 < dt -> dt <= dt0 ->
  run start external boundary steps dt = Ok ft ->
  exists psi emit, psi 0%nat = start /\
    time_history two P G vu dt Tu X (step_row external) (step_row boundary) steps psi emit /\
    forall k, (k < steps)%nat -> ft k = scalar_flux P (psi (S k)) /\
      source_norm P G vu (unresolved P G X (emit k) (psi (S k))) <= K * dt * N (psi (S k)).
Proof.
  destruct (common_constants (grid_steps groups_c angles_c) grid_good) as (dt0 & K & P0 & PK & HG).
  - intros j dt K dt' K' H Hd Hle HK gc ac Hg Ha k d ext bnd psi fl emit Pd Hd' HS.
    eapply Rle_trans; [apply (H gc ac Hg Ha k d ext bnd psi fl emit Pd ltac:(lra) HS)|].
    apply Rmult_le_compat_r; [apply sqrt_pos|]. apply Rmult_le_compat_r; lra.
  - exact one_grid.
  - exists dt0, K. split; [exact P0|]. split; [exact PK|]. intros start external boundary steps dt ft Hdt Hle E.
    destruct (variable_history start external boundary steps dt ft Hdt E) as (psi & emit & H0 & HH & HS).
    exists psi, emit. split; [exact H0|]. split; [exact HH|]. intros k Hk. destruct (HS k Hk) as (R1 & gc & ac & Hg & Ha & R2). split; [exact R1|].
    destruct (grid_steps_all groups_c angles_c k gc ac Hg Ha) as (j & Hj & Hg' & Ha').
    exact (HG j Hj gc ac Hg' Ha' k dt (step_row external k) (step_row boundary k) psi (ft k) (emit k) Hdt Hle R2).
Qed.

Lemma variable_stable T : 0 <= T -> exists dt0, 0 < dt0 /\
  forall start external boundary steps dt ft, 0 < dt -> dt <= dt0 -> INR steps * dt <= T ->
  (forall k m g, (k < steps)%nat -> (m < angles P)%nat -> (g < G)%nat -> mg_boundary (step_row boundary k) (mu P) g m = 0) ->
  run start external boundary steps dt = Ok ft ->
  forall k, (k < steps)%nat ->
    sqrt (rsum G (fun g => rsum (cells P) (fun i => dx P i * Rsqr (ft k i g) / vu g)))
    <= sqrt (rsum (angles P) (wt P)) * (2 * ((if two then sqrt 2 else 1) * N start + (if two then 6 else 1) * dt * rsum (S k) (fun j => source_norm P G vu
         (fun i m g => at3 (step_row external j) i (bidx (d4b external) m) (bidx (d4c external) g))))).
Proof. exact (resolved_stable two P G Tu X vu run HP HM HVu variable_resolved T). Qed.

Lemma variable_exact T : 0 <= T -> exists dt0 K, 0 < dt0 /\ 0 <= K /\
  forall start external boundary steps dt ft exact, 0 < dt -> dt <= dt0 -> INR steps * dt <= T ->
  run start external boundary steps dt = Ok ft ->
  exact 0%nat = start -> exact_history two P G vu dt Tu X (step_row external) (step_row boundary) steps exact ->
  forall k, (k < steps)%nat ->
    sqrt (rsum G (fun g => rsum (cells P) (fun i => dx P i * Rsqr (ft k i g - scalar_flux P (exact (S k)) i g) / vu g)))
    <= K * dt * (dt * rsum (S k) (fun j => N (exact (S j)))).
Proof. exact (resolved_exact two P G Tu X vu run HP HM HVu variable_resolved T). Qed.

Lemma variable_order T : 0 <= T -> exists dt0 K, 0 < dt0 /\ 0 <= K /\
  forall start external boundary steps dt ft, 0 < dt -> dt <= dt0 -> INR steps * dt <= T ->
  run start external boundary steps dt = Ok ft ->
  forall source inflow t0 M2 M3 B flux slope, 0 <= M2 -> 0 <= M3 -> 0 <= B ->
    source_rows P G t0 dt steps (step_row external) source -> inflow_rows P G t0 dt steps (step_row boundary) inflow ->
    smooth_in_time two P G t0 (time_at t0 dt steps) M2 M3 flux slope ->
    evolves P G vu Tu X source inflow t0 (time_at t0 dt steps) flux slope ->
    (forall t, t0 <= t <= time_at t0 dt steps -> N (flux t) <= B) ->
    forall k, (k < steps)%nat ->
    sqrt (rsum G (fun g => rsum (cells P) (fun i => dx P i * Rsqr (ft k i g - scalar_flux P (flux (time_at t0 dt (S k))) i g) / vu g)))
    <= sqrt (rsum (angles P) (wt P)) * (2 * ((if two then sqrt 2 else 1) * N (minus3 start (flux t0)) + time_error two dt (INR (S k) * dt) M2 M3 * N unit_flux))
       + K * dt * (INR (S k) * dt * B).
Proof. exact (resolved_order two P G Tu X vu run HP HM HVu variable_resolved T). Qed.
End Variable_run.
