(** Hybrid runs that keep all energy groups: the order of accuracy of the unsplit scheme. *)
From Coq Require Import Lra Lia Psatz.
From Verif Require Import Base BaseFacts SlabModel SlabSpec MgModel MgSpec MgFacts MgFacts2 TimeModel TimeSpec TimeFacts TimeFacts2 TimeFacts4.
From Verif Require Import EnSpec EnFacts EnFacts2 EnFacts3 EnFacts4 EnFacts5 EnFacts6 EnFacts7 OrdSpec OrdFacts OrdFacts2 OrdFacts3 OrdFacts8 OrdFacts9 OrdFacts10 OrdFacts12 OrdFacts13.
Open Scope R_scope.

Lemma time_error_incr two dt s t M2 M3 : 0 < dt -> 0 <= M2 -> 0 <= M3 -> s <= t -> time_error two dt s M2 M3 <= time_error two dt t M2 M3.
Proof.
  intros Hdt H2 H3 Hst. unfold time_error. destruct two.
  - apply Rmult_le_compat_r; [apply pow_le; lra|]. apply (Rmult_le_compat_r M3) in Hst; lra.
  - apply Rmult_le_compat_r; [lra|]. apply (Rmult_le_compat_r M2) in Hst; lra.
Qed.
Lemma time_error_pos two dt s M2 M3 : 0 < dt -> 0 <= M2 -> 0 <= M3 -> 0 <= s -> 0 <= time_error two dt s M2 M3.
Proof.
  intros Hdt H2 H3 Hs. unfold time_error. destruct two.
  - apply Rmult_le_pos; [|apply pow_le; lra]. assert (0 <= s * M3) by (apply Rmult_le_pos; assumption). lra.
  - assert (0 <= s * M2) by (apply Rmult_le_pos; assumption). apply Rmult_le_pos; lra.
Qed.

(** a history whose unresolved scattering is a small multiple of the new flux *)
Lemma history_order two P G vu dt Tu T ext bnd steps psi emit kappa source inflow t0 M2 M3 B flux slope :
  sound_slab P -> no_multiplication P G Tu T -> (forall g, (g < G)%nat -> 0 < vu g) -> 0 < dt -> 0 <= M2 -> 0 <= M3 -> 0 <= B -> 0 <= kappa ->
  time_history two P G vu dt Tu T ext bnd steps psi emit ->
  (forall k, (k < steps)%nat -> source_norm P G vu (unresolved P G T (emit k) (psi (S k))) <= kappa * density_norm P G vu (psi (S k))) ->
  source_rows P G t0 dt steps ext source -> inflow_rows P G t0 dt steps bnd inflow ->
  smooth_in_time two P G t0 (time_at t0 dt steps) M2 M3 flux slope ->
  evolves P G vu Tu T source inflow t0 (time_at t0 dt steps) flux slope ->
  (forall t, t0 <= t <= time_at t0 dt steps -> density_norm P G vu (flux t) <= B) ->
  forall k, (k <= steps)%nat -> INR k * ((if two then 6 else 1) * dt * kappa) <= / 2 ->
  density_norm P G vu (minus3 (psi k) (flux (time_at t0 dt k))) <=
    2 * ((if two then sqrt 2 else 1) * density_norm P G vu (minus3 (psi 0%nat) (flux t0)) + time_error two dt (INR k * dt) M2 M3 * density_norm P G vu unit_flux
         + (if two then 6 else 1) * dt * kappa * (INR k * B)).
Proof.
  intros HP HM HV Hdt PM2 PM3 PB Pk HH Hres HRo HI HSm HE HB k Hk Hsm.
  set (N := density_norm P G vu) in *. set (a := if two then sqrt 2 else 1). set (b := if two then 6 else 1) in *.
  assert (Pa : 0 <= a) by (unfold a; destruct two; [apply sqrt_pos|lra]). assert (Pb : 0 <= b) by (unfold b; destruct two; lra).
  set (S0 := a * N (minus3 (psi 0%nat) (flux t0)) + time_error two dt (INR k * dt) M2 M3 * N unit_flux).
  assert (PU : 0 <= N unit_flux) by apply sqrt_pos. assert (PK1 : 0 <= INR k * dt) by (apply Rmult_le_pos; [apply pos_INR|lra]).
  assert (PS : 0 <= S0).
  { unfold S0. assert (0 <= a * N (minus3 (psi 0%nat) (flux t0))) by (apply Rmult_le_pos; [exact Pa|apply sqrt_pos]).
    assert (0 <= time_error two dt (INR k * dt) M2 M3 * N unit_flux) by (apply Rmult_le_pos; [apply time_error_pos; assumption|exact PU]). lra. }
  assert (Pc : 0 <= b * dt * kappa) by (apply Rmult_le_pos; [apply Rmult_le_pos; lra|exact Pk]).
  set (A := S0 + b * dt * kappa * (INR k * B)).
  apply (half_max (fun j => N (minus3 (psi j) (flux (time_at t0 dt j)))) k A (b * dt * kappa)); [intros; apply sqrt_pos| |exact Pc|exact Hsm| |apply Nat.le_refl].
  - assert (0 <= b * dt * kappa * (INR k * B)) by (apply Rmult_le_pos; [exact Pc|apply Rmult_le_pos; [apply pos_INR|exact PB]]). unfold A. lra.
  - intros j Hj. cbv beta.
    pose proof (history_accurate two P G vu dt Tu T _ _ steps psi emit source inflow t0 M2 M3 flux slope HP HM HV Hdt PM2 PM3 HH HRo HI HSm HE j ltac:(lia)) as AC.
    fold N a b in AC. eapply Rle_trans; [exact AC|].
    assert (T1 : time_error two dt (INR j * dt) M2 M3 * N unit_flux <= time_error two dt (INR k * dt) M2 M3 * N unit_flux).
    { apply Rmult_le_compat_r; [exact PU|]. apply time_error_incr; try assumption. apply Rmult_le_compat_r; [lra|apply le_INR, Hj]. }
    assert (T2 : b * dt * rsum j (fun i => source_norm P G vu (unresolved P G T (emit i) (psi (S i))))
      <= b * dt * kappa * (INR k * B) + b * dt * kappa * rsum j (fun i => N (minus3 (psi (S i)) (flux (time_at t0 dt (S i)))))).
    { set (X := rsum j (fun i => N (minus3 (psi (S i)) (flux (time_at t0 dt (S i)))))).
      replace (b * dt * kappa * (INR k * B) + b * dt * kappa * X) with (b * dt * (kappa * (INR k * B + X))) by ring.
      apply Rmult_le_compat_l; [apply Rmult_le_pos; lra|]. unfold X.
      apply Rle_trans with (rsum j (fun i => kappa * (B + N (minus3 (psi (S i)) (flux (time_at t0 dt (S i))))))).
      - apply rsum_le. intros i Hi. eapply Rle_trans; [apply Hres; lia|]. apply Rmult_le_compat_l; [exact Pk|].
        pose proof (N_triangle P G vu HP HV (psi (S i)) (flux (time_at t0 dt (S i)))) as TR. fold N in TR.
        assert (N (flux (time_at t0 dt (S i))) <= B).
        { apply HB. split; [pose proof (time_at_le t0 dt 0 (S i) ltac:(lra) ltac:(lia)) as L; rewrite time_at_0 in L; exact L|apply time_at_le; [lra|lia]]. }
        lra.
      - rewrite rsum_scal, rsum_plus, rsum_const. apply Rmult_le_compat_l; [exact Pk|].
        apply Rplus_le_compat_r. apply Rmult_le_compat_r; [exact PB|apply le_INR, Hj]. }
    unfold A, S0. lra.
Qed.

Section Kept.
Variables (two : bool) (P PC : sn) (materials G : nat) (Tu Tc : mat2) (su sc : mat3) (fu fc : fission_data) (vu vc : vec)
  (ci : nat -> nat) (fac : vec).
Hypothesis HP : sound_slab P.
Hypothesis HPC : sound_slab PC.
Hypothesis Hangles : angles P <> 1%nat.
Hypothesis Hmed : forall i, (i < cells P)%nat -> (medium P i < materials)%nat.
Hypothesis Hsame : cells PC = cells P /\ medium PC = medium P.
Hypothesis Hdx : forall i, (i < cells P)%nat -> dx PC i = dx P i.
Hypothesis Hweights : rsum (angles PC) (wt PC) = rsum (angles P) (wt P).
Hypothesis Hkept : forall g, (g < G)%nat -> ci g = g /\ fac g = 1 /\ vc g = vu g.
Hypothesis HM : no_multiplication P G Tu (total_transfer su fu).
Hypothesis HTc : forall i g, (i < cells P)%nat -> (g < G)%nat -> 0 <= Tc (medium P i) g.
Hypothesis HVu : forall g, (g < G)%nat -> 0 < vu g.
Let N := density_norm P G vu.
Let run start external boundary steps dt :=
  hybrid_run two P PC materials G G start Tu Tc (Scatter3 su) (Scatter3 sc) fu fc vu vc external boundary ci fac steps dt 1.

Lemma kept_resolved : exists dt0 K, 0 < dt0 /\ 0 <= K /\
  forall start external boundary steps dt ft, 0 < dt -> dt <= dt0 ->
  run start external boundary steps dt = Ok ft ->
  exists psi emit, psi 0%nat = start /\
    time_history two P G vu dt Tu (total_transfer su fu) (step_row external) (step_row boundary) steps psi emit /\
    forall k, (k < steps)%nat -> ft k = scalar_flux P (psi (S k)) /\
      source_norm P G vu (unresolved P G (total_transfer su fu) (emit k) (psi (S k))) <= K * dt ^ 2 * N (psi (S k)).
Proof.
  set (T := total_transfer su fu) in *.
  destruct (transfer_bound P G T) as (tau & Ptau & Htau). destruct (transfer_bound P G (total_transfer sc fc)) as (tauc & Ptauc & Htauc).
  assert (HTu : forall i g, (i < cells P)%nat -> (g < G)%nat -> 0 <= Tu (medium P i) g) by (intros i g Hi Hg; apply (sound_total P G Tu T i g HP HM Hi Hg)).
  destruct Hsame as (Hc1 & Hc2).
  destruct (kept_residual P PC G vu vc Tu Tc T tau tauc HP HPC Hc1 Hc2 Hdx Hweights HVu (fun g Hg => proj2 (proj2 (Hkept g Hg))) HTu HTc Ptau Htau Ptauc)
    as (dt0 & K & P0 & PK & HR).
  exists dt0, K. split; [exact P0|]. split; [exact PK|].
  intros start external boundary steps dt ft Hdt Hle E.
  assert (Hv : forall g, (g < G)%nat -> vu g <> 0) by (intros g Hg; specialize (HVu g Hg); lra).
  assert (Hnz : nonzero_ordinates (angles P) (mu P)) by apply HP.
  destruct (hybrid_history_gen two P PC materials G G start Tu Tc su sc fu fc vu vc external boundary ci fac steps dt Hangles Hnz Hmed Hv
    ltac:(lra) ft) as (Xc & psi & phi_u & phi_c & HXc & H0 & HH & HS); [|exact E|].
  { intros k Hk. eapply run_divisors; eassumption. }
  exists psi, (fun k => recombined ci fac (phi_u k) (phi_c k)). split; [exact H0|]. split; [exact HH|].
  intros k Hk. destruct (HS k Hk) as (R1 & R2 & src & R3 & R4 & R5 & R6). split; [exact R1|].
  destruct (HH k Hk) as (Ek & Hst). replace (K * dt ^ 2) with (K * (dt * dt)) by ring.
  apply (HR two dt k Xc ci fac (step_row external k) (step_row boundary k) src psi (phi_u k) (phi_c k) Ek Hdt Hle); try assumption.
  - intros i g h Hi Hg Hh. rewrite HXc by assumption. apply Htauc; assumption.
  - intros g Hg. apply Hkept, Hg.
  - intros g Hg. apply Hkept, Hg.
Qed.

Lemma kept_order T : 0 <= T -> exists dt0 K, 0 < dt0 /\ 0 <= K /\
  forall start external boundary steps dt ft, 0 < dt -> dt <= dt0 -> INR steps * dt <= T ->
  run start external boundary steps dt = Ok ft ->
  forall source inflow t0 M2 M3 B flux slope, 0 <= M2 -> 0 <= M3 -> 0 <= B ->
    source_rows P G t0 dt steps (step_row external) source -> inflow_rows P G t0 dt steps (step_row boundary) inflow ->
    smooth_in_time two P G t0 (time_at t0 dt steps) M2 M3 flux slope ->
    evolves P G vu Tu (total_transfer su fu) source inflow t0 (time_at t0 dt steps) flux slope ->
    (forall t, t0 <= t <= time_at t0 dt steps -> N (flux t) <= B) ->
    forall k, (k < steps)%nat ->
    sqrt (rsum G (fun g => rsum (cells P) (fun i => dx P i * Rsqr (ft k i g - scalar_flux P (flux (time_at t0 dt (S k))) i g) / vu g)))
    <= sqrt (rsum (angles P) (wt P)) * (2 * ((if two then sqrt 2 else 1) * N (minus3 start (flux t0)) + time_error two dt (INR (S k) * dt) M2 M3 * N unit_flux))
       + K * dt ^ 2 * (INR (S k) * dt * B).
Proof.
  intros HT. destruct kept_resolved as (dt0 & K & P0 & PK & HR). destruct (small_step two P PC materials G G Tu Tc su sc fu fc vu vc ci fac K T PK HT) as (dt1 & P1 & HS).
  set (b := if two then 6 else 1) in *. assert (Pb : 0 <= b) by (unfold b; destruct two; lra).
  pose proof (sqrt_pos (rsum (angles P) (wt P))) as Pw.
  exists (Rmin 1 (Rmin dt0 dt1)), (sqrt (rsum (angles P) (wt P)) * (2 * (b * K))). split; [repeat apply Rmin_glb_lt; try assumption; lra|].
  split; [apply Rmult_le_pos; [exact Pw|]; apply Rmult_le_pos; [lra|]; apply Rmult_le_pos; assumption|].
  intros start external boundary steps dt ft Hdt Hle Hst E source inflow t0 M2 M3 B flux slope PM2 PM3 PB HRo HI HSm HE HB k Hk.
  pose proof (Rmin_l 1 (Rmin dt0 dt1)) as M0. pose proof (Rmin_r 1 (Rmin dt0 dt1)) as M1.
  pose proof (Rmin_l dt0 dt1) as ML. pose proof (Rmin_r dt0 dt1) as MR.
  destruct (HR start external boundary steps dt ft Hdt ltac:(lra) E) as (psi & emit & H0 & HH & Hres).
  assert (Pk2 : 0 <= K * dt ^ 2) by (apply Rmult_le_pos; [exact PK|apply pow_le; lra]).
  assert (SM : INR (S k) * (b * dt * (K * dt ^ 2)) <= / 2).
  { eapply Rle_trans; [|apply (HS dt steps (S k) Hdt ltac:(lra) ltac:(lia) Hst)]. apply Rmult_le_compat_l; [apply pos_INR|].
    apply Rmult_le_compat_l; [apply Rmult_le_pos; lra|]. apply Rmult_le_compat_l; [exact PK|]. cbn [pow].
    assert (0 <= dt * (1 - dt)) by (apply Rmult_le_pos; lra). lra. }
  pose proof (history_order two P G vu dt Tu (total_transfer su fu) _ _ steps psi emit (K * dt ^ 2) source inflow t0 M2 M3 B flux slope
    HP HM HVu Hdt PM2 PM3 PB Pk2 HH (fun j Hj => proj2 (Hres j Hj)) HRo HI HSm HE HB (S k) ltac:(lia) SM) as Bd.
  destruct (Hres k Hk) as (R1 & _). eapply Rle_trans; [apply (output_norm P G vu HP HVu psi (flux (time_at t0 dt (S k))) ft k R1)|].
  apply (Rmult_le_compat_l _ _ _ Pw) in Bd. eapply Rle_trans; [exact Bd|]. rewrite H0. fold N b. right. ring.
Qed.
End Kept.
