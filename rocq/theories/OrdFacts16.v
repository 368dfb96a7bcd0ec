(** Runs whose steps leave little unresolved, whatever the driver: stability, distance to exactly solved steps, order of accuracy. *)
From Coq Require Import Lra Lia Psatz.
From Verif Require Import Base BaseFacts SlabModel SlabSpec MgModel MgSpec MgFacts MgFacts2 HybModel HybSpec HybFacts HybFacts2 MainModel TimeModel TimeSpec TimeFacts TimeFacts2 TimeFacts3 TimeFacts4 TimeFacts5.
From Verif Require Import EnSpec EnFacts EnFacts2 EnFacts3 EnFacts4 EnFacts5 EnFacts6 EnFacts7 OrdSpec OrdFacts OrdFacts2 OrdFacts3 OrdFacts8 OrdFacts9 OrdFacts10 OrdFacts14 OrdFacts15.
Open Scope R_scope.

Lemma step_small (two : bool) K T : 0 <= K -> 0 <= T -> exists dt1, 0 < dt1 /\ forall dt steps k, 0 < dt -> dt <= dt1 -> (k <= steps)%nat -> INR steps * dt <= T ->
  INR k * ((if two then 6 else 1) * dt * (K * dt)) <= / 2.
Proof.
  intros HK HT. assert (P1 : 0 <= 6 * K * T) by (repeat apply Rmult_le_pos; lra).
  exists (/ (2 * (6 * K * T + 1))). split; [apply Rinv_0_lt_compat; lra|]. intros dt steps k Hdt Hle Hk HS.
  assert (A : INR k * dt <= T). { apply Rle_trans with (INR steps * dt); [|exact HS]. apply Rmult_le_compat_r; [lra|apply le_INR, Hk]. }
  assert (B : dt * (6 * K * T + 1) <= / 2).
  { apply (Rmult_le_compat_r (6 * K * T + 1)) in Hle; [|lra]. replace (/ (2 * (6 * K * T + 1)) * (6 * K * T + 1)) with (/ 2) in Hle by (field; lra). exact Hle. }
  assert (C : (if two then 6 else 1) * (INR k * dt * (K * dt)) <= 6 * (T * (K * dt))).
  { assert (P2 : 0 <= K * dt) by (apply Rmult_le_pos; lra). assert (P3 : 0 <= INR k * dt) by (apply Rmult_le_pos; [apply pos_INR|lra]).
    apply Rmult_le_compat; [destruct two; lra|apply Rmult_le_pos; assumption|destruct two; lra|]. apply Rmult_le_compat_r; assumption. }
  replace (INR k * ((if two then 6 else 1) * dt * (K * dt))) with ((if two then 6 else 1) * (INR k * dt * (K * dt))) by ring. lra.
Qed.

Section Resolved.
Variables (two : bool) (P : sn) (G : nat) (Tu : mat2) (X : mat3) (vu : vec).
Variable run : mat3 -> arr4 -> arr4 -> nat -> R -> outcome (nat -> mat2).
Hypothesis HP : sound_slab P.
Hypothesis HM : no_multiplication P G Tu X.
Hypothesis HVu : forall g, (g < G)%nat -> 0 < vu g.
Let N := density_norm P G vu.
Hypothesis HRes : exists dt0 K, 0 < dt0 /\ 0 <= K /\
  forall start external boundary steps dt ft, 0 < dt -> dt <= dt0 ->
  run start external boundary steps dt = Ok ft ->
  exists psi emit, psi 0%nat = start /\
    time_history two P G vu dt Tu X (step_row external) (step_row boundary) steps psi emit /\
    forall k, (k < steps)%nat -> ft k = scalar_flux P (psi (S k)) /\
      source_norm P G vu (unresolved P G X (emit k) (psi (S k))) <= K * dt * N (psi (S k)).
Let a := if two then sqrt 2 else 1.
Let b := if two then 6 else 1.
Let a_pos : 0 <= a.
Proof. unfold a. destruct two; [apply sqrt_pos|lra]. Qed.
Let b_pos : 0 <= b.
Proof. unfold b. destruct two; lra. Qed.

(** *** no growth *)
Lemma resolved_stable T : 0 <= T -> exists dt0, 0 < dt0 /\
  forall start external boundary steps dt ft, 0 < dt -> dt <= dt0 -> INR steps * dt <= T ->
  (forall k m g, (k < steps)%nat -> (m < angles P)%nat -> (g < G)%nat -> mg_boundary (step_row boundary k) (mu P) g m = 0) ->
  run start external boundary steps dt = Ok ft ->
  forall k, (k < steps)%nat ->
    sqrt (rsum G (fun g => rsum (cells P) (fun i => dx P i * Rsqr (ft k i g) / vu g)))
    <= sqrt (rsum (angles P) (wt P)) * (2 * (a * N start + b * dt * rsum (S k) (fun j => source_norm P G vu
         (fun i m g => at3 (step_row external j) i (bidx (d4b external) m) (bidx (d4c external) g))))).
Proof.
  intros HT. destruct HRes as (dt0 & K & P0 & PK & HR). destruct (step_small two K T PK HT) as (dt1 & P1 & HS).
  exists (Rmin dt0 dt1). split; [apply Rmin_glb_lt; assumption|]. intros start external boundary steps dt ft Hdt Hle Hst HB E k Hk.
  pose proof (Rmin_l dt0 dt1) as ML. pose proof (Rmin_r dt0 dt1) as MR.
  destruct (HR start external boundary steps dt ft Hdt ltac:(lra) E) as (psi & emit & H0 & HH & Hres).
  set (q := fun j => source_norm P G vu (fun i m g => at3 (step_row external j) i (bidx (d4b external) m) (bidx (d4c external) g))).
  assert (Pq : forall j, 0 <= q j) by (intros; apply sqrt_pos).
  pose proof a_pos as Pa. pose proof b_pos as Pb.
  assert (B : forall j, (j <= S k)%nat -> N (psi j) <= 2 * (a * N start + b * dt * rsum (S k) q)).
  { apply (half_max (fun j => N (psi j)) (S k) _ (b * dt * (K * dt))); [intros; apply sqrt_pos| | | |].
    - assert (0 <= N start) by apply sqrt_pos. assert (0 <= rsum (S k) q) by (apply rsum_nonneg; intros; apply Pq).
      assert (0 <= a * N start) by (apply Rmult_le_pos; assumption). assert (0 <= b * dt * rsum (S k) q) by (apply Rmult_le_pos; [apply Rmult_le_pos; lra|assumption]). lra.
    - apply Rmult_le_pos; [apply Rmult_le_pos; lra|apply Rmult_le_pos; lra].
    - apply (HS dt steps (S k)); [exact Hdt|lra|lia|exact Hst].
    - intros j Hj. cbv beta. eapply Rle_trans; [apply (history_bounded two P G vu dt Tu X _ _ steps psi emit HP HM HVu Hdt HB HH j ltac:(lia))|].
      rewrite H0. fold N a b. rewrite Rplus_assoc. apply Rplus_le_compat_l.
      replace (b * dt * rsum (S k) q + b * dt * (K * dt) * rsum j (fun i => N (psi (S i)))) with (b * dt * (rsum (S k) q + K * dt * rsum j (fun i => N (psi (S i))))) by ring.
      apply Rmult_le_compat_l; [apply Rmult_le_pos; lra|].
      apply Rle_trans with (rsum j q + K * dt * rsum j (fun i => N (psi (S i)))).
      + rewrite <- rsum_scal, <- rsum_plus. apply rsum_le. intros i Hi. destruct (Hres i ltac:(lia)) as (_ & R2).
        eapply Rle_trans; [|apply Rplus_le_compat_l; exact R2].
        change (step_input P G X (step_row external i) (emit i) (psi (S i)))
          with (fun i0 m g => (fun i1 m1 g1 => at3 (step_row external i) i1 (bidx (d4b external) m1) (bidx (d4c external) g1)) i0 m g
                 + unresolved P G X (emit i) (psi (S i)) i0 m g).
        apply (source_plus P G vu HP HVu).
      + apply Rplus_le_compat_r. clear - Hj Pq. replace (S k) with (j + (S k - j))%nat by lia. generalize (S k - j)%nat. intros d.
        induction d as [|d IH]; [rewrite Nat.add_0_r; lra|]. replace (j + S d)%nat with (S (j + d)) by lia. cbn [rsum]. specialize (Pq (j + d)%nat). lra. }
  destruct (Hres k Hk) as (R1 & _). specialize (B (S k) ltac:(lia)).
  eapply Rle_trans; [|apply Rmult_le_compat_l; [apply sqrt_pos|exact B]].
  rewrite R1. apply (scalar_norm P G vu (psi (S k)) HP HVu).
Qed.

(** *** distance to steps that are solved exactly *)
Lemma resolved_exact T : 0 <= T -> exists dt0 K, 0 < dt0 /\ 0 <= K /\
  forall start external boundary steps dt ft exact, 0 < dt -> dt <= dt0 -> INR steps * dt <= T ->
  run start external boundary steps dt = Ok ft ->
  exact 0%nat = start -> exact_history two P G vu dt Tu X (step_row external) (step_row boundary) steps exact ->
  forall k, (k < steps)%nat ->
    sqrt (rsum G (fun g => rsum (cells P) (fun i => dx P i * Rsqr (ft k i g - scalar_flux P (exact (S k)) i g) / vu g)))
    <= K * dt * (dt * rsum (S k) (fun j => N (exact (S j)))).
Proof.
  intros HT. destruct HRes as (dt0 & K & P0 & PK & HR). destruct (step_small two K T PK HT) as (dt1 & P1 & HS).
  pose proof a_pos as Pa. pose proof b_pos as Pb. pose proof (sqrt_pos (rsum (angles P) (wt P))) as Pw.
  exists (Rmin dt0 dt1), (sqrt (rsum (angles P) (wt P)) * (2 * (b * K))). split; [apply Rmin_glb_lt; assumption|].
  split; [apply Rmult_le_pos; [exact Pw|]; apply Rmult_le_pos; [lra|]; apply Rmult_le_pos; assumption|].
  intros start external boundary steps dt ft exact Hdt Hle Hst E HX0 HX k Hk.
  pose proof (Rmin_l dt0 dt1) as ML. pose proof (Rmin_r dt0 dt1) as MR.
  destruct (HR start external boundary steps dt ft Hdt ltac:(lra) E) as (psi & emit & H0 & HH & Hres).
  set (A := b * dt * (K * dt) * rsum (S k) (fun j => N (exact (S j)))).
  assert (Pc : 0 <= b * dt * (K * dt)) by (apply Rmult_le_pos; [apply Rmult_le_pos; lra|apply Rmult_le_pos; lra]).
  assert (Pe : forall j, 0 <= N (exact j)) by (intros; apply sqrt_pos).
  assert (B : forall j, (j <= S k)%nat -> N (minus3 (psi j) (exact j)) <= 2 * A).
  { apply (half_max (fun j => N (minus3 (psi j) (exact j))) (S k) A (b * dt * (K * dt))); [intros; apply sqrt_pos| |exact Pc| |].
    - apply Rmult_le_pos; [exact Pc|apply rsum_nonneg; intros; apply Pe].
    - apply (HS dt steps (S k)); [exact Hdt|lra|lia|exact Hst].
    - intros j Hj. cbv beta.
      pose proof (stability two P G vu dt Tu X _ _ _ steps psi exact emit _ HP HM HVu Hdt HH HX j ltac:(lia)) as ST. cbv beta in ST.
      rewrite H0, HX0 in ST. replace (density_norm P G vu (minus3 start start)) with 0 in ST.
      2:{ unfold density_norm. rewrite (total3_ext _ _ _ (fun _ _ _ => 0)); [|intros; unfold minus3, Rsqr, Rdiv; ring].
          replace (total3 P G (fun _ _ _ => 0)) with 0; [symmetry; apply sqrt_0|]. symmetry. apply rsum_zero_ext; intros. apply rsum_zero_ext; intros. apply rsum_zero_ext; reflexivity. }
      rewrite Rmult_0_r, Rplus_0_l in ST. eapply Rle_trans; [exact ST|]. fold b.
      apply Rle_trans with (b * dt * (K * dt) * rsum j (fun i => N (exact (S i)) + N (minus3 (psi (S i)) (exact (S i))))).
      + replace (b * dt * (K * dt) * rsum j (fun i => N (exact (S i)) + N (minus3 (psi (S i)) (exact (S i))))) with (b * dt * (K * dt * rsum j (fun i => N (exact (S i)) + N (minus3 (psi (S i)) (exact (S i)))))) by ring.
        apply Rmult_le_compat_l; [apply Rmult_le_pos; lra|]. rewrite <- rsum_scal. apply rsum_le. intros i Hi.
        rewrite residual_input. destruct (Hres i ltac:(lia)) as (_ & R2). eapply Rle_trans; [exact R2|].
        apply Rmult_le_compat_l; [apply Rmult_le_pos; lra|]. pose proof (N_triangle P G vu HP HVu (psi (S i)) (exact (S i))) as TR. fold N in TR. lra.
      + rewrite rsum_plus, Rmult_plus_distr_l. apply Rplus_le_compat_r. unfold A. apply Rmult_le_compat_l; [exact Pc|].
        clear - Hj Pe. replace (S k) with (j + (S k - j))%nat by lia. generalize (S k - j)%nat. intros d.
        induction d as [|d IH]; [rewrite Nat.add_0_r; lra|]. replace (j + S d)%nat with (S (j + d)) by lia. cbn [rsum]. specialize (Pe (S (j + d))). lra. }
  destruct (Hres k Hk) as (R1 & _). eapply Rle_trans; [apply (output_norm P G vu HP HVu psi (exact (S k)) ft k R1)|].
  specialize (B (S k) ltac:(lia)). apply (Rmult_le_compat_l _ _ _ Pw) in B. eapply Rle_trans; [exact B|]. right. unfold A. ring.
Qed.

(** *** order of accuracy *)
Lemma resolved_order T : 0 <= T -> exists dt0 K, 0 < dt0 /\ 0 <= K /\
  forall start external boundary steps dt ft, 0 < dt -> dt <= dt0 -> INR steps * dt <= T ->
  run start external boundary steps dt = Ok ft ->
  forall source inflow t0 M2 M3 B flux slope, 0 <= M2 -> 0 <= M3 -> 0 <= B ->
    source_rows P G t0 dt steps (step_row external) source -> inflow_rows P G t0 dt steps (step_row boundary) inflow ->
    smooth_in_time two P G t0 (time_at t0 dt steps) M2 M3 flux slope ->
    evolves P G vu Tu X source inflow t0 (time_at t0 dt steps) flux slope ->
    (forall t, t0 <= t <= time_at t0 dt steps -> N (flux t) <= B) ->
    forall k, (k < steps)%nat ->
    sqrt (rsum G (fun g => rsum (cells P) (fun i => dx P i * Rsqr (ft k i g - scalar_flux P (flux (time_at t0 dt (S k))) i g) / vu g)))
    <= sqrt (rsum (angles P) (wt P)) * (2 * (a * N (minus3 start (flux t0)) + time_error two dt (INR (S k) * dt) M2 M3 * N unit_flux))
       + K * dt * (INR (S k) * dt * B).
Proof.
  intros HT. destruct HRes as (dt0 & K & P0 & PK & HR). destruct (step_small two K T PK HT) as (dt1 & P1 & HS).
  pose proof a_pos as Pa. pose proof b_pos as Pb. pose proof (sqrt_pos (rsum (angles P) (wt P))) as Pw.
  exists (Rmin dt0 dt1), (sqrt (rsum (angles P) (wt P)) * (2 * (b * K))). split; [apply Rmin_glb_lt; assumption|].
  split; [apply Rmult_le_pos; [exact Pw|]; apply Rmult_le_pos; [lra|]; apply Rmult_le_pos; assumption|].
  intros start external boundary steps dt ft Hdt Hle Hst E source inflow t0 M2 M3 B flux slope PM2 PM3 PB HRo HI HSm HE HB k Hk.
  pose proof (Rmin_l dt0 dt1) as ML. pose proof (Rmin_r dt0 dt1) as MR.
  destruct (HR start external boundary steps dt ft Hdt ltac:(lra) E) as (psi & emit & H0 & HH & Hres).
  set (S0 := a * N (minus3 start (flux t0)) + time_error two dt (INR (S k) * dt) M2 M3 * N unit_flux).
  assert (PU : 0 <= N unit_flux) by apply sqrt_pos. assert (PK1 : 0 <= INR (S k) * dt) by (apply Rmult_le_pos; [apply pos_INR|lra]).
  assert (PS : 0 <= S0).
  { unfold S0. assert (0 <= a * N (minus3 start (flux t0))) by (apply Rmult_le_pos; [exact Pa|apply sqrt_pos]).
    assert (0 <= time_error two dt (INR (S k) * dt) M2 M3 * N unit_flux) by (apply Rmult_le_pos; [apply time_error_pos; assumption|exact PU]). lra. }
  assert (Pc : 0 <= b * dt * (K * dt)) by (apply Rmult_le_pos; [apply Rmult_le_pos; lra|apply Rmult_le_pos; lra]).
  set (A := S0 + b * dt * (K * dt) * (INR (S k) * B)).
  assert (Bd : forall j, (j <= S k)%nat -> N (minus3 (psi j) (flux (time_at t0 dt j))) <= 2 * A).
  { apply (half_max (fun j => N (minus3 (psi j) (flux (time_at t0 dt j)))) (S k) A (b * dt * (K * dt))); [intros; apply sqrt_pos| |exact Pc| |].
    - assert (0 <= b * dt * (K * dt) * (INR (S k) * B)) by (apply Rmult_le_pos; [exact Pc|apply Rmult_le_pos; [apply pos_INR|exact PB]]). unfold A. lra.
    - apply (HS dt steps (S k)); [exact Hdt|lra|lia|exact Hst].
    - intros j Hj. cbv beta.
      pose proof (history_accurate two P G vu dt Tu X _ _ steps psi emit source inflow t0 M2 M3 flux slope HP HM HVu Hdt PM2 PM3 HH HRo HI HSm HE j ltac:(lia)) as AC.
      rewrite H0 in AC. fold N a b in AC. eapply Rle_trans; [exact AC|].
      assert (T1 : time_error two dt (INR j * dt) M2 M3 * N unit_flux <= time_error two dt (INR (S k) * dt) M2 M3 * N unit_flux).
      { apply Rmult_le_compat_r; [exact PU|]. apply time_error_incr; try assumption. apply Rmult_le_compat_r; [lra|apply le_INR, Hj]. }
      assert (T2 : b * dt * rsum j (fun i => source_norm P G vu (unresolved P G X (emit i) (psi (S i))))
        <= b * dt * (K * dt) * (INR (S k) * B) + b * dt * (K * dt) * rsum j (fun i => N (minus3 (psi (S i)) (flux (time_at t0 dt (S i)))))).
      { set (Y := rsum j (fun i => N (minus3 (psi (S i)) (flux (time_at t0 dt (S i)))))).
        replace (b * dt * (K * dt) * (INR (S k) * B) + b * dt * (K * dt) * Y) with (b * dt * (K * (dt * (INR (S k) * B + Y)))) by ring.
        apply Rmult_le_compat_l; [apply Rmult_le_pos; lra|]. unfold Y.
        apply Rle_trans with (rsum j (fun i => K * (dt * (B + N (minus3 (psi (S i)) (flux (time_at t0 dt (S i)))))))).
        - apply rsum_le. intros i Hi. destruct (Hres i ltac:(lia)) as (_ & R2). eapply Rle_trans; [exact R2|]. rewrite Rmult_assoc.
          apply Rmult_le_compat_l; [exact PK|]. apply Rmult_le_compat_l; [lra|].
          pose proof (N_triangle P G vu HP HVu (psi (S i)) (flux (time_at t0 dt (S i)))) as TR. fold N in TR.
          assert (N (flux (time_at t0 dt (S i))) <= B).
          { apply HB. split; [pose proof (time_at_le t0 dt 0 (S i) ltac:(lra) ltac:(lia)) as L; rewrite time_at_0 in L; exact L|apply time_at_le; [lra|lia]]. }
          lra.
        - rewrite !rsum_scal, rsum_plus, rsum_const. apply Rmult_le_compat_l; [exact PK|]. apply Rmult_le_compat_l; [lra|].
          apply Rplus_le_compat_r. apply Rmult_le_compat_r; [exact PB|apply le_INR, Hj]. }
      unfold A, S0. lra. }
  destruct (Hres k Hk) as (R1 & _). eapply Rle_trans; [apply (output_norm P G vu HP HVu psi (flux (time_at t0 dt (S k))) ft k R1)|].
  specialize (Bd (S k) ltac:(lia)). apply (Rmult_le_compat_l _ _ _ Pw) in Bd. eapply Rle_trans; [exact Bd|]. right. unfold A. ring.
Qed.
End Resolved.
