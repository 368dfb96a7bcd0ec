(** Hybrid steps that keep all energy groups and start the collided iterations from the uncollided flux: the unresolved
    scattering is of the size of the square of the step. *)
From Coq Require Import Lra Lia Psatz.
From Verif Require Import Base BaseFacts SlabModel SlabSpec MgModel MgSpec MgFacts MgFacts2 TimeModel TimeSpec TimeFacts TimeFacts2 TimeFacts4.
From Verif Require Import EnSpec EnFacts EnFacts2 EnFacts3 EnFacts4 EnFacts5 EnFacts6 EnFacts7 OrdSpec OrdFacts OrdFacts2 OrdFacts3 OrdFacts8 OrdFacts9 OrdFacts12 OrdFacts13 OrdFacts15.
Open Scope R_scope.

(** the iterate and the solution differ by the square of the time step, whatever the first guess *)
Lemma coarse_gap_from P G velocity xs_total X tau w dt src q Q A start s0 flux sol :
  sound_slab P -> (forall g, (g < G)%nat -> 0 < velocity g) ->
  (forall i g, (i < cells P)%nat -> (g < G)%nat -> 0 <= xs_total (medium P i) g) -> 0 <= tau ->
  (forall i g h, (i < cells P)%nat -> (g < G)%nat -> (h < G)%nat -> Rabs (X (medium P i) g h) <= tau) ->
  1 <= w -> 0 < dt -> dt * (rsum (angles P) (wt P) * rsum G velocity * (INR G * tau)) <= / 2 ->
  (forall i m g, (i < cells P)%nat -> (g < G)%nat -> at3 src i (bidx (d3b src) m) (bidx (d3c src) g) = q i g) ->
  0 <= Q -> (forall g, (g < G)%nat -> mean_square P (fun i => q i g) <= Q) ->
  dt <= 1 -> 0 <= s0 -> 0 <= A ->
  (forall i g, (i < cells P)%nat -> (g < G)%nat -> effective_total w xs_total velocity dt (medium P i) g * dt <= A) ->
  (forall g, (g < G)%nat -> mean_square P (fun i => start i g) <= s0) ->
  source_iteration_iso P G start (effective_total w xs_total velocity dt) X src no_inflow 1 = Ok flux ->
  mg_solution P G (effective_total w xs_total velocity dt) X src no_inflow sol ->
  let W := rsum (angles P) (wt P) in let V := rsum G velocity in let r := W * (INR G * (tau * V)) in
  forall g, (g < G)%nat -> mean_square P (fun i => flux i g - sol i g)
    <= dt * dt * (r * (2 * INR (cells P) + 1) * (r * sqrt (V * A) * s0 + 4 * W * V * Q)).
Proof.
  intros HP HV Ht Htau HX Hw Hdt Hsmall Hsrc HQ Hq Hdt1 Ps0 PA HA Hstart E Hsol W V r g Hg.
  set (xt := effective_total w xs_total velocity dt) in *.
  assert (PW : 0 <= W) by (apply rsum_nonneg; apply HP). assert (PV : 0 <= V) by (apply (V_nonneg G velocity HV)).
  assert (PVd : 0 <= V * dt) by (apply Rmult_le_pos; lra).
  assert (PC : 0 <= INR G * (dt * (tau * V))) by (apply Rmult_le_pos; [apply pos_INR|apply Rmult_le_pos; [lra|apply Rmult_le_pos; assumption]]).
  pose proof (coarse_rho P G velocity tau dt Hsmall) as CR. fold W V in CR. assert (CR1 : W * (INR G * (dt * (tau * V))) < 1) by lra.
  pose proof (coarse_nonneg P G velocity xs_total w dt HV Ht Hw Hdt) as CN. fold xt in CN.
  pose proof (coarse_coupled P G velocity xs_total X tau w dt HV Ht Htau HX Hw Hdt) as CC. fold V xt in CC.
  destruct (coarse_solution P G velocity xs_total X tau w dt src q Q HP HV Ht Htau HX Hw Hdt Hsmall Hsrc HQ Hq sol Hsol) as (B1 & B2). fold W V xt in B1, B2.
  destruct (outer_energy P G xt X _ HP CN PC CR1 CC src no_inflow start flux sol Hsol E) as (n & Hn1 & Hn & Hstop). fold W in Hn, Hstop.
  set (d0 := 2 * W * sqrt (V * dt) * Q) in *. set (d1 := sqrt (A / dt) * s0).
  assert (Psq : 0 <= sqrt (V * dt)) by apply sqrt_pos.
  assert (Pd : 0 <= d0) by (unfold d0; repeat apply Rmult_le_pos; try assumption; lra).
  assert (Pd1 : 0 <= d1) by (unfold d1; apply Rmult_le_pos; [apply sqrt_pos|exact Ps0]).
  assert (Hdx : forall i, (i < cells P)%nat -> 0 < dx P i) by apply HP.
  assert (PAd : 0 <= A / dt) by (apply Rmult_le_pos; [exact PA|left; apply Rinv_0_lt_compat; exact Hdt]).
  assert (Z : near_energy P G xt (d1 + d0) start sol).
  { intros h Hh. assert (Hx : forall i, (i < cells P)%nat -> 0 <= (fun m => xt m h) (medium P i)) by (intros; apply CN; assumption).
    specialize (B2 h Hh). cbv beta in B2.
    rewrite (reaction_ext P (fun m => xt m h) (fun i => start i h - sol i h) (fun i => start i h + - sol i h)) by (intros; ring).
    eapply Rle_trans; [apply (reaction_triangle P (fun m => xt m h) Hdx Hx (fun i => start i h) (fun i => - sol i h))|].
    rewrite (reaction_opp P (fun m => xt m h) (fun i => sol i h)).
    rewrite (reaction_ext P (fun m => xt m h) (fun i => sol i h - 0) (fun i => sol i h)) in B2 by (intros; ring).
    apply Rplus_le_compat; [|exact B2]. unfold d1. apply Rle_trans with (sqrt (A / dt) * mean_square P (fun i => start i h)); [|apply Rmult_le_compat_l; [apply sqrt_pos|apply Hstart, Hh]].
    unfold mean_square, reaction_norm. rewrite <- sqrt_mult_alt by exact PAd. apply sqrt_le_1_alt. rewrite <- rsum_scal. apply rsum_le. intros i Hi.
    assert (K : xt (medium P i) h <= A / dt).
    { apply (Rmult_le_reg_r dt); [exact Hdt|]. unfold Rdiv. rewrite Rmult_assoc, Rinv_l by lra. rewrite Rmult_1_r. apply HA; assumption. }
    replace (dx P i * xt (medium P i) h * Rsqr (start i h)) with (xt (medium P i) h * (dx P i * Rsqr (start i h))) by ring.
    replace (A / dt * (dx P i * 1 * Rsqr (start i h))) with (A / dt * (dx P i * Rsqr (start i h))) by ring.
    apply Rmult_le_compat_r; [|exact K]. apply Rmult_le_pos; [left; apply Hdx; exact Hi|apply Rle_0_sqr]. }
  specialize (Hn (d1 + d0) ltac:(lra) Z).
  set (rho := W * (INR G * (dt * (tau * V)))) in *.
  assert (Er : rho = dt * r) by (unfold rho, r; ring).
  assert (Pr : 0 <= rho) by (unfold rho; apply Rmult_le_pos; assumption).
  assert (Prr : 0 <= r). { unfold r. apply Rmult_le_pos; [exact PW|]. apply Rmult_le_pos; [apply pos_INR|apply Rmult_le_pos; assumption]. }
  assert (N3 : sqrt (V * dt) * d0 = 2 * W * V * dt * Q).
  { unfold d0. replace (sqrt (V * dt) * (2 * W * sqrt (V * dt) * Q)) with (2 * W * (sqrt (V * dt) * sqrt (V * dt)) * Q) by ring. rewrite sqrt_sqrt by exact PVd. ring. }
  assert (N4 : sqrt (V * dt) * d1 = sqrt (V * A) * s0).
  { unfold d1. rewrite <- Rmult_assoc, <- sqrt_mult_alt by exact PVd. replace (V * dt * (A / dt)) with (V * A) by (field; lra). reflexivity. }
  assert (Pn : 0 <= INR (cells P)) by apply pos_INR. set (c := INR (cells P)) in *.
  set (y := sqrt (V * A) * s0) in *. assert (Py : 0 <= y) by (unfold y; apply Rmult_le_pos; [apply sqrt_pos|exact Ps0]).
  set (z := W * V * Q). assert (Pz : 0 <= z) by (unfold z; apply Rmult_le_pos; [apply Rmult_le_pos; assumption|exact HQ]).
  (* the distance in the energy norm *)
  assert (D : exists e, 0 <= e /\ reaction_norm P (fun m => xt m g) (fun i => flux i g - sol i g) <= e /\
     sqrt (V * dt) * e <= dt * dt * (r * (2 * c + 1) * (r * y + 4 * z))).
  { destruct (Nat.eq_dec n 100) as [E100|L100].
    - exists (rho * rho * (d1 + d0)). assert (P2 : 0 <= rho * rho) by (apply Rmult_le_pos; assumption).
      split; [apply Rmult_le_pos; [exact P2|lra]|]. split.
      + specialize (Hn g Hg). cbv beta in Hn. eapply Rle_trans; [exact Hn|]. apply Rmult_le_compat_r; [lra|]. rewrite E100.
        change 100%nat with (S (S 98)). generalize 98%nat. intros j. rewrite <- !tech_pow_Rmult, <- Rmult_assoc.
        apply Rle_trans with (rho * rho * 1); [|lra].
        apply Rmult_le_compat_l; [exact P2|]. rewrite <- (pow1 j). apply pow_incr. lra.
      + replace (sqrt (V * dt) * (rho * rho * (d1 + d0))) with (rho * rho * (sqrt (V * dt) * d1 + sqrt (V * dt) * d0)) by ring. rewrite N3, N4. fold y.
        replace (2 * W * V * dt * Q) with (2 * dt * z) by (unfold z; ring).
        assert (S1 : rho * rho * (y + 2 * dt * z) <= dt * dt * (r * (r * y + 4 * z))).
        { assert (F1 : rho * (rho * (2 * dt * z)) <= / 2 * (rho * (2 * dt * z))).
          { apply Rmult_le_compat_r; [|lra]. apply Rmult_le_pos; [exact Pr|]. apply Rmult_le_pos; [lra|exact Pz]. }
          assert (F2 : 0 <= dt * dt * r * z) by (apply Rmult_le_pos; [apply Rmult_le_pos; [apply Rmult_le_pos; lra|exact Prr]|exact Pz]).
          replace (rho * rho * (y + 2 * dt * z)) with (rho * rho * y + rho * (rho * (2 * dt * z))) by ring.
          apply Rle_trans with (rho * rho * y + / 2 * (rho * (2 * dt * z))); [lra|]. rewrite Er.
          replace (dt * r * (dt * r) * y + / 2 * (dt * r * (2 * dt * z))) with (dt * dt * (r * (r * y)) + dt * dt * r * z) by field.
          replace (dt * dt * (r * (r * y + 4 * z))) with (dt * dt * (r * (r * y)) + 4 * (dt * dt * r * z)) by ring. lra. }
        eapply Rle_trans; [exact S1|]. apply Rmult_le_compat_l; [apply Rmult_le_pos; lra|]. apply Rmult_le_compat_r.
        * assert (0 <= r * y) by (apply Rmult_le_pos; assumption). lra.
        * rewrite <- (Rmult_1_r r) at 1. apply Rmult_le_compat_l; [exact Prr|lra].
    - set (M := rho * d1 + 2 * d0). assert (Prd : 0 <= rho * d1) by (apply Rmult_le_pos; assumption). assert (PM : 0 <= M) by (unfold M; lra).
      assert (Hpow : rho ^ n <= rho).
      { destruct n as [|n]; [lia|]. cbn [pow]. assert (Q1 : rho ^ n <= 1) by (rewrite <- (pow1 n); apply pow_incr; lra).
        apply Rle_trans with (rho * 1); [apply Rmult_le_compat_l; assumption|lra]. }
      assert (NM : near_energy P G xt M flux (fun _ _ => 0)).
      { intros h Hh. assert (Hx : forall i, (i < cells P)%nat -> 0 <= (fun m => xt m h) (medium P i)) by (intros; apply CN; assumption).
        specialize (B2 h Hh). specialize (Hn h Hh). cbv beta in B2, Hn.
        rewrite (reaction_ext P (fun m => xt m h) (fun i => sol i h - 0) (fun i => sol i h)) in B2 by (intros; ring).
        rewrite (reaction_ext P (fun m => xt m h) (fun i => flux i h - 0) (fun i => (flux i h - sol i h) + sol i h)) by (intros; ring).
        eapply Rle_trans; [apply (reaction_triangle P (fun m => xt m h) Hdx Hx (fun i => flux i h - sol i h) (fun i => sol i h))|].
        assert (T1 : rho ^ n * (d1 + d0) <= rho * (d1 + d0)) by (apply Rmult_le_compat_r; lra).
        assert (T2 : rho * d0 <= 1 * d0) by (apply Rmult_le_compat_r; lra). unfold M. lra. }
      specialize (Hstop ltac:(lia) M PM NM g Hg). cbv beta in Hstop. exists (2 * rho * (c * M)).
      assert (PcM : 0 <= c * M) by (apply Rmult_le_pos; assumption).
      split; [apply Rmult_le_pos; [lra|exact PcM]|]. split.
      + eapply Rle_trans; [exact Hstop|]. fold c. apply (Rmult_le_reg_r (1 - rho)); [lra|]. unfold Rdiv. rewrite Rmult_assoc, Rinv_l by lra. rewrite Rmult_1_r.
        assert (G1 : change_gg * c * M <= c * M).
        { rewrite Rmult_assoc. rewrite <- (Rmult_1_l (c * M)) at 2. apply Rmult_le_compat_r; [exact PcM|]. unfold change_gg. rewrite <- Rinv_1. apply Rinv_le_contravar; [lra|]. apply pow_R1_Rle. lra. }
        apply (Rmult_le_compat_l rho) in G1; [|exact Pr].
        assert (G2 : 2 * rho * (c * M) * / 2 <= 2 * rho * (c * M) * (1 - rho)) by (apply Rmult_le_compat_l; [apply Rmult_le_pos; [lra|exact PcM]|lra]). lra.
      + replace (sqrt (V * dt) * (2 * rho * (c * M))) with (2 * rho * (c * (rho * (sqrt (V * dt) * d1) + 2 * (sqrt (V * dt) * d0)))) by (unfold M; ring). rewrite N3, N4. fold y.
        replace (2 * W * V * dt * Q) with (2 * dt * z) by (unfold z; ring). rewrite Er.
        replace (2 * (dt * r) * (c * (dt * r * y + 2 * (2 * dt * z)))) with (dt * dt * (r * (2 * c) * (r * y + 4 * z))) by ring.
        apply Rmult_le_compat_l; [apply Rmult_le_pos; lra|]. apply Rmult_le_compat_r.
        * assert (0 <= r * y) by (apply Rmult_le_pos; assumption). lra.
        * apply Rmult_le_compat_l; [exact Prr|lra]. }
  destruct D as (e & Pe & De & Ve).
  apply Rle_trans with (sqrt (V * dt) * e).
  - apply Rle_trans with (sqrt (V * dt) * reaction_norm P (fun m => xt m g) (fun i => flux i g - sol i g)).
    + unfold mean_square, reaction_norm. rewrite <- sqrt_mult_alt by exact PVd. apply sqrt_le_1_alt. rewrite <- rsum_scal. apply rsum_le. intros i Hi.
      pose proof (coarse_total P G velocity xs_total w dt HV Ht Hw Hdt i g Hi Hg) as K. fold V xt in K.
      replace (V * dt * (dx P i * xt (medium P i) g * Rsqr (flux i g - sol i g))) with ((xt (medium P i) g * (V * dt)) * (dx P i * Rsqr (flux i g - sol i g))) by ring.
      replace (dx P i * 1 * Rsqr (flux i g - sol i g)) with (1 * (dx P i * Rsqr (flux i g - sol i g))) by ring.
      apply Rmult_le_compat_r; [|exact K]. apply Rmult_le_pos; [left; apply Hdx; exact Hi|apply Rle_0_sqr].
    + apply Rmult_le_compat_l; assumption.
  - replace (r * sqrt (V * A) * s0) with (r * y) by (unfold y; ring). replace (4 * W * V * Q) with (4 * z) by (unfold z; ring). exact Ve.
Qed.

Lemma coarse_expansion_from P G velocity xs_total tau : sound_slab P -> (forall g, (g < G)%nat -> 0 < velocity g) ->
  (forall i g, (i < cells P)%nat -> (g < G)%nat -> 0 <= xs_total (medium P i) g) -> 0 <= tau ->
  exists C, 0 <= C /\ forall X w dt src q Q start flux,
    (forall i g h, (i < cells P)%nat -> (g < G)%nat -> (h < G)%nat -> Rabs (X (medium P i) g h) <= tau) ->
    1 <= w <= 2 -> 0 < dt -> dt <= 1 -> dt * (rsum (angles P) (wt P) * rsum G velocity * (INR G * tau)) <= / 2 ->
    (forall i m g, (i < cells P)%nat -> (g < G)%nat -> at3 src i (bidx (d3b src) m) (bidx (d3c src) g) = q i g) ->
    0 <= Q -> (forall i g, (i < cells P)%nat -> (g < G)%nat -> Rabs (q i g) <= Q) ->
    (forall i g, (i < cells P)%nat -> (g < G)%nat -> Rabs (start i g) <= Q) ->
    source_iteration_iso P G start (effective_total w xs_total velocity dt) X src no_inflow 1 = Ok flux ->
    forall i g, (i < cells P)%nat -> (g < G)%nat ->
      Rabs (flux i g - rsum (angles P) (wt P) * (velocity g * dt / w) * q i g) <= C * (dt * dt) * Q.
Proof.
  intros HP HV Ht Htau. set (W := rsum (angles P) (wt P)). set (V := rsum G velocity).
  assert (PW : 0 <= W) by (apply rsum_nonneg; apply HP). assert (PV : 0 <= V) by (apply (V_nonneg G velocity HV)).
  assert (PG : 0 <= INR G * tau) by (apply Rmult_le_pos; [apply pos_INR|exact Htau]).
  destruct (max_of_mean P HP) as (cu & Pu & Hu). destruct (mean_of_max P HP) as (cd & Pd & Hd).
  destruct (table_bound (cells P) G (fun i g => velocity g * velocity g *
     rsum (angles P) (fun m => wt P m * (xs_total (medium P i) g + 8 * INR (cells P) * (Rabs (mu P m) / dx P i))))) as (cr & Pr & Hr).
  set (A := INR G * tau * (cu * (2 * W * V * cd))).
  assert (PWV : 0 <= W * V) by (apply Rmult_le_pos; assumption).
  assert (PA : 0 <= A). { unfold A. apply Rmult_le_pos; [exact PG|]. apply Rmult_le_pos; [exact Pu|]. apply Rmult_le_pos; [lra|exact Pd]. }
  set (r := W * (INR G * (tau * V))).
  destruct (table_bound (cells P) G (fun i g => xs_total (medium P i) g + 2 * / velocity g)) as (At & PAt & HAt).
  set (C1 := r * (2 * INR (cells P) + 1) * (r * sqrt (V * At) + 4 * W * V)).
  assert (Prr : 0 <= r). { unfold r. apply Rmult_le_pos; [exact PW|]. apply Rmult_le_pos; [apply pos_INR|apply Rmult_le_pos; assumption]. }
  assert (P1 : 0 <= C1).
  { unfold C1. pose proof (pos_INR (cells P)). apply Rmult_le_pos; [apply Rmult_le_pos; lra|].
    assert (0 <= r * sqrt (V * At)) by (apply Rmult_le_pos; [exact Prr|apply sqrt_pos]).
    assert (0 <= 4 * W * V) by (apply Rmult_le_pos; lra). lra. }
  exists (cu * (C1 * cd) + cr * (1 + A) + W * V * A).
  split. { assert (0 <= cu * (C1 * cd)) by (apply Rmult_le_pos; [exact Pu|apply Rmult_le_pos; assumption]).
    assert (0 <= cr * (1 + A)) by (apply Rmult_le_pos; lra). assert (0 <= W * V * A) by (apply Rmult_le_pos; assumption). lra. }
  intros X w dt src q Q start flux HX (Hw & Hw2) Hdt Hdt1 Hsmall Hsrc HQ Hq Hst HF i g Hi Hg.
  set (Q2 := cd * Q). assert (PQ2 : 0 <= Q2) by (apply Rmult_le_pos; assumption).
  assert (Hq2 : forall g, (g < G)%nat -> mean_square P (fun i => q i g) <= Q2) by (intros h Hh; apply Hd; [exact HQ|intros j Hj; apply Hq; assumption]).
  assert (PC : 0 <= INR G * (dt * (tau * V))) by (apply Rmult_le_pos; [apply pos_INR|apply Rmult_le_pos; [lra|apply Rmult_le_pos; assumption]]).
  pose proof (coarse_rho P G velocity tau dt Hsmall) as CR. fold W V in CR.
  assert (CR1 : W * (INR G * (dt * (tau * V))) < 1) by lra.
  pose proof (coarse_nonneg P G velocity xs_total w dt HV Ht Hw Hdt) as CN.
  pose proof (coarse_coupled P G velocity xs_total X tau w dt HV Ht Htau HX Hw Hdt) as CC. fold V in CC.
  destruct (coupled_exactly_one P G _ X src no_inflow _ HP CN PC CR1 CC) as (sol & Hsol & _).
  assert (Hs2 : forall g, (g < G)%nat -> mean_square P (fun i => start i g) <= Q2) by (intros h Hh; apply Hd; [exact HQ|intros j Hj; apply Hst; assumption]).
  assert (HA : forall i g, (i < cells P)%nat -> (g < G)%nat -> effective_total w xs_total velocity dt (medium P i) g * dt <= At).
  { intros j h Hj Hh. eapply Rle_trans; [|apply (HAt j h Hj Hh)]. unfold effective_total. pose proof (HV h Hh) as Pv. pose proof (Ht j h Hj Hh) as Px.
    replace ((xs_total (medium P j) h + w / (velocity h * dt)) * dt) with (xs_total (medium P j) h * dt + w * / velocity h) by (field; lra).
    apply Rplus_le_compat; [rewrite <- (Rmult_1_r (xs_total (medium P j) h)) at 2; apply Rmult_le_compat_l; assumption|].
    apply Rmult_le_compat_r; [left; apply Rinv_0_lt_compat; exact Pv|exact Hw2]. }
  pose proof (coarse_gap_from P G velocity xs_total X tau w dt src q Q2 At start Q2 flux sol HP HV Ht Htau HX Hw Hdt Hsmall Hsrc PQ2 Hq2 Hdt1 PQ2 PAt HA Hs2 HF Hsol g Hg) as GAP.
  cbv zeta in GAP. fold W V r in GAP.
  replace (dt * dt * (r * (2 * INR (cells P) + 1) * (r * sqrt (V * At) * Q2 + 4 * W * V * Q2))) with (dt * dt * C1 * Q2) in GAP by (unfold C1; ring).
  destruct (coarse_solution P G velocity xs_total X tau w dt src q Q2 HP HV Ht Htau HX Hw Hdt Hsmall Hsrc PQ2 Hq2 sol Hsol) as (SS & _). fold W V in SS.
  assert (G1 : Rabs (flux i g - sol i g) <= cu * (C1 * cd) * (dt * dt) * Q).
  { pose proof (Hu (fun i => flux i g - sol i g) i Hi) as B. cbv beta in B. eapply Rle_trans; [exact B|].
    apply Rle_trans with (cu * (dt * dt * C1 * Q2)); [apply Rmult_le_compat_l; [exact Pu|exact GAP]|]. unfold Q2. right. ring. }
  assert (PS : 0 <= cu * (2 * W * V * dt * Q2)).
  { apply Rmult_le_pos; [exact Pu|]. apply Rmult_le_pos; [|exact PQ2]. apply Rmult_le_pos; lra. }
  assert (S1 : forall j h, (j < cells P)%nat -> (h < G)%nat -> Rabs (sol j h) <= cu * (2 * W * V * dt * Q2)).
  { intros j h Hj Hh. pose proof (Hu (fun i => sol i h) j Hj) as B. cbv beta in B. eapply Rle_trans; [exact B|]. apply Rmult_le_compat_l; [exact Pu|apply SS, Hh]. }
  pose proof (transfer_max (cells P) G X (medium P) tau sol _ g Htau PS Hg HX S1) as TR.
  assert (TR2 : forall j, (j < cells P)%nat -> Rabs (rsum G (fun h => X (medium P j) g h * sol j h)) <= dt * A * Q).
  { intros j Hj. eapply Rle_trans; [apply TR, Hj|]. unfold A, Q2. right. ring. }
  assert (PAQ : 0 <= A * Q) by (apply Rmult_le_pos; assumption).
  assert (DA : dt * A * Q <= A * Q) by (apply (Rmult_le_compat_r (A * Q)) in Hdt1; [lra|exact PAQ]).
  destruct Hsol as (psi & Hsol). destruct (Hsol g Hg) as (E1 & E2 & E3).
  set (f := fun j => rsum G (fun h => X (medium P j) g h * sol j h) + q j g).
  assert (Pvg : 0 < velocity g) by (apply HV; exact Hg).
  pose proof (response P (fun j => xs_total (medium P j) g) f (psi g) (velocity g) w dt ((1 + A) * Q) HP Pvg Hw Hdt) as RS.
  specialize (RS (fun j Hj => Ht j g Hj Hg)).
  assert (BF : forall j, (j < cells P)%nat -> Rabs (f j) <= (1 + A) * Q).
  { intros j Hj. unfold f. eapply Rle_trans; [apply Rabs_triang|]. specialize (TR2 j Hj). specialize (Hq j g Hj Hg). lra. }
  specialize (RS BF ltac:(apply Rmult_le_pos; lra)).
  specialize (RS (fun m j Hm Hj => eq_trans (E1 m Hm j Hj) (Rplus_eq_compat_l _ _ _ (Hsrc j m g Hj Hg)))).
  assert (HI : forall m, (m < angles P)%nat -> psi g m (inflow_edge (cells P) (mu P m)) = reflected_in (cells P) (angles P) (mu P) (bc_left P) (bc_right P) (psi g) m).
  { intros m Hm. rewrite (E2 m Hm). unfold mg_boundary, no_inflow. cbn [at3]. ring. }
  specialize (RS HI i Hi). rewrite <- (E3 i Hi) in RS. fold W in RS. specialize (Hr i g Hi Hg). cbv beta in Hr.
  assert (Pdd : 0 <= dt * dt) by (apply Rmult_le_pos; lra).
  assert (G2 : Rabs (sol i g - W * (velocity g * dt / w) * f i) <= cr * (1 + A) * (dt * dt) * Q).
  { eapply Rle_trans; [exact RS|]. replace (cr * (1 + A) * (dt * dt) * Q) with (dt * dt * cr * ((1 + A) * Q)) by ring.
    apply Rmult_le_compat_r; [apply Rmult_le_pos; lra|]. apply Rmult_le_compat_l; assumption. }
  assert (IW : 0 < / w) by (apply Rinv_0_lt_compat; lra). assert (IW1 : / w <= 1) by (rewrite <- Rinv_1; apply Rinv_le_contravar; lra).
  assert (VB : 0 <= velocity g * dt / w <= V * dt).
  { assert (VG : velocity g <= V) by (apply (V_above G velocity HV g Hg)). split; [apply Rmult_le_pos; [apply Rmult_le_pos; lra|lra]|].
    unfold Rdiv. rewrite <- (Rmult_1_r (V * dt)). apply Rmult_le_compat; [apply Rmult_le_pos; lra|lra|apply Rmult_le_compat_r; lra|exact IW1]. }
  assert (G3 : Rabs (W * (velocity g * dt / w) * f i - W * (velocity g * dt / w) * q i g) <= W * V * A * (dt * dt) * Q).
  { replace (W * (velocity g * dt / w) * f i - W * (velocity g * dt / w) * q i g) with (W * (velocity g * dt / w) * rsum G (fun h => X (medium P i) g h * sol i h)) by (unfold f; ring).
    rewrite Rabs_mult, (Rabs_pos_eq (W * (velocity g * dt / w))) by (apply Rmult_le_pos; [exact PW|apply VB]).
    replace (W * V * A * (dt * dt) * Q) with (W * (V * dt) * (dt * A * Q)) by ring.
    apply Rmult_le_compat; [apply Rmult_le_pos; [exact PW|apply VB]|apply Rabs_pos|apply Rmult_le_compat_l; [exact PW|apply VB]|apply TR2, Hi]. }
  replace (flux i g - W * (velocity g * dt / w) * q i g) with ((flux i g - sol i g) + ((sol i g - W * (velocity g * dt / w) * f i)
    + (W * (velocity g * dt / w) * f i - W * (velocity g * dt / w) * q i g))) by ring.
  eapply Rle_trans; [apply Rabs_triang|]. eapply Rle_trans; [apply Rplus_le_compat_l, Rabs_triang|]. lra.
Qed.

(** *** one hybrid step with all energy groups kept, the collided iterations started from the uncollided flux *)
Lemma kept_residual_from P PC G vu vc Tu Tc (T : mat3) tau tauc :
  sound_slab P -> sound_slab PC -> cells PC = cells P -> medium PC = medium P -> (forall i, (i < cells P)%nat -> dx PC i = dx P i) ->
  rsum (angles PC) (wt PC) = rsum (angles P) (wt P) ->
  (forall g, (g < G)%nat -> 0 < vu g) -> (forall g, (g < G)%nat -> vc g = vu g) ->
  (forall i g, (i < cells P)%nat -> (g < G)%nat -> 0 <= Tu (medium P i) g) -> (forall i g, (i < cells P)%nat -> (g < G)%nat -> 0 <= Tc (medium P i) g) ->
  1 <= tau -> (forall i g h, (i < cells P)%nat -> (g < G)%nat -> (h < G)%nat -> Rabs (T (medium P i) g h) <= tau) -> 0 <= tauc ->
  exists dt0 K, 0 < dt0 /\ 0 <= K /\ forall two dt k Xc ci fac ext bnd src psi start phi_u phi_c E,
    0 < dt -> dt <= dt0 ->
    (forall i g h, (i < cells P)%nat -> (g < G)%nat -> (h < G)%nat -> Rabs (Xc (medium P i) g h) <= tauc) ->
    (forall g, (g < G)%nat -> ci g = g) -> (forall g, (g < G)%nat -> fac g = 1) ->
    step_equation P G vu Tu T ext bnd (run_derivative two dt psi k (psi (S k))) (recombined ci fac phi_u phi_c) E (psi (S k)) ->
    uncollided_flux two P G vu dt Tu ext bnd psi k phi_u ->
    d3b src = 1%nat -> d3c src = G ->
    (forall i m c, (i < cells P)%nat -> at3 src i m c = at3 (first_collisions P G G T ci phi_u) i m c) ->
    (forall i g, (i < cells P)%nat -> (g < G)%nat -> start i g = phi_u i g) ->
    source_iteration_iso PC G start (effective_total (run_weight two k) Tc vc dt) Xc src no_inflow 1 = Ok phi_c ->
    source_norm P G vu (unresolved P G T (recombined ci fac phi_u phi_c) (psi (S k))) <= K * (dt * dt) * density_norm P G vu (psi (S k)).
Proof.
  intros HP HPC Hcells Hmedium Hdx HWW HV HVV HTu HTc Htau1 HT Htauc. assert (Htau : 0 <= tau) by lra.
  assert (HVc : forall g, (g < G)%nat -> 0 < vc g) by (intros g Hg; rewrite HVV by exact Hg; apply HV, Hg).
  assert (HTc' : forall i g, (i < cells PC)%nat -> (g < G)%nat -> 0 <= Tc (medium PC i) g) by (intros i g Hi Hg; rewrite Hcells in Hi; rewrite Hmedium; apply HTc; assumption).
  destruct (coarse_expansion_from PC G vc Tc tauc HPC HVc HTc' Htauc) as (Cc & PCc & HCc).
  destruct (fine_expansion P G vu Tu HP HV HTu) as (Cf & PCf & HCf).
  destruct (max_of_mean P HP) as (cu & Pu & Hu). destruct (mean_of_max P HP) as (cd & Pd & Hd).
  set (W := rsum (angles P) (wt P)) in *. set (V := rsum G vu). set (Wc := rsum (angles PC) (wt PC)) in *. set (Vc := rsum G vc).
  assert (PW : 0 <= W) by (apply rsum_nonneg; apply HP). assert (PV : 0 <= V) by (apply (V_nonneg G vu HV)).
  assert (PVc : 0 <= Vc) by (apply (V_nonneg G vc HVc)). assert (PWV : 0 <= W * V) by (apply Rmult_le_pos; assumption).
  assert (PG : 0 <= INR G * tau) by (apply Rmult_le_pos; [apply pos_INR|exact Htau]).
  destruct (table_bound (cells PC) G (fun i g => Tc (medium PC i) g + 2 * / vc g)) as (At & PAt & HAt).
  set (kap := 4 * Wc * Vc * (INR G * tau) + Wc * (INR G * (tauc * Vc)) * sqrt (Vc * At)).
  assert (PWc : 0 <= Wc) by (rewrite HWW; exact PW).
  assert (Pk : 0 <= kap).
  { unfold kap. assert (0 <= 4 * Wc * Vc * (INR G * tau)) by (apply Rmult_le_pos; [apply Rmult_le_pos; [lra|exact PVc]|exact PG]).
    assert (0 <= Wc * (INR G * (tauc * Vc)) * sqrt (Vc * At)); [|lra].
    apply Rmult_le_pos; [|apply sqrt_pos]. apply Rmult_le_pos; [exact PWc|]. apply Rmult_le_pos; [apply pos_INR|apply Rmult_le_pos; assumption]. }
  set (A1 := Wc * Vc * (INR G * tauc)).
  assert (Q1 : 0 <= A1). { unfold A1. rewrite HWW. apply Rmult_le_pos; [apply Rmult_le_pos; assumption|apply Rmult_le_pos; [apply pos_INR|exact Htauc]]. }
  set (A2 := 1 * kap). assert (Q2 : 0 <= A2) by (unfold A2; lra).
  set (A3 := 4 * (INR G * tau) * (W * V)). assert (Q3 : 0 <= A3) by (unfold A3; apply Rmult_le_pos; [lra|assumption]).
  set (gt := INR G * tau) in *. set (B := W * V + Cc). assert (PB : 0 <= B) by (unfold B; lra).
  assert (PgB : 0 <= gt * B) by (apply Rmult_le_pos; assumption).
  set (D := Cc + Cf * (1 + gt * B) + W * V * (gt * B)).
  assert (PD : 0 <= D). { assert (0 <= Cf * (1 + gt * B)) by (apply Rmult_le_pos; lra). assert (0 <= W * V * (gt * B)) by (apply Rmult_le_pos; assumption). unfold D; lra. }
  set (s := sqrt (W * V)). assert (Ps : 0 <= s) by apply sqrt_pos.
  set (l1 := cu * (s * 2)). assert (Pl1 : 0 <= l1) by (unfold l1; apply Rmult_le_pos; [exact Pu|lra]).
  exists (/ (2 * (A1 + A2 + A3 + 1))), (s * (cd * (gt * (D * (gt * l1))))).
  assert (Qp : 0 < 2 * (A1 + A2 + A3 + 1)) by lra. split; [apply Rinv_0_lt_compat; exact Qp|].
  split. { apply Rmult_le_pos; [exact Ps|]. apply Rmult_le_pos; [exact Pd|]. apply Rmult_le_pos; [exact PG|]. apply Rmult_le_pos; [exact PD|]. apply Rmult_le_pos; assumption. }
  intros two dt k Xc ci fac ext bnd src psi start phi_u phi_c E Hdt Hle HXc Hci Hfac H1 H2 Hs1 Hs2 Hs3 Hst H3.
  assert (Hd1 : dt * (A1 + A2 + A3 + 1) <= / 2).
  { apply (Rmult_le_compat_r (A1 + A2 + A3 + 1)) in Hle; [|lra]. replace (/ (2 * (A1 + A2 + A3 + 1)) * (A1 + A2 + A3 + 1)) with (/ 2) in Hle by (field; lra). exact Hle. }
  assert (Z1 : 0 <= dt * A1) by (apply Rmult_le_pos; lra). assert (Z2 : 0 <= dt * A2) by (apply Rmult_le_pos; lra).
  assert (Z3 : 0 <= dt * A3) by (apply Rmult_le_pos; lra).
  assert (D1 : dt * A1 <= / 2) by lra. assert (D2 : dt * A2 <= 1) by lra. assert (D3 : dt * A3 <= 1) by lra. assert (D4 : dt <= 1) by lra.
  assert (HXc' : forall i g h, (i < cells PC)%nat -> (g < G)%nat -> (h < G)%nat -> Rabs (Xc (medium PC i) g h) <= tauc).
  { intros i g h Hi Hg Hh. rewrite Hcells in Hi. rewrite Hmedium. apply HXc; assumption. }
  set (new := psi (S k)) in *. set (N := density_norm P G vu). assert (PN : 0 <= N new) by apply sqrt_pos.
  assert (Hci' : forall g, (g < G)%nat -> (ci g < G)%nat) by (intros g Hg; rewrite Hci by exact Hg; exact Hg).
  assert (Hfac' : forall g, (g < G)%nat -> Rabs (fac g) <= 1) by (intros g Hg; rewrite Hfac, Rabs_R1 by exact Hg; lra).
  pose proof H2 as H2'. destruct H2' as (Eu & pu & Hpu & Hag).
  set (q := fun i g => rsum G (fun h => T (medium P i) g h * phi_u i h)).
  assert (Hsrc : forall i m g, (i < cells PC)%nat -> (g < G)%nat -> at3 src i (bidx (d3b src) m) (bidx (d3c src) g) = q i g).
  { intros i m g Hi Hg. rewrite Hcells in Hi. rewrite Hs3 by exact Hi. rewrite Hs2. unfold first_collisions, collected. cbn [at3].
    replace (bidx G g) with g by (unfold bidx; destruct (Nat.eqb_spec G 1); [lia|reflexivity]).
    rewrite (rsum_single G _ g Hg); [rewrite Hci, Nat.eqb_refl by exact Hg; reflexivity|].
    intros j Hj Hne. rewrite Hci by exact Hj. destruct (Nat.eqb_spec g j); [congruence|reflexivity]. }
  assert (Hw12 : 1 <= run_weight two k <= 2) by (unfold run_weight; destruct two; [destruct k|]; lra).
  assert (HALF : N pu <= 2 * N new).
  { apply (step_near two P G G vu dt Tu T ci fac tau 1 kap HP Hci' HV Hdt HTu Htau HT ltac:(lra) Hfac' Pk) with (ext := ext) (bnd := bnd) (k := k) (phi_u := phi_u) (phi_c := phi_c) (E := E) (Eu := Eu);
      [exact D2|exact D3|exact H1| |exact Hpu|exact Hag].
    intros l0 Hl0 HU c Hc. pose proof (HVc) as HVc'.
    rewrite <- (mean_square_same P PC (fun i => phi_c i c) Hcells Hdx).
    replace (dt * (kap * l0)) with (dt * (4 * Wc * Vc * (INR G * tau * l0) + Wc * (INR G * (tauc * Vc)) * (sqrt (Vc * At) * l0))) by (unfold kap, gt; ring).
    apply (coarse_from PC G vc Tc Xc tauc (run_weight two k) dt src q (INR G * tau * l0) HPC HVc HTc' Htauc HXc' (proj1 Hw12) Hdt) with (start := start) (A := At); try assumption.
    - apply Rmult_le_pos; assumption.
    - intros g Hg. rewrite (mean_square_same P PC (fun i => q i g) Hcells Hdx).
      apply (transfer_size P HP G T tau phi_u l0 g Htau Hl0); [intros; apply HT; assumption|exact HU].
    - intros i g Hi Hg. eapply Rle_trans; [|apply (HAt i g Hi Hg)]. unfold effective_total. pose proof (HVc g Hg) as Pv. pose proof (HTc' i g Hi Hg) as Px.
      replace ((Tc (medium PC i) g + run_weight two k / (vc g * dt)) * dt) with (Tc (medium PC i) g * dt + run_weight two k * / vc g) by (field; lra).
      apply Rplus_le_compat; [rewrite <- (Rmult_1_r (Tc (medium PC i) g)) at 2; apply Rmult_le_compat_l; assumption|].
      apply Rmult_le_compat_r; [left; apply Rinv_0_lt_compat; exact Pv|apply Hw12].
    - intros g Hg. rewrite (mean_square_same P PC (fun i => start i g) Hcells Hdx).
      rewrite (L2_ext P (fun i => start i g) (fun i => phi_u i g)) by (intros j Hj; apply Hst; assumption). apply HU, Hg. }
  set (l := l1 * N new). assert (Pl : 0 <= l) by (apply Rmult_le_pos; assumption).
  assert (BU : forall i g, (i < cells P)%nat -> (g < G)%nat -> Rabs (phi_u i g) <= l).
  { intros i g Hi Hg. pose proof (Hu (fun i => phi_u i g) i Hi) as U. cbv beta in U. eapply Rle_trans; [exact U|]. unfold l, l1. rewrite Rmult_assoc. apply Rmult_le_compat_l; [exact Pu|].
    rewrite (L2_ext P (fun i => phi_u i g) (fun i => scalar_flux P pu i g)) by (intros j Hj; apply Hag; assumption).
    eapply Rle_trans; [apply (scalar_size P HP G vu HV pu g Hg)|]. fold W V s N. rewrite Rmult_assoc. apply Rmult_le_compat_l; [exact Ps|exact HALF]. }
  (* the first collisions *)
  assert (PQ : 0 <= gt * l) by (apply Rmult_le_pos; assumption).
  assert (BQ : forall i g, (i < cells P)%nat -> (g < G)%nat -> Rabs (q i g) <= gt * l).
  { intros i g Hi Hg. apply (transfer_max (cells P) G T (medium P) tau phi_u l g Htau Pl Hg HT BU i Hi). }
  assert (BC : forall i g, (i < cells P)%nat -> (g < G)%nat -> Rabs (phi_c i g - W * (vu g * dt / run_weight two k) * q i g) <= Cc * (dt * dt) * (gt * l)).
  { intros i g Hi Hg. assert (Hi' : (i < cells PC)%nat) by (rewrite Hcells; exact Hi). rewrite <- (HVV g Hg), <- HWW. unfold Wc.
    apply (HCc Xc (run_weight two k) dt src q (gt * l) start phi_c HXc'); try assumption.
    - intros j h Hj Hh. rewrite Hcells in Hj. apply BQ; assumption.
    - intros j h Hj Hh. rewrite Hcells in Hj. rewrite Hst by assumption. eapply Rle_trans; [apply BU; assumption|].
      rewrite <- (Rmult_1_l l) at 1. apply Rmult_le_compat_r; [exact Pl|]. unfold gt. assert (1 <= INR G) by (apply (le_INR 1); lia).
      apply Rle_trans with (1 * tau); [lra|]. apply Rmult_le_compat_r; assumption. }
  assert (VB : forall g, (g < G)%nat -> 0 <= vu g * dt / run_weight two k <= V * dt).
  { intros g Hg. assert (VG : vu g <= V) by (apply (V_above G vu HV g Hg)). pose proof (HV g Hg) as Pvg.
    assert (Hw : 1 <= run_weight two k) by (unfold run_weight; destruct two; [destruct k|]; lra).
    assert (IW : 0 < / run_weight two k) by (apply Rinv_0_lt_compat; lra). assert (IW1 : / run_weight two k <= 1) by (rewrite <- Rinv_1; apply Rinv_le_contravar; lra).
    split; [apply Rmult_le_pos; [apply Rmult_le_pos; lra|lra]|].
    unfold Rdiv. rewrite <- (Rmult_1_r (V * dt)). apply Rmult_le_compat; [apply Rmult_le_pos; lra|lra|apply Rmult_le_compat_r; lra|exact IW1]. }
  assert (BP : forall i g, (i < cells P)%nat -> (g < G)%nat -> Rabs (phi_c i g) <= dt * (B * (gt * l))).
  { intros i g Hi Hg. replace (phi_c i g) with ((phi_c i g - W * (vu g * dt / run_weight two k) * q i g) + W * (vu g * dt / run_weight two k) * q i g) by ring.
    eapply Rle_trans; [apply Rabs_triang|]. specialize (BC i g Hi Hg).
    assert (X1 : Rabs (W * (vu g * dt / run_weight two k) * q i g) <= W * (V * dt) * (gt * l)).
    { rewrite Rabs_mult, (Rabs_pos_eq (W * (vu g * dt / run_weight two k))) by (apply Rmult_le_pos; [exact PW|apply VB, Hg]).
      apply Rmult_le_compat; [apply Rmult_le_pos; [exact PW|apply VB, Hg]|apply Rabs_pos|apply Rmult_le_compat_l; [exact PW|apply VB, Hg]|apply BQ; assumption]. }
    assert (X2 : Cc * (dt * dt) * (gt * l) <= dt * (Cc * (gt * l))).
    { assert (X3 : 0 <= dt * (Cc * (gt * l))) by (apply Rmult_le_pos; [lra|apply Rmult_le_pos; assumption]).
      apply (Rmult_le_compat_r (dt * (Cc * (gt * l)))) in D4; [|exact X3]. lra. }
    unfold B. lra. }
  set (emit := recombined ci fac phi_u phi_c) in *.
  assert (EM : forall i h, (h < G)%nat -> emit i h = phi_u i h + phi_c i h) by (intros i h Hh; unfold emit, recombined; rewrite Hci, Hfac by exact Hh; ring).
  assert (PBQ : 0 <= dt * (B * (gt * l))) by (apply Rmult_le_pos; [lra|apply Rmult_le_pos; assumption]).
  assert (BT : forall i g, (i < cells P)%nat -> (g < G)%nat -> Rabs (rsum G (fun h => T (medium P i) g h * phi_c i h)) <= gt * (dt * (B * (gt * l)))).
  { intros i g Hi Hg. apply (transfer_max (cells P) G T (medium P) tau phi_c _ g Htau PBQ Hg HT BP i Hi). }
  assert (EF : forall i g, (i < cells P)%nat -> (g < G)%nat -> rsum G (fun h => T (medium P i) g h * emit i h) = q i g + rsum G (fun h => T (medium P i) g h * phi_c i h)).
  { intros i g Hi Hg. unfold q. rewrite <- rsum_plus. apply rsum_ext. intros h Hh. rewrite EM by exact Hh. ring. }
  assert (PF : 0 <= (1 + gt * B) * (gt * l)) by (apply Rmult_le_pos; lra).
  assert (DF : gt * (dt * (B * (gt * l))) <= gt * B * (gt * l)).
  { assert (X3 : 0 <= gt * B * (gt * l)) by (apply Rmult_le_pos; assumption). apply (Rmult_le_compat_r (gt * B * (gt * l))) in D4; [lra|exact X3]. }
  assert (BF : forall i g, (i < cells P)%nat -> (g < G)%nat -> Rabs (rsum G (fun h => T (medium P i) g h * emit i h)) <= (1 + gt * B) * (gt * l)).
  { intros i g Hi Hg. rewrite EF by assumption. eapply Rle_trans; [apply Rabs_triang|]. specialize (BT i g Hi Hg). specialize (BQ i g Hi Hg). lra. }
  pose proof (HCf two dt psi k T ext bnd emit phi_u E Eu new pu _ Hdt H1 Hpu PF BF) as FE. fold W in FE.
  assert (PL : 0 <= dt * dt * (D * (gt * l))) by (apply Rmult_le_pos; [apply Rmult_le_pos; lra|apply Rmult_le_pos; assumption]).
  assert (LEFT : forall i h, (i < cells P)%nat -> (h < G)%nat -> Rabs (emit i h - scalar_flux P new i h) <= dt * dt * (D * (gt * l))).
  { intros i h Hi Hh. specialize (FE i h Hi Hh). specialize (BC i h Hi Hh). specialize (BT i h Hi Hh). rewrite EF in FE by assumption.
    set (z := W * (vu h * dt / run_weight two k)) in *. set (r := rsum G (fun h0 => T (medium P i) h h0 * phi_c i h0)) in *.
    assert (Pz : 0 <= z <= W * (V * dt)) by (unfold z; split; [apply Rmult_le_pos; [exact PW|apply VB, Hh]|apply Rmult_le_compat_l; [exact PW|apply VB, Hh]]).
    assert (ZR : Rabs (z * r) <= W * (V * dt) * (gt * (dt * (B * (gt * l))))).
    { rewrite Rabs_mult, (Rabs_pos_eq z) by lra. apply Rmult_le_compat; [lra|apply Rabs_pos|apply Pz|exact BT]. }
    rewrite EM by exact Hh. rewrite <- (Hag i h Hi Hh) in FE.
    replace (phi_u i h + phi_c i h - scalar_flux P new i h) with ((phi_c i h - z * q i h) + (- (scalar_flux P new i h - phi_u i h - z * (q i h + r)) + - (z * r))) by ring.
    eapply Rle_trans; [apply Rabs_triang|]. eapply Rle_trans; [apply Rplus_le_compat_l, Rabs_triang|]. rewrite !Rabs_Ropp. unfold D. lra. }
  unfold unresolved.
  eapply Rle_trans; [apply (source_size P HP G vu HV (fun i g => rsum G (fun h => T (medium P i) g h * (emit i h - scalar_flux P new i h))) (cd * (gt * (dt * dt * (D * (gt * l))))))|].
  - apply Rmult_le_pos; [exact Pd|apply Rmult_le_pos; assumption].
  - intros g Hg. apply Hd; [apply Rmult_le_pos; assumption|]. intros i Hi.
    apply (transfer_max (cells P) G T (medium P) tau (fun i h => emit i h - scalar_flux P new i h) _ g Htau PL Hg HT LEFT i Hi).
  - fold W V s N. right. unfold l. ring.
Qed.
