(** Floating-point multigroup iteration: the rounding errors in terms of the size of the problem. *)
From Coq Require Import ZArith Lra Lia.
From Verif Require Import Base BaseFacts SlabModel SlabSpec MgModel MgSpec MgFacts MgFacts2.
From Verif Require Import FltModel FltSpec FltFacts FltFacts2 FltFacts4 FltFacts5 FltFacts7.
Open Scope R_scope.

Lemma growth_small k p : 0 <= k -> k * INR p <= / 2 -> 0 <= growth k p <= 2 * (k * INR p).
Proof.
  intros Hk Hp. split; [unfold growth; assert (1 <= (1 + k) ^ p) by (apply pow_R1_Rle; lra); lra|].
  assert (X : (1 + k) ^ p * (1 - k * INR p) <= 1).
  { clear Hp. induction p as [|p IH]; [cbn; lra|]. rewrite S_INR. cbn [pow].
    assert (P : 0 <= (1 + k) ^ p) by (apply pow_le; lra).
    assert (Q : (1 + k) * (1 - k * (INR p + 1)) <= 1 - k * INR p).
    { assert (0 <= INR p) by apply pos_INR. assert (0 <= k * k * (INR p + 1)) by (apply Rmult_le_pos; [apply Rmult_le_pos; exact Hk|lra]). lra. }
    apply (Rmult_le_compat_l _ _ _ P) in Q. lra. }
  unfold growth. assert (X0 : 0 <= k * INR p) by (apply Rmult_le_pos; [exact Hk|apply pos_INR]).
  assert (Y0 : 1 <= (1 + k) ^ p) by (apply pow_R1_Rle; lra).
  generalize dependent ((1 + k) ^ p). generalize dependent (k * INR p). clear. intros x Hx X0 y X Y0.
  assert (Y : y * (1 - x) * (1 + 2 * x) <= 1 * (1 + 2 * x)) by (apply Rmult_le_compat_r; lra).
  assert (Z : 0 <= y * (x * (1 - 2 * x))) by (apply Rmult_le_pos; [lra|apply Rmult_le_pos; lra]).
  assert (y <= y * (1 - x) * (1 + 2 * x)) by lra. lra.
Qed.

Lemma mg_flt_explicit u rnd norm norm2 P groups T s ext bnd c Q0 M fo flux sol :
  let W := rsum (angles P) (wt P) in
  let rho := W * c in
  let p := INR (2 * cells P + angles P + 5 + groups) in
  let B := M + 4 * W * Q0 / (1 - rho) in
  0 <= u <= / 1000 -> relative_rounding u rnd -> mg_thin P groups T ->
  (forall m, (m < angles P)%nat -> 0 <= wt P m) -> 0 <= c -> 0 <= Q0 -> rho < 1 ->
  mg_ratio P groups T s c ->
  (forall i m g, (i < cells P)%nat -> (m < angles P)%nat -> (g < groups)%nat ->
     Rabs (at3 ext i (bidx (d3b ext) m) (bidx (d3c ext) g)) <= T (medium P i) g * Q0) ->
  (forall m g, (m < angles P)%nat -> (g < groups)%nat -> Rabs (mg_boundary bnd (mu P) g m) <= Q0) ->
  (forall m g, (m < angles P)%nat -> (g < groups)%nat ->
     leaves_reflective (mu P) (bc_left P) (bc_right P) (angles P - m - 1) = true -> mg_boundary bnd (mu P) g m = 0) ->
  88 * u * p <= 1 - rho ->
  mg_solution P groups T s ext bnd sol ->
  0 <= M -> (forall i g, (i < cells P)%nat -> (g < groups)%nat -> Rabs (fo i g) <= M) ->
  flt_source_iteration rnd norm norm2 P groups fo T s ext bnd = Ok flux ->
  exists n, (1 <= n <= 100)%nat /\
    (forall i g, (i < cells P)%nat -> (g < groups)%nat -> Rabs (flux i g) <= B) /\
    (forall d, 0 <= d -> within2 (cells P) groups d fo sol ->
       within2 (cells P) groups (rho ^ n * d + 44 * u * p * B / (1 - rho)) flux sol) /\
    ((n < 100)%nat -> (forall v i g, (i < cells P)%nat -> (g < groups)%nat -> Rabs (v i g) <= norm2 v) ->
       within2 (cells P) groups ((rho * (101 / 100 * change_gg * INR (cells P) * B) + 44 * u * p * B) / (1 - rho)) flux sol).
Proof.
  intros W rho p B Hu Hr Ht Hw Hc HQ Hrho Hs He H1 H2 Hp Hsol PM Hfo EI.
  assert (HW : 0 <= W) by (apply rsum_nonneg; exact Hw).
  assert (Hr0 : 0 <= rho) by (apply Rmult_le_pos; assumption).
  set (eta := growth (11 * u) (2 * cells P + angles P + 5)). set (zeta := growth (11 * u) groups).
  assert (Pp : p = INR (2 * cells P + angles P + 5) + INR groups) by (unfold p; apply plus_INR).
  set (p1 := INR (2 * cells P + angles P + 5)) in *. set (p2 := INR groups) in *.
  assert (P1 : 0 <= p1) by apply pos_INR. assert (P2 : 0 <= p2) by apply pos_INR.
  assert (U1 : 0 <= u * p1) by (apply Rmult_le_pos; [apply Hu|exact P1]).
  assert (U2 : 0 <= u * p2) by (apply Rmult_le_pos; [apply Hu|exact P2]).
  assert (Up : u * p = u * p1 + u * p2) by (rewrite Pp; ring).
  assert (Hup : 88 * (u * p) <= 1 - rho) by lra.
  destruct (growth_small (11 * u) (2 * cells P + angles P + 5) ltac:(lra) ltac:(fold p1; lra)) as (E0 & E1).
  destruct (growth_small (11 * u) groups ltac:(lra) ltac:(fold p2; lra)) as (Z0 & Z1).
  fold eta p1 in E0, E1. fold zeta p2 in Z0, Z1.
  assert (S1 : zeta + eta <= 22 * (u * p)) by lra.
  assert (Z2 : zeta <= / 4) by lra. assert (E2 : eta <= / 4) by lra.
  assert (ZE : 0 <= zeta * eta) by (apply Rmult_le_pos; assumption).
  assert (ZE2 : zeta * eta <= zeta) by (rewrite <- (Rmult_1_r zeta) at 2; apply Rmult_le_compat_l; lra).
  assert (WQ : 0 <= W * Q0) by (apply Rmult_le_pos; assumption).
  assert (PB1 : 0 <= 4 * W * Q0 / (1 - rho)) by (apply Rle_mult_inv_pos; lra).
  assert (PB : 0 <= B) by (unfold B; lra).
  assert (BQ : 4 * (W * Q0) <= (1 - rho) * B).
  { unfold B. rewrite Rmult_plus_distr_l. replace ((1 - rho) * (4 * W * Q0 / (1 - rho))) with (4 * (W * Q0)) by (field; lra).
    assert (0 <= (1 - rho) * M) by (apply Rmult_le_pos; lra). lra. }
  assert (RB : 0 <= rho * B) by (apply Rmult_le_pos; assumption).
  assert (RB1 : rho * B <= B) by (rewrite <- (Rmult_1_l B) at 2; apply Rmult_le_compat_r; lra).
  assert (HB : W * (c * B * (1 + zeta) + Q0) * (1 + eta) <= B).
  { replace (W * (c * B * (1 + zeta) + Q0) * (1 + eta)) with (rho * B * ((1 + zeta) * (1 + eta)) + W * Q0 * (1 + eta)) by (unfold rho; ring).
    assert (A1 : rho * B * ((1 + zeta) * (1 + eta)) <= rho * B * (1 + 2 * (zeta + eta))) by (apply Rmult_le_compat_l; [exact RB|lra]).
    assert (A2 : W * Q0 * (1 + eta) <= W * Q0 * 2) by (apply Rmult_le_compat_l; [exact WQ|lra]).
    assert (A3 : rho * B * (2 * (zeta + eta)) <= B * ((1 - rho) / 2)).
    { apply Rle_trans with (B * (2 * (zeta + eta))); [apply Rmult_le_compat_r; lra|apply Rmult_le_compat_l; lra]. }
    lra. }
  assert (HEB : W * (c * B * zeta + (c * B * (1 + zeta) + Q0) * eta) <= 44 * u * p * B).
  { replace (W * (c * B * zeta + (c * B * (1 + zeta) + Q0) * eta)) with (rho * B * (zeta + eta + zeta * eta) + W * Q0 * eta) by (unfold rho; ring).
    assert (A1 : rho * B * (zeta + eta + zeta * eta) <= B * (2 * zeta + eta)).
    { apply Rle_trans with (B * (zeta + eta + zeta * eta)); [apply Rmult_le_compat_r; lra|apply Rmult_le_compat_l; lra]. }
    assert (A2 : W * Q0 * eta <= B * eta) by (apply Rmult_le_compat_r; [exact E0|]; assert (rho * B >= 0) by lra; lra).
    assert (A3 : B * (2 * (zeta + eta)) <= B * (44 * (u * p))) by (apply Rmult_le_compat_l; lra). lra. }
  assert (Inv : 0 <= / (1 - rho)) by (apply Rlt_le, Rinv_0_lt_compat; lra).
  destruct (mg_flt_error u rnd norm norm2 P groups T s ext bnd c Q0 B sol Hu Hr Ht Hw Hc HQ Hrho Hs He H1 H2 PB HB Hsol fo flux) as (n & Hn & C1 & C2 & C3).
  - intros i h Hi Hh. specialize (Hfo i h Hi Hh). unfold B. lra.
  - exact EI.
  - exists n. split; [exact Hn|]. split; [exact C1|]. split.
    + intros d Hd Hdist i g Hi Hg. eapply Rle_trans; [apply (C2 d Hd Hdist i g Hi Hg)|]. apply Rplus_le_compat_l.
      apply Rmult_le_compat_r; [exact Inv|exact HEB].
    + intros Hlt Hnorm i g Hi Hg. eapply Rle_trans; [apply (C3 Hlt Hnorm i g Hi Hg)|].
      apply Rmult_le_compat_r; [exact Inv|]. apply Rplus_le_compat_l. exact HEB.
Qed.
