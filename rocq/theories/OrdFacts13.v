(** A hybrid step that keeps all energy groups leaves only the square of the time step unresolved. *)
From Coq Require Import Lra Lia Psatz.
From Verif Require Import Base BaseFacts SlabModel SlabSpec MgModel MgSpec MgFacts MgFacts2 TimeModel TimeSpec TimeFacts TimeFacts2 TimeFacts4.
From Verif Require Import EnSpec EnFacts EnFacts2 EnFacts3 EnFacts4 EnFacts5 EnFacts6 EnFacts7 OrdSpec OrdFacts OrdFacts2 OrdFacts3 OrdFacts8 OrdFacts9 OrdFacts12.
Open Scope R_scope.

Lemma table_bound n m (F : nat -> nat -> R) : exists c, 0 <= c /\ forall i g, (i < n)%nat -> (g < m)%nat -> F i g <= c.
Proof.
  exists (rsum n (fun i => rsum m (fun g => Rabs (F i g)))).
  assert (A : forall k (x : nat -> R), (forall j, (j < k)%nat -> 0 <= x j) -> 0 <= rsum k x /\ forall j, (j < k)%nat -> x j <= rsum k x).
  { induction k as [|k IH]; intros x Hx; [split; [cbn; lra|intros; lia]|]. destruct (IH x ltac:(intros; apply Hx; lia)) as (I1 & I2).
    cbn [rsum]. pose proof (Hx k ltac:(lia)) as P. split; [lra|]. intros j Hj. destruct (Nat.eq_dec j k) as [->|Hn]; [lra|]. specialize (I2 j ltac:(lia)). lra. }
  assert (B : forall i, 0 <= rsum m (fun g => Rabs (F i g))) by (intros; apply A; intros; apply Rabs_pos).
  split; [apply A; intros; apply B|]. intros i g Hi Hg. eapply Rle_trans; [apply Rle_abs|].
  apply Rle_trans with (rsum m (fun g => Rabs (F i g))).
  - apply (proj2 (A m (fun g => Rabs (F i g)) ltac:(intros; apply Rabs_pos)) g Hg).
  - apply (proj2 (A n (fun i => rsum m (fun g => Rabs (F i g))) ltac:(intros; apply B)) i Hi).
Qed.

Lemma max_of_mean P : sound_slab P -> exists c, 0 <= c /\ forall (f : vec) i, (i < cells P)%nat -> Rabs (f i) <= c * mean_square P f.
Proof.
  intros HP. destruct (table_bound (cells P) 1 (fun i _ => sqrt (/ dx P i))) as (c & Pc & Hc). exists c. split; [exact Pc|].
  intros f i Hi. pose proof (L2_nonneg P f) as P1. assert (Hx : 0 < dx P i) by (apply HP; exact Hi).
  assert (PI : 0 < / dx P i) by (apply Rinv_0_lt_compat; exact Hx).
  apply Rle_trans with (sqrt (/ dx P i) * mean_square P f); [|apply Rmult_le_compat_r; [exact P1|apply (Hc i 0%nat Hi ltac:(lia))]].
  rewrite <- (sqrt_square (mean_square P f)) by exact P1. rewrite (L2_sq P HP f), <- sqrt_mult_alt by lra.
  rewrite <- (sqrt_Rsqr_abs (f i)). apply sqrt_le_1_alt.
  assert (T : dx P i * Rsqr (f i) <= rsum (cells P) (fun i => dx P i * Rsqr (f i))).
  { apply (rsum_term_le (cells P) (fun i => dx P i * Rsqr (f i)) i); [|exact Hi]. intros j Hj. apply Rmult_le_pos; [left; apply HP; exact Hj|apply Rle_0_sqr]. }
  apply (Rmult_le_compat_l (/ dx P i)) in T; [|lra]. replace (/ dx P i * (dx P i * Rsqr (f i))) with (Rsqr (f i)) in T by (field; lra). exact T.
Qed.

Lemma mean_of_max P : sound_slab P -> exists c, 0 <= c /\ forall (f : vec) l, 0 <= l -> (forall i, (i < cells P)%nat -> Rabs (f i) <= l) -> mean_square P f <= c * l.
Proof.
  intros HP. exists (mean_square P (fun _ => 1)). split; [apply L2_nonneg|]. intros f l Hl Hf. rewrite Rmult_comm.
  apply (L2_scal P HP l f (fun _ => 1) Hl). intros i Hi. rewrite Rabs_R1, Rmult_1_r. apply Hf, Hi.
Qed.

Lemma transfer_max n G (T : mat3) (med : nat -> nat) tau (x : mat2) l g : 0 <= tau -> 0 <= l -> (g < G)%nat ->
  (forall i g h, (i < n)%nat -> (g < G)%nat -> (h < G)%nat -> Rabs (T (med i) g h) <= tau) ->
  (forall i h, (i < n)%nat -> (h < G)%nat -> Rabs (x i h) <= l) ->
  forall i, (i < n)%nat -> Rabs (rsum G (fun h => T (med i) g h * x i h)) <= INR G * tau * l.
Proof.
  intros Ht Hl Hg HT Hx i Hi. eapply Rle_trans; [apply (rsum_abs_le G _ (fun _ => tau * l))|rewrite rsum_const; lra].
  intros h Hh. rewrite Rabs_mult. apply Rmult_le_compat; try apply Rabs_pos; [apply HT; assumption|apply Hx; assumption].
Qed.

(** *** the collided flux to second order *)
Lemma coarse_expansion P G velocity xs_total tau : sound_slab P -> (forall g, (g < G)%nat -> 0 < velocity g) ->
  (forall i g, (i < cells P)%nat -> (g < G)%nat -> 0 <= xs_total (medium P i) g) -> 0 <= tau ->
  exists C, 0 <= C /\ forall X w dt src q Q flux,
    (forall i g h, (i < cells P)%nat -> (g < G)%nat -> (h < G)%nat -> Rabs (X (medium P i) g h) <= tau) ->
    1 <= w -> 0 < dt -> dt <= 1 -> dt * (rsum (angles P) (wt P) * rsum G velocity * (INR G * tau)) <= / 2 ->
    (forall i m g, (i < cells P)%nat -> (g < G)%nat -> at3 src i (bidx (d3b src) m) (bidx (d3c src) g) = q i g) ->
    0 <= Q -> (forall i g, (i < cells P)%nat -> (g < G)%nat -> Rabs (q i g) <= Q) ->
    source_iteration_iso P G zeros2 (effective_total w xs_total velocity dt) X src no_inflow 1 = Ok flux ->
    forall i g, (i < cells P)%nat -> (g < G)%nat ->
      Rabs (flux i g - rsum (angles P) (wt P) * (velocity g * dt / w) * q i g) <= C * (dt * dt) * Q.
Proof.
  intros HP HV Ht Htau. set (W := rsum (angles P) (wt P)). set (V := rsum G velocity).
  assert (PW : 0 <= W) by (apply rsum_nonneg; apply HP). assert (PV : 0 <= V) by (apply (V_nonneg G velocity HV)).
  assert (PG : 0 <= INR G * tau) by (apply Rmult_le_pos; [apply pos_INR|exact Htau]).
  destruct (max_of_mean P HP) as (cu & Pu & Hu). destruct (mean_of_max P HP) as (cd & Pd & Hd).
  destruct (table_bound (cells P) G (fun i g => velocity g * velocity g *
     rsum (angles P) (fun m => wt P m * (xs_total (medium P i) g + 8 * INR (cells P) * (Rabs (mu P m) / dx P i))))) as (cr & Pr & Hr).
  set (A := INR G * tau * (cu * (2 * W * V * cd))).
  assert (PWV : 0 <= W * V) by (apply Rmult_le_pos; assumption).
  assert (PA : 0 <= A). { unfold A. apply Rmult_le_pos; [exact PG|]. apply Rmult_le_pos; [exact Pu|]. apply Rmult_le_pos; [lra|exact Pd]. }
  set (C1 := W * (INR G * (tau * V)) * (2 * W * V)).
  assert (P1 : 0 <= C1). { unfold C1. apply Rmult_le_pos; [|lra]. apply Rmult_le_pos; [exact PW|]. rewrite <- Rmult_assoc. apply Rmult_le_pos; assumption. }
  exists (cu * (C1 * cd) + cr * (1 + A) + W * V * A).
  split. { assert (0 <= cu * (C1 * cd)) by (apply Rmult_le_pos; [exact Pu|apply Rmult_le_pos; assumption]).
    assert (0 <= cr * (1 + A)) by (apply Rmult_le_pos; lra). assert (0 <= W * V * A) by (apply Rmult_le_pos; assumption). lra. }
  intros X w dt src q Q flux HX Hw Hdt Hdt1 Hsmall Hsrc HQ Hq HF i g Hi Hg.
  set (Q2 := cd * Q). assert (PQ2 : 0 <= Q2) by (apply Rmult_le_pos; assumption).
  assert (Hq2 : forall g, (g < G)%nat -> mean_square P (fun i => q i g) <= Q2) by (intros h Hh; apply Hd; [exact HQ|intros j Hj; apply Hq; assumption]).
  assert (PC : 0 <= INR G * (dt * (tau * V))) by (apply Rmult_le_pos; [apply pos_INR|apply Rmult_le_pos; [lra|apply Rmult_le_pos; assumption]]).
  pose proof (coarse_rho P G velocity tau dt Hsmall) as CR. fold W V in CR.
  assert (CR1 : W * (INR G * (dt * (tau * V))) < 1) by lra.
  pose proof (coarse_nonneg P G velocity xs_total w dt HV Ht Hw Hdt) as CN.
  pose proof (coarse_coupled P G velocity xs_total X tau w dt HV Ht Htau HX Hw Hdt) as CC. fold V in CC.
  destruct (coupled_exactly_one P G _ X src no_inflow _ HP CN PC CR1 CC) as (sol & Hsol & _).
  pose proof (coarse_gap P G velocity xs_total X tau w dt src q Q2 HP HV Ht Htau HX Hw Hdt Hsmall Hsrc PQ2 Hq2 flux sol HF Hsol g Hg) as GAP. fold W V C1 in GAP.
  destruct (coarse_solution P G velocity xs_total X tau w dt src q Q2 HP HV Ht Htau HX Hw Hdt Hsmall Hsrc PQ2 Hq2 sol Hsol) as (SS & _). fold W V in SS.
  assert (G1 : Rabs (flux i g - sol i g) <= cu * (C1 * cd) * (dt * dt) * Q).
  { pose proof (Hu (fun i => flux i g - sol i g) i Hi) as B. cbv beta in B. eapply Rle_trans; [exact B|].
    apply Rle_trans with (cu * (dt * dt * C1 * Q2)); [apply Rmult_le_compat_l; [exact Pu|exact GAP]|]. unfold Q2. right. ring. }
  assert (PS : 0 <= cu * (2 * W * V * dt * Q2)).
  { apply Rmult_le_pos; [exact Pu|]. apply Rmult_le_pos; [|exact PQ2]. apply Rmult_le_pos; lra. }
  assert (S1 : forall j h, (j < cells P)%nat -> (h < G)%nat -> Rabs (sol j h) <= cu * (2 * W * V * dt * Q2)).
  { intros j h Hj Hh. pose proof (Hu (fun i => sol i h) j Hj) as B. cbv beta in B. eapply Rle_trans; [exact B|]. apply Rmult_le_compat_l; [exact Pu|apply SS, Hh]. }
  pose proof (transfer_max (cells P) G X (medium P) tau sol _ g Htau PS Hg HX S1) as TR.
  assert (TR2 : forall j, (j < cells P)%nat -> Rabs (rsum G (fun h => X (medium P j) g h * sol j h)) <= dt * A * Q).
  { intros j Hj. eapply Rle_trans; [apply TR, Hj|]. unfold A, Q2. right. ring. }
  assert (PAQ : 0 <= A * Q) by (apply Rmult_le_pos; assumption).
  assert (DA : dt * A * Q <= A * Q) by (apply (Rmult_le_compat_r (A * Q)) in Hdt1; [lra|exact PAQ]).
  destruct Hsol as (psi & Hsol). destruct (Hsol g Hg) as (E1 & E2 & E3).
  set (f := fun j => rsum G (fun h => X (medium P j) g h * sol j h) + q j g).
  assert (Pvg : 0 < velocity g) by (apply HV; exact Hg).
  pose proof (response P (fun j => xs_total (medium P j) g) f (psi g) (velocity g) w dt ((1 + A) * Q) HP Pvg Hw Hdt) as RS.
  specialize (RS (fun j Hj => Ht j g Hj Hg)).
  assert (BF : forall j, (j < cells P)%nat -> Rabs (f j) <= (1 + A) * Q).
  { intros j Hj. unfold f. eapply Rle_trans; [apply Rabs_triang|]. specialize (TR2 j Hj). specialize (Hq j g Hj Hg). lra. }
  specialize (RS BF ltac:(apply Rmult_le_pos; lra)).
  specialize (RS (fun m j Hm Hj => eq_trans (E1 m Hm j Hj) (Rplus_eq_compat_l _ _ _ (Hsrc j m g Hj Hg)))).
  assert (HI : forall m, (m < angles P)%nat -> psi g m (inflow_edge (cells P) (mu P m)) = reflected_in (cells P) (angles P) (mu P) (bc_left P) (bc_right P) (psi g) m).
  { intros m Hm. rewrite (E2 m Hm). unfold mg_boundary, no_inflow. cbn [at3]. ring. }
  specialize (RS HI i Hi). rewrite <- (E3 i Hi) in RS. fold W in RS. specialize (Hr i g Hi Hg). cbv beta in Hr.
  assert (Pdd : 0 <= dt * dt) by (apply Rmult_le_pos; lra).
  assert (G2 : Rabs (sol i g - W * (velocity g * dt / w) * f i) <= cr * (1 + A) * (dt * dt) * Q).
  { eapply Rle_trans; [exact RS|]. replace (cr * (1 + A) * (dt * dt) * Q) with (dt * dt * cr * ((1 + A) * Q)) by ring.
    apply Rmult_le_compat_r; [apply Rmult_le_pos; lra|]. apply Rmult_le_compat_l; assumption. }
  assert (IW : 0 < / w) by (apply Rinv_0_lt_compat; lra). assert (IW1 : / w <= 1) by (rewrite <- Rinv_1; apply Rinv_le_contravar; lra).
  assert (VB : 0 <= velocity g * dt / w <= V * dt).
  { assert (VG : velocity g <= V) by (apply (V_above G velocity HV g Hg)). split; [apply Rmult_le_pos; [apply Rmult_le_pos; lra|lra]|].
    unfold Rdiv. rewrite <- (Rmult_1_r (V * dt)). apply Rmult_le_compat; [apply Rmult_le_pos; lra|lra|apply Rmult_le_compat_r; lra|exact IW1]. }
  assert (G3 : Rabs (W * (velocity g * dt / w) * f i - W * (velocity g * dt / w) * q i g) <= W * V * A * (dt * dt) * Q).
  { replace (W * (velocity g * dt / w) * f i - W * (velocity g * dt / w) * q i g) with (W * (velocity g * dt / w) * rsum G (fun h => X (medium P i) g h * sol i h)) by (unfold f; ring).
    rewrite Rabs_mult, (Rabs_pos_eq (W * (velocity g * dt / w))) by (apply Rmult_le_pos; [exact PW|apply VB]).
    replace (W * V * A * (dt * dt) * Q) with (W * (V * dt) * (dt * A * Q)) by ring.
    apply Rmult_le_compat; [apply Rmult_le_pos; [exact PW|apply VB]|apply Rabs_pos|apply Rmult_le_compat_l; [exact PW|apply VB]|apply TR2, Hi]. }
  replace (flux i g - W * (velocity g * dt / w) * q i g) with ((flux i g - sol i g) + ((sol i g - W * (velocity g * dt / w) * f i)
    + (W * (velocity g * dt / w) * f i - W * (velocity g * dt / w) * q i g))) by ring.
  eapply Rle_trans; [apply Rabs_triang|]. eapply Rle_trans; [apply Rplus_le_compat_l, Rabs_triang|]. lra.
Qed.

(** *** the new flux to second order *)
Lemma run_derivative_minus two dt past k new old i m g : 0 < dt ->
  run_derivative two dt past k new i m g - run_derivative two dt past k old i m g = run_weight two k / dt * (new i m g - old i m g).
Proof.
  intros Hdt. destruct two; cbn [run_derivative]; [destruct k|]; unfold euler_derivative, bdf2_derivative, run_weight; field; lra.
Qed.

Lemma fine_expansion P G velocity xs_total : sound_slab P -> (forall g, (g < G)%nat -> 0 < velocity g) ->
  (forall i g, (i < cells P)%nat -> (g < G)%nat -> 0 <= xs_total (medium P i) g) ->
  exists C, 0 <= C /\ forall two dt past k transfer ext bnd emit phi E Eu new pu F, 0 < dt ->
    step_equation P G velocity xs_total transfer ext bnd (run_derivative two dt past k new) emit E new ->
    step_equation P G velocity xs_total (fun _ _ _ => 0) ext bnd (run_derivative two dt past k pu) phi Eu pu ->
    0 <= F -> (forall i g, (i < cells P)%nat -> (g < G)%nat -> Rabs (rsum G (fun h => transfer (medium P i) g h * emit i h)) <= F) ->
    forall i g, (i < cells P)%nat -> (g < G)%nat ->
      Rabs (scalar_flux P new i g - scalar_flux P pu i g
            - rsum (angles P) (wt P) * (velocity g * dt / run_weight two k) * rsum G (fun h => transfer (medium P i) g h * emit i h)) <= C * (dt * dt) * F.
Proof.
  intros HP HV Ht.
  destruct (table_bound (cells P) G (fun i g => velocity g * velocity g *
     rsum (angles P) (fun m => wt P m * (xs_total (medium P i) g + 8 * INR (cells P) * (Rabs (mu P m) / dx P i))))) as (cr & Pr & Hr).
  exists cr. split; [exact Pr|]. intros two dt past k T ext bnd emit phi E Eu new pu F Hdt H1 H2 HF HB i g Hi Hg.
  assert (Pv : 0 < velocity g) by (apply HV; exact Hg).
  assert (Hw : 1 <= run_weight two k) by (unfold run_weight; destruct two; [destruct k|]; lra).
  set (f := fun j => rsum G (fun h => T (medium P j) g h * emit j h)).
  pose proof (response P (fun j => xs_total (medium P j) g) f (fun m j => E g m j - Eu g m j) (velocity g) (run_weight two k) dt F HP Pv Hw Hdt
    (fun j Hj => Ht j g Hj Hg) (fun j Hj => HB j g Hj Hg) HF) as RS.
  assert (HE : forall m j, (m < angles P)%nat -> (j < cells P)%nat ->
    mu P m / dx P j * ((E g m (S j) - Eu g m (S j)) - (E g m j - Eu g m j)) +
    (xs_total (medium P j) g + run_weight two k / (velocity g * dt)) * (((E g m j - Eu g m j) + (E g m (S j) - Eu g m (S j))) / 2) = f j).
  { intros m j Hm Hj. destruct (H1 g m Hg Hm) as (A & _). destruct (A j Hj) as (A1 & A2). destruct (H2 g m Hg Hm) as (B & _). destruct (B j Hj) as (B1 & B2).
    rewrite (rsum_zero_ext G (fun h => 0 * phi j h)) in B2 by (intros; ring).
    pose proof (run_derivative_minus two dt past k new pu j m g Hdt) as D.
    assert (D2 : run_derivative two dt past k new j m g / velocity g - run_derivative two dt past k pu j m g / velocity g
        = run_weight two k / (velocity g * dt) * (new j m g - pu j m g)).
    { transitivity ((run_derivative two dt past k new j m g - run_derivative two dt past k pu j m g) / velocity g); [field; lra|]. rewrite D. field. split; lra. }
    assert (X : new j m g - pu j m g = ((E g m j - Eu g m j) + (E g m (S j) - Eu g m (S j))) / 2) by (rewrite A1, B1; field).
    rewrite <- X. unfold f. set (S1 := rsum G (fun h => T (medium P j) g h * emit j h)) in *. lra. }
  assert (HI : forall m, (m < angles P)%nat -> E g m (inflow_edge (cells P) (mu P m)) - Eu g m (inflow_edge (cells P) (mu P m))
     = reflected_in (cells P) (angles P) (mu P) (bc_left P) (bc_right P) (fun m j => E g m j - Eu g m j) m).
  { intros m Hm. destruct (H1 g m Hg Hm) as (_ & A). destruct (H2 g m Hg Hm) as (_ & B). rewrite A, B. unfold reflected_in. cbv zeta. destruct (andb _ _); ring. }
  specialize (RS HE HI i Hi). specialize (Hr i g Hi Hg). cbv beta in Hr, RS.
  assert (SX : scalar_flux P new i g - scalar_flux P pu i g = rsum (angles P) (fun m => wt P m * (((E g m i - Eu g m i) + (E g m (S i) - Eu g m (S i))) / 2))).
  { unfold scalar_flux. rewrite <- rsum_minus. apply rsum_ext. intros m Hm.
    destruct (H1 g m Hg Hm) as (A & _). destruct (A i Hi) as (A1 & _). destruct (H2 g m Hg Hm) as (B & _). destruct (B i Hi) as (B1 & _). rewrite A1, B1. field. }
  rewrite SX. fold (f i). eapply Rle_trans; [exact RS|]. replace (cr * (dt * dt) * F) with (dt * dt * cr * F) by ring.
  apply Rmult_le_compat_r; [exact HF|]. apply Rmult_le_compat_l; [apply Rmult_le_pos; lra|exact Hr].
Qed.

(** *** one hybrid step with all energy groups kept *)
Lemma kept_residual P PC G vu vc Tu Tc (T : mat3) tau tauc :
  sound_slab P -> sound_slab PC -> cells PC = cells P -> medium PC = medium P -> (forall i, (i < cells P)%nat -> dx PC i = dx P i) ->
  rsum (angles PC) (wt PC) = rsum (angles P) (wt P) ->
  (forall g, (g < G)%nat -> 0 < vu g) -> (forall g, (g < G)%nat -> vc g = vu g) ->
  (forall i g, (i < cells P)%nat -> (g < G)%nat -> 0 <= Tu (medium P i) g) -> (forall i g, (i < cells P)%nat -> (g < G)%nat -> 0 <= Tc (medium P i) g) ->
  0 <= tau -> (forall i g h, (i < cells P)%nat -> (g < G)%nat -> (h < G)%nat -> Rabs (T (medium P i) g h) <= tau) -> 0 <= tauc ->
  exists dt0 K, 0 < dt0 /\ 0 <= K /\ forall two dt k Xc ci fac ext bnd src psi phi_u phi_c E,
    0 < dt -> dt <= dt0 ->
    (forall i g h, (i < cells P)%nat -> (g < G)%nat -> (h < G)%nat -> Rabs (Xc (medium P i) g h) <= tauc) ->
    (forall g, (g < G)%nat -> ci g = g) -> (forall g, (g < G)%nat -> fac g = 1) ->
    step_equation P G vu Tu T ext bnd (run_derivative two dt psi k (psi (S k))) (recombined ci fac phi_u phi_c) E (psi (S k)) ->
    uncollided_flux two P G vu dt Tu ext bnd psi k phi_u ->
    d3b src = 1%nat -> d3c src = G ->
    (forall i m c, (i < cells P)%nat -> at3 src i m c = at3 (first_collisions P G G T ci phi_u) i m c) ->
    source_iteration_iso PC G zeros2 (effective_total (run_weight two k) Tc vc dt) Xc src no_inflow 1 = Ok phi_c ->
    source_norm P G vu (unresolved P G T (recombined ci fac phi_u phi_c) (psi (S k))) <= K * (dt * dt) * density_norm P G vu (psi (S k)).
Proof.
  intros HP HPC Hcells Hmedium Hdx HWW HV HVV HTu HTc Htau HT Htauc.
  assert (HVc : forall g, (g < G)%nat -> 0 < vc g) by (intros g Hg; rewrite HVV by exact Hg; apply HV, Hg).
  assert (HTc' : forall i g, (i < cells PC)%nat -> (g < G)%nat -> 0 <= Tc (medium PC i) g) by (intros i g Hi Hg; rewrite Hcells in Hi; rewrite Hmedium; apply HTc; assumption).
  destruct (coarse_expansion PC G vc Tc tauc HPC HVc HTc' Htauc) as (Cc & PCc & HCc).
  destruct (fine_expansion P G vu Tu HP HV HTu) as (Cf & PCf & HCf).
  destruct (max_of_mean P HP) as (cu & Pu & Hu). destruct (mean_of_max P HP) as (cd & Pd & Hd).
  set (W := rsum (angles P) (wt P)) in *. set (V := rsum G vu). set (Wc := rsum (angles PC) (wt PC)) in *. set (Vc := rsum G vc).
  assert (PW : 0 <= W) by (apply rsum_nonneg; apply HP). assert (PV : 0 <= V) by (apply (V_nonneg G vu HV)).
  assert (PVc : 0 <= Vc) by (apply (V_nonneg G vc HVc)). assert (PWV : 0 <= W * V) by (apply Rmult_le_pos; assumption).
  assert (PG : 0 <= INR G * tau) by (apply Rmult_le_pos; [apply pos_INR|exact Htau]).
  set (kap := 4 * Wc * Vc * (INR G * (INR G * tau))).
  assert (Pk : 0 <= kap). { unfold kap. rewrite HWW. apply Rmult_le_pos; [apply Rmult_le_pos; [lra|exact PVc]|apply Rmult_le_pos; [apply pos_INR|exact PG]]. }
  set (A1 := Wc * Vc * (INR G * tauc)).
  assert (Q1 : 0 <= A1). { unfold A1. rewrite HWW. apply Rmult_le_pos; [apply Rmult_le_pos; assumption|apply Rmult_le_pos; [apply pos_INR|exact Htauc]]. }
  set (A2 := 1 * kap). assert (Q2 : 0 <= A2) by (unfold A2; lra).
  set (A3 := 4 * (INR G * tau) * (W * V)). assert (Q3 : 0 <= A3) by (unfold A3; apply Rmult_le_pos; [lra|assumption]).
  set (gt := INR G * tau) in *. set (B := W * V + Cc). assert (PB : 0 <= B) by (unfold B; lra).
  assert (PgB : 0 <= gt * B) by (apply Rmult_le_pos; assumption).
  set (D := Cc + Cf * (1 + gt * B) + W * V * (gt * B)).
  assert (PD : 0 <= D). { assert (0 <= Cf * (1 + gt * B)) by (apply Rmult_le_pos; lra). assert (0 <= W * V * (gt * B)) by (apply Rmult_le_pos; assumption). unfold D; lra. }
  set (s := sqrt (W * V)). assert (Ps : 0 <= s) by apply sqrt_pos.
  set (l1 := cu * (s * 2)). assert (Pl1 : 0 <= l1) by (unfold l1; apply Rmult_le_pos; [exact Pu|lra]).
  exists (/ (2 * (A1 + A2 + A3 + 1))), (s * (cd * (gt * (D * (gt * l1))))).
  assert (Qp : 0 < 2 * (A1 + A2 + A3 + 1)) by lra. split; [apply Rinv_0_lt_compat; exact Qp|].
  split. { apply Rmult_le_pos; [exact Ps|]. apply Rmult_le_pos; [exact Pd|]. apply Rmult_le_pos; [exact PG|]. apply Rmult_le_pos; [exact PD|]. apply Rmult_le_pos; assumption. }
  intros two dt k Xc ci fac ext bnd src psi phi_u phi_c E Hdt Hle HXc Hci Hfac H1 H2 Hs1 Hs2 Hs3 H3.
  assert (Hd1 : dt * (A1 + A2 + A3 + 1) <= / 2).
  { apply (Rmult_le_compat_r (A1 + A2 + A3 + 1)) in Hle; [|lra]. replace (/ (2 * (A1 + A2 + A3 + 1)) * (A1 + A2 + A3 + 1)) with (/ 2) in Hle by (field; lra). exact Hle. }
  assert (Z1 : 0 <= dt * A1) by (apply Rmult_le_pos; lra). assert (Z2 : 0 <= dt * A2) by (apply Rmult_le_pos; lra).
  assert (Z3 : 0 <= dt * A3) by (apply Rmult_le_pos; lra).
  assert (D1 : dt * A1 <= / 2) by lra. assert (D2 : dt * A2 <= 1) by lra. assert (D3 : dt * A3 <= 1) by lra. assert (D4 : dt <= 1) by lra.
  assert (HXc' : forall i g h, (i < cells PC)%nat -> (g < G)%nat -> (h < G)%nat -> Rabs (Xc (medium PC i) g h) <= tauc).
  { intros i g h Hi Hg Hh. rewrite Hcells in Hi. rewrite Hmedium. apply HXc; assumption. }
  set (new := psi (S k)) in *. set (N := density_norm P G vu). assert (PN : 0 <= N new) by apply sqrt_pos.
  assert (Hci' : forall g, (g < G)%nat -> (ci g < G)%nat) by (intros g Hg; rewrite Hci by exact Hg; exact Hg).
  assert (Hfac' : forall g, (g < G)%nat -> Rabs (fac g) <= 1) by (intros g Hg; rewrite Hfac, Rabs_R1 by exact Hg; lra).
  pose proof H2 as H2'. destruct H2' as (Eu & pu & Hpu & Hag).
  assert (HALF : N pu <= 2 * N new).
  { apply (step_half two P PC G G vu vc dt Tu Tc T Xc ci fac tau tauc 1) with (k := k) (ext := ext) (bnd := bnd) (src := src) (phi_u := phi_u) (phi_c := phi_c) (E := E) (Eu := Eu); try assumption; try lra. }
  set (l := l1 * N new). assert (Pl : 0 <= l) by (apply Rmult_le_pos; assumption).
  assert (BU : forall i g, (i < cells P)%nat -> (g < G)%nat -> Rabs (phi_u i g) <= l).
  { intros i g Hi Hg. pose proof (Hu (fun i => phi_u i g) i Hi) as U. cbv beta in U. eapply Rle_trans; [exact U|]. unfold l, l1. rewrite Rmult_assoc. apply Rmult_le_compat_l; [exact Pu|].
    rewrite (L2_ext P (fun i => phi_u i g) (fun i => scalar_flux P pu i g)) by (intros j Hj; apply Hag; assumption).
    eapply Rle_trans; [apply (scalar_size P HP G vu HV pu g Hg)|]. fold W V s N. rewrite Rmult_assoc. apply Rmult_le_compat_l; [exact Ps|exact HALF]. }
  (* the first collisions *)
  set (q := fun i g => rsum G (fun h => T (medium P i) g h * phi_u i h)).
  assert (PQ : 0 <= gt * l) by (apply Rmult_le_pos; assumption).
  assert (BQ : forall i g, (i < cells P)%nat -> (g < G)%nat -> Rabs (q i g) <= gt * l).
  { intros i g Hi Hg. apply (transfer_max (cells P) G T (medium P) tau phi_u l g Htau Pl Hg HT BU i Hi). }
  assert (Hsrc : forall i m g, (i < cells PC)%nat -> (g < G)%nat -> at3 src i (bidx (d3b src) m) (bidx (d3c src) g) = q i g).
  { intros i m g Hi Hg. rewrite Hcells in Hi. rewrite Hs3 by exact Hi. rewrite Hs2. unfold first_collisions, collected. cbn [at3].
    replace (bidx G g) with g by (unfold bidx; destruct (Nat.eqb_spec G 1); [lia|reflexivity]).
    rewrite (rsum_single G _ g Hg); [rewrite Hci, Nat.eqb_refl by exact Hg; reflexivity|].
    intros j Hj Hne. rewrite Hci by exact Hj. destruct (Nat.eqb_spec g j); [congruence|reflexivity]. }
  assert (BC : forall i g, (i < cells P)%nat -> (g < G)%nat -> Rabs (phi_c i g - W * (vu g * dt / run_weight two k) * q i g) <= Cc * (dt * dt) * (gt * l)).
  { intros i g Hi Hg. assert (Hi' : (i < cells PC)%nat) by (rewrite Hcells; exact Hi). rewrite <- (HVV g Hg), <- HWW. unfold Wc.
    apply (HCc Xc (run_weight two k) dt src q (gt * l) phi_c HXc'); try assumption.
    - unfold run_weight. destruct two; [destruct k|]; lra.
    - intros j h Hj Hh. rewrite Hcells in Hj. apply BQ; assumption. }
  assert (VB : forall g, (g < G)%nat -> 0 <= vu g * dt / run_weight two k <= V * dt).
  { intros g Hg. assert (VG : vu g <= V) by (apply (V_above G vu HV g Hg)). pose proof (HV g Hg) as Pvg.
    assert (Hw : 1 <= run_weight two k) by (unfold run_weight; destruct two; [destruct k|]; lra).
    assert (IW : 0 < / run_weight two k) by (apply Rinv_0_lt_compat; lra). assert (IW1 : / run_weight two k <= 1) by (rewrite <- Rinv_1; apply Rinv_le_contravar; lra).
    split; [apply Rmult_le_pos; [apply Rmult_le_pos; lra|lra]|].
    unfold Rdiv. rewrite <- (Rmult_1_r (V * dt)). apply Rmult_le_compat; [apply Rmult_le_pos; lra|lra|apply Rmult_le_compat_r; lra|exact IW1]. }
  assert (BP : forall i g, (i < cells P)%nat -> (g < G)%nat -> Rabs (phi_c i g) <= dt * (B * (gt * l))).
  { intros i g Hi Hg. replace (phi_c i g) with ((phi_c i g - W * (vu g * dt / run_weight two k) * q i g) + W * (vu g * dt / run_weight two k) * q i g) by ring.
    eapply Rle_trans; [apply Rabs_triang|]. specialize (BC i g Hi Hg).
    assert (X1 : Rabs (W * (vu g * dt / run_weight two k) * q i g) <= W * (V * dt) * (gt * l)).
    { rewrite Rabs_mult, (Rabs_pos_eq (W * (vu g * dt / run_weight two k))) by (apply Rmult_le_pos; [exact PW|apply VB, Hg]).
      apply Rmult_le_compat; [apply Rmult_le_pos; [exact PW|apply VB, Hg]|apply Rabs_pos|apply Rmult_le_compat_l; [exact PW|apply VB, Hg]|apply BQ; assumption]. }
    assert (X2 : Cc * (dt * dt) * (gt * l) <= dt * (Cc * (gt * l))).
    { assert (X3 : 0 <= dt * (Cc * (gt * l))) by (apply Rmult_le_pos; [lra|apply Rmult_le_pos; assumption]).
      apply (Rmult_le_compat_r (dt * (Cc * (gt * l)))) in D4; [|exact X3]. lra. }
    unfold B. lra. }
  set (emit := recombined ci fac phi_u phi_c) in *.
  assert (EM : forall i h, (h < G)%nat -> emit i h = phi_u i h + phi_c i h) by (intros i h Hh; unfold emit, recombined; rewrite Hci, Hfac by exact Hh; ring).
  assert (PBQ : 0 <= dt * (B * (gt * l))) by (apply Rmult_le_pos; [lra|apply Rmult_le_pos; assumption]).
  assert (BT : forall i g, (i < cells P)%nat -> (g < G)%nat -> Rabs (rsum G (fun h => T (medium P i) g h * phi_c i h)) <= gt * (dt * (B * (gt * l)))).
  { intros i g Hi Hg. apply (transfer_max (cells P) G T (medium P) tau phi_c _ g Htau PBQ Hg HT BP i Hi). }
  assert (EF : forall i g, (i < cells P)%nat -> (g < G)%nat -> rsum G (fun h => T (medium P i) g h * emit i h) = q i g + rsum G (fun h => T (medium P i) g h * phi_c i h)).
  { intros i g Hi Hg. unfold q. rewrite <- rsum_plus. apply rsum_ext. intros h Hh. rewrite EM by exact Hh. ring. }
  assert (PF : 0 <= (1 + gt * B) * (gt * l)) by (apply Rmult_le_pos; lra).
  assert (DF : gt * (dt * (B * (gt * l))) <= gt * B * (gt * l)).
  { assert (X3 : 0 <= gt * B * (gt * l)) by (apply Rmult_le_pos; assumption). apply (Rmult_le_compat_r (gt * B * (gt * l))) in D4; [lra|exact X3]. }
  assert (BF : forall i g, (i < cells P)%nat -> (g < G)%nat -> Rabs (rsum G (fun h => T (medium P i) g h * emit i h)) <= (1 + gt * B) * (gt * l)).
  { intros i g Hi Hg. rewrite EF by assumption. eapply Rle_trans; [apply Rabs_triang|]. specialize (BT i g Hi Hg). specialize (BQ i g Hi Hg). lra. }
  pose proof (HCf two dt psi k T ext bnd emit phi_u E Eu new pu _ Hdt H1 Hpu PF BF) as FE. fold W in FE.
  assert (PL : 0 <= dt * dt * (D * (gt * l))) by (apply Rmult_le_pos; [apply Rmult_le_pos; lra|apply Rmult_le_pos; assumption]).
  assert (LEFT : forall i h, (i < cells P)%nat -> (h < G)%nat -> Rabs (emit i h - scalar_flux P new i h) <= dt * dt * (D * (gt * l))).
  { intros i h Hi Hh. specialize (FE i h Hi Hh). specialize (BC i h Hi Hh). specialize (BT i h Hi Hh). rewrite EF in FE by assumption.
    set (z := W * (vu h * dt / run_weight two k)) in *. set (r := rsum G (fun h0 => T (medium P i) h h0 * phi_c i h0)) in *.
    assert (Pz : 0 <= z <= W * (V * dt)) by (unfold z; split; [apply Rmult_le_pos; [exact PW|apply VB, Hh]|apply Rmult_le_compat_l; [exact PW|apply VB, Hh]]).
    assert (ZR : Rabs (z * r) <= W * (V * dt) * (gt * (dt * (B * (gt * l))))).
    { rewrite Rabs_mult, (Rabs_pos_eq z) by lra. apply Rmult_le_compat; [lra|apply Rabs_pos|apply Pz|exact BT]. }
    rewrite EM by exact Hh. rewrite <- (Hag i h Hi Hh) in FE.
    replace (phi_u i h + phi_c i h - scalar_flux P new i h) with ((phi_c i h - z * q i h) + (- (scalar_flux P new i h - phi_u i h - z * (q i h + r)) + - (z * r))) by ring.
    eapply Rle_trans; [apply Rabs_triang|]. eapply Rle_trans; [apply Rplus_le_compat_l, Rabs_triang|]. rewrite !Rabs_Ropp. unfold D. lra. }
  unfold unresolved.
  eapply Rle_trans; [apply (source_size P HP G vu HV (fun i g => rsum G (fun h => T (medium P i) g h * (emit i h - scalar_flux P new i h))) (cd * (gt * (dt * dt * (D * (gt * l))))))|].
  - apply Rmult_le_pos; [exact Pd|apply Rmult_le_pos; assumption].
  - intros g Hg. apply Hd; [apply Rmult_le_pos; assumption|]. intros i Hi.
    apply (transfer_max (cells P) G T (medium P) tau (fun i h => emit i h - scalar_flux P new i h) _ g Htau PL Hg HT LEFT i Hi).
  - fold W V s N. right. unfold l. ring.
Qed.
