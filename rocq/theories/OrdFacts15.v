(** What a hybrid step leaves unresolved, for any way of computing the collided flux whose result is of the size of the step; the
    collided flux of a variable-grid step. *)
From Coq Require Import Lra Lia Psatz FunctionalExtensionality.
From Verif Require Import Base BaseFacts SlabModel SlabSpec MgModel MgSpec MgFacts MgFacts2 HybModel HybSpec HybFacts HybFacts2 MainModel TimeModel TimeSpec TimeFacts TimeFacts2 TimeFacts3 TimeFacts4 TimeFacts5.
From Verif Require Import EnSpec EnFacts EnFacts2 EnFacts3 EnFacts4 EnFacts5 EnFacts6 EnFacts7 OrdSpec OrdFacts OrdFacts2 OrdFacts3 OrdFacts8 OrdFacts9 OrdFacts10.
Open Scope R_scope.

Section Step_from.
Variables (two : bool) (P : sn) (G Gc : nat) (vu : vec) (dt : R) (Tu : mat2) (T : mat3) (ci : nat -> nat) (fac : vec).
Variables (tau F kap : R).
Hypothesis HP : sound_slab P.
Hypothesis Hci : forall g, (g < G)%nat -> (ci g < Gc)%nat.
Hypothesis HVu : forall g, (g < G)%nat -> 0 < vu g.
Hypothesis Hdt : 0 < dt.
Hypothesis HTu : forall i g, (i < cells P)%nat -> (g < G)%nat -> 0 <= Tu (medium P i) g.
Hypothesis Htau : 0 <= tau.
Hypothesis HT : forall i g h, (i < cells P)%nat -> (g < G)%nat -> (h < G)%nat -> Rabs (T (medium P i) g h) <= tau.
Hypothesis HF : 0 <= F.
Hypothesis Hfac : forall g, (g < G)%nat -> Rabs (fac g) <= F.
Hypothesis Hkap : 0 <= kap.
Let W := rsum (angles P) (wt P).
Let V := rsum G vu.
Let K0 := W * V * (INR G * tau) * (4 * (INR G * tau) * (W * V) + 2 * F * kap).
Hypothesis D2 : dt * (F * kap) <= 1.
Hypothesis D3 : dt * (4 * (INR G * tau) * (W * V)) <= 1.
Let L2 := mean_square P.
Let N := density_norm P G vu.

Lemma step_from_pos : 0 <= W /\ 0 <= V /\ 0 <= INR G * tau /\ 0 <= kap /\ 0 <= K0.
Proof.
  assert (A : 0 <= W) by (apply rsum_nonneg; apply HP). assert (B : 0 <= V) by (apply V_nonneg; exact HVu).
  assert (E : 0 <= INR G * tau) by (apply Rmult_le_pos; [apply pos_INR|exact Htau]).
  repeat split; try assumption. unfold K0. apply Rmult_le_pos; [repeat apply Rmult_le_pos; try assumption; apply pos_INR|].
  assert (0 <= 4 * (INR G * tau) * (W * V)) by (repeat apply Rmult_le_pos; try assumption; try apply pos_INR; lra).
  assert (0 <= 2 * F * kap) by (apply Rmult_le_pos; [apply Rmult_le_pos; [lra|exact HF]|assumption]). lra.
Qed.

Variables (k : nat) (ext bnd : arr3) (psi : nat -> mat3) (phi_u phi_c : mat2) (E : mat3).
Let new := psi (S k).
Let emit := recombined ci fac phi_u phi_c.
Hypothesis H1 : step_equation P G vu Tu T ext bnd (run_derivative two dt psi k new) emit E new.
Hypothesis H2 : uncollided_flux two P G vu dt Tu ext bnd psi k phi_u.
Hypothesis Hcol : forall l, 0 <= l -> (forall g, (g < G)%nat -> L2 (fun i => phi_u i g) <= l) ->
  forall c, (c < Gc)%nat -> L2 (fun i => phi_c i c) <= dt * (kap * l).

(** the new flux and the uncollided flux it contains *)
Lemma step_near Eu pu : step_equation P G vu Tu (fun _ _ _ => 0) ext bnd (run_derivative two dt psi k pu) phi_u Eu pu ->
  (forall i g, (i < cells P)%nat -> (g < G)%nat -> phi_u i g = scalar_flux P pu i g) ->
  N pu <= 2 * N new /\ N (minus3 new pu) <= dt * (4 * (INR G * tau) * (W * V)) * N new.
Proof.
  intros Hpu Hag. destruct step_from_pos as (PW & PV & PG & PK & PK0).
  set (s := sqrt (W * V)). assert (Ps : 0 <= s) by apply sqrt_pos.
  assert (Ss : s * s = W * V) by (apply sqrt_sqrt, Rmult_le_pos; assumption).
  assert (Pu : 0 <= N pu) by apply sqrt_pos. assert (Pn : 0 <= N new) by apply sqrt_pos.
  assert (Psu : 0 <= s * N pu) by (apply Rmult_le_pos; assumption).
  assert (Su : forall g, (g < G)%nat -> L2 (fun i => phi_u i g) <= s * N pu).
  { intros g Hg. unfold L2. rewrite (L2_ext P (fun i => phi_u i g) (fun i => scalar_flux P pu i g)) by (intros i Hi; apply Hag; assumption).
    apply (scalar_size P HP G vu HVu pu g Hg). }
  pose proof (Hcol _ Psu Su) as Sc.
  (* the flux that emits *)
  assert (Sf : forall g l, (g < G)%nat -> 0 <= l -> dt * (kap * (s * N pu)) <= l -> L2 (fun i => phi_c i (ci g) * fac g) <= F * l).
  { intros g l Hg Hl Hle. apply Rle_trans with (F * L2 (fun i => phi_c i (ci g))).
    - apply (L2_scal P HP F (fun i => phi_c i (ci g) * fac g) (fun i => phi_c i (ci g)) HF).
      intros i Hi. rewrite Rabs_mult, Rmult_comm. apply Rmult_le_compat_r; [apply Rabs_pos|apply Hfac; exact Hg].
    - apply Rmult_le_compat_l; [exact HF|]. eapply Rle_trans; [apply Sc, Hci, Hg|exact Hle]. }
  assert (Pc : 0 <= dt * (kap * (s * N pu))) by (apply Rmult_le_pos; [lra|apply Rmult_le_pos; assumption]).
  assert (Se : forall g, (g < G)%nat -> L2 (fun i => emit i g) <= 2 * (s * N pu)).
  { intros g Hg. unfold emit, recombined. eapply Rle_trans; [apply (L2_triangle P HP (fun i => phi_u i g) (fun i => phi_c i (ci g) * fac g))|].
    specialize (Su g Hg). pose proof (Sf g _ Hg Pc (Rle_refl _)) as B. fold L2.
    assert (C : F * (dt * (kap * (s * N pu))) <= 1 * (s * N pu)).
    { replace (F * (dt * (kap * (s * N pu)))) with (dt * (F * kap) * (s * N pu)) by ring. apply Rmult_le_compat_r; assumption. }
    cbv beta in B. lra. }
  (* the distance to the uncollided flux *)
  set (ext' := full3 P G (fun i m g => at3 ext i (bidx (d3b ext) m) (bidx (d3c ext) g) + rsum G (fun h => T (medium P i) g h * emit i h))).
  assert (H1' : step_equation P G vu Tu (fun _ _ _ => 0) ext' bnd (run_derivative two dt psi k new) emit E new).
  { intros g m Hg Hm. destruct (H1 g m Hg Hm) as (A & B). split; [|exact B]. intros i Hi. destruct (A i Hi) as (A1 & A2). split; [exact A1|].
    rewrite A2. unfold ext'. rewrite full3_at by assumption. rewrite (rsum_zero_ext G (fun h => 0 * emit i h)) by (intros; ring). ring. }
  pose proof (step_distance two P G vu dt Tu ext' ext bnd psi k emit phi_u E Eu new pu HP HTu HVu Hdt H1' Hpu) as SD.
  rewrite (source_ext P G vu _ (fun i _ g => rsum G (fun h => T (medium P i) g h * emit i h))) in SD.
  2:{ intros i m g Hi Hm Hg. unfold minus3, step_input. unfold ext'. rewrite full3_at by assumption. rewrite !(rsum_zero_ext G (fun h => 0 * _)) by (intros; ring). ring. }
  assert (P2 : 0 <= 2 * (s * N pu)) by lra.
  assert (B1 : source_norm P G vu (fun i _ g => rsum G (fun h => T (medium P i) g h * emit i h)) <= s * (INR G * tau * (2 * (s * N pu)))).
  { apply (source_size P HP G vu HVu (fun i g => rsum G (fun h => T (medium P i) g h * emit i h))).
    - apply Rmult_le_pos; assumption.
    - intros g Hg. apply (transfer_size P HP G T tau emit _ g Htau P2); [intros; apply HT; assumption|exact Se]. }
  assert (B2 : N (minus3 new pu) <= dt * (2 * (INR G * tau) * (W * V)) * N pu).
  { eapply Rle_trans; [exact SD|]. apply (Rmult_le_compat_l dt) in B1; [|lra]. rewrite <- Ss. eapply Rle_trans; [exact B1|]. right; ring. }
  assert (B3 : N pu <= N new + N (minus3 new pu)).
  { unfold N. rewrite (EnFacts4.density_ext P G vu pu (fun i m g => new i m g + - minus3 new pu i m g)) by (intros; unfold minus3; ring).
    eapply Rle_trans; [apply (density_plus P G vu HP HVu new (fun i m g => - minus3 new pu i m g))|]. apply Rplus_le_compat_l. right.
    unfold density_norm. f_equal. apply total3_ext; intros. unfold Rsqr, Rdiv. ring. }
  assert (B4 : N pu <= 2 * N new).
  { assert (dt * (2 * (INR G * tau) * (W * V)) * N pu <= / 2 * N pu) by (apply Rmult_le_compat_r; lra). lra. }
  assert (B5 : N (minus3 new pu) <= dt * (4 * (INR G * tau) * (W * V)) * N new).
  { eapply Rle_trans; [exact B2|].
    assert (Z : 0 <= dt * (2 * (INR G * tau) * (W * V))) by (repeat apply Rmult_le_pos; try assumption; try apply pos_INR; lra).
    apply (Rmult_le_compat_l _ _ _ Z) in B4. lra. }
  split; assumption.
Qed.

Lemma step_residual_from : source_norm P G vu (unresolved P G T emit new) <= dt * K0 * N new.
Proof.
  destruct step_from_pos as (PW & PV & PG & PK & PK0). destruct H2 as (Eu & pu & Hpu & Hag).
  set (s := sqrt (W * V)). assert (Ps : 0 <= s) by apply sqrt_pos.
  assert (Ss : s * s = W * V) by (apply sqrt_sqrt, Rmult_le_pos; assumption).
  assert (Pu : 0 <= N pu) by apply sqrt_pos. assert (Pn : 0 <= N new) by apply sqrt_pos.
  assert (Psu : 0 <= s * N pu) by (apply Rmult_le_pos; assumption).
  assert (Su : forall g, (g < G)%nat -> L2 (fun i => phi_u i g) <= s * N pu).
  { intros g Hg. unfold L2. rewrite (L2_ext P (fun i => phi_u i g) (fun i => scalar_flux P pu i g)) by (intros i Hi; apply Hag; assumption).
    apply (scalar_size P HP G vu HVu pu g Hg). }
  pose proof (Hcol _ Psu Su) as Sc.
  (* the flux that emits *)
  assert (Sf : forall g l, (g < G)%nat -> 0 <= l -> dt * (kap * (s * N pu)) <= l -> L2 (fun i => phi_c i (ci g) * fac g) <= F * l).
  { intros g l Hg Hl Hle. apply Rle_trans with (F * L2 (fun i => phi_c i (ci g))).
    - apply (L2_scal P HP F (fun i => phi_c i (ci g) * fac g) (fun i => phi_c i (ci g)) HF).
      intros i Hi. rewrite Rabs_mult, Rmult_comm. apply Rmult_le_compat_r; [apply Rabs_pos|apply Hfac; exact Hg].
    - apply Rmult_le_compat_l; [exact HF|]. eapply Rle_trans; [apply Sc, Hci, Hg|exact Hle]. }
  assert (Pc : 0 <= dt * (kap * (s * N pu))) by (apply Rmult_le_pos; [lra|apply Rmult_le_pos; assumption]).
  assert (Se : forall g, (g < G)%nat -> L2 (fun i => emit i g) <= 2 * (s * N pu)).
  { intros g Hg. unfold emit, recombined. eapply Rle_trans; [apply (L2_triangle P HP (fun i => phi_u i g) (fun i => phi_c i (ci g) * fac g))|].
    specialize (Su g Hg). pose proof (Sf g _ Hg Pc (Rle_refl _)) as B. fold L2.
    assert (C : F * (dt * (kap * (s * N pu))) <= 1 * (s * N pu)).
    { replace (F * (dt * (kap * (s * N pu)))) with (dt * (F * kap) * (s * N pu)) by ring. apply Rmult_le_compat_r; assumption. }
    cbv beta in B. lra. }
  destruct (step_near Eu pu Hpu Hag) as (B4 & B5).
  (* what is left *)
  set (r := s * (dt * (4 * (INR G * tau) * (W * V) + 2 * F * kap) * N new)).
  assert (Pr : 0 <= r).
  { unfold r. repeat apply Rmult_le_pos; try assumption; try lra.
    assert (0 <= 4 * (INR G * tau) * (W * V)) by (repeat apply Rmult_le_pos; try assumption; try apply pos_INR; lra).
    assert (0 <= 2 * F * kap) by (apply Rmult_le_pos; [apply Rmult_le_pos; [lra|exact HF]|assumption]). lra. }
  assert (B6 : forall g, (g < G)%nat -> L2 (fun i => emit i g - scalar_flux P new i g) <= r).
  { intros g Hg. unfold L2. rewrite (L2_ext P _ (fun i => - scalar_flux P (minus3 new pu) i g + phi_c i (ci g) * fac g)).
    2:{ intros i Hi. unfold emit, recombined. rewrite scalar_minus, (Hag i g Hi Hg). ring. }
    eapply Rle_trans; [apply (L2_triangle P HP (fun i => - scalar_flux P (minus3 new pu) i g))|].
    rewrite (L2_opp P (fun i => scalar_flux P (minus3 new pu) i g)).
    pose proof (scalar_size P HP G vu HVu (minus3 new pu) g Hg) as C1. fold W V s in C1. fold (N (minus3 new pu)) in C1.
    assert (C2 : dt * (kap * (s * N pu)) <= dt * (kap * (s * (2 * N new)))).
    { apply Rmult_le_compat_l; [lra|]. apply Rmult_le_compat_l; [exact PK|]. apply Rmult_le_compat_l; [exact Ps|exact B4]. }
    assert (C3 : 0 <= dt * (kap * (s * (2 * N new)))) by lra.
    pose proof (Sf g _ Hg C3 C2) as C4. cbv beta in C4. unfold L2 in C4.
    apply (Rmult_le_compat_l s) in B5; [|exact Ps]. unfold r. lra. }
  unfold unresolved.
  eapply Rle_trans; [apply (source_size P HP G vu HVu (fun i g => rsum G (fun h => T (medium P i) g h * (emit i h - scalar_flux P new i h))) (INR G * tau * r))|].
  - apply Rmult_le_pos; assumption.
  - intros g Hg. apply (transfer_size P HP G T tau (fun i h => emit i h - scalar_flux P new i h) r g Htau Pr); [intros; apply HT; assumption|exact B6].
  - fold W V s. right. unfold r, K0. rewrite <- Ss. ring.
Qed.
End Step_from.

(** a positive number below finitely many *)
Lemma below_all n (v : vec) : (forall g, (g < n)%nat -> 0 < v g) -> exists lo, 0 < lo /\ forall g, (g < n)%nat -> lo <= v g.
Proof.
  intros H. set (s := rsum n (fun g => / v g)).
  assert (A : forall g, (g < n)%nat -> 0 <= / v g) by (intros g Hg; left; apply Rinv_0_lt_compat, H, Hg).
  assert (Ps : 0 <= s) by (apply rsum_nonneg; exact A).
  exists (/ (s + 1)). split; [apply Rinv_0_lt_compat; lra|]. intros g Hg. rewrite <- (Rinv_inv (v g)).
  specialize (H g Hg). apply Rinv_le_contravar; [apply Rinv_0_lt_compat; exact H|].
  pose proof (rsum_term_le n (fun g => / v g) g A Hg) as B. cbv beta in B. fold s in B. lra.
Qed.

Lemma group_size P (HP : sound_slab P) fine coarse idx (phi : mat2) l c : partition fine coarse idx -> (c < coarse)%nat -> 0 <= l ->
  (forall g, (g < fine)%nat -> mean_square P (fun i => phi i g) <= l) -> mean_square P (fun i => group_sum idx c (phi i)) <= INR fine * l.
Proof.
  intros HPa Hc Hl H. unfold group_sum.
  assert (M : (idx (c + 1) <= fine)%nat) by (destruct HPa as (A & B & C); rewrite <- B; apply (partition_mono fine coarse idx); [split; [exact A|split; [exact B|exact C]]|lia|lia]).
  eapply Rle_trans; [apply (L2_sum P HP (idx (c + 1)%nat - idx c) (fun i k => phi i (idx c + k)%nat))|].
  apply Rle_trans with (INR (idx (c + 1)%nat - idx c) * l).
  - rewrite <- rsum_const. apply rsum_le. intros k Hk. apply H. lia.
  - apply Rmult_le_compat_r; [exact Hl|]. apply le_INR. lia.
Qed.

(** what a collided problem on a variable grid makes of the uncollided flux *)
Lemma variable_collided (P : sn) (G gc ac : nat) (vu : vec) (Tu : mat2) (X : mat3) (idx : nat -> nat) (e : vec) (xw : vec * vec) ci :
  sound_slab P -> sound_slab (with_angles P ac (fst xw) (snd xw)) -> partition G gc idx -> monotone_edges G e ->
  (forall g, (g < G)%nat -> 0 < vu g) -> (forall i g, (i < cells P)%nat -> (g < G)%nat -> 0 <= Tu (medium P i) g) ->
  exists dt0 kap, 0 < dt0 /\ 0 <= kap /\ forall dt w phi_u phi_c, 0 < dt -> dt <= dt0 -> 1 <= w <= 2 ->
    source_iteration_iso (with_angles P ac (fst xw) (snd xw)) gc (coarsen_flux gc phi_u zeros2 idx)
      (effective_total w (xs_vector_coarsen Tu e idx) (coarsen_velocity vu idx) dt)
      (coarse_scatter X (ediff e) (coarse_diff e idx) idx)
      (mkArr3 1 gc (fun i _ g => hybrid_source_collided (cells P) G phi_u X zeros2 (medium P) ci i g)) no_inflow 1 = Ok phi_c ->
    forall l, 0 <= l -> (forall g, (g < G)%nat -> mean_square P (fun i => phi_u i g) <= l) ->
    forall c, (c < gc)%nat -> mean_square P (fun i => phi_c i c) <= dt * (kap * l).
Proof.
  intros HP HPC HPa He HVu HTu. set (PC := with_angles P ac (fst xw) (snd xw)) in *.
  set (vc := coarsen_velocity vu idx). set (Tc := xs_vector_coarsen Tu e idx). set (Xc := coarse_scatter X (ediff e) (coarse_diff e idx) idx).
  assert (Hin : forall c g, (c < gc)%nat -> in_group idx c g -> (g < G)%nat).
  { intros c g Hc (_ & H2). assert ((idx (c + 1) <= G)%nat); [|lia]. pose proof HPa as (A & B & C). rewrite <- B. apply (partition_mono G gc idx); [exact HPa|lia|lia]. }
  assert (HVc : forall c, (c < gc)%nat -> 0 < vc c).
  { destruct (below_all G vu HVu) as (lo & L0 & L1). intros c Hc. destruct (finite_max G (fun g => Rabs (vu g)) ltac:(intros; apply Rabs_pos)) as (hi & H0 & H1 & _).
    destruct (velocity_facts G gc idx vu HPa) as (A & _). destruct (A c Hc) as (_ & B). destruct (B lo hi) as (C & _); [|unfold vc; lra].
    intros g Hg. specialize (L1 g (Hin c g Hc Hg)). specialize (H1 g (Hin c g Hc Hg)). cbv beta in H1. pose proof (Rle_abs (vu g)). lra. }
  assert (HTc : forall i c, (i < cells P)%nat -> (c < gc)%nat -> 0 <= Tc (medium P i) c).
  { intros i c Hi Hc. destruct (finite_max G (fun g => Rabs (Tu (medium P i) g)) ltac:(intros; apply Rabs_pos)) as (hi & H0 & H1 & _).
    destruct (vector_facts G gc idx e Tu (medium P i) HPa He c Hc) as (_ & B & _). apply (B 0 hi). intros g Hg.
    specialize (H1 g (Hin c g Hc Hg)). cbv beta in H1. pose proof (Rle_abs (Tu (medium P i) g)). split; [apply HTu; [exact Hi|exact (Hin c g Hc Hg)]|lra]. }
  destruct (transfer_bound P G X) as (tau & Ptau & Htau). destruct (transfer_bound PC gc Xc) as (tauc & Ptauc & Htauc).
  set (W := rsum (angles PC) (wt PC)). set (V := rsum gc vc).
  assert (PW : 0 <= W) by (apply rsum_nonneg; apply HPC). assert (PV : 0 <= V) by (apply V_nonneg; exact HVc).
  (* the largest total cross section times the step *)
  set (B := fun i c => Rabs (Tc (medium P i) c) + 2 * / vc c).
  assert (PB : forall i c, (c < gc)%nat -> 0 <= B i c).
  { intros i c Hc. unfold B. pose proof (Rabs_pos (Tc (medium P i) c)). assert (0 < / vc c) by (apply Rinv_0_lt_compat, HVc, Hc). lra. }
  set (A := rsum (cells P) (fun i => rsum gc (fun c => B i c))).
  assert (PB' : forall i, 0 <= rsum gc (fun c => B i c)) by (intros; apply rsum_nonneg; intros; apply PB; assumption).
  assert (PA : 0 <= A) by (apply rsum_nonneg; intros; apply PB').
  assert (HA : forall i c, (i < cells P)%nat -> (c < gc)%nat -> B i c <= A).
  { intros i c Hi Hc. eapply Rle_trans; [apply (rsum_term_le gc (fun c => B i c) c); [intros; apply PB; assumption|exact Hc]|].
    apply (rsum_term_le (cells P) (fun i => rsum gc (fun c => B i c)) i); [intros; apply PB'|exact Hi]. }
  assert (PG : 0 <= INR G * tau) by (apply Rmult_le_pos; [apply pos_INR|exact Ptau]).
  set (C := W * (INR gc * (tauc * V))). assert (PC0 : 0 <= C) by (unfold C; apply Rmult_le_pos; [exact PW|]; apply Rmult_le_pos; [apply pos_INR|]; apply Rmult_le_pos; assumption).
  set (kap := 4 * W * V * (INR G * (INR G * tau)) + C * (sqrt (V * A) * INR G)).
  assert (Pk : 0 <= kap).
  { unfold kap. assert (0 <= 4 * W * V * (INR G * (INR G * tau))) by (repeat apply Rmult_le_pos; try assumption; try apply pos_INR; lra).
    assert (0 <= C * (sqrt (V * A) * INR G)) by (apply Rmult_le_pos; [exact PC0|]; apply Rmult_le_pos; [apply sqrt_pos|apply pos_INR]). lra. }
  assert (Q : 0 < 2 * (C + 1)) by lra.
  exists (/ (2 * (C + 1))), kap. split; [apply Rinv_0_lt_compat; exact Q|]. split; [exact Pk|].
  intros dt w phi_u phi_c Hdt Hle (Hw1 & Hw2) E l Hl Hu c Hc.
  assert (Hd : dt * (C + 1) <= / 2).
  { apply (Rmult_le_compat_r (C + 1)) in Hle; [|lra]. replace (/ (2 * (C + 1)) * (C + 1)) with (/ 2) in Hle by (field; lra). exact Hle. }
  assert (D1 : dt * (W * V * (INR gc * tauc)) <= / 2).
  { replace (dt * (W * V * (INR gc * tauc))) with (dt * C) by (unfold C; ring). lra. }
  assert (Hdt1 : dt <= 1). { assert (0 <= dt * C) by (apply Rmult_le_pos; lra). lra. }
  set (q := fun i c => collected G ci (fun g => rsum G (fun h => X (medium P i) g h * phi_u i h)) c).
  assert (PQ : 0 <= INR G * (INR G * tau * l)) by (repeat apply Rmult_le_pos; try apply pos_INR; assumption).
  assert (Ps0 : 0 <= INR G * l) by (apply Rmult_le_pos; [apply pos_INR|exact Hl]).
  pose proof (coarse_from PC gc vc Tc Xc tauc w dt
    (mkArr3 1 gc (fun i _ g => hybrid_source_collided (cells P) G phi_u X zeros2 (medium P) ci i g)) q (INR G * (INR G * tau * l))
    HPC HVc HTc Ptauc Htauc Hw1 Hdt D1) as CF.
  rewrite <- (mean_square_same P PC (fun i => phi_c i c) eq_refl (fun i _ => eq_refl)).
  replace (dt * (kap * l)) with (dt * (4 * W * V * (INR G * (INR G * tau * l)) + W * (INR gc * (tauc * V)) * (sqrt (V * A) * (INR G * l)))) by (unfold kap, C; ring).
  eapply CF; [| exact PQ | | exact Ps0 | exact PA | | | exact E | exact Hc].
  - intros i m g Hi Hg. rewrite (collided_source_spec P G gc phi_u X ci i) by exact Hi. unfold first_collisions. cbn [at3 d3b d3c].
    unfold bidx. destruct (Nat.eqb_spec gc 1) as [Eg|Ng]; [|reflexivity]. replace g with 0%nat by lia. reflexivity.
  - intros g Hg. rewrite (mean_square_same P PC (fun i => q i g) eq_refl (fun i _ => eq_refl)). unfold q, collected.
    eapply Rle_trans; [apply (L2_sum P HP G (fun i h => if Nat.eqb g (ci h) then rsum G (fun h0 => X (medium P i) h h0 * phi_u i h0) else 0))|].
    rewrite <- rsum_const. apply rsum_le. intros h Hh. destruct (Nat.eqb g (ci h)).
    + apply (transfer_size P HP G X tau phi_u l h Ptau Hl); [intros; apply Htau; assumption|exact Hu].
    + rewrite (L2_zero P HP). apply Rmult_le_pos; [exact PG|exact Hl].
  - intros i g Hi Hg. eapply Rle_trans; [|apply (HA i g Hi Hg)]. unfold B, effective_total.
    specialize (HVc g Hg). specialize (HTc i g Hi Hg). change (medium PC i) with (medium P i).
    replace ((Tc (medium P i) g + w / (vc g * dt)) * dt) with (Tc (medium P i) g * dt + w * / vc g) by (field; lra).
    rewrite Rabs_pos_eq by exact HTc. apply Rplus_le_compat.
    + rewrite <- (Rmult_1_r (Tc (medium P i) g)) at 2. apply Rmult_le_compat_l; assumption.
    + apply Rmult_le_compat_r; [left; apply Rinv_0_lt_compat; exact HVc|exact Hw2].
  - intros g Hg. rewrite (mean_square_same P PC _ eq_refl (fun i _ => eq_refl)).
    unfold mean_square. rewrite (reaction_ext P (fun _ => 1) _ (fun i => group_sum idx g (phi_u i))) by (intros i Hi; apply coarsen_flux_sum; exact Hg).
    apply (group_size P HP G gc idx phi_u l g HPa Hg Hl Hu).
Qed.
