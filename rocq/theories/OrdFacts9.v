(** What a hybrid step leaves unresolved is of the size of the time step. *)
From Coq Require Import Lra Lia Psatz.
From Verif Require Import Base BaseFacts SlabModel SlabSpec MgModel MgSpec MgFacts MgFacts2 TimeModel TimeSpec TimeFacts TimeFacts2 TimeFacts4.
From Verif Require Import EnSpec EnFacts EnFacts2 EnFacts3 EnFacts4 EnFacts5 EnFacts6 EnFacts7 OrdSpec OrdFacts OrdFacts2 OrdFacts3 OrdFacts8.
Open Scope R_scope.

Lemma no_scatter_sound P G xs_total : sound_slab P -> (forall i g, (i < cells P)%nat -> (g < G)%nat -> 0 <= xs_total (medium P i) g) ->
  no_multiplication P G xs_total (fun _ _ _ => 0).
Proof.
  intros HP Ht i g Hi Hg. rewrite !(rsum_zero_ext G) by (intros; apply Rabs_R0). replace (rsum (angles P) (wt P) * ((0 + 0) / 2)) with 0 by field.
  apply Ht; assumption.
Qed.

(** two steps without scattering from the same past *)
Lemma step_distance two P G velocity dt xs_total ext ext' bnd past k emit emit' E E' psi psi' :
  sound_slab P -> (forall i g, (i < cells P)%nat -> (g < G)%nat -> 0 <= xs_total (medium P i) g) -> (forall g, (g < G)%nat -> 0 < velocity g) -> 0 < dt ->
  step_equation P G velocity xs_total (fun _ _ _ => 0) ext bnd (run_derivative two dt past k psi) emit E psi ->
  step_equation P G velocity xs_total (fun _ _ _ => 0) ext' bnd (run_derivative two dt past k psi') emit' E' psi' ->
  density_norm P G velocity (minus3 psi psi') <= dt * source_norm P G velocity
    (minus3 (step_input P G (fun _ _ _ => 0) ext emit psi) (step_input P G (fun _ _ _ => 0) ext' emit' psi')).
Proof.
  intros HP Ht HV Hdt H1 H2. pose proof (no_scatter_sound P G xs_total HP Ht) as HM.
  assert (Z : forall a, density_norm P G velocity (minus3 a a) = 0).
  { intros a. unfold density_norm. rewrite (total3_ext _ _ _ (fun _ _ _ => 0)); [|intros; unfold minus3, Rsqr, Rdiv; ring].
    replace (total3 P G (fun _ _ _ => 0)) with 0; [apply sqrt_0|]. symmetry. apply rsum_zero_ext; intros. apply rsum_zero_ext; intros. apply rsum_zero_ext; reflexivity. }
  assert (EU : forall old, step_equation P G velocity xs_total (fun _ _ _ => 0) ext bnd (euler_derivative dt psi old) emit E psi ->
    step_equation P G velocity xs_total (fun _ _ _ => 0) ext' bnd (euler_derivative dt psi' old) emit' E' psi' ->
    density_norm P G velocity (minus3 psi psi') <= dt * source_norm P G velocity
    (minus3 (step_input P G (fun _ _ _ => 0) ext emit psi) (step_input P G (fun _ _ _ => 0) ext' emit' psi'))).
  { intros old A B. destruct (euler_step P G velocity dt xs_total _ HP HM HV Hdt ext ext' bnd emit emit' psi psi' old old E E' A B) as (S1 & _).
    rewrite Z in S1. lra. }
  destruct two; cbn [run_derivative] in H1, H2; [|eapply EU; eassumption].
  destruct k as [|j]; [eapply EU; eassumption|].
  pose proof (bdf2_inequality P G velocity dt xs_total _ HP HM HV Hdt ext ext' bnd emit emit' psi psi' (past (S j)) (past (S j)) (past j) (past j) E E' H1 H2) as I.
  set (d := minus3 psi psi') in *. set (q := minus3 (step_input _ _ _ _ _ _) _) in *.
  assert (L : ip P G velocity (fun i m g => 3 * d i m g - 4 * minus3 (past (S j)) (past (S j)) i m g + minus3 (past j) (past j) i m g) d = 3 * ip P G velocity d d).
  { unfold ip. rewrite <- total3_scal. apply total3_ext; intros. unfold minus3. ring. }
  rewrite L in I. pose proof (norm_sq P G velocity HP HV d) as N2. unfold Rsqr in N2. rewrite <- N2 in I.
  assert (P1 : 0 <= source_norm P G velocity q) by apply sqrt_pos. assert (P2 : 0 <= density_norm P G velocity d) by apply sqrt_pos.
  apply step_root1; [exact P2|apply Rmult_le_pos; lra|].
  assert (0 <= dt * source_norm P G velocity q * density_norm P G velocity d) by (repeat apply Rmult_le_pos; lra). lra.
Qed.

Lemma mean_square_same P Q f : cells Q = cells P -> (forall i, (i < cells P)%nat -> dx Q i = dx P i) -> mean_square Q f = mean_square P f.
Proof.
  intros Hc Hd. unfold mean_square, reaction_norm. rewrite Hc. f_equal. apply rsum_ext. intros i Hi. rewrite Hd by exact Hi. reflexivity.
Qed.

(** ** one hybrid step *)
Section Step.
Variables (two : bool) (P PC : sn) (G Gc : nat) (vu vc : vec) (dt : R) (Tu Tc : mat2) (T Xc : mat3) (ci : nat -> nat) (fac : vec).
Variables (tau tauc F : R).
Hypothesis HP : sound_slab P.
Hypothesis HPC : sound_slab PC.
Hypothesis Hcells : cells PC = cells P.
Hypothesis Hdx : forall i, (i < cells P)%nat -> dx PC i = dx P i.
Hypothesis Hci : forall g, (g < G)%nat -> (ci g < Gc)%nat.
Hypothesis HVu : forall g, (g < G)%nat -> 0 < vu g.
Hypothesis HVc : forall g, (g < Gc)%nat -> 0 < vc g.
Hypothesis Hdt : 0 < dt.
Hypothesis HTu : forall i g, (i < cells P)%nat -> (g < G)%nat -> 0 <= Tu (medium P i) g.
Hypothesis HTc : forall i g, (i < cells PC)%nat -> (g < Gc)%nat -> 0 <= Tc (medium PC i) g.
Hypothesis Htau : 0 <= tau.
Hypothesis HT : forall i g h, (i < cells P)%nat -> (g < G)%nat -> (h < G)%nat -> Rabs (T (medium P i) g h) <= tau.
Hypothesis Htauc : 0 <= tauc.
Hypothesis HXc : forall i g h, (i < cells PC)%nat -> (g < Gc)%nat -> (h < Gc)%nat -> Rabs (Xc (medium PC i) g h) <= tauc.
Hypothesis HF : 0 <= F.
Hypothesis Hfac : forall g, (g < G)%nat -> Rabs (fac g) <= F.
Let W := rsum (angles P) (wt P).
Let V := rsum G vu.
Let Wc := rsum (angles PC) (wt PC).
Let Vc := rsum Gc vc.
Let kap := 4 * Wc * Vc * (INR G * (INR G * tau)).
Let K0 := W * V * (INR G * tau) * (4 * (INR G * tau) * (W * V) + 2 * F * kap).
Hypothesis D1 : dt * (Wc * Vc * (INR Gc * tauc)) <= / 2.
Hypothesis D2 : dt * (F * kap) <= 1.
Hypothesis D3 : dt * (4 * (INR G * tau) * (W * V)) <= 1.
Let L2 := mean_square P.
Let N := density_norm P G vu.

Lemma step_pos : 0 <= W /\ 0 <= V /\ 0 <= Wc /\ 0 <= Vc /\ 0 <= INR G * tau /\ 0 <= kap /\ 0 <= K0.
Proof.
  assert (A : 0 <= W) by (apply rsum_nonneg; apply HP). assert (B : 0 <= V) by (apply V_nonneg; exact HVu).
  assert (C : 0 <= Wc) by (apply rsum_nonneg; apply HPC). assert (D : 0 <= Vc) by (apply V_nonneg; exact HVc).
  assert (E : 0 <= INR G * tau) by (apply Rmult_le_pos; [apply pos_INR|exact Htau]).
  assert (H : 0 <= kap) by (unfold kap; repeat apply Rmult_le_pos; try assumption; try apply pos_INR; lra).
  repeat split; try assumption. unfold K0. apply Rmult_le_pos; [repeat apply Rmult_le_pos; try assumption; apply pos_INR|].
  assert (0 <= 4 * (INR G * tau) * (W * V)) by (repeat apply Rmult_le_pos; try assumption; try apply pos_INR; lra).
  assert (0 <= 2 * F * kap) by (apply Rmult_le_pos; [apply Rmult_le_pos; [lra|exact HF]|assumption]). lra.
Qed.

Variables (k : nat) (ext bnd src : arr3) (psi : nat -> mat3) (phi_u phi_c : mat2) (E : mat3).
Let new := psi (S k).
Let emit := recombined ci fac phi_u phi_c.
Hypothesis H1 : step_equation P G vu Tu T ext bnd (run_derivative two dt psi k new) emit E new.
Hypothesis H2 : uncollided_flux two P G vu dt Tu ext bnd psi k phi_u.
Hypothesis Hs1 : d3b src = 1%nat.
Hypothesis Hs2 : d3c src = Gc.
Hypothesis Hs3 : forall i m c, (i < cells P)%nat -> at3 src i m c = at3 (first_collisions P G Gc T ci phi_u) i m c.
Hypothesis H3 : source_iteration_iso PC Gc zeros2 (effective_total (run_weight two k) Tc vc dt) Xc src no_inflow 1 = Ok phi_c.

Lemma weight_one : 1 <= run_weight two k.
Proof. unfold run_weight. destruct two; [destruct k|]; lra. Qed.

Lemma collided_size l : 0 <= l -> (forall g, (g < G)%nat -> L2 (fun i => phi_u i g) <= l) ->
  forall c, (c < Gc)%nat -> L2 (fun i => phi_c i c) <= dt * (kap * l).
Proof.
  intros Hl Hu c Hc. set (q := fun i c => collected G ci (fun g => rsum G (fun h => T (medium P i) g h * phi_u i h)) c).
  assert (PQ : 0 <= INR G * (INR G * tau * l)) by (repeat apply Rmult_le_pos; try apply pos_INR; assumption).
  pose proof (coarse_flux PC Gc vc Tc Xc tauc (run_weight two k) dt src q (INR G * (INR G * tau * l)) HPC HVc HTc Htauc HXc weight_one Hdt D1) as CF.
  unfold L2. rewrite <- (mean_square_same P PC (fun i => phi_c i c) Hcells Hdx).
  replace (dt * (kap * l)) with (4 * Wc * Vc * dt * (INR G * (INR G * tau * l))) by (unfold kap; ring).
  apply CF; [| exact PQ | |exact H3|exact Hc].
  - intros i m g Hi Hg. rewrite Hcells in Hi. rewrite Hs3 by exact Hi. rewrite Hs2. unfold first_collisions. cbn [at3].
    unfold bidx. destruct (Nat.eqb_spec Gc 1) as [Eg|Ng]; [|reflexivity]. replace g with 0%nat by lia. reflexivity.
  - intros g Hg. rewrite (mean_square_same P PC (fun i => q i g) Hcells Hdx). unfold q, collected.
    eapply Rle_trans; [apply (L2_sum P HP G (fun i h => if Nat.eqb g (ci h) then rsum G (fun h0 => T (medium P i) h h0 * phi_u i h0) else 0))|].
    rewrite <- rsum_const. apply rsum_le. intros h Hh. destruct (Nat.eqb g (ci h)).
    + apply (transfer_size P HP G T tau phi_u l h Htau Hl); [intros; apply HT; assumption|exact Hu].
    + rewrite (L2_zero P HP). apply Rmult_le_pos; [apply Rmult_le_pos; [apply pos_INR|exact Htau]|exact Hl].
Qed.

(** the uncollided flux is of the size of the new one *)
Lemma step_half Eu pu : step_equation P G vu Tu (fun _ _ _ => 0) ext bnd (run_derivative two dt psi k pu) phi_u Eu pu ->
  agree2 (cells P) G phi_u (scalar_flux P pu) -> N pu <= 2 * N new.
Proof.
  destruct step_pos as (PW & PV & PWc & PVc & PG & PK & PK0). intros Hpu Hag.
  set (s := sqrt (W * V)). assert (Ps : 0 <= s) by apply sqrt_pos.
  assert (Ss : s * s = W * V) by (apply sqrt_sqrt, Rmult_le_pos; assumption).
  assert (Pu : 0 <= N pu) by apply sqrt_pos. assert (Pn : 0 <= N new) by apply sqrt_pos.
  assert (Psu : 0 <= s * N pu) by (apply Rmult_le_pos; assumption).
  assert (Su : forall g, (g < G)%nat -> L2 (fun i => phi_u i g) <= s * N pu).
  { intros g Hg. unfold L2. rewrite (L2_ext P (fun i => phi_u i g) (fun i => scalar_flux P pu i g)) by (intros i Hi; apply Hag; assumption).
    apply (scalar_size P HP G vu HVu pu g Hg). }
  pose proof (collided_size _ Psu Su) as Sc.
  (* the flux that emits *)
  assert (Sf : forall g l, (g < G)%nat -> 0 <= l -> dt * (kap * (s * N pu)) <= l -> L2 (fun i => phi_c i (ci g) * fac g) <= F * l).
  { intros g l Hg Hl Hle. apply Rle_trans with (F * L2 (fun i => phi_c i (ci g))).
    - apply (L2_scal P HP F (fun i => phi_c i (ci g) * fac g) (fun i => phi_c i (ci g)) HF).
      intros i Hi. rewrite Rabs_mult, Rmult_comm. apply Rmult_le_compat_r; [apply Rabs_pos|apply Hfac; exact Hg].
    - apply Rmult_le_compat_l; [exact HF|]. eapply Rle_trans; [apply Sc, Hci, Hg|exact Hle]. }
  assert (Pc : 0 <= dt * (kap * (s * N pu))) by (apply Rmult_le_pos; [lra|apply Rmult_le_pos; assumption]).
  assert (Se : forall g, (g < G)%nat -> L2 (fun i => emit i g) <= 2 * (s * N pu)).
  { intros g Hg. unfold emit, recombined. eapply Rle_trans; [apply (L2_triangle P HP (fun i => phi_u i g) (fun i => phi_c i (ci g) * fac g))|].
    specialize (Su g Hg). pose proof (Sf g _ Hg Pc (Rle_refl _)) as B. fold L2.
    assert (C : F * (dt * (kap * (s * N pu))) <= 1 * (s * N pu)).
    { replace (F * (dt * (kap * (s * N pu)))) with (dt * (F * kap) * (s * N pu)) by ring. apply Rmult_le_compat_r; assumption. }
    cbv beta in B. lra. }
  (* the distance to the uncollided flux *)
  set (ext' := full3 P G (fun i m g => at3 ext i (bidx (d3b ext) m) (bidx (d3c ext) g) + rsum G (fun h => T (medium P i) g h * emit i h))).
  assert (H1' : step_equation P G vu Tu (fun _ _ _ => 0) ext' bnd (run_derivative two dt psi k new) emit E new).
  { intros g m Hg Hm. destruct (H1 g m Hg Hm) as (A & B). split; [|exact B]. intros i Hi. destruct (A i Hi) as (A1 & A2). split; [exact A1|].
    rewrite A2. unfold ext'. rewrite full3_at by assumption. rewrite (rsum_zero_ext G (fun h => 0 * emit i h)) by (intros; ring). ring. }
  pose proof (step_distance two P G vu dt Tu ext' ext bnd psi k emit phi_u E Eu new pu HP HTu HVu Hdt H1' Hpu) as SD.
  rewrite (source_ext P G vu _ (fun i _ g => rsum G (fun h => T (medium P i) g h * emit i h))) in SD.
  2:{ intros i m g Hi Hm Hg. unfold minus3, step_input. unfold ext'. rewrite full3_at by assumption. rewrite !(rsum_zero_ext G (fun h => 0 * _)) by (intros; ring). ring. }
  assert (P2 : 0 <= 2 * (s * N pu)) by lra.
  assert (B1 : source_norm P G vu (fun i _ g => rsum G (fun h => T (medium P i) g h * emit i h)) <= s * (INR G * tau * (2 * (s * N pu)))).
  { apply (source_size P HP G vu HVu (fun i g => rsum G (fun h => T (medium P i) g h * emit i h))).
    - apply Rmult_le_pos; assumption.
    - intros g Hg. apply (transfer_size P HP G T tau emit _ g Htau P2); [intros; apply HT; assumption|exact Se]. }
  assert (B2 : N (minus3 new pu) <= dt * (2 * (INR G * tau) * (W * V)) * N pu).
  { eapply Rle_trans; [exact SD|]. apply (Rmult_le_compat_l dt) in B1; [|lra]. rewrite <- Ss. eapply Rle_trans; [exact B1|]. right; ring. }
  assert (B3 : N pu <= N new + N (minus3 new pu)).
  { unfold N. rewrite (EnFacts4.density_ext P G vu pu (fun i m g => new i m g + - minus3 new pu i m g)) by (intros; unfold minus3; ring).
    eapply Rle_trans; [apply (density_plus P G vu HP HVu new (fun i m g => - minus3 new pu i m g))|]. apply Rplus_le_compat_l. right.
    unfold density_norm. f_equal. apply total3_ext; intros. unfold Rsqr, Rdiv. ring. }
  assert (dt * (2 * (INR G * tau) * (W * V)) * N pu <= / 2 * N pu) by (apply Rmult_le_compat_r; lra). lra.
Qed.

Lemma step_residual : source_norm P G vu (unresolved P G T emit new) <= dt * K0 * N new.
Proof.
  destruct step_pos as (PW & PV & PWc & PVc & PG & PK & PK0). destruct H2 as (Eu & pu & Hpu & Hag).
  set (s := sqrt (W * V)). assert (Ps : 0 <= s) by apply sqrt_pos.
  assert (Ss : s * s = W * V) by (apply sqrt_sqrt, Rmult_le_pos; assumption).
  assert (Pu : 0 <= N pu) by apply sqrt_pos. assert (Pn : 0 <= N new) by apply sqrt_pos.
  assert (Psu : 0 <= s * N pu) by (apply Rmult_le_pos; assumption).
  assert (Su : forall g, (g < G)%nat -> L2 (fun i => phi_u i g) <= s * N pu).
  { intros g Hg. unfold L2. rewrite (L2_ext P (fun i => phi_u i g) (fun i => scalar_flux P pu i g)) by (intros i Hi; apply Hag; assumption).
    apply (scalar_size P HP G vu HVu pu g Hg). }
  pose proof (collided_size _ Psu Su) as Sc.
  (* the flux that emits *)
  assert (Sf : forall g l, (g < G)%nat -> 0 <= l -> dt * (kap * (s * N pu)) <= l -> L2 (fun i => phi_c i (ci g) * fac g) <= F * l).
  { intros g l Hg Hl Hle. apply Rle_trans with (F * L2 (fun i => phi_c i (ci g))).
    - apply (L2_scal P HP F (fun i => phi_c i (ci g) * fac g) (fun i => phi_c i (ci g)) HF).
      intros i Hi. rewrite Rabs_mult, Rmult_comm. apply Rmult_le_compat_r; [apply Rabs_pos|apply Hfac; exact Hg].
    - apply Rmult_le_compat_l; [exact HF|]. eapply Rle_trans; [apply Sc, Hci, Hg|exact Hle]. }
  assert (Pc : 0 <= dt * (kap * (s * N pu))) by (apply Rmult_le_pos; [lra|apply Rmult_le_pos; assumption]).
  assert (Se : forall g, (g < G)%nat -> L2 (fun i => emit i g) <= 2 * (s * N pu)).
  { intros g Hg. unfold emit, recombined. eapply Rle_trans; [apply (L2_triangle P HP (fun i => phi_u i g) (fun i => phi_c i (ci g) * fac g))|].
    specialize (Su g Hg). pose proof (Sf g _ Hg Pc (Rle_refl _)) as B. fold L2.
    assert (C : F * (dt * (kap * (s * N pu))) <= 1 * (s * N pu)).
    { replace (F * (dt * (kap * (s * N pu)))) with (dt * (F * kap) * (s * N pu)) by ring. apply Rmult_le_compat_r; assumption. }
    cbv beta in B. lra. }
  (* the distance to the uncollided flux *)
  set (ext' := full3 P G (fun i m g => at3 ext i (bidx (d3b ext) m) (bidx (d3c ext) g) + rsum G (fun h => T (medium P i) g h * emit i h))).
  assert (H1' : step_equation P G vu Tu (fun _ _ _ => 0) ext' bnd (run_derivative two dt psi k new) emit E new).
  { intros g m Hg Hm. destruct (H1 g m Hg Hm) as (A & B). split; [|exact B]. intros i Hi. destruct (A i Hi) as (A1 & A2). split; [exact A1|].
    rewrite A2. unfold ext'. rewrite full3_at by assumption. rewrite (rsum_zero_ext G (fun h => 0 * emit i h)) by (intros; ring). ring. }
  pose proof (step_distance two P G vu dt Tu ext' ext bnd psi k emit phi_u E Eu new pu HP HTu HVu Hdt H1' Hpu) as SD.
  rewrite (source_ext P G vu _ (fun i _ g => rsum G (fun h => T (medium P i) g h * emit i h))) in SD.
  2:{ intros i m g Hi Hm Hg. unfold minus3, step_input. unfold ext'. rewrite full3_at by assumption. rewrite !(rsum_zero_ext G (fun h => 0 * _)) by (intros; ring). ring. }
  assert (P2 : 0 <= 2 * (s * N pu)) by lra.
  assert (B1 : source_norm P G vu (fun i _ g => rsum G (fun h => T (medium P i) g h * emit i h)) <= s * (INR G * tau * (2 * (s * N pu)))).
  { apply (source_size P HP G vu HVu (fun i g => rsum G (fun h => T (medium P i) g h * emit i h))).
    - apply Rmult_le_pos; assumption.
    - intros g Hg. apply (transfer_size P HP G T tau emit _ g Htau P2); [intros; apply HT; assumption|exact Se]. }
  assert (B2 : N (minus3 new pu) <= dt * (2 * (INR G * tau) * (W * V)) * N pu).
  { eapply Rle_trans; [exact SD|]. apply (Rmult_le_compat_l dt) in B1; [|lra]. rewrite <- Ss. eapply Rle_trans; [exact B1|]. right; ring. }
  assert (B3 : N pu <= N new + N (minus3 new pu)).
  { unfold N. rewrite (EnFacts4.density_ext P G vu pu (fun i m g => new i m g + - minus3 new pu i m g)) by (intros; unfold minus3; ring).
    eapply Rle_trans; [apply (density_plus P G vu HP HVu new (fun i m g => - minus3 new pu i m g))|]. apply Rplus_le_compat_l. right.
    unfold density_norm. f_equal. apply total3_ext; intros. unfold Rsqr, Rdiv. ring. }
  assert (B4 : N pu <= 2 * N new).
  { assert (dt * (2 * (INR G * tau) * (W * V)) * N pu <= / 2 * N pu) by (apply Rmult_le_compat_r; lra). lra. }
  assert (B5 : N (minus3 new pu) <= dt * (4 * (INR G * tau) * (W * V)) * N new).
  { eapply Rle_trans; [exact B2|].
    assert (Z : 0 <= dt * (2 * (INR G * tau) * (W * V))) by (repeat apply Rmult_le_pos; try assumption; try apply pos_INR; lra).
    apply (Rmult_le_compat_l _ _ _ Z) in B4. lra. }
  (* what is left *)
  set (r := s * (dt * (4 * (INR G * tau) * (W * V) + 2 * F * kap) * N new)).
  assert (Pr : 0 <= r).
  { unfold r. repeat apply Rmult_le_pos; try assumption; try lra.
    assert (0 <= 4 * (INR G * tau) * (W * V)) by (repeat apply Rmult_le_pos; try assumption; try apply pos_INR; lra).
    assert (0 <= 2 * F * kap) by (apply Rmult_le_pos; [apply Rmult_le_pos; [lra|exact HF]|assumption]). lra. }
  assert (B6 : forall g, (g < G)%nat -> L2 (fun i => emit i g - scalar_flux P new i g) <= r).
  { intros g Hg. unfold L2. rewrite (L2_ext P _ (fun i => - scalar_flux P (minus3 new pu) i g + phi_c i (ci g) * fac g)).
    2:{ intros i Hi. unfold emit, recombined. rewrite scalar_minus, (Hag i g Hi Hg). ring. }
    eapply Rle_trans; [apply (L2_triangle P HP (fun i => - scalar_flux P (minus3 new pu) i g))|].
    rewrite (L2_opp P (fun i => scalar_flux P (minus3 new pu) i g)).
    pose proof (scalar_size P HP G vu HVu (minus3 new pu) g Hg) as C1. fold W V s in C1. fold (N (minus3 new pu)) in C1.
    assert (C2 : dt * (kap * (s * N pu)) <= dt * (kap * (s * (2 * N new)))).
    { apply Rmult_le_compat_l; [lra|]. apply Rmult_le_compat_l; [exact PK|]. apply Rmult_le_compat_l; [exact Ps|exact B4]. }
    assert (C3 : 0 <= dt * (kap * (s * (2 * N new)))) by lra.
    pose proof (Sf g _ Hg C3 C2) as C4. cbv beta in C4. unfold L2 in C4.
    apply (Rmult_le_compat_l s) in B5; [|exact Ps]. unfold r. lra. }
  unfold unresolved.
  eapply Rle_trans; [apply (source_size P HP G vu HVu (fun i g => rsum G (fun h => T (medium P i) g h * (emit i h - scalar_flux P new i h))) (INR G * tau * r))|].
  - apply Rmult_le_pos; assumption.
  - intros g Hg. apply (transfer_size P HP G T tau (fun i h => emit i h - scalar_flux P new i h) r g Htau Pr); [intros; apply HT; assumption|exact B6].
  - fold W V s. right. unfold r, K0. rewrite <- Ss. ring.
Qed.
End Step.
