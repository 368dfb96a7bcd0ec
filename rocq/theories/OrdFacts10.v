(** Hybrid runs: stability, distance to exactly solved steps, order of accuracy. *)
From Coq Require Import Lra Lia Psatz.
From Verif Require Import Base BaseFacts SlabModel SlabSpec MgModel MgSpec MgFacts MgFacts2 TimeModel TimeSpec TimeFacts TimeFacts2 TimeFacts4.
From Verif Require Import EnSpec EnFacts EnFacts2 EnFacts3 EnFacts4 EnFacts5 EnFacts6 EnFacts7 OrdSpec OrdFacts OrdFacts2 OrdFacts3 OrdFacts8 OrdFacts9.
Open Scope R_scope.

Lemma transfer_bound P G (T : mat3) : exists tau, 0 <= tau /\
  forall i g h, (i < cells P)%nat -> (g < G)%nat -> (h < G)%nat -> Rabs (T (medium P i) g h) <= tau.
Proof.
  exists (rsum (cells P) (fun i => rsum G (fun g => rsum G (fun h => Rabs (T (medium P i) g h))))).
  assert (A : forall i g, 0 <= rsum G (fun h => Rabs (T (medium P i) g h))) by (intros; apply rsum_nonneg; intros; apply Rabs_pos).
  assert (B : forall i, 0 <= rsum G (fun g => rsum G (fun h => Rabs (T (medium P i) g h)))) by (intros; apply rsum_nonneg; intros; apply A).
  split; [apply rsum_nonneg; intros; apply B|]. intros i g h Hi Hg Hh.
  eapply Rle_trans; [apply (rsum_term_le G (fun h => Rabs (T (medium P i) g h)) h); [intros; apply Rabs_pos|exact Hh]|].
  eapply Rle_trans; [apply (rsum_term_le G (fun g => rsum G (fun h => Rabs (T (medium P i) g h))) g); [intros; apply A|exact Hg]|].
  apply (rsum_term_le (cells P) (fun i => rsum G (fun g => rsum G (fun h => Rabs (T (medium P i) g h)))) i); [intros; apply B|exact Hi].
Qed.

(** a sequence whose growth comes from itself, weakly *)
Lemma half_max (x : nat -> R) k A c : (forall j, 0 <= x j) -> 0 <= A -> 0 <= c -> INR k * c <= / 2 ->
  (forall j, (j <= k)%nat -> x j <= A + c * rsum j (fun i => x (S i))) -> forall j, (j <= k)%nat -> x j <= 2 * A.
Proof.
  intros Hx HA Hc Hk H j Hj. destruct (finite_max (S k) x ltac:(intros; apply Hx)) as (s & S0 & S1 & S2).
  assert (B : forall j, (j <= k)%nat -> x j <= A + / 2 * s).
  { intros i Hi. eapply Rle_trans; [apply H; exact Hi|]. apply Rplus_le_compat_l.
    assert (R1 : rsum i (fun i => x (S i)) <= INR k * s).
    { apply Rle_trans with (INR i * s).
      - rewrite <- rsum_const. apply rsum_le. intros m Hm. apply S1. lia.
      - apply Rmult_le_compat_r; [exact S0|]. apply le_INR, Hi. }
    apply (Rmult_le_compat_l c) in R1; [|exact Hc]. apply (Rmult_le_compat_r s) in Hk; [|exact S0]. lra. }
  assert (C : s <= A + / 2 * s).
  { destruct S2 as [-> |(h & Hh & <-)]; [lra|]. apply B. lia. }
  specialize (S1 j ltac:(lia)). lra.
Qed.

Section Run.
Variables (two : bool) (P PC : sn) (materials G Gc : nat) (Tu Tc : mat2) (su sc : mat3) (fu fc : fission_data) (vu vc : vec)
  (ci : nat -> nat) (fac : vec).
Hypothesis HP : sound_slab P.
Hypothesis HPC : sound_slab PC.
Hypothesis Hangles : angles P <> 1%nat.
Hypothesis Hmed : forall i, (i < cells P)%nat -> (medium P i < materials)%nat.
Hypothesis Hsame : cells PC = cells P /\ medium PC = medium P.
Hypothesis Hdx : forall i, (i < cells P)%nat -> dx PC i = dx P i.
Hypothesis Hci : forall g, (g < G)%nat -> (ci g < Gc)%nat.
Hypothesis HM : no_multiplication P G Tu (total_transfer su fu).
Hypothesis HTc : forall i g, (i < cells P)%nat -> (g < Gc)%nat -> 0 <= Tc (medium P i) g.
Hypothesis HVu : forall g, (g < G)%nat -> 0 < vu g.
Hypothesis HVc : forall g, (g < Gc)%nat -> 0 < vc g.
Let N := density_norm P G vu.
Let run start external boundary steps dt :=
  hybrid_run two P PC materials G Gc start Tu Tc (Scatter3 su) (Scatter3 sc) fu fc vu vc external boundary ci fac steps dt 1.

Lemma hybrid_resolved : exists dt0 K, 0 < dt0 /\ 0 <= K /\
  forall start external boundary steps dt ft, 0 < dt -> dt <= dt0 ->
  run start external boundary steps dt = Ok ft ->
  exists psi emit, psi 0%nat = start /\
    time_history two P G vu dt Tu (total_transfer su fu) (step_row external) (step_row boundary) steps psi emit /\
    forall k, (k < steps)%nat -> ft k = scalar_flux P (psi (S k)) /\
      source_norm P G vu (unresolved P G (total_transfer su fu) (emit k) (psi (S k))) <= K * dt * N (psi (S k)).
Proof.
  set (T := total_transfer su fu).
  destruct (transfer_bound P G T) as (tau & Ptau & Htau).
  destruct (transfer_bound P Gc (total_transfer sc fc)) as (tauc & Ptauc & Htauc).
  set (F := rsum G (fun g => Rabs (fac g))).
  assert (HF : 0 <= F) by (apply rsum_nonneg; intros; apply Rabs_pos).
  assert (Hfac : forall g, (g < G)%nat -> Rabs (fac g) <= F) by (intros g Hg; apply (rsum_term_le G (fun g => Rabs (fac g)) g); [intros; apply Rabs_pos|exact Hg]).
  pose proof (step_pos P PC G Gc vu vc tau F HP HPC HVu HVc Ptau HF) as Pos. cbv zeta in Pos.
  set (W := rsum (angles P) (wt P)) in *. set (V := rsum G vu) in *. set (Wc := rsum (angles PC) (wt PC)) in *. set (Vc := rsum Gc vc) in *.
  set (kap := 4 * Wc * Vc * (INR G * (INR G * tau))) in *.
  set (K0 := W * V * (INR G * tau) * (4 * (INR G * tau) * (W * V) + 2 * F * kap)) in *.
  destruct Pos as (PW & PV & PWc & PVc & PG & PK & PK0).
  set (A1 := Wc * Vc * (INR Gc * tauc)). set (A2 := F * kap). set (A3 := 4 * (INR G * tau) * (W * V)).
  assert (Q1 : 0 <= A1) by (unfold A1; apply Rmult_le_pos; [apply Rmult_le_pos; assumption|apply Rmult_le_pos; [apply pos_INR|assumption]]).
  assert (Q2 : 0 <= A2) by (unfold A2; apply Rmult_le_pos; assumption).
  assert (Q3 : 0 <= A3) by (unfold A3; apply Rmult_le_pos; [apply Rmult_le_pos; [lra|exact PG]|apply Rmult_le_pos; assumption]).
  assert (Qp : 0 < 2 * (A1 + A2 + A3 + 1)) by lra.
  exists (/ (2 * (A1 + A2 + A3 + 1))), K0. split; [apply Rinv_0_lt_compat; exact Qp|]. split; [exact PK0|].
  intros start external boundary steps dt ft Hdt Hle E.
  assert (Hd : dt * (A1 + A2 + A3 + 1) <= / 2).
  { apply (Rmult_le_compat_r (A1 + A2 + A3 + 1)) in Hle; [|lra]. replace (/ (2 * (A1 + A2 + A3 + 1)) * (A1 + A2 + A3 + 1)) with (/ 2) in Hle by (field; lra). exact Hle. }
  assert (Z1 : 0 <= dt * A1) by (apply Rmult_le_pos; lra). assert (Z2 : 0 <= dt * A2) by (apply Rmult_le_pos; lra).
  assert (Z3 : 0 <= dt * A3) by (apply Rmult_le_pos; lra).
  assert (D1 : dt * A1 <= / 2) by lra. assert (D2 : dt * A2 <= 1) by lra. assert (D3 : dt * A3 <= 1) by lra.
  assert (Hv : forall g, (g < G)%nat -> vu g <> 0) by (intros g Hg; specialize (HVu g Hg); lra).
  assert (Hnz : nonzero_ordinates (angles P) (mu P)) by apply HP.
  destruct (hybrid_history_gen two P PC materials G Gc start Tu Tc su sc fu fc vu vc external boundary ci fac steps dt Hangles Hnz Hmed Hv
    ltac:(lra) ft) as (Xc & psi & phi_u & phi_c & HXc & H0 & HH & HR); [|exact E|].
  { intros k Hk. eapply run_divisors; eassumption. }
  exists psi, (fun k => recombined ci fac (phi_u k) (phi_c k)). split; [exact H0|]. split; [exact HH|].
  intros k Hk. destruct (HR k Hk) as (R1 & R2 & src & R3 & R4 & R5 & R6). split; [exact R1|].
  destruct (HH k Hk) as (Ek & Hst). destruct Hsame as (Hc1 & Hc2).
  assert (HTu : forall i g, (i < cells P)%nat -> (g < G)%nat -> 0 <= Tu (medium P i) g) by (intros i g Hi Hg; apply (sound_total P G Tu _ i g HP HM Hi Hg)).
  assert (HXc' : forall i g h, (i < cells PC)%nat -> (g < Gc)%nat -> (h < Gc)%nat -> Rabs (Xc (medium PC i) g h) <= tauc).
  { intros i g h Hi Hg Hh. rewrite Hc1 in Hi. rewrite Hc2, HXc by assumption. apply Htauc; assumption. }
  assert (HTc' : forall i g, (i < cells PC)%nat -> (g < Gc)%nat -> 0 <= Tc (medium PC i) g) by (intros i g Hi Hg; rewrite Hc1 in Hi; rewrite Hc2; apply HTc; assumption).
  replace (K0 * dt) with (dt * K0) by ring.
  exact (step_residual two P PC G Gc vu vc dt Tu Tc T Xc ci fac tau tauc F HP HPC Hc1 Hdx Hci HVu HVc Hdt HTu HTc' Ptau Htau Ptauc HXc' HF Hfac
    D1 D2 D3 k (step_row external k) (step_row boundary k) src psi (phi_u k) (phi_c k) Ek Hst R2 R3 R4 R5 R6).
Qed.

(** a step small enough for times up to [T] *)
Lemma small_step K T : 0 <= K -> 0 <= T -> exists dt1, 0 < dt1 /\ forall dt steps k, 0 < dt -> dt <= dt1 -> (k <= steps)%nat -> INR steps * dt <= T ->
  INR k * ((if two then 6 else 1) * dt * (K * dt)) <= / 2.
Proof.
  intros HK HT. assert (P1 : 0 <= 6 * K * T) by (repeat apply Rmult_le_pos; lra).
  exists (/ (2 * (6 * K * T + 1))). split; [apply Rinv_0_lt_compat; lra|]. intros dt steps k Hdt Hle Hk HS.
  assert (A : INR k * dt <= T). { apply Rle_trans with (INR steps * dt); [|exact HS]. apply Rmult_le_compat_r; [lra|apply le_INR, Hk]. }
  assert (B : dt * (6 * K * T + 1) <= / 2).
  { apply (Rmult_le_compat_r (6 * K * T + 1)) in Hle; [|lra]. replace (/ (2 * (6 * K * T + 1)) * (6 * K * T + 1)) with (/ 2) in Hle by (field; lra). exact Hle. }
  assert (C : (if two then 6 else 1) * (INR k * dt * (K * dt)) <= 6 * (T * (K * dt))).
  { assert (P2 : 0 <= K * dt) by (apply Rmult_le_pos; lra). assert (P3 : 0 <= INR k * dt) by (apply Rmult_le_pos; [apply pos_INR|lra]).
    apply Rmult_le_compat; [destruct two; lra|apply Rmult_le_pos; assumption|destruct two; lra|]. apply Rmult_le_compat_r; assumption. }
  replace (INR k * ((if two then 6 else 1) * dt * (K * dt))) with ((if two then 6 else 1) * (INR k * dt * (K * dt))) by ring. lra.
Qed.

Lemma output_norm psi psi' ft k : ft k = scalar_flux P (psi (S k)) ->
  sqrt (rsum G (fun g => rsum (cells P) (fun i => dx P i * Rsqr (ft k i g - scalar_flux P psi' i g) / vu g)))
  <= sqrt (rsum (angles P) (wt P)) * N (minus3 (psi (S k)) psi').
Proof.
  intros ->. eapply Rle_trans; [|apply (scalar_norm P G vu (minus3 (psi (S k)) psi') HP HVu)]. right. f_equal.
  apply rsum_ext; intros g Hg. apply rsum_ext; intros i Hi. rewrite scalar_minus. reflexivity.
Qed.

Let a := if two then sqrt 2 else 1.
Let b := if two then 6 else 1.

Lemma a_pos : 0 <= a.
Proof. unfold a. destruct two; [apply sqrt_pos|lra]. Qed.
Lemma b_pos : 0 <= b.
Proof. unfold b. destruct two; lra. Qed.

Lemma N_triangle x y : N x <= N (minus3 x y) + N y.
Proof.
  unfold N. rewrite (EnFacts4.density_ext P G vu x (fun i m g => minus3 x y i m g + y i m g)) by (intros; unfold minus3; ring).
  apply (density_plus P G vu HP HVu).
Qed.

(** *** no growth *)
Lemma hybrid_stable T : 0 <= T -> exists dt0, 0 < dt0 /\
  forall start external boundary steps dt ft, 0 < dt -> dt <= dt0 -> INR steps * dt <= T ->
  (forall k m g, (k < steps)%nat -> (m < angles P)%nat -> (g < G)%nat -> mg_boundary (step_row boundary k) (mu P) g m = 0) ->
  run start external boundary steps dt = Ok ft ->
  forall k, (k < steps)%nat ->
    sqrt (rsum G (fun g => rsum (cells P) (fun i => dx P i * Rsqr (ft k i g) / vu g)))
    <= sqrt (rsum (angles P) (wt P)) * (2 * (a * N start + b * dt * rsum (S k) (fun j => source_norm P G vu
         (fun i m g => at3 (step_row external j) i (bidx (d4b external) m) (bidx (d4c external) g))))).
Proof.
  intros HT. destruct hybrid_resolved as (dt0 & K & P0 & PK & HR). destruct (small_step K T PK HT) as (dt1 & P1 & HS).
  exists (Rmin dt0 dt1). split; [apply Rmin_glb_lt; assumption|]. intros start external boundary steps dt ft Hdt Hle Hst HB E k Hk.
  pose proof (Rmin_l dt0 dt1) as ML. pose proof (Rmin_r dt0 dt1) as MR.
  destruct (HR start external boundary steps dt ft Hdt ltac:(lra) E) as (psi & emit & H0 & HH & Hres).
  set (q := fun j => source_norm P G vu (fun i m g => at3 (step_row external j) i (bidx (d4b external) m) (bidx (d4c external) g))).
  assert (Pq : forall j, 0 <= q j) by (intros; apply sqrt_pos).
  pose proof a_pos as Pa. pose proof b_pos as Pb.
  assert (B : forall j, (j <= S k)%nat -> N (psi j) <= 2 * (a * N start + b * dt * rsum (S k) q)).
  { apply (half_max (fun j => N (psi j)) (S k) _ (b * dt * (K * dt))); [intros; apply sqrt_pos| | | |].
    - assert (0 <= N start) by apply sqrt_pos. assert (0 <= rsum (S k) q) by (apply rsum_nonneg; intros; apply Pq).
      assert (0 <= a * N start) by (apply Rmult_le_pos; assumption). assert (0 <= b * dt * rsum (S k) q) by (apply Rmult_le_pos; [apply Rmult_le_pos; lra|assumption]). lra.
    - apply Rmult_le_pos; [apply Rmult_le_pos; lra|apply Rmult_le_pos; lra].
    - apply (HS dt steps (S k)); [exact Hdt|lra|lia|exact Hst].
    - intros j Hj. cbv beta. eapply Rle_trans; [apply (history_bounded two P G vu dt Tu (total_transfer su fu) _ _ steps psi emit HP HM HVu Hdt HB HH j ltac:(lia))|].
      rewrite H0. fold N a b. rewrite Rplus_assoc. apply Rplus_le_compat_l.
      replace (b * dt * rsum (S k) q + b * dt * (K * dt) * rsum j (fun i => N (psi (S i)))) with (b * dt * (rsum (S k) q + K * dt * rsum j (fun i => N (psi (S i))))) by ring.
      apply Rmult_le_compat_l; [apply Rmult_le_pos; lra|].
      apply Rle_trans with (rsum j q + K * dt * rsum j (fun i => N (psi (S i)))).
      + rewrite <- rsum_scal, <- rsum_plus. apply rsum_le. intros i Hi. destruct (Hres i ltac:(lia)) as (_ & R2).
        eapply Rle_trans; [|apply Rplus_le_compat_l; exact R2].
        change (step_input P G (total_transfer su fu) (step_row external i) (emit i) (psi (S i)))
          with (fun i0 m g => (fun i1 m1 g1 => at3 (step_row external i) i1 (bidx (d4b external) m1) (bidx (d4c external) g1)) i0 m g
                 + unresolved P G (total_transfer su fu) (emit i) (psi (S i)) i0 m g).
        apply (source_plus P G vu HP HVu).
      + apply Rplus_le_compat_r. clear - Hj Pq. replace (S k) with (j + (S k - j))%nat by lia. generalize (S k - j)%nat. intros d.
        induction d as [|d IH]; [rewrite Nat.add_0_r; lra|]. replace (j + S d)%nat with (S (j + d)) by lia. cbn [rsum]. specialize (Pq (j + d)%nat). lra. }
  destruct (Hres k Hk) as (R1 & _). specialize (B (S k) ltac:(lia)).
  eapply Rle_trans; [|apply Rmult_le_compat_l; [apply sqrt_pos|exact B]].
  rewrite R1. apply (scalar_norm P G vu (psi (S k)) HP HVu).
Qed.

(** *** distance to steps that are solved exactly *)
Lemma hybrid_exact T : 0 <= T -> exists dt0 K, 0 < dt0 /\ 0 <= K /\
  forall start external boundary steps dt ft exact, 0 < dt -> dt <= dt0 -> INR steps * dt <= T ->
  run start external boundary steps dt = Ok ft ->
  exact 0%nat = start -> exact_history two P G vu dt Tu (total_transfer su fu) (step_row external) (step_row boundary) steps exact ->
  forall k, (k < steps)%nat ->
    sqrt (rsum G (fun g => rsum (cells P) (fun i => dx P i * Rsqr (ft k i g - scalar_flux P (exact (S k)) i g) / vu g)))
    <= K * dt * (dt * rsum (S k) (fun j => N (exact (S j)))).
Proof.
  intros HT. destruct hybrid_resolved as (dt0 & K & P0 & PK & HR). destruct (small_step K T PK HT) as (dt1 & P1 & HS).
  pose proof a_pos as Pa. pose proof b_pos as Pb. pose proof (sqrt_pos (rsum (angles P) (wt P))) as Pw.
  exists (Rmin dt0 dt1), (sqrt (rsum (angles P) (wt P)) * (2 * (b * K))). split; [apply Rmin_glb_lt; assumption|].
  split; [apply Rmult_le_pos; [exact Pw|]; apply Rmult_le_pos; [lra|]; apply Rmult_le_pos; assumption|].
  intros start external boundary steps dt ft exact Hdt Hle Hst E HX0 HX k Hk.
  pose proof (Rmin_l dt0 dt1) as ML. pose proof (Rmin_r dt0 dt1) as MR.
  destruct (HR start external boundary steps dt ft Hdt ltac:(lra) E) as (psi & emit & H0 & HH & Hres).
  set (A := b * dt * (K * dt) * rsum (S k) (fun j => N (exact (S j)))).
  assert (Pc : 0 <= b * dt * (K * dt)) by (apply Rmult_le_pos; [apply Rmult_le_pos; lra|apply Rmult_le_pos; lra]).
  assert (Pe : forall j, 0 <= N (exact j)) by (intros; apply sqrt_pos).
  assert (B : forall j, (j <= S k)%nat -> N (minus3 (psi j) (exact j)) <= 2 * A).
  { apply (half_max (fun j => N (minus3 (psi j) (exact j))) (S k) A (b * dt * (K * dt))); [intros; apply sqrt_pos| |exact Pc| |].
    - apply Rmult_le_pos; [exact Pc|apply rsum_nonneg; intros; apply Pe].
    - apply (HS dt steps (S k)); [exact Hdt|lra|lia|exact Hst].
    - intros j Hj. cbv beta.
      pose proof (stability two P G vu dt Tu (total_transfer su fu) _ _ _ steps psi exact emit _ HP HM HVu Hdt HH HX j ltac:(lia)) as ST. cbv beta in ST.
      rewrite H0, HX0 in ST. replace (density_norm P G vu (minus3 start start)) with 0 in ST.
      2:{ unfold density_norm. rewrite (total3_ext _ _ _ (fun _ _ _ => 0)); [|intros; unfold minus3, Rsqr, Rdiv; ring].
          replace (total3 P G (fun _ _ _ => 0)) with 0; [symmetry; apply sqrt_0|]. symmetry. apply rsum_zero_ext; intros. apply rsum_zero_ext; intros. apply rsum_zero_ext; reflexivity. }
      rewrite Rmult_0_r, Rplus_0_l in ST. eapply Rle_trans; [exact ST|]. fold b.
      apply Rle_trans with (b * dt * (K * dt) * rsum j (fun i => N (exact (S i)) + N (minus3 (psi (S i)) (exact (S i))))).
      + replace (b * dt * (K * dt) * rsum j (fun i => N (exact (S i)) + N (minus3 (psi (S i)) (exact (S i))))) with (b * dt * (K * dt * rsum j (fun i => N (exact (S i)) + N (minus3 (psi (S i)) (exact (S i)))))) by ring.
        apply Rmult_le_compat_l; [apply Rmult_le_pos; lra|]. rewrite <- rsum_scal. apply rsum_le. intros i Hi.
        rewrite residual_input. destruct (Hres i ltac:(lia)) as (_ & R2). eapply Rle_trans; [exact R2|].
        apply Rmult_le_compat_l; [apply Rmult_le_pos; lra|]. pose proof (N_triangle (psi (S i)) (exact (S i))). lra.
      + rewrite rsum_plus, Rmult_plus_distr_l. apply Rplus_le_compat_r. unfold A. apply Rmult_le_compat_l; [exact Pc|].
        clear - Hj Pe. replace (S k) with (j + (S k - j))%nat by lia. generalize (S k - j)%nat. intros d.
        induction d as [|d IH]; [rewrite Nat.add_0_r; lra|]. replace (j + S d)%nat with (S (j + d)) by lia. cbn [rsum]. specialize (Pe (S (j + d))). lra. }
  destruct (Hres k Hk) as (R1 & _). eapply Rle_trans; [apply (output_norm psi (exact (S k)) ft k R1)|].
  specialize (B (S k) ltac:(lia)). apply (Rmult_le_compat_l _ _ _ Pw) in B. eapply Rle_trans; [exact B|]. right. unfold A. ring.
Qed.

(** *** order of accuracy *)
Lemma time_error_mono dt s t M2 M3 : 0 < dt -> 0 <= M2 -> 0 <= M3 -> s <= t -> time_error two dt s M2 M3 <= time_error two dt t M2 M3.
Proof.
  intros Hdt H2 H3 Hst. unfold time_error. destruct two.
  - apply Rmult_le_compat_r; [apply pow_le; lra|]. apply (Rmult_le_compat_r M3) in Hst; lra.
  - apply Rmult_le_compat_r; [lra|]. apply (Rmult_le_compat_r M2) in Hst; lra.
Qed.
Lemma time_error_nonneg dt s M2 M3 : 0 < dt -> 0 <= M2 -> 0 <= M3 -> 0 <= s -> 0 <= time_error two dt s M2 M3.
Proof.
  intros Hdt H2 H3 Hs. unfold time_error. destruct two.
  - apply Rmult_le_pos; [|apply pow_le; lra]. assert (0 <= s * M3) by (apply Rmult_le_pos; assumption). lra.
  - assert (0 <= s * M2) by (apply Rmult_le_pos; assumption). apply Rmult_le_pos; lra.
Qed.

Lemma hybrid_order T : 0 <= T -> exists dt0 K, 0 < dt0 /\ 0 <= K /\
  forall start external boundary steps dt ft, 0 < dt -> dt <= dt0 -> INR steps * dt <= T ->
  run start external boundary steps dt = Ok ft ->
  forall source inflow t0 M2 M3 B flux slope, 0 <= M2 -> 0 <= M3 -> 0 <= B ->
    source_rows P G t0 dt steps (step_row external) source -> inflow_rows P G t0 dt steps (step_row boundary) inflow ->
    smooth_in_time two P G t0 (time_at t0 dt steps) M2 M3 flux slope ->
    evolves P G vu Tu (total_transfer su fu) source inflow t0 (time_at t0 dt steps) flux slope ->
    (forall t, t0 <= t <= time_at t0 dt steps -> N (flux t) <= B) ->
    forall k, (k < steps)%nat ->
    sqrt (rsum G (fun g => rsum (cells P) (fun i => dx P i * Rsqr (ft k i g - scalar_flux P (flux (time_at t0 dt (S k))) i g) / vu g)))
    <= sqrt (rsum (angles P) (wt P)) * (2 * (a * N (minus3 start (flux t0)) + time_error two dt (INR (S k) * dt) M2 M3 * N unit_flux))
       + K * dt * (INR (S k) * dt * B).
Proof.
  intros HT. destruct hybrid_resolved as (dt0 & K & P0 & PK & HR). destruct (small_step K T PK HT) as (dt1 & P1 & HS).
  pose proof a_pos as Pa. pose proof b_pos as Pb. pose proof (sqrt_pos (rsum (angles P) (wt P))) as Pw.
  exists (Rmin dt0 dt1), (sqrt (rsum (angles P) (wt P)) * (2 * (b * K))). split; [apply Rmin_glb_lt; assumption|].
  split; [apply Rmult_le_pos; [exact Pw|]; apply Rmult_le_pos; [lra|]; apply Rmult_le_pos; assumption|].
  intros start external boundary steps dt ft Hdt Hle Hst E source inflow t0 M2 M3 B flux slope PM2 PM3 PB HRo HI HSm HE HB k Hk.
  pose proof (Rmin_l dt0 dt1) as ML. pose proof (Rmin_r dt0 dt1) as MR.
  destruct (HR start external boundary steps dt ft Hdt ltac:(lra) E) as (psi & emit & H0 & HH & Hres).
  set (S0 := a * N (minus3 start (flux t0)) + time_error two dt (INR (S k) * dt) M2 M3 * N unit_flux).
  assert (PU : 0 <= N unit_flux) by apply sqrt_pos. assert (PK1 : 0 <= INR (S k) * dt) by (apply Rmult_le_pos; [apply pos_INR|lra]).
  assert (PS : 0 <= S0).
  { unfold S0. assert (0 <= a * N (minus3 start (flux t0))) by (apply Rmult_le_pos; [exact Pa|apply sqrt_pos]).
    assert (0 <= time_error two dt (INR (S k) * dt) M2 M3 * N unit_flux) by (apply Rmult_le_pos; [apply time_error_nonneg; assumption|exact PU]). lra. }
  assert (Pc : 0 <= b * dt * (K * dt)) by (apply Rmult_le_pos; [apply Rmult_le_pos; lra|apply Rmult_le_pos; lra]).
  set (A := S0 + b * dt * (K * dt) * (INR (S k) * B)).
  assert (Bd : forall j, (j <= S k)%nat -> N (minus3 (psi j) (flux (time_at t0 dt j))) <= 2 * A).
  { apply (half_max (fun j => N (minus3 (psi j) (flux (time_at t0 dt j)))) (S k) A (b * dt * (K * dt))); [intros; apply sqrt_pos| |exact Pc| |].
    - assert (0 <= b * dt * (K * dt) * (INR (S k) * B)) by (apply Rmult_le_pos; [exact Pc|apply Rmult_le_pos; [apply pos_INR|exact PB]]). unfold A. lra.
    - apply (HS dt steps (S k)); [exact Hdt|lra|lia|exact Hst].
    - intros j Hj. cbv beta.
      pose proof (history_accurate two P G vu dt Tu (total_transfer su fu) _ _ steps psi emit source inflow t0 M2 M3 flux slope HP HM HVu Hdt PM2 PM3 HH HRo HI HSm HE j ltac:(lia)) as AC.
      rewrite H0 in AC. fold N a b in AC. eapply Rle_trans; [exact AC|].
      assert (T1 : time_error two dt (INR j * dt) M2 M3 * N unit_flux <= time_error two dt (INR (S k) * dt) M2 M3 * N unit_flux).
      { apply Rmult_le_compat_r; [exact PU|]. apply time_error_mono; try assumption. apply Rmult_le_compat_r; [lra|apply le_INR, Hj]. }
      assert (T2 : b * dt * rsum j (fun i => source_norm P G vu (unresolved P G (total_transfer su fu) (emit i) (psi (S i))))
        <= b * dt * (K * dt) * (INR (S k) * B) + b * dt * (K * dt) * rsum j (fun i => N (minus3 (psi (S i)) (flux (time_at t0 dt (S i)))))).
      { set (X := rsum j (fun i => N (minus3 (psi (S i)) (flux (time_at t0 dt (S i)))))).
        replace (b * dt * (K * dt) * (INR (S k) * B) + b * dt * (K * dt) * X) with (b * dt * (K * (dt * (INR (S k) * B + X)))) by ring.
        apply Rmult_le_compat_l; [apply Rmult_le_pos; lra|]. unfold X.
        apply Rle_trans with (rsum j (fun i => K * (dt * (B + N (minus3 (psi (S i)) (flux (time_at t0 dt (S i)))))))).
        - apply rsum_le. intros i Hi. destruct (Hres i ltac:(lia)) as (_ & R2). eapply Rle_trans; [exact R2|]. rewrite Rmult_assoc.
          apply Rmult_le_compat_l; [exact PK|]. apply Rmult_le_compat_l; [lra|].
          pose proof (N_triangle (psi (S i)) (flux (time_at t0 dt (S i)))) as TR.
          assert (N (flux (time_at t0 dt (S i))) <= B).
          { apply HB. split; [pose proof (time_at_le t0 dt 0 (S i) ltac:(lra) ltac:(lia)) as L; rewrite time_at_0 in L; exact L|apply time_at_le; [lra|lia]]. }
          lra.
        - rewrite !rsum_scal, rsum_plus, rsum_const. apply Rmult_le_compat_l; [exact PK|]. apply Rmult_le_compat_l; [lra|].
          apply Rplus_le_compat_r. apply Rmult_le_compat_r; [exact PB|apply le_INR, Hj]. }
      unfold A, S0. lra. }
  destruct (Hres k Hk) as (R1 & _). eapply Rle_trans; [apply (output_norm psi (flux (time_at t0 dt (S k))) ft k R1)|].
  specialize (Bd (S k) ltac:(lia)). apply (Rmult_le_compat_l _ _ _ Pw) in Bd. eapply Rle_trans; [exact Bd|]. right. unfold A. ring.
Qed.
End Run.
