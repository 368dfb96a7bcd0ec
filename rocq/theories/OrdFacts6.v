(** The manufactured time-dependent problems. *)
From Coq Require Import Lra Lia Psatz.
From Verif Require Import Base BaseFacts SlabModel SlabSpec MgModel MgSpec MgFacts2 TimeModel TimeSpec TimeFacts TimeFacts2 TimeFacts3 ManModel ManSpec ManFacts ConvSpec.
From Verif Require Import EnSpec EnFacts EnFacts2 EnFacts3 EnFacts4 EnFacts5 EnFacts6 OrdSpec OrdFacts OrdFacts2 OrdFacts3 OrdFacts4 OrdFacts5.
Open Scope R_scope.

Definition tone : vec := fun _ => 1.

(** length of a mesh *)
Lemma mesh_length P x n : cell_edges P x -> (n <= cells P)%nat -> rsum n (dx P) = x n - x 0%nat.
Proof. intros H. induction n as [|n IH]; intros Hn; cbn [rsum]; [lra|]. rewrite IH by lia. rewrite (H n) by lia. lra. Qed.

Lemma unit_norm P x L : cell_edges P x -> x 0%nat = 0 -> x (cells P) = L ->
  density_norm P 1 tone unit_flux = sqrt (L * rsum (angles P) (wt P)).
Proof.
  intros H H0 HL. unfold density_norm. f_equal. unfold total3. cbn [rsum]. unfold unit_flux, tone.
  rewrite (rsum_ext _ _ (fun i => rsum (angles P) (wt P) * dx P i)).
  - rewrite rsum_scal, (mesh_length P x (cells P) H) by lia. rewrite H0, HL. ring.
  - intros i Hi. rewrite (rsum_ext _ _ (fun m => dx P i * wt P m)) by (intros m Hm; unfold Rsqr; field). rewrite rsum_scal. ring.
Qed.

Section Manufactured.
Variables (two : bool) (P : sn) (materials steps : nat) (x : vec) (L h dt : R).
Variables (p pt q : R -> R -> R -> R) (X2 X3 X2t M2 M3 K : R).
Variables (start : mat3) (external boundary : arr4).
Let zero3 : mat3 := fun _ _ _ => 0.
Let one2 : mat2 := fun _ _ => 1.
Hypothesis HP : sound_slab P.
Hypothesis HB : meshes P x 0 L.
Hypothesis Hang : angles P <> 1%nat.
Hypothesis Hmed : forall i, (i < cells P)%nat -> (medium P i < materials)%nat.
Hypothesis Hmu : forall m, (m < angles P)%nat -> Rabs (mu P m) <= 1.
Hypothesis Hh : forall i, (i < cells P)%nat -> dx P i <= h.
Hypothesis Hdt : 0 < dt.
Hypothesis HL : 0 <= L.
Hypothesis PX2 : 0 <= X2.
Hypothesis PX3 : 0 <= X3.
Hypothesis PX2t : 0 <= X2t.
Hypothesis PM2 : 0 <= M2.
Hypothesis PM3 : 0 <= M3.
Hypothesis HK : X2t / 8 + X3 / 24 + 3 * X2 / 8 <= K.
Hypothesis Hspace : forall t mu, smooth_cell 0 L X2 X3 (fun y => p t y mu).
Hypothesis Hslope : forall t mu, exists s1, twice_smooth 0 L X2t (fun y => pt t y mu) s1.
Hypothesis Htime : forall y mu t1, 0 <= y <= L -> thrice_smooth 0 t1 M2 M3 (fun t => p t y mu) (fun t => pt t y mu).
Hypothesis Heq : forall t y mu, exists d, derivable_pt_lim (fun y => p t y mu) y d /\ pt t y mu + mu * d + p t y mu = q t y mu.
Hypothesis He1 : rows_for external steps.
Hypothesis He2 : broadcasts P 1 external.
Hypothesis Hb1 : rows_for boundary steps.
Hypothesis Hext : forall k i m, (k < steps)%nat -> (i < cells P)%nat -> (m < angles P)%nat ->
  at3 (step_row external k) i (bidx (d4b external) m) (bidx (d4c external) 0) = q (time_at 0 dt (S k)) (centre x i) (mu P m).
Hypothesis Hbnd : forall k m, (k < steps)%nat -> (m < angles P)%nat ->
  mg_boundary (step_row boundary k) (mu P) 0 m = p (time_at 0 dt (S k)) (if Rlt_dec 0 (mu P m) then 0 else L) (mu P m).
Hypothesis Hstart : forall i m, (i < cells P)%nat -> (m < angles P)%nat -> start i m 0%nat = p 0 (centre x i) (mu P m).

Let src (t : R) : arr3 := full3 P 1 (fun i m _ => q t (centre x i) (mu P m)).
Let inf (t : R) : arr3 := full3 P 1 (fun side m _ => p t (if Nat.eqb side 0 then 0 else L) (mu P m)).
Let psi_ : nat -> nat -> nat -> R -> R -> R := fun g m i y t => p t y (mu P m).
Let slope_ : nat -> nat -> nat -> R -> R -> R := fun g m i y t => pt t y (mu P m).

Lemma inside i : (i < cells P)%nat -> 0 <= x i /\ x i <= x (S i) /\ x (S i) <= L.
Proof.
  intros Hi. destruct HB as (E & E0 & EL & _). destruct HP as (Hdx & _).
  assert (A : forall n, (n <= cells P)%nat -> 0 <= x n). { intros n Hn. pose proof (mesh_length P x n E Hn) as R. assert (0 <= rsum n (dx P)) by (apply rsum_nonneg; intros j Hj; left; apply Hdx; lia). lra. }
  assert (B : forall n, (n <= cells P)%nat -> x (cells P - n)%nat <= L).
  { induction n as [|n IH]; intros Hn; [rewrite Nat.sub_0_r; lra|]. specialize (IH ltac:(lia)). pose proof (E (cells P - S n)%nat ltac:(lia)) as Ej.
    replace (S (cells P - S n)) with (cells P - n)%nat in Ej by lia. pose proof (Hdx (cells P - S n)%nat ltac:(lia)). lra. }
  pose proof (A i ltac:(lia)). pose proof (E i Hi). pose proof (Hdx i Hi). pose proof (B (cells P - S i)%nat ltac:(lia)) as B1.
  replace (cells P - (cells P - S i))%nat with (S i) in B1 by lia. lra.
Qed.

Lemma no_transfer : forall i g h0, (i < cells P)%nat -> (g < 1)%nat -> (h0 < 1)%nat -> total_transfer zero3 (FissionMatrix zero3) (medium P i) g h0 = 0.
Proof. intros. unfold total_transfer, zero3. cbn [fission_entry]. lra. Qed.

Lemma manufactured_solves : transport_solution two P 1 tone one2 (total_transfer zero3 (FissionMatrix zero3)) src inf x 0 (time_at 0 dt steps) X2 X3 X2t M2 M3 psi_ slope_.
Proof.
  pose proof HB as (E & E0 & EL & BL & BR).
  split; [|split; [|split; [|split]]].
  - intros g m i t Hg Hm Hi Ht. pose proof (inside i Hi) as I. split.
    + destruct (Hspace t (mu P m)) as (f1 & f2 & f3 & F). exists f1, f2, f3. intros y Hy. apply F. lra.
    + destruct (Hslope t (mu P m)) as (s1 & s2 & F). exists s1, s2. intros y Hy. apply F. lra.
  - reflexivity.
  - intros g m i y Hg Hm Hi Hy. pose proof (inside i Hi) as I.
    pose proof (Htime y (mu P m) (time_at 0 dt steps) ltac:(lra)) as (f2 & f3 & F).
    destruct two; [exists f2, f3; exact F|]. exists f2. intros t Ht. destruct (F t Ht) as (A & B & _ & C & _). auto.
  - intros g m i t Hg Hm Hi Ht. destruct (Heq t (centre x i) (mu P m)) as (d & D & Q). exists d. split; [exact D|].
    unfold src. rewrite full3_at by assumption. unfold psi_, slope_, tone, one2.
    rewrite rsum_zero_ext. 2:{ intros j Hj. rewrite no_transfer by assumption. ring. }
    rewrite <- Q. field.
  - intros g m t Hg Hm Ht. cbv zeta.
    assert (NR : enters_reflective (mu P) (bc_left P) (bc_right P) m = false).
    { unfold enters_reflective. rewrite BL, BR. destruct (Rlt_dec 0 (mu P m)); reflexivity. }
    rewrite NR, Rplus_0_r. unfold mg_boundary, inf. rewrite full3_at by assumption.
    unfold edge_value, inflow_edge, psi_. destruct (Rlt_dec 0 (mu P m)) as [|].
    + cbn [Nat.eqb]. destruct (Nat.ltb_spec 0 (cells P)); [now rewrite E0|]. replace (cells P) with 0%nat by lia. now rewrite E0.
    + cbn [Nat.eqb]. destruct (Nat.ltb_spec (cells P) (cells P)); [lia|]. now rewrite EL.
Qed.

Lemma manufactured_accurate : exists ft,
  timed_run two P materials 1 start one2 (Scatter3 zero3) (FissionMatrix zero3) tone external boundary steps dt 1 = Ok ft /\
  forall k, (k < steps)%nat ->
    sqrt (rsum (cells P) (fun i => dx P i * Rsqr (ft k i 0%nat - rsum (angles P) (fun m => wt P m * p (time_at 0 dt (S k)) (centre x i) (mu P m)))))
    <= rsum (angles P) (wt P) * sqrt L *
       (time_error two dt (INR (S k) * dt) M2 M3
        + h ^ 2 * ((1 + if two then sqrt 2 else 1) * X2 / 8 + (if two then 6 else 1) * (INR (S k) * dt) * K)).
Proof.
  pose proof HP as (Hdx & Hw & Hnz & _). pose proof HB as (E & E0 & EL & BL & BR).
  destruct (timed_total two P materials 1 start one2 zero3 (FissionMatrix zero3) tone external boundary steps dt Hnz He1 Hb1 He2) as (ft & R).
  exists ft. split; [exact R|].
  assert (PV : forall g, (g < 1)%nat -> 0 < tone g) by (intros; unfold tone; lra).
  destruct (run_unscattered two P materials 1 start one2 zero3 (FissionMatrix zero3) tone external boundary steps dt ft HP ltac:(intros; unfold one2; lra) Hang Hmed PV Hdt no_transfer R) as (psi & P0 & HX & HF).
  assert (HM : no_multiplication P 1 one2 (total_transfer zero3 (FissionMatrix zero3))).
  { intros i g Hi Hg. rewrite !(rsum_zero_ext 1) by (intros j Hj; rewrite no_transfer by assumption; apply Rabs_R0). unfold one2. lra. }
  assert (HO : ordered_for (angles P) (mu P) (bc_left P) (bc_right P)).
  { intros m Hm. unfold enters_reflective. rewrite BL, BR. destruct (Rlt_dec 0 (mu P m)); discriminate. }
  assert (SR : source_rows P 1 0 dt steps (step_row external) src).
  { intros k i m g Hk Hi Hm Hg. replace g with 0%nat by lia. unfold src. rewrite full3_at by (assumption || lia). apply Hext; assumption. }
  assert (IR : inflow_rows P 1 0 dt steps (step_row boundary) inf).
  { intros k m g Hk Hm Hg. replace g with 0%nat by lia. rewrite Hbnd by assumption. unfold mg_boundary, inf. rewrite full3_at by (assumption || lia). destruct (Rlt_dec 0 (mu P m)); reflexivity. }
  intros k Hk.
  pose proof (space_time_accurate two P 1 tone dt one2 _ _ _ steps psi _ src inf x 0 h X2 X3 X2t M2 M3 psi_ slope_ HP HM PV Hdt PX2 PM2 PM3 HO E Hh HX SR IR manufactured_solves (S k) ltac:(lia)) as A.
  cbv beta in A.
  rewrite (rsum_zero_ext (S k)) in A. 2:{ intros j Hj. apply source_zero. intros i m g _ _ _. unfold unresolved. apply rsum_zero_ext. intros; ring. }
  rewrite (density_ext P 1 tone (minus3 (psi 0%nat) (at_centres x psi_ 0)) (fun i m g => 0 * unit_flux i m g)) in A.
  2:{ intros i m g Hi Hm Hg. rewrite P0. unfold minus3, at_centres, psi_. replace g with 0%nat by lia. rewrite Hstart by assumption. ring. }
  rewrite (density_scal P 1 tone 0 unit_flux) in A by lra.
  pose proof (unit_norm P x L E E0 EL) as UN. rewrite UN in A. set (W := rsum (angles P) (wt P)) in *.
  assert (PW : 0 <= W) by (apply rsum_nonneg; exact Hw).
  set (D := sqrt (L * W)) in *.
  assert (KD : source_norm P 1 tone (space_defect P tone one2 X2 X3 X2t) <= K * D).
  { rewrite <- UN. rewrite <- (density_scal P 1 tone).
    2:{ assert (0 <= X2t / 8 + X3 / 24 + 3 * X2 / 8) by lra. lra. }
    rewrite source_density by assumption.
    apply density_le; [assumption|assumption|]. intros i m g Hi Hm Hg. unfold tone, space_defect, one2, unit_flux. specialize (Hmu m Hm).
    pose proof (Rabs_pos (mu P m)) as PA. assert (PP : 0 <= Rabs (mu P m) * X3) by (apply Rmult_le_pos; assumption).
    assert (PQ : Rabs (mu P m) * X3 <= X3) by nra.
    rewrite Rmult_1_r, Rmult_1_l. replace (X2t / (8 * 1)) with (X2t / 8) by field. rewrite !Rabs_pos_eq by lra. lra. }
  pose proof (scalar_norm P 1 tone (minus3 (psi (S k)) (at_centres x psi_ (time_at 0 dt (S k)))) HP PV) as SN.
  cbn [rsum] in SN. fold W in SN.
  assert (EQ : rsum (cells P) (fun i => dx P i * Rsqr (ft k i 0%nat - rsum (angles P) (fun m => wt P m * p (time_at 0 dt (S k)) (centre x i) (mu P m))))
     = 0 + rsum (cells P) (fun i => dx P i * Rsqr (scalar_flux P (minus3 (psi (S k)) (at_centres x psi_ (time_at 0 dt (S k)))) i 0%nat) / tone 0%nat)).
  { rewrite Rplus_0_l. apply rsum_ext. intros i Hi. rewrite (HF k Hk i 0%nat Hi ltac:(lia)). unfold tone. unfold Rdiv. rewrite Rinv_1, Rmult_1_r. f_equal. f_equal.
    unfold scalar_flux, minus3, at_centres, psi_. rewrite <- rsum_minus. apply rsum_ext. intros; ring. }
  rewrite EQ. eapply Rle_trans; [exact SN|].
  assert (PT : 0 <= INR (S k) * dt) by (apply Rmult_le_pos; [apply pos_INR|lra]).
  assert (SD : sqrt W * D = W * sqrt L).
  { unfold D. rewrite (Rmult_comm L W), sqrt_mult_alt by assumption. rewrite <- Rmult_assoc, sqrt_sqrt by assumption. reflexivity. }
  rewrite <- SD. rewrite Rmult_assoc. apply Rmult_le_compat_l; [apply sqrt_pos|].
  eapply Rle_trans; [exact A|]. clear A SN EQ.
  set (c1 := if two then sqrt 2 else 1). set (c2 := if two then 6 else 1). assert (C2 : 0 <= c2) by (unfold c2; destruct two; lra).
  rewrite Rmult_0_l, !Rmult_0_r, Rplus_0_l, Rplus_0_r.
  apply Rle_trans with (time_error two dt (INR (S k) * dt) M2 M3 * D + h ^ 2 * ((1 + c1) * X2 / 8 * D + c2 * (INR (S k) * dt) * (K * D))).
  - apply Rplus_le_compat_l, Rmult_le_compat_l; [apply pow2_ge_0|]. apply Rplus_le_compat_l, Rmult_le_compat_l; [apply Rmult_le_pos; assumption|exact KD].
  - right. ring.
Qed.
End Manufactured.
