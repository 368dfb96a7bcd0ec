(** Accuracy of a history against a smooth flux that satisfies the equations up to a defect. *)
From Coq Require Import Lra Lia Psatz.
From Verif Require Import Base BaseFacts SlabModel SlabSpec MgModel MgSpec MgFacts2 TimeModel TimeSpec EnSpec EnFacts EnFacts2 EnFacts3 EnFacts4 OrdSpec OrdFacts.
Open Scope R_scope.

Definition full3 (P : sn) (G : nat) (f : mat3) : arr3 := mkArr3 (angles P) G f.
Lemma full3_at P G f i m g : (m < angles P)%nat -> (g < G)%nat ->
  at3 (full3 P G f) i (bidx (d3b (full3 P G f)) m) (bidx (d3c (full3 P G f)) g) = f i m g.
Proof.
  intros Hm Hg. unfold full3, bidx. cbn [at3 d3b d3c].
  destruct (Nat.eqb_spec (angles P) 1), (Nat.eqb_spec G 1); f_equal; lia.
Qed.

Lemma time_at_S t0 dt k : time_at t0 dt (S k) = time_at t0 dt k + dt.
Proof. unfold time_at. rewrite S_INR. ring. Qed.
Lemma time_at_le t0 dt j k : 0 <= dt -> (j <= k)%nat -> time_at t0 dt j <= time_at t0 dt k.
Proof. intros Hd H. unfold time_at. apply le_INR in H. apply Rplus_le_compat_l, Rmult_le_compat_r; assumption. Qed.
Lemma time_at_0 t0 dt : time_at t0 dt 0 = t0.
Proof. unfold time_at. cbn [INR]. ring. Qed.

Lemma truncation two P G t0 dt M2 M3 flux slope steps k i m g : 0 < dt ->
  smooth_in_time two P G t0 (time_at t0 dt steps) M2 M3 flux slope -> (k < steps)%nat ->
  (i < cells P)%nat -> (m < angles P)%nat -> (g < G)%nat ->
  Rabs (run_derivative two dt (fun k => flux (time_at t0 dt k)) k (flux (time_at t0 dt (S k))) i m g - slope (time_at t0 dt (S k)) i m g)
  <= if two then match k with O => M2 / 2 * dt | S _ => M3 * dt ^ 2 end else M2 / 2 * dt.
Proof.
  intros Hdt HS Hk Hi Hm Hg. specialize (HS i m g Hi Hm Hg).
  pose proof (time_at_le t0 dt (S k) steps ltac:(lra) ltac:(lia)) as U.
  pose proof (time_at_S t0 dt k) as E. pose proof (time_at_le t0 dt 0 k ltac:(lra) ltac:(lia)) as L. rewrite time_at_0 in L.
  assert (EU : twice_smooth t0 (time_at t0 dt steps) M2 (fun t => flux t i m g) (fun t => slope t i m g) ->
    Rabs (euler_derivative dt (flux (time_at t0 dt (S k))) (flux (time_at t0 dt k)) i m g - slope (time_at t0 dt (S k)) i m g) <= M2 / 2 * dt).
  { intros TS. pose proof (euler_truncation _ _ _ _ _ (time_at t0 dt (S k)) dt TS Hdt ltac:(lra) U) as T. cbv beta in T.
    unfold euler_derivative. replace (time_at t0 dt (S k) - dt) with (time_at t0 dt k) in T by lra. exact T. }
  unfold run_derivative. destruct two.
  - destruct k as [|j].
    + apply EU. eapply thrice_twice, HS.
    + pose proof (time_at_S t0 dt j) as E'. pose proof (time_at_le t0 dt 0 j ltac:(lra) ltac:(lia)) as L'. rewrite time_at_0 in L'.
      pose proof (bdf2_truncation _ _ _ _ _ _ (time_at t0 dt (S (S j))) dt HS Hdt ltac:(lra) U) as T. cbv beta in T.
      unfold bdf2_derivative. replace (time_at t0 dt (S (S j)) - dt) with (time_at t0 dt (S j)) in T by lra.
      replace (time_at t0 dt (S (S j)) - 2 * dt) with (time_at t0 dt j) in T by lra. exact T.
  - apply EU, HS.
Qed.

Lemma accurate two P G velocity dt xs_total transfer ext bnd steps psi emit t0 M2 M3 flux slope (defect : nat -> mat3) :
  sound_slab P -> no_multiplication P G xs_total transfer -> (forall g, (g < G)%nat -> 0 < velocity g) -> 0 < dt -> 0 <= M2 -> 0 <= M3 ->
  time_history two P G velocity dt xs_total transfer ext bnd steps psi emit ->
  smooth_in_time two P G t0 (time_at t0 dt steps) M2 M3 flux slope ->
  (forall k, (k < steps)%nat -> exists E, step_equation P G velocity xs_total transfer
     (full3 P G (fun i m g => at3 (ext k) i (bidx (d3b (ext k)) m) (bidx (d3c (ext k)) g) + defect k i m g)) (bnd k)
     (slope (time_at t0 dt (S k))) (scalar_flux P (flux (time_at t0 dt (S k)))) E (flux (time_at t0 dt (S k)))) ->
  forall k, (k <= steps)%nat ->
  density_norm P G velocity (minus3 (psi k) (flux (time_at t0 dt k))) <=
    (if two then sqrt 2 else 1) * density_norm P G velocity (minus3 (psi 0%nat) (flux t0))
    + time_error two dt (INR k * dt) M2 M3 * density_norm P G velocity unit_flux
    + (if two then 6 else 1) * dt * rsum k (fun j => source_norm P G velocity (defect j)
        + source_norm P G velocity (unresolved P G transfer (emit j) (psi (S j)))).
Proof.
  intros HP HM HV Hdt HM2 HM3 HH HS HE k Hk.
  set (tau := fun j i m g => run_derivative two dt (fun k => flux (time_at t0 dt k)) j (flux (time_at t0 dt (S j))) i m g - slope (time_at t0 dt (S j)) i m g).
  set (ext' := fun j => full3 P G (fun i m g => at3 (ext j) i (bidx (d3b (ext j)) m) (bidx (d3c (ext j)) g) + defect j i m g + tau j i m g / velocity g)).
  set (flux' := fun k => flux (time_at t0 dt k)).
  assert (H2 : time_history two P G velocity dt xs_total transfer ext' bnd steps flux' (fun j => scalar_flux P (flux' (S j)))).
  { intros j Hj. destruct (HE j Hj) as (E & F). exists E. intros g m Hg Hm. destruct (F g m Hg Hm) as (A & B). split; [|exact B].
    intros i Hi. destruct (A i Hi) as (A1 & A2). split; [exact A1|]. unfold ext'. rewrite full3_at in A2 by assumption. rewrite full3_at by assumption.
    change (flux' (S j)) with (flux (time_at t0 dt (S j))).
    change (run_derivative two dt flux' j (flux (time_at t0 dt (S j))) i m g) with
      (run_derivative two dt (fun k => flux (time_at t0 dt k)) j (flux (time_at t0 dt (S j))) i m g).
    replace (run_derivative two dt (fun k => flux (time_at t0 dt k)) j (flux (time_at t0 dt (S j))) i m g)
      with (tau j i m g + slope (time_at t0 dt (S j)) i m g) by (unfold tau; ring).
    unfold Rdiv in *. rewrite Rmult_plus_distr_r. lra. }
  pose proof (stability two P G velocity dt xs_total transfer ext ext' bnd steps psi flux' emit _ HP HM HV Hdt HH H2 k Hk) as ST. cbv beta in ST.
  change (flux' k) with (flux (time_at t0 dt k)) in ST. change (flux' 0%nat) with (flux (time_at t0 dt 0)) in ST. rewrite time_at_0 in ST.
  set (D := density_norm P G velocity unit_flux). assert (PD : 0 <= D) by apply norm_nonneg.
  set (b := fun j => if two then match j with O => M2 / 2 * dt | S _ => M3 * dt ^ 2 end else M2 / 2 * dt).
  assert (Pb : forall j, 0 <= b j).
  { intros j. assert (0 <= M2 / 2 * dt) by (apply Rmult_le_pos; lra). assert (0 <= M3 * dt ^ 2) by (apply Rmult_le_pos; [lra|apply pow_le; lra]).
    unfold b. destruct two; [destruct j|]; assumption. }
  set (q := fun j => source_norm P G velocity (defect j) + source_norm P G velocity (unresolved P G transfer (emit j) (psi (S j)))).
  assert (TERM : forall j, (j < k)%nat -> source_norm P G velocity (minus3 (step_input P G transfer (ext j) (emit j) (psi (S j)))
      (step_input P G transfer (ext' j) (scalar_flux P (flux' (S j))) (flux' (S j)))) <= b j * D + q j).
  { intros j Hj.
    rewrite (source_ext P G velocity _ (fun i m g => unresolved P G transfer (emit j) (psi (S j)) i m g + - (defect j i m g + tau j i m g / velocity g))).
    2:{ intros i m g Hi Hm Hg. unfold minus3, step_input, ext', unresolved. rewrite full3_at by assumption.
        rewrite (rsum_zero_ext G (fun h => transfer (medium P i) g h * (scalar_flux P (flux' (S j)) i h - scalar_flux P (flux' (S j)) i h))) by (intros; ring).
        ring. }
    eapply Rle_trans; [apply source_plus; assumption|]. rewrite source_opp.
    pose proof (source_plus P G velocity HP HV (defect j) (fun i m g => tau j i m g / velocity g)) as S1.
    pose proof (source_over P G velocity HP HV (tau j) (b j) (Pb j)) as S2.
    assert (S3 : source_norm P G velocity (fun i m g => tau j i m g / velocity g) <= b j * D).
    { apply S2. intros i m g Hi Hm Hg. unfold tau, b. apply (truncation two P G t0 dt M2 M3 flux slope steps j i m g Hdt HS); (assumption || lia). }
    unfold q. lra. }
  apply rsum_le in TERM. rewrite rsum_plus in TERM.
  assert (BS : (if two then 6 else 1) * dt * rsum k (fun j => b j * D) <= time_error two dt (INR k * dt) M2 M3 * D).
  { rewrite (rsum_ext k _ (fun j => D * b j)) by (intros; ring). rewrite rsum_scal.
    assert (B : (if two then 6 else 1) * dt * rsum k b <= time_error two dt (INR k * dt) M2 M3).
    { unfold time_error, b. destruct two.
      - clear -Hdt HM2 HM3. assert (A2 : 0 <= M2 * dt ^ 2) by (apply Rmult_le_pos; [lra|apply pow_le; lra]).
        assert (A3 : 0 <= M3 * dt ^ 3) by (apply Rmult_le_pos; [lra|apply pow_le; lra]).
        assert (X : rsum k (fun j => match j with O => M2 / 2 * dt | S _ => M3 * dt ^ 2 end) * dt <= M2 / 2 * dt ^ 2 + INR k * (M3 * dt ^ 3)).
        { induction k as [|k IH]; [cbn [rsum INR]; lra|]. cbn [rsum]. rewrite S_INR. destruct k; [cbn [rsum INR]; lra|].
          rewrite Rmult_plus_distr_r. lra. }
        replace ((3 * M2 + 6 * (INR k * dt) * M3) * dt ^ 2) with (6 * (M2 / 2 * dt ^ 2 + INR k * (M3 * dt ^ 3))) by field. lra.
      - rewrite rsum_const. apply Req_le. field. }
    apply (Rmult_le_compat_r D) in B; [|exact PD]. lra. }
  assert (PC : 0 < (if two then 6 else 1) * dt) by (destruct two; lra).
  apply (Rmult_le_compat_l ((if two then 6 else 1) * dt)) in TERM; [|lra].
  fold q. fold D in BS. rewrite Rmult_plus_distr_l in TERM. lra.
Qed.
