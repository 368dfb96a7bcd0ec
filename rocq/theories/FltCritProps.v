(** Property theorems of the power iteration in floating-point arithmetic (C152, C153).  Vocabulary: SlabSpec.v, MgSpec.v,
    CritSpec.v (production, emission, nonneg_fission), FltSpec.v (correct_rounding, relative_rounding). *)
From Coq Require Import ZArith Lra Lia.
From Verif Require Import Base BaseFacts SlabModel SlabSpec SlabFacts SlabWitness MgModel MgSpec SupSpec CritModel CritSpec CritWitness.
From Verif Require Import FltModel FltCritModel FltSpec FltFacts FltCritFacts FltCritFacts2 FltCritFacts3 FltWitness.
From Flocq Require Import Core.
Open Scope R_scope.

(** ** C152 Rounding cannot make the multiplication factor or the flux of a power iteration negative *)
(** without rounding, a run that divides by no zero is the run of the exact program *)
Theorem C152_exact :
  forall P groups T s f guess r,
  flt_power_iteration (fun x => x) (fun v => sqrt (rsum (cells P) (fun i => Rsqr (v i))))
    (fun v => sqrt (rsum (cells P) (fun i => rsum groups (fun h => Rsqr (v i h)))))
    (norm2 (cells P) groups) Rabs P groups T s f guess = Ok r ->
  power_iteration P groups T (Scatter3 s) f 1 guess = Ok r.
Proof. exact flt_power_exact. Qed.
Print Assumptions C152_exact.
Theorem C152_nonnegative :
  forall rnd norm normq normf normk P groups T s f guess,
  correct_rounding rnd -> nonzero_ordinates (angles P) (mu P) -> mg_thin P groups T -> no_underflow rnd P ->
  (forall m, (m < angles P)%nat -> 0 <= wt P m) ->
  (forall i g h, (i < cells P)%nat -> (g < groups)%nat -> (h < groups)%nat -> 0 <= s (medium P i) g h) ->
  nonneg_fission (cells P) groups (medium P) f ->
  (forall v, 0 <= normf v) -> (forall k, 0 <= normk k) ->
  (forall i g, (i < cells P)%nat -> (g < groups)%nat -> 0 <= guess i g) ->
  flt_power_iteration rnd norm normq normf normk P groups T s f guess = Raise ZeroDivisionError \/
  exists flux k, flt_power_iteration rnd norm normq normf normk P groups T s f guess = Ok (flux, k) /\
    0 <= k /\ forall i g, (i < cells P)%nat -> (g < groups)%nat -> 0 <= flux i g.
Proof. exact flt_power_nonneg. Qed.
Print Assumptions C152_nonnegative.
(** ... and runs that complete exist: started at an eigenpair, exact arithmetic returns its k *)
Theorem C152_eigenpair :
  forall P groups T s f phi k,
  nonzero_ordinates (angles P) (mu P) -> mg_divisors P groups T ->
  nonneg_fission (cells P) groups (medium P) f -> eigenpair P groups T s f phi k ->
  0 < k -> norm2 (cells P) groups phi = 1 -> production (cells P) groups f (medium P) phi <> 0 ->
  (forall i g, (i < cells P)%nat -> (g < groups)%nat -> 0 < phi i g) ->
  exists flux, flt_power_iteration (fun x => x) (fun v => sqrt (rsum (cells P) (fun i => Rsqr (v i))))
    (fun v => sqrt (rsum (cells P) (fun i => rsum groups (fun h => Rsqr (v i h)))))
    (norm2 (cells P) groups) Rabs P groups T s f (fun i g => k * phi i g) = Ok (flux, k).
Proof. exact flt_power_eigenpair. Qed.
Print Assumptions C152_eigenpair.
(** with a relative bound on the rounding and fission in some cell that the starting flux reaches, no divisor vanishes: the run
    completes, k is positive, and so is the flux where the fission is *)
Theorem C152_completes :
  forall u rnd norm normq normf normk P groups T s f guess i0 b m0,
  0 <= u <= / 1000 -> relative_rounding u rnd -> correct_rounding rnd ->
  nonzero_ordinates (angles P) (mu P) -> mg_thin P groups T ->
  (forall m, (m < angles P)%nat -> 0 <= wt P m) ->
  (forall i g h, (i < cells P)%nat -> (g < groups)%nat -> (h < groups)%nat -> 0 <= s (medium P i) g h) ->
  nonneg_fission (cells P) groups (medium P) f ->
  (i0 < cells P)%nat -> (b < groups)%nat -> (m0 < angles P)%nat -> 0 < wt P m0 ->
  0 < fission_entry f (medium P i0) b b ->
  (forall v, v i0 b <> 0 -> 0 < normf v) -> (forall k, 0 < k -> 0 < normk k) ->
  (forall i g, (i < cells P)%nat -> (g < groups)%nat -> 0 <= guess i g) -> 0 < guess i0 b ->
  exists flux k, flt_power_iteration rnd norm normq normf normk P groups T s f guess = Ok (flux, k) /\ 0 < k /\
    0 < flux i0 b /\ forall i g, (i < cells P)%nat -> (g < groups)%nat -> 0 <= flux i g.
Proof. exact flt_power_completes. Qed.
Print Assumptions C152_completes.
Example C152_completes_case : exists flux k,
  flt_power_iteration binary64_unbounded (fun v => Rabs (v 0%nat)) (fun v => Rabs (v 0%nat 0%nat) + Rabs (v 0%nat 1%nat))
    (fun v => Rabs (v 0%nat 0%nat) + Rabs (v 0%nat 1%nat)) Rabs slug 2 slug_total slug_scatter slug_fission slug_phi = Ok (flux, k) /\
  0 < k /\ 0 < flux 0%nat 0%nat /\ forall i g, (i < 1)%nat -> (g < 2)%nat -> 0 <= flux i g.
Proof.
  assert (Pp : forall i g, 0 < slug_phi i g).
  { intros i g. unfold slug_phi. destruct (Nat.eqb g 0); lra. }
  apply (C152_completes (/ 2 ^ 53)) with (m0 := 0%nat);
    [cbn; lra|exact unbounded_relative|exact unbounded_correct|exact slug_nonzero| | | |exact slug_nonneg|cbn; lia|lia|cbn; lia|cbn; lra|cbn; unfold slug_chi, slug_nusigf; cbn; lra| | | |apply Pp].
  - intros g Hg m i Hm Hi. cbn. unfold slug_total. split; [lra|]. split; [lra|]. small m Hm; cbn; unfold Rabs; destruct (Rcase_abs _); lra.
  - intros m Hm. cbn. lra.
  - intros i g h _ _ _. unfold slug_scatter. destruct (Nat.ltb g h); lra.
  - intros v Hv. assert (A := Rabs_pos_lt _ Hv). assert (B := Rabs_pos (v 0%nat 1%nat)). lra.
  - intros k Hk. apply Rabs_pos_lt. lra.
  - intros i g Hi Hg. apply Rlt_le, Pp.
Qed.
Example C152_case : mg_thin slug 2 slug_total /\
  (exists flux, flt_power_iteration (fun x => x) (fun v => sqrt (rsum (cells slug) (fun i => Rsqr (v i))))
    (fun v => sqrt (rsum (cells slug) (fun i => rsum 2 (fun h => Rsqr (v i h)))))
    (norm2 (cells slug) 2) Rabs slug 2 slug_total slug_scatter slug_fission (fun i g => 2 * slug_phi i g) = Ok (flux, 2)) /\
  (flt_power_iteration binary64 (fun v => Rabs (v 0%nat)) (fun v => Rabs (v 0%nat 0%nat) + Rabs (v 0%nat 1%nat))
     (fun v => Rabs (v 0%nat 0%nat) + Rabs (v 0%nat 1%nat)) Rabs slug 2 slug_total slug_scatter slug_fission slug_phi = Raise ZeroDivisionError \/
   exists flux k, flt_power_iteration binary64 (fun v => Rabs (v 0%nat)) (fun v => Rabs (v 0%nat 0%nat) + Rabs (v 0%nat 1%nat))
     (fun v => Rabs (v 0%nat 0%nat) + Rabs (v 0%nat 1%nat)) Rabs slug 2 slug_total slug_scatter slug_fission slug_phi = Ok (flux, k) /\
   0 <= k /\ forall i g, (i < 1)%nat -> (g < 2)%nat -> 0 <= flux i g).
Proof.
  assert (Ht : mg_thin slug 2 slug_total).
  { intros g Hg m i Hm Hi. cbn. unfold slug_total. split; [lra|]. split; [lra|]. small m Hm; cbn; unfold Rabs; destruct (Rcase_abs _); lra. }
  assert (Pp : forall i g, (i < cells slug)%nat -> (g < 2)%nat -> 0 < slug_phi i g).
  { intros i g _ _. unfold slug_phi. destruct (Nat.eqb g 0); lra. }
  split; [exact Ht|]. split.
  - apply flt_power_eigenpair; [exact slug_nonzero|exact slug_divisors|exact slug_nonneg|exact slug_eigenpair|lra|exact slug_norm|rewrite slug_production; lra|exact Pp].
  - apply (C152_nonnegative binary64); [exact binary64_correct|exact slug_nonzero|exact Ht| | | |exact slug_nonneg| | |].
    + intros m i Hm Hi. assert (E : Rabs (mu slug m) / dx slug i = 1) by (cbn; small m Hm; cbn; unfold Rabs; destruct (Rcase_abs _); lra).
      rewrite binary64_small by (right; exact E). lra.
    + intros m Hm. cbn. lra.
    + intros i g h _ _ _. unfold slug_scatter. destruct (Nat.ltb g h); lra.
    + intros v. assert (A := Rabs_pos (v 0%nat 0%nat)). assert (B := Rabs_pos (v 0%nat 1%nat)). lra.
    + intros k. apply Rabs_pos.
    + intros i g Hi Hg. apply Rlt_le, Pp; assumption.
Qed.

(** ** C153 How far rounding can carry the fission source and the multiplication factor of a pass *)
Theorem C153_update : forall u rnd, 0 <= u <= / 1000 -> relative_rounding u rnd ->
  forall cells groups med f, nonneg_fission cells groups med f ->
  forall flux old keff k,
  (forall i g, (i < cells)%nat -> (g < groups)%nat -> 0 <= flux i g) ->
  (forall i g, (i < cells)%nat -> (g < groups)%nat -> 0 <= old i g) -> 0 <= keff ->
  flt_update_keff rnd cells groups f med flux old keff = Ok k ->
  0 < production cells groups f med old /\
  let N := (2 + cells * (groups * groups))%nat in
  let ideal := keff * production cells groups f med flux / production cells groups f med old in
  (1 - u) ^ (N + 2) / (1 + u) ^ N * ideal <= k <= (1 + u) ^ (N + 2) / (1 - u) ^ N * ideal.
Proof. exact flt_keff_near. Qed.
Print Assumptions C153_update.
Theorem C153_pass :
  forall u rnd norm normq normf P groups T s f old keff new k,
  0 <= u <= / 1000 -> relative_rounding u rnd -> nonneg_fission (cells P) groups (medium P) f ->
  (forall i g, (i < cells P)%nat -> (g < groups)%nat -> 0 <= old i g) -> 0 <= keff ->
  flt_power_step rnd norm normq normf P groups T s f (old, keff) = Ok (new, k) ->
  exists source flux,
    (forall i g, (i < cells P)%nat -> (g < groups)%nat ->
       (1 - u) ^ (groups + 3) * (emission groups f (medium P) old i g / keff) <= source i g
         <= (1 + u) ^ (groups + 3) * (emission groups f (medium P) old i g / keff)) /\
    flt_source_iteration rnd norm normq P groups old T s (mkArr3 1 groups (fun i _ g => source i g)) (mkArr3 1 1 (fun _ _ _ => 0)) = Ok flux /\
    normf flux <> 0 /\
    (forall i g, Rabs (new i g - flux i g / normf flux) <= u * Rabs (flux i g / normf flux)) /\
    ((forall i g, (i < cells P)%nat -> (g < groups)%nat -> 0 <= flux i g) ->
     0 < production (cells P) groups f (medium P) old /\
     let N := (2 + cells P * (groups * groups))%nat in
     let ideal := keff * production (cells P) groups f (medium P) flux / production (cells P) groups f (medium P) old in
     (1 - u) ^ (N + 2) / (1 + u) ^ N * ideal <= k <= (1 + u) ^ (N + 2) / (1 - u) ^ N * ideal).
Proof. exact flt_power_pass. Qed.
Print Assumptions C153_pass.
Example C153_case : exists k,
  flt_update_keff binary64_unbounded (cells slug) 2 slug_fission (medium slug) slug_phi slug_phi 2 = Ok k /\
  (1 - / 2 ^ 53) ^ 8 / (1 + / 2 ^ 53) ^ 6 * 2 <= k <= (1 + / 2 ^ 53) ^ 8 / (1 - / 2 ^ 53) ^ 6 * 2.
Proof.
  assert (Pp : forall i g, (i < cells slug)%nat -> (g < 2)%nat -> 0 <= slug_phi i g).
  { intros i g _ _. unfold slug_phi. destruct (Nat.eqb g 0); lra. }
  assert (U : 0 <= / 2 ^ 53 <= / 1000) by (cbn; lra).
  assert (exists k, flt_update_keff binary64_unbounded (cells slug) 2 slug_fission (medium slug) slug_phi slug_phi 2 = Ok k) as (k & E).
  { unfold flt_update_keff. cbv zeta. rewrite rates_split by exact slug_nonneg. cbn [fst snd].
    assert (B := rate_near _ _ U unbounded_relative _ _ _ _ slug_nonneg slug_phi Pp). rewrite slug_production in B. destruct B as (_ & B & _).
    assert (L := low_pos _ U (2 + cells slug * (2 * 2))). destruct (Req_EM_T _ 0) as [Z|Z]; [nra|eexists; reflexivity]. }
  exists k. split; [exact E|].
  destruct (C153_update _ _ U unbounded_relative _ _ _ _ slug_nonneg slug_phi slug_phi 2 k Pp Pp ltac:(lra) E) as (_ & H).
  cbv zeta in H. rewrite slug_production in H. replace (2 * (36 / 5) / (36 / 5)) with 2 in H by lra.
  change (2 + cells slug * (2 * 2) + 2)%nat with 8%nat in H. change (2 + cells slug * (2 * 2))%nat with 6%nat in H. exact H.
Qed.
