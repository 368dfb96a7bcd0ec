(** Property theorems of the slab solver in floating-point arithmetic (C109-C113).  Vocabulary: SlabSpec.v,
    MgSpec.v, FixSpec.v (nonneg_problem), HybSpec.v (partition), FltSpec.v. *)
From Coq Require Import ZArith Lra Lia.
From Verif Require Import Base BaseFacts SlabModel SlabSpec SlabFacts SlabFacts4 SlabWitness MgModel MgSpec MgWitness.
From Verif Require Import FixModel FixSpec FixWitness HybModel HybSpec HybFacts.
From Verif Require Import FltModel FltSpec FltFacts FltFacts2 FltFacts3 FltFacts4 FltFacts5 FltFacts6 FltFacts7 FltFacts8 FltWitness.
From Flocq Require Import Core.
Open Scope R_scope.

(** ** C109 Rounding cannot make a flux negative *)
(** IEEE double precision rounds correctly; without rounding the program is the exact one of SlabModel and MgModel *)
Theorem C109_binary64 :
  correct_rounding binary64.
Proof. exact binary64_correct. Qed.
Print Assumptions C109_binary64.
Theorem C109_exact_pass :
  forall P T s off ext bnd edges fo,
  flt_iso_pass (fun x => x) P T s off ext bnd edges fo = slab_iso_pass P T s off ext bnd edges fo.
Proof. exact exact_pass. Qed.
Print Assumptions C109_exact_pass.
Theorem C109_exact_driver :
  forall P fo T s off ext bnd edges,
  flt_isotropic_sn (fun x => x) (fun v => sqrt (rsum (cells P) (fun i => Rsqr (v i)))) P fo T s off ext bnd edges
  = slab_isotropic_sn P fo T s off ext bnd edges.
Proof. exact exact_driver. Qed.
Print Assumptions C109_exact_driver.
Theorem C109_exact_multigroup :
  forall P groups fo T s ext bnd,
  flt_source_iteration (fun x => x) (fun v => sqrt (rsum (cells P) (fun i => Rsqr (v i))))
    (fun v => sqrt (rsum (cells P) (fun i => rsum groups (fun h => Rsqr (v i h))))) P groups fo T s ext bnd
  = source_iteration_iso P groups fo T s ext bnd 1.
Proof. exact exact_outer. Qed.
Print Assumptions C109_exact_multigroup.
Theorem C109_pass :
  forall rnd P T s off ext bnd edges fo,
  correct_rounding rnd ->
  nonzero_ordinates (angles P) (mu P) -> thin_mesh P T -> no_underflow rnd P ->
  (forall i, (i < cells P)%nat -> 0 <= s (medium P i)) -> (forall m, (m < angles P)%nat -> 0 <= wt P m) ->
  nonneg_data P off ext bnd -> (forall i, (i < cells P)%nat -> 0 <= fo i) ->
  exists flux, flt_iso_pass rnd P T s off ext bnd edges fo = Ok flux /\ forall i, 0 <= flux i.
Proof. exact flt_pass_nonneg. Qed.
Print Assumptions C109_pass.
Theorem C109_driver :
  forall rnd norm P T s off ext bnd fo,
  correct_rounding rnd ->
  nonzero_ordinates (angles P) (mu P) -> thin_mesh P T -> no_underflow rnd P ->
  (forall i, (i < cells P)%nat -> 0 <= s (medium P i)) -> (forall m, (m < angles P)%nat -> 0 <= wt P m) ->
  nonneg_data P off ext bnd -> (forall i, (i < cells P)%nat -> 0 <= fo i) ->
  exists flux, flt_isotropic_sn rnd norm P fo T s off ext bnd 0 = Ok flux /\ forall i, (i < cells P)%nat -> 0 <= flux i.
Proof. exact flt_driver_nonneg. Qed.
Print Assumptions C109_driver.
Theorem C109_multigroup :
  forall rnd norm norm2 P groups T s ext bnd fo,
  correct_rounding rnd ->
  nonzero_ordinates (angles P) (mu P) -> mg_thin P groups T -> no_underflow rnd P ->
  nonneg_problem P groups s ext bnd -> (forall i g, (i < cells P)%nat -> (g < groups)%nat -> 0 <= fo i g) ->
  exists flux, flt_source_iteration rnd norm norm2 P groups fo T s ext bnd = Ok flux /\
    forall i g, (i < cells P)%nat -> (g < groups)%nat -> 0 <= flux i g.
Proof. exact flt_outer_nonneg. Qed.
Print Assumptions C109_multigroup.
Example C109_case :
  exists flux, flt_isotropic_sn binary64 (fun v => Rabs (v 0%nat) + Rabs (v 1%nat)) demo zeros demo_total demo_scatter zeros
    demo_ext demo_bnd 0 = Ok flux /\ forall i, (i < 2)%nat -> 0 <= flux i.
Proof.
  apply (flt_driver_nonneg binary64 _ demo demo_total demo_scatter zeros demo_ext demo_bnd zeros); try assumption.
  - exact binary64_correct.
  - exact demo_nonzero.
  - exact demo_thin.
  - exact demo_no_underflow.
  - exact demo_scatter_nonneg.
  - exact demo_weights_nonneg.
  - exact demo_data.
  - intros; unfold zeros; lra.
Qed.
Example C109_multigroup_case :
  exists flux, flt_source_iteration binary64 (fun v => Rabs (v 0%nat)) (fun v => Rabs (v 0%nat 0%nat)) demo 2 zeros2 duo_total
    (mixed duo_scatter duo_fission) duo_ext duo_bnd = Ok flux /\ forall i g, (i < 2)%nat -> (g < 2)%nat -> 0 <= flux i g.
Proof.
  apply (flt_outer_nonneg binary64 _ _ demo 2 duo_total (mixed duo_scatter duo_fission) duo_ext duo_bnd zeros2).
  - exact binary64_correct.
  - exact demo_nonzero.
  - exact duo_thin.
  - exact demo_no_underflow.
  - exact duo_nonneg.
  - intros; unfold zeros2; lra.
Qed.

(** ** C110 In floating point the sweep is monotone and the iterates climb *)
Theorem C110_pass_monotone :
  forall rnd, correct_rounding rnd -> forall P T s, thin_mesh P T -> no_underflow rnd P ->
  (forall i, (i < cells P)%nat -> 0 <= s (medium P i)) -> (forall m, (m < angles P)%nat -> 0 <= wt P m) ->
  forall off off' ext ext' bnd bnd' edges fo fo' flux flux',
  data_le P off off' ext ext' bnd bnd' -> (forall i, (i < cells P)%nat -> fo i <= fo' i) ->
  flt_iso_pass rnd P T s off ext bnd edges fo = Ok flux ->
  flt_iso_pass rnd P T s off' ext' bnd' edges fo' = Ok flux' ->
  forall i, flux i <= flux' i.
Proof. exact flt_pass_monotone. Qed.
Print Assumptions C110_pass_monotone.
Theorem C110_from_zero :
  forall rnd, correct_rounding rnd -> forall P T s, thin_mesh P T -> no_underflow rnd P ->
  (forall i, (i < cells P)%nat -> 0 <= s (medium P i)) -> (forall m, (m < angles P)%nat -> 0 <= wt P m) ->
  forall off ext bnd norm flux,
  nonzero_ordinates (angles P) (mu P) -> nonneg_data P off ext bnd ->
  flt_isotropic_sn rnd norm P zeros T s off ext bnd 0 = Ok flux ->
  exists n x, (1 <= n <= 100)%nat /\ (forall i, x 0%nat i = 0) /\ x n = flux /\
    (forall k, (k < n)%nat -> flt_iso_pass rnd P T s off ext bnd 0 (x k) = Ok (x (S k))) /\
    (forall k i, (k < n)%nat -> (i < cells P)%nat -> x k i <= x (S k) i) /\
    forall v v', flt_iso_pass rnd P T s off ext bnd 0 v = Ok v' -> (forall i, (i < cells P)%nat -> 0 <= v' i <= v i) ->
      forall i, (i < cells P)%nat -> flux i <= v i.
Proof. exact flt_from_zero. Qed.
Print Assumptions C110_from_zero.
Theorem C110_dark :
  forall rnd norm norm2 P groups T s ext bnd flux,
  rnd 0 = 0 ->
  (forall i m g, (i < cells P)%nat -> (m < angles P)%nat -> (g < groups)%nat ->
     at3 ext i (bidx (d3b ext) m) (bidx (d3c ext) g) = 0) ->
  (forall m g, (m < angles P)%nat -> (g < groups)%nat -> boundary_in (slice3 bnd (bidx (d3c bnd) g)) (mu P) m = 0) ->
  flt_source_iteration rnd norm norm2 P groups zeros2 T s ext bnd = Ok flux ->
  forall i g, (i < cells P)%nat -> (g < groups)%nat -> flux i g = 0.
Proof. exact flt_dark. Qed.
Print Assumptions C110_dark.
Example C110_case : exists flux flux',
  flt_iso_pass binary64 demo demo_total demo_scatter zeros demo_ext demo_bnd 0 zeros = Ok flux /\
  flt_iso_pass binary64 demo demo_total demo_scatter zeros (mkArr2 1 (fun _ _ => 2)) demo_bnd 0 zeros = Ok flux' /\
  forall i, flux i <= flux' i.
Proof.
  destruct (flt_pass_total binary64 demo demo_total demo_scatter zeros demo_ext demo_bnd 0 zeros demo_nonzero) as [f E].
  destruct (flt_pass_total binary64 demo demo_total demo_scatter zeros (mkArr2 1 (fun _ _ => 2)) demo_bnd 0 zeros demo_nonzero) as [f' E'].
  exists f, f'. split; [exact E|]. split; [exact E'|].
  apply (flt_pass_monotone binary64 binary64_correct demo demo_total demo_scatter demo_thin demo_no_underflow
    demo_scatter_nonneg demo_weights_nonneg _ _ _ _ _ _ _ _ _ f f' demo_larger (fun i _ => Rle_refl _) E E').
Qed.

(** ** C111 Scaling all sources by a power of two scales the computed flux exactly *)
Theorem C111_powers_of_two :
  forall e,
  scales (bpow radix2 e) binary64_unbounded.
Proof. exact unbounded_scales. Qed.
Print Assumptions C111_powers_of_two.
Theorem C111_driver :
  forall rnd c, c <> 0 -> scales c rnd -> forall norm P fo T s off ext bnd flux,
  flt_isotropic_sn rnd norm P fo T s off ext bnd 0 = Ok flux ->
  exists flux', flt_isotropic_sn rnd norm P (scaled1 c fo) T s (scaled1 c off) (scaled2 c ext) (scaled2 c bnd) 0 = Ok flux' /\
    forall i, (i < cells P)%nat -> flux' i = c * flux i.
Proof. exact flt_driver_scaled. Qed.
Print Assumptions C111_driver.
Theorem C111_multigroup :
  forall rnd c, c <> 0 -> scales c rnd -> forall norm norm2 P groups fo T s ext bnd flux,
  flt_source_iteration rnd norm norm2 P groups fo T s ext bnd = Ok flux ->
  exists flux', flt_source_iteration rnd norm norm2 P groups (fun i g => c * fo i g) T s (scaled3 c ext) (scaled3 c bnd) = Ok flux' /\
    forall i g, (i < cells P)%nat -> (g < groups)%nat -> flux' i g = c * flux i g.
Proof. exact flt_outer_scaled. Qed.
Print Assumptions C111_multigroup.
Example C111_case : exists flux flux',
  flt_source_iteration binary64_unbounded (fun v => Rabs (v 0%nat)) (fun v => Rabs (v 0%nat 0%nat)) demo 2 zeros2 duo_total
    duo_scatter duo_ext duo_bnd = Ok flux /\
  flt_source_iteration binary64_unbounded (fun v => Rabs (v 0%nat)) (fun v => Rabs (v 0%nat 0%nat)) demo 2
    (fun i g => bpow radix2 (-40) * zeros2 i g) duo_total
    duo_scatter (scaled3 (bpow radix2 (-40)) duo_ext) (scaled3 (bpow radix2 (-40)) duo_bnd) = Ok flux' /\
  forall i g, (i < 2)%nat -> (g < 2)%nat -> flux' i g = bpow radix2 (-40) * flux i g.
Proof.
  destruct (flt_outer_total binary64_unbounded (fun v => Rabs (v 0%nat)) (fun v => Rabs (v 0%nat 0%nat)) demo 2 zeros2 duo_total
    duo_scatter duo_ext duo_bnd demo_nonzero) as [f E].
  destruct (flt_outer_scaled binary64_unbounded (bpow radix2 (-40)) (Rgt_not_eq _ _ (bpow_gt_0 radix2 (-40))) (unbounded_scales (-40)) _ _ _ _ _ _ _ _ _ f E)
    as (f' & E' & H).
  exists f, f'. auto.
Qed.

(** ** C112 How far rounding can carry the computed flux from the exact discrete solution *)
Theorem C112_rounding :
  relative_rounding (/ 2 ^ 53) binary64_unbounded.
Proof. exact unbounded_relative. Qed.
Print Assumptions C112_rounding.
Theorem C112_pass :
  forall u rnd P T s off ext bnd fo Q flux flux',
  0 <= u <= / 1000 -> relative_rounding u rnd -> thin_mesh P T -> (forall m, (m < angles P)%nat -> 0 <= wt P m) ->
  0 <= Q -> sources_below P T s off ext bnd fo Q ->
  slab_iso_pass P T s off ext bnd 0 fo = Ok flux -> flt_iso_pass rnd P T s off ext bnd 0 fo = Ok flux' ->
  (forall i, (i < cells P)%nat -> Rabs (flux i) <= rsum (angles P) (wt P) * Q) /\
  within (cells P) (rsum (angles P) (wt P) * Q * growth (11 * u) (2 * cells P + angles P + 5)) flux' flux.
Proof. exact flt_pass_error. Qed.
Print Assumptions C112_pass.
Theorem C112_driver :
  forall u rnd norm P T s off ext bnd c Q0 B fo flux sol,
  let W := rsum (angles P) (wt P) in
  let rho := W * c in
  let eta := growth (11 * u) (2 * cells P + angles P + 5) in
  0 <= u <= / 1000 -> relative_rounding u rnd -> thin_mesh P T ->
  (forall m, (m < angles P)%nat -> 0 <= wt P m) -> 0 <= c -> 0 <= Q0 -> rho < 1 ->
  (forall i, (i < cells P)%nat -> Rabs (s (medium P i)) <= c * T (medium P i)) ->
  (forall i m, (i < cells P)%nat -> (m < angles P)%nat ->
     Rabs (at2 ext i (bidx (cols2 ext) m)) + Rabs (off i) <= T (medium P i) * Q0) ->
  (forall m, (m < angles P)%nat -> Rabs (boundary_in bnd (mu P) m) <= Q0) ->
  (forall m, (m < angles P)%nat -> leaves_reflective (mu P) (bc_left P) (bc_right P) (angles P - m - 1) = true ->
     boundary_in bnd (mu P) m = 0) ->
  W * (c * B + Q0) * (1 + eta) <= B ->
  (forall i, (i < cells P)%nat -> Rabs (fo i) <= B) ->
  (exists r, slab_iso_pass P T s off ext bnd 0 sol = Ok r /\ forall i, (i < cells P)%nat -> r i = sol i) ->
  0 <= B ->
  flt_isotropic_sn rnd norm P fo T s off ext bnd 0 = Ok flux ->
  exists n, (1 <= n <= 100)%nat /\
    (forall i, (i < cells P)%nat -> Rabs (flux i) <= B) /\
    (forall d, 0 <= d -> within (cells P) d fo sol ->
       within (cells P) (rho ^ n * d + W * (c * B + Q0) * eta / (1 - rho)) flux sol) /\
    ((n < 100)%nat -> (forall v i, (i < cells P)%nat -> Rabs (v i) <= norm v) ->
       within (cells P) ((rho * (101 / 100 * / 10 ^ 12 * INR (cells P) * B) + W * (c * B + Q0) * eta) / (1 - rho)) flux sol).
Proof. exact flt_driver_error. Qed.
Print Assumptions C112_driver.
Example C112_case : exists flux sol,
  flt_isotropic_sn binary64_unbounded (fun v => Rabs (v 0%nat) + Rabs (v 1%nat)) demo zeros demo_total demo_scatter zeros
    demo_ext demo_bnd 0 = Ok flux /\
  (exists r, slab_iso_pass demo demo_total demo_scatter zeros demo_ext demo_bnd 0 sol = Ok r /\ forall i, (i < 2)%nat -> r i = sol i) /\
  exists n, (1 <= n <= 100)%nat /\
    forall d, 0 <= d -> within 2 d zeros sol ->
       within 2 ((1 / 2) ^ n * d + 9 * growth (11 * / 2 ^ 53) 11) flux sol.
Proof.
  destruct demo_error_data as (D1 & D2 & D3 & D4 & D5 & D6).
  destruct (inner_solution_exists demo demo_total demo_scatter zeros demo_ext demo_bnd (1 / 2) demo_nonzero demo_thin
    demo_weights_nonneg ltac:(lra) D1 D2) as (sol & Hsol & _).
  destruct (flt_driver_total binary64_unbounded (fun v => Rabs (v 0%nat) + Rabs (v 1%nat)) demo zeros demo_total demo_scatter zeros
    demo_ext demo_bnd 0 demo_nonzero) as [f E].
  exists f, sol. split; [exact E|]. split; [exact Hsol|].
  destruct (flt_driver_error (/ 2 ^ 53) binary64_unbounded (fun v => Rabs (v 0%nat) + Rabs (v 1%nat)) demo demo_total demo_scatter zeros
    demo_ext demo_bnd (1 / 2) 2 5 zeros f sol ltac:(cbn; lra) unbounded_relative demo_thin demo_weights_nonneg ltac:(lra) ltac:(lra)
    D1 D2 D3 D4 D5 D6 ltac:(intros; unfold zeros; rewrite Rabs_R0; lra) Hsol ltac:(lra) E) as (n & Hn & _ & H & _).
  exists n. split; [exact Hn|]. intros d Hd Hdist i Hi. specialize (H d Hd Hdist i Hi).
  assert (W : rsum (angles demo) (wt demo) = 1) by (cbn; lra). rewrite W in H.
  change (2 * cells demo + angles demo + 5)%nat with 11%nat in H. rewrite Rmult_1_l in H. lra.
Qed.

(** the multigroup iteration: off-group sums of [groups] rounded terms, inner iterations that may end by either stop *)
Theorem C112_multigroup :
  forall u rnd norm norm2 P groups T s ext bnd c Q0 B fo flux sol,
  let W := rsum (angles P) (wt P) in
  let rho := W * c in
  let eta := growth (11 * u) (2 * cells P + angles P + 5) in
  let zeta := growth (11 * u) groups in
  0 <= u <= / 1000 -> relative_rounding u rnd -> mg_thin P groups T ->
  (forall m, (m < angles P)%nat -> 0 <= wt P m) -> 0 <= c -> 0 <= Q0 -> rho < 1 ->
  mg_ratio P groups T s c ->
  (forall i m g, (i < cells P)%nat -> (m < angles P)%nat -> (g < groups)%nat ->
     Rabs (at3 ext i (bidx (d3b ext) m) (bidx (d3c ext) g)) <= T (medium P i) g * Q0) ->
  (forall m g, (m < angles P)%nat -> (g < groups)%nat -> Rabs (mg_boundary bnd (mu P) g m) <= Q0) ->
  (forall m g, (m < angles P)%nat -> (g < groups)%nat ->
     leaves_reflective (mu P) (bc_left P) (bc_right P) (angles P - m - 1) = true -> mg_boundary bnd (mu P) g m = 0) ->
  0 <= B -> W * (c * B * (1 + zeta) + Q0) * (1 + eta) <= B ->
  mg_solution P groups T s ext bnd sol ->
  (forall i g, (i < cells P)%nat -> (g < groups)%nat -> Rabs (fo i g) <= B) ->
  flt_source_iteration rnd norm norm2 P groups fo T s ext bnd = Ok flux ->
  exists n, (1 <= n <= 100)%nat /\
    (forall i g, (i < cells P)%nat -> (g < groups)%nat -> Rabs (flux i g) <= B) /\
    (forall d, 0 <= d -> within2 (cells P) groups d fo sol ->
       within2 (cells P) groups (rho ^ n * d + W * (c * B * zeta + (c * B * (1 + zeta) + Q0) * eta) / (1 - rho)) flux sol) /\
    ((n < 100)%nat -> (forall v i g, (i < cells P)%nat -> (g < groups)%nat -> Rabs (v i g) <= norm2 v) ->
       within2 (cells P) groups
         ((rho * (101 / 100 * / 10 ^ 8 * INR (cells P) * B) + W * (c * B * zeta + (c * B * (1 + zeta) + Q0) * eta)) / (1 - rho)) flux sol).
Proof. exact (fun u rnd norm norm2 P groups T s ext bnd c Q0 B fo flux sol Hu Hr Ht Hw Hc HQ Hrho Hs He H1 H2 HB HB' Hsol =>
  mg_flt_error u rnd norm norm2 P groups T s ext bnd c Q0 B sol Hu Hr Ht Hw Hc HQ Hrho Hs He H1 H2 HB HB' Hsol fo flux). Qed.
Print Assumptions C112_multigroup.
Example C112_multigroup_case : exists flux sol,
  flt_source_iteration binary64_unbounded (fun v => Rabs (v 0%nat)) (fun v => Rabs (v 0%nat 0%nat)) demo 2 zeros2 duo_total
    duo_scatter duo_ext duo_bnd = Ok flux /\
  mg_solution demo 2 duo_total duo_scatter duo_ext duo_bnd sol /\
  exists n, (1 <= n <= 100)%nat /\
    forall d, 0 <= d -> within2 2 2 d zeros2 sol ->
       within2 2 2 ((3 / 8) ^ n * d + (3 / 8 * 7 * growth (11 * / 2 ^ 53) 2
         + (3 / 8 * 7 * (1 + growth (11 * / 2 ^ 53) 2) + 4) * growth (11 * / 2 ^ 53) 11) / (5 / 8)) flux sol.
Proof.
  destruct duo_error_data as (D1 & D2 & D3 & D4). destruct duo_solution as (sol & Hsol).
  destruct (flt_outer_total binary64_unbounded (fun v => Rabs (v 0%nat)) (fun v => Rabs (v 0%nat 0%nat)) demo 2 zeros2 duo_total duo_scatter
    duo_ext duo_bnd demo_nonzero) as [f E].
  exists f, sol. split; [exact E|]. split; [exact Hsol|].
  destruct (C112_multigroup (/ 2 ^ 53) binary64_unbounded (fun v => Rabs (v 0%nat)) (fun v => Rabs (v 0%nat 0%nat)) demo 2 duo_total
    duo_scatter duo_ext duo_bnd (3 / 8) 4 7 zeros2 f sol ltac:(cbn; lra) unbounded_relative duo_thin (proj1 duo_weights) ltac:(lra) ltac:(lra)
    (proj2 duo_weights) duo_ratio D1 D2 D3 ltac:(lra) D4 Hsol ltac:(intros; unfold zeros2; rewrite Rabs_R0; lra) E) as (n & Hn & _ & H & _).
  exists n. split; [exact Hn|]. intros d Hd Hdist i g Hi Hg. specialize (H d Hd Hdist i g Hi Hg).
  assert (W : rsum (angles demo) (wt demo) = 1) by (cbn; lra). rewrite W in H.
  change (2 * cells demo + angles demo + 5)%nat with 11%nat in H. rewrite !Rmult_1_l in H.
  replace (1 - 3 / 8) with (5 / 8) in H by lra. exact H.
Qed.

(** The bound in terms of the data alone: the flux never exceeds the largest initial value plus four times the
    weighted source over 1 - ratio, and the rounding term is 44 u per operation of a cell update chain *)
Theorem C112_explicit :
  forall u rnd norm norm2 P groups T s ext bnd c Q0 M fo flux sol,
  let W := rsum (angles P) (wt P) in
  let rho := W * c in
  let p := INR (2 * cells P + angles P + 5 + groups) in
  let B := M + 4 * W * Q0 / (1 - rho) in
  0 <= u <= / 1000 -> relative_rounding u rnd -> mg_thin P groups T ->
  (forall m, (m < angles P)%nat -> 0 <= wt P m) -> 0 <= c -> 0 <= Q0 -> rho < 1 ->
  mg_ratio P groups T s c ->
  (forall i m g, (i < cells P)%nat -> (m < angles P)%nat -> (g < groups)%nat ->
     Rabs (at3 ext i (bidx (d3b ext) m) (bidx (d3c ext) g)) <= T (medium P i) g * Q0) ->
  (forall m g, (m < angles P)%nat -> (g < groups)%nat -> Rabs (mg_boundary bnd (mu P) g m) <= Q0) ->
  (forall m g, (m < angles P)%nat -> (g < groups)%nat ->
     leaves_reflective (mu P) (bc_left P) (bc_right P) (angles P - m - 1) = true -> mg_boundary bnd (mu P) g m = 0) ->
  88 * u * p <= 1 - rho ->
  mg_solution P groups T s ext bnd sol ->
  0 <= M -> (forall i g, (i < cells P)%nat -> (g < groups)%nat -> Rabs (fo i g) <= M) ->
  flt_source_iteration rnd norm norm2 P groups fo T s ext bnd = Ok flux ->
  exists n, (1 <= n <= 100)%nat /\
    (forall i g, (i < cells P)%nat -> (g < groups)%nat -> Rabs (flux i g) <= B) /\
    (forall d, 0 <= d -> within2 (cells P) groups d fo sol ->
       within2 (cells P) groups (rho ^ n * d + 44 * u * p * B / (1 - rho)) flux sol) /\
    ((n < 100)%nat -> (forall v i g, (i < cells P)%nat -> (g < groups)%nat -> Rabs (v i g) <= norm2 v) ->
       within2 (cells P) groups ((rho * (101 / 100 * / 10 ^ 8 * INR (cells P) * B) + 44 * u * p * B) / (1 - rho)) flux sol).
Proof. exact mg_flt_explicit. Qed.
Print Assumptions C112_explicit.
Example C112_explicit_case : exists flux sol,
  flt_source_iteration binary64_unbounded (fun v => Rabs (v 0%nat)) (fun v => Rabs (v 0%nat 0%nat)) demo 2 zeros2 duo_total
    duo_scatter duo_ext duo_bnd = Ok flux /\
  mg_solution demo 2 duo_total duo_scatter duo_ext duo_bnd sol /\
  (forall i g, (i < 2)%nat -> (g < 2)%nat -> Rabs (flux i g) <= 128 / 5) /\
  exists n, (1 <= n <= 100)%nat /\
    forall d, 0 <= d -> within2 2 2 d zeros2 sol ->
       within2 2 2 ((3 / 8) ^ n * d + 24000 / 2 ^ 53) flux sol.
Proof.
  destruct duo_error_data as (D1 & D2 & D3 & _). destruct duo_solution as (sol & Hsol).
  destruct (flt_outer_total binary64_unbounded (fun v => Rabs (v 0%nat)) (fun v => Rabs (v 0%nat 0%nat)) demo 2 zeros2 duo_total duo_scatter
    duo_ext duo_bnd demo_nonzero) as [f E].
  exists f, sol. split; [exact E|]. split; [exact Hsol|].
  assert (W : rsum (angles demo) (wt demo) = 1) by (cbn; lra).
  assert (P : INR (2 * cells demo + angles demo + 5 + 2) = 13) by (cbn; lra).
  destruct (C112_explicit (/ 2 ^ 53) binary64_unbounded (fun v => Rabs (v 0%nat)) (fun v => Rabs (v 0%nat 0%nat)) demo 2 duo_total
    duo_scatter duo_ext duo_bnd (3 / 8) 4 0 zeros2 f sol ltac:(cbn; lra) unbounded_relative duo_thin (proj1 duo_weights) ltac:(lra) ltac:(lra)
    (proj2 duo_weights) duo_ratio D1 D2 D3 ltac:(rewrite P, W; cbn; lra) Hsol ltac:(lra)
    ltac:(intros; unfold zeros2; rewrite Rabs_R0; lra) E) as (n & Hn & HB & H & _).
  rewrite W in HB, H. rewrite P in H. rewrite !Rmult_1_l in H. split.
  - intros i g Hi Hg. eapply Rle_trans; [apply (HB i g Hi Hg)|]. lra.
  - exists n. split; [exact Hn|]. intros d Hd Hdist i g Hi Hg. eapply Rle_trans; [apply (H d Hd Hdist i g Hi Hg)|].
    apply Rplus_le_compat_l. cbn. lra.
Qed.

(** ** C113 The coarse energy index computed in double precision *)
Theorem C113_partition :
  forall fine coarse,
  (1 <= coarse <= fine)%nat -> (Z.of_nat coarse <= 2 ^ 25)%Z -> (Z.of_nat fine < 2 ^ 53)%Z ->
  exists idx, flt_energy_coarse_index binary64 fine coarse = Ok idx /\ partition fine coarse idx /\
    forall c, (c < coarse)%nat ->
      ((idx (c + 1) - idx c) = fine / coarse \/ (idx (c + 1) - idx c) = fine / coarse + 1)%nat.
Proof. exact flt_index_partition. Qed.
Print Assumptions C113_partition.
(** ... which need not be the index of exact arithmetic: with 54 groups into 31, block 14 gets the additional group *)
Theorem C113_moved_group :
  forall idx idx',
  flt_energy_coarse_index binary64 54 31 = Ok idx -> energy_coarse_index 54 31 = Ok idx' ->
  (idx 15 - idx 14 = 2)%nat /\ (idx' 15 - idx' 14 = 1)%nat.
Proof. exact moved_group. Qed.
Print Assumptions C113_moved_group.
Example C113_case : exists idx, flt_energy_coarse_index binary64 361 87 = Ok idx /\ partition 361 87 idx.
Proof.
  destruct (flt_index_partition 361 87 ltac:(lia) ltac:(cbn; lia) ltac:(cbn; lia)) as (idx & E & H & _). exists idx. auto.
Qed.
