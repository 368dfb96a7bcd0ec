(** Property theorems of the slab solvers (C01-C14, C73-C75).  Vocabulary: SlabSpec.v.
    Proofs are in SlabFacts*.v; witnesses in SlabWitness.v. *)
From Coq Require Import Lra Lia.
From Verif Require Import Base BaseFacts Contraction SlabModel SlabSpec.
From Verif Require Import SlabFacts SlabFacts2 SlabFacts3 SlabFacts4 SlabFacts5 SlabWitness.
From Verif Require MgFacts6.
Open Scope R_scope.

(** ** C01 One directional sweep solves the diamond-difference equations *)
Theorem C01_forward_sweep :
  forall P flux flux_old xs_total xs_scatter off ext inflow mu w edges out flux',
  0 < mu -> divisors_ok (cells P) mu (dx P) (fun i => xs_total (medium P i)) ->
  slab_forward_iso P flux flux_old xs_total xs_scatter off ext inflow mu w edges = (out, flux') ->
  exists psi,
    dd_balance (cells P) mu (dx P) (fun i => xs_total (medium P i))
      (fun i => xs_scatter (medium P i) * flux_old i + ext i + off i) psi /\
    psi 0%nat = inflow /\ out = psi (cells P) /\
    (edges = 1%nat -> forall i,
       flux' i = flux i + (if Nat.leb i (cells P) then w * psi i else 0)) /\
    (edges <> 1%nat -> forall i,
       flux' i = flux i + (if Nat.ltb i (cells P) then w * ((psi i + psi (S i)) / 2) else 0)) /\
    (forall psi', dd_balance (cells P) mu (dx P) (fun i => xs_total (medium P i))
        (fun i => xs_scatter (medium P i) * flux_old i + ext i + off i) psi' ->
      psi' 0%nat = inflow -> forall k, (k <= cells P)%nat -> psi' k = psi k).
Proof. exact forward_sweep. Qed.
Print Assumptions C01_forward_sweep.
Theorem C01_backward_sweep :
  forall P flux flux_old xs_total xs_scatter off ext inflow mu w edges out flux',
  mu < 0 -> divisors_ok (cells P) mu (dx P) (fun i => xs_total (medium P i)) ->
  slab_backward_iso P flux flux_old xs_total xs_scatter off ext inflow mu w edges = (out, flux') ->
  exists psi,
    dd_balance (cells P) mu (dx P) (fun i => xs_total (medium P i))
      (fun i => xs_scatter (medium P i) * flux_old i + ext i + off i) psi /\
    psi (cells P) = inflow /\ out = psi 0%nat /\
    (edges = 1%nat -> forall i,
       flux' i = flux i + (if Nat.leb i (cells P) then w * psi i else 0)) /\
    (edges <> 1%nat -> forall i,
       flux' i = flux i + (if Nat.ltb i (cells P) then w * ((psi i + psi (S i)) / 2) else 0)) /\
    (forall psi', dd_balance (cells P) mu (dx P) (fun i => xs_total (medium P i))
        (fun i => xs_scatter (medium P i) * flux_old i + ext i + off i) psi' ->
      psi' (cells P) = inflow -> forall k, (k <= cells P)%nat -> psi' k = psi k).
Proof. exact backward_sweep. Qed.
Print Assumptions C01_backward_sweep.
(** hypotheses met by a two-cell, two-material slab *)
Example C01_case : 0 < mu demo 0%nat /\ mu demo 1%nat < 0 /\
  divisors_ok (cells demo) (mu demo 0%nat) (dx demo) (fun i => demo_total (medium demo i)) /\
  divisors_ok (cells demo) (mu demo 1%nat) (dx demo) (fun i => demo_total (medium demo i)).
Proof.
  split; [cbn; lra|]. split; [cbn; lra|].
  split; apply demo_divisors; cbn; lia.
Qed.

(** ** C02 Particle conservation: any sweep, the returned flux, and a fixed point *)
Theorem C02_pass_conservation :
  forall P xs_total xs_scatter off external boundary flux_old flux,
  nonzero_ordinates (angles P) (mu P) -> good_divisors P xs_total ->
  (forall i, (i < cells P)%nat -> dx P i <> 0) ->
  slab_iso_pass P xs_total xs_scatter off external boundary 0 flux_old = Ok flux ->
  exists psi,
    slab_transport (cells P) (angles P) (mu P) (wt P) (dx P) (fun i => xs_total (medium P i))
      (iso_source (medium P) xs_scatter off external flux_old)
      (fun m => reflected_in (cells P) (angles P) (mu P) (bc_left P) (bc_right P) psi m
                + boundary_in boundary (mu P) m)
      psi flux /\
    total_leakage (cells P) (angles P) (mu P) (wt P) psi
    + rsum (cells P) (fun i => dx P i * xs_total (medium P i) * flux i)
    = rsum (cells P) (fun i => dx P i *
        rsum (angles P) (fun m => wt P m * iso_source (medium P) xs_scatter off external flux_old m i)).
Proof. exact pass_conservation. Qed.
Print Assumptions C02_pass_conservation.
Theorem C02_returned_flux_is_a_sweep :
  forall P xs_total xs_scatter off external boundary edges flux_old flux,
  slab_isotropic_sn P flux_old xs_total xs_scatter off external boundary edges = Ok flux ->
  exists prev, slab_iso_pass P xs_total xs_scatter off external boundary edges prev = Ok flux.
Proof. exact driver_last_pass. Qed.
Print Assumptions C02_returned_flux_is_a_sweep.
Theorem C02_fixed_point_balance :
  forall P xs_total xs_scatter off external boundary flux,
  nonzero_ordinates (angles P) (mu P) -> good_divisors P xs_total ->
  (forall i, (i < cells P)%nat -> dx P i <> 0) ->
  slab_iso_pass P xs_total xs_scatter off external boundary 0 flux = Ok flux ->
  exists psi,
    slab_transport (cells P) (angles P) (mu P) (wt P) (dx P) (fun i => xs_total (medium P i))
      (iso_source (medium P) xs_scatter off external flux)
      (fun m => reflected_in (cells P) (angles P) (mu P) (bc_left P) (bc_right P) psi m
                + boundary_in boundary (mu P) m)
      psi flux /\
    total_leakage (cells P) (angles P) (mu P) (wt P) psi
    + rsum (cells P) (fun i => dx P i *
        (xs_total (medium P i) - rsum (angles P) (wt P) * xs_scatter (medium P i)) * flux i)
    = rsum (cells P) (fun i => dx P i *
        (rsum (angles P) (wt P) * off i
         + rsum (angles P) (fun m => wt P m * at2 external i (bidx (cols2 external) m)))).
Proof. exact fixed_point_balance. Qed.
Print Assumptions C02_fixed_point_balance.
Example C02_case : nonzero_ordinates (angles demo) (mu demo) /\ good_divisors demo demo_total /\
  (forall i, (i < cells demo)%nat -> dx demo i <> 0) /\
  exists flux, slab_iso_pass demo demo_total demo_scatter zeros demo_ext demo_bnd 0 zeros = Ok flux.
Proof.
  split; [exact demo_nonzero|]. split; [exact demo_divisors|]. split; [exact demo_dx|].
  eexists. apply slab_iso_pass_ok. exact demo_nonzero.
Qed.

(** ** C03 The flat infinite-medium solution is preserved *)
Theorem C03_pass_flat :
  forall P xs_total xs_scatter off external boundary flux_old c,
  let W := rsum (angles P) (wt P) in
  nonzero_ordinates (angles P) (mu P) -> good_divisors P xs_total ->
  (forall i, (i < cells P)%nat -> flux_old i = W * c) ->
  (forall m i, (m < angles P)%nat -> (i < cells P)%nat ->
     xs_total (medium P i) * c
     = xs_scatter (medium P i) * (W * c) + at2 external i (bidx (cols2 external) m) + off i) ->
  (forall m, (m < angles P)%nat ->
     boundary_in boundary (mu P) m =
     if andb (Nat.ltb (angles P - m - 1) m)
             (leaves_reflective (mu P) (bc_left P) (bc_right P) (angles P - m - 1)) then 0 else c) ->
  exists flux,
    slab_iso_pass P xs_total xs_scatter off external boundary 0 flux_old = Ok flux /\
    forall i, (i < cells P)%nat -> flux i = W * c.
Proof. exact pass_flat. Qed.
Print Assumptions C03_pass_flat.
Theorem C03_driver_flat :
  forall P xs_total xs_scatter off external boundary flux_old c,
  let W := rsum (angles P) (wt P) in
  nonzero_ordinates (angles P) (mu P) -> good_divisors P xs_total -> W * c <> 0 ->
  (forall i, (i < cells P)%nat -> flux_old i = W * c) ->
  (forall m i, (m < angles P)%nat -> (i < cells P)%nat ->
     xs_total (medium P i) * c
     = xs_scatter (medium P i) * (W * c) + at2 external i (bidx (cols2 external) m) + off i) ->
  (forall m, (m < angles P)%nat ->
     boundary_in boundary (mu P) m =
     if andb (Nat.ltb (angles P - m - 1) m)
             (leaves_reflective (mu P) (bc_left P) (bc_right P) (angles P - m - 1)) then 0 else c) ->
  exists flux,
    slab_isotropic_sn P flux_old xs_total xs_scatter off external boundary 0 = Ok flux /\
    forall i, (i < cells P)%nat -> flux i = W * c.
Proof. exact driver_flat. Qed.
Print Assumptions C03_driver_flat.
Example C03_case :
  rsum (angles demo) (wt demo) * 2 <> 0 /\
  (forall m i, (m < angles demo)%nat -> (i < cells demo)%nat ->
     demo_total (medium demo i) * 2
     = demo_scatter (medium demo i) * (rsum (angles demo) (wt demo) * 2)
       + at2 flat_ext i (bidx (cols2 flat_ext) m) + zeros i) /\
  (forall m, (m < angles demo)%nat ->
     boundary_in flat_bnd (mu demo) m =
     if andb (Nat.ltb (angles demo - m - 1) m)
             (leaves_reflective (mu demo) (bc_left demo) (bc_right demo) (angles demo - m - 1)) then 0 else 2).
Proof.
  split; [cbn; lra|]. split.
  - intros m i Hm Hi. small i Hi; cbn; unfold zeros; lra.
  - intros m Hm. unfold boundary_in, leaves_reflective.
    small m Hm; cbn; destruct (Rlt_dec 0 (1 / 2)); try lra; destruct (Rlt_dec 0 (- (1 / 2))); try lra; reflexivity.
Qed.

(** ** C04 Positivity under the mesh condition; refuted without it *)
Theorem C04_pass_nonneg :
  forall P xs_total xs_scatter off external boundary edges flux_old flux,
  nonzero_ordinates (angles P) (mu P) ->
  (forall m, (m < angles P)%nat -> 0 <= wt P m) ->
  (forall i, (i < cells P)%nat -> 0 < dx P i /\ 0 <= xs_total (medium P i) /\ 0 <= xs_scatter (medium P i)
      /\ 0 <= off i /\ 0 <= flux_old i) ->
  (forall m i, (m < angles P)%nat -> (i < cells P)%nat ->
      dx P i * xs_total (medium P i) <= 2 * Rabs (mu P m) /\
      0 <= at2 external i (bidx (cols2 external) m)) ->
  (forall m, (m < angles P)%nat -> 0 <= boundary_in boundary (mu P) m) ->
  slab_iso_pass P xs_total xs_scatter off external boundary edges flux_old = Ok flux ->
  forall i, 0 <= flux i.
Proof. exact pass_nonneg. Qed.
Print Assumptions C04_pass_nonneg.
Theorem C04_driver_nonneg :
  forall P xs_total xs_scatter off external boundary flux_old flux,
  nonzero_ordinates (angles P) (mu P) ->
  (forall m, (m < angles P)%nat -> 0 <= wt P m) ->
  (forall i, (i < cells P)%nat -> 0 < dx P i /\ 0 <= xs_total (medium P i) /\ 0 <= xs_scatter (medium P i)
      /\ 0 <= off i /\ 0 <= flux_old i) ->
  (forall m i, (m < angles P)%nat -> (i < cells P)%nat ->
      dx P i * xs_total (medium P i) <= 2 * Rabs (mu P m) /\
      0 <= at2 external i (bidx (cols2 external) m)) ->
  (forall m, (m < angles P)%nat -> 0 <= boundary_in boundary (mu P) m) ->
  slab_isotropic_sn P flux_old xs_total xs_scatter off external boundary 0 = Ok flux ->
  forall i, (i < cells P)%nat -> 0 <= flux i.
Proof. exact driver_nonneg. Qed.
Print Assumptions C04_driver_nonneg.
Theorem C04_thick_cells_refuted : exists P xs_total xs_scatter off external boundary flux_old flux,
  nonzero_ordinates (angles P) (mu P) /\ (forall m, 0 <= wt P m) /\
  (forall i, 0 < dx P i /\ 0 <= xs_total (medium P i) /\ 0 <= xs_scatter (medium P i)
             /\ 0 <= off i /\ 0 <= flux_old i) /\
  (forall i c, 0 <= at2 external i c) /\ (forall r c, 0 <= at2 boundary r c) /\
  slab_iso_pass P xs_total xs_scatter off external boundary 0 flux_old = Ok flux /\
  exists i, (i < cells P)%nat /\ flux i < 0.
Proof. exact thick_negative_full. Qed.
Print Assumptions C04_thick_cells_refuted.
Example C04_case : (forall m i, (m < angles demo)%nat -> (i < cells demo)%nat ->
      dx demo i * demo_total (medium demo i) <= 2 * Rabs (mu demo m) /\
      0 <= at2 demo_ext i (bidx (cols2 demo_ext) m)).
Proof.
  intros m i Hm Hi. destruct (demo_thin m i Hm Hi) as (_ & _ & H). split; [exact H|]. cbn. lra.
Qed.

(** ** C05 Linearity in all the data *)
Theorem C05_pass_linear :
  forall P xs_total xs_scatter off1 off2 cE cB e1 e2 b1 b2 edges f1 f2 r1 r2 a b,
  slab_iso_pass P xs_total xs_scatter off1 (mkArr2 cE e1) (mkArr2 cB b1) edges f1 = Ok r1 ->
  slab_iso_pass P xs_total xs_scatter off2 (mkArr2 cE e2) (mkArr2 cB b2) edges f2 = Ok r2 ->
  slab_iso_pass P xs_total xs_scatter (fun i => a * off1 i + b * off2 i)
    (mkArr2 cE (fun i j => a * e1 i j + b * e2 i j)) (mkArr2 cB (fun i j => a * b1 i j + b * b2 i j))
    edges (fun i => a * f1 i + b * f2 i)
  = Ok (fun i => a * r1 i + b * r2 i).
Proof. exact pass_linear. Qed.
Print Assumptions C05_pass_linear.
Theorem C05_forward_linear :
  forall P f1 f2 fo1 fo2 xs_total xs_scatter off1 off2 ext1 ext2 e1 e2 mu w edges a b,
  let k f fo off ext e := slab_forward_iso P f fo xs_total xs_scatter off ext e mu w edges in
  k (lin a b f1 f2) (lin a b fo1 fo2) (lin a b off1 off2) (lin a b ext1 ext2) (a * e1 + b * e2)
  = (a * fst (k f1 fo1 off1 ext1 e1) + b * fst (k f2 fo2 off2 ext2 e2),
     lin a b (snd (k f1 fo1 off1 ext1 e1)) (snd (k f2 fo2 off2 ext2 e2))).
Proof. exact kernel_linear_fwd. Qed.
Print Assumptions C05_forward_linear.
Theorem C05_backward_linear :
  forall P f1 f2 fo1 fo2 xs_total xs_scatter off1 off2 ext1 ext2 e1 e2 mu w edges a b,
  let k f fo off ext e := slab_backward_iso P f fo xs_total xs_scatter off ext e mu w edges in
  k (lin a b f1 f2) (lin a b fo1 fo2) (lin a b off1 off2) (lin a b ext1 ext2) (a * e1 + b * e2)
  = (a * fst (k f1 fo1 off1 ext1 e1) + b * fst (k f2 fo2 off2 ext2 e2),
     lin a b (snd (k f1 fo1 off1 ext1 e1)) (snd (k f2 fo2 off2 ext2 e2))).
Proof. exact kernel_linear_bwd. Qed.
Print Assumptions C05_backward_linear.
Theorem C05_known_source_linear :
  forall P f1 f2 xdim xs_total cS s1 s2 cB b1 b2 edges a b,
  slab_known_source_sn P (fun i j => a * f1 i j + b * f2 i j) xdim xs_total
    (mkArr2 cS (fun i j => a * s1 i j + b * s2 i j)) (mkArr2 cB (fun i j => a * b1 i j + b * b2 i j)) edges
  = fun i j =>
      a * slab_known_source_sn P f1 xdim xs_total (mkArr2 cS s1) (mkArr2 cB b1) edges i j
      + b * slab_known_source_sn P f2 xdim xs_total (mkArr2 cS s2) (mkArr2 cB b2) edges i j.
Proof. exact known_linear. Qed.
Print Assumptions C05_known_source_linear.
Example C05_case : exists r1 r2,
  slab_iso_pass demo demo_total demo_scatter zeros (mkArr2 1 (fun _ _ => 1)) (mkArr2 1 (fun _ _ => 0)) 0 zeros = Ok r1 /\
  slab_iso_pass demo demo_total demo_scatter zeros (mkArr2 1 (fun _ _ => 0)) (mkArr2 1 (fun _ _ => 3)) 0 zeros = Ok r2.
Proof. eexists. eexists. split; apply slab_iso_pass_ok; exact demo_nonzero. Qed.

(** ** C06 Mirror symmetry: one ordinate, one sweep, the whole solve *)
Theorem C06_kernel_mirror :
  forall P flux flux_old xs_total xs_scatter off ext inflow mu w edges,
  let n := cells P in
  let bw := slab_backward_iso P flux flux_old xs_total xs_scatter off ext inflow (- mu) w edges in
  let fw := slab_forward_iso (mirror_sn P) (fun i => if Nat.eqb edges 1 then flux (n - i)%nat else flux (n - 1 - i)%nat)
              (mirrored n flux_old) xs_total xs_scatter (mirrored n off) (mirrored n ext) inflow mu w edges in
  fst bw = fst fw /\
  (edges = 1%nat -> forall i, (i <= n)%nat -> snd bw i = snd fw (n - i)%nat) /\
  (edges <> 1%nat -> forall i, (i < n)%nat -> snd bw i = snd fw (n - 1 - i)%nat).
Proof. exact kernel_mirror. Qed.
Print Assumptions C06_kernel_mirror.
Theorem C06_pass_mirror :
  forall P xs_total xs_scatter off external boundary flux_old flux,
  slab_iso_pass P xs_total xs_scatter off external boundary 0 flux_old = Ok flux ->
  exists flux',
    slab_iso_pass (mirror_sn P) xs_total xs_scatter (mirrored (cells P) off)
      (mirror_rows (cells P) external) (mirror_rows 2 boundary) 0 (mirrored (cells P) flux_old) = Ok flux' /\
    forall i, (i < cells P)%nat -> flux' i = mirrored (cells P) flux i.
Proof. exact pass_mirror. Qed.
Print Assumptions C06_pass_mirror.
Theorem C06_driver_mirror :
  forall P xs_total xs_scatter off external boundary flux_old,
  nonzero_ordinates (angles P) (mu P) ->
  exists flux flux',
    slab_isotropic_sn P flux_old xs_total xs_scatter off external boundary 0 = Ok flux /\
    slab_isotropic_sn (mirror_sn P) (mirrored (cells P) flux_old) xs_total xs_scatter
      (mirrored (cells P) off) (mirror_rows (cells P) external) (mirror_rows 2 boundary) 0 = Ok flux' /\
    forall i, (i < cells P)%nat -> flux' i = mirrored (cells P) flux i.
Proof. exact driver_mirror. Qed.
Print Assumptions C06_driver_mirror.
Example C06_case : nonzero_ordinates (angles demo) (mu demo) /\
  mirrored (cells demo) (dx demo) 0%nat <> dx demo 0%nat.
Proof. split; [exact demo_nonzero|cbn; lra]. Qed.

(** ** C07 Reflective boundaries *)
Theorem C07_reflective :
  forall P xs_total xs_scatter off external boundary flux_old flux,
  symmetric_quadrature (angles P) (mu P) -> good_divisors P xs_total ->
  ordered_for (angles P) (mu P) (bc_left P) (bc_right P) ->
  slab_iso_pass P xs_total xs_scatter off external boundary 0 flux_old = Ok flux ->
  exists psi,
    slab_transport (cells P) (angles P) (mu P) (wt P) (dx P) (fun i => xs_total (medium P i))
      (iso_source (medium P) xs_scatter off external flux_old)
      (reflective_inflow (cells P) (angles P) (mu P) (bc_left P) (bc_right P) boundary psi)
      psi flux.
Proof. exact pass_reflective. Qed.
Print Assumptions C07_reflective.
(** With both sides reflective no ordering works; the first ordinate swept misses its image. *)
Theorem C07_both_reflective_refuted : exists P xs_total xs_scatter off external boundary flux_old flux,
  symmetric_quadrature (angles P) (mu P) /\ good_divisors P xs_total /\
  bc_left P = 1%nat /\ bc_right P = 1%nat /\
  slab_iso_pass P xs_total xs_scatter off external boundary 0 flux_old = Ok flux /\
  ~ exists psi,
    slab_transport (cells P) (angles P) (mu P) (wt P) (dx P) (fun i => xs_total (medium P i))
      (iso_source (medium P) xs_scatter off external flux_old)
      (reflective_inflow (cells P) (angles P) (mu P) (bc_left P) (bc_right P) boundary psi)
      psi flux.
Proof. exact both_reflective. Qed.
Print Assumptions C07_both_reflective_refuted.
Example C07_case : symmetric_quadrature (angles demo) (mu demo) /\
  ordered_for (angles demo) (mu demo) (bc_left demo) (bc_right demo) /\ bc_right demo = 1%nat.
Proof. split; [exact demo_symmetric|]. split; [exact demo_ordered|reflexivity]. Qed.

(** ** C08 A zero ordinate *)
Theorem C08_iterative_raises :
  forall P flux_old xs_total xs_scatter off external boundary edges m,
  (m < angles P)%nat -> mu P m = 0 ->
  slab_isotropic_sn P flux_old xs_total xs_scatter off external boundary edges = Raise DiscontinuityAt0.
Proof. exact driver_zero_ordinate. Qed.
Print Assumptions C08_iterative_raises.
Theorem C08_anisotropic_raises :
  forall P flux_old nm xs_total xs_w off external boundary edges leg legw m,
  (m < angles P)%nat -> mu P m = 0 ->
  slab_anisotropic_sn P flux_old nm xs_total xs_w off external boundary edges leg legw = Raise DiscontinuityAt0.
Proof. exact aniso_driver_zero. Qed.
Print Assumptions C08_anisotropic_raises.
(** The known-source sweep instead silently leaves the column of that ordinate untouched. *)
Theorem C08_known_source_silent_refuted :
  forall P flux0 xs_total source boundary edges i m,
  angles P <> 1%nat -> mu P m = 0 ->
  slab_known_source_sn P flux0 (angles P) xs_total source boundary edges i m = flux0 i m.
Proof. exact known_zero_column. Qed.
Print Assumptions C08_known_source_silent_refuted.
Example C08_case : exists P m, (m < angles P)%nat /\ mu P m = 0 /\ angles P <> 1%nat.
Proof.
  exists (mkSn 1 (fun _ => 0%nat) (fun _ => 1) 3 (fun m => INR m - 1) (fun _ => 1) 0 0), 1%nat.
  cbn. repeat split; try lia. lra.
Qed.

(** ** C09 Termination of the inner iteration and meaning of the result *)
Theorem C09_inner_trace :
  forall P flux_old xs_total xs_scatter off external boundary edges flux,
  slab_isotropic_sn P flux_old xs_total xs_scatter off external boundary edges = Ok flux ->
  exists n x,
    (1 <= n <= 100)%nat /\ x 0%nat = flux_old /\ flux = x n /\
    (forall k, (k < n)%nat ->
       slab_iso_pass P xs_total xs_scatter off external boundary edges (x k) = Ok (x (S k))) /\
    (forall k, (0 < k < n)%nat -> ~ settled (cells P) (x k) (x (k - 1)%nat) (/ 10 ^ 12)) /\
    ((n < 100)%nat -> settled (cells P) (x n) (x (n - 1)%nat) (/ 10 ^ 12)).
Proof. exact driver_exit. Qed.
Print Assumptions C09_inner_trace.
Theorem C09_inner_total :
  forall P flux_old xs_total xs_scatter off external boundary edges,
  nonzero_ordinates (angles P) (mu P) ->
  exists flux, slab_isotropic_sn P flux_old xs_total xs_scatter off external boundary edges = Ok flux.
Proof. exact driver_total. Qed.
Print Assumptions C09_inner_total.
Example C09_case : exists flux,
  slab_isotropic_sn demo zeros demo_total demo_scatter zeros demo_ext demo_bnd 0 = Ok flux.
Proof. apply driver_total. exact demo_nonzero. Qed.

(** ** C10 A converged flux is returned unchanged *)
Theorem C10_fixed_point_returned :
  forall P xs_total xs_scatter off external boundary flux,
  slab_iso_pass P xs_total xs_scatter off external boundary 0 flux = Ok flux ->
  (forall i, (i < cells P)%nat -> flux i <> 0) ->
  slab_isotropic_sn P flux xs_total xs_scatter off external boundary 0 = Ok flux.
Proof. exact driver_fixed_point. Qed.
Print Assumptions C10_fixed_point_returned.
Example C10_case : exists flux,
  slab_iso_pass demo demo_total demo_scatter zeros flat_ext flat_bnd 0 flux = Ok flux /\
  (forall i, (i < cells demo)%nat -> flux i <> 0).
Proof. exact demo_fixed_point. Qed.

(** ** C11, C12 Known source: scalar flux, centers and edges *)
Theorem C11_scalar_is_quadrature_sum :
  forall P xs_total source boundary edges i,
  angles P <> 1%nat ->
  slab_known_source_sn P zeros2 1 xs_total source boundary edges i 0%nat
  = rsum (angles P) (fun m => wt P m *
      slab_known_source_sn P zeros2 (angles P) xs_total source boundary edges i m).
Proof. exact known_scalar_angular. Qed.
Print Assumptions C11_scalar_is_quadrature_sum.
Theorem C11_known_source_transport :
  forall P xs_total source boundary,
  angles P <> 1%nat -> nonzero_ordinates (angles P) (mu P) -> good_divisors P xs_total ->
  exists psi,
    slab_transport (cells P) (angles P) (mu P) (wt P) (dx P) (fun i => xs_total (medium P i))
      (fun m i => at2 source i (bidx (cols2 source) m))
      (fun m => reflected_in (cells P) (angles P) (mu P) (bc_left P) (bc_right P) psi m
                + boundary_in boundary (mu P) m)
      psi (fun i => slab_known_source_sn P zeros2 1 xs_total source boundary 0 i 0%nat) /\
    (forall m k, (m < angles P)%nat -> (k <= cells P)%nat ->
       slab_known_source_sn P zeros2 (angles P) xs_total source boundary 1 k m = psi m k) /\
    (forall m i, (m < angles P)%nat -> (i < cells P)%nat ->
       slab_known_source_sn P zeros2 (angles P) xs_total source boundary 0 i m = (psi m i + psi m (S i)) / 2).
Proof. exact known_transport. Qed.
Print Assumptions C11_known_source_transport.
Theorem C12_center_is_edge_average :
  forall P xs_total source boundary i m,
  angles P <> 1%nat -> (m < angles P)%nat -> (i < cells P)%nat ->
  slab_known_source_sn P zeros2 (angles P) xs_total source boundary 0 i m
  = (slab_known_source_sn P zeros2 (angles P) xs_total source boundary 1 i m
     + slab_known_source_sn P zeros2 (angles P) xs_total source boundary 1 (S i) m) / 2.
Proof. exact known_center_edge. Qed.
Print Assumptions C12_center_is_edge_average.
Example C11_case : angles demo <> 1%nat /\ nonzero_ordinates (angles demo) (mu demo) /\ good_divisors demo demo_total.
Proof. split; [cbn; lia|]. split; [exact demo_nonzero|exact demo_divisors]. Qed.
Example C12_case : angles demo <> 1%nat /\ (1 < angles demo)%nat /\ (1 < cells demo)%nat /\ dx demo 0%nat <> dx demo 1%nat.
Proof. cbn. repeat split; try lia; try lra. Qed.

(** ** C13 DJINN scatter sweep *)
Theorem C13_scatter_sweep_is_pass :
  forall P xs_total xs_scatter off external boundary phi ss,
  cols2 external = cols2 boundary ->
  (cols2 external = 1%nat \/ (angles P <= cols2 external)%nat) ->
  (forall i, (i < cells P)%nat -> ss i = xs_scatter (medium P i) * phi i + off i) ->
  slab_scatter_source_sn P xs_total ss external boundary
  = slab_iso_pass P xs_total xs_scatter off external boundary 0 phi.
Proof. exact scatter_equals_pass. Qed.
Print Assumptions C13_scatter_sweep_is_pass.
Theorem C13_index_error_refuted :
  forall P xs_total ss external boundary,
  (2 <= angles P)%nat -> cols2 external <> 1%nat -> cols2 boundary = 1%nat ->
  mu P 0%nat <> 0 -> mu P 1%nat <> 0 ->
  slab_scatter_source_sn P xs_total ss external boundary = Raise IndexError.
Proof. exact scatter_index_error. Qed.
Print Assumptions C13_index_error_refuted.
Theorem C13_angular_boundary_refuted : exists P xs_total external boundary f1 f2,
  cols2 external = 1%nat /\ cols2 boundary = angles P /\
  slab_scatter_source_sn P xs_total zeros external boundary = Ok f1 /\
  slab_iso_pass P xs_total zeros zeros external boundary 0 zeros = Ok f2 /\
  f1 0%nat <> f2 0%nat.
Proof. exact beam_refutes_full. Qed.
Print Assumptions C13_angular_boundary_refuted.
Example C13_case : cols2 demo_ext = cols2 demo_bnd /\ (cols2 demo_ext = 1%nat \/ (angles demo <= cols2 demo_ext)%nat).
Proof. split; [reflexivity|left; reflexivity]. Qed.
Example C13_case2 : (2 <= angles demo)%nat /\ mu demo 0%nat <> 0 /\ mu demo 1%nat <> 0.
Proof. cbn. repeat split; (lia || lra). Qed.

(** ** C14 One Legendre moment is the isotropic solver *)
Theorem C14_one_moment_is_isotropic :
  forall P flux_old xs_total xs_scatter xs_w off external boundary leg legw,
  (forall i, (i < cells P)%nat -> xs_w i 0%nat = xs_scatter (medium P i)) ->
  (forall m, (m < angles P)%nat -> leg 0%nat m = 1 /\ legw 0%nat m = wt P m) ->
  slab_anisotropic_sn P flux_old 1 xs_total xs_w off external boundary 0 leg legw
  = slab_isotropic_sn P flux_old xs_total xs_scatter off external boundary 0.
Proof. exact aniso_is_iso. Qed.
Print Assumptions C14_one_moment_is_isotropic.
Example C14_case : exists xs_w leg legw : mat2,
  (forall i, (i < cells demo)%nat -> xs_w i 0%nat = demo_scatter (medium demo i)) /\
  (forall m, (m < angles demo)%nat -> leg 0%nat m = 1 /\ legw 0%nat m = wt demo m).
Proof.
  exists (fun i _ => demo_scatter (medium demo i)), (fun _ _ => 1), (fun _ m => wt demo m).
  split; intros; [reflexivity|split; reflexivity].
Qed.

(** ** C73 Anisotropic sweep: equations, moments, iteration *)
Theorem C73_aniso_transport :
  forall P nm xs_total xs_w off external boundary leg legw old flux mom,
  good_divisors P xs_total ->
  slab_aniso_pass P nm xs_total xs_w off external boundary 0 leg legw old = Ok (flux, mom) ->
  exists psi,
    slab_transport (cells P) (angles P) (mu P) (wt P) (dx P) (fun i => xs_total (medium P i))
      (fun m i => rsum nm (fun l => xs_w i l * snd old i l * leg l m)
                  + at2 external i (bidx (cols2 external) m) + off i)
      (fun m => reflected_in (cells P) (angles P) (mu P) (bc_left P) (bc_right P) psi m
                + boundary_in boundary (mu P) m)
      psi flux /\
    (forall i l, (i < cells P)%nat ->
       mom i l = rsum (angles P) (fun m => legw l m * ((psi m i + psi m (S i)) / 2))).
Proof. exact aniso_pass_transport. Qed.
Print Assumptions C73_aniso_transport.
Theorem C73_aniso_trace :
  forall P nm flux_old xs_total xs_w off external boundary edges leg legw flux,
  slab_anisotropic_sn P flux_old nm xs_total xs_w off external boundary edges leg legw = Ok flux ->
  exists n x,
    (1 <= n <= 100)%nat /\
    x 0%nat = (flux_old, fun i l => if Nat.eqb l 0 then flux_old i else 0) /\ flux = fst (x n) /\
    (forall k, (k < n)%nat ->
       slab_aniso_pass P nm xs_total xs_w off external boundary edges leg legw (x k) = Ok (x (S k))) /\
    (forall k, (0 < k < n)%nat -> ~ settled (cells P) (fst (x k)) (fst (x (k - 1)%nat)) (/ 10 ^ 12)) /\
    ((n < 100)%nat -> settled (cells P) (fst (x n)) (fst (x (n - 1)%nat)) (/ 10 ^ 12)).
Proof. exact aniso_driver_last. Qed.
Print Assumptions C73_aniso_trace.
Example C73_case : good_divisors demo demo_total /\ (exists r leg legw xs_w,
  xs_w 0%nat 1%nat <> 0 /\ leg 1%nat 0%nat <> 0 /\
  slab_aniso_pass demo 2 demo_total xs_w zeros demo_ext demo_bnd 0 leg legw (zeros, fun _ _ => 1) = Ok r) /\
  exists flux, slab_anisotropic_sn demo zeros 2 demo_total (fun _ _ => 1 / 4) zeros demo_ext demo_bnd 0 (fun l m => if Nat.eqb l 0 then 1 else mu demo m)
    (fun l m => wt demo m * if Nat.eqb l 0 then 1 else mu demo m) = Ok flux.
Proof.
  split; [exact demo_divisors|]. split.
  - eexists. exists (fun l m => if Nat.eqb l 0 then 1 else mu demo m), (fun l m => wt demo m * if Nat.eqb l 0 then 1 else mu demo m), (fun _ _ => 1 / 4).
    split; [lra|]. split; [cbn; lra|]. apply slab_aniso_pass_ok. exact demo_nonzero.
  - unfold slab_anisotropic_sn.
    match goal with |- exists f, bind (iterate count_nn ?st ?ch change_nn count_nn 1 ?x0) _ = _ =>
      assert (Hs : forall x, exists y, st x = Ok y) by (intros x; eexists; apply slab_aniso_pass_ok; exact demo_nonzero);
      destruct (MgFacts6.iterate_total st ch change_nn count_nn Hs count_nn 1%nat x0 ltac:(unfold count_nn; lia)) as [r Hr] end.
    rewrite Hr. eexists. reflexivity.
Qed.

(** ** C74 Anisotropic conservation *)
Theorem C74_aniso_conservation :
  forall P nm xs_total xs_w off external boundary leg legw old flux mom,
  good_divisors P xs_total -> (forall i, (i < cells P)%nat -> dx P i <> 0) -> (1 <= nm)%nat ->
  (forall m, (m < angles P)%nat -> leg 0%nat m = 1) ->
  (forall l, (1 <= l < nm)%nat -> rsum (angles P) (fun m => wt P m * leg l m) = 0) ->
  slab_aniso_pass P nm xs_total xs_w off external boundary 0 leg legw old = Ok (flux, mom) ->
  exists psi,
    slab_transport (cells P) (angles P) (mu P) (wt P) (dx P) (fun i => xs_total (medium P i))
      (fun m i => rsum nm (fun l => xs_w i l * snd old i l * leg l m)
                  + at2 external i (bidx (cols2 external) m) + off i)
      (fun m => reflected_in (cells P) (angles P) (mu P) (bc_left P) (bc_right P) psi m
                + boundary_in boundary (mu P) m)
      psi flux /\
    total_leakage (cells P) (angles P) (mu P) (wt P) psi
    + rsum (cells P) (fun i => dx P i * xs_total (medium P i) * flux i)
    = rsum (cells P) (fun i => dx P i *
        (rsum (angles P) (wt P) * (xs_w i 0%nat * snd old i 0%nat + off i)
         + rsum (angles P) (fun m => wt P m * at2 external i (bidx (cols2 external) m)))).
Proof. exact aniso_conservation. Qed.
Print Assumptions C74_aniso_conservation.
(** two moments, P_1 = mu, Gauss-like two-point rule *)
Example C74_case : (forall m, (m < angles demo)%nat -> (fun l m => if Nat.eqb l 0 then 1 else mu demo m) 0%nat m = 1) /\
  (forall l, (1 <= l < 2)%nat ->
     rsum (angles demo) (fun m => wt demo m * (fun l m => if Nat.eqb l 0 then 1 else mu demo m) l m) = 0).
Proof.
  split; [reflexivity|]. intros l Hl. replace l with 1%nat by lia. cbn. lra.
Qed.

(** ** C75 The inner iteration contracts; unique solution; error bound on return *)
Theorem C75_pass_contracts :
  forall P xs_total xs_scatter off external boundary f g f' g' c d,
  thin_mesh P xs_total ->
  (forall m, (m < angles P)%nat -> 0 <= wt P m) -> 0 <= c -> 0 <= d ->
  (forall i, (i < cells P)%nat -> Rabs (xs_scatter (medium P i)) <= c * xs_total (medium P i)) ->
  slab_iso_pass P xs_total xs_scatter off external boundary 0 f = Ok f' ->
  slab_iso_pass P xs_total xs_scatter off external boundary 0 g = Ok g' ->
  within (cells P) d f g ->
  within (cells P) (rsum (angles P) (wt P) * c * d) f' g'.
Proof. exact pass_contracts. Qed.
Print Assumptions C75_pass_contracts.
Theorem C75_unique_solution :
  forall P xs_total xs_scatter off external boundary c,
  nonzero_ordinates (angles P) (mu P) -> thin_mesh P xs_total ->
  (forall m, (m < angles P)%nat -> 0 <= wt P m) -> 0 <= c ->
  rsum (angles P) (wt P) * c < 1 ->
  (forall i, (i < cells P)%nat -> Rabs (xs_scatter (medium P i)) <= c * xs_total (medium P i)) ->
  exists sol,
    (exists r, slab_iso_pass P xs_total xs_scatter off external boundary 0 sol = Ok r /\
       forall i, (i < cells P)%nat -> r i = sol i) /\
    (forall other r, slab_iso_pass P xs_total xs_scatter off external boundary 0 other = Ok r ->
       (forall i, (i < cells P)%nat -> r i = other i) ->
       forall i, (i < cells P)%nat -> other i = sol i).
Proof. exact inner_solution_exists. Qed.
Print Assumptions C75_unique_solution.
Theorem C75_error_bound :
  forall P xs_total xs_scatter off external boundary c flux_old flux sol,
  thin_mesh P xs_total ->
  (forall m, (m < angles P)%nat -> 0 <= wt P m) -> 0 <= c ->
  rsum (angles P) (wt P) * c < 1 ->
  (forall i, (i < cells P)%nat -> Rabs (xs_scatter (medium P i)) <= c * xs_total (medium P i)) ->
  slab_isotropic_sn P flux_old xs_total xs_scatter off external boundary 0 = Ok flux ->
  (exists r, slab_iso_pass P xs_total xs_scatter off external boundary 0 sol = Ok r /\
       forall i, (i < cells P)%nat -> r i = sol i) ->
  let rho := rsum (angles P) (wt P) * c in
  exists n, (1 <= n <= 100)%nat /\
    (forall d, 0 <= d -> within (cells P) d flux_old sol -> within (cells P) (rho ^ n * d) flux sol) /\
    ((n < 100)%nat -> forall M, 0 <= M -> (forall i, (i < cells P)%nat -> Rabs (flux i) <= M) ->
       within (cells P) (rho * (/ 10 ^ 12 * INR (cells P) * M) / (1 - rho)) flux sol).
Proof. exact driver_error. Qed.
Print Assumptions C75_error_bound.
Example C75_case : thin_mesh demo demo_total /\ rsum (angles demo) (wt demo) * (1 / 2) < 1 /\
  (forall m, (m < angles demo)%nat -> 0 <= wt demo m) /\
  (forall i, (i < cells demo)%nat -> Rabs (demo_scatter (medium demo i)) <= 1 / 2 * demo_total (medium demo i)).
Proof.
  split; [exact demo_thin|]. split; [cbn; lra|]. split; [intros; cbn; lra|].
  intros i Hi. small i Hi; cbn; unfold Rabs; destruct (Rcase_abs _); lra.
Qed.
