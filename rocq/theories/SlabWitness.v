(** Concrete slab problems used to show that hypotheses are met and to refute claims. *)
From Coq Require Import Lra Lia FunctionalExtensionality.
From Verif Require Import Base BaseFacts SlabModel SlabSpec SlabFacts SlabFacts2 SlabFacts3 SlabFacts4 SlabFacts5.
Open Scope R_scope.

(** Two cells of different width and material, two ordinates, right side reflective. *)
Definition demo : sn :=
  mkSn 2 (fun i => i) (fun i => if Nat.eqb i 0 then 1 else 1 / 2) 2
       (fun m => if Nat.eqb m 0 then 1 / 2 else - (1 / 2)) (fun _ => 1 / 2) 0 1.
Definition demo_total : vec := fun m => if Nat.eqb m 0 then 1 else 2.
Definition demo_scatter : vec := fun m => if Nat.eqb m 0 then 1 / 2 else 1.
Definition demo_ext : arr2 := mkArr2 1 (fun _ _ => 1).
Definition demo_bnd : arr2 := mkArr2 1 (fun r _ => if Nat.eqb r 0 then 2 else 0).

Ltac small i Hi := destruct i as [|[|i]]; cbn in Hi; try lia.

Lemma demo_nonzero : nonzero_ordinates (angles demo) (mu demo).
Proof. intros m Hm. small m Hm; cbn; lra. Qed.

Lemma demo_symmetric : symmetric_quadrature (angles demo) (mu demo).
Proof. intros m Hm. small m Hm; cbn; lra. Qed.

Lemma demo_ordered : ordered_for (angles demo) (mu demo) (bc_left demo) (bc_right demo).
Proof.
  intros m Hm He. small m Hm; [|cbn; lia].
  unfold enters_reflective in He. cbn in He. destruct (Rlt_dec 0 (1 / 2)); [discriminate|lra].
Qed.

Lemma demo_dx i : (i < cells demo)%nat -> dx demo i <> 0.
Proof. intros Hi. small i Hi; cbn; lra. Qed.

Lemma demo_divisors : good_divisors demo demo_total.
Proof.
  intros m Hm i Hi. split; [apply demo_dx; exact Hi|].
  small m Hm; small i Hi; cbn; unfold Rabs; destruct (Rcase_abs _); lra.
Qed.

Lemma demo_thin : thin_mesh demo demo_total.
Proof.
  intros m i Hm Hi. small m Hm; small i Hi; cbn; unfold Rabs; destruct (Rcase_abs _); lra.
Qed.

(** A flat-flux problem on [demo]: sigma_t c = sigma_s W c + q with c = 2, W = 1. *)
Definition flat_ext : arr2 := mkArr2 1 (fun i _ => if Nat.eqb i 0 then 1 else 2).
Definition flat_bnd : arr2 := mkArr2 1 (fun r _ => if Nat.eqb r 0 then 2 else 0).

(** C04: two thick cells and a grazing beam give a negative flux. *)
Definition thick : sn := mkSn 2 (fun _ => 0%nat) (fun _ => 1) 1 (fun _ => 1 / 10) (fun _ => 1) 0 0.

Lemma thick_negative : exists flux,
  slab_iso_pass thick (fun _ => 1) zeros zeros (mkArr2 1 (fun _ _ => 0))
    (mkArr2 1 (fun r _ => if Nat.eqb r 0 then 1 else 0)) 0 zeros = Ok flux /\ flux 1%nat < 0.
Proof.
  eexists. split.
  - apply slab_iso_pass_ok. intros m Hm. cbn. lra.
  - unfold pass_flux, contrib, Psi, psi_of, inflow_at, boundary_in, iso_q, iso_source, half_sig, zeros.
    cbn. destruct (Rlt_dec 0 (1 / 10)) as [_|H]; [|exfalso; lra].
    cbn. unfold zeros, half_sig. lra.
Qed.

(** C07: with both sides reflective the first ordinate is not fed by its mirror image. *)
Definition mirrored_box : sn :=
  mkSn 1 (fun _ => 0%nat) (fun _ => 1) 2 (fun m => if Nat.eqb m 0 then 1 else -1) (fun _ => 1 / 2) 1 1.

Lemma mirrored_box_refutes :
  symmetric_quadrature (angles mirrored_box) (mu mirrored_box) /\
  good_divisors mirrored_box (fun _ => 2) /\
  exists flux,
    slab_iso_pass mirrored_box (fun _ => 2) zeros zeros (mkArr2 1 (fun _ _ => 1))
      (mkArr2 1 (fun _ _ => 0)) 0 zeros = Ok flux /\
    ~ exists psi,
      slab_transport (cells mirrored_box) (angles mirrored_box) (mu mirrored_box) (wt mirrored_box)
        (dx mirrored_box) (fun _ => 2)
        (iso_source (medium mirrored_box) zeros zeros (mkArr2 1 (fun _ _ => 1)) zeros)
        (reflective_inflow (cells mirrored_box) (angles mirrored_box) (mu mirrored_box)
           (bc_left mirrored_box) (bc_right mirrored_box) (mkArr2 1 (fun _ _ => 0)) psi)
        psi flux.
Proof.
  split; [intros m Hm; small m Hm; cbn; lra|].
  split; [intros m Hm i Hi; small m Hm; cbn; unfold Rabs; destruct (Rcase_abs _); lra|].
  eexists. split.
  - apply slab_iso_pass_ok. intros m Hm. small m Hm; cbn; lra.
  - intros (psi & Hb & Hin & Hphi).
    assert (B0 := Hb 0%nat ltac:(cbn; lia) 0%nat ltac:(cbn; lia)).
    assert (B1 := Hb 1%nat ltac:(cbn; lia) 0%nat ltac:(cbn; lia)).
    assert (I0 := Hin 0%nat ltac:(cbn; lia)). assert (I1 := Hin 1%nat ltac:(cbn; lia)).
    assert (Ph := Hphi 0%nat ltac:(cbn; lia)). clear Hb Hin Hphi.
    unfold iso_source, zeros in B0, B1. cbn in B0, B1.
    unfold inflow_edge, reflective_inflow, boundary_in, enters_reflective, inflow_edge in I0, I1.
    cbn in I0, I1.
    unfold pass_flux, contrib, Psi, psi_of, inflow_at, out_of, outflow_edge, boundary_in, iso_q, iso_source, half_sig, zeros in Ph.
    cbn in Ph.
    destruct (Rlt_dec 0 1) as [_|H]; [|lra]. destruct (Rlt_dec 0 (-1)) as [H|_]; [lra|].
    unfold reflector_corrector, out_of, psi_of, outflow_edge, zeros, half_sig, upd in Ph. cbn in Ph.
    destruct (Rlt_dec 0 1) as [_|H]; [|lra]. destruct (Rlt_dec 1 0) as [H|_]; [lra|].
    unfold bwd_psi in Ph. cbn in Ph. unfold half_sig, zeros in Ph. 
    replace (1 / 1 + 0.5 * 2) with 2 in Ph by lra. replace (- (-1) / 1 + 0.5 * 2) with 2 in Ph by lra. lra.
Qed.

(** C13: an angle-dependent boundary with a one-column external source. *)
Definition beam_bnd : arr2 := mkArr2 2 (fun r c => if Nat.eqb c 0 then 0 else 1).
Definition beam : sn :=
  mkSn 1 (fun _ => 0%nat) (fun _ => 1) 2 (fun m => if Nat.eqb m 0 then 1 else -1) (fun _ => 1 / 2) 0 0.

Lemma beam_refutes : exists f1 f2,
  slab_scatter_source_sn beam (fun _ => 2) zeros (mkArr2 1 (fun _ _ => 0)) beam_bnd = Ok f1 /\
  slab_iso_pass beam (fun _ => 2) zeros zeros (mkArr2 1 (fun _ _ => 0)) beam_bnd 0 zeros = Ok f2 /\
  f1 0%nat <> f2 0%nat.
Proof.
  assert (Hnz : nonzero_ordinates (angles beam) (mu beam)) by (intros m Hm; small m Hm; cbn; lra).
  assert (E : slab_scatter_source_sn beam (fun _ => 2) zeros (mkArr2 1 (fun _ _ => 0)) beam_bnd
            = slab_iso_pass beam (fun _ => 2) zeros zeros (mkArr2 1 (fun _ _ => 0))
                (mkArr2 1 (fun r _ => at2 beam_bnd r 0%nat)) 0 zeros).
  { rewrite <- (scatter_equals_pass beam (fun _ => 2) zeros zeros _ _ zeros zeros); [|reflexivity|left; reflexivity|].
    - unfold slab_scatter_source_sn. f_equal.
    - intros i _. unfold zeros. ring. }
  rewrite E. rewrite !slab_iso_pass_ok by exact Hnz.
  eexists. eexists. split; [reflexivity|]. split; [reflexivity|].
  unfold pass_flux, contrib, Psi, psi_of, inflow_at, boundary_in, iso_q, iso_source, half_sig, zeros.
  cbn. unfold out_of, psi_of, reflector_corrector. cbn.
  destruct (Rlt_dec 0 1) as [_|H]; [|lra]. destruct (Rlt_dec 0 (-1)) as [H|_]; [lra|].
  destruct (Rlt_dec 1 0) as [H|_]; [lra|].
  unfold bwd_psi. cbn. unfold half_sig, zeros. cbn.
  replace (1 / 1 + 0.5 * 2) with 2 by lra. replace (- (-1) / 1 + 0.5 * 2) with 2 by lra. lra.
Qed.

Lemma thick_negative_full : exists P xs_total xs_scatter off external boundary flux_old flux,
  nonzero_ordinates (angles P) (mu P) /\ (forall m, 0 <= wt P m) /\
  (forall i, 0 < dx P i /\ 0 <= xs_total (medium P i) /\ 0 <= xs_scatter (medium P i)
             /\ 0 <= off i /\ 0 <= flux_old i) /\
  (forall i c, 0 <= at2 external i c) /\ (forall r c, 0 <= at2 boundary r c) /\
  slab_iso_pass P xs_total xs_scatter off external boundary 0 flux_old = Ok flux /\
  exists i, (i < cells P)%nat /\ flux i < 0.
Proof.
  destruct thick_negative as (flux & E & Hneg).
  do 8 eexists. repeat (match goal with |- _ /\ _ => split end); try exact E.
  - intros m Hm. cbn. lra.
  - intros; cbn; lra.
  - intros i. cbn. unfold zeros. repeat split; lra.
  - intros; cbn; lra.
  - intros r c. cbn. destruct (Nat.eqb r 0); lra.
  - exists 1%nat. split; [cbn; lia|exact Hneg].
Qed.

Lemma both_reflective : exists P xs_total xs_scatter off external boundary flux_old flux,
  symmetric_quadrature (angles P) (mu P) /\ good_divisors P xs_total /\
  bc_left P = 1%nat /\ bc_right P = 1%nat /\
  slab_iso_pass P xs_total xs_scatter off external boundary 0 flux_old = Ok flux /\
  ~ exists psi,
    slab_transport (cells P) (angles P) (mu P) (wt P) (dx P) (fun i => xs_total (medium P i))
      (iso_source (medium P) xs_scatter off external flux_old)
      (reflective_inflow (cells P) (angles P) (mu P) (bc_left P) (bc_right P) boundary psi)
      psi flux.
Proof.
  destruct mirrored_box_refutes as (Hs & Hd & flux & E & Hno).
  exists mirrored_box, (fun _ => 2), zeros, zeros, (mkArr2 1 (fun _ _ => 1)), (mkArr2 1 (fun _ _ => 0)), zeros, flux.
  split; [exact Hs|]. split; [exact Hd|]. split; [reflexivity|]. split; [reflexivity|]. split; [exact E|exact Hno].
Qed.

Lemma beam_refutes_full : exists P xs_total external boundary f1 f2,
  cols2 external = 1%nat /\ cols2 boundary = angles P /\
  slab_scatter_source_sn P xs_total zeros external boundary = Ok f1 /\
  slab_iso_pass P xs_total zeros zeros external boundary 0 zeros = Ok f2 /\
  f1 0%nat <> f2 0%nat.
Proof.
  destruct beam_refutes as (f1 & f2 & E1 & E2 & H).
  exists beam, (fun _ => 2), (mkArr2 1 (fun _ _ => 0)), beam_bnd, f1, f2. repeat split; assumption.
Qed.

Lemma demo_fixed_point : exists flux,
  slab_iso_pass demo demo_total demo_scatter zeros flat_ext flat_bnd 0 flux = Ok flux /\
  (forall i, (i < cells demo)%nat -> flux i <> 0).
Proof.
  destruct (pass_flat demo demo_total demo_scatter zeros flat_ext flat_bnd (fun _ => 2) 2) as (flux & E & H).
  - exact demo_nonzero.
  - exact demo_divisors.
  - intros i Hi. cbn. lra.
  - intros m i Hm Hi. small i Hi; cbn; unfold zeros; lra.
  - intros m Hm. unfold boundary_in, leaves_reflective.
    small m Hm; cbn; destruct (Rlt_dec 0 (1 / 2)); try lra; destruct (Rlt_dec 0 (- (1 / 2))); try lra; reflexivity.
  - exists flux. split.
    + rewrite <- E. apply slab_iso_pass_ext; [exact demo_nonzero|].
      intros i Hi. rewrite H by exact Hi. cbn. lra.
    + intros i Hi. rewrite H by exact Hi. cbn. lra.
Qed.
