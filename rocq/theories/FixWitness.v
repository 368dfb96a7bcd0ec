(** Concrete two-group problems for the fixed-source drivers. *)
From Coq Require Import Lra Lia.
From Verif Require Import Base BaseFacts SlabModel SlabSpec SlabFacts SlabWitness.
From Verif Require Import MgModel MgSpec MgWitness FixModel FixSpec FixFacts FixFacts2.
Open Scope R_scope.

(** The two-group problem [duo] with a small fission spectrum: chi = (1, 0). *)
Definition duo_fission : fission_data :=
  FissionVector (fun _ o => if Nat.eqb o 0 then 1 else 0) (fun m g => duo_total m g / 32).

Lemma duo_mixed_ratio : mg_ratio demo 2 duo_total (mixed duo_scatter duo_fission) (7 / 16).
Proof.
  intros g i Hg Hi. unfold mixed, duo_scatter, duo_fission, fission_entry, duo_total.
  small g Hg; small i Hi; cbn; rewrite !Rabs_right; lra.
Qed.

Lemma duo_mixed_weights : rsum (angles demo) (wt demo) * (7 / 16) < 1.
Proof. cbn; lra. Qed.

Lemma duo_nonneg : nonneg_problem demo 2 (mixed duo_scatter duo_fission) duo_ext duo_bnd.
Proof.
  split; [exact (proj1 duo_weights)|]. split; [|split].
  - intros i g h Hi Hg Hh. unfold mixed, duo_scatter, duo_fission, fission_entry, duo_total.
    small i Hi; small g Hg; small h Hh; cbn; lra.
  - intros m i g Hm Hi Hg. cbn. small g Hg; cbn; lra.
  - intros m g Hm Hg. unfold mg_boundary, duo_bnd. cbn. small m Hm; small g Hg; cbn;
      repeat match goal with |- context [Rlt_dec ?a ?b] => destruct (Rlt_dec a b) end; cbn; lra.
Qed.

Lemma duo_media i : (i < cells demo)%nat -> (medium demo i < 2)%nat.
Proof. intros Hi. small i Hi; cbn; lia. Qed.

Lemma duo_runs : exists phi phi_e psi_c psi_e,
  fixed_source_iteration demo 2 2 duo_total (Scatter3 duo_scatter) duo_fission duo_ext duo_bnd 1 FlagFalse 0 = Ok (ScalarOut phi) /\
  fixed_source_iteration demo 2 2 duo_total (Scatter3 duo_scatter) duo_fission duo_ext duo_bnd 1 FlagFalse 1 = Ok (ScalarOut phi_e) /\
  fixed_source_iteration demo 2 2 duo_total (Scatter3 duo_scatter) duo_fission duo_ext duo_bnd 1 FlagTrue 0 = Ok (AngularOut psi_c) /\
  fixed_source_iteration demo 2 2 duo_total (Scatter3 duo_scatter) duo_fission duo_ext duo_bnd 1 FlagTrue 1 = Ok (AngularOut psi_e).
Proof.
  destruct (fixed_outputs demo 2 2 duo_total duo_scatter duo_fission duo_ext duo_bnd) as (F & R1 & R2 & R3 & _);
    [cbn; lia|exact demo_nonzero|exact duo_divisors|exact duo_media|].
  destruct (R3 FlagTrue ltac:(discriminate)) as [R4 R5].
  exists (scalar_c F), (scalar_e F), (angular_c F), (angular_e F). auto.
Qed.
