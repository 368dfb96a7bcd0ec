(** A one-cell slab with two ordinates and two groups whose k and growth rate are known, meeting the hypotheses of the long-time theorems. *)
From Coq Require Import Lra Lia Psatz.
From Verif Require Import Base BaseFacts SlabModel SlabSpec SlabWitness MgModel MgSpec SupSpec SupFacts TimeModel TimeSpec TimeFacts TimeFacts2 TimeFacts3.
From Verif Require Import EnSpec CritModel CritSpec DynSpec DynFacts DynFacts5.
Open Scope R_scope.

Definition pit : sn := mkSn 1 (fun _ => 0%nat) (fun _ => 1) 2 (fun m => if Nat.eqb m 0 then 1 else -1) (fun _ => 1 / 2) 0 0.
Definition pit_total : mat2 := fun _ _ => 1.
Definition pit_scatter : mat3 := fun _ g h => if Nat.eqb g h then 3 / 4 else 1 / 4.
(** fission with multiplication factor [k] *)
Definition pit_fission (k : R) : fission_data := FissionVector (fun _ _ => 1 / 2) (fun _ h => if Nat.eqb h 0 then k else 3 * k).
Definition pit_speed : vec := fun _ => 1.
Definition pit_ext : arr4 := mkArr4 1 1 2 (fun _ i _ g => 1 + INR g).
Definition pit_bnd : arr4 := mkArr4 4 1 1 (fun k r _ _ => if Nat.eqb r 0 then INR k else 0).
(** no source and nothing coming in, at every step *)
Definition pit_dark : arr4 := mkArr4 1 1 1 (fun _ _ _ _ => 0).
Definition pit_start : mat3 := fun i m g => 1 + INR m.

Lemma mu_pit m : (m < 2)%nat -> Rabs (mu pit m) = 1.
Proof. intros Hm. small m Hm; cbn; [apply Rabs_right|rewrite Rabs_left]; lra. Qed.
Lemma pit_sweeps T : (forall n g, 0 <= T n g <= 2) -> positive_sweeps pit 2 T.
Proof.
  intros HT. split; [intros m Hm; small m Hm; cbn; lra|]. split; [|intros m Hm; cbn; lra].
  intros g Hg m i Hm Hi. rewrite (mu_pit m Hm). cbn [dx pit]. pose proof (HT (medium pit i) g). lra.
Qed.
Lemma pit_sound : sound_slab pit.
Proof.
  split; [intros i Hi; cbn; lra|]. split; [intros; cbn; lra|]. split; [intros m Hm; small m Hm; cbn; lra|].
  right. split; intros m Hm; small m Hm; cbn; lra.
Qed.
Lemma pit_transfer k i g h : (g < 2)%nat -> (h < 2)%nat -> 0 < k -> 0 <= total_transfer pit_scatter (pit_fission k) i g h.
Proof. intros Hg Hh Hk. unfold total_transfer, pit_scatter, pit_fission, fission_entry. small g Hg; small h Hh; cbn; lra. Qed.
Lemma pit_eff dt : 1 <= dt -> positive_sweeps pit 2 (effective_total 1 pit_total pit_speed dt).
Proof.
  intros Hdt. apply pit_sweeps. intros n g. unfold effective_total, pit_total, pit_speed. rewrite Rmult_1_l.
  assert (0 < 1 / dt <= 1); [|lra]. split; [apply Rdiv_lt_0_compat; lra|]. apply (Rmult_le_reg_r dt); [lra|]. unfold Rdiv. rewrite Rmult_assoc, Rinv_l by lra. lra.
Qed.
(** edges of a cell average [u] *)
Definition pit_edges (u : R) : mat2 := fun m k => match m, k with 0%nat, 1%nat => 2 * u | 1%nat, 0%nat => 2 * u | _, _ => 0 end.
Lemma pit_flux t q : 0 <= t -> flux_of pit (fun _ => t) (fun _ => q) (fun _ => q / (2 + t)).
Proof.
  intros Ht. exists (pit_edges (q / (2 + t))). split; [|split].
  - intros m Hm i Hi. assert (i = 0)%nat as -> by (cbn in Hi; lia). small m Hm; cbn; field; lra.
  - intros m Hm. small m Hm; unfold inflow_edge, reflected_in, leaves_reflective; cbn; repeat destruct (Rlt_dec _ _); try lra; reflexivity.
  - intros i Hi. assert (i = 0)%nat as -> by (cbn in Hi; lia). cbn. field. lra.
Qed.
Lemma pit_damping k t : 0 < k -> 0 <= t -> damping pit 2 (fun _ _ => t) (total_transfer pit_scatter (pit_fission k)) ((1 + 2 * k) / (2 + t)) (fun _ _ => 1).
Proof.
  intros Hk Ht. split; [intros i g _ _; lra|]. intros g Hg. exists (fun _ => (1 + 2 * k) / (2 + t)). split; [|intros; lra].
  replace (fun i => rsum 2 (fun h => Rabs (total_transfer pit_scatter (pit_fission k) (medium pit i) g h) * 1)) with (fun _ : nat => 1 + 2 * k).
  - apply pit_flux. exact Ht.
  - symmetry. apply FunctionalExtensionality.functional_extensionality. intros i. cbn [rsum]. rewrite !Rabs_right by (apply Rle_ge, pit_transfer; try lia; exact Hk).
    unfold total_transfer, pit_scatter, pit_fission, fission_entry. small g Hg; cbn; field.
Qed.
Lemma pit_scatter_damping : damping pit 2 pit_total pit_scatter (1 / 3) (fun _ _ => 1).
Proof.
  split; [intros i g _ _; lra|]. intros g Hg. exists (fun _ => 1 / (2 + 1)). split; [|intros; lra].
  replace (fun i => rsum 2 (fun h => Rabs (pit_scatter (medium pit i) g h) * 1)) with (fun _ : nat => 1).
  - apply (pit_flux 1 1). lra.
  - symmetry. apply FunctionalExtensionality.functional_extensionality. intros i. unfold pit_scatter. cbn [rsum]. small g Hg; cbn; rewrite !Rabs_right by lra; field.
Qed.
Lemma pit_transport : damped_transport pit 2 pit_total pit_scatter.
Proof.
  destruct (pit_sweeps pit_total) as (A & B & C); [intros; unfold pit_total; lra|]. split; [exact A|]. split; [exact B|]. split; [exact C|]. split.
  - intros i g h Hi Hg Hh. unfold pit_scatter. destruct (Nat.eqb g h); lra.
  - exists (1 / 3), (fun _ _ => 1). split; [lra|exact pit_scatter_damping].
Qed.
Lemma pit_eigen k : 0 < k -> eigenpair pit 2 pit_total pit_scatter (pit_fission k) (fun _ _ => 1) k.
Proof.
  intros Hk. exists (fun _ => pit_edges 1). intros g Hg. split; [|split].
  - intros m Hm i Hi. assert (i = 0)%nat as -> by (cbn in Hi; lia). unfold mg_source, emission, pit_fission, fission_entry, pit_scatter, pit_total.
    small m Hm; small g Hg; cbn; field; lra.
  - intros m Hm. small m Hm; unfold inflow_edge, reflected_in, leaves_reflective, mg_boundary; cbn; repeat destruct (Rlt_dec _ _); cbn; lra.
  - intros i Hi. assert (i = 0)%nat as -> by (cbn in Hi; lia). cbn. field.
Qed.
Lemma pit_mode k : 0 < k -> alpha_mode pit 2 pit_speed pit_total (total_transfer pit_scatter (pit_fission k)) (2 * k - 2) (fun _ _ _ => 1).
Proof.
  intros Hk. split; [intros i m g _ _ _; lra|]. exists (fun _ => pit_edges 1). intros g m Hg Hm. split.
  - intros i Hi. assert (i = 0)%nat as -> by (cbn in Hi; lia). split; [small m Hm; cbn; field|].
    unfold total_transfer, pit_fission, fission_entry, pit_scatter, pit_total, pit_speed, scalar_flux. small m Hm; small g Hg; cbn; field.
  - small m Hm; unfold inflow_edge, reflected_in, leaves_reflective, mg_boundary; cbn; repeat destruct (Rlt_dec _ _); cbn; lra.
Qed.
Lemma pit_nonneg k : 0 < k -> nonneg_fission (cells pit) 2 (medium pit) (pit_fission k).
Proof. intros Hk i o h Hi Ho Hh. unfold pit_fission. small h Hh; cbn; lra. Qed.
Lemma pit_runs k dt : exists ft, timed_run false pit 1 2 pit_start pit_total (Scatter3 pit_scatter) (pit_fission k) pit_speed pit_ext pit_bnd 4 dt 1 = Ok ft.
Proof. apply timed_total; [intros m Hm; small m Hm; cbn; lra|left; reflexivity|right; reflexivity|split; [left|right]; reflexivity]. Qed.
