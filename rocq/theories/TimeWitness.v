(** Concrete time-dependent problems meeting the hypotheses of the theorems, and a refutation. *)
From Coq Require Import Lra Lia FunctionalExtensionality.
From Verif Require Import Base BaseFacts SlabModel SlabSpec SlabFacts SlabFacts2 SlabFacts3 SlabWitness.
From Verif Require Import MgModel MgSpec MgFacts MgFacts2 MgFacts3 MgFacts4 MgWitness HybModel HybSpec HybFacts HybFacts2.
From Verif Require Import MainModel MainSpec MainWitness.
From Verif Require Import TimeModel TimeSpec TimeFacts TimeFacts2 TimeFacts3.
Open Scope R_scope.

(** The two-material, two-group slab with half the cross sections, speed 2 and dt = 4: the
    implicit term 1/(v dt) is 1/8 (3/16 for BDF2). *)
Definition tick_total : mat2 := fun m g => duo_total m g / 2.
Definition tick_scatter : mat3 := fun m g h => duo_scatter m g h / 2.
Definition no_fission : fission_data := FissionMatrix (fun _ _ _ => 0).
Definition tick_speed : vec := fun _ => 2.
Definition tick_ext : arr4 := mkArr4 1 1 2 (fun _ i _ g => 1 + INR g).
Definition tick_bnd : arr4 := mkArr4 3 1 1 (fun k r _ _ => if Nat.eqb r 0 then INR k + 1 else 0).
Definition tick_start : mat3 := fun i m g => 1.

Lemma tick_thin two k : mg_thin demo 2 (effective_total (run_weight two k) tick_total tick_speed 4).
Proof.
  assert (Hw : run_weight two k = 1 \/ run_weight two k = 3 / 2).
  { unfold run_weight. destruct two; [destruct k|]; auto. }
  intros g Hg m i Hm Hi. unfold effective_total, tick_total, duo_total, tick_speed.
  destruct Hw as [-> | ->]; small g Hg; small m Hm; small i Hi; cbn; unfold Rabs; destruct (Rcase_abs _); lra.
Qed.

Lemma tick_divisors two k : mg_divisors demo 2 (effective_total (run_weight two k) tick_total tick_speed 4).
Proof. intros g Hg. apply thin_divisors; [exact demo_nonzero|]. apply (tick_thin two k g Hg). Qed.

Lemma tick_ratio two k :
  mg_ratio demo 2 (effective_total (run_weight two k) tick_total tick_speed 4) (total_transfer tick_scatter no_fission) (3 / 8).
Proof.
  assert (Hw : 1 <= run_weight two k).
  { unfold run_weight. destruct two; [destruct k|]; lra. }
  intros g i Hg Hi. unfold effective_total, total_transfer, no_fission, fission_entry, tick_total, tick_scatter, duo_scatter, duo_total, tick_speed.
  small g Hg; small i Hi; cbn; rewrite !Rabs_right; lra.
Qed.

Lemma tick_rows : rows_for tick_ext 3 /\ rows_for tick_bnd 3 /\ broadcasts demo 2 tick_ext.
Proof.
  unfold rows_for, broadcasts. cbn. split; [left; reflexivity|]. split; [right; lia|]. split; [left; reflexivity|right; reflexivity].
Qed.

Lemma tick_scatter_nonneg i g h : (i < cells demo)%nat -> (g < 2)%nat -> (h < 2)%nat ->
  0 <= total_transfer tick_scatter no_fission (medium demo i) g h.
Proof.
  intros Hi Hg Hh. pose proof (duo_scatter_nonneg i g h Hi Hg Hh). unfold total_transfer, tick_scatter, no_fission, fission_entry. lra.
Qed.

Lemma tick_ext_nonneg k i m g : 0 <= at3 (step_row tick_ext k) i (bidx (d4b tick_ext) m) (bidx (d4c tick_ext) g).
Proof. cbn [step_row at3 tick_ext at4 d4b d4c d4a]. pose proof (pos_INR (bidx 2 g)). lra. Qed.

Lemma tick_bnd_nonneg k m g : 0 <= mg_boundary (step_row tick_bnd k) (mu demo) g m.
Proof.
  unfold mg_boundary. cbn [step_row at3 tick_bnd at4 d4b d4c d4a]. pose proof (pos_INR (bidx 3 k)).
  match goal with |- context [if Nat.eqb ?a 0 then _ else _] => destruct (Nat.eqb a 0) end; lra.
Qed.

(** A steady state: flat angular flux 2 with the external source that sustains it. *)
Definition flat_psi : mat3 := fun _ _ _ => 2.
Definition steady_ext : arr4 := mkArr4 1 1 2 (fun _ i _ g =>
  2 * tick_total i g - rsum 2 (fun h => tick_scatter i g h * 2)).
Definition steady_bnd : arr4 := mkArr4 1 1 1 (fun _ r _ _ => if Nat.eqb r 0 then 2 else 0).

Lemma flat_steady : steady demo 2 tick_total (total_transfer tick_scatter no_fission) (step_row steady_ext 0) (step_row steady_bnd 0) flat_psi.
Proof.
  exists (fun _ _ _ => 2). intros g m Hg Hm. split.
  - intros i Hi. split; [unfold flat_psi; lra|].
    unfold flat_psi, scalar_flux, total_transfer, no_fission, fission_entry. 
    small i Hi; small g Hg; cbn; lra.
  - unfold reflected_in, enters_reflective, leaves_reflective, mg_boundary, inflow_edge, outflow_edge.
    small m Hm; cbn.
    all: repeat (destruct (Rlt_dec _ _); try (exfalso; lra); cbn); try lra.
Qed.

(** Energy grids for the variable-grid drivers: stock groups of width 1 and 2. *)
Definition uneven87 (grid : nat) : nat * vec := (87%nat, fun j => if Nat.leb j 29 then INR j else 29 + 2 * (INR j - 29)).
Definition no_table (grid groups : nat) : option (nat -> nat) := None.
Definition first_only : mat2 := fun _ g => if Nat.eqb g 0 then 1 else 0.

Lemma uneven_index : exists ci fac idx e fine, 
  energy_grid_change uneven87 no_table 87 3 1 = Ok (ci, fac, idx, e) /\
  energy_grid uneven87 no_table 87 3 (Some 1%nat) true = Ok (snd (uneven87 87), fine, Some idx) /\
  e = snd (uneven87 87) /\
  fine 0%nat = 0%nat /\ fine 1%nat = 29%nat /\ fine 2%nat = 58%nat /\ fine 3%nat = 87%nat /\ idx 0%nat = 0%nat /\ idx 1%nat = 3%nat.
Proof.
  unfold energy_grid_change. 
  assert (K : exists fine idx, energy_grid uneven87 no_table 87 3 (Some 1%nat) true = Ok (snd (uneven87 87), fine, Some idx) /\
    fine 0%nat = 0%nat /\ fine 1%nat = 29%nat /\ fine 2%nat = 58%nat /\ fine 3%nat = 87%nat /\ idx 0%nat = 0%nat /\ idx 1%nat = 3%nat).
  { unfold energy_grid. cbn [known_grid Nat.eqb orb uneven87 snd fst no_table]. unfold grid_index.
    eexists. eexists. split; [reflexivity|]. repeat split; vm_compute; reflexivity. }
  destruct K as (fine & idx & -> & H). cbn [bind]. do 5 eexists. split; [reflexivity|]. split; [reflexivity|]. split; [reflexivity|exact H].
Qed.

(** Three fine groups made of the 87 stock groups: the coarse cross section 1/3 is not the average 1/5. *)
Lemma vhybrid_widths_wrong : exists stock table grid groups gc ci fac idx e fine T n,
  energy_grid_change stock table grid groups gc = Ok (ci, fac, idx, e) /\
  energy_grid stock table grid groups (Some gc) true = Ok (snd (stock grid), fine, Some idx) /\
  known_grid grid = true /\ fst (stock grid) = n /\ monotone_edges n (snd (stock grid)) /\
  partition n groups fine /\ partition groups gc idx /\
  let fe := fun j => snd (stock grid) (fine j) in
  block_width fe idx 0%nat * xs_vector_coarsen T e idx 0%nat 0%nat <> group_sum idx 0%nat (fun g => width fe g * T 0%nat g).
Proof.
  destruct uneven_index as (ci & fac & idx & e & fine & E1 & E2 & -> & F0 & F1 & F2 & F3 & I0 & I1).
  exists uneven87, no_table, 87%nat, 3%nat, 1%nat, ci, fac, idx, (snd (uneven87 87)), fine, first_only, 87%nat.
  split; [exact E1|]. split; [exact E2|]. split; [reflexivity|]. split; [reflexivity|]. split.
  { left. intros g Hg. cbn [uneven87 snd]. replace (g + 1)%nat with (S g) by lia. rewrite S_INR.
    destruct (Nat.leb_spec g 29), (Nat.leb_spec (S g) 29); try lia; try lra.
    assert (g = 29%nat) by lia. subst g. replace (INR 29) with 29 by (cbn; lra). lra. }
  split. { split; [exact F0|]. split; [exact F3|]. intros [|[|[|c]]] Hc; [| | |lia]; cbn [Nat.add]; rewrite ?F0, ?F1, ?F2, ?F3; lia. }
  split. { split; [exact I0|]. split; [exact I1|]. intros [|c] Hc; [|lia]. cbn [Nat.add]. rewrite I0, I1. lia. }
  cbv zeta. rewrite vector_mean. unfold block_width, group_sum. cbn [Nat.add]. rewrite I0, I1.
  cbn [Nat.sub rsum]. unfold width, first_only. rewrite !Nat.add_0_r. cbn [Nat.eqb Nat.add]. rewrite F0, F1, F2, F3. cbn [uneven87 snd].
  replace (Nat.leb 87 29) with false by reflexivity. replace (Nat.leb 58 29) with false by reflexivity.
  replace (Nat.leb 29 29) with true by reflexivity. replace (Nat.leb 3 29) with true by reflexivity.
  replace (Nat.leb 2 29) with true by reflexivity. replace (Nat.leb 1 29) with true by reflexivity. replace (Nat.leb 0 29) with true by reflexivity.
  replace (INR 87) with 87 by (rewrite INR_IZR_INZ; reflexivity). replace (INR 58) with 58 by (rewrite INR_IZR_INZ; reflexivity).
  replace (INR 29) with 29 by (rewrite INR_IZR_INZ; reflexivity). cbn [INR]. lra.
Qed.
