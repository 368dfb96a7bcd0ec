(** A two-cell, two-group fissile bar: k = 2, thermal fissions emitting fast neutrons. *)
From Coq Require Import Lra Lia.
From Verif Require Import Base BaseFacts SlabModel SlabSpec SlabFacts SlabWitness.
From Verif Require Import MgModel MgSpec MgFacts MgFacts2 MgFacts3 MgFacts6 MgWitness SupSpec SupFacts SupFacts2 SupFacts3.
From Verif Require Import CritModel CritSpec CritFacts CritFacts2 CritFacts5 CritFacts6 CritFacts7 CritFacts8.
Open Scope R_scope.

Definition bar : sn :=
  mkSn 2 (fun _ => 0%nat) (fun _ => 1) 2 (fun m => if Nat.eqb m 0 then 1 else -1) (fun _ => 1 / 2) 0 0.
Definition bar_total : mat2 := fun _ _ => 1.
Definition bar_scatter : mat3 := fun _ o i =>
  match o, i with 0%nat, 0%nat => 1 / 4 | 1%nat, 0%nat => 1 / 4 | 1%nat, 1%nat => 1 / 2 | _, _ => 0 end.
Definition bar_fission : fission_data :=
  FissionVector (fun _ o => if Nat.eqb o 0 then 1 else 0) (fun _ h => if Nat.eqb h 0 then 1 else 273 / 25).
Definition bar_phi : mat2 := fun _ g => if Nat.eqb g 0 then 26 else 5.

Lemma bar_ratio : 0 <= 3 / 4 /\ rsum (angles bar) (wt bar) * (3 / 4) < 1 /\ mg_ratio bar 2 bar_total bar_scatter (3 / 4).
Proof.
  split; [lra|]. split; [cbn; lra|]. intros g i Hg Hi. unfold bar_total.
  small g Hg; cbn; unfold Rabs; repeat destruct (Rcase_abs _); lra.
Qed.
Lemma bar_sweeps : positive_sweeps bar 2 bar_total.
Proof.
  split; [intros m Hm; small m Hm; cbn; lra|]. split; [|intros m Hm; cbn; lra].
  intros g Hg m i Hm Hi. small m Hm; cbn; unfold bar_total; unfold Rabs; destruct (Rcase_abs _); lra.
Qed.
Lemma bar_damping : damping bar 2 bar_total bar_scatter (3 / 4) (fun _ _ => 1).
Proof.
  replace (3 / 4) with (rsum (angles bar) (wt bar) * (3 / 4)) by (cbn; lra).
  apply ratio_damping; [exact bar_sweeps|lra|exact (proj2 (proj2 bar_ratio))].
Qed.
Lemma bar_damped : damped_transport bar 2 bar_total bar_scatter.
Proof.
  split; [intros m Hm; small m Hm; cbn; lra|]. split.
  { intros g Hg m i Hm Hi. small m Hm; cbn; unfold bar_total; unfold Rabs; destruct (Rcase_abs _); lra. }
  split; [intros m Hm; cbn; lra|]. split.
  { intros i g h Hi Hg Hh. small g Hg; small h Hh; cbn; lra. }
  exists (3 / 4), (fun _ _ => 1). split; [lra|]. exact bar_damping.
Qed.
Lemma bar_nonneg : nonneg_fission (cells bar) 2 (medium bar) bar_fission.
Proof. intros i o h Hi Ho Hh. small o Ho; small h Hh; cbn; lra. Qed.
Lemma bar_two_way : two_way bar.
Proof. exists 0%nat, 1%nat. cbn. repeat split; try lia; lra. Qed.
Lemma bar_transmitting : transmitting bar 2 bar_total.
Proof. intros m i g Hm Hi Hg. unfold bar_total. small m Hm; cbn; unfold Rabs; destruct (Rcase_abs _); lra. Qed.
Lemma bar_fed : well_fed bar 2 bar_scatter bar_fission.
Proof.
  intros j h o Hj Hh Ho Hne g Hg. exists 0%nat. split; [lia|]. split; [small h Hh; cbn; lra|].
  small g Hg; [apply feeds_here|]. apply (feeds_step _ _ _ _ 0%nat); [apply feeds_here|lia|]. exists 0%nat. cbn. split; [lia|lra].
Qed.
Lemma bar_fissile : fissile bar 2 bar_fission.
Proof. exists 0%nat, 1%nat, 0%nat. cbn. repeat split; try lia. lra. Qed.
Lemma bar_positive : positive2 (cells bar) 2 bar_phi.
Proof. intros i g _ _. unfold bar_phi. destruct (Nat.eqb g 0); lra. Qed.
Lemma bar_eigenpair : eigenpair bar 2 bar_total bar_scatter bar_fission bar_phi 2.
Proof.
  exists (fun g m e => 9 / 5 * bar_phi 0%nat g * match m, e with
     | 0%nat, 1%nat => 2 / 3 | 0%nat, 2%nat => 8 / 9 | 1%nat, 1%nat => 2 / 3 | 1%nat, 0%nat => 8 / 9 | _, _ => 0 end).
  intros g Hg. split; [|split].
  - intros m Hm i Hi. unfold mg_source. small m Hm; small g Hg; small i Hi; cbn; unfold emission, bar_phi, bar_total; cbn; lra.
  - intros m Hm. small m Hm; small g Hg; cbn; unfold inflow_edge, reflected_in, mg_boundary; cbn; destruct (Rlt_dec _ _); cbn; try lra;
      unfold leaves_reflective; cbn; repeat destruct (Rlt_dec _ _); cbn; lra.
  - intros i Hi. small g Hg; small i Hi; cbn; unfold bar_phi; cbn; lra.
Qed.
(** the solve of a pass from the mode ends by its own test *)
Lemma bar_settles : settled_solve bar 2 bar_total bar_scatter bar_fission (bar_phi, 2).
Proof.
  intros source raw Hs Er. cbn [fst snd] in *. change (source_iteration_iso bar 2 bar_phi bar_total bar_scatter (mkArr3 1 2 (fun i _ g => source i g)) (mkArr3 1 1 (fun _ _ _ => 0)) 1 = Ok raw) in Er.
  destruct bar_damped as (Hnz & Hth & _).
  assert (Hsol : mg_solution bar 2 bar_total bar_scatter (mkArr3 1 2 (fun i _ g => source i g)) (mkArr3 1 1 (fun _ _ _ => 0)) bar_phi).
  { apply (solution_ext bar 2 bar_total bar_scatter (fun i g => emission 2 bar_fission (medium bar) bar_phi i g / 2) source dark bar_phi bar_phi); [|intros ? ? _ _; reflexivity|exact bar_eigenpair].
    intros i g Hi Hg. symmetry. apply Hs; assumption. }
  assert (Hd : mg_divisors bar 2 bar_total).
  { intros g Hg m Hm i Hi. split; [cbn; lra|]. small m Hm; cbn; unfold bar_total, Rabs; destruct (Rcase_abs _); lra. }
  destruct (one_sweep_total bar 2 bar_total bar_scatter (mkArr3 1 2 (fun i _ g => source i g)) (mkArr3 1 1 (fun _ _ _ => 0)) bar_phi Hnz) as [y Ey].
  pose proof (solution_sweep bar 2 bar_total bar_scatter _ _ bar_phi y Hnz Hd Hsol Ey) as Ay.
  assert (St : settled2 (cells bar) 2 y bar_phi (/ 10 ^ 8)).
  { split.
    - intros i g Hi Hg. rewrite Ay by assumption. pose proof (bar_positive i g Hi Hg). lra.
    - rewrite rsum_zero_ext; [rewrite sqrt_0; apply Rinv_0_lt_compat, pow_lt; lra|]. intros i Hi. apply rsum_zero_ext. intros g Hg.
      rewrite Ay by assumption. pose proof (bar_positive i g Hi Hg). unfold Rdiv. ring. }
  unfold source_iteration_iso in Er. unfold count_gg at 1 in Er. cbn [iterate] in Er. rewrite Ey in Er. cbn [bind] in Er.
  change change_gg with (/ 10 ^ 8) in Er. rewrite (proj2 (below_settled2 _ _ _ _ _) St) in Er. cbn [orb] in Er. injection Er as <-.
  exists bar_phi. split; [exact St|exact Ey].
Qed.
Lemma bar_accurate : exists eta v' k', 0 <= eta < 1 /\ accurate_solve bar 2 bar_total bar_scatter bar_fission eta (bar_phi, 2) /\
    power_step bar 2 bar_total (Scatter3 bar_scatter) bar_fission 1 (bar_phi, 2) = Ok (v', k').
Proof.
  destruct bar_damped as (Hnz & Hth & Hw & HX & _).
  assert (Hd : mg_divisors bar 2 bar_total).
  { intros g Hg m Hm i Hi. split; [cbn; lra|]. small m Hm; cbn; unfold bar_total, Rabs; destruct (Rcase_abs _); lra. }
  assert (Hsol : forall source, (forall i g, (i < cells bar)%nat -> (g < 2)%nat -> source i g = emission 2 bar_fission (medium bar) bar_phi i g / 2) ->
    mg_solution bar 2 bar_total bar_scatter (mkArr3 1 2 (fun i _ g => source i g)) (mkArr3 1 1 (fun _ _ _ => 0)) bar_phi).
  { intros source Hs. apply (solution_ext bar 2 bar_total bar_scatter (fun i g => emission 2 bar_fission (medium bar) bar_phi i g / 2) source dark bar_phi bar_phi); [|intros ? ? _ _; reflexivity|exact bar_eigenpair].
    intros i g Hi Hg. symmetry. apply Hs; assumption. }
  assert (Q : exists v' k', power_step bar 2 bar_total (Scatter3 bar_scatter) bar_fission 1 (bar_phi, 2) = Ok (v', k')).
  { unfold power_step. cbn [source_iteration].
    match goal with |- context [source_iteration_iso ?P ?g ?o ?t ?s ?e ?b 1] => destruct (outer_total P g o t s e b Hnz) as [raw Er]; rewrite Er end.
    cbn [bind]. eauto. }
  destruct Q as (v' & k' & E). exists 0, v', k'. split; [lra|]. split; [|exact E].
  intros source raw exact Hs Er Hex i g Hi Hg. cbn [fst snd] in *. specialize (Hsol source Hs).
  change (source_iteration_iso bar 2 bar_phi bar_total bar_scatter (mkArr3 1 2 (fun i _ g => source i g)) (mkArr3 1 1 (fun _ _ _ => 0)) 1 = Ok raw) in Er.
  destruct (solution_driver bar 2 bar_total bar_scatter _ _ bar_phi Hnz Hd Hsol) as (raw' & Er' & Ha). rewrite Er in Er'. injection Er' as <-.
  rewrite (Ha i g Hi Hg).
  assert (Eq : bar_phi i g = exact i g).
  { apply Rle_antisym.
    - apply (solution_compare bar 2 bar_total bar_scatter source source bar_phi exact bar_damped); try assumption. intros ? ? _ _; lra.
    - apply (solution_compare bar 2 bar_total bar_scatter source source exact bar_phi bar_damped); try assumption. intros ? ? _ _; lra. }
  rewrite Eq, Rminus_diag_eq, Rabs_R0 by reflexivity. lra.
Qed.
