(** Concrete k-eigenvalue problems meeting the hypotheses of the criticality theorems. *)
From Coq Require Import Lra Lia FunctionalExtensionality.
From Verif Require Import Base BaseFacts SlabModel SlabSpec SlabFacts SlabWitness.
From Verif Require Import MgModel MgSpec MgFacts MgFacts3 MgFacts6 MgWitness.
From Verif Require Import CritModel CritSpec CritFacts CritFacts2 CritFacts3 CritFacts4.
Open Scope R_scope.

(** One cell, two ordinates, two groups, k = 2. *)
Definition slug : sn :=
  mkSn 1 (fun _ => 0%nat) (fun _ => 1) 2 (fun m => if Nat.eqb m 0 then 1 else -1) (fun _ => 1 / 2) 0 0.
Definition slug_total : mat2 := fun _ _ => 2.
Definition slug_scatter : mat3 := fun _ o i => if Nat.ltb o i then 0 else 1.
Definition slug_chi : mat2 := fun _ _ => 1 / 2.
Definition slug_nusigf : mat2 := fun _ h => if Nat.eqb h 0 then 4 else 6.
Definition slug_fission : fission_data := FissionVector slug_chi slug_nusigf.
Definition slug_phi : mat2 := fun _ g => if Nat.eqb g 0 then 3 / 5 else 4 / 5.

Lemma slug_nonzero : nonzero_ordinates (angles slug) (mu slug).
Proof. intros m Hm. small m Hm; cbn; lra. Qed.

Lemma slug_divisors : mg_divisors slug 2 slug_total.
Proof.
  intros g Hg m Hm i Hi. split; [cbn; lra|]. small m Hm; cbn; unfold slug_total;
    unfold Rabs; destruct (Rcase_abs _); lra.
Qed.

Lemma slug_nonneg : nonneg_fission (cells slug) 2 (medium slug) slug_fission.
Proof.
  intros i o h Hi Ho Hh. cbn. unfold slug_chi, slug_nusigf. split; [lra|]. destruct (Nat.eqb h 0); lra.
Qed.

Lemma slug_emission i o : emission 2 slug_fission (medium slug) slug_phi i o = 18 / 5.
Proof. unfold emission. cbn. unfold slug_chi, slug_nusigf, slug_phi. cbn. lra. Qed.

Lemma slug_eigenpair : eigenpair slug 2 slug_total slug_scatter slug_fission slug_phi 2.
Proof.
  exists (fun g m e => if Nat.eqb m e then 0 else 2 * slug_phi 0%nat g).
  intros g Hg. split; [|split].
  - intros m Hm i Hi. cbn in Hi. assert (i = 0)%nat as -> by lia. unfold mg_source. cbn [at3 d3b d3c]. rewrite slug_emission.
    small m Hm; small g Hg; cbn; unfold slug_scatter, slug_phi, slug_total; cbn; lra.
  - intros m Hm. unfold inflow_edge, reflected_in, leaves_reflective, mg_boundary. 
    small m Hm; cbn; destruct (Rlt_dec 0 _) as [H|H]; cbn; try lra;
      repeat match goal with |- context [Rlt_dec ?a ?b] => destruct (Rlt_dec a b); cbn; try lra end.
  - intros i Hi. cbn in Hi. assert (i = 0)%nat as -> by lia. cbn. unfold slug_phi. small g Hg; cbn; lra.
Qed.

Lemma slug_norm : norm2 (cells slug) 2 slug_phi = 1.
Proof.
  unfold norm2. cbn. unfold slug_phi, Rsqr. cbn.
  replace (0 + (0 + 3 / 5 * (3 / 5) + 4 / 5 * (4 / 5))) with 1 by lra. apply sqrt_1.
Qed.

Lemma slug_production : production (cells slug) 2 slug_fission (medium slug) slug_phi = 36 / 5.
Proof. unfold production. cbn [cells slug rsum]. rewrite !slug_emission. lra. Qed.

Lemma slug_phi_nonzero i g : (i < cells slug)%nat -> (g < 2)%nat -> slug_phi i g <> 0.
Proof. intros _ Hg. unfold slug_phi. destruct (Nat.eqb g 0); lra. Qed.

(** Infinite medium: two groups, k = 2. *)
Definition pond_wt : vec := fun _ => 1 / 2.
Definition pond_total : vec := fun _ => 4.
Definition pond_scatter : mat2 := fun o i => if Nat.ltb o i then 0 else 1.
Definition pond_fission : fission_0d := FissionVector0 (fun _ => 1 / 2) (fun h => if Nat.eqb h 0 then 4 else 6).
Definition pond_phi : vec := fun g => if Nat.eqb g 0 then 3 / 5 else 4 / 5.

Lemma pond_emission o : emission_0d 2 pond_fission pond_phi o = 18 / 5.
Proof. unfold emission_0d. cbn. unfold pond_phi. cbn. lra. Qed.

Lemma pond_balance : balance_0d 2 2 pond_wt pond_total pond_scatter 1
  (mkArr2 2 (fun _ g => emission_0d 2 pond_fission pond_phi g / 2)) pond_phi.
Proof.
  intros g Hg. cbn [at2 cols2]. rewrite pond_emission.
  small g Hg; cbn; unfold pond_total, pond_phi, pond_scatter, pond_wt; cbn; lra.
Qed.

Lemma pond_ratio : ratio_0d 2 2 pond_wt pond_total pond_scatter (1 / 2).
Proof.
  intros g Hg. split; [unfold pond_total; lra|].
  small g Hg; cbn; unfold pond_wt, pond_scatter, pond_total; cbn; rewrite ?Rabs_R1, ?Rabs_R0; lra.
Qed.

Lemma pond_norm : norm1 2 pond_phi = 1.
Proof.
  unfold norm1. cbn. unfold pond_phi, Rsqr. cbn.
  replace (0 + 3 / 5 * (3 / 5) + 4 / 5 * (4 / 5)) with 1 by lra. apply sqrt_1.
Qed.

Lemma pond_production : production_0d 2 pond_fission pond_phi = 36 / 5.
Proof. unfold production_0d. cbn [rsum]. rewrite !pond_emission. lra. Qed.

(** C33: one snapshot is missing in every successful run. *)
Lemma collect_power_misses_first P groups xs_total xs_scatter f geometry guess r saved :
  collect_power_iteration P groups xs_total xs_scatter f geometry guess = Ok (r, saved) ->
  exists passes first,
    collect_step P groups xs_total xs_scatter f geometry (power_start (cells P) groups guess) = Ok first /\
    length saved = (passes - 1)%nat /\ (1 <= passes <= 101)%nat /\
    (passes = 1%nat -> r = first /\ saved = []).
Proof.
  intros E. destruct (collect_power_saved _ _ _ _ _ _ _ _ _ E) as (its & Hl & Hst & Hlast & Hs).
  exists (length its). destruct its as [|first its]; [cbn in Hl; lia|].
  exists first. split; [exact (Hst 0%nat ltac:(lia))|]. subst saved. cbn [tl length]. rewrite map_length.
  split; [lia|]. split; [exact Hl|]. intros H1. destruct its; [|cbn in H1; lia]. split; [|reflexivity].
  symmetry. exact Hlast.
Qed.

Lemma collect_total_slug : exists r saved,
  collect_power_iteration slug 2 slug_total slug_scatter slug_fission 1 (fun i g => 2 * slug_phi i g) = Ok (r, saved) /\
  saved = [].
Proof.
  destruct (power_eigenpair slug 2 slug_total slug_scatter slug_fission slug_phi 2 slug_nonzero slug_divisors slug_nonneg
     slug_eigenpair) as (flux & E & Ha); [lra|exact slug_norm|rewrite slug_production; lra|exact slug_phi_nonzero|].
  unfold power_iteration in E. set (st := power_start (cells slug) 2 (fun i g => 2 * slug_phi i g)) in *.
  unfold count_kk at 1 in E. cbn [iterate] in E.
  unfold collect_power_iteration. fold st. replace (count_kk + 1)%nat with (S count_kk) by lia.
  cbn [collect_power_loop]. rewrite collect_step_is_power_step.
  destruct (power_step slug 2 slug_total (Scatter3 slug_scatter) slug_fission 1 st) as [new|e] eqn:Es; cbn [bind] in *; [|discriminate].
  assert (Hst : fst st = slug_phi).
  { unfold st, power_start. cbn [fst]. extensionality i. extensionality g.
    rewrite (norm2_ext _ _ (fun i g => 2 * slug_phi i g) (fun i g => slug_phi i g * 2)) by (intros ? ? _ _; ring).
    rewrite norm2_scale, slug_norm. rewrite !Rabs_right; try lra. rewrite Rabs_right; lra. }
  assert (Hc : below (flux_change (cells slug) 2 new st) change_kk = true).
  { assert (Hkk : snd st = 2).
    { unfold st, power_start. cbn [snd].
      rewrite (norm2_ext _ _ (fun i g => 2 * slug_phi i g) (fun i g => slug_phi i g * 2)) by (intros ? ? _ _; ring).
      rewrite norm2_scale, slug_norm, Rabs_right; lra. }
    assert (Est : st = (slug_phi, 2)) by (rewrite <- Hst, <- Hkk; destruct st; reflexivity).
    rewrite Est in Es |- *.
    set (source := fission_source (cells slug) 2 slug_fission (medium slug) zeros2 slug_phi 2) in *.
    assert (Hsol : mg_solution slug 2 slug_total slug_scatter (as_source 2 source) no_boundary slug_phi).
    { eapply solution_external_ext; [| | |exact slug_eigenpair]; try reflexivity.
      intros i m g Hi Hg. cbn [at3 d3b d3c as_source]. symmetry. unfold source.
      apply fission_source_emission; [exact slug_nonneg|exact Hi|unfold bidx; cbn; lia]. }
    destruct (solution_driver slug 2 slug_total slug_scatter (as_source 2 source) no_boundary slug_phi slug_nonzero slug_divisors Hsol) as (fl & El & Hf).
    unfold power_step in Es. fold source in Es. cbn [source_iteration] in Es. rewrite El in Es. cbn [bind] in Es.
    injection Es as <-. unfold flux_change. cbn [fst].
    rewrite (rel_change2_ext _ _ _ slug_phi slug_phi slug_phi).
    - rewrite rel_change2_same by exact slug_phi_nonzero. cbn [below]. unfold change_kk.
      destruct (Rlt_dec 0 (/ 10 ^ 6)) as [_|Hb]; [reflexivity|exfalso; apply Hb, Rinv_0_lt_compat, pow_lt; lra].
    - intros i g Hi Hg. rewrite Hf by assumption.
      match goal with |- context [norm2 ?a ?b ?c] =>
        replace (norm2 a b c) with 1 by (rewrite <- slug_norm; symmetry; apply norm2_ext; exact Hf) end. field.
    - intros i g _ _. reflexivity. }
  rewrite Hc. cbn [orb]. change (py_index count_kk (Z.of_nat 1 - 2)) with (Some 99%nat).
  do 2 eexists. split; [reflexivity|]. reflexivity.
Qed.

Definition pond_chi : vec := fun _ => 1 / 2.
Definition pond_nusigf : vec := fun h => if Nat.eqb h 0 then 4 else 6.
Definition pond_mode : vec := fun g => if Nat.eqb g 0 then 1 / 6 else 2 / 9.
Definition pond_guess : vec := fun g => if Nat.eqb g 0 then 3 else 4.
Lemma pond_guess_norm : norm1 2 pond_guess = 5.
Proof.
  unfold norm1. cbn. unfold pond_guess, Rsqr. cbn.
  replace (0 + 3 * 3 + 4 * 4) with (5 * 5) by lra. apply sqrt_square. lra.
Qed.
Lemma pond_hyps :
  yields_0d 2 2 pond_wt pond_total pond_scatter (1 / 2) /\ damping_0d 2 2 pond_wt pond_total pond_scatter (1 / 2) (fun _ => 1) /\
  balance_0d 2 2 pond_wt pond_total pond_scatter 1 (mkArr2 2 (fun _ g => pond_chi g)) pond_mode /\
  fission_rate_0d 2 pond_nusigf pond_mode = 2 /\ pond_fission = FissionVector0 pond_chi pond_nusigf /\
  near_mode_0d 2 pond_nusigf pond_mode (fun _ => 1) (2 / 9) (3 / 2) pond_guess (norm1 2 pond_guess) /\
  solve_accuracy_0d (1 / 2) 100 (3 / 2) * (2 / 9 * rsum 2 (fun g => Rabs (pond_nusigf g) * 1)) < 1 / 10 ^ 7.
Proof.
  split; [|split; [|split; [|split; [|split; [reflexivity|split]]]]].
  - intros h Hh. split; [unfold pond_total; lra|]. small h Hh; cbn; unfold pond_wt, pond_scatter, pond_total; cbn; rewrite ?Rabs_R1, ?Rabs_R0; lra.
  - intros g Hg. split; [unfold pond_total; lra|]. split; [lra|]. small g Hg; cbn; unfold pond_wt, pond_scatter, pond_total; cbn; rewrite ?Rabs_R1, ?Rabs_R0; lra.
  - intros g Hg. cbn [at2 cols2]. small g Hg; cbn; unfold pond_total, pond_mode, pond_scatter, pond_wt, pond_chi; cbn; lra.
  - unfold fission_rate_0d. cbn. unfold pond_nusigf, pond_mode. cbn. lra.
  - intros g Hg. rewrite pond_guess_norm. unfold fission_rate_0d.
    replace (rsum 2 (fun h => pond_nusigf h * pond_guess h)) with 36 by (cbn; unfold pond_nusigf, pond_guess; cbn; lra).
    rewrite (Rabs_right (36 / 5)) by lra.
    small g Hg; unfold pond_guess, pond_mode; cbn; rewrite Rabs_right; lra.
  - replace (rsum 2 (fun g => Rabs (pond_nusigf g) * 1)) with 10 by (cbn; unfold pond_nusigf; cbn; rewrite !Rabs_right; lra).
    assert (B : solve_accuracy_0d (1 / 2) 100 (3 / 2) <= 1 / 10 ^ 7 / 4); [|lra].
    unfold solve_accuracy_0d. apply Rmax_lub; [lra|].
    assert (E : 0 < (1 / 2) ^ 100 <= (1 / 2) ^ 40).
    { replace 100%nat with (40 + 60)%nat by reflexivity. rewrite pow_add.
      assert (P : forall k, 0 < (1 / 2) ^ k <= 1).
      { intros k. induction k as [|k IH]; cbn [pow]; lra. }
      pose proof (P 40%nat). pose proof (P 60%nat). split; [apply Rmult_lt_0_compat; lra|nra]. }
    lra.
Qed.
