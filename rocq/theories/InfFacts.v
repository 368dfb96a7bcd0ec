(** Infinite media are one-cell slabs: the balance of a group is the balance of a thin cell from which a fixed share leaks. *)
From Coq Require Import Lra Lia Psatz.
From Verif Require Import Base BaseFacts Contraction SlabModel SlabSpec SlabFacts SlabFacts2 SlabFacts3 SlabFacts4.
From Verif Require Import MgModel MgSpec MgFacts MgFacts2 MgFacts3 SupSpec SupFacts CritModel CritSpec CritFacts5 CritFacts6 CritFacts7 CritFacts9 InfSpec.
Open Scope R_scope.

Definition shade (W : R) : sn := mkSn 1 (fun _ => 0%nat) (fun _ => 1) 2 (fun m => if Nat.eqb m 0 then 1 else -1) (fun _ => W / 2) 0 0.
Definition shade_total : mat2 := fun _ _ => 1.
Definition shade_matrix (T : vec) (X : mat2) : mat3 := fun _ g h => 3 * X g h / T g.
Definition shade_fission (T : vec) (f : fission_0d) : fission_data := FissionMatrix (fun _ o h => 3 * fission_entry_0d f o h / T o).
Definition shade_edges (u : R) : mat2 := fun m k => match m, k with 0%nat, 1%nat => 2 * u | 1%nat, 0%nat => 2 * u | _, _ => 0 end.

Lemma shade_mu W m : (m < 2)%nat -> Rabs (mu (shade W) m) = 1.
Proof. intros Hm. destruct m as [|[|]]; [| |lia]; cbn; [apply Rabs_right|rewrite Rabs_left]; lra. Qed.
Lemma shade_sweeps W G : 0 <= W -> positive_sweeps (shade W) G shade_total.
Proof.
  intros HW. split; [intros m Hm; destruct m as [|[|]]; [| |cbn in Hm; lia]; cbn; lra|]. split; [|intros m Hm; cbn; lra].
  intros g Hg m i Hm Hi. rewrite (shade_mu W m Hm). cbn [dx shade]. unfold shade_total. lra.
Qed.
Lemma shade_two_way W : 0 < W -> two_way (shade W).
Proof. intros HW. exists 0%nat, 1%nat. cbn. repeat split; try lia; lra. Qed.
Lemma shade_transmitting W G : transmitting (shade W) G shade_total.
Proof. intros m i g Hm Hi Hg. rewrite (shade_mu W m Hm). cbn [dx shade]. unfold shade_total. lra. Qed.

Lemma shade_inflow W psi m : (m < 2)%nat -> reflected_in (cells (shade W)) (angles (shade W)) (mu (shade W)) (bc_left (shade W)) (bc_right (shade W)) psi m = 0.
Proof. intros Hm. unfold reflected_in, leaves_reflective. destruct m as [|[|]]; [| |lia]; cbn; repeat destruct (Rlt_dec _ _); try lra; reflexivity. Qed.

(** one group of the one-cell slab *)
Lemma shade_group W q inflow psi phi : (forall m, (m < 2)%nat -> inflow m = 0) ->
  slab_transport (cells (shade W)) (angles (shade W)) (mu (shade W)) (wt (shade W)) (dx (shade W)) (fun _ => 1) (fun _ i => q i) inflow psi phi -> phi 0%nat = W * q 0%nat / 3.
Proof.
  intros Hin (H1 & H2 & H3). specialize (H3 0%nat ltac:(cbn; lia)).
  pose proof (H1 0%nat ltac:(cbn; lia) 0%nat ltac:(cbn; lia)) as A. pose proof (H1 1%nat ltac:(cbn; lia) 0%nat ltac:(cbn; lia)) as B.
  pose proof (H2 0%nat ltac:(cbn; lia)) as A'. pose proof (H2 1%nat ltac:(cbn; lia)) as B'. rewrite Hin in A', B' by lia.
  cbn in A, B, H3. unfold inflow_edge in A', B'. cbn in A', B'. destruct (Rlt_dec 0 1) in A'; [|lra]. destruct (Rlt_dec 0 (-1)) in B'; [lra|].
  rewrite A' in *. rewrite B' in *. rewrite H3.
  assert (psi 0%nat 1%nat = 2 * q 0%nat / 3) by lra. assert (psi 1%nat 0%nat = 2 * q 0%nat / 3) by lra. rewrite H, H0. field.
Qed.
Lemma shade_group_back W q inflow phi : (forall m, (m < 2)%nat -> inflow m = 0) -> phi 0%nat = W * q 0%nat / 3 ->
  slab_transport (cells (shade W)) (angles (shade W)) (mu (shade W)) (wt (shade W)) (dx (shade W)) (fun _ => 1) (fun _ i => q i) inflow (shade_edges (q 0%nat / 3)) phi.
Proof.
  intros Hin Hp. split; [|split].
  - intros m Hm i Hi. assert (i = 0)%nat as -> by (cbn in Hi; lia). destruct m as [|[|]]; [| |cbn in Hm; lia]; cbn; field.
  - intros m Hm. rewrite Hin by exact Hm. destruct m as [|[|]]; [| |cbn in Hm; lia]; unfold inflow_edge; cbn; destruct (Rlt_dec _ _); try lra; reflexivity.
  - intros i Hi. assert (i = 0)%nat as -> by (cbn in Hi; lia). rewrite Hp. cbn. field.
Qed.

Section Shade.
Variables (angles groups : nat) (wt T : vec).
Let W := rsum angles wt.
Hypothesis HT : forall g, (g < groups)%nat -> 0 < T g.

(** solutions of the one-cell slab are solutions of the infinite-medium balance *)
Lemma shade_solution X s phi :
  mg_solution (shade W) groups shade_total (shade_matrix T X) (iso3 groups s) dark phi <->
  balance_0d angles groups wt T X 1 (mkArr2 groups (fun _ g => T g * s 0%nat g / 3)) (phi 0%nat).
Proof.
  assert (B : forall g, (g < groups)%nat -> bidx groups g = g) by (intros g Hg; unfold bidx; destruct (Nat.eqb_spec groups 1); lia).
  assert (SRC : forall g, (g < groups)%nat ->
    rsum angles (fun n => wt n * (rsum groups (fun h => X g h * phi 0%nat h) + T g * s 0%nat g / 3)) = T g * (W * (rsum groups (fun h => shade_matrix T X 0%nat g h * phi 0%nat h) + s 0%nat g) / 3)).
  { intros g Hg. rewrite rsum_scal_r. fold W. specialize (HT g Hg).
    replace (rsum groups (fun h => shade_matrix T X 0%nat g h * phi 0%nat h)) with (3 / T g * rsum groups (fun h => X g h * phi 0%nat h)).
    - field. lra.
    - rewrite <- rsum_scal. apply rsum_ext. intros h Hh. unfold shade_matrix. field. lra. }
  assert (Q : forall g psi, (g < groups)%nat -> forall m, (m < 2)%nat ->
    reflected_in (cells (shade W)) (SlabModel.angles (shade W)) (mu (shade W)) (bc_left (shade W)) (bc_right (shade W)) psi m + mg_boundary dark (mu (shade W)) g m = 0)
    by (intros; rewrite shade_inflow, dark_boundary by assumption; lra).
  split.
  - intros (psi & H) g Hg. cbn [at2 cols2]. rewrite B by exact Hg. rewrite SRC by exact Hg. f_equal.
    specialize (H g Hg). apply (shade_group W (fun i => rsum groups (fun h => shade_matrix T X 0%nat g h * phi i h) + s i g) _ (psi g) (fun i => phi i g) (Q g (psi g) Hg)).
    destruct H as (H1 & H2 & H3). split; [|split; assumption]. intros m Hm i Hi. specialize (H1 m Hm i Hi). unfold mg_source in H1. rewrite iso3_at in H1 by exact Hg. exact H1.
  - intros H. exists (fun g => shade_edges ((rsum groups (fun h => shade_matrix T X 0%nat g h * phi 0%nat h) + s 0%nat g) / 3)). intros g Hg.
    specialize (H g Hg). cbn [at2 cols2] in H. rewrite B in H by exact Hg. rewrite SRC in H by exact Hg. apply Rmult_eq_reg_l in H; [|specialize (HT g Hg); lra].
    destruct (shade_group_back W (fun i => rsum groups (fun h => shade_matrix T X 0%nat g h * phi i h) + s i g) _ (fun i => phi i g) (Q g (shade_edges ((rsum groups (fun h => shade_matrix T X 0%nat g h * phi 0%nat h) + s 0%nat g) / 3)) Hg) H) as (H1 & H2 & H3).
    split; [|split; assumption]. intros m Hm i Hi. specialize (H1 m Hm i Hi). unfold mg_source. rewrite iso3_at by exact Hg. exact H1.
Qed.

Lemma shade_damping X c p : 0 <= W -> damping_0d angles groups wt T X c p -> damping (shade W) groups shade_total (shade_matrix T X) c (fun _ g => p g).
Proof.
  intros HW H. split; [intros i g _ Hg; apply (H g Hg)|]. intros g Hg. destruct (H g Hg) as (A & B & C).
  set (q := rsum groups (fun h => Rabs (shade_matrix T X 0%nat g h) * p h)).
  exists (fun _ => W * q / 3). split.
  - exists (shade_edges (q / 3)). apply (shade_group_back W (fun _ => q) _ (fun _ => W * q / 3)); [|reflexivity]. intros m Hm. apply shade_inflow. exact Hm.
  - intros _ _. apply (Rmult_le_reg_l (T g)); [exact A|].
    replace (T g * (W * q / 3)) with (W * rsum groups (fun h => Rabs (X g h) * p h)); [fold W in C; lra|].
    replace q with (3 / T g * rsum groups (fun h => Rabs (X g h) * p h)); [field; lra|].
    unfold q. rewrite <- rsum_scal. apply rsum_ext. intros h Hh. unfold shade_matrix. unfold Rdiv. rewrite !Rabs_mult, (Rabs_right 3), (Rabs_right (/ T g)); [ring| |lra].
    apply Rle_ge. left. apply Rinv_0_lt_compat. exact A.
Qed.
Lemma shade_transport X : damped_0d angles groups wt T X -> damped_transport (shade W) groups shade_total (shade_matrix T X).
Proof.
  intros (HW & HX & c & p & Hc & H). fold W in HW. destruct (shade_sweeps W groups ltac:(lra)) as (A & B & C). split; [exact A|]. split; [exact B|]. split; [exact C|]. split.
  - intros i g h _ Hg Hh. unfold shade_matrix. apply Rmult_le_pos; [specialize (HX g h Hg Hh); lra|left; apply Rinv_0_lt_compat, HT; exact Hg].
  - exists c, (fun _ g => p g). split; [exact Hc|]. apply shade_damping; [lra|exact H].
Qed.
Lemma shade_nonneg f : nonneg_fission_0d groups f -> nonneg_fission (cells (shade W)) groups (medium (shade W)) (shade_fission T f).
Proof. intros H i o h _ Ho Hh. cbn. apply Rmult_le_pos; [specialize (H o h Ho Hh); lra|left; apply Rinv_0_lt_compat, HT; exact Ho]. Qed.
Lemma shade_emission f v i g : (g < groups)%nat -> T g * emission groups (shade_fission T f) (medium (shade W)) v i g / 3 = emission_0d groups f (v i) g.
Proof.
  intros Hg. unfold emission, emission_0d. specialize (HT g Hg). replace (T g * rsum groups (fun h => fission_entry (shade_fission T f) (medium (shade W) i) g h * v i h) / 3)
    with (T g / 3 * rsum groups (fun h => fission_entry (shade_fission T f) (medium (shade W) i) g h * v i h)) by (field).
  rewrite <- rsum_scal. apply rsum_ext. intros h Hh. cbn. field. lra.
Qed.
Lemma balance_source_ext X s s' phi : (forall g, (g < groups)%nat -> s g = s' g) ->
  balance_0d angles groups wt T X 1 (mkArr2 groups (fun _ g => s g)) phi -> balance_0d angles groups wt T X 1 (mkArr2 groups (fun _ g => s' g)) phi.
Proof.
  intros H Hb g Hg. rewrite (Hb g Hg). cbn [at2 cols2]. apply rsum_ext. intros n Hn. rewrite (H (bidx groups g)); [reflexivity|]. unfold bidx. destruct (Nat.eqb_spec groups 1); lia.
Qed.
Lemma shade_generation X f v w : next_generation (shade W) groups shade_total (shade_matrix T X) (shade_fission T f) v w <-> next_generation_0d angles groups wt T X f (v 0%nat) (w 0%nat).
Proof.
  unfold next_generation, next_generation_0d. change (mkArr3 1 1 (fun _ _ _ => 0)) with dark.
  change (mkArr3 1 groups (fun i _ g => emission groups (shade_fission T f) (medium (shade W)) v i g)) with (iso3 groups (fun i g => emission groups (shade_fission T f) (medium (shade W)) v i g)).
  rewrite shade_solution. split; apply balance_source_ext; intros g Hg; rewrite shade_emission by exact Hg; reflexivity.
Qed.
Lemma shade_eigenpair X f phi k : eigenpair (shade W) groups shade_total (shade_matrix T X) (shade_fission T f) phi k <-> eigenpair_0d angles groups wt T X f (phi 0%nat) k.
Proof.
  unfold eigenpair, eigenpair_0d. change (mkArr3 1 1 (fun _ _ _ => 0)) with dark.
  change (mkArr3 1 groups (fun i _ g => emission groups (shade_fission T f) (medium (shade W)) phi i g / k)) with (iso3 groups (fun i g => emission groups (shade_fission T f) (medium (shade W)) phi i g / k)).
  rewrite shade_solution. split; apply balance_source_ext; intros g Hg; rewrite <- (shade_emission f phi 0%nat g Hg); unfold Rdiv; ring.
Qed.
Lemma shade_feeds X o g : feeds_0d groups X o g -> (g < groups)%nat -> feeds (shade W) groups (shade_matrix T X) o g.
Proof.
  induction 1 as [|h g Hf IH Hh Hx]; intros Hg; [apply feeds_here|]. apply (feeds_step _ _ _ _ h); [apply IH; exact Hh|exact Hh|]. exists 0%nat. split; [cbn; lia|].
  unfold shade_matrix. apply Rdiv_lt_0_compat; [lra|apply HT; exact Hg].
Qed.
Lemma shade_entry f o h : (o < groups)%nat -> (fission_entry (shade_fission T f) 0 o h <> 0 <-> fission_entry_0d f o h <> 0).
Proof.
  intros Ho. specialize (HT o Ho). cbn. split; intros H E; apply H; [rewrite E; field; lra|]. apply (Rmult_eq_reg_l (3 / T o)); [rewrite Rmult_0_r, <- E; field; lra|].
  apply Rgt_not_eq, Rdiv_lt_0_compat; lra.
Qed.
Lemma shade_fed X f : well_fed_0d groups X f -> well_fed (shade W) groups (shade_matrix T X) (shade_fission T f).
Proof.
  intros H j h o Hj Hh Ho Hne g Hg. apply (shade_entry f o h Ho) in Hne. destruct (H h o Hh Ho Hne g Hg) as (o' & Ho' & Hne' & Hfe).
  exists o'. split; [exact Ho'|]. split; [apply shade_entry; assumption|apply shade_feeds; assumption].
Qed.
Lemma shade_fissile f : fissile_0d groups f -> fissile (shade W) groups (shade_fission T f).
Proof. intros (h & o & Hh & Ho & Hne). exists 0%nat, h, o. split; [cbn; lia|]. split; [exact Hh|]. split; [exact Ho|]. apply shade_entry; assumption. Qed.
Lemma shade_even X f d : even_generation (shade W) groups shade_total (shade_matrix T X) (shade_fission T f) d <-> even_generation_0d angles groups wt T X f d.
Proof.
  split; intros (Hd & H); (split; [exact Hd|]).
  - intros v w Hv Hw g h Hg Hh. apply (H (fun _ => v) (fun _ => w)) with (i := 0%nat) (j := 0%nat); try assumption; try (cbn; lia); [intros i' g' _ Hg'; apply Hv; exact Hg'|]. apply shade_generation. exact Hw.
  - intros v w Hv Hw i g j h Hi Hg Hj Hh. assert (i = 0)%nat as -> by (cbn in Hi; lia). assert (j = 0)%nat as -> by (cbn in Hj; lia).
    apply (H (v 0%nat) (w 0%nat)); try assumption; [intros g' Hg'; apply (Hv 0%nat g'); [cbn; lia|exact Hg']|]. apply shade_generation. exact Hw.
Qed.
End Shade.
