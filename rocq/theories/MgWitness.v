(** Concrete two-group problems meeting the hypotheses of the multigroup theorems, and refutations. *)
From Coq Require Import Lra Lia FunctionalExtensionality.
From Verif Require Import Base BaseFacts SlabModel SlabSpec SlabFacts SlabFacts2 SlabFacts3 SlabWitness.
From Verif Require Import MgModel MgSpec MgFacts MgFacts2 MgFacts3 MgFacts4 MgFacts5 MgFacts6.
Open Scope R_scope.

(** Two materials, two groups with up- and downscatter, on the two-cell mesh [demo]. *)
Definition duo_total : mat2 := fun m g => demo_total m / INR (S g).
Definition duo_scatter : mat3 := fun m g h =>
  duo_total m g * (if Nat.eqb g h then 1 / 4 else if Nat.ltb h g then 1 / 8 else 1 / 16).
Definition duo_ext : arr3 := mkArr3 1 2 (fun i _ g => 1 + INR g).
Definition duo_bnd : arr3 := mkArr3 1 1 (fun r _ _ => if Nat.eqb r 0 then 2 else 0).

Lemma duo_thin : mg_thin demo 2 duo_total.
Proof.
  intros g Hg m i Hm Hi. unfold duo_total.
  small g Hg; small m Hm; small i Hi; cbn; unfold Rabs; destruct (Rcase_abs _); lra.
Qed.

Lemma duo_divisors : mg_divisors demo 2 duo_total.
Proof. intros g Hg. apply thin_divisors; [exact demo_nonzero|]. apply (duo_thin g Hg). Qed.

Lemma duo_ratio : mg_ratio demo 2 duo_total duo_scatter (3 / 8).
Proof.
  intros g i Hg Hi. unfold duo_scatter, duo_total.
  small g Hg; small i Hi; cbn; rewrite !Rabs_right; lra.
Qed.

Lemma duo_weights : (forall m, (m < angles demo)%nat -> 0 <= wt demo m) /\ rsum (angles demo) (wt demo) * (3 / 8) < 1.
Proof. split; [intros; cbn; lra|cbn; lra]. Qed.

Lemma duo_scatter_nonneg i g h : (i < cells demo)%nat -> (g < 2)%nat -> (h < 2)%nat -> 0 <= duo_scatter (medium demo i) g h.
Proof. intros Hi Hg Hh. unfold duo_scatter, duo_total. small i Hi; small g Hg; small h Hh; cbn; lra. Qed.

Lemma duo_solution : exists sol, mg_solution demo 2 duo_total duo_scatter duo_ext duo_bnd sol.
Proof.
  destruct (mg_unique_solution demo 2 duo_total duo_scatter duo_ext duo_bnd (3 / 8)) as (sol & H & _);
    [exact demo_nonzero|exact duo_thin|exact (proj1 duo_weights)|lra|exact (proj2 duo_weights)|exact duo_ratio|].
  exists sol. exact H.
Qed.

(** The solution is not the zero flux. *)
Lemma duo_solution_nonzero sol : mg_solution demo 2 duo_total duo_scatter duo_ext duo_bnd sol ->
  ~ forall i g, (i < 2)%nat -> (g < 2)%nat -> sol i g = 0.
Proof.
  intros (psi & HT) Hz.
  pose proof (mg_balance demo 2 duo_total duo_scatter duo_ext duo_bnd psi sol demo_dx HT) as B.
  assert (N : forall i g, (i < cells demo)%nat -> (g < 2)%nat -> sol i g = 0) by (intros; apply Hz; assumption).
  destruct (HT 0%nat ltac:(lia)) as (Hb & Hin & Hphi).
  assert (I0 := Hin 0%nat ltac:(cbn; lia)). assert (I1 := Hin 1%nat ltac:(cbn; lia)).
  assert (B00 := Hb 0%nat ltac:(cbn; lia) 0%nat ltac:(cbn; lia)).
  assert (B01 := Hb 0%nat ltac:(cbn; lia) 1%nat ltac:(cbn; lia)).
  assert (B10 := Hb 1%nat ltac:(cbn; lia) 0%nat ltac:(cbn; lia)).
  assert (B11 := Hb 1%nat ltac:(cbn; lia) 1%nat ltac:(cbn; lia)).
  assert (P0 := Hphi 0%nat ltac:(cbn; lia)). assert (P1 := Hphi 1%nat ltac:(cbn; lia)).
  unfold mg_source, duo_scatter, duo_total in B00, B01, B10, B11. cbn in B00, B01, B10, B11, P0, P1.
  unfold inflow_edge, mg_boundary, reflected_in, enters_reflective, inflow_edge, outflow_edge in I0, I1. cbn in I0, I1.
  destruct (Rlt_dec 0 (1 / 2)) as [_|H]; [|lra]. destruct (Rlt_dec 0 (- (1 / 2))) as [H|_]; [lra|].
  rewrite !N in * by (cbn; lia). cbn in *. nra.
Qed.

(** C36: a cell of a non-scattering material keeps whatever the array held. *)
Lemma scatter_prod_stale : exists cells groups flux xs s1 s2 medium i g,
  (i < cells)%nat /\ (g < groups)%nat /\
  (forall m o h, 0 <= xs m o h) /\ (forall j h, 0 < flux j h) /\
  scatter_prod cells groups flux xs s1 medium i g <> scatter_prod cells groups flux xs s2 medium i g /\
  scatter_prod cells groups flux xs s1 medium i g <> rsum groups (fun h => xs (medium i) g h * flux i h).
Proof.
  exists 2%nat, 1%nat, (fun _ _ => 1), (fun m _ _ => INR m), (fun _ _ => 1), zeros2, (fun i => i), 0%nat, 0%nat.
  split; [lia|]. split; [lia|]. split; [intros; apply pos_INR|]. split; [intros; lra|].
  rewrite !scatter_prod_eq. cbn. unfold mat_total. cbn.
  destruct (Req_EM_T (0 + (0 + 0)) 0) as [_|H]; [|lra]. unfold zeros2. split; lra.
Qed.

(** C35: with raw cross sections (not passed through update_cross_sections) the rate is not conserved. *)
Lemma predict_raw_rate : exists cells groups flux xs medium predict l source x,
  scatter_prod_predict cells groups flux xs medium [Model predict] (OneLabel l) = Ok source /\
  (x < cells)%nat /\ medium x = 0%nat /\ (forall m o h, 0 <= xs m o h) /\ (forall j h, 0 < flux j h) /\
  (forall n f lab k, rsum groups (fun g => predict n f lab k g) <> 0) /\
  rsum groups (fun g => source x g) <> rsum groups (fun o => rsum groups (fun g => xs (medium x) o g * flux x g)).
Proof.
  set (xs := fun m o h : nat => if Nat.eqb o h then 1 else 0).
  set (flux := fun _ _ : nat => 1). set (predict := fun (_ : nat) (_ : mat2) (_ : list R) (_ _ : nat) => 1).
  destruct (scatter_prod_predict 1 2 flux xs (fun _ => 0%nat) [Model predict] (OneLabel [])) as [source|e] eqn:E;
    [|cbn in E; discriminate].
  exists 1%nat, 2%nat, flux, xs, (fun _ => 0%nat), predict, [], source, 0%nat.
  split; [exact E|]. split; [lia|]. split; [reflexivity|].
  split; [intros m o h; unfold xs; destruct (Nat.eqb o h); lra|]. split; [intros; unfold flux; lra|].
  split; [intros; unfold predict; cbn; lra|].
  rewrite (predict_rate 1 2 flux xs (fun _ => 0%nat) [Model predict] (OneLabel []) source 0 predict E);
    [|lia|cbn; lia|reflexivity|cbn; unfold flux; lra|cbn; unfold predict; lra].
  unfold flux, xs. cbn. lra.
Qed.

(** C80: with the documented default [scatter_models=[]] all scattering disappears. *)
Lemma no_models_no_scatter : exists cells groups flux xs medium source i g,
  scatter_prod_predict cells groups flux xs medium [] (OneLabel [0]) = Ok source /\
  (i < cells)%nat /\ (g < groups)%nat /\
  source i g <> rsum groups (fun h => xs (medium i) g h * flux i h).
Proof.
  exists 1%nat, 1%nat, (fun _ _ => 1), (fun _ _ _ => 1), (fun _ => 0%nat), zeros2, 0%nat, 0%nat.
  split; [reflexivity|]. split; [lia|]. split; [lia|]. unfold zeros2. cbn. lra.
Qed.

(** A one-column source: known_source_angular returns the scalar flux (C11). *)
Definition one_col_src : arr3 := mkArr3 1 2 (fun i _ g => 1 + INR g).
