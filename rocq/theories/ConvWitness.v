(** Concrete problems meeting the hypotheses of the convergence theorems. *)
From Coq Require Import Lra Lia Reals.
From Verif Require Import Base BaseFacts SlabModel SlabSpec SlabFacts4 SlabFacts5 SlabWitness MgModel MgSpec MgFacts MgFacts6
  ManModel ManSpec ManFacts ConvSpec ConvFacts.
Open Scope R_scope.

(** The demo slab (reflective right side) with the flux y^2 in both directions. *)
Definition demo_x : vec := fun k => match k with 0%nat => 0 | 1%nat => 1 | _ => 3 / 2 end.
Definition square_psi (m i : nat) : R -> R := fun y => y ^ 2.
Definition square_source : arr2 := mkArr2 2 (fun i m => mu demo m * (2 * centre demo_x i) + demo_total i * centre demo_x i ^ 2).
Lemma demo_mesh : regular_mesh demo 1 (1 / 2) /\ cell_edges demo demo_x.
Proof.
  split; [|intros i Hi; small i Hi; cbn; lra].
  split; [cbn; lia|]. split; [lra|]. split; [intros i Hi; small i Hi; cbn; lra|]. split.
  - intros m Hm. small m Hm; cbn; unfold Rabs; destruct (Rcase_abs _); lra.
  - split; [apply demo_symmetric|apply demo_ordered].
Qed.
Lemma square_flux : continuous_flux demo (fun i => demo_total (medium demo i))
  (fun m i => at2 square_source i (bidx (cols2 square_source) m)) (boundary_in (mkArr2 1 (fun _ _ => 0)) (mu demo)) demo_x 2 0 square_psi.
Proof.
  split; [|split; [|split]].
  - intros m i Hm Hi. exists (fun y => 2 * y), (fun _ => 2), (fun _ => 0). intros y _. rewrite Rabs_R0, Rabs_right by lra. repeat split; try lra.
    + unfold square_psi. eassert (D : derivable_pt_lim (fun y => y ^ 2) y _) by dauto. by_derivative D. ring.
    + eassert (D : derivable_pt_lim (fun y => 2 * y) y _) by dauto. by_derivative D. ring.
    + apply derivable_pt_lim_const.
  - reflexivity.
  - intros m i Hm Hi. exists (2 * centre demo_x i). split.
    + unfold square_psi. eassert (D : derivable_pt_lim (fun y => y ^ 2) (centre demo_x i) _) by dauto. by_derivative D. ring.
    + small i Hi; small m Hm; cbn; unfold square_psi, centre, demo_x; cbn; field.
  - intros m Hm. small m Hm; unfold boundary_in, enters_reflective, inflow_edge, edge_value, square_psi; cbn.
    + destruct (Rlt_dec 0 (1 / 2)); [|lra]. cbn. lra.
    + destruct (Rlt_dec 0 (- (1 / 2))); [lra|]. cbn. lra.
Qed.

(** A uniform mesh of [total] cells of width [1 / per], the first [per] cells of material 0 and the rest of
    material 1, vacuum on both sides, two ordinates. *)
Definition grid (per total : nat) : sn :=
  mkSn total (fun i => if Nat.ltb i per then 0%nat else 1%nat) (fun _ => / INR per) 2
       (fun m => if Nat.eqb m 0 then 1 / 2 else - (1 / 2)) (fun _ => 1 / 2) 0 0.
Definition grid_x (per : nat) : vec := fun k => INR k / INR per.
Lemma grid_regular per total : (0 < per)%nat -> (0 < total)%nat -> regular_mesh (grid per total) (/ INR per) (1 / 2).
Proof.
  intros H0 H1. assert (0 < / INR per) by (apply Rinv_0_lt_compat, lt_0_INR; lia).
  split; [exact H1|]. split; [lra|]. split; [intros i Hi; cbn [grid dx]; lra|]. split.
  - intros m Hm. small m Hm; cbn; unfold Rabs; destruct (Rcase_abs _); lra.
  - split; [intros m Hm; small m Hm; cbn; lra|].
    intros m Hm He. unfold enters_reflective in He. cbn [grid bc_left bc_right Nat.eqb] in He. destruct (Rlt_dec _ _); discriminate.
Qed.
Lemma grid_thin per : (0 < per)%nat -> / INR per <= 2 * (1 / 2).
Proof.
  intros H. assert (1 <= INR per) by (change 1 with (INR 1); apply le_INR; lia). assert (/ INR per <= / 1) by (apply Rinv_le_contravar; lra).
  rewrite Rinv_1 in *. lra.
Qed.
Lemma grid_meshes per k : (0 < per)%nat -> (0 < k)%nat -> meshes (grid per (k * per)) (grid_x per) 0 (INR k).
Proof.
  intros H Hk. assert (0 < INR per) by (apply lt_0_INR; lia). unfold meshes, cell_edges, grid_x. cbn [grid cells dx bc_left bc_right].
  repeat split.
  - intros i Hi. rewrite S_INR. field. lra.
  - cbn [INR]. field. lra.
  - rewrite mult_INR. field. lra.
Qed.
Lemma grid_interface per : (0 < per)%nat -> interface (grid per (2 * per)) (grid_x per) 1.
Proof.
  intros H i Hi. assert (P : 0 < INR per) by (apply lt_0_INR; lia). unfold grid_x. cbn [grid medium].
  assert (E : 1 = INR per / INR per) by (field; lra).
  destruct (Nat.ltb_spec i per) as [L|L]; [left|right]; (split; [reflexivity|]); rewrite E; unfold Rdiv;
    (apply Rmult_le_compat_r; [left; now apply Rinv_0_lt_compat|apply le_INR; lia]).
Qed.
Lemma grid_nonzero per total : nonzero_ordinates (angles (grid per total)) (mu (grid per total)).
Proof. intros m Hm. small m Hm; cbn; lra. Qed.
Lemma grid_weights per total : (forall m, (m < angles (grid per total))%nat -> 0 <= wt (grid per total) m) /\
  rsum (angles (grid per total)) (wt (grid per total)) = 1.
Proof. split; [intros; cbn [grid wt]; lra|cbn; lra]. Qed.
