(** The hypotheses of the variable-grid theorems hold with Gauss rules, even grids and valid index tables. *)
From Coq Require Import Lra Lia.
From Verif Require Import Base BaseFacts SlabModel SlabSpec MgModel MgSpec HybModel HybSpec HybFacts MainModel MainSpec MainFacts MainFacts2 TimeModel TimeSpec.
Open Scope R_scope.

Lemma grids_partition stock table grid G groups_c :
  (forall k gc, count_at groups_c k gc -> (1 <= gc <= G)%nat /\ (forall idx, table grid gc = Some idx -> partition G gc idx)) ->
  forall k gc ci fac idx e, count_at groups_c k gc ->
  energy_grid_change stock table grid G gc = Ok (ci, fac, idx, e) -> partition G gc idx.
Proof.
  intros H k gc ci fac idx e Hk. destruct (H k gc Hk) as (Hg & Ht).
  unfold energy_grid_change, energy_grid. destruct (known_grid grid); cbn [bind]; [|discriminate].
  destruct (stock grid) as [n ed]. destruct (grid_index _ _ _ _) as [fine|]; cbn [bind]; [|discriminate].
  destruct (grid_index (table grid gc) true G gc) as [coarse|] eqn:E; cbn [bind]; [|discriminate].
  intros J. injection J as _ _ <- _. unfold grid_index in E. destruct (table grid gc) as [t|].
  - injection E as <-. apply Ht. reflexivity.
  - destruct (coarse_index_partition G gc Hg) as (i & Ei & Hi & _). rewrite Ei in E. injection E as <-. exact Hi.
Qed.

Lemma quads_sound P leggauss angles_c : sound_slab P -> (bc_left P + bc_right P <= 1)%nat ->
  (forall k ac, count_at angles_c k ac -> exists h, (ac = 2 * h)%nat /\ (0 < h)%nat /\ gauss_pairs ac (fst (leggauss ac)) (snd (leggauss ac))) ->
  forall k ac xw, count_at angles_c k ac -> angular_x leggauss ac [bc_left P; bc_right P] = Ok xw ->
  sound_slab (with_angles P ac (fst xw) (snd xw)).
Proof.
  intros (Hdx & _) Hb H k ac xw Hk E. destruct (H k ac Hk) as (h & -> & Hh & Hg).
  destruct (angular_solver_order leggauss h (bc_left P) (bc_right P) Hh Hg Hb) as (x & w & E' & Hs & Hn & _ & _ & Hw).
  rewrite E' in E. injection E as <-. cbn [fst snd]. unfold sound_slab, with_angles. cbn [cells dx angles wt mu bc_left bc_right].
  split; [exact Hdx|]. split; [intros m Hm; apply Rlt_le; apply Hw; exact Hm|]. split; [exact Hn|]. right.
  split; [exact Hs|]. intros m Hm. apply Hw. exact Hm.
Qed.
