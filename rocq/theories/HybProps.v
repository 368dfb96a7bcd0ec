(** Property theorems of the energy-group collapsing (C42-C48).  Vocabulary: HybSpec.v. *)
From Coq Require Import Lra Lia.
From Verif Require Import Base BaseFacts SlabModel MgModel CritModel CritSpec.
From Verif Require Import HybModel HybSpec HybFacts HybFacts2 HybFacts3 HybWitness.
Open Scope R_scope.

(** ** C42 The coarse index partitions the fine groups *)
Theorem C42_partition :
  forall fine coarse,
  (1 <= coarse <= fine)%nat ->
  exists idx, energy_coarse_index fine coarse = Ok idx /\ partition fine coarse idx /\
    forall c, (c < coarse)%nat ->
      ((idx (c + 1) - idx c) = fine / coarse \/ (idx (c + 1) - idx c) = fine / coarse + 1)%nat.
Proof. exact coarse_index_partition. Qed.
Print Assumptions C42_partition.
Theorem C42_errors :
  forall fine coarse,
  (forall e, energy_coarse_index fine coarse = Raise e -> coarse = 0%nat /\ e = ZeroDivisionError) /\
  ((fine < coarse)%nat -> exists idx, energy_coarse_index fine coarse = Ok idx /\ ~ partition fine coarse idx).
Proof. exact coarse_index_errors. Qed.
Print Assumptions C42_errors.
Example C42_case : exists idx, energy_coarse_index 87 10 = Ok idx /\
  map idx (seq 0 11) = [0; 9; 18; 26; 35; 44; 52; 61; 70; 78; 87]%nat.
Proof. eexists. split; [reflexivity|]. vm_compute. reflexivity. Qed.

(** ** C43 Collapse and expansion indices *)
Theorem C43_collided_index :
  forall fine coarse idx,
  partition fine coarse idx ->
  forall g, (g < fine)%nat -> (collided_index coarse idx g < coarse)%nat /\
    in_group idx (collided_index coarse idx g) g.
Proof. exact collided_index_eq. Qed.
Print Assumptions C43_collided_index.
Theorem C43_collided_iff :
  forall fine coarse idx,
  partition fine coarse idx ->
  forall g c, (g < fine)%nat -> (c < coarse)%nat -> (collided_index coarse idx g = c <-> in_group idx c g).
Proof. exact collided_iff. Qed.
Print Assumptions C43_collided_iff.
Theorem C43_uncollided_index :
  forall fine coarse idx,
  partition fine coarse idx ->
  forall c, (c <= coarse)%nat -> uncollided_index coarse idx c = idx c.
Proof. exact uncollided_index_eq. Qed.
Print Assumptions C43_uncollided_index.
Theorem C43_indexing :
  forall n fine coarse idxf idx e,
  partition n fine idxf -> partition fine coarse idx -> monotone_edges n e ->
  let '(fine_idx, coarse_idx, factor) := indexing e idxf coarse idx in
  (forall c, (c <= coarse)%nat -> fine_idx c = idx c) /\
  (forall g, (g < fine)%nat -> (coarse_idx g < coarse)%nat /\ in_group idx (coarse_idx g) g) /\
  (forall g, (g < fine)%nat ->
     factor g = width (fun h => e (idxf h)) g / block_width (fun h => e (idxf h)) idx (coarse_idx g)) /\
  (forall c, (c < coarse)%nat -> group_sum idx c factor = 1).
Proof. exact indexing_correct. Qed.
Print Assumptions C43_indexing.
Example C43_case : partition 5 2 five_two /\ monotone_edges 5 squares /\
  map (collided_index 2 five_two) (seq 0 5) = [0; 0; 0; 1; 1]%nat /\
  map (uncollided_index 2 five_two) (seq 0 3) = [0; 3; 5]%nat.
Proof. split; [exact five_two_partition|]. split; [exact squares_monotone|]. split; reflexivity. Qed.

(** ** C44 Expansion factors *)
Theorem C44_factors :
  forall fine coarse idx e,
  partition fine coarse idx -> monotone_edges fine e ->
  let factor := hybrid_factor (ediff e) (coarse_diff e idx) coarse idx in
  forall c, (c < coarse)%nat ->
    (forall g, in_group idx c g -> factor g = width e g / block_width e idx c /\ 0 < factor g) /\
    group_sum idx c factor = 1.
Proof. exact factor_widths. Qed.
Print Assumptions C44_factors.
Example C44_case : partition 5 2 five_two /\ monotone_edges 5 squares /\
  hybrid_factor (ediff squares) (coarse_diff squares five_two) 2 five_two 3%nat = 7 / 16.
Proof.
  split; [exact five_two_partition|]. split; [exact squares_monotone|].
  destruct (factor_widths 5 2 five_two squares five_two_partition squares_monotone 1%nat ltac:(lia)) as [F _].
  destruct (F 3%nat) as [E _]; [unfold in_group; cbn; lia|]. rewrite E. unfold width, block_width, squares. cbn. lra.
Qed.

(** ** C45 Coarsened cross sections *)
Theorem C45_vector :
  forall fine coarse idx e v m,
  partition fine coarse idx -> monotone_edges fine e ->
  forall c, (c < coarse)%nat ->
    block_width e idx c * xs_vector_coarsen v e idx m c = group_sum idx c (fun g => width e g * v m g) /\
    (forall lo hi, (forall g, in_group idx c g -> lo <= v m g <= hi) -> lo <= xs_vector_coarsen v e idx m c <= hi) /\
    (forall k, (forall g, in_group idx c g -> v m g = k) -> xs_vector_coarsen v e idx m c = k).
Proof. exact vector_facts. Qed.
Print Assumptions C45_vector.
Theorem C45_vector_identity :
  forall fine idx e v m,
  partition fine fine idx -> identity_grid fine idx ->
  monotone_edges fine e -> forall c, (c < fine)%nat -> xs_vector_coarsen v e idx m c = v m c.
Proof. exact vector_identity. Qed.
Print Assumptions C45_vector_identity.
Theorem C45_matrix :
  forall fine coarse idx e M,
  partition fine coarse idx -> monotone_edges fine e ->
  exists C, xs_matrix_coarsen (Some M) e idx = Some C /\
  forall m,
  (forall a b, (a < coarse)%nat -> (b < coarse)%nat ->
     block_width e idx b * C m a b =
     group_sum idx a (fun r => group_sum idx b (fun c => width e c * M m r c))) /\
  (forall b, (b < coarse)%nat ->
     rsum coarse (fun a => C m a b) =
     xs_vector_coarsen (fun m c => rsum fine (fun r => M m r c)) e idx m b) /\
  rsum coarse (fun a => rsum coarse (fun b => block_width e idx b * C m a b)) =
  rsum fine (fun r => rsum fine (fun c => width e c * M m r c)).
Proof. exact matrix_facts. Qed.
Print Assumptions C45_matrix.
Theorem C45_matrix_identity :
  forall fine idx e M,
  partition fine fine idx -> identity_grid fine idx ->
  monotone_edges fine e ->
  exists C, xs_matrix_coarsen (Some M) e idx = Some C /\
    forall m a b, (a < fine)%nat -> (b < fine)%nat -> C m a b = M m a b.
Proof. exact matrix_identity. Qed.
Print Assumptions C45_matrix_identity.
Theorem C45_reaction_rates :
  forall fine coarse idx e owner F,
  partition fine coarse idx -> monotone_edges fine e ->
  (forall g, (g < fine)%nat -> (owner g < coarse)%nat /\ in_group idx (owner g) g) ->
  (forall v m c, (c < coarse)%nat ->
     group_sum idx c (fun g => v m g * spread e idx owner F g) = xs_vector_coarsen v e idx m c * F c) /\
  (forall M C, xs_matrix_coarsen (Some M) e idx = Some C ->
     forall m a, (a < coarse)%nat ->
       group_sum idx a (fun r => rsum fine (fun g => M m r g * spread e idx owner F g))
       = rsum coarse (fun b => C m a b * F b)).
Proof. exact spread_rates. Qed.
Print Assumptions C45_reaction_rates.
Theorem C45_rates_value :
  forall cells groups flux xs medium i o,
  (i < cells)%nat ->
  reaction_rates cells groups flux xs medium i o = rsum groups (fun g => xs (medium i) o g * flux i g).
Proof. exact reaction_rates_value. Qed.
Print Assumptions C45_rates_value.
Theorem C45_rates_collapse :
  forall cells fine coarse idx e F M C medium,
  partition fine coarse idx -> monotone_edges fine e ->
  xs_matrix_coarsen (Some M) e idx = Some C ->
  forall i a, (i < cells)%nat -> (a < coarse)%nat ->
    group_sum idx a (reaction_rates cells fine (fun i => spread e idx (collided_index coarse idx) (F i)) M medium i)
    = reaction_rates cells coarse F C medium i a.
Proof. exact reaction_rates_collapse. Qed.
Print Assumptions C45_rates_collapse.
Theorem C45_velocity :
  forall fine coarse idx v,
  partition fine coarse idx ->
  (forall c, (c < coarse)%nat ->
     INR (idx (c + 1)%nat - idx c) * coarsen_velocity v idx c = group_sum idx c v /\
     (forall lo hi, (forall g, in_group idx c g -> lo <= v g <= hi) -> lo <= coarsen_velocity v idx c <= hi)) /\
  (identity_grid coarse idx -> forall c, (c < coarse)%nat -> coarsen_velocity v idx c = v c).
Proof. exact velocity_facts. Qed.
Print Assumptions C45_velocity.
Example C45_case : partition 5 2 five_two /\ monotone_edges 5 squares /\
  (forall g, (g < 5)%nat -> ((if Nat.ltb g 3 then 0 else 1) < 2)%nat /\ in_group five_two (if Nat.ltb g 3 then 0 else 1)%nat g) /\
  (partition 5 5 (fun c => c) /\ identity_grid 5 (fun c => c)) /\
  xs_vector_coarsen (fun _ g => INR g) squares five_two 0%nat 0%nat = 13 / 9 /\
  coarsen_velocity (fun g => INR g) five_two 1%nat = 7 / 2.
Proof.
  split; [exact five_two_partition|]. split; [exact squares_monotone|]. split; [exact five_two_owner|].
  split; [exact five_identity|]. split.
  - unfold xs_vector_coarsen, range_sum, ediff, coarse_diff, squares. cbn. lra.
  - unfold coarsen_velocity, range_sum. cbn. lra.
Qed.

(** ** C46 Coarsened external source *)
Theorem C46_totals_partial :
  forall fine coarse idx e q,
  partition fine coarse idx -> fine <> 1%nat ->
  let r := coarsen_external fine q e coarse idx false in
  fst r = coarse /\
  (forall c, (c < coarse)%nat -> snd r c = group_sum idx c q) /\
  rsum coarse (snd r) = rsum fine q.
Proof. exact external_totals. Qed.
Print Assumptions C46_totals_partial.
Theorem C46_weighted_partial :
  forall fine coarse idx e q,
  partition fine coarse idx -> monotone_edges fine e -> fine <> 1%nat ->
  let r := coarsen_external fine q e coarse idx true in
  fst r = coarse /\
  rsum coarse (fun c => block_width e idx c * snd r c) = rsum fine (fun g => width e g * q g) /\
  forall c, (c < coarse)%nat -> snd r c = xs_vector_coarsen (fun _ => q) e idx 0%nat c.
Proof. exact external_weighted. Qed.
Print Assumptions C46_weighted_partial.
Theorem C46_one_column :
  forall coarse idx e q weight,
  coarsen_external 1 q e coarse idx weight = (1%nat, q).
Proof. exact external_one_column. Qed.
Print Assumptions C46_one_column.
Theorem C46_broadcast_refuted :
  forall fine coarse idx e (q : R),
  (1 < coarse)%nat -> (coarse < fine)%nat ->
  partition fine coarse idx -> q <> 0 ->
  let full := coarsen_external fine (fun _ => q) e coarse idx false in
  let column := coarsen_external 1 (fun _ => q) e coarse idx false in
  rsum coarse (snd full) = INR fine * q /\
  rsum coarse (fun _ => snd column 0%nat) = INR coarse * q /\
  rsum coarse (snd full) <> rsum coarse (fun _ => snd column 0%nat).
Proof. exact external_broadcast_refuted. Qed.
Print Assumptions C46_broadcast_refuted.
Example C46_case : partition 5 2 five_two /\ monotone_edges 5 squares /\
  snd (coarsen_external 5 (fun g => INR g) squares 2 five_two false) 0%nat = 3 /\
  snd (coarsen_external 1 (fun _ => 4) squares 2 five_two false) 0%nat = 4.
Proof.
  split; [exact five_two_partition|]. split; [exact squares_monotone|]. split; [|reflexivity].
  unfold coarsen_external, range_sum. cbn. lra.
Qed.

(** ** C47 Collided source *)
Theorem C47_conserves :
  forall cells fine coarse idx flux xs src medium,
  partition fine coarse idx ->
  let s := hybrid_source_collided cells fine flux xs src medium (collided_index coarse idx) in
  forall i, (i < cells)%nat ->
    (forall c, (c < coarse)%nat ->
       s i c = group_sum idx c (fun o => rsum fine (fun h => xs (medium i) o h * flux i h))) /\
    rsum coarse (s i) = rsum fine (fun o => rsum fine (fun h => xs (medium i) o h * flux i h)).
Proof. exact collided_source_conserves. Qed.
Print Assumptions C47_conserves.
Theorem C47_conserves_aniso :
  forall cells fine coarse idx flux xs src medium,
  partition fine coarse idx ->
  let s := hybrid_source_collided_aniso cells fine flux xs src medium (collided_index coarse idx) in
  forall i, (i < cells)%nat ->
    rsum coarse (s i) = rsum fine (fun o => rsum fine (fun h => xs (medium i) o h 0%nat * flux i h)).
Proof. exact collided_source_conserves_aniso. Qed.
Print Assumptions C47_conserves_aniso.
Theorem C47_fresh :
  forall cells groups flux xs s1 s2 medium ci i g,
  (i < cells)%nat ->
  hybrid_source_collided cells groups flux xs s1 medium ci i g
  = hybrid_source_collided cells groups flux xs s2 medium ci i g.
Proof. exact collided_source_fresh. Qed.
Print Assumptions C47_fresh.
Theorem C47_fission_conserves :
  forall cells fine coarse idx flux xs src medium keff,
  partition fine coarse idx ->
  nonneg_fission cells fine medium (FissionMatrix xs) ->
  let s := hybrid_fission_source cells fine flux xs src medium keff (collided_index coarse idx) in
  forall i, (i < cells)%nat ->
    (forall c, (c < coarse)%nat ->
       s i c = group_sum idx c (fun o => rsum fine (fun h => xs (medium i) o h * flux i h)) / keff) /\
    rsum coarse (s i) = rsum fine (fun o => rsum fine (fun h => xs (medium i) o h * flux i h)) / keff.
Proof. exact hybrid_fission_conserves. Qed.
Print Assumptions C47_fission_conserves.
Example C47_case : partition 5 2 five_two /\
  nonneg_fission 1 5 (fun _ => 0%nat) (FissionMatrix (fun _ o h => INR o)) /\
  hybrid_source_collided 1 5 (fun _ _ => 1) (fun _ o h => INR o) zeros2 (fun _ => 0%nat)
    (collided_index 2 five_two) 0%nat 1%nat = 35.
Proof.
  split; [exact five_two_partition|]. split; [intros i o h _ _ _; apply pos_INR|].
  destruct (collided_source_conserves 1 5 2 five_two (fun _ _ => 1) (fun _ o h => INR o) zeros2 (fun _ => 0%nat)
    five_two_partition 0%nat ltac:(lia)) as [E _].
  rewrite (E 1%nat) by lia. unfold group_sum. cbn. lra.
Qed.

(** ** C48 Recombination *)
Theorem C48_recombined :
  forall cells angles fine coarse idx e fu fc xs q medium,
  partition fine coarse idx -> monotone_edges fine e ->
  let ci := collided_index coarse idx in
  let factor := hybrid_factor (ediff e) (coarse_diff e idx) coarse idx in
  let r := hybrid_source_total cells angles fine fu fc xs q medium ci factor in
  forall i, (i < cells)%nat ->
    (forall g, (g < fine)%nat -> fst r i g = fu i g + spread e idx ci (fc i) g) /\
    (forall c, (c < coarse)%nat -> group_sum idx c (fst r i) = group_sum idx c (fu i) + fc i c) /\
    rsum fine (fst r i) = rsum fine (fu i) + rsum coarse (fc i) /\
    (forall n g, (n < angles)%nat -> (g < fine)%nat ->
       snd r i n g = q i n g + rsum fine (fun h => xs (medium i) g h * fst r i h)).
Proof. exact recombined_conserves. Qed.
Print Assumptions C48_recombined.
Theorem C48_total_source :
  forall cells angles groups fu fc xs q medium ci fac,
  let r := hybrid_source_total cells angles groups fu fc xs q medium ci fac in
  let comb i g := fu i g + fc i (ci g) * fac g in
  (forall i g, (i < cells)%nat -> (g < groups)%nat -> fst r i g = comb i g) /\
  (forall i n g, (i < cells)%nat -> (n < angles)%nat -> (g < groups)%nat ->
     snd r i n g = q i n g + rsum groups (fun h => xs (medium i) g h * comb i h)).
Proof. exact hybrid_total_eq. Qed.
Print Assumptions C48_total_source.
Theorem C48_total_source_aniso :
  forall cells angles groups nm fu fc xs q medium ci fac leg,
  (forall n, (n < angles)%nat -> leg 0%nat n = 1) ->
  hybrid_source_total_aniso cells angles groups (S nm) fu fc xs q medium ci fac leg
  = hybrid_source_total cells angles groups fu fc (fun m o i => xs m o i 0%nat) q medium ci fac.
Proof. exact hybrid_total_aniso_eq. Qed.
Print Assumptions C48_total_source_aniso.
Theorem C48_combine_fluxes :
  forall cells groups fu fc ci fac i g,
  (i < cells)%nat -> (g < groups)%nat ->
  hybrid_combine_fluxes cells groups fu fc ci fac i g = fc i (ci g) * fac g.
Proof. exact combine_fluxes_eq. Qed.
Print Assumptions C48_combine_fluxes.
Theorem C48_combine_fluxes_refuted :
  forall cells fine coarse idx e fu fc i c,
  partition fine coarse idx -> monotone_edges fine e -> (i < cells)%nat -> (c < coarse)%nat ->
  group_sum idx c (fu i) <> 0 ->
  let r := hybrid_combine_fluxes cells fine fu fc (collided_index coarse idx)
             (hybrid_factor (ediff e) (coarse_diff e idx) coarse idx) in
  group_sum idx c (r i) = fc i c /\ group_sum idx c (r i) <> group_sum idx c (fu i) + fc i c.
Proof. exact combine_fluxes_refuted. Qed.
Print Assumptions C48_combine_fluxes_refuted.
Example C48_case : partition 5 2 five_two /\ monotone_edges 5 squares /\
  group_sum five_two 0%nat (fun _ => 1) <> 0 /\
  exists leg, legendre_polynomials 3 (fun m => INR m) = Ok leg /\ forall n, (n < 2)%nat -> leg 0%nat n = 1.
Proof.
  split; [exact five_two_partition|]. split; [exact squares_monotone|]. split; [unfold group_sum; cbn; lra|].
  eexists. split; [reflexivity|]. intros n Hn. reflexivity.
Qed.
