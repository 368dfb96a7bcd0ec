(** Property theorems of the multigroup drivers and kernels (C10, C11 in several groups,
    C21-C26, C35, C36, C49, C77-C80).  Vocabulary: SlabSpec.v, MgSpec.v. *)
From Coq Require Import Lra Lia.
From Verif Require Import Base BaseFacts SlabModel SlabSpec SlabFacts SlabWitness.
From Verif Require Import MgModel MgSpec MgFacts MgFacts2 MgFacts3 MgFacts4 MgFacts5 MgFacts6 MgWitness.
Open Scope R_scope.

(** ** C10 A converged multigroup flux is returned unchanged *)
Theorem C10_multigroup_fixed_point :
  forall P groups phi xs_total xs_scatter external boundary geometry,
  one_sweep_iso P groups xs_total xs_scatter external boundary geometry phi = Ok phi ->
  (forall i g, (i < cells P)%nat -> (g < groups)%nat -> phi i g <> 0) ->
  source_iteration_iso P groups phi xs_total xs_scatter external boundary geometry = Ok phi.
Proof. exact outer_fixed. Qed.
Print Assumptions C10_multigroup_fixed_point.
Theorem C10_multigroup_solution :
  forall P groups xs_total xs_scatter external boundary phi,
  nonzero_ordinates (angles P) (mu P) -> mg_divisors P groups xs_total ->
  mg_solution P groups xs_total xs_scatter external boundary phi ->
  exists flux, source_iteration_iso P groups phi xs_total xs_scatter external boundary 1 = Ok flux /\
    agree2 (cells P) groups flux phi.
Proof. exact solution_driver. Qed.
Print Assumptions C10_multigroup_solution.
Example C10_multigroup_case : nonzero_ordinates (angles demo) (mu demo) /\ mg_divisors demo 2 duo_total /\
  exists sol, mg_solution demo 2 duo_total duo_scatter duo_ext duo_bnd sol /\
    ~ forall i g, (i < 2)%nat -> (g < 2)%nat -> sol i g = 0.
Proof.
  split; [exact demo_nonzero|]. split; [exact duo_divisors|]. destruct duo_solution as [sol H].
  exists sol. split; [exact H|]. apply duo_solution_nonzero. exact H.
Qed.

(** ** C11 Known-source multigroup solves.  A source with one angular column makes the
    "angular" solve return the scalar flux instead of the angular flux. *)
Theorem C11_multigroup_scalar_is_sum :
  forall P groups xs_total source boundary edges phi psi,
  d3b source = angles P -> angles P <> 1%nat ->
  known_source_scalar P groups xs_total source boundary 1 edges = Ok phi ->
  known_source_angular P groups xs_total source boundary 1 edges = Ok psi ->
  forall i g, (g < groups)%nat -> phi i g = rsum (angles P) (fun m => wt P m * psi i m g).
Proof. exact mg_scalar_is_sum. Qed.
Print Assumptions C11_multigroup_scalar_is_sum.
Theorem C11_multigroup_total :
  forall P groups xs_total source boundary edges,
  (exists phi, known_source_scalar P groups xs_total source boundary 1 edges = Ok phi) /\
  (exists psi, known_source_angular P groups xs_total source boundary 1 edges = Ok psi).
Proof. exact known_total. Qed.
Print Assumptions C11_multigroup_total.
Theorem C11_one_column_source_refuted :
  forall P groups xs_total source boundary edges phi psi,
  d3b source = 1%nat ->
  known_source_scalar P groups xs_total source boundary 1 edges = Ok phi ->
  known_source_angular P groups xs_total source boundary 1 edges = Ok psi ->
  forall i g, (g < groups)%nat -> psi i 0%nat g = phi i g.
Proof. exact mg_angular_broadcast. Qed.
Print Assumptions C11_one_column_source_refuted.
Theorem C11_reproduces_solution :
  forall P groups xs_total xs_scatter external boundary phi flux source0 psi',
  angles P <> 1%nat -> nonzero_ordinates (angles P) (mu P) -> mg_divisors P groups xs_total ->
  (1 < groups)%nat -> (1 < angles P)%nat ->
  mg_solution P groups xs_total xs_scatter external boundary phi ->
  let src := mkArr3 (angles P) groups
     (source_total (cells P) (angles P) groups source0 phi xs_scatter (medium P) external) in
  known_source_scalar P groups xs_total src boundary 1 0 = Ok flux ->
  known_source_angular P groups xs_total src boundary 1 1 = Ok psi' ->
  agree2 (cells P) groups flux phi /\
  mg_transport P groups xs_total xs_scatter external boundary (fun g m k => psi' k m g) phi.
Proof. exact known_reproduces_solution. Qed.
Print Assumptions C11_reproduces_solution.
Example C11_multigroup_case :
  angles demo <> 1%nat /\ (1 < 2)%nat /\ (1 < angles demo)%nat /\ nonzero_ordinates (angles demo) (mu demo) /\
  mg_divisors demo 2 duo_total /\ exists sol, mg_solution demo 2 duo_total duo_scatter duo_ext duo_bnd sol.
Proof.
  split; [discriminate|]. split; [lia|]. split; [cbn; lia|]. split; [exact demo_nonzero|].
  split; [exact duo_divisors|exact duo_solution].
Qed.

(** ** C21 Gauss-Seidel coupling *)
Theorem C21_off_group_source :
  forall cells groups new old medium xs gg i,
  (gg < groups)%nat -> (i < cells)%nat ->
  off_scatter cells groups new old medium xs gg i
  = rsum groups (fun h => if Nat.eqb h gg then 0
                          else xs (medium i) gg h * (if Nat.ltb h gg then new i h else old i h)).
Proof. exact off_scatter_entry. Qed.
Print Assumptions C21_off_group_source.
Theorem C21_full_source :
  forall cells groups phi medium xs gg i,
  (gg < groups)%nat -> (i < cells)%nat ->
  xs (medium i) gg gg * phi i gg + off_scatter cells groups phi phi medium xs gg i
  = rsum groups (fun h => xs (medium i) gg h * phi i h).
Proof. exact off_scatter_full. Qed.
Print Assumptions C21_full_source.
Example C21_case : (1 < 2)%nat /\ (0 < cells demo)%nat /\
  off_scatter (cells demo) 2 (fun _ _ => 1) (fun _ _ => 3) (medium demo) duo_scatter 0 0%nat = 3 / 16 /\
  off_scatter (cells demo) 2 (fun _ _ => 1) (fun _ _ => 3) (medium demo) duo_scatter 1 0%nat = 1 / 16.
Proof.
  split; [lia|]. split; [cbn; lia|].
  split; rewrite off_scatter_entry by (cbn; lia); unfold duo_scatter, duo_total; cbn; lra.
Qed.

(** ** C22 Fixed points are exactly the solutions of the multigroup equations *)
Theorem C22_solution_is_fixed :
  forall P groups xs_total xs_scatter external boundary phi new,
  nonzero_ordinates (angles P) (mu P) -> mg_divisors P groups xs_total ->
  mg_solution P groups xs_total xs_scatter external boundary phi ->
  one_sweep_iso P groups xs_total xs_scatter external boundary 1 phi = Ok new ->
  agree2 (cells P) groups new phi.
Proof. exact solution_sweep. Qed.
Print Assumptions C22_solution_is_fixed.
Theorem C22_fixed_point_is_solution :
  forall P groups xs_total xs_scatter external boundary c phi new,
  nonzero_ordinates (angles P) (mu P) -> mg_thin P groups xs_total ->
  (forall m, (m < angles P)%nat -> 0 <= wt P m) -> 0 <= c ->
  rsum (angles P) (wt P) * c < 1 ->
  mg_ratio P groups xs_total xs_scatter c ->
  one_sweep_iso P groups xs_total xs_scatter external boundary 1 phi = Ok new ->
  agree2 (cells P) groups new phi ->
  mg_solution P groups xs_total xs_scatter external boundary phi.
Proof. exact fixed_point_solution. Qed.
Print Assumptions C22_fixed_point_is_solution.
Theorem C22_sweep_equations :
  forall P groups xs_total xs_scatter external boundary old new g,
  mg_divisors P groups xs_total -> (g < groups)%nat ->
  one_sweep_iso P groups xs_total xs_scatter external boundary 1 old = Ok new ->
  exists last psi,
    slab_transport (cells P) (angles P) (mu P) (wt P) (dx P) (fun i => xs_total (medium P i) g)
      (fun m i => rsum groups (fun h => xs_scatter (medium P i) g h *
                    (if Nat.ltb h g then new i h else if Nat.eqb h g then last i else old i h))
                  + at3 external i (bidx (d3b external) m) (bidx (d3c external) g))
      (fun m => reflected_in (cells P) (angles P) (mu P) (bc_left P) (bc_right P) psi m
                + mg_boundary boundary (mu P) g m)
      psi (fun i => new i g).
Proof. exact sweep_transport. Qed.
Print Assumptions C22_sweep_equations.
Example C22_case : nonzero_ordinates (angles demo) (mu demo) /\ mg_thin demo 2 duo_total /\
  (forall m, (m < angles demo)%nat -> 0 <= wt demo m) /\ rsum (angles demo) (wt demo) * (3 / 8) < 1 /\
  mg_ratio demo 2 duo_total duo_scatter (3 / 8) /\
  exists phi new, one_sweep_iso demo 2 duo_total duo_scatter duo_ext duo_bnd 1 phi = Ok new /\
    agree2 (cells demo) 2 new phi.
Proof.
  split; [exact demo_nonzero|]. split; [exact duo_thin|]. split; [apply duo_weights|]. split; [apply duo_weights|].
  split; [exact duo_ratio|]. destruct duo_solution as [phi H].
  destruct (one_sweep_total demo 2 duo_total duo_scatter duo_ext duo_bnd phi demo_nonzero) as [new E].
  exists phi, new. split; [exact E|]. apply (solution_sweep demo 2 duo_total duo_scatter duo_ext duo_bnd);
    [exact demo_nonzero|exact duo_divisors|exact H|exact E].
Qed.

(** ** C23 Termination with a documented reason *)
Theorem C23_isotropic_exit :
  forall P groups old xs_total xs_scatter external boundary geometry flux,
  source_iteration_iso P groups old xs_total xs_scatter external boundary geometry = Ok flux ->
  documented_exit (one_sweep_iso P groups xs_total xs_scatter external boundary geometry)
    (cells P) groups 100 (/ 10 ^ 8) old flux.
Proof. exact outer_exit_iso. Qed.
Print Assumptions C23_isotropic_exit.
Theorem C23_anisotropic_exit :
  forall P groups nm old xs_total xs_scatter external boundary geometry leg legw flux,
  source_iteration_aniso P groups nm old xs_total xs_scatter external boundary geometry leg legw = Ok flux ->
  documented_exit (one_sweep_aniso P groups nm xs_total xs_scatter external boundary geometry leg legw)
    (cells P) groups 100 (/ 10 ^ 8) old flux.
Proof. exact outer_exit_aniso. Qed.
Print Assumptions C23_anisotropic_exit.
Theorem C23_ml_exit :
  forall P groups old xs_total xs_scatter external boundary geometry models label flux,
  ml_source_iteration P groups old xs_total xs_scatter external boundary geometry models label = Ok flux ->
  documented_exit (ml_sweep P groups xs_total xs_scatter external boundary geometry models label)
    (cells P) groups 50 (/ 10 ^ 8) old flux.
Proof. exact outer_exit_ml. Qed.
Print Assumptions C23_ml_exit.
Theorem C23_isotropic_total :
  forall P groups old xs_total xs_scatter external boundary,
  nonzero_ordinates (angles P) (mu P) ->
  exists flux, source_iteration_iso P groups old xs_total xs_scatter external boundary 1 = Ok flux.
Proof. exact outer_total. Qed.
Print Assumptions C23_isotropic_total.
Theorem C23_only_sweep_exceptions :
  forall P groups old xs_total xs_scatter external boundary geometry models label e,
  (source_iteration_iso P groups old xs_total xs_scatter external boundary geometry = Raise e ->
   exists x, one_sweep_iso P groups xs_total xs_scatter external boundary geometry x = Raise e) /\
  (ml_source_iteration P groups old xs_total xs_scatter external boundary geometry models label = Raise e ->
   exists x, ml_sweep P groups xs_total xs_scatter external boundary geometry models label x = Raise e).
Proof. exact outer_failure. Qed.
Print Assumptions C23_only_sweep_exceptions.
Theorem C23_zero_ordinate :
  forall P groups xs_total xs_scatter external boundary old m,
  (0 < groups)%nat -> (m < angles P)%nat -> mu P m = 0 ->
  one_sweep_iso P groups xs_total xs_scatter external boundary 1 old = Raise DiscontinuityAt0.
Proof. exact one_sweep_zero_ordinate. Qed.
Print Assumptions C23_zero_ordinate.
Example C23_case : exists flux, source_iteration_iso demo 2 zeros2 duo_total duo_scatter duo_ext duo_bnd 1 = Ok flux.
Proof. apply outer_total. exact demo_nonzero. Qed.

(** ** C24 Snapshots *)
Theorem C24_snapshots_are_iterates :
  forall P groups old xs_total xs_scatter external boundary geometry,
  match source_iteration_iso P groups old xs_total xs_scatter external boundary geometry with
  | Ok flux => exists saved,
      source_iteration_collect P groups old xs_total xs_scatter external boundary geometry = Ok (flux, saved) /\
      (1 <= length saved <= 100)%nat /\ nth (length saved - 1) saved zeros2 = flux /\
      (forall k, (k < length saved)%nat ->
         one_sweep_iso P groups xs_total xs_scatter external boundary geometry
           (nth k (old :: saved) zeros2) = Ok (nth k saved zeros2))
  | Raise e => source_iteration_collect P groups old xs_total xs_scatter external boundary geometry = Raise e
  end.
Proof. exact collect_returns. Qed.
Print Assumptions C24_snapshots_are_iterates.
Example C24_case : exists flux saved,
  source_iteration_collect demo 2 zeros2 duo_total duo_scatter duo_ext duo_bnd 1 = Ok (flux, saved) /\ saved <> [].
Proof.
  destruct (outer_total demo 2 zeros2 duo_total duo_scatter duo_ext duo_bnd demo_nonzero) as [flux E].
  pose proof (collect_returns demo 2 zeros2 duo_total duo_scatter duo_ext duo_bnd 1) as H. rewrite E in H.
  destruct H as (saved & Hs & Hl & _). exists flux, saved. split; [exact Hs|]. intros ->. cbn in Hl. lia.
Qed.

(** ** C25 Transfer matrix *)
Theorem C25_transfer_entries :
  forall materials groups s f m o i l,
  (m < materials)%nat -> (o < groups)%nat -> (i < groups)%nat ->
  same_rank s (transfer_matrix materials groups s f) /\
  entry (transfer_matrix materials groups s f) m o i 0 = entry s m o i 0 + fission_entry f m o i /\
  (forall nm xs, s = Scatter4 nm xs -> (0 < l)%nat ->
     entry (transfer_matrix materials groups s f) m o i l = entry s m o i l).
Proof. exact transfer_entries. Qed.
Print Assumptions C25_transfer_entries.
Theorem C25_transfer_operator :
  forall materials groups s f m o (phi : vec),
  (m < materials)%nat -> (o < groups)%nat ->
  rsum groups (fun i => entry (transfer_matrix materials groups s f) m o i 0 * phi i)
  = rsum groups (fun i => entry s m o i 0 * phi i) + rsum groups (fun i => fission_entry f m o i * phi i).
Proof. exact transfer_operator. Qed.
Print Assumptions C25_transfer_operator.
Example C25_case : entry (transfer_matrix 2 2 (Scatter3 duo_scatter) (FissionVector (fun _ o => INR o) (fun m _ => INR m))) 1 1 0 0
  = duo_scatter 1%nat 1%nat 0%nat + 1 /\ duo_scatter 1%nat 1%nat 0%nat = 1 / 8.
Proof.
  destruct (transfer_entries 2 2 (Scatter3 duo_scatter) (FissionVector (fun _ o => INR o) (fun m _ => INR m)) 1 1 0 0) as (_ & H & _); [lia|lia|lia|].
  split; [rewrite H; cbn; lra|unfold duo_scatter, duo_total; cbn; lra].
Qed.

(** ** C26 Total source *)
Theorem C26_total_source :
  forall cells angles groups source flux xs medium external i n g,
  (i < cells)%nat -> (n < angles)%nat -> (g < groups)%nat ->
  source_total cells angles groups source flux xs medium external i n g
  = rsum groups (fun h => xs (medium i) g h * flux i h)
    + at3 external i (bidx (d3b external) n) (bidx (d3c external) g).
Proof. exact source_total_eq. Qed.
Print Assumptions C26_total_source.
Theorem C26_total_source_anisotropic :
  forall cells angles groups nm source flux xs medium external leg i n g,
  (1 <= nm)%nat -> (i < cells)%nat -> (n < angles)%nat -> (g < groups)%nat -> leg 0%nat n = 1 ->
  source_total_aniso cells angles groups nm source flux xs medium external leg i n g
  = rsum groups (fun h => xs (medium i) g h 0%nat * flux i h)
    + at3 external i (bidx (d3b external) n) (bidx (d3c external) g).
Proof. exact source_total_aniso_eq. Qed.
Print Assumptions C26_total_source_anisotropic.
Theorem C26_time_source :
  forall cells angles groups q_star flux xs medium i n g,
  (i < cells)%nat -> (n < angles)%nat -> (g < groups)%nat ->
  time_right_side cells angles groups q_star flux xs medium i n g
  = q_star i n g + rsum groups (fun h => xs (medium i) g h * flux i h).
Proof. exact time_right_side_eq. Qed.
Print Assumptions C26_time_source.
Theorem C26_time_source_anisotropic :
  forall cells angles groups nm q_star flux xs medium leg i n g,
  (1 <= nm)%nat -> (i < cells)%nat -> (n < angles)%nat -> (g < groups)%nat -> leg 0%nat n = 1 ->
  time_right_side_aniso cells angles groups nm q_star flux xs medium leg i n g
  = q_star i n g + rsum groups (fun h => xs (medium i) g h 0%nat * flux i h).
Proof. exact time_right_side_aniso_eq. Qed.
Print Assumptions C26_time_source_anisotropic.
Example C26_case : source_total 2 2 2 (fun _ _ _ => 7) (fun _ _ => 1) duo_scatter (medium demo) duo_ext 0%nat 1%nat 1%nat
  = 1 / 16 + 1 / 8 + 2.
Proof. rewrite source_total_eq by lia. unfold duo_scatter, duo_total, duo_ext. cbn. lra. Qed.

(** ** C35 ML-predicted sources *)
Theorem C35_scatter_rate :
  forall cells groups flux xs medium models label source x predict,
  scatter_prod_predict cells groups flux xs medium models label = Ok source ->
  (x < cells)%nat -> (medium x < length models)%nat -> nth (medium x) models Placeholder = Model predict ->
  let idx := cells_of cells medium (medium x) in
  let out := predict (length idx) (fun k g => flux (nth k idx 0%nat) g) (label_for label (medium x)) in
  rsum (length idx) (fun k => rsum groups (fun g => flux (nth k idx 0%nat) g)) <> 0 ->
  rsum groups (fun g => out (rank_of medium (medium x) x) g) <> 0 ->
  rsum groups (fun g => source x g) = rsum groups (fun g => flux x g * xs (medium x) g 0%nat).
Proof. exact predict_rate. Qed.
Print Assumptions C35_scatter_rate.
Theorem C35_scatter_rate_updated_data :
  forall cells groups flux xs modelled medium models label source x predict,
  scatter_prod_predict cells groups flux (update_cross_sections groups xs modelled) medium models label = Ok source ->
  modelled (medium x) = true ->
  (x < cells)%nat -> (medium x < length models)%nat -> nth (medium x) models Placeholder = Model predict ->
  let idx := cells_of cells medium (medium x) in
  let out := predict (length idx) (fun k g => flux (nth k idx 0%nat) g) (label_for label (medium x)) in
  rsum (length idx) (fun k => rsum groups (fun g => flux (nth k idx 0%nat) g)) <> 0 ->
  rsum groups (fun g => out (rank_of medium (medium x) x) g) <> 0 ->
  rsum groups (fun g => source x g)
  = rsum groups (fun o => rsum groups (fun g => xs (medium x) o g * flux x g)).
Proof. exact predict_rate_updated. Qed.
Print Assumptions C35_scatter_rate_updated_data.
Theorem C35_raw_data_refuted :
  exists cells groups flux xs medium predict l source x,
  scatter_prod_predict cells groups flux xs medium [Model predict] (OneLabel l) = Ok source /\
  (x < cells)%nat /\ medium x = 0%nat /\ (forall m o h, 0 <= xs m o h) /\ (forall j h, 0 < flux j h) /\
  (forall n f lab k, rsum groups (fun g => predict n f lab k g) <> 0) /\
  rsum groups (fun g => source x g) <> rsum groups (fun o => rsum groups (fun g => xs (medium x) o g * flux x g)).
Proof. exact predict_raw_rate. Qed.
Print Assumptions C35_raw_data_refuted.
Theorem C35_physics_fallback :
  forall cells groups flux xs medium models label,
  label <> NoLabel ->
  (forall i, (i < cells)%nat -> (medium i < length models)%nat /\ nth (medium i) models Placeholder = Placeholder) ->
  (forall i o h, (i < cells)%nat -> (o < groups)%nat -> (h < groups)%nat -> 0 <= xs (medium i) o h) ->
  exists source, scatter_prod_predict cells groups flux xs medium models label = Ok source /\
    forall i g, (i < cells)%nat -> (g < groups)%nat ->
      source i g = rsum groups (fun h => xs (medium i) g h * flux i h).
Proof. exact placeholder_source. Qed.
Print Assumptions C35_physics_fallback.
Example C35_case : exists source,
  scatter_prod_predict 2 2 (fun _ _ => 1) (update_cross_sections 2 duo_scatter (Nat.eqb 1)) (medium demo)
    [Placeholder; Model (fun _ f _ => f)] (OneLabel [0]) = Ok source /\
  rsum 2 (fun g => source 1%nat g) = rsum 2 (fun o => rsum 2 (fun g => duo_scatter 1%nat o g * 1)).
Proof.
  destruct (scatter_prod_predict 2 2 (fun _ _ => 1) (update_cross_sections 2 duo_scatter (Nat.eqb 1)) (medium demo)
    [Placeholder; Model (fun _ f _ => f)] (OneLabel [0])) as [source|e] eqn:E; [|discriminate].
  exists source. split; [reflexivity|].
  apply (predict_rate_updated 2 2 (fun _ _ => 1) duo_scatter (Nat.eqb 1) (medium demo)
           [Placeholder; Model (fun _ f _ => f)] (OneLabel [0]) source 1 (fun _ f _ => f) E);
    [reflexivity|lia|cbn; lia|reflexivity|cbn; lra|cbn; lra].
Qed.

(** ** C36 Scatter production *)
Theorem C36_zeroed_output_partial :
  forall cells groups flux xs source medium i g,
  (i < cells)%nat -> (g < groups)%nat ->
  (forall o h, (o < groups)%nat -> (h < groups)%nat -> 0 <= xs (medium i) o h) -> source i g = 0 ->
  scatter_prod cells groups flux xs source medium i g = rsum groups (fun h => xs (medium i) g h * flux i h).
Proof. exact scatter_prod_zeroed. Qed.
Print Assumptions C36_zeroed_output_partial.
Theorem C36_scattering_material_partial :
  forall cells groups flux xs source medium i g,
  (i < cells)%nat -> (g < groups)%nat -> mat_total groups xs (medium i) <> 0 ->
  scatter_prod cells groups flux xs source medium i g = rsum groups (fun h => xs (medium i) g h * flux i h).
Proof. exact scatter_prod_nonzero. Qed.
Print Assumptions C36_scattering_material_partial.
Theorem C36_stale_cells_refuted :
  exists cells groups flux xs s1 s2 medium i g,
  (i < cells)%nat /\ (g < groups)%nat /\
  (forall m o h, 0 <= xs m o h) /\ (forall j h, 0 < flux j h) /\
  scatter_prod cells groups flux xs s1 medium i g <> scatter_prod cells groups flux xs s2 medium i g /\
  scatter_prod cells groups flux xs s1 medium i g <> rsum groups (fun h => xs (medium i) g h * flux i h).
Proof. exact scatter_prod_stale. Qed.
Print Assumptions C36_stale_cells_refuted.
Example C36_case : mat_total 2 duo_scatter (medium demo 1) <> 0 /\
  (forall o h, (o < 2)%nat -> (h < 2)%nat -> 0 <= duo_scatter (medium demo 1) o h).
Proof.
  split; [unfold mat_total, duo_scatter, duo_total; cbn; lra|].
  intros o h Ho Hh. apply duo_scatter_nonneg; [cbn; lia|exact Ho|exact Hh].
Qed.

(** ** C49 Collapsing on the fly is solving with data coarsened in advance *)
Theorem C49_variable_is_coarse :
  forall P groups flux_old xs_total star xs_scatter external boundary dc df edges geometry,
  variable_source_iteration_iso P groups flux_old xs_total star xs_scatter external boundary dc df edges geometry
  = source_iteration_iso P groups flux_old (coarse_total xs_total df dc star edges)
      (coarse_scatter xs_scatter df dc edges) external boundary geometry.
Proof. exact variable_is_coarse. Qed.
Print Assumptions C49_variable_is_coarse.
Theorem C49_variable_is_coarse_anisotropic :
  forall P groups nm flux_old xs_total star xs_scatter external boundary dc df edges geometry leg legw,
  variable_source_iteration_aniso P groups nm flux_old xs_total star xs_scatter external boundary dc df edges geometry leg legw
  = source_iteration_aniso P groups nm flux_old (coarse_total xs_total df dc star edges)
      (fun m o i l => coarse_scatter (fun m o i => xs_scatter m o i l) df dc edges m o i) external boundary geometry leg legw.
Proof. exact variable_is_coarse_aniso. Qed.
Print Assumptions C49_variable_is_coarse_anisotropic.
Example C49_case : coarse_scatter (fun _ r c => INR (r + 2 * c)) (fun _ => 1 / 2) (fun _ => 1) (fun k => (2 * k)%nat) 0%nat 0%nat 1%nat = 11.
Proof. unfold coarse_scatter, range_sum. cbn. lra. Qed.

(** ** C77 Convergence to the unique solution *)
Theorem C77_unique_solution :
  forall P groups xs_total xs_scatter external boundary c,
  nonzero_ordinates (angles P) (mu P) -> mg_thin P groups xs_total ->
  (forall m, (m < angles P)%nat -> 0 <= wt P m) -> 0 <= c ->
  rsum (angles P) (wt P) * c < 1 ->
  mg_ratio P groups xs_total xs_scatter c ->
  exists sol, mg_solution P groups xs_total xs_scatter external boundary sol /\
    forall other, mg_solution P groups xs_total xs_scatter external boundary other ->
      agree2 (cells P) groups other sol.
Proof. exact mg_unique_solution. Qed.
Print Assumptions C77_unique_solution.
Theorem C77_sweep_contracts :
  forall P groups xs_total xs_scatter external boundary c old new sol d,
  mg_thin P groups xs_total ->
  (forall m, (m < angles P)%nat -> 0 <= wt P m) -> 0 <= c ->
  rsum (angles P) (wt P) * c < 1 ->
  mg_ratio P groups xs_total xs_scatter c ->
  mg_solution P groups xs_total xs_scatter external boundary sol ->
  one_sweep_iso P groups xs_total xs_scatter external boundary 1 old = Ok new ->
  0 <= d -> within2 (cells P) groups d old sol ->
  within2 (cells P) groups (rsum (angles P) (wt P) * c * d) new sol.
Proof. exact sweep_contracts. Qed.
Print Assumptions C77_sweep_contracts.
Theorem C77_error_bound :
  forall P groups xs_total xs_scatter external boundary c old flux sol,
  mg_thin P groups xs_total ->
  (forall m, (m < angles P)%nat -> 0 <= wt P m) -> 0 <= c ->
  rsum (angles P) (wt P) * c < 1 ->
  mg_ratio P groups xs_total xs_scatter c ->
  mg_solution P groups xs_total xs_scatter external boundary sol ->
  source_iteration_iso P groups old xs_total xs_scatter external boundary 1 = Ok flux ->
  let rho := rsum (angles P) (wt P) * c in
  exists n, (1 <= n <= 100)%nat /\
    (forall d, 0 <= d -> within2 (cells P) groups d old sol -> within2 (cells P) groups (rho ^ n * d) flux sol) /\
    ((n < 100)%nat -> forall M, 0 <= M ->
       (forall i g, (i < cells P)%nat -> (g < groups)%nat -> Rabs (flux i g) <= M) ->
       within2 (cells P) groups (rho * (/ 10 ^ 8 * INR (cells P) * M) / (1 - rho)) flux sol).
Proof. exact outer_error. Qed.
Print Assumptions C77_error_bound.
Theorem C77_ml_sweep_contracts :
  forall P groups xs_total xs_scatter external boundary models label c old new sol d,
  matching_columns P external boundary -> nonzero_ordinates (angles P) (mu P) ->
  mg_thin P groups xs_total ->
  (forall m, (m < angles P)%nat -> 0 <= wt P m) -> 0 <= c ->
  mg_ratio P groups xs_total xs_scatter c ->
  (forall i, (i < cells P)%nat -> (medium P i < length models)%nat /\ nth (medium P i) models Placeholder = Placeholder) ->
  (forall i o h, (i < cells P)%nat -> (o < groups)%nat -> (h < groups)%nat -> 0 <= xs_scatter (medium P i) o h) ->
  mg_solution P groups xs_total xs_scatter external boundary sol ->
  ml_sweep P groups xs_total xs_scatter external boundary 1 models label old = Ok new ->
  0 <= d -> within2 (cells P) groups d old sol ->
  within2 (cells P) groups (rsum (angles P) (wt P) * c * d) new sol.
Proof. exact ml_sweep_contracts. Qed.
Print Assumptions C77_ml_sweep_contracts.
Theorem C77_ml_error_bound :
  forall P groups xs_total xs_scatter external boundary models label c old flux sol,
  matching_columns P external boundary -> nonzero_ordinates (angles P) (mu P) ->
  mg_thin P groups xs_total ->
  (forall m, (m < angles P)%nat -> 0 <= wt P m) -> 0 <= c ->
  mg_ratio P groups xs_total xs_scatter c ->
  (forall i, (i < cells P)%nat -> (medium P i < length models)%nat /\ nth (medium P i) models Placeholder = Placeholder) ->
  (forall i o h, (i < cells P)%nat -> (o < groups)%nat -> (h < groups)%nat -> 0 <= xs_scatter (medium P i) o h) ->
  mg_solution P groups xs_total xs_scatter external boundary sol ->
  ml_source_iteration P groups old xs_total xs_scatter external boundary 1 models label = Ok flux ->
  exists n, (1 <= n <= 50)%nat /\
    forall d, 0 <= d -> within2 (cells P) groups d old sol ->
      within2 (cells P) groups ((rsum (angles P) (wt P) * c) ^ n * d) flux sol.
Proof. exact ml_outer_error. Qed.
Print Assumptions C77_ml_error_bound.
Theorem C77_ml_fixed_points :
  forall P groups xs_total xs_scatter external boundary models label phi new,
  matching_columns P external boundary -> nonzero_ordinates (angles P) (mu P) ->
  mg_divisors P groups xs_total ->
  (forall i, (i < cells P)%nat -> (medium P i < length models)%nat /\ nth (medium P i) models Placeholder = Placeholder) ->
  (forall i o h, (i < cells P)%nat -> (o < groups)%nat -> (h < groups)%nat -> 0 <= xs_scatter (medium P i) o h) ->
  ml_sweep P groups xs_total xs_scatter external boundary 1 models label phi = Ok new ->
  (agree2 (cells P) groups new phi <-> mg_solution P groups xs_total xs_scatter external boundary phi).
Proof. exact ml_fixed_iff_solution. Qed.
Print Assumptions C77_ml_fixed_points.
Example C77_case : mg_thin demo 2 duo_total /\ mg_ratio demo 2 duo_total duo_scatter (3 / 8) /\
  (forall m, (m < angles demo)%nat -> 0 <= wt demo m) /\ rsum (angles demo) (wt demo) * (3 / 8) < 1 /\
  matching_columns demo duo_ext duo_bnd /\
  (forall i, (i < cells demo)%nat -> (medium demo i < length [Placeholder; Placeholder])%nat /\
     nth (medium demo i) [Placeholder; Placeholder] Placeholder = Placeholder) /\
  (forall i g h, (i < cells demo)%nat -> (g < 2)%nat -> (h < 2)%nat -> 0 <= duo_scatter (medium demo i) g h).
Proof.
  split; [exact duo_thin|]. split; [exact duo_ratio|]. split; [apply duo_weights|]. split; [apply duo_weights|].
  split; [split; [reflexivity|left; reflexivity]|]. split; [|intros; apply duo_scatter_nonneg; assumption].
  intros i Hi. small i Hi; cbn; split; (lia || reflexivity).
Qed.

(** ** C78 Multigroup conservation *)
Theorem C78_multigroup_balance :
  forall P groups xs_total xs_scatter external boundary psi phi,
  (forall i, (i < cells P)%nat -> dx P i <> 0) ->
  mg_transport P groups xs_total xs_scatter external boundary psi phi ->
  rsum groups (fun g => total_leakage (cells P) (angles P) (mu P) (wt P) (psi g))
  + rsum (cells P) (fun i => dx P i * rsum groups (fun g =>
      (xs_total (medium P i) g
       - rsum (angles P) (wt P) * rsum groups (fun o => xs_scatter (medium P i) o g)) * phi i g))
  = rsum groups (fun g => rsum (cells P) (fun i => dx P i *
      rsum (angles P) (fun m => wt P m * at3 external i (bidx (d3b external) m) (bidx (d3c external) g)))).
Proof. exact mg_balance. Qed.
Print Assumptions C78_multigroup_balance.
Example C78_case : exists psi phi, mg_transport demo 2 duo_total duo_scatter duo_ext duo_bnd psi phi.
Proof. destruct duo_solution as (phi & psi & H). exists psi, phi. exact H. Qed.

(** ** C79 Multigroup positivity *)
Theorem C79_multigroup_nonneg :
  forall P groups xs_total xs_scatter external boundary old flux,
  nonzero_ordinates (angles P) (mu P) ->
  mg_thin P groups xs_total ->
  (forall m, (m < angles P)%nat -> 0 <= wt P m) ->
  (forall i g h, (i < cells P)%nat -> (g < groups)%nat -> (h < groups)%nat -> 0 <= xs_scatter (medium P i) g h) ->
  (forall m i g, (m < angles P)%nat -> (i < cells P)%nat -> (g < groups)%nat ->
      0 <= at3 external i (bidx (d3b external) m) (bidx (d3c external) g)) ->
  (forall m g, (m < angles P)%nat -> (g < groups)%nat -> 0 <= mg_boundary boundary (mu P) g m) ->
  (forall i g, (i < cells P)%nat -> (g < groups)%nat -> 0 <= old i g) ->
  source_iteration_iso P groups old xs_total xs_scatter external boundary 1 = Ok flux ->
  forall i g, (i < cells P)%nat -> (g < groups)%nat -> 0 <= flux i g.
Proof. exact outer_nonneg. Qed.
Print Assumptions C79_multigroup_nonneg.
Example C79_case : (forall m i g, (m < angles demo)%nat -> (i < cells demo)%nat -> (g < 2)%nat ->
      0 <= at3 duo_ext i (bidx (d3b duo_ext) m) (bidx (d3c duo_ext) g)) /\
  (forall m g, (m < angles demo)%nat -> (g < 2)%nat -> 0 <= mg_boundary duo_bnd (mu demo) g m).
Proof.
  split.
  - intros m i g _ _ Hg. small g Hg; cbn; lra.
  - intros m g _ _. unfold mg_boundary. destruct (Rlt_dec 0 (mu demo m)); cbn; lra.
Qed.

(** ** C80 ML solver with its documented defaults *)
Theorem C80_default_label_refuted :
  forall P groups old xs_total xs_scatter external boundary geometry models,
  ml_source_iteration P groups old xs_total xs_scatter external boundary geometry models NoLabel = Raise TypeError.
Proof. exact ml_no_label. Qed.
Print Assumptions C80_default_label_refuted.
Theorem C80_missing_models_drop_scatter :
  forall cells groups flux xs medium models label source i g,
  scatter_prod_predict cells groups flux xs medium models label = Ok source ->
  (length models <= medium i)%nat -> source i g = 0.
Proof. exact missing_model_no_scatter. Qed.
Print Assumptions C80_missing_models_drop_scatter.
Theorem C80_no_models_refuted :
  exists cells groups flux xs medium source i g,
  scatter_prod_predict cells groups flux xs medium [] (OneLabel [0]) = Ok source /\
  (i < cells)%nat /\ (g < groups)%nat /\
  source i g <> rsum groups (fun h => xs (medium i) g h * flux i h).
Proof. exact no_models_no_scatter. Qed.
Print Assumptions C80_no_models_refuted.
Example C80_case : exists cells groups flux xs medium source i g,
  scatter_prod_predict cells groups flux xs medium [] (OneLabel [0]) = Ok source /\ (length (@nil ml_model) <= medium i)%nat /\
  rsum groups (fun h => xs (medium i) g h * flux i h) <> 0.
Proof.
  destruct no_models_no_scatter as (c & gr & fl & xs & md & so & i & g & E & Hi & Hg & N). exists c, gr, fl, xs, md, so, i, g.
  split; [exact E|]. split; [cbn; lia|]. intros Z. apply N. rewrite Z. apply (missing_model_no_scatter _ _ _ _ _ _ _ _ _ _ E). cbn; lia.
Qed.
