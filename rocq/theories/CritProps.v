(** Property theorems of the k-eigenvalue solvers (C29-C34, C35 for fission, C37, C81).
    Vocabulary: MgSpec.v, CritSpec.v. *)
From Coq Require Import Lra Lia.
From Verif Require Import Base BaseFacts SlabModel SlabSpec SlabFacts SlabWitness.
From Verif Require Import MgModel MgSpec MgFacts MgFacts5 MgFacts6 MgWitness.
From Verif Require Import CritModel CritSpec CritFacts CritFacts2 CritFacts3 CritFacts4 CritWitness.
Open Scope R_scope.

(** ** C29 The updated k is the production ratio *)
Theorem C29_keff_is_production_ratio :
  forall cells groups f medium flux flux_old keff,
  nonneg_fission cells groups medium f ->
  update_keff cells groups f medium flux flux_old keff
  = keff * production cells groups f medium flux / production cells groups f medium flux_old.
Proof. exact update_keff_ratio. Qed.
Print Assumptions C29_keff_is_production_ratio.
Theorem C29_keff_consequences :
  forall cells groups f medium flux flux_old keff c,
  nonneg_fission cells groups medium f -> production cells groups f medium flux_old <> 0 ->
  (* the flux is c times the old one: k is multiplied by c *)
  update_keff cells groups f medium (fun i h => c * flux_old i h) flux_old keff = c * keff /\
  (* common scaling of both fluxes changes nothing *)
  (c <> 0 -> update_keff cells groups f medium (fun i h => c * flux i h) (fun i h => c * flux_old i h) keff
             = update_keff cells groups f medium flux flux_old keff).
Proof. exact keff_consequences. Qed.
Print Assumptions C29_keff_consequences.
Theorem C29_data_scaling :
  forall cells groups f medium flux flux_old keff c source i g,
  0 < c -> nonneg_fission cells groups medium f -> production cells groups f medium flux_old <> 0 ->
  (i < cells)%nat -> (g < groups)%nat ->
  update_keff cells groups (scale_fission c f) medium flux flux_old keff
  = update_keff cells groups f medium flux flux_old keff /\
  fission_source cells groups (scale_fission c f) medium source flux (c * keff) i g
  = fission_source cells groups f medium source flux keff i g.
Proof. exact keff_data_scaling. Qed.
Print Assumptions C29_data_scaling.
Theorem C29_fission_source :
  forall cells groups f medium source flux keff i g,
  nonneg_fission cells groups medium f -> (i < cells)%nat -> (g < groups)%nat ->
  fission_source cells groups f medium source flux keff i g = emission groups f medium flux i g / keff.
Proof. exact fission_source_emission. Qed.
Print Assumptions C29_fission_source.
Theorem C29_keff_0d :
  forall groups f flux flux_old keff,
  update_keff_0d groups f flux flux_old keff
  = keff * production_0d groups f flux / production_0d groups f flux_old.
Proof. exact update_keff_0d_ratio. Qed.
Print Assumptions C29_keff_0d.
Theorem C29_source_0d :
  forall groups f flux keff g,
  (g < groups)%nat ->
  fission_source_0d groups f flux keff g = emission_0d groups f flux g / keff.
Proof. exact fission_source_0d_eq. Qed.
Print Assumptions C29_source_0d.
Example C29_case : nonneg_fission (cells slug) 2 (medium slug) slug_fission /\
  production (cells slug) 2 slug_fission (medium slug) slug_phi <> 0 /\
  update_keff (cells slug) 2 slug_fission (medium slug) (fun i g => 3 * slug_phi i g) slug_phi 2 = 6.
Proof.
  split; [exact slug_nonneg|]. split; [rewrite slug_production; lra|].
  rewrite update_keff_ratio by exact slug_nonneg. rewrite slug_production.
  unfold production, emission. cbn. unfold slug_chi, slug_nusigf, slug_phi. cbn. lra.
Qed.

(** ** C30 Vector and matrix fission data agree *)
Theorem C30_same_source :
  forall cells groups chi nusigf medium s1 s2 flux keff i g,
  nonneg_fission cells groups medium (FissionVector chi nusigf) -> (i < cells)%nat -> (g < groups)%nat ->
  fission_vec_prod cells groups flux chi nusigf s1 medium keff i g
  = fission_mat_prod cells groups flux (fun m o h => chi m o * nusigf m h) s2 medium keff i g.
Proof. exact vector_matrix_source. Qed.
Print Assumptions C30_same_source.
Theorem C30_same_keff :
  forall cells groups chi nusigf medium flux flux_old keff,
  nonneg_fission cells groups medium (FissionVector chi nusigf) ->
  update_keff_vec cells groups flux flux_old chi nusigf medium keff
  = update_keff_mat cells groups flux flux_old (fun m o h => chi m o * nusigf m h) medium keff.
Proof. exact vector_matrix_keff. Qed.
Print Assumptions C30_same_keff.
Theorem C30_same_0d :
  forall groups chi nusigf flux flux_old keff,
  (forall g, (g < groups)%nat ->
     fission_source_0d groups (FissionVector0 chi nusigf) flux keff g
     = fission_source_0d groups (FissionMatrix0 (fun o h => chi o * nusigf h)) flux keff g) /\
  update_keff_0d groups (FissionVector0 chi nusigf) flux flux_old keff
  = update_keff_0d groups (FissionMatrix0 (fun o h => chi o * nusigf h)) flux flux_old keff.
Proof. exact vector_matrix_0d. Qed.
Print Assumptions C30_same_0d.
Example C30_case : nonneg_fission (cells slug) 2 (medium slug) (FissionVector slug_chi slug_nusigf) /\
  fission_vec_prod (cells slug) 2 slug_phi slug_chi slug_nusigf zeros2 (medium slug) 2 0%nat 1%nat = 9 / 5.
Proof.
  split; [exact slug_nonneg|].
  pose proof (fission_source_emission (cells slug) 2 slug_fission (medium slug) zeros2 slug_phi 2 0 1 slug_nonneg ltac:(cbn; lia) ltac:(lia)) as H.
  cbn [fission_source slug_fission] in H. rewrite H. rewrite slug_emission. lra.
Qed.

(** ** C31 Termination and normalization *)
Theorem C31_power_exit :
  forall P groups xs_total xs_scatter f geometry guess r,
  power_iteration P groups xs_total xs_scatter f geometry guess = Ok r ->
  power_exit (power_step P groups xs_total xs_scatter f geometry) (cells P) groups 100 (/ 10 ^ 6)
    (power_start (cells P) groups guess) r.
Proof. exact power_trace. Qed.
Print Assumptions C31_power_exit.
Theorem C31_power_pass :
  forall P groups xs_total xs_scatter f geometry flux_old k_old flux k,
  nonneg_fission (cells P) groups (medium P) f ->
  power_step P groups xs_total xs_scatter f geometry (flux_old, k_old) = Ok (flux, k) ->
  exists source raw,
    (forall i g, (i < cells P)%nat -> (g < groups)%nat ->
       source i g = emission groups f (medium P) flux_old i g / k_old) /\
    source_iteration P groups flux_old xs_total xs_scatter (mkArr3 1 groups (fun i _ g => source i g))
      (mkArr3 1 1 (fun _ _ _ => 0)) geometry None = Ok raw /\
    k = k_old * production (cells P) groups f (medium P) raw / production (cells P) groups f (medium P) flux_old /\
    (forall i g, flux i g = raw i g / norm2 (cells P) groups raw) /\
    (norm2 (cells P) groups flux = 1 \/ forall i g, (i < cells P)%nat -> (g < groups)%nat -> raw i g = 0).
Proof. exact power_step_spec. Qed.
Print Assumptions C31_power_pass.
Theorem C31_norms :
  forall cells groups (f : mat2) (v : vec),
  norm2 cells groups f = sqrt (rsum cells (fun i => rsum groups (fun g => f i g ^ 2))) /\
  norm1 groups v = sqrt (rsum groups (fun g => v g ^ 2)).
Proof. exact norms_are_euclidean. Qed.
Print Assumptions C31_norms.
Theorem C31_start :
  forall cells groups guess,
  norm2 cells groups guess <> 0 ->
  norm2 cells groups (fst (power_start cells groups guess)) = 1 /\
  snd (power_start cells groups guess) = norm2 cells groups guess.
Proof. exact start_unit_norm. Qed.
Print Assumptions C31_start.
Theorem C31_power_total :
  forall P groups xs_total xs_scatter f guess,
  nonzero_ordinates (angles P) (mu P) ->
  exists r, power_iteration P groups xs_total (Scatter3 xs_scatter) f 1 guess = Ok r.
Proof. exact power_total. Qed.
Print Assumptions C31_power_total.
Theorem C31_power_exit_0d :
  forall angles groups wt xs_total xs_scatter f guess r,
  power_iteration_0d angles groups wt xs_total xs_scatter f guess = Ok r ->
  exists n (x : nat -> vec * R),
    (1 <= n <= 101)%nat /\
    x 0%nat = (fun g => guess g / Rabs (norm1 groups guess), norm1 groups guess) /\ r = x n /\
    (forall k, (k < n)%nat -> power_step_0d angles groups wt xs_total xs_scatter f (x k) = Ok (x (S k))) /\
    (forall k, (0 < k < n)%nat -> ~ settled0 groups (fst (x k)) (fst (x (k - 1)%nat)) (/ 10 ^ 6)) /\
    ((n < 101)%nat -> settled0 groups (fst (x n)) (fst (x (n - 1)%nat)) (/ 10 ^ 6)).
Proof. exact power_0d_trace. Qed.
Print Assumptions C31_power_exit_0d.
Theorem C31_power_pass_0d :
  forall angles groups wt xs_total xs_scatter f flux_old k_old flux k,
  power_step_0d angles groups wt xs_total xs_scatter f (flux_old, k_old) = Ok (flux, k) ->
  exists source raw,
    (forall g, (g < groups)%nat -> source g = emission_0d groups f flux_old g / k_old) /\
    source_iteration_0d angles groups wt xs_total xs_scatter 1 (mkArr2 groups (fun _ g => source g)) flux_old = Ok raw /\
    k = k_old * production_0d groups f raw / production_0d groups f flux_old /\
    (forall g, flux g = raw g / norm1 groups raw) /\
    (norm1 groups raw <> 0 -> norm1 groups flux = 1).
Proof. exact power_step_0d_spec. Qed.
Print Assumptions C31_power_pass_0d.
Theorem C31_power_total_0d :
  forall angles groups wt xs_total xs_scatter f guess,
  exists r, power_iteration_0d angles groups wt xs_total xs_scatter f guess = Ok r.
Proof. exact power_0d_total. Qed.
Print Assumptions C31_power_total_0d.
Example C31_case : norm2 (cells slug) 2 slug_phi <> 0 /\ nonzero_ordinates (angles slug) (mu slug) /\
  nonneg_fission (cells slug) 2 (medium slug) slug_fission /\
  exists r, power_iteration slug 2 slug_total (Scatter3 slug_scatter) slug_fission 1 slug_phi = Ok r.
Proof.
  split; [rewrite slug_norm; lra|]. split; [exact slug_nonzero|]. split; [exact slug_nonneg|].
  apply power_total. exact slug_nonzero.
Qed.

(** ** C32 An exact eigenpair is returned unchanged *)
Theorem C32_eigenpair_returned :
  forall P groups xs_total xs_scatter f phi k,
  nonzero_ordinates (angles P) (mu P) -> mg_divisors P groups xs_total ->
  nonneg_fission (cells P) groups (medium P) f ->
  eigenpair P groups xs_total xs_scatter f phi k ->
  0 < k -> norm2 (cells P) groups phi = 1 ->
  production (cells P) groups f (medium P) phi <> 0 ->
  (forall i g, (i < cells P)%nat -> (g < groups)%nat -> phi i g <> 0) ->
  exists flux,
    power_iteration P groups xs_total (Scatter3 xs_scatter) f 1 (fun i g => k * phi i g) = Ok (flux, k) /\
    agree2 (cells P) groups flux phi.
Proof. exact power_eigenpair. Qed.
Print Assumptions C32_eigenpair_returned.
Theorem C32_eigenpair_returned_0d :
  forall angles groups wt xs_total xs_scatter f phi k,
  (forall g, (g < groups)%nat -> xs_total g <> 0) ->
  balance_0d angles groups wt xs_total xs_scatter 1 (mkArr2 groups (fun _ g => emission_0d groups f phi g / k)) phi ->
  0 < k -> norm1 groups phi = 1 -> production_0d groups f phi <> 0 ->
  (forall g, (g < groups)%nat -> phi g <> 0) ->
  exists flux, power_iteration_0d angles groups wt xs_total xs_scatter f (fun g => k * phi g) = Ok (flux, k) /\
    forall g, (g < groups)%nat -> flux g = phi g.
Proof. exact power_0d_eigenpair. Qed.
Print Assumptions C32_eigenpair_returned_0d.
Example C32_case : nonzero_ordinates (angles slug) (mu slug) /\ mg_divisors slug 2 slug_total /\
  nonneg_fission (cells slug) 2 (medium slug) slug_fission /\
  eigenpair slug 2 slug_total slug_scatter slug_fission slug_phi 2 /\ norm2 (cells slug) 2 slug_phi = 1 /\
  production (cells slug) 2 slug_fission (medium slug) slug_phi <> 0 /\
  (forall i g, (i < cells slug)%nat -> (g < 2)%nat -> slug_phi i g <> 0).
Proof.
  split; [exact slug_nonzero|]. split; [exact slug_divisors|]. split; [exact slug_nonneg|].
  split; [exact slug_eigenpair|]. split; [exact slug_norm|]. split; [rewrite slug_production; lra|exact slug_phi_nonzero].
Qed.
Example C32_case_0d : (forall g, (g < 2)%nat -> pond_total g <> 0) /\
  balance_0d 2 2 pond_wt pond_total pond_scatter 1 (mkArr2 2 (fun _ g => emission_0d 2 pond_fission pond_phi g / 2)) pond_phi /\
  norm1 2 pond_phi = 1 /\ production_0d 2 pond_fission pond_phi <> 0 /\ (forall g, (g < 2)%nat -> pond_phi g <> 0).
Proof.
  split; [intros; unfold pond_total; lra|]. split; [exact pond_balance|]. split; [exact pond_norm|].
  split; [rewrite pond_production; lra|]. intros g Hg. unfold pond_phi. destruct (Nat.eqb g 0); lra.
Qed.

(** ** C33 Saved snapshots of collect_power_iteration: iterates 2, 3, ...; the first is missing *)
Theorem C33_snapshots_from_second_partial :
  forall P groups xs_total xs_scatter f geometry guess r saved,
  collect_power_iteration P groups xs_total xs_scatter f geometry guess = Ok (r, saved) ->
  let start := power_start (cells P) groups guess in
  exists iterates,
    (1 <= length iterates <= 101)%nat /\
    (forall k, (k < length iterates)%nat ->
       collect_step P groups xs_total xs_scatter f geometry (nth k (start :: iterates) start)
       = Ok (nth k iterates start)) /\
    nth (length iterates - 1) iterates start = r /\
    saved = map fst (tl iterates).
Proof. exact collect_power_saved. Qed.
Print Assumptions C33_snapshots_from_second_partial.
Theorem C33_first_snapshot_lost_refuted :
  forall P groups xs_total xs_scatter f geometry guess r saved,
  collect_power_iteration P groups xs_total xs_scatter f geometry guess = Ok (r, saved) ->
  exists passes first,
    collect_step P groups xs_total xs_scatter f geometry (power_start (cells P) groups guess) = Ok first /\
    length saved = (passes - 1)%nat /\ (1 <= passes <= 101)%nat /\
    (passes = 1%nat -> r = first /\ saved = []).
Proof. exact collect_power_misses_first. Qed.
Print Assumptions C33_first_snapshot_lost_refuted.
Theorem C33_same_pass :
  forall P groups xs_total xs_scatter f geometry st,
  collect_step P groups xs_total xs_scatter f geometry st
  = power_step P groups xs_total (Scatter3 xs_scatter) f geometry st.
Proof. exact collect_step_is_power_step. Qed.
Print Assumptions C33_same_pass.
Example C33_case : exists r saved,
  collect_power_iteration slug 2 slug_total slug_scatter slug_fission 1 (fun i g => 2 * slug_phi i g) = Ok (r, saved) /\
  saved = [].
Proof. exact collect_total_slug. Qed.

(** ** C34 Divergence control of ml_power_iteration *)
Theorem C34_ml_power_result :
  forall P groups flux_old xs_total xs_scatter f geometry fm sm fl sl guess r,
  (0 < length fm + length sm)%nat ->
  ml_power_iteration P groups flux_old xs_total xs_scatter f geometry fm sm fl sl guess = Ok r ->
  exists n x,
    (1 <= n <= 50)%nat /\ x 0%nat = (flux_old, 1) /\
    (forall k, (k < n)%nat ->
       ml_power_step P groups xs_total xs_scatter f geometry fm sm fl sl (x k) = Ok (x (S k))) /\
    exists chg : nat -> float_change,
    chg 0%nat = Fin 100 /\
    (forall k, (k < n)%nat -> change_of (cells P) groups (fst (x (S k))) (fst (x k)) (chg (S k))) /\
    (forall k, (0 < k < n)%nat -> ~ small (chg k) (/ 10 ^ 5) /\
       ((20 <= k)%nat -> ~ grew (chg k) (chg (k - 1)%nat))) /\
    ((r = x (n - 1)%nat /\ (20 <= n)%nat /\ grew (chg n) (chg (n - 1)%nat)) \/
     (r = x n /\ ((20 <= n)%nat -> ~ grew (chg n) (chg (n - 1)%nat)) /\
      (small (chg n) (/ 10 ^ 5) \/ n = 50%nat))).
Proof. exact ml_power_result. Qed.
Print Assumptions C34_ml_power_result.
Theorem C34_no_models :
  forall P groups flux_old xs_total xs_scatter f geometry fl sl guess,
  ml_power_iteration P groups flux_old xs_total xs_scatter f geometry [] [] fl sl guess
  = power_iteration P groups xs_total (Scatter3 xs_scatter) f geometry guess.
Proof. exact ml_power_no_models. Qed.
Print Assumptions C34_no_models.
Theorem C34_ml_pass :
  forall P groups xs_total xs_scatter f geometry fm sm fl sl flux_old k_old flux k,
  ml_power_step P groups xs_total xs_scatter f geometry fm sm fl sl (flux_old, k_old) = Ok (flux, k) ->
  exists source raw,
    (* the fission source: computed with the previous k, or predicted without it *)
    (fm = [] -> nonneg_fission (cells P) groups (medium P) f ->
       forall i g, (i < cells P)%nat -> (g < groups)%nat -> source i g = emission groups f (medium P) flux_old i g / k_old) /\
    (fm <> [] -> forall xs, f = FissionMatrix xs ->
       source = fission_prod_predict (cells P) groups flux_old xs (medium P) 1 fm fl) /\
    (* the transport solve with that source and nothing entering from outside *)
    (sm = [] -> source_iteration P groups flux_old xs_total (Scatter3 xs_scatter) (mkArr3 1 groups (fun i _ g => source i g))
       (mkArr3 1 1 (fun _ _ _ => 0)) geometry None = Ok raw) /\
    (sm <> [] -> ml_source_iteration P groups flux_old xs_total xs_scatter (mkArr3 1 groups (fun i _ g => source i g))
       (mkArr3 1 1 (fun _ _ _ => 0)) geometry sm sl = Ok raw) /\
    (* the new pair *)
    (forall i g, flux i g = raw i g / norm2 (cells P) groups raw) /\
    (norm2 (cells P) groups flux = 1 \/ forall i g, (i < cells P)%nat -> (g < groups)%nat -> raw i g = 0) /\
    (fm <> [] -> k = norm2 (cells P) groups raw) /\
    (fm = [] -> nonneg_fission (cells P) groups (medium P) f ->
       k = k_old * production (cells P) groups f (medium P) raw / production (cells P) groups f (medium P) flux_old).
Proof. exact ml_step_norm. Qed.
Print Assumptions C34_ml_pass.
Example C34_case : (0 < length [Placeholder] + length (@nil ml_model))%nat /\
  exists r, ml_power_step slug 2 slug_total slug_scatter slug_fission 1 [] [] [] (OneLabel [0]) (slug_phi, 2) = Ok r.
Proof.
  split; [cbn; lia|]. unfold ml_power_step. cbn [length Nat.eqb negb source_iteration].
  match goal with |- context [source_iteration_iso ?P ?g ?o ?t ?s ?e ?b 1] =>
    destruct (outer_total P g o t s e b slug_nonzero) as [raw Er]; rewrite Er end. cbn [bind]. eauto.
Qed.

(** ** C35 Predicted fission sources conserve the production rate *)
Theorem C35_fission_rate :
  forall cells groups flux xs modelled medium keff models label x predict,
  modelled (medium x) = true ->
  (x < cells)%nat -> (medium x < length models)%nat -> nth (medium x) models Placeholder = Model predict ->
  let idx := cells_of cells medium (medium x) in
  let out := predict (length idx) (fun k g => flux (nth k idx 0%nat) g) label in
  rsum (length idx) (fun k => rsum groups (fun g => flux (nth k idx 0%nat) g)) <> 0 ->
  rsum groups (fun g => out (rank_of medium (medium x) x) g) <> 0 ->
  rsum groups (fun g => fission_prod_predict cells groups flux (update_cross_sections groups xs modelled)
                          medium keff models label x g)
  = rsum groups (fun o => emission groups (FissionMatrix xs) medium flux x o) / keff.
Proof. exact fission_predict_rate. Qed.
Print Assumptions C35_fission_rate.
Theorem C35_fission_placeholders :
  forall cells groups flux xs medium keff models label,
  (forall i, (i < cells)%nat -> (medium i < length models)%nat /\ nth (medium i) models Placeholder = Placeholder) ->
  (forall i o h, (i < cells)%nat -> (o < groups)%nat -> (h < groups)%nat -> 0 <= xs (medium i) o h) ->
  forall i g, (i < cells)%nat -> (g < groups)%nat ->
    fission_prod_predict cells groups flux xs medium keff models label i g
    = emission groups (FissionMatrix xs) medium flux i g / keff.
Proof. exact fission_predict_placeholders. Qed.
Print Assumptions C35_fission_placeholders.
Example C35_fission_case : let flux : mat2 := fun _ _ => 1 in
  let predict := fun (_ : nat) (_ : mat2) (_ : list R) (_ g : nat) => INR (S g) in
  (0 < 1)%nat /\ nth 0 [Model predict] Placeholder = Model predict /\
  rsum (length (cells_of 1 (fun _ => 0%nat) 0)) (fun k => rsum 2 (fun g => flux (nth k (cells_of 1 (fun _ => 0%nat) 0) 0%nat) g)) <> 0 /\
  rsum 2 (fun g => predict 1%nat flux [] 0%nat g) <> 0.
Proof. cbn. split; [lia|]. split; [reflexivity|]. split; lra. Qed.

(** ** C37 Infinite medium: the iteration solves the group balances *)
Theorem C37_solution_is_fixed :
  forall angles groups wt xs_total xs_scatter rows external phi new,
  (forall g, (g < groups)%nat -> xs_total g <> 0) ->
  balance_0d angles groups wt xs_total xs_scatter rows external phi ->
  sweep_0d angles groups wt xs_total xs_scatter rows external phi = Ok new ->
  forall g, (g < groups)%nat -> new g = phi g.
Proof. exact balance_is_fixed. Qed.
Print Assumptions C37_solution_is_fixed.
Theorem C37_fixed_point_is_solution :
  forall angles groups wt xs_total xs_scatter rows external phi new,
  (forall g, (g < groups)%nat -> 0 < xs_total g /\ 0 <= rsum angles wt * xs_scatter g g < xs_total g) ->
  sweep_0d angles groups wt xs_total xs_scatter rows external phi = Ok new ->
  (forall g, (g < groups)%nat -> new g = phi g) ->
  balance_0d angles groups wt xs_total xs_scatter rows external phi.
Proof. exact fixed_is_balance. Qed.
Print Assumptions C37_fixed_point_is_solution.
Theorem C37_inner_geometric :
  forall angles wt sigt sigs off n ext x0 r star,
  sigt <> 0 ->
  sigt * star = rsum angles (fun m => wt m * (sigs * star + off + ext (bidx n m))) ->
  discrete_ordinates_0d angles wt sigt sigs off n ext x0 = Ok r ->
  exists m, (1 <= m <= 100)%nat /\ r - star = (rsum angles wt * sigs / sigt) ^ m * (x0 - star).
Proof. exact group_0d_exact. Qed.
Print Assumptions C37_inner_geometric.
Theorem C37_inner_exit :
  forall angles wt sigt sigs off n ext x0 r,
  discrete_ordinates_0d angles wt sigt sigs off n ext x0 = Ok r ->
  exists m x, (1 <= m <= 100)%nat /\ x 0%nat = x0 /\ r = x m /\
    (forall k, (k < m)%nat -> x (S k) = pass_0d angles wt sigt sigs off n ext (x k)) /\
    ((m < 100)%nat -> x m <> 0 /\ Rabs ((x m - x (m - 1)%nat) / x m) < / 10 ^ 12).
Proof. exact group_0d_trace. Qed.
Print Assumptions C37_inner_exit.
Theorem C37_solution_exists :
  forall angles groups wt xs_total xs_scatter rows external c,
  0 <= rsum angles wt -> 0 <= c < 1 -> ratio_0d angles groups wt xs_total xs_scatter c ->
  exists phi, balance_0d angles groups wt xs_total xs_scatter rows external phi.
Proof. exact balance_0d_exists. Qed.
Print Assumptions C37_solution_exists.
Theorem C37_solution_unique :
  forall angles groups wt xs_total xs_scatter rows external c p1 p2,
  0 <= rsum angles wt -> 0 <= c < 1 -> ratio_0d angles groups wt xs_total xs_scatter c ->
  balance_0d angles groups wt xs_total xs_scatter rows external p1 ->
  balance_0d angles groups wt xs_total xs_scatter rows external p2 ->
  forall g, (g < groups)%nat -> p1 g = p2 g.
Proof. exact balance_0d_unique. Qed.
Print Assumptions C37_solution_unique.
Theorem C37_outer_error :
  forall angles groups wt xs_total xs_scatter rows external c old flux sol,
  0 <= rsum angles wt -> 0 <= c < 1 -> ratio_0d angles groups wt xs_total xs_scatter c ->
  balance_0d angles groups wt xs_total xs_scatter rows external sol ->
  source_iteration_0d angles groups wt xs_total xs_scatter rows external old = Ok flux ->
  exists n, (1 <= n <= 100)%nat /\
    (forall d, 0 <= d -> within1 groups d old sol -> within1 groups (c ^ n * d) flux sol) /\
    ((n < 100)%nat -> forall M, 0 <= M -> (forall g, (g < groups)%nat -> Rabs (flux g) <= M) ->
       within1 groups (c * (/ 10 ^ 8 * M) / (1 - c)) flux sol).
Proof. exact source_0d_result. Qed.
Print Assumptions C37_outer_error.
Theorem C37_total :
  forall angles groups wt xs_total xs_scatter rows external old,
  exists flux, source_iteration_0d angles groups wt xs_total xs_scatter rows external old = Ok flux.
Proof. exact source_0d_total. Qed.
Print Assumptions C37_total.
Theorem C37_nonneg :
  forall angles groups wt xs_total xs_scatter rows external old flux,
  (forall m, (m < angles)%nat -> 0 <= wt m) ->
  (forall g, (g < groups)%nat -> 0 < xs_total g) ->
  (forall g h, (g < groups)%nat -> (h < groups)%nat -> 0 <= xs_scatter g h) ->
  (forall m g, (m < angles)%nat -> (g < groups)%nat -> 0 <= at2 external (bidx rows m) (bidx (cols2 external) g)) ->
  (forall g, (g < groups)%nat -> 0 <= old g) ->
  source_iteration_0d angles groups wt xs_total xs_scatter rows external old = Ok flux ->
  forall g, (g < groups)%nat -> 0 <= flux g.
Proof. exact source_0d_nonneg. Qed.
Print Assumptions C37_nonneg.
Theorem C37_off_scatter :
  forall groups new old xs gg,
  (gg < groups)%nat ->
  off_scatter_0d groups new old xs gg = gs_off0 groups new old xs gg.
Proof. exact off_scatter_0d_eq. Qed.
Print Assumptions C37_off_scatter.
Theorem C37_anisotropic_moments_drop_out :
  forall angles groups nm wt leg legw xs_total xs_scatter rows external old,
  (0 < nm)%nat ->
  (forall m, (m < angles)%nat -> leg 0%nat m = 1 /\ legw 0%nat m = wt m) ->
  (forall l, (0 < l < nm)%nat -> rsum angles (legw l) = 0) ->
  (forall m g, (m < angles)%nat -> at2 external (bidx rows m) g = at2 external 0%nat g) ->
  source_iteration_aniso_0d angles groups nm wt leg legw xs_total xs_scatter rows external old
  = source_iteration_0d angles groups wt xs_total (fun o i => xs_scatter o i 0%nat) rows external old.
Proof. exact aniso_source_0d_is_iso. Qed.
Print Assumptions C37_anisotropic_moments_drop_out.
Theorem C37_anisotropic_sweep :
  forall angles groups nm wt leg legw xs_total xs_scatter rows external old new,
  sweep_aniso_0d angles groups nm wt leg legw xs_total xs_scatter rows external old = Ok new ->
  forall g, (g < groups)%nat -> xs_total g <> 0 ->
  exists n (psi : nat -> vec) (mom : nat -> vec), (1 <= n <= 100)%nat /\
    (forall l, mom 0%nat l = if Nat.eqb l 0 then old g else 0) /\
    (forall k, (k < n)%nat ->
       (forall l, mom (S k) l = rsum angles (fun m => psi (S k) m * legw l m)) /\
       forall m, (m < angles)%nat ->
         xs_total g * psi (S k) m
         = rsum nm (fun l => (2 * INR l + 1) * xs_scatter g g l * mom k l * leg l m)
           + at2 external (bidx rows m) (bidx (cols2 external) g)
           + gs_off0 groups new old (fun o i => xs_scatter o i 0%nat) g) /\
    new g = rsum angles (fun m => psi n m * wt m).
Proof. exact aniso_sweep_0d_trace. Qed.
Print Assumptions C37_anisotropic_sweep.
Example C37_case : 0 <= rsum 2 pond_wt /\ ratio_0d 2 2 pond_wt pond_total pond_scatter (1 / 2) /\
  (forall g, (g < 2)%nat -> 0 < pond_total g /\ 0 <= rsum 2 pond_wt * pond_scatter g g < pond_total g) /\
  balance_0d 2 2 pond_wt pond_total pond_scatter 1 (mkArr2 2 (fun _ g => emission_0d 2 pond_fission pond_phi g / 2)) pond_phi.
Proof.
  split; [cbn; unfold pond_wt; lra|]. split; [exact pond_ratio|]. split; [|exact pond_balance].
  intros g Hg. small g Hg; cbn; unfold pond_total, pond_wt, pond_scatter; cbn; lra.
Qed.

(** ** C81 k is production over losses *)
Theorem C81_slab_balance :
  forall P groups xs_total xs_scatter f phi k,
  (forall i, (i < cells P)%nat -> dx P i <> 0) -> k <> 0 ->
  eigenpair P groups xs_total xs_scatter f phi k ->
  exists psi,
    mg_transport P groups xs_total xs_scatter
      (mkArr3 1 groups (fun i _ g => emission groups f (medium P) phi i g / k))
      (mkArr3 1 1 (fun _ _ _ => 0)) psi phi /\
    k * (rsum groups (fun g => total_leakage (cells P) (angles P) (mu P) (wt P) (psi g))
         + rsum (cells P) (fun i => dx P i * rsum groups (fun g =>
             (xs_total (medium P i) g
              - rsum (angles P) (wt P) * rsum groups (fun o => xs_scatter (medium P i) o g)) * phi i g)))
    = rsum (angles P) (wt P) *
      rsum (cells P) (fun i => dx P i * rsum groups (fun g => emission groups f (medium P) phi i g)).
Proof. exact eigenvalue_balance. Qed.
Print Assumptions C81_slab_balance.
Theorem C81_infinite_medium :
  forall angles groups wt xs_total xs_scatter f phi k,
  k <> 0 ->
  balance_0d angles groups wt xs_total xs_scatter 1 (mkArr2 groups (fun _ g => emission_0d groups f phi g / k)) phi ->
  k * rsum groups (fun g => (xs_total g - rsum angles wt * rsum groups (fun o => xs_scatter o g)) * phi g)
  = rsum angles wt * production_0d groups f phi.
Proof. exact k_infinity. Qed.
Print Assumptions C81_infinite_medium.
Example C81_case : (forall i, (i < cells slug)%nat -> dx slug i <> 0) /\
  eigenpair slug 2 slug_total slug_scatter slug_fission slug_phi 2.
Proof. split; [intros; cbn; lra|exact slug_eigenpair]. Qed.
