(** C69-C72, C104-C106: normalization, metrics, data preparation, prediction wrappers. *)
From Coq Require Import Reals Lra Lia List Bool String Permutation.
From Verif Require Import Base BaseFacts MlfModel MltModel MltSpec MlmModel MlmSpec MlmFacts MlmFacts2 MlmWitness.
Local Open Scope R_scope.

(** ** C69 normalization *)
Theorem C69_rows_partial :
  forall (cols : nat) (data : nat -> nat -> fnum),
  cols <> 0%nat -> exists r, min_max_normalization cols data = Ok r /\
  forall i,
    (forall j, (j < cols)%nat -> low r i <= nan_to_num (data i j) <= high r i) /\
    (exists j, (j < cols)%nat /\ low r i = nan_to_num (data i j)) /\ (exists j, (j < cols)%nat /\ high r i = nan_to_num (data i j)) /\
    (forall j, (j < cols)%nat -> 0 <= ndata r i j <= 1) /\
    (forall j, (j < cols)%nat -> low r i + ndata r i j * (high r i - low r i) = nan_to_num (data i j)) /\
    (low r i < high r i -> (exists j, (j < cols)%nat /\ ndata r i j = 0) /\ (exists j, (j < cols)%nat /\ ndata r i j = 1)) /\
    (low r i = high r i -> forall j, (j < cols)%nat -> ndata r i j = 0).
Proof. exact normalize_rows. Qed.
Print Assumptions C69_rows_partial.
Theorem C69_monotone :
  forall (cols : nat) (data : nat -> nat -> fnum) r i j j',
  min_max_normalization cols data = Ok r -> (j < cols)%nat -> (j' < cols)%nat ->
  nan_to_num (data i j) <= nan_to_num (data i j') -> ndata r i j <= ndata r i j'.
Proof. exact normalize_monotone. Qed.
Print Assumptions C69_monotone.
Theorem C69_empty :
  forall (data : nat -> nat -> fnum),
  min_max_normalization 0 data = Raise ValueError.
Proof. exact normalize_empty. Qed.
Print Assumptions C69_empty.
Theorem C69_by_feature_refuted :
  exists (data : nat -> nat -> fnum) r, min_max_normalization 2 data = Ok r /\
  nan_to_num (data 0%nat 0%nat) < nan_to_num (data 1%nat 0%nat) /\ ndata r 0%nat 0%nat = 0 /\ ndata r 1%nat 0%nat = 0.
Proof. exact normalize_not_by_feature. Qed.
Print Assumptions C69_by_feature_refuted.
Theorem C69_root :
  forall (x root : R),
  0 <= x -> 0 < root -> exists y, np_power x root = Num y /\ 0 <= y /\ np_power y (1 / root) = Num x.
Proof. exact root_inverse. Qed.
Print Assumptions C69_root.
Theorem C69_root_power :
  forall (x : R) (k : nat),
  0 <= x -> k <> 0%nat ->
  np_power x (INR k) = Num (x ^ k) /\ exists y, np_power x (1 / INR k) = Num y /\ 0 <= y /\ y ^ k = x.
Proof. exact root_power. Qed.
Print Assumptions C69_root_power.
Theorem C69_root_monotone :
  forall (x y root : R),
  0 <= x < y -> 0 < root -> exists a b, np_power x root = Num a /\ np_power y root = Num b /\ a < b.
Proof. exact root_monotone. Qed.
Print Assumptions C69_root_monotone.
Theorem C69_root_negative :
  forall (x : R),
  x < 0 -> np_power x (1 / 3) = NaN.
Proof. exact root_negative. Qed.
Print Assumptions C69_root_negative.
Theorem C69_root_zero :
  forall (x root : R),
  np_power x 0 = Num 1 /\ (root < 0 -> np_power 0 root = PosInf).
Proof. exact root_zero. Qed.
Print Assumptions C69_root_zero.
Example C69_case : exists r, min_max_normalization 3 (fun _ j => match j with 0%nat => Num 2 | 1%nat => NaN | _ => Num 4 end) = Ok r /\
  ndata r 0%nat 0%nat = 1 / 2 /\ ndata r 0%nat 1%nat = 0 /\ ndata r 0%nat 2%nat = 1.
Proof. exact normalize_demo. Qed.

(** ** C70 metrics *)
Theorem C70_mae : forall (n : nat) (y_true y_pred : vec), n <> 0%nat ->
  0 <= mean_absolute_error n y_true y_pred /\ (mean_absolute_error n y_true y_pred = 0 <-> forall i, (i < n)%nat -> y_pred i = y_true i).
Proof. exact mae_spec. Qed.
Print Assumptions C70_mae.
Theorem C70_mse : forall (n : nat) (y_true y_pred : vec), n <> 0%nat ->
  0 <= mean_squared_error n y_true y_pred /\ (mean_squared_error n y_true y_pred = 0 <-> forall i, (i < n)%nat -> y_pred i = y_true i).
Proof. exact mse_spec. Qed.
Print Assumptions C70_mse.
Theorem C70_mae_le_rmse : forall (n : nat) (y_true y_pred : vec), n <> 0%nat ->
  mean_absolute_error n y_true y_pred <= root_mean_squared_error n y_true y_pred /\
  (root_mean_squared_error n y_true y_pred)² = mean_squared_error n y_true y_pred.
Proof. exact mae_le_rmse. Qed.
Print Assumptions C70_mae_le_rmse.
Theorem C70_scores_partial :
  forall (n : nat) (y_true y_pred : vec),
  (exists i j, (i < n)%nat /\ (j < n)%nat /\ y_true i <> y_true j) ->
  r2_score n y_true y_pred = 1 - rsum n (fun i => (y_true i - y_pred i)²) / rsum n (fun i => (y_true i - mean n y_true)²) /\
  r2_score n y_true y_pred <= explained_variance_score n y_true y_pred <= 1 /\
  (r2_score n y_true y_pred = 1 <-> forall i, (i < n)%nat -> y_pred i = y_true i) /\
  (explained_variance_score n y_true y_pred = 1 <-> forall i, (i < n)%nat -> y_true i - y_pred i = mean n (fun k => y_true k - y_pred k)) /\
  (r2_score n y_true y_pred = explained_variance_score n y_true y_pred <-> mean n (fun k => y_true k - y_pred k) = 0).
Proof. exact scores_spec. Qed.
Print Assumptions C70_scores_partial.
Theorem C70_mean_scores_zero :
  forall (n : nat) (y_true : vec),
  (exists i j, (i < n)%nat /\ (j < n)%nat /\ y_true i <> y_true j) -> r2_score n y_true (fun _ => mean n y_true) = 0.
Proof. exact r2_of_mean. Qed.
Print Assumptions C70_mean_scores_zero.
Theorem C70_constant_truth_refuted :
  forall (n : nat) (y_true y_pred : vec),
  n <> 0%nat -> (forall i, (i < n)%nat -> y_true i = y_true 0%nat) ->
  r2_score n y_true y_pred = 0 /\ explained_variance_score n y_true y_pred = 0.
Proof. exact scores_constant. Qed.
Print Assumptions C70_constant_truth_refuted.
Example C70_case : (exists i j, (i < 2)%nat /\ (j < 2)%nat /\ y2 i <> y2 j) /\ r2_score 2 y2 p2 = 1 / 2 /\ mean_absolute_error 2 y2 p2 = 1 / 2 /\ mean_squared_error 2 y2 p2 = 1 / 2.
Proof. exact scores_demo. Qed.

(** ** C71 combine_flux_reaction *)
Theorem C71_rows :
  forall (iterations cells groups : nat) (flux xs_matrix : mat3) (medium_map : nat -> nat) (labels : vec) (s : sample),
  In s (combine_flux_reaction iterations cells groups flux xs_matrix medium_map labels) ->
  exists cc ii, (cc < iterations)%nat /\ (ii < cells)%nat /\ label s = labels ii /\ (forall g, inputs s g = flux cc ii g) /\
    forall g, targets s g = rsum groups (fun h => flux cc ii h * xs_matrix (medium_map ii) g h).
Proof. exact combine_rows. Qed.
Print Assumptions C71_rows.
Theorem C71_order :
  forall (iterations cells groups : nat) (flux xs_matrix : mat3) (medium_map : nat -> nat) (labels : vec),
  combine_flux_reaction iterations cells groups flux xs_matrix medium_map labels =
  filter (keeps groups) (map (fun k => one_sample groups flux xs_matrix medium_map labels (k / cells) (k mod cells)) (seq 0 (iterations * cells))).
Proof. exact combine_order. Qed.
Print Assumptions C71_order.
Theorem C71_empty_dropped :
  forall (iterations cells groups : nat) (flux xs_matrix : mat3) (medium_map : nat -> nat) (labels : vec) (s : sample),
  In s (combine_flux_reaction iterations cells groups flux xs_matrix medium_map labels) -> ~ no_flux groups s.
Proof. exact empty_dropped. Qed.
Print Assumptions C71_empty_dropped.
Theorem C71_exact_partial :
  forall (iterations cells groups : nat) (flux xs_matrix : mat3) (medium_map : nat -> nat) (labels : vec),
  (forall cc ii g, 0 <= flux cc ii g) -> (forall m g h, 0 <= xs_matrix m g h) ->
  forall cc ii, (cc < iterations)%nat -> (ii < cells)%nat ->
    let s := one_sample groups flux xs_matrix medium_map labels cc ii in
    no_flux groups s \/ In s (combine_flux_reaction iterations cells groups flux xs_matrix medium_map labels).
Proof. exact combine_exact. Qed.
Print Assumptions C71_exact_partial.
Theorem C71_signed_refuted :
  exists (flux xs_matrix : mat3) (medium_map : nat -> nat) (labels : vec),
  combine_flux_reaction 1 1 2 flux xs_matrix medium_map labels = [] /\ ~ no_flux 2 (one_sample 2 flux xs_matrix medium_map labels 0 0).
Proof. exact signed_dropped. Qed.
Print Assumptions C71_signed_refuted.
Example C71_case : exists s, combine_flux_reaction 1 1 2 (fun _ _ g => INR g) (fun _ g h => if Nat.eqb g h then 1 else 0) (fun _ => 0%nat) (fun _ => 15) = [s] /\
  label s = 15 /\ inputs s 1%nat = 1 /\ targets s 1%nat = 1.
Proof. exact combine_demo. Qed.

(** ** C72 _split_by_material *)
Theorem C72_split_partial :
  forall (A : Type) (label_of : A -> R) (rows : list A) (splits : list (string * list R)),
  disjoint_labels splits -> distinct_names splits ->
  let (files, outcome) := split_by_material label_of rows splits in
  (forall s, In s splits -> contents files (fst s) =
     match filter (fun a => isin (label_of a) (snd s)) rows with [] => None | l => Some l end) /\
  (outcome = Ok tt <-> forall a, In a rows -> covered splits (label_of a)) /\
  (outcome = Ok tt -> Permutation (flat_map snd files) rows /\ NoDup (map fst files)).
Proof. exact material_split_exact. Qed.
Print Assumptions C72_split_partial.
Theorem C72_overlap_refuted :
  exists (splits : list (string * list R)), distinct_names splits /\ 
  let (files, outcome) := split_by_material (fun x : R => x) [1; 2] splits in outcome = Ok tt /\ forall f, In f files -> ~ In 2 (snd f).
Proof. exact split_overlap. Qed.
Print Assumptions C72_overlap_refuted.
Theorem C72_same_name_refuted :
  exists (splits : list (string * list R)), disjoint_labels splits /\
  let (files, outcome) := split_by_material (fun x : R => x) [1; 2] splits in outcome = Ok tt /\ contents files "a" = Some [2] /\ forall name, name <> "a"%string -> contents files name = None.
Proof. exact split_same_name. Qed.
Print Assumptions C72_same_name_refuted.
Example C72_case : disjoint_labels [("hdpe"%string, [15]); ("uh3"%string, [0; 1])] /\ distinct_names [("hdpe"%string, [15]); ("uh3"%string, [0; 1])] /\
  split_by_material (fun x : R => x) [0; 15; 1] [("hdpe"%string, [15]); ("uh3"%string, [0; 1])] = ([("uh3"%string, [0; 1]); ("hdpe"%string, [15])], Ok tt).
Proof. exact split_demo2. Qed.

(** ** C104 process_data *)
Theorem C104_split :
  forall (A : Type) (split : R -> list A -> list A * list A) (data : list A),
  (forall q l, Permutation (fst (split q l) ++ snd (split q l)) l) -> (forall q l, 0 < q < 1 -> rounded_up (q * INR (List.length l)) (List.length (snd (split q l)))) ->
  let '(train, val, test) := process_data split data in
  Permutation (train ++ val ++ test) data /\
  (let n := INR (List.length data) in
   2 / 10 * n <= INR (List.length test) < 2 / 10 * n + 1 /\ 2 / 10 * n - 1 / 4 < INR (List.length val) < 2 / 10 * n + 1 /\
   6 / 10 * n - 2 < INR (List.length train) < 6 / 10 * n + 1 / 4).
Proof. exact process_data_spec. Qed.
Print Assumptions C104_split.
Example C104_case : (forall q (l : list nat), Permutation (fst (cut nat q l) ++ snd (cut nat q l)) l) /\
  (forall q (l : list nat), 0 < q < 1 -> rounded_up (q * INR (List.length l)) (List.length (snd (cut nat q l)))) /\ process_data (cut nat) (seq 0 10) = (seq 0 6, seq 6 2, seq 8 2).
Proof. exact (cut_demo nat). Qed.
(** ** C105 djinn_regression *)
Theorem C105_names_partial :
  forall (trees depth : list nat),
  NoDup trees -> NoDup depth -> (forall t, In t trees -> (t < 1000)%nat) -> (forall d, In d depth -> (d < 1000)%nat) ->
  NoDup (map fst (grid_models trees depth)) /\ forall t d, In t trees -> In d depth -> In (model_name t d, (t, d)) (grid_models trees depth).
Proof. exact grid_names. Qed.
Print Assumptions C105_names_partial.
Theorem C105_call_refuted :
  forall (trees depth : list nat),
  djinn_regression trees depth = Raise TypeError.
Proof. exact djinn_fails. Qed.
Print Assumptions C105_call_refuted.
Theorem C105_collision_refuted :
  model_name 100 1001 = model_name 1001 1.
Proof. exact grid_collision. Qed.
Print Assumptions C105_collision_refuted.
Example C105_case : grid_models [1; 2]%nat [3]%nat = [("model_001003"%string, (1, 3)%nat); ("model_002003"%string, (2, 3)%nat)].
Proof. reflexivity. Qed.
(** ** C106 prediction wrappers *)
Theorem C106_djinn :
  forall (model : rows -> rows) (m t d : list R -> list R) (transformer detransformer : transform) (flux : rows) (label : option (list R)),
  row_wise model m -> by_rows transformer t -> by_rows detransformer d ->
  djinn_predict model (Some transformer) (Some detransformer) flux label =
    (Ok (map (fun r => d (m (match label with Some l => l ++ t r | None => t r end))) flux), flux) /\
  djinn_predict model None None flux label = (Ok (map (fun r => m (match label with Some l => l ++ r | None => r end)) flux), flux).
Proof. exact djinn_rows. Qed.
Print Assumptions C106_djinn.
Theorem C106_auto :
  forall (encode model decode : rows -> rows) (e m dec t d : list R -> list R) (transformer detransformer : transform) (flux : rows) (label : option (list R)),
  row_wise encode e -> row_wise model m -> row_wise decode dec -> by_rows transformer t -> by_rows detransformer d ->
  auto_predict encode model decode transformer detransformer flux label =
    (Ok (map (fun r => d (dec (m (match label with Some l => l ++ e (l ++ t r) | None => e (t r) end)))) flux), flux).
Proof. exact auto_rows. Qed.
Print Assumptions C106_auto.
Theorem C106_deeponet_partial :
  forall (network : list (list R * list R) -> rows) (net : list R * list R -> list R) (t d : list R -> list R) (transformer detransformer : transform) (flux : rows) (label : list R),
  row_wise network net -> by_rows transformer t -> by_rows detransformer d -> leaves_argument transformer -> flux <> [] ->
  deeponet_predict network transformer detransformer flux label = (Ok (map (fun r => d (net (t r, label))) flux), flux).
Proof. exact deeponet_rows. Qed.
Print Assumptions C106_deeponet_partial.
Theorem C106_keep_flux :
  forall (model encode decode : rows -> rows) (transformer detransformer : transform) (flux : rows) (label : option (list R)),
  snd (djinn_predict model (Some transformer) (Some detransformer) flux label) = flux /\ snd (auto_predict encode model decode transformer detransformer flux label) = flux.
Proof. exact wrappers_keep_flux. Qed.
Print Assumptions C106_keep_flux.
Theorem C106_deeponet_flux_refuted :
  exists (transformer : transform) (t : list R -> list R), by_rows transformer t /\
  forall network detransformer label, snd (deeponet_predict network transformer detransformer [[1]] label) = [[2]].
Proof. exact deeponet_changes_flux. Qed.
Print Assumptions C106_deeponet_flux_refuted.
Theorem C106_deeponet_no_rows :
  forall (network : list (list R * list R) -> rows) (transformer detransformer : transform) (t : list R -> list R) (label : list R),
  by_rows transformer t -> fst (deeponet_predict network transformer detransformer [] label) = Raise ValueError.
Proof. exact deeponet_no_rows. Qed.
Print Assumptions C106_deeponet_no_rows.
Theorem C106_load :
  forall (M : Type) (load : string -> M) (paths : list model_path),
  List.length (load_djinn_models load paths) = List.length paths /\
  forall i, nth_error (load_djinn_models load paths) i = match nth_error paths i with None => None | Some Zero => Some None | Some (Path s) => Some (Some (load s)) end.
Proof. exact load_positions. Qed.
Print Assumptions C106_load.
Example C106_case : MltSpec.row_wise (map (fun r : list R => r)) (fun r => r) /\
  djinn_predict (map (fun r => r)) (Some (fun r => (map (map (Rmult 2)) r, r))) (Some (fun r => (map (map (Rmult 3)) r, r))) [[1]; [2]] (Some [7]) = (Ok [[3 * 7; 3 * (2 * 1)]; [3 * 7; 3 * (2 * 2)]], [[1]; [2]]).
Proof. exact predict_demo. Qed.
