(** Property theorems of the hyperparameter tuner, the memmap files, AutoDJINN's backend and saved models
    (C114-C121).  Vocabulary: TunSpec.v, MltSpec.v (chain), MlfModel.v (data sets and loaders). *)
From Coq Require Import Reals ZArith List Bool String Ascii.
From Verif Require Import Base MlfModel MltModel MltSpec TunModel TunSpec TunFacts TunFacts2 TunFacts3 TunFacts4 TunFacts5 TunFacts6 TunWitness.
Open Scope string_scope.
Open Scope nat_scope.

(** ** C114 Memmap data sets and their metadata belong together *)
(** the metadata file has the name of the data file with every "memmap" replaced by "pickle" *)
Theorem C114_metadata_name :
  forall f p,
  metadata_name f p <-> pickle_file f = p.
Proof. exact pickle_name_iff. Qed.
Print Assumptions C114_metadata_name.
Theorem C114_usual_name :
  forall s, ~ occurs "memmap" (s ++ ".memma") -> pickle_file (s ++ ".memmap") = s ++ ".pickle".
Proof. exact usual_name. Qed.
Print Assumptions C114_usual_name.
(** the directory of a path *)
Theorem C114_directory :
  forall d b, ~ occurs "/" b -> dirname (d ++ "/" ++ b) = d.
Proof. exact dirname_split. Qed.
Print Assumptions C114_directory.
Theorem C114_no_directory :
  forall b, ~ occurs "/" b -> dirname b = "".
Proof. exact dirname_none. Qed.
Print Assumptions C114_no_directory.
Theorem C114_usual_names_separate :
  forall s s',
  ~ occurs "memmap" (s ++ ".memma") -> ~ occurs "memmap" (s' ++ ".memma") -> s <> s' -> separate (s ++ ".memmap") (s' ++ ".memmap").
Proof. exact usual_names_separate. Qed.
Print Assumptions C114_usual_names_separate.
(** PARTIAL: holds for names with "memmap" whose metadata directory exists and that no later call touches *)
Theorem C114_read_back_partial :
  forall (dirs : string -> bool) (split : R -> list nat -> list nat * list nat)
      (single : list R -> list R) (f : string) (d : data_set) (calls : list (string * data_set))
      (fs : files),
    occurs "memmap" f ->
    dirs (dirname f) = true ->
    (forall p : string, metadata_name f p -> dirs (dirname p) = true) ->
    (forall (g : string) (d' : data_set), In (g, d') calls -> separate f g) ->
    fst (deeponet_memmap dirs split single f d fs) = Ok tt /\
    load_metadata f (write_all dirs split single ((f, d) :: calls) fs) =
    Ok (samples d, flux_shape d, labels_shape d, y_shape d) /\
    open_data f (write_all dirs split single ((f, d) :: calls) fs) =
    Ok
      (samples d, flux_shape d, labels_shape d, y_shape d,
       map (fun i : nat => (single (flux_rows d i), single (labels_rows d i), single (y_rows d i)))
         (written_order split (samples d))).
Proof. exact @read_back. Qed.
Print Assumptions C114_read_back_partial.
Theorem C114_missing_directory :
  forall (dirs : string -> bool) (split : R -> list nat -> list nat * list nat)
      (single : list R -> list R) (f : string) (d : data_set) (fs : files),
    dirs (dirname f) = false -> deeponet_memmap dirs split single f d fs = (Raise FileNotFound, fs).
Proof. exact @missing_directory. Qed.
Print Assumptions C114_missing_directory.
(** the intended claim for every name is false: a name without "memmap" makes the metadata overwrite the data *)
Theorem C114_no_word_refuted :
  forall (dirs : string -> bool) (split : R -> list nat -> list nat * list nat)
      (single : list R -> list R) (f : string) (d : data_set) (fs : files),
    ~ occurs "memmap" f ->
    dirs (dirname f) = true ->
    fst (deeponet_memmap dirs split single f d fs) = Ok tt /\
    snd (deeponet_memmap dirs split single f d fs) f =
    Some (Metadata (samples d, flux_shape d, labels_shape d, y_shape d)) /\
    open_data f (snd (deeponet_memmap dirs split single f d fs)) = Raise ValueError.
Proof. exact @no_word_loses. Qed.
Print Assumptions C114_no_word_refuted.
Theorem C114_shared_metadata_names_refuted :
  "pickle_memmap" <> "memmap_pickle" /\ occurs "memmap" "pickle_memmap" /\ occurs "memmap" "memmap_pickle" /\
  pickle_file "pickle_memmap" = pickle_file "memmap_pickle".
Proof. exact names_collide. Qed.
Print Assumptions C114_shared_metadata_names_refuted.
Theorem C114_shared_metadata_refuted :
  forall split single d d' fs,
  (samples d, flux_shape d, labels_shape d, y_shape d) <> (samples d', flux_shape d', labels_shape d', y_shape d') ->
  let fs' := write_all (fun _ => true) split single [("pickle_memmap", d); ("memmap_pickle", d')] fs in
  load_metadata "pickle_memmap" fs' = Ok (samples d', flux_shape d', labels_shape d', y_shape d') /\ open_data "pickle_memmap" fs' = Raise ValueError.
Proof. exact collision_overwrites. Qed.
Print Assumptions C114_shared_metadata_refuted.
Theorem C114_directory_refuted :
  forall (dirs : string -> bool) (split : R -> list nat -> list nat * list nat)
      (single : list R -> list R) (f : string) (d : data_set) (fs : string -> option content),
    occurs "memmap" f ->
    dirs (dirname f) = true ->
    (forall p : string, metadata_name f p -> dirs (dirname p) = false) ->
    fs (pickle_file f) = None ->
    fst (deeponet_memmap dirs split single f d fs) = Raise FileNotFound /\
    snd (deeponet_memmap dirs split single f d fs) f <> None /\
    open_data f (snd (deeponet_memmap dirs split single f d fs)) = Raise FileNotFound.
Proof. exact @wrong_directory. Qed.
Print Assumptions C114_directory_refuted.
Example C114_case : occurs "memmap" "runs/u235.memmap" /\ pickle_file "runs/u235.memmap" = "runs/u235.pickle" /\ dirname "runs/u235.memmap" = "runs" /\
  dirname (pickle_file "memmap/u235.memmap") = "pickle" /\ separate "runs/u235.memmap" "runs/pu239.memmap" /\
  load_metadata "runs/u235.memmap" (write_all (String.eqb "runs") keep_order (fun l => l) [("runs/u235.memmap", two_samples); ("runs/pu239.memmap", mkData 7 1 1 1 (fun _ => []) (fun _ => []) (fun _ => []))] no_files) = Ok (2, 3, 1, 2).
Proof. exact files_demo. Qed.

(** ** C115 Ctrl+C ends a tuning study after the current trial *)
(** PARTIAL: from the start of study.optimize to its end *)
Theorem C115_finishes_current_trial_partial :
  forall (P : Type) (sched : nat -> bool) (objective_of : nat -> trial_run P)
      (nan : nat -> bool) (stored : option (direction * list (P * trial_state))) 
      (asked : direction) (n : nat) (w : tune_world P),
    ~ pressed sched (now w) (now w + 3) ->
    no_nan (trials_before stored) ->
    let start := now w + 3 in
    let c := asks (fun m : nat => takes (objective_of m)) start in
    exists (j : nat) (l : list (P * trial_state)) (r : outcome P) (w' : tune_world P),
      run_study sched stored asked n objective_of nan w = (r, w') /\
      j <= n /\
      Datatypes.length l = j /\
      records objective_of nan l /\
      trials w' = (trials_before stored ++ l)%list /\
      handling w' = Stops (next_study w) /\
      running w' = None /\
      (forall m : nat, m < j -> ~ pressed sched start (S (c m))) /\
      (forall (m : nat) (e : exn), S m < j -> ~ raises objective_of m e) /\
      ((forall (m : nat) (e : exn), m < j -> ~ raises objective_of m e) /\
       (j = n \/ pressed sched start (S (c j))) /\
       (~ pressed sched (S (c j)) (c j + 3) ->
        csv w' = Some (trials_before stored ++ l)%list /\
        answers (direction_used stored asked) (trials_before stored ++ l) r) /\
       (pressed sched (S (c j)) (c j + 3) -> r = Raise RuntimeError) \/
       (exists (m : nat) (e : exn), j = S m /\ raises objective_of m e /\ r = Raise e /\ csv w' = csv w)).
Proof. exact @run_spec. Qed.
Print Assumptions C115_finishes_current_trial_partial.
Theorem C115_before :
  forall (P : Type) (sched : nat -> bool) (objective_of : nat -> trial_run P)
      (nan : nat -> bool) (stored : option (direction * list (P * trial_state))) 
      (asked : direction) (n : nat) (w : tune_world P) (b : bool),
    handling w = Before b ->
    sched (now w) = true ->
    b = true ->
    exists w' : tune_world P,
      run_study sched stored asked n objective_of nan w = (Raise KeyboardInterrupt, w') /\
      trials w' = trials w /\ handling w' = Before b.
Proof. exact @run_first. Qed.
Print Assumptions C115_before.
(** false between the installation of the handler and study.optimize, and after run has ended *)
Theorem C115_early_refuted :
  forall (P : Type) (sched : nat -> bool) (objective_of : nat -> trial_run P)
      (nan : nat -> bool) (stored : option (direction * list (P * trial_state))) 
      (asked : direction) (n : nat) (w : tune_world P),
    ~ pressed sched (now w) (now w + 2) ->
    sched (now w + 2) = true ->
    running w = None ->
    exists w' : tune_world P,
      run_study sched stored asked n objective_of nan w = (Raise RuntimeError, w') /\
      trials w' = trials_before stored /\ csv w' = csv w /\ handling w' = Stops (next_study w).
Proof. exact @run_early. Qed.
Print Assumptions C115_early_refuted.
Theorem C115_after_run_refuted :
  forall (P : Type) (objective_of : nat -> trial_run P) (nan sched : nat -> bool)
      (stored : option (direction * list (P * trial_state))) (asked : direction) 
      (n : nat) (w : tune_world P),
    ~ pressed sched (now w) (now w + 3) ->
    no_nan (trials_before stored) ->
    exists (r : outcome P) (w' : tune_world P),
      run_study sched stored asked n objective_of nan w = (r, w') /\
      (sched (now w') = true -> fst (instant sched w') = Raise RuntimeError).
Proof. exact @after_run. Qed.
Print Assumptions C115_after_run_refuted.
Example C115_case : ~ pressed (fun u => Nat.eqb u 7) (now fresh_world) (now fresh_world + 3) /\ no_nan (trials_before (P := nat) None) /\
  asks (fun m => takes (small_objective m)) 3 2 = 9 /\
  exists w', run_study (fun u => Nat.eqb u 7) None Minimize 3 small_objective (fun _ => false) fresh_world = (Ok 0, w') /\
    csv w' = Some [(0, Complete (Finite 5%R)); (1, WasPruned)] /\ handling w' = Stops 0.
Proof. exact study_demo. Qed.
Example C115_early_case : ~ pressed (fun u => Nat.eqb u 2) 0 2 /\ (fun u => Nat.eqb u 2) (0 + 2) = true.
Proof. exact early_demo. Qed.

(** ** C116 A tuning run exports every finished trial and returns the best completed one *)
(** PARTIAL: if no trial raises; the direction is the stored one *)
Theorem C116_whole_study_partial :
  forall (P : Type) (objective_of : nat -> trial_run P) (nan : nat -> bool)
      (stored : option (direction * list (P * trial_state))) (asked : direction) 
      (n : nat) (w : tune_world P),
    no_nan (trials_before stored) ->
    (forall (m : nat) (e : exn), m < n -> ~ raises objective_of m e) ->
    exists (l : list (P * trial_state)) (r : outcome P) (w' : tune_world P),
      run_study (fun _ : nat => false) stored asked n objective_of nan w = (r, w') /\
      Datatypes.length l = n /\
      records objective_of nan l /\
      trials w' = (trials_before stored ++ l)%list /\
      csv w' = Some (trials_before stored ++ l)%list /\
      answers (direction_used stored asked) (trials_before stored ++ l) r.
Proof. exact @whole_study. Qed.
Print Assumptions C116_whole_study_partial.
Theorem C116_failing_trial_refuted :
  forall (P : Type) (objective_of : nat -> trial_run P) (nan : nat -> bool)
      (stored : option (direction * list (P * trial_state))) (asked : direction) 
      (n : nat) (w : tune_world P) (m : nat) (e : exn),
    no_nan (trials_before stored) ->
    m < n ->
    raises objective_of m e ->
    (forall (i : nat) (e' : exn), i < m -> ~ raises objective_of i e') ->
    exists (l : list (P * trial_state)) (w' : tune_world P),
      run_study (fun _ : nat => false) stored asked n objective_of nan w = (Raise e, w') /\
      Datatypes.length l = S m /\
      records objective_of nan l /\ trials w' = (trials_before stored ++ l)%list /\ csv w' = csv w.
Proof. exact @failing_study. Qed.
Print Assumptions C116_failing_trial_refuted.
Theorem C116_direction_refuted :
  forall (P : Type) (a b : P) (objective_of : nat -> trial_run P) (nan : nat -> bool) (w : tune_world P),
    a <> b ->
    let old := [(a, Complete (Finite 1)); (b, Complete (Finite 2))] in
    exists w' : tune_world P,
      run_study (fun _ : nat => false) (Some (Maximize, old)) Minimize 0 objective_of nan w = (Ok b, w') /\
      ~ best_in Minimize old b.
Proof. exact @stored_direction. Qed.
Print Assumptions C116_direction_refuted.
Example C116_case : no_nan (trials_before (P := nat) None) /\ (forall m e, m < 3 -> ~ raises small_objective m e) /\
  (0 < 3 /\ raises (fun i => mkRun i 1 (Failed ValueError)) 0 ValueError).
Proof. split; [intros p []|]. split; [intros m e _; unfold raises, small_objective; cbn; destruct m; discriminate|]. split; [repeat constructor|reflexivity]. Qed.

(** ** C117 Every point of the search space can be run *)
(** PARTIAL: with the scheduler always off, or always on with factors below 1 *)
Theorem C117_every_trial_partial :
  forall t sp fs ls,
  usable t sp -> scheduler_off sp \/ scheduler_on sp -> forall os,
  List.length (fst (draw_trials t sp None fs ls os [])) = List.length os /\
  forall r, In r (fst (draw_trials t sp None fs ls os [])) -> exists c, r = Ok c /\ from_space sp fs ls c.
Proof. exact study_ok. Qed.
Print Assumptions C117_every_trial_partial.
Theorem C117_prebuilt :
  forall t sp pre fs ls,
  usable t sp -> scheduler_off sp \/ scheduler_on sp ->
  pre_b_layers pre <= List.length (pre_b_nodes pre) -> pre_t_layers pre <= List.length (pre_t_nodes pre) -> forall os,
  List.length (fst (draw_trials t sp (Some pre) fs ls os [])) = List.length os /\
  forall r, In r (fst (draw_trials t sp (Some pre) fs ls os [])) -> exists c, r = Ok c /\ latent c = pre_out_dim pre /\
    chain fs (latent c) (branch_net c) /\ linear_outputs (branch_net c) = (firstn (pre_b_layers pre) (pre_b_nodes pre) ++ [pre_out_dim pre])%list /\
    chain ls (latent c) (trunk_net c) /\ linear_outputs (trunk_net c) = (firstn (pre_t_layers pre) (pre_t_nodes pre) ++ [pre_out_dim pre])%list.
Proof. exact prebuilt_study_ok. Qed.
Print Assumptions C117_prebuilt.
Theorem C117_prebuilt_short :
  forall t sp on o pre fs ls,
  usable t sp -> (if on : bool then scheduler_on sp else scheduler_off sp) -> List.length (pre_b_nodes pre) < pre_b_layers pre ->
  fst (draw_config t sp (Some pre) fs ls o []) = Raise IndexError.
Proof. exact prebuilt_short. Qed.
Print Assumptions C117_prebuilt_short.
Theorem C117_defaults :
  forall t,
  (forall a, In a ["ReLU"; "GELU"; "Tanh"; "MSELoss"; "L1Loss"; "SmoothL1Loss"] -> in_nn t a = true) -> (forall a, In a ["Adam"; "SGD"] -> in_optim t a = true) ->
  usable t default_space /\ scheduler_off default_space.
Proof. exact defaults_usable. Qed.
Print Assumptions C117_defaults.
Theorem C117_mixed_modes_refuted :
  forall t sp fs ls m,
  usable t sp -> In None (sched_mode sp) -> In (Some m) (sched_mode sp) ->
  exists o1 o2 c, fst (draw_trials t sp None fs ls [o1; o2] []) = [Ok c; Raise ValueError].
Proof. exact mixed_modes. Qed.
Print Assumptions C117_mixed_modes_refuted.
Theorem C117_factor_refuted :
  forall t sp fs ls,
  usable t sp -> (forall m, In m (sched_mode sp) -> m = Some "min" \/ m = Some "max") -> (fst (sched_factor sp) <= snd (sched_factor sp))%R -> (1 <= snd (sched_factor sp))%R ->
  fst (sched_patience sp) <= snd (sched_patience sp) -> fst (sched_cooldown sp) <= snd (sched_cooldown sp) ->
  exists o, fst (draw_config t sp None fs ls o []) = Raise ValueError.
Proof. exact factor_one. Qed.
Print Assumptions C117_factor_refuted.
Theorem C117_default_factor_refuted :
  forall t fs ls modes,
  (forall a, In a ["ReLU"; "GELU"; "Tanh"; "MSELoss"; "L1Loss"; "SmoothL1Loss"] -> in_nn t a = true) -> (forall a, In a ["Adam"; "SGD"] -> in_optim t a = true) ->
  modes <> [] -> (forall m, In m modes -> m = Some "min" \/ m = Some "max") ->
  exists o, fst (draw_config t (with_modes default_space modes) None fs ls o []) = Raise ValueError.
Proof. exact default_factor. Qed.
Print Assumptions C117_default_factor_refuted.
Example C117_case : usable usual_torch default_space /\ scheduler_off default_space /\ usable usual_torch scheduled_space /\ scheduler_on scheduled_space /\
  usable usual_torch (with_modes scheduled_space [None; Some "min"]).
Proof. exact space_demo. Qed.
Example C117_prebuilt_case : pre_b_layers small_prebuilt <= List.length (pre_b_nodes small_prebuilt) /\ pre_t_layers small_prebuilt <= List.length (pre_t_nodes small_prebuilt).
Proof. exact prebuilt_demo. Qed.

(** ** C118 Tuning does not look at the test data *)
(** with train.py's split (0.6, 0.2, rest) the validation samples of a default tuner are test samples *)
Theorem C118_default_refuted :
  forall (n : nat) (batch : Z),
  5 <= n -> (0 < batch)%Z -> exists ptr pva pte tr va lva,
  process_data_memmap n batch 0.6 0.2 = Ok (ptr, pva, pte) /\ tuner_datasets n batch None None = Ok (tr, va) /\
  loader va sequential = Ok lva /\ lva <> [] /\ (forall i, In i lva -> (start_idx pte <= Z.of_nat i < end_idx pte)%Z).
Proof. exact tuner_sees_test. Qed.
Print Assumptions C118_default_refuted.
Theorem C118_explicit_fractions_partial :
  forall (n : nat) (batch : Z),
  5 <= n -> (0 < batch)%Z -> exists ptr pva pte tr va ltr lva,
  process_data_memmap n batch 0.6 0.2 = Ok (ptr, pva, pte) /\ tuner_datasets n batch (Some 0.6)%R (Some 0.2)%R = Ok (tr, va) /\
  loader tr sequential = Ok ltr /\ loader va sequential = Ok lva /\ ltr <> [] /\ lva <> [] /\ (forall i, In i (ltr ++ lva) -> (Z.of_nat i < start_idx pte)%Z).
Proof. exact tuner_spares_test. Qed.
Print Assumptions C118_explicit_fractions_partial.
Theorem C118_needs_data :
  forall fs ts vs,
  tuner_init None None ts vs fs = Raise ValueError.
Proof. exact tuner_needs_data. Qed.
Print Assumptions C118_needs_data.

Example C118_case : 5 <= 20 /\ (0 < 4)%Z.
Proof. split; [repeat constructor|reflexivity]. Qed.

(** ** C119 Unknown options are reported *)
Theorem C119_warned :
  forall valid given k,
  In k (unexpected valid given) <-> In k given /\ ~ In k valid.
Proof. exact warned. Qed.
Print Assumptions C119_warned.
Theorem C119_once :
  forall valid given,
  NoDup given -> NoDup (unexpected valid given).
Proof. exact warned_once. Qed.
Print Assumptions C119_once.
Theorem C119_run_refuted :
  forall (A : Type) (defaults : string -> A) (kwargs : list (string * A)) (name : string) (v : A),
    ~ In name run_kwargs ->
    run_options defaults ((name, v) :: kwargs) = run_options defaults kwargs /\
    snd (run_options defaults ((name, v) :: kwargs)) = [].
Proof. exact @run_ignores. Qed.
Print Assumptions C119_run_refuted.
Example C119_case : unexpected train_kwargs ["lr"; "epochs"; "device"] = ["epochs"] /\ ~ In "trials" run_kwargs.
Proof. exact options_demo. Qed.

(** ** C120 The backend option selects the library that loads the models *)
Theorem C120_backend :
  forall (M : Type) (libs : libraries M) (fe fm fd backend : string),
    (spelled backend "torch" ->
     forall (load : string -> outcome M) (enc mid dec : M),
     torch_load libs = Some load ->
     load fe = Ok enc ->
     load fd = Ok dec ->
     djinn_load libs fm = Ok mid -> auto_init libs fe fm fd backend = Ok ("torch", enc, mid, dec)) /\
    (spelled backend "tensorflow" ->
     forall (load : string -> outcome M) (enc mid dec : M),
     keras libs = Some load ->
     load fe = Ok enc ->
     load fd = Ok dec ->
     djinn_load libs fm = Ok mid -> auto_init libs fe fm fd backend = Ok ("tensorflow", enc, mid, dec)) /\
    (~ spelled backend "torch" ->
     ~ spelled backend "tensorflow" -> auto_init libs fe fm fd backend = Raise ValueError) /\
    (spelled backend "torch" ->
     torch_load libs = None -> auto_init libs fe fm fd backend = Raise RuntimeError) /\
    (spelled backend "tensorflow" ->
     keras libs = None -> auto_init libs fe fm fd backend = Raise RuntimeError).
Proof. exact @backend_chosen. Qed.
Print Assumptions C120_backend.
Example C120_case : spelled "TORCH" "torch" /\ spelled "TensorFlow" "tensorflow" /\ ~ spelled "jax" "torch".
Proof. exact spelling_demo. Qed.

(** ** C121 Saved models and metrics are found again *)
Theorem C121_round_trip :
  forall (W : Type) (calls : list (string * W * option metrics)) (d : disk W) (name : string) (w : W),
    last_saved calls name w -> load_model name (save_all calls d) = Ok w.
Proof. exact @model_round_trip. Qed.
Print Assumptions C121_round_trip.
Theorem C121_metrics_file :
  forall (W : Type) (name : string) (w : W) (m : metrics) (d : disk W),
    fst (save_model name w (Some m) d) = Ok tt /\
    snd (save_model name w (Some m) d) (name ++ "-loss-metrics.npz") = Some (Losses m).
Proof. exact @metrics_file. Qed.
Print Assumptions C121_metrics_file.
(** the docstring names another file; saving before training raises although the weights are written *)
Theorem C121_documented_name_refuted :
  forall (W : Type) (name : string) (w : W) (m : option metrics) (d : disk W),
    snd (save_model name w m d) (name ++ "_loss_metrics.npz") = d (name ++ "_loss_metrics.npz").
Proof. exact @metrics_documented. Qed.
Print Assumptions C121_documented_name_refuted.
Theorem C121_untrained_refuted :
  forall (W : Type) (name : string) (w : W) (d : disk W),
    fst (save_model name w None d) = Raise AttributeError /\
    load_model name (snd (save_model name w None d)) = Ok w.
Proof. exact @untrained_save. Qed.
Print Assumptions C121_untrained_refuted.
Example C121_case : last_saved [("a", 1, None); ("b", 2, None); ("a", 3, Some (mkMetrics [] [] PlusInf)); ("b", 4, None)] "a" 3.
Proof. exact saving_demo. Qed.
