(** Model of the hyperparameter tuner discrete1/ml/tune.py (constructor, search space, study), of the memmap
    files of discrete1/ml/data.py, of AutoDJINN's constructor (discrete1/ml/predict.py) and of the saving of
    models (discrete1/ml/train.py).  Definitions only.

    Not this library's code, modelled by its documented behaviour: optuna's study (its loop, its check that a
    parameter name keeps one distribution, [study.stop], [best_params]), the argument checks of the torch
    constructors, the file system (a name is a file; opening for writing needs the directory to exist).
    Names are ASCII strings.  One thread ([n_jobs] = 1). *)
From Coq Require Import Reals ZArith List Bool String Ascii.
From Verif Require Import Base MlfModel MltModel.
Local Open Scope string_scope.
Local Open Scope nat_scope.

(** *** data.py:16-96: the two files of a data set *)
(** [s.replace(old, new)] for a non-empty [old]; [skip]: characters of an occurrence still to be dropped. *)
Fixpoint replace_from (skip : nat) (old new s : string) : string :=
  match s with
  | EmptyString => EmptyString
  | String c rest =>
      match skip with
      | S k => replace_from k old new rest
      | O => if prefix old s then new ++ replace_from (String.length old - 1) old new rest
             else String c (replace_from 0 old new rest)
      end
  end.
(** data.py:67, 85 *)
Definition pickle_file (filename : string) : string := replace_from 0 "memmap" "pickle" filename.

(** The directory part of a path: everything before its last slash. *)
Fixpoint dirname (s : string) : string :=
  match s with
  | EmptyString => EmptyString
  | String c rest => match index 0 "/" rest with Some _ => String c (dirname rest) | None => EmptyString end
  end.

(** A data set: number of samples, the three widths, the rows. *)
Definition row := (list R * list R * list R)%type.
Record data_set := mkData { samples : nat; flux_shape : nat; labels_shape : nat; y_shape : nat;
  flux_rows : nat -> list R; labels_rows : nat -> list R; y_rows : nat -> list R }.
Definition sizes := (nat * nat * nat * nat)%type.
Definition sizes_of (d : data_set) : sizes := (samples d, flux_shape d, labels_shape d, y_shape d).
(** What a file holds. *)
Inductive content := Records (s : sizes) (rows : list row) | Metadata (s : sizes).
Definition files := string -> option content.
Definition write_file (fs : files) (name : string) (c : content) : files :=
  fun s => if String.eqb s name then Some c else fs s.

(** data.py:16-69 deeponet_memmap.  [dirs]: the directories that exist; [split]: sklearn's train_test_split;
    [single]: the rounding of a row to float32.  The three arrays have the same number of rows. *)
Definition deeponet_memmap (dirs : string -> bool) (split : R -> list nat -> list nat * list nat) (single : list R -> list R)
    (filename : string) (d : data_set) (fs : files) : outcome unit * files :=
  let order := written_order split (samples d) in
  if negb (dirs (dirname filename)) then (Raise FileNotFound, fs)
  else
    let fs1 := write_file fs filename (Records (sizes_of d)
      (written_rows order (fun i => single (flux_rows d i)) (fun i => single (labels_rows d i)) (fun i => single (y_rows d i)))) in
    if negb (dirs (dirname (pickle_file filename))) then (Raise FileNotFound, fs1)
    else (Ok tt, write_file fs1 (pickle_file filename) (Metadata (sizes_of d))).

(** data.py:72-96 load_deeponet_memmap_metadata; unpickling other bytes fails. *)
Definition load_metadata (filename : string) (fs : files) : outcome sizes :=
  match fs (pickle_file filename) with
  | None => Raise FileNotFound
  | Some (Metadata s) => Ok s
  | Some (Records _ _) => Raise ValueError
  end.
(** Metadata first, then np.memmap over the data file with these sizes (train.py:353-355, tune.py:170-180,
    data.py:139-144).  If the file holds anything else numpy raises or misreads the bytes: ValueError here. *)
Definition sizes_eqb (a b : sizes) : bool :=
  match a, b with (n, f, l, y), (n', f', l', y') => Nat.eqb n n' && Nat.eqb f f' && Nat.eqb l l' && Nat.eqb y y' end.
Definition open_data (filename : string) (fs : files) : outcome (sizes * list row) :=
  bind (load_metadata filename fs) (fun s =>
    match fs filename with
    | None => Raise FileNotFound
    | Some (Records s' rows) => if sizes_eqb s s' then Ok (s, rows) else Raise ValueError
    | Some (Metadata _) => Raise ValueError
    end).

(** A history of calls of deeponet_memmap; a failing call raises in the caller, who goes on with the next. *)
Fixpoint write_all (dirs : string -> bool) (split : R -> list nat -> list nat * list nat) (single : list R -> list R)
    (calls : list (string * data_set)) (fs : files) : files :=
  match calls with
  | [] => fs
  | (name, d) :: rest => write_all dirs split single rest (snd (deeponet_memmap dirs split single name d fs))
  end.

(** *** tune.py:36-49, 701-741: a study under Ctrl+C *)
(** A SIGINT handler: the one from before (Python's own raises KeyboardInterrupt), or the inner function of
    [finish_trial] for one study (lines 45-47). *)
Inductive tune_handler := Before (raises : bool) | Stops (study : nat).
(** How optuna records a trial; COMPLETE with its value, PRUNED or FAIL. *)
Inductive trial_state := Complete (value : loss) | WasPruned | WasFailed.
Inductive direction := Minimize | Maximize.
Record tune_world (P : Type) := mkTune {
  now : nat; handling : tune_handler; next_study : nat;
  running : option nat;          (* the study whose optimize loop is on *)
  stop_flag : bool;              (* of that study *)
  trials : list (P * trial_state);  (* of the present study *)
  csv : option (list (P * trial_state)) }.  (* the file written last *)
Arguments mkTune {P}. Arguments now {P}. Arguments handling {P}. Arguments next_study {P}. Arguments running {P}.
Arguments stop_flag {P}. Arguments trials {P}. Arguments csv {P}.

Section Study.
Context {P : Type}.
Definition tm (A : Type) := tune_world P -> outcome A * tune_world P.
Definition tbind {A B} (m : tm A) (f : A -> tm B) : tm B :=
  fun w => match m w with (Ok a, w1) => f a w1 | (Raise e, w1) => (Raise e, w1) end.
Definition tdo (f : tune_world P -> tune_world P) : tm unit := fun w => (Ok tt, f w).
(** SIGINT arrives: optuna's [Study.stop] raises RuntimeError outside that study's optimize loop. *)
Definition arrive : tm unit := fun w =>
  match handling w with
  | Before raises => if raises then (Raise KeyboardInterrupt, w) else (Ok tt, w)
  | Stops k =>
      match running w with
      | Some j => if Nat.eqb j k
                  then (Ok tt, mkTune (now w) (handling w) (next_study w) (running w) true (trials w) (csv w))
                  else (Raise RuntimeError, w)
      | None => (Raise RuntimeError, w)
      end
  end.
(** One instant passes; [sched u]: SIGINT is delivered at instant u. *)
Definition instant (sched : nat -> bool) : tm unit := fun w =>
  let w1 := mkTune (S (now w)) (handling w) (next_study w) (running w) (stop_flag w) (trials w) (csv w) in
  if sched (now w) then arrive w1 else (Ok tt, w1).
Fixpoint instants (sched : nat -> bool) (n : nat) : tm unit :=
  match n with O => fun w => (Ok tt, w) | S k => tbind (instant sched) (fun _ => instants sched k) end.

(** What the objective does in the trial with a given number: the parameters it draws, the instants it takes,
    how it ends ([Failed e]: it raises e). *)
Record trial_run := mkRun { drawn : P; takes : nat; ends : trial_end }.
(** optuna's record of a trial; a NaN value makes the trial FAIL without an exception.  [nan]: whether the
    returned value is NaN. *)
Definition state_of (nan : bool) (e : trial_end) : trial_state :=
  match e with Value v => if nan then WasFailed else Complete (Finite v) | Pruned => WasPruned | Failed _ => WasFailed end.
Definition add_trial (p : P) (s : trial_state) : tm unit :=
  tdo (fun w => mkTune (now w) (handling w) (next_study w) (running w) (stop_flag w) (trials w ++ [(p, s)])%list (csv w)).

(** study.optimize with n_trials: [left] trials may still be started.  An exception of the objective is
    recorded and raised again (catch=()). *)
Fixpoint optimize_loop (sched : nat -> bool) (objective_of : nat -> trial_run) (nan : nat -> bool) (left i : nat) : tm unit :=
  match left with
  | O => tbind (instant sched) (fun _ w => (Ok tt, w))
  | S rest =>
      tbind (instant sched) (fun _ w =>
        if stop_flag w then (Ok tt, w)
        else
          tbind (instants sched (takes (objective_of i))) (fun _ =>
          tbind (add_trial (drawn (objective_of i)) (state_of (nan i) (ends (objective_of i)))) (fun _ =>
            match ends (objective_of i) with
            | Failed e => fun w' => (Raise e, w')
            | _ => optimize_loop sched objective_of nan rest (S i)
            end)) w)
  end.
Definition tfinally {A} (m : tm A) (f : tune_world P -> tune_world P) : tm A := fun w => let (r, w1) := m w in (r, f w1).
Definition enter_loop (k : nat) : tm unit :=
  tdo (fun w => mkTune (now w) (handling w) (next_study w) (Some k) false (trials w) (csv w)).
Definition leave_loop (w : tune_world P) : tune_world P :=
  mkTune (now w) (handling w) (next_study w) None (stop_flag w) (trials w) (csv w).

(** study.best_params: the first trial with the best value among the completed ones. *)
Definition beats (d : direction) (a b : loss) : bool := match d with Minimize => loss_lt a b | Maximize => loss_lt b a end.
Fixpoint best_of (d : direction) (best : option (P * loss)) (l : list (P * trial_state)) : option (P * loss) :=
  match l with
  | [] => best
  | (p, Complete v) :: rest =>
      best_of d (match best with Some (_, b) => if beats d v b then Some (p, v) else best | None => Some (p, v) end) rest
  | _ :: rest => best_of d best rest
  end.
Definition best_params (d : direction) (l : list (P * trial_state)) : outcome P :=
  match best_of d None l with Some (p, _) => Ok p | None => Raise ValueError end.

(** tune.py:701-741 run.  [stored]: the trials and the direction of the named study if the database has it
    already (load_if_exists=True: the stored direction stays); [None]: a new study. *)
Definition run_study (sched : nat -> bool) (stored : option (direction * list (P * trial_state))) (asked : direction) (n_trials : nat)
    (objective_of : nat -> trial_run) (nan : nat -> bool) : tm P :=
  tbind (instant sched) (fun _ w =>
    let k := next_study w in
    let d := match stored with Some (d, _) => d | None => asked end in
    let old := match stored with Some (_, l) => l | None => [] end in
    let w1 := mkTune (now w) (handling w) (S k) (running w) (stop_flag w) old (csv w) in
    tbind (instant sched) (fun _ =>
    tbind (tdo (fun w => mkTune (now w) (Stops k) (next_study w) (running w) (stop_flag w) (trials w) (csv w))) (fun _ =>
    tbind (instant sched) (fun _ =>
    tbind (tfinally (tbind (enter_loop k) (fun _ => optimize_loop sched objective_of nan n_trials 0)) leave_loop) (fun _ =>
    tbind (instant sched) (fun _ =>
    tbind (tdo (fun w => mkTune (now w) (handling w) (next_study w) (running w) (stop_flag w) (trials w) (Some (trials w)))) (fun _ =>
    tbind (instant sched) (fun _ w =>
      (best_params d (trials w), w)))))))) w1).
End Study.
Arguments tm : clear implicits. Arguments trial_run : clear implicits.

(** *** tune.py:266-325, 327-559: the parameters of a trial *)
(** A value that optuna stores. *)
Inductive value := VNone | VText (s : string) | VInt (n : nat) | VReal (x : R).
Inductive distribution := Categorical (choices : list value) | Floats (low high : R) | Ints (low high : nat).
Definition value_eqb (a b : value) : bool :=
  match a, b with
  | VNone, VNone => true
  | VText s, VText t => String.eqb s t
  | VInt n, VInt m => Nat.eqb n m
  | VReal x, VReal y => if Req_EM_T x y then true else false
  | _, _ => false
  end.
Fixpoint values_eqb (a b : list value) : bool :=
  match a, b with [], [] => true | x :: a', y :: b' => value_eqb x y && values_eqb a' b' | _, _ => false end.
(** optuna.distributions.check_distribution_compatibility (no parameter here is logarithmic). *)
Definition compatible (a b : distribution) : bool :=
  match a, b with
  | Categorical c, Categorical c' => values_eqb c c'
  | Floats _ _, Floats _ _ | Ints _ _, Ints _ _ => true
  | _, _ => false
  end.
(** The distributions a study has seen, by parameter name. *)
Definition seen := list (string * distribution).
Definition lookup (name : string) (s : seen) : option distribution :=
  match find (fun nd => String.eqb (fst nd) name) s with Some (_, d) => Some d | None => None end.
Definition sm (A : Type) := seen -> outcome A * seen.
Definition sret {A} (a : A) : sm A := fun s => (Ok a, s).
Definition sraise {A} (e : exn) : sm A := fun s => (Raise e, s).
Definition sbind {A B} (m : sm A) (f : A -> sm B) : sm B :=
  fun s => match m s with (Ok a, s1) => f a s1 | (Raise e, s1) => (Raise e, s1) end.
(** Registration of a distribution under a name. *)
Definition register (name : string) (d : distribution) : sm unit := fun s =>
  match lookup name s with
  | Some d' => if compatible d' d then (Ok tt, s) else (Raise ValueError, s)
  | None => (Ok tt, s ++ [(name, d)])%list
  end.
(** The sampler of one trial: any choice for every name. *)
Record sampler := mkSampler { picks : string -> nat; fraction : string -> R }.
Definition suggest_categorical {A} (inj : A -> value) (o : sampler) (name : string) (choices : list A) : sm A :=
  match choices with
  | [] => sraise ValueError
  | first :: _ => sbind (register name (Categorical (map inj choices)))
                    (fun _ => sret (nth (picks o name mod List.length choices) choices first))
  end.
Definition suggest_int (o : sampler) (name : string) (low high : nat) : sm nat :=
  if Nat.ltb high low then sraise ValueError
  else sbind (register name (Ints low high)) (fun _ => sret (low + picks o name mod S (high - low))).
(** Both ends included. *)
Definition suggest_float (o : sampler) (name : string) (low high : R) : sm R :=
  if Rlt_dec high low then sraise ValueError
  else sbind (register name (Floats low high)) (fun _ => sret (low + Rmin 1 (Rmax 0 (fraction o name)) * (high - low))%R).

(** tune.py:308-325: the search space. *)
Record search_space := mkSpace {
  max_b_layers : nat; max_t_layers : nat; nodes : list nat; activations : list string; dropout : list R;
  n_epochs : list nat; batch_sizes : list nat; optimizers : list string; learning_rate : list R; weight_decay : list R;
  sched_mode : list (option string); sched_factor : R * R; sched_patience : nat * nat; sched_cooldown : nat * nat;
  loss_functions : list string }.
(** The defaults (tune.py:287-306). *)
Definition default_space : search_space :=
  mkSpace 5 5 [64; 128; 256] ["ReLU"; "GELU"; "Tanh"] [0; 1/10; 1/5]%R [50; 100; 200] [32; 64; 128] ["Adam"; "SGD"]
    [1/10000; 1/1000; 1/100]%R [0; 1/100000; 1/10000]%R [None] (1/10, 1)%R (1, 10) (0, 5)
    ["MSELoss"; "L1Loss"; "SmoothL1Loss"].

(** Names that torch.nn and torch.optim define. *)
Record torch_names := mkTorch { in_nn : string -> bool; in_optim : string -> bool }.
Definition getattr (exists_ : string -> bool) (name : string) : sm unit :=
  if exists_ name then sret tt else sraise AttributeError.

Definition text_option (m : option string) : value := match m with None => VNone | Some s => VText s end.
(** f"{label}_layer_{i+1}_{what}" *)
Definition layer_name (label : string) (i : nat) (what : string) : string := label ++ "_layer_" ++ str_nat (i + 1) ++ "_" ++ what.

(** tune.py:352-373 _init_nn_model, tune.py:427-447 _init_prebuilt_nn_model: the loop over the layers.
    [out_dim_of i]: how the width of layer i is found.  nn.Dropout rejects p > 1. *)
Fixpoint layer_loop (t : torch_names) (o : sampler) (sp : search_space) (label : string) (out_dim_of : nat -> sm nat)
    (left i in_dim : nat) : sm (list layer * nat) :=
  match left with
  | O => sret ([], in_dim)
  | S rest =>
      sbind (out_dim_of i) (fun out_dim =>
      sbind (suggest_categorical VText o (layer_name label i "activation") (activations sp)) (fun act =>
      sbind (getattr (in_nn t) act) (fun _ =>
      sbind (suggest_categorical VReal o (layer_name label i "dropout") (dropout sp)) (fun p =>
      sbind (if Rlt_dec 0 p then (if Rlt_dec 1 p then sraise ValueError else sret [Dropout]) else sret []) (fun drop =>
      sbind (layer_loop t o sp label out_dim_of rest (S i) out_dim) (fun r =>
        sret (Linear in_dim out_dim :: Activation :: drop ++ fst r, snd r)%list))))))
  end.
(** tune.py:327-375 *)
Definition init_nn_model (t : torch_names) (o : sampler) (sp : search_space) (in_dim onet_out_dim : nat) (label : string) (max_layers : nat) : sm (list layer) :=
  sbind (suggest_int o ("num_" ++ label ++ "_layers") 1 max_layers) (fun num_layers =>
  sbind (layer_loop t o sp label (fun i => suggest_categorical VInt o (layer_name label i "nodes") (nodes sp)) num_layers 0 in_dim) (fun r =>
    sret (fst r ++ [Linear (snd r) onet_out_dim])%list)).
(** The dictionary given as [prebuilt]. *)
Record prebuilt := mkPrebuilt { pre_b_layers : nat; pre_b_nodes : list nat; pre_t_layers : nat; pre_t_nodes : list nat; pre_out_dim : nat }.
(** tune.py:403-449 *)
Definition init_prebuilt_nn_model (t : torch_names) (o : sampler) (sp : search_space) (in_dim onet_out_dim : nat) (label : string)
    (num_layers : nat) (widths : list nat) : sm (list layer) :=
  sbind (layer_loop t o sp label (fun i => match nth_error widths i with Some n => sret n | None => sraise IndexError end) num_layers 0 in_dim) (fun r =>
    sret (fst r ++ [Linear (snd r) onet_out_dim])%list).

(** The scheduler's settings. *)
Record plateau := mkPlateau { mode : string; factor : R; patience : nat; cooldown : nat }.
Record config := mkConfig {
  branch_net : list layer; trunk_net : list layer; latent : nat;
  optimizer_name : string; rate : R; decay : R; scheduler : option plateau; loss_name : string; epochs : nat; batch : nat }.

(** tune.py:377-401 _init_onet_model and tune.py:451-469 _init_prebuilt_onet_model ([pre]: the dictionary, if
    it is not empty: lines 660-663). *)
Definition init_onet (t : torch_names) (o : sampler) (sp : search_space) (pre : option prebuilt) (flux_size labels_size : nat) : sm (list layer * list layer * nat) :=
  match pre with
  | None =>
      sbind (suggest_categorical VInt o "onet_latent_features" (nodes sp)) (fun out_dim =>
      sbind (init_nn_model t o sp flux_size out_dim "b" (max_b_layers sp)) (fun b =>
      sbind (init_nn_model t o sp labels_size out_dim "t" (max_t_layers sp)) (fun tr => sret (b, tr, out_dim))))
  | Some q =>
      sbind (init_prebuilt_nn_model t o sp flux_size (pre_out_dim q) "b" (pre_b_layers q) (pre_b_nodes q)) (fun b =>
      sbind (init_prebuilt_nn_model t o sp labels_size (pre_out_dim q) "t" (pre_t_layers q) (pre_t_nodes q)) (fun tr =>
        sret (b, tr, pre_out_dim q)))
  end.
(** tune.py:486-499 _init_optimizer; torch's optimizers reject a negative rate or decay. *)
Definition init_optimizer (t : torch_names) (o : sampler) (sp : search_space) : sm (string * R * R) :=
  sbind (suggest_categorical VText o "optimizer" (optimizers sp)) (fun name =>
  sbind (suggest_categorical VReal o "learning_rate" (learning_rate sp)) (fun lr =>
  sbind (suggest_categorical VReal o "weight_decay" (weight_decay sp)) (fun wd =>
  sbind (getattr (in_optim t) name) (fun _ =>
    if Rlt_dec lr 0 then sraise ValueError else if Rlt_dec wd 0 then sraise ValueError else sret (name, lr, wd))))).
(** tune.py:501-540 _init_scheduler; torch's ReduceLROnPlateau rejects factor >= 1.0 and other modes. *)
Definition init_scheduler (o : sampler) (sp : search_space) : sm (option plateau) :=
  sbind (suggest_categorical text_option o "sched_mode" (sched_mode sp)) (fun m =>
    match m with
    | None =>
        sbind (suggest_categorical text_option o "sched_factor" [None]) (fun _ =>
        sbind (suggest_categorical text_option o "sched_patience" [None]) (fun _ =>
        sbind (suggest_categorical text_option o "sched_cooldown" [None]) (fun _ => sret None)))
    | Some name =>
        sbind (suggest_float o "sched_factor" (fst (sched_factor sp)) (snd (sched_factor sp))) (fun f =>
        sbind (suggest_int o "sched_patience" (fst (sched_patience sp)) (snd (sched_patience sp))) (fun p =>
        sbind (suggest_int o "sched_cooldown" (fst (sched_cooldown sp)) (snd (sched_cooldown sp))) (fun c =>
          if Rlt_dec f 1 then
            if String.eqb name "min" || String.eqb name "max" then sret (Some (mkPlateau name f p c)) else sraise ValueError
          else sraise ValueError)))
    end).
(** tune.py:646-670 objective, up to the data loaders; tune.py:542-559 _init_loss_function. *)
Definition draw_config (t : torch_names) (sp : search_space) (pre : option prebuilt) (flux_size labels_size : nat) (o : sampler) : sm config :=
  sbind (init_onet t o sp pre flux_size labels_size) (fun nets =>
  sbind (init_optimizer t o sp) (fun opt =>
  sbind (init_scheduler o sp) (fun sch =>
  sbind (suggest_categorical VText o "loss_function" (loss_functions sp)) (fun lf =>
  sbind (getattr (in_nn t) lf) (fun _ =>
  sbind (suggest_categorical VInt o "n_epochs" (n_epochs sp)) (fun ne =>
  sbind (suggest_categorical VInt o "batch_size" (batch_sizes sp)) (fun bs =>
    sret (mkConfig (fst (fst nets)) (snd (fst nets)) (snd nets) (fst (fst opt)) (snd (fst opt)) (snd opt) sch lf ne bs)))))))).
(** The configurations of the trials of one study, in order; a trial that raises leaves what it registered. *)
Fixpoint draw_trials (t : torch_names) (sp : search_space) (pre : option prebuilt) (flux_size labels_size : nat) (os : list sampler) (s : seen) : list (outcome config) * seen :=
  match os with
  | [] => ([], s)
  | o :: rest => let (r, s1) := draw_config t sp pre flux_size labels_size o s in
                 let (rs, s2) := draw_trials t sp pre flux_size labels_size rest s1 in (r :: rs, s2)
  end.

(** *** keyword arguments *)
(** tune.py:95-119 and train.py:173-186: the names that are accepted. *)
Definition tune_kwargs : list string :=
  ["device"; "seed"; "test_size"; "prebuilt"; "max_b_layers"; "max_t_layers"; "nodes"; "fc_activations"; "dropout";
   "n_epochs"; "batch_size"; "optimizer"; "learning_rate"; "weight_decay"; "sched_mode"; "sched_factor";
   "sched_patience"; "sched_cooldown"; "loss_functions"; "memmap_file"; "train_size"; "val_size"].
Definition train_kwargs : list string :=
  ["n_epochs"; "batch_size"; "loss_fn"; "optimizer"; "lr"; "weight_decay"; "lr_scheduler"; "lr_scheduler_params";
   "checkpoint"; "device"; "LOUD"; "tensorboard"].
(** tune.py:183-187, train.py:232-236: one UserWarning per unexpected name (a dictionary has no name twice). *)
Definition unexpected (valid given : list string) : list string :=
  filter (fun k => negb (existsb (String.eqb k) valid)) given.
(** tune.py:721-727 run: kwargs.get with these names; nothing is checked.  [A]: the values. *)
Definition run_kwargs : list string := ["direction"; "n_trials"; "n_jobs"; "study_name"; "storage_name"; "output"].
Definition kwargs_get {A} (kwargs : list (string * A)) (name : string) (default : A) : A :=
  match find (fun kv => String.eqb (fst kv) name) kwargs with Some (_, v) => v | None => default end.
Definition run_options {A} (defaults : string -> A) (kwargs : list (string * A)) : list A * list string :=
  (map (fun n => kwargs_get kwargs n (defaults n)) run_kwargs, []).
(** tune.py:157-195: what the constructor takes from its arguments.  [given]: whether flux, labels and y are
    all there; the result: the sizes it works with, and train_size, val_size. *)
Definition default_train_size : R := 0.8%R.   (* line 161 *)
Definition default_val_size : R := 0.2%R.     (* line 162 *)
Definition tuner_init (arrays : option (nat * nat * nat)) (memmap_file : option string) (train_size val_size : option R) (fs : files)
    : outcome ((nat * nat * nat) * R * R) :=
  let ts := match train_size with Some x => x | None => default_train_size end in
  let vs := match val_size with Some x => x | None => default_val_size end in
  match memmap_file with
  | None => match arrays with None => Raise ValueError | Some s => Ok (s, ts, vs) end
  | Some f => bind (load_metadata f fs) (fun s => match s with (_, fl, la, y) => Ok ((fl, la, y), ts, vs) end)
  end.
(** tune.py:197-226 with these fractions (see MlfModel.create_memmap_datasets). *)
Definition tuner_datasets (n : nat) (batch : Z) (train_size val_size : option R) : outcome (dataset * dataset) :=
  create_memmap_datasets n batch (match train_size with Some x => x | None => default_train_size end)
    (match val_size with Some x => x | None => default_val_size end).

(** *** predict.py:329-358 AutoDJINN.__init__ *)
Definition lower_char (c : ascii) : ascii :=
  let n := nat_of_ascii c in if Nat.leb 65 n && Nat.leb n 90 then ascii_of_nat (n + 32) else c.
Fixpoint lower (s : string) : string := match s with EmptyString => EmptyString | String c r => String (lower_char c) (lower r) end.
(** [keras], [torch_load], [djinn_load]: loading a model file, or the exception raised; the libraries that are
    installed.  ImportError is RuntimeError here (it is not in [exn]). *)
Record libraries (M : Type) := mkLibs { keras : option (string -> outcome M); torch_load : option (string -> outcome M); djinn_load : string -> outcome M }.
Arguments keras {M}. Arguments torch_load {M}. Arguments djinn_load {M}.
Definition auto_init {M} (libs : libraries M) (file_encoder file_djinn file_decoder backend : string) : outcome (string * M * M * M) :=
  let b := lower backend in
  if negb (String.eqb b "tensorflow" || String.eqb b "torch") then Raise ValueError
  else
    match (if String.eqb b "tensorflow" then keras libs else torch_load libs) with
    | None => Raise RuntimeError
    | Some load =>
        bind (load file_encoder) (fun enc => bind (load file_decoder) (fun dec =>
        bind (djinn_load libs file_djinn) (fun mid => Ok (b, enc, mid, dec))))
    end.

(** *** train.py:764-786: saving and loading a trained model *)
Section Saving.
Context {W : Type}.
Inductive saved_file := Weights (w : W) | Losses (m : metrics).
Definition disk := string -> option saved_file.
Definition put (d : disk) (name : string) (c : saved_file) : disk := fun s => if String.eqb s name then Some c else d s.
(** [metric_data]: the attribute set by a completed training; without it the second statement fails. *)
Definition save_model (model_name : string) (w : W) (metric_data : option metrics) (d : disk) : outcome unit * disk :=
  let d1 := put d (model_name ++ ".pt") (Weights w) in
  match metric_data with
  | None => (Raise AttributeError, d1)
  | Some m => (Ok tt, put d1 (model_name ++ "-loss-metrics.npz") (Losses m))
  end.
Definition load_model (model_name : string) (d : disk) : outcome W :=
  match d (model_name ++ ".pt") with
  | Some (Weights w) => Ok w
  | Some (Losses _) => Raise ValueError
  | None => Raise FileNotFound
  end.
Fixpoint save_all (calls : list (string * W * option metrics)) (d : disk) : disk :=
  match calls with
  | [] => d
  | (name, w, m) :: rest => save_all rest (snd (save_model name w m d))
  end.
End Saving.
Arguments saved_file : clear implicits. Arguments disk : clear implicits.
