(** Specification vocabulary for the tuner, the memmap files, AutoDJINN's constructor and saved models,
    independent of the model's code. *)
From Coq Require Import Reals ZArith List Bool String Ascii.
From Verif Require Import Base MlfModel MltModel MltSpec TunModel.
Local Open Scope string_scope.
Local Open Scope nat_scope.

(** *** file names *)
Definition occurs (word s : string) : Prop := exists a b, s = a ++ word ++ b.
(** [p] is [f] with every "memmap", read from the left, replaced by "pickle". *)
Inductive metadata_name : string -> string -> Prop :=
| name_end : metadata_name "" ""
| name_word r r' : metadata_name r r' -> metadata_name ("memmap" ++ r) ("pickle" ++ r')
| name_char c r r' : (forall b, String c r <> "memmap" ++ b) -> metadata_name r r' -> metadata_name (String c r) (String c r').
(** The two files of the data set [g] are not among those of [f]. *)
Definition separate (f g : string) : Prop :=
  forall pf pg, metadata_name f pf -> metadata_name g pg -> g <> f /\ g <> pf /\ pg <> f /\ pg <> pf.

(** *** a study *)
Definition pressed (sched : nat -> bool) (from to : nat) : Prop := exists u, from <= u < to /\ sched u = true.
(** The instant at which the study asks whether to start the i-th trial, if the first question is at [start]. *)
Fixpoint asks (lengths : nat -> nat) (start i : nat) : nat :=
  match i with O => start | S k => asks lengths start k + 1 + lengths k end.
Section Study.
Context {P : Type}.
(** The record of a trial: its parameters and COMPLETE with the value, PRUNED, or FAIL (an exception or NaN). *)
Definition recorded (objective_of : nat -> trial_run P) (nan : nat -> bool) (i : nat) (r : P * trial_state) : Prop :=
  fst r = drawn (objective_of i) /\
  match ends (objective_of i) with
  | Value v => if nan i then snd r = WasFailed else snd r = Complete (Finite v)
  | Pruned => snd r = WasPruned
  | Failed _ => snd r = WasFailed
  end.
Definition records (objective_of : nat -> trial_run P) (nan : nat -> bool) (l : list (P * trial_state)) : Prop :=
  forall i, i < List.length l -> exists r, nth_error l i = Some r /\ recorded objective_of nan i r.
Definition raises (objective_of : nat -> trial_run P) (i : nat) (e : exn) : Prop := ends (objective_of i) = Failed e.
Definition completes (l : list (P * trial_state)) (p : P) (v : loss) : Prop := In (p, Complete v) l.
Definition no_nan (l : list (P * trial_state)) : Prop := forall p, ~ completes l p NotANumber.
(** Nothing completed is better. *)
Definition best_in (d : direction) (l : list (P * trial_state)) (p : P) : Prop :=
  exists v, completes l p v /\ forall p' v', completes l p' v' ->
    match d with Minimize => loss_lt v' v = false | Maximize => loss_lt v v' = false end.
(** What run answers. *)
Definition answers (d : direction) (l : list (P * trial_state)) (r : outcome P) : Prop :=
  (exists p, r = Ok p /\ best_in d l p) \/ ((forall p v, ~ completes l p v) /\ r = Raise ValueError).
(** A study of that name in the database: its direction and its trials count. *)
Definition direction_used (stored : option (direction * list (P * trial_state))) (asked : direction) : direction :=
  match stored with Some (d, _) => d | None => asked end.
Definition trials_before (stored : option (direction * list (P * trial_state))) : list (P * trial_state) :=
  match stored with Some (_, l) => l | None => [] end.
End Study.

(** *** search spaces *)
Definition scheduler_off (sp : search_space) : Prop := forall m, In m (sched_mode sp) -> m = None.
Definition scheduler_on (sp : search_space) : Prop :=
  (forall m, In m (sched_mode sp) -> m = Some "min" \/ m = Some "max") /\
  (fst (sched_factor sp) <= snd (sched_factor sp) < 1)%R /\
  fst (sched_patience sp) <= snd (sched_patience sp) /\ fst (sched_cooldown sp) <= snd (sched_cooldown sp).
(** Everything but the scheduler is usable. *)
Definition usable (t : torch_names) (sp : search_space) : Prop :=
  1 <= max_b_layers sp /\ 1 <= max_t_layers sp /\ nodes sp <> [] /\ TunModel.activations sp <> [] /\ dropout sp <> [] /\
  n_epochs sp <> [] /\ batch_sizes sp <> [] /\ optimizers sp <> [] /\ learning_rate sp <> [] /\ weight_decay sp <> [] /\
  sched_mode sp <> [] /\ loss_functions sp <> [] /\
  (forall a, In a (TunModel.activations sp) -> in_nn t a = true) /\ (forall p, In p (dropout sp) -> (p <= 1)%R) /\
  (forall a, In a (optimizers sp) -> in_optim t a = true) /\ (forall x, In x (learning_rate sp) -> (0 <= x)%R) /\
  (forall x, In x (weight_decay sp) -> (0 <= x)%R) /\ (forall a, In a (loss_functions sp) -> in_nn t a = true).
(** A configuration made of values of the search space, whose networks fit together. *)
Definition from_space (sp : search_space) (flux_size labels_size : nat) (c : config) : Prop :=
  chain flux_size (latent c) (branch_net c) /\ chain labels_size (latent c) (trunk_net c) /\ In (latent c) (nodes sp) /\
  1 <= MltSpec.activations (branch_net c) <= max_b_layers sp /\ 1 <= MltSpec.activations (trunk_net c) <= max_t_layers sp /\
  (forall n, In n (removelast (linear_outputs (branch_net c)) ++ removelast (linear_outputs (trunk_net c)))%list -> In n (nodes sp)) /\
  In (optimizer_name c) (optimizers sp) /\ In (rate c) (learning_rate sp) /\ In (decay c) (weight_decay sp) /\
  In (loss_name c) (loss_functions sp) /\ In (epochs c) (n_epochs sp) /\ In (batch c) (batch_sizes sp) /\
  match scheduler c with
  | None => In None (sched_mode sp)
  | Some q => In (Some (mode q)) (sched_mode sp) /\ (fst (sched_factor sp) <= factor q <= snd (sched_factor sp))%R /\
              fst (sched_patience sp) <= patience q <= snd (sched_patience sp) /\
              fst (sched_cooldown sp) <= cooldown q <= snd (sched_cooldown sp)
  end.
Definition with_modes (sp : search_space) (modes : list (option string)) : search_space :=
  mkSpace (max_b_layers sp) (max_t_layers sp) (nodes sp) (TunModel.activations sp) (dropout sp) (n_epochs sp) (batch_sizes sp)
    (optimizers sp) (learning_rate sp) (weight_decay sp) modes (sched_factor sp) (sched_patience sp) (sched_cooldown sp) (loss_functions sp).

(** *** letters without regard to case *)
Definition same_letter (c d : ascii) : Prop :=
  c = d \/ (65 <= nat_of_ascii c <= 90 /\ nat_of_ascii d = nat_of_ascii c + 32).
Inductive spelled : string -> string -> Prop :=
| spelled_end : spelled "" ""
| spelled_char c d s s' : same_letter c d -> spelled s s' -> spelled (String c s) (String d s').

(** *** saved models *)
(** The last call for [name] in a history saved the weights [w]. *)
Definition last_saved {W : Type} (calls : list (string * W * option metrics)) (name : string) (w : W) : Prop :=
  exists before m after, calls = (before ++ (name, w, m) :: after)%list /\ forall n w' m', In (n, w', m') after -> n <> name.
