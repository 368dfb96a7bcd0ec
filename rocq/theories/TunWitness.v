(** Concrete cases that meet the hypotheses of the theorems in TunProps. *)
From Coq Require Import Reals ZArith Lia Lra List Bool String.
From Verif Require Import Base MlfModel MltModel MltSpec TunModel TunSpec TunFacts TunFacts2 TunFacts3 TunFacts4 TunFacts5 TunFacts6.
Local Open Scope string_scope.
Local Open Scope nat_scope.

(** Two samples, widths 3, 1 and 2. *)
Definition two_samples : data_set := mkData 2 3 1 2 (fun i => [INR i; 0; 1]%R) (fun i => [INR i]%R) (fun i => [1; INR i]%R).
Definition keep_order (q : R) (l : list nat) : list nat * list nat := (l, []).
Definition no_files : files := fun _ => None.
Lemma files_demo : occurs "memmap" "runs/u235.memmap" /\ pickle_file "runs/u235.memmap" = "runs/u235.pickle" /\ dirname "runs/u235.memmap" = "runs" /\
  dirname (pickle_file "memmap/u235.memmap") = "pickle" /\ separate "runs/u235.memmap" "runs/pu239.memmap" /\
  load_metadata "runs/u235.memmap" (write_all (String.eqb "runs") keep_order (fun l => l) [("runs/u235.memmap", two_samples); ("runs/pu239.memmap", mkData 7 1 1 1 (fun _ => []) (fun _ => []) (fun _ => []))] no_files) = Ok (2, 3, 1, 2).
Proof.
  split; [exists "runs/u235.", ""; reflexivity|]. do 3 (split; [vm_compute; reflexivity|]). split.
  - intros pf pg H1 H2. apply pickle_name_sound in H1, H2. vm_compute in H1, H2. subst. repeat split; discriminate.
  - vm_compute. reflexivity.
Qed.

(** Three trials of two instants each; the first completes, the second is pruned. *)
Definition small_objective (i : nat) : trial_run nat := mkRun i 2 (match i with 0 => Value 5%R | _ => Pruned end).
Definition fresh_world : tune_world nat := mkTune 0 (Before true) 0 None false [] None.
(** Ctrl+C during the second trial (instants 6 to 8). *)
Lemma study_demo : ~ pressed (fun u => Nat.eqb u 7) (now fresh_world) (now fresh_world + 3) /\ no_nan (trials_before (P := nat) None) /\
  asks (fun m => takes (small_objective m)) 3 2 = 9 /\
  exists w', run_study (fun u => Nat.eqb u 7) None Minimize 3 small_objective (fun _ => false) fresh_world = (Ok 0, w') /\
    csv w' = Some [(0, Complete (Finite 5%R)); (1, WasPruned)] /\ handling w' = Stops 0.
Proof.
  split; [intros (u & H & E); cbn in H; apply Nat.eqb_eq in E; lia|]. split; [intros p []|]. split; [reflexivity|].
  eexists. split; [cbv -[Rlt_dec]; reflexivity|]. split; reflexivity.
Qed.
Lemma early_demo : ~ pressed (fun u => Nat.eqb u 2) 0 2 /\ (fun u => Nat.eqb u 2) (0 + 2) = true.
Proof. split; [intros (u & H & E); cbn in H; apply Nat.eqb_eq in E; lia|reflexivity]. Qed.

(** The names of the defaults. *)
Definition usual_torch : torch_names :=
  mkTorch (fun s => existsb (String.eqb s) ["ReLU"; "GELU"; "Tanh"; "MSELoss"; "L1Loss"; "SmoothL1Loss"]) (fun s => existsb (String.eqb s) ["Adam"; "SGD"]).
(** A usable space with the scheduler switched on. *)
Definition scheduled_space : search_space := mkSpace 2 1 [4; 8] ["ReLU"] [0; 1/2]%R [1] [2] ["SGD"] [1/10]%R [0]%R [Some "min"; Some "max"] (1/10, 1/2)%R (1, 3) (0, 2) ["MSELoss"].
Lemma space_demo : usable usual_torch default_space /\ scheduler_off default_space /\ usable usual_torch scheduled_space /\ scheduler_on scheduled_space /\
  usable usual_torch (with_modes scheduled_space [None; Some "min"]).
Proof.
  assert (D : usable usual_torch default_space /\ scheduler_off default_space).
  { apply defaults_usable; intros a H; cbn in H; repeat (destruct H as [<- |H]; [reflexivity|]); destruct H. }
  destruct D as (D1 & D2). split; [exact D1|]. split; [exact D2|].
  assert (U : forall modes, modes <> [] -> usable usual_torch (with_modes scheduled_space modes)).
  { intros modes N. unfold usable, with_modes, scheduled_space; cbn [max_b_layers max_t_layers nodes TunModel.activations dropout n_epochs batch_sizes optimizers learning_rate weight_decay sched_mode loss_functions].
    do 2 (split; [lia|]). do 8 (split; [discriminate|]). split; [exact N|]. split; [discriminate|].
    split; [intros a H; cbn in H; repeat (destruct H as [<- |H]; [reflexivity|]); destruct H|]. split; [intros p H; cbn in H; destruct H as [<- |[<- |[]]]; lra|].
    split; [intros a H; cbn in H; repeat (destruct H as [<- |H]; [reflexivity|]); destruct H|]. split; [intros p H; cbn in H; destruct H as [<- |[]]; lra|].
    split; [intros p H; cbn in H; destruct H as [<- |[]]; lra|]. intros a H; cbn in H; repeat (destruct H as [<- |H]; [reflexivity|]); destruct H. }
  split; [exact (U [Some "min"; Some "max"] ltac:(discriminate))|]. split; [|apply U; discriminate].
  split; [intros m H; cbn in H; destruct H as [<- |[<- |[]]]; auto|]. cbn. repeat split; try lra; lia.
Qed.
Definition small_prebuilt : prebuilt := mkPrebuilt 2 [16; 8] 1 [4] 5.
Lemma prebuilt_demo : pre_b_layers small_prebuilt <= List.length (pre_b_nodes small_prebuilt) /\ pre_t_layers small_prebuilt <= List.length (pre_t_nodes small_prebuilt).
Proof. cbn. lia. Qed.

Lemma options_demo : unexpected train_kwargs ["lr"; "epochs"; "device"] = ["epochs"] /\ ~ In "trials" run_kwargs.
Proof. split; [reflexivity|]. cbn. intuition discriminate. Qed.
Lemma spelling_demo : spelled "TORCH" "torch" /\ spelled "TensorFlow" "tensorflow" /\ ~ spelled "jax" "torch".
Proof.
  split; [apply lower_iff; reflexivity|]. split; [apply lower_iff; reflexivity|]. intros H. apply lower_iff in H; [discriminate|reflexivity].
Qed.
Lemma saving_demo : last_saved [("a", 1, None); ("b", 2, None); ("a", 3, Some (mkMetrics [] [] PlusInf)); ("b", 4, None)] "a" 3.
Proof. exists [("a", 1, None); ("b", 2, None)], (Some (mkMetrics [] [] PlusInf)), [("b", 4, None)]. split; [reflexivity|]. intros n w m [H|[]]. injection H as <- _ _. discriminate. Qed.
