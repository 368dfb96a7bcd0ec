(** Model of the training harness discrete1/ml/train.py:501-821 and of the networks that
    discrete1/ml/tune.py builds.  Definitions only.

    The network, the optimizer and the loss are not modelled: [one_epoch] is any function that turns the
    weights and the optimizer/scheduler state into new ones and yields the two losses of the epoch (the random
    state is part of the optimizer state); [evaluate] is the test loss of given weights (the data sets are not
    empty: see [val_batch] for that case).  The interruption by break_loop is the event [stopped]; see SigModel
    for when it is set. *)
From Coq Require Import Reals List Bool.
From Verif Require Import Base.
Local Open Scope nat_scope.

(** A float. *)
Inductive loss := Finite (x : R) | PlusInf | MinusInf | NotANumber.
(** Python's [a < b] *)
Definition loss_lt (a b : loss) : bool :=
  match a, b with
  | Finite x, Finite y => if Rlt_dec x y then true else false
  | Finite _, PlusInf | MinusInf, Finite _ | MinusInf, PlusInf => true
  | _, _ => false
  end.

Section Training.
Context {W Opt : Type}.
Variables (one_epoch : nat -> W -> Opt -> W * Opt * loss * loss) (evaluate : W -> loss).

(** The local variables of train / continue_training.  [last]: the loop variable epoch, if bound. *)
Record loop_state := mkLoop {
  weights : W; optimizer : Opt; best_val : loss; best_weights : option W;
  train_history : list loss; val_history : list loss; last : option nat }.
(** One pass of the loop (lines 636-643, 737-744). *)
Definition epoch_body (epoch : nat) (s : loop_state) : loop_state :=
  match one_epoch epoch (weights s) (optimizer s) with
  | (w, o, train_loss, val_loss) =>
      let better := loss_lt val_loss (best_val s) in
      mkLoop w o (if better then val_loss else best_val s) (if better then Some w else best_weights s)
        (train_history s ++ [train_loss]) (val_history s ++ [val_loss]) (Some epoch)
  end.
(** [for epoch in grange(..., stop_event)]: [stopped k]: the event is set when the k-th value is asked for. *)
Fixpoint epoch_loop (stopped : nat -> bool) (values : list nat) (s : loop_state) : loop_state :=
  match values with
  | [] => s
  | k :: rest => if stopped k then s else epoch_loop stopped rest (epoch_body k s)
  end.

(** The checkpoint file (train.py:677-684); the scheduler state is part of the optimizer state here. *)
Record checkpoint := mkCheckpoint { ck_epoch : nat; ck_model : W; ck_optimizer : Opt; ck_best : loss }.
Record metrics := mkMetrics { train_losses : list loss; val_losses : list loss; test_loss : loss }.
(** What a call leaves behind: its outcome (the value stored in metric_data, or the exception), the model's
    weights, and the checkpoint file written, if any. *)
Record left_behind := mkLeft { result : outcome metrics; model : W; saved : option checkpoint }.

(** train.py:645-662, 746-762: after the loop.  load_state_dict(None) raises TypeError. *)
Definition finish (ckpt : bool) (s : loop_state) : left_behind :=
  let test := evaluate (weights s) in
  match best_weights s with
  | None => mkLeft (Raise TypeError) (weights s) None
  | Some b =>
      let data := mkMetrics (train_history s) (val_history s) test in
      if ckpt then
        match last s with
        | None => mkLeft (Raise UnboundLocalError) b None
        | Some epoch => mkLeft (Ok data) b (Some (mkCheckpoint (epoch + 1) b (optimizer s) (best_val s)))
        end
      else mkLeft (Ok data) b None
  end.
(** train.py:614-662 *)
Definition train (n_epochs : nat) (stopped : nat -> bool) (ckpt : bool) (w : W) (o : Opt) : left_behind :=
  finish ckpt (epoch_loop stopped (seq 0 n_epochs) (mkLoop w o PlusInf None [] [] None)).
(** train.py:713-762: resume from a checkpoint (always saved again: ckpt_name is not None).  The second
    component is the attribute n_epochs after the call (self.n_epochs += epoch_start, line 730). *)
Definition continue_training (n_epochs : nat) (stopped : nat -> bool) (c : checkpoint) : left_behind * nat :=
  let total := n_epochs + ck_epoch c in
  (finish true (epoch_loop stopped (seq (ck_epoch c) (total - ck_epoch c))
    (mkLoop (ck_model c) (ck_optimizer c) (ck_best c) None [] [] None)), total).
End Training.
Arguments mkCheckpoint {W Opt}. Arguments mkLeft {W Opt}. Arguments left_behind : clear implicits. Arguments checkpoint : clear implicits.
Arguments ck_epoch {W Opt}. Arguments ck_model {W Opt}. Arguments ck_optimizer {W Opt}. Arguments ck_best {W Opt}.
Arguments result {W Opt}. Arguments model {W Opt}. Arguments saved {W Opt}.

(** *** batches *)
(** A DataLoader without shuffling: consecutive batches of [size], the last one possibly shorter
    (batch_size 0 is rejected by torch). *)
Fixpoint batches_of {A} (fuel size : nat) (data : list A) : list (list A) :=
  match fuel, data with
  | O, _ | _, [] => []
  | S f, _ => firstn size data :: batches_of f size (skipn size data)
  end.
Definition data_loader {A} (size : nat) (data : list A) : outcome (list (list A)) :=
  if Nat.eqb size 0 then Raise ValueError else Ok (batches_of (length data) size data).

(** Sum of a list; mean of a batch (the default reduction of torch's losses). *)
Definition lsum (l : list R) : R := fold_right Rplus 0%R l.
Definition lmean (l : list R) : R := (lsum l / INR (length l))%R.
(** train.py:553-573 _val_batch (and tune.py:631-644 _validate): [losses] are the losses of the single
    samples, the loss function returns the mean over a batch. *)
Definition val_batch (size : nat) (losses : list R) : outcome R :=
  bind (data_loader size losses) (fun bs =>
    if Nat.eqb (length losses) 0 then Raise ZeroDivisionError
    else Ok (fold_left (fun acc b => acc + lmean b * INR (length b)) bs 0 / INR (length losses))%R).
(** The same over a memmap dataset: every item is a batch already, the loader hands out one item at a time
    (flux_batch.size(0) = 1) and len(dataset) counts items. *)
Definition val_batch_memmap (items : list (list R)) : outcome R :=
  if Nat.eqb (length items) 0 then Raise ZeroDivisionError
  else Ok (fold_left (fun acc b => acc + lmean b * 1) items 0 / INR (length items))%R.

(** train.py:788-821 predict: [forward] is the network on a batch; np.vstack([]) raises ValueError. *)
Definition predict {A B} (forward : list A -> list B) (size : nat) (rows : list A) : outcome (list B) :=
  bind (data_loader size rows) (fun bs =>
    match bs with [] => Raise ValueError | _ => Ok (concat (map forward bs)) end).

(** *** tune.py:327-375, 403-449: the layers of a subnetwork *)
Inductive layer := Linear (inputs outputs : nat) | Activation | Dropout.
(** [nodes]: the sizes chosen for the layers; [dropout i]: whether layer i gets a dropout layer. *)
Fixpoint hidden_layers (in_dim : nat) (nodes : list nat) (dropout : nat -> bool) (i : nat) : list layer * nat :=
  match nodes with
  | [] => ([], in_dim)
  | out_dim :: rest =>
      let (layers, final) := hidden_layers out_dim rest dropout (S i) in
      (Linear in_dim out_dim :: Activation :: (if dropout i then [Dropout] else []) ++ layers, final)
  end.
Definition subnetwork (in_dim onet_out_dim : nat) (nodes : list nat) (dropout : nat -> bool) : list layer :=
  let (layers, final) := hidden_layers in_dim nodes dropout 0 in layers ++ [Linear final onet_out_dim].
(** The prebuilt variant reads nodes[i] for i < num_layers. *)
Definition prebuilt_nodes (num_layers : nat) (nodes : list nat) : outcome (list nat) :=
  if Nat.leb num_layers (length nodes) then Ok (firstn num_layers nodes) else Raise IndexError.
(** tune.py:755-789 DeepONet: the elementwise product of two latent vectors through a linear map. *)
Definition deeponet_forward (latent : nat) (fc : nat -> nat -> R) (trunk branch : nat -> R) : nat -> R :=
  fun out => rsum latent (fun k => fc out k * (trunk k * branch k))%R.

(** *** tune.py:646-699 RegressionDeepONet.objective, from the training loop on *)
(** [TrialPruned] is not in [exn]: the three ways to end are listed here. *)
Inductive trial_end := Value (metric : R) | Pruned | Failed (e : exn).
(** [metric k]: the validation loss of epoch k; [should_prune k]: optuna's answer after the report of epoch k.
    Result: the reports made, in order, and the end of the trial; [previous]: the variable metric, if bound. *)
Fixpoint objective_loop (metric : nat -> R) (should_prune : nat -> bool) (epochs : list nat)
    (reports : list (R * nat)) (previous : option R) : list (R * nat) * trial_end :=
  match epochs with
  | [] => (reports, match previous with Some m => Value m | None => Failed UnboundLocalError end)
  | k :: rest =>
      if should_prune k then (reports ++ [(metric k, k)], Pruned)
      else objective_loop metric should_prune rest (reports ++ [(metric k, k)]) (Some (metric k))
  end.
Definition objective (metric : nat -> R) (should_prune : nat -> bool) (n_epochs : nat) :=
  objective_loop metric should_prune (seq 0 n_epochs) [] None.
