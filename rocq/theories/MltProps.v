(** C68, C100-C103: training, validation, prediction, tuning. *)
From Coq Require Import Reals Lra Lia List Bool.
From Verif Require Import Base MltModel MltSpec MltFacts MltFacts2 MltWitness.
Local Open Scope nat_scope.

(** ** C68 train, continue_training *)
Theorem C68_train_partial :
  forall (W Opt : Type) (one_epoch : nat -> W -> Opt -> W * Opt * loss * loss)
      (evaluate : W -> loss) (n : nat) (stopped : nat -> bool) (ckpt : bool) (w : W) 
      (o : Opt),
    let r := train one_epoch evaluate n stopped ckpt w o in
    let val := val_loss_of one_epoch 0 w o in
    let after := after one_epoch 0 w o in
    exists j : nat,
      epochs_run stopped 0 n j /\
      (no_improvement PlusInf val j /\
       result r = Raise TypeError /\ model r = fst (after j) /\ saved r = None \/
       (exists k : nat,
          best_epoch PlusInf val j k /\
          model r = fst (after (S k)) /\
          result r =
          Ok
            {|
              train_losses := map (train_loss_of one_epoch 0 w o) (seq 0 j);
              val_losses := map val (seq 0 j);
              test_loss := evaluate (fst (after j))
            |} /\
          saved r =
          (if ckpt
           then
            Some
              {|
                ck_epoch := j;
                ck_model := fst (after (S k));
                ck_optimizer := snd (after j);
                ck_best := val k
              |}
           else None))).
Proof. exact train_leaves. Qed.
Print Assumptions C68_train_partial.
Theorem C68_continue_partial :
  forall (W Opt : Type) (one_epoch : nat -> W -> Opt -> W * Opt * loss * loss)
      (evaluate : W -> loss) (n : nat) (stopped : nat -> bool) (c : checkpoint W Opt),
    let r := fst (continue_training one_epoch evaluate n stopped c) in
    let val := val_loss_of one_epoch (ck_epoch c) (ck_model c) (ck_optimizer c) in
    let after := after one_epoch (ck_epoch c) (ck_model c) (ck_optimizer c) in
    exists j : nat,
      epochs_run stopped (ck_epoch c) n j /\
      (no_improvement (ck_best c) val j /\
       result r = Raise TypeError /\ model r = fst (after j) /\ saved r = None \/
       (exists k : nat,
          best_epoch (ck_best c) val j k /\
          model r = fst (after (S k)) /\
          result r =
          Ok
            {|
              train_losses :=
                map (train_loss_of one_epoch (ck_epoch c) (ck_model c) (ck_optimizer c)) (seq 0 j);
              val_losses := map val (seq 0 j);
              test_loss := evaluate (fst (after j))
            |} /\
          saved r =
          Some
            {|
              ck_epoch := ck_epoch c + j;
              ck_model := fst (after (S k));
              ck_optimizer := snd (after j);
              ck_best := val k
            |})).
Proof. exact continue_leaves. Qed.
Print Assumptions C68_continue_partial.
Theorem C68_train_finite : forall (W Opt : Type) (one_epoch : nat -> W -> Opt -> W * Opt * loss * loss) (evaluate : W -> loss)
    (n : nat) (stopped : nat -> bool) (ckpt : bool) (w : W) (o : Opt) (v : nat -> R),
  (forall i, val_loss_of one_epoch 0 w o i = Finite (v i)) -> n <> 0 -> stopped 0 = false ->
  exists j k, epochs_run stopped 0 n j /\ k < j /\ (forall i, i < j -> (v k <= v i)%R) /\ (forall i, i < k -> (v k < v i)%R) /\
    model (train one_epoch evaluate n stopped ckpt w o) = fst (MltSpec.after one_epoch 0 w o (S k)) /\
    is_ok (result (train one_epoch evaluate n stopped ckpt w o)) = true.
Proof. exact train_finite. Qed.
Print Assumptions C68_train_finite.
Theorem C68_zero_epochs_refuted :
  forall (W Opt : Type) (one_epoch : nat -> W -> Opt -> W * Opt * loss * loss) (evaluate : W -> loss) stopped ckpt w o,
  result (train one_epoch evaluate 0 stopped ckpt w o) = Raise TypeError.
Proof. exact train_zero_epochs. Qed.
Print Assumptions C68_zero_epochs_refuted.
Theorem C68_interrupted_at_once_refuted :
  forall (W Opt : Type) (one_epoch : nat -> W -> Opt -> W * Opt * loss * loss) (evaluate : W -> loss) n stopped ckpt w o,
  stopped 0 = true -> result (train one_epoch evaluate n stopped ckpt w o) = Raise TypeError.
Proof. exact train_interrupted_at_once. Qed.
Print Assumptions C68_interrupted_at_once_refuted.
Theorem C68_nan_refuted :
  forall n ckpt w, result (train (counting (fun _ => NotANumber)) (fun _ => NotANumber) n never ckpt w tt) = Raise TypeError /\
  model (train (counting (fun _ => NotANumber)) (fun _ => NotANumber) n never ckpt w tt) = w + n.
Proof. exact train_nan. Qed.
Print Assumptions C68_nan_refuted.
Theorem C68_test_loss_refuted :
  exists (val evaluate : nat -> loss) n r, train (counting val) evaluate n never false 0 tt = r /\
  exists m, result r = Ok m /\ test_loss m = Finite 2 /\ evaluate (model r) = Finite 1.
Proof. exact test_loss_of_last_weights. Qed.
Print Assumptions C68_test_loss_refuted.
Theorem C68_no_improvement_refuted :
  forall (W Opt : Type) (one_epoch : nat -> W -> Opt -> W * Opt * loss * loss) (evaluate : W -> loss) n stopped c,
  no_improvement (ck_best c) (val_loss_of one_epoch (ck_epoch c) (ck_model c) (ck_optimizer c)) n ->
  result (fst (continue_training one_epoch evaluate n stopped c)) = Raise TypeError /\ saved (fst (continue_training one_epoch evaluate n stopped c)) = None.
Proof. exact continue_no_improvement. Qed.
Print Assumptions C68_no_improvement_refuted.
Theorem C68_resume_refuted :
  exists c, saved (train (counting up_then_down) up_then_down 2 never true 0 tt) = Some c /\
  result (fst (continue_training (counting up_then_down) up_then_down 1 never c)) = Raise TypeError /\
  model (train (counting up_then_down) up_then_down 3 never true 0 tt) = 3 /\ is_ok (result (train (counting up_then_down) up_then_down 3 never true 0 tt)) = true.
Proof. exact resume_differs. Qed.
Print Assumptions C68_resume_refuted.
Theorem C68_resume_twice_refuted :
  exists (val : nat -> loss) c1 c2,
  saved (train (counting val) val 1 never true 0 tt) = Some c1 /\
  (let r := continue_training (counting val) val 1 never c1 in saved (fst r) = Some c2 /\
   ck_epoch c1 = 1 /\ ck_epoch c2 = 2 /\
   exists c3, saved (fst (continue_training (counting val) val (snd r) never c2)) = Some c3 /\ ck_epoch c3 = 4).
Proof. exact continue_twice. Qed.
Print Assumptions C68_resume_twice_refuted.
Example C68_case : let r := train (counting bumpy) bumpy 10 (Nat.eqb 3) true 0 tt in
  model r = 2 /\ saved r = Some (mkCheckpoint 3 2 tt (Finite 1)) /\
  result r = Ok (mkMetrics [Finite 0; Finite 0; Finite 0] [Finite 3; Finite 1; Finite 2] (Finite 2)).
Proof. exact train_demo. Qed.

(** ** C100 validation loss *)
Theorem C100_mean :
  forall (size : nat) (losses : list R),
  size <> 0 -> losses <> [] -> val_batch size losses = Ok (lmean losses).
Proof. exact validation_mean. Qed.
Print Assumptions C100_mean.
Theorem C100_memmap_mean :
  forall (size : nat) (items : list (list R)),
  size <> 0 -> items <> [] -> Forall (fun b => length b = size) items ->
  val_batch_memmap items = Ok (lmean (concat items)).
Proof. exact validation_memmap. Qed.
Print Assumptions C100_memmap_mean.
Theorem C100_empty :
  forall (size : nat),
  size <> 0 -> val_batch size [] = Raise ZeroDivisionError.
Proof. exact validation_empty. Qed.
Print Assumptions C100_empty.
Theorem C100_size_zero :
  forall (losses : list R),
  val_batch 0 losses = Raise ValueError.
Proof. exact validation_size_zero. Qed.
Print Assumptions C100_size_zero.
Example C100_case : (exists size losses, size <> 0 /\ losses <> [] /\ val_batch size losses = Ok 4%R) /\
  exists size items, size <> 0 /\ items <> [] /\ Forall (fun b : list R => length b = size) items /\ val_batch_memmap items = Ok 3%R.
Proof.
  destruct batch_demo as (A & _ & B). split.
  - exists 2, [1; 2; 3; 4; 10]%R. split; [lia|split; [discriminate|exact A]].
  - exists 2, [[1; 2]; [3; 6]]%R. split; [lia|split; [discriminate|split; [repeat constructor|exact B]]].
Qed.

(** ** C101 predict *)
Theorem C101_batches :
  forall (A : Type) (size : nat) (data : list A),
  size <> 0 -> exists bs, data_loader size data = Ok bs /\ concat bs = data /\
  Forall (fun b => b <> [] /\ length b <= size) bs /\ (forall i, S i < length bs -> length (nth i bs []) = size).
Proof. exact loader_batches. Qed.
Print Assumptions C101_batches.
Theorem C101_predict :
  forall (A B : Type) (forward : list A -> list B) (f : A -> B) (size : nat) (rows : list A),
  row_wise forward f -> size <> 0 -> rows <> [] -> predict forward size rows = Ok (map f rows).
Proof. exact predict_rows. Qed.
Print Assumptions C101_predict.
Theorem C101_fails :
  forall (A B : Type) (forward : list A -> list B) (size : nat) (rows : list A),
  (size = 0 \/ rows = []) -> predict forward size rows = Raise ValueError.
Proof. exact predict_fails. Qed.
Print Assumptions C101_fails.
Example C101_case : val_batch 2 [1; 2; 3; 4; 10]%R = Ok 4%R /\ predict (map S) 2 [1; 2; 3; 4; 10] = Ok [2; 3; 4; 5; 11] /\
  val_batch_memmap [[1; 2]; [3; 6]]%R = Ok 3%R.
Proof. exact batch_demo. Qed.

(** ** C102 networks *)
Theorem C102_layers_fit :
  forall (in_dim out_dim : nat) (nodes : list nat) (dropout : nat -> bool),
  let layers := subnetwork in_dim out_dim nodes dropout in
  chain in_dim out_dim layers /\ linear_outputs layers = nodes ++ [out_dim] /\
  activations layers = length nodes /\ dropouts layers = length (filter dropout (seq 0 (length nodes))).
Proof. exact subnetwork_fits. Qed.
Print Assumptions C102_layers_fit.
Theorem C102_prebuilt :
  forall (n : nat) (nodes : list nat),
  (n <= length nodes -> exists chosen, prebuilt_nodes n nodes = Ok chosen /\ length chosen = n /\ forall i, i < n -> nth i chosen 0 = nth i nodes 0) /\
  (length nodes < n -> prebuilt_nodes n nodes = Raise IndexError).
Proof. exact prebuilt_spec. Qed.
Print Assumptions C102_prebuilt.
Theorem C102_bilinear :
  forall (latent : nat) (fc : nat -> nat -> R) (a b : R) (t t' u u' : nat -> R) (out : nat),
  (deeponet_forward latent fc (fun k => a * t k + b * t' k) u out = a * deeponet_forward latent fc t u out + b * deeponet_forward latent fc t' u out /\
   deeponet_forward latent fc t (fun k => a * u k + b * u' k) out = a * deeponet_forward latent fc t u out + b * deeponet_forward latent fc t u' out /\
   deeponet_forward latent fc t u out = deeponet_forward latent fc u t out)%R.
Proof. exact deeponet_bilinear. Qed.
Print Assumptions C102_bilinear.
Example C102_case : subnetwork 8 16 [64; 128] (Nat.eqb 1) = [Linear 8 64; Activation; Linear 64 128; Activation; Dropout; Linear 128 16].
Proof. exact layers_demo. Qed.

(** ** C103 the tuner's objective *)
Theorem C103_objective :
  forall (metric : nat -> R) (should_prune : nat -> bool) (n : nat),
  n <> 0 ->
  ((forall i, i < n -> should_prune i = false) /\ objective metric should_prune n = (map (fun i => (metric i, i)) (seq 0 n), Value (metric (n - 1)))) \/
  (exists k, k < n /\ (forall i, i < k -> should_prune i = false) /\ should_prune k = true /\
     objective metric should_prune n = (map (fun i => (metric i, i)) (seq 0 (S k)), Pruned)).
Proof. exact objective_spec. Qed.
Print Assumptions C103_objective.
Theorem C103_zero_epochs_refuted :
  forall (metric : nat -> R) (should_prune : nat -> bool),
  objective metric should_prune 0 = ([], Failed UnboundLocalError).
Proof. exact objective_zero. Qed.
Print Assumptions C103_zero_epochs_refuted.
Example C103_case : objective INR (Nat.eqb 2) 5 = ([(INR 0, 0); (INR 1, 1); (INR 2, 2)], Pruned).
Proof. exact objective_demo. Qed.
