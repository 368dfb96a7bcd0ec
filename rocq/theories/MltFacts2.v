(** Where training breaks its promises (C68), and the proofs about batches (C100, C101), layers (C102) and
    the tuner's objective (C103). *)
From Coq Require Import Reals Lra Lia List Bool.
From Verif Require Import Base BaseFacts MltModel MltSpec MltFacts.
Local Open Scope nat_scope.

(** *** C68, refuted parts *)
(** No epoch at all, or only NaN losses: the call fails. *)
Lemma train_zero_epochs : forall (W Opt : Type) (one_epoch : nat -> W -> Opt -> W * Opt * loss * loss) (evaluate : W -> loss) stopped ckpt w o,
  result (train one_epoch evaluate 0 stopped ckpt w o) = Raise TypeError.
Proof. reflexivity. Qed.
Lemma train_interrupted_at_once : forall (W Opt : Type) (one_epoch : nat -> W -> Opt -> W * Opt * loss * loss) (evaluate : W -> loss) n stopped ckpt w o,
  stopped 0 = true -> result (train one_epoch evaluate n stopped ckpt w o) = Raise TypeError.
Proof. intros. unfold train. destruct n; cbn [seq epoch_loop]; [reflexivity|]. rewrite H. reflexivity. Qed.
Lemma train_nan : forall n ckpt w, result (train (counting (fun _ => NotANumber)) (fun _ => NotANumber) n never ckpt w tt) = Raise TypeError /\
  model (train (counting (fun _ => NotANumber)) (fun _ => NotANumber) n never ckpt w tt) = w + n.
Proof.
  intros n ckpt w. destruct (train_leaves _ _ (counting (fun _ => NotANumber)) (fun _ => NotANumber) n never ckpt w tt) as (j & (A & B & C) & H).
  assert (Hj : j = n). { destruct (Nat.eq_dec j n); auto. discriminate C. lia. } subst j.
  assert (Ha : forall k, MltSpec.after (counting (fun _ => NotANumber)) 0 w tt k = (w + k, tt)).
  { induction k as [|k IH]; cbn [after]; [f_equal; lia|]. rewrite IH. cbn. f_equal. lia. }
  destruct H as [(_ & H1 & H2 & _) | (k & (_ & H & _) & _)].
  - split; [exact H1|]. rewrite H2, Ha. reflexivity.
  - unfold val_loss_of in H. rewrite Ha in H. discriminate.
Qed.

(** The reported test loss is that of the last epoch's weights, not of the weights the model ends with. *)
Lemma test_loss_of_last_weights : exists (val evaluate : nat -> loss) n r, train (counting val) evaluate n never false 0 tt = r /\
  exists m, result r = Ok m /\ test_loss m = Finite 2 /\ evaluate (model r) = Finite 1.
Proof.
  exists (fun w => Finite (INR w)), (fun w => Finite (INR w)), 2. eexists. split; [reflexivity|].
  unfold train. cbn [seq epoch_loop never]. unfold epoch_body, counting. cbn [weights optimizer best_val best_weights train_history val_history last].
  replace (loss_lt (Finite (INR 1)) PlusInf) with true by reflexivity.
  replace (loss_lt (Finite (INR 2)) (Finite (INR 1))) with false.
  2: { symmetry. unfold loss_lt. destruct Rlt_dec; auto. exfalso. cbn [INR] in *. lra. }
  unfold finish. cbn [weights best_weights train_history val_history result model]. eexists. split; [reflexivity|]. cbn [test_loss]. split; f_equal; cbn [INR]; lra.
Qed.

(** Resuming without improving on the stored loss always fails, and the checkpoint file is not updated. *)
Lemma continue_no_improvement : forall (W Opt : Type) (one_epoch : nat -> W -> Opt -> W * Opt * loss * loss) (evaluate : W -> loss) n stopped c,
  no_improvement (ck_best c) (val_loss_of one_epoch (ck_epoch c) (ck_model c) (ck_optimizer c)) n ->
  result (fst (continue_training one_epoch evaluate n stopped c)) = Raise TypeError /\ saved (fst (continue_training one_epoch evaluate n stopped c)) = None.
Proof.
  intros W Opt one_epoch evaluate n stopped c H. destruct (continue_leaves _ _ one_epoch evaluate n stopped c) as (j & (Hj & _) & [(_ & A & _ & B) | (k & (Hk & Hb & _) & _)]); [auto|].
  rewrite H in Hb; [discriminate|lia].
Qed.

(** Training for 2 epochs and resuming for 1 is not training for 3. *)
Lemma resume_differs : exists c, saved (train (counting up_then_down) up_then_down 2 never true 0 tt) = Some c /\
  result (fst (continue_training (counting up_then_down) up_then_down 1 never c)) = Raise TypeError /\
  model (train (counting up_then_down) up_then_down 3 never true 0 tt) = 3 /\ is_ok (result (train (counting up_then_down) up_then_down 3 never true 0 tt)) = true.
Proof.
  assert (L1 : forall x, loss_lt (Finite x) PlusInf = true) by reflexivity.
  assert (L2 : loss_lt (Finite (INR 2)) (Finite (INR 1)) = false). { unfold loss_lt. destruct Rlt_dec; auto. exfalso. cbn [INR] in *. lra. }
  assert (L3 : loss_lt (Finite 0) (Finite (INR 1)) = true). { unfold loss_lt. destruct Rlt_dec as [|H]; auto. exfalso. cbn [INR] in H. lra. }
  eexists. unfold train. cbn [seq epoch_loop never]. unfold epoch_body, counting, up_then_down. cbn [weights optimizer best_val best_weights train_history val_history last].
  rewrite !L1, !L2, !L3. unfold finish. cbn [weights best_weights train_history val_history result model saved last optimizer best_val]. split; [reflexivity|].
  repeat split. unfold continue_training. cbn [ck_epoch ck_model ck_optimizer ck_best fst Nat.add Nat.sub seq epoch_loop never]. unfold epoch_body. cbn [weights optimizer best_val best_weights]. rewrite L2. reflexivity.
Qed.

(** Every resumption adds the checkpoint's epoch number to n_epochs: resuming twice (with improving losses)
    runs more epochs the second time. *)
Lemma continue_twice : exists (val : nat -> loss) c1 c2,
  saved (train (counting val) val 1 never true 0 tt) = Some c1 /\
  (let r := continue_training (counting val) val 1 never c1 in saved (fst r) = Some c2 /\
   ck_epoch c1 = 1 /\ ck_epoch c2 = 2 /\
   exists c3, saved (fst (continue_training (counting val) val (snd r) never c2)) = Some c3 /\ ck_epoch c3 = 4).
Proof.
  assert (L1 : forall x, loss_lt (Finite x) PlusInf = true) by reflexivity.
  assert (L : forall w, loss_lt (Finite (- INR (S w))) (Finite (- INR w)) = true). { intros w. unfold loss_lt. destruct Rlt_dec as [|H]; auto. exfalso. rewrite S_INR in H. lra. }
  exists (fun w => Finite (- INR w)). eexists _, _. unfold train, continue_training. cbn [seq epoch_loop never].
  unfold epoch_body, counting. cbn [weights optimizer best_val best_weights train_history val_history last]. rewrite L1.
  unfold finish. cbn [weights best_weights train_history val_history result model saved last optimizer best_val]. split; [reflexivity|].
  cbn [ck_epoch ck_model ck_optimizer ck_best fst snd Nat.add Nat.sub seq epoch_loop never]. unfold epoch_body. cbn [weights optimizer best_val best_weights train_history val_history last]. rewrite L.
  cbn [weights best_weights train_history val_history result model saved last optimizer best_val]. split; [reflexivity|].
  cbn [ck_epoch ck_model ck_optimizer ck_best fst snd Nat.add Nat.sub seq epoch_loop never]. split; [reflexivity|]. split; [reflexivity|].
  unfold epoch_body. cbn [weights optimizer best_val best_weights train_history val_history last]. rewrite !L. cbn [weights best_weights result model saved last optimizer best_val]. eexists. split; [reflexivity|]. reflexivity.
Qed.

(** *** batches *)
Lemma batches_spec {A} size : size <> 0 -> forall fuel (l : list A), length l <= fuel ->
  concat (batches_of fuel size l) = l /\ Forall (fun b => b <> [] /\ length b <= size) (batches_of fuel size l) /\ (l <> [] -> batches_of fuel size l <> []).
Proof.
  intros Hs. induction fuel as [|f IH]; intros l Hl; [destruct l; [|cbn in Hl; lia]; cbn; auto|].
  destruct l as [|a l]; [cbn; auto|]. cbn [batches_of]. destruct (IH (skipn size (a :: l))) as (A1 & A2 & _).
  { rewrite skipn_length. cbn [length] in *. lia. }
  split; [|split; [|discriminate]].
  - cbn [concat]. rewrite A1. apply firstn_skipn.
  - constructor; [|exact A2]. split; [destruct size; [lia|discriminate]|rewrite firstn_length; lia].
Qed.
Lemma loader_batches (A : Type) (size : nat) (data : list A) : size <> 0 -> exists bs, data_loader size data = Ok bs /\ concat bs = data /\
  Forall (fun b => b <> [] /\ length b <= size) bs /\ (forall i, S i < length bs -> length (nth i bs []) = size).
Proof.
  intros Hs. unfold data_loader. destruct (Nat.eqb_spec size 0); [lia|]. eexists. split; [reflexivity|]. destruct (batches_spec size Hs _ data (le_n _)) as (B1 & B2 & _). repeat split; auto.
  clear B1 B2. generalize (le_n (length data)). generalize (length data) at 2 3 4. intros f. revert data.
  induction f as [|f IH]; intros l Hl i Hi; [cbn in Hi; lia|]. destruct l as [|a l]; [cbn in Hi; lia|]. cbn [batches_of length] in Hi. cbn [batches_of].
  set (l0 := a :: l) in *. assert (Hl0 : length l0 = S (length l)) by reflexivity. destruct i as [|i]; cbn [nth].
  - rewrite firstn_length. assert (~ length l0 <= size); [|lia]. intros C. rewrite (skipn_all2 _ C) in Hi. destruct f; cbn in Hi; lia.
  - apply IH; [rewrite skipn_length; lia|]. apply Nat.succ_lt_mono. exact Hi.
Qed.

Lemma lsum_app l1 l2 : lsum (l1 ++ l2) = (lsum l1 + lsum l2)%R.
Proof. unfold lsum. induction l1 as [|a l1 IH]; cbn [app fold_right]; [ring|]. rewrite IH. ring. Qed.
Lemma weighted (bs : list (list R)) : Forall (fun b => b <> []) bs -> forall acc, fold_left (fun acc b => acc + lmean b * INR (length b))%R bs acc = (acc + lsum (concat bs))%R.
Proof.
  induction 1 as [|b bs Hb _ IH]; intros acc; cbn [fold_left concat]; [unfold lsum; cbn [fold_right]; ring|]. rewrite IH, lsum_app. unfold lmean.
  assert (INR (length b) <> 0%R) by (apply not_0_INR; destruct b; [congruence|discriminate]). field. assumption.
Qed.

(** C100: the validation loss is the mean over the samples, whatever the batch size. *)
Lemma validation_mean (size : nat) (losses : list R) : size <> 0 -> losses <> [] -> val_batch size losses = Ok (lmean losses).
Proof.
  intros Hs Hl. unfold val_batch. destruct (loader_batches R size losses Hs) as (bs & E & Hc & Hf & _). rewrite E. cbn [bind].
  destruct (Nat.eqb_spec (length losses) 0) as [H | _]; [destruct losses; [congruence|discriminate]|].
  rewrite weighted by (eapply Forall_impl; [|exact Hf]; intros ? []; assumption). rewrite Hc. unfold lmean. f_equal. f_equal. ring.
Qed.
Lemma validation_empty (size : nat) : size <> 0 -> val_batch size [] = Raise ZeroDivisionError.
Proof. intros H. unfold val_batch, data_loader. destruct (Nat.eqb_spec size 0); [lia|]. reflexivity. Qed.
Lemma validation_size_zero (losses : list R) : val_batch 0 losses = Raise ValueError.
Proof. reflexivity. Qed.
Lemma lsum_const_blocks size (items : list (list R)) : Forall (fun b => length b = size) items -> length (concat items) = size * length items.
Proof. induction 1 as [|b items Hb _ IH]; cbn; [lia|]. rewrite app_length, IH, Hb. lia. Qed.
(** ... also over a memmap dataset, whose items are full batches. *)
Lemma validation_memmap (size : nat) (items : list (list R)) : size <> 0 -> items <> [] -> Forall (fun b => length b = size) items ->
  val_batch_memmap items = Ok (lmean (concat items)).
Proof.
  intros Hs Hi Hf. unfold val_batch_memmap. destruct (Nat.eqb_spec (length items) 0) as [H | _]; [destruct items; [congruence|discriminate]|]. f_equal.
  assert (Hn : INR size <> 0%R) by now apply not_0_INR. assert (Hn' : INR (length items) <> 0%R) by (apply not_0_INR; destruct items; [congruence|discriminate]).
  assert (G : forall acc, fold_left (fun acc b => acc + lmean b * 1)%R items acc = (acc + lsum (concat items) / INR size)%R).
  { clear Hi Hn'. induction Hf as [|b items Hb _ IH]; intros acc; cbn [fold_left concat]; [unfold lsum; cbn [fold_right]; field; exact Hn|]. rewrite IH, lsum_app. unfold lmean. rewrite Hb. field. exact Hn. }
  rewrite G. unfold lmean. rewrite (lsum_const_blocks size) by exact Hf. rewrite mult_INR. field. split; assumption.
Qed.

(** C101: predictions do not depend on the batch size. *)
Lemma predict_rows (A B : Type) (forward : list A -> list B) (f : A -> B) (size : nat) (rows : list A) :
  row_wise forward f -> size <> 0 -> rows <> [] -> predict forward size rows = Ok (map f rows).
Proof.
  intros Hf Hs Hr. unfold predict. destruct (loader_batches A size rows Hs) as (bs & E & Hc & Hb & _). rewrite E. cbn [bind].
  destruct bs as [|b bs]; [cbn in Hc; congruence|]. f_equal. rewrite <- Hc. rewrite concat_map. f_equal. apply map_ext. apply Hf.
Qed.
Lemma predict_fails (A B : Type) (forward : list A -> list B) (size : nat) (rows : list A) :
  (size = 0 \/ rows = []) -> predict forward size rows = Raise ValueError.
Proof. intros [-> | ->]; [reflexivity|]. unfold predict, data_loader. destruct (Nat.eqb size 0); reflexivity. Qed.

(** *** layers *)
Lemma hidden_spec nodes : forall in_dim dropout i, let (layers, final) := hidden_layers in_dim nodes dropout i in
  (forall out, chain in_dim out (layers ++ [Linear final out])) /\ linear_outputs layers = nodes /\
  activations layers = length nodes /\ dropouts layers = length (filter dropout (seq i (length nodes))).
Proof.
  induction nodes as [|d nodes IH]; intros in_dim dropout i; cbn [hidden_layers]; [cbn; auto|].
  specialize (IH d dropout (S i)). destruct (hidden_layers d nodes dropout (S i)) as [layers final]. destruct IH as (A & C & D & E).
  split; [|split; [|split]].
  - intros out. cbn [app chain]. split; [reflexivity|]. destruct (dropout i); apply A.
  - unfold linear_outputs in *. cbn [flat_map app]. rewrite flat_map_app. rewrite C. destruct (dropout i); reflexivity.
  - unfold activations in *. cbn [filter]. rewrite filter_app. cbn [length]. rewrite app_length, D. destruct (dropout i); cbn; lia.
  - unfold dropouts in *. cbn [filter]. rewrite filter_app, app_length, E. cbn [length seq filter]. destruct (dropout i); cbn; lia.
Qed.
(** C102: the layers fit together, with the chosen sizes, one activation each and the chosen dropouts. *)
Lemma subnetwork_fits (in_dim out_dim : nat) (nodes : list nat) (dropout : nat -> bool) :
  let layers := subnetwork in_dim out_dim nodes dropout in
  chain in_dim out_dim layers /\ linear_outputs layers = nodes ++ [out_dim] /\
  activations layers = length nodes /\ dropouts layers = length (filter dropout (seq 0 (length nodes))).
Proof.
  unfold subnetwork. pose proof (hidden_spec nodes in_dim dropout 0) as H. destruct (hidden_layers in_dim nodes dropout 0) as [layers final]. destruct H as (A & C & D & E).
  split; [apply A|]. split; [unfold linear_outputs in *; rewrite flat_map_app, C; reflexivity|].
  unfold activations, dropouts in *. rewrite !filter_app, !app_length. cbn [filter length]. lia.
Qed.
Lemma prebuilt_spec (n : nat) (nodes : list nat) :
  (n <= length nodes -> exists chosen, prebuilt_nodes n nodes = Ok chosen /\ length chosen = n /\ forall i, i < n -> nth i chosen 0 = nth i nodes 0) /\
  (length nodes < n -> prebuilt_nodes n nodes = Raise IndexError).
Proof.
  unfold prebuilt_nodes. destruct (Nat.leb_spec n (length nodes)); split; intros; try lia; [|reflexivity].
  exists (firstn n nodes). split; [reflexivity|]. rewrite firstn_length. split; [lia|]. intros i Hi.
  rewrite <- (firstn_skipn n nodes) at 2. rewrite app_nth1; [reflexivity|]. rewrite firstn_length. lia.
Qed.
(** The output depends linearly on the trunk's and on the branch's features. *)
Lemma deeponet_bilinear (latent : nat) (fc : nat -> nat -> R) (a b : R) (t t' u u' : nat -> R) (out : nat) :
  (deeponet_forward latent fc (fun k => a * t k + b * t' k) u out = a * deeponet_forward latent fc t u out + b * deeponet_forward latent fc t' u out /\
   deeponet_forward latent fc t (fun k => a * u k + b * u' k) out = a * deeponet_forward latent fc t u out + b * deeponet_forward latent fc t u' out /\
   deeponet_forward latent fc t u out = deeponet_forward latent fc u t out)%R.
Proof.
  unfold deeponet_forward. repeat split; [| |apply rsum_ext; intros; ring]; induction latent as [|n IH]; cbn [rsum]; try ring; rewrite IH; ring.
Qed.

(** *** C103 the tuner's objective *)
Lemma objective_loop_spec metric should_prune n : forall first reports previous,
  exists k, k <= n /\ (forall i, i < k -> should_prune (first + i) = false) /\
  ((k = n /\ objective_loop metric should_prune (seq first n) reports previous =
      (reports ++ map (fun i => (metric i, i)) (seq first n), match n, previous with 0, None => Failed UnboundLocalError | 0, Some m => Value m | S m, _ => Value (metric (first + m)) end)) \/
   (k < n /\ should_prune (first + k) = true /\ objective_loop metric should_prune (seq first n) reports previous =
      (reports ++ map (fun i => (metric i, i)) (seq first (S k)), Pruned))).
Proof.
  induction n as [|n IH]; intros first reports previous.
  - exists 0. split; [lia|]. split; [intros; lia|]. left. split; [reflexivity|]. cbn. rewrite app_nil_r. destruct previous; reflexivity.
  - cbn [seq objective_loop]. destruct (should_prune first) eqn:E.
    + exists 0. split; [lia|]. split; [intros; lia|]. right. rewrite Nat.add_0_r. repeat split; auto; lia.
    + destruct (IH (S first) (reports ++ [(metric first, first)]) (Some (metric first))) as (k & Hk & Hf & H). exists (S k). split; [lia|]. split.
      { intros [|i] Hi; [rewrite Nat.add_0_r; exact E|]. replace (first + S i) with (S first + i) by lia. apply Hf. lia. }
      destruct H as [(A & B) | (A & B & C)].
      * left. split; [lia|]. rewrite B. cbn [map]. rewrite <- app_assoc. cbn [app]. f_equal. destruct n; [f_equal; f_equal; lia|]. do 2 f_equal. lia.
      * right. split; [lia|]. replace (first + S k) with (S first + k) by lia. split; [exact B|]. rewrite C. cbn [seq map]. rewrite <- app_assoc. reflexivity.
Qed.
(** Every epoch's metric is reported once, in order; the trial ends with the last one, or is pruned at the first
    epoch at which optuna says so. *)
Lemma objective_spec (metric : nat -> R) (should_prune : nat -> bool) (n : nat) : n <> 0 ->
  ((forall i, i < n -> should_prune i = false) /\ objective metric should_prune n = (map (fun i => (metric i, i)) (seq 0 n), Value (metric (n - 1)))) \/
  (exists k, k < n /\ (forall i, i < k -> should_prune i = false) /\ should_prune k = true /\
     objective metric should_prune n = (map (fun i => (metric i, i)) (seq 0 (S k)), Pruned)).
Proof.
  intros Hn. unfold objective. destruct (objective_loop_spec metric should_prune n 0 [] None) as (k & Hk & Hf & [(-> & B) | (A & B & C)]); cbn [plus app] in *.
  - left. split; [exact Hf|]. rewrite B. destruct n; [lia|]. do 2 f_equal. f_equal. lia.
  - right. exists k. auto.
Qed.
Lemma objective_zero (metric : nat -> R) (should_prune : nat -> bool) : objective metric should_prune 0 = ([], Failed UnboundLocalError).
Proof. reflexivity. Qed.
