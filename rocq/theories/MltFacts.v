(** Proofs about the training loop (C68). *)
From Coq Require Import Reals Lra Lia List Bool.
From Verif Require Import Base MltModel MltSpec.
Local Open Scope nat_scope.

Lemma loss_lt_trans a b c : loss_lt a b = true -> loss_lt b c = true -> loss_lt a c = true.
Proof.
  destruct a, b, c; cbn; try congruence. repeat destruct Rlt_dec; try congruence; intros; exfalso; lra.
Qed.
Lemma loss_lt_irrefl a : loss_lt a a = false.
Proof. destruct a; cbn; auto. destruct Rlt_dec; auto; exfalso; lra. Qed.
Lemma loss_lt_cotrans a b c d : loss_lt a b = true -> loss_lt c b = false -> loss_lt c d = true -> loss_lt a c = true.
Proof.
  destruct a, b, c, d; cbn; try congruence; repeat destruct Rlt_dec; try congruence; intros; exfalso; lra.
Qed.

Section Epochs.
Variables W Opt : Type.
Variables (one_epoch : nat -> W -> Opt -> W * Opt * loss * loss) (evaluate : W -> loss).
Notation after := (after one_epoch). Notation tl_of := (train_loss_of one_epoch). Notation vl_of := (val_loss_of one_epoch).

(** The state of the loop after j epochs. *)
Definition inv (first : nat) (bound : loss) (w : W) (o : Opt) (j : nat) (s : loop_state (W := W) (Opt := Opt)) : Prop :=
  weights s = fst (after first w o j) /\ optimizer s = snd (after first w o j) /\
  train_history s = map (tl_of first w o) (seq 0 j) /\ val_history s = map (vl_of first w o) (seq 0 j) /\
  last s = (match j with 0 => None | S i => Some (first + i) end) /\
  ((best_weights s = None /\ best_val s = bound /\ no_improvement bound (vl_of first w o) j) \/
   exists k, best_epoch bound (vl_of first w o) j k /\ best_weights s = Some (fst (after first w o (S k))) /\ best_val s = vl_of first w o k).

Lemma inv_step first bound w o j s : inv first bound w o j s -> inv first bound w o (S j) (epoch_body one_epoch (first + j) s).
Proof.
  intros (Hw & Ho & Ht & Hv & Hl & Hb). unfold epoch_body. rewrite Hw, Ho.
  assert (Ea : after first w o (S j) = let (w', o') := after first w o j in match one_epoch (first + j) w' o' with (w'', o'', _, _) => (w'', o'') end) by reflexivity.
  assert (Et : tl_of first w o j = let (w', o') := after first w o j in match one_epoch (first + j) w' o' with (_, _, l, _) => l end) by reflexivity.
  assert (Ev : vl_of first w o j = let (w', o') := after first w o j in match one_epoch (first + j) w' o' with (_, _, _, l) => l end) by reflexivity.
  destruct (after first w o j) as [w1 o1] eqn:E1. cbn [fst snd] in *.
  destruct (one_epoch (first + j) w1 o1) as [[[w2 o2] t2] v2] eqn:E2.
  unfold inv. cbn [weights optimizer train_history val_history last best_weights best_val].
  rewrite Ea, seq_S, !map_app. cbn [map fst snd]. rewrite Ht, Hv, Nat.add_0_l, Et, Ev.
  repeat split. rewrite <- Ev.
  destruct (loss_lt (vl_of first w o j) (best_val s)) eqn:Eb.
  - (* better *)
    right. exists j. rewrite Ea. split; [|split; reflexivity].
    destruct Hb as [(_ & Hbv & Hno) | (k & (Hk & Hkb & Hmin & Hfirst) & _ & Hbv)]; rewrite Hbv in Eb.
    + repeat split; [lia|exact Eb| |].
      * intros i Hi. destruct (Nat.eq_dec i j) as [-> |]; [apply loss_lt_irrefl|].
        destruct (loss_lt (vl_of first w o i) (vl_of first w o j)) eqn:E; [|reflexivity].
        rewrite <- (Hno i) by lia. symmetry. eapply loss_lt_trans; eassumption.
      * intros i Hi Hi'. rewrite (Hno i Hi) in Hi'. discriminate.
    + repeat split; [lia|eapply loss_lt_trans; eassumption| |].
      * intros i Hi. destruct (Nat.eq_dec i j) as [-> |]; [apply loss_lt_irrefl|].
        destruct (loss_lt (vl_of first w o i) (vl_of first w o j)) eqn:E; [|reflexivity].
        rewrite <- (Hmin i) by lia. symmetry. eapply loss_lt_trans; eassumption.
      * intros i Hi Hi'. eapply loss_lt_cotrans; [exact Eb|apply Hmin; lia|exact Hi'].
  - destruct Hb as [(Hbw & Hbv & Hno) | (k & (Hk & Hkb & Hmin & Hfirst) & Hbw & Hbv)]; rewrite Hbv in Eb.
    + left. repeat split; auto. intros i Hi. destruct (Nat.eq_dec i j) as [-> |]; [exact Eb|apply Hno; lia].
    + right. exists k. repeat split; auto. intros i Hi. destruct (Nat.eq_dec i j) as [-> |]; [exact Eb|apply Hmin; lia].
Qed.

Lemma loop_inv stopped first bound w o n : forall j s, inv first bound w o j s -> (forall i, i < j -> stopped (first + i) = false) ->
  exists j', epochs_run stopped first (j + n) j' /\ inv first bound w o j' (epoch_loop one_epoch stopped (seq (first + j) n) s).
Proof.
  induction n as [|n IH]; intros j s Hs Hj; cbn [seq epoch_loop].
  - exists j. split; [|exact Hs]. repeat split; [lia|exact Hj|lia].
  - destruct (stopped (first + j)) eqn:E.
    + exists j. split; [|exact Hs]. repeat split; [lia|exact Hj|auto].
    + destruct (IH (S j) (epoch_body one_epoch (first + j) s)) as (j' & Hr & Hi).
      * now apply inv_step.
      * intros i Hi. destruct (Nat.eq_dec i j) as [-> |]; [exact E|apply Hj; lia].
      * exists j'. replace (j + S n) with (S j + n) by lia. split; [exact Hr|]. replace (S (first + j)) with (first + S j) by lia. exact Hi.
Qed.

Lemma run_spec stopped first bound w o n ckpt :
  let r := finish evaluate ckpt (epoch_loop one_epoch stopped (seq first n) (mkLoop w o bound None [] [] None)) in
  exists j, epochs_run stopped first n j /\
  ((no_improvement bound (vl_of first w o) j /\ result r = Raise TypeError /\ model r = fst (after first w o j) /\ saved r = None) \/
   exists k, best_epoch bound (vl_of first w o) j k /\
     result r = Ok (mkMetrics (map (tl_of first w o) (seq 0 j)) (map (vl_of first w o) (seq 0 j)) (evaluate (fst (after first w o j)))) /\
     model r = fst (after first w o (S k)) /\
     saved r = if ckpt then Some (mkCheckpoint (first + j) (fst (after first w o (S k))) (snd (after first w o j)) (vl_of first w o k)) else None).
Proof.
  intros r. destruct (loop_inv stopped first bound w o n 0 (mkLoop w o bound None [] [] None)) as (j & Hr & (Hw & Ho & Ht & Hv & Hl & Hb)).
  - repeat split; try reflexivity. left. repeat split. intros i Hi; lia.
  - intros i Hi; lia.
  - rewrite Nat.add_0_r in *. cbn [plus] in Hr. exists j. split; [exact Hr|]. unfold r, finish. destruct Hb as [(Hbw & Hbv & Hno) | (k & Hk & Hbw & Hbv)]; rewrite Hbw.
    + left. cbn [result model saved]. auto.
    + right. exists k. split; [exact Hk|]. rewrite Ht, Hv, Hw, Ho, Hl, Hbv. destruct j as [|j]; [destruct Hk as (Hk & _); lia|].
      destruct ckpt; cbn [result model saved]; repeat split; auto. replace (first + j + 1) with (first + S j) by lia. reflexivity.
Qed.

Lemma epochs_run_unique stopped first n j j' : epochs_run stopped first n j -> epochs_run stopped first n j' -> j = j'.
Proof.
  intros (A & B & C) (A' & B' & C'). destruct (Nat.lt_trichotomy j j') as [H | [H | H]]; [|exact H|].
  - rewrite (B' j H) in C. discriminate C. lia.
  - rewrite (B j' H) in C'. discriminate C'. lia.
Qed.

(** C68: what train() leaves behind, for every network, optimizer, loss history and instant of interruption. *)
Lemma train_leaves n stopped ckpt w o :
  let r := train one_epoch evaluate n stopped ckpt w o in
  let val := val_loss_of one_epoch 0 w o in
  let after := MltSpec.after one_epoch 0 w o in
  exists j, epochs_run stopped 0 n j /\
  ((no_improvement PlusInf val j /\ result r = Raise TypeError /\ model r = fst (after j) /\ saved r = None) \/
   exists k, best_epoch PlusInf val j k /\ model r = fst (after (S k)) /\
     result r = Ok (mkMetrics (map (train_loss_of one_epoch 0 w o) (seq 0 j)) (map val (seq 0 j)) (evaluate (fst (after j)))) /\
     saved r = if ckpt then Some (mkCheckpoint j (fst (after (S k))) (snd (after j)) (val k)) else None).
Proof.
  intros r val aft. destruct (run_spec stopped 0 PlusInf w o n ckpt) as (j & Hr & [H | (k & A & B & C & D)]); exists j; split; auto.
  right. exists k. cbn [plus] in D. repeat split; auto; apply A.
Qed.

(** ... and continue_training, from any checkpoint. *)
Lemma continue_leaves n stopped c :
  let r := fst (continue_training one_epoch evaluate n stopped c) in
  let val := val_loss_of one_epoch (ck_epoch c) (ck_model c) (ck_optimizer c) in
  let after := MltSpec.after one_epoch (ck_epoch c) (ck_model c) (ck_optimizer c) in
  exists j, epochs_run stopped (ck_epoch c) n j /\
  ((no_improvement (ck_best c) val j /\ result r = Raise TypeError /\ model r = fst (after j) /\ saved r = None) \/
   exists k, best_epoch (ck_best c) val j k /\ model r = fst (after (S k)) /\
     result r = Ok (mkMetrics (map (train_loss_of one_epoch (ck_epoch c) (ck_model c) (ck_optimizer c)) (seq 0 j)) (map val (seq 0 j)) (evaluate (fst (after j)))) /\
     saved r = Some (mkCheckpoint (ck_epoch c + j) (fst (after (S k))) (snd (after j)) (val k))).
Proof.
  intros r val aft. destruct (run_spec stopped (ck_epoch c) (ck_best c) (ck_model c) (ck_optimizer c) n true) as (j & Hr & H).
  exists j. split; [exact Hr|]. unfold r, continue_training. cbn [fst]. rewrite Nat.add_sub. destruct H as [H | (k & A & B & C & D)]; [left; exact H|].
  right. exists k. repeat split; auto; apply A.
Qed.

(** With finite losses and at least one epoch run, the restored weights are those of the first epoch with
    the smallest validation loss. *)
Lemma train_finite n stopped ckpt w o (v : nat -> R) : (forall i, val_loss_of one_epoch 0 w o i = Finite (v i)) ->
  n <> 0 -> stopped 0 = false ->
  exists j k, epochs_run stopped 0 n j /\ k < j /\ (forall i, i < j -> (v k <= v i)%R) /\ (forall i, i < k -> (v k < v i)%R) /\
    model (train one_epoch evaluate n stopped ckpt w o) = fst (MltSpec.after one_epoch 0 w o (S k)) /\
    is_ok (result (train one_epoch evaluate n stopped ckpt w o)) = true.
Proof.
  intros Hv Hn Hs. destruct (train_leaves n stopped ckpt w o) as (j & Hr & H). destruct H as [(Hno & _) | (k & (Hk & _ & Hm & Hf) & Hmod & Hres & _)].
  - destruct Hr as (A & B & C). destruct j; [cbn [plus] in C; rewrite C in Hs; [discriminate|lia]|]. specialize (Hno 0 ltac:(lia)). rewrite Hv in Hno. discriminate.
  - exists j, k. rewrite Hres. repeat split; auto; try apply Hr.
    + intros i Hi. specialize (Hm i Hi). rewrite !Hv in Hm. cbn in Hm. destruct Rlt_dec; [discriminate|lra].
    + intros i Hi. specialize (Hf i Hi). rewrite !Hv in Hf. cbn in Hf. destruct Rlt_dec; [assumption|]. discriminate Hf. reflexivity.
Qed.

(** The n_epochs attribute grows with every resumption. *)
Lemma continue_n_epochs n stopped c : snd (continue_training one_epoch evaluate n stopped c) = n + ck_epoch c.
Proof. reflexivity. Qed.
End Epochs.
