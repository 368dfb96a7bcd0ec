(** Concrete cases that meet the hypotheses of the theorems in MltProps. *)
From Coq Require Import Reals Lra Lia List.
From Verif Require Import Base MltModel MltSpec MltFacts MltFacts2.
Local Open Scope nat_scope.

(** Losses 3, 1, 2, 0, 0, ...; ten epochs asked for, Ctrl+C is seen before the fourth. *)
Definition bumpy (w : nat) : loss := match w with 1 => Finite 3 | 2 => Finite 1 | 3 => Finite 2 | _ => Finite 0 end.
Lemma train_demo : let r := train (counting bumpy) bumpy 10 (Nat.eqb 3) true 0 tt in
  model r = 2 /\ saved r = Some (mkCheckpoint 3 2 tt (Finite 1)) /\
  result r = Ok (mkMetrics [Finite 0; Finite 0; Finite 0] [Finite 3; Finite 1; Finite 2] (Finite 2)).
Proof.
  assert (L1 : forall x, loss_lt (Finite x) PlusInf = true) by reflexivity.
  assert (L2 : loss_lt (Finite 1) (Finite 3) = true). { unfold loss_lt. destruct Rlt_dec; auto. exfalso. lra. }
  assert (L3 : loss_lt (Finite 2) (Finite 1) = false). { unfold loss_lt. destruct Rlt_dec; auto. exfalso. lra. }
  unfold train. cbn [seq epoch_loop Nat.eqb]. unfold epoch_body, counting, bumpy. cbn [weights optimizer best_val best_weights train_history val_history last app].
  rewrite !L1, !L2, !L3. unfold finish. cbn [weights best_weights train_history val_history result model saved last optimizer best_val app Nat.add]. auto.
Qed.
(** Five samples in batches of two. *)
Lemma batch_demo : val_batch 2 [1; 2; 3; 4; 10]%R = Ok 4%R /\ predict (map S) 2 [1; 2; 3; 4; 10] = Ok [2; 3; 4; 5; 11] /\
  val_batch_memmap [[1; 2]; [3; 6]]%R = Ok 3%R.
Proof.
  split; [|split].
  - rewrite validation_mean by discriminate. unfold lmean, lsum. f_equal. cbn [fold_right length INR]. lra.
  - reflexivity.
  - rewrite (validation_memmap 2) by (try discriminate; repeat constructor). unfold lmean, lsum. f_equal. cbn [fold_right length INR concat app]. lra.
Qed.
(** Two hidden layers of 64 and 128, dropout after the second. *)
Lemma layers_demo : subnetwork 8 16 [64; 128] (Nat.eqb 1) = [Linear 8 64; Activation; Linear 64 128; Activation; Dropout; Linear 128 16].
Proof. reflexivity. Qed.
Lemma objective_demo : objective INR (Nat.eqb 2) 5 = ([(INR 0, 0); (INR 1, 1); (INR 2, 2)], Pruned).
Proof. reflexivity. Qed.
