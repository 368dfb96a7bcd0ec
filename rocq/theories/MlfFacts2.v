(** C67: memmap datasets. *)
From Coq Require Import Reals ZArith Lia Lra List Permutation.
From Verif Require Import Base MlfModel MlfSpec.
Local Open Scope Z_scope.

Lemma seq_split_app s a b : seq s (a + b) = (seq s a ++ seq (s + a) b)%list.
Proof. apply seq_app. Qed.

(** A dataset whose range lies in the file. *)
Definition proper (d : dataset) : Prop :=
  0 < batch_size d /\ 0 <= start_idx d <= end_idx d /\ end_idx d <= shape d /\ num_batches d = (end_idx d - start_idx d) / batch_size d.

Lemma getitem_full d b : proper d -> Z.of_nat b < num_batches d ->
  getitem d b = seq (Z.to_nat (start_idx d) + b * Z.to_nat (batch_size d)) (Z.to_nat (batch_size d)).
Proof.
  intros (B & R1 & R2 & N) Hb. unfold getitem, array_slice, clamp.
  assert (M : (Z.of_nat b + 1) * batch_size d <= end_idx d - start_idx d).
  { pose proof (Z.mul_div_le (end_idx d - start_idx d) (batch_size d) B) as Q. rewrite <- N in Q. nia. }
  destruct (Z.ltb_spec (start_idx d + Z.of_nat b * batch_size d) 0); [nia|].
  destruct (Z.ltb_spec (start_idx d + Z.of_nat b * batch_size d + batch_size d) 0); [nia|].
  rewrite !Z.min_l by nia. f_equal; [|lia]. rewrite Z2Nat.inj_add by nia. f_equal. rewrite Z2Nat.inj_mul by lia. now rewrite Nat2Z.id.
Qed.
Lemma batches_concat : forall s bs len f, (forall b, (b < len)%nat -> f b = seq (s + b * bs) bs) -> concat (map f (seq 0 len)) = seq s (len * bs).
Proof.
  induction len as [|len IH]; intros f H; [reflexivity|].
  rewrite seq_S, map_app, concat_app, IH by (intros b Hb; apply H; lia). cbn [map concat Nat.add]. rewrite app_nil_r. rewrite (H len) by lia. cbn [Nat.mul]. rewrite (Nat.add_comm bs), seq_app. reflexivity.
Qed.

Lemma dataset_run d : proper d -> dataset_len d = Ok (Z.to_nat (num_batches d)) /\
  loader d sequential = Ok (seq (Z.to_nat (start_idx d)) (Z.to_nat (num_batches d) * Z.to_nat (batch_size d))) /\
  (forall b, (b < Z.to_nat (num_batches d))%nat -> getitem d b = seq (Z.to_nat (start_idx d) + b * Z.to_nat (batch_size d)) (Z.to_nat (batch_size d))) /\
  num_batches d * batch_size d <= end_idx d - start_idx d < (num_batches d + 1) * batch_size d.
Proof.
  intros P. pose proof P as (B & R1 & R2 & N).
  assert (NN : 0 <= num_batches d) by (rewrite N; apply Z.div_pos; lia).
  assert (L : dataset_len d = Ok (Z.to_nat (num_batches d))) by (unfold dataset_len; destruct (Z.ltb_spec (num_batches d) 0); [lia|reflexivity]).
  assert (G : forall b, (b < Z.to_nat (num_batches d))%nat -> getitem d b = seq (Z.to_nat (start_idx d) + b * Z.to_nat (batch_size d)) (Z.to_nat (batch_size d))) by (intros b Hb; apply getitem_full; [exact P|lia]).
  split; [exact L|]. split; [|split; [exact G|]].
  - unfold loader. rewrite L. cbn [bind]. f_equal. unfold sequential. apply batches_concat. exact G.
  - pose proof (Z.mul_div_le (end_idx d - start_idx d) (batch_size d) B) as Q1. pose proof (Z.mul_succ_div_gt (end_idx d - start_idx d) (batch_size d) B) as Q2. rewrite <- N in Q1, Q2. nia.
Qed.

(** In any order of the batches, the same samples. *)
Lemma loader_permutation d order len : dataset_len d = Ok len -> Permutation (order len) (seq 0 len) ->
  exists l l0, loader d order = Ok l /\ loader d sequential = Ok l0 /\ Permutation l l0.
Proof.
  intros L P. unfold loader. rewrite L. cbn [bind]. eexists _, _. split; [reflexivity|]. split; [reflexivity|].
  unfold sequential. revert P. generalize (seq 0 len). intros l0 P. induction P; cbn [map concat]; [constructor|now apply Permutation_app_head| |etransitivity; eassumption].
  rewrite !app_assoc. apply Permutation_app_tail, Permutation_app_comm.
Qed.

Lemma nodup_app {A} (a b : list A) : NoDup a -> NoDup b -> (forall x, In x a -> In x b -> False) -> NoDup (a ++ b).
Proof.
  intros Ha Hb D. induction Ha as [|x a N _ IH]; [exact Hb|]. cbn. constructor.
  - intros I. apply in_app_or in I. destruct I as [I|I]; [contradiction|]. apply (D x); [now left|exact I].
  - apply IH. intros y Y1 Y2. apply (D y); [now right|exact Y2].
Qed.

(** *** the split of a file *)
Local Open Scope R_scope.
Lemma py_int_nonneg x : 0 <= x -> IZR (py_int x) <= x < IZR (py_int x) + 1 /\ (0 <= py_int x)%Z.
Proof.
  intros H. unfold py_int. destruct (Rlt_dec x 0); [lra|]. pose proof (base_Int_part x) as (A & B). split; [lra|].
  assert (-1 < Int_part x)%Z; [|lia]. apply lt_IZR. cbn. lra.
Qed.
Lemma py_int_le x y : 0 <= x -> x <= y -> (py_int x <= py_int y)%Z.
Proof.
  intros H L. destruct (py_int_nonneg x H) as (A & _). destruct (py_int_nonneg y ltac:(lra)) as (B & _).
  assert (py_int x < py_int y + 1)%Z; [|lia]. apply lt_IZR. rewrite plus_IZR. lra.
Qed.
Lemma py_int_below x (n : nat) : 0 <= x -> x <= INR n -> (py_int x <= Z.of_nat n)%Z.
Proof.
  intros H L. destruct (py_int_nonneg x H) as (A & _). apply le_IZR. rewrite <- INR_IZR_INZ. lra.
Qed.
Lemma py_int_pos x : 1 <= x -> (1 <= py_int x)%Z.
Proof. intros H. destruct (py_int_nonneg x ltac:(lra)) as (A & _). assert (0 < py_int x)%Z; [|lia]. apply lt_IZR. lra. Qed.
Lemma py_int_zero x : 0 <= x < 1 -> py_int x = 0%Z.
Proof. intros H. destruct (py_int_nonneg x ltac:(lra)) as (A & B). assert (py_int x < 1)%Z; [|lia]. apply lt_IZR. lra. Qed.

Local Open Scope Z_scope.
Lemma make_proper n batch a b : 0 < batch -> 0 <= a <= b -> b <= n -> 0 < b ->
  exists d, deeponet_dataset n batch a (Some b) = Ok d /\ proper d /\ start_idx d = a /\ end_idx d = b /\ batch_size d = batch /\ shape d = n.
Proof.
  intros B R1 R2 P. unfold deeponet_dataset. destruct (Z.eqb_spec b 0); [lia|]. destruct (Z.eqb_spec batch 0); [lia|].
  eexists. split; [reflexivity|]. split; [|cbn; auto]. unfold proper. cbn. auto.
Qed.

(** The samples of a proper dataset: an interval within its range, missing fewer than one batch. *)
Lemma proper_samples d : proper d -> exists k l, loader d sequential = Ok l /\ l = seq (Z.to_nat (start_idx d)) k /\
  (Z.to_nat (start_idx d) + k <= Z.to_nat (end_idx d))%nat /\ (Z.to_nat (end_idx d) < Z.to_nat (start_idx d) + k + Z.to_nat (batch_size d))%nat.
Proof.
  intros P. destruct (dataset_run d P) as (_ & L & _ & N). pose proof P as (B & R1 & R2 & NB).
  assert (NN : 0 <= num_batches d) by (rewrite NB; apply Z.div_pos; lia).
  eexists _, _. split; [exact L|]. split; [reflexivity|]. rewrite <- Z2Nat.inj_mul by lia. split; nia.
Qed.

Lemma memmap_split (n : nat) (batch : Z) train_size val_size : (0 < batch)%Z -> (0 <= train_size)%R -> (0 <= val_size)%R -> (train_size + val_size <= 1)%R -> (1 <= train_size * INR n)%R ->
  let train_end := Z.to_nat (py_int (train_size * INR n)) in let val_end := Z.to_nat (py_int ((train_size + val_size) * INR n)) in
  exists tr va te ltr lva lte, process_data_memmap n batch train_size val_size = Ok (tr, va, te) /\
    loader tr sequential = Ok ltr /\ loader va sequential = Ok lva /\ loader te sequential = Ok lte /\
    NoDup (ltr ++ lva ++ lte) /\
    (forall i, In i ltr -> (i < train_end)%nat) /\ (forall i, In i lva -> (train_end <= i < val_end)%nat) /\ (forall i, In i lte -> (val_end <= i < n)%nat) /\
    (train_end < length ltr + Z.to_nat batch)%nat /\ (val_end < train_end + length lva + Z.to_nat batch)%nat /\ (n < val_end + length lte + Z.to_nat batch)%nat.
Proof.
  intros B T V S1 P1 train_end val_end.
  assert (I0 : (0 <= INR n)%R) by apply pos_INR.
  assert (E1 : 1 <= py_int (train_size * INR n)) by (apply py_int_pos; exact P1).
  assert (E2 : py_int (train_size * INR n) <= py_int ((train_size + val_size) * INR n)) by (apply py_int_le; nra).
  assert (E3 : py_int ((train_size + val_size) * INR n) <= Z.of_nat n) by (apply py_int_below; nra).
  destruct (make_proper (Z.of_nat n) batch 0 (py_int (train_size * INR n))) as (tr & Q1 & D1 & D2 & D3 & D4 & D5); [lia|lia|lia|lia|].
  destruct (make_proper (Z.of_nat n) batch (py_int (train_size * INR n)) (py_int ((train_size + val_size) * INR n))) as (va & Q2 & F1 & F2 & F3 & F4 & F5); [lia|lia|lia|lia|].
  destruct (make_proper (Z.of_nat n) batch (py_int ((train_size + val_size) * INR n)) (Z.of_nat n)) as (te & Q3 & G1 & G2 & G3 & G4 & G5); [lia|lia|lia|lia|].
  destruct (proper_samples tr D1) as (k1 & l1 & L1 & K1 & A1 & Z1). destruct (proper_samples va F1) as (k2 & l2 & L2 & K2 & A2 & Z2). destruct (proper_samples te G1) as (k3 & l3 & L3 & K3 & A3 & Z3).
  rewrite D2, D3, D4 in *. rewrite F2, F3, F4 in *. rewrite G2, G3, G4 in *. fold train_end in A1, Z1, A2, Z2, K2. fold val_end in A2, Z2, A3, Z3, K3. rewrite Nat2Z.id in *. change (Z.to_nat 0) with 0%nat in *.
  exists tr, va, te, l1, l2, l3. unfold process_data_memmap. rewrite Q1. cbn [bind]. rewrite Q2. cbn [bind]. rewrite Q3. cbn [bind].
  assert (I1 : forall i, In i l1 -> (i < train_end)%nat) by (intros i Hi; rewrite K1 in Hi; apply in_seq in Hi; lia).
  assert (I2 : forall i, In i l2 -> (train_end <= i < val_end)%nat) by (intros i Hi; rewrite K2 in Hi; apply in_seq in Hi; lia).
  assert (I3 : forall i, In i l3 -> (val_end <= i < n)%nat) by (intros i Hi; rewrite K3 in Hi; apply in_seq in Hi; lia).
  split; [reflexivity|]. split; [exact L1|]. split; [exact L2|]. split; [exact L3|]. split.
  - apply nodup_app; [rewrite K1; apply seq_NoDup|apply nodup_app; [rewrite K2; apply seq_NoDup|rewrite K3; apply seq_NoDup|]|].
    + intros i H1 H2. specialize (I2 i H1). specialize (I3 i H2). lia.
    + intros i H1 H2. specialize (I1 i H1). apply in_app_or in H2. destruct H2 as [H2|H2]; [specialize (I2 i H2)|specialize (I3 i H2)]; lia.
  - split; [exact I1|]. split; [exact I2|]. split; [exact I3|]. rewrite K1, K2, K3, !seq_length. lia.
Qed.

(** With fewer than one training sample the training set is the whole file. *)
Lemma memmap_empty_train n batch train_size val_size : 0 < batch -> (0 <= train_size * INR n < 1)%R -> (0 <= val_size)%R -> (train_size + val_size <= 1)%R ->
  exists tr va te, process_data_memmap n batch train_size val_size = Ok (tr, va, te) /\ start_idx tr = 0 /\ end_idx tr = Z.of_nat n /\ proper tr.
Proof.
  intros B T V S1. unfold process_data_memmap. rewrite (py_int_zero _ T). unfold deeponet_dataset at 1. cbn [Z.eqb]. destruct (Z.eqb_spec batch 0); [lia|]. cbn [bind].
  unfold deeponet_dataset. destruct (Z.eqb_spec batch 0); [lia|]. cbn [bind]. eexists _, _, _. split; [reflexivity|]. cbn. split; [reflexivity|]. split; [reflexivity|]. unfold proper. cbn. lia.
Qed.
Lemma memmap_overlap : exists n train_size val_size tr va te l1 l2 i, (0 < train_size)%R /\ (0 < val_size)%R /\ (train_size + val_size < 1)%R /\
  process_data_memmap n 1 train_size val_size = Ok (tr, va, te) /\ loader tr sequential = Ok l1 /\ loader va sequential = Ok l2 /\ In i l1 /\ In i l2.
Proof.
  exists 4%nat, 0.2%R, 0.5%R. unfold process_data_memmap.
  assert (E1 : py_int (0.2 * INR 4) = 0). { apply py_int_zero. cbn [INR]. lra. }
  assert (E2 : py_int ((0.2 + 0.5) * INR 4) = 2).
  { destruct (py_int_nonneg ((0.2 + 0.5) * INR 4)) as (A & _); [cbn [INR]; lra|]. cbn [INR] in *. assert (1 < py_int ((0.2 + 0.5) * (1 + 1 + 1 + 1)) < 3); [|lia]. split; apply lt_IZR; lra. }
  rewrite E1, E2. eexists _, _, _, _, _, 0%nat. split; [lra|]. split; [lra|]. split; [lra|]. split; [reflexivity|]. split; [reflexivity|]. split; [reflexivity|]. vm_compute. auto.
Qed.

(** *** tuning *)
Lemma tune_split (n : nat) (batch : Z) train_size val_size : (0 < batch)%Z -> (0 <= train_size)%R -> (0 <= val_size)%R -> (train_size + val_size <= 1)%R ->
  let train_end := Z.to_nat (py_int (train_size * INR n)) in let val_end := Z.to_nat (py_int ((train_size + val_size) * INR n)) in
  match create_memmap_datasets n batch train_size val_size with
  | Ok (tr, va) => exists ltr lva, loader tr sequential = Ok ltr /\ loader va sequential = Ok lva /\ ltr <> [] /\ lva <> [] /\ NoDup (ltr ++ lva) /\
      (forall i, In i ltr -> (i < train_end)%nat) /\ (forall i, In i lva -> (train_end <= i < val_end)%nat) /\ batch_size tr = batch_size va /\ (1 <= batch_size tr <= batch)%Z
  | Raise e => e = ValueError /\ (train_end = 0%nat \/ train_end = val_end)
  end.
Proof.
  intros B T V S1 train_end val_end. unfold create_memmap_datasets.
  assert (I0 : (0 <= INR n)%R) by apply pos_INR.
  assert (E0 : 0 <= py_int (train_size * INR n)) by (apply py_int_nonneg; nra).
  assert (E2 : py_int (train_size * INR n) <= py_int ((train_size + val_size) * INR n)) by (apply py_int_le; nra).
  assert (E3 : py_int ((train_size + val_size) * INR n) <= Z.of_nat n) by (apply py_int_below; nra).
  unfold train_end, val_end. set (a := py_int (train_size * INR n)) in *. set (b := py_int ((train_size + val_size) * INR n)) in *.
  destruct (Z.ltb_spec (Z.min a (Z.max 0 (b - a))) 1) as [L|L]; [split; [reflexivity|lia]|].
  set (eff := Z.min batch _). assert (EF : 1 <= eff <= batch) by (unfold eff; lia). assert (EA : eff <= a /\ eff <= b - a) by (unfold eff; lia).
  destruct (make_proper (Z.of_nat n) eff 0 a) as (tr & Q1 & D1 & D2 & D3 & D4 & D5); [lia|lia|lia|lia|].
  destruct (make_proper (Z.of_nat n) eff a b) as (va & Q2 & F1 & F2 & F3 & F4 & F5); [lia|lia|lia|lia|].
  rewrite Q1. cbn [bind]. rewrite Q2. cbn [bind].
  destruct (dataset_run tr D1) as (_ & L1 & _ & N1). destruct (dataset_run va F1) as (_ & L2 & _ & N2). rewrite D2, D3, D4 in *. rewrite F2, F3, F4 in *.
  assert (1 <= num_batches tr) by nia. assert (1 <= num_batches va) by nia.
  assert (M1 : Z.of_nat (Z.to_nat (num_batches tr) * Z.to_nat eff) = num_batches tr * eff) by (rewrite Nat2Z.inj_mul, !Z2Nat.id by lia; reflexivity).
  assert (M2 : Z.of_nat (Z.to_nat (num_batches va) * Z.to_nat eff) = num_batches va * eff) by (rewrite Nat2Z.inj_mul, !Z2Nat.id by lia; reflexivity).
  set (m1 := (Z.to_nat (num_batches tr) * Z.to_nat eff)%nat) in *. set (m2 := (Z.to_nat (num_batches va) * Z.to_nat eff)%nat) in *.
  assert (1 <= m1)%nat by nia. assert (1 <= m2)%nat by nia.
  assert (I1 : forall i, In i (seq (Z.to_nat 0) m1) -> (i < Z.to_nat a)%nat) by (intros i Hi; apply in_seq in Hi; lia).
  assert (I2 : forall i, In i (seq (Z.to_nat a) m2) -> (Z.to_nat a <= i < Z.to_nat b)%nat) by (intros i Hi; apply in_seq in Hi; lia).
  eexists _, _. split; [exact L1|]. split; [exact L2|]. split; [destruct m1; [lia|discriminate]|]. split; [destruct m2; [lia|discriminate]|]. split.
  - apply nodup_app; [apply seq_NoDup|apply seq_NoDup|]. intros i U1 U2. specialize (I1 i U1). specialize (I2 i U2). lia.
  - split; [exact I1|]. split; [exact I2|]. split; [reflexivity|lia].
Qed.

(** *** the file *)
Lemma written_permutation split samples : (forall q l, Permutation (fst (split q l) ++ snd (split q l)) l) -> Permutation (written_order split samples) (seq 0 samples).
Proof.
  intros H. unfold written_order. pose proof (H 0.2%R (seq 0 samples)) as A. destruct (split 0.2%R (seq 0 samples)) as [train test]. cbn [fst snd] in A.
  pose proof (H 0.25%R train) as C. destruct (split 0.25%R train) as [train' val]. cbn [fst snd] in C. rewrite app_assoc. rewrite C. exact A.
Qed.
Lemma written_aligned (A B C : Type) split samples (flux : nat -> A) (labels : nat -> B) (y : nat -> C) : (forall q l, Permutation (fst (split q l) ++ snd (split q l)) l) ->
  Permutation (written_rows (written_order split samples) flux labels y) (map (fun i => (flux i, labels i, y i)) (seq 0 samples)).
Proof. intros H. unfold written_rows. apply Permutation_map, written_permutation, H. Qed.
(** No sample of the original data is used twice: positions in the file stand for distinct samples. *)
Lemma written_distinct split samples i j : (forall q l, Permutation (fst (split q l) ++ snd (split q l)) l) -> (i < samples)%nat -> (j < samples)%nat ->
  nth i (written_order split samples) 0%nat = nth j (written_order split samples) 0%nat -> i = j.
Proof.
  intros H Hi Hj E. pose proof (written_permutation split samples H) as P. assert (ND : NoDup (written_order split samples)) by (apply (Permutation_NoDup (Permutation_sym P)), seq_NoDup).
  assert (L : length (written_order split samples) = samples) by (rewrite (Permutation_length P); apply seq_length).
  apply (proj1 (NoDup_nth (written_order split samples) 0%nat) ND); rewrite ?L; assumption.
Qed.

Local Open Scope nat_scope.
Lemma dataset_batches n batch a b : 0 < batch -> a <= b -> b <= n -> 0 < b ->
  exists d, deeponet_dataset (Z.of_nat n) (Z.of_nat batch) (Z.of_nat a) (Some (Z.of_nat b)) = Ok d /\ dataset_len d = Ok ((b - a) / batch) /\
    loader d sequential = Ok (seq a ((b - a) / batch * batch)) /\
    forall k, k < (b - a) / batch -> getitem d k = seq (a + k * batch) batch /\ a + k * batch + batch <= b.
Proof.
  intros B A N P. destruct (make_proper (Z.of_nat n) (Z.of_nat batch) (Z.of_nat a) (Z.of_nat b)) as (d & Q & D1 & D2 & D3 & D4 & D5); [lia|lia|lia|lia|].
  exists d. split; [exact Q|]. destruct (dataset_run d D1) as (R1 & R2 & R3 & R4). destruct D1 as (_ & _ & _ & NB). rewrite D2, D3, D4 in *.
  assert (E : Z.to_nat (num_batches d) = (b - a) / batch). { rewrite NB. rewrite <- Nat2Z.inj_sub by lia. rewrite <- Nat2Z.inj_div. apply Nat2Z.id. }
  rewrite E, !Nat2Z.id in *. split; [exact R1|]. split; [exact R2|]. intros k Hk. split; [apply R3, Hk|].
  pose proof (Nat.mul_div_le (b - a) batch ltac:(lia)) as M. nia.
Qed.
Lemma dataset_default_end n batch a : deeponet_dataset n batch a None = deeponet_dataset n batch a (Some n).
Proof. unfold deeponet_dataset. destruct (Z.eqb_spec n 0) as [-> |]; reflexivity. Qed.
Lemma memmap_train_is_all n batch train_size val_size : 0 < batch -> (0 <= train_size * INR n < 1)%R -> (0 <= val_size)%R -> (train_size + val_size <= 1)%R ->
  exists tr va te, process_data_memmap n (Z.of_nat batch) train_size val_size = Ok (tr, va, te) /\ loader tr sequential = Ok (seq 0 (n / batch * batch)).
Proof.
  intros B T V S1. destruct (memmap_empty_train n (Z.of_nat batch) train_size val_size) as (tr & va & te & E & A1 & A2 & A3); [lia|exact T|exact V|exact S1|].
  exists tr, va, te. split; [exact E|]. destruct (dataset_run tr A3) as (_ & R & _). rewrite R, A1. f_equal. change (Z.to_nat 0) with 0.
  assert (BS : batch_size tr = Z.of_nat batch). { revert E. unfold process_data_memmap. unfold deeponet_dataset. destruct (Z.eqb (Z.of_nat batch) 0); [discriminate|]. cbn [bind]. intros E. injection E as <- _ _. reflexivity. }
  rewrite BS, Nat2Z.id. f_equal. f_equal. destruct A3 as (_ & _ & _ & NB). rewrite NB, A1, A2, BS, Z.sub_0_r. rewrite <- Nat2Z.inj_div. apply Nat2Z.id.
Qed.
