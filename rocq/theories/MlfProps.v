(** C66, C67: file names, memmap datasets. *)
From Coq Require Import Reals ZArith Lia Lra String List Permutation.
From Verif Require Import Base MlfModel MlfSpec MlfFacts MlfFacts2 MlfWitness.
Local Open Scope string_scope.
Local Open Scope nat_scope.

(** ** C66 update_file_name *)
Theorem C66_numbers :
  forall path_exists files file_name fmt fill fuel,
  finitely_many path_exists files -> length files <= fuel ->
  exists k v, is_number_version fill k v /\ path_exists (versioned file_name v fmt) = false /\
    (forall i u, i < k -> is_number_version fill i u -> path_exists (versioned file_name u fmt) = true) /\
    update_file_name fuel path_exists file_name fmt "number" fill = Ok (Some (versioned file_name v fmt)).
Proof. exact update_numbers. Qed.
Print Assumptions C66_numbers.
Theorem C66_letters_partial :
  forall fuel path_exists file_name fmt fill,
  702 < fuel ->
  (exists k, k <= 702 /\ path_exists (versioned file_name (letter_version k) fmt) = false /\ (forall i, i < k -> path_exists (versioned file_name (letter_version i) fmt) = true) /\
    update_file_name fuel path_exists file_name fmt "alphabet" fill = Ok (Some (versioned file_name (letter_version k) fmt))) \/
  ((forall i, i <= 702 -> path_exists (versioned file_name (letter_version i) fmt) = true) /\
    update_file_name fuel path_exists file_name fmt "alphabet" fill = Raise IndexError).
Proof. exact update_letters. Qed.
Print Assumptions C66_letters_partial.
Theorem C66_other_label_refuted :
  forall fuel path_exists file_name fmt label fill,
  label <> "alphabet" -> label <> "number" ->
  update_file_name fuel path_exists file_name fmt label fill = Ok None.
Proof. exact update_other_label. Qed.
Print Assumptions C66_other_label_refuted.
Theorem C66_letters_run_out_refuted :
  forall file_name fmt,
  exists files, length files = 703 /\
  forall fuel fill, 702 < fuel -> update_file_name fuel (fun s => existsb (String.eqb s) files) file_name fmt "alphabet" fill = Raise IndexError.
Proof. exact letters_run_out. Qed.
Print Assumptions C66_letters_run_out_refuted.
Example C66_case : finitely_many some_exists some_files /\
  update_file_name 703 some_exists "run" "npz" "alphabet" 3 = Ok (Some "runb.npz") /\
  update_file_name 4 some_exists "run" "npz" "number" 3 = Ok (Some "run003.npz") /\ update_file_name 4 some_exists "walk" "npz" "number" 3 = Ok (Some "walk.npz").
Proof. exact names_demo. Qed.

(** ** C67 memmap datasets *)
Theorem C67_batches :
  forall n batch a b,
  0 < batch -> a <= b -> b <= n -> 0 < b ->
  exists d, deeponet_dataset (Z.of_nat n) (Z.of_nat batch) (Z.of_nat a) (Some (Z.of_nat b)) = Ok d /\ dataset_len d = Ok ((b - a) / batch) /\
    loader d sequential = Ok (seq a ((b - a) / batch * batch)) /\
    forall k, k < (b - a) / batch -> getitem d k = seq (a + k * batch) batch /\ a + k * batch + batch <= b.
Proof. exact dataset_batches. Qed.
Print Assumptions C67_batches.
Theorem C67_default_end :
  forall n batch a,
  deeponet_dataset n batch a None = deeponet_dataset n batch a (Some n).
Proof. exact dataset_default_end. Qed.
Print Assumptions C67_default_end.
Theorem C67_any_order :
  forall d order len,
  dataset_len d = Ok len -> Permutation (order len) (seq 0 len) ->
  exists l l0, loader d order = Ok l /\ loader d sequential = Ok l0 /\ Permutation l l0.
Proof. exact loader_permutation. Qed.
Print Assumptions C67_any_order.
Theorem C67_split_partial :
  forall (n : nat) (batch : Z) train_size val_size,
  (0 < batch)%Z -> (0 <= train_size)%R -> (0 <= val_size)%R -> (train_size + val_size <= 1)%R -> (1 <= train_size * INR n)%R ->
  let train_end := Z.to_nat (py_int (train_size * INR n)) in let val_end := Z.to_nat (py_int ((train_size + val_size) * INR n)) in
  exists tr va te ltr lva lte, process_data_memmap n batch train_size val_size = Ok (tr, va, te) /\
    loader tr sequential = Ok ltr /\ loader va sequential = Ok lva /\ loader te sequential = Ok lte /\
    NoDup (ltr ++ lva ++ lte) /\
    (forall i, In i ltr -> (i < train_end)%nat) /\ (forall i, In i lva -> (train_end <= i < val_end)%nat) /\ (forall i, In i lte -> (val_end <= i < n)%nat) /\
    (train_end < length ltr + Z.to_nat batch)%nat /\ (val_end < train_end + length lva + Z.to_nat batch)%nat /\ (n < val_end + length lte + Z.to_nat batch)%nat.
Proof. exact memmap_split. Qed.
Print Assumptions C67_split_partial.
Theorem C67_tuning :
  forall (n : nat) (batch : Z) train_size val_size,
  (0 < batch)%Z -> (0 <= train_size)%R -> (0 <= val_size)%R -> (train_size + val_size <= 1)%R ->
  let train_end := Z.to_nat (py_int (train_size * INR n)) in let val_end := Z.to_nat (py_int ((train_size + val_size) * INR n)) in
  match create_memmap_datasets n batch train_size val_size with
  | Ok (tr, va) => exists ltr lva, loader tr sequential = Ok ltr /\ loader va sequential = Ok lva /\ ltr <> [] /\ lva <> [] /\ NoDup (ltr ++ lva) /\
      (forall i, In i ltr -> (i < train_end)%nat) /\ (forall i, In i lva -> (train_end <= i < val_end)%nat) /\ batch_size tr = batch_size va /\ (1 <= batch_size tr <= batch)%Z
  | Raise e => e = ValueError /\ (train_end = 0%nat \/ train_end = val_end)
  end.
Proof. exact tune_split. Qed.
Print Assumptions C67_tuning.
Theorem C67_file_rows :
  forall (A B C : Type) split samples (flux : nat -> A) (labels : nat -> B) (y : nat -> C),
  (forall q l, Permutation (fst (split q l) ++ snd (split q l)) l) ->
  Permutation (written_rows (written_order split samples) flux labels y) (map (fun i => (flux i, labels i, y i)) (seq 0 samples)).
Proof. exact written_aligned. Qed.
Print Assumptions C67_file_rows.
Theorem C67_file_distinct :
  forall split samples i j,
  (forall q l, Permutation (fst (split q l) ++ snd (split q l)) l) -> (i < samples)%nat -> (j < samples)%nat ->
  nth i (written_order split samples) 0%nat = nth j (written_order split samples) 0%nat -> i = j.
Proof. exact written_distinct. Qed.
Print Assumptions C67_file_distinct.
Theorem C67_train_is_all_refuted :
  forall n batch train_size val_size,
  0 < batch -> (0 <= train_size * INR n < 1)%R -> (0 <= val_size)%R -> (train_size + val_size <= 1)%R ->
  exists tr va te, process_data_memmap n (Z.of_nat batch) train_size val_size = Ok (tr, va, te) /\ loader tr sequential = Ok (seq 0 (n / batch * batch)).
Proof. exact memmap_train_is_all. Qed.
Print Assumptions C67_train_is_all_refuted.
Theorem C67_overlap_refuted :
  exists n train_size val_size tr va te l1 l2 i, (0 < train_size)%R /\ (0 < val_size)%R /\ (train_size + val_size < 1)%R /\
  process_data_memmap n 1 train_size val_size = Ok (tr, va, te) /\ loader tr sequential = Ok l1 /\ loader va sequential = Ok l2 /\ In i l1 /\ In i l2.
Proof. exact memmap_overlap. Qed.
Print Assumptions C67_overlap_refuted.
Example C67_case : (1 <= 0.6 * INR 10)%R /\ exists tr va te, process_data_memmap 10 2 0.6 0.2 = Ok (tr, va, te) /\
  loader tr sequential = Ok [0; 1; 2; 3; 4; 5]%nat /\ loader va sequential = Ok [6; 7]%nat /\ loader te sequential = Ok [8; 9]%nat.
Proof. exact split_demo. Qed.
