(** Model of the file naming (discrete1/ml/tools.py:391-455) and of the memmap datasets
    (discrete1/ml/data.py, discrete1/ml/train.py:318-403, discrete1/ml/tune.py:197-226).  Definitions only. *)
From Coq Require Import Reals ZArith String Ascii DecimalString List.
From Verif Require Import Base.
Local Open Scope string_scope.
Local Open Scope nat_scope.

(** *** tools.py:391-455 update_file_name *)
(** [string.ascii_lowercase] *)
Definition alphabet : string := "abcdefghijklmnopqrstuvwxyz".
(** [s[i]] for i >= 0 *)
Definition char_at (s : string) (i : nat) : outcome string :=
  match String.get i s with Some c => Ok (String c "") | None => Raise IndexError end.
(** [s[i:j]] for 0 <= i *)
Definition string_slice (s : string) (i j : nat) : string := substring i (j - i) s.

(** The local variables of _alphabet_generator (lines 392-396). *)
Record letters_state := mkLetters { idx1 : nat; idx2 : nat; tmp : string; letter : nat }.
Definition letters_start : letters_state := mkLetters 0 1 "" 0.
(** One [next] (lines 398-405). *)
Definition letters_next (st : letters_state) : outcome (string * letters_state) :=
  bind (if Nat.eqb (idx2 st) (String.length alphabet + 1)
        then bind (char_at alphabet (letter st)) (fun c => Ok (mkLetters 0 1 c (S (letter st))))
        else Ok st)
    (fun st1 => Ok (tmp st1 ++ string_slice alphabet (idx1 st1) (idx2 st1),
                    mkLetters (S (idx1 st1)) (S (idx2 st1)) (tmp st1) (letter st1))).

(** [str(n)] and [s.zfill(fill)] (a negative fill acts as 0). *)
Definition str_nat (n : nat) : string := NilEmpty.string_of_uint (Nat.to_uint n).
Fixpoint zero_chars (k : nat) : string := match k with O => "" | S j => String "0" (zero_chars j) end.
Definition zfill (fill : nat) (s : string) : string := zero_chars (fill - String.length s) ++ s.
(** lines 408-413 _number_generator *)
Definition number_next (fill : nat) (idx : nat) : outcome (string * nat) := Ok (zfill fill (str_nat idx), S idx).

(** lines 447-455: the loop.  [path_exists] is os.path.exists; the file system does not change meanwhile. *)
Fixpoint search {St} (fuel : nat) (next : St -> outcome (string * St)) (path_exists : string -> bool)
    (file_name fmt : string) (st : St) (tmp_name : string) : outcome string :=
  if path_exists (tmp_name ++ "." ++ fmt) then
    match fuel with
    | O => Raise OutOfFuel
    | S f => bind (next st) (fun p => search f next path_exists file_name fmt (snd p) (file_name ++ fst p))
    end
  else Ok (tmp_name ++ "." ++ fmt).
(** tools.py:416-455.  [None]: the Python value None. *)
Definition update_file_name (fuel : nat) (path_exists : string -> bool) (file_name fmt label : string) (fill : nat)
  : outcome (option string) :=
  if String.eqb label "alphabet" then
    bind (search fuel letters_next path_exists file_name fmt letters_start file_name) (fun s => Ok (Some s))
  else if String.eqb label "number" then
    bind (search fuel (number_next fill) path_exists file_name fmt 1 file_name) (fun s => Ok (Some s))
  else Ok None.

(** *** data.py:99-182 DeepONetDataset *)
Local Open Scope Z_scope.
Record dataset := mkDataset { shape : Z; batch_size : Z; start_idx : Z; end_idx : Z; num_batches : Z }.
(** data.py:102-137 __init__: [end_idx or shape[0]] (line 132) takes 0 for a missing value. *)
Definition deeponet_dataset (n batch start : Z) (end_ : option Z) : outcome dataset :=
  let last := match end_ with Some z => if Z.eqb z 0 then n else z | None => n end in
  if Z.eqb batch 0 then Raise ZeroDivisionError
  else Ok (mkDataset n batch start last ((last - start) / batch)).
(** data.py:146-154 __len__; len() rejects a negative value. *)
Definition dataset_len (d : dataset) : outcome nat :=
  if num_batches d <? 0 then Raise ValueError else Ok (Z.to_nat (num_batches d)).
(** The indices selected by [a[i:j]] in an array of n entries. *)
Definition clamp (n z : Z) : Z := if z <? 0 then Z.max 0 (z + n) else Z.min z n.
Definition array_slice (n i j : Z) : list nat :=
  seq (Z.to_nat (clamp n i)) (Z.to_nat (clamp n j - clamp n i)).
(** data.py:156-182 __getitem__: the samples of one batch. *)
Definition getitem (d : dataset) (batch_idx : nat) : list nat :=
  let start := start_idx d + Z.of_nat batch_idx * batch_size d in
  array_slice (shape d) start (start + batch_size d).

(** [int(x)] *)
Definition py_int (x : R) : Z := if Rlt_dec x 0 then (- Int_part (- x))%Z else Int_part x.

(** train.py:358-389 process_data_memmap: the three datasets. *)
Definition process_data_memmap (n : nat) (batch : Z) (train_size val_size : R) : outcome (dataset * dataset * dataset) :=
  let train_end := py_int (train_size * INR n) in
  let val_end := py_int ((train_size + val_size) * INR n) in
  bind (deeponet_dataset (Z.of_nat n) batch 0 (Some train_end)) (fun tr =>
  bind (deeponet_dataset (Z.of_nat n) batch train_end (Some val_end)) (fun va =>
  bind (deeponet_dataset (Z.of_nat n) batch val_end (Some (Z.of_nat n))) (fun te => Ok (tr, va, te)))).

(** tune.py:197-226 _create_memmap_datasets *)
Definition create_memmap_datasets (n : nat) (batch : Z) (train_size val_size : R) : outcome (dataset * dataset) :=
  let train_end := py_int (train_size * INR n) in
  let val_end := py_int ((train_size + val_size) * INR n) in
  let max_batch := Z.min train_end (Z.max 0 (val_end - train_end)) in
  if max_batch <? 1 then Raise ValueError
  else
    let effective := Z.min batch max_batch in
    bind (deeponet_dataset (Z.of_nat n) effective 0 (Some train_end)) (fun tr =>
    bind (deeponet_dataset (Z.of_nat n) effective train_end (Some val_end)) (fun va => Ok (tr, va))).

(** One pass of a DataLoader over a dataset in the order [order] of its batch numbers (train.py:392-398,
    data.py:185-216: the sampler gives a random permutation, the others are sequential). *)
Definition loader (d : dataset) (order : nat -> list nat) : outcome (list nat) :=
  bind (dataset_len d) (fun len => Ok (concat (map (getitem d) (order len)))).
Definition sequential (len : nat) : list nat := seq 0 len.

(** data.py:16-69 deeponet_memmap: the order in which the samples are written.  [split] is sklearn's
    train_test_split on an index list (test_size, list) -> (train, test). *)
Definition written_order (split : R -> list nat -> list nat * list nat) (samples : nat) : list nat :=
  let (train, test) := split 0.2%R (seq 0 samples) in
  let (train', val) := split 0.25%R train in
  (train' ++ val ++ test)%list.
(** The rows written (lines 59-62): inputs, labels and targets of the same sample. *)
Definition written_rows {A B C} (order : list nat) (flux : nat -> A) (labels : nat -> B) (y : nat -> C) : list (A * B * C) :=
  map (fun i => (flux i, labels i, y i)) order.
