(** Model of the data preparation, normalization and metrics of discrete1/ml/tools.py:21-359, of the in-memory
    split and the grid search of discrete1/ml/train.py:56-316 and of the prediction wrappers
    discrete1/ml/predict.py.  Definitions only. *)
From Coq Require Import Reals List Bool String.
From Verif Require Import Base MlfModel MltModel.
Local Open Scope R_scope.

(** *** floats *)
Inductive fnum := Num (x : R) | NaN | PosInf | NegInf.
(** np.nan_to_num(..., nan=0.0, posinf=0.0, neginf=0.0) *)
Definition nan_to_num (v : fnum) : R := match v with Num x => x | _ => 0 end.
(** float division *)
Definition fdiv (a b : R) : fnum :=
  if Req_EM_T b 0 then (if Req_EM_T a 0 then NaN else if Rlt_dec 0 a then PosInf else NegInf) else Num (a / b).
(** 1 - v *)
Definition one_minus (v : fnum) : fnum :=
  match v with Num x => Num (1 - x) | NaN => NaN | PosInf => NegInf | NegInf => PosInf end.

(** *** tools.py:215-247 min_max_normalization *)
(** np.max / np.min of a row with k+1 entries *)
Fixpoint row_max (k : nat) (f : nat -> R) : R := match k with O => f O | S j => Rmax (row_max j f) (f (S j)) end.
Fixpoint row_min (k : nat) (f : nat -> R) : R := match k with O => f O | S j => Rmin (row_min j f) (f (S j)) end.
Record normalized := mkNormalized { ndata : mat2; high : vec; low : vec }.
(** [data]: rows x cols floats; np.max over an empty axis raises ValueError.  The number of rows plays no part. *)
Definition min_max_normalization (cols : nat) (data : nat -> nat -> fnum) : outcome normalized :=
  match cols with
  | O => Raise ValueError
  | S k =>
      let clean := fun i j => nan_to_num (data i j) in
      let hi := fun i => row_max k (clean i) in
      let lo := fun i => row_min k (clean i) in
      Ok (mkNormalized (fun i j => nan_to_num (fdiv (clean i j - lo i) (hi i - lo i))) hi lo)
  end.

(** *** tools.py:250-265 root_normalization: data ** root, one element *)
Definition np_power (x root : R) : fnum :=
  if Rlt_dec 0 x then Num (Rpower x root)
  else if Req_EM_T x 0 then (if Rlt_dec 0 root then Num 0 else if Req_EM_T root 0 then Num 1 else PosInf)
  else if Req_EM_T root (IZR (Int_part root)) then Num (powerRZ x (Int_part root)) else NaN.

(** *** tools.py:268-359: one row (axis -1) of n >= 1 targets *)
Definition mean (n : nat) (f : vec) : R := rsum n f / INR n.
Definition variance (n : nat) (f : vec) : R := mean n (fun i => (f i - mean n f)²).
Definition mean_absolute_error (n : nat) (y_true y_pred : vec) : R := mean n (fun i => Rabs (y_true i - y_pred i)).
Definition mean_squared_error (n : nat) (y_true y_pred : vec) : R := mean n (fun i => (y_true i - y_pred i)²).
Definition root_mean_squared_error (n : nat) (y_true y_pred : vec) : R := sqrt (mean_squared_error n y_true y_pred).
Definition explained_variance_score (n : nat) (y_true y_pred : vec) : R :=
  nan_to_num (one_minus (fdiv (variance n (fun i => y_true i - y_pred i)) (variance n y_true))).
Definition r2_score (n : nat) (y_true y_pred : vec) : R :=
  let numerator := rsum n (fun i => (y_true i - y_pred i)²) in
  let denominator := rsum n (fun i => (y_true i - mean n y_true)²) in
  nan_to_num (one_minus (fdiv numerator denominator)).

(** *** tools.py:21-74 combine_flux_reaction *)
(** One sample: label, fluxes and rates by group. *)
Record sample := mkSample { label : R; inputs : vec; targets : vec }.
Definition one_sample (groups : nat) (flux : mat3) (xs_matrix : mat3) (medium_map : nat -> nat) (labels : vec) (cc ii : nat) : sample :=
  mkSample (labels ii) (fun g => flux cc ii g) (fun g => rsum groups (fun h => flux cc ii h * xs_matrix (medium_map ii) g h)).
(** np.sum(data[..., 1:], axis=(0, 2)) != 0 *)
Definition keeps (groups : nat) (s : sample) : bool :=
  if Req_EM_T (rsum groups (inputs s) + rsum groups (targets s)) 0 then false else true.
Definition all_samples (iterations cells groups : nat) (flux xs_matrix : mat3) (medium_map : nat -> nat) (labels : vec) : list sample :=
  flat_map (fun cc => map (one_sample groups flux xs_matrix medium_map labels cc) (seq 0 cells)) (seq 0 iterations).
Definition combine_flux_reaction (iterations cells groups : nat) (flux xs_matrix : mat3) (medium_map : nat -> nat) (labels : vec) : list sample :=
  filter (keeps groups) (all_samples iterations cells groups flux xs_matrix medium_map labels).
(** tools.py:196-212 clean_data_scatter: the files one after another; [files]: iterations and flux of each. *)
Definition clean_data_scatter (cells groups : nat) (files : list (nat * mat3)) (xs_matrix : mat3) (medium_map : nat -> nat) (labels : vec) : list sample :=
  flat_map (fun f => combine_flux_reaction (fst f) cells groups (snd f) xs_matrix medium_map labels) files.

(** *** tools.py:77-123 _split_by_material *)
Definition isin (x : R) (l : list R) : bool := existsb (fun y => if Req_EM_T x y then true else false) l.
Section Split.
Context {A : Type} (label_of : A -> R).
(** The files as a list of (name, rows), the latest first; np.save replaces a file of the same name, so the
    contents of a file are those of its first entry. *)
Fixpoint split_loop (rows : list A) (splits : list (string * list R)) (counts : nat) (files : list (string * list A)) : nat * list (string * list A) :=
  match splits with
  | [] => (counts, files)
  | (name, labels) :: rest =>
      match filter (fun a => isin (label_of a) labels) rows with
      | [] => split_loop rows rest counts files
      | part => split_loop rows rest (counts + List.length part) ((name, part) :: files)
      end
  end.
(** The files written (also before the assertion fails) and the outcome. *)
Definition split_by_material (rows : list A) (splits : list (string * list R)) : list (string * list A) * outcome unit :=
  let (counts, files) := split_loop rows splits 0 [] in
  (files, if Nat.eqb counts (List.length rows) then Ok tt else Raise AssertionError).
(** Contents of a file. *)
Definition contents (files : list (string * list A)) (name : string) : option (list A) :=
  match find (fun f => String.eqb (fst f) name) files with Some f => Some (snd f) | None => None end.
End Split.

(** *** train.py:259-316 process_data *)
(** [split q l]: sklearn's train_test_split with test_size q; (train part, test part).  It raises ValueError
    when the train part would be empty (not modelled). *)
Definition process_data {A} (split : R -> list A -> list A * list A) (rows : list A) : list A * list A * list A :=
  let (rest, test) := split (2 / 10) rows in
  let (train, val) := split (1 / 4) rest in (train, val, test).

(** *** train.py:56-161 djinn_regression *)
(** Keyword arguments of sklearn.model_selection.train_test_split; any other name raises TypeError. *)
Definition split_keywords : list string := ["test_size"; "train_size"; "random_state"; "shuffle"; "stratify"]%string.
Definition train_test_split_call {A} (keywords : list string) (r : A) : outcome A :=
  if forallb (fun k => existsb (String.eqb k) split_keywords) keywords then Ok r else Raise TypeError.
Definition model_name (ntrees maxdepth : nat) : string :=
  ("model_" ++ zfill 3 (str_nat ntrees) ++ zfill 3 (str_nat maxdepth))%string.
(** The models the loop saves once the data are split (itertools.product order), by name. *)
Definition grid_models (trees depth : list nat) : list (string * (nat * nat)) :=
  map (fun p => (model_name (fst p) (snd p), p)) (list_prod trees depth).
Definition djinn_regression (trees depth : list nat) : outcome (list (string * (nat * nat))) :=
  bind (train_test_split_call ["test_size"; "seed"]%string tt) (fun _ => Ok (grid_models trees depth)).

(** *** predict.py *)
Definition rows := list (list R).
(** A transformer may work in place: its result and its argument afterwards. *)
Definition transform := rows -> rows * rows.
(** np.hstack of two 2-D arrays; np.tile(label, (n, 1)) *)
Fixpoint hstack_rows (a b : rows) : rows :=
  match a, b with x :: a', y :: b' => (x ++ y) :: hstack_rows a' b' | _, _ => [] end.
Definition hstack (a b : rows) : outcome rows :=
  if Nat.eqb (List.length a) (List.length b) then Ok (hstack_rows a b) else Raise ValueError.
Definition tile (label : list R) (n : nat) : rows := repeat label n.
(** predict.py:183-215 DJINN.predict: the predictions and the caller's array afterwards. *)
Definition djinn_predict (model : rows -> rows) (transformer detransformer : option transform) (flux : rows) (label : option (list R)) : outcome rows * rows :=
  let x := match transformer with Some t => fst (t flux) | None => flux end in   (* t works on a copy *)
  let pred := match label with
              | Some l => bind (hstack (tile l (List.length x)) x) (fun a => Ok (model a))
              | None => Ok (model x)
              end in
  (match detransformer with Some d => bind pred (fun y => Ok (fst (d y))) | None => pred end, flux).
(** predict.py:376-430 AutoDJINN.predict *)
Definition auto_predict (encode model decode : rows -> rows) (transformer detransformer : transform) (flux : rows) (label : option (list R)) : outcome rows * rows :=
  let x := fst (transformer flux) in
  let decoded := match label with
              | Some l => let labels := tile l (List.length x) in
                  bind (hstack labels x) (fun a => bind (hstack labels (encode a)) (fun b => Ok (decode (model b))))
              | None => Ok (decode (model (encode x)))
              end in
  (bind decoded (fun y => Ok (fst (detransformer y))), flux).
(** predict.py:500-534 DeepONet.predict: no copy; one batch with all rows (batch size 0 is rejected, see
    [predict] in MltModel); torch's TensorDataset asserts equal lengths. *)
Definition deeponet_predict (network : list (list R * list R) -> rows) (transformer detransformer : transform) (flux : rows) (label : list R) : outcome rows * rows :=
  let labels := tile label (List.length flux) in
  let (scaled, flux') := transformer flux in
  (if Nat.eqb (List.length scaled) (List.length labels) then
     bind (predict network (List.length scaled) (combine scaled labels)) (fun y => Ok (fst (detransformer y)))
   else Raise AssertionError, flux').
(** predict.py:78-107 load_djinn_models, sequence form: a path or 0. *)
Inductive model_path := Zero | Path (name : string).
Definition load_djinn_models {M} (load : string -> M) (paths : list model_path) : list (option M) :=
  map (fun p => match p with Zero => None | Path s => Some (load s) end) paths.
