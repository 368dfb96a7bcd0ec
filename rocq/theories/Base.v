(** Shared vocabulary of the model: arrays, loops, exceptions, the
    convergence test.  Definitions only (lemmas are in BaseFacts.v). *)
From Coq Require Export Reals Arith List Bool.
Export ListNotations.
Open Scope R_scope.

(** One- and two- and three-dimensional numpy arrays.  The dimensions are kept
    beside the array (see [arr2], [arr3]); float64 is modelled by exact reals. *)
Definition vec := nat -> R.
Definition mat2 := nat -> nat -> R.
Definition mat3 := nat -> nat -> nat -> R.

(** [a[i] = v] *)
Definition upd (a : vec) (i : nat) (v : R) : vec :=
  fun j => if Nat.eqb j i then v else a j.

(** [a[:, g] = col] for an array indexed [cell, group] *)
Definition set_col (a : mat2) (g : nat) (col : vec) : mat2 :=
  fun i h => if Nat.eqb h g then col i else a i h.

(** [np.zeros] *)
Definition zeros : vec := fun _ => 0.
Definition zeros2 : mat2 := fun _ _ => 0.

(** [np.sum(f[0:n])] *)
Fixpoint rsum (n : nat) (f : nat -> R) : R :=
  match n with
  | O => 0
  | S k => rsum k f + f k
  end.

(** [for i in range(n): s = body i s] *)
Fixpoint for_up {St : Type} (n : nat) (body : nat -> St -> St) (s : St) : St :=
  match n with
  | O => s
  | S k => body k (for_up k body s)
  end.

(** [for i in range(n - 1, -1, -1): s = body i s] *)
Fixpoint for_down {St : Type} (n : nat) (body : nat -> St -> St) (s : St) : St :=
  match n with
  | O => s
  | S k => for_down k body (body k s)
  end.

(** Python exceptions that the modelled code raises.  [OutOfFuel] is not a
    Python exception: it marks a modelled while-loop whose fuel ran out, and
    is proved unreachable for each of them. *)
Inductive exn :=
| DiscontinuityAt0 | IndexError | TypeError | ValueError | AssertionError
| UnboundLocalError | KeyboardInterrupt | FileNotFound | KeyError
| ZeroDivisionError | AttributeError | RuntimeError | LinAlgError | NameError
| StopIteration | OutOfFuel.

Inductive outcome (A : Type) :=
| Ok (a : A)
| Raise (e : exn).
Arguments Ok {A} a.
Arguments Raise {A} e.

Definition bind {A B} (m : outcome A) (f : A -> outcome B) : outcome B :=
  match m with
  | Ok a => f a
  | Raise e => Raise e
  end.

Definition is_ok {A} (m : outcome A) : bool :=
  match m with Ok _ => true | Raise _ => false end.

(** [for i in range(n)] whose body may raise. *)
Fixpoint for_up_err {St : Type} (n : nat) (body : nat -> St -> outcome St)
    (s : St) : outcome St :=
  match n with
  | O => Ok s
  | S k => bind (for_up_err k body s) (body k)
  end.

(** A 2-D array with its dimensions: shape (rows, cols). *)
Record arr2 := mkArr2 { cols2 : nat; at2 : mat2 }.
(** A 3-D array: shape (rows, d3b, d3c). *)
Record arr3 := mkArr3 { d3b : nat; d3c : nat; at3 : mat3 }.

(** [0 if a.shape[k] == 1 else n] : numpy axis that may be broadcast. *)
Definition bidx (dim n : nat) : nat := if Nat.eqb dim 1 then 0%nat else n.

(** [np.any(f[0:n] == 0)] *)
Fixpoint has_zero (n : nat) (f : vec) : bool :=
  match n with
  | O => false
  | S k => if Req_EM_T (f k) 0 then true else has_zero k f
  end.

Fixpoint has_zero2 (n m : nat) (f : mat2) : bool :=
  match n with
  | O => false
  | S k => orb (has_zero m (f k)) (has_zero2 k m f)
  end.

(** [np.linalg.norm((new - old) / new / cells)].  A zero entry of [new] makes
    the numpy result inf or nan; [None] stands for both. *)
Definition rel_change (cells : nat) (new old : vec) : option R :=
  if has_zero cells new then None
  else Some (sqrt (rsum cells (fun i => Rsqr ((new i - old i) / new i / INR cells)))).

Definition rel_change2 (cells groups : nat) (new old : mat2) : option R :=
  if has_zero2 cells groups new then None
  else Some (sqrt (rsum cells (fun i => rsum groups (fun g =>
         Rsqr ((new i g - old i g) / new i g / INR cells))))).

(** [change < tol]; false for inf and nan. *)
Definition below (change : option R) (tol : R) : bool :=
  match change with
  | Some c => if Rlt_dec c tol then true else false
  | None => false
  end.

(** The iteration pattern used by every fixed-point loop of the code:
<<
    converged = False; count = count0
    while not converged:
        new = sweep(old)
        change = ...(new, old)
        converged = (change < tol) or (count >= cap)
        count += 1
        old = new.copy()
    return new
>>
    Returns the last iterate together with the number of sweeps done.  [fuel]
    only serves Coq's termination check. *)
Fixpoint iterate {St : Type} (fuel : nat) (sweep : St -> outcome St)
    (change : St -> St -> option R) (tol : R) (cap count : nat) (old : St)
  : outcome St :=
  match fuel with
  | O => Raise OutOfFuel
  | S f =>
      bind (sweep old) (fun new =>
        if orb (below (change new old) tol) (Nat.leb cap count)
        then Ok new
        else iterate f sweep change tol cap (S count) new)
  end.
