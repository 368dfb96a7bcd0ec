(** Specification vocabulary for DMD acceleration, independent of the model's code. *)
From Verif Require Import Base MgModel MgSpec DmdModel.
Open Scope R_scope.

(** [U S Vt] is a thin singular value decomposition of the (n, m) matrix [A]. *)
Definition is_svd (n m : nat) (A : mat2) (f : mat2 * vec * mat2) : Prop :=
  let '(U, sv, Vt) := f in
  let q := Nat.min n m in
  (forall s k, (s < n)%nat -> (k < m)%nat -> A s k = rsum q (fun j => U s j * sv j * Vt j k)) /\
  (forall a b, (a < q)%nat -> (b < q)%nat -> rsum n (fun s => U s a * U s b) = if Nat.eqb a b then 1 else 0) /\
  (forall a b, (a < q)%nat -> (b < q)%nat -> rsum m (fun k => Vt a k * Vt b k) = if Nat.eqb a b then 1 else 0) /\
  (forall j, (j < q)%nat -> 0 <= sv j) /\
  (forall i j, (i <= j)%nat -> (j < q)%nat -> sv j <= sv i).

(** energy of the modes from [k] on *)
Definition tail (q : nat) (sv : vec) (k : nat) : R := rsum (q - k) (fun j => sv (k + j)%nat ^ 2).

(** The first [r] modes are those kept: the modes after which more than a relative energy of 1e-9 is
    left, or, if there is none, all with a positive singular value. *)
Definition significant (q : nat) (sv : vec) (j : nat) : Prop := / 10 ^ 9 * tail q sv 0 < tail q sv (j + 1).
Definition keeps (q : nat) (sv : vec) (r : nat) : Prop :=
  (r <= q)%nat /\
  (((exists j, (j < q)%nat /\ significant q sv j) /\ forall j, (j < q)%nat -> ((j < r)%nat <-> significant q sv j)) \/
   ((forall j, (j < q)%nat -> ~ significant q sv j) /\ forall j, (j < q)%nat -> ((j < r)%nat <-> 0 < sv j))).

(** the iterates [x 0, x 1, ...] of [x -> A x + b] in dimension [n] *)
Definition apply (n : nat) (A : mat2) (v : vec) : vec := fun s => rsum n (fun t => A s t * v t).
Definition linear_history (n : nat) (A : mat2) (b : vec) (K : nat) (x : nat -> vec) : Prop :=
  forall k s, (k < K)%nat -> (s < n)%nat -> x (S k) s = apply n A (x k) s + b s.

Definition fixed_point (n : nat) (A : mat2) (b x : vec) : Prop :=
  forall s, (s < n)%nat -> apply n A x s + b s = x s.

(** the difference matrices handed to dmd: columns [0 .. K-2] *)
Definition snapshots (n K : nat) (x : nat -> vec) (y_minus y_plus : mat2) : Prop :=
  forall s k, (s < n)%nat -> (k < K - 1)%nat ->
    y_minus s k = x (k + 1)%nat s - x k s /\ y_plus s k = x (k + 2)%nat s - x (k + 1)%nat s.

(** the (cells, groups) array holds the vector [v] in row-major order *)
Definition holds (cells groups : nat) (a : mat2) (v : vec) : Prop :=
  forall i g, (i < cells)%nat -> (g < groups)%nat -> a i g = v (i * groups + g)%nat.

(** [v] is a combination of the first [r] columns of [U] *)
Definition in_span (n r : nat) (U : mat2) (v : vec) : Prop :=
  exists c : vec, forall s, (s < n)%nat -> v s = rsum r (fun j => U s j * c j).

(** What a run with [warm] warm-up sweeps and [K] snapshots does: the iterates [x 0, x 1, ...] of the
    sweep from the given flux, up to and including the first whose relative change is below 1e-8,
    which is returned; if none of the first [warm + K] is, the last one is extrapolated from the
    differences of the last [K + 1] iterates. *)
Definition accelerated_run (svd : nat -> nat -> mat2 -> mat2 * vec * mat2) (sweep : mat2 -> outcome mat2)
    (cells groups : nat) (start : mat2) (warm K : nat) (flux : mat2) : Prop :=
  exists x n, x 0%nat = start /\ (n <= warm + K)%nat /\
    (forall k, (k < n)%nat -> sweep (x k) = Ok (x (S k))) /\
    (forall k, (S k < n)%nat -> ~ settled2 cells groups (x (S k)) (x k) (/ 10 ^ 8)) /\
    (((0 < n)%nat /\ flux = x n /\ settled2 cells groups (x n) (x (n - 1)%nat) (/ 10 ^ 8)) \/
     (n = (warm + K)%nat /\ (2 <= K)%nat /\
      ~ settled2 cells groups (x n) (x (n - 1)%nat) (/ 10 ^ 8) /\
      exists y_minus y_plus, dmd svd cells groups (x n) y_minus y_plus K = Ok flux /\
        forall i g k, (g < groups)%nat -> (k < K - 1)%nat ->
          y_minus (i * groups + g)%nat k = x (warm + k + 1)%nat i g - x (warm + k)%nat i g /\
          y_plus (i * groups + g)%nat k = x (warm + k + 2)%nat i g - x (warm + k + 1)%nat i g)).
