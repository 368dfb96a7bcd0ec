(** Specification vocabulary for the depletion solver, independent of the model's code. *)
From Coq Require Import ZArith.
From Verif Require Import Base.
Open Scope R_scope.

(** (A h - theta I) (zr + i zi) = y, the complex system of one pole written in real and imaginary
    parts. *)
Definition complex_system (n : nat) (A : mat2) (h : R) (theta : R * R) (y zr zi : vec) : Prop :=
  forall i, (i < n)%nat ->
    h * rsum n (fun j => A i j * zr j) - fst theta * zr i + snd theta * zi i = y i /\
    h * rsum n (fun j => A i j * zi j) - fst theta * zi i - snd theta * zr i = 0.

(** The shift [theta] is an eigenvalue of A h. *)
Definition resonant (n : nat) (A : mat2) (h : R) (theta : R * R) : Prop :=
  exists zr zi, (exists j, (j < n)%nat /\ (zr j <> 0 \/ zi j <> 0)) /\
    complex_system n A h theta (fun _ => 0) zr zi.

(** The incomplete partial fractions of the documentation: from [y], pole after pole, to [y'] (on the
    first [n] entries). *)
Inductive partial_fractions (n : nat) (A : mat2) (h : R) : list ((R * R) * (R * R)) -> vec -> vec -> Prop :=
| pf_done y y' : (forall i, (i < n)%nat -> y' i = y i) -> partial_fractions n A h [] y y'
| pf_pole theta alpha rest y zr zi y1 y' :
    complex_system n A h theta y zr zi ->
    (forall i, (i < n)%nat -> y1 i = y i + 2 * (fst alpha * zr i - snd alpha * zi i)) ->
    partial_fractions n A h rest y1 y' ->
    partial_fractions n A h ((theta, alpha) :: rest) y y'.

(** The scalar rational function of a set of poles:
    alpha0 * prod_k (1 + 2 Re (alpha_k / (x - theta_k))). *)
Fixpoint rational (poles : list ((R * R) * (R * R))) (alpha0 x : R) : R :=
  match poles with
  | [] => alpha0
  | ((a, b), (c, d)) :: rest =>
      (1 + 2 * ((c * (x - a) - d * b) / ((x - a) ^ 2 + b ^ 2))) * rational rest alpha0 x
  end.

Definition eigenvector (n : nat) (A : mat2) (lambda : R) (v : vec) : Prop :=
  forall i, (i < n)%nat -> rsum n (fun j => A i j * v j) = lambda * v i.
Definition left_eigenvector (n : nat) (A : mat2) (lambda : R) (w : vec) : Prop :=
  forall j, (j < n)%nat -> rsum n (fun i => w i * A i j) = lambda * w j.

(** a nuclide only feeds nuclides that come later in the list *)
Definition chain (n : nat) (A : mat2) : Prop :=
  forall i j, (i < j)%nat -> (j < n)%nat -> A i j = 0.

(** [n(t)] solves dn/dt = A n from [n0]. *)
Definition solves (n : nat) (A : mat2) (n0 : vec) (density : R -> vec) : Prop :=
  (forall i, (i < n)%nat -> density 0 i = n0 i) /\
  forall t i, (i < n)%nat ->
    derivable_pt_lim (fun s => density s i) t (rsum n (fun j => A i j * density t j)).

(** a sum of [k] real exponential modes *)
Definition modes (k : nat) (c lambda : vec) (v : nat -> vec) (t : R) : vec :=
  fun i => rsum k (fun j => c j * exp (lambda j * t) * v j i).

(** error of one substep *)
Definition cram_eps (order : Z) : R := if Z.eqb order 16 then 3.1e-14 else 6.1e-16.

(** [v 0, ..., v (n-1)] is a basis of the vectors of length [n]. *)
Definition basis (n : nat) (v : nat -> vec) : Prop :=
  (forall u : vec, exists c : vec, forall i, (i < n)%nat -> u i = rsum n (fun j => c j * v j i)) /\
  (forall c : vec, (forall i, (i < n)%nat -> rsum n (fun j => c j * v j i) = 0) ->
     forall j, (j < n)%nat -> c j = 0).
