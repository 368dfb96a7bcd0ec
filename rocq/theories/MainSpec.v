(** Specification vocabulary for quadratures, grids and material maps, independent of the model's
    code. *)
From Coq Require Import String Ascii Permutation Sorted.
From Verif Require Import Base MainModel.
Open Scope R_scope.

(** What np.polynomial.legendre.leggauss delivers: strictly increasing, symmetric ordinates and
    positive weights. *)
Definition gauss_pairs (n : nat) (x w : vec) : Prop :=
  (forall i, (i + 1 < n)%nat -> x i < x (i + 1)%nat) /\
  (forall i, (i < n)%nat -> x (n - i - 1)%nat = - x i /\ w (n - i - 1)%nat = w i) /\
  (forall i, (i < n)%nat -> 0 < w i).

(** The pairs (x', w') are the pairs (x, w) in another order. *)
Definition reordered (n : nat) (x w x' w' : vec) : Prop :=
  exists p : list nat, Permutation p (seq 0 n) /\
    forall i, (i < n)%nat -> x' i = x (nth i p 0%nat) /\ w' i = w (nth i p 0%nat).

(** Text helpers: [s] consists of [pieces] separated by the character [c], which occurs in none
    of them. *)
Fixpoint joined (c : ascii) (pieces : list string) : string :=
  match pieces with
  | [] => EmptyString
  | [p] => p
  | p :: ps => p ++ String c (joined c ps)
  end.
Fixpoint occurs (c : ascii) (s : string) : Prop :=
  match s with EmptyString => False | String a t => a = c \/ occurs c t end.
Definition pieces_of (c : ascii) (s : string) (pieces : list string) : Prop :=
  pieces <> [] /\ joined c pieces = s /\ forall p, In p pieces -> ~ occurs c p.

(** [k] is the edge nearest to [x] (the first one on ties). *)
Definition nearest_edge (n : nat) (edges : vec) (x : R) (k : nat) : Prop :=
  (k <= n)%nat /\ forall j, (j <= n)%nat ->
    Rabs (x - edges k) <= Rabs (x - edges j) /\ ((j < k)%nat -> Rabs (x - edges k) < Rabs (x - edges j)).

(** The region [start - stop] covers cell [i]. *)
Definition covers (n : nat) (edges : vec) (start stop : R) (i : nat) : Prop :=
  exists a b, nearest_edge n edges start a /\ nearest_edge n edges stop b /\ (a <= i < b)%nat.

(** A region text "start - stop" with exactly one dash. *)
Definition region_text (float_of : string -> option R) (region : string) (start stop : R) : Prop :=
  exists a b, pieces_of "-"%char region [a; b] /\ float_of a = Some start /\ float_of b = Some stop.

(** A fill: material index, start, stop. *)
Definition fill := (R * R * R)%type.
(** [fills] lists the regions of all layers in the order in which they are written. *)
Inductive reads (float_of : string -> option R) : list (R * string) -> list fill -> Prop :=
| reads_nil : reads float_of [] []
| reads_layer idx width rest regions spans fills :
    pieces_of ","%char width regions ->
    Forall2 (fun region span => region_text float_of region (fst span) (snd span)) regions spans ->
    reads float_of rest fills ->
    reads float_of ((idx, width) :: rest) (map (fun span => (idx, fst span, snd span)) spans ++ fills).

(** index and width text of every layer *)
Definition texts (layers : list layer) : list (R * string) :=
  map (fun l => (layer_index l, layer_width l)) layers.

(** [v] is the material of the last fill covering cell [i]; -1 if there is none. *)
Definition material_of (n : nat) (edges : vec) (fills : list fill) (i : nat) (v : R) : Prop :=
  (exists before idx a b after, fills = before ++ (idx, a, b) :: after /\
     covers n edges a b i /\
     (forall idx' a' b', In (idx', a', b') after -> ~ covers n edges a' b' i) /\ v = idx) \/
  ((forall idx a b, In (idx, a, b) fills -> ~ covers n edges a b i) /\ v = -1).

(** relativistic kinetic energy of a particle of mass [m] at speed [v] (light speed [c]) *)
Definition kinetic_energy (m c v : R) : R := m * c ^ 2 * (1 / sqrt (1 - (v / c) ^ 2) - 1).

(** nondecreasing list *)
Definition ascending (l : list R) : Prop :=
  forall i j, (i <= j)%nat -> (j < length l)%nat -> nth i l 0 <= nth j l 0.
