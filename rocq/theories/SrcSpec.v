(** Specification vocabulary for the source and material factories, independent of the model's code. *)
From Coq Require Import ZArith String Ascii.
From Verif Require Import Base SrcModel.
Open Scope R_scope.

(** The first [n] entries increase strictly. *)
Definition increasing (n : nat) (f : vec) : Prop := forall i j, (i < j)%nat -> (j < n)%nat -> f i < f j.

(** Reed's problem: the source density at [x], on a slab from 0 to 16. *)
Definition reeds_density (x : R) : R :=
  if Rlt_dec x 0 then 0 else if Rlt_dec x 2 then 0 else if Rlt_dec x 4 then 1 else if Rlt_dec x 6 then 0
  else if Rlt_dec x 10 then 50 else if Rlt_dec x 12 then 0 else if Rlt_dec x 14 then 1 else 0.

(** The part of the slab that is modelled for the given reflective sides: its length and the position of
    its left end in the full slab. *)
Inductive reeds_domain : Z * Z -> R -> R -> Prop :=
| reeds_full a b : (a + b <= 0)%Z -> reeds_domain (a, b) 16 0
| reeds_left : reeds_domain (0, 1)%Z 8 0
| reeds_right a b : (0 < a + b)%Z -> (a, b) <> (0, 1)%Z -> reeds_domain (a, b) 8 8.
(** All material interfaces of Reed's problem inside the modelled part. *)
Definition has_interfaces (edges : nat) (edges_x : vec) (length : R) : Prop :=
  forall k, (2 * INR k <= length) -> exists i, (i < edges)%nat /\ edges_x i = 2 * INR k.

(** A text without the characters of the enrichment suffix. *)
Definition plain (s : string) : Prop := contains percent s = false /\ contains dash s = false.

(** Every entry of the mixture is [a] times the one of [x] plus [b] times the one of [y]. *)
Definition combination (a : R) (x : xs_data) (b : R) (y z : xs_data) : Prop :=
  xs_groups z = xs_groups x /\
  (forall g, xs_t z g = a * xs_t x g + b * xs_t y g) /\
  (forall g h, xs_s z g h = a * xs_s x g h + b * xs_s y g h) /\
  (forall g h, xs_f z g h = a * xs_f x g h + b * xs_f y g h).
(** Every entry of [z] lies between those of [x] and [y]. *)
Definition between (x y z : xs_data) : Prop :=
  (forall g, Rmin (xs_t x g) (xs_t y g) <= xs_t z g <= Rmax (xs_t x g) (xs_t y g)) /\
  (forall g h, Rmin (xs_s x g h) (xs_s y g h) <= xs_s z g h <= Rmax (xs_s x g h) (xs_s y g h)) /\
  (forall g h, Rmin (xs_f x g h) (xs_f y g h) <= xs_f z g h <= Rmax (xs_f x g h) (xs_f y g h)).
