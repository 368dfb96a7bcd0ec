(** Specification vocabulary for file names and memmap datasets. *)
From Coq Require Import Reals ZArith String Ascii List.
From Verif Require Import Base MlfModel.
Local Open Scope string_scope.
Local Open Scope nat_scope.

(** The k-th letter, as a string. *)
Definition nth_letter (k : nat) : string := String (ascii_of_nat (97 + k)) "".
(** The versions tried with letters: none, then a, ..., z, aa, ..., az, ba, ..., zz. *)
Definition letter_version (k : nat) : string :=
  match k with
  | O => ""
  | S j => if Nat.ltb j 26 then nth_letter j else nth_letter (j / 26 - 1) ++ nth_letter (j mod 26)
  end.
(** With numbers: none, then 1, 2, ... padded with zeros to [fill] characters. *)
Definition is_number_version (fill k : nat) (s : string) : Prop :=
  match k with
  | O => s = ""
  | _ => exists z, s = zero_chars z ++ str_nat k /\ String.length s = Nat.max fill (String.length (str_nat k))
  end.
Definition versioned (file_name version fmt : string) : string := file_name ++ version ++ "." ++ fmt.

(** Only finitely many paths exist. *)
Definition finitely_many (path_exists : string -> bool) (files : list string) : Prop :=
  forall s, path_exists s = true -> In s files.
