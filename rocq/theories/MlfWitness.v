(** Concrete cases that meet the hypotheses of the theorems in MlfProps. *)
From Coq Require Import Reals ZArith Lia Lra String List Permutation.
From Verif Require Import Base MlfModel MlfSpec MlfFacts MlfFacts2.
Local Open Scope string_scope.

(** A directory that holds run.npz, runa.npz, run001.npz and run002.npz. *)
Definition some_files : list string := ["run.npz"; "runa.npz"; "run001.npz"; "run002.npz"].
Definition some_exists (s : string) : bool := existsb (String.eqb s) some_files.
Lemma names_demo : finitely_many some_exists some_files /\
  update_file_name 703 some_exists "run" "npz" "alphabet" 3 = Ok (Some "runb.npz") /\
  update_file_name 4 some_exists "run" "npz" "number" 3 = Ok (Some "run003.npz") /\ update_file_name 4 some_exists "walk" "npz" "number" 3 = Ok (Some "walk.npz").
Proof.
  split; [intros s H; apply existsb_exists in H; destruct H as (x & Hx & E); apply String.eqb_eq in E; now subst|]. vm_compute. auto.
Qed.

(** Ten samples, batches of two, 60 % and 20 %. *)
Lemma split_demo : (1 <= 0.6 * INR 10)%R /\ exists tr va te, process_data_memmap 10 2 0.6 0.2 = Ok (tr, va, te) /\
  loader tr sequential = Ok [0; 1; 2; 3; 4; 5]%nat /\ loader va sequential = Ok [6; 7]%nat /\ loader te sequential = Ok [8; 9]%nat.
Proof.
  replace (INR 10) with 10%R by (cbn [INR]; lra). split; [lra|]. unfold process_data_memmap. replace (INR 10) with 10%R by (cbn [INR]; lra).
  assert (E1 : py_int (0.6 * 10) = 6%Z). { destruct (py_int_nonneg (0.6 * 10)) as (A & _); [lra|]. assert (5 < py_int (0.6 * 10) < 7)%Z; [|lia]. split; apply lt_IZR; lra. }
  assert (E2 : py_int ((0.6 + 0.2) * 10) = 8%Z). { destruct (py_int_nonneg ((0.6 + 0.2) * 10)) as (A & _); [lra|]. assert (7 < py_int ((0.6 + 0.2) * 10) < 9)%Z; [|lia]. split; apply lt_IZR; lra. }
  rewrite E1, E2. eexists _, _, _. split; [reflexivity|]. vm_compute. auto.
Qed.
