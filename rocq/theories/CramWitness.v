(** Concrete cases for the depletion theorems. *)
From Coq Require Import ZArith Lra Lia.
From Verif Require Import Base BaseFacts CramModel CramSpec CramFacts3.
Open Scope R_scope.

(** a parent, a daughter and a stable granddaughter *)
Definition triple : mat2 := fun i j =>
  match i, j with
  | 0%nat, 0%nat => -1 | 1%nat, 0%nat => 1 | 1%nat, 1%nat => -2 | 2%nat, 1%nat => 2 | _, _ => 0
  end.
Definition triple_start : vec := fun i => match i with 0%nat => 1 | _ => 0 end.
Definition triple_rate : vec := fun j => match j with 0%nat => -1 | 1%nat => -2 | _ => 0 end.
Definition triple_mode : nat -> vec := fun j i =>
  match j, i with
  | 0%nat, 0%nat => 1 | 0%nat, 1%nat => 1 | 0%nat, 2%nat => -2
  | 1%nat, 1%nat => 1 | 1%nat, 2%nat => -1
  | 2%nat, 2%nat => 1 | _, _ => 0
  end.
Definition triple_coef : vec := fun j => match j with 1%nat => -1 | _ => 1 end.

Ltac three i Hi := destruct i as [|[|[|i]]]; [| | |exfalso; lia].

Lemma triple_chain : chain 3 triple.
Proof. intros i j Hij Hj. destruct i as [|[|[|i]]], j as [|[|[|j]]]; cbn [triple]; try lia; reflexivity. Qed.
Lemma triple_eigen j : (j < 3)%nat -> eigenvector 3 triple (triple_rate j) (triple_mode j) /\ triple_rate j <= 0.
Proof.
  intros Hj. three j Hj; (split; [|cbn [triple_rate]; lra]); intros i Hi; three i Hi;
    cbn [rsum triple triple_mode triple_rate]; lra.
Qed.
Lemma triple_expand i : (i < 3)%nat -> triple_start i = rsum 3 (fun j => triple_coef j * triple_mode j i).
Proof. intros Hi. three i Hi; cbn [rsum triple_start triple_coef triple_mode]; lra. Qed.
Lemma triple_columns j : (j < 3)%nat -> rsum 3 (fun i => 1 * triple i j) = 0.
Proof. intros Hj. three j Hj; cbn [rsum triple]; lra. Qed.
Lemma triple_runs order sub : (order = 16 \/ order = 48)%Z -> (1 <= sub)%Z ->
  exists y, cram_expm 3 3 triple 3 triple_start 5 order sub = Ok y.
Proof. intros Ho Hs. apply cram_chain; [exact Ho|exact Hs|exact triple_chain]. Qed.
Lemma triple_basis : basis 3 triple_mode.
Proof.
  split.
  - intros u. exists (fun j => match j with 0%nat => u 0%nat | 1%nat => u 1%nat - u 0%nat | _ => u 2%nat + u 1%nat + u 0%nat end).
    intros i Hi. three i Hi; cbn [rsum triple_mode]; ring.
  - intros c H. assert (H0 := H 0%nat ltac:(lia)). assert (H1 := H 1%nat ltac:(lia)). assert (H2 := H 2%nat ltac:(lia)).
    cbn [rsum triple_mode] in H0, H1, H2. intros j Hj. three j Hj; lra.
Qed.

(** a matrix with the complex eigenvalues of a pole: rotation at the pole *)
Definition pole_matrix : mat2 := fun i j =>
  match i, j with
  | 0%nat, 0%nat => 3.509103608414918 | 0%nat, 1%nat => -8.436198985884374
  | 1%nat, 0%nat => 8.436198985884374 | 1%nat, 1%nat => 3.509103608414918
  | _, _ => 0
  end.
Lemma pole_resonant n0 : cram_expm 2 2 pole_matrix 2 n0 1 16 1 = Raise RuntimeError.
Proof.
  destruct (cram_outcomes 2 pole_matrix n0 1 16 1 (or_introl eq_refl) ltac:(lia)) as (poles & alpha0 & Hc & [[_ H]|[H _]]); [|exact H].
  exfalso. injection Hc as <- _. apply (H _ (or_introl eq_refl)). cbn [fst].
  exists (fun i => match i with 0%nat => 1 | _ => 0 end), (fun i => match i with 0%nat => 0 | _ => -1 end). split.
  - exists 0%nat. split; [lia|left; lra].
  - intros i Hi. destruct i as [|[|i]]; [| |lia]; cbn [fst snd rsum pole_matrix]; lra.
Qed.
