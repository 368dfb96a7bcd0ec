(** Concrete group structures meeting the hypotheses of the collapsing theorems. *)
From Coq Require Import Lra Lia.
From Verif Require Import Base BaseFacts SlabModel MgModel HybModel HybSpec.
Open Scope R_scope.

(** five fine groups in two coarse ones, of unequal widths 1, 3, 5, 7, 9 *)
Definition five_two : nat -> nat := fun c => match c with 0%nat => 0%nat | 1%nat => 3%nat | _ => 5%nat end.
Definition squares : vec := fun g => INR g * INR g.

Lemma five_two_partition : partition 5 2 five_two.
Proof. split; [reflexivity|split; [reflexivity|]]. intros [|[|c]] H; cbn; lia. Qed.

Lemma squares_monotone : monotone_edges 5 squares.
Proof.
  left. intros g _. unfold squares. replace (g + 1)%nat with (S g) by lia. rewrite S_INR.
  pose proof (pos_INR g). nra.
Qed.

Lemma five_identity : partition 5 5 (fun c => c) /\ identity_grid 5 (fun c => c).
Proof. split; [split; [reflexivity|split; [reflexivity|intros; lia]]|intros c _; reflexivity]. Qed.

Lemma five_two_owner : forall g, (g < 5)%nat ->
  ((if Nat.ltb g 3 then 0 else 1) < 2)%nat /\ in_group five_two (if Nat.ltb g 3 then 0 else 1) g.
Proof.
  intros g Hg. unfold in_group. destruct (Nat.ltb_spec g 3); cbn; lia.
Qed.
