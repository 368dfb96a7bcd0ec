(** Concrete cases that meet the hypotheses of the theorems in SigProps. *)
From Coq Require Import Lia.
From Verif Require Import Base SigModel SigSpec SigFacts SigFacts2.
Local Open Scope nat_scope.

(** Three iterations of two actions; Ctrl+C in the middle of the second one (instants 7, 10, 13 ask). *)
Definition two_actions (i : nat) : list nat := [10 * i; 10 * i + 1].
Lemma stop_demo : let sched := at_instants [11] in
  clock idle + 5 <= 11 /\ (forall u, sched u = Nat.eqb u 11) /\
  let (r, w') := break_loop sched (run sched (grange_loop 3 two_actions)) idle in r = Ok tt /\ map snd (trace w') = [0; 1; 10; 11] /\ current w' = Outer true.
Proof. split; [cbn; lia|]. split; [intros u; cbn; apply orb_false_r|]. vm_compute. auto. Qed.
(** Ctrl+C at 8 and again at 11. *)
Lemma abort_demo : let sched := at_instants [8; 11] in let p := works [1; 2; 3; 4; 5; 6; 7] (Return 0) in
  simple p /\ (forall u, 0 <= u < 11 -> sched u = true -> u = 8) /\
  let (r, w') := break_loop sched (run sched p) idle in r = Raise KeyboardInterrupt /\ clock w' = 14 /\ map snd (trace w') = [1; 2; 3; 4; 5] /\ current w' = Outer true.
Proof.
  split; [repeat constructor|]. split; [intros u Hu E; unfold at_instants in E; cbn [existsb] in E; destruct (Nat.eqb_spec u 8); [assumption|destruct (Nat.eqb_spec u 11); [lia|discriminate E]]|].
  vm_compute. auto.
Qed.
(** Ctrl+C twice during finish_iteration: everything is done, then KeyboardInterrupt. *)
Lemma finish_demo : let sched := at_instants [4; 6] in let p := works [1; 2; 3; 4] (Return 9) in
  simple p /\ (forall u, 0 <= u < 3 -> sched u = false) /\
  let (r, w') := finish_iteration sched (run sched p) idle in r = Raise KeyboardInterrupt /\ map snd (trace w') = [1; 2; 3; 4] /\ current w' = Outer true.
Proof.
  split; [repeat constructor|]. split; [intros u Hu; destruct u as [|[|[|u]]]; try reflexivity; lia|]. vm_compute. auto.
Qed.
