(** A two-group slab with strong slowing down: in-scatter into the thermal group exceeds its total cross
    section, but no collision yields more neutrons than it takes. *)
From Coq Require Import Lra Lia.
From Verif Require Import Base BaseFacts SlabModel SlabSpec SlabFacts SlabWitness MgModel MgSpec MgFacts SupSpec.
Open Scope R_scope.

Definition slow : sn :=
  mkSn 2 (fun _ => 0%nat) (fun _ => 1) 2 (fun m => if Nat.eqb m 0 then 1 else -1) (fun _ => 1 / 2) 0 0.
Definition slow_total : mat2 := fun _ _ => 1.
Definition slow_scatter (a : R) : mat3 := fun _ o i => match o, i with 1%nat, 0%nat => a | 1%nat, 1%nat => a | _, _ => 0 end.

Lemma slow_sweeps : positive_sweeps slow 2 slow_total.
Proof.
  split; [intros m Hm; small m Hm; cbn; lra|]. split; [|intros m Hm; cbn; lra].
  intros g Hg m i Hm Hi. small m Hm; cbn; unfold slow_total; unfold Rabs; destruct (Rcase_abs _); lra.
Qed.
Lemma slow_sound : sound_slab slow.
Proof.
  split; [intros; cbn; lra|]. split; [intros; cbn; lra|]. split; [intros m Hm; small m Hm; cbn; lra|]. left. cbn. lia.
Qed.
Lemma slow_yields a : 0 <= a -> yields_below slow 2 slow_total (slow_scatter a) a.
Proof. intros Ha i h Hi Hh. small h Hh; cbn; unfold slow_total; rewrite ?Rabs_R0, ?Rabs_right by lra; lra. Qed.
Lemma slow_no_ratio a c : 1 <= 2 * a -> c < 1 -> ~ mg_ratio slow 2 slow_total (slow_scatter a) c.
Proof.
  intros Ha Hc H. specialize (H 1%nat 0%nat ltac:(lia) ltac:(cbn; lia)). cbn in H. unfold slow_total in H. rewrite !Rabs_right in H by lra. lra.
Qed.
Lemma slow_transmitting : transmitting slow 2 slow_total.
Proof. intros m i g Hm Hi Hg. unfold slow_total. small m Hm; cbn; unfold Rabs; destruct (Rcase_abs _); lra. Qed.
Lemma slow_leaky : leaky slow.
Proof. exists 0%nat. cbn. split; [lia|]. split; [lra|]. unfold leaves_reflective. cbn. destruct (Rlt_dec 0 1); [reflexivity|lra]. Qed.
