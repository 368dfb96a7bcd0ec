(** A two-group infinite medium with a full fission matrix and P1 scattering. *)
From Coq Require Import Lra Lia.
From Verif Require Import Base BaseFacts SlabModel SlabWitness MgModel CritModel CritSpec CritWitness InfModel InfSpec.
Open Scope R_scope.

Definition brook_mu : vec := fun n => if Nat.eqb n 0 then - (1 / 2) else 1 / 2.
Definition brook_scatter : scatter_0d := Scatter0Aniso 2 (fun o i l => if Nat.eqb l 0 then pond_scatter o i else 1 / 10).
Definition brook_fission : fission_0d := FissionMatrix0 (fun o h =>
  match o, h with 0%nat, 0%nat => 3 | 0%nat, _ => 6 | _, 0%nat => 5 | _, _ => 1 end).
Definition brook_mode : vec := fun _ => 1.
Definition brook_next : vec := fun g => if Nat.eqb g 0 then 11 else 10.

Lemma brook_gen v w : next_generation_0d 2 2 pond_wt pond_total pond_scatter brook_fission v w <->
  w 0%nat = v 0%nat + 2 * v 1%nat /\ w 1%nat = 2 * v 0%nat + v 1%nat.
Proof.
  unfold next_generation_0d, balance_0d, emission_0d. split.
  - intros H. pose proof (H 0%nat ltac:(lia)) as A. pose proof (H 1%nat ltac:(lia)) as B. cbn in A, B. unfold pond_wt, pond_total, pond_scatter in *. cbn in A, B. lra.
  - intros (A & B) g Hg. small g Hg; cbn; unfold pond_wt, pond_total, pond_scatter; cbn; lra.
Qed.
Lemma brook_case :
  usable_scatter 2 brook_mu pond_wt brook_scatter /\ isotropic_part brook_scatter = pond_scatter /\
  damped_0d 2 2 pond_wt pond_total pond_scatter /\ nonneg_fission_0d 2 brook_fission /\
  well_fed_0d 2 pond_scatter brook_fission /\ fissile_0d 2 brook_fission /\
  even_generation_0d 2 2 pond_wt pond_total pond_scatter brook_fission (1 / 2) /\
  positive1 2 brook_mode /\ eigenpair_0d 2 2 pond_wt pond_total pond_scatter brook_fission brook_mode 3 /\
  damping_0d 2 2 pond_wt pond_total pond_scatter (1 / 2) (fun _ => 1) /\
  positive1 2 pond_guess /\ next_generation_0d 2 2 pond_wt pond_total pond_scatter brook_fission pond_guess brook_next /\
  below1 2 (fun g => 5 / 2 * pond_guess g) brook_next /\ below1 2 brook_next (fun g => 11 / 3 * pond_guess g) /\
  norm1 2 pond_guess <= 96 * (5 / 2) /\ 3 * (11 / 3) <= 96 * (5 / 2) * (1 / 2) ^ 2 /\ 6 <= 96 * (1 / 2) ^ 4 /\
  solve_accuracy_0d (1 / 2) 100 (1 + 96) * 1 / (1 / 2) <= 1 / 10 ^ 7.
Proof.
  assert (D : damping_0d 2 2 pond_wt pond_total pond_scatter (1 / 2) (fun _ => 1)) by apply pond_hyps.
  repeat match goal with |- _ /\ _ => split end.
  - split; [lia|]. intros l Hl. assert (l = 1%nat) by lia. subst l. cbn. unfold pond_wt, brook_mu, legendre. cbn. lra.
  - reflexivity.
  - split; [cbn; unfold pond_wt; lra|]. split; [intros g h Hg Hh; small g Hg; small h Hh; unfold pond_scatter; cbn; lra|].
    exists (1 / 2), (fun _ => 1). split; [lra|exact D].
  - intros o h Ho Hh. small o Ho; small h Hh; cbn; lra.
  - intros h o Hh Ho _ g Hg. exists g. split; [exact Hg|]. split; [|constructor]. small g Hg; small h Hh; cbn; lra.
  - exists 0%nat, 0%nat. split; [lia|]. split; [lia|]. cbn. lra.
  - split; [lra|]. intros v w Hv Hw. apply brook_gen in Hw. pose proof (Hv 0%nat ltac:(lia)). pose proof (Hv 1%nat ltac:(lia)). cbv beta in *. intros g h Hg Hh. small g Hg; small h Hh; lra.
  - intros g _. unfold brook_mode. lra.
  - intros g Hg. unfold emission_0d, brook_mode. small g Hg; cbn; unfold pond_wt, pond_total, pond_scatter; cbn; lra.
  - exact D.
  - intros g Hg. small g Hg; unfold pond_guess; cbn; lra.
  - apply brook_gen. unfold pond_guess, brook_next. cbn. lra.
  - intros g Hg. small g Hg; unfold pond_guess, brook_next; cbn; lra.
  - intros g Hg. small g Hg; unfold pond_guess, brook_next; cbn; lra.
  - rewrite pond_guess_norm. lra.
  - lra.
  - lra.
  - assert (B : solve_accuracy_0d (1 / 2) 100 (1 + 96) <= 1 / 10 ^ 7 / 2); [|lra].
    unfold solve_accuracy_0d. apply Rmax_lub; [lra|].
    assert (E : 0 < (1 / 2) ^ 100 <= (1 / 2) ^ 40).
    { replace 100%nat with (40 + 60)%nat by reflexivity. rewrite pow_add.
      assert (P : forall k, 0 < (1 / 2) ^ k <= 1).
      { intros k. induction k as [|k IH]; cbn [pow]; lra. }
      pose proof (P 40%nat). pose proof (P 60%nat). split; [apply Rmult_lt_0_compat; lra|nra]. }
    lra.
Qed.
