(** A linear problem with at most one solution has one; existence on every mesh. *)
From Coq Require Import Lra Lia Psatz.
From Verif Require Import Base BaseFacts Contraction SlabModel SlabSpec SlabFacts SlabFacts2 SlabFacts3 SlabFacts4.
From Verif Require Import MgModel MgSpec MgFacts MgFacts2 MgFacts3 MgFacts7 TimeModel TimeSpec TimeFacts TimeFacts2 EnSpec EnFacts EnFacts2 EnFacts3 EnFacts4.
Open Scope R_scope.

(** *** exactly one steady solution in an absorbing medium; exactly one solution of every implicit step *)
Lemma absorbing_no_multiplication P G xs_total transfer : absorbing P G xs_total transfer -> no_multiplication P G xs_total transfer.
Proof. intros H i g Hi Hg. left. apply H; assumption. Qed.
Lemma steady_exactly_one P G xs_total xs_scatter external boundary :
  sound_slab P -> absorbing P G xs_total xs_scatter ->
  exists sol, mg_solution P G xs_total xs_scatter external boundary sol /\
    forall other, mg_solution P G xs_total xs_scatter external boundary other -> agree2 (cells P) G other sol.
Proof.
  intros HP HM.
  destruct (fredholm P G xs_total xs_scatter) with (external := external) (boundary := boundary) as (sol & H).
  - apply HP.
  - apply sound_divisors; [exact HP|]. intros. eapply sound_total; try eassumption. apply absorbing_no_multiplication; exact HM.
  - intros phi H. eapply steady_at_most_one; try eassumption. apply zero_solution.
  - exists sol. split; [exact H|]. intros other Ho. eapply steady_at_most_one; eassumption.
Qed.
Lemma exact_step_exactly_one two P G velocity dt xs_total transfer ext bnd psi k :
  sound_slab P -> no_multiplication P G xs_total transfer -> (forall g, (g < G)%nat -> 0 < velocity g) -> 0 < dt ->
  exists sol, exact_step P G velocity xs_total transfer ext bnd (run_derivative two dt psi k) sol /\
    forall other, exact_step P G velocity xs_total transfer ext bnd (run_derivative two dt psi k) other -> agree2 (cells P) G other sol.
Proof.
  intros HP HM HV Hdt.
  assert (Hv : forall g, (g < G)%nat -> velocity g <> 0) by (intros g Hg; specialize (HV g Hg); lra).
  assert (Hd : dt <> 0) by lra.
  set (T := effective_total (run_weight two k) xs_total velocity dt).
  set (q := mkArr3 (angles P) G (fun i m g => at3 ext i (bidx (d3b ext) m) (bidx (d3c ext) g) + run_source two velocity dt psi k i m g)).
  assert (Eq : forall phi, exact_step P G velocity xs_total transfer ext bnd (run_derivative two dt psi k) phi <-> mg_solution P G T transfer q bnd phi).
  { intros phi. apply (exact_step_solution P G velocity dt xs_total transfer ext bnd (run_weight two k) (run_source two velocity dt psi k)); try reflexivity.
    intros new i m g _ _ Hg. apply run_derivative_eq; auto. }
  assert (A : absorbing P G T transfer).
  { intros i g Hi Hg. unfold T, effective_total. specialize (HM i g Hi Hg). specialize (HV g Hg).
    assert (0 < run_weight two k) by (unfold run_weight; destruct two, k; lra).
    assert (0 < run_weight two k / (velocity g * dt)) by (apply Rdiv_lt_0_compat; [assumption|nra]). lra. }
  destruct (steady_exactly_one P G T transfer q bnd HP A) as (sol & H & U).
  exists sol. split; [apply Eq; exact H|]. intros other Ho. apply U, Eq, Ho.
Qed.
