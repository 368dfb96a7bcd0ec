(** Corollaries for complete, failing and interrupted studies. *)
From Coq Require Import Reals ZArith Lia Lra List Bool String.
From Verif Require Import Base MlfModel MltModel TunModel TunSpec TunFacts TunFacts2 TunFacts3.
Local Open Scope nat_scope.

Lemma never_not_pressed a b : ~ pressed (fun _ => false) a b.
Proof. intros (u & _ & E). discriminate. Qed.
Section Corollaries.
Context {P : Type}.
Variables (objective_of : nat -> trial_run P) (nan : nat -> bool).
Lemma whole_study stored asked n (w : tune_world P) : no_nan (trials_before stored) -> (forall m e, m < n -> ~ raises objective_of m e) ->
  exists l r w', run_study (fun _ => false) stored asked n objective_of nan w = (r, w') /\ List.length l = n /\ records objective_of nan l /\
    trials w' = (trials_before stored ++ l)%list /\ csv w' = Some (trials_before stored ++ l)%list /\ answers (direction_used stored asked) (trials_before stored ++ l) r.
Proof.
  intros NN H. destruct (run_spec (fun _ => false) objective_of nan stored asked n w (never_not_pressed _ _) NN) as (j & l & r & w' & E & J & L & R & T & _ & _ & _ & _ & [(A & B & C & _)|(m & e & -> & A & _)]).
  - destruct B as [-> |B]; [|exfalso; exact (never_not_pressed _ _ B)]. destruct (C (never_not_pressed _ _)) as (C1 & C2). exists l, r, w'. repeat split; auto.
  - exfalso. exact (H m e ltac:(lia) A).
Qed.
Lemma failing_study stored asked n (w : tune_world P) m e : no_nan (trials_before stored) -> m < n -> raises objective_of m e -> (forall i e', i < m -> ~ raises objective_of i e') ->
  exists l w', run_study (fun _ => false) stored asked n objective_of nan w = (Raise e, w') /\ List.length l = S m /\ records objective_of nan l /\
    trials w' = (trials_before stored ++ l)%list /\ csv w' = csv w.
Proof.
  intros NN Hm Hr Hf. destruct (run_spec (fun _ => false) objective_of nan stored asked n w (never_not_pressed _ _) NN) as (j & l & r & w' & E & J & L & R & T & _ & _ & _ & F & [(A & B & C & _)|(m' & e' & -> & A & -> & C)]).
  - destruct B as [-> |B]; [|exfalso; exact (never_not_pressed _ _ B)]. exfalso. exact (A m e Hm Hr).
  - assert (m' = m). { destruct (lt_eq_lt_dec m' m) as [[X|X]|X]; [exfalso; exact (Hf m' e' X A)|exact X|exfalso; exact (F m e ltac:(lia) Hr)]. }
    subst m'. unfold raises in A, Hr. assert (e' = e) by congruence. subst. exists l, w'. repeat split; auto.
Qed.
(** Ctrl+C in other code, after a run. *)
Lemma after_run sched stored asked n (w : tune_world P) : ~ pressed sched (now w) (now w + 3) -> no_nan (trials_before stored) ->
  exists r w', run_study sched stored asked n objective_of nan w = (r, w') /\ (sched (now w') = true -> fst (instant sched w') = Raise RuntimeError).
Proof.
  intros Q NN. destruct (run_spec sched objective_of nan stored asked n w Q NN) as (j & l & r & w' & E & _ & _ & _ & _ & H1 & H2 & _).
  exists r, w'. split; [exact E|]. intros Hp. exact (press_later sched w' _ H1 H2 Hp).
Qed.
End Corollaries.

(** A study stored with the other direction. *)
Lemma stored_direction {P} (a b : P) objective_of nan (w : tune_world P) : a <> b ->
  let old := [(a, Complete (Finite 1)); (b, Complete (Finite 2))] in
  exists w', run_study (fun _ => false) (Some (Maximize, old)) Minimize 0 objective_of nan w = (Ok b, w') /\ ~ best_in Minimize old b.
Proof.
  intros N old. eexists. split.
  - unfold run_study, tbind, instant, tdo, tfinally, enter_loop, leave_loop. cbn -[Rlt_dec]. unfold best_params, old. cbn. destruct (Rlt_dec 1 2); [|lra]. reflexivity.
  - intros (v & C & F). unfold completes, old in *. destruct C as [C|[C|[]]]; injection C; [congruence|]. intros <-.
    specialize (F a (Finite 1) (or_introl eq_refl)). cbn in F. destruct (Rlt_dec 1 2); [discriminate|lra].
Qed.
