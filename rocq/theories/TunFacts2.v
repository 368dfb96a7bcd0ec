(** Facts about the tuner's fractions and about a study under Ctrl+C. *)
From Coq Require Import Reals ZArith Lia Lra List Bool String.
From Verif Require Import Base MlfModel MlfFacts MlfFacts2 MltModel TunModel TunSpec TunFacts.
Local Open Scope nat_scope.

(** *** fractions *)
Lemma process_starts (n : nat) (batch : Z) : 5 <= n -> (0 < batch)%Z -> exists ptr pva pte, process_data_memmap n batch 0.6 0.2 = Ok (ptr, pva, pte) /\
  start_idx pte = py_int (0.8 * INR n) /\ end_idx pte = Z.of_nat n.
Proof.
  intros Hn B. assert (N : (5 <= INR n)%R) by (apply le_INR in Hn; cbn [INR] in Hn; lra).
  assert (A1 : (1 <= py_int (0.6 * INR n))%Z) by (apply py_int_pos; lra).
  assert (A2 : (py_int (0.6 * INR n) <= py_int ((0.6 + 0.2) * INR n))%Z) by (apply py_int_le; lra).
  assert (A3 : (py_int ((0.6 + 0.2) * INR n) <= Z.of_nat n)%Z) by (apply py_int_below; lra).
  unfold process_data_memmap.
  destruct (make_proper (Z.of_nat n) batch 0 (py_int (0.6 * INR n))) as (d1 & E1 & _); try lia.
  destruct (make_proper (Z.of_nat n) batch (py_int (0.6 * INR n)) (py_int ((0.6 + 0.2) * INR n))) as (d2 & E2 & _); try lia.
  destruct (make_proper (Z.of_nat n) batch (py_int ((0.6 + 0.2) * INR n)) (Z.of_nat n)) as (d3 & E3 & _ & S3 & F3 & _); try lia.
  rewrite E1. cbn [bind]. rewrite E2. cbn [bind]. rewrite E3. cbn [bind]. exists d1, d2, d3. split; [reflexivity|]. split; [|exact F3].
  rewrite S3. f_equal. lra.
Qed.
Lemma tuner_sees_test (n : nat) (batch : Z) : 5 <= n -> (0 < batch)%Z -> exists ptr pva pte tr va lva,
  process_data_memmap n batch 0.6 0.2 = Ok (ptr, pva, pte) /\ tuner_datasets n batch None None = Ok (tr, va) /\
  loader va sequential = Ok lva /\ lva <> [] /\ (forall i, In i lva -> (start_idx pte <= Z.of_nat i < end_idx pte)%Z).
Proof.
  intros Hn B. destruct (process_starts n batch Hn B) as (ptr & pva & pte & E & S1 & F1). exists ptr, pva, pte.
  assert (N : (5 <= INR n)%R) by (apply le_INR in Hn; cbn [INR] in Hn; lra).
  unfold tuner_datasets, default_train_size, default_val_size. pose proof (tune_split n batch 0.8 0.2 B ltac:(lra) ltac:(lra) ltac:(lra)) as T. cbv zeta in T.
  destruct (py_int_nonneg (0.8 * INR n) ltac:(lra)) as (P1 & P2). destruct (py_int_nonneg ((0.8 + 0.2) * INR n) ltac:(lra)) as (P3 & P4).
  assert (Q3 : py_int ((0.8 + 0.2) * INR n) = Z.of_nat n).
  { assert (Z.of_nat n - 1 < py_int ((0.8 + 0.2) * INR n) < Z.of_nat n + 1)%Z; [|lia]. rewrite INR_IZR_INZ in *. split; apply lt_IZR; rewrite ?minus_IZR, ?plus_IZR; lra. }
  assert (Q1 : (0 < py_int (0.8 * INR n) < Z.of_nat n)%Z). { rewrite INR_IZR_INZ in *. split; apply lt_IZR; lra. }
  destruct (create_memmap_datasets n batch 0.8 0.2) as [(tr, va)|e].
  - destruct T as (ltr & lva & L1 & L2 & N1 & N2 & ND & R1 & R2 & _). exists tr, va, lva. repeat split; auto.
    + destruct (R2 i H) as (A & _). lia.
    + destruct (R2 i H) as (_ & A). rewrite Q3 in A. lia.
  - exfalso. destruct T as (_ & T). rewrite Q3 in T. lia.
Qed.
Lemma tuner_spares_test (n : nat) (batch : Z) : 5 <= n -> (0 < batch)%Z -> exists ptr pva pte tr va ltr lva,
  process_data_memmap n batch 0.6 0.2 = Ok (ptr, pva, pte) /\ tuner_datasets n batch (Some 0.6)%R (Some 0.2)%R = Ok (tr, va) /\
  loader tr sequential = Ok ltr /\ loader va sequential = Ok lva /\ ltr <> [] /\ lva <> [] /\ (forall i, In i (ltr ++ lva) -> (Z.of_nat i < start_idx pte)%Z).
Proof.
  intros Hn B. destruct (process_starts n batch Hn B) as (ptr & pva & pte & E & S1 & F1). exists ptr, pva, pte.
  assert (N : (5 <= INR n)%R) by (apply le_INR in Hn; cbn [INR] in Hn; lra).
  unfold tuner_datasets. pose proof (tune_split n batch 0.6 0.2 B ltac:(lra) ltac:(lra) ltac:(lra)) as T. cbv zeta in T.
  replace ((0.6 + 0.2) * INR n)%R with (0.8 * INR n)%R in T by lra.
  destruct (py_int_nonneg (0.6 * INR n) ltac:(lra)) as (P1 & P2). destruct (py_int_nonneg (0.8 * INR n) ltac:(lra)) as (P3 & P4).
  assert (Q : (0 < py_int (0.6 * INR n) < py_int (0.8 * INR n))%Z).
  { split; [apply lt_IZR; lra|]. assert (py_int (0.6 * INR n) + 1 < py_int (0.8 * INR n) + 1)%Z; [|lia]. apply lt_IZR. rewrite !plus_IZR. lra. }
  destruct (create_memmap_datasets n batch 0.6 0.2) as [(tr, va)|e].
  - destruct T as (ltr & lva & L1 & L2 & N1 & N2 & ND & R1 & R2 & _). exists tr, va, ltr, lva. repeat split; auto.
    intros i H. apply in_app_or in H. rewrite S1. destruct H as [H|H].
    + specialize (R1 i H). lia.
    + destruct (R2 i H) as (_ & A). lia.
  - exfalso. destruct T as (_ & T). lia.
Qed.

(** *** the study's loop *)
Section Study.
Context {P : Type}.
Implicit Types (w : tune_world P).
Lemma instant_quiet sched w : sched (now w) = false ->
  instant sched w = (Ok tt, mkTune (S (now w)) (handling w) (next_study w) (running w) (stop_flag w) (trials w) (csv w)).
Proof. intros H. unfold instant. rewrite H. reflexivity. Qed.
Lemma instant_stops sched k w : handling w = Stops k -> running w = Some k ->
  instant sched w = (Ok tt, mkTune (S (now w)) (Stops k) (next_study w) (Some k) (stop_flag w || sched (now w)) (trials w) (csv w)).
Proof.
  intros H1 H2. unfold instant, arrive. cbn [handling running now next_study stop_flag trials csv]. rewrite H1, H2. destruct (sched (now w)).
  - rewrite Nat.eqb_refl, orb_true_r. reflexivity.
  - rewrite orb_false_r. reflexivity.
Qed.
Lemma instants_stops sched k : forall n w, handling w = Stops k -> running w = Some k ->
  instants sched n w = (Ok tt, mkTune (now w + n) (Stops k) (next_study w) (Some k) (stop_flag w || existsb sched (seq (now w) n)) (trials w) (csv w)).
Proof.
  induction n as [|n IH]; intros w H1 H2.
  - cbn. rewrite Nat.add_0_r, orb_false_r. destruct w; cbn in *; subst; reflexivity.
  - cbn [instants]. unfold tbind. rewrite (instant_stops sched k) by assumption. rewrite IH by reflexivity.
    cbn [now handling next_study running stop_flag trials csv seq existsb]. rewrite <- plus_n_Sm, orb_assoc. reflexivity.
Qed.
Lemma existsb_pressed sched a n : existsb sched (seq a n) = true <-> pressed sched a (a + n).
Proof.
  rewrite existsb_exists. split.
  - intros (u & H & E). apply in_seq in H. exists u. auto.
  - intros (u & H & E). exists u. split; [apply in_seq; lia|exact E].
Qed.

Variables (sched : nat -> bool) (objective_of : nat -> trial_run P) (nan : nat -> bool).
Definition rec (i : nat) : P * trial_state := (drawn (objective_of i), state_of (nan i) (ends (objective_of i))).
Definition quiet (from to : nat) : Prop := forall u, from <= u < to -> sched u = false.
Lemma quiet_dec from to : quiet from to \/ pressed sched from to.
Proof.
  destruct (existsb sched (seq from (to - from))) eqn:E.
  - right. apply existsb_pressed in E. destruct E as (u & H & E). exists u. split; [lia|exact E].
  - left. intros u H. destruct (sched u) eqn:Eu; [|reflexivity]. exfalso.
    assert (existsb sched (seq from (to - from)) = true); [|congruence]. apply existsb_exists. exists u. split; [apply in_seq; lia|exact Eu].
Qed.
Lemma quiet_not_pressed from to : quiet from to -> ~ pressed sched from to.
Proof. intros Q (u & H & E). rewrite Q in E by exact H. discriminate. Qed.

Lemma asks_shift (f : nat -> nat) : forall m s, asks f s (S m) = asks (fun j => f (S j)) (s + 1 + f 0) m.
Proof. induction m as [|m IH]; intros s; [reflexivity|]. cbn [asks] in *. rewrite IH. reflexivity. Qed.
Lemma asks_ext (f g : nat -> nat) s : (forall x, f x = g x) -> forall m, asks f s m = asks g s m.
Proof. intros H. induction m as [|m IH]; [reflexivity|]. cbn [asks]. rewrite IH, H. reflexivity. Qed.
Lemma asks_mono (f : nat -> nat) s : forall i j, i <= j -> asks f s i <= asks f s j.
Proof. intros i j H. induction H as [|j H IH]; [lia|]. cbn [asks]. lia. Qed.

(** [i]: the number of the next trial. *)
Lemma loop_run k : forall left i w, handling w = Stops k -> running w = Some k ->
  let f := fun m => takes (objective_of (i + m)) in let c := asks f (now w) in
  exists j r w', optimize_loop sched objective_of nan left i w = (r, w') /\ j <= left /\
    trials w' = (trials w ++ map rec (seq i j))%list /\ handling w' = Stops k /\ running w' = Some k /\ csv w' = csv w /\ next_study w' = next_study w /\
    (forall m, m < j -> stop_flag w = false /\ quiet (now w) (S (c m))) /\
    (forall m e, S m < j -> ends (objective_of (i + m)) <> Failed e) /\
    ((r = Ok tt /\ now w' = S (c j) /\ (forall m e, m < j -> ends (objective_of (i + m)) <> Failed e) /\
        (j = left \/ stop_flag w = true \/ pressed sched (now w) (S (c j)))) \/
     (exists m e, j = S m /\ r = Raise e /\ ends (objective_of (i + m)) = Failed e /\ now w' = c j)).
Proof.
  induction left as [|left IH]; intros i w H1 H2 f c.
  - exists 0. cbn [optimize_loop]. unfold tbind. rewrite (instant_stops sched k) by assumption. eexists _, _. split; [reflexivity|].
    cbn [trials handling running csv next_study now map seq]. rewrite app_nil_r. repeat split; auto; try lia.
    left. repeat split; auto; lia.
  - cbn [optimize_loop]. unfold tbind at 1. rewrite (instant_stops sched k) by assumption. cbn [stop_flag].
    destruct (stop_flag w || sched (now w))%bool eqn:E.
    + exists 0. eexists _, _. split; [reflexivity|]. cbn [trials handling running csv next_study now map seq]. rewrite app_nil_r. repeat split; auto; try lia.
      left. repeat split; auto; try lia. right. apply orb_prop in E. destruct E as [E|E]; [left; exact E|]. right. exists (now w). cbn. split; [unfold c; cbn; lia|exact E].
    + apply orb_false_elim in E as (Ef & Es).
      unfold tbind at 1. rewrite (instants_stops sched k) by reflexivity. cbn [now handling next_study running stop_flag trials csv].
      unfold tbind at 1, add_trial, tdo. cbn [now handling next_study running stop_flag trials csv].
      assert (F0 : f 0 = takes (objective_of i)) by (unfold f; rewrite Nat.add_0_r; reflexivity).
      assert (Dec : (exists e, ends (objective_of i) = Failed e) \/ (forall e, ends (objective_of i) <> Failed e)) by
        (destruct (ends (objective_of i)) as [v| |e]; [right; intros e; discriminate|right; intros e; discriminate|left; exists e; reflexivity]).
      destruct Dec as [(e & En)|En].
      { rewrite En. exists 1. eexists _, _. split; [reflexivity|]. cbn [trials handling running csv next_study now map seq].
           split; [lia|]. split; [unfold rec; rewrite En; reflexivity|]. do 4 (split; [reflexivity|]). split.
           - intros m Hm. assert (m = 0) by lia. subst m. split; [exact Ef|]. intros u Hu. unfold c in Hu. cbn in Hu. assert (u = now w) by lia. subst. exact Es.
           - split; [intros m e' Hm; lia|]. right. exists 0, e. rewrite Nat.add_0_r. repeat split; auto. unfold c. cbn [asks]. lia. }
      match goal with |- context [match ends (objective_of i) with _ => _ end ?ww] => set (w1 := ww) end.
      assert (M : match ends (objective_of i) with Failed e => fun w' => (Raise e, w') | _ => optimize_loop sched objective_of nan left (S i) end w1 = optimize_loop sched objective_of nan left (S i) w1)
        by (destruct (ends (objective_of i)) as [v| |e]; [reflexivity|reflexivity|exfalso; exact (En e eq_refl)]).
      rewrite M; clear M;
        destruct (IH (S i) w1 eq_refl eq_refl) as (j & r & w' & R & J & T & A1 & A2 & A3 & A4 & A5 & A6 & A7); clear IH;
        assert (Cs : forall m, c (S m) = asks (fun m => takes (objective_of (S i + m))) (now w1) m) by
          (intros m; unfold c; rewrite asks_shift; rewrite F0; replace (now w + 1 + takes (objective_of i)) with (now w1) by (subst w1; cbn [now]; lia);
           apply asks_ext; intros x; unfold f; f_equal; f_equal; lia);
        assert (N1 : now w1 = S (now w) + f 0) by (subst w1; cbn [now]; lia);
        assert (G1 : stop_flag w1 = false -> quiet (now w) (now w1)) by
          (subst w1; cbn [stop_flag now]; intros Q u Hu; destruct (Nat.eq_dec u (now w)) as [-> |]; [exact Es|];
           destruct (sched u) eqn:Eu; [|reflexivity]; exfalso;
           assert (X : existsb sched (seq (S (now w)) (takes (objective_of i))) = true) by (apply existsb_exists; exists u; split; [apply in_seq; lia|exact Eu]);
           rewrite X, orb_true_r in Q; discriminate);
        assert (G2 : stop_flag w1 = true -> pressed sched (now w) (now w1)) by
          (subst w1; cbn [stop_flag now]; rewrite ?Ef, ?Es; cbn [orb]; intros Q; apply existsb_exists in Q; destruct Q as (u & Hu & Eu); apply in_seq in Hu; exists u; split; [lia|exact Eu]);
        exists (S j), r, w'; split; [exact R|]; split; [lia|];
        split; [rewrite T; subst w1; cbn [trials seq map]; rewrite <- app_assoc; cbn [app]; reflexivity|];
        split; [exact A1|]; split; [exact A2|]; split; [exact A3|]; split; [exact A4|];
        split; [intros m Hm; split; [exact Ef|]; destruct m as [|m];
                [intros u Hu; unfold c in Hu; cbn in Hu; assert (u = now w) by lia; subst; exact Es|];
                destruct (A5 m ltac:(lia)) as (B1 & B2); rewrite Cs; intros u Hu; destruct (le_lt_dec (now w1) u); [apply B2; lia|apply (G1 B1); lia]|];
        split; [intros m e' Hm; destruct m as [|m]; [rewrite Nat.add_0_r; apply En|]; replace (i + S m) with (S i + m) by lia; apply A6; lia|];
        destruct A7 as [(B1 & B2 & B3 & B4)|(m & e' & B1 & B2 & B3 & B4)];
        [left; split; [exact B1|]; split; [rewrite Cs; exact B2|];
         split; [intros m e' Hm; destruct m as [|m]; [rewrite Nat.add_0_r; apply En|]; replace (i + S m) with (S i + m) by lia; apply B3; lia|];
         destruct B4 as [B4|[B4|B4]]; [left; lia|right; right; destruct (G2 B4) as (u & Hu & Eu); exists u; split; [|exact Eu]; split; [lia|];
           pose proof (asks_mono f (now w) 1 (S j) ltac:(lia)) as M; fold c in M; assert (X : c 1 = now w1) by (unfold c; cbn [asks]; lia); lia|
           right; right; destruct B4 as (u & Hu & Eu); exists u; split; [rewrite Cs; lia|exact Eu]]
        |right; exists (S m), e'; split; [lia|]; split; [exact B2|]; split; [replace (i + S m) with (S i + m) by lia; exact B3|rewrite Cs; exact B4]].
Qed.
End Study.
