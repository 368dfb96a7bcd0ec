(** Facts about a run of the tuner. *)
From Coq Require Import Reals ZArith Lia Lra List Bool String.
From Verif Require Import Base MlfModel MltModel TunModel TunSpec TunFacts TunFacts2.
Local Open Scope nat_scope.

Lemma nlt_trans a b c : b <> NotANumber -> loss_lt a b = false -> loss_lt b c = false -> loss_lt a c = false.
Proof.
  intros N H1 H2. destruct a as [x| | |], b as [y| | |], c as [z| | |]; cbn in *; try congruence; try reflexivity.
  destruct (Rlt_dec x y); [discriminate|]. destruct (Rlt_dec y z); [discriminate|]. destruct (Rlt_dec x z); [lra|reflexivity].
Qed.
Lemma nlt_refl a : loss_lt a a = false.
Proof. destruct a; cbn; try reflexivity. destruct (Rlt_dec x x); [lra|reflexivity]. Qed.
Lemma lt_nlt a b : loss_lt a b = true -> loss_lt b a = false.
Proof. destruct a as [x| | |], b as [y| | |]; cbn; try congruence; try reflexivity. destruct (Rlt_dec x y); [|discriminate]. destruct (Rlt_dec y x); [lra|reflexivity]. Qed.
Lemma beats_trans d a b c : b <> NotANumber -> beats d a b = false -> beats d b c = false -> beats d a c = false.
Proof. destruct d; cbn; intros N H1 H2; [exact (nlt_trans a b c N H1 H2)|exact (nlt_trans c b a N H2 H1)]. Qed.
Lemma beats_refl d a : beats d a a = false.
Proof. destruct d; apply nlt_refl. Qed.
Lemma beats_flip d a b : beats d a b = true -> beats d b a = false.
Proof. destruct d; cbn; apply lt_nlt. Qed.

Section Best.
Context {P : Type}.
Lemma best_from d : forall (l : list (P * trial_state)) p b, no_nan l -> b <> NotANumber ->
  exists p' v, best_of d (Some (p, b)) l = Some (p', v) /\ v <> NotANumber /\ (p' = p /\ v = b \/ completes l p' v) /\ beats d b v = false /\
    forall q u, completes l q u -> beats d u v = false.
Proof.
  induction l as [|(q, s) l IH]; intros p b N Nb.
  - exists p, b. cbn. repeat split; auto; [apply beats_refl|intros q u []].
  - assert (Nl : no_nan l) by (intros x I; apply (N x); right; exact I).
    destruct s as [v| |]; cbn [best_of].
    + assert (Nv : v <> NotANumber) by (intros ->; apply (N q); left; reflexivity).
      destruct (beats d v b) eqn:E.
      * destruct (IH q v Nl Nv) as (p' & v' & R & Nv' & O & B & F). exists p', v'. split; [exact R|]. split; [exact Nv'|]. split.
        -- right. destruct O as [(-> & ->)|O]; [left; reflexivity|right; exact O].
        -- split; [apply (beats_trans d b v v' Nv); [apply beats_flip; exact E|exact B]|].
           intros q' u [H|H]; [injection H as -> ->; exact B|exact (F q' u H)].
      * destruct (IH p b Nl Nb) as (p' & v' & R & Nv' & O & B & F). exists p', v'. split; [exact R|]. split; [exact Nv'|]. split.
        -- destruct O as [O|O]; [left; exact O|right; right; exact O].
        -- split; [exact B|]. intros q' u [H|H]; [injection H as -> ->; apply (beats_trans d u b v' Nb E B)|exact (F q' u H)].
    + destruct (IH p b Nl Nb) as (p' & v' & R & Nv' & O & B & F). exists p', v'. repeat split; auto.
      * destruct O as [O|O]; [left; exact O|right; right; exact O].
      * intros q' u [H|H]; [discriminate|exact (F q' u H)].
    + destruct (IH p b Nl Nb) as (p' & v' & R & Nv' & O & B & F). exists p', v'. repeat split; auto.
      * destruct O as [O|O]; [left; exact O|right; right; exact O].
      * intros q' u [H|H]; [discriminate|exact (F q' u H)].
Qed.
Lemma best_none d : forall (l : list (P * trial_state)), no_nan l ->
  (exists p v, best_of d None l = Some (p, v) /\ completes l p v /\ forall q u, completes l q u -> beats d u v = false) \/
  (best_of d None l = None /\ forall q u, ~ completes l q u).
Proof.
  induction l as [|(q, s) l IH]; intros N; [right; split; [reflexivity|intros q u []]|].
  assert (Nl : no_nan l) by (intros x I; apply (N x); right; exact I).
  destruct s as [v| |]; cbn [best_of].
  - assert (Nv : v <> NotANumber) by (intros ->; apply (N q); left; reflexivity).
    destruct (best_from d l q v Nl Nv) as (p' & v' & R & _ & O & B & F). left. exists p', v'. split; [exact R|]. split.
    + destruct O as [(-> & ->)|O]; [left; reflexivity|right; exact O].
    + intros q' u [H|H]; [injection H as -> ->; exact B|exact (F q' u H)].
  - destruct (IH Nl) as [(p & v & R & C & F)|(R & F)]; [left; exists p, v; repeat split; auto; [right; exact C|intros q' u [H|H]; [discriminate|exact (F q' u H)]]|right; split; [exact R|intros q' u [H|H]; [discriminate|exact (F q' u H)]]].
  - destruct (IH Nl) as [(p & v & R & C & F)|(R & F)]; [left; exists p, v; repeat split; auto; [right; exact C|intros q' u [H|H]; [discriminate|exact (F q' u H)]]|right; split; [exact R|intros q' u [H|H]; [discriminate|exact (F q' u H)]]].
Qed.
Lemma best_answers d (l : list (P * trial_state)) : no_nan l -> answers d l (best_params d l).
Proof.
  intros N. unfold best_params. destruct (best_none d l N) as [(p & v & R & C & F)|(R & F)]; rewrite R.
  - left. exists p. split; [reflexivity|]. exists v. split; [exact C|]. intros q u H. specialize (F q u H). destruct d; exact F.
  - right. split; [exact F|reflexivity].
Qed.
End Best.

Section Run.
Context {P : Type}.
Variables (sched : nat -> bool) (objective_of : nat -> trial_run P) (nan : nat -> bool).
Lemma records_seq j : records objective_of nan (map (rec objective_of nan) (seq 0 j)).
Proof.
  intros i H. rewrite map_length, seq_length in H. exists (rec objective_of nan i). split.
  - rewrite nth_error_map. rewrite (nth_error_nth' _ 0) by (rewrite seq_length; exact H). rewrite seq_nth by exact H. reflexivity.
  - unfold recorded, rec. cbn [fst snd]. split; [reflexivity|]. unfold state_of. destruct (ends (objective_of i)); auto. destruct (nan i); reflexivity.
Qed.
Lemma records_no_nan j : no_nan (map (rec objective_of nan) (seq 0 j)).
Proof.
  intros p H. unfold completes in H. apply in_map_iff in H. destruct H as (i & E & _). unfold rec in E. injection E as _ E. unfold state_of in E.
  destruct (ends (objective_of i)); [destruct (nan i)| |]; discriminate.
Qed.
Lemma no_nan_app (a b : list (P * trial_state)) : no_nan a -> no_nan b -> no_nan (a ++ b).
Proof. intros A B p H. apply in_app_or in H. destruct H as [H|H]; [exact (A p H)|exact (B p H)]. Qed.


Lemma instant_raises (w : tune_world P) k : sched (now w) = true -> handling w = Stops k -> running w = None ->
  instant sched w = (Raise RuntimeError, mkTune (S (now w)) (handling w) (next_study w) (running w) (stop_flag w) (trials w) (csv w)) .
Proof. intros H1 H2 H3. unfold instant, arrive. rewrite H1. cbn [handling running]. rewrite H2, H3. reflexivity. Qed.

Lemma run_spec stored asked n (w : tune_world P) : ~ pressed sched (now w) (now w + 3) -> no_nan (trials_before stored) ->
  let start := now w + 3 in let c := asks (fun m => takes (objective_of m)) start in
  exists j l r w', run_study sched stored asked n objective_of nan w = (r, w') /\ j <= n /\ List.length l = j /\ records objective_of nan l /\
    trials w' = (trials_before stored ++ l)%list /\ handling w' = Stops (next_study w) /\ running w' = None /\
    (forall m, m < j -> ~ pressed sched start (S (c m))) /\ (forall m e, S m < j -> ~ raises objective_of m e) /\
    (((forall m e, m < j -> ~ raises objective_of m e) /\ (j = n \/ pressed sched start (S (c j))) /\
       (~ pressed sched (S (c j)) (c j + 3) -> csv w' = Some (trials_before stored ++ l)%list /\ answers (direction_used stored asked) (trials_before stored ++ l) r) /\
       (pressed sched (S (c j)) (c j + 3) -> r = Raise RuntimeError)) \/
     (exists m e, j = S m /\ raises objective_of m e /\ r = Raise e /\ csv w' = csv w)).
Proof.
  intros Q NN start c.
  assert (Q0 : forall u, now w <= u < now w + 3 -> sched u = false).
  { intros u Hu. destruct (sched u) eqn:E; [|reflexivity]. exfalso. apply Q. exists u. auto. }
  unfold run_study, tbind at 1. rewrite instant_quiet by (apply Q0; lia). cbn [now handling next_study running stop_flag trials csv].
  unfold tbind at 1. rewrite instant_quiet by (cbn [now]; apply Q0; lia). cbn [now handling next_study running stop_flag trials csv].
  unfold tbind at 1, tdo at 1. cbn [now handling next_study running stop_flag trials csv].
  unfold tbind at 1. rewrite instant_quiet by (cbn [now]; apply Q0; lia). cbn [now handling next_study running stop_flag trials csv].
  unfold tbind at 1, tfinally, tbind at 1, enter_loop, tdo at 1. cbn [now handling next_study running stop_flag trials csv].
  match goal with |- context [optimize_loop _ _ _ _ _ ?ww] => set (w1 := ww) end.
  destruct (loop_run sched objective_of nan (next_study w) n 0 w1 eq_refl eq_refl) as (j & r & w2 & R & J & T & A1 & A2 & A3 & A4 & A5 & A6 & A7).
  cbn [Nat.add] in A6, A7. rewrite R. assert (N1 : now w1 = start) by (subst w1 start; cbn [now]; lia). rewrite N1 in *.
  change (fun m => takes (objective_of (0 + m))) with (fun m => takes (objective_of m)) in *. fold c in A5, A7.
  fold (trials_before stored) in *. fold (direction_used stored asked) in *.
  assert (T1 : trials w2 = (trials_before stored ++ map (rec objective_of nan) (seq 0 j))%list) by (rewrite T; subst w1; reflexivity).
  set (l := map (rec objective_of nan) (seq 0 j)) in *.
  assert (Ll : List.length l = j) by (subst l; rewrite map_length, seq_length; reflexivity).
  assert (NNl : no_nan (trials_before stored ++ l)) by (apply no_nan_app; [exact NN|apply records_no_nan]).
  assert (Base : forall m, m < j -> ~ pressed sched start (S (c m))) by (intros m Hm; destruct (A5 m Hm) as (_ & B); exact (quiet_not_pressed sched _ _ B)).
  assert (Base2 : forall m e, S m < j -> ~ raises objective_of m e) by (intros m e Hm; exact (A6 m e Hm)).
  destruct A7 as [(B1 & B2 & B3 & B4)|(m & e & B1 & B2 & B3 & B4)]; subst r.
  - assert (Stop : j = n \/ pressed sched start (S (c j))) by (destruct B4 as [B4|[B4|B4]]; [left; exact B4|subst w1; discriminate|right; exact B4]).
    unfold leave_loop. unfold tbind at 1.
    destruct (sched (S (c j))) eqn:E1.
    { rewrite (instant_raises _ (next_study w)) by (cbn [now handling running]; rewrite ?B2; auto). cbn [now handling next_study running stop_flag trials csv].
      exists j, l. eexists _, _. split; [reflexivity|]. cbn [trials handling running csv]. repeat split; auto; try apply records_seq.
      left. repeat split; auto.
      - exfalso. apply H. exists (S (c j)). split; [lia|exact E1].
      - exfalso. apply H. exists (S (c j)). split; [lia|exact E1]. }
    rewrite instant_quiet by (cbn [now]; rewrite B2; exact E1). cbn [now handling next_study running stop_flag trials csv].
    unfold tbind at 1, tdo at 1. cbn [now handling next_study running stop_flag trials csv]. unfold tbind at 1.
    destruct (sched (S (S (c j)))) eqn:E2.
    { rewrite (instant_raises _ (next_study w)) by (cbn [now handling running]; rewrite ?B2; auto). cbn [now handling next_study running stop_flag trials csv].
      exists j, l. eexists _, _. split; [reflexivity|]. cbn [trials handling running csv]. repeat split; auto; try apply records_seq.
      left. repeat split; auto.
      - rewrite T1. reflexivity.
      - exfalso. apply H. exists (S (S (c j))). split; [lia|exact E2]. }
    rewrite instant_quiet by (cbn [now]; rewrite B2; exact E2). cbn [now handling next_study running stop_flag trials csv].
    exists j, l. eexists _, _. split; [reflexivity|]. cbn [trials handling running csv]. repeat split; auto; try apply records_seq.
    left. repeat split; auto.
    + rewrite T1. reflexivity.
    + rewrite T1. apply best_answers. exact NNl.
    + intros (u & Hu & Eu). exfalso. assert (u = S (c j) \/ u = S (S (c j))) as [-> | ->] by lia; congruence.
  - exists j, l, (Raise e), (leave_loop w2). split; [reflexivity|]. split; [exact J|]. split; [exact Ll|]. split; [apply records_seq|].
    unfold leave_loop. cbn [trials handling running csv]. split; [exact T1|]. split; [exact A1|]. split; [reflexivity|]. split; [exact Base|]. split; [exact Base2|].
    right. exists m, e. repeat split; auto.
Qed.

(** Ctrl+C when the handler is installed but the loop has not begun. *)
Lemma run_early stored asked n (w : tune_world P) : ~ pressed sched (now w) (now w + 2) -> sched (now w + 2) = true -> running w = None ->
  exists w', run_study sched stored asked n objective_of nan w = (Raise RuntimeError, w') /\ trials w' = trials_before stored /\ csv w' = csv w /\ handling w' = Stops (next_study w).
Proof.
  intros Q E O.
  assert (Q0 : forall u, now w <= u < now w + 2 -> sched u = false).
  { intros u Hu. destruct (sched u) eqn:E0; [|reflexivity]. exfalso. apply Q. exists u. auto. }
  unfold run_study, tbind at 1. rewrite instant_quiet by (apply Q0; lia). cbn [now handling next_study running stop_flag trials csv].
  unfold tbind at 1. rewrite instant_quiet by (cbn [now]; apply Q0; lia). cbn [now handling next_study running stop_flag trials csv].
  unfold tbind at 1, tdo at 1. cbn [now handling next_study running stop_flag trials csv].
  unfold tbind at 1. rewrite (instant_raises _ (next_study w)); cbn [now handling running]; [|rewrite Nat.add_comm in E; exact E|reflexivity|exact O].
  eexists. split; [reflexivity|]. cbn [trials csv handling]. auto.
Qed.
(** ... and before it is installed. *)
Lemma run_first stored asked n (w : tune_world P) b : handling w = Before b -> sched (now w) = true ->
  b = true -> exists w', run_study sched stored asked n objective_of nan w = (Raise KeyboardInterrupt, w') /\ trials w' = trials w /\ handling w' = Before b.
Proof.
  intros H E ->. unfold run_study, tbind at 1, instant, arrive. rewrite E. cbn [handling]. rewrite H. eexists. split; [reflexivity|]. cbn. auto.
Qed.
End Run.

(** After a run, Ctrl+C in other code. *)
Lemma press_later {P} (sched : nat -> bool) (w : tune_world P) k : handling w = Stops k -> running w = None -> sched (now w) = true -> fst (instant sched w) = Raise RuntimeError.
Proof. intros H1 H2 H3. unfold instant, arrive. rewrite H3. cbn [handling running]. rewrite H1, H2. reflexivity. Qed.
