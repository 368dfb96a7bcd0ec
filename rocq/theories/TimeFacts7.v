(** Which exception the time-dependent drivers raise. *)
From Coq Require Import Lra Lia.
From Verif Require Import Base BaseFacts SlabModel SlabSpec SphereModel MgModel MgSpec HybModel MainModel MainSpec TimeModel TimeSpec TimeFacts TimeFacts5.
Open Scope R_scope.

Lemma for_up_err_first {St} n (body : nat -> St -> outcome St) s e :
  (0 < n)%nat -> body 0%nat s = Raise e -> for_up_err n body s = Raise e.
Proof.
  intros Hn Hb. induction n as [|n IH]; [lia|]. destruct n as [|n]; [cbn; exact Hb|].
  cbn [for_up_err] in IH |- *. rewrite IH by lia. reflexivity.
Qed.
Lemma for_up_err_stops {St} m n (body : nat -> St -> outcome St) s r e :
  (m < n)%nat -> for_up_err m body s = Ok r -> body m r = Raise e -> for_up_err n body s = Raise e.
Proof.
  intros Hn Hr Hb. induction n as [|n IH]; [lia|]. cbn [for_up_err].
  destruct (Nat.eq_dec n m) as [->|N]; [rewrite Hr; exact Hb|]. rewrite IH by lia. reflexivity.
Qed.

Lemma row4_short a m : d4a a = m -> m <> 1%nat -> row4 a m = Raise IndexError.
Proof.
  intros E N. unfold row4. cbv zeta. assert (B : bidx (d4a a) m = m) by (unfold bidx; destruct (Nat.eqb_spec (d4a a) 1); [lia|reflexivity]).
  rewrite B, E, Nat.ltb_irrefl. reflexivity.
Qed.
Lemma row4_ok a steps k : rows_for a steps -> (k < steps)%nat -> exists r, row4 a k = Ok r /\ d3b r = d4b a /\ d3c r = d4c a.
Proof.
  intros H Hk. unfold row4. cbv zeta. destruct (Nat.ltb_spec (bidx (d4a a) k) (d4a a)) as [L|L]; [eexists; split; [reflexivity|split; reflexivity]|exfalso].
  unfold bidx in L. destruct H as [H|H]; [rewrite H in L; cbn in L; lia|]. destruct (Nat.eqb_spec (d4a a) 1); lia.
Qed.
Lemma add_external_ok P groups a r b : broadcasts P groups a -> d3b r = d4b a -> d3c r = d4c a -> exists q, add_external (angles P) groups r b = Ok q.
Proof.
  intros [H1 H2] E1 E2. unfold add_external. rewrite E1, E2.
  destruct (andb _ _) eqn:Q; [eexists; reflexivity|exfalso].
  apply Bool.andb_false_iff in Q. destruct Q as [Q|Q]; apply Bool.orb_false_iff in Q; destruct Q as [Q1 Q2]; apply Nat.eqb_neq in Q1, Q2; lia.
Qed.
Lemma add_external_bad P groups a r b : ~ broadcasts P groups a -> d3b r = d4b a -> d3c r = d4c a -> add_external (angles P) groups r b = Raise ValueError.
Proof.
  intros H E1 E2. unfold add_external. rewrite E1, E2.
  destruct (andb _ _) eqn:Q; [exfalso; apply H|reflexivity].
  apply Bool.andb_true_iff in Q. destruct Q as [Q1 Q2]. apply Bool.orb_true_iff in Q1, Q2. rewrite !Nat.eqb_eq in Q1, Q2. split; assumption.
Qed.

Lemma timed_ends two P materials groups flux_last xs_total s f velocity external boundary m steps dt geometry ft :
  timed_run two P materials groups flux_last xs_total s f velocity external boundary m dt geometry = Ok ft -> (m < steps)%nat ->
  (d4a external = m /\ m <> 1%nat) \/ (rows_for external steps /\ broadcasts P groups external /\ d4a boundary = m /\ m <> 1%nat) ->
  timed_run two P materials groups flux_last xs_total s f velocity external boundary steps dt geometry = Raise IndexError.
Proof.
  intros E Hm H. destruct two; cbn [timed_run] in E |- *; unfold timed_bdf2, timed_backward_euler in E |- *;
  (match type of E with bind (for_up_err _ ?b ?s0) _ = _ =>
     destruct (for_up_err m b s0) as [r|] eqn:Er; cbn [bind] in E; [|discriminate];
     assert (B : b m r = Raise IndexError);
     [|rewrite (for_up_err_stops m steps b s0 r IndexError Hm Er B); reflexivity] end);
  (unfold timed_bdf2_body, timed_bdf1_body; destruct H as [[H1 H2]|(H1 & H2 & H3 & H4)];
   [rewrite row4_short by assumption; reflexivity|];
   destruct (row4_ok external steps m H1 Hm) as (r4 & -> & R1 & R2); cbn [bind];
   match goal with |- bind (add_external _ _ _ ?b) _ = _ => destruct (add_external_ok P groups external r4 b H2 R1 R2) as [q ->] end; cbn [bind];
   rewrite row4_short by assumption; reflexivity).
Qed.

Lemma timed_bad_shape two P materials groups flux_last xs_total s f velocity external boundary steps dt geometry :
  (0 < steps)%nat -> rows_for external steps -> ~ broadcasts P groups external ->
  timed_run two P materials groups flux_last xs_total s f velocity external boundary steps dt geometry = Raise ValueError.
Proof.
  intros Hs H1 H2. destruct (row4_ok external steps 0 H1 Hs) as (r4 & R & R1 & R2).
  destruct two; cbn [timed_run]; unfold timed_bdf2, timed_backward_euler;
  (erewrite for_up_err_first; [reflexivity|exact Hs|]); unfold timed_bdf2_body, timed_bdf1_body; rewrite R; cbn [bind];
  rewrite (add_external_bad P groups external) by assumption; reflexivity.
Qed.
Lemma hybrid_bad_shape two P PC materials groups groups_c flux_last Tu Tc su sc fu fc vu vc external boundary ci fac steps dt geometry :
  (0 < steps)%nat -> rows_for external steps -> ~ broadcasts P groups external ->
  hybrid_run two P PC materials groups groups_c flux_last Tu Tc su sc fu fc vu vc external boundary ci fac steps dt geometry = Raise ValueError.
Proof.
  intros Hs H1 H2. destruct (row4_ok external steps 0 H1 Hs) as (r4 & R & R1 & R2).
  destruct two; cbn [hybrid_run]; unfold hybrid_bdf2, hybrid_backward_euler;
  (erewrite for_up_err_first; [reflexivity|exact Hs|]); unfold hybrid_bdf2_body, hybrid_bdf1_body; rewrite R; cbn [bind];
  rewrite (add_external_bad P groups external) by assumption; reflexivity.
Qed.

Lemma vhybrid_lists_end two P leggauss stock table grid groups groups_c angles_c flux_last T s f v external boundary m steps dt geometry ft h :
  vhybrid_run two P leggauss stock table grid groups groups_c angles_c flux_last T s f v external boundary m dt geometry = Ok ft -> (m < steps)%nat ->
  groups_c = Each m h \/ (angles_c = Each m h /\ exists n, groups_c = Const n) ->
  vhybrid_run two P leggauss stock table grid groups groups_c angles_c flux_last T s f v external boundary steps dt geometry = Raise IndexError.
Proof.
  intros E Hm H. rewrite vhybrid_run_eq in E |- *. unfold vhybrid_drive in E |- *.
  destruct (vhybrid_precheck _ _ _ _ _) as [u|] eqn:Pre; cbn [bind] in E |- *; [|discriminate].
  match type of E with bind (for_up_err _ ?b ?s0) _ = _ =>
     destruct (for_up_err m b s0) as [r|] eqn:Er; cbn [bind] in E; [|discriminate];
     assert (B : b m r = Raise IndexError);
     [|rewrite (for_up_err_stops m steps b s0 r IndexError Hm Er B); reflexivity] end.
  unfold vhybrid_body. cbv zeta. destruct H as [->|(-> & n & ->)]; cbn [at_step bind]; rewrite Nat.ltb_irrefl; cbn [bind]; [reflexivity|].
  cbn [vhybrid_precheck] in Pre. destruct (energy_grid_change stock table grid groups n); [reflexivity|discriminate].
Qed.
Lemma vhybrid_unbound two P leggauss stock table grid groups groups_c angles_c flux_last T s f v external boundary steps dt geometry :
  (0 < steps)%nat -> rows_for external steps -> broadcasts P groups external ->
  groups_c = OtherType /\ (angles_c = OtherType \/ exists n, angles_c = Const n) ->
  vhybrid_run two P leggauss stock table grid groups groups_c angles_c flux_last T s f v external boundary steps dt geometry = Raise UnboundLocalError.
Proof.
  intros Hs H1 H2 [-> Ha]. rewrite vhybrid_run_eq. unfold vhybrid_drive. cbn [vhybrid_precheck bind].
  destruct (row4_ok external steps 0 H1 Hs) as (r4 & R & R1 & R2).
  erewrite for_up_err_first; [reflexivity|exact Hs|]. unfold vhybrid_body. cbv zeta. cbn [bind]. rewrite R.
  destruct Ha as [-> | [n ->]]; cbn [at_step bind];
  match goal with |- bind (add_external _ _ _ ?b) _ = _ => destruct (add_external_ok P groups external r4 b H2 R1 R2) as [q ->] end; reflexivity.
Qed.
