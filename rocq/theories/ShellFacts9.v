(** What the time-dependent drivers raise on spheres and on Legendre scattering. *)
From Coq Require Import Lra Lia.
From Verif Require Import Base BaseFacts SlabModel SlabSpec SphereModel SphereFacts2 MgModel MgSpec MgFacts6 HybModel MainModel TimeModel TimeSpec TimeFacts TimeFacts7 AniFacts6 ShellFacts2 ShellFacts4.
Open Scope R_scope.

Lemma known_angular_sphere_kind P groups xs_total source boundary edges : (exists m, (m < angles P)%nat /\ mu P m <> 0) -> (0 < groups)%nat ->
  known_source_angular P groups xs_total source boundary 2 edges = Raise IndexError.
Proof.
  intros Hm Hg. unfold known_source_angular. apply for_up_err_first; [exact Hg|]. cbv zeta. rewrite sphere_known_fails by exact Hm. reflexivity.
Qed.
Lemma known_scalar_sphere_kind P groups xs_total source boundary edges : (exists m, (m < angles P)%nat /\ mu P m <> 0) -> (0 < groups)%nat ->
  known_source_scalar P groups xs_total source boundary 2 edges = Raise IndexError.
Proof.
  intros Hm Hg. unfold known_source_scalar. apply for_up_err_first; [exact Hg|]. cbv zeta. rewrite sphere_known_fails by exact Hm. reflexivity.
Qed.
Lemma known_scalar_slab_total P groups xs_total source boundary edges :
  exists phi, known_source_scalar P groups xs_total source boundary 1 edges = Ok phi.
Proof.
  unfold known_source_scalar. apply for_up_err_ok. intros k t _. cbv zeta. unfold known_source_sn. cbn [Nat.eqb bind]. eexists; reflexivity.
Qed.

Lemma timed_legendre_kind two P materials groups flux_last xs_total nm s f velocity external boundary steps dt geometry :
  geometry = 1%nat \/ geometry = 2%nat -> (0 < nm)%nat -> nonzero_ordinates (angles P) (mu P) ->
  (0 < steps)%nat -> rows_for external steps -> rows_for boundary steps -> broadcasts P groups external ->
  timed_run two P materials groups flux_last xs_total (Scatter4 nm s) f velocity external boundary steps dt geometry = Raise TypeError.
Proof.
  intros Hgeo Hnm Hnz Hs H1 H1' H2.
  destruct (row4_ok external steps 0 H1 Hs) as (r4 & R & R1 & R2). destruct (row4_ok boundary steps 0 H1' Hs) as (b4 & B & _ & _).
  assert (EX : exists Y, transfer_matrix materials groups (Scatter4 nm s) f = Scatter4 nm Y) by (destruct f; eexists; reflexivity).
  destruct EX as [Y EY].
  assert (K : forall old T q b, timed_solve P groups old T (Scatter4 nm Y) q b geometry = Raise TypeError).
  { intros old T q b. unfold timed_solve.
    assert (G : exists fl, source_iteration P groups old T (Scatter4 nm Y) q b geometry None = Ok fl)
      by (destruct Hgeo as [-> | ->]; [apply aniso_total|apply aniso_ball_total]; assumption).
    destruct G as [fl ->]. reflexivity. }
  destruct two; cbn [timed_run]; unfold timed_bdf2, timed_backward_euler; rewrite EY;
  (erewrite for_up_err_first; [reflexivity|exact Hs|]); unfold timed_bdf2_body, timed_bdf1_body; rewrite R; cbn [bind];
  match goal with |- bind (add_external _ _ _ ?b) _ = _ => destruct (add_external_ok P groups external r4 b H2 R1 R2) as [q ->] end; cbn [bind];
  rewrite B; cbn [bind]; rewrite K; reflexivity.
Qed.
Lemma timed_sphere_kind two P materials groups flux_last xs_total s f velocity external boundary steps dt :
  (exists m, (m < angles P)%nat) -> (0 < groups)%nat -> nonzero_ordinates (angles P) (mu P) ->
  (0 < steps)%nat -> rows_for external steps -> rows_for boundary steps -> broadcasts P groups external ->
  timed_run two P materials groups flux_last xs_total (Scatter3 s) f velocity external boundary steps dt 2 = Raise IndexError.
Proof.
  intros [m0 Hm0] Hg Hnz Hs H1 H1' H2.
  assert (Hm : exists m, (m < angles P)%nat /\ mu P m <> 0) by (exists m0; split; [exact Hm0|apply Hnz; exact Hm0]).
  destruct (row4_ok external steps 0 H1 Hs) as (r4 & R & R1 & R2). destruct (row4_ok boundary steps 0 H1' Hs) as (b4 & B & _ & _).
  assert (EX : exists Y, transfer_matrix materials groups (Scatter3 s) f = Scatter3 Y) by (destruct f; eexists; reflexivity).
  destruct EX as [Y EY].
  assert (K : forall old T q b, timed_solve P groups old T (Scatter3 Y) q b 2 = Raise IndexError).
  { intros old T q b. unfold timed_solve. destruct (ball_total P groups old T Y q b None Hnz) as [fl ->]. cbn [bind].
    rewrite known_angular_sphere_kind by assumption. reflexivity. }
  destruct two; cbn [timed_run]; unfold timed_bdf2, timed_backward_euler; rewrite EY;
  (erewrite for_up_err_first; [reflexivity|exact Hs|]); unfold timed_bdf2_body, timed_bdf1_body; rewrite R; cbn [bind];
  match goal with |- bind (add_external _ _ _ ?b) _ = _ => destruct (add_external_ok P groups external r4 b H2 R1 R2) as [q ->] end; cbn [bind];
  rewrite B; cbn [bind]; rewrite K; reflexivity.
Qed.
(** The hybrid drivers fail in their first, uncollided sweep on spheres, and in the collision source with Legendre scattering. *)
Lemma hybrid_kind two P PC materials groups groups_c flux_last Tu Tc su sc fu fc vu vc external boundary ci fac steps dt :
  (0 < steps)%nat -> rows_for external steps -> rows_for boundary steps -> broadcasts P groups external ->
  ((0 < groups)%nat -> (exists m, (m < angles P)%nat /\ mu P m <> 0) ->
   hybrid_run two P PC materials groups groups_c flux_last Tu Tc su sc fu fc vu vc external boundary ci fac steps dt 2 = Raise IndexError) /\
  (forall nm s, su = Scatter4 nm s ->
   hybrid_run two P PC materials groups groups_c flux_last Tu Tc su sc fu fc vu vc external boundary ci fac steps dt 1 = Raise TypeError).
Proof.
  intros Hs H1 H1' H2.
  destruct (row4_ok external steps 0 H1 Hs) as (r4 & R & R1 & R2). destruct (row4_ok boundary steps 0 H1' Hs) as (b4 & B & _ & _).
  split.
  - intros Hg Hm.
    destruct two; cbn [hybrid_run]; unfold hybrid_bdf2, hybrid_backward_euler;
    (erewrite for_up_err_first; [reflexivity|exact Hs|]); unfold hybrid_bdf2_body, hybrid_bdf1_body; cbv zeta; rewrite R; cbn [bind];
    match goal with |- bind (add_external _ _ _ ?b) _ = _ => destruct (add_external_ok P groups external r4 b H2 R1 R2) as [q ->] end; cbn [bind];
    rewrite B; cbn [bind]; unfold hybrid_method; rewrite known_scalar_sphere_kind by assumption; reflexivity.
  - intros nm s ->.
    assert (EX : exists Y, transfer_matrix materials groups (Scatter4 nm s) fu = Scatter4 nm Y) by (destruct fu; eexists; reflexivity).
    destruct EX as [Y EY].
    destruct two; cbn [hybrid_run]; unfold hybrid_bdf2, hybrid_backward_euler; rewrite EY;
    (erewrite for_up_err_first; [reflexivity|exact Hs|]); unfold hybrid_bdf2_body, hybrid_bdf1_body; cbv zeta; rewrite R; cbn [bind];
    match goal with |- bind (add_external _ _ _ ?b) _ = _ => destruct (add_external_ok P groups external r4 b H2 R1 R2) as [q ->] end; cbn [bind];
    rewrite B; cbn [bind]; unfold hybrid_method;
    match goal with |- context [known_source_scalar ?a ?b ?c ?d ?e 1 0] => destruct (known_scalar_slab_total a b c d e 0%nat) as [phi ->] end; reflexivity.
Qed.
