(** The timed drivers: termination, steady states, positivity, balance, errors. *)
From Coq Require Import Lra Lia FunctionalExtensionality.
From Verif Require Import Base BaseFacts SlabModel SlabSpec SlabFacts SlabFacts2 SlabFacts4 SlabFacts5.
From Verif Require Import SphereModel SphereFacts2.
From Verif Require Import MgModel MgSpec MgFacts MgFacts2 MgFacts3 MgFacts4 MgFacts6.
From Verif Require Import TimeModel TimeSpec TimeFacts TimeFacts2.
Open Scope R_scope.

Lemma row4_total a steps k : rows_for a steps -> (k < steps)%nat -> row4 a k = Ok (step_row a k).
Proof.
  intros H Hk. unfold row4, step_row, bidx. destruct H as [H|H].
  - rewrite H. reflexivity.
  - destruct (Nat.eqb_spec (d4a a) 1) as [E|E].
    + rewrite E. reflexivity.
    + destruct (Nat.ltb_spec k (d4a a)); [reflexivity|lia].
Qed.

Lemma add_external_total P groups a k b : broadcasts P groups a ->
  exists q, add_external (angles P) groups (step_row a k) b = Ok q.
Proof.
  intros [H1 H2]. unfold add_external. cbn [step_row d3b d3c].
  assert (E1 : orb (Nat.eqb (d4b a) 1) (Nat.eqb (d4b a) (angles P)) = true)
    by (apply Bool.orb_true_iff; destruct H1 as [-> | ->]; [left|right]; apply Nat.eqb_refl).
  assert (E2 : orb (Nat.eqb (d4c a) 1) (Nat.eqb (d4c a) groups) = true)
    by (apply Bool.orb_true_iff; destruct H2 as [-> | ->]; [left|right]; apply Nat.eqb_refl).
  rewrite E1, E2. cbn [andb]. eauto.
Qed.

(** ** Termination *)
Lemma timed_total two P materials groups flux_last xs_total s f velocity external boundary steps dt :
  nonzero_ordinates (angles P) (mu P) ->
  rows_for external steps -> rows_for boundary steps -> broadcasts P groups external ->
  exists ft, timed_run two P materials groups flux_last xs_total (Scatter3 s) f velocity external boundary steps dt 1
             = Ok ft.
Proof.
  intros Hnz He Hb Hx. rewrite timed_run_eq. destruct (transfer3 materials groups s f) as (X & -> & _).
  match goal with |- context [for_up_err steps ?B ?s0] => assert (K : exists r, for_up_err steps B s0 = Ok r) end.
  { apply for_up_err_ok. intros k st Hk.
    destruct two; cbn [timed_body]; unfold timed_bdf2_body, timed_bdf1_body, timed_solve, source_iteration;
      rewrite (row4_total _ _ _ He Hk); cbn [bind].
    - destruct (add_external_total P groups external k (bdf2_source velocity dt k (t_psi1 st) (t_psi2 st)) Hx) as [q ->].
      cbn [bind]. rewrite (row4_total _ _ _ Hb Hk). cbn [bind].
      destruct (outer_total P groups (t_old st) (star_total (if Nat.eqb k 0 then 1 else 1.5) xs_total velocity dt) X q
                  (step_row boundary k) Hnz) as [fl ->]. cbn [bind].
      match goal with |- context [known_source_angular ?p ?g ?t ?q ?b 1 0] =>
        destruct (known_total p g t q b 0) as [_ [psi ->]] end.
      cbn [bind]. eauto.
    - match goal with |- context [add_external _ _ _ ?b] =>
        destruct (add_external_total P groups external k b Hx) as [q ->] end.
      cbn [bind]. rewrite (row4_total _ _ _ Hb Hk). cbn [bind].
      destruct (outer_total P groups (t_old st) (star_total 1 xs_total velocity dt) X q (step_row boundary k) Hnz) as [fl ->].
      cbn [bind].
      match goal with |- context [known_source_angular ?p ?g ?t ?q ?b 1 0] =>
        destruct (known_total p g t q b 0) as [_ [psi ->]] end.
      cbn [bind]. eauto. }
  destruct K as [r ->]. cbn [bind]. eauto.
Qed.

(** ** Steady states *)
Lemma run_derivative_steady two dt psi k psi0 P groups : dt <> 0 ->
  (forall j, (j <= k)%nat -> agree3 (cells P) (angles P) groups (psi j) psi0) ->
  forall i m g, (i < cells P)%nat -> (m < angles P)%nat -> (g < groups)%nat ->
    run_derivative two dt psi k psi0 i m g = 0.
Proof.
  intros Hdt H i m g Hi Hm Hg. unfold run_derivative, euler_derivative, bdf2_derivative.
  destruct two; [destruct k as [|j]|].
  - rewrite (H 0%nat (le_n _) i m g) by assumption. field. exact Hdt.
  - rewrite (H (S j) (le_n _) i m g), (H j ltac:(lia) i m g) by assumption. field. exact Hdt.
  - rewrite (H k (le_n _) i m g) by assumption. field. exact Hdt.
Qed.

Lemma step_equation_derivative P groups v T X ext bnd d d' v' emit E psi :
  (forall i m g, (i < cells P)%nat -> (m < angles P)%nat -> (g < groups)%nat -> d i m g / v g = d' i m g / v' g) ->
  step_equation P groups v T X ext bnd d emit E psi -> step_equation P groups v' T X ext bnd d' emit E psi.
Proof.
  intros HX H g m Hg Hm. destruct (H g m Hg Hm) as [A B]. split; [|exact B].
  intros i Hi. destruct (A i Hi) as [C D]. split; [exact C|]. rewrite <- D, HX by assumption. reflexivity.
Qed.

Lemma timed_steady two P materials groups flux_last xs_total s f velocity external boundary ext bnd steps dt :
  angles P <> 1%nat -> nonzero_ordinates (angles P) (mu P) ->
  (forall i, (i < cells P)%nat -> (medium P i < materials)%nat) ->
  (forall g, (g < groups)%nat -> velocity g <> 0) -> dt <> 0 ->
  (forall k, (k < steps)%nat -> mg_divisors P groups (effective_total (run_weight two k) xs_total velocity dt)) ->
  rows_for external steps -> rows_for boundary steps -> broadcasts P groups external ->
  (forall k, (k < steps)%nat -> step_row external k = ext /\ step_row boundary k = bnd) ->
  steady P groups xs_total (total_transfer s f) ext bnd flux_last ->
  exists ft,
    timed_run two P materials groups flux_last xs_total (Scatter3 s) f velocity external boundary steps dt 1 = Ok ft /\
    forall k, (k < steps)%nat -> agree2 (cells P) groups (ft k) (scalar_flux P flux_last).
Proof.
  intros Ha Hnz Hmed Hv Hdt Hd He Hb Hx Hrow [E0 H0].
  destruct (timed_total two P materials groups flux_last xs_total s f velocity external boundary steps dt Hnz He Hb Hx)
    as [ft Eft].
  exists ft. split; [exact Eft|].
  destruct (timed_history_gen two P materials groups flux_last xs_total s f velocity external boundary steps dt
              Ha Hnz Hmed Hv Hdt ft Hd Eft) as (X & x & _ & HX & Hx0 & Hs & Hft & Hsrc & HH).
  set (psi := fun j => t_psi1 (x j)) in *.
  assert (I : forall k, (k <= steps)%nat ->
    agree2 (cells P) groups (t_old (x k)) (scalar_flux P flux_last) /\
    forall j, (j <= k)%nat -> agree3 (cells P) (angles P) groups (psi j) flux_last).
  { induction k as [|k IH]; intros Hk.
    - split; [rewrite Hx0; cbn [t_old]; rewrite angle_sum_scalar; intros i g _ _; reflexivity|].
      intros j Hj. assert (j = 0)%nat as -> by lia. unfold psi. rewrite Hx0. intros i m g _ _ _. reflexivity.
    - destruct (IH ltac:(lia)) as [IO IP]. assert (Hk' : (k < steps)%nat) by lia.
      destruct (Hrow k Hk') as [Re Rb].
      assert (D0 := run_derivative_steady two dt psi k flux_last P groups Hdt IP).
      assert (Q : forall phi, agree2 (cells P) groups phi (scalar_flux P flux_last) ->
        step_equation P groups velocity xs_total (total_transfer s f) ext bnd (run_derivative two dt psi k flux_last)
          phi E0 flux_last).
      { intros phi Hphi. apply (step_equation_emit P groups _ _ _ _ _ _ (scalar_flux P flux_last));
          [intros i g Hi Hg; symmetry; apply Hphi; assumption|].
        eapply step_equation_derivative; [|exact H0]. intros i m g Hi Hm Hg. cbv beta.
        rewrite D0 by assumption. unfold Rdiv. rewrite !Rmult_0_l. reflexivity. }
      destruct (timed_body_ok _ _ _ _ _ _ _ _ _ _ _ _ (Hs k Hk')) as (_ & _ & q & Eq & Ei & _).
      assert (Eq' := add_external_ok _ _ _ _ _ Eq).
      assert (Hmg : mg_solution P groups (effective_total (run_weight two k) xs_total velocity dt) X q
                (step_row boundary k) (t_old (x k))).
      { apply (exact_step_solution P groups velocity dt xs_total X (step_row external k) (step_row boundary k)
          (run_weight two k) (run_source two velocity dt psi k) (run_derivative two dt psi k) q).
        - intros new i m g _ _ Hg. apply run_derivative_eq; auto.
        - rewrite Eq'. reflexivity.
        - rewrite Eq'. reflexivity.
        - intros i m g Hi Hm Hg. rewrite Eq'. cbn [at3]. rewrite Hsrc by exact Hk'. reflexivity.
        - exists E0, flux_last. split; [|exact IO]. rewrite Re, Rb.
          eapply step_equation_xs; [|apply Q, IO]. intros; symmetry; apply HX; assumption. }
      destruct (solution_driver P groups _ X q (step_row boundary k) (t_old (x k)) Hnz (Hd k Hk') Hmg) as (fl & Efl & Afl).
      rewrite Ei in Efl. injection Efl as <-.
      assert (IO' : agree2 (cells P) groups (t_old (x (S k))) (scalar_flux P flux_last))
        by (intros i g Hi Hg; rewrite Afl by assumption; apply IO; assumption).
      split; [exact IO'|]. intros j Hj. destruct (Nat.eq_dec j (S k)) as [-> |Hne]; [|apply IP; lia].
      destruct (HH k Hk') as [E1 HE1]. rewrite Hft, Re, Rb in HE1 by exact Hk'.
      assert (HE2 := Q _ IO').
      apply (sweep_step P groups velocity dt xs_total (total_transfer s f) ext bnd
        (run_weight two k) (run_source two velocity dt psi k)) in HE1;
        [|intros i m g _ _ Hg; apply run_derivative_eq; auto].
      apply (sweep_step P groups velocity dt xs_total (total_transfer s f) ext bnd
        (run_weight two k) (run_source two velocity dt psi k)) in HE2;
        [|intros i m g _ _ Hg; apply run_derivative_eq; auto].
      apply (sweep_unique P groups _ _ _ _ _ _ _ Hnz (Hd k Hk') HE1 HE2). }
  intros k Hk. rewrite Hft by exact Hk. apply (I (S k)). lia.
Qed.

(** ** Positivity of backward Euler *)
Lemma timed_nonneg P materials groups flux_last xs_total s f velocity external boundary steps dt ft :
  angles P <> 1%nat -> nonzero_ordinates (angles P) (mu P) ->
  (forall i, (i < cells P)%nat -> (medium P i < materials)%nat) ->
  (forall g, (g < groups)%nat -> 0 < velocity g) -> 0 < dt ->
  mg_thin P groups (effective_total 1 xs_total velocity dt) ->
  (forall m, (m < angles P)%nat -> 0 <= wt P m) ->
  (forall i g h, (i < cells P)%nat -> (g < groups)%nat -> (h < groups)%nat -> 0 <= total_transfer s f (medium P i) g h) ->
  (forall k i m g, (k < steps)%nat -> (i < cells P)%nat -> (m < angles P)%nat -> (g < groups)%nat ->
     0 <= at3 (step_row external k) i (bidx (d4b external) m) (bidx (d4c external) g)) ->
  (forall k m g, (k < steps)%nat -> (m < angles P)%nat -> (g < groups)%nat -> 0 <= mg_boundary (step_row boundary k) (mu P) g m) ->
  (forall i m g, (i < cells P)%nat -> (m < angles P)%nat -> (g < groups)%nat -> 0 <= flux_last i m g) ->
  timed_backward_euler P materials groups flux_last xs_total (Scatter3 s) f velocity external boundary steps dt 1 = Ok ft ->
  forall k i g, (k < steps)%nat -> (i < cells P)%nat -> (g < groups)%nat -> 0 <= ft k i g.
Proof.
  intros Ha Hnz Hmed Hv Hdt Hthin Hw Hxs Hext Hbnd H0 Eft. rewrite <- timed_run_be in Eft.
  assert (Hd : mg_divisors P groups (effective_total 1 xs_total velocity dt))
    by (intros g Hg; apply thin_divisors; [exact Hnz|apply Hthin; exact Hg]).
  assert (Hv' : forall g, (g < groups)%nat -> velocity g <> 0) by (intros g Hg; specialize (Hv g Hg); lra).
  destruct (timed_history_gen false P materials groups flux_last xs_total s f velocity external boundary steps dt
              Ha Hnz Hmed Hv' ltac:(lra) ft (fun k _ => Hd) Eft) as (X & x & _ & HX & Hx0 & Hs & Hft & Hsrc & HH).
  set (psi := fun j => t_psi1 (x j)) in *.
  assert (HXn : forall i g h, (i < cells P)%nat -> (g < groups)%nat -> (h < groups)%nat -> 0 <= X (medium P i) g h)
    by (intros; rewrite HX by assumption; apply Hxs; assumption).
  assert (I : forall k, (k <= steps)%nat ->
    (forall i g, (i < cells P)%nat -> (g < groups)%nat -> 0 <= t_old (x k) i g) /\
    (forall i m g, (i < cells P)%nat -> (m < angles P)%nat -> (g < groups)%nat -> 0 <= psi k i m g)).
  { induction k as [|k IH]; intros Hk.
    - unfold psi. rewrite Hx0. cbn [t_old t_psi1]. split; [|exact H0]. intros i g Hi Hg. apply rsum_nonneg.
      intros m Hm. apply Rmult_le_pos; [apply H0; assumption|apply Hw; exact Hm].
    - destruct (IH ltac:(lia)) as [IO IP]. assert (Hk' : (k < steps)%nat) by lia.
      destruct (timed_body_ok _ _ _ _ _ _ _ _ _ _ _ _ (Hs k Hk')) as (_ & _ & q & Eq & Ei & _).
      apply add_external_ok in Eq.
      assert (Hq : forall i m g, (i < cells P)%nat -> (m < angles P)%nat -> (g < groups)%nat -> 0 <= at3 q i m g).
      { intros i m g Hi Hm Hg. rewrite Eq. cbn [at3 step_row d3b d3c]. apply Rplus_le_le_0_compat.
        - apply (Hext k i m g Hk' Hi Hm Hg).
        - cbn [body_source]. apply Rmult_le_pos; [|apply IP; assumption].
          unfold Rdiv. rewrite Rmult_1_l. apply Rlt_le, Rinv_0_lt_compat, Rmult_lt_0_compat; [apply Hv; exact Hg|exact Hdt]. }
      assert (O' : forall i g, (i < cells P)%nat -> (g < groups)%nat -> 0 <= t_old (x (S k)) i g).
      { apply (outer_nonneg P groups (effective_total 1 xs_total velocity dt) X q (step_row boundary k) (t_old (x k))); auto.
        - intros m i g Hm Hi Hg.
          assert (B1 : d3b q = angles P) by (rewrite Eq; reflexivity).
          assert (B2 : d3c q = groups) by (rewrite Eq; reflexivity).
          rewrite B1, B2, !bidx_full by assumption. apply Hq; assumption. }
      split; [exact O'|].
      destruct (HH k Hk') as [E1 HE1].
      apply (sweep_step P groups velocity dt xs_total (total_transfer s f) (step_row external k) (step_row boundary k)
        1 (run_source false velocity dt psi k)) in HE1;
        [|intros i m g _ _ Hg; rewrite run_derivative_eq by (auto; lra); reflexivity].
      apply (sweep_nonneg P groups _ _ _ _ _ Hnz Hthin HE1); [|intros; apply Hbnd; assumption].
      intros i m g Hi Hm Hg. cbv beta. rewrite Hft by exact Hk'.
      assert (A1 : 0 <= rsum groups (fun h => total_transfer s f (medium P i) g h * t_old (x (S k)) i h))
        by (apply rsum_nonneg; intros h Hh; apply Rmult_le_pos; [apply Hxs; assumption|apply O'; assumption]).
      assert (A2 := Hext k i m g Hk' Hi Hm Hg).
      assert (A3 : 0 <= run_source false velocity dt psi k i m g).
      { cbn [run_source]. apply Rmult_le_pos; [|apply IP; assumption].
        unfold Rdiv. rewrite Rmult_1_l. apply Rlt_le, Rinv_0_lt_compat, Rmult_lt_0_compat; [apply Hv; exact Hg|exact Hdt]. }
      cbn [step_row d3b d3c] in *. lra. }
  intros k i g Hk Hi Hg. rewrite Hft by exact Hk. apply (I (S k)); [lia|assumption|assumption].
Qed.

(** ** Particle balance of a step *)
Lemma step_balance P groups velocity T X ext bnd d emit E psi :
  (forall i, (i < cells P)%nat -> dx P i <> 0) ->
  step_equation P groups velocity T X ext bnd d emit E psi ->
  rsum groups (fun g => rsum (cells P) (fun i => dx P i * scalar_flux P d i g / velocity g)
                        + total_leakage (cells P) (angles P) (mu P) (wt P) (E g)
                        + rsum (cells P) (fun i => dx P i * T (medium P i) g * scalar_flux P psi i g))
  = rsum groups (fun g => rsum (cells P) (fun i => dx P i *
      (rsum (angles P) (wt P) * rsum groups (fun h => X (medium P i) g h * emit i h)
       + rsum (angles P) (fun m => wt P m * at3 ext i (bidx (d3b ext) m) (bidx (d3c ext) g))))).
Proof.
  intros Hdx H. apply rsum_ext. intros g Hg.
  set (em := fun i => rsum groups (fun h => X (medium P i) g h * emit i h)).
  set (ex := fun m i => at3 ext i (bidx (d3b ext) m) (bidx (d3c ext) g)).
  assert (C := transport_conservation (cells P) (angles P) (mu P) (wt P) (dx P) (fun i => T (medium P i) g)
    (fun m i => em i + ex m i - d i m g / velocity g)
    (fun m => E g m (inflow_edge (cells P) (mu P m))) (E g) (fun i => scalar_flux P psi i g) Hdx).
  match type of C with ?A -> _ => assert (HA : A) end.
  { split; [|split].
    - intros m Hm i Hi. destruct (H g m Hg Hm) as [A _]. destruct (A i Hi) as [A1 A2].
      cbv beta. unfold em, ex. rewrite <- A2, A1. ring.
    - intros m Hm. reflexivity.
    - intros i Hi. unfold scalar_flux. apply rsum_ext. intros m Hm. destruct (H g m Hg Hm) as [A _].
      destruct (A i Hi) as [A1 _]. rewrite A1. reflexivity. }
  specialize (C HA). rewrite Rplus_assoc, C, <- rsum_plus. apply rsum_ext. intros i Hi.
  unfold Rdiv. rewrite Rmult_assoc, <- Rmult_plus_distr_l. f_equal.
  fold (em i). unfold scalar_flux. rewrite <- !rsum_scal_r, <- !rsum_plus. apply rsum_ext. intros m Hm.
  unfold ex. ring.
Qed.

(** ** Errors *)
Lemma timed_needs_iso two P materials groups flux_last xs_total nm s f velocity external boundary steps dt geometry ft :
  (0 < steps)%nat ->
  timed_run two P materials groups flux_last xs_total (Scatter4 nm s) f velocity external boundary steps dt geometry
  <> Ok ft.
Proof.
  intros Hk E. rewrite timed_run_eq in E.
  destruct (for_up_err _ _ _) as [r|] eqn:Er; cbn [bind] in E; [|discriminate].
  destruct (for_up_err_trace _ _ _ _ Er) as (x & _ & _ & Hs). specialize (Hs 0%nat Hk).
  assert (EX : exists Y, transfer_matrix materials groups (Scatter4 nm s) f = Scatter4 nm Y).
  { destruct f; unfold transfer_matrix; eauto. }
  destruct EX as [Y EX]. rewrite EX in Hs.
  destruct two; cbn [timed_body] in Hs; unfold timed_bdf2_body, timed_bdf1_body, timed_solve in Hs;
    repeat (match type of Hs with bind ?a _ = _ => destruct a eqn:?; cbn [bind] in Hs; [|discriminate Hs] end);
    try discriminate Hs.
  all: match goal with H : bind ?a _ = Ok _ |- _ => destruct a; cbn [bind] in H; discriminate H end.
Qed.

Lemma known_angular_sphere_fails P groups T q bnd psi :
  (exists m, (m < angles P)%nat /\ mu P m <> 0) -> (0 < groups)%nat ->
  known_source_angular P groups T q bnd 2 0 <> Ok psi.
Proof.
  intros Hm Hg E. unfold known_source_angular in E.
  destruct (for_up_err_trace _ _ _ _ E) as (x & _ & _ & Hs). specialize (Hs 0%nat Hg).
  cbv beta zeta in Hs. rewrite sphere_known_fails in Hs by exact Hm. cbn in Hs. discriminate Hs.
Qed.

Lemma timed_sphere_fails two P materials groups flux_last xs_total s f velocity external boundary steps dt ft :
  (0 < steps)%nat -> (0 < groups)%nat -> (exists m, (m < angles P)%nat /\ mu P m <> 0) ->
  timed_run two P materials groups flux_last xs_total s f velocity external boundary steps dt 2 <> Ok ft.
Proof.
  intros Hk Hg Hm E. rewrite timed_run_eq in E.
  destruct (for_up_err _ _ _) as [r|] eqn:Er; cbn [bind] in E; [|discriminate].
  destruct (for_up_err_trace _ _ _ _ Er) as (x & _ & _ & Hs). specialize (Hs 0%nat Hk).
  destruct two; cbn [timed_body] in Hs; unfold timed_bdf2_body, timed_bdf1_body, timed_solve in Hs;
    repeat (match type of Hs with
            | bind (bind ?a _) _ = _ => destruct a eqn:?; cbn [bind] in Hs; [|discriminate Hs]
            | bind (match ?a with _ => _ end) _ = _ => destruct a eqn:?; cbn [bind] in Hs; [|discriminate Hs]
            | bind ?a _ = _ => destruct a eqn:?; cbn [bind] in Hs; [|discriminate Hs] end).
  all: match goal with H : known_source_angular _ _ _ _ _ 2 0 = Ok _ |- _ =>
         exact (known_angular_sphere_fails _ _ _ _ _ _ Hm Hg H) end.
Qed.

Lemma timed_short_rows two P materials groups flux_last xs_total s f velocity external boundary steps dt geometry ft :
  (d4a external <> 1%nat /\ (d4a external < steps)%nat) \/ (d4a boundary <> 1%nat /\ (d4a boundary < steps)%nat) ->
  timed_run two P materials groups flux_last xs_total s f velocity external boundary steps dt geometry <> Ok ft.
Proof.
  intros H E. rewrite timed_run_eq in E.
  destruct (for_up_err _ _ _) as [r|] eqn:Er; cbn [bind] in E; [|discriminate].
  destruct (for_up_err_trace _ _ _ _ Er) as (x & _ & _ & Hs).
  assert (R : forall a, d4a a <> 1%nat -> row4 a (d4a a) = Raise IndexError).
  { intros a Ha. unfold row4, bidx. destruct (Nat.eqb_spec (d4a a) 1); [lia|]. rewrite Nat.ltb_irrefl. reflexivity. }
  destruct H as [[H1 H2]|[H1 H2]]; specialize (Hs _ H2);
    destruct two; cbn [timed_body] in Hs; unfold timed_bdf2_body, timed_bdf1_body in Hs;
    rewrite ?(R _ H1) in Hs; try discriminate Hs;
    repeat (match type of Hs with bind ?a _ = _ => destruct a eqn:?; cbn [bind] in Hs; try discriminate end).
Qed.
