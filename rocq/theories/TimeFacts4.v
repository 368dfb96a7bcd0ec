(** The hybrid drivers: history, accuracy of the collision splitting, positivity. *)
From Coq Require Import Lra Lia FunctionalExtensionality.
From Verif Require Import Base BaseFacts SlabModel SlabSpec SlabFacts SlabFacts2 SlabFacts4 SlabFacts5.
From Verif Require Import SphereModel SphereFacts2.
From Verif Require Import MgModel MgSpec MgFacts MgFacts2 MgFacts3 MgFacts4 MgFacts6.
From Verif Require Import HybModel HybSpec HybFacts HybFacts2.
From Verif Require Import MainModel.
From Verif Require Import TimeModel TimeSpec TimeFacts TimeFacts2 TimeFacts3.
Open Scope R_scope.

Definition get_flux (o : outcome mat2) : mat2 := match o with Ok f => f | Raise _ => zeros2 end.

(** ** One hybrid step *)
Lemma hybrid_step_sweeps P groups T qf bnd X ci fac fu fc psi :
  angles P <> 1%nat -> nonzero_ordinates (angles P) (mu P) -> mg_divisors P groups T ->
  known_source_scalar P groups T (mkArr3 (angles P) groups qf) bnd 1 0 = Ok fu ->
  known_source_angular P groups T (mkArr3 (angles P) groups
     (snd (hybrid_source_total (cells P) (angles P) groups fu fc X qf (medium P) ci fac))) bnd 1 0 = Ok psi ->
  (exists E pu, sweep_eq P groups T qf bnd E pu /\ agree2 (cells P) groups fu (scalar_flux P pu)) /\
  exists E, sweep_eq P groups T
    (fun i m g => qf i m g + rsum groups (fun h => X (medium P i) g h * recombined ci fac fu fc i h)) bnd E psi.
Proof.
  intros Ha Hnz Hd Eu Ek. split; [apply known_sweep_scalar; assumption|].
  destruct (known_sweep _ _ _ _ _ _ Ha Hnz Hd Ek) as [E HE]. exists E.
  eapply sweep_eq_ext; [|exact HE]. intros i m g Hi Hm Hg.
  destruct (hybrid_total_eq (cells P) (angles P) groups fu fc X qf (medium P) ci fac) as [_ H]. apply H; assumption.
Qed.

(** The collided source handed to the coarse problem *)
Lemma collided_source_spec P groups groups_c fu X ci :
  forall i m c, (i < cells P)%nat ->
  at3 (mkArr3 1 groups_c (fun i _ g => hybrid_source_collided (cells P) groups fu X zeros2 (medium P) ci i g)) i m c
  = at3 (first_collisions P groups groups_c X ci fu) i m c.
Proof.
  intros i m c Hi. cbn [at3 first_collisions]. rewrite collided_closed by exact Hi. apply rsum_ext. intros g _.
  destruct (Nat.eqb c (ci g)); [|reflexivity]. apply rsum_ext. intros; ring.
Qed.

Lemma mg_solution_external P groups T X e1 e2 bnd phi :
  d3b e1 = d3b e2 -> d3c e1 = d3c e2 ->
  (forall i m g, (i < cells P)%nat -> (m < angles P)%nat -> (g < groups)%nat ->
     at3 e1 i (bidx (d3b e1) m) (bidx (d3c e1) g) = at3 e2 i (bidx (d3b e2) m) (bidx (d3c e2) g)) ->
  mg_solution P groups T X e1 bnd phi -> mg_solution P groups T X e2 bnd phi.
Proof.
  intros Hb Hc He [E H]. exists E. apply transport_sweep. apply transport_sweep in H. destruct H as [H A].
  split; [|exact A]. eapply sweep_eq_ext; [|exact H]. intros i m g Hi Hm Hg. cbv beta. rewrite He by assumption. reflexivity.
Qed.

Lemma mg_solution_xs P groups T X Y e bnd phi :
  (forall i g h, (i < cells P)%nat -> (g < groups)%nat -> (h < groups)%nat -> X (medium P i) g h = Y (medium P i) g h) ->
  mg_solution P groups T X e bnd phi -> mg_solution P groups T Y e bnd phi.
Proof.
  intros HX [E H]. exists E. apply transport_sweep. apply transport_sweep in H. destruct H as [H A].
  split; [|exact A]. eapply sweep_eq_ext; [|exact H]. intros i m g Hi Hm Hg. cbv beta. f_equal.
  apply rsum_ext. intros h Hh. rewrite HX by assumption. reflexivity.
Qed.

(** superposition of the two parts: exact uncollided + exact collided = exact step, on one grid *)
Lemma split_exact two P groups velocity dt xs_total xs ext bnd psi k fu fc ci fac :
  (forall g, (g < groups)%nat -> velocity g <> 0) -> dt <> 0 ->
  (forall g, (g < groups)%nat -> ci g = g /\ fac g = 1) ->
  uncollided_flux two P groups velocity dt xs_total ext bnd psi k fu ->
  collided_flux two P P groups groups velocity dt xs_total xs xs ci k fu fc ->
  exact_step P groups velocity xs_total xs ext bnd (run_derivative two dt psi k) (recombined ci fac fu fc).
Proof.
  intros Hv Hdt Hid (Eu & pu & Hu & Au) [Ec Hc].
  apply transport_sweep in Hc. destruct Hc as [Hc Ac].
  set (pc := fun i m g => (Ec g m i + Ec g m (S i)) / 2) in *.
  apply (sweep_step P groups velocity dt xs_total (fun _ _ _ => 0) ext bnd (run_weight two k)
           (run_source two velocity dt psi k)) in Hu; [|intros; apply run_derivative_eq; auto].
  assert (Hrec : forall i g, (i < cells P)%nat -> (g < groups)%nat -> recombined ci fac fu fc i g = fu i g + fc i g).
  { intros i g Hi Hg. unfold recombined. destruct (Hid g Hg) as [-> ->]. ring. }
  exists (fun g m e => 1 * Eu g m e + 1 * Ec g m e), (fun i m g => 1 * pu i m g + 1 * pc i m g). split.
  - apply (sweep_step P groups velocity dt xs_total xs ext bnd (run_weight two k)
             (run_source two velocity dt psi k)); [intros; apply run_derivative_eq; auto|].
    eapply sweep_eq_ext; [|eapply (sweep_linear P groups _ _ _ bnd no_inflow bnd _ _ _ _ 1 1); [|exact Hu|exact Hc]].
    + intros i m g Hi Hm Hg. cbv beta.
      rewrite (rsum_ext groups (fun h => 0 * fu i h) (fun _ => 0)) by (intros; ring). rewrite rsum_zero.
      rewrite (rsum_ext groups (fun h => xs (medium P i) g h * recombined ci fac fu fc i h)
                 (fun h => xs (medium P i) g h * fc i h + xs (medium P i) g h * fu i h))
        by (intros h Hh; rewrite Hrec by assumption; ring).
      rewrite rsum_plus.
      assert (EC : at3 (first_collisions P groups groups xs ci fu) i
                     (bidx (d3b (first_collisions P groups groups xs ci fu)) m)
                     (bidx (d3c (first_collisions P groups groups xs ci fu)) g)
                   = rsum groups (fun h => xs (medium P i) g h * fu i h)).
      { cbn [first_collisions at3 d3b d3c]. rewrite bidx_full by exact Hg. unfold collected.
        assert (S := rsum_single groups (fun o => if Nat.eqb g (ci o) then rsum groups (fun h => xs (medium P i) o h * fu i h) else 0) g Hg).
        cbv beta in S. rewrite S; [rewrite (proj1 (Hid g Hg)), Nat.eqb_refl; reflexivity|].
        intros o Ho Hne. rewrite (proj1 (Hid o Ho)). destruct (Nat.eqb_spec g o); [lia|reflexivity]. }
      rewrite EC. ring.
    + intros m g Hm Hg. unfold mg_boundary at 3. cbn. ring.
  - intros i g Hi Hg. rewrite Hrec, Au, Ac by assumption. unfold scalar_flux. rewrite <- rsum_plus.
    apply rsum_ext. intros m Hm. ring.
Qed.

(** ** The hybrid runs *)
Definition hybrid_body (two : bool) := if two then hybrid_bdf2_body else hybrid_bdf1_body.

Lemma hybrid_run_eq two P PC materials groups groups_c flux_last xs_total_u xs_total_c xs_scatter_u
    xs_scatter_c xs_fission_u xs_fission_c velocity_u velocity_c external boundary coarse_idx factor
    steps dt geometry :
  hybrid_run two P PC materials groups groups_c flux_last xs_total_u xs_total_c xs_scatter_u
    xs_scatter_c xs_fission_u xs_fission_c velocity_u velocity_c external boundary coarse_idx factor
    steps dt geometry =
  bind (for_up_err steps
          (hybrid_body two P PC groups groups_c xs_total_u xs_total_c
             (transfer_matrix materials groups xs_scatter_u xs_fission_u)
             (transfer_matrix materials groups_c xs_scatter_c xs_fission_c)
             velocity_u velocity_c external boundary coarse_idx factor dt geometry)
          (mkT (angle_sum P flux_last) flux_last (fun _ _ _ => 0) (fun _ => zeros2)))
    (fun st => Ok (t_flux st)).
Proof. destruct two; reflexivity. Qed.

Lemma hybrid_run_be : hybrid_run false = hybrid_backward_euler. Proof. reflexivity. Qed.
Lemma hybrid_run_bdf2 : hybrid_run true = hybrid_bdf2. Proof. reflexivity. Qed.

Lemma hybrid_body_ok two P PC groups groups_c xs_total_u xs_total_c Xu Xc vu vc external boundary ci fac dt k st st' :
  hybrid_body two P PC groups groups_c xs_total_u xs_total_c (Scatter3 Xu) (Scatter3 Xc) vu vc external boundary
    ci fac dt 1 k st = Ok st' ->
  exists qf fu fc,
    qf = (fun i m g => at3 (step_row external k) i (bidx (d3b (step_row external k)) m) (bidx (d3c (step_row external k)) g)
                       + body_source two vu dt k st i m g) /\
    known_source_scalar P groups (effective_total (run_weight two k) xs_total_u vu dt)
      (mkArr3 (angles P) groups qf) (step_row boundary k) 1 0 = Ok fu /\
    source_iteration_iso PC groups_c zeros2 (effective_total (run_weight two k) xs_total_c vc dt) Xc
      (mkArr3 1 groups_c (fun i _ g => hybrid_source_collided (cells P) groups fu Xu zeros2 (medium P) ci i g))
      boundary_c 1 = Ok fc /\
    known_source_angular P groups (effective_total (run_weight two k) xs_total_u vu dt)
      (mkArr3 (angles P) groups (snd (hybrid_source_total (cells P) (angles P) groups fu fc Xu qf (medium P) ci fac)))
      (step_row boundary k) 1 0 = Ok (t_psi1 st') /\
    t_flux st' = set_row (t_flux st) k (scalar_flux P (t_psi1 st')) /\
    t_psi2 st' = (if two then t_psi1 st else t_psi2 st).
Proof.
  assert (HSu := star_effective two k xs_total_u vu dt).
  assert (HSc := star_effective two k xs_total_c vc dt).
  destruct two; cbn [hybrid_body]; unfold hybrid_bdf2_body, hybrid_bdf1_body, hybrid_method, source_iteration; cbv zeta;
    rewrite HSu, HSc; cbn [body_source];
    (destruct (row4 external k) as [ext|] eqn:E1; cbn [bind]; [|discriminate]);
    apply row4_ok in E1; subst ext;
    (match goal with |- context [add_external ?a ?b ?c ?d] => destruct (add_external a b c d) as [q|] eqn:E2 end;
       cbn [bind]; [|discriminate]);
    apply add_external_ok in E2; subst q;
    (destruct (row4 boundary k) as [bnd|] eqn:E3; cbn [bind]; [|discriminate]);
    apply row4_ok in E3; subst bnd;
    (match goal with |- context [known_source_scalar ?a ?b ?c ?d ?e ?f ?g] =>
       destruct (known_source_scalar a b c d e f g) as [fu|] eqn:E4 end; cbn [bind]; [|discriminate]);
    (match goal with |- context [source_iteration_iso ?a ?b ?c ?d ?e ?f ?g ?h] =>
       destruct (source_iteration_iso a b c d e f g h) as [fc|] eqn:E5 end; cbn [bind]; [|discriminate]);
    (match goal with |- context [known_source_angular ?a ?b ?c ?d ?e ?f ?g] =>
       destruct (known_source_angular a b c d e f g) as [psi|] eqn:E6 end; cbn [bind]; [|discriminate]);
    intros H; injection H as <-; eexists _, fu, fc; (split; [reflexivity|]);
    (split; [exact E4|]); (split; [exact E5|]); (split; [exact E6|]); cbn [t_flux t_psi1 t_psi2];
    rewrite angle_sum_scalar; split; reflexivity.
Qed.

Lemma hybrid_trace two P PC groups groups_c Tu Tc Xu Xc vu vc external boundary ci fac dt steps s r :
  for_up_err steps (hybrid_body two P PC groups groups_c Tu Tc (Scatter3 Xu) (Scatter3 Xc) vu vc external boundary
    ci fac dt 1) s = Ok r ->
  exists x, x 0%nat = s /\ x steps = r /\
    (forall k, (k < steps)%nat ->
       hybrid_body two P PC groups groups_c Tu Tc (Scatter3 Xu) (Scatter3 Xc) vu vc external boundary ci fac dt 1 k (x k)
       = Ok (x (S k))) /\
    (forall k, (k < steps)%nat -> t_flux r k = scalar_flux P (t_psi1 (x (S k)))) /\
    (forall k, (k < steps)%nat -> body_source two vu dt k (x k) = run_source two vu dt (fun j => t_psi1 (x j)) k).
Proof.
  intros E. destruct (for_up_err_trace _ _ _ _ E) as (x & H0 & Hn & Hs).
  assert (Hok := fun k Hk => hybrid_body_ok _ _ _ _ _ _ _ _ _ _ _ _ _ _ _ _ _ _ _ (Hs k Hk)).
  exists x. split; [exact H0|]. split; [exact Hn|]. split; [exact Hs|]. split.
  - intros k Hk. rewrite <- Hn, (history_row steps x); [|intros j Hj|exact Hk].
    + destruct (Hok k Hk) as (qf & fu & fc & _ & _ & _ & _ & Hf & _). rewrite Hf. unfold set_row.
      rewrite Nat.eqb_refl. reflexivity.
    + destruct (Hok j Hj) as (qf & fu & fc & _ & _ & _ & _ & Hf & _). eauto.
  - intros k Hk. destruct two; cbn [body_source run_source]; [|reflexivity].
    destruct k as [|j].
    + extensionality i. extensionality n. extensionality g. unfold bdf2_source. cbn [Nat.eqb]. reflexivity.
    + destruct (Hok j ltac:(lia)) as (qf & fu & fc & _ & _ & _ & _ & _ & Hp).
      extensionality i. extensionality n. extensionality g. unfold bdf2_source. cbn [Nat.eqb]. rewrite Hp. reflexivity.
Qed.

Section Hybrid.
  Variables (two : bool) (P PC : sn) (materials groups groups_c : nat) (flux_last : mat3) (Tu Tc : mat2)
    (su sc : mat3) (fu fc : fission_data) (vu vc : vec) (external boundary : arr4) (ci : nat -> nat) (fac : vec)
    (steps : nat) (dt : R).
  Let run := hybrid_run two P PC materials groups groups_c flux_last Tu Tc (Scatter3 su) (Scatter3 sc) fu fc vu vc
               external boundary ci fac steps dt 1.

  Lemma hybrid_total :
    nonzero_ordinates (angles PC) (mu PC) ->
    rows_for external steps -> rows_for boundary steps -> broadcasts P groups external ->
    exists ft, run = Ok ft.
  Proof.
    intros Hnz He Hb Hx. unfold run; rewrite hybrid_run_eq.
    destruct (transfer3 materials groups su fu) as (Xu & -> & _).
    destruct (transfer3 materials groups_c sc fc) as (Xc & -> & _).
    match goal with |- context [for_up_err steps ?B ?s0] => assert (K : exists r, for_up_err steps B s0 = Ok r) end.
    { apply for_up_err_ok. intros k st Hk.
      destruct two; cbn [hybrid_body]; unfold hybrid_bdf2_body, hybrid_bdf1_body, hybrid_method, source_iteration;
        cbv zeta; rewrite (row4_total _ _ _ He Hk); cbn [bind];
        (match goal with |- context [add_external _ _ _ ?b] =>
          destruct (add_external_total P groups external k b Hx) as [q ->] end);
        cbn [bind]; rewrite (row4_total _ _ _ Hb Hk); cbn [bind];
        (match goal with |- context [known_source_scalar ?p ?g ?t ?q ?b 1 0] =>
          destruct (known_total p g t q b 0) as [[phi ->] _] end); cbn [bind];
        (match goal with |- context [source_iteration_iso ?p ?g ?o ?t ?x ?e ?b 1] =>
          destruct (outer_total p g o t x e b Hnz) as [fl ->] end); cbn [bind];
        (match goal with |- context [known_source_angular ?p ?g ?t ?q ?b 1 0] =>
          destruct (known_total p g t q b 0) as [_ [psi ->]] end); cbn [bind]; eauto. }
    destruct K as [r ->]. cbn [bind]. eauto.
  Qed.

  Hypothesis Ha : angles P <> 1%nat.
  Hypothesis Hnz : nonzero_ordinates (angles P) (mu P).
  Hypothesis Hmed : forall i, (i < cells P)%nat -> (medium P i < materials)%nat.
  Hypothesis HPC : cells PC = cells P /\ medium PC = medium P.
  Hypothesis Hv : forall g, (g < groups)%nat -> vu g <> 0.
  Hypothesis Hdt : dt <> 0.

  (** The whole history of a hybrid run, with the fluxes of every step. *)
  Lemma hybrid_history_gen ft :
    (forall k, (k < steps)%nat -> mg_divisors P groups (effective_total (run_weight two k) Tu vu dt)) ->
    run = Ok ft ->
    exists Xc psi phi_u phi_c,
      (forall i o h, (i < cells P)%nat -> (o < groups_c)%nat -> (h < groups_c)%nat ->
         Xc (medium P i) o h = total_transfer sc fc (medium P i) o h) /\
      psi 0%nat = flux_last /\
      time_history two P groups vu dt Tu (total_transfer su fu) (step_row external) (step_row boundary) steps psi
        (fun k => recombined ci fac (phi_u k) (phi_c k)) /\
      forall k, (k < steps)%nat ->
        ft k = scalar_flux P (psi (S k)) /\
        uncollided_flux two P groups vu dt Tu (step_row external k) (step_row boundary k) psi k (phi_u k) /\
        exists src, d3b src = 1%nat /\ d3c src = groups_c /\
          (forall i m c, (i < cells P)%nat ->
             at3 src i m c = at3 (first_collisions P groups groups_c (total_transfer su fu) ci (phi_u k)) i m c) /\
          source_iteration_iso PC groups_c zeros2 (effective_total (run_weight two k) Tc vc dt) Xc src no_inflow 1
          = Ok (phi_c k).
  Proof.
    intros Hd E. unfold run in E; rewrite hybrid_run_eq in E.
    destruct (transfer3 materials groups su fu) as (Xu & EXu & HXu).
    destruct (transfer3 materials groups_c sc fc) as (Xc & EXc & HXc).
    rewrite EXu, EXc in E.
    destruct (for_up_err _ _ _) as [r|] eqn:Er; cbn [bind] in E; [|discriminate]. injection E as <-.
    destruct (hybrid_trace _ _ _ _ _ _ _ _ _ _ _ _ _ _ _ _ _ _ _ Er) as (x & H0 & Hn & Hs & Hft & Hsrc).
    set (psi := fun j => t_psi1 (x j)) in *.
    assert (HXm : forall i o h, (i < cells P)%nat -> (o < groups)%nat -> (h < groups)%nat ->
         Xu (medium P i) o h = total_transfer su fu (medium P i) o h) by (intros; apply HXu; auto).
    set (qk := fun k i m g => at3 (step_row external k) i (bidx (d3b (step_row external k)) m) (bidx (d3c (step_row external k)) g)
                       + run_source two vu dt psi k i m g).
    set (uk := fun k => get_flux (known_source_scalar P groups (effective_total (run_weight two k) Tu vu dt)
        (mkArr3 (angles P) groups (qk k)) (step_row boundary k) 1 0)).
    set (ck := fun k => get_flux (source_iteration_iso PC groups_c zeros2 (effective_total (run_weight two k) Tc vc dt) Xc
        (mkArr3 1 groups_c (fun i _ g => hybrid_source_collided (cells P) groups (uk k) Xu zeros2 (medium P) ci i g))
        boundary_c 1)).
    set (a := fun k => (uk k, ck k)).
    assert (Ha2 : forall k, (k < steps)%nat ->
      let q := qk k in
      known_source_scalar P groups (effective_total (run_weight two k) Tu vu dt)
        (mkArr3 (angles P) groups q) (step_row boundary k) 1 0 = Ok (fst (a k)) /\
      source_iteration_iso PC groups_c zeros2 (effective_total (run_weight two k) Tc vc dt) Xc
        (mkArr3 1 groups_c (fun i _ g => hybrid_source_collided (cells P) groups (fst (a k)) Xu zeros2 (medium P) ci i g))
        boundary_c 1 = Ok (snd (a k)) /\
      known_source_angular P groups (effective_total (run_weight two k) Tu vu dt)
        (mkArr3 (angles P) groups (snd (hybrid_source_total (cells P) (angles P) groups (fst (a k)) (snd (a k)) Xu q (medium P) ci fac)))
        (step_row boundary k) 1 0 = Ok (psi (S k))).
    { intros k Hk q.
      destruct (hybrid_body_ok _ _ _ _ _ _ _ _ _ _ _ _ _ _ _ _ _ _ _ (Hs k Hk)) as (qf & u & c & Eq & E1 & E2 & E3 & _).
      rewrite Hsrc in Eq by exact Hk. fold (qk k) in Eq. subst qf.
      assert (Eu : uk k = u) by (unfold uk; rewrite E1; reflexivity).
      assert (Ec : ck k = c) by (unfold ck; rewrite Eu, E2; reflexivity).
      unfold a. cbn [fst snd]. rewrite Eu, Ec. split; [exact E1|]. split; [exact E2|exact E3]. }
    exists Xc, psi, (fun k => fst (a k)), (fun k => snd (a k)).
    split; [intros i o h Hi Ho Hh; apply HXc; auto|].
    split; [unfold psi; rewrite H0; reflexivity|].
    assert (Hst : forall k, (k < steps)%nat ->
      (exists E pu, sweep_eq P groups (effective_total (run_weight two k) Tu vu dt)
         (fun i m g => at3 (step_row external k) i (bidx (d3b (step_row external k)) m) (bidx (d3c (step_row external k)) g)
                       + run_source two vu dt psi k i m g) (step_row boundary k) E pu /\
         agree2 (cells P) groups (fst (a k)) (scalar_flux P pu)) /\
      exists E, sweep_eq P groups (effective_total (run_weight two k) Tu vu dt)
        (fun i m g => at3 (step_row external k) i (bidx (d3b (step_row external k)) m) (bidx (d3c (step_row external k)) g)
                       + run_source two vu dt psi k i m g
                       + rsum groups (fun h => Xu (medium P i) g h * recombined ci fac (fst (a k)) (snd (a k)) i h))
        (step_row boundary k) E (psi (S k))).
    { intros k Hk. destruct (Ha2 k Hk) as (E1 & _ & E3). apply (hybrid_step_sweeps P groups _ _ _ Xu ci fac _ _ _ Ha Hnz (Hd k Hk) E1 E3). }
    split.
    - intros k Hk. destruct (Hst k Hk) as [_ [E HE]]. exists E.
      apply (sweep_step P groups vu dt Tu Xu (step_row external k) (step_row boundary k) (run_weight two k)
               (run_source two vu dt psi k) (run_derivative two dt psi k (psi (S k)))
               (recombined ci fac (fst (a k)) (snd (a k)))) in HE; [|intros; apply run_derivative_eq; auto].
      eapply step_equation_xs; [exact HXm|exact HE].
    - intros k Hk. split; [apply Hft; exact Hk|]. split.
      + destruct (Hst k Hk) as [(E & pu & HE & A) _]. exists E, pu. split; [|exact A].
        apply (sweep_step P groups vu dt Tu (fun _ _ _ => 0) (step_row external k) (step_row boundary k) (run_weight two k)
               (run_source two vu dt psi k)); [intros; apply run_derivative_eq; auto|].
        eapply sweep_eq_ext; [|exact HE]. intros i m g Hi Hm Hg. cbv beta.
        rewrite (rsum_ext groups _ (fun _ => 0)) by (intros; ring). rewrite rsum_zero. ring.
      + destruct (Ha2 k Hk) as (_ & E2 & _). eexists. split; [|split; [|split; [|exact E2]]]; [reflexivity|reflexivity|].
        intros i m c Hi. rewrite collided_source_spec by exact Hi. cbn [at3 first_collisions]. apply rsum_ext. intros g Hg.
        destruct (Nat.eqb c (ci g)); [|reflexivity]. apply rsum_ext. intros h Hh. rewrite HXm by assumption. reflexivity.
  Qed.

  Lemma hybrid_history ft :
    (forall k, (k < steps)%nat -> mg_divisors P groups (effective_total (run_weight two k) Tu vu dt)) ->
    run = Ok ft ->
    exists psi phi_u phi_c,
      psi 0%nat = flux_last /\
      time_history two P groups vu dt Tu (total_transfer su fu) (step_row external) (step_row boundary) steps psi
        (fun k => recombined ci fac (phi_u k) (phi_c k)) /\
      forall k, (k < steps)%nat ->
        ft k = scalar_flux P (psi (S k)) /\
        uncollided_flux two P groups vu dt Tu (step_row external k) (step_row boundary k) psi k (phi_u k).
  Proof.
    intros Hd E. destruct (hybrid_history_gen ft Hd E) as (Xc & psi & pu & pc & _ & H0 & H1 & H2).
    exists psi, pu, pc. split; [exact H0|]. split; [exact H1|]. intros k Hk.
    destruct (H2 k Hk) as (A & B & _). split; assumption.
  Qed.

  Variable c : R.
  Let rho := rsum (angles PC) (wt PC) * c.

  (** the collided part is the iterate of the coarse problem, started from zero *)
  Lemma hybrid_collided ft :
    (forall k, (k < steps)%nat -> mg_divisors P groups (effective_total (run_weight two k) Tu vu dt)) ->
    (forall k, (k < steps)%nat -> mg_thin PC groups_c (effective_total (run_weight two k) Tc vc dt)) ->
    (forall m, (m < angles PC)%nat -> 0 <= wt PC m) -> 0 <= c -> rho < 1 ->
    (forall k, (k < steps)%nat ->
       mg_ratio PC groups_c (effective_total (run_weight two k) Tc vc dt) (total_transfer sc fc) c) ->
    run = Ok ft ->
    exists psi phi_u phi_c,
      psi 0%nat = flux_last /\
      time_history two P groups vu dt Tu (total_transfer su fu) (step_row external) (step_row boundary) steps psi
        (fun k => recombined ci fac (phi_u k) (phi_c k)) /\
      forall k, (k < steps)%nat ->
        ft k = scalar_flux P (psi (S k)) /\
        uncollided_flux two P groups vu dt Tu (step_row external k) (step_row boundary k) psi k (phi_u k) /\
        forall sol, collided_flux two P PC groups groups_c vc dt Tc (total_transfer sc fc) (total_transfer su fu) ci k
                      (phi_u k) sol ->
          exists n, (1 <= n <= 100)%nat /\
            (forall d, 0 <= d -> (forall i g, (i < cells P)%nat -> (g < groups_c)%nat -> Rabs (sol i g) <= d) ->
               within2 (cells P) groups_c (rho ^ n * d) (phi_c k) sol) /\
            ((n < 100)%nat -> forall M, 0 <= M ->
               (forall i g, (i < cells P)%nat -> (g < groups_c)%nat -> Rabs (phi_c k i g) <= M) ->
               within2 (cells P) groups_c (rho * (/ 10 ^ 8 * INR (cells P) * M) / (1 - rho)) (phi_c k) sol).
  Proof.
    intros Hd Hthin Hw Hc Hrho Hrat E.
    destruct (hybrid_history_gen ft Hd E) as (Xc & psi & pu & pc & HXc & H0 & H1 & H2).
    destruct HPC as [HPC1 HPC2].
    exists psi, pu, pc. split; [exact H0|]. split; [exact H1|]. intros k Hk.
    destruct (H2 k Hk) as (A & B & src & S1 & S2 & S3 & S4). split; [exact A|]. split; [exact B|].
    intros sol Hsol.
    assert (HXc' : forall i o h, (i < cells PC)%nat -> (o < groups_c)%nat -> (h < groups_c)%nat ->
         Xc (medium PC i) o h = total_transfer sc fc (medium PC i) o h)
      by (rewrite HPC1, HPC2; exact HXc).
    assert (Hsol' : mg_solution PC groups_c (effective_total (run_weight two k) Tc vc dt) Xc src no_inflow sol).
    { apply (mg_solution_xs PC groups_c _ (total_transfer sc fc)); [intros; symmetry; apply HXc'; assumption|].
      apply (mg_solution_external PC groups_c _ _ (first_collisions P groups groups_c (total_transfer su fu) ci (pu k)));
        [rewrite S1; reflexivity|rewrite S2; reflexivity| |exact Hsol].
      intros i m g Hi _ _. rewrite HPC1 in Hi. rewrite S3, S1, S2 by exact Hi. reflexivity. }
    assert (HratX : mg_ratio PC groups_c (effective_total (run_weight two k) Tc vc dt) Xc c).
    { intros g i Hg Hi. eapply Rle_trans; [|apply (Hrat k Hk g i Hg Hi)].
      apply Req_le, rsum_ext. intros h Hh. rewrite HXc' by assumption. reflexivity. }
    destruct (outer_error PC groups_c _ Xc src no_inflow c zeros2 (pc k) sol (Hthin k Hk) Hw Hc Hrho HratX Hsol' S4)
      as (n & Hn & G & St).
    exists n. split; [exact Hn|]. rewrite HPC1 in *. split; [|exact St].
    intros d Hd0 Hb. apply G; [exact Hd0|]. intros i g Hi Hg. unfold zeros2.
    rewrite Rminus_0_l, Rabs_Ropp. apply Hb; assumption.
  Qed.
End Hybrid.

(** ** One grid for both parts: the splitting costs one contraction factor per pass *)
Section Identical.
  Variables (two : bool) (P : sn) (materials groups : nat) (flux_last : mat3) (T : mat2)
    (s : mat3) (f : fission_data) (v : vec) (external boundary : arr4) (ci : nat -> nat) (fac : vec)
    (steps : nat) (dt : R) (c : R).
  Let run := hybrid_run two P P materials groups groups flux_last T T (Scatter3 s) (Scatter3 s) f f v v
               external boundary ci fac steps dt 1.
  Let rho := rsum (angles P) (wt P) * c.
  Hypothesis Ha : angles P <> 1%nat.
  Hypothesis Hnz : nonzero_ordinates (angles P) (mu P).
  Hypothesis Hmed : forall i, (i < cells P)%nat -> (medium P i < materials)%nat.
  Hypothesis Hv : forall g, (g < groups)%nat -> v g <> 0.
  Hypothesis Hdt : dt <> 0.
  Hypothesis Hid : forall g, (g < groups)%nat -> ci g = g /\ fac g = 1.
  Hypothesis Hthin : forall k, (k < steps)%nat -> mg_thin P groups (effective_total (run_weight two k) T v dt).
  Hypothesis Hw : forall m, (m < angles P)%nat -> 0 <= wt P m.
  Hypothesis Hc : 0 <= c.
  Hypothesis Hrho : rho < 1.
  Hypothesis Hrat : forall k, (k < steps)%nat ->
    mg_ratio P groups (effective_total (run_weight two k) T v dt) (total_transfer s f) c.

  Lemma hybrid_identical ft :
    run = Ok ft ->
    exists psi phi_u,
      psi 0%nat = flux_last /\
      forall k sol, (k < steps)%nat ->
        ft k = scalar_flux P (psi (S k)) /\
        uncollided_flux two P groups v dt T (step_row external k) (step_row boundary k) psi k (phi_u k) /\
        (exact_step P groups v T (total_transfer s f) (step_row external k) (step_row boundary k)
           (run_derivative two dt psi k) sol ->
         exists n, (1 <= n <= 100)%nat /\
           (forall d, 0 <= d -> within2 (cells P) groups d (phi_u k) sol ->
              within2 (cells P) groups (rho ^ S n * d) (ft k) sol)).
  Proof.
    intros E.
    assert (Hd : forall k, (k < steps)%nat -> mg_divisors P groups (effective_total (run_weight two k) T v dt))
      by (intros k Hk g Hg; apply thin_divisors; [exact Hnz|apply (Hthin k Hk g Hg)]).
    destruct (hybrid_collided two P P materials groups groups flux_last T T s s f f v v external boundary ci fac steps dt
                Ha Hnz Hmed (conj eq_refl eq_refl) Hv Hdt c ft Hd Hthin Hw Hc Hrho Hrat E) as (psi & pu & pc & H0 & HH & H2).
    exists psi, pu. split; [exact H0|]. intros k sol Hk. destruct (H2 k Hk) as (A & B & C).
    split; [exact A|]. split; [exact B|]. intros Hsol.
    (* the exact collided flux exists *)
    destruct (mg_unique_solution P groups (effective_total (run_weight two k) T v dt) (total_transfer s f)
       (first_collisions P groups groups (total_transfer s f) ci (pu k)) no_inflow c Hnz (Hthin k Hk) Hw Hc Hrho (Hrat k Hk))
      as (fcx & Hfcx & _).
    destruct (C fcx Hfcx) as (n & Hn & G & _). exists n. split; [exact Hn|].
    intros d Hd0 Hdist.
    assert (Hrho0 : 0 <= rho) by (apply Rmult_le_pos; [apply rsum_nonneg; exact Hw|exact Hc]).
    (* recombined exact = sol *)
    assert (Hex := split_exact two P groups v dt T (total_transfer s f) (step_row external k) (step_row boundary k) psi k
      (pu k) fcx ci fac Hv Hdt Hid B Hfcx).
    destruct (exact_step_unique two P groups T s f v external boundary steps dt Hnz Hv Hdt c Hthin Hw Hc Hrho Hrat psi k Hk)
      as (u & _ & U).
    assert (Hsame : agree2 (cells P) groups (recombined ci fac (pu k) fcx) sol).
    { intros i g Hi Hg. rewrite (U _ Hex), (U _ Hsol) by assumption. reflexivity. }
    assert (Hrec : forall x i g, (i < cells P)%nat -> (g < groups)%nat -> recombined ci fac (pu k) x i g = pu k i g + x i g).
    { intros x i g Hi Hg. unfold recombined. destruct (Hid g Hg) as [-> ->]. ring. }
    assert (Hfc : forall i g, (i < cells P)%nat -> (g < groups)%nat -> Rabs (fcx i g) <= d).
    { intros i g Hi Hg. specialize (Hdist i g Hi Hg). rewrite <- (Hsame i g Hi Hg), Hrec in Hdist by assumption.
      replace (pu k i g - (pu k i g + fcx i g)) with (- fcx i g) in Hdist by ring. rewrite Rabs_Ropp in Hdist. exact Hdist. }
    specialize (G d Hd0 Hfc). fold rho in G.
    set (dd := rho ^ n * d) in *.
    assert (Hdd : 0 <= dd) by (apply Rmult_le_pos; [apply pow_le; exact Hrho0|exact Hd0]).
    (* the final sweep *)
    destruct (HH k Hk) as [E1 HE1]. destruct Hsol as (E2 & psi2 & HE2 & A2).
    apply (sweep_step P groups v dt T (total_transfer s f) (step_row external k) (step_row boundary k)
      (run_weight two k) (run_source two v dt psi k)) in HE1;
      [|intros i m g _ _ Hg; apply run_derivative_eq; auto].
    apply (sweep_step P groups v dt T (total_transfer s f) (step_row external k) (step_row boundary k)
      (run_weight two k) (run_source two v dt psi k)) in HE2;
      [|intros i m g _ _ Hg; apply run_derivative_eq; auto].
    intros i g Hi Hg. rewrite A, A2 by assumption.
    replace (rho ^ S n * d) with (rsum (angles P) (wt P) * (c * dd)) by (unfold dd, rho; cbn [pow]; ring).
    revert i g Hi Hg. apply scalar_perturb; [exact Hw|].
    apply (sweep_perturb P groups (effective_total (run_weight two k) T v dt) _ _ (step_row boundary k) E1 E2 _ _ (c * dd)
             Hnz (Hthin k Hk) ltac:(apply Rmult_le_pos; assumption) HE1 HE2).
    intros i m g Hi Hm Hg. cbv beta.
    match goal with |- Rabs ?z <= _ => replace z with
      (rsum groups (fun h => total_transfer s f (medium P i) g h * (pc k i h - fcx i h))) end.
    2:{ rewrite (rsum_ext groups (fun h => total_transfer s f (medium P i) g h * (pc k i h - fcx i h))
          (fun h => total_transfer s f (medium P i) g h * recombined ci fac (pu k) (pc k) i h
                    - total_transfer s f (medium P i) g h * sol i h)).
        - rewrite rsum_minus. ring.
        - intros h Hh. rewrite <- (Hsame i h Hi Hh), !Hrec by assumption. ring. }
    replace (c * dd * effective_total (run_weight two k) T v dt (medium P i) g)
      with (c * effective_total (run_weight two k) T v dt (medium P i) g * dd) by ring.
    eapply Rle_trans; [|apply Rmult_le_compat_r; [exact Hdd|apply (Hrat k Hk g i Hg Hi)]].
    rewrite <- rsum_scal_r. apply rsum_abs_le. intros h Hh. rewrite Rabs_mult.
    apply Rmult_le_compat_l; [apply Rabs_pos|apply G; assumption].
  Qed.
End Identical.

(** ** auto_bdf1, auto_bdf2 *)

Lemma with_angles_same P : with_angles P (angles P) (mu P) (wt P) = P.
Proof. destruct P. reflexivity. Qed.

(** Called with as many collided groups and angles as uncollided ones, the automatic driver is the
    hybrid driver on one grid. *)
Lemma auto_identical two P leggauss materials groups flux_last T s f v external boundary n edges_g idx_u idx_c steps dt geometry :
  partition n groups idx_u -> monotone_edges n edges_g -> partition groups groups idx_c -> identity_grid groups idx_c ->
  exists ci fac, (forall g, (g < groups)%nat -> ci g = g /\ fac g = 1) /\
    auto_run two P leggauss materials groups flux_last T s f v external boundary (angles P) groups edges_g idx_u idx_c
      steps dt geometry
    = hybrid_run two P P materials groups groups flux_last T T (Scatter3 s) (Scatter3 s) (FissionMatrix f) (FissionMatrix f)
        v v external boundary ci fac steps dt geometry.
Proof.
  intros HP He HPc HI.
  pose proof (indexing_correct n groups groups idx_u idx_c edges_g HP HPc He) as HX.
  destruct (indexing edges_g idx_u groups idx_c) as [[fi ci] fac] eqn:Ei. destruct HX as (_ & Hci & Hfac & Hsum).
  exists ci, fac. split.
  - intros g Hg. destruct (Hci g Hg) as [Hlt [B1 B2]].
    rewrite (HI (ci g)) in B1 by lia. rewrite (HI (ci g + 1)%nat) in B2 by lia.
    assert (Hcg : ci g = g) by lia. split; [exact Hcg|].
    specialize (Hsum g Hg). rewrite (group_sum_single groups groups) in Hsum by assumption. exact Hsum.
  - destruct two; cbn [auto_run]; unfold auto_bdf1, auto_bdf2, auto_collided; rewrite Ei, !Nat.eqb_refl; cbn [bind fst snd];
      rewrite with_angles_same; reflexivity.
Qed.
