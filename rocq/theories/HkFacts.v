(** Facts about the hybrid k-eigenvalue driver. *)
From Coq Require Import Lra Lia FunctionalExtensionality.
From Verif Require Import Base BaseFacts SlabModel SlabSpec SlabFacts SlabFacts5 SphereModel.
From Verif Require Import MgModel MgSpec MgFacts MgFacts2 MgFacts3 MgFacts4 MgFacts5 MgFacts6.
From Verif Require Import CritModel CritSpec CritFacts CritFacts2 HybModel HybSpec HybFacts HybFacts2 MainModel MainSpec MainFacts MainFacts2.
From Verif Require Import TimeModel TimeSpec TimeFacts TimeFacts2 TimeFacts3 TimeFacts4 HkModel HkSpec.
Open Scope R_scope.

(** A known-source solve is the solution of the problem without scattering. *)
Lemma known_scalar_solution P groups T src bnd phi :
  angles P <> 1%nat -> nonzero_ordinates (angles P) (mu P) -> mg_divisors P groups T ->
  known_source_scalar P groups T src bnd 1 0 = Ok phi ->
  mg_solution P groups T (fun _ _ _ => 0) src bnd phi.
Proof.
  intros Ha Hnz Hd Ek.
  set (sr := fun g => slice3 src (bidx (d3c src) g)). set (bd := fun g => slice3 bnd (bidx (d3c bnd) g)).
  exists (fun g m k => slab_known_source_sn P zeros2 (angles P) (fun m => T m g) (sr g) (bd g) 1 k m).
  intros g Hg.
  destruct (known_transport P (fun m => T m g) (sr g) (bd g) Ha Hnz (Hd g Hg)) as (F & (B & I & Sm) & HE & HC).
  split; [|split].
  - intros m Hm i Hi. rewrite !HE by (assumption || lia). rewrite (B m Hm i Hi).
    unfold mg_source. rewrite (rsum_ext groups _ (fun _ => 0)) by (intros; ring). rewrite rsum_zero.
    unfold sr, slice3. cbn. ring.
  - intros m Hm.
    assert (Hedge : (inflow_edge (cells P) (mu P m) <= cells P)%nat)
      by (unfold inflow_edge; destruct (Rlt_dec _ _); lia).
    rewrite HE by assumption. rewrite (I m Hm). f_equal. unfold reflected_in.
    destruct (andb _ _) eqn:Eb; [|reflexivity].
    apply Bool.andb_true_iff in Eb. destruct Eb as [Eb _]. apply Nat.ltb_lt in Eb.
    rewrite HE; [reflexivity|lia|unfold outflow_edge; destruct (Rlt_dec _ _); lia].
  - intros i Hi. rewrite (known_scalar_columns _ _ _ _ _ _ _ Ek) by exact Hg. fold (sr g) (bd g).
    rewrite Sm by exact Hi. apply rsum_ext. intros m Hm. rewrite !HE by (assumption || lia). reflexivity.
Qed.

(** Superposition: uncollided plus collided flux on one grid solves the whole problem. *)
Lemma solution_superpose P groups T X ext bnd fu fc ci fac :
  (forall g, (g < groups)%nat -> ci g = g /\ fac g = 1) ->
  mg_solution P groups T (fun _ _ _ => 0) ext bnd fu ->
  mg_solution P groups T X (first_collisions P groups groups X ci fu) no_inflow fc ->
  mg_solution P groups T X ext bnd (recombined ci fac fu fc).
Proof.
  intros Hid [Eu Hu] [Ec Hc]. apply transport_sweep in Hu. apply transport_sweep in Hc.
  destruct Hu as [Hu Au], Hc as [Hc Ac].
  assert (Hrec : forall i g, (i < cells P)%nat -> (g < groups)%nat -> recombined ci fac fu fc i g = fu i g + fc i g).
  { intros i g Hi Hg. unfold recombined. destruct (Hid g Hg) as [-> ->]. ring. }
  exists (fun g m e => 1 * Eu g m e + 1 * Ec g m e). apply transport_sweep. split.
  - match goal with |- sweep_eq _ _ _ _ _ _ ?psi =>
      replace psi with (fun i m g : nat => 1 * ((Eu g m i + Eu g m (S i)) / 2) + 1 * ((Ec g m i + Ec g m (S i)) / 2))
        by (extensionality i; extensionality m; extensionality g; unfold Rdiv; ring) end.
    eapply sweep_eq_ext; [|eapply (sweep_linear P groups T _ _ bnd no_inflow bnd _ _ _ _ 1 1); [|exact Hu|exact Hc]].
    + intros i m g Hi Hm Hg. cbv beta.
      rewrite (rsum_ext groups (fun h => 0 * fu i h) (fun _ => 0)) by (intros; ring). rewrite rsum_zero.
      rewrite (rsum_ext groups (fun h => X (medium P i) g h * recombined ci fac fu fc i h)
                 (fun h => X (medium P i) g h * fc i h + X (medium P i) g h * fu i h))
        by (intros h Hh; rewrite Hrec by assumption; ring).
      rewrite rsum_plus.
      assert (EC : at3 (first_collisions P groups groups X ci fu) i
                     (bidx (d3b (first_collisions P groups groups X ci fu)) m)
                     (bidx (d3c (first_collisions P groups groups X ci fu)) g)
                   = rsum groups (fun h => X (medium P i) g h * fu i h)).
      { cbn [first_collisions at3 d3b d3c]. rewrite bidx_full by exact Hg. unfold collected.
        assert (S1 := rsum_single groups (fun o => if Nat.eqb g (ci o) then rsum groups (fun h => X (medium P i) o h * fu i h) else 0) g Hg).
        cbv beta in S1. rewrite S1; [rewrite (proj1 (Hid g Hg)), Nat.eqb_refl; reflexivity|].
        intros o Ho Hne. rewrite (proj1 (Hid o Ho)). destruct (Nat.eqb_spec g o); [lia|reflexivity]. }
      rewrite EC. ring.
    + intros m g Hm Hg. unfold mg_boundary at 3. cbn. ring.
  - intros i g Hi Hg. rewrite Hrec, Au, Ac by assumption. unfold scalar_flux. rewrite <- rsum_plus.
    apply rsum_ext. intros m Hm. unfold Rdiv. ring.
Qed.

Lemma hk_step_spec P PC groups groups_c T X F Tc Xc ci fac st st' :
  nonneg_fission (cells P) groups (medium P) (FissionMatrix F) ->
  hk_step P PC groups groups_c T X F Tc Xc ci fac 1 st = Ok st' ->
  let '(old, k_old, c_old) := st in let '(new, k, c_new) := st' in
  exists fu,
    known_source_scalar P groups T (as_source groups (fission_mat_prod (cells P) groups old F zeros2 (medium P) k_old))
      no_boundary 1 0 = Ok fu /\
    source_iteration_iso PC groups_c c_old Tc Xc
      (as_source groups_c (hybrid_source_collided (cells P) groups fu X zeros2 (medium P) ci)) no_boundary 1 = Ok c_new /\
    k = k_old * production (cells P) groups (FissionMatrix F) (medium P) (recombined ci fac fu c_new)
        / production (cells P) groups (FissionMatrix F) (medium P) old /\
    (forall i g, new i g = recombined ci fac fu c_new i g / norm2 (cells P) groups (recombined ci fac fu c_new)) /\
    (norm2 (cells P) groups new = 1 \/
     forall i g, (i < cells P)%nat -> (g < groups)%nat -> recombined ci fac fu c_new i g = 0).
Proof.
  intros Hn. destruct st as [[old k_old] c_old], st' as [[new k] c_new]. unfold hk_step.
  match goal with |- context [known_source_scalar ?a ?b ?c ?d ?e ?f ?g] =>
    destruct (known_source_scalar a b c d e f g) as [fu|] eqn:E1 end; cbn [bind]; [|discriminate].
  cbn [source_iteration].
  match goal with |- context [source_iteration_iso ?a ?b ?c ?d ?e ?f ?g ?h] =>
    destruct (source_iteration_iso a b c d e f g h) as [fc|] eqn:E2 end; cbn [bind]; [|discriminate].
  intros H. injection H as <- <- <-. exists fu. split; [reflexivity|]. split; [exact E2|].
  change (fun i g => fu i g + fc i (ci g) * fac g) with (recombined ci fac fu fc). split; [|split].
  - apply (update_keff_ratio (cells P) groups (FissionMatrix F) (medium P)). exact Hn.
  - reflexivity.
  - destruct (Req_dec (norm2 (cells P) groups (recombined ci fac fu fc)) 0) as [Hz|Hz].
    + right. apply norm2_zero. exact Hz.
    + left. apply normalized. exact Hz.
Qed.

(** One pass: exact uncollided flux, approximate collided flux, recombination, eigenvalue update,
    normalisation. *)
Lemma hk_pass P PC groups groups_c T X F Tc Xc ci fac old k_old c_old new k c_new :
  angles P <> 1%nat -> nonzero_ordinates (angles P) (mu P) -> mg_divisors P groups T ->
  cells PC = cells P -> medium PC = medium P ->
  nonneg_fission (cells P) groups (medium P) (FissionMatrix F) ->
  hk_step P PC groups groups_c T X F Tc Xc ci fac 1 (old, k_old, c_old) = Ok (new, k, c_new) ->
  exists fu,
    mg_solution P groups T (fun _ _ _ => 0) (hk_source P groups F old k_old) no_inflow fu /\
    (forall c sol, mg_thin PC groups_c Tc -> (forall m, (m < angles PC)%nat -> 0 <= wt PC m) ->
       0 <= c -> rsum (angles PC) (wt PC) * c < 1 -> mg_ratio PC groups_c Tc Xc c ->
       mg_solution PC groups_c Tc Xc (first_collisions P groups groups_c X ci fu) no_inflow sol ->
       exists n, (1 <= n <= 100)%nat /\
         forall d, 0 <= d -> within2 (cells P) groups_c d c_old sol ->
           within2 (cells P) groups_c ((rsum (angles PC) (wt PC) * c) ^ n * d) c_new sol) /\
    k = k_old * production (cells P) groups (FissionMatrix F) (medium P) (recombined ci fac fu c_new)
        / production (cells P) groups (FissionMatrix F) (medium P) old /\
    (forall i g, new i g = recombined ci fac fu c_new i g / norm2 (cells P) groups (recombined ci fac fu c_new)) /\
    (norm2 (cells P) groups new = 1 \/
     forall i g, (i < cells P)%nat -> (g < groups)%nat -> recombined ci fac fu c_new i g = 0).
Proof.
  intros Ha Hnz Hd Hcell Hmed Hn E.
  destruct (hk_step_spec P PC groups groups_c T X F Tc Xc ci fac (old, k_old, c_old) (new, k, c_new) Hn E)
    as (fu & E1 & E2 & H3 & H4 & H5).
  exists fu. split; [|split; [|split; [exact H3|split; [exact H4|exact H5]]]].
  - pose proof (known_scalar_solution P groups T _ _ _ Ha Hnz Hd E1) as S1.
    apply (mg_solution_external P groups T (fun _ _ _ => 0)) with (e2 := hk_source P groups F old k_old) in S1;
      [exact S1|reflexivity|reflexivity|].
    intros i m g Hi Hm Hg. cbn [as_source hk_source at3 d3b d3c]. rewrite bidx_full by exact Hg.
    apply (fission_source_emission (cells P) groups (FissionMatrix F) (medium P) zeros2 old k_old); assumption.
  - intros c sol Hthin Hw Hc Hrho Hrat Hsol.
    assert (Hsol' : mg_solution PC groups_c Tc Xc
      (as_source groups_c (hybrid_source_collided (cells P) groups fu X zeros2 (medium P) ci)) no_boundary sol).
    { apply (mg_solution_external PC groups_c Tc Xc (first_collisions P groups groups_c X ci fu)); [reflexivity|reflexivity| |exact Hsol].
      intros i m g Hi _ _. symmetry. apply (collided_source_spec P groups groups_c fu X ci i (bidx 1 m) (bidx groups_c g)).
      rewrite <- Hcell. exact Hi. }
    destruct (outer_error PC groups_c _ _ _ no_boundary c _ c_new sol Hthin Hw Hc Hrho Hrat Hsol' E2) as (n & Hbn & G & _).
    rewrite Hcell in G. exists n. split; [exact Hbn|]. exact G.
Qed.

(** On one grid: the recombined flux of a pass approximates the solution of the full transport
    problem with the fission source of the old flux. *)
Lemma hk_one_grid P groups T X F ci fac old k_old c_old new k c_new c full :
  angles P <> 1%nat -> nonzero_ordinates (angles P) (mu P) -> mg_thin P groups T ->
  (forall m, (m < angles P)%nat -> 0 <= wt P m) -> 0 <= c -> rsum (angles P) (wt P) * c < 1 -> mg_ratio P groups T X c ->
  nonneg_fission (cells P) groups (medium P) (FissionMatrix F) ->
  (forall g, (g < groups)%nat -> ci g = g /\ fac g = 1) ->
  hk_step P P groups groups T X F T X ci fac 1 (old, k_old, c_old) = Ok (new, k, c_new) ->
  mg_solution P groups T X (hk_source P groups F old k_old) no_inflow full ->
  exists fu raw n,
    mg_solution P groups T (fun _ _ _ => 0) (hk_source P groups F old k_old) no_inflow fu /\
    (1 <= n <= 100)%nat /\
    (forall d, 0 <= d -> within2 (cells P) groups d (fun i g => fu i g + c_old i g) full ->
       within2 (cells P) groups ((rsum (angles P) (wt P) * c) ^ n * d) raw full) /\
    k = k_old * production (cells P) groups (FissionMatrix F) (medium P) raw
        / production (cells P) groups (FissionMatrix F) (medium P) old /\
    (forall i g, new i g = raw i g / norm2 (cells P) groups raw).
Proof.
  intros Ha Hnz Hthin Hw Hc Hrho Hrat Hn Hid E Hfull.
  assert (Hd : mg_divisors P groups T) by (intros g Hg; apply thin_divisors; [exact Hnz|apply Hthin; exact Hg]).
  destruct (hk_pass P P groups groups T X F T X ci fac old k_old c_old new k c_new Ha Hnz Hd eq_refl eq_refl Hn E)
    as (fu & S1 & A & H3 & H4 & _).
  destruct (mg_unique_solution P groups T X (first_collisions P groups groups X ci fu) no_inflow c Hnz Hthin Hw Hc Hrho Hrat)
    as (sol & Hsol & _).
  destruct (A c sol Hthin Hw Hc Hrho Hrat Hsol) as (n & Hbn & G).
  exists fu, (recombined ci fac fu c_new), n. split; [exact S1|]. split; [exact Hbn|]. split; [|split; assumption].
  pose proof (solution_superpose P groups T X _ no_inflow fu sol ci fac Hid S1 Hsol) as S2.
  destruct (mg_unique_solution P groups T X (hk_source P groups F old k_old) no_inflow c Hnz Hthin Hw Hc Hrho Hrat)
    as (u & Hu & Uu).
  assert (EQ : forall i g, (i < cells P)%nat -> (g < groups)%nat -> full i g = fu i g + sol i g).
  { intros i g Hi Hg. rewrite (Uu full Hfull i g Hi Hg), <- (Uu _ S2 i g Hi Hg). unfold recombined.
    destruct (Hid g Hg) as [-> ->]. ring. }
  intros d Hd0 Hdist i g Hi Hg.
  assert (W : within2 (cells P) groups d c_old sol).
  { intros i' g' Hi' Hg'. specialize (Hdist i' g' Hi' Hg'). cbv beta in Hdist. rewrite EQ in Hdist by assumption.
    replace (c_old i' g' - sol i' g') with (fu i' g' + c_old i' g' - (fu i' g' + sol i' g')) by ring. exact Hdist. }
  specialize (G d Hd0 W i g Hi Hg). rewrite EQ by assumption. unfold recombined. destruct (Hid g Hg) as [-> ->].
  replace (fu i g + c_new i g * 1 - (fu i g + sol i g)) with (c_new i g - sol i g) by ring. exact G.
Qed.

(** Exit and totality of the whole iteration. *)
Lemma hk_trace P leggauss groups angles_c groups_c T X F edges_g idx_u idx_c geometry guess r :
  hk_power_iteration P leggauss groups angles_c groups_c T X F edges_g idx_u idx_c geometry guess = Ok r ->
  exists ci fac PC Tc Xc n (x : nat -> hk_state),
    indexing edges_g idx_u groups_c idx_c = (uncollided_index groups_c idx_c, ci, fac) /\
    hk_collided_terms P leggauss groups angles_c groups_c T X edges_g idx_u idx_c = Ok (PC, Tc, Xc) /\
    (1 <= n <= 100)%nat /\ x 0%nat = (power_start (cells P) groups guess, zeros2) /\ r = fst (x n) /\
    (forall k, (k < n)%nat -> hk_step P PC groups groups_c T X F Tc Xc ci fac geometry (x k) = Ok (x (S k))) /\
    (forall k, (0 < k < n)%nat -> ~ settled2 (cells P) groups (fst (fst (x k))) (fst (fst (x (k - 1)%nat))) (/ 10 ^ 6)) /\
    ((n < 100)%nat -> settled2 (cells P) groups (fst (fst (x n))) (fst (fst (x (n - 1)%nat))) (/ 10 ^ 6)).
Proof.
  intros E. unfold hk_power_iteration in E. unfold indexing in E at 1. cbv zeta in E.
  destruct (hk_collided_terms P leggauss groups angles_c groups_c T X edges_g idx_u idx_c) as [[[PC Tc] Xc]|e] eqn:Ec;
    cbn [bind] in E; [|discriminate].
  match type of E with bind ?a _ = _ => destruct a as [st|e] eqn:Ei; cbn [bind] in E; [|discriminate] end.
  injection E as <-.
  destruct (iterate_spec _ _ _ _ _ _ _ _ Ei) as (n & x & H1 & H2 & H3 & H4 & H5 & H6 & H7).
  change count_kk with 100%nat in *.
  do 2 eexists. exists PC, Tc, Xc, n, x. split; [reflexivity|]. split; [reflexivity|]. split; [lia|]. split; [exact H3|].
  split; [f_equal; exact H4|]. split; [exact H5|]. split.
  - intros k Hk. apply below_unsettled2, (H6 k Hk).
  - intros Hlt. destruct H7 as [H7|H7]; [|lia]. apply below_settled2, H7.
Qed.

Lemma hk_terms_ok P leggauss groups angles_c groups_c T X edges_g idx_u idx_c :
  nonzero_ordinates (angles P) (mu P) ->
  (angles_c = angles P \/ exists h, angles_c = (2 * h)%nat /\ (0 < h)%nat /\
     gauss_pairs (2 * h) (fst (leggauss (2 * h)%nat)) (snd (leggauss (2 * h)%nat)) /\ (bc_left P + bc_right P <= 1)%nat) ->
  exists PC Tc Xc, hk_collided_terms P leggauss groups angles_c groups_c T X edges_g idx_u idx_c = Ok (PC, Tc, Xc) /\
    cells PC = cells P /\ medium PC = medium P /\ dx PC = dx P /\ bc_left PC = bc_left P /\ bc_right PC = bc_right P /\
    angles PC = angles_c /\ nonzero_ordinates (angles PC) (mu PC).
Proof.
  intros Hnz HA. unfold hk_collided_terms.
  match goal with |- context [let '(t, s) := ?z in _] => destruct z as [Tc Xc] end.
  destruct (Nat.eqb_spec angles_c (angles P)) as [-> |Hne].
  - cbn [bind fst snd]. exists (with_angles P (angles P) (mu P) (wt P)), Tc, Xc. split; [reflexivity|]. repeat split. exact Hnz.
  - destruct HA as [->|(h & -> & Hh & Hg & Hb)]; [congruence|].
    destruct (angular_solver_order leggauss h (bc_left P) (bc_right P) Hh Hg Hb) as (x & w & -> & _ & Hnz' & _).
    cbn [bind fst snd]. exists (with_angles P (2 * h) x w), Tc, Xc. split; [reflexivity|]. repeat split. exact Hnz'.
Qed.

Lemma hk_total P leggauss groups angles_c groups_c T X F edges_g idx_u idx_c guess :
  nonzero_ordinates (angles P) (mu P) ->
  (angles_c = angles P \/ exists h, angles_c = (2 * h)%nat /\ (0 < h)%nat /\
     gauss_pairs (2 * h) (fst (leggauss (2 * h)%nat)) (snd (leggauss (2 * h)%nat)) /\ (bc_left P + bc_right P <= 1)%nat) ->
  exists r, hk_power_iteration P leggauss groups angles_c groups_c T X F edges_g idx_u idx_c 1 guess = Ok r.
Proof.
  intros Hnz HA.
  destruct (hk_terms_ok P leggauss groups angles_c groups_c T X edges_g idx_u idx_c Hnz HA)
    as (PC & Tc & Xc & E & _ & _ & _ & _ & _ & _ & HnzC).
  unfold hk_power_iteration. unfold indexing. cbv zeta. rewrite E. cbn [bind].
  match goal with |- context [iterate ?a ?b ?c ?d ?e ?f ?g] =>
    assert (K : exists st, iterate a b c d e f g = Ok st) end.
  { apply iterate_total; [|unfold count_kk; lia]. intros [[flux k] c]. unfold hk_step.
    match goal with |- context [known_source_scalar ?p ?g ?t ?q ?b 1 0] =>
      destruct (known_total p g t q b 0) as [[phi ->] _] end. cbn [bind source_iteration].
    match goal with |- context [source_iteration_iso ?P ?g ?o ?t ?s ?e ?b 1] =>
      destruct (outer_total P g o t s e b HnzC) as [raw Er]; rewrite Er end.
    cbn [bind]. eauto. }
  destruct K as [st ->]. cbn [bind]. eauto.
Qed.

Lemma hk_two_mirrors P leggauss groups angles_c groups_c T X F edges_g idx_u idx_c geometry guess :
  bc_left P = 1%nat -> bc_right P = 1%nat -> angles_c <> angles P -> angles_c <> 0%nat ->
  hk_power_iteration P leggauss groups angles_c groups_c T X F edges_g idx_u idx_c geometry guess = Raise UnboundLocalError.
Proof.
  intros Hl Hr Ha H0. unfold hk_power_iteration, indexing, hk_collided_terms. cbv zeta.
  match goal with |- context [let '(t, s) := ?z in _] => destruct z as [Tc Xc] end.
  apply Nat.eqb_neq in Ha, H0. rewrite Ha. unfold angular_x. rewrite H0, Hl, Hr. reflexivity.
Qed.

(** The coarse data: the fine data themselves, or their width-weighted averages. *)
Lemma hk_coarse_data P leggauss groups angles_c groups_c T X n edges_g idx_u idx_c PC Tc Xc :
  partition n groups idx_u -> monotone_edges n edges_g -> partition groups groups_c idx_c ->
  hk_collided_terms P leggauss groups angles_c groups_c T X edges_g idx_u idx_c = Ok (PC, Tc, Xc) ->
  let e := fun g => edges_g (idx_u g) in
  (groups_c = groups -> Tc = T /\ Xc = X) /\
  (groups_c <> groups -> forall m c, (c < groups_c)%nat ->
     block_width e idx_c c * Tc m c = group_sum idx_c c (fun g => width e g * T m g) /\
     forall o, (o < groups_c)%nat ->
       block_width e idx_c c * Xc m o c
       = group_sum idx_c o (fun og => group_sum idx_c c (fun g => width e g * X m og g))).
Proof.
  intros Hu Hm Hc E e.
  assert (He : monotone_edges groups e) by (apply (monotone_compose n groups idx_u edges_g); assumption).
  unfold hk_collided_terms in E.
  destruct (Nat.eqb_spec groups_c groups) as [Heq|Hne].
  - split; [|congruence]. intros _.
    match type of E with bind ?a _ = _ => destruct a as [xw|]; cbn [bind] in E; [|discriminate] end.
    injection E as _ <- <-. split; reflexivity.
  - split; [congruence|]. intros _ m c Hcc.
    destruct (matrix_facts groups groups_c idx_c e X Hc He) as (C & EC & HC).
    unfold coarsen_materials in E. fold e in E. rewrite EC in E. cbn [xs_matrix_coarsen] in E.
    match type of E with bind ?a _ = _ => destruct a as [xw|]; cbn [bind] in E; [|discriminate] end.
    injection E as _ <- <-. split.
    + destruct (vector_facts groups groups_c idx_c e T m Hc He c Hcc) as [A _]. exact A.
    + intros o Ho. destruct (HC m) as [A _]. apply A; assumption.
Qed.
