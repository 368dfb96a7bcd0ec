(** Hybrid drivers: positivity and errors; the variable-grid hybrid drivers. *)
From Coq Require Import Lra Lia FunctionalExtensionality.
From Verif Require Import Base BaseFacts SlabModel SlabSpec SlabFacts SlabFacts2 SlabFacts4 SlabFacts5.
From Verif Require Import SphereModel SphereFacts2.
From Verif Require Import MgModel MgSpec MgFacts MgFacts2 MgFacts3 MgFacts4 MgFacts5 MgFacts6.
From Verif Require Import HybModel HybSpec HybFacts HybFacts2.
From Verif Require Import MainModel.
From Verif Require Import TimeModel TimeSpec TimeFacts TimeFacts2 TimeFacts3 TimeFacts4.
Open Scope R_scope.

(** ** Positivity of the hybrid backward Euler method *)
Lemma hybrid_nonneg P PC materials groups groups_c flux_last Tu Tc su sc fu fc vu vc external boundary ci fac steps dt ft :
  angles P <> 1%nat -> nonzero_ordinates (angles P) (mu P) -> nonzero_ordinates (angles PC) (mu PC) ->
  (forall i, (i < cells P)%nat -> (medium P i < materials)%nat) ->
  cells PC = cells P /\ medium PC = medium P ->
  (forall g, (g < groups)%nat -> 0 < vu g) -> 0 < dt ->
  mg_thin P groups (effective_total 1 Tu vu dt) -> mg_thin PC groups_c (effective_total 1 Tc vc dt) ->
  (forall m, (m < angles P)%nat -> 0 <= wt P m) -> (forall m, (m < angles PC)%nat -> 0 <= wt PC m) ->
  (forall i g h, (i < cells P)%nat -> (g < groups)%nat -> (h < groups)%nat -> 0 <= total_transfer su fu (medium P i) g h) ->
  (forall i g h, (i < cells P)%nat -> (g < groups_c)%nat -> (h < groups_c)%nat -> 0 <= total_transfer sc fc (medium P i) g h) ->
  (forall g, (g < groups)%nat -> (ci g < groups_c)%nat /\ 0 <= fac g) ->
  (forall k i m g, (k < steps)%nat -> (i < cells P)%nat -> (m < angles P)%nat -> (g < groups)%nat ->
     0 <= at3 (step_row external k) i (bidx (d4b external) m) (bidx (d4c external) g)) ->
  (forall k m g, (k < steps)%nat -> (m < angles P)%nat -> (g < groups)%nat -> 0 <= mg_boundary (step_row boundary k) (mu P) g m) ->
  (forall i m g, (i < cells P)%nat -> (m < angles P)%nat -> (g < groups)%nat -> 0 <= flux_last i m g) ->
  hybrid_backward_euler P PC materials groups groups_c flux_last Tu Tc (Scatter3 su) (Scatter3 sc) fu fc vu vc
    external boundary ci fac steps dt 1 = Ok ft ->
  forall k i g, (k < steps)%nat -> (i < cells P)%nat -> (g < groups)%nat -> 0 <= ft k i g.
Proof.
  intros Ha Hnz HnzC Hmed HPC Hv Hdt Hthin HthinC Hw HwC Hxs HxsC Hown Hext Hbnd H0 Eft.
  rewrite <- hybrid_run_be in Eft.
  assert (Hd : mg_divisors P groups (effective_total 1 Tu vu dt))
    by (intros g Hg; apply thin_divisors; [exact Hnz|apply Hthin; exact Hg]).
  assert (Hv' : forall g, (g < groups)%nat -> vu g <> 0) by (intros g Hg; specialize (Hv g Hg); lra).
  destruct (hybrid_history_gen false P PC materials groups groups_c flux_last Tu Tc su sc fu fc vu vc external boundary ci fac
              steps dt Ha Hnz Hmed Hv' ltac:(lra) ft (fun k _ => Hd) Eft) as (Xc & psi & pu & pc & HXc & Hp0 & HH & Hs).
  destruct HPC as [HPC1 HPC2].
  assert (Hb : forall k, (k < steps)%nat ->
    (forall i m g, (i < cells P)%nat -> (m < angles P)%nat -> (g < groups)%nat -> 0 <= psi k i m g) ->
    forall i m g, (i < cells P)%nat -> (m < angles P)%nat -> (g < groups)%nat ->
      0 <= at3 (step_row external k) i (bidx (d3b (step_row external k)) m) (bidx (d3c (step_row external k)) g)
           + run_source false vu dt psi k i m g).
  { intros k Hk Hpsi i m g Hi Hm Hg. apply Rplus_le_le_0_compat; [apply (Hext k i m g Hk Hi Hm Hg)|].
    cbn [run_source]. apply Rmult_le_pos; [|apply Hpsi; assumption].
    unfold Rdiv. rewrite Rmult_1_l. apply Rlt_le, Rinv_0_lt_compat, Rmult_lt_0_compat; [apply Hv; exact Hg|exact Hdt]. }
  assert (I : forall k, (k <= steps)%nat ->
    forall i m g, (i < cells P)%nat -> (m < angles P)%nat -> (g < groups)%nat -> 0 <= psi k i m g).
  { induction k as [|k IH]; intros Hk; [rewrite Hp0; exact H0|].
    assert (Hk' : (k < steps)%nat) by lia. specialize (IH ltac:(lia)). specialize (Hb k Hk' IH).
    destruct (Hs k Hk') as (_ & (Eu & ppu & HEu & Au) & src & S1 & S2 & S3 & S4).
    (* uncollided *)
    apply (sweep_step P groups vu dt Tu (fun _ _ _ => 0) (step_row external k) (step_row boundary k) 1
             (run_source false vu dt psi k)) in HEu;
      [|intros i m g _ _ Hg; rewrite run_derivative_eq by (auto; lra); reflexivity].
    assert (Hpu : forall i g, (i < cells P)%nat -> (g < groups)%nat -> 0 <= pu k i g).
    { intros i g Hi Hg. rewrite Au by assumption. apply rsum_nonneg. intros m Hm.
      apply Rmult_le_pos; [apply Hw; exact Hm|].
      apply (sweep_nonneg P groups _ _ _ _ _ Hnz Hthin HEu); try assumption; [|intros; apply Hbnd; assumption].
      intros i' m' g' Hi' Hm' Hg'. cbv beta.
      rewrite (rsum_ext groups _ (fun _ => 0)) by (intros; ring). rewrite rsum_zero, Rplus_0_r. apply Hb; assumption. }
    (* collided *)
    assert (Hpc : forall i g, (i < cells P)%nat -> (g < groups_c)%nat -> 0 <= pc k i g).
    { rewrite <- HPC1 in *. 
      apply (outer_nonneg PC groups_c (effective_total 1 Tc vc dt) Xc src no_inflow zeros2); auto.
      - intros i g h Hi Hg Hh. rewrite HPC2, HXc by assumption. apply HxsC; assumption.
      - intros m i g _ Hi Hg. rewrite S3 by exact Hi. cbn [first_collisions at3]. apply rsum_nonneg.
        intros o Ho. destruct (Nat.eqb _ (ci o)); [|lra]. apply rsum_nonneg. intros h Hh.
        apply Rmult_le_pos; [apply Hxs; assumption|apply Hpu; assumption].
      - intros m g _ _. unfold mg_boundary. cbn. lra.
      - intros i g _ _. unfold zeros2. lra. }
    destruct (HH k Hk') as [E1 HE1].
    apply (sweep_step P groups vu dt Tu (total_transfer su fu) (step_row external k) (step_row boundary k)
      1 (run_source false vu dt psi k)) in HE1;
      [|intros i m g _ _ Hg; rewrite run_derivative_eq by (auto; lra); reflexivity].
    apply (sweep_nonneg P groups _ _ _ _ _ Hnz Hthin HE1); [|intros; apply Hbnd; assumption].
    intros i m g Hi Hm Hg. cbv beta. apply Rplus_le_le_0_compat; [apply Hb; assumption|].
    apply rsum_nonneg. intros h Hh. apply Rmult_le_pos; [apply Hxs; assumption|]. unfold recombined.
    destruct (Hown h Hh) as [O1 O2]. apply Rplus_le_le_0_compat; [apply Hpu; assumption|].
    apply Rmult_le_pos; [apply Hpc; assumption|exact O2]. }
  intros k i g Hk Hi Hg. destruct (Hs k Hk) as (-> & _). apply rsum_nonneg. intros m Hm.
  apply Rmult_le_pos; [apply Hw; exact Hm|apply I; (assumption || lia)].
Qed.

(** ** Errors of the hybrid drivers *)
Lemma hybrid_needs_iso two P PC materials groups groups_c flux_last Tu Tc nm su sc fu fc vu vc external boundary ci fac steps dt
    geometry ft :
  (0 < steps)%nat ->
  hybrid_run two P PC materials groups groups_c flux_last Tu Tc (Scatter4 nm su) sc fu fc vu vc external boundary
    ci fac steps dt geometry <> Ok ft.
Proof.
  intros Hk E. rewrite hybrid_run_eq in E.
  destruct (for_up_err _ _ _) as [r|] eqn:Er; cbn [bind] in E; [|discriminate].
  destruct (for_up_err_trace _ _ _ _ Er) as (x & _ & _ & Hs). specialize (Hs 0%nat Hk).
  assert (EX : exists Y, transfer_matrix materials groups (Scatter4 nm su) fu = Scatter4 nm Y).
  { destruct fu; unfold transfer_matrix; eauto. }
  destruct EX as [Y EX]. rewrite EX in Hs.
  destruct two; cbn [hybrid_body] in Hs; unfold hybrid_bdf2_body, hybrid_bdf1_body, hybrid_method in Hs; cbv zeta in Hs;
    repeat (match type of Hs with
            | bind (bind ?a _) _ = _ => destruct a eqn:?; cbn [bind] in Hs; try discriminate Hs
            | bind ?a _ = _ => destruct a eqn:?; cbn [bind] in Hs; try discriminate Hs end).
Qed.

Lemma hybrid_sphere_fails two P PC materials groups groups_c flux_last Tu Tc su sc fu fc vu vc external boundary ci fac steps dt ft :
  (0 < steps)%nat -> (0 < groups)%nat -> (exists m, (m < angles P)%nat /\ mu P m <> 0) ->
  hybrid_run two P PC materials groups groups_c flux_last Tu Tc su sc fu fc vu vc external boundary ci fac steps dt 2 <> Ok ft.
Proof.
  intros Hk Hg Hm E. rewrite hybrid_run_eq in E.
  destruct (for_up_err _ _ _) as [r|] eqn:Er; cbn [bind] in E; [|discriminate].
  destruct (for_up_err_trace _ _ _ _ Er) as (x & _ & _ & Hs). specialize (Hs 0%nat Hk).
  destruct two; cbn [hybrid_body] in Hs; unfold hybrid_bdf2_body, hybrid_bdf1_body in Hs; cbv zeta in Hs;
    repeat (match type of Hs with
            | bind ?a _ = _ => destruct a eqn:?; cbn [bind] in Hs; try discriminate Hs end).
  all: match goal with H : known_source_angular _ _ _ _ _ 2 0 = Ok _ |- _ =>
         exact (known_angular_sphere_fails _ _ _ _ _ _ Hm Hg H) end.
Qed.

(** ** Variable grids *)
Lemma vhybrid_source_timed two velocity dt step psi1 psi2 i n g :
  vhybrid_source two velocity dt step psi1 psi2 i n g
  = (if two then bdf2_source velocity dt step psi1 psi2 i n g else 1 / (velocity g * dt) * psi1 i n g).
Proof.
  unfold vhybrid_source, bdf2_source. destruct two; cbn [negb orb]; [|reflexivity].
  destruct (Nat.eqb step 0); [reflexivity|].
  replace (2 * velocity g * dt) with (2 * (velocity g * dt)) by ring. unfold Rdiv.
  rewrite !Rinv_mult. lra.
Qed.

Lemma vhybrid_num_weight two step : vhybrid_num two step = run_weight two step.
Proof.
  unfold vhybrid_num, run_weight. destruct two; cbn [negb orb]; [|reflexivity].
  destruct step; cbn [Nat.eqb]; [reflexivity|]. lra.
Qed.

(** the coarse data of a variable step are the coarsened materials on the returned edges *)
Lemma coarse_total_materials xs_total e idx weight velocity dt :
  coarse_total xs_total (ediff e) (coarse_diff e idx) (fun c => weight / (coarsen_velocity velocity idx c * dt)) idx
  = effective_total weight (xs_vector_coarsen xs_total e idx) (coarsen_velocity velocity idx) dt.
Proof. reflexivity. Qed.

Lemma coarsen_flux_sum groups_c fine coarse idx i c : (c < groups_c)%nat ->
  coarsen_flux groups_c fine coarse idx i c = group_sum idx c (fine i).
Proof.
  intros Hc. unfold coarsen_flux.
  assert (K : forall n, (c < n)%nat -> for_up n (fun gg coarse => set_col coarse gg
      (fun i => range_sum (idx gg) (idx (gg + 1)%nat) (fun g => fine i g))) coarse i c = group_sum idx c (fine i)).
  { induction n as [|n IH]; intros Hn; [lia|]. cbn [for_up]. unfold set_col at 1.
    destruct (Nat.eqb_spec c n) as [-> |Hne]; [apply range_is_group|apply IH; lia]. }
  apply K. exact Hc.
Qed.

Lemma at_step_count a k n : at_step a k = Ok n <-> count_at a k n.
Proof.
  destruct a as [m|len f|]; cbn [at_step count_at].
  - split; [intros E; injection E as <-; reflexivity|intros ->; reflexivity].
  - destruct (Nat.ltb_spec k len); split; try discriminate; try (intros [? ?]; lia).
    + intros E. injection E as <-. split; [lia|reflexivity].
    + intros [_ ->]. reflexivity.
  - split; [discriminate|intros []].
Qed.

Lemma vhybrid_run_eq two : vhybrid_run two = vhybrid_drive two.
Proof. destruct two; reflexivity. Qed.

Section Variable_grid.
  Variables (two : bool) (P : sn) (leggauss : nat -> vec * vec) (stock : nat -> nat * vec)
    (table : nat -> nat -> option (nat -> nat)) (grid groups : nat) (groups_c angles_c : per_step)
    (flux_last : mat3) (T : mat2) (s f : mat3) (v : vec) (external boundary : arr4) (steps : nat) (dt : R).
  Let X : mat3 := fun m o i => s m o i + f m o i.
  Let body := vhybrid_body two P leggauss stock table grid groups groups_c angles_c T X v external boundary dt 1.

  Lemma vhybrid_body_ok k st st' : body k st = Ok st' ->
    exists gc ac ci fac idx e xw qf fu fc,
      at_step groups_c k = Ok gc /\ at_step angles_c k = Ok ac /\
      energy_grid_change stock table grid groups gc = Ok (ci, fac, idx, e) /\
      angular_x leggauss ac [bc_left P; bc_right P] = Ok xw /\
      qf = (fun i m g => at3 (step_row external k) i (bidx (d3b (step_row external k)) m) (bidx (d3c (step_row external k)) g)
                         + body_source two v dt k st i m g) /\
      known_source_scalar P groups (effective_total (run_weight two k) T v dt)
        (mkArr3 (angles P) groups qf) (step_row boundary k) 1 0 = Ok fu /\
      source_iteration_iso (with_angles P ac (fst xw) (snd xw)) gc (coarsen_flux gc fu zeros2 idx)
        (effective_total (run_weight two k) (xs_vector_coarsen T e idx) (coarsen_velocity v idx) dt)
        (coarse_scatter X (ediff e) (coarse_diff e idx) idx)
        (mkArr3 1 gc (fun i _ g => hybrid_source_collided (cells P) groups fu X zeros2 (medium P) ci i g))
        boundary_c 1 = Ok fc /\
      known_source_angular P groups (effective_total (run_weight two k) T v dt)
        (mkArr3 (angles P) groups (snd (hybrid_source_total (cells P) (angles P) groups fu fc X qf (medium P) ci fac)))
        (step_row boundary k) 1 0 = Ok (t_psi1 st') /\
      t_flux st' = set_row (t_flux st) k (scalar_flux P (t_psi1 st')) /\
      t_psi2 st' = (if two then t_psi1 st else t_psi2 st).
  Proof.
    unfold body, vhybrid_body. cbv zeta. rewrite vhybrid_num_weight.
    match goal with |- bind ?a _ = _ -> _ => destruct a as [gr|] eqn:E1; cbn [bind]; [|discriminate] end.
    match goal with |- bind ?a _ = _ -> _ => destruct a as [an|] eqn:E2; cbn [bind]; [|discriminate] end.
    match goal with |- bind ?a _ = _ -> _ => destruct a as [ext|] eqn:E3; cbn [bind]; [|discriminate] end.
    match goal with |- bind ?a _ = _ -> _ => destruct a as [q|] eqn:E4; cbn [bind]; [|discriminate] end.
    destruct an as [ac|]; [|discriminate].
    destruct gr as [[gc [[[ci fac] idx] e]]|]; [|discriminate].
    match goal with |- bind ?a _ = _ -> _ => destruct a as [bnd|] eqn:E5; cbn [bind]; [|discriminate] end.
    unfold variable_hybrid_method.
    match goal with |- context [known_source_scalar ?a ?b ?c ?d ?e ?f ?g] =>
       destruct (known_source_scalar a b c d e f g) as [fu|] eqn:E6 end; cbn [bind]; [|discriminate].
    destruct (angular_x leggauss ac [bc_left P; bc_right P]) as [xw|] eqn:E7; cbn [bind]; [|discriminate].
    cbv zeta. rewrite variable_is_coarse, coarse_total_materials.
    match goal with |- context [source_iteration_iso ?a ?b ?c ?d ?e ?f ?g ?h] =>
       destruct (source_iteration_iso a b c d e f g h) as [fc|] eqn:E8 end; cbn [bind]; [|discriminate].
    match goal with |- context [known_source_angular ?a ?b ?c ?d ?e ?f ?g] =>
       destruct (known_source_angular a b c d e f g) as [psi|] eqn:E9 end; cbn [bind]; [|discriminate].
    intros H; injection H as <-.
    apply row4_ok in E3. apply row4_ok in E5. subst ext bnd.
    apply add_external_ok in E4.
    exists gc, ac, ci, fac, idx, e, xw. eexists _, fu, fc.
    split. { destruct groups_c as [n|n h|]; [| |discriminate E1];
      (match type of E1 with bind ?a _ = _ => destruct a as [gc'|] eqn:Ea; cbn [bind] in E1; [|discriminate E1] end);
      (match type of E1 with bind ?a _ = _ => destruct a as [r|] eqn:Eb; cbn [bind] in E1; [|discriminate E1] end);
      injection E1 as <- ->; first [exact Ea|reflexivity]. }
    split. { destruct angles_c as [n|n h|]; [| |discriminate E2];
      (match type of E2 with bind ?a _ = _ => destruct a as [ac'|] eqn:Ea; cbn [bind] in E2; [|discriminate E2] end);
      injection E2 as <-; first [exact Ea|reflexivity]. }
    split. { destruct groups_c as [n|n h|]; [| |discriminate E1];
      (match type of E1 with bind ?a _ = _ => destruct a as [gc'|] eqn:Ea; cbn [bind] in E1; [|discriminate E1] end);
      (match type of E1 with bind ?a _ = _ => destruct a as [r|] eqn:Eb; cbn [bind] in E1; [|discriminate E1] end);
      injection E1 as <- ->; first [exact Eb|reflexivity]. }
    split; [exact E7|]. split; [reflexivity|].
    assert (Q : q = mkArr3 (angles P) groups (fun i m g =>
       at3 (step_row external k) i (bidx (d3b (step_row external k)) m) (bidx (d3c (step_row external k)) g)
       + body_source two v dt k st i m g)).
    { rewrite E4. f_equal. extensionality i. extensionality m. extensionality g. f_equal.
      rewrite vhybrid_source_timed. destruct two; reflexivity. }
    subst q. rewrite Q in E6, E9. cbn [at3] in E9.
    split; [exact E6|]. split; [exact E8|]. split; [exact E9|]. cbn [t_flux t_psi1 t_psi2].
    rewrite angle_sum_scalar. split; reflexivity.
  Qed.

  Let run := vhybrid_run two P leggauss stock table grid groups groups_c angles_c flux_last T s f v external boundary
               steps dt 1.

  Lemma vhybrid_trace ft : run = Ok ft ->
    exists x, x 0%nat = mkT (angle_sum P flux_last) flux_last (fun _ _ _ => 0) (fun _ => zeros2) /\
      (forall k, (k < steps)%nat -> body k (x k) = Ok (x (S k))) /\
      (forall k, (k < steps)%nat -> ft k = scalar_flux P (t_psi1 (x (S k)))) /\
      (forall k, (k < steps)%nat -> body_source two v dt k (x k) = run_source two v dt (fun j => t_psi1 (x j)) k).
  Proof.
    intros E. unfold run in E. rewrite vhybrid_run_eq in E. unfold vhybrid_drive in E.
    destruct (vhybrid_precheck _ _ _ _ _) as [u|]; cbn [bind] in E; [|discriminate].
    destruct (for_up_err _ _ _) as [r|] eqn:Er; cbn [bind] in E; [|discriminate]. injection E as <-.
    destruct (for_up_err_trace _ _ _ _ Er) as (x & H0 & Hn & Hs). fold X body in Hs.
    assert (Hf : forall k, (k < steps)%nat -> t_flux (x (S k)) = set_row (t_flux (x k)) k (scalar_flux P (t_psi1 (x (S k))))
              /\ t_psi2 (x (S k)) = if two then t_psi1 (x k) else t_psi2 (x k)).
    { intros k Hk. destruct (vhybrid_body_ok k _ _ (Hs k Hk))
        as (gc & ac & ci & fac & idx & e & xw & qf & fu & fc & _ & _ & _ & _ & _ & _ & _ & _ & A & B). split; assumption. }
    exists x. split; [exact H0|]. split; [exact Hs|]. split.
    - intros k Hk. rewrite <- Hn, (history_row steps x); [|intros j Hj|exact Hk].
      + destruct (Hf k Hk) as [-> _]. unfold set_row. rewrite Nat.eqb_refl. reflexivity.
      + destruct (Hf j Hj) as [A _]. eauto.
    - intros k Hk. destruct two; cbn [body_source run_source]; [|reflexivity].
      destruct k as [|j]; extensionality i; extensionality n; extensionality g; unfold bdf2_source; cbn [Nat.eqb];
        [reflexivity|]. destruct (Hf j ltac:(lia)) as [_ ->]. reflexivity.
  Qed.

  Lemma vhybrid_history ft :
    angles P <> 1%nat -> nonzero_ordinates (angles P) (mu P) ->
    (forall g, (g < groups)%nat -> v g <> 0) -> dt <> 0 ->
    (forall k, (k < steps)%nat -> mg_divisors P groups (effective_total (run_weight two k) T v dt)) ->
    run = Ok ft ->
    exists psi, psi 0%nat = flux_last /\ forall k, (k < steps)%nat ->
      exists gc ac ci fac idx e xw fu fc E,
        count_at groups_c k gc /\ count_at angles_c k ac /\
        energy_grid_change stock table grid groups gc = Ok (ci, fac, idx, e) /\
        angular_x leggauss ac [bc_left P; bc_right P] = Ok xw /\
        let PC := with_angles P ac (fst xw) (snd xw) in
        let total_c := xs_vector_coarsen T e idx in
        let scatter_c := coarse_scatter X (width e) (block_width e idx) idx in
        let velocity_c := coarsen_velocity v idx in
        step_equation P groups v T X (step_row external k) (step_row boundary k)
          (run_derivative two dt psi k (psi (S k))) (recombined ci fac fu fc) E (psi (S k)) /\
        ft k = scalar_flux P (psi (S k)) /\
        uncollided_flux two P groups v dt T (step_row external k) (step_row boundary k) psi k fu /\
        forall c sol,
          mg_thin PC gc (effective_total (run_weight two k) total_c velocity_c dt) ->
          (forall m, (m < ac)%nat -> 0 <= wt PC m) -> 0 <= c -> rsum ac (wt PC) * c < 1 ->
          mg_ratio PC gc (effective_total (run_weight two k) total_c velocity_c dt) scatter_c c ->
          collided_flux two P PC groups gc velocity_c dt total_c scatter_c X ci k fu sol ->
          exists n, (1 <= n <= 100)%nat /\
            forall d, 0 <= d -> within2 (cells P) gc d (fun i c => group_sum idx c (fu i)) sol ->
              within2 (cells P) gc ((rsum ac (wt PC) * c) ^ n * d) fc sol.
  Proof.
    intros Ha Hnz Hv Hdt Hd Er. destruct (vhybrid_trace ft Er) as (x & H0 & Hs & Hft & Hsrc).
    set (psi := fun j => t_psi1 (x j)) in *.
    exists psi. split; [unfold psi; rewrite H0; reflexivity|]. intros k Hk.
    destruct (vhybrid_body_ok k _ _ (Hs k Hk))
      as (gc & ac & ci & fac & idx & e & xw & qf & fu & fc & A1 & A2 & A3 & A4 & Eq & E1 & E2 & E3 & _ & _).
    rewrite Hsrc in Eq by exact Hk. subst qf.
    destruct (hybrid_step_sweeps P groups _ _ _ X ci fac _ _ _ Ha Hnz (Hd k Hk) E1 E3) as [(Eu & pu & HEu & Au) [E HE]].
    exists gc, ac, ci, fac, idx, e, xw, fu, fc, E.
    split; [apply at_step_count; exact A1|]. split; [apply at_step_count; exact A2|]. split; [exact A3|]. split; [exact A4|]. cbv zeta. split.
    - apply (sweep_step P groups v dt T X (step_row external k) (step_row boundary k) (run_weight two k)
               (run_source two v dt psi k) (run_derivative two dt psi k (psi (S k))) (recombined ci fac fu fc)) in HE;
        [exact HE|intros; apply run_derivative_eq; auto].
    - split; [apply Hft; exact Hk|]. split.
      + exists Eu, pu. split; [|exact Au].
        apply (sweep_step P groups v dt T (fun _ _ _ => 0) (step_row external k) (step_row boundary k) (run_weight two k)
               (run_source two v dt psi k)); [intros; apply run_derivative_eq; auto|].
        eapply sweep_eq_ext; [|exact HEu]. intros i m g Hi Hm Hg. cbv beta.
        rewrite (rsum_ext groups _ (fun _ => 0)) by (intros; ring). rewrite rsum_zero. ring.
      + intros c sol Hthin Hw Hc Hrho Hrat Hsol.
        set (PC := with_angles P ac (fst xw) (snd xw)) in *.
        assert (Hsol' : mg_solution PC gc
          (effective_total (run_weight two k) (xs_vector_coarsen T e idx) (coarsen_velocity v idx) dt)
          (coarse_scatter X (ediff e) (coarse_diff e idx) idx)
          (mkArr3 1 gc (fun i _ g => hybrid_source_collided (cells P) groups fu X zeros2 (medium P) ci i g))
          boundary_c sol).
        { apply (mg_solution_external PC gc _ _ (first_collisions P groups gc X ci fu)); [reflexivity|reflexivity| |exact Hsol].
          intros i m g Hi _ _. symmetry. apply (collided_source_spec P groups gc fu X ci i (bidx 1 m) (bidx gc g)). exact Hi. }
        destruct (outer_error PC gc _ _ _ boundary_c c _ fc sol Hthin Hw Hc Hrho Hrat Hsol' E2) as (n & Hn & G & _).
        exists n. split; [exact Hn|]. intros d Hd0 Hdist. apply (G d Hd0).
        intros i g Hi Hg. rewrite coarsen_flux_sum by exact Hg. apply Hdist; assumption.
  Qed.
End Variable_grid.

(** ** Errors of the variable-grid drivers *)
Lemma vhybrid_other_type two P leggauss stock table grid groups groups_c angles_c flux_last T s f v external boundary steps dt
    geometry ft :
  (0 < steps)%nat -> groups_c = OtherType \/ angles_c = OtherType ->
  vhybrid_run two P leggauss stock table grid groups groups_c angles_c flux_last T s f v external boundary steps dt geometry
  <> Ok ft.
Proof.
  intros Hk Ho E. rewrite vhybrid_run_eq in E. unfold vhybrid_drive in E.
  destruct (vhybrid_precheck _ _ _ _ _) as [u|]; cbn [bind] in E; [|discriminate].
  destruct (for_up_err _ _ _) as [r|] eqn:Er; cbn [bind] in E; [|discriminate].
  destruct (for_up_err_trace _ _ _ _ Er) as (x & _ & _ & Hs). specialize (Hs 0%nat Hk).
  unfold vhybrid_body in Hs. cbv zeta in Hs.
  destruct Ho as [-> | ->]; cbn [bind] in Hs.
  - repeat (match type of Hs with bind ?a _ = _ => destruct a as [?z|]; cbn [bind] in Hs; try discriminate Hs end).
    match type of Hs with match ?o with _ => _ end = _ => destruct o; discriminate Hs end.
  - repeat (match type of Hs with bind ?a _ = _ => destruct a as [?z|]; cbn [bind] in Hs; try discriminate Hs end).
Qed.

Lemma vhybrid_short two P leggauss stock table grid groups groups_c angles_c flux_last T s f v external boundary steps dt
    geometry ft len h :
  (groups_c = Each len h \/ angles_c = Each len h) -> (len < steps)%nat ->
  vhybrid_run two P leggauss stock table grid groups groups_c angles_c flux_last T s f v external boundary steps dt geometry
  <> Ok ft.
Proof.
  intros Ho Hk E. rewrite vhybrid_run_eq in E. unfold vhybrid_drive in E.
  destruct (vhybrid_precheck _ _ _ _ _) as [u|]; cbn [bind] in E; [|discriminate].
  destruct (for_up_err _ _ _) as [r|] eqn:Er; cbn [bind] in E; [|discriminate].
  destruct (for_up_err_trace _ _ _ _ Er) as (x & _ & _ & Hs). specialize (Hs len Hk).
  unfold vhybrid_body in Hs. cbv zeta in Hs.
  destruct Ho as [-> | ->]; cbn [at_step bind] in Hs; rewrite Nat.ltb_irrefl in Hs; cbn [bind] in Hs; [discriminate Hs|].
  repeat (match type of Hs with bind ?a _ = _ => destruct a as [?z|]; cbn [bind] in Hs; try discriminate Hs end).
Qed.

(** reflection on both sides: the collided ordinates cannot be computed *)
Lemma vhybrid_two_mirrors two P leggauss stock table grid groups groups_c angles_c flux_last T s f v external boundary steps dt ft :
  (0 < steps)%nat -> bc_left P = 1%nat -> bc_right P = 1%nat ->
  vhybrid_run two P leggauss stock table grid groups groups_c angles_c flux_last T s f v external boundary steps dt 1
  <> Ok ft.
Proof.
  intros Hk H1 H2 E.
  destruct (vhybrid_trace two P leggauss stock table grid groups groups_c angles_c flux_last T s f v external boundary steps dt
              ft E) as (x & _ & Hs & _).
  destruct (vhybrid_body_ok two P leggauss stock table grid groups groups_c angles_c T s f v external boundary dt 0 _ _
              (Hs 0%nat Hk)) as (gc & ac & ci & fac & idx & e & xw & qf & fu & fc & _ & _ & _ & A4 & _).
  rewrite H1, H2 in A4. unfold angular_x in A4. destruct (Nat.eqb ac 0); cbn in A4; discriminate A4.
Qed.

Lemma auto_two_mirrors two P leggauss materials groups flux_last T s f v external boundary angles_c groups_c edges_g idx_u idx_c
    steps dt geometry :
  bc_left P = 1%nat -> bc_right P = 1%nat -> angles_c <> angles P -> angles_c <> 0%nat ->
  auto_run two P leggauss materials groups flux_last T s f v external boundary angles_c groups_c edges_g idx_u idx_c
      steps dt geometry = Raise UnboundLocalError.
Proof.
  intros H1 H2 Hne Hz.
  assert (K : forall A (k : _ -> outcome A), bind (auto_collided P leggauss groups angles_c groups_c T s f v edges_g idx_u idx_c) k
    = Raise UnboundLocalError).
  { intros A k. unfold auto_collided. destruct (indexing edges_g idx_u groups_c idx_c) as [[fi ci] fac].
    match goal with |- bind (match ?y with _ => _ end) _ = _ => destruct y as [[[? ?] ?] ?] end.
    destruct (Nat.eqb_spec angles_c (angles P)) as [|_]; [contradiction|]. rewrite H1, H2.
    unfold angular_x. destruct (Nat.eqb_spec angles_c 0); [contradiction|]. reflexivity. }
  destruct two; cbn [auto_run]; unfold auto_bdf1, auto_bdf2; apply K.
Qed.

(** an unknown starting grid is reported before the first step, unless the group counts are an array *)
Lemma vhybrid_unknown_grid two P leggauss stock table grid groups n angles_c flux_last T s f v external boundary steps dt geometry :
  ~ In grid [87; 361; 618]%nat ->
  vhybrid_run two P leggauss stock table grid groups (Const n) angles_c flux_last T s f v external boundary steps dt geometry
  = Raise UnboundLocalError.
Proof.
  intros Hg. assert (known_grid grid = false) as Hk.
  { unfold known_grid. destruct (Nat.eqb_spec grid 87); [subst; cbn in Hg; tauto|].
    destruct (Nat.eqb_spec grid 361); [subst; cbn in Hg; tauto|].
    destruct (Nat.eqb_spec grid 618); [subst; cbn in Hg; tauto|]. reflexivity. }
  rewrite vhybrid_run_eq. unfold vhybrid_drive, vhybrid_precheck, energy_grid_change, energy_grid. rewrite Hk. reflexivity.
Qed.

(** ** The group widths of the variable method *)
Lemma energy_grid_change_edges stock table grid groups gc ci fac idx e :
  energy_grid_change stock table grid groups gc = Ok (ci, fac, idx, e) -> e = snd (stock grid).
Proof.
  unfold energy_grid_change, energy_grid. destruct (known_grid grid); cbn [bind]; [|discriminate].
  destruct (stock grid) as [n ed]. destruct (grid_index _ _ _ _) as [fine|]; cbn [bind]; [|discriminate].
  destruct (grid_index (table grid gc) true groups gc) as [coarse|]; cbn [bind]; [|discriminate].
  intros H. injection H as _ _ _ <-. reflexivity.
Qed.

