(** Multigroup slab source iteration: group coupling, sweeps, fixed points, convergence. *)
From Coq Require Import Lra Lia FunctionalExtensionality.
From Verif Require Import Base BaseFacts Contraction SlabModel SlabSpec SlabFacts SlabFacts2
  SlabFacts3 SlabFacts4 SlabFacts5 SphereModel MgModel MgSpec.
Open Scope R_scope.

Lemma upd_self a i : upd a i (a i) = a.
Proof. extensionality j. unfold upd. destruct (Nat.eqb_spec j i) as [-> |]; reflexivity. Qed.

Lemma acc_loop k (f : vec) ii off :
  for_up k (fun og off => upd off ii (off ii + f og)) off = upd off ii (off ii + rsum k f).
Proof.
  induction k as [|k IH]; cbn [for_up rsum].
  - rewrite Rplus_0_r, upd_self. reflexivity.
  - rewrite IH. extensionality j. unfold upd. rewrite Nat.eqb_refl.
    destruct (Nat.eqb_spec j ii); [ring|reflexivity].
Qed.

Lemma upd_upd a i v w : upd (upd a i v) i w = upd a i w.
Proof. extensionality j. unfold upd. destruct (Nat.eqb j i); reflexivity. Qed.

Lemma fill_loop n (f : vec) off :
  for_up n (fun ii off => upd off ii (off ii + f ii)) off
  = fun i => if Nat.ltb i n then off i + f i else off i.
Proof.
  induction n as [|n IH]; cbn [for_up].
  - reflexivity.
  - rewrite IH. extensionality j. unfold upd. rewrite Nat.ltb_irrefl.
    destruct (Nat.eqb_spec j n) as [-> |Hne].
    + rewrite (proj2 (Nat.ltb_lt n (S n))) by lia. reflexivity.
    + destruct (Nat.ltb_spec j n), (Nat.ltb_spec j (S n)); try lia; reflexivity.
Qed.

(** What group [g] receives from the other groups. *)
Definition gs_off (cells groups : nat) (new old : mat2) (medium : nat -> nat) (xs : mat3) (gg : nat) : vec :=
  fun i => if Nat.ltb i cells then
    rsum groups (fun h => if Nat.eqb h gg then 0
                          else xs (medium i) gg h * (if Nat.ltb h gg then new i h else old i h))
  else 0.

Lemma off_scatter_eq cells groups new old medium xs gg : (gg < groups)%nat ->
  off_scatter cells groups new old medium xs gg = gs_off cells groups new old medium xs gg.
Proof.
  intros Hg. unfold off_scatter, gs_off.
  rewrite (for_up_ext cells _ (fun ii off => upd off ii (off ii +
     rsum groups (fun h => if Nat.eqb h gg then 0
                          else xs (medium ii) gg h * (if Nat.ltb h gg then new ii h else old ii h))))).
  - rewrite fill_loop. extensionality i. unfold zeros. destruct (Nat.ltb i cells); ring.
  - intros ii off Hi. cbv zeta.
    rewrite (acc_loop gg (fun og => xs (medium ii) gg og * new ii og)).
    rewrite (acc_loop (groups - (gg + 1)) (fun k => xs (medium ii) gg (gg + 1 + k)%nat * old ii (gg + 1 + k)%nat)).
    rewrite upd_same, upd_upd. f_equal. rewrite Rplus_assoc. f_equal.
    replace (rsum groups) with (rsum (gg + 1 + (groups - (gg + 1)))%nat) by (f_equal; lia).
    rewrite rsum_split. replace (gg + 1)%nat with (S gg) by lia. cbn [rsum].
    rewrite Nat.eqb_refl. rewrite Rplus_0_r.
    f_equal; apply rsum_ext; intros h Hh.
    + destruct (Nat.eqb_spec h gg); [lia|]. destruct (Nat.ltb_spec h gg); [reflexivity|lia].
    + destruct (Nat.eqb_spec (S gg + h) gg); [lia|]. destruct (Nat.ltb_spec (S gg + h) gg); [lia|reflexivity].
Qed.

Lemma gs_off_ext cells groups n1 n2 o1 o2 medium xs gg :
  (forall i h, (i < cells)%nat -> (h < gg)%nat -> n1 i h = n2 i h) ->
  (forall i h, (i < cells)%nat -> (gg < h < groups)%nat -> o1 i h = o2 i h) ->
  gs_off cells groups n1 o1 medium xs gg = gs_off cells groups n2 o2 medium xs gg.
Proof.
  intros Hn Ho. unfold gs_off. extensionality i. destruct (Nat.ltb_spec i cells); [|reflexivity].
  apply rsum_ext. intros h Hh. destruct (Nat.eqb_spec h gg); [reflexivity|].
  destruct (Nat.ltb_spec h gg); [rewrite Hn by lia|rewrite Ho by lia]; reflexivity.
Qed.

(** At a common flux, off-group plus within-group scattering is the full scattering source. *)
Lemma gs_off_full cells groups phi medium xs gg i : (gg < groups)%nat -> (i < cells)%nat ->
  xs (medium i) gg gg * phi i gg + gs_off cells groups phi phi medium xs gg i
  = rsum groups (fun h => xs (medium i) gg h * phi i h).
Proof.
  intros Hg Hi. unfold gs_off. rewrite (proj2 (Nat.ltb_lt i cells)) by lia.
  assert (S := rsum_single groups (fun h => if Nat.eqb h gg then xs (medium i) gg gg * phi i gg else 0) gg Hg).
  cbv beta in S. rewrite Nat.eqb_refl in S. rewrite <- S.
  2:{ intros h Hh Hne. destruct (Nat.eqb_spec h gg); [lia|reflexivity]. }
  rewrite <- rsum_plus. apply rsum_ext. intros h Hh.
  destruct (Nat.eqb_spec h gg) as [-> |]; [ring|]. destruct (Nat.ltb h gg); ring.
Qed.

(** Generic Gauss-Seidel loop over the columns. *)
Lemma gs_loop groups (step : nat -> mat2 -> outcome vec) flux :
  (forall g f1 f2, (g < groups)%nat -> (forall i h, (h < g)%nat -> f1 i h = f2 i h) -> step g f1 = step g f2) ->
  for_up_err groups (fun g fl => bind (step g fl) (fun c => Ok (set_col fl g c))) zeros2 = Ok flux ->
  (forall g, (g < groups)%nat -> step g flux = Ok (fun i => flux i g)) /\
  (forall i g, (groups <= g)%nat -> flux i g = 0).
Proof.
  intros Hs. revert flux. assert (Hn : (groups <= groups)%nat) by lia. revert Hn.
  generalize groups at 1 3 4 5. intros n. induction n as [|n IH]; intros Hn flux E; cbn [for_up_err] in E.
  - injection E as <-. split; [lia|reflexivity].
  - destruct (for_up_err n _ zeros2) as [fl|e] eqn:E1; cbn [bind] in E; [|discriminate].
    destruct (IH ltac:(lia) fl eq_refl) as [H1 H2].
    destruct (step n fl) as [c|e] eqn:E2; cbn [bind] in E; [|discriminate]. injection E as <-.
    split.
    + intros g Hg. destruct (Nat.eq_dec g n) as [-> |Hne].
      * rewrite (Hs n _ fl) by (try lia; intros; rewrite set_col_other by lia; reflexivity).
        rewrite E2. f_equal. extensionality i. rewrite set_col_same. reflexivity.
      * rewrite (Hs g _ fl) by (try lia; intros; rewrite set_col_other by lia; reflexivity).
        rewrite H1 by lia. f_equal. extensionality i. rewrite set_col_other by lia. reflexivity.
    + intros i g Hg. rewrite set_col_other by lia. apply H2. lia.
Qed.

Definition slab_group (P : sn) (groups : nat) (xs_total : mat2) (xs_scatter : mat3)
    (external boundary : arr3) (old new : mat2) (gg : nat) : outcome vec :=
  slab_isotropic_sn P (fun i => old i gg) (fun m => xs_total m gg) (fun m => xs_scatter m gg gg)
    (gs_off (cells P) groups new old (medium P) xs_scatter gg)
    (slice3 external (bidx (d3c external) gg)) (slice3 boundary (bidx (d3c boundary) gg)) 0.

Lemma one_sweep_slab_eq P groups xs_total xs_scatter external boundary old :
  one_sweep_iso P groups xs_total xs_scatter external boundary 1 old =
  for_up_err groups (fun gg flux =>
    bind (slab_group P groups xs_total xs_scatter external boundary old flux gg)
      (fun c => Ok (set_col flux gg c))) zeros2.
Proof.
  unfold one_sweep_iso. apply for_up_err_ext. intros gg fl Hg. cbv zeta.
  rewrite Nat.eqb_refl. rewrite off_scatter_eq by assumption. reflexivity.
Qed.

Lemma one_sweep_groups P groups xs_total xs_scatter external boundary old new :
  one_sweep_iso P groups xs_total xs_scatter external boundary 1 old = Ok new ->
  (forall gg, (gg < groups)%nat ->
     slab_group P groups xs_total xs_scatter external boundary old new gg = Ok (fun i => new i gg)) /\
  (forall i g, (groups <= g)%nat -> new i g = 0).
Proof.
  rewrite one_sweep_slab_eq. apply gs_loop.
  intros g f1 f2 Hg Hf. unfold slab_group. f_equal. apply gs_off_ext; auto.
Qed.

Lemma one_sweep_total P groups xs_total xs_scatter external boundary old :
  nonzero_ordinates (angles P) (mu P) ->
  exists new, one_sweep_iso P groups xs_total xs_scatter external boundary 1 old = Ok new.
Proof.
  intros Hm. rewrite one_sweep_slab_eq. apply for_up_err_ok. intros k t Hk.
  unfold slab_group.
  destruct (driver_total P (fun i => old i k) (fun m => xs_total m k) (fun m => xs_scatter m k k)
    (gs_off (cells P) groups t old (medium P) xs_scatter k) (slice3 external (bidx (d3c external) k))
    (slice3 boundary (bidx (d3c boundary) k)) 0 Hm) as [c Ec].
  rewrite Ec. cbn [bind]. eauto.
Qed.

Lemma one_sweep_zero_ordinate P groups xs_total xs_scatter external boundary old m :
  (0 < groups)%nat -> (m < angles P)%nat -> mu P m = 0 ->
  one_sweep_iso P groups xs_total xs_scatter external boundary 1 old = Raise DiscontinuityAt0.
Proof.
  intros Hg Hm Hz. rewrite one_sweep_slab_eq.
  apply (for_up_err_raise groups _ zeros2 0%nat); [exact Hg| |].
  - intros t. unfold slab_group. rewrite (driver_zero_ordinate _ _ _ _ _ _ _ _ m Hm Hz). reflexivity.
  - intros j t e' Hj. unfold slab_group. rewrite (driver_zero_ordinate _ _ _ _ _ _ _ _ m Hm Hz).
    cbn [bind]. intros E. injection E as <-. reflexivity.
Qed.

(** Uniqueness of the slab sweep: any solution of the discrete equations is what a pass computes. *)
Lemma transport_is_pass P xs_total xs_scatter off external boundary flux_old psi phi :
  nonzero_ordinates (angles P) (mu P) -> good_divisors P xs_total ->
  slab_transport (cells P) (angles P) (mu P) (wt P) (dx P) (fun i => xs_total (medium P i))
      (iso_source (medium P) xs_scatter off external flux_old)
      (fun m => reflected_in (cells P) (angles P) (mu P) (bc_left P) (bc_right P) psi m
                + boundary_in boundary (mu P) m)
      psi phi ->
  exists r, slab_iso_pass P xs_total xs_scatter off external boundary 0 flux_old = Ok r /\
    forall i, (i < cells P)%nat -> r i = phi i.
Proof.
  intros Hm Hd (Hb & Hin & Hphi).
  rewrite slab_iso_pass_ok by assumption. eexists; split; [reflexivity|].
  set (q := iso_q P xs_scatter off external flux_old). set (s := half_sig P xs_total).
  set (b := boundary_in boundary (mu P)).
  assert (U : forall m, (m < angles P)%nat -> forall k, (k <= cells P)%nat -> psi m k = Psi P q s b m k).
  { intros m. induction m as [m IH] using (well_founded_induction lt_wf). intros Hma.
    assert (Ein : psi m (inflow_edge (cells P) (mu P m)) = Psi P q s b m (inflow_edge (cells P) (mu P m))).
    { rewrite Psi_inflow, inflow_at_spec by assumption. rewrite Hin by assumption. f_equal.
      unfold reflected_in. destruct (Nat.ltb_spec (angles P - m - 1) m) as [Hl|Hl]; cbn [andb]; [|reflexivity].
      destruct (leaves_reflective _ _ _ _); [|reflexivity].
      apply IH; [exact Hl|lia|]. unfold outflow_edge. destruct (Rlt_dec _ _); lia. }
    assert (Bp : dd_balance (cells P) (mu P m) (dx P) (fun i => xs_total (medium P i)) (q m) (Psi P q s b m)).
    { apply Psi_balance; [reflexivity|exact (Hm m Hma)|exact (Hd m Hma)]. }
    unfold inflow_edge in Ein. destruct (Rlt_dec 0 (mu P m)) as [Hp|Hp].
    - eapply dd_unique_fwd; [apply divisors_fwd; [exact Hp|exact (Hd m Hma)]|apply Hb; assumption|exact Bp|exact Ein].
    - assert (Hneg : mu P m < 0) by (specialize (Hm m Hma); lra).
      eapply dd_unique_bwd; [apply divisors_bwd; [exact Hneg|exact (Hd m Hma)]|apply Hb; assumption|exact Bp|exact Ein]. }
  intros i Hi. rewrite pass_flux_center by assumption. rewrite Hphi by assumption.
  apply rsum_ext. intros m Hma. rewrite !U by (assumption || lia). reflexivity.
Qed.

(** A flux reproduced by a pass (on the cells) is reproduced by the whole inner iteration. *)
Lemma driver_keeps P xs_total xs_scatter off external boundary f r flux :
  slab_iso_pass P xs_total xs_scatter off external boundary 0 f = Ok r ->
  (forall i, (i < cells P)%nat -> r i = f i) ->
  slab_isotropic_sn P f xs_total xs_scatter off external boundary 0 = Ok flux ->
  flux = r.
Proof.
  intros E Hr Ed. assert (Hm := pass_ok_nonzero _ _ _ _ _ _ _ _ _ E).
  destruct (driver_trace _ _ _ _ _ _ _ _ _ Ed) as (n & x & Hn & H0 & -> & Hstep & _).
  assert (H : forall k, (k < n)%nat -> x (S k) = r).
  { induction k as [|k IH]; intros Hk.
    - specialize (Hstep 0%nat Hk). rewrite H0, E in Hstep. injection Hstep as <-. reflexivity.
    - specialize (Hstep (S k) Hk). rewrite IH in Hstep by lia.
      rewrite (slab_iso_pass_ext _ _ _ _ _ _ _ _ f Hm) in Hstep by exact Hr.
      rewrite E in Hstep. injection Hstep as <-. reflexivity. }
  replace n with (S (n - 1)) by lia. apply H. lia.
Qed.

Lemma slice_boundary boundary mu g m :
  boundary_in (slice3 boundary (bidx (d3c boundary) g)) mu m = mg_boundary boundary mu g m.
Proof. reflexivity. Qed.

Lemma transport_ext n a mu wt dx sigt q1 q2 in1 in2 psi phi :
  (forall m i, (m < a)%nat -> (i < n)%nat -> q1 m i = q2 m i) ->
  (forall m, (m < a)%nat -> in1 m = in2 m) ->
  slab_transport n a mu wt dx sigt q1 in1 psi phi -> slab_transport n a mu wt dx sigt q2 in2 psi phi.
Proof.
  intros Hq Hi (A & B & C). split; [|split].
  - intros m Hm i Hin. rewrite <- Hq by assumption. apply A; assumption.
  - intros m Hm. rewrite <- Hi by assumption. apply B; assumption.
  - exact C.
Qed.

Lemma transport_phi_ext n a mu wt dx sigt q inflow psi phi1 phi2 :
  (forall i, (i < n)%nat -> phi1 i = phi2 i) ->
  slab_transport n a mu wt dx sigt q inflow psi phi1 -> slab_transport n a mu wt dx sigt q inflow psi phi2.
Proof. intros H (A & B & C). repeat split; auto. intros i Hi. rewrite <- H by assumption. auto. Qed.

(** A multigroup solution is returned unchanged by an outer iteration. *)
Lemma solution_sweep P groups xs_total xs_scatter external boundary phi new :
  nonzero_ordinates (angles P) (mu P) -> mg_divisors P groups xs_total ->
  mg_solution P groups xs_total xs_scatter external boundary phi ->
  one_sweep_iso P groups xs_total xs_scatter external boundary 1 phi = Ok new ->
  agree2 (cells P) groups new phi.
Proof.
  intros Hm Hd [psi Hsol] E. destruct (one_sweep_groups _ _ _ _ _ _ _ _ E) as [Hg _].
  assert (H : forall g, (g < groups)%nat -> forall i, (i < cells P)%nat -> new i g = phi i g).
  { intros g. induction g as [g IH] using (well_founded_induction lt_wf). intros Hgg.
    specialize (Hg g Hgg). unfold slab_group in Hg.
    rewrite (gs_off_ext _ _ new phi phi phi) in Hg by (try reflexivity; intros; apply IH; lia).
    assert (T : slab_transport (cells P) (angles P) (mu P) (wt P) (dx P) (fun i => xs_total (medium P i) g)
        (iso_source (medium P) (fun m => xs_scatter m g g)
           (gs_off (cells P) groups phi phi (medium P) xs_scatter g)
           (slice3 external (bidx (d3c external) g)) (fun i => phi i g))
        (fun m => reflected_in (cells P) (angles P) (mu P) (bc_left P) (bc_right P) (psi g) m
                  + boundary_in (slice3 boundary (bidx (d3c boundary) g)) (mu P) m)
        (psi g) (fun i => phi i g)).
    { eapply transport_ext; [| |apply Hsol; exact Hgg].
      - intros m i Hma Hi. unfold mg_source, iso_source. rewrite <- gs_off_full with (cells := cells P) by assumption.
        cbn. ring.
      - intros m Hma. reflexivity. }
    destruct (transport_is_pass P (fun m => xs_total m g) (fun m => xs_scatter m g g) _ _ _ _ (psi g) _ Hm (Hd g Hgg) T) as (r & Er & Hr).
    assert (K := driver_keeps _ _ _ _ _ _ _ _ _ Er Hr Hg).
    intros i Hi. rewrite <- Hr by assumption. rewrite <- K. reflexivity. }
  intros i g Hi Hgg. apply H; assumption.
Qed.

(** A column that is a fixed point of one pass with the full source solves the equations. *)
Lemma fixed_is_solution P groups xs_total xs_scatter external boundary phi :
  nonzero_ordinates (angles P) (mu P) -> mg_divisors P groups xs_total ->
  (forall g, (g < groups)%nat -> exists r,
     slab_iso_pass P (fun m => xs_total m g) (fun m => xs_scatter m g g)
       (gs_off (cells P) groups phi phi (medium P) xs_scatter g)
       (slice3 external (bidx (d3c external) g)) (slice3 boundary (bidx (d3c boundary) g)) 0
       (fun i => phi i g) = Ok r /\ forall i, (i < cells P)%nat -> r i = phi i g) ->
  mg_solution P groups xs_total xs_scatter external boundary phi.
Proof.
  intros Hm Hd H.
  assert (C : forall g, exists psi, (g < groups)%nat ->
    slab_transport (cells P) (angles P) (mu P) (wt P) (dx P) (fun i => xs_total (medium P i) g)
      (mg_source (medium P) groups xs_scatter external phi g)
      (fun m => reflected_in (cells P) (angles P) (mu P) (bc_left P) (bc_right P) psi m
                + mg_boundary boundary (mu P) g m)
      psi (fun i => phi i g)).
  { intros g. destruct (lt_dec g groups) as [Hg|Hg]; [|exists (fun _ _ => 0); intros; lia].
    destruct (H g Hg) as (r & Er & Hr).
    destruct (slab_iso_pass_transport P (fun m => xs_total m g) _ _ _ _ _ _ Hm (Hd g Hg) Er) as [psi T].
    exists psi. intros _. eapply transport_phi_ext; [exact Hr|].
    eapply transport_ext; [| |exact T].
    - intros m i Hma Hi. unfold mg_source, iso_q, iso_source.
      rewrite <- gs_off_full with (cells := cells P) by assumption. cbn. ring.
    - intros; reflexivity. }
  (* choice over groups: build psi by finite recursion *)
  assert (D : forall n, exists psi : mat3, forall g, (g < n)%nat -> (g < groups)%nat ->
    slab_transport (cells P) (angles P) (mu P) (wt P) (dx P) (fun i => xs_total (medium P i) g)
      (mg_source (medium P) groups xs_scatter external phi g)
      (fun m => reflected_in (cells P) (angles P) (mu P) (bc_left P) (bc_right P) (psi g) m
                + mg_boundary boundary (mu P) g m)
      (psi g) (fun i => phi i g)).
  { induction n as [|n [psi IH]]; [exists (fun _ _ _ => 0); intros; lia|].
    destruct (C n) as [p Hp]. exists (fun g => if Nat.eqb g n then p else psi g).
    intros g Hg1 Hg2. destruct (Nat.eqb_spec g n) as [-> |]; [apply Hp; assumption|apply IH; lia]. }
  destruct (D groups) as [psi Hp]. exists psi. intros g Hg. apply Hp; assumption.
Qed.

(** Every outer iteration solves, group by group, the equations with lagged sources. *)
Lemma sweep_transport P groups xs_total xs_scatter external boundary old new g :
  mg_divisors P groups xs_total -> (g < groups)%nat ->
  one_sweep_iso P groups xs_total xs_scatter external boundary 1 old = Ok new ->
  exists last psi,
    slab_transport (cells P) (angles P) (mu P) (wt P) (dx P) (fun i => xs_total (medium P i) g)
      (fun m i => rsum groups (fun h => xs_scatter (medium P i) g h *
                    (if Nat.ltb h g then new i h else if Nat.eqb h g then last i else old i h))
                  + at3 external i (bidx (d3b external) m) (bidx (d3c external) g))
      (fun m => reflected_in (cells P) (angles P) (mu P) (bc_left P) (bc_right P) psi m
                + mg_boundary boundary (mu P) g m)
      psi (fun i => new i g).
Proof.
  intros Hd Hg E. destruct (one_sweep_groups _ _ _ _ _ _ _ _ E) as [H _]. specialize (H g Hg).
  unfold slab_group in H. destruct (driver_last_pass _ _ _ _ _ _ _ _ _ H) as [prev Ep].
  assert (Hm := pass_ok_nonzero _ _ _ _ _ _ _ _ _ Ep).
  destruct (slab_iso_pass_transport P (fun m => xs_total m g) _ _ _ _ _ _ Hm (Hd g Hg) Ep) as [psi T].
  exists prev, psi. eapply transport_ext; [| |exact T]; [|reflexivity].
  intros m i Hma Hi. unfold iso_q, iso_source, gs_off. cbn [at2 cols2 slice3].
  rewrite (proj2 (Nat.ltb_lt i (cells P))) by lia.
  assert (S := rsum_single groups (fun h => if Nat.eqb h g then xs_scatter (medium P i) g g * prev i else 0) g Hg).
  cbv beta in S. rewrite Nat.eqb_refl in S. rewrite <- S.
  2:{ intros h Hh Hne. destruct (Nat.eqb_spec h g); [lia|reflexivity]. }
  match goal with |- ?a + ?b + ?c = ?d + ?e => cut (a + c = d); [lra|] end.
  rewrite <- rsum_plus. apply rsum_ext. intros h Hh. rewrite ?Nat.eqb_refl.
  destruct (Nat.eqb_spec h g) as [-> |].
  - rewrite Nat.ltb_irrefl. ring.
  - destruct (Nat.ltb h g); ring.
Qed.

(** The stopping test of the outer loops in the words of the specification. *)
Lemma below_settled2 n k new old tol : below (rel_change2 n k new old) tol = true <-> settled2 n k new old tol.
Proof.
  rewrite below_true. unfold rel_change2, settled2.
  rewrite (rsum_ext n (fun i => rsum k (fun g => ((new i g - old i g) / new i g / INR n) ^ 2))
    (fun i => rsum k (fun g => Rsqr ((new i g - old i g) / new i g / INR n))))
    by (intros; apply rsum_ext; intros; unfold Rsqr; ring).
  destruct (has_zero2 n k new) eqn:Hz.
  - split; [intros (x & E & _); discriminate|]. intros [H _]. apply has_zero2_false in H. congruence.
  - assert (Hn := proj1 (has_zero2_false _ _ _) Hz). split; [intros (x & E & Hx); injection E as <-; split; assumption|].
    intros [_ H]. eauto.
Qed.
Lemma below_unsettled2 n k new old tol : below (rel_change2 n k new old) tol = false <-> ~ settled2 n k new old tol.
Proof. rewrite <- below_settled2. symmetry. apply not_true_iff_false. Qed.
