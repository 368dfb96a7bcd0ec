(** Multigroup: existence and uniqueness, fixed points, positivity, conservation. *)
From Coq Require Import Lra Lia FunctionalExtensionality.
From Verif Require Import Base BaseFacts Contraction SlabModel SlabSpec SlabFacts SlabFacts2
  SlabFacts3 SlabFacts4 SlabFacts5 SphereModel MgModel MgSpec MgFacts MgFacts2.
Open Scope R_scope.

(** One Jacobi step of the whole system, on vectors indexed [i * groups + g]. *)
Definition jac (P : sn) (groups : nat) (xs_total : mat2) (xs_scatter : mat3) (external boundary : arr3)
    (v : vec) : vec :=
  fun k => let g := (k mod groups)%nat in let i := (k / groups)%nat in
    pass_flux P (mg_source (medium P) groups xs_scatter external (fun i h => v (i * groups + h)%nat) g)
      (half_sig P (fun m => xs_total m g))
      (mg_boundary boundary (mu P) g) 0 (angles P) i.

Lemma flat_index groups i g : (g < groups)%nat ->
  ((i * groups + g) / groups = i)%nat /\ ((i * groups + g) mod groups = g)%nat.
Proof.
  intros H. split.
  - rewrite Nat.div_add_l by lia. rewrite Nat.div_small by lia. lia.
  - rewrite Nat.add_comm, Nat.mod_add by lia. apply Nat.mod_small. lia.
Qed.

Lemma jac_contracts P groups xs_total xs_scatter external boundary c :
  (0 < groups)%nat -> nonzero_ordinates (angles P) (mu P) ->
  mg_thin P groups xs_total ->
  (forall m, (m < angles P)%nat -> 0 <= wt P m) -> 0 <= c ->
  mg_ratio P groups xs_total xs_scatter c ->
  forall u v d, 0 <= d -> near (cells P * groups) d u v ->
  near (cells P * groups) (rsum (angles P) (wt P) * c * d)
    (jac P groups xs_total xs_scatter external boundary u) (jac P groups xs_total xs_scatter external boundary v).
Proof.
  intros Hg Hnz Hthin Hw Hc Hrat u v d Hd Huv k Hk. unfold jac.
  assert (Hg1 : (k mod groups < groups)%nat) by (apply Nat.mod_upper_bound; lia).
  assert (Hi1 : (k / groups < cells P)%nat) by (apply Nat.div_lt_upper_bound; lia).
  set (g := (k mod groups)%nat) in *. set (i := (k / groups)%nat) in *.
  rewrite Rmult_assoc. apply pass_flux_perturb; try assumption; [apply Rmult_le_pos; assumption|].
  intros m j Hm Hj. split; [|apply thin_half; [apply Hthin| |]; assumption].
  unfold mg_source, half_sig.
  match goal with |- Rabs ?x <= _ => replace x with
    (rsum groups (fun h => xs_scatter (medium P j) g h * (u (j * groups + h)%nat - v (j * groups + h)%nat))) end.
  2:{ rewrite <- (Rplus_0_r (rsum _ _)). rewrite (rsum_ext groups _ (fun h => xs_scatter (medium P j) g h * u (j * groups + h)%nat
         - xs_scatter (medium P j) g h * v (j * groups + h)%nat)) by (intros; ring).
      rewrite rsum_minus. ring. }
  replace (2 * (0.5 * xs_total (medium P j) g) * (c * d)) with ((c * xs_total (medium P j) g) * d) by lra.
  eapply Rle_trans; [|apply Rmult_le_compat_r; [exact Hd|apply Hrat; assumption]].
  rewrite <- rsum_scal_r. apply rsum_abs_le. intros h Hh. rewrite Rabs_mult.
  apply Rmult_le_compat_l; [apply Rabs_pos|]. apply Huv. nia.
Qed.

Lemma jac_fixed_solution P groups xs_total xs_scatter external boundary v :
  (0 < groups)%nat -> nonzero_ordinates (angles P) (mu P) -> mg_divisors P groups xs_total ->
  (forall k, (k < cells P * groups)%nat -> jac P groups xs_total xs_scatter external boundary v k = v k) ->
  mg_solution P groups xs_total xs_scatter external boundary (fun i h => v (i * groups + h)%nat).
Proof.
  intros Hg Hnz Hd Hv. apply fixed_is_solution; try assumption. intros g Hgg.
  rewrite slab_iso_pass_ok by assumption. eexists; split; [reflexivity|].
  intros i Hi. rewrite <- (Hv (i * groups + g)%nat) by nia. unfold jac.
  destruct (flat_index groups i g Hgg) as [-> ->].
  match goal with |- ?f i = ?h i => replace f with h; [reflexivity|] end.
  apply pass_flux_ext; [|intros; reflexivity].
  intros m j Hm Hj. unfold mg_source, iso_q, iso_source.
  rewrite <- (gs_off_full (cells P) groups (fun i h => v (i * groups + h)%nat)) by assumption. cbn. ring.
Qed.

Lemma solution_jac P groups xs_total xs_scatter external boundary phi :
  (0 < groups)%nat -> nonzero_ordinates (angles P) (mu P) -> mg_divisors P groups xs_total ->
  mg_solution P groups xs_total xs_scatter external boundary phi ->
  let v := fun k => phi (k / groups)%nat (k mod groups)%nat in
  forall k, (k < cells P * groups)%nat -> jac P groups xs_total xs_scatter external boundary v k = v k.
Proof.
  intros Hg Hnz Hd [psi Hs] v k Hk. unfold jac.
  assert (Hg1 : (k mod groups < groups)%nat) by (apply Nat.mod_upper_bound; lia).
  assert (Hi1 : (k / groups < cells P)%nat) by (apply Nat.div_lt_upper_bound; lia).
  unfold v at 2. set (g := (k mod groups)%nat) in *. set (i := (k / groups)%nat) in *.
  specialize (Hs g Hg1).
  assert (T : slab_transport (cells P) (angles P) (mu P) (wt P) (dx P) (fun i => xs_total (medium P i) g)
      (iso_source (medium P) zeros (fun j => rsum groups (fun h => xs_scatter (medium P j) g h * phi j h))
         (slice3 external (bidx (d3c external) g)) zeros)
      (fun m => reflected_in (cells P) (angles P) (mu P) (bc_left P) (bc_right P) (psi g) m
                + boundary_in (slice3 boundary (bidx (d3c boundary) g)) (mu P) m)
      (psi g) (fun i => phi i g)).
  { eapply transport_ext; [| |exact Hs]; [|reflexivity].
    intros m j Hm Hj. unfold mg_source, iso_source, zeros. cbn. ring. }
  destruct (transport_is_pass P (fun m => xs_total m g) zeros _ _ _ _ (psi g) _ Hnz (Hd g Hg1) T) as (r & Er & Hr).
  rewrite slab_iso_pass_ok in Er by assumption. injection Er as <-. rewrite <- Hr by assumption.
  match goal with |- ?f i = ?h i => replace f with h; [reflexivity|] end.
  apply pass_flux_ext; [|intros; reflexivity].
  intros m j Hm Hj. unfold mg_source, iso_q, iso_source, zeros.
  rewrite (rsum_ext groups (fun h => xs_scatter (medium P j) g h * v (j * groups + h)%nat)
    (fun h => xs_scatter (medium P j) g h * phi j h)).
  - cbn. ring.
  - intros h Hh. unfold v. destruct (flat_index groups j h Hh) as [-> ->]. reflexivity.
Qed.

(** The multigroup problem has exactly one solution. *)
Lemma mg_unique_solution P groups xs_total xs_scatter external boundary c :
  nonzero_ordinates (angles P) (mu P) -> mg_thin P groups xs_total ->
  (forall m, (m < angles P)%nat -> 0 <= wt P m) -> 0 <= c ->
  rsum (angles P) (wt P) * c < 1 ->
  mg_ratio P groups xs_total xs_scatter c ->
  exists sol, mg_solution P groups xs_total xs_scatter external boundary sol /\
    forall other, mg_solution P groups xs_total xs_scatter external boundary other ->
      agree2 (cells P) groups other sol.
Proof.
  intros Hnz Hthin Hw Hc Hrho Hrat.
  destruct (Nat.eq_dec groups 0) as [-> |Hg0].
  { exists zeros2. split; [exists (fun _ _ _ => 0); intros g Hg; lia|intros other _ i g Hi Hg; lia]. }
  assert (Hg : (0 < groups)%nat) by lia.
  assert (Hdiv : mg_divisors P groups xs_total) by (intros g Hgg; apply thin_divisors; [exact Hnz|apply Hthin; exact Hgg]).
  assert (HW : 0 <= rsum (angles P) (wt P)) by (apply rsum_nonneg; exact Hw).
  assert (Hr : 0 <= rsum (angles P) (wt P) * c < 1) by (split; [apply Rmult_le_pos; assumption|assumption]).
  assert (HT := jac_contracts P groups xs_total xs_scatter external boundary c Hg Hnz Hthin Hw Hc Hrat).
  destruct (banach_exists (cells P * groups) _ _ Hr HT zeros) as [v Hv].
  exists (fun i h => v (i * groups + h)%nat). split; [apply jac_fixed_solution; assumption|].
  intros other Ho i g Hi Hgg.
  assert (Hf := solution_jac _ _ _ _ _ _ _ Hg Hnz Hdiv Ho). cbv zeta in Hf.
  assert (U := unique_fixed (cells P * groups) _ _ Hr HT _ _ Hf Hv (i * groups + g)%nat ltac:(nia)).
  cbv beta in U. destruct (flat_index groups i g Hgg) as [E1 E2]. rewrite E1, E2 in U. exact U.
Qed.

(** A fixed point of the outer iteration solves the multigroup equations. *)
Lemma fixed_point_solution P groups xs_total xs_scatter external boundary c phi new :
  nonzero_ordinates (angles P) (mu P) -> mg_thin P groups xs_total ->
  (forall m, (m < angles P)%nat -> 0 <= wt P m) -> 0 <= c ->
  rsum (angles P) (wt P) * c < 1 ->
  mg_ratio P groups xs_total xs_scatter c ->
  one_sweep_iso P groups xs_total xs_scatter external boundary 1 phi = Ok new ->
  agree2 (cells P) groups new phi ->
  mg_solution P groups xs_total xs_scatter external boundary phi.
Proof.
  intros Hnz Hthin Hw Hc Hrho Hrat E Hfix.
  destruct (mg_unique_solution P groups xs_total xs_scatter external boundary c Hnz Hthin Hw Hc Hrho Hrat) as (sol & Hsol & _).
  set (rho := rsum (angles P) (wt P) * c) in *.
  assert (HW : 0 <= rsum (angles P) (wt P)) by (apply rsum_nonneg; exact Hw).
  assert (Hr : 0 <= rho) by (apply Rmult_le_pos; assumption).
  assert (A : agree2 (cells P) groups phi sol).
  { set (e := rsum (cells P) (fun i => rsum groups (fun g => Rabs (phi i g - sol i g)))).
    assert (He : 0 <= e) by (apply rsum_nonneg; intros; apply rsum_nonneg; intros; apply Rabs_pos).
    assert (Hin : within2 (cells P) groups e phi sol).
    { intros i g Hi Hg. unfold e.
      eapply Rle_trans; [|apply (rsum_term_le (cells P) (fun i => rsum groups (fun g => Rabs (phi i g - sol i g))) i);
        [intros; apply rsum_nonneg; intros; apply Rabs_pos|exact Hi]].
      apply (rsum_term_le groups (fun g => Rabs (phi i g - sol i g)) g); [intros; apply Rabs_pos|exact Hg]. }
    assert (G : forall d, 0 <= d -> within2 (cells P) groups d phi sol -> within2 (cells P) groups (rho * d) phi sol).
    { intros d Hd H i g Hi Hg. rewrite <- (Hfix i g Hi Hg).
      eapply (sweep_contracts P groups xs_total xs_scatter external boundary c phi new sol d); eassumption. }
    assert (Gk : forall k, within2 (cells P) groups (rho ^ k * e) phi sol).
    { induction k as [|k IH]; [simpl; rewrite Rmult_1_l; exact Hin|].
      cbn [pow]. rewrite Rmult_assoc. apply G; [|exact IH]. apply Rmult_le_pos; [apply pow_le; lra|exact He]. }
    intros i g Hi Hg. destruct (Req_dec (phi i g) (sol i g)) as [Heq|Hne]; [exact Heq|exfalso].
    assert (Hgap : 0 < Rabs (phi i g - sol i g)) by (apply Rabs_pos_lt; lra).
    destruct (pow_lt_1_zero rho ltac:(rewrite Rabs_right; lra) (Rabs (phi i g - sol i g) / (e + 1))
                ltac:(apply Rdiv_lt_0_compat; lra)) as [N HN].
    specialize (HN N ltac:(lia)). specialize (Gk N i g Hi Hg).
    rewrite Rabs_right in HN by (apply Rle_ge, pow_le; lra).
    assert (rho ^ N * (e + 1) < Rabs (phi i g - sol i g)).
    { apply (Rmult_lt_compat_r (e + 1)) in HN; [|lra].
      replace (Rabs (phi i g - sol i g) / (e + 1) * (e + 1)) with (Rabs (phi i g - sol i g)) in HN by (field; lra). exact HN. }
    assert (0 <= rho ^ N) by (apply pow_le; lra). nra. }
  destruct Hsol as [psi Hs]. exists psi. intros g Hg. specialize (Hs g Hg).
  eapply transport_phi_ext; [intros i Hi; symmetry; apply A; assumption|].
  eapply transport_ext; [| |exact Hs]; [|reflexivity].
  intros m i Hm Hi. unfold mg_source. f_equal. apply rsum_ext. intros h Hh. rewrite A by assumption. reflexivity.
Qed.

(** Without any contraction: if in addition a single inner pass already reproduces each column. *)
Lemma solution_driver P groups xs_total xs_scatter external boundary phi :
  nonzero_ordinates (angles P) (mu P) -> mg_divisors P groups xs_total ->
  mg_solution P groups xs_total xs_scatter external boundary phi ->
  exists flux, source_iteration_iso P groups phi xs_total xs_scatter external boundary 1 = Ok flux /\
    agree2 (cells P) groups flux phi.
Proof.
  intros Hnz Hd Hs.
  assert (Hnf : forall x, one_sweep_iso P groups xs_total xs_scatter external boundary 1 x <> Raise OutOfFuel).
  { intros x. destruct (one_sweep_total P groups xs_total xs_scatter external boundary x Hnz) as [y ->]. discriminate. }
  assert (K : forall fuel count x, (count_gg - count < fuel)%nat -> agree2 (cells P) groups x phi ->
    exists flux, iterate fuel (one_sweep_iso P groups xs_total xs_scatter external boundary 1)
      (rel_change2 (cells P) groups) change_gg count_gg count x = Ok flux /\ agree2 (cells P) groups flux phi).
  { induction fuel as [|fuel IH]; intros count x Hf Hx; [lia|]. cbn [iterate].
    destruct (one_sweep_total P groups xs_total xs_scatter external boundary x Hnz) as [y Ey]. rewrite Ey. cbn [bind].
    assert (Hy : agree2 (cells P) groups y phi).
    { assert (Hsx : mg_solution P groups xs_total xs_scatter external boundary x).
      { destruct Hs as [psi Hp]. exists psi. intros g Hg. specialize (Hp g Hg).
        eapply transport_phi_ext; [intros i Hi; symmetry; apply Hx; assumption|].
        eapply transport_ext; [| |exact Hp]; [|reflexivity].
        intros m i Hm Hi. unfold mg_source. f_equal. apply rsum_ext. intros h Hh. rewrite Hx by assumption. reflexivity. }
      intros i g Hi Hg. rewrite (solution_sweep P groups xs_total xs_scatter external boundary x y Hnz Hd Hsx Ey i g Hi Hg). apply Hx; assumption. }
    destruct (below _ _); cbn [orb]; [eauto|].
    destruct (Nat.leb_spec count_gg count); [eauto|]. apply IH; [lia|exact Hy]. }
  apply K; [unfold count_gg; lia|]. intros i g _ _. reflexivity.
Qed.

(** Positivity of the multigroup iteration. *)
Lemma outer_nonneg P groups xs_total xs_scatter external boundary old flux :
  nonzero_ordinates (angles P) (mu P) ->
  mg_thin P groups xs_total ->
  (forall m, (m < angles P)%nat -> 0 <= wt P m) ->
  (forall i g h, (i < cells P)%nat -> (g < groups)%nat -> (h < groups)%nat -> 0 <= xs_scatter (medium P i) g h) ->
  (forall m i g, (m < angles P)%nat -> (i < cells P)%nat -> (g < groups)%nat ->
      0 <= at3 external i (bidx (d3b external) m) (bidx (d3c external) g)) ->
  (forall m g, (m < angles P)%nat -> (g < groups)%nat -> 0 <= mg_boundary boundary (mu P) g m) ->
  (forall i g, (i < cells P)%nat -> (g < groups)%nat -> 0 <= old i g) ->
  source_iteration_iso P groups old xs_total xs_scatter external boundary 1 = Ok flux ->
  forall i g, (i < cells P)%nat -> (g < groups)%nat -> 0 <= flux i g.
Proof.
  intros Hnz Hthin Hw Hs He Hb Ho E.
  assert (Hcap : (1 <= count_gg)%nat) by (unfold count_gg; lia).
  destruct (outer_trace _ _ _ _ _ _ _ Hcap E) as (n & x & Hn & H0 & -> & Hstep & _).
  assert (K : forall k, (k <= n)%nat -> forall i g, (i < cells P)%nat -> (g < groups)%nat -> 0 <= x k i g).
  { induction k as [|k IH]; intros Hk; [rewrite H0; exact Ho|].
    destruct (one_sweep_groups _ _ _ _ _ _ _ _ (Hstep k ltac:(lia))) as [Hg _].
    assert (G : forall g, (g < groups)%nat -> forall i, (i < cells P)%nat -> 0 <= x (S k) i g).
    { intros g. induction g as [g IHg] using (well_founded_induction lt_wf). intros Hgg.
      specialize (Hg g Hgg). unfold slab_group in Hg.
      destruct (Nat.eq_dec (angles P) 0) as [Ha|Ha].
      - destruct (driver_last_pass _ _ _ _ _ _ _ _ _ Hg) as [prev Ep].
        rewrite slab_iso_pass_ok in Ep by assumption. injection Ep as Ep. intros i Hi.
        apply (f_equal (fun f => f i)) in Ep. rewrite Ha in Ep. cbn in Ep. rewrite <- Ep. lra.
      - eapply (driver_nonneg P (fun m => xs_total m g) (fun m => xs_scatter m g g)); [exact Hnz|exact Hw| | | |exact Hg].
        + intros i Hi. destruct (Hthin g Hgg 0%nat i ltac:(lia) Hi) as (A & B & _).
          repeat split; [exact A|exact B|apply Hs; assumption| |apply IH; [lia|assumption|assumption]].
          unfold gs_off. rewrite (proj2 (Nat.ltb_lt i (cells P))) by lia.
          apply rsum_nonneg. intros h Hh. destruct (Nat.eqb_spec h g); [lra|].
          apply Rmult_le_pos; [apply Hs; assumption|].
          destruct (Nat.ltb_spec h g); [apply IHg; assumption|apply IH; [lia|assumption|assumption]].
        + intros m i Hm Hi. destruct (Hthin g Hgg m i Hm Hi) as (_ & _ & C). split; [exact C|].
          apply He; assumption.
        + intros m Hm. apply (Hb m g Hm Hgg). }
    intros i g Hi Hgg. apply G; assumption. }
  apply (K n). lia.
Qed.

(** Particle balance of a multigroup solution: over all groups, leakage plus removal equals source. *)
Lemma mg_balance P groups xs_total xs_scatter external boundary psi phi :
  (forall i, (i < cells P)%nat -> dx P i <> 0) ->
  mg_transport P groups xs_total xs_scatter external boundary psi phi ->
  rsum groups (fun g => total_leakage (cells P) (angles P) (mu P) (wt P) (psi g))
  + rsum (cells P) (fun i => dx P i * rsum groups (fun g =>
      (xs_total (medium P i) g
       - rsum (angles P) (wt P) * rsum groups (fun o => xs_scatter (medium P i) o g)) * phi i g))
  = rsum groups (fun g => rsum (cells P) (fun i => dx P i *
      rsum (angles P) (fun m => wt P m * at3 external i (bidx (d3b external) m) (bidx (d3c external) g)))).
Proof.
  intros Hdx HT.
  set (W := rsum (angles P) (wt P)).
  assert (E : rsum groups (fun g => total_leakage (cells P) (angles P) (mu P) (wt P) (psi g)
      + rsum (cells P) (fun i => dx P i * xs_total (medium P i) g * phi i g))
    = rsum groups (fun g => rsum (cells P) (fun i => dx P i * (W * rsum groups (fun h => xs_scatter (medium P i) g h * phi i h)))
      + rsum (cells P) (fun i => dx P i *
      rsum (angles P) (fun m => wt P m * at3 external i (bidx (d3b external) m) (bidx (d3c external) g))))).
  { apply rsum_ext. intros g Hg. rewrite (transport_conservation _ _ _ _ _ _ _ _ _ _ Hdx (HT g Hg)).
    rewrite <- rsum_plus. apply rsum_ext. intros i Hi. rewrite <- Rmult_plus_distr_l. f_equal.
    unfold mg_source, W. rewrite <- rsum_scal_r. rewrite <- rsum_plus. apply rsum_ext. intros m Hm. ring. }
  rewrite !rsum_plus in E. 
  assert (E1 : rsum groups (fun g => rsum (cells P) (fun i => dx P i * xs_total (medium P i) g * phi i g))
             = rsum (cells P) (fun i => dx P i * rsum groups (fun g => xs_total (medium P i) g * phi i g))).
  { rewrite rsum_swap. apply rsum_ext. intros i Hi. rewrite <- rsum_scal. apply rsum_ext. intros; ring. }
  assert (E2 : rsum groups (fun g => rsum (cells P) (fun i => dx P i * (W * rsum groups (fun h => xs_scatter (medium P i) g h * phi i h))))
             = rsum (cells P) (fun i => dx P i * rsum groups (fun g => W * rsum groups (fun o => xs_scatter (medium P i) o g) * phi i g))).
  { rewrite rsum_swap. apply rsum_ext. intros i Hi. rewrite rsum_scal. f_equal. rewrite rsum_scal.
    rewrite rsum_swap. rewrite <- rsum_scal. apply rsum_ext. intros h Hh. rewrite rsum_scal_r. ring. }
  rewrite E1, E2 in E.
  assert (E3 : rsum (cells P) (fun i => dx P i * rsum groups (fun g =>
      (xs_total (medium P i) g - W * rsum groups (fun o => xs_scatter (medium P i) o g)) * phi i g))
    = rsum (cells P) (fun i => dx P i * rsum groups (fun g => xs_total (medium P i) g * phi i g))
      - rsum (cells P) (fun i => dx P i * rsum groups (fun g => W * rsum groups (fun o => xs_scatter (medium P i) o g) * phi i g))).
  { rewrite <- rsum_minus. apply rsum_ext. intros i Hi. rewrite <- Rmult_minus_distr_l. f_equal.
    rewrite <- rsum_minus. apply rsum_ext. intros; ring. }
  rewrite E3. lra.
Qed.
