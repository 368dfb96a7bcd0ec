(** The anisotropic problem has exactly one solution. *)
From Coq Require Import Lra Lia Psatz.
From Verif Require Import Base BaseFacts SlabModel SlabSpec SlabFacts SlabFacts2 SlabFacts3 SlabFacts4 SlabFacts5 MgModel MgSpec MgFacts MgFacts3 MgFacts7
  TimeModel TimeSpec EnSpec EnFacts EnFacts2 EnFacts4 EnFacts6 InfSpec AniSpec AniFacts AniFacts2 AniFacts3.
Open Scope R_scope.

Lemma transport_psi P xs_total q b psi phi :
  nonzero_ordinates (angles P) (mu P) -> good_divisors P xs_total ->
  slab_transport (cells P) (angles P) (mu P) (wt P) (dx P) (fun i => xs_total (medium P i)) q
    (fun m => reflected_in (cells P) (angles P) (mu P) (bc_left P) (bc_right P) psi m + b m) psi phi ->
  forall m k, (m < angles P)%nat -> (k <= cells P)%nat -> psi m k = Psi P q (half_sig P xs_total) b m k.
Proof.
  intros Hm Hd (Hb & Hin & _). set (s := half_sig P xs_total).
  intros m. induction m as [m IH] using (well_founded_induction Wf_nat.lt_wf). intros k Hma. revert k.
  assert (Ein : psi m (inflow_edge (cells P) (mu P m)) = Psi P q s b m (inflow_edge (cells P) (mu P m))).
  { rewrite Psi_inflow, inflow_at_spec by assumption. rewrite Hin by assumption. f_equal.
    unfold reflected_in. destruct (Nat.ltb_spec (angles P - m - 1) m) as [Hl|Hl]; cbn [andb]; [|reflexivity].
    destruct (leaves_reflective _ _ _ _); [|reflexivity].
    apply IH; [exact Hl|lia|]. unfold outflow_edge. destruct (Rlt_dec _ _); lia. }
  assert (Bp : dd_balance (cells P) (mu P m) (dx P) (fun i => xs_total (medium P i)) (q m) (Psi P q s b m)).
  { apply Psi_balance; [reflexivity|exact (Hm m Hma)|exact (Hd m Hma)]. }
  unfold inflow_edge in Ein. destruct (Rlt_dec 0 (mu P m)) as [Hp|Hp].
  - eapply dd_unique_fwd; [apply divisors_fwd; [exact Hp|exact (Hd m Hma)]|apply Hb; assumption|exact Bp|exact Ein].
  - assert (Hneg : mu P m < 0) by (specialize (Hm m Hma); lra).
    eapply dd_unique_bwd; [apply divisors_bwd; [exact Hneg|exact (Hd m Hma)]|apply Hb; assumption|exact Bp|exact Ein].
Qed.
Lemma psi_transport P xs_total q b :
  nonzero_ordinates (angles P) (mu P) -> good_divisors P xs_total ->
  let psi := Psi P q (half_sig P xs_total) b in
  slab_transport (cells P) (angles P) (mu P) (wt P) (dx P) (fun i => xs_total (medium P i)) q
    (fun m => reflected_in (cells P) (angles P) (mu P) (bc_left P) (bc_right P) psi m + b m) psi (fun i => edge_moment P psi i 0%nat).
Proof.
  intros Hm Hd psi. split; [|split].
  - intros m Hma. apply Psi_balance; [reflexivity|exact (Hm m Hma)|exact (Hd m Hma)].
  - intros m Hma. unfold psi. rewrite Psi_inflow. apply inflow_at_spec. exact Hma.
  - intros i Hi. apply rsum_ext. intros m Hma. rewrite legendre_0. ring.
Qed.

Section Aniso.
Variables (P : sn) (groups nm : nat) (xs_total : mat2) (xs : mat4) (c : R).
Hypothesis HP : sound_slab P.
Hypothesis Hn : (0 < nm)%nat.
Hypothesis HX : exact_products P nm.
Hypothesis Ht : forall i h, (i < cells P)%nat -> (h < groups)%nat -> 0 <= xs_total (medium P i) h.
Hypothesis Hc : 0 <= c < 1.
Hypothesis HK : aniso_coupled P groups nm xs_total xs c.
Let N h f := moment_norm P nm (fun m => xs_total m h) f.
Let Hnz : nonzero_ordinates (angles P) (mu P) := proj1 (proj2 (proj2 HP)).

Lemma aniso_divisors : mg_divisors P groups xs_total.
Proof. apply sound_divisors; assumption. Qed.

(** two solutions have the same angular fluxes *)
Lemma aniso_unique external boundary psi phi psi' phi' :
  aniso_transport P groups nm xs_total xs external boundary psi phi -> aniso_transport P groups nm xs_total xs external boundary psi' phi' ->
  forall g m k, (g < groups)%nat -> (m < angles P)%nat -> (k <= cells P)%nat -> psi g m k = psi' g m k.
Proof.
  intros H H'. set (e := fun i h l => edge_moment P (psi h) i l - edge_moment P (psi' h) i l).
  assert (Z : forall h, (h < groups)%nat -> N h (fun i l => e i h l) = 0).
  { apply (shrink groups nm c Hn Hc (fun h => N h (fun i l => e i h l)) (rsum groups (fun h => N h (fun i l => e i h l)))).
    - apply rsum_nonneg. intros; apply sqrt_pos.
    - intros; apply sqrt_pos.
    - intros g Hg. apply (rsum_term_le groups (fun h => N h (fun i l => e i h l)) g); [intros; apply sqrt_pos|exact Hg].
    - intros d Hd Hb g Hg.
      pose proof (aniso_contracts P groups nm xs_total xs c HP HX Ht HK g e _ _ d Hg Hd Hb (aniso_difference P groups nm xs_total xs Hn external boundary psi phi psi' phi' g H H' Hg)) as B.
      unfold N in *. rewrite (moment_ext P nm (fun m => xs_total m g) (fun i l => e i g l) (edge_moment P (fun m k => psi g m k - psi' g m k))); [exact B|].
      intros i l _ _. unfold e. rewrite edge_moment_minus. reflexivity. }
  intros g m k Hg Hm Hk.
  pose proof (moments_agree_null P groups nm xs_total xs c HP Ht HK e Z) as Nu.
  assert (T : slab_transport (cells P) (angles P) (mu P) (wt P) (dx P) (fun i => xs_total (medium P i) g) (fun _ _ => 0)
     (fun m => reflected_in (cells P) (angles P) (mu P) (bc_left P) (bc_right P) (fun m k => psi g m k - psi' g m k) m + (fun _ => 0) m)
     (fun m k => psi g m k - psi' g m k) (fun i => phi i g - phi' i g)).
  { eapply transport_ext; [| |exact (aniso_difference P groups nm xs_total xs Hn external boundary psi phi psi' phi' g H H' Hg)].
    - intros m' i Hm' Hi. cbv beta. apply rsum_zero_ext. intros l Hl. fold e. rewrite (Nu g i l Hg Hi Hl). ring.
    - intros m' Hm'. cbv beta. ring. }
  pose proof (transport_psi P (fun m => xs_total m g) _ _ _ _ Hnz (aniso_divisors g Hg) T m k Hm Hk) as E.
  pose proof (Psi_linear P (fun _ _ => 0) (fun _ _ => 0) (half_sig P (fun m => xs_total m g)) (fun _ => 0) (fun _ => 0) 0 0 m k) as L.
  rewrite (Psi_ext P (fun _ _ => 0 * 0 + 0 * 0) (fun _ _ => 0) _ (fun _ => 0 * 0 + 0 * 0) (fun _ => 0)) in L by (try assumption; intros; ring).
  rewrite L in E. lra.
Qed.

(** *** existence *)
Definition qsrc (external : arr3) (e : mat3) (g : nat) : mat2 :=
  fun m i => rsum nm (fun l => src P groups xs g e i l * legendre l (mu P m)) + at3 external i (bidx (d3b external) m) (bidx (d3c external) g).
Definition sweep_psi (external boundary : arr3) (e : mat3) (g : nat) : mat2 :=
  Psi P (qsrc external e g) (half_sig P (fun m => xs_total m g)) (mg_boundary boundary (mu P) g).
Definition sweep_moments (external boundary : arr3) (e : mat3) : mat3 := fun i g l => edge_moment P (sweep_psi external boundary e g) i l.

Lemma sweep_moments_ext external boundary e e' :
  (forall i h l, (i < cells P)%nat -> (h < groups)%nat -> (l < nm)%nat -> e i h l = e' i h l) ->
  forall i g l, (i < cells P)%nat -> (g < groups)%nat -> sweep_moments external boundary e i g l = sweep_moments external boundary e' i g l.
Proof.
  intros H i g l Hi Hg. unfold sweep_moments, edge_moment, sweep_psi.
  assert (Q : forall m j, (m < angles P)%nat -> (j < cells P)%nat -> qsrc external e g m j = qsrc external e' g m j).
  { intros m j Hm Hj. unfold qsrc. f_equal. apply rsum_ext. intros k Hk. f_equal. unfold src. apply rsum_ext. intros h Hh. rewrite H by assumption. reflexivity. }
  apply rsum_ext. intros m Hm. do 2 f_equal. f_equal; apply Psi_ext; try assumption; try lia; reflexivity.
Qed.
Lemma sweep_moments_linear a b e e' i g l :
  sweep_moments silent silent (fun i h l => a * e i h l + b * e' i h l) i g l
  = a * sweep_moments silent silent e i g l + b * sweep_moments silent silent e' i g l.
Proof.
  unfold sweep_moments, edge_moment. rewrite <- !rsum_scal, <- rsum_plus. apply rsum_ext. intros m Hm.
  assert (L : forall k, sweep_psi silent silent (fun i h l => a * e i h l + b * e' i h l) g m k = a * sweep_psi silent silent e g m k + b * sweep_psi silent silent e' g m k).
  { intros k. unfold sweep_psi. rewrite <- Psi_linear. f_equal.
    - apply FunctionalExtensionality.functional_extensionality; intros m'. apply FunctionalExtensionality.functional_extensionality; intros j.
      unfold qsrc, silent; cbn [at3]. rewrite !Rplus_0_r, <- !rsum_scal, <- rsum_plus. apply rsum_ext. intros k' Hk'.
      unfold src. rewrite (rsum_ext groups _ (fun h => a * (coef xs g h (medium P j) k' * e j h k') + b * (coef xs g h (medium P j) k' * e' j h k'))) by (intros; ring).
      rewrite rsum_plus, !rsum_scal. ring.
    - apply FunctionalExtensionality.functional_extensionality; intros m'. unfold mg_boundary, silent; cbn [at3]. ring. }
  rewrite !L. lra.
Qed.
Lemma sweep_moments_affine external boundary e i g l :
  sweep_moments external boundary e i g l = sweep_moments external boundary (fun _ _ _ => 0) i g l + sweep_moments silent silent e i g l.
Proof.
  unfold sweep_moments, edge_moment. rewrite <- rsum_plus. apply rsum_ext. intros m Hm.
  assert (L : forall k, sweep_psi external boundary e g m k = sweep_psi external boundary (fun _ _ _ => 0) g m k + sweep_psi silent silent e g m k).
  { intros k. unfold sweep_psi. rewrite <- (Rmult_1_l (Psi P (qsrc external (fun _ _ _ => 0) g) _ _ _ _)), <- (Rmult_1_l (Psi P (qsrc silent e g) _ _ _ _)), <- Psi_linear. f_equal.
    - apply FunctionalExtensionality.functional_extensionality; intros m'. apply FunctionalExtensionality.functional_extensionality; intros j.
      unfold qsrc, silent; cbn [at3]. rewrite (rsum_zero_ext nm (fun l => src P groups xs g (fun _ _ _ => 0) j l * legendre l (mu P m'))); [ring|].
      intros k' Hk'. unfold src. rewrite rsum_zero_ext by (intros; ring). ring.
    - apply FunctionalExtensionality.functional_extensionality; intros m'. unfold mg_boundary, silent; cbn [at3]. ring. }
  rewrite !L. lra.
Qed.
(** a fixed table of moments is a solution *)
Lemma fixed_solution external boundary e :
  (forall i g l, (i < cells P)%nat -> (g < groups)%nat -> (l < nm)%nat -> sweep_moments external boundary e i g l = e i g l) ->
  aniso_transport P groups nm xs_total xs external boundary (sweep_psi external boundary e) (fun i g => edge_moment P (sweep_psi external boundary e g) i 0%nat).
Proof.
  intros F g Hg. pose proof (psi_transport P (fun m => xs_total m g) (qsrc external e g) (mg_boundary boundary (mu P) g) Hnz (aniso_divisors g Hg)) as T. cbv zeta in T.
  fold (sweep_psi external boundary e g) in T. eapply transport_ext; [| |exact T]; [|reflexivity].
  intros m i Hm Hi. unfold qsrc, aniso_emission. rewrite src_emission by assumption. f_equal. f_equal.
  - apply rsum_ext. intros h Hh. destruct (Nat.eqb h g); [reflexivity|]. rewrite <- (F i h 0%nat Hi Hh Hn). reflexivity.
  - apply rsum_ext. intros l Hl. rewrite <- (F i g l Hi Hg Hl). reflexivity.
Qed.

Definition at_flat (v : vec) : mat3 := fun i g l => v ((i * groups + g) * nm + l)%nat.
Lemma flat3 i g l : (g < groups)%nat -> (l < nm)%nat -> (i < cells P)%nat ->
  let k := ((i * groups + g) * nm + l)%nat in (k < cells P * groups * nm)%nat /\ (k / nm / groups = i)%nat /\ ((k / nm) mod groups = g)%nat /\ (k mod nm = l)%nat.
Proof.
  intros Hg Hl Hi k. destruct (flat_index nm (i * groups + g) l Hl) as [A B]. destruct (flat_index groups i g Hg) as [C D]. unfold k. rewrite A, B. split; [|auto].
  assert (i * groups + g < cells P * groups)%nat by nia. nia.
Qed.
Lemma unflat k : (k < cells P * groups * nm)%nat -> (k / nm / groups < cells P)%nat /\ ((k / nm) mod groups < groups)%nat /\ (k mod nm < nm)%nat /\
  k = ((k / nm / groups * groups + (k / nm) mod groups) * nm + k mod nm)%nat.
Proof.
  intros Hk. assert (Hg : groups <> 0%nat) by (intros ->; rewrite Nat.mul_0_r in Hk; cbn in Hk; lia).
  assert (A : (k / nm < cells P * groups)%nat) by (apply Nat.div_lt_upper_bound; lia).
  split; [apply Nat.div_lt_upper_bound; lia|]. split; [apply Nat.mod_upper_bound; exact Hg|]. split; [apply Nat.mod_upper_bound; lia|].
  pose proof (Nat.div_mod (k / nm) groups Hg) as E1. pose proof (Nat.div_mod k nm ltac:(lia)) as E2.
  rewrite (Nat.mul_comm (k / nm / groups)), <- E1, (Nat.mul_comm (k / nm)). exact E2.
Qed.

Lemma aniso_exists external boundary : exists psi phi, aniso_transport P groups nm xs_total xs external boundary psi phi.
Proof.
  set (J := fun ext bnd (v : vec) (k : nat) => sweep_moments ext bnd (at_flat v) (k / nm / groups)%nat ((k / nm) mod groups)%nat (k mod nm)%nat).
  destruct (operator_surjective (cells P * groups * nm) (fun v k => v k - J silent silent v k)) with (b := J external boundary (fun _ => 0)) as (v & Hv).
  - intros x y H k Hk. rewrite (H k Hk). f_equal. unfold J. destruct (unflat k Hk) as (U1 & U2 & U3 & _). apply sweep_moments_ext; try assumption.
    intros i h l Hi Hh Hl. unfold at_flat. apply H. apply flat3; assumption.
  - intros a b x y k Hk. unfold J. change (at_flat (fun k0 => a * x k0 + b * y k0)) with (fun i h l => a * at_flat x i h l + b * at_flat y i h l).
    rewrite sweep_moments_linear. ring.
  - intros x H.
    assert (F : forall i g l, (i < cells P)%nat -> (g < groups)%nat -> (l < nm)%nat -> sweep_moments silent silent (at_flat x) i g l = at_flat x i g l).
    { intros i g l Hi Hg Hl. destruct (flat3 i g l Hg Hl Hi) as (K & A & B & C). specialize (H _ K). unfold J in H. rewrite A, B, C in H. unfold at_flat at 2. lra. }
    pose proof (fixed_solution silent silent (at_flat x) F) as S1.
    assert (S0 : aniso_transport P groups nm xs_total xs silent silent (fun _ _ _ => 0) (fun _ _ => 0)).
    { intros g Hg. split; [|split].
      - intros m Hm i Hi. unfold aniso_emission, silent; cbn [at3]. rewrite (rsum_zero_ext groups) by (intros h Hh; destruct (Nat.eqb h g); ring).
        rewrite (rsum_zero_ext nm); [unfold Rdiv; ring|]. intros l Hl. unfold edge_moment. rewrite (rsum_zero_ext (angles P)) by (intros; lra). ring.
      - intros m Hm. rewrite reflected_zero. unfold mg_boundary, silent; cbn [at3]. ring.
      - intros i Hi. symmetry. apply rsum_zero_ext. intros. lra. }
    intros k Hk. destruct (unflat k Hk) as (U1 & U2 & U3 & U4). rewrite U4. change (at_flat x (k / nm / groups)%nat ((k / nm) mod groups)%nat (k mod nm)%nat = 0).
    rewrite <- F by assumption. unfold sweep_moments, edge_moment. apply rsum_zero_ext. intros m Hm.
    rewrite !(aniso_unique silent silent _ _ _ _ S1 S0) by (assumption || lia). lra.
  - eexists. eexists. apply (fixed_solution external boundary (at_flat v)).
    intros i g l Hi Hg Hl. destruct (flat3 i g l Hg Hl Hi) as (K & A & B & C). specialize (Hv _ K). unfold J in Hv. rewrite A, B, C in Hv.
    rewrite sweep_moments_affine. change (at_flat (fun _ => 0)) with (fun _ _ _ : nat => 0) in Hv. unfold at_flat at 2. lra.
Qed.
End Aniso.

(** exactly one solution *)
Lemma aniso_exactly_one P groups nm xs_total xs external boundary c :
  sound_slab P -> (0 < nm)%nat -> exact_products P nm ->
  (forall i h, (i < cells P)%nat -> (h < groups)%nat -> 0 <= xs_total (medium P i) h) ->
  0 <= c < 1 -> aniso_coupled P groups nm xs_total xs c ->
  exists sol, aniso_solution P groups nm xs_total xs external boundary sol /\
    forall other, aniso_solution P groups nm xs_total xs external boundary other -> agree2 (cells P) groups other sol.
Proof.
  intros HP Hn HX Ht Hc HK. destruct (aniso_exists P groups nm xs_total xs c HP Hn HX Ht Hc HK external boundary) as (psi & phi & H).
  exists phi. split; [exists psi; exact H|]. intros other (psi' & H') i g Hi Hg.
  rewrite <- (moment_scalar P _ _ _ _ _ (H g Hg) i Hi), <- (moment_scalar P _ _ _ _ _ (H' g Hg) i Hi).
  apply rsum_ext. intros m Hm. rewrite !(aniso_unique P groups nm xs_total xs c HP Hn HX Ht Hc HK external boundary psi' other psi phi H' H) by (assumption || lia). reflexivity.
Qed.
