(** Angular fluxes of sources: uniqueness, positivity, and a supersolution damps. *)
From Coq Require Import Lra Lia Psatz.
From Verif Require Import Base BaseFacts Contraction SlabModel SlabSpec SlabFacts SlabFacts2 SlabFacts3 SlabFacts4.
From Verif Require Import MgModel MgSpec MgFacts MgFacts2 MgFacts3 MgFacts7 SupSpec SupFacts SupFacts2 SupFacts3 SupFacts4.
From Verif Require Import TimeModel TimeSpec TimeFacts TimeFacts2 EnSpec CritModel CritSpec CritFacts5 DynSpec.
Open Scope R_scope.

(** edge fluxes are those of the sweep *)
Lemma edges_are_Psi P T q b (E : mat2) : nonzero_ordinates (angles P) (mu P) -> good_divisors P T ->
  (forall m, (m < angles P)%nat -> dd_balance (cells P) (mu P m) (dx P) (fun i => T (medium P i)) (q m) (E m)) ->
  (forall m, (m < angles P)%nat -> E m (inflow_edge (cells P) (mu P m))
     = reflected_in (cells P) (angles P) (mu P) (bc_left P) (bc_right P) E m + b m) ->
  forall m, (m < angles P)%nat -> forall k, (k <= cells P)%nat -> E m k = Psi P q (half_sig P T) b m k.
Proof.
  intros Hm Hd Hb Hin m. induction m as [m IH] using (well_founded_induction lt_wf). intros Hma.
  set (s := half_sig P T).
  assert (Ein : E m (inflow_edge (cells P) (mu P m)) = Psi P q s b m (inflow_edge (cells P) (mu P m))).
  { rewrite Psi_inflow, inflow_at_spec by assumption. rewrite Hin by assumption. f_equal.
    unfold reflected_in. destruct (Nat.ltb_spec (angles P - m - 1) m) as [Hl|Hl]; cbn [andb]; [|reflexivity].
    destruct (leaves_reflective _ _ _ _); [|reflexivity].
    apply IH; [exact Hl|lia|]. unfold outflow_edge. destruct (Rlt_dec _ _); lia. }
  assert (Bp : dd_balance (cells P) (mu P m) (dx P) (fun i => T (medium P i)) (q m) (Psi P q s b m)).
  { apply Psi_balance; [reflexivity|exact (Hm m Hma)|exact (Hd m Hma)]. }
  unfold inflow_edge in Ein. destruct (Rlt_dec 0 (mu P m)) as [Hp|Hp].
  - eapply dd_unique_fwd; [apply divisors_fwd; [exact Hp|exact (Hd m Hma)]|apply Hb; assumption|exact Bp|exact Ein].
  - assert (Hneg : mu P m < 0) by (specialize (Hm m Hma); lra).
    eapply dd_unique_bwd; [apply divisors_bwd; [exact Hneg|exact (Hd m Hma)]|apply Hb; assumption|exact Bp|exact Ein].
Qed.

Section Ang.
Variables (P : sn) (G : nat).

Lemma afo_ext T q q' bnd A : (forall i m g, (i < cells P)%nat -> (m < angles P)%nat -> (g < G)%nat -> q i m g = q' i m g) ->
  angular_flux_of P G T q bnd A -> angular_flux_of P G T q' bnd A.
Proof.
  intros Hq (E & H). exists E. intros g m Hg Hm. destruct (H g m Hg Hm) as (H1 & H2). split; [|exact H2].
  intros i Hi. destruct (H1 i Hi) as (H3 & H4). split; [exact H3|]. rewrite H4. apply Hq; assumption.
Qed.
(** adding to the total cross section *)
Lemma afo_total T T' q bnd A : angular_flux_of P G T q bnd A ->
  angular_flux_of P G T' (fun i m g => q i m g + (T' (medium P i) g - T (medium P i) g) * A i m g) bnd A.
Proof.
  intros (E & H). exists E. intros g m Hg Hm. destruct (H g m Hg Hm) as (H1 & H2). split; [|exact H2].
  intros i Hi. destruct (H1 i Hi) as (H3 & H4). split; [exact H3|]. rewrite <- H4. ring.
Qed.
Lemma afo_linear T q1 q2 b1 b2 b A1 A2 c d :
  (forall g m, (g < G)%nat -> (m < angles P)%nat -> mg_boundary b (mu P) g m = c * mg_boundary b1 (mu P) g m + d * mg_boundary b2 (mu P) g m) ->
  angular_flux_of P G T q1 b1 A1 -> angular_flux_of P G T q2 b2 A2 ->
  angular_flux_of P G T (fun i m g => c * q1 i m g + d * q2 i m g) b (fun i m g => c * A1 i m g + d * A2 i m g).
Proof.
  intros Hb (E1 & H1) (E2 & H2). exists (fun g m k => c * E1 g m k + d * E2 g m k). intros g m Hg Hm.
  destruct (H1 g m Hg Hm) as (B1 & I1). destruct (H2 g m Hg Hm) as (B2 & I2). split.
  - intros i Hi. destruct (B1 i Hi) as (C1 & D1). destruct (B2 i Hi) as (C2 & D2). split.
    + rewrite C1, C2. field.
    + rewrite <- D1, <- D2. ring.
  - rewrite I1, I2, (Hb g m Hg Hm). unfold reflected_in. destruct (andb _ _); ring.
Qed.
Lemma scalar_linear c d A1 A2 i g : scalar_flux P (fun i m g => c * A1 i m g + d * A2 i m g) i g = c * scalar_flux P A1 i g + d * scalar_flux P A2 i g.
Proof. unfold scalar_flux. rewrite <- !rsum_scal, <- rsum_plus. apply rsum_ext. intros; ring. Qed.
Lemma collided_linear X c d u v i m g : collided P G X (fun i h => c * u i h + d * v i h) i m g = c * collided P G X u i m g + d * collided P G X v i m g.
Proof. unfold collided. rewrite <- !rsum_scal, <- rsum_plus. apply rsum_ext. intros; ring. Qed.
Lemma collided_ext X u v i m g : (forall h, (h < G)%nat -> u i h = v i h) -> collided P G X u i m g = collided P G X v i m g.
Proof. intros H. unfold collided. apply rsum_ext. intros h Hh. rewrite (H h Hh). reflexivity. Qed.

Section At.
Variable T : mat2.
Hypothesis HP : positive_sweeps P G T.

Lemma afo_edges q bnd A : angular_flux_of P G T q bnd A -> forall i m g, (i < cells P)%nat -> (m < angles P)%nat -> (g < G)%nat ->
  A i m g = (Psi P (fun m i => q i m g) (half_sig P (fun n => T n g)) (mg_boundary bnd (mu P) g) m i
             + Psi P (fun m i => q i m g) (half_sig P (fun n => T n g)) (mg_boundary bnd (mu P) g) m (S i)) / 2.
Proof.
  intros (E & H) i m g Hi Hm Hg. destruct (H g m Hg Hm) as (B & _). destruct (B i Hi) as (-> & _).
  assert (U := edges_are_Psi P (fun n => T n g) (fun m i => q i m g) (mg_boundary bnd (mu P) g) (E g) (proj1 HP) (ps_divisors P G T HP g Hg)).
  rewrite !U; [reflexivity| | |exact Hm|lia| | |exact Hm|lia].
  all: try (intros m' Hm' j Hj; destruct (H g m' Hg Hm') as (B' & _); destruct (B' j Hj) as (C & D); rewrite <- C; exact D).
  all: intros m' Hm'; apply (proj2 (H g m' Hg Hm')).
Qed.
Lemma afo_exists q bnd : exists A, angular_flux_of P G T q bnd A.
Proof.
  set (E := fun g => Psi P (fun m i => q i m g) (half_sig P (fun n => T n g)) (mg_boundary bnd (mu P) g)).
  exists (fun i m g => (E g m i + E g m (S i)) / 2), E. intros g m Hg Hm. split.
  - intros i Hi. split; [reflexivity|].
    apply (Psi_balance P (fun m i => q i m g) (half_sig P (fun n => T n g)) (mg_boundary bnd (mu P) g) (fun i => T (medium P i) g) m); [reflexivity|exact (proj1 HP m Hm)|exact (ps_divisors P G T HP g Hg m Hm)|exact Hi].
  - unfold E. rewrite Psi_inflow. apply inflow_at_spec. exact Hm.
Qed.
Lemma afo_unique q bnd A B : angular_flux_of P G T q bnd A -> angular_flux_of P G T q bnd B -> agree3 (cells P) (angles P) G A B.
Proof. intros HA HB i m g Hi Hm Hg. rewrite (afo_edges q bnd A HA), (afo_edges q bnd B HB) by assumption. reflexivity. Qed.
Lemma afo_psi_nonneg q bnd g m k : (g < G)%nat -> (m < angles P)%nat -> (k <= cells P)%nat ->
  (forall i m, (i < cells P)%nat -> (m < angles P)%nat -> 0 <= q i m g) ->
  (forall m, (m < angles P)%nat -> 0 <= mg_boundary bnd (mu P) g m) ->
  0 <= Psi P (fun m i => q i m g) (half_sig P (fun n => T n g)) (mg_boundary bnd (mu P) g) m k.
Proof.
  intros Hg Hm Hk Hq Hb. apply Psi_nonneg; try assumption; [apply (proj1 HP)|].
  intros m' j Hm' Hj. split; [apply Hq; assumption|]. apply thin_half; [apply (proj1 (proj2 HP)); exact Hg| |]; assumption.
Qed.
Lemma afo_nonneg q bnd A : angular_flux_of P G T q bnd A -> below3 P G (fun _ _ _ => 0) q ->
  (forall g m, (g < G)%nat -> (m < angles P)%nat -> 0 <= mg_boundary bnd (mu P) g m) -> below3 P G (fun _ _ _ => 0) A.
Proof.
  intros HA Hq Hb i m g Hi Hm Hg. rewrite (afo_edges q bnd A HA) by assumption.
  pose proof (afo_psi_nonneg q bnd g m i Hg Hm ltac:(lia) ltac:(intros; apply Hq; assumption) ltac:(intros; apply Hb; assumption)).
  pose proof (afo_psi_nonneg q bnd g m (S i) Hg Hm ltac:(lia) ltac:(intros; apply Hq; assumption) ltac:(intros; apply Hb; assumption)). lra.
Qed.
Lemma afo_positive q bnd A : angular_flux_of P G T q bnd A -> positive3 P G q ->
  (forall g m, (g < G)%nat -> (m < angles P)%nat -> 0 <= mg_boundary bnd (mu P) g m) -> positive3 P G A.
Proof.
  intros HA Hq Hb i m g Hi Hm Hg.
  assert (N := afo_nonneg q bnd A HA ltac:(intros ? ? ? ? ? ?; left; apply Hq; assumption) Hb i m g Hi Hm Hg).
  cbv beta in N. destruct N as [N|N]; [exact N|exfalso].
  pose proof HA as (E & H). destruct (H g m Hg Hm) as (B & _). destruct (B i Hi) as (C & D).
  assert (U := edges_are_Psi P (fun n => T n g) (fun m i => q i m g) (mg_boundary bnd (mu P) g) (E g) (proj1 HP) (ps_divisors P G T HP g Hg)).
  assert (V : forall k, (k <= cells P)%nat -> 0 <= E g m k).
  { intros k Hk. rewrite U; [apply afo_psi_nonneg; try assumption; [intros; left; apply Hq; assumption|intros; apply Hb; assumption]| | |exact Hm|exact Hk].
    - intros m' Hm' j Hj. destruct (H g m' Hg Hm') as (B' & _). destruct (B' j Hj) as (C' & D'). rewrite <- C'. exact D'.
    - intros m' Hm'. apply (proj2 (H g m' Hg Hm')). }
  pose proof (V i ltac:(lia)). pose proof (V (S i) ltac:(lia)). pose proof (Hq i m g Hi Hm Hg).
  assert (E g m i = 0) by lra. assert (E g m (S i) = 0) by lra. rewrite <- N, H3, H4 in D. lra.
Qed.

(** scalar fluxes *)
Lemma afo_solution X r bnd A : angular_flux_of P G T (fun i m g => collided P G X (scalar_flux P A) i m g + r i m g) bnd A ->
  mg_solution P G T X (mkArr3 (angles P) G r) bnd (scalar_flux P A).
Proof.
  intros (E & H). exists E. intros g Hg.
  assert (Kg : bidx G g = g) by (unfold bidx; destruct (Nat.eqb_spec G 1); lia).
  split; [|split].
  - intros m Hm i Hi. destruct (H g m Hg Hm) as (B & _). destruct (B i Hi) as (C & D). rewrite <- C. unfold mg_source. cbn [at3 d3b d3c]. rewrite Kg.
    assert (Km : bidx (angles P) m = m) by (unfold bidx; destruct (Nat.eqb_spec (angles P) 1); lia). rewrite Km. exact D.
  - intros m Hm. apply (proj2 (H g m Hg Hm)).
  - intros i Hi. unfold scalar_flux. apply rsum_ext. intros m Hm. destruct (H g m Hg Hm) as (B & _). rewrite (proj1 (B i Hi)). reflexivity.
Qed.
Lemma afo_pass q bnd A i g : angular_flux_of P G T q bnd A -> (i < cells P)%nat -> (g < G)%nat ->
  scalar_flux P A i g = pass_flux P (fun m i => q i m g) (half_sig P (fun n => T n g)) (mg_boundary bnd (mu P) g) 0 (angles P) i.
Proof.
  intros HA Hi Hg. rewrite pass_flux_center by exact Hi. unfold scalar_flux. apply rsum_ext. intros m Hm. rewrite (afo_edges q bnd A HA) by assumption. reflexivity.
Qed.

(** the coupled problem keeps nonnegativity *)
Theorem coupled_nonneg X c p r bnd A : 0 <= c < 1 -> damping P G T X c p ->
  (forall i g h, (i < cells P)%nat -> (g < G)%nat -> (h < G)%nat -> 0 <= X (medium P i) g h) ->
  angular_flux_of P G T (fun i m g => collided P G X (scalar_flux P A) i m g + r i m g) bnd A ->
  below3 P G (fun _ _ _ => 0) r ->
  (forall g m, (g < G)%nat -> (m < angles P)%nat -> 0 <= mg_boundary bnd (mu P) g m) -> below3 P G (fun _ _ _ => 0) A.
Proof.
  intros Hc HD HX HA Hr Hb.
  assert (N : below2 (cells P) G (fun _ _ => 0) (scalar_flux P A)).
  { apply (damped_nonneg P G T X c p HP Hc HD (mkArr3 (angles P) G r) bnd); [exact HX| |intros; apply Hb; assumption|apply afo_solution; exact HA].
    intros m i g Hm Hi Hg. cbn [at3 d3b d3c].
    assert (Kg : bidx G g = g) by (unfold bidx; destruct (Nat.eqb_spec G 1); lia).
    assert (Km : bidx (angles P) m = m) by (unfold bidx; destruct (Nat.eqb_spec (angles P) 1); lia).
    rewrite Kg, Km. apply Hr; assumption. }
  apply (afo_nonneg _ bnd A HA); [|exact Hb]. intros i m g Hi Hm Hg. pose proof (Hr i m g Hi Hm Hg). cbv beta in *.
  assert (0 <= collided P G X (scalar_flux P A) i m g); [|lra]. apply rsum_nonneg. intros h Hh. apply Rmult_le_pos; [apply HX; assumption|apply N; assumption].
Qed.
End At.

(** A positive angular flux that more than feeds its own collisions gives a damped flux. *)
Section Super.
Variable T : mat2.
Hypothesis HP : positive_sweeps P G T.
Hypothesis HS : sound_slab P.
Hypothesis HW : 0 < rsum (angles P) (wt P).

Lemma scalar_positive A : positive3 P G A -> positive2 (cells P) G (scalar_flux P A).
Proof.
  intros HA i g Hi Hg. unfold scalar_flux.
  assert (W0 := proj2 (proj2 HP)).
  destruct (Rle_lt_or_eq_dec 0 (rsum (angles P) (fun m => wt P m * A i m g))) as [L|L]; [|exact L|exfalso].
  - apply rsum_nonneg. intros m Hm. apply Rmult_le_pos; [apply W0; exact Hm|left; apply HA; assumption].
  - assert (Z : forall m, (m < angles P)%nat -> wt P m = 0).
    { intros m Hm. pose proof (no_positive_terms (angles P) (fun m => wt P m * A i m g) ltac:(intros m' Hm'; apply Rmult_le_pos; [apply W0; exact Hm'|left; apply HA; assumption]) ltac:(lra) m Hm) as Q.
      cbv beta in Q. pose proof (HA i m g Hi Hm Hg). apply Rmult_integral in Q. destruct Q; [assumption|lra]. }
    rewrite (rsum_zero_ext (angles P) (wt P) Z) in HW. lra.
Qed.
Theorem super_damping X r bnd A :
  (forall i g h, (i < cells P)%nat -> (g < G)%nat -> (h < G)%nat -> 0 <= X (medium P i) g h) ->
  angular_flux_of P G T (fun i m g => collided P G X (scalar_flux P A) i m g + r i m g) bnd A ->
  positive3 P G r -> (forall g m, (g < G)%nat -> (m < angles P)%nat -> 0 <= mg_boundary bnd (mu P) g m) ->
  positive3 P G A -> exists c, 0 <= c < 1 /\ damping P G T X c (scalar_flux P A).
Proof.
  intros HX HA Hr Hb Hpos. assert (PS := scalar_positive A Hpos).
  destruct (Nat.eq_dec (cells P) 0) as [Z|Z].
  { exists 0. split; [lra|]. split; [exact PS|]. intros g Hg. exists (tau P T g (fun i => rsum G (fun h => Rabs (X (medium P i) g h) * scalar_flux P A i h))). split.
    - apply tau_flux_of; [apply (proj1 HP)|apply (ps_divisors P G T HP g Hg)].
    - intros i Hi; lia. }
  assert (Q0 : forall g j, (g < G)%nat -> (j < cells P)%nat -> rsum G (fun h => Rabs (X (medium P j) g h) * scalar_flux P A j h) = collided P G X (scalar_flux P A) j 0%nat g).
  { intros g j Hg Hj. apply rsum_ext. intros h Hh. rewrite Rabs_right; [reflexivity|apply Rle_ge, HX; assumption]. }
  set (D := fun i g => tau P T g (fun j => rsum G (fun h => Rabs (X (medium P j) g h) * scalar_flux P A j h)) i).
  (* strictly below, entry by entry *)
  assert (LT : forall i g, (i < cells P)%nat -> (g < G)%nat -> D i g < scalar_flux P A i g).
  { intros i g Hi Hg.
    destruct (afo_exists T HP (fun i m g => collided P G X (scalar_flux P A) i m g) no_inflow) as (B & HB).
    assert (HD : angular_flux_of P G T (fun i m g => 1 * (collided P G X (scalar_flux P A) i m g + r i m g) + (-1) * collided P G X (scalar_flux P A) i m g) bnd (fun i m g => 1 * A i m g + (-1) * B i m g)).
    { apply (afo_linear T _ _ bnd no_inflow); [|exact HA|exact HB]. intros g' m' _ _. unfold no_inflow, mg_boundary at 3. cbn [at3]. ring. }
    assert (PD : positive3 P G (fun i m g => 1 * A i m g + (-1) * B i m g)).
    { apply (afo_positive T HP _ bnd _ HD); [|exact Hb]. intros i' m' g' Hi' Hm' Hg'. pose proof (Hr i' m' g' Hi' Hm' Hg'). lra. }
    pose proof (scalar_positive _ PD i g Hi Hg) as S. rewrite scalar_linear in S.
    assert (EB : scalar_flux P B i g = D i g).
    { rewrite (afo_pass T HP _ _ B i g HB Hi Hg). unfold D, tau. apply pass_flux_at; [exact Hi| |].
      - intros m j Hm Hj. rewrite Q0 by assumption. reflexivity.
      - intros m Hm. unfold mg_boundary, no_inflow. cbn [at3]. reflexivity. }
    lra. }
  destruct (Nat.eq_dec G 0) as [ZG|ZG].
  { exists 0. split; [lra|]. split; [exact PS|]. intros g Hg; lia. }
  assert (D0 : forall i g, (i < cells P)%nat -> (g < G)%nat -> 0 <= D i g).
  { intros i g Hi Hg. apply (tau_nonneg P G T HP); try assumption. intros j Hj. apply rsum_nonneg. intros h Hh. apply Rmult_le_pos; [apply Rabs_pos|left; apply PS; assumption]. }
  destruct (ratio_max (cells P) G D (scalar_flux P A) ltac:(lia) ltac:(lia) PS) as (c & i0 & g0 & Hi0 & Hg0 & E0 & Hc).
  exists c. split.
  - pose proof (LT i0 g0 Hi0 Hg0). pose proof (D0 i0 g0 Hi0 Hg0). pose proof (PS i0 g0 Hi0 Hg0). split; nra.
  - split; [exact PS|]. intros g Hg. exists (fun i => D i g). split.
    + apply tau_flux_of; [apply (proj1 HP)|apply (ps_divisors P G T HP g Hg)].
    + intros i Hi. apply Hc; assumption.
Qed.
End Super.
End Ang.
