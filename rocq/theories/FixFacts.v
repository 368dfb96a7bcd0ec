(** Proofs about the fixed-source drivers. *)
From Coq Require Import Lra Lia Bool FunctionalExtensionality.
From Verif Require Import Base BaseFacts SlabModel SlabSpec SlabFacts SlabFacts2 SlabFacts3 SlabFacts4 SlabFacts5.
From Verif Require Import SphereModel SphereFacts SphereFacts2.
From Verif Require Import MgModel MgSpec MgFacts MgFacts2 MgFacts3 MgFacts4 MgFacts6 DmdModel DmdSpec DmdFacts.
From Verif Require Import FixModel FixSpec.
Open Scope R_scope.

Definition Psi_g (P : sn) groups (xs_total : mat2) xs external boundary phi g : mat2 :=
  Psi P (mg_source (medium P) groups xs external phi g) (half_sig P (fun m => xs_total m g)) (mg_boundary boundary (mu P) g).

Lemma carried_is_Psi P groups xs_total xs external boundary phi psi :
  nonzero_ordinates (angles P) (mu P) -> mg_divisors P groups xs_total ->
  carried_by P groups xs_total xs external boundary phi psi ->
  forall g m k, (g < groups)%nat -> (m < angles P)%nat -> (k <= cells P)%nat ->
    psi k m g = Psi_g P groups xs_total xs external boundary phi g m k.
Proof.
  intros Hnz Hd H g m k Hg. specialize (Hd g Hg). destruct (H g Hg) as [Hb Hi]. clear H. revert k.
  set (q := mg_source (medium P) groups xs external phi g) in *.
  induction m as [m IH] using (well_founded_induction lt_wf). intros k Hm Hk.
  assert (Ein : psi (inflow_edge (cells P) (mu P m)) m g = Psi_g P groups xs_total xs external boundary phi g m (inflow_edge (cells P) (mu P m))).
  { rewrite Hi by exact Hm. unfold Psi_g. rewrite Psi_inflow, inflow_at_spec by exact Hm. f_equal.
    unfold reflected_in. destruct (Nat.ltb_spec (angles P - m - 1) m) as [Hl|Hl]; cbn [andb]; [|reflexivity].
    destruct (leaves_reflective _ _ _ _); [|reflexivity].
    apply (IH _ Hl); [lia|]. unfold outflow_edge. destruct (Rlt_dec _ _); lia. }
  assert (B2 : dd_balance (cells P) (mu P m) (dx P) (fun i => xs_total (medium P i) g) (q m)
     (Psi_g P groups xs_total xs external boundary phi g m)).
  { unfold Psi_g. apply Psi_balance; [reflexivity|apply Hnz; exact Hm|exact (Hd m Hm)]. }
  specialize (Hb m Hm).
  unfold inflow_edge in Ein. destruct (Rlt_dec 0 (mu P m)) as [Hp|Hp].
  - revert Ein. exact (fun E => dd_unique_fwd _ _ _ _ _ _ _ (divisors_fwd _ _ _ _ Hp (Hd m Hm)) Hb B2 E k Hk).
  - assert (Hneg : mu P m < 0) by (specialize (Hnz m Hm); lra).
    revert Ein. exact (fun E => dd_unique_bwd _ _ _ _ _ _ _ (divisors_bwd _ _ _ _ Hneg (Hd m Hm)) Hb B2 E k Hk).
Qed.

Lemma angular_flag a edges : a <> FlagFalse -> andb (is_false a) (Nat.eqb edges 0) = false /\ andb (is_false a) (Nat.eqb edges 1) = false.
Proof. destruct a; [congruence| |]; intros _; split; reflexivity. Qed.

Section Outputs.
Variables (P : sn) (groups : nat) (xs_total : mat2) (xs : mat3) (external boundary : arr3) (phi : mat2).
Let src := mkArr3 (angles P) groups (source_total (cells P) (angles P) groups (fun _ _ _ => 0) phi xs (medium P) external).
Let out a e := fixed_output_of P groups xs_total (Scatter3 xs) external boundary 1 a e phi.

Lemma known_four :
  angles P <> 1%nat -> nonzero_ordinates (angles P) (mu P) -> mg_divisors P groups xs_total ->
  exists phi_e psi_c psi_e,
    out FlagFalse 0 = Ok (ScalarOut phi) /\ out FlagFalse 1 = Ok (ScalarOut phi_e) /\
    (forall a, a <> FlagFalse -> out a 0 = Ok (AngularOut psi_c) /\ out a 1 = Ok (AngularOut psi_e)) /\
    carried_by P groups xs_total xs external boundary phi psi_e /\
    centres (cells P) (angles P) groups psi_e psi_c /\
    direction_sums (S (cells P)) (angles P) groups (wt P) psi_e phi_e.
Proof.
  intros Ha Hnz Hd.
  destruct (known_total P groups xs_total src boundary 1) as [(phi_e & E1) (psi_e & E2)].
  destruct (known_total P groups xs_total src boundary 0) as [_ (psi_c & E3)].
  exists phi_e, psi_c, psi_e.
  split; [reflexivity|]. split; [unfold out, fixed_output_of, known_source_calculation; cbn [is_false andb Nat.eqb]; fold src; rewrite E1; reflexivity|].
  split.
  { intros a Ha'. destruct (angular_flag a 0 Ha') as [A B]. destruct (angular_flag a 1 Ha') as [C D].
    unfold out, fixed_output_of, known_source_calculation. rewrite A, B, C, D. fold src. rewrite E2, E3. split; reflexivity. }
  assert (Hq : forall g, (g < groups)%nat -> forall m i, (m < angles P)%nat -> (i < cells P)%nat ->
    known_q (slice3 src (bidx (d3c src) g)) m i = mg_source (medium P) groups xs external phi g m i).
  { intros g Hg m i Hm Hi. unfold known_q. cbn [src slice3 at2 cols2 d3c d3b at3]. unfold bidx.
    destruct (Nat.eqb_spec (angles P) 1); [contradiction|].
    replace (if (groups =? 1)%nat then 0%nat else g) with g by (destruct (Nat.eqb_spec groups 1); lia).
    rewrite source_total_eq by assumption. reflexivity. }
  assert (K : forall g, (g < groups)%nat -> exists p,
     slab_transport (cells P) (angles P) (mu P) (wt P) (dx P) (fun i => xs_total (medium P i) g)
      (fun m i => at2 (slice3 src (bidx (d3c src) g)) i (bidx (cols2 (slice3 src (bidx (d3c src) g))) m))
      (fun m => reflected_in (cells P) (angles P) (mu P) (bc_left P) (bc_right P) p m
                + mg_boundary boundary (mu P) g m)
      p (fun i => slab_known_source_sn P zeros2 1 (fun m => xs_total m g) (slice3 src (bidx (d3c src) g)) (slice3 boundary (bidx (d3c boundary) g)) 0 i 0%nat) /\
     (forall m k, (m < angles P)%nat -> (k <= cells P)%nat -> psi_e k m g = p m k) /\
     (forall m i, (m < angles P)%nat -> (i < cells P)%nat -> psi_c i m g = (p m i + p m (S i)) / 2)).
  { intros g Hg.
    destruct (known_transport P (fun m => xs_total m g) (slice3 src (bidx (d3c src) g))
      (slice3 boundary (bidx (d3c boundary) g)) Ha Hnz (Hd g Hg)) as (p & T & Hp & Hc).
    exists p. split; [exact T|]. split.
    - intros m k Hm Hk. rewrite (known_angular_columns _ _ _ _ _ _ _ E2) by exact Hg. cbn [src d3b]. apply Hp; assumption.
    - intros m i Hm Hi. rewrite (known_angular_columns _ _ _ _ _ _ _ E3) by exact Hg. cbn [src d3b]. apply Hc; assumption. }
  split; [|split].
  - intros g Hg. destruct (K g Hg) as (p & (T1 & T2 & _) & Hp & _). split.
    + intros m Hm i Hi. rewrite !Hp by lia. rewrite <- Hq by assumption. apply (T1 m Hm i Hi).
    + intros m Hm. rewrite Hp by (try assumption; unfold inflow_edge; destruct (Rlt_dec _ _); lia).
      rewrite T2 by exact Hm. f_equal. unfold reflected_in.
      destruct (Nat.ltb_spec (angles P - m - 1) m); cbn [andb]; [|reflexivity].
      destruct (leaves_reflective _ _ _ _); [|reflexivity].
      rewrite Hp by (try lia; unfold outflow_edge; destruct (Rlt_dec _ _); lia). reflexivity.
  - intros i m g Hi Hm Hg. destruct (K g Hg) as (p & _ & Hp & Hc). rewrite Hc, !Hp by lia. reflexivity.
  - intros k g Hk Hg. exact (mg_scalar_is_sum P groups xs_total src boundary 1 phi_e psi_e eq_refl Ha E1 E2 k g Hg).
Qed.
End Outputs.

(** A carried flux of nonnegative emission is nonnegative. *)
Lemma thin_half P groups xs_total g : mg_thin P groups xs_total -> (g < groups)%nat ->
  forall m i, (m < angles P)%nat -> (i < cells P)%nat ->
  0 <= half_sig P (fun m => xs_total m g) i /\ half_sig P (fun m => xs_total m g) i <= Rabs (mu P m) / dx P i /\ 0 < dx P i.
Proof.
  intros Ht Hg m i Hm Hi. destruct (Ht g Hg m i Hm Hi) as (H1 & H2 & H3). unfold half_sig. repeat split; [lra| |exact H1].
  apply (Rmult_le_reg_r (dx P i)); [exact H1|].
  replace (Rabs (mu P m) / dx P i * dx P i) with (Rabs (mu P m)) by (field; lra). lra.
Qed.

Lemma thin_mg_divisors P groups xs_total : nonzero_ordinates (angles P) (mu P) -> mg_thin P groups xs_total -> mg_divisors P groups xs_total.
Proof. intros Hnz Ht g Hg. apply thin_divisors; [exact Hnz|exact (Ht g Hg)]. Qed.

Lemma carried_nonneg P groups xs_total xs external boundary phi psi :
  nonzero_ordinates (angles P) (mu P) -> mg_thin P groups xs_total -> nonneg_problem P groups xs external boundary ->
  (forall i g, (i < cells P)%nat -> (g < groups)%nat -> 0 <= phi i g) ->
  carried_by P groups xs_total xs external boundary phi psi ->
  forall k m g, (k <= cells P)%nat -> (m < angles P)%nat -> (g < groups)%nat -> 0 <= psi k m g.
Proof.
  intros Hnz Ht (_ & Hs & He & Hb) Hphi Hc k m g Hk Hm Hg.
  rewrite (carried_is_Psi P groups xs_total xs external boundary phi psi Hnz (thin_mg_divisors _ _ _ Hnz Ht) Hc) by assumption.
  unfold Psi_g. apply Psi_nonneg; try assumption.
  - intros m' i Hm' Hi. split; [|apply (thin_half P groups xs_total g Ht Hg m' i Hm' Hi)].
    unfold mg_source. assert (A := He m' i g Hm' Hi Hg).
    assert (0 <= rsum groups (fun h => xs (medium P i) g h * phi i h)); [|lra].
    apply rsum_nonneg. intros h Hh. apply Rmult_le_pos; [apply Hs|apply Hphi]; assumption.
  - intros m' Hm'. apply Hb; assumption.
Qed.

(** Two fluxes carried by close scalar fluxes are close. *)
Lemma carried_close P groups xs_total xs external boundary phi1 phi2 psi1 psi2 c d :
  nonzero_ordinates (angles P) (mu P) -> mg_thin P groups xs_total -> 0 <= c -> 0 <= d ->
  mg_ratio P groups xs_total xs c -> within2 (cells P) groups d phi1 phi2 ->
  carried_by P groups xs_total xs external boundary phi1 psi1 ->
  carried_by P groups xs_total xs external boundary phi2 psi2 ->
  forall k m g, (k <= cells P)%nat -> (m < angles P)%nat -> (g < groups)%nat ->
    Rabs (psi1 k m g - psi2 k m g) <= c * d.
Proof.
  intros Hnz Ht Hc Hd Hr Hw H1 H2 k m g Hk Hm Hg. assert (Hdv := thin_mg_divisors _ _ _ Hnz Ht).
  rewrite (carried_is_Psi P groups xs_total xs external boundary phi1 psi1 Hnz Hdv H1) by assumption.
  rewrite (carried_is_Psi P groups xs_total xs external boundary phi2 psi2 Hnz Hdv H2) by assumption.
  unfold Psi_g.
  match goal with |- Rabs (?a - ?b) <= _ => replace (a - b) with (1 * a + (-1) * b) by ring end.
  rewrite <- Psi_linear. apply Psi_bounded; try assumption.
  - apply Rmult_le_pos; assumption.
  - intros m' i Hm' Hi. split; [|apply (thin_half P groups xs_total g Ht Hg m' i Hm' Hi)].
    unfold mg_source, half_sig.
    match goal with |- Rabs ?x <= _ => replace x with (rsum groups (fun h => xs (medium P i) g h * (phi1 i h - phi2 i h))) end.
    + apply Rle_trans with (rsum groups (fun h => Rabs (xs (medium P i) g h) * d)).
      * assert (GS : forall n (u v : vec), (forall j, (j < n)%nat -> Rabs (u j) <= v j) -> Rabs (rsum n u) <= rsum n v).
        { induction n as [|n IH]; intros u v H; simpl; [rewrite Rabs_R0; lra|].
          eapply Rle_trans; [apply Rabs_triang|]. apply Rplus_le_compat; [apply IH; intros; apply H; lia|apply H; lia]. }
        apply GS. intros h Hh. rewrite Rabs_mult. apply Rmult_le_compat_l; [apply Rabs_pos|apply Hw; assumption].
      * rewrite rsum_scal_r. assert (A := Hr g i Hg Hi). apply Rle_trans with (c * xs_total (medium P i) g * d); [|right; lra].
        apply Rmult_le_compat_r; assumption.
    + rewrite (rsum_ext _ _ (fun h => xs (medium P i) g h * phi1 i h - xs (medium P i) g h * phi2 i h)) by (intros; ring).
      rewrite rsum_minus. ring.
  - intros; ring.
Qed.
