(** More slab proofs: conservation, flat flux, positivity, linearity, mirror symmetry,
    reflection, iteration. *)
From Coq Require Import Lra Lia FunctionalExtensionality.
From Verif Require Import Base BaseFacts SlabModel SlabSpec SlabFacts.
Open Scope R_scope.

(** * Conservation *)
Lemma dd_conservation n mu dx sigt q psi :
  (forall i, (i < n)%nat -> dx i <> 0) -> dd_balance n mu dx sigt q psi ->
  mu * (psi n - psi 0%nat) + rsum n (fun i => dx i * sigt i * ((psi i + psi (S i)) / 2))
  = rsum n (fun i => dx i * q i).
Proof.
  intros Hdx H. rewrite <- (rsum_telescope n psi), <- rsum_scal, <- rsum_plus.
  apply rsum_ext. intros i Hi. rewrite <- (H i Hi). field. apply Hdx; exact Hi.
Qed.

Lemma transport_conservation n angles mu wt dx sigt q inflow psi phi :
  (forall i, (i < n)%nat -> dx i <> 0) ->
  slab_transport n angles mu wt dx sigt q inflow psi phi ->
  total_leakage n angles mu wt psi + rsum n (fun i => dx i * sigt i * phi i)
  = rsum n (fun i => dx i * rsum angles (fun m => wt m * q m i)).
Proof.
  intros Hdx (Hb & _ & Hphi). unfold total_leakage.
  rewrite (rsum_ext n (fun i => dx i * sigt i * phi i)
             (fun i => rsum angles (fun m => wt m * (dx i * sigt i * ((psi m i + psi m (S i)) / 2))))).
  2:{ intros i Hi. rewrite Hphi by exact Hi. rewrite <- rsum_scal. apply rsum_ext. intros; ring. }
  rewrite (rsum_ext n (fun i => dx i * rsum angles (fun m => wt m * q m i))
             (fun i => rsum angles (fun m => wt m * (dx i * q m i)))).
  2:{ intros i Hi. rewrite <- rsum_scal. apply rsum_ext. intros; ring. }
  rewrite (rsum_swap n angles), (rsum_swap n angles), <- rsum_plus.
  apply rsum_ext. intros m Hm. rewrite !rsum_scal.
  rewrite <- (dd_conservation n (mu m) dx sigt (q m) (psi m) Hdx (Hb m Hm)). ring.
Qed.

(** * Flat flux *)
Lemma fwd_psi_flat n q a s c k : (k <= n)%nat ->
  (forall i, (i < n)%nat -> a i + s i <> 0) ->
  (forall i, (i < n)%nat -> q i = 2 * s i * c) -> fwd_psi q a s c k = c.
Proof.
  induction k as [|k IH]; intros Hk Hd Hq; [reflexivity|]. cbn [fwd_psi].
  rewrite IH by (lia || assumption). rewrite Hq by lia. field. apply Hd; lia.
Qed.

Lemma bwd_psi_flat n q a s c k : (k <= n)%nat ->
  (forall i, (i < n)%nat -> a i + s i <> 0) ->
  (forall i, (i < n)%nat -> q i = 2 * s i * c) -> bwd_psi n q a s c k = c.
Proof.
  intros Hk Hd Hq. 
  assert (G : forall j, (j <= n)%nat -> bwd_psi n q a s c (n - j) = c).
  { induction j as [|j IH]; intros Hj; [rewrite Nat.sub_0_r; apply bwd_psi_top|].
    rewrite bwd_psi_step by lia. replace (S (n - S j)) with (n - j)%nat by lia.
    rewrite IH by lia. rewrite Hq by lia. field. apply Hd; lia. }
  specialize (G (n - k)%nat ltac:(lia)). replace (n - (n - k))%nat with k in G by lia. exact G.
Qed.

Lemma Psi_flat P q s b c :
  nonzero_ordinates (angles P) (mu P) ->
  (forall m i, (m < angles P)%nat -> (i < cells P)%nat -> Rabs (mu P m) / dx P i + s i <> 0) ->
  (forall m i, (m < angles P)%nat -> (i < cells P)%nat -> q m i = 2 * s i * c) ->
  (forall m, (m < angles P)%nat ->
     b m = if andb (Nat.ltb (angles P - m - 1) m)
                   (leaves_reflective (mu P) (bc_left P) (bc_right P) (angles P - m - 1))
           then 0 else c) ->
  forall m k, (m < angles P)%nat -> (k <= cells P)%nat -> Psi P q s b m k = c.
Proof.
  intros Hnz Hd Hq Hb.
  assert (G : forall j m k, (m < j)%nat -> (m < angles P)%nat -> (k <= cells P)%nat -> Psi P q s b m k = c).
  { induction j as [|j IH]; intros m k Hj Hm Hk; [lia|].
    assert (Hin : inflow_at P q s b m = c).
    { rewrite inflow_at_spec by exact Hm. unfold reflected_in. rewrite Hb by exact Hm.
      destruct (Nat.ltb_spec (angles P - m - 1) m) as [Hl|Hl]; cbn [andb]; [|lra].
      destruct (leaves_reflective _ _ _ _); [|lra].
      rewrite IH; try lia; [lra|]. unfold outflow_edge. destruct (Rlt_dec _ _); lia. }
    unfold Psi. rewrite Hin. unfold psi_of. specialize (Hnz m Hm).
    destruct (Rlt_dec 0 (mu P m)) as [Hp|Hp].
    - apply (fwd_psi_flat (cells P)); try lia.
      + intros i Hi. specialize (Hd m i Hm Hi). rewrite Rabs_right in Hd by lra. exact Hd.
      + intros i Hi. apply Hq; assumption.
    - apply (bwd_psi_flat (cells P)); try lia.
      + intros i Hi. specialize (Hd m i Hm Hi). rewrite Rabs_left in Hd by lra. exact Hd.
      + intros i Hi. apply Hq; assumption. }
  intros m k Hm Hk. apply (G (S m)); lia || assumption.
Qed.

(** * Positivity *)
Lemma fwd_psi_nonneg n q a s e k : (k <= n)%nat -> 0 <= e ->
  (forall i, (i < n)%nat -> 0 <= q i /\ 0 <= s i <= a i /\ 0 < a i) -> 0 <= fwd_psi q a s e k.
Proof.
  induction k as [|k IH]; intros Hk He H; [exact He|]. cbn [fwd_psi].
  destruct (H k ltac:(lia)) as (Hq & Hs & Ha).
  specialize (IH ltac:(lia) He H).
  apply Rmult_le_pos; [|left; apply Rinv_0_lt_compat; lra].
  assert (0 <= fwd_psi q a s e k * (a k - s k)) by (apply Rmult_le_pos; lra). lra.
Qed.

Lemma bwd_psi_nonneg n q a s e k : (k <= n)%nat -> 0 <= e ->
  (forall i, (i < n)%nat -> 0 <= q i /\ 0 <= s i <= a i /\ 0 < a i) -> 0 <= bwd_psi n q a s e k.
Proof.
  intros Hk He H.
  assert (G : forall j, (j <= n)%nat -> 0 <= bwd_psi n q a s e (n - j)).
  { induction j as [|j IH]; intros Hj; [rewrite Nat.sub_0_r, bwd_psi_top; exact He|].
    rewrite bwd_psi_step by lia. replace (S (n - S j)) with (n - j)%nat by lia.
    destruct (H (n - S j)%nat ltac:(lia)) as (Hq & Hs & Ha). specialize (IH ltac:(lia)).
    apply Rmult_le_pos; [|left; apply Rinv_0_lt_compat; lra].
    assert (0 <= bwd_psi n q a s e (n - j) * (a (n - S j)%nat - s (n - S j)%nat)) by (apply Rmult_le_pos; lra).
    lra. }
  specialize (G (n - k)%nat ltac:(lia)). replace (n - (n - k))%nat with k in G by lia. exact G.
Qed.

Lemma Psi_nonneg P q s b :
  nonzero_ordinates (angles P) (mu P) ->
  (forall m i, (m < angles P)%nat -> (i < cells P)%nat ->
     0 <= q m i /\ 0 <= s i /\ s i <= Rabs (mu P m) / dx P i /\ 0 < dx P i) ->
  (forall m, (m < angles P)%nat -> 0 <= b m) ->
  forall m k, (m < angles P)%nat -> (k <= cells P)%nat -> 0 <= Psi P q s b m k.
Proof.
  intros Hnz H Hb.
  assert (G : forall j m k, (m < j)%nat -> (m < angles P)%nat -> (k <= cells P)%nat -> 0 <= Psi P q s b m k).
  { induction j as [|j IH]; intros m k Hj Hm Hk; [lia|].
    assert (Hin : 0 <= inflow_at P q s b m).
    { rewrite inflow_at_spec by exact Hm. unfold reflected_in. specialize (Hb m Hm).
      destruct (Nat.ltb_spec (angles P - m - 1) m) as [Hl|Hl]; cbn [andb]; [|lra].
      destruct (leaves_reflective _ _ _ _); [|lra].
      assert (0 <= Psi P q s b (angles P - m - 1) (outflow_edge (cells P) (mu P (angles P - m - 1)%nat))).
      { apply IH; try lia. unfold outflow_edge. destruct (Rlt_dec _ _); lia. } lra. }
    unfold Psi, psi_of. specialize (Hnz m Hm).
    destruct (Rlt_dec 0 (mu P m)) as [Hp|Hp].
    - apply (fwd_psi_nonneg (cells P)); try lia; [exact Hin|]. intros i Hi.
      destruct (H m i Hm Hi) as (H1 & H2 & H3 & H4). rewrite Rabs_right in H3 by lra.
      repeat split; try assumption. apply Rdiv_lt_0_compat; assumption.
    - apply (bwd_psi_nonneg (cells P)); try lia; [exact Hin|]. intros i Hi.
      destruct (H m i Hm Hi) as (H1 & H2 & H3 & H4). rewrite Rabs_left in H3 by lra.
      repeat split; try assumption. apply Rdiv_lt_0_compat; lra. }
  intros m k Hm Hk. apply (G (S m)); lia || assumption.
Qed.

(** * Linearity *)
Lemma fwd_psi_linear q1 q2 a s e1 e2 c d k :
  fwd_psi (fun i => c * q1 i + d * q2 i) a s (c * e1 + d * e2) k
  = c * fwd_psi q1 a s e1 k + d * fwd_psi q2 a s e2 k.
Proof. induction k as [|k IH]; [reflexivity|]. cbn [fwd_psi]. rewrite IH. unfold Rdiv. ring. Qed.

Lemma bwd_psi_linear n q1 q2 a s e1 e2 c d k :
  bwd_psi n (fun i => c * q1 i + d * q2 i) a s (c * e1 + d * e2) k
  = c * bwd_psi n q1 a s e1 k + d * bwd_psi n q2 a s e2 k.
Proof.
  unfold bwd_psi. induction (n - k)%nat as [|j IH]; [reflexivity|].
  cbn [bwd_psi_aux]. rewrite IH. unfold Rdiv. ring.
Qed.

Lemma psi_of_linear P q1 q2 s c d m e1 e2 k :
  psi_of P (fun m i => c * q1 m i + d * q2 m i) s m (c * e1 + d * e2) k
  = c * psi_of P q1 s m e1 k + d * psi_of P q2 s m e2 k.
Proof.
  unfold psi_of. destruct (Rlt_dec 0 (mu P m)); [apply fwd_psi_linear|apply bwd_psi_linear].
Qed.

Lemma refl_at_linear P q1 q2 s b1 b2 c d nn j :
  refl_at P (fun m i => c * q1 m i + d * q2 m i) s (fun m => c * b1 m + d * b2 m) nn j
  = c * refl_at P q1 s b1 nn j + d * refl_at P q2 s b2 nn j.
Proof.
  revert j. induction nn as [|nn IH]; intros j; [unfold refl_at, zeros; ring|].
  cbn [refl_at]. rewrite !reflector_corrector_spec. rewrite IH.
  destruct (leaves_reflective _ _ _ nn); [|apply IH].
  unfold upd. destruct (Nat.eqb j (angles P - nn - 1)); [|apply IH].
  unfold out_of. rewrite <- psi_of_linear. f_equal. ring.
Qed.

Lemma Psi_linear P q1 q2 s b1 b2 c d m k :
  Psi P (fun m i => c * q1 m i + d * q2 m i) s (fun m => c * b1 m + d * b2 m) m k
  = c * Psi P q1 s b1 m k + d * Psi P q2 s b2 m k.
Proof.
  unfold Psi, inflow_at. rewrite refl_at_linear, <- psi_of_linear. f_equal. ring.
Qed.

(** * Mirror symmetry *)
Notation mirror := mirrored.

Lemma bwd_mirror n q a s e k : (k <= n)%nat ->
  bwd_psi n q a s e k = fwd_psi (mirror n q) (mirror n a) (mirror n s) e (n - k).
Proof.
  intros _. unfold bwd_psi. induction (n - k)%nat as [|j IH]; [reflexivity|].
  cbn [bwd_psi_aux fwd_psi]. rewrite IH. unfold mirrored.
  replace (n - 1 - j)%nat with (n - S j)%nat by lia. reflexivity.
Qed.

Lemma fwd_psi_ext n q1 q2 a1 a2 s1 s2 e k : (k <= n)%nat ->
  (forall i, (i < n)%nat -> q1 i = q2 i /\ a1 i = a2 i /\ s1 i = s2 i) ->
  fwd_psi q1 a1 s1 e k = fwd_psi q2 a2 s2 e k.
Proof.
  induction k as [|k IH]; intros Hk H; [reflexivity|]. cbn [fwd_psi].
  destruct (H k ltac:(lia)) as (-> & -> & ->). rewrite IH by (lia || assumption). reflexivity.
Qed.

Lemma bwd_psi_ext n q1 q2 a1 a2 s1 s2 e k : (k <= n)%nat ->
  (forall i, (i < n)%nat -> q1 i = q2 i /\ a1 i = a2 i /\ s1 i = s2 i) ->
  bwd_psi n q1 a1 s1 e k = bwd_psi n q2 a2 s2 e k.
Proof.
  intros Hk H. rewrite !bwd_mirror by exact Hk. apply (fwd_psi_ext n); [lia|].
  intros i Hi. unfold mirrored. apply H. lia.
Qed.

Lemma psi_of_ext P q1 q2 s m e k : (k <= cells P)%nat ->
  (forall i, (i < cells P)%nat -> q1 m i = q2 m i) ->
  psi_of P q1 s m e k = psi_of P q2 s m e k.
Proof.
  intros Hk H. unfold psi_of. destruct (Rlt_dec _ _).
  - apply (fwd_psi_ext (cells P)); [exact Hk|]. intros i Hi; rewrite H by exact Hi; auto.
  - apply (bwd_psi_ext (cells P)); [exact Hk|]. intros i Hi; rewrite H by exact Hi; auto.
Qed.

Lemma refl_at_ext P q1 q2 s b1 b2 nn :
  (nn <= angles P)%nat ->
  (forall m i, (m < angles P)%nat -> (i < cells P)%nat -> q1 m i = q2 m i) ->
  (forall m, (m < angles P)%nat -> b1 m = b2 m) ->
  refl_at P q1 s b1 nn = refl_at P q2 s b2 nn.
Proof.
  induction nn as [|nn IH]; intros Hn Hq Hb; [reflexivity|].
  cbn [refl_at]. rewrite IH by (lia || assumption). rewrite Hb by lia.
  f_equal. unfold out_of. apply psi_of_ext; [unfold outflow_edge; destruct (Rlt_dec _ _); lia|].
  intros i Hi. apply Hq; lia.
Qed.

Lemma Psi_ext P q1 q2 s b1 b2 m k :
  (m < angles P)%nat -> (k <= cells P)%nat ->
  (forall m i, (m < angles P)%nat -> (i < cells P)%nat -> q1 m i = q2 m i) ->
  (forall m, (m < angles P)%nat -> b1 m = b2 m) ->
  Psi P q1 s b1 m k = Psi P q2 s b2 m k.
Proof.
  intros Hm Hk Hq Hb. unfold Psi, inflow_at.
  rewrite (refl_at_ext P q1 q2 s b1 b2) by (lia || assumption). rewrite Hb by lia.
  apply psi_of_ext; [exact Hk|]. intros; apply Hq; assumption.
Qed.

Lemma pass_flux_ext P q1 q2 s b1 b2 edges :
  (forall m i, (m < angles P)%nat -> (i < cells P)%nat -> q1 m i = q2 m i) ->
  (forall m, (m < angles P)%nat -> b1 m = b2 m) ->
  pass_flux P q1 s b1 edges (angles P) = pass_flux P q2 s b2 edges (angles P).
Proof.
  intros Hq Hb. extensionality i. unfold pass_flux. apply rsum_ext. intros m Hm.
  unfold contrib. destruct (Nat.eqb edges 1).
  - destruct (Nat.leb_spec i (cells P)); [|reflexivity].
    rewrite (Psi_ext P q1 q2 s b1 b2) by assumption. reflexivity.
  - destruct (Nat.ltb_spec i (cells P)); [|reflexivity].
    rewrite (Psi_ext P q1 q2 s b1 b2 m i) by (assumption || lia).
    rewrite (Psi_ext P q1 q2 s b1 b2 m (S i)) by (assumption || lia). reflexivity.
Qed.

(** The pass only looks at the cells of the previous flux, and its result is zero outside. *)
Lemma slab_iso_pass_ext P xs_total xs_scatter off ext bnd edges f g :
  nonzero_ordinates (angles P) (mu P) ->
  (forall i, (i < cells P)%nat -> f i = g i) ->
  slab_iso_pass P xs_total xs_scatter off ext bnd edges f
  = slab_iso_pass P xs_total xs_scatter off ext bnd edges g.
Proof.
  intros Hnz H. rewrite !slab_iso_pass_ok by exact Hnz. f_equal. apply pass_flux_ext; [|reflexivity].
  intros m i Hm Hi. unfold iso_q, iso_source. rewrite H by exact Hi. reflexivity.
Qed.
