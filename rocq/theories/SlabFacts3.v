(** Slab proofs at the level of whole passes and drivers. *)
From Coq Require Import Lra Lia FunctionalExtensionality.
From Verif Require Import Base BaseFacts SlabModel SlabSpec SlabFacts SlabFacts2.
Open Scope R_scope.

Definition sig (P : sn) (xs : vec) : vec := fun i => xs (medium P i).

(** * C01 *)
Lemma forward_sweep P flux flux_old xs_total xs_scatter off ext inflow mu w edges out flux' :
  0 < mu -> divisors_ok (cells P) mu (dx P) (fun i => xs_total (medium P i)) ->
  slab_forward_iso P flux flux_old xs_total xs_scatter off ext inflow mu w edges = (out, flux') ->
  exists psi,
    dd_balance (cells P) mu (dx P) (fun i => xs_total (medium P i))
      (fun i => xs_scatter (medium P i) * flux_old i + ext i + off i) psi /\
    psi 0%nat = inflow /\ out = psi (cells P) /\
    (edges = 1%nat -> forall i,
       flux' i = flux i + (if Nat.leb i (cells P) then w * psi i else 0)) /\
    (edges <> 1%nat -> forall i,
       flux' i = flux i + (if Nat.ltb i (cells P) then w * ((psi i + psi (S i)) / 2) else 0)) /\
    (forall psi', dd_balance (cells P) mu (dx P) (fun i => xs_total (medium P i))
        (fun i => xs_scatter (medium P i) * flux_old i + ext i + off i) psi' ->
      psi' 0%nat = inflow -> forall k, (k <= cells P)%nat -> psi' k = psi k).
Proof.
  intros Hm Hd E.
  rewrite slab_forward_iso_eq in E.
  set (q := fun i => xs_scatter (medium P i) * flux_old i + ext i + off i) in *.
  set (psi := fwd_psi q (fun i => mu / dx P i) (half_sig P xs_total) inflow) in *.
  injection E as <- <-. exists psi.
  assert (Hb : dd_balance (cells P) mu (dx P) (fun i => xs_total (medium P i)) q psi).
  { apply fwd_psi_balance; [reflexivity|]. apply divisors_fwd; assumption. }
  split; [exact Hb|]. split; [reflexivity|]. split; [reflexivity|].
  split; [|split].
  - intros -> i. unfold psi. rewrite acc_contrib_fwd. reflexivity.
  - intros He i. unfold psi. rewrite acc_contrib_fwd. unfold contrib.
    apply Nat.eqb_neq in He. rewrite He. destruct (Nat.ltb i (cells P)); lra.
  - intros psi' Hb' H0 k Hk.
    apply (dd_unique_fwd (cells P) mu (dx P) (fun i => xs_total (medium P i)) q); try assumption.
    apply divisors_fwd; assumption.
Qed.

Lemma backward_sweep P flux flux_old xs_total xs_scatter off ext inflow mu w edges out flux' :
  mu < 0 -> divisors_ok (cells P) mu (dx P) (fun i => xs_total (medium P i)) ->
  slab_backward_iso P flux flux_old xs_total xs_scatter off ext inflow mu w edges = (out, flux') ->
  exists psi,
    dd_balance (cells P) mu (dx P) (fun i => xs_total (medium P i))
      (fun i => xs_scatter (medium P i) * flux_old i + ext i + off i) psi /\
    psi (cells P) = inflow /\ out = psi 0%nat /\
    (edges = 1%nat -> forall i,
       flux' i = flux i + (if Nat.leb i (cells P) then w * psi i else 0)) /\
    (edges <> 1%nat -> forall i,
       flux' i = flux i + (if Nat.ltb i (cells P) then w * ((psi i + psi (S i)) / 2) else 0)) /\
    (forall psi', dd_balance (cells P) mu (dx P) (fun i => xs_total (medium P i))
        (fun i => xs_scatter (medium P i) * flux_old i + ext i + off i) psi' ->
      psi' (cells P) = inflow -> forall k, (k <= cells P)%nat -> psi' k = psi k).
Proof.
  intros Hm Hd E.
  rewrite slab_backward_iso_eq in E.
  set (q := fun i => xs_scatter (medium P i) * flux_old i + ext i + off i) in *.
  set (psi := bwd_psi (cells P) q (fun i => - mu / dx P i) (half_sig P xs_total) inflow) in *.
  injection E as <- <-. exists psi.
  assert (Hb : dd_balance (cells P) mu (dx P) (fun i => xs_total (medium P i)) q psi).
  { apply bwd_psi_balance; [reflexivity|]. apply divisors_bwd; assumption. }
  split; [exact Hb|]. split; [apply bwd_psi_top|]. split; [reflexivity|].
  split; [|split].
  - intros -> i. unfold psi. rewrite acc_contrib_bwd. reflexivity.
  - intros He i. unfold psi. rewrite acc_contrib_bwd. unfold contrib.
    apply Nat.eqb_neq in He. rewrite He. destruct (Nat.ltb i (cells P)); lra.
  - intros psi' Hb' H0 k Hk.
    apply (dd_unique_bwd (cells P) mu (dx P) (fun i => xs_total (medium P i)) q); try assumption.
    + apply divisors_bwd; assumption.
    + unfold psi. rewrite bwd_psi_top. exact H0.
Qed.

(** * C02 *)
Lemma pass_conservation P xs_total xs_scatter off external boundary flux_old flux :
  nonzero_ordinates (angles P) (mu P) -> good_divisors P xs_total ->
  (forall i, (i < cells P)%nat -> dx P i <> 0) ->
  slab_iso_pass P xs_total xs_scatter off external boundary 0 flux_old = Ok flux ->
  exists psi,
    slab_transport (cells P) (angles P) (mu P) (wt P) (dx P) (fun i => xs_total (medium P i))
      (iso_source (medium P) xs_scatter off external flux_old)
      (fun m => reflected_in (cells P) (angles P) (mu P) (bc_left P) (bc_right P) psi m
                + boundary_in boundary (mu P) m)
      psi flux /\
    total_leakage (cells P) (angles P) (mu P) (wt P) psi
    + rsum (cells P) (fun i => dx P i * xs_total (medium P i) * flux i)
    = rsum (cells P) (fun i => dx P i *
        rsum (angles P) (fun m => wt P m * iso_source (medium P) xs_scatter off external flux_old m i)).
Proof.
  intros Hnz Hd Hdx E.
  destruct (slab_iso_pass_transport P xs_total xs_scatter off external boundary flux_old flux Hnz Hd E)
    as [psi H].
  exists psi. split; [exact H|].
  exact (transport_conservation _ _ _ _ _ _ _ _ _ _ Hdx H).
Qed.

Lemma driver_last_pass P xs_total xs_scatter off external boundary edges flux_old flux :
  slab_isotropic_sn P flux_old xs_total xs_scatter off external boundary edges = Ok flux ->
  exists prev, slab_iso_pass P xs_total xs_scatter off external boundary edges prev = Ok flux.
Proof.
  intros E. apply iterate_spec in E.
  destruct E as (m & x & Hm1 & _ & _ & -> & Hs & _).
  exists (x (m - 1)%nat). rewrite Hs by lia. do 2 f_equal. lia.
Qed.

Lemma fixed_point_balance P xs_total xs_scatter off external boundary flux :
  nonzero_ordinates (angles P) (mu P) -> good_divisors P xs_total ->
  (forall i, (i < cells P)%nat -> dx P i <> 0) ->
  slab_iso_pass P xs_total xs_scatter off external boundary 0 flux = Ok flux ->
  exists psi,
    slab_transport (cells P) (angles P) (mu P) (wt P) (dx P) (fun i => xs_total (medium P i))
      (iso_source (medium P) xs_scatter off external flux)
      (fun m => reflected_in (cells P) (angles P) (mu P) (bc_left P) (bc_right P) psi m
                + boundary_in boundary (mu P) m)
      psi flux /\
    total_leakage (cells P) (angles P) (mu P) (wt P) psi
    + rsum (cells P) (fun i => dx P i *
        (xs_total (medium P i) - rsum (angles P) (wt P) * xs_scatter (medium P i)) * flux i)
    = rsum (cells P) (fun i => dx P i *
        (rsum (angles P) (wt P) * off i
         + rsum (angles P) (fun m => wt P m * at2 external i (bidx (cols2 external) m)))).
Proof.
  intros Hnz Hd Hdx E. destruct (pass_conservation _ _ _ _ _ _ _ _ Hnz Hd Hdx E) as (psi & HT & HC).
  exists psi. split; [exact HT|].
  rewrite (rsum_ext (cells P) (fun i => dx P i * rsum (angles P)
             (fun m => wt P m * iso_source (medium P) xs_scatter off external flux m i))
           (fun i => dx P i * (rsum (angles P) (wt P) * xs_scatter (medium P i)) * flux i
              + dx P i * (rsum (angles P) (wt P) * off i
         + rsum (angles P) (fun m => wt P m * at2 external i (bidx (cols2 external) m))))) in HC.
  2:{ intros i Hi. unfold iso_source.
      rewrite (rsum_ext (angles P) _ (fun m => wt P m * (xs_scatter (medium P i) * flux i + off i)
                 + wt P m * at2 external i (bidx (cols2 external) m))) by (intros; ring).
      rewrite rsum_plus, rsum_scal_r. ring. }
  rewrite rsum_plus in HC.
  rewrite (rsum_ext (cells P) (fun i => dx P i *
        (xs_total (medium P i) - rsum (angles P) (wt P) * xs_scatter (medium P i)) * flux i)
        (fun i => dx P i * xs_total (medium P i) * flux i -
           dx P i * (rsum (angles P) (wt P) * xs_scatter (medium P i)) * flux i)) by (intros; ring).
  rewrite rsum_minus. lra.
Qed.

(** * C03 *)
Lemma pass_flux_outside P q s b edges k i : (cells P < i)%nat -> pass_flux P q s b edges k i = 0.
Proof.
  intros Hi. unfold pass_flux. apply rsum_zero_ext. intros m _. unfold contrib.
  destruct (Nat.eqb edges 1); [destruct (Nat.leb_spec i (cells P))|destruct (Nat.ltb_spec i (cells P))];
    try lia; reflexivity.
Qed.

Lemma pass_flat P xs_total xs_scatter off external boundary flux_old c :
  let W := rsum (angles P) (wt P) in
  nonzero_ordinates (angles P) (mu P) -> good_divisors P xs_total ->
  (forall i, (i < cells P)%nat -> flux_old i = W * c) ->
  (forall m i, (m < angles P)%nat -> (i < cells P)%nat ->
     xs_total (medium P i) * c
     = xs_scatter (medium P i) * (W * c) + at2 external i (bidx (cols2 external) m) + off i) ->
  (forall m, (m < angles P)%nat ->
     boundary_in boundary (mu P) m =
     if andb (Nat.ltb (angles P - m - 1) m)
             (leaves_reflective (mu P) (bc_left P) (bc_right P) (angles P - m - 1)) then 0 else c) ->
  exists flux,
    slab_iso_pass P xs_total xs_scatter off external boundary 0 flux_old = Ok flux /\
    forall i, (i < cells P)%nat -> flux i = W * c.
Proof.
  intros W Hnz Hd Hf Hq Hb. eexists. split; [apply slab_iso_pass_ok; exact Hnz|].
  intros i Hi. rewrite pass_flux_center by exact Hi.
  rewrite (rsum_ext (angles P) _ (fun m => wt P m * c)); [apply rsum_scal_r|].
  intros m Hm.
  assert (G : forall k, (k <= cells P)%nat ->
     Psi P (iso_q P xs_scatter off external flux_old) (half_sig P xs_total)
       (boundary_in boundary (mu P)) m k = c).
  { intros k Hk. apply Psi_flat; try assumption.
    - intros m' i' Hm' Hi'. destruct (Hd m' Hm' i' Hi') as [_ H]. unfold half_sig. lra.
    - intros m' i' Hm' Hi'. unfold iso_q, iso_source, half_sig. rewrite Hf by exact Hi'.
      rewrite <- (Hq m' i' Hm' Hi'). lra. }
  rewrite !G by lia. lra.
Qed.

Lemma driver_flat P xs_total xs_scatter off external boundary flux_old c :
  let W := rsum (angles P) (wt P) in
  nonzero_ordinates (angles P) (mu P) -> good_divisors P xs_total -> W * c <> 0 ->
  (forall i, (i < cells P)%nat -> flux_old i = W * c) ->
  (forall m i, (m < angles P)%nat -> (i < cells P)%nat ->
     xs_total (medium P i) * c
     = xs_scatter (medium P i) * (W * c) + at2 external i (bidx (cols2 external) m) + off i) ->
  (forall m, (m < angles P)%nat ->
     boundary_in boundary (mu P) m =
     if andb (Nat.ltb (angles P - m - 1) m)
             (leaves_reflective (mu P) (bc_left P) (bc_right P) (angles P - m - 1)) then 0 else c) ->
  exists flux,
    slab_isotropic_sn P flux_old xs_total xs_scatter off external boundary 0 = Ok flux /\
    forall i, (i < cells P)%nat -> flux i = W * c.
Proof.
  intros W Hnz Hd Hc Hf Hq Hb.
  destruct (pass_flat P xs_total xs_scatter off external boundary flux_old c Hnz Hd Hf Hq Hb)
    as (flux & E & Hflux).
  exists flux. split; [|exact Hflux].
  unfold slab_isotropic_sn. change count_nn with (S 99). cbn [iterate]. rewrite E. cbn [bind].
  replace (rel_change (cells P) flux flux_old) with (Some 0).
  - simpl. destruct (Rlt_dec 0 change_nn) as [_|H]; [reflexivity|].
    exfalso. apply H. unfold change_nn. apply Rinv_0_lt_compat. apply pow_lt. lra.
  - symmetry. unfold rel_change.
    assert (Hz : has_zero (cells P) flux = false).
    { apply has_zero_false. intros i Hi. rewrite Hflux by exact Hi. exact Hc. }
    rewrite Hz. f_equal. rewrite rsum_zero_ext; [apply sqrt_0|].
    intros i Hi. rewrite Hflux, Hf by exact Hi. rewrite Rminus_diag_eq by reflexivity.
    unfold Rdiv, Rsqr. ring.
Qed.

(** * C04 *)
Lemma pass_nonneg P xs_total xs_scatter off external boundary edges flux_old flux :
  nonzero_ordinates (angles P) (mu P) ->
  (forall m, (m < angles P)%nat -> 0 <= wt P m) ->
  (forall i, (i < cells P)%nat -> 0 < dx P i /\ 0 <= xs_total (medium P i) /\ 0 <= xs_scatter (medium P i)
      /\ 0 <= off i /\ 0 <= flux_old i) ->
  (forall m i, (m < angles P)%nat -> (i < cells P)%nat ->
      dx P i * xs_total (medium P i) <= 2 * Rabs (mu P m) /\
      0 <= at2 external i (bidx (cols2 external) m)) ->
  (forall m, (m < angles P)%nat -> 0 <= boundary_in boundary (mu P) m) ->
  slab_iso_pass P xs_total xs_scatter off external boundary edges flux_old = Ok flux ->
  forall i, 0 <= flux i.
Proof.
  intros Hnz Hw Hpos Hmesh Hb E i. rewrite slab_iso_pass_ok in E by exact Hnz. injection E as <-.
  unfold pass_flux. apply rsum_nonneg. intros m Hm.
  assert (G : forall k, (k <= cells P)%nat ->
     0 <= Psi P (iso_q P xs_scatter off external flux_old) (half_sig P xs_total)
       (boundary_in boundary (mu P)) m k).
  { intros k Hk. apply Psi_nonneg; try assumption. intros m' i' Hm' Hi'.
    destruct (Hpos i' Hi') as (H1 & H2 & H3 & H4 & H5). destruct (Hmesh m' i' Hm' Hi') as [H6 H7].
    unfold iso_q, iso_source, half_sig. repeat split; try assumption.
    - assert (0 <= xs_scatter (medium P i') * flux_old i') by (apply Rmult_le_pos; assumption). lra.
    - lra.
    - apply (Rmult_le_reg_r (dx P i')); [exact H1|].
      replace (Rabs (mu P m') / dx P i' * dx P i') with (Rabs (mu P m')) by (field; lra). lra. }
  specialize (Hw m Hm). unfold contrib. destruct (Nat.eqb edges 1).
  - destruct (Nat.leb_spec i (cells P)); [|lra]. apply Rmult_le_pos; [exact Hw|]. apply G; assumption.
  - destruct (Nat.ltb_spec i (cells P)); [|lra]. apply Rmult_le_pos; [lra|].
    assert (A := G i ltac:(lia)). assert (B := G (S i) ltac:(lia)). lra.
Qed.

Lemma driver_nonneg P xs_total xs_scatter off external boundary flux_old flux :
  nonzero_ordinates (angles P) (mu P) ->
  (forall m, (m < angles P)%nat -> 0 <= wt P m) ->
  (forall i, (i < cells P)%nat -> 0 < dx P i /\ 0 <= xs_total (medium P i) /\ 0 <= xs_scatter (medium P i)
      /\ 0 <= off i /\ 0 <= flux_old i) ->
  (forall m i, (m < angles P)%nat -> (i < cells P)%nat ->
      dx P i * xs_total (medium P i) <= 2 * Rabs (mu P m) /\
      0 <= at2 external i (bidx (cols2 external) m)) ->
  (forall m, (m < angles P)%nat -> 0 <= boundary_in boundary (mu P) m) ->
  slab_isotropic_sn P flux_old xs_total xs_scatter off external boundary 0 = Ok flux ->
  forall i, (i < cells P)%nat -> 0 <= flux i.
Proof.
  intros Hnz Hw Hpos Hmesh Hb E. apply iterate_spec in E.
  destruct E as (m & x & Hm1 & _ & H0 & -> & Hs & _).
  assert (G : forall k, (k <= m)%nat -> forall i, (i < cells P)%nat -> 0 <= x k i).
  { induction k as [|k IH]; intros Hk i Hi; [rewrite H0; apply Hpos; exact Hi|].
    apply (pass_nonneg P xs_total xs_scatter off external boundary 0 (x k)); try assumption.
    - intros j Hj. destruct (Hpos j Hj) as (H1 & H2 & H3 & H4 & _). repeat split; try assumption.
      apply IH; [lia|exact Hj].
    - apply Hs. lia. }
  apply G. lia.
Qed.

(** * C05 *)
Lemma contrib_linear n edges w a b p1 p2 i :
  contrib n edges w (fun k => a * p1 k + b * p2 k) i
  = a * contrib n edges w p1 i + b * contrib n edges w p2 i.
Proof.
  unfold contrib. destruct (Nat.eqb edges 1);
    [destruct (Nat.leb i n)|destruct (Nat.ltb i n)]; ring.
Qed.

Lemma pass_linear P xs_total xs_scatter off1 off2 cE cB e1 e2 b1 b2 edges f1 f2 r1 r2 a b :
  slab_iso_pass P xs_total xs_scatter off1 (mkArr2 cE e1) (mkArr2 cB b1) edges f1 = Ok r1 ->
  slab_iso_pass P xs_total xs_scatter off2 (mkArr2 cE e2) (mkArr2 cB b2) edges f2 = Ok r2 ->
  slab_iso_pass P xs_total xs_scatter (fun i => a * off1 i + b * off2 i)
    (mkArr2 cE (fun i j => a * e1 i j + b * e2 i j)) (mkArr2 cB (fun i j => a * b1 i j + b * b2 i j))
    edges (fun i => a * f1 i + b * f2 i)
  = Ok (fun i => a * r1 i + b * r2 i).
Proof.
  intros E1 E2.
  assert (Hnz : nonzero_ordinates (angles P) (mu P)).
  { intros m Hm Hz.
    assert (Habs : slab_iso_pass P xs_total xs_scatter off1 (mkArr2 cE e1) (mkArr2 cB b1) edges f1
            = Raise DiscontinuityAt0).
    { unfold slab_iso_pass. rewrite (for_up_err_raise (angles P) _ _ m DiscontinuityAt0); [reflexivity|exact Hm| |].
      - intros [fl rf]. destruct (Rlt_dec 0 (mu P m)), (Rlt_dec (mu P m) 0); try lra. reflexivity.
      - intros j [fl rf] e' _. destruct (Rlt_dec 0 (mu P j)).
        + destruct (slab_forward_iso _ _ _ _ _ _ _ _ _ _ _); discriminate.
        + destruct (Rlt_dec (mu P j) 0).
          * destruct (slab_backward_iso _ _ _ _ _ _ _ _ _ _ _); discriminate.
          * intros E; injection E as <-; reflexivity. }
    rewrite Habs in E1. discriminate. }
  rewrite slab_iso_pass_ok in E1, E2 by exact Hnz. injection E1 as <-. injection E2 as <-.
  rewrite slab_iso_pass_ok by exact Hnz. f_equal. extensionality i. unfold pass_flux.
  rewrite <- !rsum_scal, <- rsum_plus. apply rsum_ext. intros m Hm.
  rewrite <- contrib_linear. f_equal. extensionality k.
  rewrite <- Psi_linear. f_equal.
  extensionality m'. extensionality i'. unfold iso_q, iso_source; cbn [at2 cols2]. ring.
Qed.

Lemma kernel_linear_fwd P f1 f2 fo1 fo2 xs_total xs_scatter off1 off2 ext1 ext2 e1 e2 mu w edges a b :
  let k f fo off ext e := slab_forward_iso P f fo xs_total xs_scatter off ext e mu w edges in
  k (lin a b f1 f2) (lin a b fo1 fo2) (lin a b off1 off2) (lin a b ext1 ext2) (a * e1 + b * e2)
  = (a * fst (k f1 fo1 off1 ext1 e1) + b * fst (k f2 fo2 off2 ext2 e2),
     lin a b (snd (k f1 fo1 off1 ext1 e1)) (snd (k f2 fo2 off2 ext2 e2))).
Proof.
  intros k. unfold k. rewrite !slab_forward_iso_eq. cbn [fst snd].
  assert (Hpsi : forall j, fwd_psi (fun i => xs_scatter (medium P i) * lin a b fo1 fo2 i + lin a b ext1 ext2 i + lin a b off1 off2 i)
            (fun i => mu / dx P i) (half_sig P xs_total) (a * e1 + b * e2) j
          = a * fwd_psi (fun i => xs_scatter (medium P i) * fo1 i + ext1 i + off1 i) (fun i => mu / dx P i) (half_sig P xs_total) e1 j
          + b * fwd_psi (fun i => xs_scatter (medium P i) * fo2 i + ext2 i + off2 i) (fun i => mu / dx P i) (half_sig P xs_total) e2 j).
  { intros j. rewrite <- fwd_psi_linear. f_equal. extensionality i. unfold lin. ring. }
  f_equal; [apply Hpsi|]. extensionality i.
  match goal with |- _ = lin _ _ ?X ?Y i => change (lin a b X Y i) with (a * X i + b * Y i) end.
  rewrite !acc_contrib_fwd.
  rewrite (functional_extensionality _ _ Hpsi). rewrite contrib_linear. unfold lin. ring.
Qed.

Lemma kernel_linear_bwd P f1 f2 fo1 fo2 xs_total xs_scatter off1 off2 ext1 ext2 e1 e2 mu w edges a b :
  let k f fo off ext e := slab_backward_iso P f fo xs_total xs_scatter off ext e mu w edges in
  k (lin a b f1 f2) (lin a b fo1 fo2) (lin a b off1 off2) (lin a b ext1 ext2) (a * e1 + b * e2)
  = (a * fst (k f1 fo1 off1 ext1 e1) + b * fst (k f2 fo2 off2 ext2 e2),
     lin a b (snd (k f1 fo1 off1 ext1 e1)) (snd (k f2 fo2 off2 ext2 e2))).
Proof.
  intros k. unfold k. rewrite !slab_backward_iso_eq. cbn [fst snd].
  assert (Hpsi : forall j, bwd_psi (cells P) (fun i => xs_scatter (medium P i) * lin a b fo1 fo2 i + lin a b ext1 ext2 i + lin a b off1 off2 i)
            (fun i => - mu / dx P i) (half_sig P xs_total) (a * e1 + b * e2) j
          = a * bwd_psi (cells P) (fun i => xs_scatter (medium P i) * fo1 i + ext1 i + off1 i) (fun i => - mu / dx P i) (half_sig P xs_total) e1 j
          + b * bwd_psi (cells P) (fun i => xs_scatter (medium P i) * fo2 i + ext2 i + off2 i) (fun i => - mu / dx P i) (half_sig P xs_total) e2 j).
  { intros j. rewrite <- bwd_psi_linear. f_equal. extensionality i. unfold lin. ring. }
  f_equal; [apply Hpsi|]. extensionality i.
  match goal with |- _ = lin _ _ ?X ?Y i => change (lin a b X Y i) with (a * X i + b * Y i) end.
  rewrite !acc_contrib_bwd.
  rewrite (functional_extensionality _ _ Hpsi). rewrite contrib_linear. unfold lin. ring.
Qed.

(** * C08 *)
Lemma pass_zero_ordinate P xs_total xs_scatter off external boundary edges flux_old m :
  (m < angles P)%nat -> mu P m = 0 ->
  slab_iso_pass P xs_total xs_scatter off external boundary edges flux_old = Raise DiscontinuityAt0.
Proof.
  intros Hm Hz. unfold slab_iso_pass.
  rewrite (for_up_err_raise (angles P) _ _ m DiscontinuityAt0); [reflexivity|exact Hm| |].
  - intros [fl rf]. destruct (Rlt_dec 0 (mu P m)), (Rlt_dec (mu P m) 0); try lra. reflexivity.
  - intros j [fl rf] e' _. destruct (Rlt_dec 0 (mu P j)).
    + destruct (slab_forward_iso _ _ _ _ _ _ _ _ _ _ _); discriminate.
    + destruct (Rlt_dec (mu P j) 0).
      * destruct (slab_backward_iso _ _ _ _ _ _ _ _ _ _ _); discriminate.
      * intros E; injection E as <-; reflexivity.
Qed.

Lemma driver_zero_ordinate P flux_old xs_total xs_scatter off external boundary edges m :
  (m < angles P)%nat -> mu P m = 0 ->
  slab_isotropic_sn P flux_old xs_total xs_scatter off external boundary edges = Raise DiscontinuityAt0.
Proof.
  intros Hm Hz. unfold slab_isotropic_sn. change count_nn with (S 99). cbn [iterate].
  rewrite (pass_zero_ordinate P _ _ _ _ _ _ _ m Hm Hz). reflexivity.
Qed.

(** * C09, C10 *)
Lemma pass_ok_nonzero P xs_total xs_scatter off external boundary edges flux_old r :
  slab_iso_pass P xs_total xs_scatter off external boundary edges flux_old = Ok r ->
  nonzero_ordinates (angles P) (mu P).
Proof.
  intros E m Hm Hz. rewrite (pass_zero_ordinate P _ _ _ _ _ _ _ m Hm Hz) in E. discriminate.
Qed.

Lemma change_nn_pos : 0 < change_nn.
Proof. unfold change_nn. apply Rinv_0_lt_compat, pow_lt. lra. Qed.

Lemma driver_total P flux_old xs_total xs_scatter off external boundary edges :
  nonzero_ordinates (angles P) (mu P) ->
  exists flux, slab_isotropic_sn P flux_old xs_total xs_scatter off external boundary edges = Ok flux.
Proof.
  intros Hnz. unfold slab_isotropic_sn.
  assert (G : forall fuel count old, (count_nn - count < fuel)%nat ->
    exists flux, iterate fuel (slab_iso_pass P xs_total xs_scatter off external boundary edges)
      (rel_change (cells P)) change_nn count_nn count old = Ok flux).
  { induction fuel as [|fuel IH]; intros count old Hf; [lia|].
    cbn [iterate]. rewrite slab_iso_pass_ok by exact Hnz. cbn [bind].
    destruct (below _ _); cbn [orb]; [eauto|].
    destruct (Nat.leb_spec count_nn count); [eauto|]. apply IH. lia. }
  apply G. unfold count_nn. lia.
Qed.

Lemma driver_fixed_point P xs_total xs_scatter off external boundary flux :
  slab_iso_pass P xs_total xs_scatter off external boundary 0 flux = Ok flux ->
  (forall i, (i < cells P)%nat -> flux i <> 0) ->
  slab_isotropic_sn P flux xs_total xs_scatter off external boundary 0 = Ok flux.
Proof.
  intros E Hz. unfold slab_isotropic_sn. change count_nn with (S 99) at 1.
  apply iterate_fixed; [exact E|apply rel_change_same; exact Hz|apply change_nn_pos].
Qed.

Lemma driver_trace P flux_old xs_total xs_scatter off external boundary edges flux :
  slab_isotropic_sn P flux_old xs_total xs_scatter off external boundary edges = Ok flux ->
  exists n x,
    (1 <= n <= 100)%nat /\ x 0%nat = flux_old /\ flux = x n /\
    (forall k, (k < n)%nat ->
       slab_iso_pass P xs_total xs_scatter off external boundary edges (x k) = Ok (x (S k))) /\
    (forall k c, (0 < k < n)%nat -> rel_change (cells P) (x k) (x (k - 1)%nat) = Some c ->
       change_nn <= c) /\
    ((n < 100)%nat ->
       (exists c, rel_change (cells P) (x n) (x (n - 1)%nat) = Some c /\ c < change_nn) /\
       (forall i, (i < cells P)%nat -> flux i <> 0)).
Proof.
  intros E. pose proof E as E'. apply iterate_spec in E.
  destruct E as (m & x & Hm1 & Hm2 & H0 & Hr & Hs & Hnc & Hend).
  exists m, x. split; [unfold count_nn in *; lia|]. split; [exact H0|]. split; [exact Hr|].
  split; [exact Hs|]. split.
  - intros k c Hk Hc. specialize (Hnc k Hk). rewrite Hc in Hnc. simpl in Hnc.
    destruct (Rlt_dec c change_nn); [discriminate|lra].
  - intros Hlt. destruct Hend as [Hb|Hcap]; [|unfold count_nn in *; lia].
    apply below_true in Hb. destruct Hb as (c & Hc & Hlt').
    split; [eauto|]. intros i Hi Hz. unfold rel_change in Hc.
    assert (Hz' : has_zero (cells P) (x m) = true).
    { apply has_zero_spec. exists i. split; [exact Hi|]. rewrite <- Hr. exact Hz. }
    rewrite Hz' in Hc. discriminate.
Qed.

Lemma driver_exit P flux_old xs_total xs_scatter off external boundary edges flux :
  slab_isotropic_sn P flux_old xs_total xs_scatter off external boundary edges = Ok flux ->
  exists n x,
    (1 <= n <= 100)%nat /\ x 0%nat = flux_old /\ flux = x n /\
    (forall k, (k < n)%nat ->
       slab_iso_pass P xs_total xs_scatter off external boundary edges (x k) = Ok (x (S k))) /\
    (forall k, (0 < k < n)%nat -> ~ settled (cells P) (x k) (x (k - 1)%nat) (/ 10 ^ 12)) /\
    ((n < 100)%nat -> settled (cells P) (x n) (x (n - 1)%nat) (/ 10 ^ 12)).
Proof.
  intros E. apply iterate_spec in E.
  destruct E as (m & x & Hm1 & Hm2 & H0 & Hr & Hs & Hnc & Hend). change count_nn with 100%nat in *.
  exists m, x. split; [lia|]. split; [exact H0|]. split; [exact Hr|].
  split; [exact Hs|]. split.
  - intros k Hk. apply below_unsettled, Hnc, Hk.
  - intros Hlt. destruct Hend as [Hb|Hcap]; [|lia]. apply below_settled, Hb.
Qed.
