(** Slab proofs: known-source sweep, DJINN scatter sweep, anisotropic sweep. *)
From Coq Require Import Lra Lia FunctionalExtensionality.
From Verif Require Import Base BaseFacts Contraction SlabModel SlabSpec SlabFacts SlabFacts2 SlabFacts3 SlabFacts4.
Open Scope R_scope.

(** * Known source *)
Definition known_q (source : arr2) : mat2 := fun m i => at2 source i (bidx (cols2 source) m).

Definition kc (P : sn) (q : mat2) (s b : vec) (edges : nat) (w : R) (m i : nat) : R :=
  if Req_EM_T (mu P m) 0 then 0 else contrib (cells P) edges w (Psi P q s b m) i.

Definition known_acc (P : sn) (q : mat2) (s b : vec) (edges xdim : nat) (flux0 : mat2) (k : nat) : mat2 :=
  fun i c => flux0 i c +
    (if Nat.eqb xdim 1 then (if Nat.eqb c 0 then rsum k (fun m => kc P q s b edges (wt P m) m i) else 0)
     else (if Nat.ltb c k then kc P q s b edges 1 c i else 0)).

Lemma known_closed P flux0 xdim xs_total source boundary edges :
  slab_known_source_sn P flux0 xdim xs_total source boundary edges
  = known_acc P (known_q source) (half_sig P xs_total) (boundary_in boundary (mu P)) edges xdim flux0 (angles P).
Proof.
  unfold slab_known_source_sn.
  set (q := known_q source). set (s := half_sig P xs_total). set (b := boundary_in boundary (mu P)).
  match goal with |- context [for_up (angles P) ?f _] => set (body := f) end.
  assert (H : forall k, exists e, for_up k body (flux0, zeros, 0)
            = (known_acc P q s b edges xdim flux0 k, refl_at P q s b k, e)).
  { induction k as [|k [e IH]].
    - exists 0. simpl. f_equal. f_equal. extensionality i. extensionality c. unfold known_acc. simpl.
      destruct (Nat.eqb xdim 1), (Nat.eqb c 0); lra.
    - cbn [for_up]. rewrite IH. unfold body at 1.
      assert (Hq : (fun i => zeros (medium P i) * zeros i + at2 source i (bidx (cols2 source) k) + zeros i) = q k).
      { extensionality i. unfold zeros, q, known_q. ring. }
      set (col := if Nat.eqb xdim 1 then 0%nat else k).
      set (w := if Nat.eqb xdim 1 then wt P k else 1).
      assert (Hacc : forall psi, Psi P q s b k = psi -> mu P k <> 0 ->
         set_col (known_acc P q s b edges xdim flux0 k) col
           (fun i => known_acc P q s b edges xdim flux0 k i col + contrib (cells P) edges w psi i)
         = known_acc P q s b edges xdim flux0 (S k)).
      { intros psi Hpsi Hmu. extensionality i. extensionality c.
        unfold set_col, known_acc, col, w. cbn [rsum].
        assert (Hkc : forall w', kc P q s b edges w' k i = contrib (cells P) edges w' psi i).
        { intros w'. unfold kc. rewrite Hpsi. destruct (Req_EM_T (mu P k) 0); [contradiction|reflexivity]. }
        rewrite Hkc. destruct (Nat.eqb xdim 1).
        - destruct (Nat.eqb_spec c 0) as [->|Hc]; [cbn [Nat.eqb]; ring|reflexivity].
        - destruct (Nat.eqb_spec c k) as [->|Hc].
          + rewrite Nat.ltb_irrefl. replace (k <? S k)%nat with true by (symmetry; apply Nat.ltb_lt; lia).
            rewrite Hkc. ring.
          + destruct (Nat.ltb_spec c k), (Nat.ltb_spec c (S k)); try lia; reflexivity. }
      destruct (Rlt_dec 0 (mu P k)) as [Hp|Hp].
      + rewrite forward_kernel by exact Hp. rewrite Hq. fold s.
        assert (Hb : at2 boundary 0%nat (bidx (cols2 boundary) k) = b k).
        { unfold b, boundary_in. destruct (Rlt_dec 0 (mu P k)); [reflexivity|contradiction]. }
        rewrite Hb.
        assert (Hpsi : Psi P q s b k = fwd_psi (q k) (fun i => mu P k / dx P i) s (refl_at P q s b k k + b k)).
        { unfold Psi, psi_of, inflow_at. destruct (Rlt_dec 0 (mu P k)); [reflexivity|contradiction]. }
        eexists. cbv zeta. rewrite (Hacc _ Hpsi) by lra. f_equal. f_equal. cbn [refl_at]. f_equal.
        unfold out_of, psi_of, outflow_edge. destruct (Rlt_dec 0 (mu P k)); [reflexivity|contradiction].
      + destruct (Rlt_dec (mu P k) 0) as [Hn|Hn].
        * rewrite backward_kernel by exact Hn. rewrite Hq. fold s.
          assert (Hb : at2 boundary 1%nat (bidx (cols2 boundary) k) = b k).
          { unfold b, boundary_in. destruct (Rlt_dec 0 (mu P k)); [contradiction|reflexivity]. }
          rewrite Hb.
          assert (Hpsi : Psi P q s b k = bwd_psi (cells P) (q k) (fun i => - mu P k / dx P i) s (refl_at P q s b k k + b k)).
          { unfold Psi, psi_of, inflow_at. destruct (Rlt_dec 0 (mu P k)); [contradiction|reflexivity]. }
          eexists. cbv zeta. rewrite (Hacc _ Hpsi) by lra. f_equal. f_equal. cbn [refl_at]. f_equal.
          unfold out_of, psi_of, outflow_edge. destruct (Rlt_dec 0 (mu P k)); [contradiction|reflexivity].
        * assert (Hz : mu P k = 0) by lra. exists e. f_equal. f_equal.
          -- extensionality i. extensionality c. unfold known_acc. cbn [rsum].
             assert (Hkc : forall w', kc P q s b edges w' k i = 0).
             { intros w'. unfold kc. destruct (Req_EM_T (mu P k) 0); [reflexivity|contradiction]. }
             rewrite Hkc. destruct (Nat.eqb xdim 1).
             ++ destruct (Nat.eqb c 0); ring.
             ++ destruct (Nat.ltb_spec c k), (Nat.ltb_spec c (S k)); try lia; try reflexivity.
                replace c with k by lia. rewrite Hkc. reflexivity.
          -- cbn [refl_at]. rewrite !reflector_corrector_spec.
             assert (Hl : leaves_reflective (mu P) (bc_left P) (bc_right P) k = false).
             { unfold leaves_reflective. destruct (Rlt_dec 0 (mu P k)), (Rlt_dec (mu P k) 0); try lra; reflexivity. }
             rewrite Hl. reflexivity. }
  destruct (H (angles P)) as [e E]. rewrite E. reflexivity.
Qed.

Lemma contrib_weight n edges w psi i : contrib n edges w psi i = w * contrib n edges 1 psi i.
Proof.
  unfold contrib. destruct (Nat.eqb edges 1); [destruct (Nat.leb i n)|destruct (Nat.ltb i n)]; ring.
Qed.

Lemma kc_weight P q s b edges w m i : kc P q s b edges w m i = w * kc P q s b edges 1 m i.
Proof. unfold kc. destruct (Req_EM_T (mu P m) 0); [ring|apply contrib_weight]. Qed.

Lemma known_scalar_angular P xs_total source boundary edges i :
  angles P <> 1%nat ->
  slab_known_source_sn P zeros2 1 xs_total source boundary edges i 0%nat
  = rsum (angles P) (fun m => wt P m *
      slab_known_source_sn P zeros2 (angles P) xs_total source boundary edges i m).
Proof.
  intros Ha. rewrite !known_closed. unfold known_acc. cbn [Nat.eqb].
  apply Nat.eqb_neq in Ha. rewrite Ha. unfold zeros2. rewrite Rplus_0_l.
  apply rsum_ext. intros m Hm. apply Nat.ltb_lt in Hm. rewrite Hm.
  rewrite kc_weight. ring.
Qed.

Lemma known_center_edge P xs_total source boundary i m :
  angles P <> 1%nat -> (m < angles P)%nat -> (i < cells P)%nat ->
  slab_known_source_sn P zeros2 (angles P) xs_total source boundary 0 i m
  = (slab_known_source_sn P zeros2 (angles P) xs_total source boundary 1 i m
     + slab_known_source_sn P zeros2 (angles P) xs_total source boundary 1 (S i) m) / 2.
Proof.
  intros Ha Hm Hi. rewrite !known_closed. unfold known_acc.
  apply Nat.eqb_neq in Ha. rewrite Ha. apply Nat.ltb_lt in Hm. rewrite Hm. unfold zeros2.
  unfold kc. destruct (Req_EM_T (mu P m) 0); [lra|]. unfold contrib. cbn [Nat.eqb].
  destruct (Nat.ltb_spec i (cells P)), (Nat.leb_spec i (cells P)), (Nat.leb_spec (S i) (cells P)); try lia.
  lra.
Qed.

Lemma known_zero_column P flux0 xs_total source boundary edges i m :
  angles P <> 1%nat -> mu P m = 0 ->
  slab_known_source_sn P flux0 (angles P) xs_total source boundary edges i m = flux0 i m.
Proof.
  intros Ha Hz. rewrite known_closed. unfold known_acc.
  apply Nat.eqb_neq in Ha. rewrite Ha. destruct (Nat.ltb m (angles P)); [|ring].
  unfold kc. destruct (Req_EM_T (mu P m) 0); [ring|contradiction].
Qed.

(** Known-source angular flux solves the transport equations. *)
Lemma known_transport P xs_total source boundary :
  angles P <> 1%nat -> nonzero_ordinates (angles P) (mu P) -> good_divisors P xs_total ->
  exists psi,
    slab_transport (cells P) (angles P) (mu P) (wt P) (dx P) (fun i => xs_total (medium P i))
      (fun m i => at2 source i (bidx (cols2 source) m))
      (fun m => reflected_in (cells P) (angles P) (mu P) (bc_left P) (bc_right P) psi m
                + boundary_in boundary (mu P) m)
      psi (fun i => slab_known_source_sn P zeros2 1 xs_total source boundary 0 i 0%nat) /\
    (forall m k, (m < angles P)%nat -> (k <= cells P)%nat ->
       slab_known_source_sn P zeros2 (angles P) xs_total source boundary 1 k m = psi m k) /\
    (forall m i, (m < angles P)%nat -> (i < cells P)%nat ->
       slab_known_source_sn P zeros2 (angles P) xs_total source boundary 0 i m = (psi m i + psi m (S i)) / 2).
Proof.
  intros Ha Hnz Hd.
  set (psi := Psi P (known_q source) (half_sig P xs_total) (boundary_in boundary (mu P))).
  assert (Hkc : forall edges m i w, (m < angles P)%nat ->
     kc P (known_q source) (half_sig P xs_total) (boundary_in boundary (mu P)) edges w m i
     = contrib (cells P) edges w (psi m) i).
  { intros edges m i w Hm. unfold kc. specialize (Hnz m Hm). destruct (Req_EM_T (mu P m) 0); [contradiction|reflexivity]. }
  assert (Ha' := Ha). apply Nat.eqb_neq in Ha'.
  exists psi. split; [split; [|split]|split].
  - intros m Hm. apply Psi_balance; auto.
  - intros m Hm. unfold psi. rewrite Psi_inflow. apply inflow_at_spec. exact Hm.
  - intros i Hi. rewrite known_closed. unfold known_acc. cbn [Nat.eqb]. unfold zeros2. rewrite Rplus_0_l.
    apply rsum_ext. intros m Hm. rewrite Hkc by exact Hm. unfold contrib. cbn [Nat.eqb].
    apply Nat.ltb_lt in Hi. rewrite Hi. lra.
  - intros m k Hm Hk. rewrite known_closed. unfold known_acc. rewrite Ha'. unfold zeros2.
    rewrite Hkc by exact Hm. apply Nat.ltb_lt in Hm. rewrite Hm. unfold contrib. cbn [Nat.eqb].
    apply Nat.leb_le in Hk. rewrite Hk. ring.
  - intros m i Hm Hi. rewrite known_closed. unfold known_acc. rewrite Ha'. unfold zeros2.
    rewrite Hkc by exact Hm. apply Nat.ltb_lt in Hm. rewrite Hm. unfold contrib. cbn [Nat.eqb].
    apply Nat.ltb_lt in Hi. rewrite Hi. lra.
Qed.

(** * Scatter sweep *)
Lemma scatter_forward_eq P flux xs_total xs_scatter off ext phi ss e mu w :
  (forall i, (i < cells P)%nat -> ss i = xs_scatter (medium P i) * phi i + off i) ->
  slab_forward_scatter P flux xs_total ss ext e mu w
  = slab_forward_iso P flux phi xs_total xs_scatter off ext e mu w 0.
Proof.
  intros H. unfold slab_forward_scatter, slab_forward_iso. cbn [Nat.eqb].
  apply for_up_ext. intros i [e1 fl] Hi. rewrite H by exact Hi.
  replace (xs_scatter (medium P i) * phi i + off i + ext i)
    with (xs_scatter (medium P i) * phi i + ext i + off i) by ring. reflexivity.
Qed.

Lemma scatter_backward_eq P flux xs_total xs_scatter off ext phi ss e mu w :
  (forall i, (i < cells P)%nat -> ss i = xs_scatter (medium P i) * phi i + off i) ->
  slab_backward_scatter P flux xs_total ss ext e mu w
  = slab_backward_iso P flux phi xs_total xs_scatter off ext e mu w 0.
Proof.
  intros H. unfold slab_backward_scatter, slab_backward_iso. cbn [Nat.eqb].
  apply for_down_ext. intros i [e1 fl] Hi. rewrite H by exact Hi.
  replace (xs_scatter (medium P i) * phi i + off i + ext i)
    with (xs_scatter (medium P i) * phi i + ext i + off i) by ring. reflexivity.
Qed.

Lemma scatter_equals_pass P xs_total xs_scatter off external boundary phi ss :
  cols2 external = cols2 boundary ->
  (cols2 external = 1%nat \/ (angles P <= cols2 external)%nat) ->
  (forall i, (i < cells P)%nat -> ss i = xs_scatter (medium P i) * phi i + off i) ->
  slab_scatter_source_sn P xs_total ss external boundary
  = slab_iso_pass P xs_total xs_scatter off external boundary 0 phi.
Proof.
  intros Hc Hdim H. unfold slab_scatter_source_sn, slab_iso_pass. f_equal.
  apply for_up_err_ext. intros k [fl rf] Hk. rewrite <- Hc.
  assert (Hlt : Nat.ltb (bidx (cols2 external) k) (cols2 external) = true).
  { apply Nat.ltb_lt. unfold bidx. destruct (Nat.eqb_spec (cols2 external) 1); lia. }
  rewrite Hlt.
  destruct (Rlt_dec 0 (mu P k)); [|destruct (Rlt_dec (mu P k) 0); [|reflexivity]].
  - rewrite (scatter_forward_eq P fl xs_total xs_scatter off _ phi ss _ _ _ H). reflexivity.
  - rewrite (scatter_backward_eq P fl xs_total xs_scatter off _ phi ss _ _ _ H). reflexivity.
Qed.

Lemma scatter_index_error P xs_total ss external boundary :
  (2 <= angles P)%nat -> cols2 external <> 1%nat -> cols2 boundary = 1%nat ->
  mu P 0%nat <> 0 -> mu P 1%nat <> 0 ->
  slab_scatter_source_sn P xs_total ss external boundary = Raise IndexError.
Proof.
  intros Ha He Hb H0 H1. unfold slab_scatter_source_sn.
  match goal with |- bind (for_up_err _ ?f _) _ = _ => set (body := f) end.
  assert (G : forall k, for_up_err (2 + k) body (zeros, zeros) = Raise IndexError).
  { induction k as [|k IH].
    - cbn [Nat.add for_up_err bind].
      assert (E0 : exists st, body 0%nat (zeros, zeros) = Ok st).
      { unfold body. rewrite Hb. unfold bidx. apply Nat.eqb_neq in He. rewrite He. cbn [Nat.ltb Nat.leb].
        destruct (Rlt_dec 0 (mu P 0%nat)); [|destruct (Rlt_dec (mu P 0%nat) 0); [|exfalso; lra]].
        - destruct (slab_forward_scatter _ _ _ _ _ _ _ _); eauto.
        - destruct (slab_backward_scatter _ _ _ _ _ _ _ _); eauto. }
      destruct E0 as [[fl rf] E0]. rewrite E0. cbn [bind]. unfold body. rewrite Hb.
      unfold bidx. apply Nat.eqb_neq in He. rewrite He. cbn [Nat.ltb Nat.leb].
      destruct (Rlt_dec 0 (mu P 1%nat)); [|destruct (Rlt_dec (mu P 1%nat) 0); [|exfalso; lra]]; reflexivity.
    - replace (2 + S k)%nat with (S (2 + k)) by lia. cbn [for_up_err]. rewrite IH. reflexivity. }
  replace (angles P) with (2 + (angles P - 2))%nat by lia. rewrite G. reflexivity.
Qed.

(** * Anisotropic sweep *)
Definition avg_psi (n : nat) (psi : vec) : vec :=
  fun i => if Nat.ltb i n then 0.5 * (psi i + psi (S i)) else 0.

Lemma aniso_forward_eq P flux xs_total an off ext e mu w edges :
  let q := fun i => an i + ext i + off i in
  let psi := fwd_psi q (fun i => mu / dx P i) (half_sig P xs_total) e in
  slab_forward_aniso P flux xs_total an off ext e mu w edges
  = (psi (cells P), (fun i => flux i + contrib (cells P) edges w psi i), avg_psi (cells P) psi).
Proof.
  intros q psi. unfold slab_forward_aniso. fold (seed edges 0 w e flux).
  match goal with |- for_up _ ?f _ = _ => set (body := f) end.
  set (fl0 := seed edges 0 w e flux).
  assert (G : forall n, for_up n body (e, fl0, zeros)
    = (psi n, acc_flux edges 0 n w psi fl0 true, avg_psi n psi)).
  { induction n as [|n IH].
    - change (avg_psi 0 psi) with zeros. change (psi 0%nat) with e.
      cbn [for_up]. f_equal. f_equal. extensionality i. unfold acc_flux. eqbs; reflexivity.
    - cbn [for_up]. rewrite IH. unfold body at 1.
      change (an n + ext n + off n) with (q n).
      change (0.5 * xs_total (medium P n)) with (half_sig P xs_total n).
      change ((q n + psi n * (mu / dx P n - half_sig P xs_total n)) / (mu / dx P n + half_sig P xs_total n)) with (psi (S n)).
      cbv zeta. rewrite Nat.add_1_r. f_equal; [f_equal|].
      + extensionality i. unfold acc_flux, upd. eqbs; try reflexivity.
      + extensionality i. unfold avg_psi, upd. eqbs; try reflexivity. }
  rewrite (G (cells P)). f_equal. f_equal. extensionality i. apply acc_contrib_fwd.
Qed.

Lemma aniso_backward_eq P flux xs_total an off ext e mu w edges :
  let q := fun i => an i + ext i + off i in
  let psi := bwd_psi (cells P) q (fun i => - mu / dx P i) (half_sig P xs_total) e in
  slab_backward_aniso P flux xs_total an off ext e mu w edges
  = (psi 0%nat, (fun i => flux i + contrib (cells P) edges w psi i), avg_psi (cells P) psi).
Proof.
  intros q psi. unfold slab_backward_aniso. fold (seed edges (cells P) w e flux).
  set (n := cells P) in *. set (fl0 := seed edges n w e flux).
  match goal with |- for_down n ?f _ = _ => set (body := f) end.
  set (av := fun k i => if andb (Nat.leb k i) (Nat.ltb i n) then 0.5 * (psi i + psi (S i)) else 0).
  assert (G : forall k, (k <= n)%nat ->
     for_down k body (psi k, acc_flux edges k n w psi fl0 false, av k)
     = (psi 0%nat, acc_flux edges 0 n w psi fl0 false, av 0%nat)).
  { induction k as [|k IH]; intros Hk; [reflexivity|].
    cbn [for_down]. rewrite <- IH by lia. f_equal. unfold body.
    change (an k + ext k + off k) with (q k).
    change (0.5 * xs_total (medium P k)) with (half_sig P xs_total k).
    assert (Hst : psi k = (q k + psi (S k) * (- mu / dx P k - half_sig P xs_total k)) / (- mu / dx P k + half_sig P xs_total k)).
    { unfold psi. rewrite (bwd_psi_step n q _ _ e k) at 1 by lia. reflexivity. }
    rewrite <- Hst. f_equal; [f_equal|].
    - extensionality i. unfold acc_flux, upd. eqbs; try reflexivity; try (f_equal; f_equal; ring).
    - extensionality i. unfold av, upd. eqbs; try reflexivity; try ring. }
  assert (Hinit : (e, fl0, zeros) = (psi n, acc_flux edges n n w psi fl0 false, av n)).
  { f_equal; [f_equal|].
    - symmetry. apply bwd_psi_top.
    - extensionality i. unfold acc_flux. eqbs; reflexivity.
    - extensionality i. unfold av. eqbs; reflexivity. }
  rewrite Hinit, G by lia.
  assert (Ha : acc_flux edges 0 n w psi fl0 false = fun i => flux i + contrib n edges w psi i)
    by (extensionality i; apply acc_contrib_bwd).
  rewrite Ha. reflexivity.
Qed.

Definition aniso_q (n_moments : nat) (xs_w leg : mat2) (off : vec) (external : arr2) (mom : mat2) : mat2 :=
  fun m i => rsum n_moments (fun l => xs_w i l * mom i l * leg l m)
             + at2 external i (bidx (cols2 external) m) + off i.

Definition pass_moments (P : sn) (q : mat2) (s b : vec) (legw : mat2) (k : nat) : mat2 :=
  fun x l => rsum k (fun m => avg_psi (cells P) (Psi P q s b m) x * legw l m).

Lemma slab_aniso_pass_ok P n_moments xs_total xs_w off external boundary edges leg legw old :
  nonzero_ordinates (angles P) (mu P) ->
  slab_aniso_pass P n_moments xs_total xs_w off external boundary edges leg legw old =
  let q := aniso_q n_moments xs_w leg off external (snd old) in
  let s := half_sig P xs_total in let b := boundary_in boundary (mu P) in
  Ok (pass_flux P q s b edges (angles P), pass_moments P q s b legw (angles P)).
Proof.
  intros Hnz. cbv zeta. set (q := aniso_q n_moments xs_w leg off external (snd old)).
  set (s := half_sig P xs_total). set (b := boundary_in boundary (mu P)). unfold slab_aniso_pass.
  match goal with |- bind (for_up_err _ ?f _) _ = _ => set (body := f) end.
  assert (H : forall k, (k <= angles P)%nat ->
    for_up_err k body (zeros, zeros2, zeros)
    = Ok (pass_flux P q s b edges k, pass_moments P q s b legw k, refl_at P q s b k)).
  { induction k as [|k IH]; intros Hk; [reflexivity|].
    cbn [for_up_err]. rewrite IH by lia. cbn [bind]. unfold body at 1.
    specialize (Hnz k ltac:(lia)).
    destruct (Rlt_dec 0 (mu P k)) as [Hp|Hp].
    - rewrite aniso_forward_eq. f_equal.
      assert (Hb : at2 boundary 0%nat (bidx (cols2 boundary) k) = b k).
      { unfold b, boundary_in. destruct (Rlt_dec 0 (mu P k)); [reflexivity|contradiction]. }
      rewrite Hb. fold s.
      assert (Hpsi : Psi P q s b k = fwd_psi (q k) (fun i => mu P k / dx P i) s (refl_at P q s b k k + b k)).
      { unfold Psi, psi_of, inflow_at. destruct (Rlt_dec 0 (mu P k)); [reflexivity|contradiction]. }
      unfold pass_moments, pass_flux. cbn [rsum]. rewrite Hpsi. f_equal. cbn [refl_at]. f_equal.
      unfold out_of, psi_of, outflow_edge.
      destruct (Rlt_dec 0 (mu P k)); [reflexivity|contradiction].
    - destruct (Rlt_dec (mu P k) 0) as [Hn|Hn]; [|exfalso; lra].
      rewrite aniso_backward_eq. f_equal.
      assert (Hb : at2 boundary 1%nat (bidx (cols2 boundary) k) = b k).
      { unfold b, boundary_in. destruct (Rlt_dec 0 (mu P k)); [contradiction|reflexivity]. }
      rewrite Hb. fold s.
      assert (Hpsi : Psi P q s b k = bwd_psi (cells P) (q k) (fun i => - mu P k / dx P i) s (refl_at P q s b k k + b k)).
      { unfold Psi, psi_of, inflow_at. destruct (Rlt_dec 0 (mu P k)); [contradiction|reflexivity]. }
      unfold pass_moments, pass_flux. cbn [rsum]. rewrite Hpsi. f_equal. cbn [refl_at]. f_equal.
      unfold out_of, psi_of, outflow_edge.
      destruct (Rlt_dec 0 (mu P k)); [contradiction|reflexivity]. }
  rewrite H by lia. reflexivity.
Qed.

Lemma aniso_pass_zero_ordinate P nm xs_total xs_w off external boundary edges leg legw old m :
  (m < angles P)%nat -> mu P m = 0 ->
  slab_aniso_pass P nm xs_total xs_w off external boundary edges leg legw old = Raise DiscontinuityAt0.
Proof.
  intros Hm Hz. unfold slab_aniso_pass.
  rewrite (for_up_err_raise (angles P) _ _ m DiscontinuityAt0); [reflexivity|exact Hm| |].
  - intros [[fl mo] rf]. destruct (Rlt_dec 0 (mu P m)), (Rlt_dec (mu P m) 0); try lra. reflexivity.
  - intros j [[fl mo] rf] e' _. destruct (Rlt_dec 0 (mu P j)).
    + destruct (slab_forward_aniso _ _ _ _ _ _ _ _ _ _) as [[? ?] ?]; discriminate.
    + destruct (Rlt_dec (mu P j) 0).
      * destruct (slab_backward_aniso _ _ _ _ _ _ _ _ _ _) as [[? ?] ?]; discriminate.
      * intros E; injection E as <-; reflexivity.
Qed.

Lemma nonzero_or P : nonzero_ordinates (angles P) (mu P) \/ exists m, (m < angles P)%nat /\ mu P m = 0.
Proof.
  destruct (has_zero (angles P) (mu P)) eqn:E.
  - right. apply has_zero_spec. exact E.
  - left. unfold nonzero_ordinates. exact (proj1 (has_zero_false (angles P) (mu P)) E).
Qed.

Lemma aniso_is_iso P flux_old xs_total xs_scatter xs_w off external boundary leg legw :
  (forall i, (i < cells P)%nat -> xs_w i 0%nat = xs_scatter (medium P i)) ->
  (forall m, (m < angles P)%nat -> leg 0%nat m = 1 /\ legw 0%nat m = wt P m) ->
  slab_anisotropic_sn P flux_old 1 xs_total xs_w off external boundary 0 leg legw
  = slab_isotropic_sn P flux_old xs_total xs_scatter off external boundary 0.
Proof.
  intros Hxs Hleg. unfold slab_anisotropic_sn, slab_isotropic_sn.
  destruct (nonzero_or P) as [Hnz|(m & Hm & Hz)].
  2:{ change count_nn with (S 99). cbn [iterate].
      rewrite (aniso_pass_zero_ordinate P _ _ _ _ _ _ _ _ _ _ m Hm Hz).
      rewrite (pass_zero_ordinate P _ _ _ _ _ _ _ m Hm Hz). reflexivity. }
  destruct (iterate_sim (fun (st : vec * mat2) (f : vec) => fst st = f /\ forall i, (i < cells P)%nat -> snd st i 0%nat = f i)
     (slab_aniso_pass P 1 xs_total xs_w off external boundary 0 leg legw)
     (slab_iso_pass P xs_total xs_scatter off external boundary 0)
     (fun new old => rel_change (cells P) (fst new) (fst old)) (rel_change (cells P)) change_nn count_nn)
     with (fuel := count_nn) (count := 1%nat)
          (x := (flux_old, fun (x l : nat) => if Nat.eqb l 0 then flux_old x else 0)) (y := flux_old)
     as [(x' & y' & E1 & E2 & Hr & _)|(e & E1 & E2)].
  - intros [f mo] g [Hf Hmo]. cbn [fst snd] in *. subst g. left.
    rewrite slab_aniso_pass_ok by exact Hnz. rewrite slab_iso_pass_ok by exact Hnz.
    cbv zeta. cbn [snd].
    set (q := aniso_q 1 xs_w leg off external mo). set (q' := iso_q P xs_scatter off external f).
    set (s := half_sig P xs_total). set (b := boundary_in boundary (mu P)).
    assert (Hq : forall m i, (m < angles P)%nat -> (i < cells P)%nat -> q m i = q' m i).
    { intros m i Hm Hi. unfold q, q', aniso_q, iso_q, iso_source. cbn [rsum].
      destruct (Hleg m Hm) as [-> _]. rewrite Hxs, Hmo by exact Hi. ring. }
    assert (Hpf : pass_flux P q s b 0 (angles P) = pass_flux P q' s b 0 (angles P)).
    { apply pass_flux_ext; [exact Hq|reflexivity]. }
    eexists. eexists. split; [reflexivity|]. split; [reflexivity|]. cbn [fst snd].
    split; [split|].
    + exact Hpf.
    + intros i Hi. rewrite <- Hpf, pass_flux_center by exact Hi. unfold pass_moments.
      apply rsum_ext. intros m Hm. destruct (Hleg m Hm) as [_ ->]. unfold avg_psi.
      apply Nat.ltb_lt in Hi. rewrite Hi. lra.
    + rewrite Hpf. reflexivity.
  - split; [reflexivity|]. intros i _. reflexivity.
  - rewrite E1, E2. cbn [bind]. f_equal. exact Hr.
  - rewrite E1, E2. reflexivity.
Qed.

Lemma aniso_pass_transport P nm xs_total xs_w off external boundary leg legw old flux mom :
  good_divisors P xs_total ->
  slab_aniso_pass P nm xs_total xs_w off external boundary 0 leg legw old = Ok (flux, mom) ->
  exists psi,
    slab_transport (cells P) (angles P) (mu P) (wt P) (dx P) (fun i => xs_total (medium P i))
      (fun m i => rsum nm (fun l => xs_w i l * snd old i l * leg l m)
                  + at2 external i (bidx (cols2 external) m) + off i)
      (fun m => reflected_in (cells P) (angles P) (mu P) (bc_left P) (bc_right P) psi m
                + boundary_in boundary (mu P) m)
      psi flux /\
    (forall i l, (i < cells P)%nat ->
       mom i l = rsum (angles P) (fun m => legw l m * ((psi m i + psi m (S i)) / 2))).
Proof.
  intros Hd E.
  assert (Hnz : nonzero_ordinates (angles P) (mu P)).
  { destruct (nonzero_or P) as [H|(m & Hm & Hz)]; [exact H|].
    rewrite (aniso_pass_zero_ordinate P _ _ _ _ _ _ _ _ _ _ m Hm Hz) in E. discriminate. }
  rewrite slab_aniso_pass_ok in E by exact Hnz. cbv zeta in E. injection E as <- <-.
  set (q := aniso_q nm xs_w leg off external (snd old)).
  exists (Psi P q (half_sig P xs_total) (boundary_in boundary (mu P))).
  split; [split; [|split]|].
  - intros m Hm. apply Psi_balance; auto.
  - intros m Hm. rewrite Psi_inflow. apply inflow_at_spec. exact Hm.
  - intros i Hi. apply pass_flux_center. exact Hi.
  - intros i l Hi. unfold pass_moments. apply rsum_ext. intros m Hm. unfold avg_psi.
    apply Nat.ltb_lt in Hi. rewrite Hi. lra.
Qed.

Lemma aniso_driver_last P nm flux_old xs_total xs_w off external boundary edges leg legw flux :
  slab_anisotropic_sn P flux_old nm xs_total xs_w off external boundary edges leg legw = Ok flux ->
  exists n x,
    (1 <= n <= 100)%nat /\
    x 0%nat = (flux_old, fun i l => if Nat.eqb l 0 then flux_old i else 0) /\ flux = fst (x n) /\
    (forall k, (k < n)%nat ->
       slab_aniso_pass P nm xs_total xs_w off external boundary edges leg legw (x k) = Ok (x (S k))) /\
    (forall k, (0 < k < n)%nat -> ~ settled (cells P) (fst (x k)) (fst (x (k - 1)%nat)) (/ 10 ^ 12)) /\
    ((n < 100)%nat -> settled (cells P) (fst (x n)) (fst (x (n - 1)%nat)) (/ 10 ^ 12)).
Proof.
  intros E. unfold slab_anisotropic_sn in E.
  destruct (iterate _ _ _ _ _ _ _) as [r|e] eqn:EI; [|discriminate]. cbn [bind] in E. injection E as <-.
  apply iterate_spec in EI. destruct EI as (m & x & H1 & H2 & H0 & Hr & Hs & Hnc & Hend). change count_nn with 100%nat in *.
  exists m, x. split; [lia|]. split; [exact H0|]. split; [rewrite Hr; reflexivity|].
  split; [exact Hs|]. split; [intros k Hk; apply below_unsettled, (Hnc k Hk)|].
  intros Hlt. destruct Hend as [Hb|Hcap]; [|lia].
  apply below_settled, Hb.
Qed.

Lemma aniso_conservation P nm xs_total xs_w off external boundary leg legw old flux mom :
  good_divisors P xs_total -> (forall i, (i < cells P)%nat -> dx P i <> 0) -> (1 <= nm)%nat ->
  (forall m, (m < angles P)%nat -> leg 0%nat m = 1) ->
  (forall l, (1 <= l < nm)%nat -> rsum (angles P) (fun m => wt P m * leg l m) = 0) ->
  slab_aniso_pass P nm xs_total xs_w off external boundary 0 leg legw old = Ok (flux, mom) ->
  exists psi,
    slab_transport (cells P) (angles P) (mu P) (wt P) (dx P) (fun i => xs_total (medium P i))
      (fun m i => rsum nm (fun l => xs_w i l * snd old i l * leg l m)
                  + at2 external i (bidx (cols2 external) m) + off i)
      (fun m => reflected_in (cells P) (angles P) (mu P) (bc_left P) (bc_right P) psi m
                + boundary_in boundary (mu P) m)
      psi flux /\
    total_leakage (cells P) (angles P) (mu P) (wt P) psi
    + rsum (cells P) (fun i => dx P i * xs_total (medium P i) * flux i)
    = rsum (cells P) (fun i => dx P i *
        (rsum (angles P) (wt P) * (xs_w i 0%nat * snd old i 0%nat + off i)
         + rsum (angles P) (fun m => wt P m * at2 external i (bidx (cols2 external) m)))).
Proof.
  intros Hd Hdx Hnm Hl0 Hl E.
  destruct (aniso_pass_transport _ _ _ _ _ _ _ _ _ _ _ _ Hd E) as (psi & HT & _).
  exists psi. split; [exact HT|].
  rewrite (transport_conservation _ _ _ _ _ _ _ _ _ _ Hdx HT).
  apply rsum_ext. intros i Hi. f_equal.
  rewrite (rsum_ext (angles P) _ (fun m => wt P m * rsum nm (fun l => xs_w i l * snd old i l * leg l m)
      + (wt P m * off i + wt P m * at2 external i (bidx (cols2 external) m)))) by (intros; ring).
  rewrite rsum_plus, rsum_plus, rsum_scal_r.
  assert (G : rsum (angles P) (fun m => wt P m * rsum nm (fun l => xs_w i l * snd old i l * leg l m))
            = rsum (angles P) (wt P) * (xs_w i 0%nat * snd old i 0%nat)).
  { rewrite (rsum_ext (angles P) _ (fun m => rsum nm (fun l => (xs_w i l * snd old i l) * (wt P m * leg l m)))).
    2:{ intros m Hm. rewrite <- rsum_scal. apply rsum_ext. intros; ring. }
    rewrite rsum_swap.
    rewrite (rsum_single nm _ 0%nat); [|lia|].
    - rewrite rsum_scal. rewrite (rsum_ext (angles P) _ (wt P)); [ring|].
      intros m Hm. rewrite Hl0 by exact Hm. ring.
    - intros l Hll Hne. rewrite rsum_scal, Hl by lia. ring. }
  rewrite G. ring.
Qed.

Lemma aniso_driver_zero P flux_old nm xs_total xs_w off external boundary edges leg legw m :
  (m < angles P)%nat -> mu P m = 0 ->
  slab_anisotropic_sn P flux_old nm xs_total xs_w off external boundary edges leg legw = Raise DiscontinuityAt0.
Proof.
  intros Hm Hz. unfold slab_anisotropic_sn. change count_nn with (S 99). cbn [iterate].
  rewrite (aniso_pass_zero_ordinate P _ _ _ _ _ _ _ _ _ _ m Hm Hz). reflexivity.
Qed.

Lemma known_linear P f1 f2 xdim xs_total cS s1 s2 cB b1 b2 edges a b :
  slab_known_source_sn P (fun i j => a * f1 i j + b * f2 i j) xdim xs_total
    (mkArr2 cS (fun i j => a * s1 i j + b * s2 i j)) (mkArr2 cB (fun i j => a * b1 i j + b * b2 i j)) edges
  = fun i j =>
      a * slab_known_source_sn P f1 xdim xs_total (mkArr2 cS s1) (mkArr2 cB b1) edges i j
      + b * slab_known_source_sn P f2 xdim xs_total (mkArr2 cS s2) (mkArr2 cB b2) edges i j.
Proof.
  rewrite !known_closed. extensionality i. extensionality j. unfold known_acc.
  set (s := half_sig P xs_total).
  set (q := known_q (mkArr2 cS (fun i j => a * s1 i j + b * s2 i j))).
  set (bb := boundary_in (mkArr2 cB (fun i j => a * b1 i j + b * b2 i j)) (mu P)).
  assert (Hkc : forall w m, kc P q s bb edges w m i
     = a * kc P (known_q (mkArr2 cS s1)) s (boundary_in (mkArr2 cB b1) (mu P)) edges w m i
       + b * kc P (known_q (mkArr2 cS s2)) s (boundary_in (mkArr2 cB b2) (mu P)) edges w m i).
  { intros w m. unfold kc. destruct (Req_EM_T (mu P m) 0); [ring|].
    rewrite <- contrib_linear. f_equal. extensionality k. rewrite <- Psi_linear. reflexivity. }
  destruct (Nat.eqb xdim 1).
  - destruct (Nat.eqb j 0); [|ring].
    rewrite (rsum_ext (angles P) _ (fun m => a * kc P (known_q (mkArr2 cS s1)) s (boundary_in (mkArr2 cB b1) (mu P)) edges (wt P m) m i
       + b * kc P (known_q (mkArr2 cS s2)) s (boundary_in (mkArr2 cB b2) (mu P)) edges (wt P m) m i)) by (intros; apply Hkc).
    rewrite rsum_plus, !rsum_scal. ring.
  - destruct (Nat.ltb j (angles P)); [|ring]. rewrite Hkc. ring.
Qed.
