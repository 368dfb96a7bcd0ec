(** Proofs about the slab sweeps. *)
From Coq Require Import Lra Lia FunctionalExtensionality.
From Verif Require Import Base BaseFacts SlabModel SlabSpec.
Open Scope R_scope.

Definition half_sig (P : sn) (xs_total : vec) : vec := fun i => 0.5 * xs_total (medium P i).

(** Closed forms of the edge fluxes. *)
Fixpoint fwd_psi (q a s : vec) (e0 : R) (k : nat) : R :=
  match k with
  | O => e0
  | S i => (q i + fwd_psi q a s e0 i * (a i - s i)) / (a i + s i)
  end.

Fixpoint bwd_psi_aux (n : nat) (q a s : vec) (e0 : R) (j : nat) : R :=
  match j with
  | O => e0
  | S j' => let i := (n - S j')%nat in
            (q i + bwd_psi_aux n q a s e0 j' * (a i - s i)) / (a i + s i)
  end.
Definition bwd_psi (n : nat) (q a s : vec) (e0 : R) (k : nat) : R :=
  bwd_psi_aux n q a s e0 (n - k).

Lemma bwd_psi_top n q a s e0 : bwd_psi n q a s e0 n = e0.
Proof. unfold bwd_psi. rewrite Nat.sub_diag. reflexivity. Qed.

Lemma bwd_psi_step n q a s e0 i : (i < n)%nat ->
  bwd_psi n q a s e0 i = (q i + bwd_psi n q a s e0 (S i) * (a i - s i)) / (a i + s i).
Proof.
  intros Hi. unfold bwd_psi. replace (n - i)%nat with (S (n - S i)) by lia. cbn [bwd_psi_aux].
  replace (n - S (n - S i))%nat with i by lia. reflexivity.
Qed.

(** Accumulated flux after the cells in [lo, hi) were swept, given edge fluxes [psi]. *)
Definition acc_flux (edges : nat) (lo hi : nat) (w : R) (psi fl : vec) (fwd : bool) : vec :=
  fun i =>
    if Nat.eqb edges 1 then
      (if fwd then (if andb (Nat.ltb lo i) (Nat.leb i hi) then fl i + w * psi i else fl i)
       else (if andb (Nat.leb lo i) (Nat.ltb i hi) then fl i + w * psi i else fl i))
    else (if andb (Nat.leb lo i) (Nat.ltb i hi)
          then fl i + 0.5 * w * (psi i + psi (S i)) else fl i).

Ltac eqbs := repeat match goal with
  | |- context [Nat.eqb ?a ?b] => destruct (Nat.eqb_spec a b)
  | |- context [Nat.ltb ?a ?b] => destruct (Nat.ltb_spec a b)
  | |- context [Nat.leb ?a ?b] => destruct (Nat.leb_spec a b)
  end; simpl; try lia; subst; try lia.

Definition fwd_body (q a s : vec) (w : R) (edges : nat) (ii : nat) (st : R * vec) : R * vec :=
  let '(edge1, flux) := st in
  let edge2 := (q ii + edge1 * (a ii - s ii)) / (a ii + s ii) in
  (edge2, if Nat.eqb edges 1 then upd flux (ii + 1) (flux (ii + 1)%nat + w * edge2)
          else upd flux ii (flux ii + 0.5 * w * (edge1 + edge2))).

Definition bwd_body (q a s : vec) (w : R) (edges : nat) (ii : nat) (st : R * vec) : R * vec :=
  let '(edge1, flux) := st in
  let edge2 := (q ii + edge1 * (a ii - s ii)) / (a ii + s ii) in
  (edge2, if Nat.eqb edges 1 then upd flux ii (flux ii + w * edge2)
          else upd flux ii (flux ii + 0.5 * w * (edge1 + edge2))).

Lemma fwd_loop n (q a s : vec) w edges e0 fl0 :
  for_up n (fwd_body q a s w edges) (e0, fl0)
  = (fwd_psi q a s e0 n, acc_flux edges 0 n w (fwd_psi q a s e0) fl0 true).
Proof.
  induction n as [|n IH].
  - simpl. f_equal. extensionality i. unfold acc_flux. eqbs; try reflexivity.
  - cbn [for_up]. rewrite IH. unfold fwd_body at 1.
    change ((q n + fwd_psi q a s e0 n * (a n - s n)) / (a n + s n)) with (fwd_psi q a s e0 (S n)).
    f_equal. rewrite Nat.add_1_r.
    extensionality i. unfold acc_flux, upd. eqbs; try reflexivity.
Qed.

Lemma bwd_loop_gen n (q a s : vec) w edges e0 fl0 :
  forall k, (k <= n)%nat ->
  for_down k (bwd_body q a s w edges)
    (bwd_psi n q a s e0 k, acc_flux edges k n w (bwd_psi n q a s e0) fl0 false)
  = (bwd_psi n q a s e0 0, acc_flux edges 0 n w (bwd_psi n q a s e0) fl0 false).
Proof.
  induction k as [|k IH]; intros Hk; [reflexivity|].
  cbn [for_down]. rewrite <- IH by lia. f_equal. unfold bwd_body.
  rewrite <- bwd_psi_step by lia. f_equal.
  extensionality i. unfold acc_flux, upd.
  eqbs; try reflexivity; try (f_equal; f_equal; ring).
Qed.

Lemma bwd_loop n (q a s : vec) w edges e0 fl0 :
  for_down n (bwd_body q a s w edges) (e0, fl0)
  = (bwd_psi n q a s e0 0, acc_flux edges 0 n w (bwd_psi n q a s e0) fl0 false).
Proof.
  rewrite <- (bwd_loop_gen n q a s w edges e0 fl0 n) by lia. f_equal.
  rewrite bwd_psi_top. f_equal. extensionality i. unfold acc_flux. eqbs; reflexivity.
Qed.

(** First/last edge contribution when [edges = 1]. *)
Definition seed (edges : nat) (k : nat) (w e : R) (fl : vec) : vec :=
  if Nat.eqb edges 1 then upd fl k (fl k + w * e) else fl.

Lemma slab_forward_iso_eq P flux flux_old xs_total xs_scatter off ext e0 mu w edges :
  let q := fun i => xs_scatter (medium P i) * flux_old i + ext i + off i in
  let psi := fwd_psi q (fun i => mu / dx P i) (half_sig P xs_total) e0 in
  slab_forward_iso P flux flux_old xs_total xs_scatter off ext e0 mu w edges
  = (psi (cells P), acc_flux edges 0 (cells P) w psi (seed edges 0 w e0 flux) true).
Proof. intros q psi. unfold slab_forward_iso. apply fwd_loop. Qed.

Lemma slab_backward_iso_eq P flux flux_old xs_total xs_scatter off ext e0 mu w edges :
  let q := fun i => xs_scatter (medium P i) * flux_old i + ext i + off i in
  let psi := bwd_psi (cells P) q (fun i => - mu / dx P i) (half_sig P xs_total) e0 in
  slab_backward_iso P flux flux_old xs_total xs_scatter off ext e0 mu w edges
  = (psi 0%nat, acc_flux edges 0 (cells P) w psi (seed edges (cells P) w e0 flux) false).
Proof. intros q psi. unfold slab_backward_iso. apply bwd_loop. Qed.

Lemma dd_step q a t p : a + 0.5 * t <> 0 ->
  a * ((q + p * (a - 0.5 * t)) / (a + 0.5 * t) - p)
  + t * ((p + (q + p * (a - 0.5 * t)) / (a + 0.5 * t)) / 2) = q.
Proof.
  intros H. set (e := (q + p * (a - 0.5 * t)) / (a + 0.5 * t)).
  assert (E : e * (a + 0.5 * t) = q + p * (a - 0.5 * t)) by (unfold e; field; lra). lra.
Qed.

(** Edge fluxes satisfy the balance. *)
Lemma fwd_psi_balance n q mu (dx sigt : vec) s e0 :
  (forall i, (i < n)%nat -> s i = 0.5 * sigt i) ->
  (forall i, (i < n)%nat -> mu / dx i + 0.5 * sigt i <> 0) ->
  dd_balance n mu dx sigt q (fwd_psi q (fun i => mu / dx i) s e0).
Proof.
  intros Hs Hd i Hi. cbn [fwd_psi]. rewrite Hs by assumption. specialize (Hd i Hi).
  apply dd_step; assumption.
Qed.

Lemma bwd_psi_balance n q mu (dx sigt : vec) s e0 :
  (forall i, (i < n)%nat -> s i = 0.5 * sigt i) ->
  (forall i, (i < n)%nat -> - mu / dx i + 0.5 * sigt i <> 0) ->
  dd_balance n mu dx sigt q (bwd_psi n q (fun i => - mu / dx i) s e0).
Proof.
  intros Hs Hd i Hi. rewrite (bwd_psi_step n q _ s e0 i) by assumption.
  rewrite Hs by assumption. specialize (Hd i Hi).
  replace (mu / dx i) with (- (- mu / dx i)) by (unfold Rdiv; ring).
  pose proof (dd_step (q i) (- mu / dx i) (sigt i) (bwd_psi n q (fun i => - mu / dx i) s e0 (S i)) Hd) as E.
  set (p := bwd_psi _ _ _ _ _ _) in *. set (a := - mu / dx i) in *.
  set (e := (q i + p * (a - 0.5 * sigt i)) / (a + 0.5 * sigt i)) in *. lra.
Qed.

(** Uniqueness of the solution of the balance for a given inflow. *)
Lemma dd_unique_fwd n mu dx sigt q psi1 psi2 :
  (forall i, (i < n)%nat -> mu / dx i + 0.5 * sigt i <> 0) ->
  dd_balance n mu dx sigt q psi1 -> dd_balance n mu dx sigt q psi2 ->
  psi1 0%nat = psi2 0%nat -> forall k, (k <= n)%nat -> psi1 k = psi2 k.
Proof.
  intros Hd H1 H2 H0. induction k as [|k IH]; intros Hk; [exact H0|].
  specialize (H1 k ltac:(lia)). specialize (H2 k ltac:(lia)). specialize (Hd k ltac:(lia)).
  rewrite IH in H1 by lia.
  assert (E : (mu / dx k + 0.5 * sigt k) * (psi1 (S k) - psi2 (S k)) = 0) by lra.
  apply Rmult_integral in E. destruct E as [E|E]; [contradiction|lra].
Qed.

Lemma dd_unique_bwd n mu dx sigt q psi1 psi2 :
  (forall i, (i < n)%nat -> - mu / dx i + 0.5 * sigt i <> 0) ->
  dd_balance n mu dx sigt q psi1 -> dd_balance n mu dx sigt q psi2 ->
  psi1 n = psi2 n -> forall k, (k <= n)%nat -> psi1 k = psi2 k.
Proof.
  intros Hd H1 H2 H0 k Hk.
  assert (G : forall j, (j <= n)%nat -> psi1 (n - j)%nat = psi2 (n - j)%nat).
  { induction j as [|j IH]; intros Hj; [rewrite Nat.sub_0_r; exact H0|].
    specialize (IH ltac:(lia)). set (i := (n - S j)%nat) in *.
    replace (n - j)%nat with (S i) in IH by (unfold i; lia).
    specialize (H1 i ltac:(unfold i; lia)). specialize (H2 i ltac:(unfold i; lia)).
    specialize (Hd i ltac:(unfold i; lia)). rewrite IH in H1.
    replace (- mu / dx i) with (- (mu / dx i)) in Hd by (unfold Rdiv; ring).
    assert (E : (- (mu / dx i) + 0.5 * sigt i) * (psi1 i - psi2 i) = 0) by lra.
    apply Rmult_integral in E. destruct E as [E|E]; [contradiction|lra]. }
  specialize (G (n - k)%nat ltac:(lia)). replace (n - (n - k))%nat with k in G by lia. exact G.
Qed.

Lemma divisors_fwd n mu dx sigt : 0 < mu -> divisors_ok n mu dx sigt ->
  forall i, (i < n)%nat -> mu / dx i + 0.5 * sigt i <> 0.
Proof. intros Hm H i Hi. destruct (H i Hi) as [_ H']. rewrite Rabs_right in H' by lra. lra. Qed.

Lemma divisors_bwd n mu dx sigt : mu < 0 -> divisors_ok n mu dx sigt ->
  forall i, (i < n)%nat -> - mu / dx i + 0.5 * sigt i <> 0.
Proof. intros Hm H i Hi. destruct (H i Hi) as [_ H']. rewrite Rabs_left in H' by lra. lra. Qed.

(** * Full ordinate passes *)
Section Pass.
  Variable P : sn.
  Variables (q : mat2) (s b : vec).

  Definition psi_of (k : nat) (e : R) : vec :=
    if Rlt_dec 0 (mu P k)
    then fwd_psi (q k) (fun i => mu P k / dx P i) s e
    else bwd_psi (cells P) (q k) (fun i => - mu P k / dx P i) s e.

  Definition out_of (k : nat) (e : R) : R := psi_of k e (outflow_edge (cells P) (mu P k)).

  Fixpoint refl_at (nn : nat) : vec :=
    match nn with
    | O => zeros
    | S k => reflector_corrector P (refl_at k) (out_of k (refl_at k k + b k)) k
    end.

  Definition inflow_at (k : nat) : R := refl_at k k + b k.
  Definition Psi (k : nat) : vec := psi_of k (inflow_at k).
End Pass.

Lemma reflector_corrector_spec P r e nn :
  reflector_corrector P r e nn =
  if leaves_reflective (mu P) (bc_left P) (bc_right P) nn
  then upd r (angles P - nn - 1) e else r.
Proof.
  unfold reflector_corrector, leaves_reflective.
  destruct (Rlt_dec 0 (mu P nn)), (Rlt_dec (mu P nn) 0); try lra;
  rewrite ?orb_false_r; try reflexivity.
Qed.

Lemma refl_at_spec P q s b : forall nn j, (nn <= angles P)%nat -> (j < angles P)%nat ->
  refl_at P q s b nn j =
  if andb (Nat.ltb (angles P - j - 1) nn)
          (leaves_reflective (mu P) (bc_left P) (bc_right P) (angles P - j - 1))
  then Psi P q s b (angles P - j - 1) (outflow_edge (cells P) (mu P (angles P - j - 1)%nat)) else 0.
Proof.
  induction nn as [|nn IH]; intros j Hn Hj; [reflexivity|].
  cbn [refl_at]. rewrite reflector_corrector_spec.
  destruct (Nat.eq_dec (angles P - j - 1) nn) as [E|E].
  - rewrite E. replace (nn <? S nn)%nat with true by (symmetry; apply Nat.ltb_lt; lia). simpl.
    destruct (leaves_reflective _ _ _ nn).
    + unfold upd. replace (j =? angles P - nn - 1)%nat with true by (symmetry; apply Nat.eqb_eq; lia).
      reflexivity.
    + rewrite IH by lia. rewrite E. rewrite Nat.ltb_irrefl. reflexivity.
  - assert (HI := IH j ltac:(lia) Hj).
    replace (angles P - j - 1 <? S nn)%nat with (angles P - j - 1 <? nn)%nat.
    + destruct (leaves_reflective _ _ _ nn); [|exact HI].
      rewrite upd_other by lia. exact HI.
    + apply eq_true_iff_eq. rewrite !Nat.ltb_lt. lia.
Qed.

Lemma inflow_at_spec P q s b m : (m < angles P)%nat ->
  inflow_at P q s b m =
  reflected_in (cells P) (angles P) (mu P) (bc_left P) (bc_right P) (Psi P q s b) m + b m.
Proof. intros Hm. unfold inflow_at. rewrite refl_at_spec by lia. reflexivity. Qed.

Lemma Psi_inflow P q s b m :
  Psi P q s b m (inflow_edge (cells P) (mu P m)) = inflow_at P q s b m.
Proof.
  unfold Psi, psi_of, inflow_edge. destruct (Rlt_dec 0 (mu P m)); [reflexivity|].
  apply bwd_psi_top.
Qed.

Lemma Psi_balance P q s b (sigt : vec) m :
  (forall i, s i = 0.5 * sigt i) -> mu P m <> 0 ->
  divisors_ok (cells P) (mu P m) (dx P) sigt ->
  dd_balance (cells P) (mu P m) (dx P) sigt (q m) (Psi P q s b m).
Proof.
  intros Hs Hm Hd. unfold Psi, psi_of. destruct (Rlt_dec 0 (mu P m)) as [H|H].
  - apply fwd_psi_balance; [intros; apply Hs|]. apply divisors_fwd; assumption.
  - apply bwd_psi_balance; [intros; apply Hs|]. apply divisors_bwd; [lra|assumption].
Qed.

(** Contribution of ordinate [m] to the accumulated array. *)
Definition contrib (n edges : nat) (w : R) (psi : vec) : vec :=
  fun i => if Nat.eqb edges 1 then (if Nat.leb i n then w * psi i else 0)
           else (if Nat.ltb i n then 0.5 * w * (psi i + psi (S i)) else 0).

Lemma acc_contrib_fwd n edges w q a s e fl i :
  acc_flux edges 0 n w (fwd_psi q a s e) (seed edges 0 w e fl) true i
  = fl i + contrib n edges w (fwd_psi q a s e) i.
Proof.
  unfold acc_flux, seed, contrib, upd.
  destruct (Nat.eqb_spec edges 1) as [E|E].
  - destruct i as [|i]; [simpl; ring|].
    change (0 <? S i)%nat with true. change (S i =? 0)%nat with false. cbn [andb].
    destruct (Nat.leb_spec (S i) n); ring.
  - change (0 <=? i)%nat with true. cbn [andb]. destruct (Nat.ltb_spec i n); ring.
Qed.

Lemma acc_contrib_bwd n edges w q a s e fl i :
  acc_flux edges 0 n w (bwd_psi n q a s e) (seed edges n w e fl) false i
  = fl i + contrib n edges w (bwd_psi n q a s e) i.
Proof.
  unfold acc_flux, seed, contrib, upd.
  change (0 <=? i)%nat with true. cbn [andb].
  destruct (Nat.eqb_spec edges 1) as [E|E].
  - destruct (Nat.eqb_spec i n) as [->|Hne].
    + rewrite Nat.ltb_irrefl, Nat.leb_refl, bwd_psi_top. ring.
    + destruct (Nat.ltb_spec i n), (Nat.leb_spec i n); try lia; ring.
  - destruct (Nat.ltb_spec i n); ring.
Qed.

Lemma forward_kernel P flux flux_old xs_total xs_scatter off ext e w edges m :
  0 < mu P m ->
  let q := fun i => xs_scatter (medium P i) * flux_old i + ext i + off i in
  let psi := fwd_psi q (fun i => mu P m / dx P i) (half_sig P xs_total) e in
  slab_forward_iso P flux flux_old xs_total xs_scatter off ext e (mu P m) w edges
  = (psi (cells P), fun i => flux i + contrib (cells P) edges w psi i).
Proof.
  intros _ q psi. rewrite slab_forward_iso_eq. f_equal. extensionality i. apply acc_contrib_fwd.
Qed.

Lemma backward_kernel P flux flux_old xs_total xs_scatter off ext e w edges m :
  mu P m < 0 ->
  let q := fun i => xs_scatter (medium P i) * flux_old i + ext i + off i in
  let psi := bwd_psi (cells P) q (fun i => - mu P m / dx P i) (half_sig P xs_total) e in
  slab_backward_iso P flux flux_old xs_total xs_scatter off ext e (mu P m) w edges
  = (psi 0%nat, fun i => flux i + contrib (cells P) edges w psi i).
Proof.
  intros _ q psi. rewrite slab_backward_iso_eq. f_equal. extensionality i. apply acc_contrib_bwd.
Qed.

(** Source seen by ordinate [m] of the isotropic sweep. *)
Definition iso_q (P : sn) (xs_scatter off : vec) (external : arr2) (flux_old : vec) : mat2 :=
  iso_source (medium P) xs_scatter off external flux_old.

Definition pass_flux (P : sn) (q : mat2) (s b : vec) (edges k : nat) : vec :=
  fun i => rsum k (fun m => contrib (cells P) edges (wt P m) (Psi P q s b m) i).

Lemma slab_iso_pass_ok P xs_total xs_scatter off external boundary edges flux_old :
  nonzero_ordinates (angles P) (mu P) ->
  slab_iso_pass P xs_total xs_scatter off external boundary edges flux_old =
  Ok (pass_flux P (iso_q P xs_scatter off external flux_old) (half_sig P xs_total)
        (boundary_in boundary (mu P)) edges (angles P)).
Proof.
  intros Hnz. unfold slab_iso_pass.
  set (q := iso_q P xs_scatter off external flux_old).
  set (s := half_sig P xs_total). set (b := boundary_in boundary (mu P)).
  match goal with |- bind (for_up_err _ ?f _) _ = _ => set (body := f) end.
  assert (H : forall k, (k <= angles P)%nat ->
    for_up_err k body (zeros, zeros) = Ok (pass_flux P q s b edges k, refl_at P q s b k)).
  { induction k as [|k IH]; intros Hk; [reflexivity|].
    cbn [for_up_err]. rewrite IH by lia. cbn [bind]. unfold body at 1.
    specialize (Hnz k ltac:(lia)).
    destruct (Rlt_dec 0 (mu P k)) as [Hp|Hp].
    - rewrite forward_kernel by assumption. f_equal. cbn [refl_at pass_flux].
      assert (Hb : at2 boundary 0%nat (bidx (cols2 boundary) k) = b k).
      { unfold b, boundary_in. destruct (Rlt_dec 0 (mu P k)); [reflexivity|contradiction]. }
      rewrite Hb.
      assert (Hpsi : Psi P q s b k = fwd_psi (q k) (fun i => mu P k / dx P i) s (refl_at P q s b k k + b k)).
      { unfold Psi, psi_of, inflow_at. destruct (Rlt_dec 0 (mu P k)); [reflexivity|contradiction]. }
      f_equal.
      + extensionality i. unfold pass_flux. cbn [rsum]. rewrite Hpsi. reflexivity.
      + f_equal. unfold out_of, psi_of, outflow_edge.
        destruct (Rlt_dec 0 (mu P k)); [reflexivity|contradiction].
    - destruct (Rlt_dec (mu P k) 0) as [Hn|Hn]; [|exfalso; lra].
      rewrite backward_kernel by assumption. f_equal. cbn [refl_at pass_flux].
      assert (Hb : at2 boundary 1%nat (bidx (cols2 boundary) k) = b k).
      { unfold b, boundary_in. destruct (Rlt_dec 0 (mu P k)); [contradiction|reflexivity]. }
      rewrite Hb.
      assert (Hpsi : Psi P q s b k = bwd_psi (cells P) (q k) (fun i => - mu P k / dx P i) s (refl_at P q s b k k + b k)).
      { unfold Psi, psi_of, inflow_at. destruct (Rlt_dec 0 (mu P k)); [contradiction|reflexivity]. }
      f_equal.
      + extensionality i. unfold pass_flux. cbn [rsum]. rewrite Hpsi. reflexivity.
      + f_equal. unfold out_of, psi_of, outflow_edge.
        destruct (Rlt_dec 0 (mu P k)); [contradiction|reflexivity]. }
  rewrite H by lia. reflexivity.
Qed.

Lemma pass_flux_center P q s b i : (i < cells P)%nat ->
  pass_flux P q s b 0 (angles P) i =
  rsum (angles P) (fun m => wt P m * ((Psi P q s b m i + Psi P q s b m (S i)) / 2)).
Proof.
  intros Hi. unfold pass_flux, contrib. simpl.
  replace (i <? cells P)%nat with true by (symmetry; apply Nat.ltb_lt; exact Hi).
  apply rsum_ext. intros m _. lra.
Qed.

(** The pass solves the discrete-ordinates equations. *)
Lemma slab_iso_pass_transport P xs_total xs_scatter off external boundary flux_old flux :
  nonzero_ordinates (angles P) (mu P) ->
  (forall m, (m < angles P)%nat -> divisors_ok (cells P) (mu P m) (dx P) (fun i => xs_total (medium P i))) ->
  slab_iso_pass P xs_total xs_scatter off external boundary 0 flux_old = Ok flux ->
  exists psi,
    slab_transport (cells P) (angles P) (mu P) (wt P) (dx P) (fun i => xs_total (medium P i))
      (iso_q P xs_scatter off external flux_old)
      (fun m => reflected_in (cells P) (angles P) (mu P) (bc_left P) (bc_right P) psi m
                + boundary_in boundary (mu P) m)
      psi flux.
Proof.
  intros Hnz Hd E. rewrite slab_iso_pass_ok in E by assumption. injection E as <-.
  exists (Psi P (iso_q P xs_scatter off external flux_old) (half_sig P xs_total)
            (boundary_in boundary (mu P))).
  split; [|split].
  - intros m Hm. apply Psi_balance; auto. 
  - intros m Hm. rewrite Psi_inflow. apply inflow_at_spec. exact Hm.
  - intros i Hi. apply pass_flux_center. exact Hi.
Qed.

(** The stopping test in the words of the specification. *)
Lemma below_settled n new old tol : below (rel_change n new old) tol = true <-> settled n new old tol.
Proof.
  rewrite below_true. unfold rel_change, settled.
  rewrite (rsum_ext n (fun i => ((new i - old i) / new i / INR n) ^ 2) (fun i => Rsqr ((new i - old i) / new i / INR n)))
    by (intros; unfold Rsqr; ring).
  destruct (has_zero n new) eqn:Hz.
  - split; [intros (x & E & _); discriminate|]. intros [H _]. apply has_zero_false in H. congruence.
  - assert (Hn := proj1 (has_zero_false _ _) Hz). split; [intros (x & E & Hx); injection E as <-; split; assumption|].
    intros [_ H]. eauto.
Qed.
Lemma below_unsettled n new old tol : below (rel_change n new old) tol = false <-> ~ settled n new old tol.
Proof. rewrite <- below_settled. symmetry. apply not_true_iff_false. Qed.
