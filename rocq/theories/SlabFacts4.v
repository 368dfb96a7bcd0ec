(** Slab proofs: mirror symmetry of whole passes, reflective boundaries, contraction. *)
From Coq Require Import Lra Lia FunctionalExtensionality.
From Verif Require Import Base BaseFacts Contraction SlabModel SlabSpec SlabFacts SlabFacts2 SlabFacts3.
Open Scope R_scope.

(** * C06 *)
Lemma psi_of_mirror P q q' s s' m e k :
  mu P m <> 0 -> (k <= cells P)%nat ->
  (forall i, (i < cells P)%nat -> q' m i = q m (cells P - 1 - i)%nat) ->
  (forall i, (i < cells P)%nat -> s' i = s (cells P - 1 - i)%nat) ->
  psi_of (mirror_sn P) q' s' m e k = psi_of P q s m e (cells P - k)%nat.
Proof.
  intros Hm Hk Hq Hs. unfold psi_of. cbn [mirror_sn mu dx cells].
  destruct (Rlt_dec 0 (- mu P m)) as [H1|H1], (Rlt_dec 0 (mu P m)) as [H2|H2]; try lra.
  - rewrite bwd_mirror by lia. replace (cells P - (cells P - k))%nat with k by lia.
    apply (fwd_psi_ext (cells P)); [exact Hk|]. intros i Hi. unfold mirrored.
    rewrite Hq, Hs by exact Hi. auto.
  - rewrite bwd_mirror by lia.
    apply (fwd_psi_ext (cells P)); [lia|]. intros i Hi. unfold mirrored.
    rewrite Hq, Hs by lia. replace (cells P - 1 - (cells P - 1 - i))%nat with i by lia.
    rewrite Ropp_involutive. auto.
Qed.

Lemma refl_at_mirror P q q' s s' b b' nn :
  nonzero_ordinates (angles P) (mu P) -> (nn <= angles P)%nat ->
  (forall m i, (m < angles P)%nat -> (i < cells P)%nat -> q' m i = q m (cells P - 1 - i)%nat) ->
  (forall i, (i < cells P)%nat -> s' i = s (cells P - 1 - i)%nat) ->
  (forall m, (m < angles P)%nat -> b' m = b m) ->
  refl_at (mirror_sn P) q' s' b' nn = refl_at P q s b nn.
Proof.
  intros Hnz. induction nn as [|nn IH]; intros Hn Hq Hs Hb; [reflexivity|].
  cbn [refl_at]. rewrite IH by (lia || assumption). rewrite Hb by lia.
  rewrite !reflector_corrector_spec. specialize (Hnz nn ltac:(lia)).
  assert (Hl : leaves_reflective (mu (mirror_sn P)) (bc_left (mirror_sn P)) (bc_right (mirror_sn P)) nn
             = leaves_reflective (mu P) (bc_left P) (bc_right P) nn).
  { unfold leaves_reflective. cbn [mirror_sn mu bc_left bc_right].
    destruct (Rlt_dec 0 (- mu P nn)), (Rlt_dec 0 (mu P nn)), (Rlt_dec (mu P nn) 0), (Rlt_dec (- mu P nn) 0);
      try lra; reflexivity. }
  rewrite Hl. clear Hl.
  destruct (leaves_reflective (mu P) (bc_left P) (bc_right P) nn); [|reflexivity]. f_equal.
  unfold out_of. rewrite psi_of_mirror with (q := q) (s := s).
  - f_equal. unfold outflow_edge. cbn [mirror_sn mu cells].
    destruct (Rlt_dec 0 (- mu P nn)), (Rlt_dec 0 (mu P nn)); try lra; lia.
  - exact Hnz.
  - unfold outflow_edge. destruct (Rlt_dec _ _); cbn [mirror_sn cells]; lia.
  - intros i Hi. apply Hq; lia.
  - exact Hs.
Qed.

Lemma Psi_mirror P q q' s s' b b' m k :
  nonzero_ordinates (angles P) (mu P) -> (m < angles P)%nat -> (k <= cells P)%nat ->
  (forall m i, (m < angles P)%nat -> (i < cells P)%nat -> q' m i = q m (cells P - 1 - i)%nat) ->
  (forall i, (i < cells P)%nat -> s' i = s (cells P - 1 - i)%nat) ->
  (forall m, (m < angles P)%nat -> b' m = b m) ->
  Psi (mirror_sn P) q' s' b' m k = Psi P q s b m (cells P - k)%nat.
Proof.
  intros Hnz Hm Hk Hq Hs Hb. unfold Psi, inflow_at.
  rewrite (refl_at_mirror P q q' s s' b b') by (assumption || lia). rewrite Hb by exact Hm.
  apply psi_of_mirror; try assumption; [apply Hnz; exact Hm|]. intros i Hi. apply Hq; assumption.
Qed.

Lemma pass_mirror P xs_total xs_scatter off external boundary flux_old flux :
  slab_iso_pass P xs_total xs_scatter off external boundary 0 flux_old = Ok flux ->
  exists flux',
    slab_iso_pass (mirror_sn P) xs_total xs_scatter (mirrored (cells P) off)
      (mirror_rows (cells P) external) (mirror_rows 2 boundary) 0 (mirrored (cells P) flux_old) = Ok flux' /\
    forall i, (i < cells P)%nat -> flux' i = mirrored (cells P) flux i.
Proof.
  intros E. assert (Hnz := pass_ok_nonzero _ _ _ _ _ _ _ _ _ E).
  rewrite slab_iso_pass_ok in E by exact Hnz. injection E as <-.
  assert (Hnz' : nonzero_ordinates (angles (mirror_sn P)) (mu (mirror_sn P))).
  { intros m Hm. cbn [mirror_sn mu]. specialize (Hnz m Hm). lra. }
  eexists. split; [apply slab_iso_pass_ok; exact Hnz'|].
  intros i Hi. 
  match goal with |- _ = mirrored _ ?f i => change (mirrored (cells P) f i) with (f (cells P - 1 - i)%nat) end.
  rewrite pass_flux_center by exact Hi. rewrite pass_flux_center by lia.
  apply rsum_ext. intros m Hm. cbn [mirror_sn angles wt] in *.
  assert (G : forall k, (k <= cells P)%nat ->
   Psi (mirror_sn P) (iso_q (mirror_sn P) xs_scatter (mirrored (cells P) off) (mirror_rows (cells P) external)
        (mirrored (cells P) flux_old)) (half_sig (mirror_sn P) xs_total)
        (boundary_in (mirror_rows 2 boundary) (mu (mirror_sn P))) m k
   = Psi P (iso_q P xs_scatter off external flux_old) (half_sig P xs_total) (boundary_in boundary (mu P)) m (cells P - k)%nat).
  { intros k Hk. apply Psi_mirror; try assumption.
    - intros m' i' _ _. reflexivity.
    - intros i' _. reflexivity.
    - intros m' Hm'. unfold boundary_in. cbn [mirror_rows at2 cols2 mirror_sn mu].
      specialize (Hnz m' Hm').
      destruct (Rlt_dec 0 (- mu P m')), (Rlt_dec 0 (mu P m')); try lra; reflexivity. }
  rewrite !G by lia. replace (S (cells P - 1 - i)) with (cells P - i)%nat by lia.
  replace (cells P - S i)%nat with (cells P - 1 - i)%nat by lia. f_equal. lra.
Qed.

Lemma has_zero_mirror n f g : (forall i, (i < n)%nat -> g i = f (n - 1 - i)%nat) ->
  has_zero n g = has_zero n f.
Proof.
  intros H. apply eq_true_iff_eq. rewrite !has_zero_spec. split; intros (i & Hi & E).
  - exists (n - 1 - i)%nat. split; [lia|]. rewrite <- H by exact Hi. exact E.
  - exists (n - 1 - i)%nat. split; [lia|]. rewrite H by lia.
    replace (n - 1 - (n - 1 - i))%nat with i by lia. exact E.
Qed.

Lemma rel_change_mirror n f g f' g' :
  (forall i, (i < n)%nat -> f' i = f (n - 1 - i)%nat) ->
  (forall i, (i < n)%nat -> g' i = g (n - 1 - i)%nat) ->
  rel_change n f' g' = rel_change n f g.
Proof.
  intros Hf Hg. unfold rel_change. rewrite (has_zero_mirror n f f' Hf).
  destruct (has_zero n f); [reflexivity|]. do 2 f_equal.
  rewrite <- rsum_rev. apply rsum_ext. intros i Hi.
  rewrite Hf, Hg by lia. replace (n - 1 - (n - 1 - i))%nat with i by lia. reflexivity.
Qed.

Lemma driver_mirror P xs_total xs_scatter off external boundary flux_old :
  nonzero_ordinates (angles P) (mu P) ->
  exists flux flux',
    slab_isotropic_sn P flux_old xs_total xs_scatter off external boundary 0 = Ok flux /\
    slab_isotropic_sn (mirror_sn P) (mirrored (cells P) flux_old) xs_total xs_scatter
      (mirrored (cells P) off) (mirror_rows (cells P) external) (mirror_rows 2 boundary) 0 = Ok flux' /\
    forall i, (i < cells P)%nat -> flux' i = mirrored (cells P) flux i.
Proof.
  intros Hnz. unfold slab_isotropic_sn.
  assert (Hnz' : nonzero_ordinates (angles (mirror_sn P)) (mu (mirror_sn P))).
  { intros m Hm. cbn [mirror_sn mu]. specialize (Hnz m Hm). lra. }
  destruct (iterate_sim (fun f f' : vec => forall i, (i < cells P)%nat -> f' i = mirrored (cells P) f i)
    (slab_iso_pass P xs_total xs_scatter off external boundary 0)
    (slab_iso_pass (mirror_sn P) xs_total xs_scatter (mirrored (cells P) off)
       (mirror_rows (cells P) external) (mirror_rows 2 boundary) 0)
    (rel_change (cells P)) (rel_change (cells (mirror_sn P))) change_nn count_nn) with
    (fuel := count_nn) (count := 1%nat) (x := flux_old) (y := mirrored (cells P) flux_old)
    as [(x' & y' & E1 & E2 & Hr)|(e & E1 & E2)].
  - intros f f' Hff. left.
    destruct (slab_iso_pass P xs_total xs_scatter off external boundary 0 f) as [x'|e] eqn:E.
    + destruct (pass_mirror _ _ _ _ _ _ _ _ E) as (y' & E' & Hy).
      exists x', y'. split; [reflexivity|]. split.
      * rewrite <- E'. apply slab_iso_pass_ext; [exact Hnz'|]. exact Hff.
      * split; [exact Hy|]. symmetry. apply rel_change_mirror; assumption.
    + rewrite slab_iso_pass_ok in E by exact Hnz. discriminate.
  - intros i _. reflexivity.
  - exists x', y'. auto.
  - exfalso. destruct (driver_total P flux_old xs_total xs_scatter off external boundary 0 Hnz) as [fl Ef].
    unfold slab_isotropic_sn in Ef. rewrite E1 in Ef. discriminate.
Qed.

Lemma kernel_mirror P flux flux_old xs_total xs_scatter off ext inflow mu w edges :
  let n := cells P in
  let bw := slab_backward_iso P flux flux_old xs_total xs_scatter off ext inflow (- mu) w edges in
  let fw := slab_forward_iso (mirror_sn P) (fun i => if Nat.eqb edges 1 then flux (n - i)%nat else flux (n - 1 - i)%nat)
              (mirrored n flux_old) xs_total xs_scatter (mirrored n off) (mirrored n ext) inflow mu w edges in
  fst bw = fst fw /\
  (edges = 1%nat -> forall i, (i <= n)%nat -> snd bw i = snd fw (n - i)%nat) /\
  (edges <> 1%nat -> forall i, (i < n)%nat -> snd bw i = snd fw (n - 1 - i)%nat).
Proof.
  intros n bw fw. unfold bw, fw. rewrite slab_backward_iso_eq, slab_forward_iso_eq. cbn [fst snd].
  set (qb := fun i => xs_scatter (medium P i) * flux_old i + ext i + off i).
  set (qf := fun i => xs_scatter (medium (mirror_sn P) i) * mirrored n flux_old i + mirrored n ext i + mirrored n off i).
  assert (Hpsi : forall k, (k <= n)%nat ->
     bwd_psi n qb (fun i => - - mu / dx P i) (half_sig P xs_total) inflow k
     = fwd_psi qf (fun i => mu / dx (mirror_sn P) i) (half_sig (mirror_sn P) xs_total) inflow (n - k)).
  { intros k Hk. rewrite bwd_mirror by exact Hk. apply (fwd_psi_ext n); [lia|].
    intros i Hi. rewrite Ropp_involutive. repeat split; reflexivity. }
  repeat split.
  - cbn [mirror_sn cells]. fold n. rewrite Hpsi by lia. rewrite Nat.sub_0_r. reflexivity.
  - intros -> i Hi. fold n. cbn [mirror_sn cells] in *. fold n. rewrite acc_contrib_bwd, acc_contrib_fwd.
    unfold contrib. cbn [Nat.eqb].
    replace (n - (n - i))%nat with i by lia.
    destruct (Nat.leb_spec i n), (Nat.leb_spec (n - i) n); try lia. rewrite Hpsi by lia. reflexivity.
  - intros He i Hi. apply Nat.eqb_neq in He.
    fold n. cbn [mirror_sn cells] in *. fold n. rewrite acc_contrib_bwd, acc_contrib_fwd.
    unfold contrib. rewrite He.
    replace (n - 1 - (n - 1 - i))%nat with i by lia.
    destruct (Nat.ltb_spec i n), (Nat.ltb_spec (n - 1 - i) n); try lia. rewrite !Hpsi by lia.
    replace (S (n - 1 - i)) with (n - i)%nat by lia.
    replace (n - S i)%nat with (n - 1 - i)%nat by lia. ring.
Qed.

(** * C07 *)
Lemma reflected_in_spec P (psi : mat2) m :
  symmetric_quadrature (angles P) (mu P) -> nonzero_ordinates (angles P) (mu P) ->
  ordered_for (angles P) (mu P) (bc_left P) (bc_right P) -> (m < angles P)%nat ->
  reflected_in (cells P) (angles P) (mu P) (bc_left P) (bc_right P) psi m
  = if enters_reflective (mu P) (bc_left P) (bc_right P) m
    then psi (angles P - m - 1)%nat (inflow_edge (cells P) (mu P m)) else 0.
Proof.
  intros Hs Hnz Ho Hm. unfold reflected_in.
  assert (Hm' := Hs m Hm). assert (Hz := Hnz m Hm).
  assert (Hl : leaves_reflective (mu P) (bc_left P) (bc_right P) (angles P - m - 1)
             = enters_reflective (mu P) (bc_left P) (bc_right P) m).
  { unfold leaves_reflective, enters_reflective. rewrite Hm'.
    destruct (Rlt_dec 0 (- mu P m)), (Rlt_dec 0 (mu P m)), (Rlt_dec (- mu P m) 0); try lra; reflexivity. }
  rewrite Hl. destruct (enters_reflective _ _ _ m) eqn:Ee; [|rewrite andb_false_r; reflexivity].
  specialize (Ho m Hm Ee). apply Nat.ltb_lt in Ho. rewrite Ho. cbn [andb]. f_equal.
  unfold outflow_edge, inflow_edge. rewrite Hm'.
  destruct (Rlt_dec 0 (- mu P m)), (Rlt_dec 0 (mu P m)); try lra; reflexivity.
Qed.

Lemma pass_reflective P xs_total xs_scatter off external boundary flux_old flux :
  symmetric_quadrature (angles P) (mu P) -> good_divisors P xs_total ->
  ordered_for (angles P) (mu P) (bc_left P) (bc_right P) ->
  slab_iso_pass P xs_total xs_scatter off external boundary 0 flux_old = Ok flux ->
  exists psi,
    slab_transport (cells P) (angles P) (mu P) (wt P) (dx P) (fun i => xs_total (medium P i))
      (iso_source (medium P) xs_scatter off external flux_old)
      (reflective_inflow (cells P) (angles P) (mu P) (bc_left P) (bc_right P) boundary psi)
      psi flux.
Proof.
  intros Hs Hd Ho E. assert (Hnz := pass_ok_nonzero _ _ _ _ _ _ _ _ _ E).
  destruct (slab_iso_pass_transport _ _ _ _ _ _ _ _ Hnz Hd E) as (psi & H1 & H2 & H3).
  exists psi. split; [exact H1|]. split; [|exact H3].
  intros m Hm. rewrite H2 by exact Hm. rewrite reflected_in_spec by assumption.
  unfold reflective_inflow. ring.
Qed.

(** * C75 contraction *)
Lemma Psi_bounded P q s b kappa :
  nonzero_ordinates (angles P) (mu P) -> 0 <= kappa ->
  (forall m i, (m < angles P)%nat -> (i < cells P)%nat ->
     Rabs (q m i) <= 2 * s i * kappa /\ 0 <= s i /\ s i <= Rabs (mu P m) / dx P i /\ 0 < dx P i) ->
  (forall m, (m < angles P)%nat -> b m = 0) ->
  forall m k, (m < angles P)%nat -> (k <= cells P)%nat -> Rabs (Psi P q s b m k) <= kappa.
Proof.
  intros Hnz Hk H Hb m k Hm Hkc.
  set (qf := fun (_ : nat) i => 2 * s i * kappa).
  set (bf := fun m => if andb (Nat.ltb (angles P - m - 1) m)
                (leaves_reflective (mu P) (bc_left P) (bc_right P) (angles P - m - 1)) then 0 else kappa).
  assert (Hflat : Psi P qf s bf m k = kappa).
  { apply Psi_flat; try assumption; try reflexivity.
    intros m' i' Hm' Hi'. destruct (H m' i' Hm' Hi') as (H1 & H2 & H3 & H4).
    assert (0 < Rabs (mu P m') / dx P i').
    { apply Rdiv_lt_0_compat; [apply Rabs_pos_lt, Hnz; exact Hm'|exact H4]. } lra. }
  assert (Hbf : forall m, 0 <= bf m).
  { intros m'. unfold bf. destruct (andb _ _); lra. }
  assert (Hboth : forall c, (c = 1 \/ c = -1) -> 0 <= kappa + c * Psi P q s b m k).
  { intros c Hc. replace (kappa + c * Psi P q s b m k) with (1 * Psi P qf s bf m k + c * Psi P q s b m k) by lra.
    rewrite <- Psi_linear. apply Psi_nonneg; try assumption.
    - intros m' i' Hm' Hi'. destruct (H m' i' Hm' Hi') as (H1 & H2 & H3 & H4).
      repeat split; try assumption. unfold qf.
      assert (A := Rle_abs (q m' i')). assert (B := Rle_abs (- q m' i')). rewrite Rabs_Ropp in B.
      destruct Hc as [-> | ->]; lra.
    - intros m' Hm'. rewrite Hb by exact Hm'. specialize (Hbf m'). lra. }
  assert (A := Hboth 1 ltac:(auto)). assert (B := Hboth (-1) ltac:(auto)).
  apply Rabs_le. lra.
Qed.

Lemma pass_contracts P xs_total xs_scatter off external boundary f g f' g' c d :
  thin_mesh P xs_total ->
  (forall m, (m < angles P)%nat -> 0 <= wt P m) -> 0 <= c -> 0 <= d ->
  (forall i, (i < cells P)%nat -> Rabs (xs_scatter (medium P i)) <= c * xs_total (medium P i)) ->
  slab_iso_pass P xs_total xs_scatter off external boundary 0 f = Ok f' ->
  slab_iso_pass P xs_total xs_scatter off external boundary 0 g = Ok g' ->
  within (cells P) d f g ->
  within (cells P) (rsum (angles P) (wt P) * c * d) f' g'.
Proof.
  intros Hmesh Hw Hc Hd Hs Ef Eg Hfg i Hi.
  assert (Hnz := pass_ok_nonzero _ _ _ _ _ _ _ _ _ Ef).
  rewrite slab_iso_pass_ok in Ef, Eg by exact Hnz. injection Ef as <-. injection Eg as <-.
  rewrite !pass_flux_center by exact Hi. rewrite <- rsum_minus.
  set (q1 := iso_q P xs_scatter off external f). set (q2 := iso_q P xs_scatter off external g).
  set (s := half_sig P xs_total). set (b := boundary_in boundary (mu P)).
  assert (G : forall m k, (m < angles P)%nat -> (k <= cells P)%nat ->
     Rabs (Psi P q1 s b m k - Psi P q2 s b m k) <= c * d).
  { intros m k Hm Hk.
    replace (Psi P q1 s b m k - Psi P q2 s b m k)
      with (1 * Psi P q1 s b m k + (-1) * Psi P q2 s b m k) by ring.
    rewrite <- Psi_linear. apply Psi_bounded; try assumption.
    - apply Rmult_le_pos; assumption.
    - intros m' i' Hm' Hi'. destruct (Hmesh m' i' Hm' Hi') as (H1 & H2 & H3).
      repeat split.
      + unfold q1, q2, iso_q, iso_source, s, half_sig.
        match goal with |- Rabs ?x <= _ => replace x with (xs_scatter (medium P i') * (f i' - g i')) by ring end.
        rewrite Rabs_mult.
        apply Rle_trans with ((c * xs_total (medium P i')) * d); [|right; lra].
        apply Rmult_le_compat; try apply Rabs_pos; [apply Hs; exact Hi'|apply Hfg; exact Hi'].
      + unfold s, half_sig. lra.
      + unfold s, half_sig. apply (Rmult_le_reg_r (dx P i')); [exact H1|].
        replace (Rabs (mu P m') / dx P i' * dx P i') with (Rabs (mu P m')) by (field; lra). lra.
      + exact H1.
    - intros; ring. }
  apply Rle_trans with (rsum (angles P) (fun m => wt P m * (c * d))).
  - assert (GS : forall k (u v : vec), (forall m, (m < k)%nat -> Rabs (u m) <= v m) -> Rabs (rsum k u) <= rsum k v).
    { induction k as [|k IH]; intros u v H; simpl; [rewrite Rabs_R0; lra|].
      eapply Rle_trans; [apply Rabs_triang|].
      apply Rplus_le_compat; [apply IH; intros; apply H; lia|apply H; lia]. }
    apply GS. intros m Hm.
    match goal with |- Rabs ?x <= _ => replace x with
      (wt P m * (((Psi P q1 s b m i - Psi P q2 s b m i) + (Psi P q1 s b m (S i) - Psi P q2 s b m (S i))) / 2)) by lra end.
    rewrite Rabs_mult, (Rabs_right (wt P m)) by (apply Rle_ge, Hw; exact Hm).
    apply Rmult_le_compat_l; [apply Hw; exact Hm|].
    assert (A := G m i Hm ltac:(lia)). assert (B := G m (S i) Hm ltac:(lia)).
    assert (Hab : forall u v : R, Rabs u <= v -> - v <= u <= v).
    { intros u v Huv. assert (X := Rle_abs u). assert (Y := Rle_abs (- u)). rewrite Rabs_Ropp in Y. lra. }
    apply Rabs_le. apply Hab in A; apply Hab in B. lra.
  - rewrite rsum_scal_r. right. ring.
Qed.

(** The within-group problem has exactly one solution, and the driver's iterates approach it
    geometrically. *)
Definition pass_fun (P : sn) xs_total xs_scatter off external boundary (f : vec) : vec :=
  match slab_iso_pass P xs_total xs_scatter off external boundary 0 f with
  | Ok r => r | Raise _ => f end.

Lemma inner_solution_exists P xs_total xs_scatter off external boundary c :
  nonzero_ordinates (angles P) (mu P) -> thin_mesh P xs_total ->
  (forall m, (m < angles P)%nat -> 0 <= wt P m) -> 0 <= c ->
  rsum (angles P) (wt P) * c < 1 ->
  (forall i, (i < cells P)%nat -> Rabs (xs_scatter (medium P i)) <= c * xs_total (medium P i)) ->
  exists sol,
    (exists r, slab_iso_pass P xs_total xs_scatter off external boundary 0 sol = Ok r /\
       forall i, (i < cells P)%nat -> r i = sol i) /\
    (forall other r, slab_iso_pass P xs_total xs_scatter off external boundary 0 other = Ok r ->
       (forall i, (i < cells P)%nat -> r i = other i) ->
       forall i, (i < cells P)%nat -> other i = sol i).
Proof.
  intros Hnz Hmesh Hw Hc Hrho Hs.
  set (T := pass_fun P xs_total xs_scatter off external boundary).
  set (rho := rsum (angles P) (wt P) * c) in *.
  assert (HT0 : forall f, slab_iso_pass P xs_total xs_scatter off external boundary 0 f = Ok (T f)).
  { intros f. unfold T, pass_fun. rewrite slab_iso_pass_ok by exact Hnz. reflexivity. }
  assert (HW : 0 <= rsum (angles P) (wt P)) by (apply rsum_nonneg; exact Hw).
  assert (Hr : 0 <= rho < 1) by (split; [apply Rmult_le_pos; assumption|assumption]).
  assert (HT : forall f g d, 0 <= d -> near (cells P) d f g -> near (cells P) (rho * d) (T f) (T g)).
  { intros f g d Hd H. eapply pass_contracts; try eassumption; apply HT0. }
  destruct (banach_exists (cells P) T rho Hr HT zeros) as [sol Hsol].
  exists sol. split.
  - exists (T sol). split; [apply HT0|exact Hsol].
  - intros other r E Hfix. rewrite HT0 in E. injection E as <-.
    apply (unique_fixed (cells P) T rho Hr HT); assumption.
Qed.

Lemma driver_error P xs_total xs_scatter off external boundary c flux_old flux sol :
  thin_mesh P xs_total ->
  (forall m, (m < angles P)%nat -> 0 <= wt P m) -> 0 <= c ->
  rsum (angles P) (wt P) * c < 1 ->
  (forall i, (i < cells P)%nat -> Rabs (xs_scatter (medium P i)) <= c * xs_total (medium P i)) ->
  slab_isotropic_sn P flux_old xs_total xs_scatter off external boundary 0 = Ok flux ->
  (exists r, slab_iso_pass P xs_total xs_scatter off external boundary 0 sol = Ok r /\
       forall i, (i < cells P)%nat -> r i = sol i) ->
  let rho := rsum (angles P) (wt P) * c in
  exists n, (1 <= n <= 100)%nat /\
    (forall d, 0 <= d -> within (cells P) d flux_old sol -> within (cells P) (rho ^ n * d) flux sol) /\
    ((n < 100)%nat -> forall M, 0 <= M -> (forall i, (i < cells P)%nat -> Rabs (flux i) <= M) ->
       within (cells P) (rho * (change_nn * INR (cells P) * M) / (1 - rho)) flux sol).
Proof.
  intros Hmesh Hw Hc Hrho Hs E (r & Er & Hfix) rho.
  assert (Hnz := pass_ok_nonzero _ _ _ _ _ _ _ _ _ Er).
  destruct (driver_trace _ _ _ _ _ _ _ _ _ E) as (n & x & Hn & H0 & -> & Hstep & _ & Hconv).
  exists n. split; [exact Hn|].
  set (T := pass_fun P xs_total xs_scatter off external boundary).
  assert (HT0 : forall f, slab_iso_pass P xs_total xs_scatter off external boundary 0 f = Ok (T f)).
  { intros f. unfold T, pass_fun. rewrite slab_iso_pass_ok by exact Hnz. reflexivity. }
  assert (HW : 0 <= rsum (angles P) (wt P)) by (apply rsum_nonneg; exact Hw).
  assert (Hr : 0 <= rho < 1) by (split; [apply Rmult_le_pos; assumption|assumption]).
  assert (HT : forall f g d, 0 <= d -> near (cells P) d f g -> near (cells P) (rho * d) (T f) (T g)).
  { intros f g d Hd H. eapply pass_contracts; try eassumption; apply HT0. }
  rewrite HT0 in Er. injection Er as <-.
  assert (Hx : forall k, (k < n)%nat -> x (S k) = T (x k)).
  { intros k Hk. specialize (Hstep k Hk). rewrite HT0 in Hstep. injection Hstep as <-. reflexivity. }
  split.
  - intros d Hd Hdist.
    assert (G : forall k, (k <= n)%nat -> near (cells P) (rho ^ k * d) (x k) sol).
    { induction k as [|k IH]; intros Hk.
      - rewrite H0. simpl. eapply near_weaken; [|exact Hdist]. lra.
      - rewrite Hx by lia. simpl. rewrite Rmult_assoc. intros i Hi. rewrite <- (Hfix i Hi).
        apply (HT (x k) sol (rho ^ k * d)); [|apply IH; lia|exact Hi].
        apply Rmult_le_pos; [apply pow_le; lra|exact Hd]. }
    apply (G n). lia.
  - intros Hlt M HM Hbound. destruct (Hconv Hlt) as ((ch & Hch & Hsmall) & Hnzf).
    assert (HxT : x n = T (x (n - 1)%nat)).
    { rewrite <- Hx by lia. f_equal. lia. }
    assert (Hcells : (cells P = 0)%nat \/ (0 < cells P)%nat) by lia.
    destruct Hcells as [Hc0|Hcp]; [intros i Hi; lia|].
    destruct (near_exists (cells P) (x (n - 1)%nat) sol) as (e & He & Hne).
    rewrite HxT. apply (posterior (cells P) T rho Hr HT (x (n - 1)%nat) sol _ e);
      [|exact He|exact Hfix| |exact Hne].
    + apply Rmult_le_pos; [apply Rmult_le_pos; [left; apply change_nn_pos|apply pos_INR]|exact HM].
    + intros i Hi. rewrite <- HxT.
      unfold rel_change in Hch. destruct (has_zero (cells P) (x n)); [discriminate|].
      injection Hch as Hch.
      set (t := (x n i - x (n - 1)%nat i) / x n i / INR (cells P)).
      assert (Ht : Rabs t <= change_nn).
      { apply Rle_trans with ch; [|lra]. rewrite <- Hch, <- sqrt_Rsqr_abs. apply sqrt_le_1_alt.
        apply (rsum_term_le (cells P) (fun i => ((x n i - x (n - 1)%nat i) / x n i / INR (cells P))²));
          [intros; apply Rle_0_sqr|exact Hi]. }
      assert (HINR : 0 < INR (cells P)) by (apply lt_0_INR; exact Hcp).
      replace (x n i - x (n - 1)%nat i) with (t * INR (cells P) * x n i)
        by (unfold t; field; repeat split; first [exact (Hnzf i Hi) | apply Rgt_not_eq; exact HINR]).
      rewrite !Rabs_mult. rewrite (Rabs_right (INR _)) by lra.
      apply Rmult_le_compat; try apply Rabs_pos.
      * apply Rmult_le_pos; [apply Rabs_pos|lra].
      * apply Rmult_le_compat_r; [lra|exact Ht].
      * apply Hbound; exact Hi.
Qed.
