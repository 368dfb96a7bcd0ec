(** Infinite medium: where collisions lose neutrons the flux is unique and found; k-infinity and power iteration. *)
From Coq Require Import Lra Lia Psatz.
From Verif Require Import Base BaseFacts Contraction SlabModel SlabSpec SlabFacts MgModel MgSpec MgFacts MgFacts2 MgFacts7.
From Verif Require Import CritModel CritSpec CritFacts CritFacts2 CritFacts3 CritFacts4 CritFacts5.
Open Scope R_scope.

Lemma vec_ratio_max n (u v : vec) : (0 < n)%nat -> (forall g, (g < n)%nat -> 0 < v g) ->
  exists c g0, (g0 < n)%nat /\ u g0 = c * v g0 /\ forall g, (g < n)%nat -> u g <= c * v g.
Proof.
  intros Hn Hv. destruct (ratio_max 1 n (fun _ => u) (fun _ => v) ltac:(lia) Hn) as (c & i & g & Hi & Hg & E & H).
  - intros i g _ Hg. apply Hv; exact Hg.
  - exists c, g. split; [exact Hg|]. split; [exact E|]. intros h Hh. apply (H 0%nat h); [lia|exact Hh].
Qed.

(** *** columns below one give a damped flux *)
Lemma sum_swap_abs groups (A : mat2) (v : vec) :
  rsum groups (fun g => Rabs (rsum groups (fun h => A g h * v h))) <= rsum groups (fun h => rsum groups (fun g => Rabs (A g h)) * Rabs (v h)).
Proof.
  apply Rle_trans with (rsum groups (fun g => rsum groups (fun h => Rabs (A g h) * Rabs (v h)))).
  - apply rsum_le. intros g Hg. apply rsum_abs_le. intros h Hh. rewrite Rabs_mult. lra.
  - rewrite rsum_swap. right. apply rsum_ext. intros h Hh. rewrite rsum_scal_r. reflexivity.
Qed.
Theorem yield_damping_0d angles groups wt T X c r : 0 <= rsum angles wt -> 0 <= c -> c < r ->
  yields_0d angles groups wt T X c -> exists p, damping_0d angles groups wt T X r p.
Proof.
  intros HW Hc Hr HY. set (W := rsum angles wt) in *.
  set (B := fun g h => W / r * (Rabs (X g h) / T h)).
  assert (BN : forall g h, (g < groups)%nat -> (h < groups)%nat -> 0 <= B g h).
  { intros g h Hg Hh. destruct (HY h Hh) as (Th & _). unfold B, Rdiv. apply Rmult_le_pos; [apply Rmult_le_pos; [exact HW|left; apply Rinv_0_lt_compat; lra]|].
    apply Rmult_le_pos; [apply Rabs_pos|left; apply Rinv_0_lt_compat; exact Th]. }
  assert (BC : forall h, (h < groups)%nat -> rsum groups (fun g => B g h) <= c / r).
  { intros h Hh. destruct (HY h Hh) as (Th & Y). unfold B. rewrite rsum_scal. unfold Rdiv at 2. rewrite rsum_scal_r.
    apply (Rmult_le_reg_r (r * T h)); [apply Rmult_lt_0_compat; lra|]. fold W in Y.
    replace (c / r * (r * T h)) with (c * T h) by (field; lra).
    replace (W / r * (rsum groups (fun g => Rabs (X g h)) * / T h) * (r * T h)) with (W * rsum groups (fun g => Rabs (X g h))) by (field; lra). exact Y. }
  assert (Hq : 0 <= c / r < 1).
  { split; [apply Rmult_le_pos; [exact Hc|left; apply Rinv_0_lt_compat; lra]|]. apply (Rmult_lt_reg_r r); [lra|]. unfold Rdiv. rewrite Rmult_assoc, Rinv_l by lra. lra. }
  (* nothing nonnegative feeds itself *)
  assert (SF : forall v : vec, (forall g, (g < groups)%nat -> 0 <= v g) ->
     (forall g, (g < groups)%nat -> v g <= rsum groups (fun h => B g h * v h)) -> forall g, (g < groups)%nat -> v g = 0).
  { intros v Hv Hf g Hg.
    assert (S1 : rsum groups v <= c / r * rsum groups v).
    { eapply Rle_trans; [apply rsum_le; exact Hf|]. rewrite rsum_swap, <- rsum_scal. apply rsum_le. intros h Hh. rewrite rsum_scal_r.
      apply Rmult_le_compat_r; [apply Hv; exact Hh|apply BC; exact Hh]. }
    assert (S2 : 0 <= rsum groups v) by (apply rsum_nonneg; exact Hv).
    pose proof (rsum_term_le groups v g Hv Hg). specialize (Hv g Hg). nra. }
  destruct (injective_surjective groups (fun g h => (if Nat.eqb g h then 1 else 0) - B g h)) with (b := fun _ : nat => 1) as (v & Hv).
  { intros x Hx. assert (E : forall g, (g < groups)%nat -> x g = rsum groups (fun h => B g h * x h)).
    { intros g Hg. specialize (Hx g Hg). unfold rows in Hx.
      rewrite (rsum_ext groups _ (fun h => (if Nat.eqb g h then 1 else 0) * x h - B g h * x h)) in Hx by (intros; ring).
      rewrite rsum_minus in Hx. rewrite (rsum_single groups (fun h => (if Nat.eqb g h then 1 else 0) * x h) g Hg) in Hx.
      - rewrite Nat.eqb_refl in Hx. lra.
      - intros h Hh Hne. destruct (Nat.eqb_spec g h); [lia|ring]. }
    assert (Z := SF (fun g => Rabs (x g)) (fun g _ => Rabs_pos _)). cbv beta in Z. intros g Hg.
    assert (Q : Rabs (x g) = 0).
    { apply Z; [|exact Hg]. intros g' Hg'. rewrite (E g' Hg') at 1. apply rsum_abs_le. intros h Hh. rewrite Rabs_mult, (Rabs_right (B g' h)) by (apply Rle_ge, BN; assumption). lra. }
    destruct (Req_dec (x g) 0) as [|N]; [assumption|]. pose proof (Rabs_pos_lt _ N). lra. }
  assert (E : forall g, (g < groups)%nat -> v g = rsum groups (fun h => B g h * v h) + 1).
  { intros g Hg. specialize (Hv g Hg). unfold rows in Hv.
    rewrite (rsum_ext groups _ (fun h => (if Nat.eqb g h then 1 else 0) * v h - B g h * v h)) in Hv by (intros; ring).
    rewrite rsum_minus in Hv. rewrite (rsum_single groups (fun h => (if Nat.eqb g h then 1 else 0) * v h) g Hg) in Hv.
    - rewrite Nat.eqb_refl in Hv. lra.
    - intros h Hh Hne. destruct (Nat.eqb_spec g h); [lia|ring]. }
  assert (NN : forall g, (g < groups)%nat -> 0 <= v g).
  { assert (Z := SF (fun g => Rmax (- v g) 0) (fun g _ => Rmax_r _ _)). cbv beta in Z. intros g Hg.
    assert (Q : Rmax (- v g) 0 = 0).
    { apply Z; [|exact Hg]. intros g' Hg'. apply Rmax_lub.
      - rewrite (E g' Hg'). assert (- rsum groups (fun h => B g' h * v h) <= rsum groups (fun h => B g' h * Rmax (- v h) 0)); [|lra].
        rewrite <- rsum_opp. apply rsum_le. intros h Hh. pose proof (Rmax_l (- v h) 0). pose proof (BN g' h Hg' Hh). nra.
      - apply rsum_nonneg. intros h Hh. apply Rmult_le_pos; [apply BN; assumption|apply Rmax_r]. }
    pose proof (Rmax_l (- v g) 0). lra. }
  exists (fun g => v g / T g). intros g Hg. destruct (HY g Hg) as (Tg & _).
  assert (V : 1 <= v g).
  { rewrite (E g Hg). assert (0 <= rsum groups (fun h => B g h * v h)); [|lra]. apply rsum_nonneg. intros h Hh. apply Rmult_le_pos; [apply BN; assumption|apply NN; exact Hh]. }
  split; [exact Tg|]. split; [apply Rdiv_lt_0_compat; lra|].
  replace (r * (T g * (v g / T g))) with (r * v g) by (field; lra). rewrite (E g Hg).
  rewrite (rsum_ext groups (fun h => B g h * v h) (fun h => W / r * (Rabs (X g h) * (v h / T h)))).
  - rewrite rsum_scal. fold W. assert (0 <= r) by lra.
    replace (r * (W / r * rsum groups (fun h => Rabs (X g h) * (v h / T h)) + 1)) with (W * rsum groups (fun h => Rabs (X g h) * (v h / T h)) + r) by (field; lra). lra.
  - intros h Hh. destruct (HY h Hh). unfold B. field. lra.
Qed.

Section Damped0.
Variables (angles groups : nat) (wt T : vec) (X : mat2) (c : R) (p : vec).
Hypothesis HW : 0 <= rsum angles wt.
Hypothesis Hc : 0 <= c < 1.
Hypothesis HD : damping_0d angles groups wt T X c p.

Lemma d0_total g : (g < groups)%nat -> T g <> 0.
Proof. intros Hg. destruct (HD g Hg). lra. Qed.
Lemma d0_pos g : (g < groups)%nat -> 0 < p g.
Proof. intros Hg. apply (HD g Hg). Qed.

Lemma sweep_0d_contracts_of rows external old new sol d :
  balance_0d angles groups wt T X rows external sol ->
  sweep_0d angles groups wt T X rows external old = Ok new ->
  0 <= d -> (forall g, (g < groups)%nat -> Rabs (old g - sol g) <= d * p g) ->
  forall g, (g < groups)%nat -> Rabs (new g - sol g) <= c * d * p g.
Proof.
  intros Hsol E Hd Hold. assert (H := sweep_0d_groups _ _ _ _ _ _ _ _ _ E).
  set (W := rsum angles wt) in *.
  assert (G : forall k, (k <= groups)%nat -> forall g, (g < k)%nat -> Rabs (new g - sol g) <= c * d * p g).
  { induction k as [|k IH]; intros Hk g Hg; [lia|]. destruct (Nat.eq_dec g k) as [-> |]; [|apply IH; lia].
    destruct (HD k ltac:(lia)) as (Htp & Hpk & Hrk). specialize (H k ltac:(lia)).
    destruct (group_0d_trace _ _ _ _ _ _ _ _ _ H) as (m & x & Hm & H0 & Hxm & Hst & _).
    set (ext := fun n => at2 external n (bidx (cols2 external) k)) in *.
    assert (Hs := balance_0d_split _ _ _ _ _ _ _ _ k Hk Hsol).
    assert (Hs' : sol k = pass_0d angles wt (T k) (X k k) (gs_off0 groups sol sol X k) rows ext (sol k)).
    { rewrite pass_0d_eq.
      rewrite (rsum_ext angles _ (fun m => (X k k * sol k + gs_off0 groups sol sol X k) * wt m + wt m * ext (bidx rows m))) in Hs by (intros; unfold ext; ring).
      rewrite rsum_plus, rsum_scal in Hs. apply (Rmult_eq_reg_l (T k)); [|lra]. rewrite Hs. field. lra. }
    set (A := Rabs (X k k) * p k).
    set (B := rsum groups (fun h => if Nat.eqb h k then 0 else Rabs (X k h) * p h)).
    assert (HAB : A + B = rsum groups (fun h => Rabs (X k h) * p h)).
    { unfold A, B. assert (S := rsum_single groups (fun h => if Nat.eqb h k then Rabs (X k k) * p k else 0) k ltac:(lia)).
      cbv beta in S. rewrite Nat.eqb_refl in S. rewrite <- S.
      2:{ intros h Hh Hne. destruct (Nat.eqb_spec h k); [lia|reflexivity]. }
      rewrite <- rsum_plus. apply rsum_ext. intros h Hh. destruct (Nat.eqb_spec h k) as [-> |]; lra. }
    assert (Hoff : Rabs (gs_off0 groups new old X k - gs_off0 groups sol sol X k) <= B * d).
    { unfold gs_off0, B. rewrite <- rsum_minus, <- rsum_scal_r. apply rsum_abs_le. intros h Hh.
      destruct (Nat.eqb_spec h k) as [|Hne]; [rewrite Rminus_0_r, Rabs_R0; lra|]. pose proof (d0_pos h Hh) as Hph.
      destruct (Nat.ltb_spec h k).
      - replace (X k h * new h - X k h * sol h) with (X k h * (new h - sol h)) by ring.
        rewrite Rabs_mult, Rmult_assoc. apply Rmult_le_compat_l; [apply Rabs_pos|].
        eapply Rle_trans; [apply IH; lia|]. assert (0 <= d * p h) by (apply Rmult_le_pos; lra). nra.
      - replace (X k h * old h - X k h * sol h) with (X k h * (old h - sol h)) by ring.
        rewrite Rabs_mult, Rmult_assoc. apply Rmult_le_compat_l; [apply Rabs_pos|]. rewrite (Rmult_comm (p h)). apply Hold. exact Hh. }
    assert (Hpass : forall y, Rabs (y - sol k) <= d * p k ->
      Rabs (pass_0d angles wt (T k) (X k k) (gs_off0 groups new old X k) rows ext y - sol k) <= c * d * p k).
    { intros y Hy. rewrite Hs' at 1. rewrite !pass_0d_eq. fold W.
      match goal with |- Rabs ?e <= _ => replace e with (W * (X k k * (y - sol k)
        + (gs_off0 groups new old X k - gs_off0 groups sol sol X k)) / T k) by (field; lra) end.
      unfold Rdiv. rewrite Rabs_mult, Rabs_mult, (Rabs_right W), (Rabs_right (/ T k)); try (apply Rle_ge; exact HW).
      2:{ apply Rle_ge. left. apply Rinv_0_lt_compat. lra. }
      apply (Rmult_le_reg_r (T k)); [lra|].
      rewrite Rmult_assoc, Rinv_l, Rmult_1_r by lra.
      assert (Q : Rabs (X k k * (y - sol k) + (gs_off0 groups new old X k - gs_off0 groups sol sol X k)) <= (A + B) * d).
      { eapply Rle_trans; [apply Rabs_triang|]. rewrite Rabs_mult. unfold A.
        assert (Rabs (X k k) * Rabs (y - sol k) <= Rabs (X k k) * (d * p k)) by (apply Rmult_le_compat_l; [apply Rabs_pos|exact Hy]). lra. }
      rewrite HAB in Q. fold W in Hrk. apply (Rmult_le_compat_l W) in Q; [|exact HW]. eapply Rle_trans; [exact Q|].
      rewrite <- Rmult_assoc. apply (Rmult_le_compat_r d) in Hrk; [|exact Hd]. lra. }
    assert (Hle : c * d * p k <= d * p k) by (assert (0 <= d * p k) by (apply Rmult_le_pos; lra); nra).
    assert (Q : forall j, (j <= m)%nat -> Rabs (x j - sol k) <= d * p k /\ ((1 <= j)%nat -> Rabs (x j - sol k) <= c * d * p k)).
    { induction j as [|j IHj]; intros Hj.
      - rewrite H0. split; [apply Hold; lia|lia].
      - rewrite Hst by lia. assert (Z := Hpass (x j) (proj1 (IHj ltac:(lia)))). split; [lra|intros _; exact Z]. }
    rewrite Hxm. apply Q; lia. }
  intros g Hg. apply (G groups); lia.
Qed.
(** *** scaling by [p] reduces the balance to row sums *)
Lemma scaled_balance rows external phi :
  balance_0d angles groups wt T X rows external phi <->
  balance_0d angles groups wt T (fun g h => X g h * p h / p g) rows (mkArr2 groups (fun n g => at2 external n (bidx (cols2 external) g) / p g)) (fun g => phi g / p g).
Proof.
  assert (K : forall g, (g < groups)%nat -> bidx groups g = g) by (intros g Hg; unfold bidx; destruct (Nat.eqb_spec groups 1); lia).
  assert (Eq : forall g, (g < groups)%nat ->
    rsum angles (fun n => wt n * (rsum groups (fun h => X g h * p h / p g * (phi h / p h)) + at2 external (bidx rows n) (bidx (cols2 external) g) / p g))
    = rsum angles (fun n => wt n * (rsum groups (fun h => X g h * phi h) + at2 external (bidx rows n) (bidx (cols2 external) g))) / p g).
  { intros g Hg. pose proof (d0_pos g Hg). unfold Rdiv at 4. rewrite <- rsum_scal_r. apply rsum_ext. intros n Hn.
    rewrite (rsum_ext groups _ (fun h => X g h * phi h * / p g)).
    - rewrite rsum_scal_r. unfold Rdiv. ring.
    - intros h Hh. pose proof (d0_pos h Hh). field. lra. }
  split; intros H g Hg; specialize (H g Hg); pose proof (d0_pos g Hg) as Hp; cbn [at2 cols2] in *; rewrite (K g Hg) in *.
  - rewrite (Eq g Hg), <- H. unfold Rdiv. ring.
  - rewrite (Eq g Hg) in H. apply (Rmult_eq_reg_r (/ p g)); [|apply Rinv_neq_0_compat; lra]. unfold Rdiv in H. rewrite <- H. ring.
Qed.
Lemma scaled_ratio : ratio_0d angles groups wt T (fun g h => X g h * p h / p g) c.
Proof.
  intros g Hg. destruct (HD g Hg) as (A & B & C). split; [exact A|].
  rewrite (rsum_ext groups _ (fun h => Rabs (X g h) * p h * / p g)).
  - rewrite rsum_scal_r. apply (Rmult_le_reg_r (p g)); [exact B|].
    replace (rsum angles wt * (rsum groups (fun h => Rabs (X g h) * p h) * / p g) * p g) with (rsum angles wt * rsum groups (fun h => Rabs (X g h) * p h)) by (field; lra). lra.
  - intros h Hh. pose proof (d0_pos h Hh). unfold Rdiv. rewrite !Rabs_mult, (Rabs_right (p h)), (Rabs_right (/ p g)); [reflexivity| |lra].
    apply Rle_ge. left. apply Rinv_0_lt_compat. exact B.
Qed.
Lemma damped_0d_unique rows external : exists sol, balance_0d angles groups wt T X rows external sol /\
  forall other, balance_0d angles groups wt T X rows external other -> forall g, (g < groups)%nat -> other g = sol g.
Proof.
  destruct (balance_0d_exists angles groups wt T (fun g h => X g h * p h / p g) rows
     (mkArr2 groups (fun n g => at2 external n (bidx (cols2 external) g) / p g)) c HW Hc scaled_ratio) as (phi & Hphi).
  assert (S : balance_0d angles groups wt T X rows external (fun g => p g * phi g)).
  { apply scaled_balance. intros g Hg. pose proof (d0_pos g Hg) as Hp. specialize (Hphi g Hg).
    replace (p g * phi g / p g) with (phi g) by (field; lra). rewrite Hphi. apply rsum_ext. intros n Hn. f_equal. f_equal. apply rsum_ext. intros h Hh.
    pose proof (d0_pos h Hh). field. lra. }
  exists (fun g => p g * phi g). split; [exact S|]. intros other Ho g Hg.
  pose proof (balance_0d_unique _ _ _ _ _ _ _ c _ _ HW Hc scaled_ratio (proj1 (scaled_balance _ _ _) Ho) (proj1 (scaled_balance _ _ _) S) g Hg) as E. cbv beta in E.
  pose proof (d0_pos g Hg). apply (Rmult_eq_compat_r (p g)) in E. unfold Rdiv in E. rewrite !Rmult_assoc, Rinv_l, !Rmult_1_r in E by lra. exact E.
Qed.
(** nonnegative data, nonnegative solution *)
Lemma damped_0d_nonneg rows external sol :
  (forall m, (m < angles)%nat -> 0 <= wt m) ->
  (forall g h, (g < groups)%nat -> (h < groups)%nat -> 0 <= X g h) ->
  (forall m g, (m < angles)%nat -> (g < groups)%nat -> 0 <= at2 external (bidx rows m) (bidx (cols2 external) g)) ->
  balance_0d angles groups wt T X rows external sol -> forall g, (g < groups)%nat -> 0 <= sol g.
Proof.
  intros Hw HX He Hs. destruct (Nat.eq_dec groups 0) as [Z|Z]; [intros; lia|].
  destruct (vec_ratio_max groups (fun g => - sol g) p ltac:(lia) d0_pos) as (d & j & Hj & Ej & Hd). cbv beta in *.
  assert (D : d <= 0).
  { destruct (Rle_or_lt d 0) as [L|L]; [exact L|exfalso]. destruct (HD j Hj) as (A & B & C).
    pose proof (Hs j Hj) as S.
    rewrite (rsum_ext angles _ (fun n => rsum groups (fun h => X j h * sol h) * wt n + wt n * at2 external (bidx rows n) (bidx (cols2 external) j))) in S by (intros; ring).
    rewrite rsum_plus, rsum_scal in S.
    assert (E1 : 0 <= rsum angles (fun n => wt n * at2 external (bidx rows n) (bidx (cols2 external) j))).
    { apply rsum_nonneg. intros n Hn. apply Rmult_le_pos; [apply Hw; exact Hn|apply He; assumption]. }
    assert (E2 : - (d * rsum groups (fun h => Rabs (X j h) * p h)) <= rsum groups (fun h => X j h * sol h)).
    { rewrite <- rsum_scal, <- rsum_opp. apply rsum_le. intros h Hh. pose proof (HX j h Hj Hh). rewrite Rabs_right by lra. specialize (Hd h Hh). nra. }
    set (W := rsum angles wt) in *. set (Q := rsum groups (fun h => Rabs (X j h) * p h)) in *.
    assert (E3 : W * - (d * Q) <= rsum groups (fun h => X j h * sol h) * W).
    { rewrite (Rmult_comm (rsum groups _)). apply Rmult_le_compat_l; assumption. }
    assert (E4 : d * (W * Q) <= d * (c * (T j * p j))) by (apply Rmult_le_compat_l; lra).
    assert (T j * sol j = - (d * (T j * p j))) by (replace (sol j) with (- (d * p j)) by lra; ring).
    assert (0 < d * (T j * p j)) by (apply Rmult_lt_0_compat; [exact L|apply Rmult_lt_0_compat; assumption]). nra. }
  intros g Hg. specialize (Hd g Hg). pose proof (d0_pos g Hg). nra.
Qed.
(** error of a flux from the change of its last sweep *)
Lemma posterior_0d rows external before new sol e : balance_0d angles groups wt T X rows external sol ->
  sweep_0d angles groups wt T X rows external before = Ok new -> 0 <= e ->
  (forall g, (g < groups)%nat -> Rabs (new g - before g) <= e * p g) ->
  forall g, (g < groups)%nat -> Rabs (new g - sol g) <= c * e / (1 - c) * p g.
Proof.
  intros Hs E He Hd. destruct (Nat.eq_dec groups 0) as [Z|Z]; [intros; lia|].
  destruct (vec_ratio_max groups (fun g => Rabs (new g - sol g)) p ltac:(lia) d0_pos) as (d & j & Hj & Ej & Hm). cbv beta in *.
  pose proof (d0_pos j Hj) as Pj. assert (D0 : 0 <= d) by (pose proof (Rabs_pos (new j - sol j)); destruct (Rle_or_lt 0 d) as [L|L]; [exact L|exfalso; nra]).
  assert (B : forall g, (g < groups)%nat -> Rabs (before g - sol g) <= (d + e) * p g).
  { intros g Hg. specialize (Hd g Hg). specialize (Hm g Hg). rewrite Rabs_minus_sym in Hd.
    replace (before g - sol g) with ((before g - new g) + (new g - sol g)) by ring. eapply Rle_trans; [apply Rabs_triang|]. lra. }
  pose proof (sweep_0d_contracts_of rows external before new sol (d + e) Hs E ltac:(lra) B j Hj) as Q. rewrite Ej in Q.
  assert (D : d <= c * e / (1 - c)).
  { apply Rmult_le_reg_r in Q; [|exact Pj]. apply (Rmult_le_reg_r (1 - c)); [lra|]. unfold Rdiv. rewrite Rmult_assoc, Rinv_l, Rmult_1_r by lra. lra. }
  intros g Hg. eapply Rle_trans; [apply Hm; exact Hg|]. pose proof (d0_pos g Hg). apply Rmult_le_compat_r; lra.
Qed.
Lemma settled0_close new before tol g : 0 <= tol -> settled0 groups new before tol -> (g < groups)%nat -> Rabs (new g - before g) <= tol * Rabs (new g).
Proof.
  intros Ht (Hz & Hs) Hg. specialize (Hz g Hg).
  assert (Q : Rabs ((new g - before g) / new g) <= tol).
  { left. eapply Rle_lt_trans; [|exact Hs]. rewrite <- sqrt_Rsqr_abs. apply sqrt_le_1_alt. unfold Rsqr.
    eapply Rle_trans; [|apply (rsum_term_le groups (fun g => ((new g - before g) / new g) ^ 2) g); [intros; apply pow2_ge_0|exact Hg]]. right. ring. }
  replace (new g - before g) with ((new g - before g) / new g * new g) at 1 by (field; exact Hz). rewrite Rabs_mult. apply Rmult_le_compat_r; [apply Rabs_pos|exact Q].
Qed.
(** The run returns; its error falls geometrically and is bounded by its stopping test. *)
Theorem damped_0d_converges : exists K, 1 <= K /\ forall rows external old sol, balance_0d angles groups wt T X rows external sol ->
  exists flux, source_iteration_0d angles groups wt T X rows external old = Ok flux /\
  exists n, (1 <= n <= 100)%nat /\
    (forall d, 0 <= d -> within1 groups d old sol -> within1 groups (K * c ^ n * d) flux sol) /\
    ((n < 100)%nat -> forall M, 0 <= M -> (forall g, (g < groups)%nat -> Rabs (flux g) <= M) ->
       within1 groups (K * (c * (/ 10 ^ 8 * M) / (1 - c))) flux sol).
Proof.
  assert (SP : exists lo hi, 0 < lo /\ lo <= hi /\ forall g, (g < groups)%nat -> lo <= p g <= hi).
  { destruct (Nat.eq_dec groups 0) as [Z|Z]; [exists 1, 1; split; [lra|]; split; [lra|]; intros; lia|].
    destruct (vec_ratio_max groups p (fun _ => 1) ltac:(lia) ltac:(intros; lra)) as (hi & j & Hj & Ej & Hm).
    destruct (vec_ratio_max groups (fun g => - p g) (fun _ => 1) ltac:(lia) ltac:(intros; lra)) as (lo & i & Hi & Ei & Hl). cbv beta in *.
    exists (- lo), hi. pose proof (d0_pos i Hi). split; [lra|]. split; [specialize (Hm i Hi); lra|]. intros g Hg. specialize (Hm g Hg). specialize (Hl g Hg). lra. }
  destruct SP as (lo & hi & Hlo & Hlh & Hp). exists (hi / lo).
  assert (HK : 0 < / lo) by (apply Rinv_0_lt_compat; exact Hlo).
  split; [apply (Rmult_le_reg_r lo); [exact Hlo|]; unfold Rdiv; rewrite Rmult_assoc, Rinv_l by lra; lra|].
  intros rows external old sol Hsol. destruct (source_0d_total angles groups wt T X rows external old) as [flux E].
  exists flux. split; [exact E|].
  destruct (iterate_spec _ _ _ _ _ _ _ _ E) as (n & x & H1 & H2 & H3 & H4 & H5 & H6 & H7).
  change count_gg with 100%nat in *. subst flux. exists n. split; [lia|]. split.
  - intros d Hd Hw g Hg.
    assert (G : forall k, (k <= n)%nat -> forall g, (g < groups)%nat -> Rabs (x k g - sol g) <= c ^ k * (d / lo) * p g).
    { induction k as [|k IH]; intros Hk.
      - intros h Hh. cbn [pow]. rewrite H3. eapply Rle_trans; [apply Hw; exact Hh|]. destruct (Hp h Hh) as (Q & _).
        replace (1 * (d / lo) * p h) with (d * (p h / lo)) by (field; lra). rewrite <- (Rmult_1_r d) at 1. apply Rmult_le_compat_l; [exact Hd|].
        apply (Rmult_le_reg_r lo); [exact Hlo|]. unfold Rdiv. rewrite Rmult_assoc, Rinv_l by lra. lra.
      - cbn [pow]. intros h Hh. rewrite (Rmult_assoc c). apply (sweep_0d_contracts_of rows external (x k) (x (S k)) sol); [exact Hsol|apply H5; lia| |apply IH; lia|exact Hh].
        apply Rmult_le_pos; [apply pow_le; lra|apply Rmult_le_pos; lra]. }
    eapply Rle_trans; [apply G; [lia|exact Hg]|]. assert (0 <= c ^ n) by (apply pow_le; lra).
    replace (hi / lo * c ^ n * d) with (c ^ n * (d / lo) * hi) by (field; lra).
    apply Rmult_le_compat_l; [apply Rmult_le_pos; [assumption|apply Rmult_le_pos; lra]|]. apply Hp; exact Hg.
  - intros Hn M HM Hb g Hg. destruct H7 as [H7|H7]; [|lia]. apply (below_settled0 groups) in H7. change change_gg with (/ 10 ^ 8) in H7.
    assert (Ht : 0 < / 10 ^ 8) by (apply Rinv_0_lt_compat, pow_lt; lra).
    assert (En := H5 (n - 1)%nat ltac:(lia)). replace (S (n - 1)) with n in En by lia.
    eapply Rle_trans; [apply (posterior_0d rows external (x (n - 1)%nat) (x n) sol (/ 10 ^ 8 * (M / lo)) Hsol En); [apply Rmult_le_pos; [lra|apply Rmult_le_pos; lra]| |exact Hg]|].
    + intros h Hh. eapply Rle_trans; [apply (settled0_close (x n) (x (n - 1)%nat) (/ 10 ^ 8) h ltac:(lra) H7 Hh)|].
      rewrite Rmult_assoc. apply Rmult_le_compat_l; [lra|]. eapply Rle_trans; [apply Hb; exact Hh|]. destruct (Hp h Hh) as (Q & _).
      unfold Rdiv. rewrite Rmult_assoc. rewrite <- (Rmult_1_r M) at 1. apply Rmult_le_compat_l; [exact HM|].
      apply (Rmult_le_reg_l lo); [exact Hlo|]. rewrite <- Rmult_assoc, Rinv_r by lra. lra.
    + set (tol := / 10 ^ 8) in *.
      replace (hi / lo * (c * (tol * M) / (1 - c))) with (c * (tol * (M / lo)) / (1 - c) * hi) by (field; lra).
      apply Rmult_le_compat_l; [|apply Hp; exact Hg].
      apply Rmult_le_pos; [|left; apply Rinv_0_lt_compat; lra]. apply Rmult_le_pos; [lra|]. apply Rmult_le_pos; [lra|apply Rmult_le_pos; lra].
Qed.
End Damped0.
