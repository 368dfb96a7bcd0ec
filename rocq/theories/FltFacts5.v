(** Floating-point sweeps: error of a pass and of the source iteration against the exact solution. *)
From Coq Require Import ZArith Lra Lia Bool.
From Verif Require Import Base BaseFacts Contraction SlabModel SlabSpec SlabFacts SlabFacts3 SlabFacts4 MgModel.
From Verif Require Import FltModel FltSpec FltFacts FltFacts2 FltFacts4.
Open Scope R_scope.

Lemma flt_pass_error u rnd P T s off ext bnd fo Q flux flux' :
  0 <= u <= / 1000 -> relative_rounding u rnd -> thin_mesh P T -> (forall m, (m < angles P)%nat -> 0 <= wt P m) ->
  0 <= Q -> sources_below P T s off ext bnd fo Q ->
  slab_iso_pass P T s off ext bnd 0 fo = Ok flux -> flt_iso_pass rnd P T s off ext bnd 0 fo = Ok flux' ->
  (forall i, (i < cells P)%nat -> Rabs (flux i) <= rsum (angles P) (wt P) * Q) /\
  within (cells P) (rsum (angles P) (wt P) * Q * growth (11 * u) (2 * cells P + angles P + 5)) flux' flux.
Proof.
  intros [Hu0 Hu1] Hr Ht Hw HQ (H1 & H2 & H3) E E'. assert (Hnz := pass_ok_nonzero _ _ _ _ _ _ _ _ _ E).
  assert (X := pass_near u rnd Hu0 Hu1 Hr P T s off ext fo Q HQ Ht Hnz H1 Hw bnd H2 H3 flux flux' E E').
  split; intros i Hi; destruct (X i Hi) as [A B]; assumption.
Qed.

Lemma max_index n (g : vec) : (0 < n)%nat -> exists i, (i < n)%nat /\ forall j, (j < n)%nat -> Rabs (g j) <= Rabs (g i).
Proof.
  induction n as [|n IH]; intros H; [lia|]. destruct (Nat.eq_dec n 0) as [-> |Hn].
  - exists 0%nat. split; [lia|]. intros j Hj. replace j with 0%nat by lia. lra.
  - destruct IH as (i & Hi & M); [lia|]. destruct (Rle_dec (Rabs (g n)) (Rabs (g i))) as [L|L].
    + exists i. split; [lia|]. intros j Hj. destruct (Nat.eq_dec j n) as [-> |N]; [exact L|]. apply M. lia.
    + exists n. split; [lia|]. intros j Hj. destruct (Nat.eq_dec j n) as [-> |N]; [lra|]. specialize (M j ltac:(lia)). lra.
Qed.

Lemma rnd_back u rnd x t : 0 <= u <= / 1000 -> relative_rounding u rnd -> Rabs (rnd x) <= t -> Rabs x <= 1002 / 1000 * t.
Proof.
  intros Hu Hr H. assert (A := Hr x). assert (B : Rabs x <= Rabs (rnd x) + Rabs (rnd x - x)).
  { replace x with (rnd x + - (rnd x - x)) at 1 by ring. rewrite <- (Rabs_Ropp (rnd x - x)). apply Rabs_triang. }
  assert (Z := Rabs_pos x). nra.
Qed.

Section Driver.
Variables (u : R) (rnd : R -> R) (norm : vec -> R) (P : sn) (T s off : vec) (ext bnd : arr2) (c Q0 B : R) (fo flux sol : vec).
Hypothesis Hu : 0 <= u <= / 1000.
Hypothesis Hr : relative_rounding u rnd.
Hypothesis Ht : thin_mesh P T.
Hypothesis Hw : forall m, (m < angles P)%nat -> 0 <= wt P m.
Hypothesis Hc : 0 <= c.
Hypothesis HQ0 : 0 <= Q0.
Let rho := rsum (angles P) (wt P) * c.
Let W := rsum (angles P) (wt P).
Let eta := growth (11 * u) (2 * cells P + angles P + 5).
Hypothesis Hrho : rho < 1.
Hypothesis Hs : forall i, (i < cells P)%nat -> Rabs (s (medium P i)) <= c * T (medium P i).
Hypothesis He : forall i m, (i < cells P)%nat -> (m < angles P)%nat ->
  Rabs (at2 ext i (bidx (cols2 ext) m)) + Rabs (off i) <= T (medium P i) * Q0.
Hypothesis Hb1 : forall m, (m < angles P)%nat -> Rabs (boundary_in bnd (mu P) m) <= Q0.
Hypothesis Hb2 : forall m, (m < angles P)%nat -> leaves_reflective (mu P) (bc_left P) (bc_right P) (angles P - m - 1) = true ->
     boundary_in bnd (mu P) m = 0.
Hypothesis HB : W * (c * B + Q0) * (1 + eta) <= B.
Hypothesis Hfo : forall i, (i < cells P)%nat -> Rabs (fo i) <= B.
Hypothesis Hsol : exists r, slab_iso_pass P T s off ext bnd 0 sol = Ok r /\ forall i, (i < cells P)%nat -> r i = sol i.
Hypothesis HB0 : 0 <= B.

Let HW : 0 <= W.
Proof. apply rsum_nonneg. exact Hw. Qed.
Let Heta : 0 <= eta.
Proof. unfold eta. apply growth_nonneg. lra. Qed.
Let Hr0 : 0 <= rho.
Proof. apply Rmult_le_pos; assumption. Qed.
Let Hnz : nonzero_ordinates (angles P) (mu P).
Proof. destruct Hsol as (r & E & _). exact (pass_ok_nonzero _ _ _ _ _ _ _ _ _ E). Qed.

Lemma thin_T i : (0 < angles P)%nat -> (i < cells P)%nat -> 0 <= T (medium P i).
Proof. intros Ha Hi. apply (Ht 0%nat i Ha Hi). Qed.

Lemma below_B f : (forall i, (i < cells P)%nat -> Rabs (f i) <= B) -> sources_below P T s off ext bnd f (c * B + Q0).
Proof.
  intros Hf. split; [|split].
  - intros i m Hi Hm. assert (HT := thin_T i ltac:(lia) Hi). assert (X := He i m Hi Hm).
    assert (Y : Rabs (s (medium P i) * f i) <= (c * T (medium P i)) * B) by (apply abs_mul_le; [apply Hs; exact Hi|apply Hf; exact Hi]).
    lra.
  - intros m Hm. assert (X := Hb1 m Hm). assert (0 <= c * B) by (apply Rmult_le_pos; assumption). lra.
  - exact Hb2.
Qed.

Lemma flt_step f f' : (forall i, (i < cells P)%nat -> Rabs (f i) <= B) -> flt_iso_pass rnd P T s off ext bnd 0 f = Ok f' ->
  (forall i, (i < cells P)%nat -> Rabs (f' i) <= B) /\
  forall d, 0 <= d -> within (cells P) d f sol -> within (cells P) (rho * d + W * (c * B + Q0) * eta) f' sol.
Proof.
  intros Hf E'. assert (HQ : 0 <= c * B + Q0) by (assert (0 <= c * B) by (apply Rmult_le_pos; assumption); lra).
  destruct (slab_iso_pass P T s off ext bnd 0 f) as [g|e] eqn:E.
  2:{ rewrite slab_iso_pass_ok in E by exact Hnz. discriminate. }
  destruct (flt_pass_error u rnd P T s off ext bnd f (c * B + Q0) g f' Hu Hr Ht Hw HQ (below_B f Hf) E E') as [A1 A2].
  fold W eta in A1, A2. split.
  - intros i Hi. eapply Rle_trans; [|exact HB]. specialize (A1 i Hi). specialize (A2 i Hi).
    replace (f' i) with (g i + (f' i - g i)) by ring. rewrite Rmult_plus_distr_l, Rmult_1_r. apply abs_add_le; assumption.
  - intros d Hd Hdist i Hi. destruct Hsol as (r & Er & Hfix).
    assert (C := pass_contracts P T s off ext bnd f sol g r c d Ht Hw Hc Hd Hs E Er Hdist i Hi). fold rho in C.
    rewrite (Hfix i Hi) in C. specialize (A2 i Hi).
    replace (f' i - sol i) with ((g i - sol i) + (f' i - g i)) by ring. apply abs_add_le; assumption.
Qed.

Lemma flt_driver_error :
  flt_isotropic_sn rnd norm P fo T s off ext bnd 0 = Ok flux ->
  exists n, (1 <= n <= 100)%nat /\
    (forall i, (i < cells P)%nat -> Rabs (flux i) <= B) /\
    (forall d, 0 <= d -> within (cells P) d fo sol ->
       within (cells P) (rho ^ n * d + W * (c * B + Q0) * eta / (1 - rho)) flux sol) /\
    ((n < 100)%nat -> (forall v i, (i < cells P)%nat -> Rabs (v i) <= norm v) ->
       within (cells P) ((rho * (101 / 100 * change_nn * INR (cells P) * B) + W * (c * B + Q0) * eta) / (1 - rho)) flux sol).
Proof.
  intros E. destruct (iterate_spec _ _ _ _ _ _ _ _ E) as (n & x & Hn1 & Hn2 & X0 & Xn & Xs & _ & Xc).
  exists n. split. { change count_nn with 100%nat in Hn2. lia. }
  assert (HQ : 0 <= c * B + Q0) by (assert (0 <= c * B) by (apply Rmult_le_pos; assumption); lra).
  set (eps := W * (c * B + Q0) * eta) in *.
  assert (Heps : 0 <= eps) by (repeat apply Rmult_le_pos; assumption).
  assert (Bd : forall k, (k <= n)%nat -> forall i, (i < cells P)%nat -> Rabs (x k i) <= B).
  { induction k as [|k IH]; intros Hk; [rewrite X0; exact Hfo|].
    apply (flt_step (x k) (x (S k))); [apply IH; lia|apply Xs; lia]. }
  split; [rewrite Xn; apply Bd; lia|]. split.
  - intros d Hd Hdist.
    assert (G : forall k, (k <= n)%nat -> within (cells P) (rho ^ k * d + eps / (1 - rho)) (x k) sol).
    { assert (Hq : 0 <= eps / (1 - rho)) by (apply Rle_mult_inv_pos; lra).
      induction k as [|k IH]; intros Hk.
      - rewrite X0. cbn [pow]. intros i Hi. specialize (Hdist i Hi). lra.
      - assert (D0 : 0 <= rho ^ k * d + eps / (1 - rho)).
        { assert (0 <= rho ^ k * d) by (apply Rmult_le_pos; [apply pow_le; exact Hr0|exact Hd]). lra. }
        destruct (flt_step (x k) (x (S k)) (Bd k ltac:(lia)) (Xs k ltac:(lia))) as [_ S2].
        assert (S3 := S2 _ D0 (IH ltac:(lia))). intros i Hi. specialize (S3 i Hi). fold eps in S3. cbn [pow].
        eapply Rle_trans; [exact S3|]. right. field. lra. }
    rewrite Xn. apply G. lia.
  - intros Hlt Hnorm.
    assert (Hcv : below (flt_change rnd norm (cells P) (x n) (x (n - 1)%nat)) change_nn = true).
    { destruct Xc as [Xc|Xc]; [exact Xc|]. exfalso. change count_nn with 100%nat in Xc. lia. }
    assert (Hc0 : (cells P = 0)%nat \/ (0 < cells P)%nat) by lia. destruct Hc0 as [Hc0|Hcp]; [intros i Hi; lia|].
    assert (HI : 0 < INR (cells P)) by (apply lt_0_INR; exact Hcp).
    set (dl := 101 / 100 * change_nn * INR (cells P) * B).
    assert (Dl : forall i, (i < cells P)%nat -> Rabs (x n i - x (n - 1)%nat i) <= dl).
    { intros i Hi. unfold flt_change in Hcv. destruct (has_zero (cells P) (x n)) eqn:Hz; [discriminate|].
      rewrite has_zero_false in Hz. assert (Hzi := Hz i Hi). cbn [below] in Hcv.
      destruct (Rlt_dec _ change_nn) as [L|L] in Hcv; [|discriminate].
      match type of L with norm ?v < _ => assert (N := Hnorm v i Hi) end. cbv beta in N.
      assert (Hlt' : (i <? cells P)%nat = true) by (apply Nat.ltb_lt; exact Hi). rewrite Hlt' in N.
      assert (N1 : Rabs (fdiv rnd (fdiv rnd (fsub rnd (x n i) (x (n - 1)%nat i)) (x n i)) (INR (cells P))) <= change_nn) by lra.
      unfold fdiv at 1 in N1. apply (rnd_back u rnd _ _ Hu Hr) in N1.
      set (y := x n i) in *. set (z := x (n - 1)%nat i) in *.
      assert (N2 : Rabs (fdiv rnd (fsub rnd y z) y) <= 1002 / 1000 * change_nn * INR (cells P)).
      { unfold Rdiv at 1 in N1. rewrite Rabs_mult, (Rabs_right (/ INR (cells P))) in N1 by (apply Rle_ge; left; apply Rinv_0_lt_compat; exact HI).
        apply (Rmult_le_compat_r (INR (cells P))) in N1; [|lra]. rewrite Rmult_assoc, Rinv_l in N1 by lra. lra. }
      unfold fdiv in N2. apply (rnd_back u rnd _ _ Hu Hr) in N2.
      assert (Hy : 0 < Rabs y) by (apply Rabs_pos_lt; exact Hzi).
      assert (N3 : Rabs (fsub rnd y z) <= 1002 / 1000 * (1002 / 1000 * change_nn * INR (cells P)) * Rabs y).
      { unfold Rdiv at 1 in N2. rewrite Rabs_mult, Rabs_inv in N2. apply (Rmult_le_compat_r (Rabs y)) in N2; [|lra].
        rewrite Rmult_assoc, Rinv_l in N2 by lra. lra. }
      unfold fsub in N3. apply (rnd_back u rnd _ _ Hu Hr) in N3. eapply Rle_trans; [exact N3|].
      assert (By : Rabs y <= B) by (apply Bd; [lia|exact Hi]).
      assert (CI : 0 <= change_nn * INR (cells P)) by (apply Rmult_le_pos; [left; apply change_nn_pos|lra]).
      assert (M : change_nn * INR (cells P) * Rabs y <= change_nn * INR (cells P) * B) by (apply Rmult_le_compat_l; assumption).
      assert (Z : 0 <= change_nn * INR (cells P) * Rabs y) by (apply Rmult_le_pos; [exact CI|lra]).
      unfold dl. lra. }
    destruct (max_index (cells P) (fun i => x n i - sol i) Hcp) as (j & Hj & Mj).
    set (m := Rabs (x n j - sol j)) in *.
    assert (Dm : within (cells P) (dl + m) (x (n - 1)%nat) sol).
    { intros i Hi. replace (x (n - 1)%nat i - sol i) with (- (x n i - x (n - 1)%nat i) + (x n i - sol i)) by ring.
      apply abs_add_le; [rewrite Rabs_Ropp; apply Dl; exact Hi|apply Mj; exact Hi]. }
    assert (D0 : 0 <= dl + m).
    { assert (A := Dl j Hj). assert (A0 := Rabs_pos (x n j - x (n - 1)%nat j)). assert (A1 := Rabs_pos (x n j - sol j)). unfold m. lra. }
    assert (St := Xs (n - 1)%nat ltac:(lia)). replace (S (n - 1)) with n in St by lia.
    destruct (flt_step (x (n - 1)%nat) (x n) (Bd (n - 1)%nat ltac:(lia)) St) as [_ S2].
    assert (S3 := S2 _ D0 Dm j Hj). fold m eps in S3.
    intros i Hi. rewrite Xn. eapply Rle_trans; [apply Mj; exact Hi|]. fold m.
    apply (Rmult_le_reg_r (1 - rho)); [lra|]. unfold Rdiv. rewrite Rmult_assoc, Rinv_l by lra. lra.
Qed.
End Driver.
