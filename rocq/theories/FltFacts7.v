(** Floating-point multigroup iteration: rounding errors against the exact multigroup solution. *)
From Coq Require Import ZArith Lra Lia Bool.
From Verif Require Import Base BaseFacts Contraction SlabModel SlabSpec SlabFacts SlabFacts3 SlabFacts4 MgModel MgSpec MgFacts MgFacts2.
From Verif Require Import FltModel FltSpec FltFacts FltFacts2 FltFacts4 FltFacts5.
Open Scope R_scope.

(** Every entry of the off-group source is a sum of products, each term rounded at most [groups] times. *)
Lemma flt_off_near u rnd cells groups (new old : mat2) (med : nat -> nat) (xs : mat3) gg B :
  0 <= u -> relative_rounding u rnd -> (gg < groups)%nat -> 0 <= B ->
  (forall i h, (i < cells)%nat -> (h < gg)%nat -> Rabs (new i h) <= B) ->
  (forall i h, (i < cells)%nat -> (gg < h < groups)%nat -> Rabs (old i h) <= B) ->
  forall i, (i < cells)%nat ->
  nr u (rsum groups (fun h => if Nat.eqb h gg then 0 else Rabs (xs (med i) gg h)) * B) groups
    (off_scatter cells groups new old med xs gg i) (flt_off_scatter rnd cells groups new old med xs gg i).
Proof.
  intros Hu Hr Hg HB Hnew Hold.
  set (a := fun i h => if Nat.eqb h gg then 0 else Rabs (xs (med i) gg h)).
  assert (Term : forall M p o o' x f, nr u M (S p) o o' -> Rabs f <= B ->
    nr u (M + Rabs x * B) (S (S p)) (o + x * f) (fadd rnd o' (fmul rnd x f))).
  { intros M p o o' x f Ho Hf. unfold fadd, fmul. apply (nr_rnd u rnd Hu Hr). apply nr_add; [exact Ho|].
    apply (nr_weaken u Hu (Rabs x * B) (Rabs x * B) 1 (S p)); [apply Rle_refl|lia|].
    apply (nr_rnd u rnd Hu Hr). apply nr_self. rewrite Rabs_mult. apply Rmult_le_compat_l; [apply Rabs_pos|exact Hf]. }
  unfold off_scatter, flt_off_scatter.
  assert (X : forall i, (i < cells)%nat ->
    (forall j, (j < cells)%nat -> nr u (rsum groups (a j) * B) groups
       (for_up cells (fun ii off =>
          for_up (groups - (gg + 1)) (fun k off => upd off ii (off ii + xs (med ii) gg (gg + 1 + k)%nat * old ii (gg + 1 + k)%nat))
            (for_up gg (fun og off => upd off ii (off ii + xs (med ii) gg og * new ii og)) off)) zeros j)
       (for_up cells (fun ii off =>
          for_up (groups - (gg + 1)) (fun k off => upd off ii (fadd rnd (off ii) (fmul rnd (xs (med ii) gg (gg + 1 + k)%nat) (old ii (gg + 1 + k)%nat))))
            (for_up gg (fun og off => upd off ii (fadd rnd (off ii) (fmul rnd (xs (med ii) gg og) (new ii og)))) off)) zeros j))).
  2:{ intros i Hi. apply (X i Hi i Hi). }
  intros i0 _.
  apply (for_up_inv2 (fun k o o' => (forall j, (j < k)%nat -> nr u (rsum groups (a j) * B) groups (o j) (o' j)) /\
     forall j, (k <= j)%nat -> o j = 0 /\ o' j = 0)).
  2:{ split; [intros j Hj; lia|]. intros j _. split; reflexivity. }
  intros ii o o' Hii (Hd & Hz).
  pose (I1 := fun k (x y : vec) => nr u (rsum k (a ii) * B) (S k) (x ii) (y ii) /\ forall j, j <> ii -> x j = o j /\ y j = o' j).
  assert (F : I1 gg
    (for_up gg (fun og off => upd off ii (off ii + xs (med ii) gg og * new ii og)) o)
    (for_up gg (fun og off => upd off ii (fadd rnd (off ii) (fmul rnd (xs (med ii) gg og) (new ii og)))) o')).
  { apply (for_up_inv2 I1).
    - intros k x y Hk (H1 & H2). split.
      + rewrite !upd_same. cbn [rsum]. unfold a at 2. destruct (Nat.eqb_spec k gg); [lia|]. rewrite Rmult_plus_distr_r.
        apply Term; [exact H1|]. apply Hnew; [exact Hii|exact Hk].
      + intros j Hj. rewrite !upd_other by exact Hj. apply H2, Hj.
    - split.
      + destruct (Hz ii ltac:(lia)) as (-> & ->). cbn [rsum]. rewrite Rmult_0_l. split; [rewrite Rabs_R0; lra|].
        replace (0 - 0) with 0 by ring. rewrite Rabs_R0. lra.
      + intros j _. split; reflexivity. }
  destruct F as (F1 & F2).
  set (x0 := for_up gg (fun og off => upd off ii (off ii + xs (med ii) gg og * new ii og)) o) in *.
  set (y0 := for_up gg (fun og off => upd off ii (fadd rnd (off ii) (fmul rnd (xs (med ii) gg og) (new ii og)))) o') in *.
  pose (I2 := fun k (x y : vec) => nr u (rsum (gg + 1 + k) (a ii) * B) (S (gg + k)) (x ii) (y ii) /\ forall j, j <> ii -> x j = o j /\ y j = o' j).
  assert (L : I2 (groups - (gg + 1))%nat
    (for_up (groups - (gg + 1)) (fun k off => upd off ii (off ii + xs (med ii) gg (gg + 1 + k)%nat * old ii (gg + 1 + k)%nat)) x0)
    (for_up (groups - (gg + 1)) (fun k off => upd off ii (fadd rnd (off ii) (fmul rnd (xs (med ii) gg (gg + 1 + k)%nat) (old ii (gg + 1 + k)%nat)))) y0)).
  { apply (for_up_inv2 I2).
    - intros k x y Hk (H1 & H2). split.
      + rewrite !upd_same. replace (gg + 1 + S k)%nat with (S (gg + 1 + k)) by lia. cbn [rsum]. unfold a at 2.
        destruct (Nat.eqb_spec (gg + 1 + k) gg); [lia|]. rewrite Rmult_plus_distr_r. replace (gg + S k)%nat with (S (gg + k)) by lia.
        apply Term; [exact H1|]. apply Hold; [exact Hii|lia].
      + intros j Hj. rewrite !upd_other by exact Hj. apply H2, Hj.
    - split; [|exact F2]. rewrite !Nat.add_0_r. replace (gg + 1)%nat with (S gg) by lia. cbn [rsum]. unfold a at 2. rewrite Nat.eqb_refl, Rplus_0_r.
      exact F1. }
  destruct L as (L1 & L2). replace (gg + 1 + (groups - (gg + 1)))%nat with groups in L1 by lia.
  replace (S (gg + (groups - (gg + 1)))) with groups in L1 by lia.
  split.
  - intros j Hj. destruct (Nat.eq_dec j ii) as [-> |N]; [exact L1|]. destruct (L2 j N) as (-> & ->). apply Hd. lia.
  - intros j Hj. destruct (L2 j ltac:(lia)) as (-> & ->). apply Hz. lia.
Qed.

Lemma flt_pass_ok_nonzero rnd P T s off ext bnd edges fo r :
  flt_iso_pass rnd P T s off ext bnd edges fo = Ok r -> nonzero_ordinates (angles P) (mu P).
Proof.
  intros E m Hm Hz. unfold flt_iso_pass in E.
  rewrite (for_up_err_raise (angles P) _ _ m DiscontinuityAt0) in E; [discriminate|exact Hm| |].
  - intros [fl rf]. destruct (Rlt_dec 0 (mu P m)), (Rlt_dec (mu P m) 0); try lra. reflexivity.
  - intros j [fl rf] e' _. destruct (Rlt_dec 0 (mu P j)).
    + destruct (flt_forward_iso _ _ _ _ _ _ _ _ _ _ _ _); discriminate.
    + destruct (Rlt_dec (mu P j) 0).
      * destruct (flt_backward_iso _ _ _ _ _ _ _ _ _ _ _ _); discriminate.
      * intros E'; injection E' as <-; reflexivity.
Qed.

(** what the convergence test says about two iterates *)
Lemma quotient_back u rnd y z N tol : 0 <= u <= / 1000 -> relative_rounding u rnd -> 0 <= tol -> 0 < N -> y <> 0 ->
  Rabs (fdiv rnd (fdiv rnd (fsub rnd y z) y) N) <= tol -> Rabs (y - z) <= 101 / 100 * tol * N * Rabs y.
Proof.
  intros Hu Hr Htol HN Hy0 N1.
  unfold fdiv at 1 in N1. apply (rnd_back u rnd _ _ Hu Hr) in N1.
  assert (N2 : Rabs (fdiv rnd (fsub rnd y z) y) <= 1002 / 1000 * tol * N).
  { unfold Rdiv at 1 in N1. rewrite Rabs_mult, (Rabs_right (/ N)) in N1 by (apply Rle_ge; left; apply Rinv_0_lt_compat; exact HN).
    apply (Rmult_le_compat_r N) in N1; [|lra]. rewrite Rmult_assoc, Rinv_l in N1 by lra. lra. }
  unfold fdiv in N2. apply (rnd_back u rnd _ _ Hu Hr) in N2.
  assert (Hy : 0 < Rabs y) by (apply Rabs_pos_lt; exact Hy0).
  assert (N3 : Rabs (fsub rnd y z) <= 1002 / 1000 * (1002 / 1000 * tol * N) * Rabs y).
  { unfold Rdiv at 1 in N2. rewrite Rabs_mult, Rabs_inv in N2. apply (Rmult_le_compat_r (Rabs y)) in N2; [|lra].
    rewrite Rmult_assoc, Rinv_l in N2 by lra. lra. }
  unfold fsub in N3. apply (rnd_back u rnd _ _ Hu Hr) in N3. eapply Rle_trans; [exact N3|].
  assert (Z : 0 <= tol * N * Rabs y) by (apply Rmult_le_pos; [apply Rmult_le_pos; lra|lra]). lra.
Qed.

Lemma max_index2 n k (f : mat2) : (0 < n)%nat -> (0 < k)%nat ->
  exists i h, (i < n)%nat /\ (h < k)%nat /\ forall j l, (j < n)%nat -> (l < k)%nat -> Rabs (f j l) <= Rabs (f i h).
Proof.
  intros Hn. induction k as [|k IH]; intros H; [lia|]. destruct (max_index n (fun j => f j k) Hn) as (i & Hi & Mi).
  destruct (Nat.eq_dec k 0) as [-> |Hk].
  - exists i, 0%nat. split; [exact Hi|]. split; [lia|]. intros j l Hj Hl. replace l with 0%nat by lia. apply Mi, Hj.
  - destruct IH as (i' & h' & Hi' & Hh' & M); [lia|]. destruct (Rle_dec (Rabs (f i k)) (Rabs (f i' h'))) as [L|L].
    + exists i', h'. split; [exact Hi'|]. split; [lia|]. intros j l Hj Hl. destruct (Nat.eq_dec l k) as [-> |N]; [specialize (Mi j Hj); lra|]. apply M; lia.
    + exists i, k. split; [exact Hi|]. split; [lia|]. intros j l Hj Hl. destruct (Nat.eq_dec l k) as [-> |N]; [apply Mi, Hj|].
      specialize (M j l Hj ltac:(lia)). lra.
Qed.

Section Groups.
Variables (u : R) (rnd : R -> R) (norm : vec -> R) (norm2 : mat2 -> R) (P : sn) (groups : nat) (T : mat2) (s : mat3) (ext bnd : arr3)
  (c Q0 B : R) (sol : mat2).
Hypothesis Hu : 0 <= u <= / 1000.
Hypothesis Hr : relative_rounding u rnd.
Hypothesis Ht : mg_thin P groups T.
Hypothesis Hw : forall m, (m < angles P)%nat -> 0 <= wt P m.
Hypothesis Hc : 0 <= c.
Hypothesis HQ0 : 0 <= Q0.
Let W := rsum (angles P) (wt P).
Let rho := W * c.
Let eta := growth (11 * u) (2 * cells P + angles P + 5).
Let zeta := growth (11 * u) groups.
Let Q := c * B * (1 + zeta) + Q0.
Let E := W * (c * B * zeta + Q * eta).
Hypothesis Hrho : rho < 1.
Hypothesis Hs : mg_ratio P groups T s c.
Hypothesis He : forall i m g, (i < cells P)%nat -> (m < angles P)%nat -> (g < groups)%nat ->
  Rabs (at3 ext i (bidx (d3b ext) m) (bidx (d3c ext) g)) <= T (medium P i) g * Q0.
Hypothesis Hb1 : forall m g, (m < angles P)%nat -> (g < groups)%nat -> Rabs (mg_boundary bnd (mu P) g m) <= Q0.
Hypothesis Hb2 : forall m g, (m < angles P)%nat -> (g < groups)%nat ->
  leaves_reflective (mu P) (bc_left P) (bc_right P) (angles P - m - 1) = true -> mg_boundary bnd (mu P) g m = 0.
Hypothesis HB0 : 0 <= B.
Hypothesis HB : W * (c * B * (1 + zeta) + Q0) * (1 + eta) <= B.
Hypothesis Hsol : mg_solution P groups T s ext bnd sol.

Let HW : 0 <= W.
Proof. apply rsum_nonneg. exact Hw. Qed.
Let Heta : 0 <= eta.
Proof. unfold eta. apply growth_nonneg. lra. Qed.
Let Hzeta : 0 <= zeta.
Proof. unfold zeta. apply growth_nonneg. lra. Qed.
Let HcB : 0 <= c * B.
Proof. apply Rmult_le_pos; assumption. Qed.
Let Hr0 : 0 <= rho.
Proof. apply Rmult_le_pos; assumption. Qed.
Let HQ : 0 <= Q.
Proof. unfold Q. assert (0 <= c * B * (1 + zeta)) by (apply Rmult_le_pos; [exact HcB|lra]). lra. Qed.
Let HE : 0 <= E.
Proof.
  unfold E. apply Rmult_le_pos; [exact HW|]. assert (0 <= c * B * zeta) by (apply Rmult_le_pos; assumption).
  assert (0 <= Q * eta) by (apply Rmult_le_pos; assumption). lra.
Qed.

(** one pass of one group *)
Lemma mg_flt_pass g new old x y :
  (g < groups)%nat -> (forall i h, (i < cells P)%nat -> (h < g)%nat -> Rabs (new i h) <= B) ->
  (forall i h, (i < cells P)%nat -> (h < groups)%nat -> Rabs (old i h) <= B) ->
  (forall i, (i < cells P)%nat -> Rabs (x i) <= B) ->
  flt_iso_pass rnd P (fun m => T m g) (fun m => s m g g) (flt_off_scatter rnd (cells P) groups new old (medium P) s g)
    (slice3 ext (bidx (d3c ext) g)) (slice3 bnd (bidx (d3c bnd) g)) 0 x = Ok y ->
  (forall i, (i < cells P)%nat -> Rabs (y i) <= B) /\
  forall d, 0 <= d -> (forall i h, (i < cells P)%nat -> (h < g)%nat -> Rabs (new i h - sol i h) <= d) ->
    within2 (cells P) groups d old sol -> (forall i, (i < cells P)%nat -> Rabs (x i - sol i g) <= d) ->
    forall i, (i < cells P)%nat -> Rabs (y i - sol i g) <= rho * d + E.
Proof.
  intros Hg Hnew Hold Hx Ey.
  set (xt := fun m => T m g) in *. set (xsg := fun m => s m g g) in *.
  set (off' := flt_off_scatter rnd (cells P) groups new old (medium P) s g) in *.
  set (qg := slice3 ext (bidx (d3c ext) g)) in *. set (bg := slice3 bnd (bidx (d3c bnd) g)) in *.
  set (a := fun i h => Rabs (s (medium P i) g h)).
  assert (Split : forall i, rsum groups (a i) = a i g + rsum groups (fun h => if Nat.eqb h g then 0 else a i h)).
  { intros i. rewrite (rsum_ext groups (a i) (fun h => (if Nat.eqb h g then a i g else 0) + (if Nat.eqb h g then 0 else a i h))).
    2:{ intros h Hh. destruct (Nat.eqb_spec h g) as [-> |]; ring. }
    rewrite rsum_plus. f_equal. rewrite (rsum_single groups _ g Hg); [rewrite Nat.eqb_refl; reflexivity|].
    intros h Hh Nh. destruct (Nat.eqb_spec h g); [contradiction|reflexivity]. }
  assert (Off : forall i, (i < cells P)%nat -> nr u (rsum groups (fun h => if Nat.eqb h g then 0 else a i h) * B) groups
     (off_scatter (cells P) groups new old (medium P) s g i) (off' i)).
  { intros i Hi. apply (flt_off_near u rnd (cells P) groups new old (medium P) s g B (proj1 Hu) Hr Hg HB0); try assumption.
    intros i' h Hi' Hh. apply Hold; lia. }
  assert (Pa : forall i h, 0 <= a i h) by (intros; apply Rabs_pos).
  assert (PA : forall i, 0 <= rsum groups (fun h => if Nat.eqb h g then 0 else a i h)).
  { intros i. apply rsum_nonneg. intros h _. destruct (Nat.eqb h g); [lra|apply Pa]. }
  assert (Hsum : forall i, (i < cells P)%nat -> rsum groups (a i) <= c * xt (medium P i)) by (intros i Hi; apply Hs; assumption).
  assert (Hsrc : sources_below P xt xsg off' qg bg x Q).
  { split; [|split].
    - intros i m Hi Hm. assert (X1 : Rabs (xsg (medium P i) * x i) <= a i g * B).
      { rewrite Rabs_mult. apply Rmult_le_compat_l; [apply Rabs_pos|]. apply Hx, Hi. }
      assert (X2 := nr_big u _ _ _ _ (Off i Hi)). fold zeta in X2.
      assert (X3 : Rabs (at2 qg i (bidx (cols2 qg) m)) <= xt (medium P i) * Q0) by (apply (He i m g Hi Hm Hg)).
      assert (X4 := Split i). specialize (Hsum i Hi).
      set (A := rsum groups (fun h => if Nat.eqb h g then 0 else a i h)) in *.
      assert (X5 : a i g * B <= a i g * B * (1 + zeta)).
      { rewrite <- (Rmult_1_r (a i g * B)) at 1. apply Rmult_le_compat_l; [apply Rmult_le_pos; [apply Pa|exact HB0]|lra]. }
      assert (X6 : (a i g + A) * (B * (1 + zeta)) <= c * xt (medium P i) * (B * (1 + zeta))).
      { apply Rmult_le_compat_r; [apply Rmult_le_pos; lra|]. rewrite <- X4. exact Hsum. }
      unfold Q. lra.
    - intros m Hm. assert (X := Hb1 m g Hm Hg). unfold mg_boundary in X. unfold boundary_in, bg. cbn [slice3 at2 cols2].
      eapply Rle_trans; [exact X|]. unfold Q. assert (0 <= c * B * (1 + zeta)) by (apply Rmult_le_pos; [exact HcB|lra]). lra.
    - intros m Hm L. exact (Hb2 m g Hm Hg L). }
  assert (Hnz := flt_pass_ok_nonzero _ _ _ _ _ _ _ _ _ _ Ey).
  destruct (slab_iso_pass P xt xsg off' qg bg 0 x) as [z|e] eqn:Ez.
  2:{ rewrite slab_iso_pass_ok in Ez by exact Hnz. discriminate. }
  destruct (flt_pass_error u rnd P xt xsg off' qg bg x Q z y Hu Hr (Ht g Hg) Hw HQ Hsrc Ez Ey) as (A1 & A2).
  fold W eta in A1, A2. split.
  - intros i Hi. eapply Rle_trans; [|exact HB]. fold Q. specialize (A1 i Hi). specialize (A2 i Hi).
    replace (y i) with (z i + (y i - z i)) by ring. rewrite Rmult_plus_distr_l, Rmult_1_r. apply abs_add_le; assumption.
  - intros d Hd Hn Ho Hxd i Hi. destruct Hsol as [psi Hpsi].
    assert (Tr : slab_transport (cells P) (angles P) (mu P) (wt P) (dx P) (fun i => xt (medium P i))
        (iso_source (medium P) xsg (gs_off (cells P) groups sol sol (medium P) s g) qg (fun i => sol i g))
        (fun m => reflected_in (cells P) (angles P) (mu P) (bc_left P) (bc_right P) (psi g) m + boundary_in bg (mu P) m)
        (psi g) (fun i => sol i g)).
    { eapply transport_ext; [| |apply Hpsi; exact Hg].
      - intros m j Hma Hj. unfold mg_source, iso_source. rewrite <- gs_off_full with (cells := cells P) by assumption.
        cbn. unfold xsg. ring.
      - intros; reflexivity. }
    destruct (transport_is_pass P xt xsg _ _ _ _ (psi g) _ Hnz (thin_divisors _ _ Hnz (Ht g Hg)) Tr) as (r & Er & Hrr).
    assert (D : within (cells P) (W * (c * (d + B * zeta))) z r).
    { refine (pass_perturb P xt xsg off' _ qg bg x (fun i => sol i g) z r (c * (d + B * zeta)) (Ht g Hg) Hw _ _ Ez Er).
      - apply Rmult_le_pos; [exact Hc|]. assert (0 <= B * zeta) by (apply Rmult_le_pos; assumption). lra.
      - intros j Hj. assert (G := gs_source_diff P groups s x new old sol g d Hg Hd Hxd Hn).
        specialize (G (fun i' h Hi' Hh => Ho i' h Hi' (proj2 Hh)) j Hj). rewrite <- off_scatter_eq in G by exact Hg.
        destruct (Off j Hj) as (_ & O2). fold zeta in O2. specialize (Hsum j Hj).
        fold (xsg (medium P j)) in G. fold (a j) in G.
        set (o := off_scatter (cells P) groups new old (medium P) s g j) in *. set (os := gs_off (cells P) groups sol sol (medium P) s g j) in *.
        replace (xsg (medium P j) * (x j - sol j g) + (off' j - os)) with ((xsg (medium P j) * (x j - sol j g) + (o - os)) + (off' j - o)) by ring.
        eapply Rle_trans; [apply (abs_add_le _ _ _ _ G O2)|].
        assert (LA : rsum groups (fun h => if Nat.eqb h g then 0 else a j h) <= rsum groups (a j)) by (rewrite (Split j); specialize (Pa j g); lra).
        apply Rle_trans with (rsum groups (a j) * (d + B * zeta)).
        + rewrite Rmult_plus_distr_l. apply Rplus_le_compat_l. rewrite Rmult_assoc. apply Rmult_le_compat_r; [apply Rmult_le_pos; assumption|exact LA].
        + replace (c * (d + B * zeta) * xt (medium P j)) with (c * xt (medium P j) * (d + B * zeta)) by ring.
          apply Rmult_le_compat_r; [|exact Hsum]. assert (0 <= B * zeta) by (apply Rmult_le_pos; assumption). lra. }
    specialize (D i Hi). specialize (A2 i Hi). rewrite Hrr in D by exact Hi. cbv beta in D.
    replace (y i - sol i g) with ((z i - sol i g) + (y i - z i)) by ring.
    eapply Rle_trans; [apply (abs_add_le _ _ _ _ D A2)|]. unfold E, rho. right. ring.
Qed.

(** the inner iteration of one group *)
Lemma mg_flt_group g new old y :
  (g < groups)%nat -> (forall i h, (i < cells P)%nat -> (h < g)%nat -> Rabs (new i h) <= B) ->
  (forall i h, (i < cells P)%nat -> (h < groups)%nat -> Rabs (old i h) <= B) ->
  flt_isotropic_sn rnd norm P (fun i => old i g) (fun m => T m g) (fun m => s m g g) (flt_off_scatter rnd (cells P) groups new old (medium P) s g)
    (slice3 ext (bidx (d3c ext) g)) (slice3 bnd (bidx (d3c bnd) g)) 0 = Ok y ->
  (forall i, (i < cells P)%nat -> Rabs (y i) <= B) /\
  forall d, 0 <= d -> rho * d + E <= d -> (forall i h, (i < cells P)%nat -> (h < g)%nat -> Rabs (new i h - sol i h) <= d) ->
    within2 (cells P) groups d old sol ->
    forall i, (i < cells P)%nat -> Rabs (y i - sol i g) <= rho * d + E.
Proof.
  intros Hg Hnew Hold Ey. destruct (iterate_spec _ _ _ _ _ _ _ _ Ey) as (n & x & Hn1 & _ & X0 & Xn & Xs & _ & _).
  assert (Bd : forall k, (k <= n)%nat -> forall i, (i < cells P)%nat -> Rabs (x k i) <= B).
  { induction k as [|k IH]; intros Hk; [rewrite X0; intros i Hi; apply Hold; assumption|].
    apply (mg_flt_pass g new old (x k) (x (S k)) Hg Hnew Hold (IH ltac:(lia)) (Xs k ltac:(lia))). }
  split; [rewrite Xn; apply Bd; lia|]. intros d Hd Hds Hn Ho.
  assert (D : forall k, (k <= n)%nat -> forall i, (i < cells P)%nat -> Rabs (x k i - sol i g) <= if Nat.eqb k 0 then d else rho * d + E).
  { induction k as [|k IH]; intros Hk i Hi.
    - rewrite X0. cbn [Nat.eqb]. apply Ho; assumption.
    - cbn [Nat.eqb]. destruct (mg_flt_pass g new old (x k) (x (S k)) Hg Hnew Hold (Bd k ltac:(lia)) (Xs k ltac:(lia))) as (_ & S2).
      apply (S2 d Hd Hn Ho); [|exact Hi]. intros j Hj. specialize (IH ltac:(lia) j Hj). destruct (Nat.eqb k 0); lra. }
  intros i Hi. rewrite Xn. specialize (D n ltac:(lia) i Hi). destruct (Nat.eqb_spec n 0); [lia|]. exact D.
Qed.

(** one outer iteration *)
Lemma mg_flt_sweep old new :
  (forall i h, (i < cells P)%nat -> (h < groups)%nat -> Rabs (old i h) <= B) ->
  flt_one_sweep rnd norm P groups T s ext bnd old = Ok new ->
  (forall i h, (i < cells P)%nat -> (h < groups)%nat -> Rabs (new i h) <= B) /\
  forall d, 0 <= d -> rho * d + E <= d -> within2 (cells P) groups d old sol -> within2 (cells P) groups (rho * d + E) new sol.
Proof.
  intros Hold ES. unfold flt_one_sweep in ES. split.
  - intros i h Hi Hh. revert i h Hi Hh.
    refine (for_up_err_inv (fun g (f : mat2) => forall i h, (i < cells P)%nat -> (h < g)%nat -> Rabs (f i h) <= B) groups _ _ new _ _ ES).
    + intros i h _ Hh. lia.
    + intros g f f' Hg IH Eb. cbv zeta in Eb.
      destruct (flt_isotropic_sn _ _ _ _ _ _ _ _ _ _) as [y|] eqn:Ey in Eb; cbn [bind] in Eb; [|discriminate]. injection Eb as <-.
      destruct (mg_flt_group g f old y Hg IH Hold Ey) as (S1 & _).
      intros i h Hi Hh. unfold set_col. destruct (Nat.eqb_spec h g) as [-> |]; [apply S1, Hi|apply IH; [exact Hi|lia]].
  - intros d Hd Hds Ho.
    assert (X : (forall i h, (i < cells P)%nat -> (h < groups)%nat -> Rabs (new i h) <= B) /\
      forall i h, (i < cells P)%nat -> (h < groups)%nat -> Rabs (new i h - sol i h) <= rho * d + E).
    2:{ destruct X as (_ & X). exact X. }
    refine (for_up_err_inv (fun g (f : mat2) => (forall i h, (i < cells P)%nat -> (h < g)%nat -> Rabs (f i h) <= B) /\
      forall i h, (i < cells P)%nat -> (h < g)%nat -> Rabs (f i h - sol i h) <= rho * d + E) groups _ _ new _ _ ES).
    + split; intros i h _ Hh; lia.
    + intros g f f' Hg (IH1 & IH2) Eb. cbv zeta in Eb.
      destruct (flt_isotropic_sn _ _ _ _ _ _ _ _ _ _) as [y|] eqn:Ey in Eb; cbn [bind] in Eb; [|discriminate]. injection Eb as <-.
      destruct (mg_flt_group g f old y Hg IH1 Hold Ey) as (S1 & S2). split.
      * intros i h Hi Hh. unfold set_col. destruct (Nat.eqb_spec h g) as [-> |]; [apply S1, Hi|apply IH1; [exact Hi|lia]].
      * intros i h Hi Hh. unfold set_col. destruct (Nat.eqb_spec h g) as [-> |]; [|apply IH2; [exact Hi|lia]].
        apply (S2 d Hd Hds); [|exact Ho|exact Hi]. intros j k Hj Hk. specialize (IH2 j k Hj Hk). lra.
Qed.

(** the whole iteration *)
Lemma mg_flt_error fo flux :
  (forall i h, (i < cells P)%nat -> (h < groups)%nat -> Rabs (fo i h) <= B) ->
  flt_source_iteration rnd norm norm2 P groups fo T s ext bnd = Ok flux ->
  exists n, (1 <= n <= 100)%nat /\
    (forall i g, (i < cells P)%nat -> (g < groups)%nat -> Rabs (flux i g) <= B) /\
    (forall d, 0 <= d -> within2 (cells P) groups d fo sol ->
       within2 (cells P) groups (rho ^ n * d + W * (c * B * zeta + (c * B * (1 + zeta) + Q0) * eta) / (1 - rho)) flux sol) /\
    ((n < 100)%nat -> (forall v i g, (i < cells P)%nat -> (g < groups)%nat -> Rabs (v i g) <= norm2 v) ->
       within2 (cells P) groups ((rho * (101 / 100 * change_gg * INR (cells P) * B) + W * (c * B * zeta + (c * B * (1 + zeta) + Q0) * eta)) / (1 - rho)) flux sol).
Proof.
  intros Hfo EI. destruct (iterate_spec _ _ _ _ _ _ _ _ EI) as (n & x & Hn1 & Hn2 & X0 & Xn & Xs & _ & Xc).
  fold Q. fold E.
  exists n. split. { change count_gg with 100%nat in Hn2. lia. }
  assert (Hq : 0 <= E / (1 - rho)) by (apply Rle_mult_inv_pos; [exact HE|lra]).
  assert (Hq2 : rho * (E / (1 - rho)) + E = E / (1 - rho)) by (field; lra).
  assert (Bd : forall k, (k <= n)%nat -> forall i h, (i < cells P)%nat -> (h < groups)%nat -> Rabs (x k i h) <= B).
  { induction k as [|k IH]; intros Hk; [rewrite X0; exact Hfo|].
    apply (mg_flt_sweep (x k) (x (S k)) (IH ltac:(lia)) (Xs k ltac:(lia))). }
  split; [rewrite Xn; apply Bd; lia|]. split.
  - intros d Hd Hdist.
    assert (G : forall k, (k <= n)%nat -> within2 (cells P) groups (rho ^ k * d + E / (1 - rho)) (x k) sol).
    { induction k as [|k IH]; intros Hk.
      - rewrite X0. cbn [pow]. intros i h Hi Hh. specialize (Hdist i h Hi Hh). lra.
      - assert (D0 : 0 <= rho ^ k * d) by (apply Rmult_le_pos; [apply pow_le; exact Hr0|exact Hd]).
        destruct (mg_flt_sweep (x k) (x (S k)) (Bd k ltac:(lia)) (Xs k ltac:(lia))) as [_ S2].
        assert (Z : rho * (rho ^ k * d) <= 1 * (rho ^ k * d)) by (apply Rmult_le_compat_r; lra).
        assert (S3 := S2 (rho ^ k * d + E / (1 - rho)) ltac:(lra) ltac:(lra) (IH ltac:(lia))).
        intros i h Hi Hh. specialize (S3 i h Hi Hh). cbn [pow]. lra. }
    rewrite Xn. apply G. lia.
  - intros Hlt Hnorm.
    assert (Hcv : below (flt_change2 rnd norm2 (cells P) groups (x n) (x (n - 1)%nat)) change_gg = true).
    { destruct Xc as [Xc|Xc]; [exact Xc|]. exfalso. change count_gg with 100%nat in Xc. lia. }
    assert (Hc0 : (cells P = 0)%nat \/ (0 < cells P)%nat) by lia. destruct Hc0 as [Hc0|Hcp]; [intros i h Hi _; lia|].
    assert (Hg0 : (groups = 0)%nat \/ (0 < groups)%nat) by lia. destruct Hg0 as [Hg0|Hgp]; [intros i h _ Hh; lia|].
    assert (HI : 0 < INR (cells P)) by (apply lt_0_INR; exact Hcp).
    set (dl := 101 / 100 * change_gg * INR (cells P) * B).
    assert (Dl : forall i h, (i < cells P)%nat -> (h < groups)%nat -> Rabs (x n i h - x (n - 1)%nat i h) <= dl).
    { intros i h Hi Hh. unfold flt_change2 in Hcv. destruct (has_zero2 (cells P) groups (x n)) eqn:Hz; [discriminate|].
      assert (Hzi := proj1 (has_zero2_false _ _ _) Hz i h Hi Hh). cbn [below] in Hcv.
      destruct (Rlt_dec _ change_gg) as [L|L] in Hcv; [|discriminate].
      match type of L with norm2 ?v < _ => assert (N := Hnorm v i h Hi Hh) end. cbv beta in N.
      rewrite (proj2 (Nat.ltb_lt i (cells P)) Hi), (proj2 (Nat.ltb_lt h groups) Hh) in N. cbn [andb] in N.
      assert (N1 : Rabs (fdiv rnd (fdiv rnd (fsub rnd (x n i h) (x (n - 1)%nat i h)) (x n i h)) (INR (cells P))) <= change_gg) by lra.
      apply (Rle_trans _ _ _ (quotient_back u rnd _ _ _ _ Hu Hr (Rlt_le _ _ change_gg_pos) HI Hzi N1)).
      unfold dl. apply Rmult_le_compat_l; [|apply Bd; [lia|exact Hi|exact Hh]].
      apply Rmult_le_pos; [|lra]. assert (Pg := change_gg_pos). lra. }
    destruct (max_index2 (cells P) groups (fun i h => x n i h - sol i h) Hcp Hgp) as (j & k & Hj & Hk & Mj).
    set (m := Rabs (x n j k - sol j k)) in *.
    assert (Dm : within2 (cells P) groups (dl + m) (x (n - 1)%nat) sol).
    { intros i h Hi Hh. replace (x (n - 1)%nat i h - sol i h) with (- (x n i h - x (n - 1)%nat i h) + (x n i h - sol i h)) by ring.
      apply abs_add_le; [rewrite Rabs_Ropp; apply Dl; assumption|apply Mj; assumption]. }
    assert (D0 : 0 <= dl).
    { assert (A := Dl j k Hj Hk). assert (A0 := Rabs_pos (x n j k - x (n - 1)%nat j k)). lra. }
    assert (M0 : 0 <= m) by apply Rabs_pos.
    assert (St := Xs (n - 1)%nat ltac:(lia)). replace (S (n - 1)) with n in St by lia.
    destruct (mg_flt_sweep (x (n - 1)%nat) (x n) (Bd (n - 1)%nat ltac:(lia)) St) as [_ S2].
    assert (Fin : m <= (rho * dl + E) / (1 - rho)).
    { apply (Rmult_le_reg_r (1 - rho)); [lra|]. unfold Rdiv. rewrite Rmult_assoc, Rinv_l by lra.
      assert (rho * dl >= 0) by (apply Rle_ge, Rmult_le_pos; assumption).
      destruct (Rle_dec (dl + m) (E / (1 - rho))) as [C|C].
      - apply (Rmult_le_compat_r (1 - rho)) in C; [|lra]. unfold Rdiv in C. rewrite Rmult_assoc, Rinv_l in C by lra.
        assert (0 <= dl * (1 - rho)) by (apply Rmult_le_pos; lra). lra.
      - assert (C' : E <= (dl + m) * (1 - rho)).
        { apply Rnot_le_lt, Rlt_le in C. apply (Rmult_le_compat_r (1 - rho)) in C; [|lra]. unfold Rdiv in C. rewrite Rmult_assoc, Rinv_l in C by lra. lra. }
        assert (S3 := S2 (dl + m) ltac:(lra) ltac:(lra) Dm j k Hj Hk). fold m in S3. lra. }
    intros i h Hi Hh. rewrite Xn. eapply Rle_trans; [apply Mj; assumption|]. exact Fin.
Qed.
End Groups.
