(** Floating-point sweeps: rounding errors of a cell, of a pass and of the iteration. *)
From Coq Require Import ZArith Lra Lia Bool FunctionalExtensionality.
From Verif Require Import Base BaseFacts Contraction SlabModel SlabSpec SlabFacts SlabFacts2 SlabFacts3 SlabFacts4 MgModel.
From Verif Require Import FltModel FltSpec FltFacts FltFacts2.
Open Scope R_scope.

Lemma abs_add_le x y a b : Rabs x <= a -> Rabs y <= b -> Rabs (x + y) <= a + b.
Proof. intros H1 H2. eapply Rle_trans; [apply Rabs_triang|]. lra. Qed.
Lemma abs_mul_le x y a b : Rabs x <= a -> Rabs y <= b -> Rabs (x * y) <= a * b.
Proof. intros H1 H2. rewrite Rabs_mult. apply Rmult_le_compat; try apply Rabs_pos; assumption. Qed.

Lemma abs_both x a : Rabs x <= a -> - a <= x <= a.
Proof. intros H. assert (X := Rle_abs x). assert (Y := Rle_abs (- x)). rewrite Rabs_Ropp in Y. lra. Qed.

Section Err.
Variables (u : R) (rnd : R -> R).
Hypothesis Hu0 : 0 <= u.
Hypothesis Hu1 : u <= / 1000.
Hypothesis Hrel : relative_rounding u rnd.

Lemma rnd_step alpha X x x' : 0 <= X -> Rabs (x' - x) <= alpha * (u * X) -> Rabs x <= X -> 0 <= alpha ->
  Rabs (rnd x' - x) <= (alpha * (1001 / 1000) + 1) * (u * X).
Proof.
  intros HX H1 H2 Ha. assert (Y : Rabs x' <= X + alpha * (u * X)).
  { replace x' with (x + (x' - x)) by ring. apply abs_add_le; assumption. }
  assert (HuX : 0 <= u * X) by (apply Rmult_le_pos; assumption).
  assert (Z : Rabs (rnd x' - x) <= u * (X + alpha * (u * X)) + alpha * (u * X)).
  { replace (rnd x' - x) with ((rnd x' - x') + (x' - x)) by ring. apply abs_add_le; [|exact H1].
    eapply Rle_trans; [apply Hrel|]. apply Rmult_le_compat_l; assumption. }
  assert (W : u * (alpha * (u * X)) <= / 1000 * (alpha * (u * X))).
  { apply Rmult_le_compat_r; [apply Rmult_le_pos; assumption|exact Hu1]. }
  lra.
Qed.

Lemma rnd_one X x : Rabs x <= X -> Rabs (rnd x - x) <= u * X.
Proof. intros H. eapply Rle_trans; [apply Hrel|]. apply Rmult_le_compat_l; assumption. Qed.

Lemma cell_error s f e o p ang w t Q : 0 <= Q -> 0 <= t -> 0.5 * t <= ang / w -> 0 < ang / w ->
  Rabs (s * f) + Rabs e + Rabs o <= t * Q -> Rabs p <= Q ->
  Rabs (flt_edge2 rnd s f e o p ang w t
        - (s * f + e + o + p * (ang / w - 0.5 * t)) / (ang / w + 0.5 * t)) <= 11 * u * Q.
Proof.
  intros HQ Ht Hab Ha HS Hp. set (a := ang / w) in *. set (b := 0.5 * t) in *.
  assert (Hb : 0 <= b) by (unfold b; lra). assert (Etb : t = 2 * b) by (unfold b; lra). rewrite Etb in HS. clearbody b.
  set (D := a + b). assert (HD : 0 < D) by (unfold D; lra).
  assert (HuD : 0 <= u * D) by (apply Rmult_le_pos; lra).
  assert (HQD : 0 <= Q * D) by (apply Rmult_le_pos; lra).
  assert (HuQD : 0 <= u * (Q * D)) by (apply Rmult_le_pos; lra).
  unfold flt_edge2. fold (fdiv rnd ang w). unfold fdiv at 1.
  set (a' := fdiv rnd ang w). set (b' := fmul rnd 0.5 t).
  assert (A1 : Rabs (a' - a) <= u * a). { unfold a', fdiv. fold a. apply rnd_one. rewrite Rabs_right; lra. }
  assert (B1 : Rabs (b' - b) <= u * b). { unfold b', fmul. rewrite Etb. replace (0.5 * (2 * b)) with b by lra. apply rnd_one. rewrite Rabs_right; lra. }
  assert (C1 : Rabs ((a' - b') - (a - b)) <= 1 * (u * D)).
  { replace ((a' - b') - (a - b)) with ((a' - a) + - (b' - b)) by ring. unfold D.
    replace (1 * (u * (a + b))) with (u * a + u * b) by ring. apply abs_add_le; [exact A1|rewrite Rabs_Ropp; exact B1]. }
  assert (Cab : Rabs (a - b) <= D) by (unfold D; rewrite Rabs_right; lra).
  assert (C2 := rnd_step 1 D (a - b) (a' - b') ltac:(lra) C1 Cab ltac:(lra)).
  set (c' := fsub rnd a' b'). fold (fsub rnd a' b') in C2. fold c' in C2.
  assert (D1 : Rabs ((a' + b') - D) <= 1 * (u * D)).
  { unfold D. replace ((a' + b') - (a + b)) with ((a' - a) + (b' - b)) by ring.
    replace (1 * (u * (a + b))) with (u * a + u * b) by ring. apply abs_add_le; assumption. }
  assert (D2 := rnd_step 1 D D (a' + b') ltac:(lra) D1 ltac:(rewrite Rabs_right; lra) ltac:(lra)).
  fold (fadd rnd a' b') in D2. set (D' := fadd rnd a' b') in *.
  assert (P1 : Rabs (p * c' - p * (a - b)) <= (1 * (1001/1000) + 1) * (u * (Q * D))).
  { replace (p * c' - p * (a - b)) with (p * (c' - (a - b))) by ring.
    replace ((1 * (1001 / 1000) + 1) * (u * (Q * D))) with (Q * ((1 * (1001 / 1000) + 1) * (u * D))) by ring.
    apply abs_mul_le; assumption. }
  assert (P0 : Rabs (p * (a - b)) <= Q * (a - b)).
  { apply abs_mul_le; [exact Hp|rewrite Rabs_right; lra]. }
  assert (P2 := rnd_step _ (Q * D) (p * (a - b)) (p * c') HQD P1
     ltac:(eapply Rle_trans; [exact P0|]; apply Rmult_le_compat_l; [exact HQ|unfold D; lra]) ltac:(lra)).
  fold (fmul rnd p c') in P2.
  set (M := 2 * b * Q). fold M in HS.
  assert (HM : 0 <= M) by (unfold M; repeat apply Rmult_le_pos; lra).
  assert (HMQ : M <= Q * D) by (unfold M, D; nra).
  assert (HuM : u * M <= u * (Q * D)) by (apply Rmult_le_compat_l; assumption).
  assert (HuM0 : 0 <= u * M) by (apply Rmult_le_pos; assumption).
  assert (N1 := Rabs_pos (s * f)). assert (N2 := Rabs_pos e). assert (N3 := Rabs_pos o).
  assert (S1 : Rabs (rnd (s * f) - s * f) <= 1 * (u * M)). { rewrite Rmult_1_l. apply rnd_one. lra. }
  assert (S2a : Rabs (s * f + e) <= M). { eapply Rle_trans; [apply Rabs_triang|]. lra. }
  assert (S2 := rnd_step 1 M (s * f + e) (rnd (s * f) + e) HM
     ltac:(replace (rnd (s * f) + e - (s * f + e)) with (rnd (s * f) - s * f) by ring; exact S1) S2a ltac:(lra)).
  assert (S3a : Rabs (s * f + e + o) <= M). { eapply Rle_trans; [apply Rabs_triang|]. eapply Rle_trans; [apply Rplus_le_compat_r, Rabs_triang|]. lra. }
  assert (S3 := rnd_step _ M (s * f + e + o) (rnd (rnd (s * f) + e) + o) HM
     ltac:(replace (rnd (rnd (s * f) + e) + o - (s * f + e + o)) with (rnd (rnd (s * f) + e) - (s * f + e)) by ring; exact S2) S3a ltac:(lra)).
  fold (fmul rnd s f) in S3. fold (fadd rnd (fmul rnd s f) e) in S3. fold (fadd rnd (fadd rnd (fmul rnd s f) e) o) in S3.
  set (S' := fadd rnd (fadd rnd (fmul rnd s f) e) o) in *. set (S0 := s * f + e + o) in *. set (pc' := fmul rnd p c') in *.
  set (num := S0 + p * (a - b)).
  assert (Hnum : Rabs num <= Q * D).
  { unfold num. eapply Rle_trans; [apply abs_add_le; [exact S3a|exact P0]|]. unfold M, D. lra. }
  assert (U1 : Rabs ((S' + pc') - num) <= 62 / 10 * (u * (Q * D))).
  { replace (S' + pc' - num) with ((S' - S0) + (pc' - p * (a - b))) by (unfold num; ring).
    eapply Rle_trans; [apply abs_add_le; [exact S3|exact P2]|]. lra. }
  assert (U2 := rnd_step _ (Q * D) num (S' + pc') HQD U1 Hnum ltac:(lra)).
  fold (fadd rnd S' pc') in U2. set (num' := fadd rnd S' pc') in *.
  assert (HD' : 99 / 100 * D <= D').
  { apply abs_both in D2. assert (u * D <= / 1000 * D) by (apply Rmult_le_compat_r; lra). lra. }
  assert (V1 : Rabs (num' / D' - num / D) <= 96 / 10 * (u * Q)).
  { replace (num' / D' - num / D) with (((num' - num) * D + num * - (D' - D)) / (D' * D)) by (field; lra).
    unfold Rdiv at 1. rewrite Rabs_mult. rewrite (Rabs_right (/ (D' * D))) by (apply Rle_ge; left; apply Rinv_0_lt_compat; nra).
    apply Rle_trans with (((62 / 10 * (1001 / 1000) + 1) * (u * (Q * D)) * D + (Q * D) * ((1 * (1001 / 1000) + 1) * (u * D))) * / (D' * D)).
    - apply Rmult_le_compat_r; [left; apply Rinv_0_lt_compat; nra|]. apply abs_add_le.
      + apply abs_mul_le; [exact U2|rewrite Rabs_right; lra].
      + apply abs_mul_le; [exact Hnum|rewrite Rabs_Ropp; exact D2].
    - apply (Rmult_le_reg_r (D' * D)); [nra|]. rewrite Rmult_assoc, Rinv_l by nra. rewrite Rmult_1_r.
      assert (X : u * Q * (D * D) * (95 / 10) <= 96 / 10 * (u * Q) * (D' * D)).
      { replace (96 / 10 * (u * Q) * (D' * D)) with (u * Q * D * (96 / 10 * D')) by ring.
        replace (u * Q * (D * D) * (95 / 10)) with (u * Q * D * (95 / 10 * D)) by ring.
        apply Rmult_le_compat_l; [apply Rmult_le_pos; [apply Rmult_le_pos; lra|lra]|]. lra. }
      assert (0 <= u * Q * (D * D)) by (repeat apply Rmult_le_pos; lra). lra. }
  assert (Hq : Rabs (num / D) <= Q).
  { unfold Rdiv. rewrite Rabs_mult, (Rabs_right (/ D)) by (apply Rle_ge; left; apply Rinv_0_lt_compat; exact HD).
    apply (Rmult_le_reg_r D); [exact HD|]. rewrite Rmult_assoc, Rinv_l by lra. lra. }
  assert (V2 := rnd_step _ Q (num / D) (num' / D') HQ V1 Hq ltac:(lra)).
  assert (0 <= u * Q) by (apply Rmult_le_pos; assumption). 
  change (Rabs (rnd (num' / D') - num / D) <= 11 * u * Q). lra.
Qed.
End Err.

(** *** Bookkeeping: a number of size at most [M], known up to [p] roundings *)
Lemma for_up_inv2 {S1 S2} (Inv : nat -> S1 -> S2 -> Prop) n b1 b2 s t :
  (forall k x y, (k < n)%nat -> Inv k x y -> Inv (S k) (b1 k x) (b2 k y)) -> Inv 0%nat s t -> Inv n (for_up n b1 s) (for_up n b2 t).
Proof.
  intros H H0. assert (G : forall k, (k <= n)%nat -> Inv k (for_up k b1 s) (for_up k b2 t)).
  { induction k as [|k IH]; intros Hk; [exact H0|]. cbn [for_up]. apply H; [lia|]. apply IH. lia. }
  apply G. lia.
Qed.
Lemma for_down_inv2 {S1 S2} (Inv : nat -> S1 -> S2 -> Prop) n b1 b2 : forall s t,
  (forall k x y, (k < n)%nat -> Inv (S k) x y -> Inv k (b1 k x) (b2 k y)) -> Inv n s t -> Inv 0%nat (for_down n b1 s) (for_down n b2 t).
Proof.
  induction n as [|n IH]; intros s t H H0; [exact H0|]. cbn [for_down]. apply IH; [intros; apply H; [lia|assumption]|].
  apply H; [lia|exact H0].
Qed.
Lemma for_up_err_inv2 {S1 S2} (Inv : nat -> S1 -> S2 -> Prop) n b1 b2 s t :
  (forall k x y, (k < n)%nat -> Inv k x y -> out_rel (Inv (S k)) (b1 k x) (b2 k y)) -> Inv 0%nat s t ->
  out_rel (Inv n) (for_up_err n b1 s) (for_up_err n b2 t).
Proof.
  intros H H0. assert (G : forall k, (k <= n)%nat -> out_rel (Inv k) (for_up_err k b1 s) (for_up_err k b2 t)).
  { induction k as [|k IH]; intros Hk; [exact H0|]. cbn [for_up_err]. specialize (IH ltac:(lia)).
    destruct (for_up_err k b1 s), (for_up_err k b2 t); cbn [bind out_rel] in *; try contradiction; [apply H; [lia|exact IH]|exact IH]. }
  apply G. lia.
Qed.

Section Pass.
Variables (u : R) (rnd : R -> R).
Hypothesis Hu0 : 0 <= u.
Hypothesis Hu1 : u <= / 1000.
Hypothesis Hrel : relative_rounding u rnd.
Let k := 11 * u.
Let Hk : 0 <= k.
Proof. unfold k. lra. Qed.

Definition nr (M : R) (p : nat) (x x' : R) : Prop := Rabs x <= M /\ Rabs (x' - x) <= M * growth k p.

Lemma growth_nonneg p : 0 <= growth k p.
Proof. unfold growth. assert (X := pow_R1_Rle (1 + k) p ltac:(lra)). lra. Qed.
Lemma growth_mono p q : (p <= q)%nat -> growth k p <= growth k q.
Proof. intros H. unfold growth. assert (X := Rle_pow (1 + k) p q ltac:(lra) H). lra. Qed.

Lemma nr_weaken M M' p q x x' : M <= M' -> (p <= q)%nat -> nr M p x x' -> nr M' q x x'.
Proof.
  intros HM Hp [H1 H2]. assert (Z := Rabs_pos x). split; [lra|]. eapply Rle_trans; [exact H2|].
  apply Rmult_le_compat; [lra|apply growth_nonneg|exact HM|apply growth_mono; exact Hp].
Qed.
Lemma nr_big M p x x' : nr M p x x' -> Rabs x' <= M * (1 + growth k p).
Proof. intros [H1 H2]. replace x' with (x + (x' - x)) by ring. rewrite Rmult_plus_distr_l, Rmult_1_r. apply abs_add_le; assumption. Qed.
Lemma nr_rnd M p x x' : nr M p x x' -> nr M (S p) x (rnd x').
Proof.
  intros H. assert (B := nr_big _ _ _ _ H). destruct H as [H1 H2]. split; [exact H1|].
  replace (rnd x' - x) with ((rnd x' - x') + (x' - x)) by ring.
  assert (X := Rabs_pos x). assert (Y : Rabs (rnd x' - x') <= k * (M * (1 + growth k p))).
  { eapply Rle_trans; [apply Hrel|]. apply Rmult_le_compat; [exact Hu0|apply Rabs_pos|unfold k; lra|exact B]. }
  eapply Rle_trans; [apply abs_add_le; [exact Y|exact H2]|]. right. unfold growth. cbn [pow]. ring.
Qed.
Lemma nr_add M M' p x x' y y' : nr M p x x' -> nr M' p y y' -> nr (M + M') p (x + y) (x' + y').
Proof.
  intros [H1 H2] [H3 H4]. split; [apply abs_add_le; assumption|]. replace (x' + y' - (x + y)) with ((x' - x) + (y' - y)) by ring.
  rewrite Rmult_plus_distr_r. apply abs_add_le; assumption.
Qed.
Lemma nr_mul M M' p q x x' y y' : nr M p x x' -> nr M' q y y' -> nr (M * M') (p + q) (x * y) (x' * y').
Proof.
  intros H H'. assert (B := nr_big _ _ _ _ H'). destruct H as [H1 H2], H' as [H3 H4]. split; [apply abs_mul_le; assumption|].
  replace (x' * y' - x * y) with ((x' - x) * y' + x * (y' - y)) by ring.
  eapply Rle_trans; [apply abs_add_le; apply abs_mul_le; eassumption|]. right. unfold growth. rewrite pow_add. ring.
Qed.
Lemma nr_self M x : Rabs x <= M -> nr M 0 x x.
Proof. intros H. split; [exact H|]. unfold growth. cbn [pow]. replace (x - x) with 0 by ring. rewrite Rabs_R0. lra. Qed.

(** a cell keeps the size and adds one rounding *)
Lemma cell_step s f e o x x' ang w t Q p : 0 <= Q -> 0 <= t -> 0.5 * t <= ang / w -> 0 < ang / w ->
  Rabs (s * f) + Rabs e + Rabs o <= t * Q -> nr Q p x x' ->
  nr Q (S p) ((s * f + e + o + x * (ang / w - 0.5 * t)) / (ang / w + 0.5 * t)) (flt_edge2 rnd s f e o x' ang w t).
Proof.
  intros HQ Ht Hab Ha HS Hx. assert (B := nr_big _ _ _ _ Hx). destruct Hx as [H1 H2].
  set (a := ang / w) in *. set (b := 0.5 * t) in *. assert (Hb : 0 <= b) by (unfold b; lra).
  assert (HD : 0 < a + b) by lra. assert (Hi := Rinv_0_lt_compat _ HD).
  assert (G := growth_nonneg p).
  split.
  - unfold Rdiv. rewrite Rabs_mult, (Rabs_right (/ (a + b))) by lra.
    apply (Rmult_le_reg_r (a + b)); [exact HD|]. rewrite Rmult_assoc, Rinv_l by lra. rewrite Rmult_1_r.
    apply Rle_trans with (t * Q + Q * (a - b)); [|unfold b; lra]. apply abs_add_le.
    + eapply Rle_trans; [apply Rabs_triang|]. eapply Rle_trans; [apply Rplus_le_compat_r, Rabs_triang|]. exact HS.
    + apply abs_mul_le; [exact H1|rewrite Rabs_right; lra].
  - assert (C := cell_error u rnd Hu0 Hu1 Hrel s f e o x' ang w t (Q * (1 + growth k p))).
    assert (HQ' : Q <= Q * (1 + growth k p)) by nra.
    specialize (C ltac:(lra) Ht Hab Ha ltac:(eapply Rle_trans; [exact HS|]; apply Rmult_le_compat_l; assumption) B).
    fold a b in C. fold k in C.
    replace (flt_edge2 rnd s f e o x' ang w t - (s * f + e + o + x * (a - b)) / (a + b))
      with ((flt_edge2 rnd s f e o x' ang w t - (s * f + e + o + x' * (a - b)) / (a + b)) + (x' - x) * ((a - b) / (a + b)))
      by (field; lra).
    apply Rle_trans with (k * (Q * (1 + growth k p)) + Q * growth k p * 1).
    + apply abs_add_le; [exact C|]. apply abs_mul_le; [exact H2|].
      unfold Rdiv. rewrite Rabs_mult, (Rabs_right (/ (a + b))), (Rabs_right (a - b)) by lra.
      apply (Rmult_le_reg_r (a + b)); [exact HD|]. rewrite Rmult_assoc, Rinv_l by lra. lra.
    + right. unfold growth. cbn [pow]. ring.
Qed.

(** the contribution of a cell to the flux *)
Lemma contribution w Q F p q e1 e1' e2 e2' x x' : 0 <= w -> nr Q p e1 e1' -> nr Q p e2 e2' -> nr F q x x' -> (p + 3 <= q)%nat ->
  nr (F + w * Q) (S q) (x + 0.5 * w * (e1 + e2)) (fadd rnd x' (fmul rnd (fmul rnd 0.5 w) (fadd rnd e1' e2'))).
Proof.
  intros Hw H1 H2 Hx Hq. apply nr_rnd. apply nr_add; [exact Hx|].
  apply (nr_weaken (w * Q) (w * Q) (S (1 + S p))); [lra|lia|]. apply nr_rnd.
  replace (w * Q) with ((0.5 * w) * (Q + Q)) by lra. apply nr_mul.
  - apply nr_rnd. apply nr_self. rewrite Rabs_right; lra.
  - apply nr_rnd. apply nr_add; assumption.
Qed.

Section Sweep.
Variables (P : sn) (T s off : vec) (external : arr2) (fo : vec) (Q : R).
Hypothesis HQ : 0 <= Q.
Hypothesis Hthin : thin_mesh P T.
Hypothesis Hnz : nonzero_ordinates (angles P) (mu P).
Hypothesis Hsrc : forall i m, (i < cells P)%nat -> (m < angles P)%nat ->
     Rabs (s (medium P i) * fo i) + Rabs (at2 external i (bidx (cols2 external) m)) + Rabs (off i) <= T (medium P i) * Q.
Hypothesis Hw : forall m, (m < angles P)%nat -> 0 <= wt P m.

Let thin_facts m i : (m < angles P)%nat -> (i < cells P)%nat ->
  0 <= T (medium P i) /\ 0.5 * T (medium P i) <= Rabs (mu P m) / dx P i /\ 0 < Rabs (mu P m) / dx P i.
Proof.
  intros Hm Hi. destruct (Hthin m i Hm Hi) as (H1 & H2 & H3). split; [exact H2|]. split.
  - apply (Rmult_le_reg_r (dx P i)); [exact H1|].
    replace (Rabs (mu P m) / dx P i * dx P i) with (Rabs (mu P m)) by (field; lra). nra.
  - apply Rdiv_lt_0_compat; [apply Rabs_pos_lt, Hnz; exact Hm|exact H1].
Qed.

Definition flux_near (F : R) (q : nat) (f f' : vec) : Prop := forall i, (i < cells P)%nat -> nr F q (f i) (f' i).

Lemma forward_near m fl fl' e e' p q F : (m < angles P)%nat -> 0 < mu P m -> nr Q p e e' -> flux_near F q fl fl' ->
  (p + cells P + 3 <= q)%nat -> 0 <= F ->
  let r := slab_forward_iso P fl fo T s off (fun i => at2 external i (bidx (cols2 external) m)) e (mu P m) (wt P m) 0 in
  let r' := flt_forward_iso rnd P fl' fo T s off (fun i => at2 external i (bidx (cols2 external) m)) e' (mu P m) (wt P m) 0 in
  nr Q (p + cells P) (fst r) (fst r') /\ flux_near (F + wt P m * Q) (S q) (snd r) (snd r').
Proof.
  intros Hm Hpos He Hfl Hq HF. cbv zeta. unfold slab_forward_iso, flt_forward_iso. cbn [Nat.eqb].
  assert (Hwm := Hw m Hm). assert (HWQ : 0 <= wt P m * Q) by (apply Rmult_le_pos; assumption).
  match goal with |- nr _ _ (fst (for_up ?n ?b1 ?s)) (fst (for_up _ ?b2 ?t)) /\ _ =>
    assert (X := for_up_inv2 (fun j (x y : R * vec) => nr Q (p + j) (fst x) (fst y) /\
       (forall i, (i < j)%nat -> nr (F + wt P m * Q) (S q) (snd x i) (snd y i)) /\
       (forall i, (j <= i < cells P)%nat -> nr F q (snd x i) (snd y i))) n b1 b2 s t) end.
  destruct X as (X1 & X2 & _).
  - intros j [x fx] [y fy] Hj (I1 & I2 & I3). cbn [fst snd] in *.
    destruct (thin_facts m j Hm Hj) as (T1 & T2 & T3). rewrite (Rabs_right (mu P m)) in T2, T3 by lra.
    assert (C := cell_step (s (medium P j)) (fo j) (at2 external j (bidx (cols2 external) m)) (off j) x y (mu P m) (dx P j)
      (T (medium P j)) Q (p + j) HQ T1 T2 T3 (Hsrc j m Hj Hm) I1).
    replace (p + S j)%nat with (S (p + j)) by lia. split; [exact C|]. split.
    + intros i Hi. unfold upd. destruct (Nat.eqb_spec i j) as [-> |Hij]; [|apply I2; lia].
      apply contribution with (p := (p + S j)%nat); [exact Hwm| | |apply I3; lia|lia].
      * eapply nr_weaken; [| |exact I1]; [lra|lia].
      * replace (p + S j)%nat with (S (p + j)) by lia. exact C.
    + intros i Hi. unfold upd. destruct (Nat.eqb_spec i j) as [-> |Hij]; [lia|]. apply I3. lia.
  - cbn [fst snd]. rewrite Nat.add_0_r. split; [exact He|]. split; [intros; lia|]. intros i Hi. apply Hfl. lia.
  - split; [exact X1|]. intros i Hi. apply X2. exact Hi.
Qed.

Lemma backward_near m fl fl' e e' p q F : (m < angles P)%nat -> mu P m < 0 -> nr Q p e e' -> flux_near F q fl fl' ->
  (p + cells P + 3 <= q)%nat -> 0 <= F ->
  let r := slab_backward_iso P fl fo T s off (fun i => at2 external i (bidx (cols2 external) m)) e (mu P m) (wt P m) 0 in
  let r' := flt_backward_iso rnd P fl' fo T s off (fun i => at2 external i (bidx (cols2 external) m)) e' (mu P m) (wt P m) 0 in
  nr Q (p + cells P) (fst r) (fst r') /\ flux_near (F + wt P m * Q) (S q) (snd r) (snd r').
Proof.
  intros Hm Hneg He Hfl Hq HF. cbv zeta. unfold slab_backward_iso, flt_backward_iso. cbn [Nat.eqb].
  assert (Hwm := Hw m Hm). assert (HWQ : 0 <= wt P m * Q) by (apply Rmult_le_pos; assumption).
  match goal with |- nr _ _ (fst (for_down ?n ?b1 ?s)) (fst (for_down _ ?b2 ?t)) /\ _ =>
    assert (X := for_down_inv2 (fun j (x y : R * vec) => nr Q (p + (cells P - j)) (fst x) (fst y) /\
       (forall i, (j <= i < cells P)%nat -> nr (F + wt P m * Q) (S q) (snd x i) (snd y i)) /\
       (forall i, (i < j)%nat -> nr F q (snd x i) (snd y i))) n b1 b2 s t) end.
  destruct X as (X1 & X2 & _).
  - intros j [x fx] [y fy] Hj (I1 & I2 & I3). cbn [fst snd] in *.
    destruct (thin_facts m j Hm Hj) as (T1 & T2 & T3). rewrite (Rabs_left (mu P m)) in T2, T3 by lra.
    assert (C := cell_step (s (medium P j)) (fo j) (at2 external j (bidx (cols2 external) m)) (off j) x y (- mu P m) (dx P j)
      (T (medium P j)) Q (p + (cells P - S j)) HQ T1 T2 T3 (Hsrc j m Hj Hm) I1).
    replace (p + (cells P - j))%nat with (S (p + (cells P - S j))) by lia. split; [exact C|]. split.
    + intros i Hi. unfold upd. destruct (Nat.eqb_spec i j) as [-> |Hij]; [|apply I2; lia].
      apply contribution with (p := (p + cells P)%nat); [exact Hwm| | |apply I3; lia|lia].
      * eapply nr_weaken; [| |exact I1]; [lra|lia].
      * eapply nr_weaken; [| |exact C]; [lra|lia].
    + intros i Hi. unfold upd. destruct (Nat.eqb_spec i j) as [-> |Hij]; [lia|]. apply I3. lia.
  - cbn [fst snd]. rewrite Nat.sub_diag, Nat.add_0_r. split; [exact He|]. split; [intros; lia|]. intros i Hi. apply Hfl. lia.
  - rewrite Nat.sub_0_r in X1. split; [exact X1|]. intros i Hi. apply X2. lia.
Qed.

Variable boundary : arr2.
Hypothesis Hb1 : forall m, (m < angles P)%nat -> Rabs (boundary_in boundary (mu P) m) <= Q.
Hypothesis Hb2 : forall m, (m < angles P)%nat -> leaves_reflective (mu P) (bc_left P) (bc_right P) (angles P - m - 1) = true ->
     boundary_in boundary (mu P) m = 0.

(** reflector entries still to be used *)
Definition refl_near (nn : nat) (r r' : vec) : Prop :=
  forall j, (nn <= j < angles P)%nat ->
    nr Q (cells P + 1) (r j) (r' j) /\
    ((nn <= angles P - 1 - j)%nat -> r j = 0 /\ r' j = 0) /\
    (leaves_reflective (mu P) (bc_left P) (bc_right P) (angles P - j - 1) = false -> r j = 0 /\ r' j = 0).

Lemma entering m r r' : (m < angles P)%nat -> refl_near m r r' ->
  nr Q (if Nat.leb m (angles P - 1 - m) then 1 else cells P + 2) (r m + boundary_in boundary (mu P) m)
    (fadd rnd (r' m) (boundary_in boundary (mu P) m)).
Proof.
  intros Hm H. destruct (H m ltac:(lia)) as (H1 & H2 & H3).
  assert (B := Hb1 m Hm).
  destruct (Nat.leb_spec m (angles P - 1 - m)) as [Hle|Hgt].
  - destruct (H2 Hle) as [-> ->]. apply nr_rnd. apply nr_self. rewrite Rplus_0_l. exact B.
  - destruct (leaves_reflective (mu P) (bc_left P) (bc_right P) (angles P - m - 1)) eqn:L.
    + rewrite (Hb2 m Hm L). unfold fadd. rewrite !Rplus_0_r. replace (cells P + 2)%nat with (S (cells P + 1)) by lia. apply nr_rnd. exact H1.
    + destruct (H3 eq_refl) as [-> ->]. apply (nr_weaken Q Q 1); [lra|lia|]. apply nr_rnd. apply nr_self. rewrite Rplus_0_l. exact B.
Qed.

Lemma corrector_near m r r' e e' : (m < angles P)%nat -> refl_near m r r' ->
  nr Q ((if Nat.leb m (angles P - 1 - m) then 1 else cells P + 2) + cells P) e e' ->
  refl_near (S m) (reflector_corrector P r e m) (reflector_corrector P r' e' m).
Proof.
  intros Hm H He j Hj. rewrite !reflector_corrector_spec.
  destruct (H j ltac:(lia)) as (H1 & H2 & H3).
  destruct (leaves_reflective (mu P) (bc_left P) (bc_right P) m) eqn:L.
  - unfold upd. destruct (Nat.eqb_spec j (angles P - m - 1)) as [-> |Hne].
    + split; [|split].
      * destruct (Nat.leb_spec m (angles P - 1 - m)) as [Hle|Hgt]; [|lia].
        replace (cells P + 1)%nat with (1 + cells P)%nat by lia. exact He.
      * intros Hx. lia.
      * intros Hx. replace (angles P - (angles P - m - 1) - 1)%nat with m in Hx by lia. congruence.
    + split; [exact H1|]. split; [intros; apply H2; lia|exact H3].
  - split; [exact H1|]. split; [intros; apply H2; lia|exact H3].
Qed.

Lemma pass_near flux flux' :
  slab_iso_pass P T s off external boundary 0 fo = Ok flux ->
  flt_iso_pass rnd P T s off external boundary 0 fo = Ok flux' ->
  flux_near (rsum (angles P) (wt P) * Q) (2 * cells P + angles P + 5) flux flux'.
Proof.
  intros E E'. unfold slab_iso_pass in E. unfold flt_iso_pass in E'.
  match type of E with bind (for_up_err ?n ?b1 ?s) _ = _ => match type of E' with bind (for_up_err _ ?b2 ?t) _ = _ =>
    assert (X := for_up_err_inv2 (fun j (x y : vec * vec) =>
       flux_near (rsum j (wt P) * Q) (2 * cells P + 5 + j) (fst x) (fst y) /\ refl_near j (snd x) (snd y)) n b1 b2 s t) end end.
  assert (Y : out_rel (fun x y : vec * vec => flux_near (rsum (angles P) (wt P) * Q) (2 * cells P + 5 + angles P) (fst x) (fst y) /\ refl_near (angles P) (snd x) (snd y))
    (for_up_err (angles P) (fun nn st => let '(flux, reflector) := st in
       let qq := bidx (cols2 external) nn in let bc := bidx (cols2 boundary) nn in
       if Rlt_dec 0 (mu P nn) then
         let edge1 := reflector nn + at2 boundary 0%nat bc in
         let '(edge1, flux) := slab_forward_iso P flux fo T s off (fun i => at2 external i qq) edge1 (mu P nn) (wt P nn) 0 in
         Ok (flux, reflector_corrector P reflector edge1 nn)
       else if Rlt_dec (mu P nn) 0 then
         let edge1 := reflector nn + at2 boundary 1%nat bc in
         let '(edge1, flux) := slab_backward_iso P flux fo T s off (fun i => at2 external i qq) edge1 (mu P nn) (wt P nn) 0 in
         Ok (flux, reflector_corrector P reflector edge1 nn)
       else Raise DiscontinuityAt0) (zeros, zeros))
    (for_up_err (angles P) (fun nn st => let '(flux, reflector) := st in
       let qq := bidx (cols2 external) nn in let bc := bidx (cols2 boundary) nn in
       if Rlt_dec 0 (mu P nn) then
         let edge1 := fadd rnd (reflector nn) (at2 boundary 0%nat bc) in
         let '(edge1, flux) := flt_forward_iso rnd P flux fo T s off (fun i => at2 external i qq) edge1 (mu P nn) (wt P nn) 0 in
         Ok (flux, reflector_corrector P reflector edge1 nn)
       else if Rlt_dec (mu P nn) 0 then
         let edge1 := fadd rnd (reflector nn) (at2 boundary 1%nat bc) in
         let '(edge1, flux) := flt_backward_iso rnd P flux fo T s off (fun i => at2 external i qq) edge1 (mu P nn) (wt P nn) 0 in
         Ok (flux, reflector_corrector P reflector edge1 nn)
       else Raise DiscontinuityAt0) (zeros, zeros))).
  { apply X.
    2:{ split; cbn [fst snd].
        - intros i Hi. cbn [rsum]. rewrite Rmult_0_l. apply (nr_weaken 0 0 0); [lra|lia|]. apply nr_self. unfold zeros. rewrite Rabs_R0. lra.
        - intros j Hj. unfold zeros. split; [|split; intros; auto]. apply (nr_weaken Q Q 0); [lra|lia|]. apply nr_self. rewrite Rabs_R0. exact HQ. }
    clear X E E'. intros m [fx rx] [fy ry] Hm [If Ir]. cbn [fst snd] in If, Ir. cbv zeta.
    assert (Hent := entering m rx ry Hm Ir). unfold boundary_in in Hent.
    assert (HF : 0 <= rsum m (wt P) * Q) by (apply Rmult_le_pos; [apply rsum_nonneg; intros; apply Hw; lia|exact HQ]).
    assert (Hpq : ((if Nat.leb m (angles P - 1 - m) then 1 else cells P + 2) + cells P + 3 <= 2 * cells P + 5 + m)%nat).
    { destruct (Nat.leb m (angles P - 1 - m)); lia. }
    assert (ES : rsum (S m) (wt P) * Q = rsum m (wt P) * Q + wt P m * Q) by (cbn [rsum]; ring).
    assert (Z := Hnz m Hm).
    destruct (Rlt_dec 0 (mu P m)) as [Hp|Hp].
    - destruct (forward_near m fx fy _ _ _ _ _ Hm Hp Hent If Hpq HF) as [A B]. cbv zeta in A, B.
      destruct (slab_forward_iso _ _ _ _ _ _ _ _ _ _ _) as [a f]. destruct (flt_forward_iso _ _ _ _ _ _ _ _ _ _ _ _) as [a' f'].
      cbn [fst snd] in A, B. cbn [out_rel fst snd]. split.
      + rewrite ES. replace (2 * cells P + 5 + S m)%nat with (S (2 * cells P + 5 + m)) by lia. exact B.
      + apply corrector_near; assumption.
    - destruct (Rlt_dec (mu P m) 0) as [Hn|Hn]; [|lra].
      destruct (backward_near m fx fy _ _ _ _ _ Hm Hn Hent If Hpq HF) as [A B]. cbv zeta in A, B.
      destruct (slab_backward_iso _ _ _ _ _ _ _ _ _ _ _) as [a f]. destruct (flt_backward_iso _ _ _ _ _ _ _ _ _ _ _ _) as [a' f'].
      cbn [fst snd] in A, B. cbn [out_rel fst snd]. split.
      + rewrite ES. replace (2 * cells P + 5 + S m)%nat with (S (2 * cells P + 5 + m)) by lia. exact B.
      + apply corrector_near; assumption. }
  clear X.
  match type of Y with out_rel _ ?a ?b => destruct a as [[f r]|] eqn:Ea; destruct b as [[f' r']|] eqn:Eb end; cbn [out_rel] in Y; try contradiction.
  - cbn [bind fst] in E, E'. injection E as <-. injection E' as <-. destruct Y as [Y _]. cbn [fst] in Y.
    replace (2 * cells P + angles P + 5)%nat with (2 * cells P + 5 + angles P)%nat by lia. exact Y.
  - discriminate.
Qed.
End Sweep.
End Pass.
