(** Quadrature ordering (C51), time grids (C53), Legendre tables (C57), energy grids (C82). *)
From Coq Require Import Lia Lra Psatz Permutation Sorted.
From Verif Require Import Base BaseFacts SlabModel SlabSpec MgModel HybModel HybSpec HybFacts MainModel MainSpec.
Open Scope R_scope.

(** ** sorting *)
Lemma insert_by_perm key k l : Permutation (insert_by key k l) (k :: l).
Proof.
  induction l as [|j l IH]; cbn; [reflexivity|]. destruct (Rle_dec _ _); [|reflexivity].
  rewrite IH. apply perm_swap.
Qed.

Lemma argsort_perm n key : Permutation (argsort n key) (seq 0 n).
Proof.
  unfold argsort. induction n as [|n IH]; [reflexivity|]. cbn [for_up]. rewrite insert_by_perm, IH.
  rewrite seq_S. cbn. apply Permutation_cons_append.
Qed.

Lemma insert_by_sorted key k l : StronglySorted (fun a b => key a <= key b) l ->
  StronglySorted (fun a b => key a <= key b) (insert_by key k l).
Proof.
  induction l as [|j l IH]; intros H; cbn; [repeat constructor|].
  inversion H as [|? ? Hs Hf]; subst. destruct (Rle_dec _ _) as [L|L].
  - constructor; [apply IH; exact Hs|]. apply (Permutation_Forall (Permutation_sym (insert_by_perm key k l))).
    constructor; assumption.
  - constructor; [exact H|]. constructor; [lra|]. eapply Forall_impl; [|exact Hf]. intros a Ha. cbn in Ha. lra.
Qed.

Lemma argsort_sorted n key : StronglySorted (fun a b => key a <= key b) (argsort n key).
Proof. unfold argsort. induction n as [|n IH]; cbn [for_up]; [constructor|apply insert_by_sorted; exact IH]. Qed.

Lemma strongly_nth {A} (Rel : A -> A -> Prop) l d : StronglySorted Rel l ->
  forall i j, (i < j)%nat -> (j < length l)%nat -> Rel (nth i l d) (nth j l d).
Proof.
  induction 1 as [|a l Hs IH Hf]; intros i j Hij Hj; cbn in Hj; [lia|].
  destruct j as [|j]; [lia|]. destruct i as [|i]; cbn [nth].
  - rewrite Forall_forall in Hf. apply Hf. apply nth_In. lia.
  - apply IH; lia.
Qed.

Lemma argsort_length n key : length (argsort n key) = n.
Proof. rewrite (Permutation_length (argsort_perm n key)). apply seq_length. Qed.

(** sums under reordering *)
Definition lsum (l : list R) : R := fold_right Rplus 0 l.
Lemma lsum_perm l l' : Permutation l l' -> lsum l = lsum l'.
Proof. induction 1; [reflexivity|cbn; unfold lsum in *; lra|cbn; lra|congruence]. Qed.
Lemma lsum_app l l' : lsum (l ++ l') = lsum l + lsum l'.
Proof. induction l as [|a l IH]; cbn [app lsum fold_right]; [unfold lsum; cbn; ring|]. fold (lsum (l ++ l')) (lsum l). rewrite IH. ring. Qed.
Lemma rsum_lsum n f : rsum n f = lsum (map f (seq 0 n)).
Proof.
  induction n as [|n IH]; [reflexivity|]. rewrite seq_S, map_app, lsum_app. cbn. rewrite IH. ring.
Qed.
Lemma nth_seq_map (f : nat -> R) (p : list nat) : map f p = map (fun i => f (nth i p 0%nat)) (seq 0 (length p)).
Proof.
  induction p as [|a p IH]; [reflexivity|]. cbn [length seq map nth]. f_equal. rewrite IH.
  rewrite <- seq_shift, map_map. reflexivity.
Qed.
Lemma rsum_reorder n f p : Permutation p (seq 0 n) -> rsum n (fun i => f (nth i p 0%nat)) = rsum n f.
Proof.
  intros H. rewrite !rsum_lsum. rewrite <- (lsum_perm _ _ (Permutation_map f H)). rewrite (nth_seq_map f p).
  rewrite (Permutation_length H), seq_length. reflexivity.
Qed.

(** ** C51 *)
Lemma angular_weights (lg : nat -> vec * vec) n bc : (0 < n)%nat -> rsum n (snd (lg n)) <> 0 ->
  match angular_x lg n bc with
  | Ok (x, w) =>
      rsum n w = 1 /\
      reordered n (fst (lg n)) (fun i => snd (lg n) i / rsum n (snd (lg n))) x w /\
      (bc = [1; 0]%nat -> forall i j, (i <= j)%nat -> (j < n)%nat -> x i <= x j) /\
      (bc = [0; 1]%nat -> forall i j, (i <= j)%nat -> (j < n)%nat -> x j <= x i)
  | Raise e => e = UnboundLocalError /\ (0 < list_sum bc)%nat /\ bc <> [1; 0]%nat /\ bc <> [0; 1]%nat
  end.
Proof.
  intros Hn Hw. unfold angular_x. destruct (Nat.eqb_spec n 0); [lia|].
  set (x := fst (lg n)). set (w := fun i => snd (lg n) i / rsum n (snd (lg n))).
  assert (W : rsum n w = 1) by (unfold w; rewrite rsum_div; field; exact Hw).
  assert (Mono : forall i j, (i <= j)%nat -> (j < n)%nat -> x (nth i (argsort n x) 0%nat) <= x (nth j (argsort n x) 0%nat)).
  { intros i j Hij Hj. destruct (Nat.eq_dec i j) as [-> |]; [lra|].
    apply (strongly_nth (fun a b => x a <= x b)); [apply argsort_sorted|lia|rewrite argsort_length; exact Hj]. }
  assert (Ident : reordered n x w x w).
  { exists (seq 0 n). split; [reflexivity|]. intros i Hi. rewrite seq_nth by exact Hi. split; reflexivity. }
  destruct (Nat.ltb_spec 0 (list_sum bc)) as [Hs|Hs].
  - assert (AscP : let idx := argsort n x in
      rsum n (take w idx) = 1 /\ reordered n x w (take x idx) (take w idx)).
    { cbn zeta. split; [unfold take; rewrite rsum_reorder by apply argsort_perm; exact W|].
      exists (argsort n x). split; [apply argsort_perm|]. intros i Hi. split; reflexivity. }
    assert (DscP : let idx := rev (argsort n x) in
      rsum n (take w idx) = 1 /\ reordered n x w (take x idx) (take w idx)).
    { cbn zeta. assert (Pm : Permutation (rev (argsort n x)) (seq 0 n))
        by (rewrite <- Permutation_rev; apply argsort_perm).
      split; [unfold take; rewrite rsum_reorder by exact Pm; exact W|].
      exists (rev (argsort n x)). split; [exact Pm|]. intros i Hi. split; reflexivity. }
    destruct bc as [|[|[|b0]] [|[|[|b1]] [|b2 bc]]]; cbn in Hs; try lia;
      try (split; [reflexivity|split; [cbn; lia|split; discriminate]]).
    + destruct DscP as [D1 D2]. split; [exact D1|split; [exact D2|split; [discriminate|intros _]]].
      intros i j Hij Hj. unfold take. rewrite !rev_nth by (rewrite argsort_length; lia). rewrite argsort_length.
      apply Mono; lia.
    + destruct AscP as [D1 D2]. split; [exact D1|split; [exact D2|split; [intros _|discriminate]]].
      intros i j Hij Hj. apply Mono; lia.
  - split; [exact W|split; [exact Ident|split]]; intros ->; cbn in Hs; lia.
Qed.

(** With the Gauss-Legendre pairs the result has the order the solver expects. *)
Lemma argsort_id n x : (forall i j, (i < j)%nat -> (j < n)%nat -> x i <= x j) -> argsort n x = seq 0 n.
Proof.
  unfold argsort. induction n as [|n IH]; intros H; [reflexivity|]. cbn [for_up]. rewrite IH by (intros; apply H; lia).
  rewrite seq_S. cbn [Nat.add].
  assert (K : forall l, (forall a, In a l -> x a <= x n) -> insert_by x n l = l ++ [n]).
  { induction l as [|a l IHl]; intros Hl; [reflexivity|]. cbn. destruct (Rle_dec _ _) as [L|L].
    - f_equal. apply IHl. intros b Hb. apply Hl. right. exact Hb.
    - exfalso. apply L. apply Hl. left. reflexivity. }
  apply K. intros a Ha. apply in_seq in Ha. apply H; lia.
Qed.

Lemma gauss_strict n x w : gauss_pairs n x w -> forall i j, (i < j)%nat -> (j < n)%nat -> x i < x j.
Proof.
  intros [H _] i j Hij. induction Hij as [|j Hij IH]; intros Hj.
  - specialize (H i ltac:(lia)). replace (S i) with (i + 1)%nat by lia. exact H.
  - specialize (IH ltac:(lia)). specialize (H j ltac:(lia)). replace (S j) with (j + 1)%nat by lia. lra.
Qed.

Lemma angular_solver_order (lg : nat -> vec * vec) h bl br :
  let n := (2 * h)%nat in (0 < h)%nat ->
  gauss_pairs n (fst (lg n)) (snd (lg n)) -> (bl + br <= 1)%nat ->
  exists x w, angular_x lg n [bl; br] = Ok (x, w) /\
    symmetric_quadrature n x /\ nonzero_ordinates n x /\ ordered_for n x bl br /\
    rsum n w = 1 /\ (forall i, (i < n)%nat -> 0 < w i /\ w (n - i - 1)%nat = w i).
Proof.
  intros n Hh HG Hb. set (x0 := fst (lg n)) in *. set (w0 := snd (lg n)) in *.
  pose proof (gauss_strict _ _ _ HG) as Hst. destruct HG as (_ & Hsym & Hpos).
  assert (Hsum : 0 < rsum n w0).
  { apply Rlt_le_trans with (rsum 1 w0).
    - cbn. specialize (Hpos 0%nat ltac:(unfold n; lia)). lra.
    - assert (K : forall k, (1 <= k)%nat -> (k <= n)%nat -> rsum 1 w0 <= rsum k w0).
      { induction k as [|k IH]; intros H1 H2; [lia|]. destruct (Nat.eq_dec k 0) as [-> |]; [lra|].
        cbn [rsum]. specialize (IH ltac:(lia) ltac:(lia)). specialize (Hpos k ltac:(lia)). cbn [rsum] in IH. lra. }
      apply K; unfold n; lia. }
  assert (Hnz : forall i, (i < n)%nat -> x0 i <> 0).
  { intros i Hi Z. destruct (Hsym i Hi) as [E _]. rewrite Z, Ropp_0 in E.
    destruct (Nat.lt_trichotomy i (n - i - 1)) as [L|[L|L]].
    - pose proof (Hst _ _ L ltac:(unfold n in *; lia)). lra.
    - unfold n in *. lia.
    - pose proof (Hst _ _ L Hi). lra. }
  assert (Hhalf : forall i, (i < n)%nat -> 0 < x0 i -> (n - i - 1 < i)%nat).
  { intros i Hi P. destruct (Hsym i Hi) as [E _]. destruct (lt_dec (n - i - 1) i) as [L|L]; [exact L|].
    destruct (Nat.eq_dec i (n - i - 1)) as [Q|Q]; [unfold n in *; lia|].
    pose proof (Hst i (n - i - 1)%nat ltac:(lia) ltac:(lia)). lra. }
  set (w := fun i => w0 i / rsum n w0).
  assert (W : rsum n w = 1) by (unfold w; rewrite rsum_div; field; lra).
  assert (Wp : forall i, (i < n)%nat -> 0 < w i /\ w (n - i - 1)%nat = w i).
  { intros i Hi. unfold w. split; [apply Rdiv_lt_0_compat; [apply Hpos; exact Hi|exact Hsum]|].
    destruct (Hsym i Hi) as [_ E]. rewrite E. reflexivity. }
  assert (Sort : argsort n x0 = seq 0 n).
  { apply argsort_id. intros i j Hij Hj. left. apply Hst; assumption. }
  assert (Hne : Nat.eqb n 0 = false) by (apply Nat.eqb_neq; unfold n; lia).
  assert (Hs0 : symmetric_quadrature n x0) by (intros m Hm; apply Hsym; exact Hm).
  destruct bl as [|[|bl]], br as [|[|br]]; try lia.
  - exists x0, w. unfold angular_x. rewrite Hne. cbn. split; [reflexivity|].
    split; [exact Hs0|split; [exact Hnz|split; [|split; [exact W|exact Wp]]]].
    intros m Hm E. unfold enters_reflective in E. destruct (Rlt_dec 0 (x0 m)); discriminate.
  - exists (take x0 (rev (seq 0 n))), (take w (rev (seq 0 n))). unfold angular_x. rewrite Hne. cbn zeta. fold x0. rewrite Sort.
    cbn [list_sum fold_right Nat.add Nat.ltb Nat.leb]. split; [reflexivity|].
    assert (Nth : forall i, (i < n)%nat -> nth i (rev (seq 0 n)) 0%nat = (n - i - 1)%nat).
    { intros i Hi. rewrite rev_nth by (rewrite seq_length; exact Hi). rewrite seq_length, seq_nth by lia. lia. }
    split; [|split; [|split; [|split]]].
    + intros m Hm. unfold take. rewrite !Nth by (unfold n in *; lia).
      destruct (Hsym (n - m - 1)%nat ltac:(unfold n in *; lia)) as [E _]. exact E.
    + intros m Hm. unfold take. rewrite Nth by exact Hm. apply Hnz. unfold n in *; lia.
    + intros m Hm E. unfold enters_reflective, take in E. rewrite Nth in E by exact Hm.
      destruct (Rlt_dec 0 (x0 (n - m - 1)%nat)) as [L|L]; [discriminate|].
      assert (Hm' : (n - m - 1 < n)%nat) by lia. pose proof (Hnz _ Hm') as Z.
      destruct (Hsym m Hm) as [Em _]. assert (P : 0 < x0 m) by lra. apply Hhalf; assumption.
    + unfold take. rewrite rsum_reorder; [exact W|]. symmetry. apply Permutation_rev.
    + intros i Hi. unfold take. rewrite !Nth by lia. split; [apply Wp; lia|].
      destruct (Wp i Hi) as [_ E1]. rewrite E1. replace (n - (n - i - 1) - 1)%nat with i by lia. reflexivity.
  - exists (take x0 (seq 0 n)), (take w (seq 0 n)). unfold angular_x. rewrite Hne. cbn zeta. fold x0. rewrite Sort.
    cbn [list_sum fold_right Nat.add Nat.ltb Nat.leb]. split; [reflexivity|].
    assert (Nth : forall i, (i < n)%nat -> nth i (seq 0 n) 0%nat = i) by (intros i Hi; apply seq_nth; exact Hi).
    split; [|split; [|split; [|split]]].
    + intros m Hm. unfold take. rewrite !Nth by (unfold n in *; lia). apply Hs0. exact Hm.
    + intros m Hm. unfold take. rewrite Nth by exact Hm. apply Hnz. exact Hm.
    + intros m Hm E. unfold enters_reflective, take in E. rewrite Nth in E by exact Hm.
      destruct (Rlt_dec 0 (x0 m)) as [L|L]; [|discriminate]. apply Hhalf; assumption.
    + unfold take. rewrite rsum_reorder; [exact W|reflexivity].
    + intros i Hi. unfold take. rewrite !Nth by lia. apply Wp; exact Hi.
Qed.

(** An odd number of ordinates contains the ordinate 0. *)
Lemma odd_has_zero h x w : gauss_pairs (2 * h + 1) x w -> x h = 0.
Proof.
  intros (_ & Hs & _). destruct (Hs h ltac:(lia)) as [E _]. replace (2 * h + 1 - h - 1)%nat with h in E by lia. lra.
Qed.

(** ** C53 *)
Lemma insert_sorted_perm x l : Permutation (insert_sorted x l) (x :: l).
Proof. induction l as [|y l IH]; cbn; [reflexivity|]. destruct (Rle_dec _ _); [reflexivity|]. rewrite IH. apply perm_swap. Qed.
Lemma np_sort_perm l : Permutation (np_sort l) l.
Proof. induction l as [|x l IH]; cbn; [reflexivity|]. rewrite insert_sorted_perm, IH. reflexivity. Qed.
Lemma insert_sorted_sorted x l : StronglySorted Rle l -> StronglySorted Rle (insert_sorted x l).
Proof.
  induction l as [|y l IH]; intros H; cbn; [repeat constructor|]. inversion H as [|? ? Hs Hf]; subst.
  destruct (Rle_dec _ _) as [L|L].
  - constructor; [exact H|]. constructor; [exact L|]. eapply Forall_impl; [|exact Hf]. intros a Ha. lra.
  - constructor; [apply IH; exact Hs|]. apply (Permutation_Forall (Permutation_sym (insert_sorted_perm x l))).
    constructor; [lra|exact Hf].
Qed.
Lemma np_sort_sorted l : StronglySorted Rle (np_sort l).
Proof. induction l; cbn; [constructor|apply insert_sorted_sorted; assumption]. Qed.

Lemma sorted_unique l : forall l', StronglySorted Rle l -> StronglySorted Rle l' -> Permutation l l' -> l = l'.
Proof.
  induction l as [|a l IH]; intros l' H H' P.
  - symmetry. apply Permutation_nil. exact P.
  - destruct l' as [|b l']; [symmetry in P; apply Permutation_nil in P; discriminate|].
    inversion H as [|? ? Hs Hf]; inversion H' as [|? ? Hs' Hf']; subst.
    rewrite Forall_forall in Hf, Hf'.
    assert (a = b).
    { assert (In a (b :: l')) as [E|E] by (apply (Permutation_in _ P); left; reflexivity); [symmetry; exact E|].
      assert (In b (a :: l)) as [E'|E'] by (apply (Permutation_in _ (Permutation_sym P)); left; reflexivity); [exact E'|].
      specialize (Hf _ E'). specialize (Hf' _ E). lra. }
    subst b. f_equal. apply IH; [assumption|assumption|]. eapply Permutation_cons_inv. exact P.
Qed.

(** edges and intermediate points alternating *)
Fixpoint interleave (gamma : R) (l : list R) : list R :=
  match l with
  | a :: ((b :: _) as t) => a :: (a + (b - a) * gamma) :: interleave gamma t
  | _ => l
  end.

Lemma half_cons gamma a b t : half_steps gamma (a :: b :: t) = (a + (b - a) * gamma) :: half_steps gamma (b :: t).
Proof.
  cbn [half_steps]. destruct (Req_EM_T gamma 0.5) as [-> |]; [|reflexivity]. f_equal. lra.
Qed.

Lemma interleave_perm gamma l : Permutation (l ++ half_steps gamma l) (interleave gamma l).
Proof.
  induction l as [|a [|b t] IH]; [reflexivity|reflexivity|].
  rewrite half_cons. change (interleave gamma (a :: b :: t)) with (a :: (a + (b - a) * gamma) :: interleave gamma (b :: t)).
  rewrite <- IH. cbn [app]. apply perm_skip. symmetry.
  apply (Permutation_cons_app (b :: t)). reflexivity.
Qed.

Lemma interleave_head gamma b t : 0 <= gamma -> (forall i, (i < length t)%nat -> nth i (b :: t) 0 <= nth (i + 1) (b :: t) 0) ->
  Forall (Rle b) (interleave gamma (b :: t)).
Proof.
  intros Hg. revert b. induction t as [|c t IH]; intros b H; [repeat constructor; lra|].
  change (interleave gamma (b :: c :: t)) with (b :: (b + (c - b) * gamma) :: interleave gamma (c :: t)).
  assert (L : b <= c) by (specialize (H 0%nat ltac:(cbn; lia)); cbn in H; exact H).
  constructor; [lra|]. constructor; [nra|]. eapply Forall_impl; [|apply IH].
  - intros x Hx. cbn in Hx. lra.
  - intros i Hi. specialize (H (S i) ltac:(cbn; lia)). exact H.
Qed.

Lemma interleave_sorted gamma l : 0 <= gamma <= 1 -> ascending l -> StronglySorted Rle (interleave gamma l).
Proof.
  intros Hg. induction l as [|a [|b t] IH]; intros H; [constructor|repeat constructor|].
  change (interleave gamma (a :: b :: t)) with (a :: (a + (b - a) * gamma) :: interleave gamma (b :: t)).
  assert (L : a <= b) by (apply (H 0%nat 1%nat); cbn; lia).
  assert (Ht : ascending (b :: t)).
  { intros i j Hij Hj. apply (H (S i) (S j)); cbn in *; lia. }
  pose proof (interleave_head gamma b t ltac:(lra)) as HF.
  assert (Hn : forall i, (i < length t)%nat -> nth i (b :: t) 0 <= nth (i + 1) (b :: t) 0).
  { intros i Hi. apply Ht; [lia|cbn; lia]. }
  specialize (HF Hn). specialize (IH Ht).
  assert (a + (b - a) * gamma <= b) by nra. assert (a <= a + (b - a) * gamma) by nra.
  constructor; [constructor; [exact IH|]|].
  - eapply Forall_impl; [|exact HF]. intros x Hx. cbn in Hx. lra.
  - constructor; [assumption|]. eapply Forall_impl; [|exact HF]. intros x Hx. cbn in Hx. lra.
Qed.

Lemma interleave_nth gamma l : forall k,
  ((k < length l)%nat -> nth (2 * k) (interleave gamma l) 0 = nth k l 0) /\
  ((k + 1 < length l)%nat -> nth (2 * k + 1) (interleave gamma l) 0 = nth k l 0 + (nth (k + 1) l 0 - nth k l 0) * gamma).
Proof.
  induction l as [|a [|b t] IH]; intros k.
  - split; cbn; intros; lia.
  - split; cbn [length]; intros; [|lia]. replace k with 0%nat by lia. reflexivity.
  - change (interleave gamma (a :: b :: t)) with (a :: (a + (b - a) * gamma) :: interleave gamma (b :: t)).
    destruct k as [|k]; [split; reflexivity|].
    replace (2 * S k)%nat with (S (S (2 * k))) by lia. replace (S (S (2 * k)) + 1)%nat with (S (S (2 * k + 1))) by lia.
    replace (S k + 1)%nat with (S (k + 1)) by lia. destruct (IH k) as [I1 I2].
    split; intros Hk; cbn [nth]; [apply I1|apply I2]; cbn [length] in *; lia.
Qed.
Lemma interleave_length gamma l : length (interleave gamma l) = (2 * length l - 1)%nat.
Proof.
  induction l as [|a [|b t] IH]; [reflexivity|reflexivity|].
  change (interleave gamma (a :: b :: t)) with (a :: (a + (b - a) * gamma) :: interleave gamma (b :: t)).
  cbn [length] in *. lia.
Qed.

Lemma list_set_nth l k v j d : nth j (list_set l k v) d = if andb (Nat.eqb j k) (Nat.ltb k (length l)) then v else nth j l d.
Proof.
  revert k j. induction l as [|a l IH]; intros k j.
  - replace (list_set [] k v) with (@nil R) by (destruct k; reflexivity). cbn [length]. rewrite andb_false_r. reflexivity.
  - destruct k as [|k]; cbn [list_set].
    + destruct j; reflexivity.
    + destruct j as [|j]; [reflexivity|]. cbn [nth]. rewrite IH. cbn. reflexivity.
Qed.
Lemma list_set_length l k v : length (list_set l k v) = length l.
Proof. revert k. induction l as [|a l IH]; intros [|k]; cbn; [reflexivity..|]. rewrite IH. reflexivity. Qed.

Lemma time_grid edges gamma half : ascending edges -> 0 <= gamma <= 1 -> (2 <= length edges)%nat ->
  exists grid, gamma_time_steps edges gamma half = Ok grid /\
    length grid = (2 * length edges - 1)%nat /\ ascending grid /\
    (forall k, (k < length edges)%nat -> nth (2 * k) grid 0 = nth k edges 0) /\
    (forall k, (k + 1 < length edges)%nat ->
       nth (2 * k + 1) grid 0 =
         nth k edges 0 + (if andb half (Nat.eqb k 0) then 1 / 2 else gamma) * (nth (k + 1) edges 0 - nth k edges 0)).
Proof.
  intros HA Hg Hl.
  assert (E : np_sort (edges ++ half_steps gamma edges) = interleave gamma edges).
  { apply sorted_unique; [apply np_sort_sorted|apply interleave_sorted; assumption|].
    rewrite np_sort_perm. apply interleave_perm. }
  unfold gamma_time_steps. rewrite E. pose proof (interleave_length gamma edges) as IL.
  pose proof (interleave_nth gamma edges) as IN.
  assert (Asc : forall grid, length grid = (2 * length edges - 1)%nat ->
    (forall k, (k < length edges)%nat -> nth (2 * k) grid 0 = nth k edges 0) ->
    (forall k, (k + 1 < length edges)%nat -> nth k edges 0 <= nth (2 * k + 1) grid 0 <= nth (k + 1) edges 0) ->
    ascending grid).
  { intros grid GL G0 G1.
    assert (Step : forall i, (i + 1 < length grid)%nat -> nth i grid 0 <= nth (i + 1) grid 0).
    { intros i Hi. destruct (Nat.Even_or_Odd i) as [[k ->]|[k ->]].
      - rewrite G0 by lia. apply G1. lia.
      - replace (2 * k + 1 + 1)%nat with (2 * (k + 1))%nat by lia. rewrite G0 by lia. apply G1. lia. }
    intros i j Hij. induction Hij as [|j Hij IH]; intros Hj; [lra|].
    specialize (IH ltac:(lia)). specialize (Step j ltac:(lia)). replace (j + 1)%nat with (S j) in Step by lia. lra. }
  destruct half.
  - rewrite IL. destruct (Nat.ltb_spec (2 * length edges - 1) 3) as [L|L]; [lia|].
    set (grid := list_set _ 1 _). exists grid. split; [reflexivity|].
    assert (GL : length grid = (2 * length edges - 1)%nat) by (unfold grid; rewrite list_set_length; exact IL).
    assert (G0 : forall k, (k < length edges)%nat -> nth (2 * k) grid 0 = nth k edges 0).
    { intros k Hk. unfold grid. rewrite list_set_nth. destruct (Nat.eqb_spec (2 * k) 1); [lia|]. cbn [andb]. apply IN. exact Hk. }
    assert (G1 : forall k, (k + 1 < length edges)%nat ->
       nth (2 * k + 1) grid 0 = nth k edges 0 + (if andb true (Nat.eqb k 0) then 1 / 2 else gamma) * (nth (k + 1) edges 0 - nth k edges 0)).
    { intros k Hk. unfold grid. rewrite list_set_nth, IL. destruct (Nat.eqb_spec k 0) as [-> |Hk0].
      - cbn [Nat.mul Nat.add Nat.eqb andb]. rewrite (proj2 (Nat.ltb_lt 1 _)) by lia.
        destruct (IN 0%nat) as [A _]. destruct (IN 1%nat) as [B _]. cbn [Nat.mul Nat.add] in A, B.
        rewrite A, B by lia. lra.
      - destruct (Nat.eqb_spec (2 * k + 1) 1); [lia|]. cbn [andb]. destruct (IN k) as [_ B]. rewrite B by exact Hk. ring. }
    split; [exact GL|split; [|split; [exact G0|exact G1]]]. apply Asc; [exact GL|exact G0|].
    intros k Hk. rewrite G1 by exact Hk. assert (nth k edges 0 <= nth (k + 1) edges 0) by (apply HA; lia).
    destruct (andb true (Nat.eqb k 0)); nra.
  - exists (interleave gamma edges). split; [reflexivity|]. split; [exact IL|].
    assert (G1 : forall k, (k + 1 < length edges)%nat ->
       nth (2 * k + 1) (interleave gamma edges) 0 = nth k edges 0 + (if andb false (Nat.eqb k 0) then 1 / 2 else gamma) * (nth (k + 1) edges 0 - nth k edges 0)).
    { intros k Hk. cbn [andb]. destruct (IN k) as [_ B]. rewrite B by exact Hk. ring. }
    split; [|split; [intros k Hk; apply IN; exact Hk|exact G1]].
    apply Asc; [exact IL|intros k Hk; apply IN; exact Hk|]. intros k Hk. rewrite G1 by exact Hk. cbn [andb].
    assert (nth k edges 0 <= nth (k + 1) edges 0) by (apply HA; lia). nra.
Qed.

Lemma time_grid_short edges gamma : (length edges <= 1)%nat -> gamma_time_steps edges gamma true = Raise IndexError.
Proof.
  intros H. destruct edges as [|a [|b t]]; [reflexivity|reflexivity|cbn in H; lia].
Qed.

(** ** C57 *)
Lemma legendre_table nm x : (0 < nm)%nat -> exists P, legendre_polynomials nm x = Ok P /\
  (forall n, P 0%nat n = 1) /\
  ((1 < nm)%nat -> forall n, P 1%nat n = x n) /\
  (forall l n, (l + 2 < nm)%nat ->
     INR (l + 2) * P (l + 2)%nat n = (2 * INR (l + 1) + 1) * x n * P (l + 1)%nat n - INR (l + 1) * P l n).
Proof.
  intros Hn. unfold legendre_polynomials. destruct (Nat.eqb_spec nm 0); [lia|].
  destruct (Nat.eqb_spec nm 1) as [-> |H1].
  - eexists. split; [reflexivity|]. split; [reflexivity|split; [intros; lia|intros; lia]].
  - eexists. split; [reflexivity|].
    match goal with |- context [for_up _ ?B ?S] => set (body := B); set (p1 := S) end.
    assert (K : forall k, let P := for_up k body p1 in
      (forall n, P 0%nat n = 1) /\ (forall n, P 1%nat n = x n) /\
      (forall l n, (l < k)%nat ->
        INR (l + 2) * P (l + 2)%nat n = (2 * INR (l + 1) + 1) * x n * P (l + 1)%nat n - INR (l + 1) * P l n)).
    { induction k as [|k (I0 & I1 & I2)]; intros P; unfold P; clear P; cbn [for_up].
      - split; [reflexivity|split; [reflexivity|intros; lia]].
      - set (Q := for_up k body p1) in *. clearbody Q.
        assert (Same : forall l n, l <> (k + 2)%nat -> body k Q l n = Q l n).
        { intros l n' Hl. unfold body. destruct (Nat.eqb_spec l (k + 2)); [contradiction|reflexivity]. }
        split; [intros; rewrite Same by lia; apply I0|]. split; [intros; rewrite Same by lia; apply I1|].
        intros l n' Hl. rewrite (Same (l + 1)%nat), (Same l) by lia.
        destruct (Nat.eq_dec l k) as [-> |Hne]; [|rewrite Same by lia; apply I2; lia].
        unfold body. rewrite Nat.eqb_refl. replace (k + 2 - 1)%nat with (k + 1)%nat by lia.
        replace (k + 2 - 2)%nat with k by lia. replace (k + 2)%nat with (S (k + 1)) by lia. rewrite S_INR.
        pose proof (pos_INR (k + 1)). field. lra. }
    destruct (K (nm - 2)%nat) as (K0 & K1 & K2). split; [exact K0|split; [intros _; exact K1|]].
    intros l n' Hl. apply K2. lia.
Qed.

Lemma legendre_none x : legendre_polynomials 0 x = Raise IndexError.
Proof. reflexivity. Qed.

Lemma two_step (Q : nat -> Prop) : Q 0%nat -> Q 1%nat -> (forall l, Q l -> Q (l + 1)%nat -> Q (l + 2)%nat) -> forall l, Q l.
Proof.
  intros H0 H1 H2 l. assert (Q l /\ Q (l + 1)%nat) as [H _]; [|exact H].
  induction l as [|l [A B]]; [split; assumption|]. split.
  - replace (S l) with (l + 1)%nat by lia. exact B.
  - replace (S l + 1)%nat with (l + 2)%nat by lia. apply H2; assumption.
Qed.

(** Values at 1 and parity. *)
Lemma legendre_values nm x y P Q : legendre_polynomials nm x = Ok P -> legendre_polynomials nm y = Ok Q ->
  forall l n, (l < nm)%nat ->
    (x n = 1 -> P l n = 1) /\
    (forall m, y m = - x n -> Q l m = (-1) ^ l * P l n) /\
    (forall m, y m = x n -> Q l m = P l n).
Proof.
  intros EP EQ l n Hl.
  destruct (legendre_table nm x ltac:(lia)) as (P' & E1 & P0 & P1 & P2). rewrite EP in E1. injection E1 as <-.
  destruct (legendre_table nm y ltac:(lia)) as (Q' & E2 & Q0 & Q1 & Q2). rewrite EQ in E2. injection E2 as <-.
  assert (Step : forall l, INR (l + 2) = INR (l + 1) + 1 /\ 0 < INR (l + 2)).
  { intros k. replace (k + 2)%nat with (S (k + 1)) by lia. rewrite S_INR. pose proof (pos_INR (k + 1)). lra. }
  revert Hl. pattern l. apply two_step; clear l.
  - intros _. split; [intros _; apply P0|split]; intros m E; rewrite Q0, P0; cbn; ring.
  - intros H. split; [intros E; rewrite P1 by lia; exact E|split]; intros m E; rewrite Q1, P1, E by lia; cbn; ring.
  - intros l IH IH' Hl. destruct (IH ltac:(lia)) as (A1 & A2 & A3). destruct (IH' ltac:(lia)) as (B1 & B2 & B3).
    clear IH IH'. specialize (P2 l n Hl). destruct (Step l) as [S1 S2]. split; [|split].
    + intros E. specialize (A1 E). specialize (B1 E). rewrite E, A1, B1 in P2.
      apply Rmult_eq_reg_l with (INR (l + 2)); [|lra]. lra.
    + intros m E. specialize (A2 m E). specialize (B2 m E). specialize (Q2 l m Hl). rewrite E, A2, B2 in Q2.
      apply Rmult_eq_reg_l with (INR (l + 2)); [|lra]. rewrite Q2.
      replace ((-1) ^ (l + 2)) with ((-1) ^ l) by (rewrite pow_add; cbn; ring).
      replace ((-1) ^ (l + 1)) with (- (-1) ^ l) by (rewrite pow_add; cbn; ring).
      replace (INR (l + 2) * ((-1) ^ l * P (l + 2)%nat n)) with ((-1) ^ l * (INR (l + 2) * P (l + 2)%nat n)) by ring.
      rewrite P2. ring.
    + intros m E. specialize (A3 m E). specialize (B3 m E). specialize (Q2 l m Hl). rewrite E, A3, B3 in Q2.
      apply Rmult_eq_reg_l with (INR (l + 2)); [|lra]. rewrite Q2, P2. reflexivity.
Qed.

(** On a symmetric quadrature every odd moment of 1 vanishes. *)
Lemma rsum_rev n f : rsum n (fun i => f (n - i - 1)%nat) = rsum n f.
Proof.
  rewrite <- (rsum_reorder n f (rev (seq 0 n))) by (symmetry; apply Permutation_rev).
  apply rsum_ext. intros i Hi. rewrite rev_nth by (rewrite seq_length; exact Hi).
  rewrite seq_length, seq_nth by lia. f_equal. lia.
Qed.

Lemma pow_neg_odd k : (-1) ^ (2 * k + 1) = -1.
Proof. rewrite pow_add, pow_mult. replace ((-1) ^ 2) with 1 by ring. rewrite pow1. ring. Qed.

Lemma odd_moments_vanish nm angles x w P : legendre_polynomials nm x = Ok P ->
  symmetric_quadrature angles x -> (forall m, (m < angles)%nat -> w (angles - m - 1)%nat = w m) ->
  forall k, (2 * k + 1 < nm)%nat -> rsum angles (fun m => w m * P (2 * k + 1)%nat m) = 0.
Proof.
  intros EP Hs Hw k Hk.
  assert (E : rsum angles (fun m => w m * P (2 * k + 1)%nat m) = - rsum angles (fun m => w m * P (2 * k + 1)%nat m)); [|lra].
  rewrite <- (rsum_rev angles (fun m => w m * P (2 * k + 1)%nat m)) at 1.
  replace (- rsum angles (fun m => w m * P (2 * k + 1)%nat m)) with (-1 * rsum angles (fun m => w m * P (2 * k + 1)%nat m)) by ring.
  rewrite <- rsum_scal. apply rsum_ext. intros m Hm. rewrite Hw by exact Hm.
  destruct (legendre_values nm x x P P EP EP (2 * k + 1)%nat m Hk) as (_ & B & _).
  rewrite (B (angles - m - 1)%nat (Hs m Hm)), pow_neg_odd. ring.
Qed.

(** ** C82 *)
Lemma energy_grid_computed stock table grid fine coarse n edges : known_grid grid = true ->
  stock grid = (n, edges) -> (1 <= coarse <= fine)%nat -> (fine <= n)%nat ->
  exists idxf idxc : nat -> nat, energy_grid stock table grid fine (Some coarse) false = Ok (edges, idxf, Some idxc) /\
    partition n fine idxf /\ partition fine coarse idxc /\
    energy_grid stock table grid fine None false = Ok (edges, idxf, None).
Proof.
  intros Hk Hs Hc Hf. unfold energy_grid. rewrite Hk, Hs. unfold grid_index.
  destruct (coarse_index_partition n fine ltac:(lia)) as (idxf & Ef & Pf & _).
  destruct (coarse_index_partition fine coarse ltac:(lia)) as (idxc & Ec & Pc & _).
  exists idxf, idxc. destruct (table grid fine), (table grid coarse); rewrite ?Ef, ?Ec; cbn [bind]; rewrite ?Ec; cbn [bind];
    (split; [reflexivity|split; [exact Pf|split; [exact Pc|reflexivity]]]).
Qed.

Lemma energy_grid_unknown stock table grid fine coarse optimize :
  (known_grid grid = true <-> In grid [87; 361; 618]%nat) /\
  (known_grid grid = false -> energy_grid stock table grid fine coarse optimize = Raise UnboundLocalError).
Proof.
  split.
  - unfold known_grid. rewrite !orb_true_iff, !Nat.eqb_eq. cbn. intuition lia.
  - intros H. unfold energy_grid. rewrite H. reflexivity.
Qed.

(** With the packaged tables (cuts of the stock grid) the coarse index cuts the stock grid too, so
    for fewer fine groups than the stock grid has it is not a cut of the fine groups. *)
Lemma energy_grid_table_refuted stock table grid fine coarse n edges idxf idxc :
  known_grid grid = true -> stock grid = (n, edges) ->
  table grid fine = Some idxf -> table grid coarse = Some idxc ->
  partition n fine idxf -> partition n coarse idxc -> (fine < n)%nat ->
  energy_grid stock table grid fine (Some coarse) true = Ok (edges, idxf, Some idxc) /\
  ~ partition fine coarse idxc.
Proof.
  intros Hk Hs Tf Tc Pf Pc Hlt. unfold energy_grid. rewrite Hk, Hs. unfold grid_index. rewrite Tf, Tc. cbn [bind].
  split; [reflexivity|]. intros (_ & E & _). destruct Pc as (_ & E' & _). lia.
Qed.
Lemma grid_change_tables stock table grid fine coarse n edges idxf idxc :
  known_grid grid = true -> stock grid = (n, edges) ->
  table grid fine = Some idxf -> table grid coarse = Some idxc ->
  partition n fine idxf -> partition n coarse idxc -> (fine < n)%nat ->
  exists ci factor, energy_grid_change stock table grid fine coarse = Ok (ci, factor, idxc, edges) /\ ~ partition fine coarse idxc.
Proof.
  intros Hk Hs Tf Tc Pf Pc Hlt.
  destruct (energy_grid_table_refuted stock table grid fine coarse n edges idxf idxc Hk Hs Tf Tc Pf Pc Hlt) as (E & N).
  unfold energy_grid_change. rewrite E. cbn [bind]. do 2 eexists. split; [reflexivity|exact N].
Qed.
Lemma grid_change_computed stock table grid fine coarse n edges : known_grid grid = true -> stock grid = (n, edges) ->
  table grid fine = None -> table grid coarse = None -> (1 <= coarse <= fine)%nat -> (fine <= n)%nat ->
  exists ci factor idxc, energy_grid_change stock table grid fine coarse = Ok (ci, factor, idxc, edges) /\ partition fine coarse idxc.
Proof.
  intros Hk Hs Tf Tc Hc Hf.
  destruct (energy_grid_computed stock table grid fine coarse n edges Hk Hs Hc Hf) as (idxf & idxc & E & _ & P & _).
  assert (E2 : energy_grid stock table grid fine (Some coarse) true = Ok (edges, idxf, Some idxc)).
  { rewrite <- E. unfold energy_grid. rewrite Hk, Hs. unfold grid_index. rewrite Tf, Tc. reflexivity. }
  unfold energy_grid_change. rewrite E2. cbn [bind]. do 3 eexists. split; [reflexivity|exact P].
Qed.
