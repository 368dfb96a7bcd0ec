(** C97, C98: Reed's source and the AmBe source. *)
From Coq Require Import ZArith Lra Lia Reals String.
From Verif Require Import Base BaseFacts SrcModel SrcSpec SrcFacts SrcFacts3.
Open Scope R_scope.

Lemma increasing_le n f i j : increasing n f -> (i <= j)%nat -> (j < n)%nat -> f i <= f j.
Proof. intros H L J. destruct (Nat.eq_dec i j) as [-> |N]; [lra|]. left. apply H; lia. Qed.

(** *** locating an edge *)
Lemma filter_seq_single (p : nat -> bool) n i : (i < n)%nat -> p i = true -> (forall j, (j < n)%nat -> p j = true -> j = i) ->
  filter p (seq 0 n) = [i].
Proof.
  intros H P U. assert (Z : forall l, (forall j, In j l -> p j = false) -> filter p l = []).
  { induction l as [|x l IH]; intros Hl; [reflexivity|]. cbn [filter]. rewrite (Hl x) by now left. apply IH. intros j Hj. apply Hl. now right. }
  replace n with (i + S (n - S i))%nat by lia. rewrite seq_app, filter_app. cbn [seq filter]. replace (0 + i)%nat with i by lia. rewrite P.
  rewrite (Z (seq 0 i)), (Z (seq (S i) (n - S i))); [reflexivity| |]; intros j Hj; apply in_seq in Hj;
    destruct (p j) eqn:E; try reflexivity; specialize (U j ltac:(lia) E); lia.
Qed.
Lemma edge_at_ok edges edges_x i : increasing edges edges_x -> (i < edges)%nat -> edge_at edges edges_x (edges_x i) = Ok i.
Proof.
  intros Hi H. unfold edge_at, matches. rewrite (filter_seq_single _ edges i H); [reflexivity| |].
  - destruct (Req_EM_T (edges_x i) (edges_x i)); [reflexivity|contradiction].
  - intros j Hj. destruct (Req_EM_T (edges_x j) (edges_x i)) as [E|]; [|discriminate]. intros _.
    destruct (lt_eq_lt_dec i j) as [[L|L]|L]; [|lia|]; [pose proof (Hi i j L Hj)|pose proof (Hi j i L H)]; lra.
Qed.
Lemma edge_at_missing edges edges_x x : (forall i, (i < edges)%nat -> edges_x i <> x) -> edge_at edges edges_x x = Raise TypeError.
Proof.
  intros H. unfold edge_at, matches. replace (filter _ (seq 0 edges)) with (@nil nat); [reflexivity|].
  assert (Z : forall l, (forall i, In i l -> edges_x i <> x) -> [] = filter (fun k => if Req_EM_T (edges_x k) x then true else false) l).
  { induction l as [|y l IH]; intros Hl; [reflexivity|]. cbn [filter]. destruct (Req_EM_T (edges_x y) x) as [E|]; [now destruct (Hl y (or_introl eq_refl))|]. apply IH. intros i Hin. apply Hl. now right. }
  apply Z. intros i Hin. apply in_seq in Hin. apply H. lia.
Qed.
Lemma edge_at_twice edges edges_x x i j : (i < j)%nat -> (j < edges)%nat -> edges_x i = x -> edges_x j = x -> edge_at edges edges_x x = Raise TypeError.
Proof.
  intros L H Ei Ej. unfold edge_at. assert (N : (2 <= length (matches edges edges_x x))%nat).
  { unfold matches. replace edges with (j + S (edges - S j))%nat by lia. rewrite seq_app, filter_app, app_length. cbn [seq filter].
    replace (0 + j)%nat with j by lia. destruct (Req_EM_T (edges_x j) x); [|contradiction]. cbn [length].
    assert (I : In i (filter (fun k => if Req_EM_T (edges_x k) x then true else false) (seq 0 j))).
    { apply filter_In. split; [apply in_seq; lia|]. destruct (Req_EM_T (edges_x i) x); [reflexivity|contradiction]. }
    destruct (filter _ (seq 0 j)) as [|? ?]; [destruct I|]. cbn [length]. lia. }
  destruct (matches edges edges_x x) as [|? [|? ?]]; cbn [length] in N; try lia; reflexivity.
Qed.
Lemma edge_at_type_error edges edges_x x e : edge_at edges edges_x x = Raise e -> e = TypeError.
Proof. unfold edge_at. destruct (matches edges edges_x x) as [|? [|? ?]]; intros E; try discriminate; now injection E as <-. Qed.

(** *** Reed *)
Lemma regions_of bc L off : reeds_domain bc L off ->
  (L = 16 /\ off = 0 /\ reeds_regions bc = [(0, 2, 0); (2, 4, 1); (4, 6, 0); (6, 8, 50); (8, 10, 50); (10, 12, 0); (12, 14, 1); (14, 16, 0)]) \/
  (L = 8 /\ off = 0 /\ reeds_regions bc = [(0 - 0, 2 - 0, 0); (2 - 0, 4 - 0, 1); (4 - 0, 6 - 0, 0); (6 - 0, 8 - 0, 50)]) \/
  (L = 8 /\ off = 8 /\ reeds_regions bc = [(8 - 8, 10 - 8, 50); (10 - 8, 12 - 8, 0); (12 - 8, 14 - 8, 1); (14 - 8, 16 - 8, 0)]).
Proof.
  intros D. destruct D as [a b H| |a b H N]; unfold reeds_regions; cbn [fst snd].
  - left. destruct (Z.ltb_spec 0 (a + b)); [lia|]. auto.
  - right. left. cbn. auto.
  - right. right. destruct (Z.ltb_spec 0 (a + b)); [|lia]. destruct (Z.eqb_spec a 0), (Z.eqb_spec b 1); cbn [andb map skipn]; auto. subst. now destruct N.
Qed.

Lemma interface edges edges_x L k : has_interfaces edges edges_x L -> 2 * INR k <= L -> increasing edges edges_x ->
  exists i, (i < edges)%nat /\ edges_x i = 2 * INR k /\ edge_at edges edges_x (2 * INR k) = Ok i.
Proof. intros H Hk Hi. destruct (H k Hk) as (i & A & B). exists i. split; [exact A|]. split; [exact B|]. rewrite <- B. now apply edge_at_ok. Qed.

Ltac inter k v name :=
  match goal with Hh : has_interfaces ?e ?x ?L, Hinc : increasing ?e ?x |- _ =>
    let I := fresh "I" in let A := fresh "A" in let B := fresh "B" in let C := fresh "C" in
    assert (I : exists i, (i < e)%nat /\ x i = v /\ edge_at e x v = Ok i);
    [ replace v with (2 * INR k) by (cbn [INR]; lra); apply (interface e x L k Hh); [cbn [INR]; lra|exact Hinc]
    | destruct I as (name & A & B & C)] end.

Lemma reeds_values edges edges_x bc L off : increasing edges edges_x -> reeds_domain bc L off -> has_interfaces edges edges_x L ->
  exists ext, reeds edges edges_x bc = Ok ext /\
    forall i x, (S i < edges)%nat -> edges_x i < x < edges_x (S i) ->
      ext i = if Rlt_dec x 0 then 0 else if Rlt_dec x L then reeds_density (x + off) else 0.
Proof.
  intros Hi D Hh.
  assert (E0 : Nat.eqb edges 0 = false).
  { destruct (Hh 0%nat) as (i & H & _); [cbn [INR]; destruct D; lra|]. apply Nat.eqb_neq. lia. }
  assert (LO : forall i p x, (S i < edges)%nat -> (p < edges)%nat -> edges_x i < x < edges_x (S i) ->
    (Nat.leb p i = true /\ Nat.ltb i p = false /\ edges_x p < x) \/ (Nat.leb p i = false /\ Nat.ltb i p = true /\ x < edges_x p)).
  { intros i p x H1 H2 H3. destruct (le_lt_dec p i) as [N|N].
    - left. split; [now apply Nat.leb_le|]. split; [now apply Nat.ltb_ge|]. pose proof (increasing_le _ _ p i Hi N ltac:(lia)). lra.
    - right. split; [now apply Nat.leb_gt|]. split; [now apply Nat.ltb_lt|]. pose proof (increasing_le _ _ (S i) p Hi ltac:(lia) H2). lra. }
  unfold reeds. rewrite E0.
  destruct (regions_of bc L off D) as [(-> & -> & ->)|[(-> & -> & ->)|(-> & -> & ->)]].
  - inter 0%nat 0 p0. inter 1%nat 2 p1. inter 2%nat 4 p2. inter 3%nat 6 p3. inter 4%nat 8 p4. inter 5%nat 10 p5. inter 6%nat 12 p6. inter 7%nat 14 p7. inter 8%nat 16 p8.
    assert (Q : reeds_bounds edges edges_x [(0, 2, 0); (2, 4, 1); (4, 6, 0); (6, 8, 50); (8, 10, 50); (10, 12, 0); (12, 14, 1); (14, 16, 0)] =
      Ok [(p0, p1, 0); (p1, p2, 1); (p2, p3, 0); (p3, p4, 50); (p4, p5, 50); (p5, p6, 0); (p6, p7, 1); (p7, p8, 0)]).
    { cbn [reeds_bounds].
rewrite C, C0, C1, C2, C3, C4, C5, C6, C7. cbn [bind]. reflexivity. }
    rewrite Q. cbn [bind]. eexists. split; [reflexivity|]. intros i x Hc Hx. cbn [fold_left].
    assert (LT : Nat.ltb i (edges - 1) = true) by (apply Nat.ltb_lt; lia). rewrite LT.
    destruct (LO i p0 x Hc A Hx) as [(U0 & V0 & X0)|(U0 & V0 & X0)]; rewrite ?U0, ?V0;
    destruct (LO i p1 x Hc A0 Hx) as [(U1 & V1 & X1)|(U1 & V1 & X1)]; rewrite ?U1, ?V1; try lra;
    destruct (LO i p2 x Hc A1 Hx) as [(U2 & V2 & X2)|(U2 & V2 & X2)]; rewrite ?U2, ?V2; try lra;
    destruct (LO i p3 x Hc A2 Hx) as [(U3 & V3 & X3)|(U3 & V3 & X3)]; rewrite ?U3, ?V3; try lra;
    destruct (LO i p4 x Hc A3 Hx) as [(U4 & V4 & X4)|(U4 & V4 & X4)]; rewrite ?U4, ?V4; try lra;
    destruct (LO i p5 x Hc A4 Hx) as [(U5 & V5 & X5)|(U5 & V5 & X5)]; rewrite ?U5, ?V5; try lra;
    destruct (LO i p6 x Hc A5 Hx) as [(U6 & V6 & X6)|(U6 & V6 & X6)]; rewrite ?U6, ?V6; try lra;
    destruct (LO i p7 x Hc A6 Hx) as [(U7 & V7 & X7)|(U7 & V7 & X7)]; rewrite ?U7, ?V7; try lra;
    destruct (LO i p8 x Hc A7 Hx) as [(U8 & V8 & X8)|(U8 & V8 & X8)]; rewrite ?U8, ?V8; try lra;
    cbn [andb]; unfold reeds_density, zeros; rewrite ?Rplus_0_r;
    repeat match goal with |- context [Rlt_dec ?a ?b] => destruct (Rlt_dec a b); [first [lra|idtac]|first [lra|idtac]] end; lra.
  - inter 0%nat 0 p0. inter 1%nat 2 p1. inter 2%nat 4 p2. inter 3%nat 6 p3. inter 4%nat 8 p4.
    assert (Q : reeds_bounds edges edges_x [(0 - 0, 2 - 0, 0); (2 - 0, 4 - 0, 1); (4 - 0, 6 - 0, 0); (6 - 0, 8 - 0, 50)] =
      Ok [(p0, p1, 0); (p1, p2, 1); (p2, p3, 0); (p3, p4, 50)]).
    { cbn [reeds_bounds].
      replace (0 - 0) with 0 by lra. replace (2 - 0) with 2 by lra. replace (4 - 0) with 4 by lra.
      replace (6 - 0) with 6 by lra. replace (8 - 0) with 8 by lra.
      rewrite C, C0, C1, C2, C3. cbn [bind]. reflexivity. }
    rewrite Q. cbn [bind]. eexists. split; [reflexivity|]. intros i x Hc Hx. cbn [fold_left].
    assert (LT : Nat.ltb i (edges - 1) = true) by (apply Nat.ltb_lt; lia). rewrite LT.
    destruct (LO i p0 x Hc A Hx) as [(U0 & V0 & X0)|(U0 & V0 & X0)]; rewrite ?U0, ?V0;
    destruct (LO i p1 x Hc A0 Hx) as [(U1 & V1 & X1)|(U1 & V1 & X1)]; rewrite ?U1, ?V1; try lra;
    destruct (LO i p2 x Hc A1 Hx) as [(U2 & V2 & X2)|(U2 & V2 & X2)]; rewrite ?U2, ?V2; try lra;
    destruct (LO i p3 x Hc A2 Hx) as [(U3 & V3 & X3)|(U3 & V3 & X3)]; rewrite ?U3, ?V3; try lra;
    destruct (LO i p4 x Hc A3 Hx) as [(U4 & V4 & X4)|(U4 & V4 & X4)]; rewrite ?U4, ?V4; try lra;
    cbn [andb]; unfold reeds_density, zeros; rewrite ?Rplus_0_r;
    repeat match goal with |- context [Rlt_dec ?a ?b] => destruct (Rlt_dec a b); [first [lra|idtac]|first [lra|idtac]] end; lra.
  - inter 0%nat 0 p0. inter 1%nat 2 p1. inter 2%nat 4 p2. inter 3%nat 6 p3. inter 4%nat 8 p4.
    assert (Q : reeds_bounds edges edges_x [(8 - 8, 10 - 8, 50); (10 - 8, 12 - 8, 0); (12 - 8, 14 - 8, 1); (14 - 8, 16 - 8, 0)] =
      Ok [(p0, p1, 50); (p1, p2, 0); (p2, p3, 1); (p3, p4, 0)]).
    { cbn [reeds_bounds].
      replace (8 - 8) with 0 by lra. replace (10 - 8) with 2 by lra. replace (12 - 8) with 4 by lra.
      replace (14 - 8) with 6 by lra. replace (16 - 8) with 8 by lra.
      rewrite C, C0, C1, C2, C3. cbn [bind]. reflexivity. }
    rewrite Q. cbn [bind]. eexists. split; [reflexivity|]. intros i x Hc Hx. cbn [fold_left].
    assert (LT : Nat.ltb i (edges - 1) = true) by (apply Nat.ltb_lt; lia). rewrite LT.
    destruct (LO i p0 x Hc A Hx) as [(U0 & V0 & X0)|(U0 & V0 & X0)]; rewrite ?U0, ?V0;
    destruct (LO i p1 x Hc A0 Hx) as [(U1 & V1 & X1)|(U1 & V1 & X1)]; rewrite ?U1, ?V1; try lra;
    destruct (LO i p2 x Hc A1 Hx) as [(U2 & V2 & X2)|(U2 & V2 & X2)]; rewrite ?U2, ?V2; try lra;
    destruct (LO i p3 x Hc A2 Hx) as [(U3 & V3 & X3)|(U3 & V3 & X3)]; rewrite ?U3, ?V3; try lra;
    destruct (LO i p4 x Hc A3 Hx) as [(U4 & V4 & X4)|(U4 & V4 & X4)]; rewrite ?U4, ?V4; try lra;
    cbn [andb]; unfold reeds_density, zeros;
    repeat match goal with |- context [Rlt_dec ?a ?b] => destruct (Rlt_dec a b); [first [lra|idtac]|first [lra|idtac]] end; lra.
Qed.

Lemma bounds_fail edges edges_x regions x : (forall t, edge_at edges edges_x x <> Ok t) -> 
  (exists r v, In (x, r, v) regions) \/ (exists l v, In (l, x, v) regions) -> reeds_bounds edges edges_x regions = Raise TypeError.
Proof.
  intros F. induction regions as [|((l, r), v) rest IH]; intros H; [destruct H as [(? & ? & [])|(? & ? & [])]|].
  cbn [reeds_bounds]. destruct (edge_at edges edges_x l) as [a|e] eqn:E1; [|cbn [bind]; now rewrite (edge_at_type_error _ _ _ _ E1)]. cbn [bind].
  destruct (edge_at edges edges_x r) as [b|e] eqn:E2; [|cbn [bind]; now rewrite (edge_at_type_error _ _ _ _ E2)]. cbn [bind].
  rewrite IH; [reflexivity|]. destruct H as [(r' & v' & [Q|Q])|(l' & v' & [Q|Q])]; [|left; eauto| |right; eauto].
  - injection Q as -> -> ->. now destruct (F a).
  - injection Q as -> -> ->. now destruct (F b).
Qed.

Lemma reeds_needs_interfaces edges edges_x bc L off k : (0 < edges)%nat -> reeds_domain bc L off -> 2 * INR k <= L ->
  (forall i, (i < edges)%nat -> edges_x i <> 2 * INR k) \/ (exists i j, (i < j < edges)%nat /\ edges_x i = 2 * INR k /\ edges_x j = 2 * INR k) ->
  reeds edges edges_x bc = Raise TypeError.
Proof.
  intros H0 D Hk H. unfold reeds. destruct (Nat.eqb_spec edges 0); [lia|].
  assert (F : forall t, edge_at edges edges_x (2 * INR k) <> Ok t).
  { intros t. destruct H as [M|(i & j & L1 & E1 & E2)]; [rewrite edge_at_missing by exact M|rewrite (edge_at_twice edges edges_x _ i j) by (lia || assumption)]; discriminate. }
  assert (IN : (exists r v, In (2 * INR k, r, v) (reeds_regions bc)) \/ (exists l v, In (l, 2 * INR k, v) (reeds_regions bc))).
  { destruct (regions_of bc L off D) as [(-> & _ & ->)|[(-> & _ & ->)|(-> & _ & ->)]];
    (assert (K : (k <= 8)%nat) by (apply INR_le; cbn [INR]; lra)).
    - do 9 (destruct k as [|k]; [first [left; eexists _, _; cbn [In]; replace (2 * INR 0) with 0 by (cbn [INR]; lra); left; reflexivity
        |right; match goal with |- context [INR ?m] => let z := eval compute in (2 * Z.of_nat m)%Z in replace (2 * INR m) with (IZR z) by (cbn [INR]; lra) end;
         eexists _, _; cbn [In]; repeat (first [left; reflexivity|right])]|]). lia.
    - assert (K4 : (k <= 4)%nat) by (apply INR_le; cbn [INR]; lra).
      destruct k as [|[|[|[|[|k]]]]]; [left; exists (2 - 0), 0|left; exists (4 - 0), 1|left; exists (6 - 0), 0|left; exists (8 - 0), 50|right; exists (6 - 0), 50|lia];
        cbn [In INR].
      + left. f_equal. f_equal. lra.
      + right. left. f_equal. f_equal. lra.
      + right. right. left. f_equal. f_equal. lra.
      + right. right. right. left. f_equal. f_equal. lra.
      + right. right. right. left. f_equal. f_equal. lra.
    - assert (K4 : (k <= 4)%nat) by (apply INR_le; cbn [INR]; lra).
      destruct k as [|[|[|[|[|k]]]]]; [left; exists (10 - 8), 50|left; exists (12 - 8), 0|left; exists (14 - 8), 1|left; exists (16 - 8), 0|right; exists (14 - 8), 0|lia];
        cbn [In INR].
      + left. f_equal. f_equal. lra.
      + right. left. f_equal. f_equal. lra.
      + right. right. left. f_equal. f_equal. lra.
      + right. right. right. left. f_equal. f_equal. lra.
      + right. right. right. left. f_equal. f_equal. lra. }
  now rewrite (bounds_fail edges edges_x (reeds_regions bc) (2 * INR k) F IN).
Qed.

(** *** AmBe *)
Lemma maxl_spec n f : (0 < n)%nat -> (forall k, (k < n)%nat -> f k <= maxl n f) /\ exists k, (k < n)%nat /\ maxl n f = f k.
Proof.
  intros H. unfold maxl.
  assert (G : forall m, (m <= n)%nat -> (forall k, (k < m)%nat -> f k <= for_up m (fun k mx => Rmax mx (f k)) (f 0%nat)) /\
     exists k, (k < n)%nat /\ for_up m (fun k mx => Rmax mx (f k)) (f 0%nat) = f k).
  { induction m as [|m IH]; intros Hm; [split; [intros; lia|exists 0%nat; split; [lia|reflexivity]]|].
    destruct IH as [A (k0 & B & C)]; [lia|]. cbn [for_up]. split.
    - intros k Hk. destruct (Nat.eq_dec k m) as [-> |N]; [apply Rmax_r|]. apply Rle_trans with (2 := Rmax_l _ _). apply A. lia.
    - unfold Rmax. destruct (Rle_dec _ (f m)); [exists m; split; [lia|reflexivity]|exists k0; auto]. }
  exact (G n (le_n n)).
Qed.

Lemma ambe_source bins bin_edges magnitude cells row edges edges_g :
  (0 < edges)%nat -> (row < cells)%nat -> increasing (S bins) bin_edges ->
  exists ext grid, ambe (Ok (bins, bin_edges, magnitude)) cells (Z.of_nat row) edges edges_g = Ok (ext, grid) /\
    ((exists k, (k < edges)%nat /\ 20 < edges_g k) -> forall k, grid k = edges_g k / 10 ^ 6) /\
    ((forall k, (k < edges)%nat -> edges_g k <= 20) -> forall k, grid k = edges_g k) /\
    (forall i g, i <> row -> ext i g = 0) /\
    (forall b g, (b < bins)%nat -> (S g < edges)%nat -> bin_edges b < (grid g + grid (S g)) / 2 <= bin_edges (S b) ->
       ext row g = magnitude b) /\
    (forall g, (S g < edges)%nat -> (grid g + grid (S g)) / 2 <= bin_edges 0%nat \/ bin_edges bins < (grid g + grid (S g)) / 2 -> ext row g = 0).
Proof.
  intros He Hr Hi. unfold ambe. destruct (Nat.eqb_spec edges 0); [lia|]. cbn [bind].
  assert (RX : axis_index cells (Z.of_nat row) = Ok row).
  { destruct (axis_index_spec cells (Z.of_nat row)) as (A & B & _). destruct B as [i B]; [lia|]. rewrite B. f_equal. destruct (A i B) as [C [D|D]]; lia. }
  destruct (maxl_spec edges edges_g He) as [M1 (km & M2 & M3)].
  set (grid := if Rlt_dec 20 (maxl edges edges_g) then fun k => edges_g k * / 10 ^ 6 else edges_g).
  set (center := fun g : nat => 0.5 * (grid (g + 1)%nat + grid g)).
  match goal with |- context [for_up_err ?m ?b ?s] => set (body := b); set (init := s) end.
  set (hit := fun ii g => Nat.ltb g (edges - 1) && (if Rlt_dec (bin_edges ii) (center g) then true else false) && (if Rle_dec (center g) (bin_edges (ii + 1)%nat) then true else false)).
  assert (R : forall m, exists ext, for_up_err m body init = Ok ext /\ (forall i g, i <> row -> ext i g = 0) /\
     (forall g, (forall b, (b < m)%nat -> hit b g = false) -> ext row g = 0) /\
     (forall g b, (b < m)%nat -> hit b g = true -> (forall b', (b' < m)%nat -> hit b' g = true -> b' = b) -> ext row g = magnitude b)).
  { induction m as [|m IH].
    - exists init. split; [reflexivity|]. repeat split; try reflexivity. intros; lia.
    - destruct IH as (ext & E & A & B & C). 
      assert (Q : for_up_err (S m) body init = bind (for_up_err m body init) (body m)) by reflexivity.
      rewrite Q, E. cbn [bind]. unfold body. rewrite RX. cbn [bind]. eexists. split; [reflexivity|]. cbv beta.
      assert (HT : forall i g, (Nat.eqb i row && Nat.ltb g (edges - 1) && (if Rlt_dec (bin_edges m) (center g) then true else false) && (if Rle_dec (center g) (bin_edges (m + 1)%nat) then true else false))%bool = (Nat.eqb i row && hit m g)%bool).
      { intros i g. unfold hit. destruct (Nat.eqb i row), (Nat.ltb g (edges - 1)); reflexivity. }
      change (fun g : nat => 0.5 * (grid (g + 1)%nat + grid g)) with center.
      split; [|split].
      + intros i g N. rewrite HT. destruct (Nat.eqb_spec i row); [contradiction|]. cbn [andb]. now apply A.
      + intros g N. rewrite HT, (N m) by lia. rewrite andb_false_r. apply B. intros b Hb. apply N. lia.
      + intros g b Hb T U. rewrite HT, Nat.eqb_refl. cbn [andb]. destruct (hit m g) eqn:Em.
        * now rewrite (U m ltac:(lia) Em).
        * destruct (Nat.eq_dec b m) as [-> |N]; [congruence|]. apply C; [lia|exact T|]. intros b' Hb' T'. apply U; [lia|exact T']. }
  destruct (R bins) as (ext & E & A & B & C). rewrite E. cbn [bind]. exists ext, grid. split; [reflexivity|].
  assert (CE : forall g, center g = (grid g + grid (S g)) / 2) by (intros g; unfold center; rewrite Nat.add_1_r; lra).
  split; [|split; [|split; [exact A|split]]].
  - intros (k & Hk & L) j. unfold grid. specialize (M1 k Hk). destruct (Rlt_dec 20 (maxl edges edges_g)); [reflexivity|lra].
  - intros L k. unfold grid. specialize (L km M2). rewrite M3 in *. destruct (Rlt_dec 20 (edges_g km)); [lra|reflexivity].
  - intros b g Hb Hg Hin. rewrite <- CE in Hin. apply C; [exact Hb| |].
    + unfold hit. destruct (Nat.ltb_spec g (edges - 1)); [|lia]. rewrite Nat.add_1_r. destruct (Rlt_dec (bin_edges b) (center g)); [|lra]. destruct (Rle_dec (center g) (bin_edges (S b))); [reflexivity|lra].
    + intros b' Hb' T. unfold hit in T. rewrite Nat.add_1_r in T. destruct (Nat.ltb g (edges - 1)); [|discriminate]. cbn [andb] in T.
      destruct (Rlt_dec (bin_edges b') (center g)); [|discriminate]. cbn [andb] in T. destruct (Rle_dec (center g) (bin_edges (S b'))); [|discriminate].
      destruct (lt_eq_lt_dec b' b) as [[L|L]|L]; [|exact L|].
      * pose proof (increasing_le _ _ (S b') b Hi ltac:(lia) ltac:(lia)). lra.
      * pose proof (increasing_le _ _ (S b) b' Hi ltac:(lia) ltac:(lia)). lra.
  - intros g Hg Hout. rewrite <- CE in Hout. apply B. intros b Hb. unfold hit. rewrite Nat.add_1_r.
    destruct (Nat.ltb_spec g (edges - 1)); [|reflexivity]. cbn [andb].
    destruct (Rlt_dec (bin_edges b) (center g)) as [L1|]; [|reflexivity]. cbn [andb]. destruct (Rle_dec (center g) (bin_edges (S b))) as [L2|]; [|reflexivity].
    pose proof (increasing_le _ _ 0 b Hi ltac:(lia) ltac:(lia)). pose proof (increasing_le _ _ (S b) bins Hi ltac:(lia) ltac:(lia)). lra.
Qed.
Lemma ambe_packaged_fails cells loc_x edges edges_g : (0 < edges)%nat -> ambe packaged_ambe cells loc_x edges edges_g = Raise TypeError.
Proof. intros H. unfold ambe, packaged_ambe. destruct (Nat.eqb_spec edges 0); [lia|]. reflexivity. Qed.
