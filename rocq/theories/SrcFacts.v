(** C61, C62: fusion boundary sources and their time dependence. *)
From Coq Require Import ZArith Lra Lia Reals.
From Verif Require Import Base BaseFacts TimeModel SrcModel SrcSpec.
Open Scope R_scope.

(** *** argmin *)
Lemma argmin_spec n f : (0 < n)%nat -> (argmin n f < n)%nat /\
  (forall k, (k < n)%nat -> f (argmin n f) <= f k) /\ (forall k, (k < argmin n f)%nat -> f (argmin n f) < f k).
Proof.
  induction n as [|n IH]; [lia|]. intros _. destruct n as [|n].
  - cbn [argmin]. split; [lia|]. split; [intros k Hk; replace k with 0%nat by lia; lra|intros; lia].
  - destruct (IH ltac:(lia)) as (A & B & C).
    assert (E : argmin (S (S n)) f = if Rlt_dec (f (S n)) (f (argmin (S n) f)) then S n else argmin (S n) f) by reflexivity.
    rewrite E. destruct (Rlt_dec (f (S n)) (f (argmin (S n) f))) as [L|L].
    + split; [lia|]. split.
      * intros k Hk. destruct (Nat.eq_dec k (S n)) as [-> |]; [lra|]. specialize (B k ltac:(lia)). lra.
      * intros k Hk. specialize (B k ltac:(lia)). lra.
    + split; [lia|]. split; [|exact C]. intros k Hk. destruct (Nat.eq_dec k (S n)) as [-> |]; [lra|]. apply B. lia.
Qed.

Lemma axis_index_spec n z : (forall i, axis_index n z = Ok i -> (i < n)%nat /\ (Z.of_nat i = z \/ Z.of_nat i = (z + Z.of_nat n)%Z)) /\
  ((- Z.of_nat n <= z < Z.of_nat n)%Z -> exists i, axis_index n z = Ok i) /\
  (~ (- Z.of_nat n <= z < Z.of_nat n)%Z -> axis_index n z = Raise IndexError).
Proof.
  unfold axis_index. destruct (Z.leb_spec 0 z), (Z.ltb_spec z (Z.of_nat n)), (Z.leb_spec (- Z.of_nat n) z), (Z.ltb_spec z 0); cbn [andb];
    (split; [intros i E; try discriminate; injection E as <-; split; lia|split; [intros; try lia; eauto|intros; try lia; reflexivity]]).
Qed.

(** What a fusion source returns, and when it fails. *)
Lemma fusion_returns energy location edges edges_g b : fusion_source energy location edges edges_g = Ok b ->
  exists row col, (row < 2)%nat /\ (Z.of_nat row = location \/ Z.of_nat row = (location + 2)%Z) /\ (col < edges - 1)%nat /\
    (forall r g, b r g = if Nat.eqb r row && Nat.eqb g col then 1 else 0) /\
    (forall k, (k < edges)%nat -> Rabs (edges_g col - energy) <= Rabs (edges_g k - energy)).
Proof.
  unfold fusion_source. destruct (Nat.eqb_spec edges 0) as [|N]; [discriminate|].
  destruct (argmin_spec edges (fun k => Rabs (edges_g k - energy)) ltac:(lia)) as (A & B & _).
  set (grp := argmin edges (fun k => Rabs (edges_g k - energy))) in *.
  destruct (axis_index 2 location) as [row|] eqn:E1; [|discriminate]. cbn [bind].
  destruct (axis_index (edges - 1) (Z.of_nat grp)) as [col|] eqn:E2; [|discriminate]. cbn [bind]. intros E. injection E as <-.
  destruct (axis_index_spec 2 location) as [S1 _]. destruct (S1 row E1) as [R1 R2].
  destruct (axis_index_spec (edges - 1) (Z.of_nat grp)) as [S2 _]. destruct (S2 col E2) as [C1 C2].
  exists row, col. assert (col = grp) by lia. subst col. repeat split; try assumption.
Qed.

Lemma fusion_failures energy location edges edges_g :
  (edges = 0%nat -> fusion_source energy location edges edges_g = Raise ValueError) /\
  ((0 < edges)%nat -> ~ (-2 <= location < 2)%Z -> fusion_source energy location edges edges_g = Raise IndexError) /\
  ((0 < edges)%nat -> (-2 <= location < 2)%Z ->
     (forall k, (k < edges - 1)%nat -> Rabs (edges_g (edges - 1)%nat - energy) < Rabs (edges_g k - energy)) ->
     fusion_source energy location edges edges_g = Raise IndexError) /\
  ((0 < edges)%nat -> (-2 <= location < 2)%Z ->
     (exists k, (k < edges - 1)%nat /\ Rabs (edges_g k - energy) <= Rabs (edges_g (edges - 1)%nat - energy)) ->
     exists b, fusion_source energy location edges edges_g = Ok b).
Proof.
  unfold fusion_source. set (grp := argmin edges (fun k => Rabs (edges_g k - energy))).
  assert (G : (0 < edges)%nat -> (grp < edges)%nat /\ (forall k, (k < edges)%nat -> Rabs (edges_g grp - energy) <= Rabs (edges_g k - energy)) /\
     (forall k, (k < grp)%nat -> Rabs (edges_g grp - energy) < Rabs (edges_g k - energy))).
  { intros H. apply (argmin_spec edges (fun k => Rabs (edges_g k - energy)) H). }
  destruct (axis_index_spec 2 location) as (_ & A1 & A2).
  destruct (axis_index_spec (edges - 1) (Z.of_nat grp)) as (_ & B1 & B2).
  repeat split.
  - intros ->. reflexivity.
  - intros H L. destruct (Nat.eqb_spec edges 0); [lia|]. rewrite A2 by (change (Z.of_nat 2) with 2%Z; lia). reflexivity.
  - intros H L M. destruct (Nat.eqb_spec edges 0); [lia|]. destruct A1 as [row ->]; [change (Z.of_nat 2) with 2%Z; lia|]. cbn [bind].
    destruct (G H) as (G1 & G2 & _). rewrite B2; [reflexivity|]. assert (grp = edges - 1)%nat; [|lia].
    destruct (Nat.eq_dec grp (edges - 1)) as [E|E]; [exact E|]. specialize (M grp ltac:(lia)). specialize (G2 (edges - 1)%nat ltac:(lia)). lra.
  - intros H L (k & Hk & M). destruct (Nat.eqb_spec edges 0); [lia|]. destruct A1 as [row ->]; [change (Z.of_nat 2) with 2%Z; lia|]. cbn [bind].
    destruct (G H) as (G1 & _ & G3). destruct B1 as [col ->]; [|cbn [bind]; eauto].
    assert (grp <> edges - 1)%nat; [|lia]. intros E. specialize (G3 k ltac:(lia)). rewrite E in G3. lra.
Qed.

(** On an increasing grid: which group holds the source, given the group [j] the energy lies in. *)
Lemma fusion_group energy location edges edges_g j : increasing edges edges_g -> (S j < edges)%nat ->
  edges_g j <= energy < edges_g (S j) -> (-2 <= location < 2)%Z ->
  (energy - edges_g j <= edges_g (S j) - energy ->
     exists b, fusion_source energy location edges edges_g = Ok b /\ forall r g, b r g <> 0 -> g = j) /\
  (edges_g (S j) - energy < energy - edges_g j -> (S (S j) < edges)%nat ->
     exists b, fusion_source energy location edges edges_g = Ok b /\ forall r g, b r g <> 0 -> g = S j) /\
  (edges_g (S j) - energy < energy - edges_g j -> edges = S (S j) ->
     fusion_source energy location edges edges_g = Raise IndexError).
Proof.
  intros Hi Hj He Hl.
  assert (D : forall k, (k < edges)%nat -> k <> j -> k <> S j -> Rabs (edges_g k - energy) > Rmin (energy - edges_g j) (edges_g (S j) - energy)).
  { intros k Hk N1 N2. destruct (lt_dec k j) as [L|L].
    - pose proof (Hi k j L ltac:(lia)). rewrite Rabs_left by lra. pose proof (Rmin_l (energy - edges_g j) (edges_g (S j) - energy)). lra.
    - pose proof (Hi (S j) k ltac:(lia) Hk). rewrite Rabs_right by lra. pose proof (Rmin_r (energy - edges_g j) (edges_g (S j) - energy)). lra. }
  assert (Dj : Rabs (edges_g j - energy) = energy - edges_g j) by (rewrite Rabs_left1; lra).
  assert (DS : Rabs (edges_g (S j) - energy) = edges_g (S j) - energy) by (rewrite Rabs_right; lra).
  destruct (fusion_failures energy location edges edges_g) as (_ & _ & F3 & F4).
  assert (P0 : (0 < edges)%nat) by lia.
  assert (RUN : forall b t, fusion_source energy location edges edges_g = Ok b ->
    (forall k, (k < edges)%nat -> k <> t -> Rabs (edges_g t - energy) < Rabs (edges_g k - energy) \/ (k > t)%nat /\ Rabs (edges_g t - energy) <= Rabs (edges_g k - energy)) ->
    (t < edges)%nat -> forall r g, b r g <> 0 -> g = t).
  { intros b t E M Ht r g Hb. unfold fusion_source in E. destruct (Nat.eqb_spec edges 0); [lia|].
    destruct (argmin_spec edges (fun k => Rabs (edges_g k - energy)) P0) as (A & B & C).
    set (grp := argmin edges (fun k => Rabs (edges_g k - energy))) in *.
    destruct (axis_index 2 location) as [row|] eqn:E1; [|discriminate]. cbn [bind] in E.
    destruct (axis_index (edges - 1) (Z.of_nat grp)) as [col|] eqn:E2; [|discriminate]. cbn [bind] in E. injection E as <-.
    destruct (axis_index_spec (edges - 1) (Z.of_nat grp)) as [S2 _]. destruct (S2 col E2) as [C1 C2]. assert (col = grp) by lia. subst col.
    destruct (Nat.eqb_spec r row), (Nat.eqb_spec g grp); cbn [andb] in Hb; try lra. subst g.
    destruct (Nat.eq_dec grp t) as [Q|Q]; [exact Q|]. destruct (M grp A Q) as [M1|[M1 M2]].
    - specialize (B t Ht). lra.
    - specialize (C t M1). lra. }
  split; [|split].
  - intros L. destruct F4 as [b E]; try assumption.
    + destruct (Nat.eq_dec (S j) (edges - 1)) as [Q|Q].
      * exists j. split; [lia|]. rewrite <- Q, Dj, DS. exact L.
      * exists j. split; [lia|]. rewrite Dj. specialize (D (edges - 1)%nat ltac:(lia) ltac:(lia) ltac:(lia)). rewrite Rmin_left in D by lra. lra.
    + exists b. split; [exact E|]. apply (RUN b j E); [|lia]. intros k Hk N. destruct (Nat.eq_dec k (S j)) as [-> |N2].
      * right. split; [lia|]. lra.
      * left. specialize (D k Hk N N2). rewrite Rmin_left in D by lra. lra.
  - intros L Hlt. destruct F4 as [b E]; try assumption.
    + exists (S j). split; [lia|]. rewrite DS. destruct (Nat.eq_dec (S j) (edges - 1)) as [Q|Q]; [lia|].
      specialize (D (edges - 1)%nat ltac:(lia) ltac:(lia) ltac:(lia)). rewrite Rmin_right in D by lra. lra.
    + exists b. split; [exact E|]. apply (RUN b (S j) E); [|lia]. intros k Hk N. destruct (Nat.eq_dec k j) as [-> |N2].
      * left. lra.
      * left. specialize (D k Hk N2 N). rewrite Rmin_right in D by lra. lra.
  - intros L Q. apply F3; try assumption. intros k Hk. replace (edges - 1)%nat with (S j) by lia. rewrite DS.
    destruct (Nat.eq_dec k j) as [-> |N]; [lra|]. specialize (D k ltac:(lia) N ltac:(lia)). rewrite Rmin_right in D by lra. lra.
Qed.

(** *** decay_01 *)
Lemma decay_01_switch boundary_x edges edges_t off_time : (0 < edges)%nat ->
  exists out, time_dependence_decay_01 boundary_x edges edges_t off_time = Ok ((edges - 1)%nat, out) /\
    (forall k, (k < edges - 1)%nat -> edges_t (S k) <= off_time -> forall s n g, out k s n g = boundary_x s n g) /\
    (forall k, (k < edges - 1)%nat -> off_time < edges_t (S k) -> forall s n g, out k s n g = 0).
Proof.
  intros H. unfold time_dependence_decay_01. destruct (Nat.eqb_spec edges 0); [lia|].
  eexists. split; [reflexivity|]. cbv beta. split; intros k Hk L s n' g; change (1 + k)%nat with (S k); destruct (Rlt_dec off_time (edges_t (S k))); try lra.
Qed.

Lemma decay_01_once boundary_x edges edges_t off_time : (0 < edges)%nat -> increasing edges edges_t ->
  exists out last, time_dependence_decay_01 boundary_x edges edges_t off_time = Ok ((edges - 1)%nat, out) /\ (last <= edges - 1)%nat /\
    (forall k s n g, (k < last)%nat -> out k s n g = boundary_x s n g) /\
    (forall k s n g, (last <= k < edges - 1)%nat -> out k s n g = 0).
Proof.
  intros H Hi. destruct (decay_01_switch boundary_x edges edges_t off_time H) as (out & E & A & B).
  assert (G : forall m, (m <= edges - 1)%nat -> exists last, (last <= m)%nat /\ (forall k, (k < last)%nat -> edges_t (S k) <= off_time) /\
     (forall k, (last <= k < m)%nat -> off_time < edges_t (S k))).
  { induction m as [|m IH]; intros Hm.
    - exists 0%nat. split; [lia|]. split; intros; lia.
    - destruct (IH ltac:(lia)) as (last & L1 & L2 & L3). destruct (Nat.eq_dec last m) as [-> |N].
      + destruct (Rle_dec (edges_t (S m)) off_time) as [L|L].
        * exists (S m). split; [lia|]. split; [|intros; lia]. intros k Hk. destruct (Nat.eq_dec k m) as [-> |]; [exact L|apply L2; lia].
        * exists m. split; [lia|]. split; [exact L2|]. intros k Hk. replace k with m by lia. lra.
      + exists last. split; [lia|]. split; [exact L2|]. intros k Hk. destruct (Nat.eq_dec k m) as [-> |]; [|apply L3; lia].
        specialize (L3 (m - 1)%nat ltac:(lia)). specialize (Hi (S (m - 1)) (S m) ltac:(lia) ltac:(lia)). lra. }
  destruct (G (edges - 1)%nat (le_n _)) as (last & L1 & L2 & L3). exists out, last. split; [exact E|]. split; [exact L1|]. split.
  - intros k s n g Hk. apply A; [lia|now apply L2].
  - intros k s n g Hk. apply B; [lia|now apply L3].
Qed.

(** *** a source that does not change *)
Lemma constant_rows (b : arr3) (step : nat) :
  let c := time_dependence_constant b in
  row4 (mkArr4 (fst c) (d3b b) (d3c b) (fun k => at3 (snd c k))) step = Ok b /\ fst c = 1%nat.
Proof. cbv zeta. unfold time_dependence_constant. split; [|reflexivity]. destruct b. reflexivity. Qed.
