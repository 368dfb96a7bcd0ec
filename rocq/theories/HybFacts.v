(** Lemmas about the hybrid index tools and kernels. *)
From Coq Require Import Lia Lra Psatz FunctionalExtensionality FinFun.
From Verif Require Import Base BaseFacts SlabModel MgModel MgFacts4 HybModel HybSpec.
Open Scope R_scope.

Lemma nsum_ext n f g : (forall i, (i < n)%nat -> f i = g i) -> nsum n f = nsum n g.
Proof. induction n; intros H; cbn; [reflexivity|]. rewrite IHn by (intros; apply H; lia). rewrite H by lia. reflexivity. Qed.

(** ** C42 *)
Lemma nsum_indicator n l : NoDup l -> (forall x, In x l -> (x < n)%nat) ->
  nsum n (fun j => if existsb (Nat.eqb j) l then 1%nat else 0%nat) = length l.
Proof.
  induction l as [|a l IH]; intros Hnd Hb.
  - cbn. clear. induction n; cbn; lia.
  - inversion Hnd as [|? ? Hni Hnd']; subst. cbn [length].
    rewrite <- IH; [|assumption|intros x Hx; apply Hb; right; exact Hx].
    assert (Ha : (a < n)%nat) by (apply Hb; left; reflexivity).
    assert (K : forall m, nsum m (fun j => if existsb (Nat.eqb j) (a :: l) then 1%nat else 0%nat)
       = (nsum m (fun j => if existsb (Nat.eqb j) l then 1 else 0) + (if Nat.ltb a m then 1 else 0))%nat).
    { induction m as [|m IHm]; [reflexivity|]. cbn [nsum]. rewrite IHm. cbn [existsb].
      destruct (Nat.eqb_spec m a) as [-> |Hne]; cbn [orb].
      - assert (E : existsb (Nat.eqb a) l = false).
        { destruct (existsb (Nat.eqb a) l) eqn:E; [|reflexivity]. apply existsb_exists in E.
          destruct E as (x & Hx & Hx'). apply Nat.eqb_eq in Hx'. subst x. contradiction. }
        rewrite E. destruct (Nat.ltb_spec a a), (Nat.ltb_spec a (S a)); lia.
      - destruct (Nat.ltb_spec a m), (Nat.ltb_spec a (S m)); lia. }
    rewrite K. destruct (Nat.ltb_spec a n); lia.
Qed.

Lemma nsum_plus n f g : nsum n (fun i => (f i + g i)%nat) = (nsum n f + nsum n g)%nat.
Proof. induction n; cbn; lia. Qed.
Lemma nsum_const n c : nsum n (fun _ => c) = (n * c)%nat.
Proof. induction n; cbn; lia. Qed.

Lemma linspace_step C n k : (n <> 0)%nat -> (n <= C)%nat ->
  (k * C / n < (k + 1) * C / n)%nat.
Proof.
  intros Hn HC. assert (H : ((k * C + 1 * n) / n <= (k + 1) * C / n)%nat).
  { apply Nat.div_le_mono; [exact Hn|nia]. }
  rewrite Nat.div_add in H by exact Hn. lia.
Qed.

Lemma linspace_nodup coarse num : (num < coarse)%nat ->
  NoDup (linspace_idx coarse num) /\ length (linspace_idx coarse num) = num /\
  (forall x, In x (linspace_idx coarse num) -> (x < coarse)%nat).
Proof.
  intros Hn. unfold linspace_idx. destruct (Nat.eqb_spec num 1) as [-> |H1].
  { split; [|split]; [constructor; [intros []|constructor]|reflexivity|].
    intros x [<- |[]]. lia. }
  destruct (Nat.eq_dec num 0) as [-> |H0].
  { split; [constructor|split; [reflexivity|intros x []]]. }
  split; [|split].
  -
    assert (Mono : forall a b, (a < b)%nat ->
      (a * (coarse - 1) / (num - 1) < b * (coarse - 1) / (num - 1))%nat).
    { intros a b Hab. induction Hab as [|b Hab IH].
      - replace (S a) with (a + 1)%nat by lia. apply linspace_step; lia.
      - etransitivity; [exact IH|]. replace (S b) with (b + 1)%nat by lia. apply linspace_step; lia. }
    apply Injective_map_NoDup; [|apply seq_NoDup].
    intros a b E. destruct (Nat.lt_trichotomy a b) as [L|[L|L]]; [|exact L|];
      apply Mono in L; lia.
  - rewrite map_length, seq_length. reflexivity.
  - intros x Hx. apply in_map_iff in Hx. destruct Hx as (k & <- & Hk). apply in_seq in Hk.
    assert ((k * (coarse - 1) / (num - 1) <= coarse - 1)%nat); [|lia].
    apply Nat.div_le_upper_bound; [lia|]. nia.
Qed.

Lemma coarse_sizes_sum fine coarse : (1 <= coarse)%nat -> nsum coarse (coarse_sizes fine coarse) = fine.
Proof.
  intros Hc. unfold coarse_sizes. rewrite nsum_plus, nsum_const.
  assert (Hm : (fine mod coarse < coarse)%nat) by (apply Nat.mod_upper_bound; lia).
  destruct (linspace_nodup coarse (fine mod coarse) Hm) as (Hnd & Hlen & Hb).
  rewrite nsum_indicator by assumption. rewrite Hlen.
  rewrite (Nat.div_mod fine coarse) at 3 by lia. lia.
Qed.

Lemma coarse_index_partition fine coarse : (1 <= coarse <= fine)%nat ->
  exists idx, energy_coarse_index fine coarse = Ok idx /\ partition fine coarse idx /\
    forall c, (c < coarse)%nat ->
      ((idx (c + 1) - idx c) = fine / coarse \/ (idx (c + 1) - idx c) = fine / coarse + 1)%nat.
Proof.
  intros Hc. unfold energy_coarse_index. destruct (Nat.eqb_spec coarse 0); [lia|].
  rewrite coarse_sizes_sum by lia. rewrite Nat.eqb_refl.
  eexists; split; [reflexivity|].
  assert (Hq : (1 <= fine / coarse)%nat) by (apply Nat.div_le_lower_bound; lia).
  assert (Hd : forall c, nsum (c + 1) (coarse_sizes fine coarse) =
     (nsum c (coarse_sizes fine coarse) + coarse_sizes fine coarse c)%nat).
  { intros c. rewrite Nat.add_1_r. reflexivity. }
  assert (Hs : forall c, (coarse_sizes fine coarse c = fine / coarse \/ coarse_sizes fine coarse c = fine / coarse + 1)%nat).
  { intros c. unfold coarse_sizes. destruct (existsb _ _); [right|left]; lia. }
  split; [split; [reflexivity|split; [apply coarse_sizes_sum; lia|]]|].
  - intros c Hcc. rewrite Hd. destruct (Hs c) as [E|E]; rewrite E; lia.
  - intros c Hcc. rewrite Hd. destruct (Hs c) as [E|E]; rewrite E; lia.
Qed.

Lemma coarse_index_errors fine coarse :
  (forall e, energy_coarse_index fine coarse = Raise e -> coarse = 0%nat /\ e = ZeroDivisionError) /\
  ((fine < coarse)%nat -> exists idx, energy_coarse_index fine coarse = Ok idx /\ ~ partition fine coarse idx).
Proof.
  unfold energy_coarse_index. destruct (Nat.eqb_spec coarse 0) as [-> |H0].
  { split; [intros e E; injection E as <-; auto|lia]. }
  rewrite coarse_sizes_sum by lia. rewrite Nat.eqb_refl. split; [discriminate|].
  intros Hlt. eexists; split; [reflexivity|]. intros (P0 & P1 & P2). cbn beta in *.
  assert (K : forall c, (c <= coarse)%nat -> (c <= nsum c (coarse_sizes fine coarse))%nat).
  { induction c as [|c IH]; intros Hc; [lia|]. specialize (IH ltac:(lia)). specialize (P2 c ltac:(lia)).
    replace (c + 1)%nat with (S c) in P2 by lia. lia. }
  specialize (K coarse (le_n _)). lia.
Qed.

(** ** partitions *)
Lemma partition_mono fine coarse idx a b : partition fine coarse idx ->
  (a <= b)%nat -> (b <= coarse)%nat -> (idx a <= idx b)%nat.
Proof.
  intros (_ & _ & P) Hab. induction Hab as [|b Hab IH]; intros Hb; [lia|].
  specialize (P b ltac:(lia)). specialize (IH ltac:(lia)). replace (b + 1)%nat with (S b) in P by lia. lia.
Qed.

Lemma partition_locate fine coarse idx g : partition fine coarse idx -> (g < fine)%nat ->
  exists c, (c < coarse)%nat /\ in_group idx c g.
Proof.
  intros HP Hg. destruct HP as (P0 & P1 & P2).
  assert (K : forall n, (n <= coarse)%nat -> (g < idx n)%nat -> exists c, (c < n)%nat /\ in_group idx c g).
  { induction n as [|n IH]; intros Hn Hlt; [lia|].
    destruct (Nat.lt_ge_cases g (idx n)) as [L|L].
    - destruct (IH ltac:(lia) L) as (c & Hc & Hi). exists c. split; [lia|exact Hi].
    - exists n. split; [lia|]. unfold in_group. replace (n + 1)%nat with (S n) by lia. lia. }
  destruct (K coarse (le_n _)) as (c & Hc & Hi); [lia|]. exists c. auto.
Qed.

Lemma partition_unique fine coarse idx c c' g : partition fine coarse idx ->
  (c < coarse)%nat -> (c' < coarse)%nat -> in_group idx c g -> in_group idx c' g -> c = c'.
Proof.
  intros HP Hc Hc' H H'. unfold in_group in *.
  destruct (Nat.lt_trichotomy c c') as [L|[L|L]]; [|exact L|].
  - pose proof (partition_mono _ _ _ (c + 1) c' HP ltac:(lia) ltac:(lia)). lia.
  - pose proof (partition_mono _ _ _ (c' + 1) c HP ltac:(lia) ltac:(lia)). lia.
Qed.

Lemma in_group_fine fine coarse idx c g : partition fine coarse idx -> (c < coarse)%nat ->
  in_group idx c g -> (g < fine)%nat.
Proof.
  intros HP Hc [_ H]. pose proof (partition_mono _ _ _ (c + 1) coarse HP ltac:(lia) (le_n _)).
  destruct HP as (_ & E & _). lia.
Qed.

Lemma group_sums fine coarse idx f : partition fine coarse idx ->
  rsum coarse (fun c => group_sum idx c f) = rsum fine f.
Proof.
  intros HP.
  assert (K : forall n, (n <= coarse)%nat -> rsum n (fun c => group_sum idx c f) = rsum (idx n) f).
  { induction n as [|n IH]; intros Hn.
    - destruct HP as (E & _). rewrite E. reflexivity.
    - cbn [rsum]. rewrite IH by lia. unfold group_sum.
      pose proof (partition_mono _ _ _ n (S n) HP ltac:(lia) Hn).
      replace (n + 1)%nat with (S n) by lia.
      replace (idx (S n)) with (idx n + (idx (S n) - idx n))%nat at 2 by lia.
      rewrite rsum_split. reflexivity. }
  rewrite K by lia. destruct HP as (_ & E & _). rewrite E. reflexivity.
Qed.

Lemma group_sum_ext idx c f g : (forall x, in_group idx c x -> f x = g x) -> group_sum idx c f = group_sum idx c g.
Proof. intros H. unfold group_sum. apply rsum_ext. intros k Hk. apply H. unfold in_group. lia. Qed.

Lemma range_is_group idx c f : range_sum (idx c) (idx (c + 1)%nat) f = group_sum idx c f.
Proof. reflexivity. Qed.

Lemma block_telescope e idx c : (idx c <= idx (c + 1))%nat ->
  group_sum idx c (width e) = block_width e idx c.
Proof.
  intros H. unfold group_sum, block_width, width.
  transitivity (e (idx c + (idx (c + 1)%nat - idx c))%nat - e (idx c + 0)%nat).
  - rewrite <- (rsum_telescope (idx (c + 1)%nat - idx c) (fun j => e (idx c + j)%nat)).
    apply rsum_ext. intros k Hk. replace (idx c + k + 1)%nat with (idx c + S k)%nat by lia. reflexivity.
  - rewrite Nat.add_0_r. replace (idx c + (idx (c + 1) - idx c))%nat with (idx (c + 1)%nat) by lia. reflexivity.
Qed.

Lemma widths_positive fine coarse idx e : partition fine coarse idx -> monotone_edges fine e ->
  forall c, (c < coarse)%nat ->
    block_width e idx c <> 0 /\
    (forall g, in_group idx c g -> 0 < width e g / block_width e idx c) /\
    group_sum idx c (fun g => width e g / block_width e idx c) = 1.
Proof.
  intros HP He c Hc.
  assert (Hlt : (idx c < idx (c + 1))%nat) by (apply HP; exact Hc).
  assert (Hin : forall g, in_group idx c g -> (g < fine)%nat) by (intros; eapply in_group_fine; eauto).
  pose proof (block_telescope e idx c ltac:(lia)) as HT.
  assert (Hne : block_width e idx c <> 0).
  { rewrite <- HT. unfold group_sum. destruct He as [He|He].
    - assert (0 < rsum (idx (c + 1)%nat - idx c) (fun k => width e (idx c + k))); [|lra].
      apply rsum_pos; [lia|]. intros k Hk. unfold width.
      specialize (He (idx c + k)%nat). assert (Hx : (idx c + k < fine)%nat) by (apply Hin; unfold in_group; lia). specialize (He Hx). lra.
    - assert (0 < rsum (idx (c + 1)%nat - idx c) (fun k => - width e (idx c + k))).
      { apply rsum_pos; [lia|]. intros k Hk. unfold width.
        assert (Hx : (idx c + k < fine)%nat) by (apply Hin; unfold in_group; lia). specialize (He _ Hx). lra. }
      rewrite rsum_opp in H. lra. }
  split; [exact Hne|]. split.
  - intros g Hg. specialize (Hin g Hg) as Hx. destruct He as [He|He].
    + assert (0 < block_width e idx c).
      { rewrite <- HT. unfold group_sum. apply rsum_pos; [lia|]. intros k Hk. unfold width.
        assert (Hy : (idx c + k < fine)%nat) by (apply Hin; unfold in_group; lia). specialize (He _ Hy). lra. }
      apply Rdiv_lt_0_compat; [|assumption]. unfold width. specialize (He _ Hx). lra.
    + assert (block_width e idx c < 0).
      { rewrite <- HT. unfold group_sum.
        assert (0 < rsum (idx (c + 1)%nat - idx c) (fun k => - width e (idx c + k))); [|rewrite rsum_opp in *; lra].
        apply rsum_pos; [lia|]. intros k Hk. unfold width.
        assert (Hy : (idx c + k < fine)%nat) by (apply Hin; unfold in_group; lia). specialize (He _ Hy). lra. }
      replace (width e g / block_width e idx c) with ((- width e g) / (- block_width e idx c)) by (field; lra).
      apply Rdiv_lt_0_compat; [|lra]. unfold width. specialize (He _ Hx). lra.
  - unfold group_sum in *. rewrite rsum_div, HT. field. exact Hne.
Qed.

(** ** C43 *)
Lemma collided_index_eq fine coarse idx : partition fine coarse idx ->
  forall g, (g < fine)%nat -> (collided_index coarse idx g < coarse)%nat /\
    in_group idx (collided_index coarse idx g) g.
Proof.
  intros HP g Hg.
  assert (K : forall n, (n <= coarse)%nat -> (g < idx n)%nat ->
    (collided_index n idx g < n)%nat /\ in_group idx (collided_index n idx g) g).
  { induction n as [|n IH]; intros Hn Hlt.
    - destruct HP as (E & _). lia.
    - unfold collided_index. cbn [for_up]. fold (collided_index n idx).
      destruct (Nat.leb_spec (idx n) g) as [L|L]; cbn [andb].
      + replace (n + 1)%nat with (S n) by lia. destruct (Nat.ltb_spec g (idx (S n))); [|lia].
        split; [lia|]. unfold in_group. replace (n + 1)%nat with (S n) by lia. lia.
      + destruct (IH ltac:(lia) L) as [A B]. split; [lia|exact B]. }
  apply K; [lia|]. destruct HP as (_ & E & _). lia.
Qed.

Lemma collided_iff fine coarse idx : partition fine coarse idx ->
  forall g c, (g < fine)%nat -> (c < coarse)%nat -> (collided_index coarse idx g = c <-> in_group idx c g).
Proof.
  intros HP g c Hg Hc. destruct (collided_index_eq _ _ _ HP g Hg) as [A B]. split.
  - intros <-. exact B.
  - intros H. eapply partition_unique; eauto.
Qed.

Lemma uncollided_index_eq fine coarse idx : partition fine coarse idx ->
  forall c, (c <= coarse)%nat -> uncollided_index coarse idx c = idx c.
Proof.
  intros HP c Hc.
  assert (K : forall n, (n <= coarse)%nat -> uncollided_index n idx c = if Nat.leb c n then idx c else 0%nat).
  { induction n as [|n IH]; intros Hn.
    - cbn. destruct c; [destruct HP as (E & _); rewrite E; reflexivity|reflexivity].
    - unfold uncollided_index. cbn [for_up]. fold (uncollided_index n idx).
      replace (n + 1)%nat with (S n) by lia.
      destruct (Nat.eqb_spec c (S n)) as [-> |Hne]; [rewrite Nat.leb_refl; reflexivity|].
      rewrite IH by lia. destruct (Nat.leb_spec c n), (Nat.leb_spec c (S n)); try lia; reflexivity. }
  rewrite K by lia. destruct (Nat.leb_spec c coarse); [reflexivity|lia].
Qed.

(** ** C44 *)
Lemma factor_inner x n s : forall factor g,
  for_up n (fun k factor => upd factor (s + k) (factor (s + k)%nat / x)) factor g
  = if andb (Nat.leb s g) (Nat.ltb g (s + n)) then factor g / x else factor g.
Proof.
  induction n as [|n IH]; intros factor g; cbn [for_up].
  - destruct (Nat.leb_spec s g), (Nat.ltb_spec g (s + 0)); cbn [andb]; try lia; reflexivity.
  - unfold upd at 1. destruct (Nat.eqb_spec g (s + n)) as [-> |Hne].
    + rewrite IH. destruct (Nat.leb_spec s (s + n)), (Nat.ltb_spec (s + n) (s + n)), (Nat.ltb_spec (s + n) (s + S n)); cbn [andb]; try lia; reflexivity.
    + rewrite IH. destruct (Nat.leb_spec s g), (Nat.ltb_spec g (s + n)), (Nat.ltb_spec g (s + S n)); cbn [andb]; try lia; reflexivity.
Qed.

Lemma hybrid_factor_eq fine coarse idx df dc : partition fine coarse idx ->
  forall c g, (c < coarse)%nat -> in_group idx c g -> hybrid_factor df dc coarse idx g = df g / dc c.
Proof.
  intros HP c g Hc Hg.
  assert (K : forall n, (n <= coarse)%nat ->
    hybrid_factor df dc n idx g = if Nat.ltb c n then df g / dc c else df g).
  { induction n as [|n IH]; intros Hn; [reflexivity|].
    unfold hybrid_factor. cbn [for_up]. fold (hybrid_factor df dc n idx).
    rewrite factor_inner. replace (idx n + (idx (n + 1) - idx n))%nat with (idx (n + 1)%nat)
      by (pose proof (partition_mono _ _ _ n (n + 1) HP ltac:(lia) ltac:(lia)); lia).
    rewrite IH by lia. unfold in_group in Hg.
    destruct (Nat.lt_trichotomy c n) as [L|[L|L]].
    - pose proof (partition_mono _ _ _ (c + 1) n HP ltac:(lia) ltac:(lia)).
      destruct (Nat.leb_spec (idx n) g), (Nat.ltb_spec c n), (Nat.ltb_spec c (S n)); cbn [andb]; try lia; reflexivity.
    - subst n. destruct (Nat.leb_spec (idx c) g), (Nat.ltb_spec g (idx (c + 1)%nat)), (Nat.ltb_spec c c), (Nat.ltb_spec c (S c)); cbn [andb]; try lia; reflexivity.
    - pose proof (partition_mono _ _ _ (n + 1) c HP ltac:(lia) ltac:(lia)).
      destruct (Nat.leb_spec (idx n) g), (Nat.ltb_spec g (idx (n + 1)%nat)), (Nat.ltb_spec c n), (Nat.ltb_spec c (S n)); cbn [andb]; try lia; reflexivity. }
  rewrite K by lia. destruct (Nat.ltb_spec c coarse); [reflexivity|lia].
Qed.
