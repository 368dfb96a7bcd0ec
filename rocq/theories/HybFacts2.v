(** Coarsening identities and the hybrid source kernels. *)
From Coq Require Import Lia Lra Psatz FunctionalExtensionality.
From Verif Require Import Base BaseFacts SlabModel MgModel MgFacts4 HybModel HybSpec HybFacts.
Open Scope R_scope.

Lemma group_sum_scal idx c a f : group_sum idx c (fun g => a * f g) = a * group_sum idx c f.
Proof. unfold group_sum. apply rsum_scal. Qed.
Lemma group_sum_plus idx c f g : group_sum idx c (fun x => f x + g x) = group_sum idx c f + group_sum idx c g.
Proof. unfold group_sum. apply rsum_plus. Qed.
Lemma group_sum_div idx c a f : group_sum idx c (fun g => f g / a) = group_sum idx c f / a.
Proof. unfold group_sum. apply rsum_div. Qed.
Lemma group_sum_le idx c f g : (forall x, in_group idx c x -> f x <= g x) -> group_sum idx c f <= group_sum idx c g.
Proof. intros H. unfold group_sum. apply rsum_le. intros k Hk. apply H. unfold in_group. lia. Qed.
Lemma group_sum_swap idx a b f :
  group_sum idx a (fun r => group_sum idx b (fun c => f r c)) = group_sum idx b (fun c => group_sum idx a (fun r => f r c)).
Proof. unfold group_sum. apply (rsum_swap _ _ (fun i j => f (idx a + i)%nat (idx b + j)%nat)). Qed.
Lemma group_sum_rsum idx a n f :
  group_sum idx a (fun r => rsum n (fun c => f r c)) = rsum n (fun c => group_sum idx a (fun r => f r c)).
Proof. unfold group_sum. apply (rsum_swap _ _ (fun i j => f (idx a + i)%nat j)). Qed.
Lemma group_sum_single fine coarse idx c f : partition fine coarse idx -> identity_grid coarse idx ->
  (c < coarse)%nat -> group_sum idx c f = f c.
Proof.
  intros HP HI Hc. unfold group_sum. rewrite (HI (c + 1)%nat), (HI c) by lia.
  replace (c + 1 - c)%nat with 1%nat by lia. cbn [rsum]. rewrite Nat.add_0_r. ring.
Qed.

(** ** C44 *)
Lemma factor_widths fine coarse idx e : partition fine coarse idx -> monotone_edges fine e ->
  let factor := hybrid_factor (ediff e) (coarse_diff e idx) coarse idx in
  forall c, (c < coarse)%nat ->
    (forall g, in_group idx c g -> factor g = width e g / block_width e idx c /\ 0 < factor g) /\
    group_sum idx c factor = 1.
Proof.
  intros HP He factor c Hc. destruct (widths_positive _ _ _ _ HP He c Hc) as (_ & Hpos & Hsum).
  assert (E : forall g, in_group idx c g -> factor g = width e g / block_width e idx c)
    by (intros g Hg; apply (hybrid_factor_eq fine); assumption).
  split.
  - intros g Hg. rewrite (E g Hg). split; [reflexivity|apply Hpos; exact Hg].
  - rewrite (group_sum_ext _ _ _ _ E). exact Hsum.
Qed.

Lemma monotone_compose n fine idxf e : partition n fine idxf -> monotone_edges n e ->
  monotone_edges fine (fun g => e (idxf g)).
Proof.
  intros HP He.
  assert (K : forall a d, (a + d <= n)%nat -> (0 < d)%nat ->
     ((forall g, (g < n)%nat -> e g < e (g + 1)%nat) -> e a < e (a + d)%nat) /\
     ((forall g, (g < n)%nat -> e (g + 1)%nat < e g) -> e (a + d)%nat < e a)).
  { intros a d. induction d as [|d IH]; intros Hd Hp; [lia|].
    destruct (Nat.eq_dec d 0) as [-> |Hd0].
    - split; intros H; apply H; lia.
    - destruct (IH ltac:(lia) ltac:(lia)) as [I1 I2]. replace (a + S d)%nat with (a + d + 1)%nat by lia.
      split; intros H; [specialize (I1 H)|specialize (I2 H)]; specialize (H (a + d)%nat ltac:(lia)); lra. }
  assert (Hb : forall g, (g < fine)%nat -> (idxf g < idxf (g + 1) <= n)%nat).
  { intros g Hg. split; [apply HP; exact Hg|].
    pose proof (partition_mono _ _ _ (g + 1) fine HP ltac:(lia) ltac:(lia)). destruct HP as (_ & E & _). lia. }
  destruct He as [He|He]; [left|right]; intros g Hg; specialize (Hb g Hg);
    destruct (K (idxf g) (idxf (g + 1) - idxf g)%nat ltac:(lia) ltac:(lia)) as [K1 K2];
    replace (idxf g + (idxf (g + 1) - idxf g))%nat with (idxf (g + 1)%nat) in * by lia;
    [apply K1; exact He|apply K2; exact He].
Qed.

Lemma indexing_correct n fine coarse idxf idx e :
  partition n fine idxf -> partition fine coarse idx -> monotone_edges n e ->
  let '(fine_idx, coarse_idx, factor) := indexing e idxf coarse idx in
  (forall c, (c <= coarse)%nat -> fine_idx c = idx c) /\
  (forall g, (g < fine)%nat -> (coarse_idx g < coarse)%nat /\ in_group idx (coarse_idx g) g) /\
  (forall g, (g < fine)%nat ->
     factor g = width (fun h => e (idxf h)) g / block_width (fun h => e (idxf h)) idx (coarse_idx g)) /\
  (forall c, (c < coarse)%nat -> group_sum idx c factor = 1).
Proof.
  intros HPn HP He. unfold indexing.
  pose proof (monotone_compose _ _ _ _ HPn He) as Hm.
  split; [apply (uncollided_index_eq fine); exact HP|].
  split; [apply collided_index_eq; exact HP|]. split.
  - intros g Hg. destruct (collided_index_eq _ _ _ HP g Hg) as [A B].
    apply (hybrid_factor_eq fine); assumption.
  - intros c Hc. apply (factor_widths fine); assumption.
Qed.

(** ** C45 *)
Lemma vector_mean e idx v m c :
  xs_vector_coarsen v e idx m c = group_sum idx c (fun g => v m g * (width e g / block_width e idx c)).
Proof.
  unfold xs_vector_coarsen. rewrite range_is_group.
  change (coarse_diff e idx c) with (block_width e idx c). rewrite <- group_sum_div.
  apply group_sum_ext. intros g _. change (ediff e g) with (width e g). unfold Rdiv. ring.
Qed.

Lemma vector_facts fine coarse idx e v m : partition fine coarse idx -> monotone_edges fine e ->
  forall c, (c < coarse)%nat ->
    block_width e idx c * xs_vector_coarsen v e idx m c = group_sum idx c (fun g => width e g * v m g) /\
    (forall lo hi, (forall g, in_group idx c g -> lo <= v m g <= hi) -> lo <= xs_vector_coarsen v e idx m c <= hi) /\
    (forall k, (forall g, in_group idx c g -> v m g = k) -> xs_vector_coarsen v e idx m c = k).
Proof.
  intros HP He c Hc. destruct (widths_positive _ _ _ _ HP He c Hc) as (Hne & Hpos & Hsum).
  assert (Hb : forall lo hi, (forall g, in_group idx c g -> lo <= v m g <= hi) ->
     lo <= xs_vector_coarsen v e idx m c <= hi).
  { intros lo hi Hv. rewrite vector_mean.
    replace lo with (group_sum idx c (fun g => lo * (width e g / block_width e idx c)))
      by (rewrite group_sum_scal, Hsum; ring).
    replace hi with (group_sum idx c (fun g => hi * (width e g / block_width e idx c)))
      by (rewrite group_sum_scal, Hsum; ring).
    split; apply group_sum_le; intros g Hg; apply Rmult_le_compat_r;
      try (left; apply Hpos; exact Hg); apply Hv; exact Hg. }
  split; [|split; [exact Hb|]].
  - rewrite vector_mean, <- group_sum_scal. apply group_sum_ext. intros g _. field. exact Hne.
  - intros k Hk. destruct (Hb k k); [|lra]. intros g Hg. rewrite (Hk g Hg). lra.
Qed.

Lemma vector_identity fine idx e v m : partition fine fine idx -> identity_grid fine idx ->
  monotone_edges fine e -> forall c, (c < fine)%nat -> xs_vector_coarsen v e idx m c = v m c.
Proof.
  intros HP HI He c Hc. destruct (widths_positive _ _ _ _ HP He c Hc) as (Hne & _ & Hsum).
  rewrite vector_mean, (group_sum_single fine fine) by assumption.
  rewrite (group_sum_single fine fine) in Hsum by assumption. rewrite Hsum. ring.
Qed.

Definition mc (M : mat3) (e : vec) (idx : nat -> nat) : mat3 :=
  fun m a b => group_sum idx a (fun r => group_sum idx b (fun c => M m r c * (width e c / block_width e idx b))).

Lemma matrix_mean M e idx : xs_matrix_coarsen (Some M) e idx = Some (mc M e idx).
Proof.
  unfold xs_matrix_coarsen, mc. f_equal. extensionality m. extensionality a. extensionality b.
  rewrite range_is_group. change (coarse_diff e idx b) with (block_width e idx b).
  rewrite <- group_sum_div. apply group_sum_ext. intros r _. rewrite range_is_group, <- group_sum_div.
  apply group_sum_ext. intros c _. change (ediff e c) with (width e c). unfold Rdiv. ring.
Qed.

(** Out-scatter of a coarse group is the width-weighted mean of the fine out-scatter. *)
Lemma matrix_facts fine coarse idx e M : partition fine coarse idx -> monotone_edges fine e ->
  exists C, xs_matrix_coarsen (Some M) e idx = Some C /\
  forall m,
  (forall a b, (a < coarse)%nat -> (b < coarse)%nat ->
     block_width e idx b * C m a b =
     group_sum idx a (fun r => group_sum idx b (fun c => width e c * M m r c))) /\
  (forall b, (b < coarse)%nat ->
     rsum coarse (fun a => C m a b) =
     xs_vector_coarsen (fun m c => rsum fine (fun r => M m r c)) e idx m b) /\
  rsum coarse (fun a => rsum coarse (fun b => block_width e idx b * C m a b)) =
  rsum fine (fun r => rsum fine (fun c => width e c * M m r c)).
Proof.
  intros HP He. exists (mc M e idx). split; [apply matrix_mean|]. intros m.
  assert (A : forall a b, (a < coarse)%nat -> (b < coarse)%nat ->
     block_width e idx b * mc M e idx m a b =
     group_sum idx a (fun r => group_sum idx b (fun c => width e c * M m r c))).
  { intros a b Ha Hb. destruct (widths_positive _ _ _ _ HP He b Hb) as (Hne & _ & _).
    unfold mc. rewrite <- group_sum_scal. apply group_sum_ext. intros r _. rewrite <- group_sum_scal.
    apply group_sum_ext. intros c _. field. exact Hne. }
  split; [exact A|split].
  - intros b Hb. rewrite vector_mean. unfold mc. rewrite (group_sums fine coarse idx) by exact HP.
    rewrite <- group_sum_rsum. apply group_sum_ext. intros c _. rewrite rsum_scal_r. reflexivity.
  - rewrite (rsum_ext coarse _ (fun a => group_sum idx a (fun r => rsum fine (fun c => width e c * M m r c)))).
    + apply group_sums. exact HP.
    + intros a Ha. rewrite (rsum_ext coarse _ (fun b => group_sum idx a (fun r => group_sum idx b (fun c => width e c * M m r c)))).
      * rewrite <- group_sum_rsum. apply group_sum_ext. intros r _. apply group_sums. exact HP.
      * intros b Hb. apply A; assumption.
Qed.

Lemma matrix_identity fine idx e M : partition fine fine idx -> identity_grid fine idx ->
  monotone_edges fine e ->
  exists C, xs_matrix_coarsen (Some M) e idx = Some C /\
    forall m a b, (a < fine)%nat -> (b < fine)%nat -> C m a b = M m a b.
Proof.
  intros HP HI He. exists (mc M e idx). split; [apply matrix_mean|]. intros m a b Ha Hb.
  destruct (widths_positive _ _ _ _ HP He b Hb) as (Hne & _ & Hsum).
  unfold mc. rewrite !(group_sum_single fine fine) by assumption.
  rewrite (group_sum_single fine fine) in Hsum by assumption. rewrite Hsum. ring.
Qed.

(** Reaction rates of a flux spread by width are preserved. *)
Lemma spread_rates fine coarse idx e owner F : partition fine coarse idx -> monotone_edges fine e ->
  (forall g, (g < fine)%nat -> (owner g < coarse)%nat /\ in_group idx (owner g) g) ->
  (forall v m c, (c < coarse)%nat ->
     group_sum idx c (fun g => v m g * spread e idx owner F g) = xs_vector_coarsen v e idx m c * F c) /\
  (forall M C, xs_matrix_coarsen (Some M) e idx = Some C ->
     forall m a, (a < coarse)%nat ->
       group_sum idx a (fun r => rsum fine (fun g => M m r g * spread e idx owner F g))
       = rsum coarse (fun b => C m a b * F b)).
Proof.
  intros HP He Ho.
  assert (Hown : forall c g, (c < coarse)%nat -> in_group idx c g -> owner g = c).
  { intros c g Hc Hg. destruct (Ho g (in_group_fine _ _ _ _ _ HP Hc Hg)) as [A B].
    eapply partition_unique; eauto. }
  split.
  - intros v m c Hc. rewrite vector_mean, Rmult_comm, <- group_sum_scal. apply group_sum_ext. intros g Hg.
    unfold spread. rewrite (Hown c g Hc Hg). ring.
  - intros M C E m a Ha. rewrite matrix_mean in E. injection E as <-.
    rewrite (group_sum_ext _ _ _ (fun r => rsum coarse (fun b => group_sum idx b (fun g => M m r g * spread e idx owner F g))))
      by (intros r _; symmetry; apply group_sums; exact HP).
    rewrite group_sum_rsum. apply rsum_ext. intros b Hb. unfold mc. rewrite Rmult_comm, <- group_sum_scal.
    apply group_sum_ext. intros r _. rewrite <- group_sum_scal. apply group_sum_ext. intros g Hg.
    unfold spread. rewrite (Hown b g Hb Hg). ring.
Qed.

Lemma velocity_facts fine coarse idx v : partition fine coarse idx ->
  (forall c, (c < coarse)%nat ->
     INR (idx (c + 1)%nat - idx c) * coarsen_velocity v idx c = group_sum idx c v /\
     (forall lo hi, (forall g, in_group idx c g -> lo <= v g <= hi) -> lo <= coarsen_velocity v idx c <= hi)) /\
  (identity_grid coarse idx -> forall c, (c < coarse)%nat -> coarsen_velocity v idx c = v c).
Proof.
  intros HP. assert (Hn : forall c, (c < coarse)%nat -> 0 < INR (idx (c + 1)%nat - idx c)).
  { intros c Hc. assert ((idx c < idx (c + 1))%nat) by (apply HP; exact Hc). apply lt_0_INR. lia. }
  split.
  - intros c Hc. specialize (Hn c Hc). unfold coarsen_velocity. rewrite range_is_group. split.
    + field. lra.
    + intros lo hi Hv.
      assert (A : INR (idx (c + 1)%nat - idx c) * lo <= group_sum idx c v).
      { rewrite <- rsum_const. apply (group_sum_le idx c (fun _ => lo)). intros g Hg. apply Hv; exact Hg. }
      assert (B : group_sum idx c v <= INR (idx (c + 1)%nat - idx c) * hi).
      { rewrite <- rsum_const. apply (group_sum_le idx c v (fun _ => hi)). intros g Hg. apply Hv; exact Hg. }
      split; [apply Rmult_le_reg_r with (INR (idx (c + 1)%nat - idx c))|apply Rmult_le_reg_r with (INR (idx (c + 1)%nat - idx c))];
        try assumption; unfold Rdiv; rewrite ?Rmult_assoc, ?Rinv_l by lra; lra.
  - intros HI c Hc. unfold coarsen_velocity. rewrite range_is_group, (group_sum_single fine coarse) by assumption.
    rewrite (HI (c + 1)%nat), (HI c) by lia. replace (c + 1 - c)%nat with 1%nat by lia. cbn [INR]. field.
Qed.

(** ** C46 *)
Lemma external_totals fine coarse idx e q : partition fine coarse idx -> fine <> 1%nat ->
  let r := coarsen_external fine q e coarse idx false in
  fst r = coarse /\
  (forall c, (c < coarse)%nat -> snd r c = group_sum idx c q) /\
  rsum coarse (snd r) = rsum fine q.
Proof.
  intros HP Hf. unfold coarsen_external. destruct (Nat.eqb_spec fine 1); [contradiction|]. cbn [fst snd].
  split; [reflexivity|split; [reflexivity|]]. apply group_sums. exact HP.
Qed.

Lemma external_weighted fine coarse idx e q : partition fine coarse idx -> monotone_edges fine e -> fine <> 1%nat ->
  let r := coarsen_external fine q e coarse idx true in
  fst r = coarse /\
  rsum coarse (fun c => block_width e idx c * snd r c) = rsum fine (fun g => width e g * q g) /\
  forall c, (c < coarse)%nat -> snd r c = xs_vector_coarsen (fun _ => q) e idx 0%nat c.
Proof.
  intros HP He Hf. unfold coarsen_external. destruct (Nat.eqb_spec fine 1); [contradiction|]. cbn [fst snd].
  split; [reflexivity|]. split; [|reflexivity].
  rewrite <- (group_sums fine coarse idx) by exact HP. apply rsum_ext. intros c Hc.
  apply (vector_facts fine coarse idx e (fun _ => q) 0%nat HP He c Hc).
Qed.

(** ** kernels *)
Lemma add_loop2 n (body : nat -> mat2 -> mat2) (d : nat -> nat -> nat -> R) :
  (forall k t x y, (k < n)%nat -> body k t x y = t x y + d k x y) ->
  forall a x y, for_up n body a x y = a x y + rsum n (fun k => d k x y).
Proof.
  induction n as [|n IH]; intros Hb a x y; cbn [for_up rsum]; [ring|].
  rewrite Hb by lia. rewrite IH by (intros; apply Hb; lia). ring.
Qed.

Lemma collided_closed cells groups flux xs src medium ci i g : (i < cells)%nat ->
  hybrid_source_collided cells groups flux xs src medium ci i g
  = rsum groups (fun og => if Nat.eqb g (ci og) then rsum groups (fun ig => flux i ig * xs (medium i) og ig) else 0).
Proof.
  intros Hi. unfold hybrid_source_collided.
  rewrite (add_loop2 cells _ (fun ii x y => if Nat.eqb x ii then
     rsum groups (fun og => if Nat.eqb y (ci og) then rsum groups (fun ig => flux ii ig * xs (medium ii) og ig) else 0) else 0)).
  - rewrite (rsum_single _ _ i Hi) by (intros k Hk Hne; destruct (Nat.eqb_spec i k); [lia|reflexivity]).
    rewrite Nat.eqb_refl. ring.
  - intros ii t x y Hii.
    rewrite (add_loop2 groups _ (fun og x y => if andb (Nat.eqb x ii) (Nat.eqb y (ci og))
       then rsum groups (fun ig => flux ii ig * xs (medium ii) og ig) else 0)).
    + destruct (Nat.eqb x ii); cbn [andb]; [reflexivity|]. rewrite rsum_zero. reflexivity.
    + intros og t' x' y' Hog.
      rewrite (add_loop2 groups _ (fun ig x y => if andb (Nat.eqb x ii) (Nat.eqb y (ci og))
         then flux ii ig * xs (medium ii) og ig else 0)).
      * destruct (andb (Nat.eqb x' ii) (Nat.eqb y' (ci og))); [reflexivity|]. rewrite rsum_zero. reflexivity.
      * intros ig t'' x'' y'' _. destruct (andb _ _); ring.
Qed.

(** Sum over the groups owned by [c]. *)
Lemma owner_sum fine coarse idx c f : partition fine coarse idx -> (c < coarse)%nat ->
  rsum fine (fun g => if Nat.eqb c (collided_index coarse idx g) then f g else 0) = group_sum idx c f.
Proof.
  intros HP Hc. rewrite <- (group_sums fine coarse idx _ HP).
  rewrite (rsum_single _ _ c Hc) by (intros d Hd Hne; unfold group_sum; apply rsum_zero_ext;
    intros k Hk; assert (Hin : in_group idx d (idx d + k)%nat) by (unfold in_group; lia);
    destruct (Nat.eqb_spec c (collided_index coarse idx (idx d + k)%nat)) as [E|E]; [|reflexivity];
    exfalso; apply Hne; symmetry; rewrite E;
    apply (collided_iff _ _ _ HP); [eapply in_group_fine; eauto|exact Hd|exact Hin]).
  apply group_sum_ext. intros g Hg.
  assert (E : collided_index coarse idx g = c)
    by (apply (collided_iff _ _ _ HP); [eapply in_group_fine; eauto|exact Hc|exact Hg]).
  rewrite E, Nat.eqb_refl. reflexivity.
Qed.

Lemma collided_source_conserves cells fine coarse idx flux xs src medium : partition fine coarse idx ->
  let s := hybrid_source_collided cells fine flux xs src medium (collided_index coarse idx) in
  forall i, (i < cells)%nat ->
    (forall c, (c < coarse)%nat ->
       s i c = group_sum idx c (fun o => rsum fine (fun h => xs (medium i) o h * flux i h))) /\
    rsum coarse (s i) = rsum fine (fun o => rsum fine (fun h => xs (medium i) o h * flux i h)).
Proof.
  intros HP s i Hi.
  assert (A : forall c, (c < coarse)%nat ->
       s i c = group_sum idx c (fun o => rsum fine (fun h => xs (medium i) o h * flux i h))).
  { intros c Hc. unfold s. rewrite collided_closed by exact Hi. rewrite owner_sum by assumption.
    apply group_sum_ext. intros o _. apply rsum_ext. intros h _. ring. }
  split; [exact A|]. rewrite (rsum_ext _ _ _ A). apply group_sums. exact HP.
Qed.

Lemma collided_source_fresh cells groups flux xs s1 s2 medium ci i g : (i < cells)%nat ->
  hybrid_source_collided cells groups flux xs s1 medium ci i g
  = hybrid_source_collided cells groups flux xs s2 medium ci i g.
Proof. intros Hi. rewrite !collided_closed by exact Hi. reflexivity. Qed.

(** total source *)
Lemma combine_loop groups (fc : mat2) ci fac ii (fu : mat2) i g :
  for_up groups (fun og fu => fun i g => if andb (Nat.eqb i ii) (Nat.eqb g og)
      then fu ii og + fc ii (ci og) * fac og else fu i g) fu i g
  = if andb (Nat.eqb i ii) (Nat.ltb g groups) then fu i g + fc i (ci g) * fac g else fu i g.
Proof.
  destruct (Nat.eqb_spec i ii) as [-> |Hne]; cbn [andb].
  - rewrite (own_loop2 groups _ (fun _ y => y) (fun x y r => if Nat.eqb x ii then r + fc ii (ci y) * fac y else r)).
    + rewrite Nat.eqb_refl. reflexivity.
    + intros k t x y Hk. destruct (Nat.eqb_spec x ii) as [-> |Hx]; cbn [andb].
      * destruct (Nat.eqb_spec y k) as [-> |]; reflexivity.
      * destruct (Nat.eqb y k); reflexivity.
  - induction groups as [|n IH]; cbn [for_up]; [reflexivity|].
    destruct (Nat.eqb_spec i ii); [contradiction|]. cbn [andb]. exact IH.
Qed.

Lemma hybrid_total_eq cells angles groups fu fc xs q medium ci fac :
  let r := hybrid_source_total cells angles groups fu fc xs q medium ci fac in
  let comb i g := fu i g + fc i (ci g) * fac g in
  (forall i g, (i < cells)%nat -> (g < groups)%nat -> fst r i g = comb i g) /\
  (forall i n g, (i < cells)%nat -> (n < angles)%nat -> (g < groups)%nat ->
     snd r i n g = q i n g + rsum groups (fun h => xs (medium i) g h * comb i h)).
Proof.
  intros r comb. unfold r, hybrid_source_total. clear r.
  match goal with |- context [for_up cells ?B (fu, q)] => set (body := B) end.
  assert (K : forall k, (k <= cells)%nat ->
    (forall i g, fst (for_up k body (fu, q)) i g = if andb (Nat.ltb i k) (Nat.ltb g groups) then comb i g else fu i g) /\
    (forall i n g, snd (for_up k body (fu, q)) i n g = if andb (Nat.ltb i k) (andb (Nat.ltb n angles) (Nat.ltb g groups))
        then q i n g + rsum groups (fun h => xs (medium i) g h * comb i h) else q i n g)).
  { induction k as [|k IH]; intros Hk; cbn [for_up].
    - split; reflexivity.
    - destruct (IH ltac:(lia)) as [I1 I2]. set (st := for_up k body (fu, q)) in *. clearbody st.
      unfold body. cbn zeta. cbn [fst snd].
      assert (F : forall i g, for_up groups (fun og fu => fun i g => if andb (Nat.eqb i k) (Nat.eqb g og)
                      then fu k og + fc k (ci og) * fac og else fu i g) (fst st) i g
              = if andb (Nat.ltb i (S k)) (Nat.ltb g groups) then comb i g else fu i g).
      { intros i g. rewrite combine_loop, I1. unfold comb.
        destruct (Nat.eqb_spec i k) as [-> |Hne]; cbn [andb].
        - rewrite Nat.ltb_irrefl. rewrite (proj2 (Nat.ltb_lt k (S k))) by lia. cbn [andb]. destruct (Nat.ltb g groups); reflexivity.
        - destruct (Nat.ltb_spec i k), (Nat.ltb_spec i (S k)); try lia; reflexivity. }
      split; [exact F|].
      intros i n g.
      rewrite (own_loop groups _ (fun _ _ z => z) (fun x y z r => if andb (Nat.eqb x k) (Nat.ltb y angles)
         then r + rsum groups (fun h => xs (medium k) z h * comb k h) else r)).
      + rewrite I2. destruct (Nat.eqb_spec i k) as [-> |Hne]; cbn [andb].
        * rewrite Nat.ltb_irrefl. rewrite (proj2 (Nat.ltb_lt k (S k))) by lia. cbn [andb].
          destruct (Nat.ltb g groups), (Nat.ltb n angles); reflexivity.
        * destruct (Nat.ltb_spec i k), (Nat.ltb_spec i (S k)); try lia; cbn [andb];
            destruct (Nat.ltb g groups), (Nat.ltb n angles); reflexivity.
      + intros og t x y z Hog.
        rewrite (own_loop angles _ (fun _ y _ => y) (fun x y z r => if andb (Nat.eqb x k) (Nat.eqb z og)
          then r + rsum groups (fun h => xs (medium k) og h * comb k h) else r)).
        * destruct (Nat.eqb_spec z og) as [-> |]; [|rewrite andb_false_r; destruct (Nat.ltb y angles); reflexivity].
          rewrite andb_true_r. destruct (Nat.eqb x k), (Nat.ltb y angles); reflexivity.
        * intros nn t' x' y' z' Hnn. unfold upd3. rewrite acc_scalar, Rplus_0_l.
          destruct (Nat.eqb_spec x' k) as [-> |]; cbn [andb]; [|destruct (Nat.eqb y' nn); reflexivity].
          destruct (Nat.eqb_spec y' nn) as [-> |]; cbn [andb]; [|reflexivity].
          destruct (Nat.eqb_spec z' og) as [-> |]; [|reflexivity]. f_equal. apply rsum_ext. intros h Hh.
          rewrite F. rewrite (proj2 (Nat.ltb_lt k (S k))) by lia. apply Nat.ltb_lt in Hh. rewrite Hh. cbn [andb]. ring. }
  destruct (K cells (le_n _)) as [K1 K2]. split.
  - intros i g Hi Hg. rewrite K1. apply Nat.ltb_lt in Hi, Hg. rewrite Hi, Hg. reflexivity.
  - intros i n g Hi Hn Hg. rewrite K2. apply Nat.ltb_lt in Hi, Hg, Hn. rewrite Hi, Hg, Hn. reflexivity.
Qed.
