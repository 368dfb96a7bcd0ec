(** Power-iteration loops: termination, normalization, fixed points, snapshots, ML variant. *)
From Coq Require Import Lra Lia ZArith FunctionalExtensionality.
From Verif Require Import Base BaseFacts SlabModel SlabSpec SlabFacts MgModel MgSpec MgFacts MgFacts2 MgFacts3 MgFacts4 MgFacts5 MgFacts6.
From Verif Require Import CritModel CritSpec CritFacts.
Open Scope R_scope.

(** One pass: transport solve with source emission/k, production ratio, normalization. *)
Lemma power_step_spec P groups xs_total xs_scatter f geometry flux_old k_old flux k :
  nonneg_fission (cells P) groups (medium P) f ->
  power_step P groups xs_total xs_scatter f geometry (flux_old, k_old) = Ok (flux, k) ->
  exists source raw,
    (forall i g, (i < cells P)%nat -> (g < groups)%nat ->
       source i g = emission groups f (medium P) flux_old i g / k_old) /\
    source_iteration P groups flux_old xs_total xs_scatter (mkArr3 1 groups (fun i _ g => source i g))
      (mkArr3 1 1 (fun _ _ _ => 0)) geometry None = Ok raw /\
    k = k_old * production (cells P) groups f (medium P) raw / production (cells P) groups f (medium P) flux_old /\
    (forall i g, flux i g = raw i g / norm2 (cells P) groups raw) /\
    (norm2 (cells P) groups flux = 1 \/ forall i g, (i < cells P)%nat -> (g < groups)%nat -> raw i g = 0).
Proof.
  intros Hn E. unfold power_step in E.
  set (source := fission_source (cells P) groups f (medium P) zeros2 flux_old k_old) in E.
  destruct (source_iteration P groups flux_old xs_total xs_scatter (as_source groups source) no_boundary geometry None)
    as [raw|e] eqn:Er; cbn [bind] in E; [|discriminate].
  injection E as <- <-. exists source, raw. split; [|split; [exact Er|split; [|split]]].
  - intros i g Hi Hg. apply fission_source_emission; assumption.
  - apply update_keff_ratio. exact Hn.
  - reflexivity.
  - destruct (Req_dec (norm2 (cells P) groups raw) 0) as [Hz|Hz].
    + right. apply norm2_zero. exact Hz.
    + left. apply normalized. exact Hz.
Qed.

Lemma power_trace P groups xs_total xs_scatter f geometry guess r :
  power_iteration P groups xs_total xs_scatter f geometry guess = Ok r ->
  power_exit (power_step P groups xs_total xs_scatter f geometry) (cells P) groups 100 (/ 10 ^ 6)
    (power_start (cells P) groups guess) r.
Proof.
  intros E. destruct (iterate_spec _ _ _ _ _ _ _ _ E) as (n & x & H1 & H2 & H3 & H4 & H5 & H6 & H7).
  change count_kk with 100%nat in *.
  exists n, x. split; [lia|]. split; [exact H3|]. split; [exact H4|]. split; [exact H5|]. split.
  - intros k Hk. apply below_unsettled2, (H6 k Hk).
  - intros Hlt. destruct H7 as [H7|H7]; [|lia]. apply below_settled2, H7.
Qed.

Lemma start_unit_norm cells groups guess : norm2 cells groups guess <> 0 ->
  norm2 cells groups (fst (power_start cells groups guess)) = 1 /\
  snd (power_start cells groups guess) = norm2 cells groups guess.
Proof.
  intros H. split; [|reflexivity]. cbn [power_start fst].
  rewrite (Rabs_right (norm2 cells groups guess)) by (apply Rle_ge, norm2_nonneg). apply normalized. exact H.
Qed.

Lemma power_total P groups xs_total xs_scatter f guess :
  nonzero_ordinates (angles P) (mu P) ->
  exists r, power_iteration P groups xs_total (Scatter3 xs_scatter) f 1 guess = Ok r.
Proof.
  intros Hz. apply iterate_total; [|unfold count_kk; lia].
  intros [flux k]. unfold power_step. cbn [source_iteration].
  match goal with |- context [source_iteration_iso ?P ?g ?o ?t ?s ?e ?b 1] =>
    destruct (outer_total P g o t s e b Hz) as [raw Er]; rewrite Er end.
  cbn [bind]. eauto.
Qed.

Lemma solution_external_ext P groups xs_total xs_scatter e1 e2 boundary phi :
  d3b e1 = d3b e2 -> d3c e1 = d3c e2 ->
  (forall i m g, (i < cells P)%nat -> (g < groups)%nat ->
     at3 e1 i (bidx (d3b e1) m) (bidx (d3c e1) g) = at3 e2 i (bidx (d3b e2) m) (bidx (d3c e2) g)) ->
  mg_solution P groups xs_total xs_scatter e1 boundary phi -> mg_solution P groups xs_total xs_scatter e2 boundary phi.
Proof.
  intros Hb Hc He (psi & H). exists psi. intros g Hg. eapply transport_ext; [| |apply H; exact Hg].
  - intros m i Hm Hi. unfold mg_source. rewrite He by assumption. reflexivity.
  - reflexivity.
Qed.

Lemma rel_change2_ext cells groups n1 n2 o1 o2 : agree2 cells groups n1 n2 -> agree2 cells groups o1 o2 ->
  rel_change2 cells groups n1 o1 = rel_change2 cells groups n2 o2.
Proof.
  intros Hn Ho. unfold rel_change2.
  assert (Z : has_zero2 cells groups n1 = has_zero2 cells groups n2).
  { destruct (has_zero2 cells groups n2) eqn:E2.
    - apply has_zero2_spec in E2. apply has_zero2_spec. destruct E2 as (i & g & Hi & Hg & H0).
      exists i, g. rewrite Hn by assumption. auto.
    - apply has_zero2_false. intros i g Hi Hg. rewrite Hn by assumption. revert i g Hi Hg. apply has_zero2_false. exact E2. }
  rewrite Z. destruct (has_zero2 cells groups n2); [reflexivity|]. do 2 f_equal.
  apply rsum_ext. intros i Hi. apply rsum_ext. intros g Hg. rewrite Hn, Ho by assumption. reflexivity.
Qed.

(** C32 *)
Lemma power_eigenpair P groups xs_total xs_scatter f phi k :
  nonzero_ordinates (angles P) (mu P) -> mg_divisors P groups xs_total ->
  nonneg_fission (cells P) groups (medium P) f ->
  eigenpair P groups xs_total xs_scatter f phi k ->
  0 < k -> norm2 (cells P) groups phi = 1 ->
  production (cells P) groups f (medium P) phi <> 0 ->
  (forall i g, (i < cells P)%nat -> (g < groups)%nat -> phi i g <> 0) ->
  exists flux,
    power_iteration P groups xs_total (Scatter3 xs_scatter) f 1 (fun i g => k * phi i g) = Ok (flux, k) /\
    agree2 (cells P) groups flux phi.
Proof.
  intros Hz Hd Hn Hsol Hk Hnorm Hp Hnz.
  assert (Hstart : power_start (cells P) groups (fun i g => k * phi i g) = (phi, k)).
  { unfold power_start.
    assert (E : norm2 (cells P) groups (fun i g => k * phi i g) = k).
    { rewrite (norm2_ext _ _ (fun i g => k * phi i g) (fun i g => phi i g * k)) by (intros i g _ _; ring).
      rewrite norm2_scale, Hnorm, Rabs_right by lra. ring. }
    rewrite E. f_equal. extensionality i. extensionality g. rewrite Rabs_right by lra. field. lra. }
  unfold power_iteration. rewrite Hstart. unfold count_kk at 1. cbn [iterate].
  set (source := fission_source (cells P) groups f (medium P) zeros2 phi k).
  assert (Hs : mg_solution P groups xs_total xs_scatter (as_source groups source) no_boundary phi).
  { eapply solution_external_ext; [| | |exact Hsol]; try reflexivity.
    intros i m g Hi Hg. cbn [at3 d3b d3c as_source]. symmetry.
    unfold source. apply fission_source_emission; [exact Hn|exact Hi|].
    unfold bidx. destruct (Nat.eqb_spec groups 1); lia. }
  destruct (solution_driver P groups xs_total xs_scatter (as_source groups source) no_boundary phi Hz Hd Hs) as (flux & E & Ha).
  unfold power_step at 1. fold source. cbn [source_iteration]. rewrite E. cbn [bind].
  assert (Hnf : norm2 (cells P) groups flux = 1) by (rewrite (norm2_ext _ _ _ _ Ha); exact Hnorm).
  rewrite Hnf.
  assert (Hkk : update_keff (cells P) groups f (medium P) flux phi k = k).
  { rewrite update_keff_ratio by exact Hn. rewrite (production_ext _ _ _ _ _ _ Ha). field. exact Hp. }
  rewrite Hkk.
  assert (Hc : flux_change (cells P) groups (fun i g => flux i g / 1, k) (phi, k) = Some 0).
  { unfold flux_change. cbn [fst]. rewrite (rel_change2_ext _ _ _ phi phi phi).
    - apply rel_change2_same. exact Hnz.
    - intros i g Hi Hg. rewrite Ha by assumption. field.
    - intros i g _ _. reflexivity. }
  rewrite Hc. cbn [below]. unfold change_kk.
  destruct (Rlt_dec 0 (/ 10 ^ 6)) as [_|Hbad]; [|exfalso; apply Hbad; apply Rinv_0_lt_compat, pow_lt; lra].
  cbn [orb]. eexists. split; [reflexivity|]. intros i g Hi Hg. rewrite Ha by assumption. field.
Qed.

(** C81: at an eigenpair k is the ratio of neutrons produced to neutrons lost *)
Lemma eigenvalue_balance P groups xs_total xs_scatter f phi k :
  (forall i, (i < cells P)%nat -> dx P i <> 0) -> k <> 0 ->
  eigenpair P groups xs_total xs_scatter f phi k ->
  exists psi,
    mg_transport P groups xs_total xs_scatter
      (mkArr3 1 groups (fun i _ g => emission groups f (medium P) phi i g / k))
      (mkArr3 1 1 (fun _ _ _ => 0)) psi phi /\
    k * (rsum groups (fun g => total_leakage (cells P) (angles P) (mu P) (wt P) (psi g))
         + rsum (cells P) (fun i => dx P i * rsum groups (fun g =>
             (xs_total (medium P i) g
              - rsum (angles P) (wt P) * rsum groups (fun o => xs_scatter (medium P i) o g)) * phi i g)))
    = rsum (angles P) (wt P) *
      rsum (cells P) (fun i => dx P i * rsum groups (fun g => emission groups f (medium P) phi i g)).
Proof.
  intros Hdx Hk (psi & HT). exists psi. split; [exact HT|].
  rewrite (mg_balance P groups xs_total xs_scatter _ _ psi phi Hdx HT).
  rewrite rsum_swap. rewrite <- !rsum_scal. apply rsum_ext. intros i Hi.
  rewrite rsum_scal. transitivity (dx P i * (k * rsum groups (fun g => rsum (angles P) (fun m => wt P m *
    (emission groups f (medium P) phi i g / k))))).
  - rewrite (rsum_ext groups (fun g => rsum (angles P) (fun m => wt P m * at3 _ _ _ _))
       (fun g => rsum (angles P) (fun m => wt P m * (emission groups f (medium P) phi i g / k)))).
    + ring.
    + intros g Hg. apply rsum_ext. intros m Hm. cbn [at3 d3b d3c].
      replace (bidx groups g) with g by (unfold bidx; destruct (Nat.eqb_spec groups 1); lia). reflexivity.
  - rewrite (rsum_ext groups _ (fun g => rsum (angles P) (wt P) / k * emission groups f (medium P) phi i g)).
    + rewrite (rsum_scal groups (rsum (angles P) (wt P) / k) (emission groups f (medium P) phi i)).
      change (rsum groups (fun g => emission groups f (medium P) phi i g))
        with (rsum groups (emission groups f (medium P) phi i)).
      generalize (rsum groups (emission groups f (medium P) phi i)) (rsum (angles P) (wt P)).
      intros E W. field. exact Hk.
    + intros g Hg. rewrite rsum_scal_r. unfold Rdiv. ring.
Qed.

(** C33 *)
Lemma collect_power_spec (step : mat2 * R -> outcome (mat2 * R)) change :
  forall fuel count st tracked, (1 <= count)%nat -> (count <= count_kk)%nat -> (count_kk - count < fuel)%nat ->
  match iterate fuel step change change_kk count_kk count st with
  | Ok r => exists l,
      collect_power_loop fuel step change count st tracked
      = Ok (r, map tracked (seq 0 (count - 1)) ++ map fst l) /\
      (1 <= length l)%nat /\ (count - 1 + length l <= count_kk)%nat /\
      nth (length l - 1) l st = r /\
      (forall k, (k < length l)%nat -> step (nth k (st :: l) st) = Ok (nth k l st))
  | Raise e => collect_power_loop fuel step change count st tracked = Raise e
  end.
Proof.
  induction fuel as [|fuel IH]; intros count st tracked Hc Hcap Hfuel; [lia|].
  cbn [iterate collect_power_loop]. destruct (step st) as [new|e] eqn:Es; cbn [bind]; [|reflexivity].
  assert (Hrow : py_index count_kk (Z.of_nat (S count) - 2) = Some (count - 1)%nat).
  { unfold py_index. change count_kk with 100%nat in *.
    destruct (Z.ltb_spec (Z.of_nat (S count) - 2) (- Z.of_nat 100)); [lia|].
    destruct (Z.ltb_spec (Z.of_nat (S count) - 2) 0); [lia|].
    destruct (Z.ltb_spec (Z.of_nat (S count) - 2) (Z.of_nat 100)); [|lia]. f_equal. lia. }
  rewrite Hrow.
  set (tr := fun k => if Nat.eqb k (count - 1) then fst new else tracked k).
  assert (Htr : map tr (seq 0 (S count - 1)) = map tracked (seq 0 (count - 1)) ++ [fst new]).
  { replace (S count - 1)%nat with (S (count - 1)) by lia. rewrite seq_S, map_app. f_equal.
    - apply map_ext_in. intros k Hk. apply in_seq in Hk. unfold tr. destruct (Nat.eqb_spec k (count - 1)); [lia|reflexivity].
    - cbn. unfold tr. rewrite Nat.eqb_refl. reflexivity. }
  destruct (below (change new st) change_kk || Nat.leb count_kk count)%bool eqn:Ec.
  - exists [new]. rewrite Htr. split; [reflexivity|]. cbn [length]. split; [lia|]. split; [lia|]. split; [reflexivity|].
    intros k Hk. assert (k = 0)%nat as -> by lia. cbn. exact Es.
  - apply orb_false_iff in Ec. destruct Ec as [_ Ec]. apply Nat.leb_gt in Ec.
    specialize (IH (S count) new tr ltac:(lia) ltac:(lia) ltac:(lia)).
    destruct (iterate fuel step change change_kk count_kk (S count) new) as [r|e]; [|exact IH].
    destruct IH as (l & E & Hl & Hb & Hlast & Hch).
    exists (new :: l). rewrite E, Htr, <- app_assoc. split; [reflexivity|].
    cbn [length]. split; [lia|]. split; [lia|]. split.
    + replace (S (length l) - 1)%nat with (S (length l - 1)) by lia. cbn [nth].
      rewrite <- Hlast. apply nth_indep. lia.
    + intros k Hk. destruct k as [|k]; [cbn; exact Es|]. cbn [nth].
      rewrite (nth_indep l st new) by lia. rewrite <- Hch by lia. f_equal. 
      change (nth k (new :: l) st = nth k (new :: l) new). apply nth_indep. cbn; lia.
Qed.

(** The saved array holds iterates 2, 3, ... in order: the first one is lost in every run. *)
Lemma collect_power_saved P groups xs_total xs_scatter f geometry guess r saved :
  collect_power_iteration P groups xs_total xs_scatter f geometry guess = Ok (r, saved) ->
  let start := power_start (cells P) groups guess in
  exists iterates,
    (1 <= length iterates <= 101)%nat /\
    (forall k, (k < length iterates)%nat ->
       collect_step P groups xs_total xs_scatter f geometry (nth k (start :: iterates) start)
       = Ok (nth k iterates start)) /\
    nth (length iterates - 1) iterates start = r /\
    saved = map fst (tl iterates).
Proof.
  intros E start. unfold collect_power_iteration in E. fold start in E.
  replace (count_kk + 1)%nat with (S count_kk) in E by lia. cbn [collect_power_loop] in E.
  set (step := collect_step P groups xs_total xs_scatter f geometry) in *.
  destruct (step start) as [new|e] eqn:Es; cbn [bind] in E; [|discriminate].
  assert (Hrow : py_index count_kk (Z.of_nat 1 - 2) = Some 99%nat) by reflexivity. rewrite Hrow in E.
  destruct (below (flux_change (cells P) groups new start) change_kk || Nat.leb count_kk 0)%bool eqn:Ec.
  - cbn [Nat.sub seq map] in E. injection E as <- <-. exists [new]. cbn [length tl map]. split; [lia|].
    split; [|split; reflexivity]. intros k Hk. assert (k = 0)%nat as -> by lia. exact Es.
  - match type of E with collect_power_loop _ _ ?ch _ _ ?tr = _ =>
      pose proof (collect_power_spec step ch count_kk 1 new tr ltac:(lia) ltac:(unfold count_kk; lia) ltac:(unfold count_kk; lia)) as H end.
    destruct (iterate count_kk step _ _ _ _ _) as [r'|e]; [|rewrite H in E; discriminate].
    destruct H as (l & E' & Hl & Hb & Hlast & Hch). rewrite E' in E. cbn [Nat.sub seq map app] in E. injection E as <- <-.
    exists (new :: l). cbn [length tl]. change count_kk with 100%nat in Hb. split; [lia|].
    split; [|split; [|reflexivity]].
    + intros k Hk. destruct k as [|k]; [exact Es|]. cbn [nth].
      rewrite (nth_indep l start new) by lia. rewrite <- Hch by lia. f_equal.
      change (nth k (new :: l) start = nth k (new :: l) new). apply nth_indep. cbn; lia.
    + replace (S (length l) - 1)%nat with (S (length l - 1)) by lia. cbn [nth].
      rewrite <- Hlast. apply nth_indep. lia.
Qed.

(** C33: the collecting pass is the pass of power_iteration *)
Lemma collect_step_is_power_step P groups xs_total xs_scatter f geometry st :
  collect_step P groups xs_total xs_scatter f geometry st
  = power_step P groups xs_total (Scatter3 xs_scatter) f geometry st.
Proof.
  destruct st as [flux k]. unfold collect_step, power_step. cbn [source_iteration].
  set (src := as_source groups _).
  pose proof (collect_returns P groups flux xs_total xs_scatter src no_boundary geometry) as H.
  destruct (source_iteration_iso P groups flux xs_total xs_scatter src no_boundary geometry) as [raw|e].
  - destruct H as (saved & -> & _). reflexivity.
  - rewrite H. reflexivity.
Qed.

(** C34 *)
Lemma ml_loop_spec (step : mat2 * R -> outcome (mat2 * R)) change :
  forall fuel count prev st r n, (count < ml_count_pp)%nat -> (ml_count_pp - count <= fuel)%nat ->
  ml_power_loop fuel step change count prev st = Ok (r, n) ->
  exists m x,
    n = (count + m)%nat /\ (1 <= m)%nat /\ (n <= ml_count_pp)%nat /\ x 0%nat = st /\
    (forall k, (k < m)%nat -> step (x k) = Ok (x (S k))) /\
    let chg k := match k with O => prev | S j => change (x k) (x j) end in
    (forall k, (0 < k < m)%nat -> float_below (chg k) ml_change_pp = false /\
       ((20 <= count + k)%nat -> float_gt (chg k) (chg (k - 1)%nat) = false)) /\
    ((r = x (m - 1)%nat /\ (20 <= n)%nat /\ float_gt (chg m) (chg (m - 1)%nat) = true) \/
     (r = x m /\ ((20 <= n)%nat -> float_gt (chg m) (chg (m - 1)%nat) = false) /\
      (float_below (chg m) ml_change_pp = true \/ n = ml_count_pp))).
Proof.
  induction fuel as [|fuel IH]; intros count prev st r n Hc Hf E; [lia|].
  cbn [ml_power_loop] in E. destruct (step st) as [new|e] eqn:Es; cbn [bind] in E; [|discriminate].
  set (one := fun k => if Nat.eqb k 0 then st else new).
  destruct (float_gt (change new st) prev && Nat.leb 20 (S count))%bool eqn:Eg.
  - apply andb_true_iff in Eg. destruct Eg as [Eg El]. apply Nat.leb_le in El. injection E as <- <-.
    exists 1%nat, one. split; [lia|]. split; [lia|]. split; [lia|]. split; [reflexivity|].
    split; [intros k Hk; assert (k = 0)%nat as -> by lia; exact Es|].
    cbv zeta. split; [intros; lia|]. left. split; [reflexivity|]. split; [lia|exact Eg].
  - destruct (float_below (change new st) ml_change_pp || Nat.leb ml_count_pp (S count))%bool eqn:Ec.
    + injection E as <- <-. exists 1%nat, one. split; [lia|]. split; [lia|]. split; [lia|]. split; [reflexivity|].
      split; [intros k Hk; assert (k = 0)%nat as -> by lia; exact Es|].
      cbv zeta. split; [intros; lia|]. right. split; [reflexivity|]. split.
      * intros Hn. destruct (float_gt (change new st) prev) eqn:Q; [|first [exact Q|reflexivity]].
        cbn [andb] in Eg. apply Nat.leb_gt in Eg. lia.
      * apply orb_true_iff in Ec. destruct Ec as [Ec|Ec]; [left; exact Ec|right; apply Nat.leb_le in Ec; lia].
    + apply orb_false_iff in Ec. destruct Ec as [Eb Ec]. apply Nat.leb_gt in Ec.
      destruct (IH (S count) (change new st) new r n ltac:(lia) ltac:(lia) E)
        as (m & x & Hn & Hm & Hcap & Hx0 & Hst & Hno & Hend). cbv zeta in Hno, Hend.
      exists (S m), (fun k => match k with O => st | S j => x j end).
      split; [lia|]. split; [lia|]. split; [exact Hcap|]. split; [reflexivity|]. split.
      { intros k Hk. destruct k as [|k]; [rewrite Hx0; exact Es|]. apply Hst. lia. }
      cbv zeta. split.
      * intros k Hk. destruct k as [|k]; [lia|]. destruct k as [|k].
        -- rewrite Hx0. split; [exact Eb|]. intros H20. cbn [Nat.sub].
           destruct (float_gt (change new st) prev) eqn:Q; [|first [exact Q|reflexivity]]. cbn [andb] in Eg. apply Nat.leb_gt in Eg. lia.
        -- specialize (Hno (S k) ltac:(lia)). destruct Hno as [N1 N2]. split; [exact N1|].
           intros H20. specialize (N2 ltac:(lia)). cbn [Nat.sub] in *. rewrite Nat.sub_0_r in N2.
           destruct k as [|k]; [rewrite Hx0 in *; exact N2|exact N2].
      * destruct m as [|m]; [lia|]. cbn [Nat.sub] in *. rewrite Nat.sub_0_r in Hend.
        destruct Hend as [(Hr & Hn20 & Hg)|(Hr & Hg & Hd)].
        -- left. split; [exact Hr|]. split; [exact Hn20|]. destruct m as [|m]; [rewrite Hx0 in *; exact Hg|exact Hg].
        -- right. split; [exact Hr|]. split; [|exact Hd]. intros H20. specialize (Hg H20).
           destruct m as [|m]; [rewrite Hx0 in *; exact Hg|exact Hg].
Qed.

(** the float comparisons in the words of the specification *)
Lemma float_change2_spec cells groups new old : change_of cells groups new old (float_change2 cells groups new old).
Proof.
  unfold float_change2. destruct (has_zero2 cells groups new) eqn:Hz.
  - destruct (has_zero2 cells groups (fun i g => if Req_EM_T (new i g) 0 then old i g else 1)) eqn:Ho.
    + apply has_zero2_spec in Ho. destruct Ho as (i & g & Hi & Hg & E). exists i, g. split; [exact Hi|]. split; [exact Hg|].
      destruct (Req_EM_T (new i g) 0); [split; assumption|lra].
    + split; [apply has_zero2_spec in Hz; exact Hz|].
      intros i g Hi Hg En. pose proof (proj1 (has_zero2_false _ _ _) Ho i g Hi Hg) as H. cbv beta in H.
      destruct (Req_EM_T (new i g) 0); [exact H|contradiction].
  - split; [exact (proj1 (has_zero2_false _ _ _) Hz)|].
    f_equal. apply rsum_ext. intros i Hi. apply rsum_ext. intros g Hg. unfold Rsqr. ring.
Qed.
Lemma float_gt_spec a b : float_gt a b = true <-> grew a b.
Proof.
  unfold float_gt, grew. destruct a as [x| |], b as [y| |]; split;
    try (intros; discriminate); try (intros (z & E & _); discriminate).
  - destruct (Rlt_dec y x) as [L|L]; [|discriminate]. intros _. exists y. split; [reflexivity|]. right. eauto.
  - intros (z & E & [Q|(w & Q & L)]); [discriminate|]. injection E as <-. injection Q as <-.
    destruct (Rlt_dec y x); [reflexivity|contradiction].
  - intros _. exists y. auto.
  - intros _. reflexivity.
  - intros (z & E & [Q|(w & Q & L)]); discriminate.
Qed.
Lemma float_below_spec a tol : float_below a tol = true <-> small a tol.
Proof.
  unfold float_below, small. destruct a as [x| |]; split; try discriminate; try (intros (z & E & _); discriminate).
  - destruct (Rlt_dec x tol) as [L|L]; [|discriminate]. eauto.
  - intros (z & E & L). injection E as <-. destruct (Rlt_dec x tol); [reflexivity|contradiction].
Qed.

(** what ml_power_iteration returns *)
Lemma ml_power_result P groups flux_old xs_total xs_scatter f geometry fm sm fl sl guess r :
  (0 < length fm + length sm)%nat ->
  ml_power_iteration P groups flux_old xs_total xs_scatter f geometry fm sm fl sl guess = Ok r ->
  exists n x,
    (1 <= n <= 50)%nat /\ x 0%nat = (flux_old, 1) /\
    (forall k, (k < n)%nat ->
       ml_power_step P groups xs_total xs_scatter f geometry fm sm fl sl (x k) = Ok (x (S k))) /\
    exists chg : nat -> float_change,
    chg 0%nat = Fin 100 /\
    (forall k, (k < n)%nat -> change_of (cells P) groups (fst (x (S k))) (fst (x k)) (chg (S k))) /\
    (forall k, (0 < k < n)%nat -> ~ small (chg k) (/ 10 ^ 5) /\
       ((20 <= k)%nat -> ~ grew (chg k) (chg (k - 1)%nat))) /\
    ((r = x (n - 1)%nat /\ (20 <= n)%nat /\ grew (chg n) (chg (n - 1)%nat)) \/
     (r = x n /\ ((20 <= n)%nat -> ~ grew (chg n) (chg (n - 1)%nat)) /\
      (small (chg n) (/ 10 ^ 5) \/ n = 50%nat))).
Proof.
  intros Hm E. unfold ml_power_iteration in E.
  replace (andb (Nat.eqb (length fm) 0) (Nat.eqb (length sm) 0)) with false in E.
  2:{ symmetry. apply andb_false_iff. destruct (Nat.eqb_spec (length fm) 0); [|left; reflexivity].
      right. apply Nat.eqb_neq. lia. }
  destruct (ml_power_loop _ _ _ _ _ _) as [[r' n]|e] eqn:El; cbn [bind] in E; [|discriminate]. injection E as <-.
  assert (H0 : (0 < ml_count_pp)%nat) by (unfold ml_count_pp; lia).
  assert (H1 : (ml_count_pp - 0 <= ml_count_pp)%nat) by lia.
  destruct (ml_loop_spec _ _ _ _ _ _ _ _ H0 H1 El)
    as (m & x & Hn & Hm1 & Hcap & Hx0 & Hst & Hno & Hend).
  cbn [Nat.add] in Hn. subst m. exists n, x. split; [split; [exact Hm1|exact Hcap]|].
  split; [exact Hx0|]. split; [exact Hst|]. cbv zeta in Hno, Hend.
  set (chg := fun k => match k with
                 | O => Fin 100
                 | S j => float_change2 (cells P) groups (fst (x k)) (fst (x j)) end).
  change (forall k, (0 < k < n)%nat -> float_below (chg k) (/ 10 ^ 5) = false /\
       ((20 <= k)%nat -> float_gt (chg k) (chg (k - 1)%nat) = false)) in Hno.
  change ((r' = x (n - 1)%nat /\ (20 <= n)%nat /\ float_gt (chg n) (chg (n - 1)%nat) = true) \/
     (r' = x n /\ ((20 <= n)%nat -> float_gt (chg n) (chg (n - 1)%nat) = false) /\
      (float_below (chg n) (/ 10 ^ 5) = true \/ n = 50%nat))) in Hend.
  exists chg. split; [reflexivity|]. split; [intros k _; apply float_change2_spec|].
  split.
  - intros k Hk. destruct (Hno k Hk) as [A B]. split; [rewrite <- float_below_spec, A; discriminate|].
    intros H20. rewrite <- float_gt_spec, (B H20). discriminate.
  - destruct Hend as [(A & B & C)|(A & B & C)].
    + left. split; [exact A|]. split; [exact B|]. apply float_gt_spec, C.
    + right. split; [exact A|]. split; [intros H20; rewrite <- float_gt_spec, (B H20); discriminate|].
      destruct C as [C|C]; [left; apply float_below_spec, C|right; exact C].
Qed.

(** with no models at all: the physics solver, whatever the starting flux given *)
Lemma ml_power_no_models P groups flux_old xs_total xs_scatter f geometry fl sl guess :
  ml_power_iteration P groups flux_old xs_total xs_scatter f geometry [] [] fl sl guess
  = power_iteration P groups xs_total (Scatter3 xs_scatter) f geometry guess.
Proof. reflexivity. Qed.

(** with integer placeholders for scatter and no fission model: one pass is a physics pass with
    the Jacobi scatter solve; with fission models the eigenvalue estimate is the flux norm *)
Lemma ml_step_norm P groups xs_total xs_scatter f geometry fm sm fl sl flux_old k_old flux k :
  ml_power_step P groups xs_total xs_scatter f geometry fm sm fl sl (flux_old, k_old) = Ok (flux, k) ->
  exists source raw,
    (* the fission source: computed with the previous k, or predicted without it *)
    (fm = [] -> nonneg_fission (cells P) groups (medium P) f ->
       forall i g, (i < cells P)%nat -> (g < groups)%nat -> source i g = emission groups f (medium P) flux_old i g / k_old) /\
    (fm <> [] -> forall xs, f = FissionMatrix xs ->
       source = fission_prod_predict (cells P) groups flux_old xs (medium P) 1 fm fl) /\
    (* the transport solve with that source and nothing entering from outside *)
    (sm = [] -> source_iteration P groups flux_old xs_total (Scatter3 xs_scatter) (mkArr3 1 groups (fun i _ g => source i g))
       (mkArr3 1 1 (fun _ _ _ => 0)) geometry None = Ok raw) /\
    (sm <> [] -> ml_source_iteration P groups flux_old xs_total xs_scatter (mkArr3 1 groups (fun i _ g => source i g))
       (mkArr3 1 1 (fun _ _ _ => 0)) geometry sm sl = Ok raw) /\
    (* the new pair *)
    (forall i g, flux i g = raw i g / norm2 (cells P) groups raw) /\
    (norm2 (cells P) groups flux = 1 \/ forall i g, (i < cells P)%nat -> (g < groups)%nat -> raw i g = 0) /\
    (fm <> [] -> k = norm2 (cells P) groups raw) /\
    (fm = [] -> nonneg_fission (cells P) groups (medium P) f ->
       k = k_old * production (cells P) groups f (medium P) raw / production (cells P) groups f (medium P) flux_old).
Proof.
  intros E. unfold ml_power_step in E. cbv zeta in E.
  match type of E with context [as_source groups ?s] => set (source := s) in * end.
  match type of E with bind ?m _ = _ => destruct m as [raw|e] eqn:Er; cbn [bind] in E; [|discriminate] end.
  injection E as <- <-. exists source, raw. split; [|split; [|split; [|split; [|split; [|split; [|split]]]]]].
  - intros -> Hn i g Hi Hg. apply fission_source_emission; assumption.
  - intros Hf xs ->. destruct fm; [congruence|]. reflexivity.
  - intros ->. exact Er.
  - intros Hs. destruct sm; [congruence|]. exact Er.
  - reflexivity.
  - destruct (Req_dec (norm2 (cells P) groups raw) 0) as [Hz|Hz]; [right; apply norm2_zero; exact Hz|left; apply normalized; exact Hz].
  - intros Hf. destruct fm; [congruence|]. reflexivity.
  - intros -> Hn. apply update_keff_ratio. exact Hn.
Qed.
