(** dynamic_mode_decomp as a whole; the truncation counterexample. *)
From Coq Require Import Lra Lia.
From Verif Require Import Base BaseFacts SlabModel SlabSpec SphereModel MgModel MgSpec MgFacts DmdModel DmdSpec DmdFacts DmdFacts2 DmdFacts3.
Open Scope R_scope.

(** ** C27 *)
Lemma dmd_history_iso svd P groups flux_old xs_total xs external boundary geometry warm K legs flux :
  dynamic_mode_decomp svd P groups flux_old xs_total (Scatter3 xs) external boundary geometry warm K legs = Ok flux ->
  accelerated_run svd (one_sweep_iso P groups xs_total xs external boundary geometry) (cells P) groups flux_old warm K flux.
Proof. cbn [dynamic_mode_decomp]. intros E. exact (driver_run _ _ _ _ _ _ _ _ E). Qed.

Lemma dmd_history_aniso svd P groups nm flux_old xs_total xs external boundary geometry warm K legs flux :
  dynamic_mode_decomp svd P groups flux_old xs_total (Scatter4 nm xs) external boundary geometry warm K legs = Ok flux ->
  exists leg legw,
    match legs with
    | Some l => l = (leg, legw)
    | None => legendre_polynomials nm (mu P) = Ok leg /\ forall l n, legw l n = wt P n * leg l n
    end /\
    accelerated_run svd (one_sweep_aniso P groups nm xs_total xs external boundary geometry leg legw) (cells P) groups
      flux_old warm K flux.
Proof.
  cbn [dynamic_mode_decomp]. destruct legs as [[leg legw]|]; cbn [bind].
  - intros E. exists leg, legw. split; [reflexivity|]. exact (driver_run _ _ _ _ _ _ _ _ E).
  - destruct (legendre_polynomials nm (mu P)) as [leg|e] eqn:El; cbn [bind]; [|discriminate].
    intros E. exists leg, (fun l n => wt P n * leg l n). split; [split; reflexivity|].
    exact (driver_run _ _ _ _ _ _ _ _ E).
Qed.

Lemma warmup_total sweep change : (forall x, exists y, sweep x = Ok y) ->
  forall warm flux flux_old, exists r, dmd_warmup sweep change warm flux flux_old = Ok r.
Proof.
  intros Hs. induction warm as [|w IH]; intros flux flux_old; cbn [dmd_warmup]; [eauto|].
  destruct (Hs flux_old) as [y ->]. cbn [bind]. destruct (below _ _); [eauto|apply IH].
Qed.

Lemma collect_total sweep change groups K : (forall x, exists y, sweep x = Ok y) ->
  forall todo kk flux flux_old ym yp, exists r, dmd_collect_loop sweep change groups K todo kk flux flux_old ym yp = Ok r.
Proof.
  intros Hs. induction todo as [|w IH]; intros kk flux flux_old ym yp; cbn [dmd_collect_loop]; [eauto|].
  destruct (Hs flux_old) as [y ->]. cbn [bind]. destruct (below _ _); [eauto|apply IH].
Qed.

Lemma solve_error n : forall M b e, linalg_solve n M b = Raise e -> e = LinAlgError.
Proof. intros M b e E. exact (proj1 (solve_singular n M b e E)). Qed.

Lemma dmd_error svd cells groups fo ym yp K e : (2 <= K)%nat ->
  dmd svd cells groups fo ym yp K = Raise e -> e = LinAlgError.
Proof.
  intros HK. unfold dmd. destruct (svd_dmd _ _ _ _ _) as [[[size U] si] Vt].
  destruct (Nat.eqb_spec (K - 1) 0); [lia|].
  destruct (linalg_solve _ _ _) as [d|e'] eqn:E; cbn [bind]; [discriminate|]. intros H. injection H as <-.
  exact (solve_error _ _ _ _ E).
Qed.

(** slab runs: an answer, or the singular reduced system *)
Lemma dmd_completes svd P groups flux_old xs_total xs external boundary warm K legs :
  nonzero_ordinates (angles P) (mu P) -> (2 <= K)%nat ->
  (exists flux, dynamic_mode_decomp svd P groups flux_old xs_total (Scatter3 xs) external boundary 1 warm K legs = Ok flux) \/
  dynamic_mode_decomp svd P groups flux_old xs_total (Scatter3 xs) external boundary 1 warm K legs = Raise LinAlgError.
Proof.
  intros Hn HK. cbn [dynamic_mode_decomp]. unfold dmd_driver.
  set (sweep := one_sweep_iso P groups xs_total xs external boundary 1).
  assert (Hs : forall x, exists y, sweep x = Ok y) by (intros x; apply one_sweep_total; exact Hn).
  destruct (warmup_total sweep (rel_change2 (cells P) groups) Hs warm zeros2 flux_old) as [[f [fo|]] ->]; cbn [bind]; [|left; eauto].
  unfold dmd_collect. destruct (Nat.eqb_spec K 0); [lia|].
  destruct (collect_total sweep (rel_change2 (cells P) groups) groups K Hs K 0%nat f fo zeros2 zeros2) as [[f' [[ym yp]|]] ->]; cbn [bind]; [|left; eauto].
  destruct (dmd svd (cells P) groups f' ym yp K) as [r|e] eqn:E; [left; eauto|].
  right. f_equal. exact (dmd_error _ _ _ _ _ _ _ _ HK E).
Qed.

(** too few snapshots *)
Lemma dmd_few_snapshots svd P groups flux_old xs_total xs external boundary warm K legs :
  nonzero_ordinates (angles P) (mu P) -> (K <= 1)%nat ->
  (exists x n flux, dynamic_mode_decomp svd P groups flux_old xs_total (Scatter3 xs) external boundary 1 warm K legs = Ok flux /\
     flux = x (S n) /\ one_sweep_iso P groups xs_total xs external boundary 1 (x n) = Ok (x (S n)) /\
     settled2 (cells P) groups (x (S n)) (x n) (/ 10 ^ 8)) \/
  dynamic_mode_decomp svd P groups flux_old xs_total (Scatter3 xs) external boundary 1 warm K legs
    = Raise (if Nat.eqb K 0 then ValueError else IndexError).
Proof.
  intros Hn HK.
  destruct (dynamic_mode_decomp svd P groups flux_old xs_total (Scatter3 xs) external boundary 1 warm K legs) as [flux|e] eqn:E.
  - left. destruct (dmd_history_iso _ _ _ _ _ _ _ _ _ _ _ _ _ E) as (x & n & _ & _ & Hs & _ & [(H0 & Hf & Hb)|(_ & HK2 & _)]); [|lia].
    destruct n as [|n]; [lia|]. exists x, n, flux. split; [reflexivity|]. split; [exact Hf|].
    replace (S n - 1)%nat with n in Hb by lia. split; [apply Hs; lia|exact Hb].
  - right. cbn [dynamic_mode_decomp] in E. unfold dmd_driver in E.
    set (sweep := one_sweep_iso P groups xs_total xs external boundary 1) in *.
    assert (Hs : forall x, exists y, sweep x = Ok y) by (intros x; apply one_sweep_total; exact Hn).
    destruct (warmup_total sweep (rel_change2 (cells P) groups) Hs warm zeros2 flux_old) as [[f [fo|]] Ew]; rewrite Ew in E; cbn [bind] in E; [|discriminate].
    unfold dmd_collect in E. destruct (Nat.eqb_spec K 0) as [Z|Z]; cbn [bind] in E; [congruence|].
    destruct (collect_total sweep (rel_change2 (cells P) groups) groups K Hs K 0%nat f fo zeros2 zeros2) as [[f' [[ym yp]|]] Ec]; rewrite Ec in E; cbn [bind] in E; [|discriminate].
    assert (K = 1%nat) by lia. subst K. unfold dmd in E. destruct (svd_dmd _ _ _ _ _) as [[[size U] si] Vt].
    cbn [Nat.sub Nat.eqb] in E. congruence.
Qed.

(** an exact solution is returned unchanged *)
Lemma dmd_fixed_start svd sweep cells groups phi warm K : sweep phi = Ok phi ->
  has_zero2 cells groups phi = false -> (0 < warm + K)%nat ->
  (0 < K)%nat -> dmd_driver svd sweep cells groups phi warm K = Ok phi.
Proof.
  intros Hs Hz HW HK. unfold dmd_driver.
  assert (Hb : below (rel_change2 cells groups phi phi) change_gg = true).
  { rewrite rel_change2_same by (apply has_zero2_false; exact Hz). apply below_true. exists 0. split; [reflexivity|]. unfold change_gg.
    apply Rinv_0_lt_compat. apply pow_lt. lra. }
  destruct warm as [|w]; cbn [dmd_warmup bind].
  - unfold dmd_collect. destruct (Nat.eqb_spec K 0); [lia|]. destruct K as [|K]; [lia|].
    cbn [dmd_collect_loop]. rewrite Hs. cbn [bind]. rewrite Hb. reflexivity.
  - rewrite Hs. cbn [bind]. rewrite Hb. reflexivity.
Qed.

Lemma dmd_keeps_solution svd P groups phi xs_total xs external boundary geometry warm K legs :
  one_sweep_iso P groups xs_total xs external boundary geometry phi = Ok phi ->
  (forall i g, (i < cells P)%nat -> (g < groups)%nat -> phi i g <> 0) -> (0 < K)%nat ->
  dynamic_mode_decomp svd P groups phi xs_total (Scatter3 xs) external boundary geometry warm K legs = Ok phi.
Proof.
  intros Hs Hz HK. cbn [dynamic_mode_decomp]. apply dmd_fixed_start; [exact Hs| |lia|exact HK].
  apply has_zero2_false. exact Hz.
Qed.
