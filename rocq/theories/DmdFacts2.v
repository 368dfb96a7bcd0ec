(** DMD extrapolation as a Galerkin projection; exactness; truncation. *)
From Coq Require Import Lra Lia.
From Verif Require Import Base BaseFacts SlabModel SphereModel MgModel DmdModel DmdSpec DmdFacts.
Open Scope R_scope.

Lemma flat_holds cells groups a v : holds cells groups a v ->
  forall s, (s < cells * groups)%nat -> flat groups a s = v s.
Proof.
  intros H s Hs. unfold flat.
  assert (Hg : groups <> 0%nat) by (intros ->; rewrite Nat.mul_0_r in Hs; lia).
  rewrite H.
  - f_equal. rewrite Nat.mul_comm. symmetry. apply Nat.div_mod. exact Hg.
  - apply Nat.div_lt_upper_bound; [exact Hg|]. rewrite Nat.mul_comm. exact Hs.
  - apply Nat.mod_upper_bound. exact Hg.
Qed.

Lemma flat_at groups a i g : (g < groups)%nat -> flat groups a (i * groups + g)%nat = a i g.
Proof.
  intros Hg. unfold flat. assert (groups <> 0)%nat by lia. f_equal.
  - rewrite Nat.div_add_l by assumption. rewrite Nat.div_small by assumption. lia.
  - rewrite Nat.add_comm, Nat.mod_add by assumption. apply Nat.mod_small. exact Hg.
Qed.

Lemma index_lt cells groups i g : (i < cells)%nat -> (g < groups)%nat -> (i * groups + g < cells * groups)%nat.
Proof. intros. nia. Qed.

Lemma delta_pick r (c : vec) a : (a < r)%nat -> rsum r (fun b => (if Nat.eqb a b then 1 else 0) * c b) = c a.
Proof.
  intros Ha. rewrite (rsum_single r _ a Ha).
  - rewrite Nat.eqb_refl. ring.
  - intros b _ Hne. destruct (Nat.eqb_spec a b); [lia|ring].
Qed.

Section Linear_dynamics.
  Variables (cells groups K : nat) (A : mat2) (b : vec) (x : nat -> vec).
  Variables (flux_old ym yp U Vt : mat2) (sv : vec) (svd : nat -> nat -> mat2 -> mat2 * vec * mat2).
  Let n := (cells * groups)%nat.
  Let m := (K - 1)%nat.
  Let q := Nat.min n m.
  Hypothesis HK : (2 <= K)%nat.
  Hypothesis Hlin : linear_history n A b K x.
  Hypothesis Hsnap : snapshots n K x ym yp.
  Hypothesis Hlast : holds cells groups flux_old (x K).
  Hypothesis Esvd : svd n m ym = (U, sv, Vt).
  Hypothesis Hsvd : is_svd n m ym (U, sv, Vt).

  Lemma apply_sub (u v : vec) s : apply n A u s - apply n A v s = apply n A (fun t => u t - v t) s.
  Proof. unfold apply. rewrite <- rsum_minus. apply rsum_ext. intros. ring. Qed.

  Lemma yp_step s k : (s < n)%nat -> (k < m)%nat -> yp s k = apply n A (fun t => ym t k) s.
  Proof.
    intros Hs Hk. unfold m in Hk. destruct (Hsnap s k Hs Hk) as [_ ->].
    replace (k + 2)%nat with (S (k + 1)) by lia. rewrite (Hlin (k + 1)%nat s) by (try exact Hs; lia).
    replace (x (k + 1)%nat s) with (apply n A (x k) s + b s) by (replace (k + 1)%nat with (S k) by lia; symmetry; apply Hlin; [lia|exact Hs]).
    replace (apply n A (x (k + 1)%nat) s + b s - (apply n A (x k) s + b s))
      with (apply n A (x (k + 1)%nat) s - apply n A (x k) s) by ring.
    rewrite apply_sub. unfold apply. apply rsum_ext. intros t Ht. destruct (Hsnap t k Ht Hk) as [-> _]. reflexivity.
  Qed.

  Lemma ym_right s j : (s < n)%nat -> (j < q)%nat -> rsum m (fun k => ym s k * Vt j k) = U s j * sv j.
  Proof.
    intros Hs Hj. destruct Hsvd as (Hfac & _ & HV & _).
    rewrite (rsum_ext m _ (fun k => rsum q (fun l => U s l * sv l * (Vt l k * Vt j k)))).
    2: { intros k Hk. rewrite (Hfac s k Hs Hk). fold q. rewrite <- rsum_scal_r. apply rsum_ext. intros. ring. }
    rewrite rsum_swap.
    rewrite (rsum_ext q _ (fun l => U s l * sv l * (if Nat.eqb l j then 1 else 0))).
    2: { intros l Hl. rewrite rsum_scal. rewrite (HV l j Hl Hj). reflexivity. }
    rewrite (rsum_single q _ j Hj); [rewrite Nat.eqb_refl; ring|].
    intros l _ Hne. destruct (Nat.eqb_spec l j); [lia|ring].
  Qed.

  Lemma image_of_mode s j si : (s < n)%nat -> (j < q)%nat -> 0 < sv j -> si = 1 / sv j ->
    rsum m (fun k => yp s k * Vt j k) * si = apply n A (fun t => U t j) s.
  Proof.
    intros Hs Hj Hp ->.
    rewrite (rsum_ext m _ (fun k => rsum n (fun t => A s t * (ym t k * Vt j k)))).
    2: { intros k Hk. rewrite (yp_step s k Hs Hk). unfold apply. rewrite <- rsum_scal_r. apply rsum_ext. intros. ring. }
    rewrite rsum_swap. unfold apply. rewrite <- rsum_scal_r. apply rsum_ext. intros t Ht.
    rewrite rsum_scal, ym_right by assumption. field. lra.
  Qed.

  Lemma reduced_entry r si a j : (r <= q)%nat -> (j < r)%nat -> (forall j, (j < r)%nat -> si j = 1 / sv j /\ 0 < sv j) ->
    rsum m (fun k => rsum n (fun s => U s a * yp s k) * Vt j k) * si j
    = rsum n (fun s => U s a * apply n A (fun t => U t j) s).
  Proof.
    intros Hr Hj Hsi. destruct (Hsi j Hj) as [Ei Hp].
    rewrite (rsum_ext m _ (fun k => rsum n (fun s => U s a * (yp s k * Vt j k)))).
    2: { intros k _. rewrite <- rsum_scal_r. apply rsum_ext. intros. ring. }
    rewrite rsum_swap, <- rsum_scal_r. apply rsum_ext. intros s Hs.
    rewrite rsum_scal, Rmult_assoc, (image_of_mode s j (si j)) by (try assumption; lia). reflexivity.
  Qed.

  (** projecting the residual of [x_{K-1} + U c] *)
  Lemma projected_residual r (c : vec) a : (r <= q)%nat -> (a < r)%nat ->
    let v := fun s => x (K - 1)%nat s + rsum r (fun j => U s j * c j) in
    rsum n (fun s => U s a * (apply n A v s + b s - v s))
    = rsum n (fun s => U s a * yp s (m - 1)%nat)
      + rsum r (fun j => rsum n (fun s => U s a * apply n A (fun t => U t j) s) * c j) - c a.
  Proof.
    intros Hr Ha v.
    assert (Ev : forall s, (s < n)%nat -> apply n A v s + b s - v s
      = yp s (m - 1)%nat + rsum r (fun j => apply n A (fun t => U t j) s * c j) - rsum r (fun j => U s j * c j)).
    { intros s Hs. unfold v at 2.
      assert (E1 : apply n A v s = apply n A (x (K - 1)%nat) s + rsum r (fun j => apply n A (fun t => U t j) s * c j)).
      { unfold apply, v. rewrite (rsum_ext n _ (fun t => A s t * x (K - 1)%nat t + rsum r (fun j => A s t * U t j * c j))).
        2: { intros t _. rewrite Rmult_plus_distr_l, <- rsum_scal. f_equal. apply rsum_ext. intros. ring. }
        rewrite rsum_plus. f_equal. rewrite rsum_swap. apply rsum_ext. intros j _. rewrite <- rsum_scal_r. reflexivity. }
      assert (E2 : apply n A (x (K - 1)%nat) s + b s = x K s).
      { rewrite <- Hlin by (try exact Hs; lia). f_equal. lia. }
      assert (E3 : yp s (m - 1)%nat = x K s - x (K - 1)%nat s).
      { unfold m. destruct (Hsnap s (K - 1 - 1)%nat Hs ltac:(lia)) as [_ ->].
        replace (K - 1 - 1 + 2)%nat with K by lia. replace (K - 1 - 1 + 1)%nat with (K - 1)%nat by lia. reflexivity. }
      rewrite E1, E3. lra. }
    rewrite (rsum_ext n _ (fun s => U s a * yp s (m - 1)%nat
      + rsum r (fun j => U s a * apply n A (fun t => U t j) s * c j) - rsum r (fun j => U s a * U s j * c j))).
    2: { intros s Hs. rewrite (Ev s Hs). rewrite Rmult_minus_distr_l, Rmult_plus_distr_l, <- !rsum_scal. f_equal; [f_equal|];
         apply rsum_ext; intros; ring. }
    rewrite rsum_minus, rsum_plus. f_equal; [f_equal|].
    - rewrite rsum_swap. apply rsum_ext. intros j _. rewrite rsum_scal_r. reflexivity.
    - rewrite rsum_swap. destruct Hsvd as (_ & HU & _).
      rewrite (rsum_ext r _ (fun j => (if Nat.eqb a j then 1 else 0) * c j)).
      2: { intros j Hj. rewrite rsum_scal_r. rewrite HU by lia. reflexivity. }
      apply delta_pick. exact Ha.
  Qed.

  Lemma dmd_unfold : exists r si, keeps q sv r /\ (forall j, (j < r)%nat -> si j = 1 / sv j /\ 0 < sv j) /\
    dmd svd cells groups flux_old ym yp K =
    bind (linalg_solve r (fun a j => (if Nat.eqb a j then 1 else 0)
             - rsum m (fun k => rsum n (fun s => U s a * yp s k) * Vt j k) * si j)
            (fun a => rsum n (fun s => U s a * yp s (m - 1)%nat)))
      (fun d => Ok (unflat groups (fun s => flat groups flux_old s - yp s (K - 2)%nat + rsum r (fun j => U s j * d j)))).
  Proof.
    destruct (kept_modes svd n m ym K U sv Vt Esvd Hsvd ltac:(unfold m; lia)) as (r & si & E & Hk & Hs).
    exists r, si. split; [exact Hk|]. split; [exact Hs|].
    unfold dmd. fold n m. rewrite E. destruct (Nat.eqb_spec m 0) as [Z|Z]; [unfold m in Z; lia|]. reflexivity.
  Qed.

  Lemma base_point s : (s < n)%nat -> flat groups flux_old s - yp s (K - 2)%nat = x (K - 1)%nat s.
  Proof.
    intros Hs. rewrite (flat_holds cells groups flux_old (x K) Hlast s Hs).
    destruct (Hsnap s (K - 2)%nat Hs ltac:(lia)) as [_ ->].
    replace (K - 2 + 2)%nat with K by lia. replace (K - 2 + 1)%nat with (K - 1)%nat by lia. ring.
  Qed.

  Lemma system_row r si (c : vec) a : (r <= q)%nat -> (a < r)%nat -> (forall j, (j < r)%nat -> si j = 1 / sv j /\ 0 < sv j) ->
    rsum r (fun j => ((if Nat.eqb a j then 1 else 0)
             - rsum m (fun k => rsum n (fun s => U s a * yp s k) * Vt j k) * si j) * c j)
    = c a - rsum r (fun j => rsum n (fun s => U s a * apply n A (fun t => U t j) s) * c j).
  Proof.
    intros Hr Ha Hsi.
    rewrite (rsum_ext r _ (fun j => (if Nat.eqb a j then 1 else 0) * c j
      - rsum n (fun s => U s a * apply n A (fun t => U t j) s) * c j)).
    2: { intros j Hj. rewrite (reduced_entry r si a j Hr Hj Hsi). ring. }
    rewrite rsum_minus, delta_pick by exact Ha. reflexivity.
  Qed.

  (** C28: Galerkin projection *)
  Lemma dmd_galerkin flux : dmd svd cells groups flux_old ym yp K = Ok flux ->
    exists r v, keeps q sv r /\ holds cells groups flux v /\
      in_span n r U (fun s => v s - x (K - 1)%nat s) /\
      forall a, (a < r)%nat -> rsum n (fun s => U s a * (apply n A v s + b s - v s)) = 0.
  Proof.
    destruct dmd_unfold as (r & si & Hk & Hsi & E). rewrite E. clear E. intros E.
    destruct (linalg_solve r _ _) as [d|e] eqn:Ed; cbn [bind] in E; [|discriminate]. injection E as <-.
    destruct (solve_sound _ _ _ _ Ed) as [Hd _].
    set (v := fun s => x (K - 1)%nat s + rsum r (fun j => U s j * d j)).
    exists r, v. split; [exact Hk|]. split; [|split].
    - intros i g Hi Hg. unfold unflat. rewrite base_point by (apply index_lt; assumption). reflexivity.
    - exists d. intros s _. unfold v. ring.
    - intros a Ha. unfold v. rewrite (projected_residual r d a (proj1 Hk) Ha).
      specialize (Hd a Ha). rewrite (system_row r si d a (proj1 Hk) Ha Hsi) in Hd. lra.
  Qed.

  (** C28: exact when the remaining error lies in the kept modes *)
  Lemma dmd_exact flux r star : keeps q sv r -> fixed_point n A b star ->
    in_span n r U (fun s => star s - x (K - 1)%nat s) ->
    dmd svd cells groups flux_old ym yp K = Ok flux -> holds cells groups flux star.
  Proof.
    intros Hr Hfix (c & Hc). destruct dmd_unfold as (r' & si & Hk & Hsi & E).
    assert (r' = r) by (eapply keeps_unique; eauto). subst r'. rewrite E. clear E. intros E.
    destruct (linalg_solve r _ _) as [d|e] eqn:Ed; cbn [bind] in E; [|discriminate]. injection E as <-.
    destruct (solve_sound _ _ _ _ Ed) as [Hd Hinj].
    assert (Hdc : forall j, (j < r)%nat -> d j - c j = 0).
    { apply (Hinj (fun j => d j - c j)). intros a Ha.
      rewrite (rsum_ext r _ (fun j => ((if Nat.eqb a j then 1 else 0)
             - rsum m (fun k => rsum n (fun s => U s a * yp s k) * Vt j k) * si j) * d j
         - ((if Nat.eqb a j then 1 else 0)
             - rsum m (fun k => rsum n (fun s => U s a * yp s k) * Vt j k) * si j) * c j)) by (intros; ring).
      rewrite rsum_minus, (Hd a Ha), (system_row r si c a (proj1 Hk) Ha Hsi).
      assert (P := projected_residual r c a (proj1 Hk) Ha). cbv zeta in P.
      rewrite rsum_zero_ext in P; [lra|]. intros s Hs.
      assert (Es : forall t, (t < n)%nat -> x (K - 1)%nat t + rsum r (fun j => U t j * c j) = star t)
        by (intros t Ht; rewrite <- (Hc t Ht); ring).
      rewrite (Es s Hs). replace (apply n A (fun s0 => x (K - 1)%nat s0 + rsum r (fun j => U s0 j * c j)) s) with (apply n A star s).
      - rewrite (Hfix s Hs). ring.
      - unfold apply. apply rsum_ext. intros t Ht. rewrite (Es t Ht). reflexivity. }
    intros i g Hi Hg. assert (Hs := index_lt _ _ _ _ Hi Hg). fold n in Hs. unfold unflat.
    rewrite base_point by exact Hs. rewrite (rsum_ext r _ (fun j => U (i * groups + g)%nat j * c j)).
    - rewrite <- (Hc _ Hs). ring.
    - intros j Hj. f_equal. specialize (Hdc j Hj). lra.
  Qed.

  (** when the solver refuses, a kept combination of modes is reproduced by the reduced operator *)
  Lemma dmd_raises e : dmd svd cells groups flux_old ym yp K = Raise e ->
    e = LinAlgError /\ exists r z, keeps q sv r /\ (exists j, (j < r)%nat /\ z j <> 0) /\
      let w := fun s => rsum r (fun j => U s j * z j) in
      forall a, (a < r)%nat -> rsum n (fun s => U s a * (apply n A w s - w s)) = 0.
  Proof.
    destruct dmd_unfold as (r & si & Hk & Hsi & E). rewrite E. clear E. intros E.
    destruct (linalg_solve r _ _) as [d|e'] eqn:Ed; cbn [bind] in E; [discriminate|]. injection E as <-.
    destruct (solve_singular _ _ _ _ Ed) as (He & z & Hz & H0). split; [exact He|].
    exists r, z. split; [exact Hk|]. split; [exact Hz|]. intros w a Ha.
    specialize (H0 a Ha). rewrite (system_row r si z a (proj1 Hk) Ha Hsi) in H0.
    assert (P := projected_residual r z a (proj1 Hk) Ha). cbv zeta in P.
    assert (P0 := projected_residual r (fun _ => 0) a (proj1 Hk) Ha). cbv zeta in P0.
    rewrite (rsum_zero_ext r (fun j => _ * 0)) in P0 by (intros; ring).
    assert (EQ : rsum n (fun s => U s a * (apply n A w s - w s))
      = rsum n (fun s => U s a * (apply n A (fun s0 => x (K - 1)%nat s0 + rsum r (fun j => U s0 j * z j)) s + b s - (x (K - 1)%nat s + rsum r (fun j => U s j * z j))))
        - rsum n (fun s => U s a * (apply n A (fun s0 => x (K - 1)%nat s0 + rsum r (fun j => U s0 j * 0)) s + b s - (x (K - 1)%nat s + rsum r (fun j => U s j * 0))))).
    { rewrite <- rsum_minus. apply rsum_ext. intros s Hs.
      rewrite (rsum_zero_ext r (fun j => U s j * 0)) by (intros; ring).
      replace (apply n A (fun s0 => x (K - 1)%nat s0 + rsum r (fun j => U s0 j * 0)) s) with (apply n A (x (K - 1)%nat) s).
      2: { unfold apply. apply rsum_ext. intros t _. rewrite (rsum_zero_ext r (fun j => U t j * 0)) by (intros; ring). ring. }
      replace (apply n A (fun s0 => x (K - 1)%nat s0 + rsum r (fun j => U s0 j * z j)) s) with (apply n A (x (K - 1)%nat) s + apply n A w s).
      2: { unfold apply, w. rewrite <- rsum_plus. apply rsum_ext. intros. ring. }
      unfold w at 2. ring. }
    rewrite EQ, P, P0. lra.
  Qed.
End Linear_dynamics.

(** ** truncation *)
Lemma keeps_drops_energy q sv r : keeps q sv r -> / 10 ^ 9 * tail q sv 0 < tail q sv 1 ->
  (r < q)%nat /\ / 10 ^ 9 * tail q sv 0 < tail q sv r.
Proof.
  intros (Hr & HH) H1.
  assert (Hq : (0 < q)%nat).
  { destruct q; [|lia]. rewrite !tail_end in H1 by lia. lra. }
  assert (S0 : significant q sv 0) by exact H1.
  destruct HH as [[_ HB]|[HN _]]; [|exfalso; exact (HN 0%nat Hq S0)].
  assert (Hl : ~ significant q sv (q - 1)).
  { unfold significant. rewrite (tail_end q sv (q - 1 + 1)) by lia. assert (Hn := tail_nonneg q sv 0).
    assert (0 < / 10 ^ 9) by (apply Rinv_0_lt_compat; lra). nra. }
  assert (r < q)%nat.
  { destruct (Nat.eq_dec r q) as [E|]; [|lia]. exfalso. apply Hl. apply HB; lia. }
  split; [assumption|].
  assert (0 < r)%nat by (apply (proj2 (HB 0%nat Hq)); exact S0).
  assert (SR : significant q sv (r - 1)) by (apply (proj1 (HB (r - 1)%nat ltac:(lia))); lia).
  unfold significant in SR. replace (r - 1 + 1)%nat with r in SR by lia. exact SR.
Qed.
