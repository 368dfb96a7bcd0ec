(** DMD: one error mode, the truncation counterexample, the snapshot history of the driver. *)
From Coq Require Import Lra Lia.
From Verif Require Import Base BaseFacts SlabModel SphereModel MgModel MgSpec MgFacts DmdModel DmdSpec DmdFacts DmdFacts2.
Open Scope R_scope.

Lemma geometric_partial lam k : lam <> 1 -> rsum k (fun j => lam ^ j) = (1 - lam ^ k) / (1 - lam).
Proof.
  intros H. induction k as [|k IH]; cbn [rsum]; [cbn [pow]; field; lra|]. rewrite IH. cbn [pow]. field. lra.
Qed.

Section One_mode.
  Variables (cells groups K : nat) (A : mat2) (b : vec) (x : nat -> vec).
  Variables (flux_old ym yp U Vt : mat2) (sv : vec) (svd : nat -> nat -> mat2 -> mat2 * vec * mat2).
  Variables (v : vec) (lam : R) (s0 : nat).
  Let n := (cells * groups)%nat.
  Let m := (K - 1)%nat.
  Let q := Nat.min n m.
  Hypothesis HK : (2 <= K)%nat.
  Hypothesis Hlin : linear_history n A b K x.
  Hypothesis Hsnap : snapshots n K x ym yp.
  Hypothesis Hlast : holds cells groups flux_old (x K).
  Hypothesis Esvd : svd n m ym = (U, sv, Vt).
  Hypothesis Hsvd : is_svd n m ym (U, sv, Vt).
  Hypothesis Hdiff : forall s, (s < n)%nat -> x 1%nat s - x 0%nat s = v s.
  Hypothesis Heig : forall s, (s < n)%nat -> apply n A v s = lam * v s.
  Hypothesis Hlam : lam <> 1.
  Hypothesis Hs0 : (s0 < n)%nat.
  Hypothesis Hv0 : v s0 <> 0.

  Lemma mode_diff k s : (k < K)%nat -> (s < n)%nat -> x (S k) s - x k s = lam ^ k * v s.
  Proof.
    revert s. induction k as [|k IH]; intros s Hk Hs.
    - rewrite Hdiff by exact Hs. cbn [pow]. ring.
    - rewrite (Hlin (S k) s Hk Hs), (Hlin k s ltac:(lia) Hs).
      replace (apply n A (x (S k)) s + b s - (apply n A (x k) s + b s))
        with (apply n A (x (S k)) s - apply n A (x k) s) by ring.
      unfold apply. rewrite <- rsum_minus.
      rewrite (rsum_ext n _ (fun t => lam ^ k * (A s t * v t))).
      + rewrite rsum_scal. fold (apply n A v s). rewrite Heig by exact Hs. cbn [pow]. ring.
      + intros t Ht. replace (A s t * x (S k) t - A s t * x k t) with (A s t * (x (S k) t - x k t)) by ring.
        rewrite IH by (try exact Ht; lia). ring.
  Qed.

  Lemma mode_state k s : (k <= K)%nat -> (s < n)%nat -> x k s = x 0%nat s + (1 - lam ^ k) / (1 - lam) * v s.
  Proof.
    intros Hk Hs. rewrite <- geometric_partial by exact Hlam. induction k as [|k IH]; cbn [rsum]; [ring|].
    assert (D := mode_diff k s ltac:(lia) Hs). rewrite IH in D by lia. lra.
  Qed.

  Lemma mode_column s k : (s < n)%nat -> (k < m)%nat -> ym s k = lam ^ k * v s.
  Proof.
    intros Hs Hk. unfold m in Hk. destruct (Hsnap s k Hs Hk) as [-> _]. replace (k + 1)%nat with (S k) by lia.
    apply mode_diff; [lia|exact Hs].
  Qed.

  Lemma mode_q : (0 < q)%nat.
  Proof. unfold q, m. lia. Qed.

  Let c (j : nat) := rsum m (fun k => lam ^ k * Vt j k).

  Lemma mode_left s j : (s < n)%nat -> (j < q)%nat -> U s j * sv j = c j * v s.
  Proof.
    intros Hs Hj. rewrite <- (ym_right cells groups K ym U Vt sv HK Hsvd s j Hs Hj). fold m. unfold c.
    rewrite <- rsum_scal_r. apply rsum_ext. intros k Hk. rewrite mode_column by assumption. ring.
  Qed.

  Lemma mode_first : 0 < sv 0%nat.
  Proof.
    assert (Hq := mode_q). destruct Hsvd as (Hfac & _ & _ & Hpos & Hdesc). fold q in Hfac, Hpos, Hdesc.
    destruct (Rle_lt_or_eq_dec 0 (sv 0%nat) (Hpos 0%nat Hq)) as [L|L]; [exact L|exfalso].
    apply Hv0. assert (Hm : (0 < m)%nat) by (unfold m; lia).
    assert (E := mode_column s0 0%nat Hs0 Hm). cbn [pow] in E. rewrite Rmult_1_l in E. rewrite <- E.
    rewrite (Hfac s0 0%nat Hs0 Hm). apply rsum_zero_ext. intros j Hj.
    assert (H1 := Hpos j Hj). assert (H2 := Hdesc 0%nat j ltac:(lia) Hj). replace (sv j) with 0 by lra. ring.
  Qed.

  Lemma mode_c0 : c 0%nat <> 0.
  Proof.
    intros Z. assert (Hq := mode_q). assert (Hp := mode_first). destruct Hsvd as (_ & HU & _). fold q in HU.
    assert (N := HU 0%nat 0%nat Hq Hq). rewrite Nat.eqb_refl in N. rewrite rsum_zero_ext in N; [lra|].
    intros s Hs. assert (E := mode_left s 0%nat Hs Hq). rewrite Z in E.
    replace (U s 0%nat) with 0; [ring|]. symmetry. apply (Rmult_eq_reg_r (sv 0%nat)); lra.
  Qed.

  Lemma mode_norm : 0 < rsum n (fun s => v s * v s).
  Proof.
    assert (Hle := rsum_term_le n (fun s => v s * v s) s0 (fun i _ => Rle_0_sqr (v i)) Hs0). cbv beta in Hle.
    assert (0 < v s0 * v s0) by (destruct (Rtotal_order (v s0) 0) as [|[|]]; [nra|contradiction|nra]). lra.
  Qed.

  Lemma mode_rest j : (1 <= j)%nat -> (j < q)%nat -> sv j = 0.
  Proof.
    intros H1 Hj. assert (Hq := mode_q). destruct Hsvd as (_ & HU & _). fold q in HU.
    assert (O := HU 0%nat j Hq Hj). destruct (Nat.eqb_spec 0 j); [lia|].
    assert (Hc : c j = 0).
    { assert (E : rsum n (fun s => (U s 0%nat * sv 0%nat) * (U s j * sv j)) = c 0%nat * c j * rsum n (fun s => v s * v s)).
      { rewrite <- rsum_scal. apply rsum_ext. intros s Hs. rewrite !mode_left by assumption. ring. }
      rewrite (rsum_ext n _ (fun s => (sv 0%nat * sv j) * (U s 0%nat * U s j))) in E by (intros; ring).
      rewrite rsum_scal, O, Rmult_0_r in E. symmetry in E. apply Rmult_integral in E.
      destruct E as [E|E]; [|assert (Hn := mode_norm); lra].
      apply Rmult_integral in E. destruct E as [E|E]; [|exact E]. exfalso. exact (mode_c0 E). }
    assert (N := HU j j Hj Hj). rewrite Nat.eqb_refl in N.
    rewrite <- (Rmult_1_l (sv j)), <- N, <- rsum_scal_r. apply rsum_zero_ext. intros s Hs.
    rewrite Rmult_assoc, mode_left, Hc by assumption. ring.
  Qed.

  Lemma mode_keeps r : keeps q sv r -> r = 1%nat.
  Proof.
    intros (Hr & HH). assert (Hq := mode_q). assert (Hp := mode_first).
    assert (T : tail q sv 1 = 0).
    { apply rsum_zero_ext. intros k Hk. rewrite mode_rest by lia. ring. }
    assert (NS : forall j, ~ significant q sv j).
    { intros j H. unfold significant in H. assert (D := tail_decr q sv (j + 1) 1 ltac:(lia)).
      assert (Hn := tail_nonneg q sv 0). assert (0 < / 10 ^ 9) by (apply Rinv_0_lt_compat; lra). nra. }
    destruct HH as [[(j & _ & H) _]|[_ HB]]; [exfalso; exact (NS j H)|].
    assert (0 < r)%nat by (apply (proj2 (HB 0%nat Hq)); exact Hp).
    destruct (Nat.eq_dec r 1) as [|Hne]; [assumption|exfalso].
    assert (0 < sv 1%nat) by (apply (proj1 (HB 1%nat ltac:(lia))); lia). rewrite mode_rest in H0 by lia. lra.
  Qed.

  Lemma mode_fixed : fixed_point n A b (fun s => x 0%nat s + v s / (1 - lam)).
  Proof.
    intros s Hs.
    assert (E : apply n A (fun s => x 0%nat s + v s / (1 - lam)) s = apply n A (x 0%nat) s + apply n A v s / (1 - lam)).
    { unfold apply. rewrite <- rsum_div, <- rsum_plus. apply rsum_ext. intros. field. lra. }
    rewrite E, Heig by exact Hs. assert (L := Hlin 0%nat s ltac:(lia) Hs). assert (D := Hdiff s Hs).
    replace (x 0%nat s + v s / (1 - lam)) with (x 0%nat s + v s + lam * v s / (1 - lam)) by (field; lra). lra.
  Qed.

  Lemma dmd_one_mode : exists flux, dmd svd cells groups flux_old ym yp K = Ok flux /\
    holds cells groups flux (fun s => x 0%nat s + v s / (1 - lam)) /\
    fixed_point n A b (fun s => x 0%nat s + v s / (1 - lam)).
  Proof.
    assert (Hq := mode_q). assert (Hp := mode_first). assert (Hc := mode_c0).
    assert (UV : forall s, (s < n)%nat -> U s 0%nat = c 0%nat / sv 0%nat * v s).
    { intros s Hs. apply (Rmult_eq_reg_r (sv 0%nat)); [|lra]. rewrite mode_left by assumption. field. lra. }
    destruct (dmd svd cells groups flux_old ym yp K) as [flux|e] eqn:E.
    - exists flux. split; [reflexivity|]. split; [|exact mode_fixed].
      destruct (dmd_galerkin cells groups K A b x flux_old ym yp U Vt sv svd HK Hlin Hsnap Hlast Esvd Hsvd flux E)
        as (r & _ & Hk & _). assert (r = 1%nat) by (apply mode_keeps; exact Hk). subst r.
      apply (dmd_exact cells groups K A b x flux_old ym yp U Vt sv svd HK Hlin Hsnap Hlast Esvd Hsvd flux 1%nat _ Hk mode_fixed); [|exact E].
      exists (fun _ => lam ^ (K - 1) / (1 - lam) * (sv 0%nat / c 0%nat)). intros s Hs. cbn [rsum].
      rewrite (mode_state (K - 1) s) by (try exact Hs; lia). rewrite UV by exact Hs. field. repeat split; lra.
    - exfalso.
      destruct (dmd_raises cells groups K A b x flux_old ym yp U Vt sv svd HK Hlin Hsnap Esvd Hsvd e E)
        as (_ & r & z & Hk & (j & Hj & Hz) & H0). assert (r = 1%nat) by (apply mode_keeps; exact Hk). subst r.
      assert (j = 0%nat) by lia. subst j. cbv zeta in H0. specialize (H0 0%nat ltac:(lia)).
      assert (EE : rsum n (fun s => U s 0%nat * ((lam - 1) * z 0%nat * U s 0%nat)) = 0).
      { rewrite <- H0. apply rsum_ext. intros s Hs. f_equal. cbn [rsum].
        assert (EA : apply n A (fun s0 => 0 + U s0 0%nat * z 0%nat) s = c 0%nat / sv 0%nat * z 0%nat * apply n A v s).
        { unfold apply. rewrite <- rsum_scal. apply rsum_ext. intros t Ht. rewrite (UV t Ht). ring. }
        fold n. rewrite EA, Heig, (UV s Hs) by exact Hs. ring. }
      rewrite (rsum_ext n _ (fun s => (lam - 1) * z 0%nat * (U s 0%nat * U s 0%nat))) in EE by (intros; ring).
      rewrite rsum_scal in EE. destruct Hsvd as (_ & HU & _). fold q in HU. rewrite (HU 0%nat 0%nat Hq Hq), Nat.eqb_refl in EE.
      assert (lam - 1 <> 0) by lra. apply Rmult_integral in EE. destruct EE as [EE|EE]; [|lra].
      apply Rmult_integral in EE. destruct EE; contradiction.
  Qed.
End One_mode.

(** ** the driver *)
Section Driver.
  Variables (sweep : mat2 -> outcome mat2) (change : mat2 -> mat2 -> option R).

  Lemma warmup_spec : forall warm flux flux_old f r,
    dmd_warmup sweep change warm flux flux_old = Ok (f, r) ->
    exists x n, x 0%nat = flux_old /\ (n <= warm)%nat /\
      (forall k, (k < n)%nat -> sweep (x k) = Ok (x (S k))) /\
      (forall k, (S k < n)%nat -> below (change (x (S k)) (x k)) change_gg = false) /\
      match r with
      | None => (0 < n)%nat /\ f = x n /\ below (change (x n) (x (n - 1)%nat)) change_gg = true
      | Some fo => n = warm /\ fo = x n /\ ((0 < n)%nat -> below (change (x n) (x (n - 1)%nat)) change_gg = false)
      end.
  Proof.
    induction warm as [|w IH]; intros flux flux_old f r E; cbn [dmd_warmup] in E.
    - injection E as <- <-. exists (fun _ => flux_old), 0%nat. split; [reflexivity|]. split; [lia|].
      split; [intros; lia|]. split; [intros; lia|]. split; [reflexivity|]. split; [reflexivity|intros; lia].
    - destruct (sweep flux_old) as [new|e] eqn:Es; cbn [bind] in E; [|discriminate].
      destruct (below (change new flux_old) change_gg) eqn:Eb.
      + injection E as <- <-. exists (fun k => match k with O => flux_old | S _ => new end), 1%nat.
        split; [reflexivity|]. split; [lia|]. split; [intros k Hk; assert (k = 0%nat) as -> by lia; exact Es|].
        split; [intros; lia|]. split; [lia|]. split; [reflexivity|exact Eb].
      + destruct (IH _ _ _ _ E) as (x & n & Hx0 & Hn & Hs & Hb & Hr).
        exists (fun k => match k with O => flux_old | S k => x k end), (S n).
        split; [reflexivity|]. split; [lia|]. split; [|split].
        * intros [|k] Hk; [rewrite Hx0; exact Es|apply Hs; lia].
        * intros [|k] Hk; [rewrite Hx0; exact Eb|apply Hb; lia].
        * replace (S n - 1)%nat with n by lia. destruct r as [fo|].
          -- destruct Hr as (-> & Hf & Hl). split; [reflexivity|]. split; [exact Hf|]. intros _.
             destruct w as [|w]; [rewrite Hx0; exact Eb|]. specialize (Hl ltac:(lia)).
             replace (S w - 1)%nat with w in Hl by lia. exact Hl.
          -- destruct Hr as (H0 & Hf & Hl). split; [lia|]. split; [exact Hf|].
             destruct n as [|n]; [lia|]. replace (S n - 1)%nat with n in Hl by lia. exact Hl.
  Qed.

  Lemma collect_spec groups K : forall todo kk flux flux_old ym yp f r,
    (kk + todo = K)%nat ->
    dmd_collect_loop sweep change groups K todo kk flux flux_old ym yp = Ok (f, r) ->
    exists x n, x 0%nat = flux_old /\ (n <= todo)%nat /\
      (forall k, (k < n)%nat -> sweep (x k) = Ok (x (S k))) /\
      (forall k, (S k < n)%nat -> below (change (x (S k)) (x k)) change_gg = false) /\
      match r with
      | None => (0 < n)%nat /\ f = x n /\ below (change (x n) (x (n - 1)%nat)) change_gg = true
      | Some (ym', yp') => n = todo /\ f = x n /\
          ((0 < n)%nat -> below (change (x n) (x (n - 1)%nat)) change_gg = false) /\
          (forall s j, (j < K - 1)%nat ->
             ym' s j = if Nat.ltb j kk then ym s j else flat groups (fun i g => x (j - kk + 1)%nat i g - x (j - kk)%nat i g) s) /\
          (forall s j, (j < K - 1)%nat ->
             yp' s j = if Nat.ltb (j + 1) kk then yp s j else flat groups (fun i g => x (j + 1 - kk + 1)%nat i g - x (j + 1 - kk)%nat i g) s)
      end.
  Proof.
    induction todo as [|t IH]; intros kk flux flux_old ym yp f r HK E; cbn [dmd_collect_loop] in E.
    - injection E as <- <-. exists (fun _ => flux_old), 0%nat. split; [reflexivity|]. split; [lia|].
      split; [intros; lia|]. split; [intros; lia|]. split; [reflexivity|]. split; [reflexivity|]. split; [intros; lia|].
      split; intros s j Hj; [destruct (Nat.ltb_spec j kk)|destruct (Nat.ltb_spec (j + 1) kk)]; try reflexivity; lia.
    - destruct (sweep flux_old) as [new|e] eqn:Es; cbn [bind] in E; [|discriminate].
      destruct (below (change new flux_old) change_gg) eqn:Eb.
      + injection E as <- <-. exists (fun k => match k with O => flux_old | S _ => new end), 1%nat.
        split; [reflexivity|]. split; [lia|]. split; [intros k Hk; assert (k = 0%nat) as -> by lia; exact Es|].
        split; [intros; lia|]. split; [lia|]. split; [reflexivity|exact Eb].
      + cbn zeta in E. destruct (IH (S kk) _ _ _ _ _ _ ltac:(lia) E) as (x & n & Hx0 & Hn & Hs & Hb & Hr).
        exists (fun k => match k with O => flux_old | S k => x k end), (S n).
        split; [reflexivity|]. split; [lia|]. split; [|split].
        * intros [|k] Hk; [rewrite Hx0; exact Es|apply Hs; lia].
        * intros [|k] Hk; [rewrite Hx0; exact Eb|apply Hb; lia].
        * replace (S n - 1)%nat with n by lia. destruct r as [[ym' yp']|].
          -- destruct Hr as (-> & Hf & Hl & Hm & Hp). split; [reflexivity|]. split; [exact Hf|]. split.
             { intros _. destruct t as [|t]; [rewrite Hx0; exact Eb|]. specialize (Hl ltac:(lia)).
               replace (S t - 1)%nat with t in Hl by lia. exact Hl. }
             split.
             ++ intros s j Hj. rewrite (Hm s j Hj).
                destruct (Nat.ltb_spec j (S kk)) as [L|L], (Nat.ltb_spec j kk) as [L'|L']; try lia.
                ** destruct (Nat.ltb kk (K - 1)); [|reflexivity]. apply set_col_other. lia.
                ** assert (j = kk) by lia. subst j. destruct (Nat.ltb_spec kk (K - 1)); [|lia]. rewrite set_col_same.
                   replace (kk - kk)%nat with 0%nat by lia. cbn [Nat.add]. rewrite Hx0. reflexivity.
                ** replace (j - kk + 1)%nat with (S (S (j - S kk))) by lia. replace (j - kk)%nat with (S (j - S kk)) by lia.
                   replace (j - S kk + 1)%nat with (S (j - S kk)) by lia. reflexivity.
             ++ intros s j Hj. rewrite (Hp s j Hj).
                destruct (Nat.ltb_spec (j + 1) (S kk)) as [L|L], (Nat.ltb_spec (j + 1) kk) as [L'|L']; try lia.
                ** destruct (Nat.ltb 0 kk); [|reflexivity]. apply set_col_other. lia.
                ** assert (kk = (j + 1)%nat) by lia. subst kk. destruct (Nat.ltb_spec 0 (j + 1)); [|lia].
                   replace (j + 1 - 1)%nat with j by lia. rewrite set_col_same.
                   replace (j + 1 - (j + 1))%nat with 0%nat by lia. cbn [Nat.add]. rewrite Hx0. reflexivity.
                ** replace (j + 1 - kk + 1)%nat with (S (S (j + 1 - S kk))) by lia.
                   replace (j + 1 - kk)%nat with (S (j + 1 - S kk)) by lia.
                   replace (j + 1 - S kk + 1)%nat with (S (j + 1 - S kk)) by lia. reflexivity.
          -- destruct Hr as (H0 & Hf & Hl). split; [lia|]. split; [exact Hf|].
             destruct n as [|n]; [lia|]. replace (S n - 1)%nat with n in Hl by lia. exact Hl.
  Qed.
End Driver.

(** the difference columns [from .. from + K - 2] of a history of iterates *)
Lemma driver_history svd sweep cells groups flux_old warm K flux :
  dmd_driver svd sweep cells groups flux_old warm K = Ok flux ->
  exists x n, x 0%nat = flux_old /\ (n <= warm + K)%nat /\
    (forall k, (k < n)%nat -> sweep (x k) = Ok (x (S k))) /\
    (forall k, (S k < n)%nat -> below (rel_change2 cells groups (x (S k)) (x k)) change_gg = false) /\
    (((0 < n)%nat /\ flux = x n /\ below (rel_change2 cells groups (x n) (x (n - 1)%nat)) change_gg = true) \/
     (n = (warm + K)%nat /\ (2 <= K)%nat /\
      below (rel_change2 cells groups (x n) (x (n - 1)%nat)) change_gg = false /\
      exists ym yp, dmd svd cells groups (x n) ym yp K = Ok flux /\
        forall i g k, (g < groups)%nat -> (k < K - 1)%nat ->
          ym (i * groups + g)%nat k = x (warm + k + 1)%nat i g - x (warm + k)%nat i g /\
          yp (i * groups + g)%nat k = x (warm + k + 2)%nat i g - x (warm + k + 1)%nat i g)).
Proof.
  unfold dmd_driver. set (change := rel_change2 cells groups). intros E.
  destruct (dmd_warmup sweep change warm zeros2 flux_old) as [[f [fo|]]|e] eqn:Ew; cbn [bind] in E; [| |discriminate].
  - destruct (warmup_spec _ _ _ _ _ _ _ Ew) as (x & n & Hx0 & _ & Hs & Hb & -> & -> & Hl).
    unfold dmd_collect in E. destruct (Nat.eqb_spec K 0) as [Z|Z]; [discriminate|].
    destruct (dmd_collect_loop _ _ _ _ _ _ _ _ _ _) as [[f' r]|e] eqn:Ec; cbn [bind] in E; [|discriminate].
    destruct (collect_spec sweep change groups K K 0%nat _ _ _ _ _ _ ltac:(lia) Ec) as (y & p & Hy0 & Hp & Hs' & Hb' & Hr).
    set (z := fun k => if Nat.ltb k warm then x k else y (k - warm)%nat).
    assert (Zw : z warm = y 0%nat) by (unfold z; destruct (Nat.ltb_spec warm warm); [lia|]; f_equal; lia).
    assert (Zx : forall k, (k <= warm)%nat -> z k = x k).
    { intros k Hk. destruct (Nat.eq_dec k warm) as [->|]; [rewrite Zw; exact Hy0|]. unfold z.
      destruct (Nat.ltb_spec k warm); [reflexivity|lia]. }
    assert (Zy : forall k, z (warm + k)%nat = y k).
    { intros k. unfold z. destruct (Nat.ltb_spec (warm + k) warm); [lia|]. f_equal. lia. }
    assert (S1 : forall k, (k < warm + p)%nat -> sweep (z k) = Ok (z (S k))).
    { intros k Hk. destruct (Nat.lt_ge_cases k warm) as [L|L].
      - rewrite !Zx by lia. apply Hs. exact L.
      - replace k with (warm + (k - warm))%nat by lia. replace (S (warm + (k - warm))) with (warm + S (k - warm))%nat by lia.
        rewrite !Zy. apply Hs'. lia. }
    assert (Bw : forall k, (k < warm)%nat -> below (change (x (S k)) (x k)) change_gg = false).
    { intros k Hk. destruct (Nat.eq_dec (S k) warm) as [Q|Q]; [|apply Hb; lia].
      specialize (Hl ltac:(lia)). replace (warm - 1)%nat with k in Hl by lia. rewrite Q. exact Hl. }
    assert (B1 : forall k, (S k < warm + p)%nat -> below (change (z (S k)) (z k)) change_gg = false).
    { intros k Hk. destruct (Nat.lt_ge_cases k warm) as [L|L].
      - rewrite !Zx by lia. apply Bw. exact L.
      - replace k with (warm + (k - warm))%nat by lia. replace (S (warm + (k - warm))) with (warm + S (k - warm))%nat by lia.
        rewrite !Zy. apply Hb'. lia. }
    exists z, (warm + p)%nat. split; [rewrite Zx by lia; exact Hx0|]. split; [lia|]. split; [exact S1|]. split; [exact B1|].
    destruct r as [[ym yp]|].
    + right. destruct Hr as (-> & -> & Hl' & Hm & Hpp). split; [reflexivity|].
      assert (HK : (2 <= K)%nat).
      { destruct (Nat.eq_dec K 1) as [->|]; [exfalso|lia]. unfold dmd in E. destruct (svd_dmd _ _ _ _ _) as [[[? ?] ?] ?].
        cbn [Nat.sub Nat.eqb] in E. discriminate. }
      split; [exact HK|]. split.
      { replace (warm + K - 1)%nat with (warm + (K - 1))%nat by lia. rewrite !Zy. apply Hl'. lia. }
      exists ym, yp. split; [rewrite Zy; exact E|]. intros i g k Hg Hk.
      rewrite (Hm _ k Hk), (Hpp _ k Hk). destruct (Nat.ltb_spec k 0); [lia|]. destruct (Nat.ltb_spec (k + 1) 0); [lia|].
      rewrite !flat_at by exact Hg. replace (k - 0)%nat with k by lia. replace (k + 1 - 0)%nat with (k + 1)%nat by lia.
      replace (warm + k + 1)%nat with (warm + (k + 1))%nat by lia. replace (warm + k + 2)%nat with (warm + (k + 1 + 1))%nat by lia.
      rewrite !Zy. split; reflexivity.
    + left. destruct Hr as (H0 & -> & Hl'). injection E as <-. split; [lia|]. split; [rewrite Zy; reflexivity|].
      replace (warm + p - 1)%nat with (warm + (p - 1))%nat by lia. rewrite !Zy. exact Hl'.
  - injection E as <-. destruct (warmup_spec _ _ _ _ _ _ _ Ew) as (x & n & Hx0 & Hn & Hs & Hb & H0 & -> & Hl).
    exists x, n. split; [exact Hx0|]. split; [lia|]. split; [exact Hs|]. split; [exact Hb|]. left.
    split; [exact H0|]. split; [reflexivity|exact Hl].
Qed.

Lemma driver_run svd sweep cells groups flux_old warm K flux :
  dmd_driver svd sweep cells groups flux_old warm K = Ok flux ->
  accelerated_run svd sweep cells groups flux_old warm K flux.
Proof.
  intros E. destruct (driver_history _ _ _ _ _ _ _ _ E) as (x & n & H0 & Hn & Hs & Hb & Hend).
  exists x, n. split; [exact H0|]. split; [exact Hn|]. split; [exact Hs|].
  split; [intros k Hk; apply below_unsettled2, (Hb k Hk)|].
  destruct Hend as [(Hp & Hf & Hl)|(Hp & HK & Hl & Hr)].
  - left. split; [exact Hp|]. split; [exact Hf|]. apply below_settled2, Hl.
  - right. split; [exact Hp|]. split; [exact HK|]. split; [apply below_unsettled2, Hl|exact Hr].
Qed.
