(** Banach's fixed point theorem for maps on the first [n] entries of a vector. *)
From Coq Require Import Lra Lia FunctionalExtensionality.
From Verif Require Import Base BaseFacts.
Open Scope R_scope.

Definition near (n : nat) (d : R) (f g : vec) : Prop :=
  forall i, (i < n)%nat -> Rabs (f i - g i) <= d.

Lemma near_refl n f : near n 0 f f.
Proof. intros i _. rewrite Rminus_diag_eq by reflexivity. rewrite Rabs_R0. lra. Qed.

Lemma near_sym n d f g : near n d f g -> near n d g f.
Proof. intros H i Hi. rewrite Rabs_minus_sym. apply H; exact Hi. Qed.

Lemma near_trans n d e f g h : near n d f g -> near n e g h -> near n (d + e) f h.
Proof.
  intros H1 H2 i Hi. specialize (H1 i Hi). specialize (H2 i Hi).
  replace (f i - h i) with ((f i - g i) + (g i - h i)) by ring.
  eapply Rle_trans; [apply Rabs_triang|]. lra.
Qed.

Lemma near_weaken n d e f g : d <= e -> near n d f g -> near n e f g.
Proof. intros Hd H i Hi. specialize (H i Hi). lra. Qed.

Lemma near_exists n f g : exists d, 0 <= d /\ near n d f g.
Proof.
  exists (rsum n (fun i => Rabs (f i - g i))). split.
  - apply rsum_nonneg. intros; apply Rabs_pos.
  - intros i Hi. apply (rsum_term_le n (fun i => Rabs (f i - g i)));
      [intros; apply Rabs_pos|exact Hi].
Qed.

Lemma near_zero n f g : near n 0 f g -> forall i, (i < n)%nat -> f i = g i.
Proof.
  intros H i Hi. specialize (H i Hi).
  assert (Hp := Rabs_pos (f i - g i)). assert (E : Rabs (f i - g i) = 0) by lra.
  destruct (Req_dec (f i - g i) 0) as [Hz|Hz]; [lra|]. exfalso. exact (Rabs_no_R0 _ Hz E).
Qed.

Section Banach.
  Variables (n : nat) (T : vec -> vec) (rho : R).
  Hypothesis Hrho : 0 <= rho < 1.
  Hypothesis HT : forall f g d, 0 <= d -> near n d f g -> near n (rho * d) (T f) (T g).

  Fixpoint orbit (f : vec) (k : nat) : vec :=
    match k with O => f | S j => T (orbit f j) end.

  Lemma orbit_dist f g d k : 0 <= d -> near n d f g -> near n (rho ^ k * d) (orbit f k) (orbit g k).
  Proof.
    intros Hd H. induction k as [|k IH]; [simpl; eapply near_weaken; [|exact H]; lra|].
    simpl. rewrite Rmult_assoc. apply HT; [|exact IH].
    apply Rmult_le_pos; [apply pow_le; lra|exact Hd].
  Qed.

  Lemma unique_fixed f g :
    (forall i, (i < n)%nat -> T f i = f i) -> (forall i, (i < n)%nat -> T g i = g i) ->
    forall i, (i < n)%nat -> f i = g i.
  Proof.
    intros Hf Hg i Hi. apply (near_zero n); [|exact Hi].
    assert (G : forall d, 0 <= d -> near n d f g -> near n (rho * d) f g).
    { intros d Hd H j Hj. rewrite <- (Hf j Hj), <- (Hg j Hj). apply HT; assumption. }
    set (M := rsum n (fun j => Rabs (f j - g j))).
    destruct (near_exists n f g) as (d & Hd & Hn).
    assert (Gk : forall k, near n (rho ^ k * d) f g).
    { induction k as [|k IH]; [simpl; eapply near_weaken; [|exact Hn]; lra|].
      simpl. rewrite Rmult_assoc. apply G; [apply Rmult_le_pos; [apply pow_le; lra|exact Hd]|exact IH]. }
    intros j Hj. destruct (Rle_or_lt (Rabs (f j - g j)) 0) as [H|H]; [exact H|exfalso].
    destruct (pow_lt_1_zero rho ltac:(rewrite Rabs_right; lra) (Rabs (f j - g j) / (d + 1))
                ltac:(apply Rdiv_lt_0_compat; lra)) as [N HN].
    specialize (HN N ltac:(lia)). specialize (Gk N j Hj).
    rewrite Rabs_right in HN by (apply Rle_ge, pow_le; lra).
    assert (rho ^ N * (d + 1) < Rabs (f j - g j)).
    { apply (Rmult_lt_compat_r (d + 1)) in HN; [|lra].
      replace (Rabs (f j - g j) / (d + 1) * (d + 1)) with (Rabs (f j - g j)) in HN by (field; lra).
      exact HN. }
    assert (0 <= rho ^ N) by (apply pow_le; lra).
    nra.
  Qed.

  (** A posteriori estimate. *)
  Lemma posterior x fs d e :
    0 <= d -> 0 <= e ->
    (forall i, (i < n)%nat -> T fs i = fs i) -> near n d (T x) x -> near n e x fs ->
    near n (rho * d / (1 - rho)) (T x) fs.
  Proof.
    intros Hd He Hf Hx Hn.
    assert (Hstep : forall e, 0 <= e -> near n e x fs -> near n (d + rho * e) x fs).
    { intros e' He' Hn' i Hi.
      assert (A := HT x fs e' He' Hn' i Hi). rewrite (Hf i Hi) in A.
      assert (B := Hx i Hi). rewrite Rabs_minus_sym in B.
      replace (x i - fs i) with ((x i - T x i) + (T x i - fs i)) by ring.
      eapply Rle_trans; [apply Rabs_triang|]. lra. }
    assert (Hx0 : near n (d / (1 - rho)) x fs).
    { assert (Gk : forall k, near n (d / (1 - rho) + rho ^ k * e) x fs).
      { induction k as [|k IH].
        - simpl. eapply near_weaken; [|exact Hn].
          assert (0 <= d / (1 - rho)) by (apply Rmult_le_pos; [exact Hd|left; apply Rinv_0_lt_compat; lra]).
          lra.
        - eapply near_weaken; [|apply Hstep; [|exact IH]].
          + simpl. right. field. lra.
          + apply Rplus_le_le_0_compat.
            * apply Rmult_le_pos; [exact Hd|left; apply Rinv_0_lt_compat; lra].
            * apply Rmult_le_pos; [apply pow_le; lra|exact He]. }
      intros i Hi. destruct (Rle_or_lt (Rabs (x i - fs i)) (d / (1 - rho))) as [H|H]; [exact H|exfalso].
      set (gap := Rabs (x i - fs i) - d / (1 - rho)).
      assert (Hgap : 0 < gap) by (unfold gap; lra).
      destruct (pow_lt_1_zero rho ltac:(rewrite Rabs_right; lra) (gap / (e + 1))
                ltac:(apply Rdiv_lt_0_compat; lra)) as [N HN].
      specialize (HN N ltac:(lia)). specialize (Gk N i Hi).
      rewrite Rabs_right in HN by (apply Rle_ge, pow_le; lra).
      assert (rho ^ N * (e + 1) < gap).
      { apply (Rmult_lt_compat_r (e + 1)) in HN; [|lra].
        replace (gap / (e + 1) * (e + 1)) with gap in HN by (field; lra). exact HN. }
      assert (0 <= rho ^ N) by (apply pow_le; lra).
      unfold gap in *. nra. }
    intros i Hi. rewrite <- (Hf i Hi).
    replace (rho * d / (1 - rho)) with (rho * (d / (1 - rho))) by (unfold Rdiv; ring).
    apply HT; [|exact Hx0|exact Hi].
    apply Rmult_le_pos; [exact Hd|left; apply Rinv_0_lt_compat; lra].
  Qed.

  Lemma orbit_step_dist f d k : 0 <= d -> near n d (T f) f ->
    near n (rho ^ k * d) (orbit f (S k)) (orbit f k).
  Proof.
    intros Hd H. induction k as [|k IH]; [simpl; eapply near_weaken; [|exact H]; lra|].
    simpl. rewrite Rmult_assoc. apply HT; [|exact IH].
    apply Rmult_le_pos; [apply pow_le; lra|exact Hd].
  Qed.

  Lemma orbit_far f d k p : 0 <= d -> near n d (T f) f ->
    near n (rho ^ k * d / (1 - rho)) (orbit f (k + p)) (orbit f k).
  Proof.
    intros Hd H.
    assert (G : near n (rho ^ k * d * (1 - rho ^ p) / (1 - rho)) (orbit f (k + p)) (orbit f k)).
    { induction p as [|p IH].
      - rewrite Nat.add_0_r. eapply near_weaken; [|apply near_refl]. simpl. right. field. lra.
      - replace (k + S p)%nat with (S (k + p)) by lia.
        eapply near_weaken; [|eapply near_trans; [apply orbit_step_dist; eassumption|exact IH]].
        right. rewrite pow_add. simpl. field. lra. }
    eapply near_weaken; [|exact G].
    unfold Rdiv. apply Rmult_le_compat_r; [left; apply Rinv_0_lt_compat; lra|].
    rewrite <- (Rmult_1_r (rho ^ k * d)) at 2.
    apply Rmult_le_compat_l; [apply Rmult_le_pos; [apply pow_le; lra|exact Hd]|].
    assert (0 <= rho ^ p) by (apply pow_le; lra). lra.
  Qed.

  Lemma orbit_cauchy f i : (i < n)%nat -> Cauchy_crit (fun k => orbit f k i).
  Proof.
    intros Hi. destruct (near_exists n (T f) f) as (d & Hd & Hn).
    intros eps Heps.
    destruct (pow_lt_1_zero rho ltac:(rewrite Rabs_right; lra) (eps * (1 - rho) / (2 * (d + 1)))
                ltac:(apply Rdiv_lt_0_compat; [apply Rmult_lt_0_compat; lra|lra])) as [N HN].
    exists N.
    assert (Hhalf : forall k, (N <= k)%nat -> Rabs (orbit f k i - orbit f N i) < eps / 2).
    { intros k Hk. replace k with (N + (k - N))%nat by lia.
      eapply Rle_lt_trans; [apply (orbit_far f d N (k - N) Hd Hn i Hi)|].
      specialize (HN N ltac:(lia)). rewrite Rabs_right in HN by (apply Rle_ge, pow_le; lra).
      apply (Rmult_lt_reg_r (1 - rho)); [lra|].
      replace (rho ^ N * d / (1 - rho) * (1 - rho)) with (rho ^ N * d) by (field; lra).
      apply (Rmult_lt_compat_r (d + 1)) in HN; [|lra].
      replace (eps * (1 - rho) / (2 * (d + 1)) * (d + 1)) with (eps / 2 * (1 - rho)) in HN by (field; lra).
      assert (0 <= rho ^ N) by (apply pow_le; lra). nra. }
    intros p q Hp Hq. unfold R_dist.
    replace (orbit f p i - orbit f q i)
      with ((orbit f p i - orbit f N i) + (orbit f N i - orbit f q i)) by ring.
    eapply Rle_lt_trans; [apply Rabs_triang|].
    assert (A := Hhalf p Hp). assert (B := Hhalf q Hq). rewrite Rabs_minus_sym in B. lra.
  Qed.

  Lemma Un_cv_le u l b K : Un_cv u l -> (forall k, (K <= k)%nat -> u k <= b) -> l <= b.
  Proof.
    intros Hu Hb. destruct (Rle_or_lt l b) as [H|H]; [exact H|exfalso].
    destruct (Hu (l - b) ltac:(lra)) as [N HN].
    specialize (HN (Nat.max N K) ltac:(lia)). specialize (Hb (Nat.max N K) ltac:(lia)).
    unfold R_dist in HN. rewrite Rabs_left1 in HN by lra. lra.
  Qed.

  Lemma banach_exists (f0 : vec) : exists fs : vec,
    (forall i, (i < n)%nat -> T fs i = fs i).
  Proof.
    assert (Hlim : exists fs : vec, forall i, (i < n)%nat -> Un_cv (fun k => orbit f0 k i) (fs i)).
    { assert (forall m, (m <= n)%nat -> exists fs : vec, forall i, (i < m)%nat -> Un_cv (fun k => orbit f0 k i) (fs i)) as G.
      { induction m as [|m IH]; intros Hm; [exists f0; intros; lia|].
        destruct IH as [fs Hfs]; [lia|].
        destruct (R_complete _ (orbit_cauchy f0 m ltac:(lia))) as [l Hl].
        exists (upd fs m l). intros i Hi. destruct (Nat.eq_dec i m) as [->|Hne].
        - rewrite upd_same. exact Hl.
        - rewrite upd_other by exact Hne. apply Hfs. lia. }
      apply (G n). lia. }
    destruct Hlim as [fs Hfs]. exists fs.
    destruct (near_exists n (T f0) f0) as (d & Hd & Hn).
    assert (Hclose : forall k, near n (rho ^ k * d / (1 - rho)) fs (orbit f0 k)).
    { intros k i Hi. 
      assert (Hcv : Un_cv (fun p => Rabs (orbit f0 p i - orbit f0 k i)) (Rabs (fs i - orbit f0 k i))).
      { apply cv_cvabs. apply CV_minus; [apply Hfs; exact Hi|].
        intros eps Heps. exists 0%nat. intros. unfold R_dist. rewrite Rminus_diag_eq, Rabs_R0 by reflexivity. exact Heps. }
      eapply (Un_cv_le _ _ _ k Hcv). intros p Hp.
      replace p with (k + (p - k))%nat by lia. apply orbit_far; assumption. }
    set (C := d / (1 - rho)).
    assert (HC : 0 <= C) by (apply Rmult_le_pos; [exact Hd|left; apply Rinv_0_lt_compat; lra]).
    assert (Hres : forall k, near n (2 * (rho ^ k * C)) (T fs) fs).
    { intros k. 
      assert (Hk : near n (rho ^ k * C) fs (orbit f0 k)).
      { eapply near_weaken; [|apply Hclose]. unfold C, Rdiv. right. ring. }
      assert (Hpk : 0 <= rho ^ k * C) by (apply Rmult_le_pos; [apply pow_le; lra|exact HC]).
      assert (A := HT _ _ _ Hpk Hk). 
      assert (B : near n (rho ^ S k * C) (orbit f0 (S k)) fs).
      { apply near_sym. eapply near_weaken; [|apply Hclose]. unfold C, Rdiv. right. ring. }
      change (orbit f0 (S k)) with (T (orbit f0 k)) in B.
      eapply near_weaken; [|eapply near_trans; [exact A|exact B]].
      simpl. assert (0 <= rho ^ k * C) by exact Hpk. nra. }
    intros i Hi. apply (near_zero n); [|exact Hi].
    intros j Hj. destruct (Rle_or_lt (Rabs (T fs j - fs j)) 0) as [H|H]; [exact H|exfalso].
    destruct (pow_lt_1_zero rho ltac:(rewrite Rabs_right; lra) (Rabs (T fs j - fs j) / (2 * (C + 1)))
                ltac:(apply Rdiv_lt_0_compat; lra)) as [N HN].
    specialize (HN N ltac:(lia)). rewrite Rabs_right in HN by (apply Rle_ge, pow_le; lra).
    specialize (Hres N j Hj).
    assert (rho ^ N * (2 * (C + 1)) < Rabs (T fs j - fs j)).
    { apply (Rmult_lt_compat_r (2 * (C + 1))) in HN; [|lra].
      replace (Rabs (T fs j - fs j) / (2 * (C + 1)) * (2 * (C + 1))) with (Rabs (T fs j - fs j)) in HN by (field; lra).
      exact HN. }
    assert (0 <= rho ^ N) by (apply pow_le; lra). nra.
  Qed.
End Banach.
