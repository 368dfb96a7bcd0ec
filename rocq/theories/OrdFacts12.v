(** Short times: what one step makes of an isotropic source, up to the square of the time step. *)
From Coq Require Import Lra Lia Psatz.
From Verif Require Import Base BaseFacts SlabModel SlabSpec MgModel MgSpec MgFacts MgFacts2 TimeModel TimeSpec TimeFacts TimeFacts2 TimeFacts4.
From Verif Require Import EnSpec EnFacts EnFacts2 EnFacts3 EnFacts4 EnFacts5 EnFacts6 EnFacts7 OrdSpec OrdFacts OrdFacts2 OrdFacts3 OrdFacts8 OrdFacts9.
Open Scope R_scope.

(** one cell: what leaves is at most what enters and what is emitted *)
Lemma cell_edge a t x y f F b : 0 < a -> 0 < t -> a * (y - x) + t * ((x + y) / 2) = f -> Rabs f <= F -> 2 * F <= t * b -> Rabs y <= Rabs x + b.
Proof.
  intros Ha Ht H HF Hb. assert (E : y * (a + t / 2) = f + x * (a - t / 2)) by lra.
  assert (PF : 0 <= F) by (pose proof (Rabs_pos f); lra).
  assert (Pb : 0 <= b). { apply Rmult_le_reg_l with t; [exact Ht|]. lra. }
  assert (A : Rabs y * (a + t / 2) <= F + Rabs x * (a + t / 2)).
  { rewrite <- (Rabs_pos_eq (a + t / 2)) at 1 by lra. rewrite <- Rabs_mult, E.
    eapply Rle_trans; [apply Rabs_triang|]. apply Rplus_le_compat; [exact HF|]. rewrite Rabs_mult. apply Rmult_le_compat_l; [apply Rabs_pos|].
    apply Rabs_le. split; lra. }
  apply Rmult_le_reg_r with (a + t / 2); [lra|]. rewrite Rmult_plus_distr_r.
  assert (B : F <= b * (a + t / 2)). { assert (0 <= b * a) by (apply Rmult_le_pos; lra). lra. }
  lra.
Qed.

Section Response.
Variables (P : sn) (s f : vec) (E : mat2) (v w dt F : R).
Hypothesis HP : sound_slab P.
Hypothesis Hv : 0 < v.
Hypothesis Hw : 1 <= w.
Hypothesis Hdt : 0 < dt.
Hypothesis Hs : forall i, (i < cells P)%nat -> 0 <= s i.
Hypothesis HF : forall i, (i < cells P)%nat -> Rabs (f i) <= F.
Hypothesis HF0 : 0 <= F.
Let t i := s i + w / (v * dt).
Hypothesis HE : forall m i, (m < angles P)%nat -> (i < cells P)%nat ->
  mu P m / dx P i * (E m (S i) - E m i) + t i * ((E m i + E m (S i)) / 2) = f i.
Hypothesis HI : forall m, (m < angles P)%nat ->
  E m (inflow_edge (cells P) (mu P m)) = reflected_in (cells P) (angles P) (mu P) (bc_left P) (bc_right P) E m.
Let b := 2 * F * (v * dt).

Lemma response_vdt : 0 < v * dt.
Proof. apply Rmult_lt_0_compat; assumption. Qed.
Lemma response_t i : (i < cells P)%nat -> 0 < t i /\ 1 <= t i * (v * dt).
Proof.
  intros Hi. pose proof response_vdt as P1. pose proof (Hs i Hi) as P2. unfold t.
  assert (A : (s i + w / (v * dt)) * (v * dt) = s i * (v * dt) + w) by (field; split; lra).
  assert (B : 0 <= s i * (v * dt)) by (apply Rmult_le_pos; lra). split; [|lra].
  assert (0 < w / (v * dt)) by (apply Rdiv_lt_0_compat; lra). lra.
Qed.
Lemma response_b : 0 <= b.
Proof. pose proof response_vdt. unfold b. apply Rmult_le_pos; lra. Qed.
Lemma response_tb i : (i < cells P)%nat -> 2 * F <= t i * b.
Proof.
  intros Hi. destruct (response_t i Hi) as (_ & A). unfold b. replace (t i * (2 * F * (v * dt))) with (2 * F * (t i * (v * dt))) by ring.
  rewrite <- (Rmult_1_r (2 * F)) at 1. apply Rmult_le_compat_l; lra.
Qed.

Lemma response_sweep m c : (m < angles P)%nat -> Rabs (E m (inflow_edge (cells P) (mu P m))) <= c ->
  forall j, (j <= cells P)%nat -> Rabs (E m j) <= c + INR (cells P) * b.
Proof.
  intros Hm Hc. assert (Hmu : mu P m <> 0) by (apply HP; exact Hm). unfold inflow_edge in Hc. pose proof response_b as Pb.
  assert (Z : forall j, (j <= cells P)%nat -> c + INR j * b <= c + INR (cells P) * b).
  { intros j Hj. apply Rplus_le_compat_l. apply Rmult_le_compat_r; [exact Pb|apply le_INR, Hj]. }
  destruct (Rlt_dec 0 (mu P m)) as [Hp|Hn].
  - assert (A : forall j, (j <= cells P)%nat -> Rabs (E m j) <= c + INR j * b).
    { induction j as [|j IH]; intros Hj; [cbn [INR]; lra|]. rewrite S_INR. specialize (IH ltac:(lia)).
      pose proof (cell_edge (mu P m / dx P j) (t j) (E m j) (E m (S j)) (f j) F b) as CE.
      specialize (CE ltac:(apply Rdiv_lt_0_compat; [exact Hp|apply HP; lia]) (proj1 (response_t j ltac:(lia))) (HE m j Hm ltac:(lia)) (HF j ltac:(lia)) (response_tb j ltac:(lia))). lra. }
    intros j Hj. eapply Rle_trans; [apply A, Hj|apply Z, Hj].
  - assert (Hneg : mu P m < 0) by (destruct (Rdichotomy _ _ Hmu); lra).
    assert (A : forall j, (j <= cells P)%nat -> Rabs (E m (cells P - j)%nat) <= c + INR j * b).
    { induction j as [|j IH]; intros Hj; [rewrite Nat.sub_0_r; cbn [INR]; lra|]. rewrite S_INR. specialize (IH ltac:(lia)).
      pose proof (HE m (cells P - S j)%nat Hm ltac:(lia)) as Q. replace (S (cells P - S j)) with (cells P - j)%nat in Q by lia.
      pose proof (cell_edge (- mu P m / dx P (cells P - S j)%nat) (t (cells P - S j)%nat) (E m (cells P - j)%nat) (E m (cells P - S j)%nat) (f (cells P - S j)%nat) F b) as CE.
      specialize (CE ltac:(apply Rdiv_lt_0_compat; [lra|apply HP; lia]) (proj1 (response_t (cells P - S j)%nat ltac:(lia)))).
      assert (Q2 : - mu P m / dx P (cells P - S j)%nat * (E m (cells P - S j)%nat - E m (cells P - j)%nat) + t (cells P - S j)%nat * ((E m (cells P - j)%nat + E m (cells P - S j)%nat) / 2) = f (cells P - S j)%nat).
      { rewrite <- Q. unfold Rdiv. ring. }
      specialize (CE Q2 (HF (cells P - S j)%nat ltac:(lia)) (response_tb (cells P - S j)%nat ltac:(lia))). lra. }
    intros j Hj. replace j with (cells P - (cells P - j))%nat by lia. eapply Rle_trans; [apply A; lia|apply Z; lia].
Qed.

Lemma response_edges m j : (m < angles P)%nat -> (j <= cells P)%nat -> Rabs (E m j) <= 2 * (INR (cells P) * b).
Proof.
  intros Hm Hj. pose proof response_b as Pb. assert (PN : 0 <= INR (cells P) * b) by (apply Rmult_le_pos; [apply pos_INR|exact Pb]).
  assert (Z : forall m', (m' < angles P)%nat -> reflected_in (cells P) (angles P) (mu P) (bc_left P) (bc_right P) E m' = 0 ->
    forall j, (j <= cells P)%nat -> Rabs (E m' j) <= INR (cells P) * b).
  { intros m' Hm' H0 j' Hj'. pose proof (response_sweep m' 0 Hm') as A. rewrite (HI m' Hm'), H0, Rabs_R0 in A. specialize (A (Rle_refl 0) j' Hj'). lra. }
  pose proof (HI m Hm) as I. unfold reflected_in in I. cbv zeta in I.
  destruct (Nat.ltb_spec (angles P - m - 1) m) as [L|L]; cbn [andb] in I.
  - assert (Zm : reflected_in (cells P) (angles P) (mu P) (bc_left P) (bc_right P) E (angles P - m - 1)%nat = 0).
    { unfold reflected_in. cbv zeta. destruct (Nat.ltb_spec (angles P - (angles P - m - 1) - 1) (angles P - m - 1)); [lia|reflexivity]. }
    assert (C : Rabs (E m (inflow_edge (cells P) (mu P m))) <= INR (cells P) * b).
    { rewrite I. destruct (leaves_reflective _ _ _ _); [|rewrite Rabs_R0; exact PN]. apply (Z (angles P - m - 1)%nat ltac:(lia) Zm).
      unfold outflow_edge. destruct (Rlt_dec _ _); lia. }
    pose proof (response_sweep m _ Hm C j Hj). lra.
  - pose proof (response_sweep m 0 Hm) as A. rewrite I, Rabs_R0 in A. specialize (A (Rle_refl 0) j Hj). lra.
Qed.

Lemma response_ordinate m i : (m < angles P)%nat -> (i < cells P)%nat ->
  Rabs ((E m i + E m (S i)) / 2 - v * dt / w * f i) <= dt * dt * (v * v * (s i + 8 * INR (cells P) * (Rabs (mu P m) / dx P i))) * F.
Proof.
  intros Hm Hi. pose proof (HE m i Hm Hi) as Q. destruct (response_t i Hi) as (T1 & T2). pose proof response_vdt as PV. pose proof (Hs i Hi) as PS.
  pose proof (HF i Hi) as BF. assert (Hx : 0 < dx P i) by (apply HP; exact Hi).
  set (x := (E m i + E m (S i)) / 2) in *. set (D := mu P m / dx P i * (E m (S i) - E m i)) in *.
  assert (BD : Rabs D <= Rabs (mu P m) / dx P i * (8 * INR (cells P) * F * (v * dt))).
  { unfold D. rewrite Rabs_mult. unfold Rdiv at 1. rewrite Rabs_mult, (Rabs_pos_eq (/ dx P i)) by (left; apply Rinv_0_lt_compat; exact Hx).
    fold (Rabs (mu P m) / dx P i). apply Rmult_le_compat_l.
    - apply Rmult_le_pos; [apply Rabs_pos|left; apply Rinv_0_lt_compat; exact Hx].
    - pose proof (response_edges m i Hm ltac:(lia)) as A1. pose proof (response_edges m (S i) Hm ltac:(lia)) as A2. unfold b in A1, A2.
      replace (E m (S i) - E m i) with (E m (S i) + - E m i) by ring. eapply Rle_trans; [apply Rabs_triang|]. rewrite Rabs_Ropp. lra. }
  assert (EQ : t i * (v * dt) = s i * (v * dt) + w) by (unfold t; field; split; lra).
  assert (X : (t i * (v * dt)) * (x - v * dt / w * f i) = (v * dt) * (- D - s i * (v * dt) / w * f i)).
  { replace ((t i * (v * dt)) * (x - v * dt / w * f i)) with ((v * dt) * (t i * x) - (t i * (v * dt)) * (v * dt / w * f i)) by ring.
    rewrite EQ. replace (t i * x) with (f i - D) by lra. field. lra. }
  assert (Y : Rabs (x - v * dt / w * f i) <= Rabs ((t i * (v * dt)) * (x - v * dt / w * f i))).
  { rewrite Rabs_mult, (Rabs_pos_eq (t i * (v * dt))) by lra. rewrite <- (Rmult_1_l (Rabs (x - v * dt / w * f i))) at 1.
    apply Rmult_le_compat_r; [apply Rabs_pos|exact T2]. }
  eapply Rle_trans; [exact Y|]. rewrite X, Rabs_mult, (Rabs_pos_eq (v * dt)) by lra.
  replace (dt * dt * (v * v * (s i + 8 * INR (cells P) * (Rabs (mu P m) / dx P i))) * F)
    with (v * dt * (Rabs (mu P m) / dx P i * (8 * INR (cells P) * F * (v * dt)) + s i * (v * dt) * F)) by ring.
  apply Rmult_le_compat_l; [lra|]. unfold Rminus. eapply Rle_trans; [apply Rabs_triang|]. rewrite !Rabs_Ropp. apply Rplus_le_compat; [exact BD|].
  assert (0 <= s i * (v * dt)) by (apply Rmult_le_pos; lra).
  assert (IW : / w <= 1) by (rewrite <- Rinv_1; apply Rinv_le_contravar; lra). assert (IP : 0 < / w) by (apply Rinv_0_lt_compat; lra).
  replace (s i * (v * dt) / w * f i) with (s i * (v * dt) * (/ w * f i)) by (unfold Rdiv; ring).
  rewrite Rabs_mult, (Rabs_pos_eq (s i * (v * dt))) by assumption. apply Rmult_le_compat_l; [assumption|].
  rewrite Rabs_mult, (Rabs_pos_eq (/ w)) by lra. apply Rle_trans with (1 * F); [|lra].
  apply Rmult_le_compat; [lra|apply Rabs_pos|exact IW|exact BF].
Qed.

Lemma response i : (i < cells P)%nat ->
  Rabs (rsum (angles P) (fun m => wt P m * ((E m i + E m (S i)) / 2)) - rsum (angles P) (wt P) * (v * dt / w) * f i)
  <= dt * dt * (v * v * rsum (angles P) (fun m => wt P m * (s i + 8 * INR (cells P) * (Rabs (mu P m) / dx P i)))) * F.
Proof.
  intros Hi. replace (rsum (angles P) (fun m => wt P m * ((E m i + E m (S i)) / 2)) - rsum (angles P) (wt P) * (v * dt / w) * f i)
    with (rsum (angles P) (fun m => wt P m * ((E m i + E m (S i)) / 2 - v * dt / w * f i))).
  - eapply Rle_trans; [apply (rsum_abs_le (angles P) _ (fun m => Rabs (wt P m * ((E m i + E m (S i)) / 2 - v * dt / w * f i)))); intros; lra|]. replace (dt * dt * (v * v * rsum (angles P) (fun m => wt P m * (s i + 8 * INR (cells P) * (Rabs (mu P m) / dx P i)))) * F)
      with (dt * dt * (v * v) * F * rsum (angles P) (fun m => wt P m * (s i + 8 * INR (cells P) * (Rabs (mu P m) / dx P i)))) by ring.
    rewrite <- rsum_scal. apply rsum_le. intros m Hm. assert (PW : 0 <= wt P m) by (apply HP; exact Hm).
    rewrite Rabs_mult, (Rabs_pos_eq (wt P m)) by exact PW.
    replace (dt * dt * (v * v) * F * (wt P m * (s i + 8 * INR (cells P) * (Rabs (mu P m) / dx P i))))
      with (wt P m * (dt * dt * (v * v * (s i + 8 * INR (cells P) * (Rabs (mu P m) / dx P i))) * F)) by ring.
    apply Rmult_le_compat_l; [exact PW|apply response_ordinate; assumption].
  - rewrite (rsum_ext (angles P) _ (fun m => wt P m * ((E m i + E m (S i)) / 2) + - (v * dt / w * f i) * wt P m)) by (intros; ring).
    rewrite rsum_plus, rsum_scal. ring.
Qed.
End Response.
