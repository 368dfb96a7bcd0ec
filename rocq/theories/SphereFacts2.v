(** Spherical sweeps: uniqueness, flat solutions, drivers, DJINN and anisotropic variants,
    dispatchers. *)
From Coq Require Import Lra Lia FunctionalExtensionality.
From Verif Require Import Base BaseFacts SlabModel SlabSpec SlabFacts SlabFacts2 SlabFacts3 SlabFacts5
  SphereModel SphereSpec SphereFacts.
Open Scope R_scope.

Lemma nz_neg (m : R) : m <> 0 -> ~ 0 < m -> m < 0.
Proof. intros. lra. Qed.

(** * Uniqueness of the solution of the spherical equations *)
Lemma shell_unique n rin rout mu w am ap sigt q psi1 psi2 hm1 hm2 hp1 hp2 :
  mu <> 0 -> w <> 0 ->
  (forall i, (i < n)%nat ->
     2 * Rabs mu * (if Rlt_dec 0 mu then sphere_area (rout i) else sphere_area (rin i))
     + 2 / w * (sphere_area (rout i) - sphere_area (rin i)) * ap
     + sigt i * (ball_volume (rout i) - ball_volume (rin i)) <> 0) ->
  shell_balance n rin rout mu w am ap sigt q psi1 hm1 hp1 ->
  shell_balance n rin rout mu w am ap sigt q psi2 hm2 hp2 ->
  (forall i, (i < n)%nat -> hm1 i = hm2 i) ->
  (0 < mu -> psi1 0%nat = psi2 0%nat) -> (mu < 0 -> psi1 n = psi2 n) ->
  forall k, (k <= n)%nat -> psi1 k = psi2 k.
Proof.
  intros Hmu Hw Hd H1 H2 Hh H0 Hn.
  (* one cell *)
  assert (Cell : forall i, (i < n)%nat ->
    (0 < mu -> psi1 i = psi2 i -> psi1 (S i) = psi2 (S i)) /\
    (mu < 0 -> psi1 (S i) = psi2 (S i) -> psi1 i = psi2 i)).
  { intros i Hi. specialize (Hd i Hi).
    destruct (H1 i Hi) as [C1 B1]. destruct (H2 i Hi) as [C2 B2]. cbv zeta in *.
    rewrite (Hh i Hi) in *. clear H1 H2 H0 Hn.
    set (A2 := sphere_area (rout i)) in *. set (A1 := sphere_area (rin i)) in *.
    set (V := ball_volume (rout i) - ball_volume (rin i)) in *.
    replace (hp1 i) with (psi1 i + psi1 (S i) - hm2 i) in B1 by lra.
    replace (hp2 i) with (psi2 i + psi2 (S i) - hm2 i) in B2 by lra.
    replace ((A2 - A1) / w) with (1 / w * (A2 - A1)) in B1, B2 by (field; exact Hw).
    replace (2 / w * (A2 - A1) * ap) with (2 * (1 / w * (A2 - A1)) * ap) in Hd by (field; exact Hw).
    set (K := 1 / w * (A2 - A1)) in *.
    split; intros Hs He.
    - destruct (Rlt_dec 0 mu); [|lra]. rewrite Rabs_right in Hd by lra.
      assert (E : (2 * mu * A2 + 2 * K * ap + sigt i * V) * (psi1 (S i) - psi2 (S i)) = 0).
      { rewrite He in B1. lra. }
      apply Rmult_integral in E. destruct E as [E|E]; [contradiction|lra].
    - destruct (Rlt_dec 0 mu); [lra|]. rewrite Rabs_left in Hd by lra.
      assert (E : (2 * - mu * A1 + 2 * K * ap + sigt i * V) * (psi1 i - psi2 i) = 0).
      { rewrite He in B1. lra. }
      apply Rmult_integral in E. destruct E as [E|E]; [contradiction|lra]. }
  destruct (Rlt_dec 0 mu) as [Hp|Hp].
  - induction k as [|k IH]; intros Hk; [apply H0; exact Hp|].
    apply (Cell k ltac:(lia)); [exact Hp|apply IH; lia].
  - assert (Hneg : mu < 0) by lra.
    assert (G : forall j, (j <= n)%nat -> psi1 (n - j)%nat = psi2 (n - j)%nat).
    { induction j as [|j IH]; intros Hj; [rewrite Nat.sub_0_r; apply Hn; exact Hneg|].
      apply (Cell (n - S j)%nat ltac:(lia)); [exact Hneg|].
      replace (S (n - S j)) with (n - j)%nat by lia. apply IH. lia. }
    intros k Hk. replace k with (n - (n - k))%nat by lia. apply G. lia.
Qed.

Lemma sphere_edges_unique P xs_total q q0 bnd bnd0 s1 p1 hm1 hp1 phi1 s2 p2 hm2 hp2 phi2 :
  nonzero_ordinates (angles P) (mu P) -> sphere_divisors P xs_total ->
  (forall i, (i < cells P)%nat -> dx P i <> 0) ->
  let T := sphere_transport (cells P) (angles P) (mu P) (wt P) (dx P)
             (fun i => xs_total (medium P i)) q q0 bnd bnd0 in
  (0 < cells P)%nat -> T s1 p1 hm1 hp1 phi1 -> T s2 p2 hm2 hp2 phi2 ->
  forall m k, (m < angles P)%nat -> (k <= cells P)%nat -> p1 m k = p2 m k.
Proof.
  intros Hnz (Hd1 & Hd2 & Hd3) Hdx T Hc T1 T2.
  destruct T1 as (B1 & E1 & S1 & O1 & I1 & W1 & Z1 & F1).
  destruct T2 as (B2 & E2 & S2 & O2 & I2 & W2 & Z2 & F2).
  assert (Hs : forall k, (k <= cells P)%nat -> s1 k = s2 k).
  { refine (dd_unique_bwd (cells P) (-1) (dx P) (fun i => xs_total (medium P i)) q0 s1 s2 _ B1 B2
              (eq_trans E1 (eq_sym E2))).
    intros i Hi H. specialize (Hd1 i Hi). specialize (Hdx i Hi). apply Hd1.
    assert (E : 2 * dx P i * (- -1 / dx P i + 0.5 * xs_total (medium P i))
                = 2 + xs_total (medium P i) * dx P i)
      by (replace 0.5 with (1 / 2) by lra; field; exact Hdx).
    rewrite H in E. lra. }
  intros m0 k0 Hm0 Hk0.
  assert (G : forall m, (m <= angles P)%nat ->
     (forall i, (i < cells P)%nat -> hm1 m i = hm2 m i) /\
     (forall m', (m' < m)%nat -> forall k, (k <= cells P)%nat -> p1 m' k = p2 m' k)).
  { induction m as [|m IH]; intros Hm.
    - split; [|intros; lia]. intros i Hi. rewrite S1, S2 by exact Hi. rewrite !Hs by lia. reflexivity.
    - destruct (IH ltac:(lia)) as [IHh IHp]. assert (Hm' : (m < angles P)%nat) by lia.
      assert (Hp : forall k, (k <= cells P)%nat -> p1 m k = p2 m k).
      { destruct (Hd2 m Hm') as [Hw _].
        apply (shell_unique (cells P) (code_rin (dx P)) (code_rout (dx P)) (mu P m) (wt P m)
            (alpha_coef (angles P) (mu P) (wt P) m) (alpha_coef (angles P) (mu P) (wt P) (S m))
            (fun i => xs_total (medium P i)) (q m) (p1 m) (p2 m) (hm1 m) (hm2 m) (hp1 m) (hp2 m)).
        - apply Hnz; exact Hm'.
        - exact Hw.
        - intros i Hi. exact (Hd3 m i Hm' Hi).
        - apply O1; exact Hm'.
        - apply O2; exact Hm'.
        - exact IHh.
        - intros Hp. destruct (I1 m Hm') as [J1 _]. destruct (I2 m Hm') as [J2 _].
          rewrite J1, J2 by exact Hp. apply IHh. lia.
        - intros Hn. destruct (I1 m Hm') as [_ J1]. destruct (I2 m Hm') as [_ J2].
          rewrite J1, J2 by exact Hn. reflexivity. }
      split.
      + intros i Hi. destruct (Nat.eq_dec i 0) as [->|Hne].
        * rewrite Z1, Z2 by (exact Hm' || lia). apply IHh. exact Hi.
        * destruct (Hd2 m Hm') as [_ Ht].
          pose proof (W1 m i Hm' ltac:(lia)) as X1. pose proof (W2 m i Hm' ltac:(lia)) as X2.
          rewrite !Hp in X1 by lia. rewrite IHh in X1 by exact Hi.
          set (t := tau_coef (mu P) (wt P) m) in *.
          assert (E : t * (hm1 (S m) i - hm2 (S m) i) = 0) by lra.
          apply Rmult_integral in E. destruct E as [E|E]; [contradiction|lra].
      + intros m' Hlt k Hk. destruct (Nat.eq_dec m' m) as [->|Hne]; [apply Hp; exact Hk|].
        apply IHp; [lia|exact Hk]. }
  destruct (G (angles P) (Nat.le_refl _)) as [_ Gp]. apply Gp; assumption.
Qed.

Lemma sphere_transport_unique P xs_total q q0 bnd bnd0 s1 p1 hm1 hp1 phi1 s2 p2 hm2 hp2 phi2 :
  nonzero_ordinates (angles P) (mu P) -> sphere_divisors P xs_total ->
  (forall i, (i < cells P)%nat -> dx P i <> 0) ->
  let T := sphere_transport (cells P) (angles P) (mu P) (wt P) (dx P)
             (fun i => xs_total (medium P i)) q q0 bnd bnd0 in
  T s1 p1 hm1 hp1 phi1 -> T s2 p2 hm2 hp2 phi2 ->
  forall i, (i < cells P)%nat -> phi1 i = phi2 i.
Proof.
  intros Hnz Hd Hdx T T1 T2 i Hi. pose proof (sphere_edges_unique P xs_total q q0 bnd bnd0 s1 p1 hm1 hp1 phi1 s2 p2 hm2 hp2 phi2 Hnz Hd Hdx ltac:(lia) T1 T2) as G.
  destruct T1 as (_ & _ & _ & _ & _ & _ & _ & F1). destruct T2 as (_ & _ & _ & _ & _ & _ & _ & F2).
  rewrite F1, F2 by exact Hi. apply rsum_ext. intros m Hm. rewrite !(G m) by lia. reflexivity.
Qed.

(** * Flat solution *)
Lemma al_diff P m : (m < angles P)%nat ->
  rsum (angles P) (fun k => mu P k * wt P k) = 0 ->
  al P m - al P (S m) = mu P m * wt P m.
Proof.
  intros Hm Hz. unfold al, alpha_coef. destruct (Nat.ltb_spec m (angles P)); [|lia].
  destruct (Nat.ltb_spec (S m) (angles P)).
  - cbn [rsum]. lra.
  - assert (E : angles P = S m) by lia. rewrite E in Hz. cbn [rsum] in Hz. lra.
Qed.

Lemma start_flat n q dx sigt c :
  (forall i, (i < n)%nat -> 2 + sigt i * dx i <> 0 /\ q i = sigt i * c) ->
  (forall k, (k <= n)%nat -> start_edge n q dx sigt c k = c) /\
  (forall i, (i < n)%nat -> start_half n q dx sigt c i = c).
Proof.
  intros H.
  assert (Hh : forall i, (i < n)%nat -> start_edge n q dx sigt c (S i) = c -> start_half n q dx sigt c i = c).
  { intros i Hi E. unfold start_half. rewrite E. destruct (H i Hi) as [Hd ->]. field. exact Hd. }
  assert (G : forall j, (j <= n)%nat -> start_edge n q dx sigt c (n - j) = c).
  { induction j as [|j IH]; intros Hj; [rewrite Nat.sub_0_r; apply start_top|].
    rewrite start_step by lia. replace (S (n - S j)) with (n - j)%nat by lia.
    rewrite Hh; [rewrite IH by lia; lra|lia|]. replace (S (n - S j)) with (n - j)%nat by lia.
    apply IH; lia. }
  assert (G' : forall k, (k <= n)%nat -> start_edge n q dx sigt c k = c).
  { intros k Hk. replace k with (n - (n - k))%nat by lia. apply G; lia. }
  split; [exact G'|]. intros i Hi. apply Hh; [exact Hi|]. apply G'. lia.
Qed.

Section Flat.
  Variable P : sn.
  Variables (xs_total : vec) (q : mat2) (bnd h0 : vec) (c : R).
  Hypothesis Hnz : nonzero_ordinates (angles P) (mu P).
  Hypothesis Hd : sphere_divisors P xs_total.
  Hypothesis Hsum : rsum (angles P) (fun k => mu P k * wt P k) = 0.
  Hypothesis Hq : forall m i, (m < angles P)%nat -> (i < cells P)%nat -> q m i = xs_total (medium P i) * c.
  Hypothesis Hb : forall m, (m < angles P)%nat -> bnd m = c.
  Hypothesis Hh0 : forall i, (i < cells P)%nat -> h0 i = c.

  Lemma cell_flat m i : (m < angles P)%nat -> (i < cells P)%nat ->
    (ka P (mu P m) i * c + kb P (wt P m) (al P (S m)) (al P m) i * c + ks P (q m) i)
    / kd P xs_total (mu P m) (wt P m) (al P (S m)) i = c.
  Proof.
    intros Hm Hi. pose proof (kd_spec P xs_total m i Hm Hi (Hnz m Hm) Hd) as Hk.
    destruct Hd as (_ & Hd2 & _). destruct (Hd2 m Hm) as [Hw _].
    pose proof (al_diff P m Hm Hsum) as Ha.
    assert (E : ka P (mu P m) i * c + kb P (wt P m) (al P (S m)) (al P m) i * c + ks P (q m) i
                = c * kd P xs_total (mu P m) (wt P m) (al P (S m)) i).
    { unfold ka, kb, ks, kd. rewrite Hq by assumption.
      replace (al P m) with (mu P m * wt P m + al P (S m)) by lra.
      destruct (Rlt_dec 0 (mu P m)); field; exact Hw. }
    rewrite E. field. exact Hk.
  Qed.

  Lemma ordinate_flat m h : (m < angles P)%nat -> (0 < cells P)%nat ->
    (forall i, (i < cells P)%nat -> h i = c) ->
    (forall k, (k <= cells P)%nat ->
       kE P xs_total (q m) (mu P m) (wt P m) (al P (S m)) (al P m) (bnd m) h k = c) /\
    (forall i, (i < cells P)%nat ->
       kc P xs_total (q m) (mu P m) (wt P m) (al P (S m)) (al P m) (bnd m) h i = c).
  Proof.
    intros Hm Hc Hh.
    assert (HE : forall k, (k <= cells P)%nat ->
       kE P xs_total (q m) (mu P m) (wt P m) (al P (S m)) (al P m) (bnd m) h k = c).
    { unfold kE. destruct (Rlt_dec 0 (mu P m)) as [Hp|Hp].
      - induction k as [|k IH]; intros Hk; cbn [sfw]; [apply Hh; exact Hc|].
        rewrite IH by lia. rewrite Hh by lia. rewrite cell_flat by lia. lra.
      - assert (G : forall j, (j <= cells P)%nat ->
          sbw (cells P) (ka P (mu P m)) (kb P (wt P m) (al P (S m)) (al P m)) (ks P (q m))
            (kd P xs_total (mu P m) (wt P m) (al P (S m))) h (bnd m) (cells P - j) = c).
        { induction j as [|j IH]; intros Hj; [rewrite Nat.sub_0_r, sbw_top; apply Hb; exact Hm|].
          rewrite sbw_step by lia. replace (S (cells P - S j)) with (cells P - j)%nat by lia.
          rewrite IH by lia. rewrite Hh by lia. rewrite cell_flat by lia. lra. }
        intros k Hk. replace k with (cells P - (cells P - k))%nat by lia. apply G. lia. }
    split; [exact HE|]. intros i Hi. rewrite <- kE_diamond by exact Hi. rewrite !HE by lia. lra.
  Qed.

  Lemma Hs_flat m : (m <= angles P)%nat -> (0 < cells P)%nat ->
    forall i, (i < cells P)%nat -> Hs P xs_total q bnd h0 m i = c.
  Proof.
    intros Hm Hc. induction m as [|m IH]; intros i Hi; [apply Hh0; exact Hi|].
    cbn [Hs]. unfold shalf. specialize (IH ltac:(lia)).
    destruct (ordinate_flat m (Hs P xs_total q bnd h0 m) ltac:(lia) Hc IH) as [_ Hk].
    destruct (Nat.eqb i 0); cbn [negb andb]; [apply IH; exact Hi|].
    destruct (Nat.ltb i (cells P)); cbn [negb andb Nat.leb]; [|apply IH; exact Hi].
    rewrite Hk, IH by exact Hi. destruct Hd as (_ & Hd2 & _). destruct (Hd2 m ltac:(lia)) as [_ Ht].
    fold (ta P m) in Ht. field. exact Ht.
  Qed.

  Lemma Cs_flat m i : (m < angles P)%nat -> (i < cells P)%nat -> Cs P xs_total q bnd h0 m i = c.
  Proof.
    intros Hm Hi. unfold Cs. apply ordinate_flat; try lia; try assumption.
    intros j Hj. apply Hs_flat; lia.
  Qed.
End Flat.

Lemma sphere_pass_flat P xs_total xs_scatter off external boundary flux_old c :
  let W := rsum (angles P) (wt P) in
  nonzero_ordinates (angles P) (mu P) -> sphere_divisors P xs_total -> (0 < angles P)%nat ->
  rsum (angles P) (fun k => mu P k * wt P k) = 0 ->
  (forall i, (i < cells P)%nat -> flux_old i = W * c) ->
  (forall m i, (m < angles P)%nat -> (i < cells P)%nat ->
     xs_total (medium P i) * c
     = xs_scatter (medium P i) * (W * c) + at2 external i (bidx (cols2 external) m) + off i) ->
  (forall m, (m < angles P)%nat -> at2 boundary 1%nat (bidx (cols2 boundary) m) = c) ->
  exists flux,
    sphere_iso_pass P xs_total xs_scatter off external boundary 0 flux_old = Ok flux /\
    forall i, (i < cells P)%nat -> flux i = W * c.
Proof.
  intros W Hnz Hd Ha Hsum Hf Hq Hb. eexists. split; [apply sphere_iso_pass_ok; [exact Hnz|reflexivity]|].
  intros i Hi. unfold Fs. destruct (Nat.ltb_spec i (cells P)); [|lia].
  assert (Hb0 : forall d, bidx d 0 = 0%nat) by (intros d; unfold bidx; destruct (Nat.eqb d 1); reflexivity).
  rewrite (rsum_ext (angles P) _ (fun m => wt P m * c)); [apply rsum_scal_r|].
  intros m Hm. f_equal. apply Cs_flat; try assumption.
  - intros m' i' Hm' Hi'. unfold sphere_q, iso_emit. rewrite Hf by exact Hi'.
    rewrite (Hq m' i' Hm' Hi'). ring.
  - intros j Hj. unfold sphere_h0. rewrite half_angle_iso_eq.
    destruct (Nat.ltb_spec j (cells P)); [|lia].
    pose proof (Hb 0%nat Ha) as HB. rewrite Hb0 in HB. rewrite HB.
    apply start_flat; [|exact Hj]. intros i' Hi'. destruct Hd as (Hd1 & _). split; [apply Hd1; exact Hi'|].
    pose proof (Hq 0%nat i' Ha Hi') as HQ. rewrite Hb0 in HQ. rewrite Hf by exact Hi'. rewrite HQ. ring.
Qed.

(** * Drivers *)
Lemma iterate_one (sweep : vec -> outcome vec) n tol cap fuel count old new :
  sweep old = Ok new -> 0 < tol ->
  (forall i, (i < n)%nat -> new i <> 0) -> (forall i, (i < n)%nat -> new i = old i) ->
  iterate (S fuel) sweep (rel_change n) tol cap count old = Ok new.
Proof.
  intros E Ht Hz He. cbn [iterate]. rewrite E. cbn [bind].
  replace (rel_change n new old) with (Some 0).
  - simpl. destruct (Rlt_dec 0 tol) as [_|H]; [reflexivity|contradiction].
  - symmetry. unfold rel_change. apply has_zero_false in Hz. rewrite Hz. f_equal.
    rewrite rsum_zero_ext; [apply sqrt_0|]. intros i Hi. rewrite He by exact Hi.
    rewrite Rminus_diag_eq by reflexivity. unfold Rdiv, Rsqr. ring.
Qed.

Lemma sphere_driver_flat P xs_total xs_scatter off external boundary flux_old c :
  let W := rsum (angles P) (wt P) in
  nonzero_ordinates (angles P) (mu P) -> sphere_divisors P xs_total -> (0 < angles P)%nat ->
  rsum (angles P) (fun k => mu P k * wt P k) = 0 -> W * c <> 0 ->
  (forall i, (i < cells P)%nat -> flux_old i = W * c) ->
  (forall m i, (m < angles P)%nat -> (i < cells P)%nat ->
     xs_total (medium P i) * c
     = xs_scatter (medium P i) * (W * c) + at2 external i (bidx (cols2 external) m) + off i) ->
  (forall m, (m < angles P)%nat -> at2 boundary 1%nat (bidx (cols2 boundary) m) = c) ->
  exists flux,
    sphere_isotropic_sn P flux_old xs_total xs_scatter off external boundary 0 = Ok flux /\
    forall i, (i < cells P)%nat -> flux i = W * c.
Proof.
  intros W Hnz Hd Ha Hsum Hc Hf Hq Hb.
  destruct (sphere_pass_flat P xs_total xs_scatter off external boundary flux_old c Hnz Hd Ha Hsum Hf Hq Hb)
    as (flux & E & Hflux).
  exists flux. split; [|exact Hflux]. unfold sphere_isotropic_sn. change count_nn with (S 99) at 1.
  apply iterate_one; [exact E|apply change_nn_pos| |].
  - intros i Hi. rewrite Hflux by exact Hi. exact Hc.
  - intros i Hi. rewrite Hflux, Hf by exact Hi. reflexivity.
Qed.

Lemma iterate_trace (sweep : vec -> outcome vec) n tol old r :
  iterate 100 sweep (rel_change n) tol 100 1 old = Ok r ->
  exists k x,
    (1 <= k <= 100)%nat /\ x 0%nat = old /\ r = x k /\
    (forall j, (j < k)%nat -> sweep (x j) = Ok (x (S j))) /\
    (forall j c, (0 < j < k)%nat -> rel_change n (x j) (x (j - 1)%nat) = Some c -> tol <= c) /\
    ((k < 100)%nat ->
       (exists c, rel_change n (x k) (x (k - 1)%nat) = Some c /\ c < tol) /\
       (forall i, (i < n)%nat -> r i <> 0)).
Proof.
  intros E. apply iterate_spec in E.
  destruct E as (m & x & Hm1 & Hm2 & H0 & Hr & Hs & Hnc & Hend).
  exists m, x. split; [lia|]. split; [exact H0|]. split; [exact Hr|].
  split; [exact Hs|]. split.
  - intros k c Hk Hc. specialize (Hnc k Hk). rewrite Hc in Hnc. simpl in Hnc.
    destruct (Rlt_dec c tol); [discriminate|lra].
  - intros Hlt. destruct Hend as [Hb|Hcap]; [|lia].
    apply below_true in Hb. destruct Hb as (c & Hc & Hlt').
    split; [eauto|]. intros i Hi Hz. unfold rel_change in Hc.
    assert (Hz' : has_zero n (x m) = true).
    { apply has_zero_spec. exists i. split; [exact Hi|]. rewrite <- Hr. exact Hz. }
    rewrite Hz' in Hc. discriminate.
Qed.

Lemma sphere_driver_trace P flux_old xs_total xs_scatter off external boundary edges flux :
  sphere_isotropic_sn P flux_old xs_total xs_scatter off external boundary edges = Ok flux ->
  exists n x,
    (1 <= n <= 100)%nat /\ x 0%nat = flux_old /\ flux = x n /\
    (forall k, (k < n)%nat ->
       sphere_iso_pass P xs_total xs_scatter off external boundary edges (x k) = Ok (x (S k))) /\
    (forall k, (0 < k < n)%nat -> ~ settled (cells P) (x k) (x (k - 1)%nat) (/ 10 ^ 12)) /\
    ((n < 100)%nat -> settled (cells P) (x n) (x (n - 1)%nat) (/ 10 ^ 12)).
Proof.
  intros E. apply iterate_spec in E.
  destruct E as (m & x & Hm1 & Hm2 & H0 & Hr & Hs & Hnc & Hend). change count_nn with 100%nat in *.
  exists m, x. split; [lia|]. split; [exact H0|]. split; [exact Hr|].
  split; [exact Hs|]. split.
  - intros k Hk. apply below_unsettled, Hnc, Hk.
  - intros Hlt. destruct Hend as [Hb|Hcap]; [|lia]. apply below_settled, Hb.
Qed.

Lemma sphere_driver_fixed P xs_total xs_scatter off external boundary flux :
  sphere_iso_pass P xs_total xs_scatter off external boundary 0 flux = Ok flux ->
  (forall i, (i < cells P)%nat -> flux i <> 0) ->
  sphere_isotropic_sn P flux xs_total xs_scatter off external boundary 0 = Ok flux.
Proof.
  intros E Hz. unfold sphere_isotropic_sn. change count_nn with (S 99) at 1.
  apply iterate_fixed; [exact E|apply rel_change_same; exact Hz|apply change_nn_pos].
Qed.

Lemma sphere_pass_zero P xs_total xs_scatter off external boundary edges flux_old m :
  (m < angles P)%nat -> mu P m = 0 ->
  sphere_iso_pass P xs_total xs_scatter off external boundary edges flux_old = Raise DiscontinuityAt0.
Proof.
  intros Hm Hz. unfold sphere_iso_pass.
  rewrite (for_up_err_raise (angles P) _ _ m DiscontinuityAt0); [reflexivity|exact Hm| |].
  - intros [[[fl h] an] am]. destruct (Rlt_dec 0 (mu P m)), (Rlt_dec (mu P m) 0); try lra. reflexivity.
  - intros j [[[fl h] an] am] e' _. destruct (Rlt_dec 0 (mu P j)).
    + destruct (sphere_forward_iso _ _ _ _ _ _ _ _ _ _ _ _ _ _ _); discriminate.
    + destruct (Rlt_dec (mu P j) 0).
      * destruct (sphere_backward_iso _ _ _ _ _ _ _ _ _ _ _ _ _ _ _ _); discriminate.
      * intros E; injection E as <-; reflexivity.
Qed.

Lemma sphere_driver_zero P flux_old xs_total xs_scatter off external boundary edges m :
  (m < angles P)%nat -> mu P m = 0 ->
  sphere_isotropic_sn P flux_old xs_total xs_scatter off external boundary edges = Raise DiscontinuityAt0.
Proof.
  intros Hm Hz. unfold sphere_isotropic_sn. change count_nn with (S 99). cbn [iterate].
  rewrite (sphere_pass_zero P _ _ _ _ _ _ _ m Hm Hz). reflexivity.
Qed.

Lemma sphere_driver_total P flux_old xs_total xs_scatter off external boundary :
  nonzero_ordinates (angles P) (mu P) ->
  exists flux, sphere_isotropic_sn P flux_old xs_total xs_scatter off external boundary 0 = Ok flux.
Proof.
  intros Hnz. unfold sphere_isotropic_sn.
  assert (G : forall fuel count old, (count_nn - count < fuel)%nat ->
    exists flux, iterate fuel (sphere_iso_pass P xs_total xs_scatter off external boundary 0)
      (rel_change (cells P)) change_nn count_nn count old = Ok flux).
  { induction fuel as [|fuel IH]; intros count old Hf; [lia|].
    cbn [iterate]. rewrite sphere_iso_pass_ok by (exact Hnz || reflexivity). cbn [bind].
    destruct (below _ _); cbn [orb]; [eauto|].
    destruct (Nat.leb_spec count_nn count); [eauto|]. apply IH. lia. }
  apply G. unfold count_nn. lia.
Qed.

(** * C13 for the sphere *)
Lemma sphere_scatter_equals_pass P xs_total xs_scatter off external boundary phi ss :
  (forall n, (n < angles P)%nat -> mu P n < 0 ->
     (bidx (cols2 external) n < cols2 boundary)%nat /\
     at2 boundary 1%nat (bidx (cols2 boundary) n) = 0) ->
  (forall i, (i < cells P)%nat -> ss i = off i + phi i * xs_scatter (medium P i)) ->
  sphere_scatter_source_sn P xs_total ss external boundary
  = sphere_iso_pass P xs_total xs_scatter off external boundary 0 phi.
Proof.
  intros Hb H. unfold sphere_scatter_source_sn, sphere_iso_pass.
  replace (half_angle_scatter P xs_total ss (fun i => at2 external i 0%nat) (at2 boundary 1%nat 0%nat))
    with (half_angle_iso P phi xs_total xs_scatter off (fun i => at2 external i 0%nat)
            (at2 boundary 1%nat 0%nat)).
  2:{ unfold half_angle_iso, half_angle_scatter. f_equal. apply for_down_ext.
      intros k [e h] Hk. rewrite H by exact Hk.
      replace (at2 external k 0%nat + (off k + phi k * xs_scatter (medium P k)))
        with (at2 external k 0%nat + off k + xs_scatter (medium P k) * phi k) by ring. reflexivity. }
  f_equal. apply for_up_err_ext. intros k [[[fl h] an] am] Hk.
  destruct (Rlt_dec 0 (mu P k)) as [Hp|Hp]; [|destruct (Rlt_dec (mu P k) 0) as [Hn|Hn]; [|reflexivity]].
  - replace (sphere_forward_scatter P fl h xs_total ss (fun i => at2 external i (bidx (cols2 external) k))
       (mu P k) (wt P k) (wt P k)) with
      (fun t ap am => sphere_forward_iso P fl phi h xs_total xs_scatter off (fun i => at2 external i (bidx (cols2 external) k))
       (mu P k) (wt P k) (wt P k) t ap am 0); [reflexivity|].
    extensionality t. extensionality ap. extensionality am'.
    unfold sphere_forward_iso, sphere_forward_scatter. cbn [Nat.eqb].
    match goal with |- ?l = ?r =>
      match l with context [for_up _ ?f _] => set (b1 := f) end;
      match r with context [for_up _ ?f _] => set (b2 := f) end end.
    rewrite (for_up_ext (cells P) b1 b2); [reflexivity|].
    intros j [[e f] hh] Hj. unfold b1, b2. rewrite H by exact Hj.
    rewrite <- (Rplus_assoc (at2 external j (bidx (cols2 external) k))). reflexivity.
  - destruct (Hb k Hk Hn) as [Hlt Hz]. apply Nat.ltb_lt in Hlt. rewrite Hlt. rewrite Hz.
    replace (sphere_backward_scatter P fl h xs_total ss (fun i => at2 external i (bidx (cols2 external) k))
       (at2 boundary 1%nat (bidx (cols2 external) k)) (mu P k) (wt P k) (wt P k)) with
      (fun t ap am => sphere_backward_iso P fl phi h xs_total xs_scatter off (fun i => at2 external i (bidx (cols2 external) k))
       0 (mu P k) (wt P k) (wt P k) t ap am 0); [reflexivity|].
    extensionality t. extensionality ap. extensionality am'.
    unfold sphere_backward_iso, sphere_backward_scatter. cbn [Nat.eqb].
    match goal with |- ?l = ?r =>
      match l with context [for_down _ ?f _] => set (b1 := f) end;
      match r with context [for_down _ ?f _] => set (b2 := f) end end.
    rewrite (for_down_ext (cells P) b1 b2); [reflexivity|].
    intros j [[e f] hh] Hj. unfold b1, b2. rewrite H by exact Hj.
    rewrite <- (Rplus_assoc (at2 external j (bidx (cols2 external) k))). reflexivity.
Qed.

(** * C14 for the sphere: anisotropic kernels are the isotropic ones plus the centre fluxes *)
Definition sbody4 (a b s d : vec) (weight tau : R) (edges : nat) (ii : nat)
    (st : R * vec * vec * vec) : R * vec * vec * vec :=
  let '(edge1, flux, half_angle, psi) := st in
  let center := (a ii * edge1 + b ii * half_angle ii + s ii) / d ii in
  let psi := upd psi ii center in
  let flux :=
    if Nat.eqb edges 1
    then upd flux (ii + 1) (flux (ii + 1)%nat + weight * (2 * center - edge1))
    else upd flux ii (flux ii + weight * center) in
  let half_angle :=
    if negb (Nat.eqb ii 0)
    then upd half_angle ii (1 / tau * (center - (1 - tau) * half_angle ii))
    else half_angle in
  (2 * center - edge1, flux, half_angle, psi).

Definition pcell (n : nat) (c : vec) : vec := fun i => if Nat.ltb i n then c i else 0.

Lemma pair4 {A B C D} (a a' : A) (b b' : B) (c c' : C) (d d' : D) :
  a = a' -> b = b' -> c = c' -> d = d' -> (a, b, c, d) = (a', b', c', d').
Proof. intros -> -> -> ->; reflexivity. Qed.

Lemma sfw_loop4 n a b s d w tau edges e0 fl h : Nat.eqb edges 1 = false ->
  let E := sfw a b s d h e0 in
  let c := fun i => (a i * E i + b i * h i + s i) / d i in
  for_up n (sbody4 a b s d w tau edges) (e0, fl, h, zeros)
  = (E n, sflux 0 n w c fl, shalf 0 n tau c h, pcell n c).
Proof.
  intros He E c. induction n as [|n IH].
  - simpl. apply pair4; [reflexivity| | |]; extensionality i; unfold sflux, shalf, pcell, zeros; eqb2; reflexivity.
  - cbn [for_up]. rewrite IH. unfold sbody4. rewrite He.
    assert (Hn : shalf 0 n tau c h n = h n) by (unfold shalf; eqb2; reflexivity).
    rewrite Hn. fold (c n). apply pair4; [reflexivity| | |].
    + extensionality i. unfold sflux, upd. eqb2; reflexivity.
    + extensionality i. unfold shalf, upd. eqb2; reflexivity.
    + extensionality i. unfold pcell, upd. eqb2; reflexivity.
Qed.

Lemma sbw_loop4 n a b s d w tau edges e0 fl h : Nat.eqb edges 1 = false ->
  let E := sbw n a b s d h e0 in
  let c := fun i => (a i * E (S i) + b i * h i + s i) / d i in
  for_down n (sbody4 a b s d w tau edges) (e0, fl, h, zeros)
  = (E 0%nat, sflux 0 n w c fl, shalf 0 n tau c h, pcell n c).
Proof.
  intros He E c.
  assert (G : forall k, (k <= n)%nat ->
    for_down k (sbody4 a b s d w tau edges)
      (E k, sflux k n w c fl, shalf k n tau c h, fun i => if andb (Nat.leb k i) (Nat.ltb i n) then c i else 0)
    = (E 0%nat, sflux 0 n w c fl, shalf 0 n tau c h, pcell n c)).
  { induction k as [|k IH]; intros Hk; [reflexivity|].
    cbn [for_down]. rewrite <- IH by lia. f_equal. unfold sbody4. rewrite He.
    assert (Hn : shalf (S k) n tau c h k = h k) by (unfold shalf; eqb2; reflexivity).
    rewrite Hn. fold (c k). apply pair4.
    - unfold E. rewrite (sbw_step n a b s d h e0 k) by lia. reflexivity.
    - extensionality i. unfold sflux, upd. eqb2; reflexivity.
    - extensionality i. unfold shalf, upd. eqb2; reflexivity.
    - extensionality i. unfold upd. eqb2; reflexivity. }
  etransitivity; [|exact (G n (Nat.le_refl n))]. f_equal. apply pair4.
  - symmetry; apply sbw_top.
  - extensionality i. unfold sflux. eqb2; reflexivity.
  - extensionality i. unfold shalf. eqb2; reflexivity.
  - extensionality i. unfold zeros. eqb2; reflexivity.
Qed.

Lemma sphere_forward_aniso_eq P flux h xs_total an off ext m w wgt tau ap am edges :
  0 < m -> Nat.eqb edges 1 = false ->
  let c := kc P xs_total (fun i => ext i + off i + an i) m w ap am 0 h in
  sphere_forward_aniso P flux h xs_total an off ext m w wgt tau ap am edges
  = (sflux 0 (cells P) wgt c flux, shalf 0 (cells P) tau c h, pcell (cells P) c).
Proof.
  intros Hm He c. unfold sphere_forward_aniso. rewrite He.
  set (q := fun i => ext i + off i + an i) in *.
  match goal with |- context [for_up _ ?f _] => set (body := f) end.
  assert (Hb : body = sbody4 (ka P m) (kb P w ap am) (ks P q) (kd P xs_total m w ap) wgt tau edges).
  { unfold body, sbody4, ka, kb, ks, kd. extensionality ii. extensionality st.
    destruct st as [[[e f] hh] pp]. destruct (Rlt_dec 0 m); [|lra]. rewrite He. reflexivity. }
  rewrite Hb, (sfw_loop4 _ _ _ _ _ _ _ _ _ _ _ He). unfold c, kc, kE.
  destruct (Rlt_dec 0 m); [|lra]. reflexivity.
Qed.

Lemma sphere_backward_aniso_eq P flux h xs_total an off ext bnd m w wgt tau ap am edges :
  m < 0 -> Nat.eqb edges 1 = false ->
  let c := kc P xs_total (fun i => ext i + off i + an i) m w ap am bnd h in
  sphere_backward_aniso P flux h xs_total an off ext bnd m w wgt tau ap am edges
  = (sflux 0 (cells P) wgt c flux, shalf 0 (cells P) tau c h, pcell (cells P) c).
Proof.
  intros Hm He c. unfold sphere_backward_aniso. rewrite He.
  set (q := fun i => ext i + off i + an i) in *.
  match goal with |- context [for_down _ ?f _] => set (body := f) end.
  assert (Hb : body = sbody4 (ka P m) (kb P w ap am) (ks P q) (kd P xs_total m w ap) wgt tau edges).
  { unfold body, sbody4, ka, kb, ks, kd. extensionality ii. extensionality st.
    destruct st as [[[e f] hh] pp]. destruct (Rlt_dec 0 m); [lra|]. rewrite He. reflexivity. }
  rewrite Hb, (sbw_loop4 _ _ _ _ _ _ _ _ _ _ _ He). unfold c, kc, kE.
  destruct (Rlt_dec 0 m); [lra|]. reflexivity.
Qed.

Definition sphere_aniso_q (nm : nat) (xs_w leg : mat2) (off : vec) (external : arr2) (mom : mat2) : mat2 :=
  fun m i => at2 external i (bidx (cols2 external) m) + off i + aniso_source nm xs_w mom leg i m.
Definition sphere_aniso_h0 (P : sn) (xs_total : vec) (xs0 : mat2) (off : vec) (external boundary : arr2) (f : vec) :=
  half_angle_aniso P f xs_total (fun i => xs0 i 0%nat) off (fun i => at2 external i 0%nat)
    (at2 boundary 1%nat 0%nat).

Lemma sphere_aniso_pass_ok P nm xs_total xs0 xs_w off external boundary leg legw old :
  nonzero_ordinates (angles P) (mu P) ->
  let q := sphere_aniso_q nm xs_w leg off external (snd old) in
  let h0 := sphere_aniso_h0 P xs_total xs0 off external boundary (fst old) in
  sphere_aniso_pass P nm xs_total xs0 xs_w off external boundary 0 leg legw old
  = Ok (Fs P xs_total q (sphere_bnd boundary) h0 (angles P),
        fun x l => rsum (angles P) (fun m => pcell (cells P) (Cs P xs_total q (sphere_bnd boundary) h0 m) x * legw l m)).
Proof.
  intros Hnz q h0. unfold sphere_aniso_pass. fold (sphere_aniso_h0 P xs_total xs0 off external boundary (fst old)).
  fold h0.
  match goal with |- context [for_up_err _ ?f _] => set (body := f) end.
  assert (G : forall k, (k <= angles P)%nat ->
    for_up_err k body (zeros, zeros2, h0, -1, 0)
    = Ok (Fs P xs_total q (sphere_bnd boundary) h0 k,
          (fun x l => rsum k (fun m => pcell (cells P) (Cs P xs_total q (sphere_bnd boundary) h0 m) x * legw l m)),
          Hs P xs_total q (sphere_bnd boundary) h0 k, -1 + 2 * rsum k (wt P), al P k)).
  { induction k as [|k IH]; intros Hk.
    - cbn [for_up_err Hs]. f_equal. f_equal; [f_equal; [f_equal; f_equal|]|].
      + extensionality i. unfold Fs, zeros. simpl. destruct (Nat.ltb i (cells P)); reflexivity.
      + simpl. lra.
      + unfold al, alpha_coef. destruct (Nat.ltb 0 (angles P)); simpl; lra.
    - cbn [for_up_err]. rewrite IH by lia. cbn [bind]. unfold body.
      rewrite ta_step, al_step by lia.
      assert (Hz := Hnz k ltac:(lia)).
      destruct (Rlt_dec 0 (mu P k)) as [Hp|Hp].
      + rewrite (sphere_forward_aniso_eq P _ _ _ _ _ _ _ _ _ _ _ _ 0 Hp eq_refl).
        rewrite (kc_fwd_bnd P xs_total _ _ _ _ _ 0 (sphere_bnd boundary k)) by exact Hp.
        change (kc P xs_total _ (mu P k) (wt P k) (al P (S k)) (al P k) (sphere_bnd boundary k)
                 (Hs P xs_total q (sphere_bnd boundary) h0 k))
          with (Cs P xs_total q (sphere_bnd boundary) h0 k).
        rewrite Fs_step. f_equal. f_equal. f_equal. cbn [rsum]. lra.
      + destruct (Rlt_dec (mu P k) 0) as [Hn|Hn]; [|lra].
        rewrite (sphere_backward_aniso_eq P _ _ _ _ _ _ _ _ _ _ _ _ _ 0 Hn eq_refl).
        change (kc P xs_total _ (mu P k) (wt P k) (al P (S k)) (al P k)
                 (at2 boundary 1%nat (bidx (cols2 boundary) k))
                 (Hs P xs_total q (sphere_bnd boundary) h0 k))
          with (Cs P xs_total q (sphere_bnd boundary) h0 k).
        rewrite Fs_step. f_equal. f_equal. f_equal. cbn [rsum]. lra. }
  rewrite G by lia. reflexivity.
Qed.

Lemma sphere_aniso_pass_zero P nm xs_total xs0 xs_w off external boundary edges leg legw old m :
  (m < angles P)%nat -> mu P m = 0 ->
  sphere_aniso_pass P nm xs_total xs0 xs_w off external boundary edges leg legw old = Raise DiscontinuityAt0.
Proof.
  intros Hm Hz. unfold sphere_aniso_pass.
  rewrite (for_up_err_raise (angles P) _ _ m DiscontinuityAt0); [reflexivity|exact Hm| |].
  - intros [[[[fl mo] h] an] am]. destruct (Rlt_dec 0 (mu P m)), (Rlt_dec (mu P m) 0); try lra. reflexivity.
  - intros j [[[[fl mo] h] an] am] e' _. destruct (Rlt_dec 0 (mu P j)).
    + destruct (sphere_forward_aniso _ _ _ _ _ _ _ _ _ _ _ _ _ _) as [[? ?] ?]; discriminate.
    + destruct (Rlt_dec (mu P j) 0).
      * destruct (sphere_backward_aniso _ _ _ _ _ _ _ _ _ _ _ _ _ _ _) as [[? ?] ?]; discriminate.
      * intros E; injection E as <-; reflexivity.
Qed.

(** The sweep only looks at the cells. *)
Lemma sbw_ext n a b s1 s2 d h1 h2 e k : (k <= n)%nat ->
  (forall i, (i < n)%nat -> s1 i = s2 i /\ h1 i = h2 i) -> sbw n a b s1 d h1 e k = sbw n a b s2 d h2 e k.
Proof.
  intros Hk H.
  assert (G : forall j, (j <= n)%nat -> sbw n a b s1 d h1 e (n - j) = sbw n a b s2 d h2 e (n - j)).
  { induction j as [|j IH]; intros Hj; [rewrite Nat.sub_0_r, !sbw_top; reflexivity|].
    rewrite (sbw_step n a b s1 d h1 e (n - S j)), (sbw_step n a b s2 d h2 e (n - S j)) by lia.
    replace (S (n - S j)) with (n - j)%nat by lia. rewrite IH by lia.
    destruct (H (n - S j)%nat ltac:(lia)) as [-> ->]. reflexivity. }
  replace k with (n - (n - k))%nat by lia. apply G. lia.
Qed.

Lemma sfw_ext n a b s1 s2 d h1 h2 e k : (k <= n)%nat ->
  (forall i, (i < n)%nat -> s1 i = s2 i /\ h1 i = h2 i) -> sfw a b s1 d h1 e k = sfw a b s2 d h2 e k.
Proof.
  intros Hk H. induction k as [|k IH]; [reflexivity|]. cbn [sfw]. rewrite IH by lia.
  destruct (H k ltac:(lia)) as [-> ->]. reflexivity.
Qed.

Lemma kc_ext P xs_total q1 q2 m w ap am b h1 h2 i : (i < cells P)%nat ->
  (forall j, (j < cells P)%nat -> q1 j = q2 j) -> (forall j, (j < cells P)%nat -> h1 j = h2 j) ->
  kc P xs_total q1 m w ap am b h1 i = kc P xs_total q2 m w ap am b h2 i.
Proof.
  intros Hi Hq Hh.
  assert (Hs : forall j, (j < cells P)%nat -> ks P q1 j = ks P q2 j /\ h1 j = h2 j).
  { intros j Hj. split; [unfold ks; rewrite Hq by exact Hj; reflexivity|apply Hh; exact Hj]. }
  unfold kc, kE. destruct (Hs i Hi) as [-> ->].
  destruct (Rlt_dec 0 m).
  - rewrite (Hh 0%nat) by lia.
    rewrite (sfw_ext (cells P) _ _ (ks P q1) (ks P q2) _ h1 h2) by (lia || exact Hs). reflexivity.
  - rewrite (sbw_ext (cells P) _ _ (ks P q1) (ks P q2) _ h1 h2) by (lia || exact Hs). reflexivity.
Qed.

Lemma Hs_Cs_ext P xs_total q1 q2 bnd h1 h2 :
  (forall m i, (m < angles P)%nat -> (i < cells P)%nat -> q1 m i = q2 m i) ->
  (forall i, (i < cells P)%nat -> h1 i = h2 i) ->
  forall m, (m <= angles P)%nat ->
  (forall i, (i < cells P)%nat -> Hs P xs_total q1 bnd h1 m i = Hs P xs_total q2 bnd h2 m i) /\
  ((m < angles P)%nat -> forall i, (i < cells P)%nat -> Cs P xs_total q1 bnd h1 m i = Cs P xs_total q2 bnd h2 m i).
Proof.
  intros Hq Hh. induction m as [|m IH]; intros Hm.
  - split; [exact Hh|]. intros Hl i Hi. apply kc_ext; [exact Hi| |exact Hh]. intros; apply Hq; lia.
  - destruct (IH ltac:(lia)) as [IHh IHc]. specialize (IHc ltac:(lia)).
    assert (HH : forall i, (i < cells P)%nat -> Hs P xs_total q1 bnd h1 (S m) i = Hs P xs_total q2 bnd h2 (S m) i).
    { intros i Hi. cbn [Hs]. fold (Cs P xs_total q1 bnd h1 m). fold (Cs P xs_total q2 bnd h2 m).
      unfold shalf. rewrite IHh, IHc by exact Hi. reflexivity. }
    split; [exact HH|]. intros Hl i Hi. apply kc_ext; [exact Hi| |exact HH]. intros; apply Hq; lia.
Qed.

Lemma Fs_ext P xs_total q1 q2 bnd h1 h2 :
  (forall m i, (m < angles P)%nat -> (i < cells P)%nat -> q1 m i = q2 m i) ->
  (forall i, (i < cells P)%nat -> h1 i = h2 i) ->
  Fs P xs_total q1 bnd h1 (angles P) = Fs P xs_total q2 bnd h2 (angles P).
Proof.
  intros Hq Hh. extensionality i. unfold Fs. destruct (Nat.ltb_spec i (cells P)); [|reflexivity].
  apply rsum_ext. intros m Hm. f_equal. apply Hs_Cs_ext; (assumption || lia).
Qed.

Lemma sphere_aniso_is_iso P flux_old xs_total xs_scatter xs0 xs_w off external boundary leg legw :
  (forall i, (i < cells P)%nat -> xs0 i 0%nat = xs_scatter (medium P i) /\ xs_w i 0%nat = xs_scatter (medium P i)) ->
  (forall m, (m < angles P)%nat -> leg 0%nat m = 1 /\ legw 0%nat m = wt P m) ->
  sphere_anisotropic_sn P flux_old 1 xs_total xs0 xs_w off external boundary 0 leg legw
  = sphere_isotropic_sn P flux_old xs_total xs_scatter off external boundary 0.
Proof.
  intros Hxs Hleg. unfold sphere_anisotropic_sn, sphere_isotropic_sn.
  destruct (nonzero_or P) as [Hnz|(m & Hm & Hz)].
  2:{ change count_nn with (S 99). cbn [iterate].
      rewrite (sphere_aniso_pass_zero P _ _ _ _ _ _ _ _ _ _ _ m Hm Hz).
      rewrite (sphere_pass_zero P _ _ _ _ _ _ _ m Hm Hz). reflexivity. }
  destruct (iterate_sim (fun (st : vec * mat2) (f : vec) => fst st = f /\ forall i, (i < cells P)%nat -> snd st i 0%nat = f i)
     (sphere_aniso_pass P 1 xs_total xs0 xs_w off external boundary 0 leg legw)
     (sphere_iso_pass P xs_total xs_scatter off external boundary 0)
     (fun new old => rel_change (cells P) (fst new) (fst old)) (rel_change (cells P)) change_nn count_nn)
     with (fuel := count_nn) (count := 1%nat)
          (x := (flux_old, fun (x l : nat) => if Nat.eqb l 0 then flux_old x else 0)) (y := flux_old)
     as [(x' & y' & E1 & E2 & Hr & _)|(e & E1 & E2)].
  - intros [f mo] g [Hf Hmo]. cbn [fst snd] in *. subst g. left.
    rewrite sphere_aniso_pass_ok by exact Hnz. rewrite sphere_iso_pass_ok by (exact Hnz || reflexivity).
    cbv zeta. cbn [snd fst].
    set (q := sphere_aniso_q 1 xs_w leg off external mo). set (q' := sphere_q P xs_scatter off external f).
    set (h := sphere_aniso_h0 P xs_total xs0 off external boundary f).
    set (h' := sphere_h0 P xs_total xs_scatter off external boundary f).
    assert (Hq : forall m i, (m < angles P)%nat -> (i < cells P)%nat -> q m i = q' m i).
    { intros m i Hm Hi. unfold q, q', sphere_aniso_q, sphere_q, iso_emit, aniso_source. cbn [rsum].
      destruct (Hleg m Hm) as [-> _]. destruct (Hxs i Hi) as [_ ->]. rewrite Hmo by exact Hi. ring. }
    assert (Hh : forall i, (i < cells P)%nat -> h i = h' i).
    { intros i _. unfold h, h', sphere_aniso_h0, sphere_h0, half_angle_aniso, half_angle_iso.
      apply (f_equal (fun p : R * vec => snd p i)). apply for_down_ext. intros k [e hh] Hk. destruct (Hxs k Hk) as [-> _]. reflexivity. }
    pose proof (Fs_ext P xs_total q q' (sphere_bnd boundary) h h' Hq Hh) as Hpf.
    eexists. eexists. split; [reflexivity|]. split; [reflexivity|]. cbn [fst snd].
    split; [split|].
    + exact Hpf.
    + intros i Hi. rewrite <- Hpf. unfold Fs, pcell. apply Nat.ltb_lt in Hi. rewrite Hi.
      apply rsum_ext. intros m Hm. destruct (Hleg m Hm) as [_ ->]. ring.
    + rewrite Hpf. reflexivity.
  - split; [reflexivity|]. intros i _. reflexivity.
  - rewrite E1, E2. cbn [bind]. f_equal. exact Hr.
  - rewrite E1, E2. reflexivity.
Qed.

(** * C15, C16: dispatchers *)
Lemma dispatch_iso P flux_old xs_total xs off external boundary leg legw :
  discrete_ordinates P flux_old xs_total (Iso xs) off external boundary 1 leg legw
    = Some (slab_isotropic_sn P flux_old xs_total xs off external boundary 0) /\
  discrete_ordinates P flux_old xs_total (Iso xs) off external boundary 2 leg legw
    = Some (sphere_isotropic_sn P flux_old xs_total xs off external boundary 0).
Proof. split; reflexivity. Qed.

Lemma dispatch_aniso_sphere P flux_old xs_total nm xs off external boundary leg legw :
  discrete_ordinates P flux_old xs_total (Aniso nm xs) off external boundary 2 (Some leg) (Some legw)
    = Some (sphere_anisotropic_sn P flux_old nm xs_total xs (fun x l => xs x l * (2 * INR l + 1))
              off external boundary 0 leg legw).
Proof. reflexivity. Qed.

Lemma dispatch_aniso_slab P flux_old xs_total nm xs off external boundary leg legw :
  discrete_ordinates P flux_old xs_total (Aniso nm xs) off external boundary 1 leg legw
    = Some (Raise ValueError).
Proof. reflexivity. Qed.

Lemma sphere_known_fails P flux xdim xs_total source boundary edges :
  (exists m, (m < angles P)%nat /\ mu P m <> 0) ->
  known_source_sn P flux xdim xs_total source boundary 2 edges = Some (Raise IndexError).
Proof.
  intros (m & Hm & Hz). unfold known_source_sn. cbn [Nat.eqb]. unfold sphere_known_source_sn.
  rewrite (for_up_err_raise (angles P) _ _ m IndexError); [reflexivity|exact Hm| |].
  - intros t. destruct (Rlt_dec 0 (mu P m)); [reflexivity|]. destruct (Rlt_dec (mu P m) 0); [reflexivity|lra].
  - intros j t e' _. destruct (Rlt_dec 0 (mu P j)); [intros E; injection E as <-; reflexivity|].
    destruct (Rlt_dec (mu P j) 0); [intros E; injection E as <-; reflexivity|discriminate].
Qed.

Lemma slab_known_dispatch P flux xdim xs_total source boundary edges :
  known_source_sn P flux xdim xs_total source boundary 1 edges
  = Some (Ok (slab_known_source_sn P flux xdim xs_total source boundary edges)).
Proof. reflexivity. Qed.

(** * C19: the shells *)
Lemma uniform_radius n dx d : (forall i, (i < n)%nat -> dx i = d) ->
  forall i, (i <= n)%nat -> mesh_radius dx i = INR i * d.
Proof.
  intros H i Hi. unfold mesh_radius. rewrite (rsum_ext i dx (fun _ => d)) by (intros; apply H; lia).
  apply rsum_const.
Qed.

Lemma shells_tile n dx d : (forall i, (i < n)%nat -> dx i = d) ->
  (forall i, (i < n)%nat -> code_rin dx i = mesh_radius dx i /\ code_rout dx i = mesh_radius dx (S i)) /\
  rsum n (fun i => ball_volume (code_rout dx i) - ball_volume (code_rin dx i)) = ball_volume (rsum n dx).
Proof.
  intros H. assert (G : forall i, (i < n)%nat ->
     code_rin dx i = mesh_radius dx i /\ code_rout dx i = mesh_radius dx (S i)).
  { intros i Hi. rewrite !(uniform_radius n dx d H) by lia. unfold code_rin, code_rout.
    rewrite H by exact Hi. split; reflexivity. }
  split; [exact G|].
  rewrite (rsum_ext n _ (fun i => (fun k => ball_volume (mesh_radius dx k)) (S i)
                          - (fun k => ball_volume (mesh_radius dx k)) i)).
  - pose proof (rsum_telescope n (fun k => ball_volume (mesh_radius dx k))) as HT. cbv beta in HT |- *.
    rewrite HT. unfold mesh_radius at 2. cbn [rsum]. unfold mesh_radius, ball_volume. ring.
  - intros i Hi. destruct (G i Hi) as [-> ->]. reflexivity.
Qed.

Lemma shells_contiguous_iff n dx :
  (forall i, (S i < n)%nat -> code_rout dx i = code_rin dx (S i)) <->
  (forall i, (i < n)%nat -> dx i = dx 0%nat).
Proof.
  split.
  - intros H. induction i as [|i IH]; intros Hi; [reflexivity|].
    rewrite <- IH by lia. specialize (H i Hi). unfold code_rout, code_rin in H.
    assert (INR (S i) <> 0) by (apply not_0_INR; lia).
    symmetry. apply (Rmult_eq_reg_l (INR (S i))); assumption.
  - intros H i Hi. unfold code_rout, code_rin. rewrite (H i), (H (S i)) by lia. reflexivity.
Qed.

(** * The divisors of a forward-ordered quadrature are positive *)
Lemma shell_positive n i dx : (i < n)%nat -> 0 < dx i ->
  0 < sphere_area (code_rout dx i) /\ 0 <= sphere_area (code_rin dx i) /\
  sphere_area (code_rin dx i) < sphere_area (code_rout dx i) /\
  0 < ball_volume (code_rout dx i) - ball_volume (code_rin dx i).
Proof.
  intros _ Hd. pose proof PI_RGT_0 as Hpi. pose proof (pos_INR i) as Hi.
  unfold sphere_area, ball_volume, code_rin, code_rout. rewrite S_INR.
  set (x := INR i) in *. set (d := dx i) in *.
  assert (H1 : 0 <= x * d) by (apply Rmult_le_pos; lra).
  assert (H2 : (x + 1) * d = x * d + d) by ring. rewrite H2. set (r := x * d) in *.
  assert (Hs : 0 < (r + d) ^ 2) by (apply pow_lt; lra).
  assert (Hs0 : 0 <= r ^ 2) by (apply pow2_ge_0).
  assert (Hlt : r ^ 2 < (r + d) ^ 2).
  { replace ((r + d) ^ 2) with (r ^ 2 + (2 * r * d + d * d)) by ring.
    assert (0 <= 2 * r * d) by (apply Rmult_le_pos; lra). assert (0 < d * d) by (apply Rmult_lt_0_compat; lra). lra. }
  repeat split.
  - apply Rmult_lt_0_compat; lra.
  - apply Rmult_le_pos; lra.
  - apply Rmult_lt_compat_l; lra.
  - replace (4 / 3 * PI * (r + d) ^ 3 - 4 / 3 * PI * r ^ 3)
      with (4 / 3 * PI * (3 * r * r * d + 3 * r * d * d + d ^ 3)) by ring.
    apply Rmult_lt_0_compat; [lra|].
    assert (0 <= 3 * r * r * d) by (repeat apply Rmult_le_pos; lra).
    assert (0 <= 3 * r * d * d) by (repeat apply Rmult_le_pos; lra).
    assert (0 < d ^ 3) by (apply pow_lt; lra). lra.
Qed.

Lemma alpha_nonneg angles mu wt m :
  nonzero_ordinates angles mu -> inward_first angles mu ->
  (forall k, (k < angles)%nat -> 0 < wt k) -> rsum angles (fun k => mu k * wt k) = 0 ->
  (m <= angles)%nat ->
  0 <= alpha_coef angles mu wt m /\
  (forall k, (k < angles)%nat -> mu k < 0 -> 0 < alpha_coef angles mu wt (S k) \/ (S k = angles)%nat).
Proof.
  intros Hnz Hin Hw Hsum Hm.
  assert (Hneg : forall k, (k < angles)%nat -> mu k < 0 -> forall j, (j <= k)%nat -> mu j < 0).
  { intros k Hk Hn j Hj. destruct (Rlt_dec (mu j) 0); [assumption|]. exfalso.
    assert (0 < mu j) by (specialize (Hnz j ltac:(lia)); lra).
    specialize (Hin k j Hk ltac:(lia) Hn H). lia. }
  split.
  - unfold alpha_coef. destruct (Nat.ltb_spec m angles) as [Hlt|]; [|lra].
    destruct (Rlt_dec 0 (mu m)) as [Hp|Hp].
    + (* the remaining ordinates are positive *)
      assert (Hrest : 0 <= rsum (angles - m) (fun i => mu (m + i)%nat * wt (m + i)%nat)).
      { apply rsum_nonneg. intros i Hi. specialize (Hw (m + i)%nat ltac:(lia)).
        apply Rmult_le_pos; [|lra]. destruct (Rlt_dec (mu (m + i)%nat) 0); [|lra].
        specialize (Hneg (m + i)%nat ltac:(lia) r m ltac:(lia)). lra. }
      replace angles with (m + (angles - m))%nat in Hsum by lia. rewrite rsum_split in Hsum. lra.
    + assert (H : 0 <= rsum m (fun k => - (mu k * wt k))).
      { apply rsum_nonneg. intros i Hi. specialize (Hw i ltac:(lia)).
        assert (mu m < 0) by (specialize (Hnz m Hlt); lra).
        specialize (Hneg m Hlt H i ltac:(lia)).
        replace (- (mu i * wt i)) with ((- mu i) * wt i) by ring. apply Rmult_le_pos; lra. }
      rewrite rsum_opp in H. exact H.
  - intros k Hk Hn. destruct (Nat.eq_dec (S k) angles) as [E|E]; [right; exact E|left].
    unfold alpha_coef. destruct (Nat.ltb_spec (S k) angles); [|lia].
    assert (G : 0 < rsum (S k) (fun i => - (mu i * wt i))).
    { apply rsum_pos; [lia|]. intros i Hi. specialize (Hw i ltac:(lia)).
      specialize (Hneg k Hk Hn i ltac:(lia)).
      replace (- (mu i * wt i)) with ((- mu i) * wt i) by ring. apply Rmult_lt_0_compat; lra. }
    rewrite rsum_opp in G. exact G.
Qed.

Lemma sphere_divisors_positive P xs_total :
  nonzero_ordinates (angles P) (mu P) -> inward_first (angles P) (mu P) ->
  (forall k, (k < angles P)%nat -> 0 < wt P k) ->
  rsum (angles P) (fun k => mu P k * wt P k) = 0 ->
  (forall i, (i < cells P)%nat -> 0 < dx P i /\ 0 <= xs_total (medium P i)) ->
  (forall m, (m < angles P)%nat -> tau_coef (mu P) (wt P) m <> 0) ->
  sphere_divisors P xs_total.
Proof.
  intros Hnz Hin Hw Hsum Hc Ht. split; [|split].
  - intros i Hi. destruct (Hc i Hi) as [H1 H2].
    assert (0 <= xs_total (medium P i) * dx P i) by (apply Rmult_le_pos; lra). lra.
  - intros m Hm. split; [specialize (Hw m Hm); lra|apply Ht; exact Hm].
  - intros m i Hm Hi. cbv zeta. destruct (Hc i Hi) as [H1 H2].
    destruct (shell_positive (cells P) i (dx P) Hi H1) as (A2p & A1p & Alt & Vp).
    destruct (alpha_nonneg (angles P) (mu P) (wt P) (S m) Hnz Hin Hw Hsum ltac:(lia)) as [Hal Hneg].
    pose proof Hw as Hw'. pose proof Hnz as Hnz'.
    specialize (Hw m Hm). specialize (Hnz m Hm).
    set (A2 := sphere_area (code_rout (dx P) i)) in *. set (A1 := sphere_area (code_rin (dx P) i)) in *.
    set (V := ball_volume (code_rout (dx P) i) - ball_volume (code_rin (dx P) i)) in *.
    assert (Hs : 0 <= xs_total (medium P i) * V) by (apply Rmult_le_pos; lra).
    assert (Hk : 0 < 2 / wt P m * (A2 - A1)).
    { apply Rmult_lt_0_compat; [|lra]. apply Rdiv_lt_0_compat; lra. }
    assert (Hk' : 0 <= 2 / wt P m * (A2 - A1) * alpha_coef (angles P) (mu P) (wt P) (S m))
      by (apply Rmult_le_pos; lra).
    destruct (Rlt_dec 0 (mu P m)) as [Hp|Hp].
    + rewrite Rabs_right by lra.
      assert (0 < 2 * mu P m * A2) by (apply Rmult_lt_0_compat; lra). lra.
    + rewrite Rabs_left by lra.
      assert (0 <= 2 * - mu P m * A1) by (apply Rmult_le_pos; lra).
      destruct (Hneg m Hm ltac:(lra)) as [Hpos|Hlast].
      * assert (0 < 2 / wt P m * (A2 - A1) * alpha_coef (angles P) (mu P) (wt P) (S m))
          by (apply Rmult_lt_0_compat; lra). lra.
      * (* every ordinate would be negative, against the zero sum *)
        exfalso. assert (G : 0 < rsum (angles P) (fun k => - (mu P k * wt P k))).
        { apply rsum_pos; [lia|]. intros j Hj.
          assert (mu P j < 0).
          { destruct (Rlt_dec (mu P j) 0); [assumption|]. exfalso.
            specialize (Hnz' j Hj). specialize (Hin m j Hm Hj ltac:(lra) ltac:(lra)). lia. }
          specialize (Hw' j Hj). replace (- (mu P j * wt P j)) with ((- mu P j) * wt P j) by ring.
          apply Rmult_lt_0_compat; lra. }
        rewrite rsum_opp in G. lra.
Qed.
