(** Positive operators: contraction of the ratio bracket, existence of the fundamental mode, inexact iteration. *)
From Coq Require Import Lra Lia Psatz.
From Verif Require Import Base BaseFacts Contraction SlabModel SlabSpec MgModel MgSpec CritModel CritSpec CritFacts5.
Open Scope R_scope.

Lemma geometric_limit (u : nat -> R) C q : 0 <= q < 1 -> (forall k, Rabs (u (S k) - u k) <= C * q ^ k) ->
  {l : R | forall k, Rabs (u k - l) <= C * q ^ k / (1 - q)}.
Proof.
  intros Hq Hu.
  assert (HC : 0 <= C). { specialize (Hu 0%nat). cbn [pow] in Hu. pose proof (Rabs_pos (u 1%nat - u 0%nat)). lra. }
  assert (Far : forall k p, Rabs (u (k + p)%nat - u k) <= C * q ^ k / (1 - q)).
  { intros k p. assert (Rabs (u (k + p)%nat - u k) <= C * q ^ k * (1 - q ^ p) / (1 - q)).
    { induction p as [|p IH].
      - rewrite Nat.add_0_r, Rminus_diag_eq, Rabs_R0 by reflexivity. cbn [pow]. right. field. lra.
      - specialize (Hu (k + p)%nat). rewrite pow_add in Hu.
        replace (u (k + S p)%nat - u k) with ((u (S (k + p)) - u (k + p)%nat) + (u (k + p)%nat - u k)) by (rewrite <- plus_n_Sm; ring).
        eapply Rle_trans; [apply Rabs_triang|]. eapply Rle_trans; [apply Rplus_le_compat; [exact Hu|exact IH]|].
        right. cbn [pow]. field. lra. }
    eapply Rle_trans; [exact H|]. unfold Rdiv. apply Rmult_le_compat_r; [left; apply Rinv_0_lt_compat; lra|].
    rewrite <- (Rmult_1_r (C * q ^ k)) at 2. apply Rmult_le_compat_l; [apply Rmult_le_pos; [exact HC|apply pow_le; lra]|].
    assert (0 <= q ^ p) by (apply pow_le; lra). lra. }
  assert (Cau : Cauchy_crit u).
  { intros eps Heps. apply Rgt_lt in Heps. destruct (pow_lt_1_zero q ltac:(rewrite Rabs_right; lra) (eps * (1 - q) / (2 * (C + 1))) ltac:(apply Rdiv_lt_0_compat; [apply Rmult_lt_0_compat; lra|lra])) as [N HN].
    exists N. specialize (HN N (le_n N)). rewrite Rabs_right in HN by (apply Rle_ge, pow_le; lra).
    assert (HB : C * q ^ N / (1 - q) < eps / 2).
    { apply (Rmult_lt_reg_r (1 - q)); [lra|]. replace (C * q ^ N / (1 - q) * (1 - q)) with (C * q ^ N) by (field; lra).
      apply (Rmult_lt_compat_r (C + 1)) in HN; [|lra]. replace (eps * (1 - q) / (2 * (C + 1)) * (C + 1)) with (eps / 2 * (1 - q)) in HN by (field; lra).
      assert (0 <= q ^ N) by (apply pow_le; lra). nra. }
    assert (D : forall m, (m >= N)%nat -> Rabs (u m - u N) < eps / 2).
    { intros m Hm. replace m with (N + (m - N))%nat by lia. eapply Rle_lt_trans; [apply Far|exact HB]. }
    intros m p Hm Hp. unfold R_dist. replace (u m - u p) with ((u m - u N) - (u p - u N)) by ring.
    eapply Rle_lt_trans; [apply Rabs_triang|]. rewrite Rabs_Ropp. specialize (D m Hm) as D1. specialize (D p Hp). lra. }
  destruct (R_complete u Cau) as [l Hl]. exists l. intros k.
  destruct (Rle_dec (Rabs (u k - l)) (C * q ^ k / (1 - q))) as [L|L]; [exact L|exfalso].
  destruct (Hl (Rabs (u k - l) - C * q ^ k / (1 - q)) ltac:(lra)) as [N HN].
  specialize (HN (k + N)%nat ltac:(lia)). unfold R_dist in HN. specialize (Far k N).
  pose proof (Rabs_triang (u k - u (k + N)%nat) (u (k + N)%nat - l)).
  replace (u k - u (k + N)%nat + (u (k + N)%nat - l)) with (u k - l) in H by ring.
  rewrite (Rabs_minus_sym (u k) (u (k + N)%nat)) in H. lra.
Qed.

Section Perron.
Variables (n G : nat) (K : mat2 -> mat2) (d : R).
Hypothesis Hn : (0 < n)%nat.
Hypothesis HG : (0 < G)%nat.
Hypothesis K_lin : forall a b v w i g, (i < n)%nat -> (g < G)%nat ->
  K (fun i g => a * v i g + b * w i g) i g = a * K v i g + b * K w i g.
Hypothesis K_mono : forall v w, below2 n G v w -> below2 n G (K v) (K w).
Hypothesis Hd : 0 < d <= 1.
Hypothesis harnack : forall v, below2 n G (fun _ _ => 0) v ->
  forall i g j h, (i < n)%nat -> (g < G)%nat -> (j < n)%nat -> (h < G)%nat -> d * K v j h <= K v i g.

Definition between (a b : R) (v w : mat2) : Prop :=
  forall i g, (i < n)%nat -> (g < G)%nat -> a * v i g <= w i g <= b * v i g.

Lemma K_ext v w : agree2 n G v w -> agree2 n G (K v) (K w).
Proof.
  intros H i g Hi Hg. apply Rle_antisym; apply K_mono; try assumption; intros i' g' Hi' Hg'; rewrite H by assumption; lra.
Qed.
Lemma K_scale c v i g : (i < n)%nat -> (g < G)%nat -> K (fun i g => c * v i g) i g = c * K v i g.
Proof.
  intros Hi Hg. rewrite (K_ext (fun i g => c * v i g) (fun i g => c * v i g + 0 * v i g)) by (try assumption; intros ? ? _ _; ring).
  rewrite K_lin by assumption. ring.
Qed.
Lemma K_zero i g : (i < n)%nat -> (g < G)%nat -> K (fun _ _ => 0) i g = 0.
Proof.
  intros Hi Hg. rewrite (K_ext (fun _ _ => 0) (fun i g => 0 * 0)) by (try assumption; intros ? ? _ _; ring).
  rewrite (K_scale 0 (fun _ _ => 0)) by assumption. ring.
Qed.
Lemma K_nonneg v : below2 n G (fun _ _ => 0) v -> below2 n G (fun _ _ => 0) (K v).
Proof. intros H i g Hi Hg. rewrite <- (K_zero i g Hi Hg). apply K_mono; assumption. Qed.

Lemma K_contract v a b : below2 n G (fun _ _ => 0) v -> positive2 n G (K v) -> between a b v (K v) ->
  exists a' b', a <= a' /\ b' <= b /\ b' - a' <= (1 - d ^ 2) * (b - a) /\ between a' b' (K v) (K (K v)).
Proof.
  intros Hv Hw Hb. set (w := K v) in *. set (u := K w).
  pose proof (Hw 0%nat 0%nat Hn HG) as W0.
  set (t := u 0%nat 0%nat / w 0%nat 0%nat - a).
  assert (Et : u 0%nat 0%nat = (a + t) * w 0%nat 0%nat) by (unfold t; field; lra).
  assert (Lo : below2 n G (fun _ _ => 0) (fun i g => 1 * w i g + (-a) * v i g)).
  { intros i g Hi Hg. destruct (Hb i g Hi Hg). lra. }
  assert (Up : below2 n G (fun _ _ => 0) (fun i g => b * v i g + (-1) * w i g)).
  { intros i g Hi Hg. destruct (Hb i g Hi Hg). lra. }
  assert (KL : forall i g, (i < n)%nat -> (g < G)%nat -> K (fun i g => 1 * w i g + (-a) * v i g) i g = u i g - a * w i g).
  { intros i g Hi Hg. rewrite K_lin by assumption. fold w. fold u. ring. }
  assert (KU : forall i g, (i < n)%nat -> (g < G)%nat -> K (fun i g => b * v i g + (-1) * w i g) i g = b * w i g - u i g).
  { intros i g Hi Hg. rewrite K_lin by assumption. fold w. fold u. ring. }
  assert (T0 : 0 <= t).
  { pose proof (K_nonneg _ Lo 0%nat 0%nat Hn HG) as H. cbv beta in H. rewrite KL in H by assumption. nra. }
  assert (T1 : t <= b - a).
  { pose proof (K_nonneg _ Up 0%nat 0%nat Hn HG) as H. cbv beta in H. rewrite KU in H by assumption. nra. }
  exists (a + d ^ 2 * t), (b - d ^ 2 * (b - a - t)).
  assert (0 <= d ^ 2) by (apply pow2_ge_0).
  split; [nra|]. split; [nra|]. split; [nra|].
  intros i g Hi Hg.
  pose proof (harnack _ Lo i g 0%nat 0%nat Hi Hg Hn HG) as H1. rewrite !KL in H1 by assumption.
  pose proof (harnack _ Up i g 0%nat 0%nat Hi Hg Hn HG) as H2. rewrite !KU in H2 by assumption.
  pose proof (harnack _ Hv 0%nat 0%nat i g Hn HG Hi Hg) as H3. fold w in H3.
  rewrite Et in H1, H2.
  assert (A1 : d * t * (d * w i g) <= d * t * w 0%nat 0%nat) by (apply Rmult_le_compat_l; [apply Rmult_le_pos; lra|exact H3]).
  assert (A2 : d * (b - a - t) * (d * w i g) <= d * (b - a - t) * w 0%nat 0%nat) by (apply Rmult_le_compat_l; [apply Rmult_le_pos; lra|exact H3]).
  split; nra.
Qed.

(** *** existence *)
Fixpoint gens (m : nat) : mat2 := match m with O => fun _ _ => 1 | S m => K (gens m) end.

Lemma perron_exists : (exists i g, (i < n)%nat /\ (g < G)%nat /\ 0 < K (fun _ _ => 1) i g) ->
  exists phi k, 0 < k /\ positive2 n G phi /\ forall i g, (i < n)%nat -> (g < G)%nat -> K phi i g = k * phi i g.
Proof.
  intros (i0 & g0 & Hi0 & Hg0 & Hpos).
  assert (H1 : below2 n G (fun _ _ => 0) (fun _ _ => 1)) by (intros ? ? _ _; lra).
  assert (P1 : positive2 n G (K (fun _ _ => 1))).
  { intros i g Hi Hg. pose proof (harnack _ H1 i g i0 g0 Hi Hg Hi0 Hg0). nra. }
  assert (Q : exists a0 b0, 0 < a0 /\ a0 <= b0 /\ between a0 b0 (fun _ _ => 1) (K (fun _ _ => 1))).
  { pose proof (P1 0%nat 0%nat Hn HG). exists (d * K (fun _ _ => 1) 0%nat 0%nat), (K (fun _ _ => 1) 0%nat 0%nat / d).
    assert (Hdiv : d * K (fun _ _ => 1) 0%nat 0%nat <= K (fun _ _ => 1) 0%nat 0%nat / d).
    { apply (Rmult_le_reg_r d); [lra|]. unfold Rdiv. rewrite (Rmult_assoc _ (/ d) d), Rinv_l by lra.
      assert (d * d <= 1) by nra. set (kx := K (fun _ _ => 1) 0%nat 0%nat) in *. nra. }
    split; [nra|]. split; [exact Hdiv|]. intros i g Hi Hg. split.
    - rewrite Rmult_1_r. apply harnack; assumption.
    - pose proof (harnack _ H1 0%nat 0%nat i g Hn HG Hi Hg). rewrite Rmult_1_r.
      apply (Rmult_le_reg_r d); [lra|]. unfold Rdiv. rewrite Rmult_assoc, Rinv_l by lra. lra. }
  destruct Q as (a0 & b0 & Ha0 & Hab0 & B0).
  set (q := 1 - d ^ 2). assert (Hq : 0 <= q < 1) by (unfold q; split; nra).
  set (e0 := b0 - a0).
  assert (GP : forall m, positive2 n G (gens m) /\ exists a b, a0 <= a /\ a <= b /\ b <= b0 /\ b - a <= q ^ m * e0 /\ between a b (gens m) (gens (S m))).
  { induction m as [|m (Pm & a & b & A & AB & B & W & Bt)].
    - split; [intros ? ? _ _; cbn; lra|]. exists a0, b0. cbn [pow]. split; [lra|]. split; [exact Hab0|]. split; [lra|]. split; [unfold e0; lra|exact B0].
    - assert (PS : positive2 n G (gens (S m))).
      { intros i g Hi Hg. destruct (Bt i g Hi Hg) as [L _]. specialize (Pm i g Hi Hg). nra. }
      split; [exact PS|].
      destruct (K_contract (gens m) a b ltac:(intros i g Hi Hg; left; apply Pm; assumption) PS Bt) as (a' & b' & A' & B' & W' & Bt').
      exists a', b'. split; [lra|]. split.
      { destruct (Bt' 0%nat 0%nat Hn HG). pose proof (PS 0%nat 0%nat Hn HG). cbn [gens] in H2. nra. }
      split; [lra|]. split; [|exact Bt']. cbn [pow]. fold q in W'.
      eapply Rle_trans; [exact W'|]. rewrite Rmult_assoc. apply Rmult_le_compat_l; lra. }
  (* normalised at the corner *)
  set (z := fun m i g => gens m i g / gens m 0%nat 0%nat).
  assert (Zb : forall m i g, (i < n)%nat -> (g < G)%nat -> d <= z m i g <= / d).
  { intros m i g Hi Hg. destruct (GP m) as [Pm _]. pose proof (Pm 0%nat 0%nat Hn HG) as P0. unfold z.
    assert (Hh : d * gens m i g <= gens m 0%nat 0%nat /\ d * gens m 0%nat 0%nat <= gens m i g).
    { destruct m as [|m]; [cbn; lra|]. destruct (GP m) as [Pm' _].
      split; apply harnack; try assumption; intros i' g' Hi' Hg'; left; apply Pm'; assumption. }
    split.
    - apply (Rmult_le_reg_r (gens m 0%nat 0%nat)); [lra|]. unfold Rdiv. rewrite Rmult_assoc, Rinv_l by lra. lra.
    - apply (Rmult_le_reg_r (gens m 0%nat 0%nat)); [lra|]. unfold Rdiv. rewrite Rmult_assoc, Rinv_l by lra.
      apply (Rmult_le_reg_l d); [lra|]. replace (d * (/ d * gens m 0%nat 0%nat)) with (gens m 0%nat 0%nat) by (field; lra). lra. }
  set (kk := fun m => gens (S m) 0%nat 0%nat / gens m 0%nat 0%nat).
  assert (KZ : forall m i g, (i < n)%nat -> (g < G)%nat -> Rabs (K (z m) i g - kk m * z m i g) <= q ^ m * e0 / d /\ a0 <= kk m <= b0 /\
     Rabs (z (S m) i g - z m i g) <= (e0 / (a0 * d)) * q ^ m /\ Rabs (kk (S m) - kk m) <= e0 * q ^ m).
  { intros m i g Hi Hg. destruct (GP m) as (Pm & a & b & A & AB & B & W & Bt).
    pose proof (Pm 0%nat 0%nat Hn HG) as P0. pose proof Bt as Btf. specialize (Bt 0%nat 0%nat Hn HG) as Bt0. specialize (Bt i g Hi Hg).
    destruct (GP (S m)) as (PSm & _). pose proof (PSm 0%nat 0%nat Hn HG) as PS0.
    assert (Ek : gens (S m) 0%nat 0%nat = kk m * gens m 0%nat 0%nat) by (unfold kk; field; lra).
    assert (Rk : a <= kk m <= b) by (rewrite Ek in Bt0; split; nra).
    assert (Ez : gens m i g = z m i g * gens m 0%nat 0%nat) by (unfold z; field; lra).
    assert (EK : K (z m) i g = gens (S m) i g / gens m 0%nat 0%nat).
    { rewrite (K_ext (z m) (fun i g => / gens m 0%nat 0%nat * gens m i g)) by (try assumption; intros ? ? _ _; unfold z; field; lra).
      rewrite K_scale by assumption. cbn [gens]. field. lra. }
    destruct (Zb m i g Hi Hg) as [Zl Zu].
    assert (RK : a * z m i g <= K (z m) i g <= b * z m i g).
    { rewrite EK. split.
      - apply (Rmult_le_reg_r (gens m 0%nat 0%nat)); [lra|]. unfold Rdiv. rewrite Rmult_assoc, Rmult_assoc, Rinv_l by lra. rewrite <- Ez. lra.
      - apply (Rmult_le_reg_r (gens m 0%nat 0%nat)); [lra|]. unfold Rdiv. rewrite Rmult_assoc, Rmult_assoc, Rinv_l by lra. rewrite <- Ez. lra. }
    assert (D1 : Rabs (K (z m) i g - kk m * z m i g) <= (b - a) * / d).
    { assert ((b - a) * z m i g <= (b - a) * / d) by (apply Rmult_le_compat_l; lra).
      unfold Rabs. destruct (Rcase_abs _); nra. }
    assert (Hid : 0 < / d) by (apply Rinv_0_lt_compat; lra).
    split; [|split; [lra|split]].
    - eapply Rle_trans; [exact D1|]. unfold Rdiv. apply Rmult_le_compat_r; lra.
    - assert (Ez2 : z (S m) i g = K (z m) i g / kk m).
      { rewrite EK. unfold z. rewrite Ek. field. split; lra. }
      assert (Kp : 0 < kk m) by lra.
      replace (z (S m) i g - z m i g) with ((K (z m) i g - kk m * z m i g) / kk m) by (rewrite Ez2; field; lra).
      unfold Rdiv at 1. rewrite Rabs_mult, (Rabs_right (/ kk m)) by (left; apply Rinv_0_lt_compat; lra).
      apply (Rmult_le_reg_r (kk m)); [lra|]. rewrite Rmult_assoc, Rinv_l by lra. rewrite Rmult_1_r.
      eapply Rle_trans; [exact D1|]. replace (e0 / (a0 * d) * q ^ m * kk m) with (q ^ m * e0 * / d * (kk m / a0)) by (field; lra).
      assert (1 <= kk m / a0). { apply (Rmult_le_reg_r a0); [lra|]. unfold Rdiv. rewrite Rmult_assoc, Rinv_l by lra. lra. }
      assert (0 <= q ^ m * e0 * / d). { apply Rmult_le_pos; [|lra]. eapply Rle_trans; [|exact W]. lra. }
      apply Rle_trans with (q ^ m * e0 * / d); [apply Rmult_le_compat_r; lra|]. nra.
    - destruct (K_contract (gens m) a b ltac:(intros i' g' Hi' Hg'; left; apply Pm; assumption) PSm Btf) as (a' & b' & A' & B' & _ & Bt').
      specialize (Bt' 0%nat 0%nat Hn HG).
      assert (Ek' : gens (S (S m)) 0%nat 0%nat = kk (S m) * gens (S m) 0%nat 0%nat) by (unfold kk; field; lra).
      assert (a' <= kk (S m) <= b').
      { cbn [gens] in Bt', Ek', PS0. rewrite Ek' in Bt'. split; nra. }
      unfold Rabs. destruct (Rcase_abs _); lra. }
  destruct (geometric_limit kk e0 q Hq (fun m => proj2 (proj2 (proj2 (KZ m 0%nat 0%nat Hn HG))))) as [k Hk].
  assert (Hz : forall i g, {l : R | (i < n)%nat -> (g < G)%nat -> forall m, Rabs (z m i g - l) <= e0 / (a0 * d) * q ^ m / (1 - q)}).
  { intros i g. destruct (lt_dec i n) as [Hi|Hi]; [|exists 0; intros; lia]. destruct (lt_dec g G) as [Hg|Hg]; [|exists 0; intros; lia].
    destruct (geometric_limit (fun m => z m i g) (e0 / (a0 * d)) q Hq (fun m => proj1 (proj2 (proj2 (KZ m i g Hi Hg))))) as [l Hl].
    exists l. intros _ _. exact Hl. }
  set (phi := fun i g => proj1_sig (Hz i g)).
  assert (Hphi : forall m i g, (i < n)%nat -> (g < G)%nat -> Rabs (z m i g - phi i g) <= e0 / (a0 * d) * q ^ m / (1 - q)).
  { intros m i g Hi Hg. unfold phi. destruct (Hz i g) as [l Hl]. cbn. apply Hl; assumption. }
  assert (He0 : 0 <= e0) by (unfold e0; lra).
  assert (Small : forall C, 0 <= C -> forall x, (forall m : nat, x <= C * q ^ m) -> x <= 0).
  { intros C HC x Hx. destruct (Rle_dec x 0) as [L|L]; [exact L|exfalso].
    destruct (pow_lt_1_zero q ltac:(rewrite Rabs_right; lra) (x / (C + 1)) ltac:(apply Rdiv_lt_0_compat; lra)) as [N HN].
    specialize (HN N (le_n N)). rewrite Rabs_right in HN by (apply Rle_ge, pow_le; lra). specialize (Hx N).
    apply (Rmult_lt_compat_r (C + 1)) in HN; [|lra]. replace (x / (C + 1) * (C + 1)) with x in HN by (field; lra).
    assert (0 <= q ^ N) by (apply pow_le; lra). nra. }
  set (D := e0 / (a0 * d) / (1 - q)).
  assert (HD : 0 <= D). { unfold D. apply Rmult_le_pos; [apply Rmult_le_pos; [exact He0|]|]; left; apply Rinv_0_lt_compat; nra. }
  assert (Hphi' : forall m i g, (i < n)%nat -> (g < G)%nat -> Rabs (z m i g - phi i g) <= D * q ^ m).
  { intros m i g Hi Hg. eapply Rle_trans; [apply Hphi; assumption|]. right. unfold D. field. lra. }
  assert (Hk' : forall m, Rabs (kk m - k) <= e0 / (1 - q) * q ^ m).
  { intros m. eapply Rle_trans; [apply Hk|]. right. field. lra. }
  assert (HE : 0 <= e0 / (1 - q)). { apply Rmult_le_pos; [exact He0|left; apply Rinv_0_lt_compat; lra]. }
  assert (Ka : a0 <= k <= b0).
  { split.
    - assert (a0 - k <= 0); [|lra]. apply (Small _ HE). intros m. destruct (KZ m 0%nat 0%nat Hn HG) as (_ & A & _). specialize (Hk' m).
      pose proof (Rle_abs (kk m - k)). lra.
    - assert (k - b0 <= 0); [|lra]. apply (Small _ HE). intros m. destruct (KZ m 0%nat 0%nat Hn HG) as (_ & A & _). specialize (Hk' m).
      rewrite Rabs_minus_sym in Hk'. pose proof (Rle_abs (k - kk m)). lra. }
  assert (Pphi : forall i g, (i < n)%nat -> (g < G)%nat -> d <= phi i g <= / d).
  { intros i g Hi Hg. split.
    - assert (d - phi i g <= 0); [|lra]. apply (Small _ HD). intros m. specialize (Zb m i g Hi Hg). specialize (Hphi' m i g Hi Hg).
      pose proof (Rle_abs (z m i g - phi i g)). lra.
    - assert (phi i g - / d <= 0); [|lra]. apply (Small _ HD). intros m. specialize (Zb m i g Hi Hg). specialize (Hphi' m i g Hi Hg).
      rewrite Rabs_minus_sym in Hphi'. pose proof (Rle_abs (phi i g - z m i g)). lra. }
  exists phi, k. split; [lra|]. split; [intros i g Hi Hg; specialize (Pphi i g Hi Hg); lra|].
  intros i g Hi Hg.
  assert (Hid : 0 < / d) by (apply Rinv_0_lt_compat; lra).
  assert (Cont : forall m, Rabs (K (z m) i g - K phi i g) <= D * q ^ m * K (fun _ _ => 1) i g).
  { intros m. assert (Eq : K (z m) i g - K phi i g = K (fun i g => 1 * z m i g + (-1) * phi i g) i g) by (rewrite K_lin by assumption; ring).
    rewrite Eq.
    assert (U : K (fun i g => 1 * z m i g + (-1) * phi i g) i g <= D * q ^ m * K (fun _ _ => 1) i g).
    { rewrite <- (K_scale (D * q ^ m) (fun _ _ => 1)) by assumption. apply K_mono; try assumption. intros i' g' Hi' Hg'.
      specialize (Hphi' m i' g' Hi' Hg'). pose proof (Rle_abs (z m i' g' - phi i' g')). lra. }
    assert (L : - (D * q ^ m) * K (fun _ _ => 1) i g <= K (fun i g => 1 * z m i g + (-1) * phi i g) i g).
    { rewrite <- (K_scale (- (D * q ^ m)) (fun _ _ => 1)) by assumption. apply K_mono; try assumption. intros i' g' Hi' Hg'.
      specialize (Hphi' m i' g' Hi' Hg'). rewrite Rabs_minus_sym in Hphi'. pose proof (Rle_abs (phi i' g' - z m i' g')). lra. }
    unfold Rabs. destruct (Rcase_abs _); lra. }
  assert (K1 : 0 <= K (fun _ _ => 1) i g) by (left; apply P1; assumption).
  assert (F : Rabs (K phi i g - k * phi i g) <= 0).
  { apply (Small (D * K (fun _ _ => 1) i g + e0 / d + b0 * D + e0 / (1 - q) * / d)).
    { assert (0 <= D * K (fun _ _ => 1) i g) by (apply Rmult_le_pos; assumption). assert (0 <= e0 / d) by (apply Rmult_le_pos; lra).
      assert (0 <= b0 * D) by (apply Rmult_le_pos; lra). assert (0 <= e0 / (1 - q) * / d) by (apply Rmult_le_pos; lra). lra. }
    intros m. destruct (KZ m i g Hi Hg) as (Q1 & Q2 & _). specialize (Cont m). specialize (Hphi' m i g Hi Hg). specialize (Hk' m). specialize (Pphi i g Hi Hg).
    replace (K phi i g - k * phi i g) with (- (K (z m) i g - K phi i g) + (K (z m) i g - kk m * z m i g) + kk m * (z m i g - phi i g) + (kk m - k) * phi i g) by ring.
    eapply Rle_trans; [apply Rabs_triang|]. eapply Rle_trans; [apply Rplus_le_compat_r, Rabs_triang|].
    eapply Rle_trans; [apply Rplus_le_compat_r, Rplus_le_compat_r, Rabs_triang|]. rewrite Rabs_Ropp.
    assert (M1 : Rabs (kk m * (z m i g - phi i g)) <= b0 * (D * q ^ m)).
    { rewrite Rabs_mult. apply Rmult_le_compat; [apply Rabs_pos|apply Rabs_pos|rewrite Rabs_right; lra|exact Hphi']. }
    assert (M2 : Rabs ((kk m - k) * phi i g) <= e0 / (1 - q) * q ^ m * / d).
    { rewrite Rabs_mult. apply Rmult_le_compat; [apply Rabs_pos|apply Rabs_pos|exact Hk'|rewrite Rabs_right; lra]. }
    unfold Rdiv in *. lra. }
  pose proof (Rabs_pos (K phi i g - k * phi i g)) as F0.
  destruct (Req_dec (K phi i g - k * phi i g) 0) as [Z|Z]; [lra|]. apply Rabs_pos_lt in Z. lra.
Qed.

(** *** inexact iteration around a positive mode *)
Variables (phi : mat2) (k : R).
Hypothesis Hk : 0 < k.
Hypothesis Hphi : positive2 n G phi.
Hypothesis Heig : forall i g, (i < n)%nat -> (g < G)%nat -> K phi i g = k * phi i g.

Lemma phi_harnack i g j h : (i < n)%nat -> (g < G)%nat -> (j < n)%nat -> (h < G)%nat -> d * phi j h <= phi i g.
Proof.
  intros Hi Hg Hj Hh.
  assert (H : d * K phi j h <= K phi i g) by (apply harnack; try assumption; intros i' g' Hi' Hg'; left; apply Hphi; assumption).
  rewrite !Heig in H by assumption. apply (Rmult_le_reg_l k); [exact Hk|]. lra.
Qed.

Lemma bracket_contains v a b : positive2 n G v -> between a b v (K v) -> a <= k <= b.
Proof.
  intros Hv Hb. split.
  - destruct (ratio_max n G v phi Hn HG Hphi) as (c & i & g & Hi & Hg & Eq & Hc).
    pose proof (Hv i g Hi Hg). pose proof (Hphi i g Hi Hg).
    assert (L : K v i g <= K (fun i g => c * phi i g) i g) by (apply K_mono; assumption).
    rewrite K_scale, Heig in L by assumption. destruct (Hb i g Hi Hg) as [Lo _].
    apply (Rmult_le_reg_r (v i g)); [assumption|]. replace (k * v i g) with (c * (k * phi i g)) by (rewrite Eq; ring). lra.
  - destruct (ratio_max n G phi v Hn HG Hv) as (c & i & g & Hi & Hg & Eq & Hc).
    pose proof (Hv i g Hi Hg). pose proof (Hphi i g Hi Hg). assert (0 < c) by nra.
    assert (L : K phi i g <= K (fun i g => c * v i g) i g) by (apply K_mono; assumption).
    rewrite K_scale, Heig in L by assumption. destruct (Hb i g Hi Hg) as [_ Up].
    apply (Rmult_le_reg_r (phi i g)); [assumption|]. eapply Rle_trans; [exact L|].
    replace (b * phi i g) with (c * (b * v i g)) by (rewrite Eq; ring). apply Rmult_le_compat_l; lra.
Qed.

(** how far a flux with a narrow bracket is from the mode *)
Lemma bracket_flux v a b : positive2 n G v -> 0 < a -> between a b v (K v) ->
  exists c, 0 < c /\ forall i g, (i < n)%nat -> (g < G)%nat ->
    c * phi i g <= v i g <= c * (1 + (b - a) / (a * d ^ 2)) * phi i g.
Proof.
  intros Hv Ha Hb. destruct (bracket_contains v a b Hv Hb) as [Ka Kb].
  destruct (ratio_max n G phi v Hn HG Hv) as (r & p & s & Hp & Hs & Eq & Hr).
  pose proof (Hv p s Hp Hs) as Vp. pose proof (Hphi p s Hp Hs) as Pp. assert (Hr0 : 0 < r) by nra.
  set (c := / r). assert (Hc : 0 < c) by (apply Rinv_0_lt_compat; exact Hr0). assert (rc : r * c = 1) by (unfold c; field; lra).
  exists c. split; [exact Hc|].
  assert (Lo : forall i g, (i < n)%nat -> (g < G)%nat -> c * phi i g <= v i g).
  { intros i g Hi Hg. specialize (Hr i g Hi Hg). apply (Rmult_le_compat_l c) in Hr; [|lra].
    replace (c * (r * v i g)) with (v i g * (r * c)) in Hr by ring. rewrite rc in Hr. lra. }
  assert (Vc : v p s = c * phi p s). { rewrite Eq. replace (c * (r * v p s)) with (v p s * (r * c)) by ring. rewrite rc. ring. }
  intros i g Hi Hg. split; [apply Lo; assumption|].
  assert (Z : below2 n G (fun _ _ => 0) (fun i g => 1 * v i g + (- c) * phi i g)).
  { intros i' g' Hi' Hg'. specialize (Lo i' g' Hi' Hg'). lra. }
  pose proof (harnack _ Z p s i g Hp Hs Hi Hg) as H. rewrite !K_lin, !Heig in H by assumption.
  destruct (Hb i g Hi Hg) as [B1 _]. destruct (Hb p s Hp Hs) as [_ B2].
  pose proof (phi_harnack i g p s Hi Hg Hp Hs) as PH. pose proof (Hphi i g Hi Hg) as Pi.
  (* d (a v - c k phi_i) <= (b - k) c phi_p *)
  assert (I1 : d * (a * v i g - c * k * phi i g) <= (b - k) * (c * phi p s)).
  { rewrite Vc in B2. nra. }
  assert (I2 : d * (d * (a * v i g - c * k * phi i g)) <= (b - k) * c * phi i g).
  { apply Rle_trans with (d * ((b - k) * (c * phi p s))); [apply Rmult_le_compat_l; lra|].
    replace (d * ((b - k) * (c * phi p s))) with ((b - k) * c * (d * phi p s)) by ring. apply Rmult_le_compat_l; [apply Rmult_le_pos; lra|exact PH]. }
  apply (Rmult_le_reg_r (a * d ^ 2)); [apply Rmult_lt_0_compat; [exact Ha|apply pow_lt; lra]|].
  replace (c * (1 + (b - a) / (a * d ^ 2)) * phi i g * (a * d ^ 2)) with (c * phi i g * (a * d ^ 2 + (b - a))) by (field; lra).
  assert (I3 : d ^ 2 * (c * phi i g * (k - a)) <= c * phi i g * (k - a)).
  { rewrite <- (Rmult_1_l (c * phi i g * (k - a))) at 2. apply Rmult_le_compat_r; [|nra].
    apply Rmult_le_pos; [apply Rmult_le_pos; lra|lra]. }
  nra.
Qed.

Variable eta : R.
Hypothesis Heta : 0 <= eta < 1.

Definition close (v w : mat2) : Prop := exists s, 0 < s /\
  forall i g, (i < n)%nat -> (g < G)%nat -> (1 - eta) * (s * K v i g) <= w i g <= (1 + eta) * (s * K v i g).

Let kap := (1 + eta) / (1 - eta).
Let d' := d / kap.
Let L := k / (d * d').

Lemma kap_pos : 1 <= kap.
Proof. unfold kap. apply (Rmult_le_reg_r (1 - eta)); [lra|]. unfold Rdiv. rewrite Rmult_assoc, Rinv_l by lra. lra. Qed.
Lemma d'_pos : 0 < d' <= 1.
Proof.
  pose proof kap_pos. unfold d'. split; [apply Rdiv_lt_0_compat; lra|].
  apply (Rmult_le_reg_r kap); [lra|]. unfold Rdiv. rewrite Rmult_assoc, Rinv_l by lra. lra.
Qed.

Lemma gen_positive v : positive2 n G v -> positive2 n G (K v).
Proof.
  intros Hv. destruct (ratio_max n G phi v Hn HG Hv) as (r & p & s & Hp & Hs & Eq & Hr).
  pose proof (Hv p s Hp Hs). pose proof (Hphi p s Hp Hs). assert (0 < r) by nra.
  intros i g Hi Hg. assert (A : K phi i g <= K (fun i g => r * v i g) i g) by (apply K_mono; assumption).
  rewrite K_scale, Heig in A by assumption. pose proof (Hphi i g Hi Hg). assert (0 < k * phi i g) by (apply Rmult_lt_0_compat; assumption). nra.
Qed.
Lemma close_positive v w : positive2 n G v -> close v w -> positive2 n G w.
Proof.
  intros Hv (s & Hs & H) i g Hi Hg. destruct (H i g Hi Hg) as [A _]. pose proof (gen_positive v Hv i g Hi Hg).
  eapply Rlt_le_trans; [|exact A]. apply Rmult_lt_0_compat; [lra|]. apply Rmult_lt_0_compat; assumption.
Qed.
Lemma close_harnack v w : positive2 n G v -> close v w ->
  forall i g j h, (i < n)%nat -> (g < G)%nat -> (j < n)%nat -> (h < G)%nat -> d' * w j h <= w i g.
Proof.
  intros Hv (s & Hs & H) i g j h Hi Hg Hj Hh.
  assert (A : d * K v j h <= K v i g) by (apply harnack; try assumption; intros i' g' Hi' Hg'; left; apply Hv; assumption).
  destruct (H i g Hi Hg) as [B _]. destruct (H j h Hj Hh) as [_ C].
  eapply Rle_trans; [apply Rmult_le_compat_l; [left; apply d'_pos|exact C]|]. eapply Rle_trans; [|exact B].
  unfold d', kap. replace (d / ((1 + eta) / (1 - eta)) * ((1 + eta) * (s * K v j h))) with ((1 - eta) * (s * (d * K v j h))) by (field; lra).
  apply Rmult_le_compat_l; [lra|]. apply Rmult_le_compat_l; lra.
Qed.
Lemma crude_bracket w : positive2 n G w ->
  (forall i g j h, (i < n)%nat -> (g < G)%nat -> (j < n)%nat -> (h < G)%nat -> d' * w j h <= w i g) ->
  between (k * d * d') L w (K w).
Proof.
  intros Hw H i g Hi Hg. pose proof (Hw i g Hi Hg) as Wi. pose proof (Hphi i g Hi Hg) as Pi. pose proof d'_pos as D'. split.
  - assert (A : K (fun j h => (d * d' * w i g / phi i g) * phi j h) i g <= K w i g).
    { apply K_mono; try assumption. intros j h Hj Hh. pose proof (H j h i g Hj Hh Hi Hg) as A1. pose proof (phi_harnack i g j h Hi Hg Hj Hh) as A2.
      replace (d * d' * w i g / phi i g * phi j h) with (d' * w i g * (d * phi j h / phi i g)) by (field; lra).
      assert (d * phi j h / phi i g <= 1) by (apply (Rmult_le_reg_r (phi i g)); [exact Pi|]; unfold Rdiv; rewrite Rmult_assoc, Rinv_l by lra; lra).
      eapply Rle_trans; [|exact A1]. rewrite <- (Rmult_1_r (d' * w i g)) at 2. apply Rmult_le_compat_l; [|exact H0]. apply Rmult_le_pos; lra. }
    rewrite K_scale, Heig in A by assumption. eapply Rle_trans; [|exact A]. right. field. lra.
  - assert (A : K w i g <= K (fun j h => (w i g / (d * d' * phi i g)) * phi j h) i g).
    { apply K_mono; try assumption. intros j h Hj Hh. pose proof (H i g j h Hi Hg Hj Hh) as A1. pose proof (phi_harnack j h i g Hj Hh Hi Hg) as A2.
      replace (w i g / (d * d' * phi i g) * phi j h) with (w i g / d' * (phi j h / (d * phi i g))) by (field; lra).
      assert (1 <= phi j h / (d * phi i g)).
      { assert (0 < d * phi i g) by (apply Rmult_lt_0_compat; lra). apply (Rmult_le_reg_r (d * phi i g)); [assumption|]. unfold Rdiv. rewrite Rmult_assoc, Rinv_l by lra. lra. }
      assert (w j h <= w i g / d') by (apply (Rmult_le_reg_r d'); [lra|]; unfold Rdiv; rewrite Rmult_assoc, Rinv_l by lra; lra).
      eapply Rle_trans; [exact H1|]. rewrite <- (Rmult_1_r (w i g / d')) at 1. apply Rmult_le_compat_l; [|exact H0].
      apply Rmult_le_pos; [lra|left; apply Rinv_0_lt_compat; lra]. }
    rewrite K_scale, Heig in A by assumption. eapply Rle_trans; [exact A|]. right. unfold L. field. lra.
Qed.

Definition tight (v : mat2) (e : R) : Prop := exists a b,
  k * d * d' <= a /\ a <= k <= b /\ b <= L /\ b - a <= e /\ between a b v (K v).

Lemma L_pos : 0 < L.
Proof. pose proof d'_pos. unfold L. apply Rdiv_lt_0_compat; [exact Hk|]. apply Rmult_lt_0_compat; lra. Qed.

Lemma tight_first v w : positive2 n G v -> close v w -> tight w L.
Proof.
  intros Hv Hc. pose proof (close_positive v w Hv Hc) as Hw.
  pose proof (crude_bracket w Hw (close_harnack v w Hv Hc)) as B. pose proof (bracket_contains _ _ _ Hw B) as Kk.
  exists (k * d * d'), L. pose proof d'_pos.
  assert (0 < k * d * d') by (apply Rmult_lt_0_compat; [apply Rmult_lt_0_compat|]; lra).
  split; [lra|]. split; [exact Kk|]. split; [lra|]. split; [lra|exact B].
Qed.

Lemma tight_step v w e : positive2 n G v -> close v w -> tight v e ->
  tight w ((1 - d ^ 2) * e + (kap - / kap) * L).
Proof.
  intros Hv Hc (a & b & A & Kab & BL & W & Bt). pose proof (close_positive v w Hv Hc) as Hw. pose proof d'_pos as D'. pose proof kap_pos as KP. pose proof L_pos as LP.
  pose proof (crude_bracket w Hw (close_harnack v w Hv Hc)) as Bc.
  pose proof (gen_positive v Hv) as Pu.
  assert (Ha : 0 < a). { eapply Rlt_le_trans; [|exact A]. apply Rmult_lt_0_compat; [apply Rmult_lt_0_compat|]; lra. }
  destruct (K_contract v a b ltac:(intros i g Hi Hg; left; apply Hv; assumption) Pu Bt) as (a1 & b1 & A1 & B1 & W1 & Bt1).
  destruct Hc as (s & Hs & Hc).
  assert (B2 : between (a1 / kap) (kap * b1) w (K w)).
  { intros i g Hi Hg. destruct (Bt1 i g Hi Hg) as [X1 X2]. destruct (Hc i g Hi Hg) as [C1 C2].
    pose proof (Pu i g Hi Hg) as Pi. assert (b1pos : 0 < b1) by nra.
    assert (U : K w i g <= (1 + eta) * s * K (K v) i g).
    { rewrite <- K_scale by assumption. apply K_mono; try assumption. intros j h Hj Hh. destruct (Hc j h Hj Hh). lra. }
    assert (Lw : (1 - eta) * s * K (K v) i g <= K w i g).
    { rewrite <- K_scale by assumption. apply K_mono; try assumption. intros j h Hj Hh. destruct (Hc j h Hj Hh). lra. }
    split.
    - eapply Rle_trans; [|exact Lw]. apply Rle_trans with ((1 - eta) * s * (a1 * K v i g)); [|apply Rmult_le_compat_l; [apply Rmult_le_pos; lra|exact X1]].
      unfold kap. replace (a1 / ((1 + eta) / (1 - eta)) * w i g) with (a1 * (1 - eta) * (w i g / (1 + eta))) by (field; lra).
      replace ((1 - eta) * s * (a1 * K v i g)) with (a1 * (1 - eta) * (s * K v i g)) by ring. apply Rmult_le_compat_l; [apply Rmult_le_pos; lra|].
      apply (Rmult_le_reg_r (1 + eta)); [lra|]. unfold Rdiv. rewrite Rmult_assoc, Rinv_l by lra. lra.
    - eapply Rle_trans; [exact U|]. apply Rle_trans with ((1 + eta) * s * (b1 * K v i g)); [apply Rmult_le_compat_l; [apply Rmult_le_pos; lra|exact X2]|].
      unfold kap. replace ((1 + eta) / (1 - eta) * b1 * w i g) with (b1 * (1 + eta) * (w i g / (1 - eta))) by (field; lra).
      replace ((1 + eta) * s * (b1 * K v i g)) with (b1 * (1 + eta) * (s * K v i g)) by ring. apply Rmult_le_compat_l; [apply Rmult_le_pos; lra|].
      apply (Rmult_le_reg_r (1 - eta)); [lra|]. unfold Rdiv. rewrite (Rmult_assoc (w i g)), Rinv_l by lra. lra. }
  destruct (bracket_contains _ _ _ Hw B2) as [K1 K2]. destruct (bracket_contains _ _ _ Hw Bc) as [K3 K4].
  exists (Rmax (k * d * d') (a1 / kap)), (Rmin L (kap * b1)).
  split; [apply Rmax_l|]. split; [split; [apply Rmax_lub; assumption|apply Rmin_glb; assumption]|]. split; [apply Rmin_l|]. split.
  - pose proof (Rmax_r (k * d * d') (a1 / kap)). pose proof (Rmin_r L (kap * b1)).
    assert (IK : 0 < / kap) by (apply Rinv_0_lt_compat; lra).
    assert (IK1 : / kap <= 1) by (rewrite <- Rinv_1; apply Rinv_le_contravar; lra).
    assert (b1L : b1 <= L) by lra.
    assert (a1b1 : a1 <= b1). { destruct (Bt1 0%nat 0%nat Hn HG). pose proof (Pu 0%nat 0%nat Hn HG). nra. }
    assert (E : kap * b1 - a1 / kap <= (b1 - a1) + (kap - / kap) * b1). { unfold Rdiv. nra. }
    assert (F : (kap - / kap) * b1 <= (kap - / kap) * L) by (apply Rmult_le_compat_l; lra).
    assert (Q : (1 - d ^ 2) * (b - a) <= (1 - d ^ 2) * e) by (apply Rmult_le_compat_l; [nra|exact W]). lra.
  - intros i g Hi Hg. destruct (B2 i g Hi Hg), (Bc i g Hi Hg). pose proof (Hw i g Hi Hg).
    split; [unfold Rmax; destruct (Rle_dec _ _)|unfold Rmin; destruct (Rle_dec _ _)]; assumption.
Qed.

Lemma tight_run (v : nat -> mat2) N : positive2 n G (v 0%nat) -> (forall m, (m < N)%nat -> close (v m) (v (S m))) ->
  forall m, (m < N)%nat -> positive2 n G (v (S m)) /\ tight (v (S m)) (((1 - d ^ 2) ^ m + (kap - / kap) / d ^ 2) * L).
Proof.
  intros H0 Hc. pose proof L_pos as LP. pose proof kap_pos as KP.
  assert (Hd2 : 0 < d ^ 2) by (apply pow_lt; lra).
  assert (IK1 : / kap <= 1) by (rewrite <- Rinv_1; apply Rinv_le_contravar; lra).
  induction m as [|m IH]; intros Hm.
  - split; [eapply close_positive; [exact H0|apply Hc; exact Hm]|].
    destruct (tight_first (v 0%nat) (v 1%nat) H0 (Hc 0%nat Hm)) as (a & b & A & B & C & W & Bt).
    exists a, b. repeat split; try assumption; try lra; try (apply Bt; assumption). cbn [pow].
    assert (0 <= (kap - / kap) / d ^ 2 * L) by (apply Rmult_le_pos; [apply Rmult_le_pos; [lra|left; apply Rinv_0_lt_compat; cbn [pow] in *; lra]|lra]). cbn [pow] in *. lra.
  - destruct (IH ltac:(lia)) as [Pm Tm]. split; [eapply close_positive; [exact Pm|apply Hc; exact Hm]|].
    pose proof (tight_step _ _ _ Pm (Hc (S m) Hm) Tm) as T.
    replace ((((1 - d ^ 2) ^ S m) + (kap - / kap) / d ^ 2) * L) with ((1 - d ^ 2) * ((((1 - d ^ 2) ^ m) + (kap - / kap) / d ^ 2) * L) + (kap - / kap) * L); [exact T|].
    cbn [pow] in *. field. split; lra.
Qed.
End Perron.
