(** Two ordinates: an optically small sphere with nonnegative data has a nonnegative flux. *)
From Coq Require Import Lra Lia Psatz.
From Verif Require Import Base BaseFacts SlabModel SlabSpec SlabFacts SlabFacts3 SphereModel SphereSpec SphereFacts SphereFacts2 MgModel MgSpec MgFacts MgFacts2 MgFacts6 ShellSpec ShellFacts ShellFacts2 ShellFacts3.
Open Scope R_scope.

(** the balance divided by [4 pi dx^2] *)
Lemma shell_reduced_gen n (mu w am ap : R) (dx sg q psi hm hp : vec) i : 0 < dx i -> w <> 0 -> (i < n)%nat ->
  shell_balance n (code_rin dx) (code_rout dx) mu w am ap sg q psi hm hp ->
  let c := (psi i + psi (S i)) / 2 in
  hp i = 2 * c - hm i /\
  mu * ((INR i + 1) ^ 2 * psi (S i) - INR i ^ 2 * psi i) + (2 * INR i + 1) / w * (ap * hp i - am * hm i) + sg i * dx i * (INR i ^ 2 + INR i + / 3) * c
  = (INR i ^ 2 + INR i + / 3) * (dx i * q i).
Proof.
  intros Hd Hw Hi B c. destruct (B i Hi) as [B1 B2]. cbv zeta in B1, B2. split; [unfold c; lra|].
  unfold code_rin, code_rout, sphere_area, ball_volume in B2. rewrite S_INR in B2. fold c in B2.
  assert (Pi := PI_RGT_0). assert (K : 4 * PI * dx i ^ 2 <> 0) by (apply Rmult_integral_contrapositive_currified; [lra|apply pow_nonzero; lra]).
  apply (Rmult_eq_reg_l (4 * PI * dx i ^ 2)); [|exact K]. generalize dependent (hp i). intros hpi B1 B2.
  transitivity ((4 / 3 * PI * ((INR i + 1) * dx i) ^ 3 - 4 / 3 * PI * (INR i * dx i) ^ 3) * q i); [rewrite <- B2|]; field; exact Hw.
Qed.

(** one step inwards keeps the ordinate above a fraction of the starting direction *)
Lemma inward_step (x a t Q l k s s' e e' : R) : 1 <= x -> 0 < a <= 14 / 15 -> 0 <= t <= 2 / 3 * a -> 0 <= Q -> 0 <= s -> k * t <= l -> l <= 1 -> 0 <= k ->
  1 - a <= k * (a * (1 - a / 3)) ->
  s' * (1 + t / 2) = s * (1 - t / 2) + Q -> l * s <= e ->
  e' * (a * (x + 1) ^ 2 + t * (x ^ 2 + x + / 3) / 2) = e * (a * x ^ 2 - t * (x ^ 2 + x + / 3) / 2) + a * (2 * x + 1) * ((s + s') / 2) + (x ^ 2 + x + / 3) * Q ->
  0 <= s' /\ (l - k * t) * s' <= e'.
Proof.
  intros Hx Ha Ht HQ Hs Hl Hl1 Hk0 Hk S E E'.
  assert (Hs' : 0 <= s').
  { apply (Rmult_le_reg_r (1 + t / 2)); [lra|]. rewrite Rmult_0_l, S. apply Rplus_le_le_0_compat; [apply Rmult_le_pos; lra|exact HQ]. }
  split; [exact Hs'|].
  set (v := x ^ 2 + x + / 3) in *.
  assert (Hv : 0 < v) by (unfold v; nra).
  assert (Hc : 0 <= a * x ^ 2 - t * v / 2).
  { assert (t * v <= 2 / 3 * a * v) by (apply Rmult_le_compat_r; lra). assert (v <= 3 * x ^ 2) by (unfold v; nra). assert (a * v <= a * (3 * x ^ 2)) by (apply Rmult_le_compat_l; lra). lra. }
  assert (HD : 0 < a * (x + 1) ^ 2 + t * v / 2).
  { assert (0 < a * (x + 1) ^ 2) by (apply Rmult_lt_0_compat; [lra|apply pow_lt; lra]). assert (0 <= t * v) by (apply Rmult_le_pos; lra). lra. }
  set (D := a * (x + 1) ^ 2 + t * v / 2) in *.
  apply (Rmult_le_reg_r (D * (1 + t / 2))); [apply Rmult_lt_0_compat; lra|].
  replace (e' * (D * (1 + t / 2))) with ((e * (a * x ^ 2 - t * v / 2) + a * (2 * x + 1) * ((s + s') / 2) + v * Q) * (1 + t / 2)) by (rewrite <- E'; ring).
  apply Rle_trans with (((l * s) * (a * x ^ 2 - t * v / 2) + a * (2 * x + 1) * ((s + s') / 2) + v * Q) * (1 + t / 2)).
  2: { apply Rmult_le_compat_r; [lra|]. apply Rplus_le_compat_r, Rplus_le_compat_r. apply Rmult_le_compat_r; [exact Hc|exact E]. }
  replace ((l - k * t) * s' * (D * (1 + t / 2))) with ((l - k * t) * D * (s * (1 - t / 2) + Q)) by (rewrite <- S; ring).
  replace ((l * s * (a * x ^ 2 - t * v / 2) + a * (2 * x + 1) * ((s + s') / 2) + v * Q) * (1 + t / 2))
    with (l * s * (a * x ^ 2 - t * v / 2) * (1 + t / 2) + a * (2 * x + 1) * (s + Q / 2) + v * Q * (1 + t / 2)).
  2: { replace (s + Q / 2) with ((s + s') / 2 * (1 + t / 2)); [ring|]. replace ((s + s') / 2 * (1 + t / 2)) with ((s * (1 + t / 2) + s' * (1 + t / 2)) / 2) by lra. rewrite S. lra. }
  assert (CQ : (l - k * t) * D <= a * (2 * x + 1) / 2 + v * (1 + t / 2)).
  { apply Rle_trans with D. { rewrite <- (Rmult_1_l D) at 2. apply Rmult_le_compat_r; [lra|]. assert (0 <= k * t) by (apply Rmult_le_pos; lra). lra. }
    unfold D. assert (0 <= v - a * (x ^ 2 + x + / 2)); [|lra]. unfold v. assert (0 <= (1 - a) * (x ^ 2 + x - 2)) by (apply Rmult_le_pos; nra). lra. }
  assert (CS : (l - k * t) * D * (1 - t / 2) <= l * (a * x ^ 2 - t * v / 2) * (1 + t / 2) + a * (2 * x + 1)).
  { assert (R1 : 0 <= (1 - l) * (a * (2 * x + 1))) by (apply Rmult_le_pos; [lra|apply Rmult_le_pos; lra]).
    assert (R2 : l * (v - a * (x ^ 2 + x + / 2)) <= k * (D * (1 - t / 2))).
    { assert (P0 : 0 <= v - a * (x ^ 2 + x + / 2)). { unfold v. assert (0 <= (1 - a) * (x ^ 2 + x - 2)) by (apply Rmult_le_pos; nra). lra. }
      apply Rle_trans with (v - a * (x ^ 2 + x + / 2)). { rewrite <- (Rmult_1_l (v - _)) at 2. apply Rmult_le_compat_r; assumption. }
      apply Rle_trans with ((1 - a) * (x + 1) ^ 2). { unfold v. assert (0 <= (1 - a) * x) by (apply Rmult_le_pos; lra). lra. }
      apply Rle_trans with (k * (a * (1 - a / 3)) * (x + 1) ^ 2). { apply Rmult_le_compat_r; [apply pow2_ge_0|exact Hk]. }
      replace (k * (a * (1 - a / 3)) * (x + 1) ^ 2) with (k * (a * (x + 1) ^ 2 * (1 - a / 3))) by ring. apply Rmult_le_compat_l; [exact Hk0|].
      assert (0 <= a * (x + 1) ^ 2) by (apply Rmult_le_pos; [lra|apply pow2_ge_0]). assert (0 <= t * v) by (apply Rmult_le_pos; lra).
      apply Rmult_le_compat; unfold D; lra. }
    assert (R3 : 0 <= t * (k * (D * (1 - t / 2)) - l * (v - a * (x ^ 2 + x + / 2)))) by (apply Rmult_le_pos; lra).
    assert (I : l * (a * x ^ 2 - t * v / 2) * (1 + t / 2) + a * (2 * x + 1) - (l - k * t) * D * (1 - t / 2)
      = (1 - l) * (a * (2 * x + 1)) + t * (k * (D * (1 - t / 2)) - l * (v - a * (x ^ 2 + x + / 2)))) by (unfold D; field).
    lra. }
  assert (M1 := Rmult_le_compat_r Q _ _ HQ CQ). assert (M2 := Rmult_le_compat_r s _ _ Hs CS). lra.
Qed.

Section Two.
Variables (n : nat) (a : R) (mu wt dx sigt : vec) (q : mat2) (q0 bnd : vec) (bnd0 : R) (start : vec) (psi hm hp : mat2) (phi : vec).
Hypothesis Ha : 0 < a <= 14 / 15.
Hypothesis Hmu : mu 0%nat = - a /\ mu 1%nat = a.
Hypothesis Hwt : wt 0%nat = / 2 /\ wt 1%nat = / 2.
Hypothesis Hd : forall i, (i < n)%nat -> 0 < dx i.
Hypothesis Hs : forall i, (i < n)%nat -> 0 <= sigt i.
Hypothesis Hr : rsum n (fun i => sigt i * dx i) <= 2 / 3 * a.
Hypothesis Hq : forall m i, (m < 2)%nat -> (i < n)%nat -> 0 <= q m i.
Hypothesis Hq0 : forall i, (i < n)%nat -> q0 i = q 0%nat i.
Hypothesis Hb : bnd 0%nat = bnd0 /\ 0 <= bnd0.
Hypothesis T : sphere_transport n 2 mu wt dx sigt q q0 bnd bnd0 start psi hm hp phi.

Let tt (i : nat) : R := sigt i * dx i.
Lemma two_tt i : (i < n)%nat -> 0 <= tt i.
Proof. intros Hi. apply Rmult_le_pos; [now apply Hs|left; now apply Hd]. Qed.
Lemma two_partial k : (k <= n)%nat -> 0 <= rsum k tt <= 2 / 3 * a.
Proof.
  intros Hk. split; [apply rsum_nonneg; intros i Hi; apply two_tt; lia|].
  apply Rle_trans with (rsum n tt); [|exact Hr]. replace n with (k + (n - k))%nat by lia.
  assert (G : forall j, (k + j <= n)%nat -> rsum k tt <= rsum (k + j) tt).
  { induction j as [|j IH]; intros Hj; [rewrite Nat.add_0_r; lra|]. rewrite Nat.add_succ_r. cbn [rsum]. pose proof (two_tt (k + j) ltac:(lia)). specialize (IH ltac:(lia)). lra. }
  apply G. lia.
Qed.
Lemma two_small i : (i < n)%nat -> tt i <= 2 / 3 * a.
Proof.
  intros Hi. pose proof (two_partial (S i) ltac:(lia)) as H. cbn [rsum] in H. pose proof (two_partial i ltac:(lia)). lra.
Qed.
Lemma two_alpha : alpha_coef 2 mu wt 0 = 0 /\ alpha_coef 2 mu wt 1 = a / 2 /\ alpha_coef 2 mu wt 2 = 0.
Proof.
  unfold alpha_coef. cbn [Nat.ltb Nat.leb rsum]. destruct Hmu as [-> _], Hwt as [-> _]. repeat split; lra.
Qed.
Lemma two_tau : tau_coef mu wt 0 = 1 - a.
Proof. unfold tau_coef. cbn [rsum]. destruct Hmu as [-> _], Hwt as [-> _]. lra. Qed.

Lemma two_start i : (i < n)%nat -> start i * (1 + tt i / 2) = start (S i) * (1 - tt i / 2) + dx i * q 0%nat i.
Proof.
  intros Hi. destruct T as (B & _). specialize (B i Hi). rewrite Hq0 in B by exact Hi. unfold tt. pose proof (Hd i Hi) as D.
  rewrite <- B. field. lra.
Qed.
Lemma two_half0 i : (i < n)%nat -> hm 0%nat i = (start (S i) + start i) / 2.
Proof. intros Hi. destruct T as (_ & _ & H & _). rewrite H by exact Hi. lra. Qed.
Lemma two_in i : (i < n)%nat ->
  psi 0%nat i * (a * (INR i + 1) ^ 2 + tt i * (INR i ^ 2 + INR i + / 3) / 2)
  = psi 0%nat (S i) * (a * INR i ^ 2 - tt i * (INR i ^ 2 + INR i + / 3) / 2) + a * (2 * INR i + 1) * hm 0%nat i + (INR i ^ 2 + INR i + / 3) * (dx i * q 0%nat i).
Proof.
  intros Hi. destruct T as (_ & _ & _ & B & _). destruct Hmu as [M _], Hwt as [W _]. assert (Wn : wt 0%nat <> 0) by lra.
  destruct (shell_reduced_gen n _ _ _ _ _ _ _ _ _ _ i (Hd i Hi) Wn Hi (B 0%nat ltac:(lia))) as [E1 E2].
  rewrite E1 in E2. destruct two_alpha as (A0 & A1 & _). rewrite A0, A1, M, W in E2. fold (tt i) in E2. rewrite <- E2. field.
Qed.
Lemma two_out i : (i < n)%nat ->
  psi 1%nat (S i) * (a * (INR i + 1) ^ 2 + tt i * (INR i ^ 2 + INR i + / 3) / 2)
  = psi 1%nat i * (a * INR i ^ 2 - tt i * (INR i ^ 2 + INR i + / 3) / 2) + a * (2 * INR i + 1) * hm 1%nat i + (INR i ^ 2 + INR i + / 3) * (dx i * q 1%nat i).
Proof.
  intros Hi. destruct T as (_ & _ & _ & B & _). destruct Hmu as [_ M], Hwt as [_ W]. assert (Wn : wt 1%nat <> 0) by lra.
  destruct (shell_reduced_gen n _ _ _ _ _ _ _ _ _ _ i (Hd i Hi) Wn Hi (B 1%nat ltac:(lia))) as [E1 E2].
  rewrite E1 in E2. destruct two_alpha as (_ & A1 & A2). rewrite A1, A2, M, W in E2. fold (tt i) in E2. rewrite <- E2. field.
Qed.

Let kk : R := (1 - a) / (a * (1 - a / 3)).
Lemma two_kk : 0 <= kk /\ kk * (a * (1 - a / 3)) = 1 - a /\ kk * (2 / 3 * a) <= 1 - a.
Proof.
  assert (D : 0 < a * (1 - a / 3)) by (apply Rmult_lt_0_compat; lra).
  assert (K0 : 0 <= kk) by (unfold kk; apply Rmult_le_pos; [lra|left; apply Rinv_0_lt_compat; exact D]).
  assert (K1 : kk * (a * (1 - a / 3)) = 1 - a) by (unfold kk; field; lra).
  split; [exact K0|]. split; [exact K1|]. rewrite <- K1. apply Rmult_le_compat_l; [exact K0|]. nra.
Qed.
(** the fraction of the starting direction kept at edge [k] *)
Let lam (k : nat) : R := 1 - kk * (rsum n tt - rsum k tt).
Lemma two_lam k : (k <= n)%nat -> a <= lam k <= 1.
Proof.
  intros Hk. destruct two_kk as (K0 & _ & K2). pose proof (two_partial k Hk) as P1. pose proof (two_partial n ltac:(lia)) as P2.
  assert (G : rsum k tt <= rsum n tt).
  { replace n with (k + (n - k))%nat by lia. assert (G : forall j, (k + j <= n)%nat -> rsum k tt <= rsum (k + j) tt).
    { induction j as [|j IH]; intros Hj; [rewrite Nat.add_0_r; lra|]. rewrite Nat.add_succ_r. cbn [rsum]. pose proof (two_tt (k + j) ltac:(lia)). specialize (IH ltac:(lia)). lra. }
    apply G. lia. }
  unfold lam. assert (0 <= kk * (rsum n tt - rsum k tt)) by (apply Rmult_le_pos; lra).
  assert (kk * (rsum n tt - rsum k tt) <= kk * (2 / 3 * a)) by (apply Rmult_le_compat_l; lra). lra.
Qed.

Lemma two_inward j : (j < n)%nat -> 0 <= start (n - j)%nat /\ lam (n - j)%nat * start (n - j)%nat <= psi 0%nat (n - j)%nat.
Proof.
  induction j as [|j IH]; intros Hj.
  - rewrite Nat.sub_0_r. destruct T as (_ & E & _ & _ & In & _). destruct (In 0%nat ltac:(lia)) as [_ E0]. destruct Hmu as [M _], Hb as [B1 B2].
    rewrite E, E0 by lra. rewrite B1. unfold lam. split; [exact B2|]. lra.
  - specialize (IH ltac:(lia)). destruct IH as [I1 I2]. set (i := (n - S j)%nat) in *. assert (Hi : (i < n)%nat) by lia. replace (n - j)%nat with (S i) in * by lia.
    assert (X : 1 <= INR i) by (replace 1 with (INR 1) by reflexivity; apply le_INR; lia).
    destruct two_kk as (K0 & K1 & _). pose proof (two_lam (S i) ltac:(lia)) as L. pose proof (two_lam i ltac:(lia)) as L'.
    assert (EL : lam i = lam (S i) - kk * tt i) by (unfold lam; cbn [rsum]; ring). rewrite EL in L' |- *.
    apply (inward_step (INR i) a (tt i) (dx i * q 0%nat i) (lam (S i)) kk (start (S i)) (start i) (psi 0%nat (S i)) (psi 0%nat i)); try assumption; try lra.
    + split; [apply two_tt; exact Hi|apply two_small; exact Hi].
    + apply Rmult_le_pos; [left; apply Hd; exact Hi|apply Hq; [lia|exact Hi]].
    + exact (two_start i Hi).
    + pose proof (two_in i Hi) as B. rewrite two_half0 in B by exact Hi. exact B.
Qed.
Lemma two_edge k : (0 < k <= n)%nat -> 0 <= start k /\ a * start k <= psi 0%nat k /\ 0 <= psi 0%nat k.
Proof.
  intros Hk. destruct (two_inward (n - k) ltac:(lia)) as [I1 I2]. replace (n - (n - k))%nat with k in * by lia. pose proof (two_lam k ltac:(lia)) as L.
  assert (a * start k <= lam k * start k) by (apply Rmult_le_compat_r; lra). assert (0 <= a * start k) by (apply Rmult_le_pos; lra). repeat split; lra.
Qed.
Lemma two_half_core : (0 < n)%nat -> 0 <= hm 0%nat 0%nat.
Proof.
  intros Hn. destruct (two_edge 1 ltac:(lia)) as (S1 & _). pose proof (two_start 0 Hn) as B. rewrite two_half0 by exact Hn.
  pose proof (two_tt 0 Hn) as T0. pose proof (two_small 0 Hn) as T1. assert (Q : 0 <= dx 0%nat * q 0%nat 0%nat) by (apply Rmult_le_pos; [left; apply Hd; exact Hn|apply Hq; [lia|exact Hn]]).
  assert (S0 : 0 <= start 0%nat); [|lra]. apply (Rmult_le_reg_r (1 + tt 0%nat / 2)); [lra|]. rewrite Rmult_0_l, B.
  apply Rplus_le_le_0_compat; [apply Rmult_le_pos; lra|exact Q].
Qed.
Lemma two_half1 i : (i < n)%nat -> 0 <= hm 1%nat i.
Proof.
  intros Hi. destruct T as (_ & _ & _ & _ & _ & Wd & Core & _). destruct i as [|i].
  - rewrite Core by lia. apply two_half_core. exact Hi.
  - specialize (Wd 0%nat (S i) ltac:(lia) ltac:(lia)). rewrite two_tau, two_half0 in Wd by exact Hi.
    destruct (two_edge (S i) ltac:(lia)) as (_ & E1 & _). destruct (two_edge (S (S i)) ltac:(lia)) as (_ & E2 & _).
    apply (Rmult_le_reg_l (1 - a)); [lra|]. rewrite Rmult_0_r. lra.
Qed.
Lemma two_core_in : (0 < n)%nat -> 0 <= psi 0%nat 0%nat + psi 0%nat 1%nat.
Proof.
  intros Hn. pose proof (two_in 0 Hn) as B. cbn [INR] in B. destruct (two_edge 1 ltac:(lia)) as (_ & _ & E). pose proof (two_half_core Hn) as H.
  pose proof (two_tt 0 Hn) as T0. assert (Q : 0 <= dx 0%nat * q 0%nat 0%nat) by (apply Rmult_le_pos; [left; apply Hd; exact Hn|apply Hq; [lia|exact Hn]]).
  set (t := tt 0%nat) in *. set (e := psi 0%nat 1%nat) in *. set (e0 := psi 0%nat 0%nat) in *. set (h := hm 0%nat 0%nat) in *. set (Q0 := dx 0%nat * q 0%nat 0%nat) in *.
  apply (Rmult_le_reg_r (a + t / 6)); [lra|]. rewrite Rmult_0_l.
  assert (F : (e0 + e) * (a + t / 6) = a * e + a * h + Q0 / 3) by lra. rewrite F.
  assert (0 <= a * e) by (apply Rmult_le_pos; lra). assert (0 <= a * h) by (apply Rmult_le_pos; lra). lra.
Qed.
Lemma two_outward k : (k <= n)%nat -> (0 < n)%nat -> 0 <= psi 1%nat k.
Proof.
  intros Hk Hn. induction k as [|i IH].
  - destruct T as (_ & _ & _ & _ & In & _). destruct (In 1%nat ltac:(lia)) as [E _]. destruct Hmu as [_ M]. rewrite E by lra. apply two_half1. exact Hn.
  - specialize (IH ltac:(lia)). assert (Hi : (i < n)%nat) by lia. pose proof (two_out i Hi) as B. pose proof (two_half1 i Hi) as H.
    pose proof (two_tt i Hi) as T0. pose proof (two_small i Hi) as T1. assert (Q : 0 <= dx i * q 1%nat i) by (apply Rmult_le_pos; [left; apply Hd; exact Hi|apply Hq; [lia|exact Hi]]).
    pose proof (pos_INR i) as X. assert (V : 0 < INR i ^ 2 + INR i + / 3) by nra.
    assert (D : 0 < a * (INR i + 1) ^ 2 + tt i * (INR i ^ 2 + INR i + / 3) / 2).
    { assert (0 < a * (INR i + 1) ^ 2) by (apply Rmult_lt_0_compat; [lra|apply pow_lt; lra]). assert (0 <= tt i * (INR i ^ 2 + INR i + / 3)) by (apply Rmult_le_pos; lra). lra. }
    apply (Rmult_le_reg_r _ _ _ D). rewrite Rmult_0_l, B.
    assert (VQ : 0 <= (INR i ^ 2 + INR i + / 3) * (dx i * q 1%nat i)) by (apply Rmult_le_pos; lra).
    apply Rplus_le_le_0_compat; [|exact VQ].
    destruct i as [|i].
    + destruct T as (_ & _ & _ & _ & In & _). destruct (In 1%nat ltac:(lia)) as [E _]. destruct Hmu as [_ M]. rewrite E by lra. cbn [INR].
      assert (0 <= hm 1%nat 0%nat * (a - tt 0%nat / 6)) by (apply Rmult_le_pos; lra). lra.
    + assert (X1 : 1 <= INR (S i)) by (replace 1 with (INR 1) by reflexivity; apply le_INR; lia). set (x := INR (S i)) in *. set (t := tt (S i)) in *.
      apply Rplus_le_le_0_compat; [|apply Rmult_le_pos; [apply Rmult_le_pos; lra|exact H]]. apply Rmult_le_pos; [exact IH|].
      assert (t * (x ^ 2 + x + / 3) <= 2 / 3 * a * (x ^ 2 + x + / 3)) by (apply Rmult_le_compat_r; lra). assert (x ^ 2 + x + / 3 <= 3 * x ^ 2) by nra.
      assert (a * (x ^ 2 + x + / 3) <= a * (3 * x ^ 2)) by (apply Rmult_le_compat_l; lra). lra.
Qed.
Lemma two_nonneg i : (i < n)%nat -> 0 <= phi i.
Proof.
  intros Hi. destruct T as (_ & _ & _ & _ & _ & _ & _ & F). rewrite F by exact Hi. cbn [rsum]. destruct Hwt as [-> ->].
  pose proof (two_outward i ltac:(lia) ltac:(lia)) as O1. pose proof (two_outward (S i) ltac:(lia) ltac:(lia)) as O2.
  assert (I : 0 <= psi 0%nat i + psi 0%nat (S i)); [|lra]. destruct i as [|i].
  - apply two_core_in. exact Hi.
  - destruct (two_edge (S i) ltac:(lia)) as (_ & _ & E1). destruct (two_edge (S (S i)) ltac:(lia)) as (_ & _ & E2). lra.
Qed.
End Two.

Lemma two_ordinates_nonneg P groups old xs_total xs_scatter external boundary given flux a :
  angles P = 2%nat -> mu P 0%nat = - a -> mu P 1%nat = a -> 0 < a <= 14 / 15 -> wt P 0%nat = / 2 -> wt P 1%nat = / 2 ->
  (forall i, (i < cells P)%nat -> 0 < dx P i) ->
  (forall i m g, (i < cells P)%nat -> 0 <= at3 external i m g) -> (forall m g, 0 <= at3 boundary 1%nat m g) ->
  (forall i g, (i < cells P)%nat -> (g < groups)%nat -> 0 <= xs_total (medium P i) g /\ 0 <= old i g) ->
  (forall i g h, (i < cells P)%nat -> (g < groups)%nat -> (h < groups)%nat -> 0 <= xs_scatter (medium P i) g h) ->
  (forall g, (g < groups)%nat -> rsum (cells P) (fun i => xs_total (medium P i) g * dx P i) <= 2 / 3 * a) ->
  source_iteration P groups old xs_total (Scatter3 xs_scatter) external boundary 2 given = Ok flux ->
  forall i g, (i < cells P)%nat -> (g < groups)%nat -> 0 <= flux i g.
Proof.
  intros HA M0 M1 Ha W0 W1 Hd He Hb Ht Hx Hr E.
  assert (Snd : sound_sphere P).
  { unfold sound_sphere. rewrite HA. split; [|split; [|split; [|split; [|split]]]].
    - intros m Hm. destruct m as [|[|m]]; [| |lia]; lra.
    - intros m k Hm Hk. destruct m as [|[|m]]; [| |lia]; destruct k as [|[|k]]; try lia; lra.
    - intros m Hm. destruct m as [|[|m]]; [| |lia]; lra.
    - cbn [rsum]. rewrite M0, M1, W0, W1. lra.
    - exact Hd.
    - intros m Hm. destruct m as [|[|m]]; [| |lia]; unfold tau_coef; cbn [rsum]; rewrite ?M0, ?M1, ?W0, ?W1; lra. }
  destruct (ball_run P groups old xs_total xs_scatter external boundary given flux Snd (fun i g Hi Hg => proj1 (Ht i g Hi Hg)) E) as (n & x & Hn & X0 & X1 & _ & _ & Xs).
  assert (Pass : forall g seen out, (g < groups)%nat -> ball_group P groups xs_total xs_scatter external boundary g seen out ->
    (forall i h, (i < cells P)%nat -> (h < groups)%nat -> 0 <= seen i h) -> forall i, (i < cells P)%nat -> 0 <= out i).
  { intros g seen out Hg (start & psi & hm & hp & T) Hseen i Hi. rewrite HA in T.
    refine (two_nonneg (cells P) a (mu P) (wt P) (dx P) _ _ _ _ _ start psi hm hp out Ha (conj M0 M1) (conj W0 W1) Hd _ (Hr g Hg) _ _ _ T i Hi).
    - intros j Hj. apply Ht; assumption.
    - intros m j Hm Hj. unfold mg_source. apply Rplus_le_le_0_compat; [|apply He; exact Hj]. apply rsum_nonneg. intros h Hh. apply Rmult_le_pos; [apply Hx; assumption|apply Hseen; assumption].
    - reflexivity.
    - cbv beta. rewrite bidx0. split; [reflexivity|apply Hb]. }
  assert (All : forall k, (k <= n)%nat -> forall i g, (i < cells P)%nat -> (g < groups)%nat -> 0 <= x k i g).
  { induction k as [|k IH]; intros Hk.
    - intros i g Hi Hg. rewrite X0. apply Ht; assumption.
    - specialize (IH ltac:(lia)).
      assert (G : forall g, forall g', (g' < g)%nat -> (g' < groups)%nat -> forall i, (i < cells P)%nat -> 0 <= x (S k) i g').
      { induction g as [|g IG]; intros g' Hg' Hgr; [lia|]. destruct (Nat.eq_dec g' g) as [->|Ng]; [|apply IG; [lia|exact Hgr]].
        destruct (Xs k g ltac:(lia) Hgr) as (p & y & Hp & Y0 & Y1 & _ & Ys).
        assert (Y : forall j, (j <= p)%nat -> forall i, (i < cells P)%nat -> 0 <= y j i).
        { induction j as [|j IJ]; intros Hj.
          - intros i Hi. rewrite Y0. apply IH; assumption.
          - specialize (IJ ltac:(lia)). apply (Pass g _ _ Hgr (Ys j ltac:(lia))). intros i h Hi Hh. unfold sweep_sees.
            destruct (Nat.ltb_spec h g) as [L|L]; [apply IG; assumption|]. destruct (Nat.eqb_spec h g) as [->|]; [apply IJ; exact Hi|apply IH; assumption]. }
        intros i Hi. change (x (S k) i g) with ((fun i => x (S k) i g) i). rewrite Y1. apply Y; [lia|exact Hi]. }
      intros i g Hi Hg. apply (G (S g) g); [lia|exact Hg|exact Hi]. }
  intros i g Hi Hg. rewrite X1. apply All; [lia|exact Hi|exact Hg].
Qed.
