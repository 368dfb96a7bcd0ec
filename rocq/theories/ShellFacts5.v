(** What the spherical scheme loses at the centre. *)
From Coq Require Import Lra Lia Psatz FunctionalExtensionality.
From Verif Require Import Base BaseFacts SlabModel SlabSpec SlabFacts SlabFacts3 SphereModel SphereSpec SphereFacts SphereFacts2 MgModel MgSpec MgFacts MgFacts2 MgFacts6 ShellSpec ShellFacts ShellFacts2 ShellFacts3.
Open Scope R_scope.

Definition pair_mu (a : R) (m : nat) : R := if Nat.eqb m 0 then - a else a.
Definition pair_ball (n : nat) (d a : R) : sn := mkSn n (fun i => if Nat.eqb i 0 then 0%nat else 1%nat) (fun _ => d) 2 (pair_mu a) (fun _ => 1 / 2) 0 0.
Definition spark : arr3 := mkArr3 1 1 (fun i _ _ => if Nat.eqb i 0 then 1 else 0).
Definition dark : arr3 := mkArr3 1 1 (fun _ _ _ => 0).
Definition spark_q (c : R) (i : nat) : R := if Nat.eqb i 0 then c else 0.

Lemma pair_sound n d a : 0 < d -> 0 < a < 1 -> sound_sphere (pair_ball n d a).
Proof.
  intros Hd Ha. unfold sound_sphere, pair_ball. cbn [angles mu wt cells dx]. split; [|split; [|split; [|split; [|split]]]].
  - intros m Hm. unfold pair_mu. destruct (Nat.eqb m 0); lra.
  - intros m k Hm Hk. unfold pair_mu. destruct (Nat.eqb_spec m 0), (Nat.eqb_spec k 0); intros; try lra. lia.
  - intros; lra.
  - cbn [rsum]. unfold pair_mu. cbn [Nat.eqb]. lra.
  - intros; exact Hd.
  - intros m Hm. unfold tau_coef, pair_mu. destruct m as [|[|m]]; [| |lia]; cbn [Nat.eqb rsum]; intros E.
    + apply Rmult_integral in E. destruct E as [E|E]; [lra|]. replace (2 * (1 / 2)) with 1 in E by lra. rewrite Rinv_1 in E. lra.
    + apply Rmult_integral in E. destruct E as [E|E]; [lra|]. replace (2 * (1 / 2)) with 1 in E by lra. rewrite Rinv_1 in E. lra.
Qed.

Lemma spark_balance n d a sg c start psi hm hp phi : (1 <= n)%nat -> 0 < d -> 0 <= sg -> 0 < a < 1 ->
  sphere_transport n 2 (pair_mu a) (fun _ => 1 / 2) (fun _ => d) (fun _ => sg) (fun _ => spark_q c) (spark_q c) (fun _ => 0) 0 start psi hm hp phi ->
  rsum n (fun i => shell_leakage 2 (pair_mu a) (fun _ => 1 / 2) (code_rin (fun _ => d)) (code_rout (fun _ => d)) psi i
    + sg * (ball_volume (code_rout (fun _ => d) i) - ball_volume (code_rin (fun _ => d) i)) * phi i)
  = (1 - 3 * a * (2 - 3 * a) / ((2 + sg * d) * (6 * a + sg * d)))
    * rsum n (fun i => (ball_volume (code_rout (fun _ => d) i) - ball_volume (code_rin (fun _ => d) i)) * rsum 2 (fun m => 1 / 2 * spark_q c i)) /\
  phi 0%nat = c * (d * (4 + 2 * (sg * d) + 9 * a) / (2 * (2 + sg * d) * (6 * a + sg * d))).
Proof.
  intros Hn Hd Hs Ha T.
  assert (Bal : forall i, (i < n)%nat -> _) by (intros i Hi; exact (sphere_cell_balance n 2 (pair_mu a) (fun _ => 1 / 2) (fun _ => d) (fun _ => sg) (fun _ => spark_q c) (spark_q c) (fun _ => 0) 0 start psi hm hp phi i T ltac:(intros; lra) Hi)).
  cbv beta in Bal.
  destruct T as (B & E & H & O & I & W & Z & F).
  assert (HPI := PI_RGT_0).
  assert (Hsd : 0 <= sg * d) by (apply Rmult_le_pos; lra).
  (* alpha coefficients *)
  assert (A0 : alpha_coef 2 (pair_mu a) (fun _ => 1 / 2) 0 = 0) by (unfold alpha_coef; cbn; lra).
  assert (A1 : alpha_coef 2 (pair_mu a) (fun _ => 1 / 2) 1 = a / 2) by (unfold alpha_coef; cbn; lra).
  assert (A2 : alpha_coef 2 (pair_mu a) (fun _ => 1 / 2) 2 = 0) by (unfold alpha_coef; cbn; lra).
  (* starting direction *)
  assert (St : forall j, (j < n)%nat -> start (n - j)%nat = 0).
  { induction j as [|j IH]; intros Hj; [rewrite Nat.sub_0_r; exact E|]. specialize (IH ltac:(lia)).
    specialize (B (n - S j)%nat ltac:(lia)). cbv beta in B. replace (S (n - S j)) with (n - j)%nat in B by lia. rewrite IH in B.
    unfold spark_q in B. destruct (Nat.eqb_spec (n - S j) 0); [lia|]. set (s := start (n - S j)%nat) in *.
    assert (X : s * (2 + sg * d) = 0) by (replace (s * (2 + sg * d)) with (2 * d * (-1 / d * (0 - s) + sg * ((s + 0) / 2))) by (field; lra); rewrite B; ring).
    apply Rmult_integral in X. destruct X as [X|X]; [exact X|lra]. }
  assert (St' : forall k, (1 <= k <= n)%nat -> start k = 0) by (intros k Hk; replace k with (n - (n - k))%nat by lia; apply St; lia).
  assert (S0 : start 0%nat * (2 + sg * d) = 2 * d * c).
  { specialize (B 0%nat ltac:(lia)). cbv beta in B. rewrite (St' 1%nat) in B by lia. change (spark_q c 0) with c in B. set (s := start 0%nat) in *.
    replace (s * (2 + sg * d)) with (2 * d * (-1 / d * (0 - s) + sg * ((s + 0) / 2))) by (field; lra). rewrite B. ring. }
  assert (H0 : forall i, (1 <= i < n)%nat -> hm 0%nat i = 0) by (intros i Hi; rewrite H by lia; rewrite !St' by lia; lra).
  assert (H00 : hm 0%nat 0%nat = start 0%nat / 2) by (rewrite H by lia; rewrite (St' 1%nat) by lia; lra).
  (* inward ordinate *)
  assert (Vp : forall i, 0 <= sg * (ball_volume (code_rout (fun _ => d) i) - ball_volume (code_rin (fun _ => d) i))).
  { intros i. apply Rmult_le_pos; [exact Hs|]. unfold ball_volume, code_rout, code_rin. rewrite S_INR. pose proof (pos_INR i).
    replace (4 / 3 * PI * ((INR i + 1) * d) ^ 3 - 4 / 3 * PI * (INR i * d) ^ 3) with (4 / 3 * PI * (d ^ 3 * (3 * INR i ^ 2 + 3 * INR i + 1))) by ring.
    apply Rmult_le_pos; [lra|]. apply Rmult_le_pos; [apply pow_le; lra|]. nra. }
  assert (Ap : forall i, (1 <= i)%nat -> 0 < sphere_area (code_rin (fun _ => d) i) /\ 0 <= sphere_area (code_rout (fun _ => d) i) - sphere_area (code_rin (fun _ => d) i)).
  { intros i Hi. unfold sphere_area, code_rout, code_rin. rewrite S_INR. assert (0 < INR i) by (apply lt_0_INR; lia). split.
    - apply Rmult_lt_0_compat; [lra|]. apply pow_lt. apply Rmult_lt_0_compat; lra.
    - replace (4 * PI * ((INR i + 1) * d) ^ 2 - 4 * PI * (INR i * d) ^ 2) with (4 * PI * (d ^ 2 * (2 * INR i + 1))) by ring.
      apply Rmult_le_pos; [lra|]. apply Rmult_le_pos; [apply pow_le; lra|lra]. }
  assert (In : forall j, (j < n)%nat -> psi 0%nat (n - j)%nat = 0).
  { induction j as [|j IH]; intros Hj; [rewrite Nat.sub_0_r; apply (proj2 (I 0%nat ltac:(lia))); unfold pair_mu; cbn; lra|]. specialize (IH ltac:(lia)).
    destruct (O 0%nat ltac:(lia) (n - S j)%nat ltac:(lia)) as [O1 O2]. cbv zeta in O1, O2. replace (S (n - S j)) with (n - j)%nat in O1, O2 by lia.
    rewrite IH in O1, O2. rewrite H0 in O1 by lia. rewrite A0, A1 in O2. rewrite H0 in O2 by lia. change (pair_mu a 0) with (- a) in O2.
    unfold spark_q in O2. destruct (Nat.eqb_spec (n - S j) 0); [lia|]. set (u := psi 0%nat (n - S j)%nat) in *. set (p := hp 0%nat (n - S j)%nat) in *.
    pose proof (Vp (n - S j)%nat) as V. destruct (Ap (n - S j)%nat ltac:(lia)) as [P1 P2].
    set (v := ball_volume (code_rout (fun _ => d) (n - S j)%nat) - ball_volume (code_rin (fun _ => d) (n - S j)%nat)) in *. set (r1 := sphere_area (code_rin (fun _ => d) (n - S j)%nat)) in *.
    set (r2 := sphere_area (code_rout (fun _ => d) (n - S j)%nat) - r1) in *. assert (Hp : p = u) by lra. rewrite Hp in O2.
    assert (X : u * (a * r1 + r2 * a + sg * v / 2) = 0).
    { transitivity (- a * (sphere_area (code_rout (fun _ => d) (n - S j)%nat) * 0 - r1 * u) + r2 / (1 / 2) * (a / 2 * u - 0 * 0) + sg * v * ((u + 0) / 2)); [field|rewrite O2; ring]. }
    apply Rmult_integral in X. destruct X as [X|X]; [exact X|].
    assert (0 < a * r1) by (apply Rmult_lt_0_compat; lra). assert (0 <= r2 * a) by (apply Rmult_le_pos; lra). lra. }
  assert (In' : forall k, (1 <= k <= n)%nat -> psi 0%nat k = 0) by (intros k Hk; replace k with (n - (n - k))%nat by lia; apply In; lia).
  assert (H1 : forall i, (1 <= i < n)%nat -> hm 1%nat i = 0).
  { intros i Hi. pose proof (W 0%nat i ltac:(lia) ltac:(lia)) as X. rewrite !In', (H0 i Hi) in X by lia.
    unfold tau_coef in X. change (pair_mu a 0) with (- a) in X. cbn [rsum] in X.
    replace ((- a - (-1 + 2 * 0)) / (2 * (1 / 2))) with (1 - a) in X by field.
    assert (Y : (1 - a) * hm 1%nat i = 0) by lra. apply Rmult_integral in Y. destruct Y as [Y|Y]; [lra|exact Y]. }
  assert (D1 : forall i, (1 <= i < n)%nat -> rsum 2 (fun m => alpha_coef 2 (pair_mu a) (fun _ => 1 / 2) (S m) * hp m i - alpha_coef 2 (pair_mu a) (fun _ => 1 / 2) m * hm m i) = 0).
  { intros i Hi. cbn [rsum]. rewrite A0, A1, A2, (H0 i Hi), (H1 i Hi). destruct (O 0%nat ltac:(lia) i ltac:(lia)) as [O1 _]. cbv zeta in O1. rewrite !In', (H0 i Hi) in O1 by lia.
    assert (Hp : hp 0%nat i = 0) by lra. rewrite Hp. ring. }
  (* the centre *)
  destruct (O 0%nat ltac:(lia) 0%nat ltac:(lia)) as [C1 C2]. cbv zeta in C1, C2. rewrite (In' 1%nat) in C1, C2 by lia. rewrite A0, A1 in C2.
  change (pair_mu a 0) with (- a) in C2. change (spark_q c 0) with c in C2.
  assert (R1 : sphere_area (code_rin (fun _ => d) 0%nat) = 0) by (unfold sphere_area, code_rin; cbn [INR]; ring).
  assert (R2 : sphere_area (code_rout (fun _ => d) 0%nat) = 4 * PI * d ^ 2) by (unfold sphere_area, code_rout; cbn [INR]; ring).
  assert (R3 : ball_volume (code_rout (fun _ => d) 0%nat) - ball_volume (code_rin (fun _ => d) 0%nat) = 4 * PI * d ^ 2 * (d / 3)) by (unfold ball_volume, code_rout, code_rin; cbn [INR]; field).
  rewrite R1, R2, R3 in C2. pose proof (Z 0%nat ltac:(lia) ltac:(lia)) as Z0.
  assert (D0 : rsum 2 (fun m => alpha_coef 2 (pair_mu a) (fun _ => 1 / 2) (S m) * hp m 0%nat - alpha_coef 2 (pair_mu a) (fun _ => 1 / 2) m * hm m 0%nat)
    = c * (d / 3) * (3 * a * (2 - 3 * a) / ((2 + sg * d) * (6 * a + sg * d)))).
  { cbn [rsum]. rewrite A0, A1, A2, Z0, H00. set (u := psi 0%nat 0%nat) in *. set (p := hp 0%nat 0%nat) in *. set (s := start 0%nat) in *.
    assert (Hp : p = u - s / 2) by lra. rewrite Hp in C2 |- *.
    assert (Hs0 : s = 2 * d * c / (2 + sg * d)) by (apply (Rmult_eq_reg_r (2 + sg * d)); [rewrite S0; field; lra|lra]).
    assert (C3 : a * (u - s / 2) + sg * (d / 3) * (u / 2) = d / 3 * c).
    { apply (Rmult_eq_reg_l (4 * PI * d ^ 2)); [|apply Rgt_not_eq; apply Rmult_lt_0_compat; [lra|apply pow_lt; lra]].
      transitivity (- a * (4 * PI * d ^ 2 * 0 - 0 * u) + (4 * PI * d ^ 2 - 0) / (1 / 2) * (a / 2 * (u - s / 2) - 0 * (s / 2)) + sg * (4 * PI * d ^ 2 * (d / 3)) * ((u + 0) / 2)); [field|].
      etransitivity; [|transitivity (4 * PI * d ^ 2 * (d / 3) * c); [exact C2|ring]]. rewrite H00. fold s. field. }
    assert (Hu : u = (2 * d * c + 3 * a * s) / (6 * a + sg * d)) by (apply (Rmult_eq_reg_r (6 * a + sg * d)); [transitivity (2 * d * c + 3 * a * s); [lra|field; lra]|lra]).
    rewrite Hu, Hs0. field. split; lra. }
  assert (Val : phi 0%nat = c * (d * (4 + 2 * (sg * d) + 9 * a) / (2 * (2 + sg * d) * (6 * a + sg * d)))).
  { rewrite (F 0%nat) by lia. cbn [rsum]. rewrite (In' 1%nat) by lia.
    destruct (O 1%nat ltac:(lia) 0%nat ltac:(lia)) as [G1 G2]. cbv zeta in G1, G2. rewrite A1, A2 in G2. change (pair_mu a 1) with a in G2. change (spark_q c 0) with c in G2.
    rewrite R1, R2, R3, Z0 in G2. rewrite Z0 in G1. pose proof (proj1 (I 1%nat ltac:(lia)) ltac:(change (pair_mu a 1) with a; lra)) as G3. rewrite Z0 in G3. rewrite G3 in G1, G2 |- *.
    rewrite H00 in *. set (u := psi 0%nat 0%nat) in *. set (p := hp 0%nat 0%nat) in *. set (s := start 0%nat) in *. set (e := psi 1%nat 1%nat) in *. set (p1 := hp 1%nat 0%nat) in *.
    assert (Hp : p = u - s / 2) by lra. rewrite Hp in C2.
    assert (Hs0 : s = 2 * d * c / (2 + sg * d)) by (apply (Rmult_eq_reg_r (2 + sg * d)); [rewrite S0; field; lra|lra]).
    assert (Q : 4 * PI * d ^ 2 <> 0) by (apply Rgt_not_eq; apply Rmult_lt_0_compat; [lra|apply pow_lt; lra]).
    assert (C3 : a * (u - s / 2) + sg * (d / 3) * (u / 2) = d / 3 * c).
    { apply (Rmult_eq_reg_l (4 * PI * d ^ 2)); [|exact Q].
      etransitivity; [|transitivity (4 * PI * d ^ 2 * (d / 3) * c); [exact C2|ring]]. field. }
    assert (G4 : a * e - a * (s / 2) + sg * (d / 3) * ((s / 2 + e) / 2) = d / 3 * c).
    { apply (Rmult_eq_reg_l (4 * PI * d ^ 2)); [|exact Q].
      etransitivity; [|transitivity (4 * PI * d ^ 2 * (d / 3) * c); [exact G2|ring]]. field. }
    assert (Hu : u = (2 * d * c + 3 * a * s) / (6 * a + sg * d)) by (apply (Rmult_eq_reg_r (6 * a + sg * d)); [transitivity (2 * d * c + 3 * a * s); [lra|field; lra]|lra]).
    assert (He : e = (2 * d * c + 3 * a * s - sg * d * s / 2) / (6 * a + sg * d)).
    { apply (Rmult_eq_reg_r (6 * a + sg * d)); [|lra]. transitivity (2 * d * c + 3 * a * s - sg * d * s / 2); [lra|field; lra]. }
    rewrite Hu, He, Hs0. field. split; lra. }
  split; [|exact Val].
  (* the sum *)
  destruct n as [|n]; [lia|]. rewrite !rsum_head.
  rewrite (rsum_ext n (fun i => (ball_volume (code_rout (fun _ => d) (S i)) - ball_volume (code_rin (fun _ => d) (S i))) * rsum 2 (fun _ => 1 / 2 * spark_q c (S i))) (fun _ => 0)).
  2:{ intros i Hi. unfold spark_q. cbn [rsum Nat.eqb]. lra. }
  rewrite (rsum_ext n (fun i => shell_leakage 2 (pair_mu a) (fun _ => 1 / 2) (code_rin (fun _ => d)) (code_rout (fun _ => d)) psi (S i) + _) (fun _ => 0)).
  2:{ intros i Hi. rewrite (Bal (S i) ltac:(lia)), (D1 (S i) ltac:(lia)). unfold spark_q. cbn [rsum Nat.eqb]. ring. }
  rewrite (Bal 0%nat ltac:(lia)), D0, R1, R2, R3. rewrite !(rsum_zero_ext n (fun _ => 0)) by (intros; reflexivity). change (spark_q c 0) with c. cbn [rsum]. field. split; lra.
Qed.
