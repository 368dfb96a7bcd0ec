(** The spherical sweep of a purely absorbing ball lit from outside in one ordinate: the two innermost cells get fluxes of
    opposite sign, for every number of cells. *)
From Coq Require Import Lra Lia Psatz.
From Verif Require Import Base BaseFacts SlabModel SlabSpec SlabFacts SlabFacts3 SphereModel SphereSpec SphereFacts SphereFacts2 MgModel MgSpec MgFacts MgFacts2 ShellSpec.
Open Scope R_scope.

(** the balance divided by [4 pi dx^2] *)
Lemma shell_reduced n (d sg mu w am ap : R) (psi hm hp : vec) i : 0 < d -> w <> 0 -> (i < n)%nat ->
  shell_balance n (code_rin (fun _ => d)) (code_rout (fun _ => d)) mu w am ap (fun _ => sg) (fun _ => 0) psi hm hp ->
  let c := (psi i + psi (S i)) / 2 in
  hp i = 2 * c - hm i /\
  mu * ((INR i + 1) ^ 2 * psi (S i) - INR i ^ 2 * psi i) + (2 * INR i + 1) / w * (ap * hp i - am * hm i) + sg * d * (INR i ^ 2 + INR i + / 3) * c = 0.
Proof.
  intros Hd Hw Hi B c. destruct (B i Hi) as [B1 B2]. cbv zeta in B1, B2. split; [unfold c; lra|].
  unfold code_rin, code_rout, sphere_area, ball_volume in B2. rewrite S_INR in B2. fold c in B2.
  assert (Pi := PI_RGT_0). assert (K : 4 * PI * d ^ 2 <> 0) by (apply Rmult_integral_contrapositive_currified; [lra|apply pow_nonzero; lra]).
  apply (Rmult_eq_reg_l (4 * PI * d ^ 2)); [|exact K]. rewrite Rmult_0_r in *. rewrite <- B2. field. exact Hw.
Qed.

(** four ordinates with equal weights *)
Definition four_mu (m : nat) : R := match m with O => - (3 / 4) | 1%nat => - (1 / 4) | 2%nat => 1 / 4 | _ => 3 / 4 end.
Definition four_wt (m : nat) : R := 1 / 4.
Definition lamp (m : nat) : R := if Nat.eqb m 1 then 1 else 0.

Lemma four_alpha : alpha_coef 4 four_mu four_wt 0 = 0 /\ alpha_coef 4 four_mu four_wt 1 = 3 / 16 /\ alpha_coef 4 four_mu four_wt 2 = 1 / 4 /\
  alpha_coef 4 four_mu four_wt 3 = 3 / 16 /\ alpha_coef 4 four_mu four_wt 4 = 0.
Proof. unfold alpha_coef, four_wt. cbn [Nat.ltb Nat.leb rsum four_mu]. repeat split; lra. Qed.
Lemma four_tau m : (m < 4)%nat -> tau_coef four_mu four_wt m = 1 / 2.
Proof. intros Hm. unfold tau_coef, four_wt. destruct m as [|[|[|[|m]]]]; [| | | |lia]; cbn [rsum four_mu]; lra. Qed.

Section Lit.
Variables (n : nat) (d sg : R) (start : vec) (psi hm hp : mat2) (phi : vec).
Hypothesis Hn : (2 <= n)%nat.
Hypothesis Hd : 0 < d.
Hypothesis Hs : 0 <= sg * d <= 1 / 30.
Hypothesis T : sphere_transport n 4 four_mu four_wt (fun _ => d) (fun _ => sg) (fun _ _ => 0) (fun _ => 0) lamp 0 start psi hm hp phi.

Lemma lit_start k : (k <= n)%nat -> start k = 0.
Proof.
  destruct T as (B & E & _). intros Hk. replace k with (n - (n - k))%nat by lia. assert (Hj : (n - k <= n)%nat) by lia. revert Hj. generalize (n - k)%nat.
  induction n0 as [|j IH]; intros Hj; [rewrite Nat.sub_0_r; exact E|].
  assert (Hi : (n - S j < n)%nat) by lia. specialize (B _ Hi). cbv beta in B. replace (S (n - S j)) with (n - j)%nat in B by lia. rewrite IH in B by lia.
  assert (F : -1 / d * (0 - start (n - S j)%nat) = start (n - S j)%nat / d) by (field; lra). rewrite F in B.
  assert (Q : start (n - S j)%nat * (1 + sg * d / 2) = 0).
  { apply (Rmult_eq_reg_r (/ d)); [|apply Rinv_neq_0_compat; lra]. rewrite Rmult_0_l, <- B. field. lra. }
  apply Rmult_integral in Q. destruct Q as [Q|Q]; [exact Q|lra].
Qed.

Lemma lit_half0 i : (i < n)%nat -> hm 0%nat i = 0.
Proof. intros Hi. destruct T as (_ & _ & H & _). rewrite H by exact Hi. rewrite !lit_start by lia. lra. Qed.

Lemma lit_cell m i : (m < 4)%nat -> (i < n)%nat ->
  let c := (psi m i + psi m (S i)) / 2 in
  four_mu m * ((INR i + 1) ^ 2 * psi m (S i) - INR i ^ 2 * psi m i)
  + (2 * INR i + 1) * 4 * (alpha_coef 4 four_mu four_wt (S m) * (2 * c - hm m i) - alpha_coef 4 four_mu four_wt m * hm m i) + sg * d * (INR i ^ 2 + INR i + / 3) * c = 0.
Proof.
  intros Hm Hi c. destruct T as (_ & _ & _ & B & _). assert (W : four_wt m <> 0) by (unfold four_wt; lra). destruct (shell_reduced n d sg _ _ _ _ _ _ _ i Hd W Hi (B m Hm)) as [E1 E2]. fold c in E1, E2.
  rewrite E1 in E2. rewrite <- E2. unfold four_wt. field.
Qed.

(** next half-angle values *)
Lemma lit_next m i : (m < 4)%nat -> (0 < i < n)%nat -> hm (S m) i = psi m i + psi m (S i) - hm m i.
Proof. intros Hm Hi. destruct T as (_ & _ & _ & _ & _ & H & _). specialize (H m i Hm Hi). rewrite four_tau in H by exact Hm. lra. Qed.
Lemma lit_core m : (m < 4)%nat -> hm (S m) 0%nat = hm m 0%nat.
Proof. intros Hm. destruct T as (_ & _ & _ & _ & _ & _ & H & _). apply H; [exact Hm|lia]. Qed.

(** ordinate 0 is dark *)
Lemma lit_dark k : (k <= n)%nat -> psi 0%nat k = 0.
Proof.
  intros Hk. destruct T as (_ & _ & _ & _ & In & _). destruct (In 0%nat ltac:(lia)) as [_ E]. specialize (E ltac:(cbn; lra)). cbn [lamp Nat.eqb] in E.
  replace k with (n - (n - k))%nat by lia. assert (Hj : (n - k <= n)%nat) by lia. revert Hj. generalize (n - k)%nat.
  induction n0 as [|j IH]; intros Hj; [rewrite Nat.sub_0_r; exact E|].
  assert (Hi : (n - S j < n)%nat) by lia. pose proof (lit_cell 0 _ ltac:(lia) Hi) as B. cbv zeta in B. rewrite lit_half0 in B by exact Hi.
  replace (S (n - S j)) with (n - j)%nat in B by lia. rewrite IH in B by lia. destruct four_alpha as (A0 & A1 & _). rewrite A0, A1 in B. cbn [four_mu] in B.
  revert B. pose proof (pos_INR (n - S j)) as X. generalize dependent (INR (n - S j)). generalize (psi 0%nat (n - S j)%nat). intros p x X B.
  assert (Q : p * (3 / 4 * x ^ 2 + (2 * x + 1) * 4 * (3 / 16) + sg * d * (x ^ 2 + x + / 3) / 2) = 0) by (rewrite <- B; field).
  apply Rmult_integral in Q. destruct Q as [Q|Q]; [exact Q|]. nra.
Qed.
Lemma lit_half1 i : (i < n)%nat -> hm 1%nat i = 0.
Proof.
  intros Hi. destruct i as [|i]; [rewrite lit_core by lia; apply lit_half0; exact Hi|]. rewrite lit_next, lit_half0, !lit_dark by lia. lra.
Qed.

(** ordinate 1: the step from the outer to the inner edge *)
Definition den (x : R) : R := x ^ 2 / 2 + 2 * (2 * x + 1) + sg * d * (x ^ 2 + x + / 3).
Definition num (x : R) : R := x ^ 2 / 2 - 3 * x - 3 / 2 - sg * d * (x ^ 2 + x + / 3).
Lemma lit_step i : (i < n)%nat -> psi 1%nat i * den (INR i) = num (INR i) * psi 1%nat (S i).
Proof.
  intros Hi. pose proof (lit_cell 1 i ltac:(lia) Hi) as B. cbv zeta in B. rewrite lit_half1 in B by exact Hi. destruct four_alpha as (_ & A1 & A2 & _). rewrite A1, A2 in B.
  cbn [four_mu] in B. unfold den, num. lra.
Qed.
Lemma den_pos x : 0 <= x -> 0 < den x.
Proof. intros Hx. unfold den. assert (0 <= sg * d * (x ^ 2 + x + / 3)) by (apply Rmult_le_pos; [lra|nra]). nra. Qed.
Lemma num_nonzero i : num (INR i) <> 0.
Proof.
  unfold num. pose proof (pos_INR i) as X. destruct (le_lt_dec i 6) as [H|H].
  - assert (INR i <= 6) by (replace 6 with (INR 6) by (cbn; lra); apply le_INR; exact H). assert (0 <= sg * d * (INR i ^ 2 + INR i + / 3)) by (apply Rmult_le_pos; [lra|nra]). nra.
  - assert (H7 : 7 <= INR i) by (replace 7 with (INR 7) by (cbn; lra); apply le_INR; lia). assert (sg * d * (INR i ^ 2 + INR i + / 3) <= 1 / 30 * (INR i ^ 2 + INR i + / 3)) by (apply Rmult_le_compat_r; [nra|lra]). nra.
Qed.
Lemma lit_lit k : (k <= n)%nat -> psi 1%nat k <> 0.
Proof.
  intros Hk. destruct T as (_ & _ & _ & _ & In & _). destruct (In 1%nat ltac:(lia)) as [_ E]. specialize (E ltac:(cbn; lra)). cbn [lamp Nat.eqb] in E.
  replace k with (n - (n - k))%nat by lia. assert (Hj : (n - k <= n)%nat) by lia. revert Hj. generalize (n - k)%nat.
  induction n0 as [|j IH]; intros Hj; [rewrite Nat.sub_0_r, E; lra|].
  assert (Hi : (n - S j < n)%nat) by lia. pose proof (lit_step _ Hi) as B. replace (S (n - S j)) with (n - j)%nat in B by lia. intros Z. rewrite Z, Rmult_0_l in B.
  symmetry in B. apply Rmult_integral in B. destruct B as [B|B]; [exact (num_nonzero _ B)|exact (IH ltac:(lia) B)].
Qed.

(** outward ordinates in the two innermost cells *)
Lemma lit_out m : (m = 2 \/ m = 3)%nat -> psi m 0%nat = 0 /\ psi m 1%nat = 0.
Proof.
  intros Hm. assert (H4 : (m < 4)%nat) by lia. destruct T as (_ & _ & _ & _ & In & _). destruct (In m H4) as [E _].
  assert (H0 : hm m 0%nat = 0).
  { destruct Hm as [-> | ->]; rewrite !lit_core by lia; apply lit_half0; lia. }
  assert (E0 : psi m 0%nat = 0) by (rewrite E; [exact H0|destruct Hm as [-> | ->]; cbn; lra]). split; [exact E0|].
  pose proof (lit_cell m 0 H4 ltac:(lia)) as B. cbv zeta in B. rewrite H0, E0 in B. cbn [INR] in B. destruct four_alpha as (_ & _ & A2 & A3 & A4).
  destruct Hm as [-> | ->]; rewrite ?A2, ?A3, ?A4 in B; cbn [four_mu] in B; nra.
Qed.

Lemma lit_signs : phi 0%nat * phi 1%nat < 0.
Proof.
  destruct T as (_ & _ & _ & _ & _ & _ & _ & F). rewrite (F 0%nat) by lia. rewrite (F 1%nat) by lia. cbn [rsum]. unfold four_wt.
  rewrite !lit_dark by lia. destruct (lit_out 2 ltac:(lia)) as [P20 P21]. destruct (lit_out 3 ltac:(lia)) as [P30 P31]. rewrite P20, P21, P30, P31.
  pose proof (lit_step 0 ltac:(lia)) as S0. pose proof (lit_step 1 ltac:(lia)) as S1. unfold den, num in S0, S1. cbn [INR] in S0, S1.
  pose proof (lit_lit 2 ltac:(lia)) as L2. pose proof (lit_next 1 1 ltac:(lia) ltac:(lia)) as N1. rewrite lit_half1 in N1 by lia.
  pose proof (lit_next 2 1 ltac:(lia) ltac:(lia)) as N2. rewrite P21 in N2.
  pose proof (lit_cell 2 1 ltac:(lia) ltac:(lia)) as C2. pose proof (lit_cell 3 1 ltac:(lia) ltac:(lia)) as C3. cbv zeta in C2, C3. rewrite P21 in C2. rewrite P31 in C3.
  destruct four_alpha as (_ & _ & A2 & A3 & A4). rewrite A2, A3 in C2. rewrite A3, A4 in C3. cbn [four_mu INR] in C2, C3.
  set (s := sg * d) in *. set (a0 := psi 1%nat 0%nat) in *. set (a1 := psi 1%nat 1%nat) in *. set (a2 := psi 1%nat 2%nat) in *.
  set (b := psi 2%nat 2%nat) in *. set (g := psi 3%nat 2%nat) in *. set (h2 := hm 2%nat 1%nat) in *. set (h3 := hm 3%nat 1%nat) in *.
  (* everything is a multiple of the edge value entering cell 1 *)
  assert (V : 1 ^ 2 + 1 + / 3 = 7 / 3) by lra.
  assert (E1 : a1 = - ((4 + 7 / 3 * s) / (13 / 2 + 7 / 3 * s)) * a2).
  { apply (Rmult_eq_reg_r (13 / 2 + 7 / 3 * s)); [|lra]. transitivity (- (4 + 7 / 3 * s) * a2); [lra|field; lra]. }
  assert (E0 : a0 = - ((3 / 2 + s / 3) / (2 + s / 3)) * a1).
  { apply (Rmult_eq_reg_r (2 + s / 3)); [|lra]. transitivity (- (3 / 2 + s / 3) * a1); [lra|field; lra]. }
  assert (Eh2 : h2 = (5 / 2) / (13 / 2 + 7 / 3 * s) * a2).
  { rewrite N1, E1. field. lra. }
  assert (Eb : b = (21 / 2) / (13 / 2 + 7 / 3 * s) * h2).
  { apply (Rmult_eq_reg_r (13 / 2 + 7 / 3 * s)); [|lra]. transitivity (21 / 2 * h2); [lra|field; lra]. }
  assert (Eh3 : h3 = (4 - 7 / 3 * s) / (13 / 2 + 7 / 3 * s) * h2).
  { rewrite N2, Eb. field. lra. }
  assert (Eg : g = (9 / 2) / (6 + 7 / 3 * s) * h3).
  { apply (Rmult_eq_reg_r (6 + 7 / 3 * s)); [|lra]. transitivity (9 / 2 * h3); [lra|field; lra]. }
  set (t := / (13 / 2 + 7 / 3 * s)). assert (Ht : 0 < t) by (apply Rinv_0_lt_compat; lra).
  set (u := / (6 + 7 / 3 * s)). assert (Hu : 0 < u) by (apply Rinv_0_lt_compat; lra).
  set (v := / (2 + s / 3)). assert (Hv : 0 < v) by (apply Rinv_0_lt_compat; lra).
  assert (F0 : a0 + a1 = - (1 / 2 * v * ((4 + 7 / 3 * s) * t)) * a2).
  { rewrite E0, E1. unfold v, t. field. lra. }
  assert (F1 : a1 + a2 = 5 / 2 * t * a2) by (rewrite E1; unfold t; field; lra).
  assert (F2 : b = 21 / 2 * t * (5 / 2 * t) * a2) by (rewrite Eb, Eh2; unfold t, Rdiv; ring).
  assert (F3 : g = 9 / 2 * u * ((4 - 7 / 3 * s) * t * (5 / 2 * t)) * a2) by (rewrite Eg, Eh3, Eh2; unfold t, u, Rdiv; ring).
  replace ((0 + 1 / 4 * ((0 + 0) / 2) + 1 / 4 * ((a0 + a1) / 2) + 1 / 4 * ((0 + 0) / 2) + 1 / 4 * ((0 + 0) / 2)) * (0 + 1 / 4 * ((0 + 0) / 2) + 1 / 4 * ((a1 + a2) / 2) + 1 / 4 * ((0 + b) / 2) + 1 / 4 * ((0 + g) / 2)))
    with (1 / 64 * ((a0 + a1) * (a1 + a2 + b + g))) by field.
  rewrite F0, F1, F2, F3.
  replace (- (1 / 2 * v * ((4 + 7 / 3 * s) * t)) * a2 * (5 / 2 * t * a2 + 21 / 2 * t * (5 / 2 * t) * a2 + 9 / 2 * u * ((4 - 7 / 3 * s) * t * (5 / 2 * t)) * a2))
    with (- ((1 / 2 * v * ((4 + 7 / 3 * s) * t)) * (5 / 2 * t + 21 / 2 * t * (5 / 2 * t) + 9 / 2 * u * ((4 - 7 / 3 * s) * t * (5 / 2 * t))) * (a2 * a2))) by ring.
  assert (Q : 0 < (1 / 2 * v * ((4 + 7 / 3 * s) * t)) * (5 / 2 * t + 21 / 2 * t * (5 / 2 * t) + 9 / 2 * u * ((4 - 7 / 3 * s) * t * (5 / 2 * t))) * (a2 * a2)).
  { apply Rmult_lt_0_compat; [|apply Rsqr_pos_lt; exact L2]. apply Rmult_lt_0_compat.
    - apply Rmult_lt_0_compat; [lra|]. apply Rmult_lt_0_compat; lra.
    - assert (0 < t * t) by (apply Rmult_lt_0_compat; lra). assert (0 < u * ((4 - 7 / 3 * s) * (t * t))) by (apply Rmult_lt_0_compat; [lra|apply Rmult_lt_0_compat; lra]). nra. }
  lra.
Qed.
End Lit.
