(** The coarse energy index in binary64. *)
From Coq Require Import ZArith Lra Lia Psatz.
From Coq Require Import List. Import ListNotations.
From Verif Require Import Base BaseFacts HybModel HybSpec HybFacts FltModel FltSpec FltFacts.
From Flocq Require Import Core Relative.
Open Scope R_scope.

Lemma binary64_nat n : (Z.of_nat n <= 2 ^ 53)%Z -> binary64 (INR n) = INR n.
Proof.
  intros H. unfold binary64. apply round_generic; [apply valid_rnd_N|]. rewrite INR_IZR_INZ.
  destruct (Z.eq_dec (Z.of_nat n) (2 ^ 53)) as [E|E].
  - rewrite E. replace (IZR (2 ^ 53)) with (bpow radix2 53) by (cbn; lra).
    apply generic_format_bpow. unfold FLT_exp. cbn. lia.
  - apply generic_format_FLT. apply (FLT_spec radix2 (-1074) 53 _ (Float radix2 (Z.of_nat n) 0)).
    + unfold F2R. cbn. ring.
    + cbn [Fnum]. rewrite Z.abs_eq by lia. change (Zpower radix2 53) with (2 ^ 53)%Z. lia.
    + cbn. lia.
Qed.

Lemma binary64_relative x : 1 <= x -> Rabs (binary64 x - x) <= / 2 ^ 53 * x.
Proof.
  intros H. unfold binary64.
  assert (X := relative_error_N_FLT radix2 (-1074) 53 ltac:(reflexivity) (fun x => negb (Z.even x)) x).
  replace (/ 2 * bpow radix2 (- (53) + 1)) with (/ 2 ^ 53) in X by (cbn; lra).
  rewrite (Rabs_right x) in X by lra. apply X.
  apply Rle_trans with 1; [|exact H]. change 1 with (bpow radix2 0). apply bpow_le. cbn. lia.
Qed.

Lemma u_small : 0 < / 2 ^ 53 < / 2 ^ 52.
Proof. cbn. lra. Qed.

Section Index.
Variables C n : nat.
Hypothesis Hn : (1 <= n < C)%nat.
Hypothesis HC : (Z.of_nat C <= 2 ^ 25)%Z.
Let step := fdiv binary64 (INR C) (INR n).
Let y k := fmul binary64 (INR k) step.

Let c := INR C.
Let d := INR n.
Let Hd : 1 <= d.
Proof. unfold d. change 1 with (INR 1). apply le_INR. lia. Qed.
Let Hcd : d + 1 <= c.
Proof. unfold d, c. change 1 with (INR 1). rewrite <- plus_INR. apply le_INR. lia. Qed.
Let HcM : c <= 2 ^ 25.
Proof. unfold c. rewrite INR_IZR_INZ. replace (2 ^ 25) with (IZR (2 ^ 25)) by (cbn; lra). apply IZR_le. exact HC. Qed.

Let q := c / d.
Let Hq : q * d = c.
Proof. unfold q. field. lra. Qed.
Let Hq1 : 1 + / 2 ^ 25 <= q.
Proof.
  apply (Rmult_le_reg_r d); [lra|]. rewrite Hq.
  assert (/ 2 ^ 25 * d <= 1); [|lra]. apply (Rmult_le_reg_l (2 ^ 25)); [lra|]. rewrite <- Rmult_assoc, Rinv_r by lra. lra.
Qed.
Let Hqc : q <= c.
Proof. apply (Rmult_le_reg_r d); [lra|]. rewrite Hq. nra. Qed.

Lemma step_error : Rabs (step - q) <= / 2 ^ 53 * q.
Proof. unfold step, fdiv. apply binary64_relative. fold c d q. assert (0 < / 2 ^ 25) by (apply Rinv_0_lt_compat; lra). lra. Qed.

Lemma step_bounds : q - / 2 ^ 53 * q <= step <= q + / 2 ^ 53 * q.
Proof.
  assert (X := step_error). assert (Y := Rle_abs (step - q)). assert (Z := Rle_abs (- (step - q))). rewrite Rabs_Ropp in Z. lra.
Qed.

Lemma y_zero : y 0 = 0.
Proof. unfold y, fmul. cbn [INR]. rewrite Rmult_0_l. apply binary64_correct. Qed.

Lemma exact_size k : (k < n)%nat -> INR k * step <= c - 1 + / 2 ^ 26.
Proof.
  intros Hk. assert (Hk' : INR k <= d - 1).
  { unfold d. replace (INR n - 1) with (INR (n - 1)) by (rewrite minus_INR by lia; cbn; lra). apply le_INR. lia. }
  assert (K0 := pos_INR k). destruct step_bounds as [S1 S2].
  assert (U := u_small).
  apply Rle_trans with ((d - 1) * (q + / 2 ^ 53 * q)).
  { assert (0 < / 2 ^ 25) by (apply Rinv_0_lt_compat; lra). apply Rmult_le_compat; lra. }
  replace ((d - 1) * (q + / 2 ^ 53 * q)) with ((c - q) * (1 + / 2 ^ 53)) by (rewrite <- Hq; ring).
  assert (/ 2 ^ 53 * (c - q) <= / 2 ^ 26).
  { apply Rle_trans with (/ 2 ^ 53 * 2 ^ 25); [apply Rmult_le_compat_l; nra|]. cbn. lra. }
  assert (0 < / 2 ^ 25) by (apply Rinv_0_lt_compat; lra). lra.
Qed.

Lemma y_error k : (1 <= k)%nat -> Rabs (y k - INR k * step) <= / 2 ^ 53 * (INR k * step).
Proof.
  intros Hk. unfold y, fmul. apply binary64_relative. assert (1 <= INR k) by (change 1 with (INR 1); apply le_INR; lia).
  assert (1 <= step).
  { destruct step_bounds as [S1 _]. assert (/ 2 ^ 53 * q <= / 2 ^ 53 * 2 ^ 25) by (apply Rmult_le_compat_l; [left; apply u_small|lra]).
    assert (/ 2 ^ 53 * 2 ^ 25 <= / 2 ^ 28) by (cbn; lra). assert (/ 2 ^ 28 <= / 2 ^ 25) by (cbn; lra). lra. }
  nra.
Qed.

Lemma step_big : 1 + / 2 ^ 26 <= step.
Proof.
  destruct step_bounds as [S1 _]. assert (/ 2 ^ 53 * q <= / 2 ^ 53 * 2 ^ 25) by (apply Rmult_le_compat_l; [left; apply u_small|lra]).
  assert (/ 2 ^ 53 * 2 ^ 25 <= / 2 ^ 28) by (cbn; lra). assert (/ 2 ^ 28 + / 2 ^ 26 <= / 2 ^ 25) by (cbn; lra). lra.
Qed.

Lemma y_nonneg k : 0 <= y k.
Proof.
  unfold y, fmul. assert (B := binary64_correct). destruct B as (B1 & B2 & _). rewrite <- B2. apply B1.
  apply Rmult_le_pos; [apply pos_INR|]. assert (X := step_big). assert (0 < / 2 ^ 26) by (apply Rinv_0_lt_compat; lra). lra.
Qed.

Lemma y_below k : (k < n)%nat -> y k < c.
Proof.
  intros Hk. destruct (Nat.eq_dec k 0) as [-> |Hk0]; [rewrite y_zero; lra|].
  assert (E := exact_size k Hk). assert (Y := y_error k ltac:(lia)). assert (A := Rle_abs (y k - INR k * step)).
  assert (/ 2 ^ 53 * (INR k * step) <= / 2 ^ 53 * 2 ^ 25) by (apply Rmult_le_compat_l; [left; apply u_small|]; assert (/ 2 ^ 26 <= 1) by (cbn; lra); lra).
  assert (/ 2 ^ 53 * 2 ^ 25 + / 2 ^ 26 < 1) by (cbn; lra). lra.
Qed.

Lemma floor_step k : (k + 1 < n)%nat -> (Zfloor (y k) + 1 <= Zfloor (y (k + 1)))%Z.
Proof.
  intros Hk. set (m := Zfloor (y k)).
  assert (M1 : IZR m <= y k) by apply Zfloor_lb.
  assert (M0 : (0 <= m)%Z) by (apply Zfloor_lub; apply y_nonneg).
  assert (MC : (m < Z.of_nat C)%Z).
  { apply lt_IZR. rewrite <- INR_IZR_INZ. fold c. assert (X := y_below k ltac:(lia)). lra. }
  apply Zfloor_lub. unfold y, fmul.
  replace (IZR (m + 1)) with (binary64 (IZR (m + 1))).
  2:{ replace (IZR (m + 1)) with (INR (Z.to_nat (m + 1))) by (rewrite INR_IZR_INZ, Z2Nat.id by lia; reflexivity).
      apply binary64_nat. rewrite Z2Nat.id by lia. lia. }
  destruct binary64_correct as (B1 & _). apply B1. rewrite plus_INR, plus_IZR. cbn [INR].
  assert (SB := step_big).
  assert (G : IZR m - / 2 ^ 27 <= INR k * step).
  { destruct (Nat.eq_dec k 0) as [-> |Hk0].
    - rewrite y_zero in M1. cbn [INR]. assert (0 < / 2 ^ 27) by (apply Rinv_0_lt_compat; lra). lra.
    - assert (Y := y_error k ltac:(lia)). assert (A := Rle_abs (y k - INR k * step)). assert (E := exact_size k ltac:(lia)).
      assert (/ 2 ^ 53 * (INR k * step) <= / 2 ^ 53 * 2 ^ 25) by (apply Rmult_le_compat_l; [left; apply u_small|]; assert (/ 2 ^ 26 <= 1) by (cbn; lra); lra).
      assert (/ 2 ^ 53 * 2 ^ 25 <= / 2 ^ 27) by (cbn; lra). lra. }
  assert (/ 2 ^ 27 <= / 2 ^ 26) by (cbn; lra). lra.
Qed.

Lemma floor_mono a b : (a < b < n)%nat -> (Zfloor (y a) < Zfloor (y b))%Z.
Proof.
  intros [H1 H2]. induction b as [|b IH]; [lia|]. assert (S1 := floor_step b ltac:(lia)). replace (b + 1)%nat with (S b) in S1 by lia.
  destruct (Nat.eq_dec a b) as [-> |N]; [lia|]. specialize (IH ltac:(lia) ltac:(lia)). lia.
Qed.

Lemma floor_range k : (k < n)%nat -> (0 <= Zfloor (y k) < Z.of_nat C)%Z.
Proof.
  intros Hk. split; [apply Zfloor_lub; apply y_nonneg|]. apply lt_IZR. rewrite <- INR_IZR_INZ. fold c.
  assert (X := y_below k Hk). assert (Z := Zfloor_lb (y k)). lra.
Qed.
End Index.

Lemma flt_linspace_nodup coarse num : (num < coarse)%nat -> (Z.of_nat coarse <= 2 ^ 25)%Z ->
  NoDup (flt_linspace_idx binary64 coarse num) /\ length (flt_linspace_idx binary64 coarse num) = num /\
  (forall x, In x (flt_linspace_idx binary64 coarse num) -> (x < coarse)%nat).
Proof.
  intros Hn HC. unfold flt_linspace_idx. destruct (Nat.eqb_spec num 1) as [-> |H1].
  { split; [|split]; [constructor; [intros []|constructor]|reflexivity|]. intros x [<- |[]]. lia. }
  destruct (Nat.eq_dec num 0) as [-> |H0].
  { split; [constructor|split; [reflexivity|intros x []]]. }
  assert (HN : (1 <= num - 1 < coarse - 1)%nat) by lia. assert (HC' : (Z.of_nat (coarse - 1) <= 2 ^ 25)%Z) by lia.
  cbv zeta. set (g := fun k => if (k =? num - 1)%nat then _ else _).
  assert (Mono : forall a b, (a < b < num)%nat -> (g a < g b)%nat).
  { intros a b [Hab Hb]. unfold g. destruct (Nat.eqb_spec a (num - 1)); [lia|].
    assert (Ra := floor_range (coarse - 1) (num - 1) HN HC' a ltac:(lia)).
    destruct (Nat.eqb_spec b (num - 1)) as [-> |Nb].
    - apply Nat2Z.inj_lt. rewrite Z2Nat.id by lia. lia.
    - assert (M := floor_mono (coarse - 1) (num - 1) HN HC' a b ltac:(lia)). cbv zeta in *. apply (proj1 (Z2Nat.inj_lt _ _ (proj1 Ra) (Z.le_trans _ _ _ (proj1 Ra) (Z.lt_le_incl _ _ M)))). exact M. }
  split; [|split].
  - assert (G : forall s l, (s + l <= num)%nat -> NoDup (map g (seq s l))).
    { intros s l. revert s. induction l as [|l IH]; intros s Hs; cbn [seq map]; [constructor|]. constructor; [|apply IH; lia].
      intros Hin. apply in_map_iff in Hin. destruct Hin as (k & E & Hk). apply in_seq in Hk.
      assert (M := Mono s k ltac:(lia)). lia. }
    apply G. lia.
  - rewrite map_length, seq_length. reflexivity.
  - intros x Hx. apply in_map_iff in Hx. destruct Hx as (k & <- & Hk). apply in_seq in Hk. unfold g.
    destruct (Nat.eqb_spec k (num - 1)); [lia|].
    assert (Ra := floor_range (coarse - 1) (num - 1) HN HC' k ltac:(lia)). apply Nat2Z.inj_lt. rewrite Z2Nat.id by lia. lia.
Qed.

(** [int(fine / coarse)] is the integer quotient *)
Lemma flt_quotient fine coarse : (1 <= coarse <= fine)%nat -> (Z.of_nat fine < 2 ^ 53)%Z ->
  Z.to_nat (Ztrunc (fdiv binary64 (INR fine) (INR coarse))) = (fine / coarse)%nat.
Proof.
  intros [Hc Hcf] Hf. set (q := (fine / coarse)%nat). set (r := (fine mod coarse)%nat).
  assert (E : fine = (coarse * q + r)%nat) by (apply Nat.div_mod; lia).
  assert (Hr : (r < coarse)%nat) by (apply Nat.mod_upper_bound; lia).
  destruct binary64_correct as (B1 & B2 & _).
  assert (C1 : 1 <= INR coarse) by (change 1 with (INR 1); apply le_INR; lia).
  assert (L : INR q <= INR fine / INR coarse).
  { apply (Rmult_le_reg_r (INR coarse)); [lra|]. unfold Rdiv. rewrite Rmult_assoc, Rinv_l, Rmult_1_r by lra.
    rewrite <- mult_INR. apply le_INR. lia. }
  assert (U : INR fine / INR coarse <= INR q + 1 - / INR coarse).
  { apply (Rmult_le_reg_r (INR coarse)); [lra|]. unfold Rdiv. rewrite Rmult_assoc, Rinv_l, Rmult_1_r by lra.
    replace ((INR q + 1 - / INR coarse) * INR coarse) with (INR q * INR coarse + INR coarse - 1) by (field; lra).
    assert (X : INR (fine + 1) <= INR (q * coarse + coarse)) by (apply le_INR; lia).
    rewrite !plus_INR, mult_INR in X. cbn [INR] in X. lra. }
  unfold fdiv. assert (Hq53 : (Z.of_nat q <= 2 ^ 53)%Z) by (assert (q * 1 <= q * coarse)%nat by (apply Nat.mul_le_mono_l; lia); lia).
  assert (L' : INR q <= binary64 (INR fine / INR coarse)).
  { rewrite <- (binary64_nat q Hq53). apply B1. exact L. }
  assert (U' : binary64 (INR fine / INR coarse) < INR q + 1).
  { assert (Q0 : (1 <= q)%nat) by (apply Nat.div_le_lower_bound; lia).
      assert (1 <= INR q) by (change 1 with (INR 1); apply le_INR; lia).
      assert (R := binary64_relative (INR fine / INR coarse) ltac:(lra)).
      assert (A := Rle_abs (binary64 (INR fine / INR coarse) - INR fine / INR coarse)).
      assert (/ 2 ^ 53 * (INR fine / INR coarse) < / INR coarse).
      { unfold Rdiv. rewrite <- Rmult_assoc. rewrite <- (Rmult_1_l (/ INR coarse)) at 2. apply Rmult_lt_compat_r; [apply Rinv_0_lt_compat; lra|].
        apply (Rmult_lt_reg_l (2 ^ 53)); [lra|]. rewrite <- Rmult_assoc, Rinv_r by lra. rewrite Rmult_1_l, Rmult_1_r.
        rewrite INR_IZR_INZ. replace (2 ^ 53) with (IZR (2 ^ 53)) by (cbn; lra). apply IZR_lt. exact Hf. }
      lra. }
  rewrite Ztrunc_floor by (assert (P := pos_INR q); lra).
  rewrite (Zfloor_imp (Z.of_nat q)); [apply Nat2Z.id|]. rewrite plus_IZR, <- INR_IZR_INZ. lra.
Qed.

Lemma flt_sizes_sum fine coarse : (1 <= coarse <= fine)%nat -> (Z.of_nat coarse <= 2 ^ 25)%Z -> (Z.of_nat fine < 2 ^ 53)%Z ->
  nsum coarse (flt_coarse_sizes binary64 fine coarse) = fine.
Proof.
  intros Hc HC Hf. unfold flt_coarse_sizes. rewrite flt_quotient by assumption. rewrite nsum_plus, nsum_const.
  assert (Hm : (fine mod coarse < coarse)%nat) by (apply Nat.mod_upper_bound; lia).
  destruct (flt_linspace_nodup coarse (fine mod coarse) Hm HC) as (Hnd & Hlen & Hb).
  rewrite nsum_indicator by assumption. rewrite Hlen.
  rewrite (Nat.div_mod fine coarse) at 3 by lia. lia.
Qed.

Lemma flt_index_partition fine coarse : (1 <= coarse <= fine)%nat -> (Z.of_nat coarse <= 2 ^ 25)%Z -> (Z.of_nat fine < 2 ^ 53)%Z ->
  exists idx, flt_energy_coarse_index binary64 fine coarse = Ok idx /\ partition fine coarse idx /\
    forall c, (c < coarse)%nat ->
      ((idx (c + 1) - idx c) = fine / coarse \/ (idx (c + 1) - idx c) = fine / coarse + 1)%nat.
Proof.
  intros Hc HC Hf. unfold flt_energy_coarse_index. destruct (Nat.eqb_spec coarse 0); [lia|].
  rewrite flt_sizes_sum by assumption. rewrite Nat.eqb_refl.
  eexists; split; [reflexivity|].
  assert (Hq : (1 <= fine / coarse)%nat) by (apply Nat.div_le_lower_bound; lia).
  assert (Hd : forall c, nsum (c + 1) (flt_coarse_sizes binary64 fine coarse) =
     (nsum c (flt_coarse_sizes binary64 fine coarse) + flt_coarse_sizes binary64 fine coarse c)%nat).
  { intros c. rewrite Nat.add_1_r. reflexivity. }
  assert (Hs : forall c, (flt_coarse_sizes binary64 fine coarse c = fine / coarse \/ flt_coarse_sizes binary64 fine coarse c = fine / coarse + 1)%nat).
  { intros c. unfold flt_coarse_sizes. rewrite flt_quotient by assumption. destruct (existsb _ _); [right|left]; lia. }
  split; [split; [reflexivity|split; [apply flt_sizes_sum; assumption|]]|].
  - intros c Hcc. rewrite Hd. destruct (Hs c) as [E|E]; rewrite E; lia.
  - intros c Hcc. rewrite Hd. destruct (Hs c) as [E|E]; rewrite E; lia.
Qed.

