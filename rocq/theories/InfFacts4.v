(** Infinite media with a fission matrix: the whole run of critical0d. *)
From Coq Require Import Lra Lia Psatz FunctionalExtensionality.
From Verif Require Import Base BaseFacts SlabModel SlabSpec MgModel MgSpec SupSpec SupFacts CritModel CritSpec CritFacts3 CritFacts4 CritFacts5 CritFacts6 CritFacts7 CritFacts8 CritFacts9 CritFacts10 CritFacts11 InfSpec InfFacts InfFacts2 InfFacts3.
Open Scope R_scope.

Section Medium.
Variables (angles groups : nat) (wt T : vec) (X : mat2) (f : fission_0d).
Hypothesis HD : damped_0d angles groups wt T X.
Hypothesis HG : (0 < groups)%nat.
Hypothesis Hf : nonneg_fission_0d groups f.
Variables (phi : vec) (k : R).
Hypothesis Hk : 0 < k.
Hypothesis Hphi : positive1 groups phi.
Hypothesis He : eigenpair_0d angles groups wt T X f phi k.
Variable d : R.
Hypothesis Heven : even_generation_0d angles groups wt T X f d.

Theorem inf_power c p s E a0 b0 guess w0 flux keff :
  0 <= c < 1 -> damping_0d angles groups wt T X c p -> c * / 10 ^ 8 < 1 - c ->
  (forall g h, (g < groups)%nat -> (h < groups)%nat -> p g <= s * p h) ->
  positive1 groups guess -> next_generation_0d angles groups wt T X f guess w0 ->
  0 < a0 -> below1 groups (fun g => a0 * guess g) w0 -> below1 groups w0 (fun g => b0 * guess g) ->
  norm1 groups guess <= E * a0 -> 3 * b0 <= E * a0 * d ^ 2 -> 6 <= E * d ^ 4 ->
  power_iteration_0d angles groups wt T X f guess = Ok (flux, keff) ->
  forall eta kap width, eta = Rmax (c * / 10 ^ 8 / (1 - c - c * / 10 ^ 8)) (c ^ 100 * (1 + E)) * s / d -> eta <= 1 / 3 ->
  kap = (1 + eta) / (1 - eta) -> (forall m, width m = (1 - d ^ 2) ^ m + (kap - / kap) / d ^ 2) ->
  exists N x, (1 <= N <= 101)%nat /\ x 0%nat = (fun g => guess g / Rabs (norm1 groups guess), norm1 groups guess) /\ x N = (flux, keff) /\
    (forall m, (m < N)%nat -> power_step_0d angles groups wt T X f (x m) = Ok (x (S m))) /\
    ((2 <= N)%nat -> Rabs (keff - k) <= (width (N - 2)%nat + eta) * (kap * k / d ^ 2)) /\
    ((N < 101)%nat -> (1 - eta) * (1 - / 10 ^ 6) / (1 + / 10 ^ 6) * k <= keff <= (1 + eta) * (1 + / 10 ^ 6) / (1 - / 10 ^ 6) * k) /\
    exists t, 0 < t /\ forall g, (g < groups)%nat -> t * phi g <= flux g <= t * (1 + width (N - 1)%nat * kap ^ 2 / d ^ 6) * phi g.
Proof.
  intros Hc Hp Hsm Hs Hg0 Hw0 Ha0 Hlo Hhi HE1 HE2 HE3 Erun eta kap width Eeta Heta3 Ekap Ewidth.
  destruct (power_0d_trace _ _ _ _ _ _ _ _ Erun) as (N & x & HN & H0 & Hl & Hst & _ & Hset).
  pose proof (proj1 Heven) as Hd. set (W := rsum angles wt).
  assert (HT := inf_transport angles groups wt T X HD). fold W in HT.
  assert (Hev2 : even_generation (shade W) groups shade_total (shade_matrix T X) (shade_fission T f) d) by (apply (shade_even angles groups wt T (inf_total angles groups wt T X HD) X f d); exact Heven).
  assert (Hf2 := inf_nonneg angles groups wt T X HD f Hf). fold W in Hf2.
  destruct (generation_operator _ _ _ _ HT (shade_fission T f) d Hf2 Hev2) as (K & HK & K_lin & K_mono & Kh).
  change (cells (shade W)) with 1%nat in *.
  set (L1 := fun v : vec => (fun _ : nat => v) : mat2).
  assert (Gen : forall v, next_generation_0d angles groups wt T X f v (K (L1 v) 0%nat)).
  { intros v. apply (shade_generation angles groups wt T (inf_total angles groups wt T X HD) X f (L1 v) (K (L1 v))). apply HK. }
  assert (Uniq : forall v w g, next_generation_0d angles groups wt T X f v w -> (g < groups)%nat -> w g = K (L1 v) 0%nat g).
  { intros v w g Hw Hg. apply (generation_unique _ _ _ _ HT (shade_fission T f) (L1 v) (L1 w) (K (L1 v)) (inf_gen angles groups wt T X HD f v w Hw) (HK _) 0%nat g); [exact Nat.lt_0_1|exact Hg]. }
  assert (Heig : forall i g, (i < 1)%nat -> (g < groups)%nat -> K (L1 phi) i g = k * L1 phi i g).
  { intros i g Hi Hg. apply (generation_unique _ _ _ _ HT (shade_fission T f) (L1 phi) (K (L1 phi)) (fun i g => k * L1 phi i g) (HK _)); [|exact Hi|exact Hg].
    apply eigenpair_generation; [lra|]. apply (inf_pair angles groups wt T X HD f phi k He). }
  assert (Hphi2 : positive2 1 groups (L1 phi)) by (intros i g _ Hg; apply Hphi; exact Hg).
  assert (E0 : 0 <= E). { assert (0 < d ^ 4) by (apply pow_lt; lra). destruct (Rle_or_lt 0 E) as [L|L]; [exact L|exfalso; nra]. }
  assert (Pp := d0_pos angles groups wt T X c p Hp).
  assert (S0 : 0 < s). { pose proof (Hs 0%nat 0%nat HG HG). pose proof (Pp 0%nat HG). destruct (Rle_or_lt s 0) as [L|L]; [exfalso; nra|exact L]. }
  assert (En : 0 <= eta).
  { rewrite Eeta. apply Rmult_le_pos; [apply Rmult_le_pos; [|lra]|left; apply Rinv_0_lt_compat; lra].
    eapply Rle_trans; [|apply Rmax_r]. apply Rmult_le_pos; [apply pow_le; lra|lra]. }
  assert (Heta : 0 <= eta < 1) by lra.
  assert (KP : 1 <= kap <= 2).
  { rewrite Ekap. split; apply (Rmult_le_reg_r (1 - eta)); try lra; unfold Rdiv; rewrite Rmult_assoc, Rinv_l by lra; lra. }
  assert (DP : 0 < d / kap <= 1) by (rewrite Ekap; exact (d'_pos d Hd eta Heta)).
  assert (DD : d / 2 <= d / kap). { apply Rmult_le_compat_l; [lra|]. apply Rinv_le_contravar; lra. }
  set (L := k / (d * (d / kap))).
  assert (Ng := norm1_positive groups guess HG Hg0). set (N0 := norm1 groups guess) in *.
  assert (Ka : a0 <= k) by (apply (inf_bracket angles groups wt T X HD HG f Hf phi k Hk Hphi He guess w0 a0 b0 Hg0 Hw0); exact Hlo).
  assert (d2 : 0 < d ^ 2 <= 1) by (split; [apply pow_lt; lra|cbn [pow]; nra]).
  assert (Lb : (1 + eta) * L <= E * (k * d * (d / kap))).
  { unfold L. assert (P1 : 0 < d * (d / kap)) by (apply Rmult_lt_0_compat; lra).
    apply (Rmult_le_reg_r (d * (d / kap))); [exact P1|]. replace ((1 + eta) * (k / (d * (d / kap))) * (d * (d / kap))) with ((1 + eta) * k) by (field; lra).
    assert (Q1 : d ^ 2 / 2 <= d * (d / kap)) by (cbn [pow]; nra).
    assert (Q2 : d ^ 4 / 4 <= d * (d / kap) * (d * (d / kap))) by (replace (d ^ 4 / 4) with (d ^ 2 / 2 * (d ^ 2 / 2)) by field; apply Rmult_le_compat; lra).
    replace (E * (k * d * (d / kap)) * (d * (d / kap))) with (k * (E * (d * (d / kap) * (d * (d / kap))))) by ring.
    rewrite (Rmult_comm (1 + eta)). apply Rmult_le_compat_l; [lra|]. assert (E * (d ^ 4 / 4) <= E * (d * (d / kap) * (d * (d / kap)))) by (apply Rmult_le_compat_l; assumption). lra. }
  (* the invariant of the run *)
  set (Inv := fun m => positive1 groups (fst (x m)) /\ 0 < snd (x m) /\ exists a b, 0 < a /\
    (forall g, (g < groups)%nat -> a * fst (x m) g <= K (L1 (fst (x m))) 0%nat g <= b * fst (x m) g) /\ snd (x m) <= E * a /\ (1 + eta) * b <= E * (k * d * (d / kap))).
  assert (I0 : Inv 0%nat).
  { unfold Inv. rewrite H0. cbn [fst snd]. rewrite (Rabs_right N0) by lra.
    assert (Sc : forall g, (g < groups)%nat -> K (L1 (fun g => guess g / N0)) 0%nat g = w0 g / N0).
    { intros g Hg. symmetry. apply (Uniq (fun g => guess g / N0) (fun g => w0 g / N0)); [|exact Hg].
      apply (balance_source_ext angles groups wt T X (fun g => emission_0d groups f guess g / N0)); [|apply (pass_exact_0d angles groups wt T X f HG guess N0 (fun g => emission_0d groups f guess g / N0) w0); [lra|reflexivity|exact Hw0]].
      intros h Hh. unfold emission_0d, Rdiv. rewrite Rmult_comm, <- rsum_scal. apply rsum_ext. intros; ring. }
    split; [intros g Hg; apply Rdiv_lt_0_compat; [apply Hg0; exact Hg|exact Ng]|]. split; [exact Ng|]. exists a0, b0. split; [exact Ha0|]. split; [|split; [exact HE1|]].
    - intros g Hg. rewrite (Sc g Hg). specialize (Hlo g Hg). specialize (Hhi g Hg). cbv beta in Hlo, Hhi. assert (IN : 0 < / N0) by (apply Rinv_0_lt_compat; exact Ng). unfold Rdiv.
      split; rewrite <- Rmult_assoc; apply Rmult_le_compat_r; lra.
    - assert (b00 : 0 <= b0).
      { specialize (Hlo 0%nat HG). specialize (Hhi 0%nat HG). cbv beta in Hlo, Hhi. pose proof (Hg0 0%nat HG). assert (0 < a0 * guess 0%nat) by (apply Rmult_lt_0_compat; assumption). destruct (Rle_or_lt 0 b0) as [Z|Z]; [exact Z|exfalso; nra]. }
      assert (Q1 : d ^ 2 / 2 <= d * (d / kap)) by (cbn [pow]; nra).
      assert (Q2 : a0 * (d ^ 2 / 2) <= k * (d * (d / kap))) by (apply Rmult_le_compat; lra).
      assert (Q3 : E * (a0 * (d ^ 2 / 2)) <= E * (k * (d * (d / kap)))) by (apply Rmult_le_compat_l; assumption).
      replace (E * (k * d * (d / kap))) with (E * (k * (d * (d / kap)))) by ring. nra. }
  assert (Acc1 : forall m, (m < N)%nat -> Inv m -> accurate_solve_0d angles groups wt T X f eta (x m)).
  { intros m Hm (Pm & Km & a & b & Ha & Hab & HEa & _). rewrite Eeta. destruct (x m) as [v kk] eqn:Ex. cbn [fst snd] in *.
    apply (solve_accurate_0d angles groups wt T X f HD HG Hf phi k Hk Hphi He d Heven c p s v kk a E Hc Hp Hsm Hs Pm Km Ha E0 HEa).
    intros w Hw g Hg. rewrite (Uniq v w g Hw Hg). apply Hab. exact Hg. }
  assert (Step : forall m, (m < N)%nat -> Inv m -> Inv (S m) /\ close 1 groups K eta (L1 (fst (x m))) (L1 (fst (x (S m)))) /\
    forall a b, (forall g, (g < groups)%nat -> a * fst (x m) g <= K (L1 (fst (x m))) 0%nat g <= b * fst (x m) g) -> (1 - eta) * a <= snd (x (S m)) <= (1 + eta) * b).
  { intros m Hm Im. assert (A := Acc1 m Hm Im). destruct Im as (Pm & Km & a & b & Ha & Hab & HEa & HEb). assert (Es := Hst m Hm). unfold Inv.
    destruct (x m) as [v kk] eqn:Ex. destruct (x (S m)) as [v' kk'] eqn:Ex'. cbn [fst snd] in *.
    destruct (pass_0d angles groups wt T X f HD HG Hf phi k Hk Hphi He eta v kk v' kk' (K (L1 v) 0%nat) Heta Pm Km Es A (Gen v)) as (raw & Ev & Rp & Rw & Ek).
    pose proof (norm1_positive groups raw HG Rp) as Np. set (Nr := norm1 groups raw) in *.
    assert (Br : forall a b, (forall g, (g < groups)%nat -> a * v g <= K (L1 v) 0%nat g <= b * v g) -> (1 - eta) * a <= kk' <= (1 + eta) * b).
    { intros a' b' Hab'. rewrite Ek. apply (pass_bracket angles groups wt T X f HD HG Hf phi k Hk Hphi He); [exact Pm|]. intros g Hg. specialize (Rw g Hg). specialize (Hab' g Hg). split; nra. }
    assert (Cl : close 1 groups K eta (L1 v) (L1 v')).
    { exists (/ (kk * Nr)). split; [apply Rinv_0_lt_compat, Rmult_lt_0_compat; assumption|]. intros i g Hi Hg. change (L1 v' i g) with (v' g). rewrite Ev. replace i with 0%nat by lia.
      specialize (Rw g Hg). assert (IK : 0 < / (kk * Nr)) by (apply Rinv_0_lt_compat, Rmult_lt_0_compat; assumption).
      replace (raw g / Nr) with (/ (kk * Nr) * (kk * raw g)) by (field; lra). set (q := / (kk * Nr)) in *.
      replace ((1 - eta) * (q * K (L1 v) 0%nat g)) with (q * ((1 - eta) * K (L1 v) 0%nat g)) by ring.
      replace ((1 + eta) * (q * K (L1 v) 0%nat g)) with (q * ((1 + eta) * K (L1 v) 0%nat g)) by ring. split; apply Rmult_le_compat_l; lra. }
    split; [|split; [exact Cl|exact Br]].
    assert (Pv' : positive1 groups v') by (intros g Hg; rewrite Ev; apply Rdiv_lt_0_compat; [apply Rp; exact Hg|exact Np]).
    split; [exact Pv'|].
    assert (Kp : 0 < kk') by (destruct (Br a b Hab) as [B1 _]; assert (0 < (1 - eta) * a) by (apply Rmult_lt_0_compat; lra); lra).
    split; [exact Kp|].
    assert (Hv2 : positive2 1 groups (L1 v)) by (intros i g _ Hg; apply Pm; exact Hg).
    assert (Cr := crude_bracket 1 groups K d K_lin K_mono Hd Kh (L1 phi) k Hk Hphi2 Heig eta Heta (L1 v') ltac:(intros i g _ Hg; apply Pv'; exact Hg)
      (close_harnack 1 groups K d Hd Kh eta Heta (L1 v) (L1 v') Hv2 Cl)).
    rewrite <- Ekap in Cr. fold L in Cr.
    exists (k * d * (d / kap)), L. split; [apply Rmult_lt_0_compat; [apply Rmult_lt_0_compat|]; lra|]. split; [intros g Hg; apply (Cr 0%nat g Nat.lt_0_1 Hg)|]. split; [|exact Lb].
    destruct (Br a b Hab) as [_ B2]. lra. }
  assert (All : forall m, (m <= N)%nat -> Inv m).
  { induction m as [|m IH]; intros Hm; [exact I0|]. apply (Step m ltac:(lia)). apply IH. lia. }
  exists N, x. split; [exact HN|]. split; [exact H0|]. split; [symmetry; exact Hl|]. split; [exact Hst|].
  assert (Tr := tight_run 1 groups K d Nat.lt_0_1 HG K_lin K_mono Hd Kh (L1 phi) k Hk Hphi2 Heig eta Heta (fun m => L1 (fst (x m))) N
    ltac:(intros i g _ Hg; apply I0; exact Hg) ltac:(intros m Hm; apply (Step m Hm); apply All; lia)).
  rewrite <- Ekap in Tr. fold L in Tr.
  assert (EL : L = kap * k / d ^ 2) by (unfold L; field; split; lra).
  assert (LP : 0 < kap * k / d ^ 2) by (apply Rdiv_lt_0_compat; [apply Rmult_lt_0_compat|]; lra).
  assert (Hf1 : flux = fst (x N)) by (rewrite <- Hl; reflexivity). assert (Hk1 : keff = snd (x N)) by (rewrite <- Hl; reflexivity).
  split; [|split].
  - intros H2. destruct (Tr (N - 2)%nat ltac:(lia)) as (Pm & a & b & A & Kab & BL & Wd & Bt). rewrite <- Ekap in A, BL. fold L in BL. rewrite EL in BL, Wd.
    rewrite <- Ewidth in Wd. destruct (Step (S (N - 2))%nat ltac:(lia) (All (S (N - 2))%nat ltac:(lia))) as (_ & _ & Br).
    destruct (Br a b ltac:(intros g Hg; apply (Bt 0%nat g Nat.lt_0_1 Hg))) as [C1 C2]. replace (S (S (N - 2))) with N in C1, C2 by lia. rewrite <- Hk1 in C1, C2.
    assert (0 <= a). { eapply Rle_trans; [|exact A]. left. apply Rmult_lt_0_compat; [apply Rmult_lt_0_compat|]; lra. }
    assert (eta * a <= eta * (kap * k / d ^ 2)) by (apply Rmult_le_compat_l; lra).
    assert (eta * b <= eta * (kap * k / d ^ 2)) by (apply Rmult_le_compat_l; lra).
    rewrite Rmult_plus_distr_r. unfold Rabs. destruct (Rcase_abs _); lra.
  - intros HN2. specialize (Hset HN2). assert (t6 : 0 < / 10 ^ 6 < 1) by (split; [apply Rinv_0_lt_compat, pow_lt; lra|rewrite <- Rinv_1; apply Rinv_lt_contravar; lra]).
    assert (Es := Hst (N - 1)%nat ltac:(lia)). assert (A := Acc1 (N - 1)%nat ltac:(lia) (All (N - 1)%nat ltac:(lia))).
    destruct (All (N - 1)%nat ltac:(lia)) as (Pm & Km & _). replace (S (N - 1)) with N in Es by lia. rewrite <- Hl in Es, Hset.
    destruct (x (N - 1)%nat) as [v kk]. cbn [fst snd] in *.
    apply (settled_pass_0d angles groups wt T X f HD HG Hf phi k Hk Hphi He eta (/ 10 ^ 6) v kk flux keff Heta ltac:(lra) Pm Km Es A Hset).
  - destruct (Tr (N - 1)%nat ltac:(lia)) as (Pm & a & b & A & Kab & BL & Wd & Bt). rewrite <- Ekap in A, BL. fold L in BL. rewrite EL in BL, Wd.
    rewrite <- Ewidth in Wd. cbv beta in Pm, Bt. replace (S (N - 1)) with N in Pm, Bt by lia. rewrite <- Hf1 in Pm, Bt.
    assert (A0 : 0 < k * d * (d / kap)) by (apply Rmult_lt_0_compat; [apply Rmult_lt_0_compat|]; lra).
    assert (Ha : 0 < a) by lra.
    destruct (bracket_flux 1 groups K d Nat.lt_0_1 HG K_lin K_mono Hd Kh (L1 phi) k Hk Hphi2 Heig _ a b Pm Ha Bt) as (t & Ht & Fx).
    exists t. split; [exact Ht|]. intros g Hg. destruct (Fx 0%nat g Nat.lt_0_1 Hg) as [F1 F2]. split; [exact F1|].
    eapply Rle_trans; [exact F2|]. apply Rmult_le_compat_r; [left; apply Hphi; exact Hg|]. apply Rmult_le_compat_l; [lra|]. apply Rplus_le_compat_l.
    assert (Wn : 0 <= width (N - 1)%nat). { apply (Rmult_le_reg_r (kap * k / d ^ 2)); [exact LP|]. lra. }
    apply (Rmult_le_reg_r (a * d ^ 2)); [apply Rmult_lt_0_compat; lra|].
    replace ((b - a) / (a * d ^ 2) * (a * d ^ 2)) with (b - a) by (field; split; lra).
    eapply Rle_trans; [exact Wd|].
    replace (width (N - 1)%nat * (kap * k / d ^ 2)) with (width (N - 1)%nat * kap ^ 2 / d ^ 6 * (k * d * (d / kap) * d ^ 2)) by (field; split; lra).
    apply Rmult_le_compat_l; [|apply Rmult_le_compat_r; lra].
    apply Rmult_le_pos; [apply Rmult_le_pos; [exact Wn|apply pow2_ge_0]|left; apply Rinv_0_lt_compat, pow_lt; lra].
Qed.
End Medium.
