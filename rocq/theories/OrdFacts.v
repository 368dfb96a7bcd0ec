(** Norms and time truncation. *)
From Coq Require Import Lra Lia Psatz.
From Verif Require Import Base BaseFacts SlabModel SlabSpec MgModel MgSpec MgFacts2 TimeModel TimeSpec ManFacts ConvSpec ConvFacts EnSpec EnFacts EnFacts2 EnFacts3 EnFacts4 OrdSpec.
Open Scope R_scope.

Section Norms.
Variables (P : sn) (G : nat) (velocity : vec).
Hypothesis HP : sound_slab P.
Hypothesis HV : forall g, (g < G)%nat -> 0 < velocity g.

Lemma density_ext a b : (forall i m g, (i < cells P)%nat -> (m < angles P)%nat -> (g < G)%nat -> a i m g = b i m g) ->
  density_norm P G velocity a = density_norm P G velocity b.
Proof. intros H. unfold density_norm. f_equal. apply total3_ext; intros. rewrite H by assumption. reflexivity. Qed.
Lemma source_ext a b : (forall i m g, (i < cells P)%nat -> (m < angles P)%nat -> (g < G)%nat -> a i m g = b i m g) ->
  source_norm P G velocity a = source_norm P G velocity b.
Proof. intros H. unfold source_norm. f_equal. apply total3_ext; intros. rewrite H by assumption. reflexivity. Qed.
Lemma density_le a b : (forall i m g, (i < cells P)%nat -> (m < angles P)%nat -> (g < G)%nat -> Rabs (a i m g) <= b i m g) ->
  density_norm P G velocity a <= density_norm P G velocity b.
Proof.
  intros H. unfold density_norm. apply sqrt_le_1_alt. apply total3_le. intros i m g Hi Hm Hg.
  pose proof (weight_nonneg P G velocity HP HV i m g Hi Hm Hg) as W.
  assert (S : Rsqr (a i m g) <= Rsqr (b i m g)).
  { apply Rsqr_le_abs_1. eapply Rle_trans; [apply H; assumption|]. apply Rle_abs. }
  unfold Rdiv in *. replace (dx P i * wt P m * Rsqr (a i m g) * / velocity g) with (dx P i * wt P m * / velocity g * Rsqr (a i m g)) by ring.
  replace (dx P i * wt P m * Rsqr (b i m g) * / velocity g) with (dx P i * wt P m * / velocity g * Rsqr (b i m g)) by ring.
  apply Rmult_le_compat_l; assumption.
Qed.
Lemma density_plus a b : density_norm P G velocity (fun i m g => a i m g + b i m g) <= density_norm P G velocity a + density_norm P G velocity b.
Proof.
  apply Rsqr_incr_0_var; [|apply Rplus_le_le_0_compat; apply norm_nonneg].
  rewrite (norm_sq P G velocity HP HV). unfold Rsqr.
  pose proof (norm_sq P G velocity HP HV a) as Ea. pose proof (norm_sq P G velocity HP HV b) as Eb. unfold Rsqr in Ea, Eb.
  pose proof (ip_cauchy P G velocity HP HV a b) as C.
  assert (X : ip P G velocity (fun i m g => a i m g + b i m g) (fun i m g => a i m g + b i m g) = ip P G velocity a a + 2 * ip P G velocity a b + ip P G velocity b b).
  { unfold ip. rewrite <- (total3_scal P G 2), <- !total3_plus. apply total3_ext; intros. ring. }
  rewrite X. nra.
Qed.
Lemma density_scal c a : 0 <= c -> density_norm P G velocity (fun i m g => c * a i m g) = c * density_norm P G velocity a.
Proof.
  intros Hc. unfold density_norm. set (n := sqrt (total3 P G (fun i m g => dx P i * wt P m * Rsqr (a i m g) / velocity g))).
  replace (c * n) with (sqrt (c * c) * n) by (rewrite sqrt_square by exact Hc; reflexivity). unfold n.
  rewrite <- sqrt_mult_alt by (apply Rmult_le_pos; exact Hc). f_equal. rewrite <- total3_scal. apply total3_ext; intros. unfold Rsqr, Rdiv. ring.
Qed.
Lemma source_density a : source_norm P G velocity a = density_norm P G velocity (fun i m g => velocity g * a i m g).
Proof.
  unfold source_norm, density_norm. f_equal. apply total3_ext; intros i m g Hi Hm Hg. specialize (HV g Hg). unfold Rsqr. field. lra.
Qed.
Lemma source_plus a b : source_norm P G velocity (fun i m g => a i m g + b i m g) <= source_norm P G velocity a + source_norm P G velocity b.
Proof.
  rewrite !source_density. eapply Rle_trans; [|apply density_plus]. apply Req_le, density_ext; intros. ring.
Qed.
Lemma source_le a b : (forall i m g, (i < cells P)%nat -> (m < angles P)%nat -> (g < G)%nat -> Rabs (a i m g) <= b i m g) ->
  source_norm P G velocity a <= source_norm P G velocity b.
Proof.
  intros H. rewrite !source_density. apply density_le. intros i m g Hi Hm Hg. pose proof (HV g Hg) as V.
  rewrite Rabs_mult, (Rabs_right (velocity g)) by lra. apply Rmult_le_compat_l; [lra|]. apply H; assumption.
Qed.
Lemma source_scal c a : 0 <= c -> source_norm P G velocity (fun i m g => c * a i m g) = c * source_norm P G velocity a.
Proof.
  intros Hc. rewrite !source_density, <- density_scal by exact Hc. apply density_ext; intros. ring.
Qed.
Lemma source_opp a : source_norm P G velocity (fun i m g => - a i m g) = source_norm P G velocity a.
Proof. unfold source_norm. f_equal. apply total3_ext; intros. rewrite <- Rsqr_neg. reflexivity. Qed.
Lemma source_over a c : 0 <= c -> (forall i m g, (i < cells P)%nat -> (m < angles P)%nat -> (g < G)%nat -> Rabs (a i m g) <= c) ->
  source_norm P G velocity (fun i m g => a i m g / velocity g) <= c * density_norm P G velocity unit_flux.
Proof.
  intros Hc H. rewrite source_density, <- density_scal by exact Hc. apply density_le. intros i m g Hi Hm Hg.
  pose proof (HV g Hg). replace (velocity g * (a i m g / velocity g)) with (a i m g) by (field; lra). unfold unit_flux. rewrite Rmult_1_r. apply H; assumption.
Qed.
End Norms.

(** *** backward differences of a smooth function *)
Lemma euler_truncation a b M2 f f1 t h : twice_smooth a b M2 f f1 -> 0 < h -> a <= t - h -> t <= b ->
  Rabs ((f t - f (t - h)) / h - f1 t) <= M2 / 2 * h.
Proof.
  intros (f2 & H) Hh Ha Hb.
  assert (I : forall s, 0 <= s <= h -> a <= t - s <= b) by (intros; lra).
  assert (PM : 0 <= M2). { destruct (H t ltac:(lra)) as (_ & _ & B). pose proof (Rabs_pos (f2 t)). lra. }
  assert (B1 : forall s, 0 <= s <= h -> Rabs (f1 (t - s) - f1 t) <= M2 * s ^ 1).
  { intros s Hs. replace (M2 * s ^ 1) with (M2 * s ^ 1 / 1) by field.
    pose proof (grow (fun s => f1 (t - s) - f1 t) (fun s => - f2 (t - s) - 0) M2 0 s ltac:(lra) PM) as G. cbn [INR] in G. apply G.
    - rewrite Rminus_0_r. ring.
    - intros r Hr. destruct (H _ (I r ltac:(lra))) as (_ & D & B). split.
      + apply dl_minus; [now apply dl_down|apply dl_const].
      + rewrite pow_O, Rminus_0_r, Rabs_Ropp. lra. }
  pose proof (grow (fun s => f t - f (t - s) - s * f1 t) (fun s => 0 - - f1 (t - s) - f1 t) M2 1 h ltac:(lra) PM) as G.
  cbn [INR] in G. replace (1 + 1) with 2 in G by ring.
  assert (K : Rabs (f t - f (t - h) - h * f1 t) <= M2 * h ^ 2 / 2).
  { apply G.
    - rewrite Rminus_0_r. ring.
    - intros s Hs. destruct (H _ (I s Hs)) as (D & _). split.
      + apply dl_minus; [apply dl_minus; [apply dl_const|now apply dl_down]|].
        eapply dl_eq; [apply dl_mult; [apply dl_id|apply dl_const]|]. cbv beta. ring.
      + replace (0 - - f1 (t - s) - f1 t) with (f1 (t - s) - f1 t) by ring. apply B1, Hs. }
  replace ((f t - f (t - h)) / h - f1 t) with ((f t - f (t - h) - h * f1 t) / h) by (field; lra).
  unfold Rdiv at 1. rewrite Rabs_mult, (Rabs_right (/ h)) by (left; apply Rlt_gt, Rinv_0_lt_compat, Hh).
  apply Rmult_le_reg_r with h; [exact Hh|]. rewrite Rmult_assoc, Rinv_l by lra. lra.
Qed.

Lemma back_taylor a b M2 M3 f f1 f2 f3 t h :
  (forall t, a <= t <= b -> derivable_pt_lim f t (f1 t) /\ derivable_pt_lim f1 t (f2 t) /\ derivable_pt_lim f2 t (f3 t) /\ Rabs (f2 t) <= M2 /\ Rabs (f3 t) <= M3) ->
  0 <= h -> a <= t - h -> t <= b ->
  Rabs (f (t - h) - f t + h * f1 t - h ^ 2 / 2 * f2 t) <= M3 * h ^ 3 / 6.
Proof.
  intros H Hh Ha Hb.
  assert (I : forall s, 0 <= s <= h -> a <= t - s <= b) by (intros; lra).
  assert (PM : 0 <= M3). { destruct (H t ltac:(lra)) as (_ & _ & _ & _ & B). pose proof (Rabs_pos (f3 t)). lra. }
  assert (B2 : forall s, 0 <= s <= h -> Rabs (f2 (t - s) - f2 t) <= M3 * s ^ 1).
  { intros s Hs. replace (M3 * s ^ 1) with (M3 * s ^ 1 / 1) by field.
    pose proof (grow (fun s => f2 (t - s) - f2 t) (fun s => - f3 (t - s) - 0) M3 0 s ltac:(lra) PM) as G. cbn [INR] in G. apply G.
    - rewrite Rminus_0_r. ring.
    - intros r Hr. destruct (H _ (I r ltac:(lra))) as (_ & _ & D & _ & B). split.
      + apply dl_minus; [now apply dl_down|apply dl_const].
      + rewrite pow_O, Rminus_0_r, Rabs_Ropp. lra. }
  assert (B1 : forall s, 0 <= s <= h -> Rabs (f1 t - f1 (t - s) - s * f2 t) <= M3 / 2 * s ^ 2).
  { intros s Hs. replace (M3 / 2 * s ^ 2) with (M3 * s ^ 2 / 2) by field.
    pose proof (grow (fun s => f1 t - f1 (t - s) - s * f2 t) (fun s => 0 - - f2 (t - s) - f2 t) M3 1 s ltac:(lra) PM) as G.
    cbn [INR] in G. replace (1 + 1) with 2 in G by ring. apply G.
    - rewrite Rminus_0_r. ring.
    - intros r Hr. destruct (H _ (I r ltac:(lra))) as (_ & D & _). split.
      + apply dl_minus; [apply dl_minus; [apply dl_const|now apply dl_down]|].
        eapply dl_eq; [apply dl_mult; [apply dl_id|apply dl_const]|]. cbv beta. ring.
      + replace (0 - - f2 (t - r) - f2 t) with (f2 (t - r) - f2 t) by ring. apply B2. lra. }
  pose proof (grow (fun s => f (t - s) - f t + s * f1 t - s ^ 2 / 2 * f2 t) (fun s => - f1 (t - s) - 0 + f1 t - s * f2 t) (M3 / 2) 2 h Hh ltac:(lra)) as G.
  cbn [INR] in G. replace (1 + 1 + 1) with 3 in G by ring. replace (M3 * h ^ 3 / 6) with (M3 / 2 * h ^ 3 / 3) by field. apply G.
  - rewrite Rminus_0_r. field.
  - intros s Hs. destruct (H _ (I s Hs)) as (D & _). split.
    + apply dl_minus; [apply dl_plus; [apply dl_minus; [now apply dl_down|apply dl_const]|]|].
      * eapply dl_eq; [apply dl_mult; [apply dl_id|apply dl_const]|]. cbv beta. ring.
      * eapply dl_eq; [apply dl_mult; [apply dl_div; apply dl_sq; apply dl_id|apply dl_const]|]. cbv beta. field.
    + replace (- f1 (t - s) - 0 + f1 t - s * f2 t) with (f1 t - f1 (t - s) - s * f2 t) by ring. apply B1, Hs.
Qed.

Lemma bdf2_truncation a b M2 M3 f f1 t h : thrice_smooth a b M2 M3 f f1 -> 0 < h -> a <= t - 2 * h -> t <= b ->
  Rabs ((3 * f t - 4 * f (t - h) + f (t - 2 * h)) / (2 * h) - f1 t) <= M3 * h ^ 2.
Proof.
  intros (f2 & f3 & H) Hh Ha Hb.
  pose proof (back_taylor a b M2 M3 f f1 f2 f3 t h H ltac:(lra) ltac:(lra) Hb) as A.
  pose proof (back_taylor a b M2 M3 f f1 f2 f3 t (2 * h) H ltac:(lra) ltac:(lra) Hb) as B.
  replace ((3 * f t - 4 * f (t - h) + f (t - 2 * h)) / (2 * h) - f1 t)
    with ((- 4 * (f (t - h) - f t + h * f1 t - h ^ 2 / 2 * f2 t) + (f (t - 2 * h) - f t + 2 * h * f1 t - (2 * h) ^ 2 / 2 * f2 t)) / (2 * h)) by (field; lra).
  set (u := f (t - h) - _ + _ - _) in *. set (v := f (t - 2 * h) - _ + _ - _) in *. clearbody u v.
  unfold Rdiv at 1. rewrite Rabs_mult, (Rabs_right (/ (2 * h))) by (left; apply Rlt_gt, Rinv_0_lt_compat; lra).
  apply Rmult_le_reg_r with (2 * h); [lra|]. rewrite Rmult_assoc, Rinv_l, Rmult_1_r by lra.
  apply abs_bounds in A, B. apply Rabs_le. replace (M3 * (2 * h) ^ 3 / 6) with (8 * (M3 * h ^ 3 / 6)) in B by field.
  replace (M3 * h ^ 2 * (2 * h)) with (12 * (M3 * h ^ 3 / 6)) by field. lra.
Qed.
Lemma thrice_twice a b M2 M3 f f1 : thrice_smooth a b M2 M3 f f1 -> twice_smooth a b M2 f f1.
Proof. intros (f2 & f3 & H). exists f2. intros t Ht. destruct (H t Ht) as (A & B & _ & C & _). auto. Qed.
