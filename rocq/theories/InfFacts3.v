(** Infinite media with a fission matrix: power iteration with inexact solves. *)
From Coq Require Import Lra Lia Psatz FunctionalExtensionality.
From Verif Require Import Base BaseFacts SlabModel SlabSpec MgModel MgSpec SupSpec SupFacts CritModel CritSpec CritFacts3 CritFacts4 CritFacts5 CritFacts6 CritFacts7 CritFacts8 CritFacts9 CritFacts10 CritFacts11 InfSpec InfFacts InfFacts2.
Open Scope R_scope.

Lemma norm1_nonneg n v : 0 <= norm1 n v.
Proof. apply sqrt_pos. Qed.
Lemma norm1_positive n v : (0 < n)%nat -> positive1 n v -> 0 < norm1 n v.
Proof.
  intros Hn Hv. destruct (Rle_lt_or_eq_dec 0 _ (norm1_nonneg n v)) as [L|L]; [exact L|exfalso]. symmetry in L. unfold norm1 in L.
  apply sqrt_eq_0 in L; [|apply rsum_nonneg; intros; apply Rle_0_sqr].
  pose proof (rsum_term_le n (fun g => Rsqr (v g)) 0%nat ltac:(intros; apply Rle_0_sqr) Hn) as B. cbv beta in B. rewrite L in B.
  pose proof (Hv 0%nat Hn). unfold Rsqr in B. nra.
Qed.

Section Medium.
Variables (angles groups : nat) (wt T : vec) (X : mat2) (f : fission_0d).
Hypothesis HD : damped_0d angles groups wt T X.
Hypothesis HG : (0 < groups)%nat.
Hypothesis Hf : nonneg_fission_0d groups f.

Lemma production_0d_mono v w : below1 groups v w -> production_0d groups f v <= production_0d groups f w.
Proof. intros H. apply rsum_le. intros o Ho. apply rsum_le. intros h Hh. apply Rmult_le_compat_l; [apply Hf; assumption|apply H; exact Hh]. Qed.
Lemma emission_0d_scale c v o : emission_0d groups f (fun g => c * v g) o = c * emission_0d groups f v o.
Proof. unfold emission_0d. rewrite <- rsum_scal. apply rsum_ext. intros; ring. Qed.
Lemma production_0d_scale c v : production_0d groups f (fun g => c * v g) = c * production_0d groups f v.
Proof. unfold production_0d. rewrite <- rsum_scal. apply rsum_ext. intros. apply emission_0d_scale. Qed.

Lemma pass_exact_0d v kap source w : kap <> 0 ->
  (forall g, (g < groups)%nat -> source g = emission_0d groups f v g / kap) ->
  next_generation_0d angles groups wt T X f v w ->
  balance_0d angles groups wt T X 1 (mkArr2 groups (fun _ g => source g)) (fun g => w g / kap).
Proof.
  intros Hk Hs Hw. apply (balance_source_ext angles groups wt T X (fun g => emission_0d groups f v g / kap) source); [intros g Hg; symmetry; apply Hs; exact Hg|].
  intros g Hg. specialize (Hw g Hg). cbn [at2 cols2] in *.
  assert (B : bidx groups g = g) by (unfold bidx; destruct (Nat.eqb_spec groups 1); [lia|reflexivity]). rewrite !B in *.
  replace (T g * (w g / kap)) with (/ kap * (T g * w g)) by (field; exact Hk). rewrite Hw, <- rsum_scal. apply rsum_ext. intros m _.
  replace (rsum groups (fun h => X g h * (w h / kap))) with (/ kap * rsum groups (fun h => X g h * w h)); [unfold Rdiv; ring|].
  rewrite <- rsum_scal. apply rsum_ext. intros; unfold Rdiv; ring.
Qed.

Variables (phi : vec) (k : R).
Hypothesis Hk : 0 < k.
Hypothesis Hphi : positive1 groups phi.
Hypothesis He : eigenpair_0d angles groups wt T X f phi k.

Lemma generation_0d_exists v : exists w, next_generation_0d angles groups wt T X f v w.
Proof.
  destruct (generation_exists _ _ _ _ (inf_transport angles groups wt T X HD) (shade_fission T f) (fun _ => v)) as [w Hw].
  exists (w 0%nat). apply (shade_generation angles groups wt T (inf_total angles groups wt T X HD) X f (fun _ => v) w). exact Hw.
Qed.

(** a positive flux is followed by a positive flux *)
Lemma generation_0d_positive v w : positive1 groups v -> next_generation_0d angles groups wt T X f v w -> positive1 groups w.
Proof.
  intros Hv Hw g Hg.
  destruct (vec_ratio_max groups phi v HG Hv) as (r & j & Hj & Ej & Hr). cbv beta in *.
  assert (r0 : 0 < r) by (pose proof (Hv j Hj); pose proof (Hphi j Hj); nra).
  assert (P2 := generation_mono _ _ _ _ (inf_transport angles groups wt T X HD) (shade_fission T f) (fun _ => phi) (fun _ g => r * v g) (fun _ g => k * phi g) (fun _ g => r * w g)
    (inf_nonneg angles groups wt T X HD f Hf)).
  assert (Q : k * phi g <= r * w g).
  { apply (P2 ltac:(intros i h _ Hh; apply Hr; exact Hh)) with (i := 0%nat); [| |exact Nat.lt_0_1|exact Hg].
    - apply (eigenpair_generation _ _ _ _ _ (fun _ => phi)); [lra|]. apply (inf_pair angles groups wt T X HD f phi k He).
    - apply (generation_scale _ _ _ _ _ (fun _ => v) (fun _ => w) r). apply (inf_gen angles groups wt T X HD f v w Hw). }
  assert (0 < k * phi g) by (apply Rmult_lt_0_compat; [exact Hk|apply Hphi; exact Hg]). nra.
Qed.

Lemma production_0d_positive v : positive1 groups v -> 0 < production_0d groups f v.
Proof.
  intros Hv. assert (NE : forall o, (o < groups)%nat -> 0 <= emission_0d groups f v o).
  { intros o Ho. apply rsum_nonneg. intros h Hh. apply Rmult_le_pos; [apply Hf; assumption|left; apply Hv; exact Hh]. }
  destruct (Rle_dec (production_0d groups f v) 0) as [L|L]; [exfalso|lra].
  assert (Z : forall o, (o < groups)%nat -> emission_0d groups f v o = 0).
  { intros o Ho. apply Rle_antisym; [|apply NE; exact Ho]. eapply Rle_trans; [|exact L]. apply (rsum_term_le groups (emission_0d groups f v) o NE Ho). }
  destruct (generation_0d_exists v) as [w Hw].
  assert (E := generation_unique _ _ _ _ (inf_transport angles groups wt T X HD) (shade_fission T f) (fun _ => v) (fun _ => w) (fun _ _ => 0) (inf_gen angles groups wt T X HD f v w Hw)).
  assert (E0 : w 0%nat = 0).
  { apply (E ltac:(apply (inf_gen angles groups wt T X HD f v (fun _ => 0)); intros g Hg; cbn [at2 cols2];
      rewrite Rmult_0_r; symmetry; apply rsum_zero_ext; intros m _;
      replace (rsum groups (fun h => X g h * 0)) with 0 by (symmetry; apply rsum_zero_ext; intros; ring);
      unfold bidx; destruct (Nat.eqb_spec groups 1) as [B|B]; rewrite Z by lia; ring) 0%nat 0%nat); [exact Nat.lt_0_1|exact HG]. }
  pose proof (generation_0d_positive v w Hv Hw 0%nat HG). lra.
Qed.

(** *** one pass *)
Lemma pass_0d eta v kap v' kap' w : 0 <= eta < 1 -> positive1 groups v -> 0 < kap ->
  power_step_0d angles groups wt T X f (v, kap) = Ok (v', kap') -> accurate_solve_0d angles groups wt T X f eta (v, kap) ->
  next_generation_0d angles groups wt T X f v w ->
  exists raw, (forall g, v' g = raw g / norm1 groups raw) /\ positive1 groups raw /\
    (forall g, (g < groups)%nat -> (1 - eta) * w g <= kap * raw g <= (1 + eta) * w g) /\
    kap' = kap * production_0d groups f raw / production_0d groups f v.
Proof.
  intros Heta Hv Hkap E Acc Hw. destruct (power_step_0d_spec _ _ _ _ _ _ _ _ _ _ E) as (source & raw & Hs & Er & Ek & Ev & _).
  exists raw. split; [exact Ev|].
  assert (Hx := pass_exact_0d v kap source w ltac:(lra) Hs Hw).
  specialize (Acc source raw _ Hs Er Hx). cbv beta in Acc.
  assert (Wp := generation_0d_positive v w Hv Hw).
  assert (Rw : forall g, (g < groups)%nat -> (1 - eta) * w g <= kap * raw g <= (1 + eta) * w g).
  { intros g Hg. specialize (Acc g Hg).
    assert (Q : Rabs (kap * raw g - w g) <= eta * w g).
    { replace (kap * raw g - w g) with (kap * (raw g - w g / kap)) by (field; lra). rewrite Rabs_mult, (Rabs_right kap) by lra.
      replace (eta * w g) with (kap * (eta * (w g / kap))) by (field; lra). apply Rmult_le_compat_l; lra. }
    unfold Rabs in Q. destruct (Rcase_abs _) in Q; lra. }
  split; [|split; [exact Rw|exact Ek]]. intros g Hg. destruct (Rw g Hg) as [A _]. pose proof (Wp g Hg).
  assert (0 < (1 - eta) * w g) by (apply Rmult_lt_0_compat; lra). nra.
Qed.
Lemma pass_bracket v kap raw a b : positive1 groups v ->
  (forall g, (g < groups)%nat -> a * v g <= kap * raw g <= b * v g) ->
  a <= kap * production_0d groups f raw / production_0d groups f v <= b.
Proof.
  intros Hv Hb. pose proof (production_0d_positive v Hv) as Pv.
  assert (B1 : production_0d groups f (fun g => a * v g) <= production_0d groups f (fun g => kap * raw g)) by (apply production_0d_mono; intros g Hg; apply Hb; exact Hg).
  assert (B2 : production_0d groups f (fun g => kap * raw g) <= production_0d groups f (fun g => b * v g)) by (apply production_0d_mono; intros g Hg; apply Hb; exact Hg).
  rewrite !production_0d_scale in B1, B2.
  split; apply (Rmult_le_reg_r (production_0d groups f v)); try exact Pv;
    replace (kap * production_0d groups f raw / production_0d groups f v * production_0d groups f v) with (kap * production_0d groups f raw) by (field; lra); lra.
Qed.

(** *** a settled pass certifies its k *)
Theorem settled_pass_0d eta t v kap v' kap' : 0 <= eta < 1 -> 0 <= t < 1 -> positive1 groups v -> 0 < kap ->
  power_step_0d angles groups wt T X f (v, kap) = Ok (v', kap') -> accurate_solve_0d angles groups wt T X f eta (v, kap) ->
  settled0 groups v' v t ->
  (1 - eta) * (1 - t) / (1 + t) * k <= kap' <= (1 + eta) * (1 + t) / (1 - t) * k.
Proof.
  intros Heta Ht Hv Hkap E Acc Hset. destruct (generation_0d_exists v) as [w Hw].
  destruct (pass_0d eta v kap v' kap' w Heta Hv Hkap E Acc Hw) as (raw & Ev & Rp & Rw & Ek).
  pose proof (norm1_positive groups raw HG Rp) as Np. set (N := norm1 groups raw) in *.
  assert (C : forall g, (g < groups)%nat -> (1 - t) * raw g <= N * v g <= (1 + t) * raw g).
  { intros g Hg. pose proof (settled0_close groups v' v t g (proj1 Ht) Hset Hg) as Q. rewrite Ev in Q.
    assert (P1 : 0 < raw g / N) by (apply Rdiv_lt_0_compat; [apply Rp; exact Hg|exact Np]). rewrite (Rabs_right (raw g / N)) in Q by lra.
    assert (Q1 : (1 - t) * (raw g / N) <= v g <= (1 + t) * (raw g / N)) by (unfold Rabs in Q; destruct (Rcase_abs _) in Q; lra).
    destruct Q1 as [Q1 Q2]. apply (Rmult_le_compat_l N) in Q1; [|lra]. apply (Rmult_le_compat_l N) in Q2; [|lra].
    replace (N * ((1 - t) * (raw g / N))) with ((1 - t) * raw g) in Q1 by (field; lra).
    replace (N * ((1 + t) * (raw g / N))) with ((1 + t) * raw g) in Q2 by (field; lra). split; assumption. }
  set (a := kap * N / (1 + t)). set (b := kap * N / (1 - t)).
  assert (AB : forall g, (g < groups)%nat -> a * v g <= kap * raw g <= b * v g).
  { intros g Hg. destruct (C g Hg) as [C1 C2]. unfold a, b. split.
    - apply (Rmult_le_reg_r (1 + t)); [lra|]. replace (kap * N / (1 + t) * v g * (1 + t)) with (kap * (N * v g)) by (field; lra). nra.
    - apply (Rmult_le_reg_r (1 - t)); [lra|]. replace (kap * N / (1 - t) * v g * (1 - t)) with (kap * (N * v g)) by (field; lra). nra. }
  destruct (pass_bracket v kap raw a b Hv AB) as [B1 B2]. rewrite <- Ek in B1, B2.
  assert (KA : a <= (1 + eta) * k).
  { destruct (inf_bracket angles groups wt T X HD HG f Hf phi k Hk Hphi He v w (a / (1 + eta)) 0 Hv Hw) as [A _].
    assert (H : a / (1 + eta) <= k).
    { apply A. intros g Hg. specialize (Rw g Hg). specialize (AB g Hg). apply (Rmult_le_reg_l (1 + eta)); [lra|].
      replace ((1 + eta) * (a / (1 + eta) * v g)) with (a * v g) by (field; lra). lra. }
    apply (Rmult_le_compat_l (1 + eta)) in H; [|lra]. replace ((1 + eta) * (a / (1 + eta))) with a in H by (field; lra). exact H. }
  assert (KB : (1 - eta) * k <= b).
  { destruct (inf_bracket angles groups wt T X HD HG f Hf phi k Hk Hphi He v w 0 (b / (1 - eta)) Hv Hw) as [_ A].
    assert (H : k <= b / (1 - eta)).
    { apply A. intros g Hg. specialize (Rw g Hg). specialize (AB g Hg). apply (Rmult_le_reg_l (1 - eta)); [lra|].
      replace ((1 - eta) * (b / (1 - eta) * v g)) with (b * v g) by (field; lra). lra. }
    apply (Rmult_le_compat_l (1 - eta)) in H; [|lra]. replace ((1 - eta) * (b / (1 - eta))) with b in H by (field; lra). exact H. }
  split.
  - eapply Rle_trans; [|exact B1]. replace a with ((1 - t) / (1 + t) * b) by (unfold a, b; field; lra).
    replace ((1 - eta) * (1 - t) / (1 + t) * k) with ((1 - t) / (1 + t) * ((1 - eta) * k)) by (field; lra).
    apply Rmult_le_compat_l; [|exact KB]. apply Rmult_le_pos; [lra|left; apply Rinv_0_lt_compat; lra].
  - eapply Rle_trans; [exact B2|]. replace b with ((1 + t) / (1 - t) * a) by (unfold a, b; field; lra).
    replace ((1 + eta) * (1 + t) / (1 - t) * k) with ((1 + t) / (1 - t) * ((1 + eta) * k)) by (field; lra).
    apply Rmult_le_compat_l; [|exact KA]. apply Rmult_le_pos; [lra|left; apply Rinv_0_lt_compat; lra].
Qed.

(** *** accuracy of one solve, whichever way it stops *)
Variable d : R.
Hypothesis Heven : even_generation_0d angles groups wt T X f d.

Lemma solve_accurate_0d c p s v kap a E : 0 <= c < 1 -> damping_0d angles groups wt T X c p -> c * / 10 ^ 8 < 1 - c ->
  (forall g h, (g < groups)%nat -> (h < groups)%nat -> p g <= s * p h) ->
  positive1 groups v -> 0 < kap -> 0 < a -> 0 <= E -> kap <= E * a ->
  (forall w, next_generation_0d angles groups wt T X f v w -> below1 groups (fun g => a * v g) w) ->
  accurate_solve_0d angles groups wt T X f (Rmax (c * / 10 ^ 8 / (1 - c - c * / 10 ^ 8)) (c ^ 100 * (1 + E)) * s / d) (v, kap).
Proof.
  intros Hc Hp Hsm Hs Hv Hkap Ha HE HkE Hlow source raw exact Hsrc Er Hex g Hg. cbn [fst snd] in Hsrc, Er.
  destruct (generation_0d_exists v) as [w Hw]. specialize (Hlow w Hw). assert (Wp := generation_0d_positive v w Hv Hw).
  assert (Pp := d0_pos angles groups wt T X c p Hp).
  pose proof (proj1 Heven) as Hd.
  (* the exact solution is w / kap *)
  assert (Ex : forall h, (h < groups)%nat -> exact h = w h / kap).
  { assert (Gen : next_generation_0d angles groups wt T X f (fun g => / kap * v g) exact).
    { unfold next_generation_0d. apply (balance_source_ext angles groups wt T X source); [|exact Hex].
      intros h Hh. rewrite emission_0d_scale, Hsrc by exact Hh. unfold Rdiv. ring. }
    assert (Gen2 : next_generation_0d angles groups wt T X f (fun g => / kap * v g) (fun g => w g / kap)).
    { apply (pass_exact_0d v kap); [lra| |exact Hw]. intros h Hh. rewrite emission_0d_scale. unfold Rdiv. ring. }
    intros h Hh. apply (generation_unique _ _ _ _ (inf_transport angles groups wt T X HD) (shade_fission T f) (fun _ g => / kap * v g) (fun _ => exact) (fun _ g => w g / kap)
      (inf_gen angles groups wt T X HD f _ _ Gen) (inf_gen angles groups wt T X HD f _ _ Gen2) 0%nat h); [exact Nat.lt_0_1|exact Hh]. }
  assert (Xp : positive1 groups exact) by (intros h Hh; rewrite (Ex h Hh); apply Rdiv_lt_0_compat; [apply Wp; exact Hh|exact Hkap]).
  destruct (vec_ratio_max groups exact p HG Pp) as (U & j & Hj & Ej & HU). cbv beta in *.
  assert (U0 : 0 < U) by (pose proof (Xp j Hj); pose proof (Pp j Hj); nra).
  assert (Q := solve_0d_relative angles groups wt T X c p (Rlt_le _ _ (proj1 HD)) Hc Hp 1 _ v raw exact U (1 + E) Hex Er (Rlt_le _ _ U0)
    ltac:(intros h Hh; rewrite Rabs_right by (apply Rle_ge; left; apply Xp; exact Hh); apply HU; exact Hh) ltac:(lra)).
  assert (Q1 : forall h, (h < groups)%nat -> Rabs (v h - exact h) <= (1 + E) * U * p h).
  { intros h Hh. specialize (HU h Hh). pose proof (Hlow h Hh) as L. cbv beta in L. pose proof (Hv h Hh) as Vh. pose proof (Xp h Hh) as Xh.
    assert (V1 : v h <= E * exact h).
    { rewrite (Ex h Hh). apply (Rmult_le_reg_r kap); [exact Hkap|]. replace (E * (w h / kap) * kap) with (E * w h) by (field; lra).
      apply Rle_trans with (E * (a * v h)); [nra|]. apply Rmult_le_compat_l; assumption. }
    assert (EX : E * exact h <= E * (U * p h)) by (apply Rmult_le_compat_l; assumption).
    assert (E0 : 0 <= E * exact h) by (apply Rmult_le_pos; lra).
    unfold Rabs. destruct (Rcase_abs _); nra. }
  specialize (Q Q1 Hsm g Hg). eapply Rle_trans; [exact Q|].
  set (m := Rmax _ _) in *.
  assert (M0 : 0 <= m). { unfold m. eapply Rle_trans; [|apply Rmax_r]. apply Rmult_le_pos; [apply pow_le; lra|lra]. }
  rewrite (Rmult_assoc m U). unfold Rdiv. rewrite !(Rmult_assoc m). apply Rmult_le_compat_l; [exact M0|].
  apply (Rmult_le_reg_r d); [lra|]. replace (s * / d * exact g * d) with (s * exact g) by (field; lra).
  pose proof (Hs g j Hg Hj) as S1. pose proof (Pp g Hg) as Pg. pose proof (Pp j Hj) as Pj.
  assert (S0 : 0 < s). { destruct (Rle_or_lt s 0) as [L|L]; [exfalso; nra|exact L]. }
  assert (Har : d * exact j <= exact g).
  { rewrite (Ex g Hg), (Ex j Hj). pose proof (proj2 Heven v w ltac:(intros h Hh; left; apply Hv; exact Hh) Hw g j Hg Hj) as Q2.
    apply (Rmult_le_reg_r kap); [exact Hkap|]. replace (d * (w j / kap) * kap) with (d * w j) by (field; lra). replace (w g / kap * kap) with (w g) by (field; lra). exact Q2. }
  apply Rle_trans with (U * (s * p j) * d); [apply Rmult_le_compat_r; [lra|]; apply Rmult_le_compat_l; lra|].
  replace (U * (s * p j) * d) with (s * (d * (U * p j))) by ring. rewrite <- Ej. apply Rmult_le_compat_l; lra.
Qed.
End Medium.
