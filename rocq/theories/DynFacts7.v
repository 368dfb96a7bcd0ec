(** The code's own free runs follow the mode: growth 1/(1 - a dt) per step, up to the stopping rule. *)
From Coq Require Import Lra Lia Psatz.
From Verif Require Import Base BaseFacts Contraction SlabModel SlabSpec SlabFacts SlabFacts2 SlabFacts3 SlabFacts4.
From Verif Require Import MgModel MgSpec MgFacts MgFacts2 MgFacts3 MgFacts7 SupSpec SupFacts SupFacts2 SupFacts3 SupFacts4.
From Verif Require Import TimeModel TimeSpec TimeFacts TimeFacts2 TimeFacts3 EnSpec EnFacts7 CritModel CritSpec CritFacts5 DynSpec DynFacts DynFacts2 DynFacts3 DynFacts4 DynFacts5.
Open Scope R_scope.

Lemma afo_boundary P G T q b b' A : (forall g m, (g < G)%nat -> (m < angles P)%nat -> mg_boundary b (mu P) g m = mg_boundary b' (mu P) g m) ->
  angular_flux_of P G T q b A -> angular_flux_of P G T q b' A.
Proof.
  intros Hb (E & H). exists E. intros g m Hg Hm. destruct (H g m Hg Hm) as (H1 & H2). split; [exact H1|]. rewrite H2, Hb by assumption. reflexivity.
Qed.
Lemma stop_error_nonneg c n : 0 <= c < 1 -> 0 <= stop_error c n.
Proof.
  intros Hc. pose proof (hundred c Hc). pose proof (pos_INR n). unfold stop_error. apply Rplus_le_le_0_compat; apply Rmult_le_pos; try (left; apply Rinv_0_lt_compat; lra); [|lra].
  apply Rmult_le_pos; [lra|]. apply Rmult_le_pos; [|assumption]. left. apply Rinv_0_lt_compat. lra.
Qed.

Section Grow.
Variables (P : sn) (G : nat) (velocity : vec) (T : mat2) (s : mat3) (f : fission_data) (a dt c : R) (A : mat3).
Let Y := total_transfer s f.
Let TE := effective_total 1 T velocity dt.
Hypothesis HV : forall g, (g < G)%nat -> 0 < velocity g.
Hypothesis Hdt : 0 < dt.
Hypothesis HE : positive_sweeps P G TE.
Hypothesis HX : forall i g h, (i < cells P)%nat -> (g < G)%nat -> (h < G)%nat -> 0 <= Y (medium P i) g h.
Hypothesis HW : 0 < rsum (angles P) (wt P).
Hypothesis Hang : angles P <> 1%nat.
Hypothesis HA : alpha_mode P G velocity T Y a A.
Hypothesis Had : a * dt < 1.
Hypothesis Hc : 0 <= c < 1.
Hypothesis HD : damping P G TE Y c (scalar_flux P A).
Let q := 4 * stop_error c (cells P) * Rmax 1 (1 - a * dt).
Hypothesis Hq : q <= 1.

Lemma grow_q : 0 <= q.
Proof. unfold q. pose proof (stop_error_nonneg c (cells P) Hc). pose proof (Rmax_l 1 (1 - a * dt)). apply Rmult_le_pos; lra. Qed.
Lemma grow_weight : forall i g, (i < cells P)%nat -> (g < G)%nat -> 0 < scalar_flux P A i g.
Proof. exact (proj1 HD). Qed.

(** collisions of the mode, after one flight, give at most the mode *)
Lemma grow_flight e u B : 0 <= e -> (forall i g, (i < cells P)%nat -> (g < G)%nat -> Rabs (u i g) <= e * scalar_flux P A i g) ->
  angular_flux_of P G TE (fun i m g => collided P G Y u i m g) no_inflow B ->
  forall i m g, (i < cells P)%nat -> (m < angles P)%nat -> (g < G)%nat -> Rabs (B i m g) <= e * A i m g.
Proof.
  intros He Hu HB i m g Hi Hm Hg. assert (HR := rated_effective P G velocity T Y HV a _ A dt ltac:(lra) (mode_rated P G velocity T Y a A HA)). fold TE in HR.
  assert (B1 : forall x y g m, (g < G)%nat -> (m < angles P)%nat -> mg_boundary no_inflow (mu P) g m = x * mg_boundary no_inflow (mu P) g m + y * mg_boundary no_inflow (mu P) g m) by (intros; rewrite no_inflow_zero; ring).
  assert (W : forall w, (w = 1 \/ w = -1) -> 0 <= e * A i m g + w * B i m g).
  { intros w Hw. assert (Z := afo_linear P G TE _ _ no_inflow no_inflow no_inflow A B e w (B1 e w) HR HB).
    apply (afo_nonneg P G TE HE _ no_inflow _ Z); try assumption; [|intros; rewrite no_inflow_zero; lra].
    intros i' m' g' Hi' Hm' Hg'. cbv beta.
    assert (C1 : Rabs (collided P G Y u i' m' g') <= e * collided P G Y (scalar_flux P A) i' m' g').
    { unfold collided. rewrite <- rsum_scal. apply rsum_abs_le. intros h Hh. rewrite Rabs_mult, (Rabs_right (Y (medium P i') g' h)) by (apply Rle_ge, HX; assumption).
      specialize (Hu i' h Hi' Hh). pose proof (HX i' g' h Hi' Hg' Hh). nra. }
    assert (V0 := vdt0 G velocity HV dt Hdt g' Hg'). pose proof (proj1 HA i' m' g' Hi' Hm' Hg').
    assert (0 <= (1 - a * dt) * A i' m' g' / (velocity g' * dt)) by (apply Rmult_le_pos; [nra|left; apply Rinv_0_lt_compat; exact V0]).
    assert (0 <= e * ((1 - a * dt) * A i' m' g' / (velocity g' * dt))) by (apply Rmult_le_pos; assumption).
    apply abs_bounds in C1. destruct Hw as [-> | ->]; lra. }
  pose proof (W 1 ltac:(left; reflexivity)). pose proof (W (-1) ltac:(right; reflexivity)). apply Rabs_le. lra.
Qed.

Theorem run_follows_mode materials flux external boundary steps ft lo hi :
  (forall i, (i < cells P)%nat -> (medium P i < materials)%nat) ->
  timed_run false P materials G flux T (Scatter3 s) f velocity external boundary steps dt 1 = Ok ft ->
  (forall k i m g, (k < steps)%nat -> (i < cells P)%nat -> (m < angles P)%nat -> (g < G)%nat ->
     at3 (step_row external k) i (bidx (d3b (step_row external k)) m) (bidx (d3c (step_row external k)) g) = 0) ->
  (forall k m g, (k < steps)%nat -> (m < angles P)%nat -> (g < G)%nat -> mg_boundary (step_row boundary k) (mu P) g m = 0) ->
  0 <= lo <= hi -> (forall i m g, (i < cells P)%nat -> (m < angles P)%nat -> (g < G)%nat -> lo * A i m g <= flux i m g <= hi * A i m g) ->
  forall j i g, (j < steps)%nat -> (i < cells P)%nat -> (g < G)%nat ->
    (lo - hi * ((1 + q) ^ S j - 1)) * scalar_flux P A i g / (1 - a * dt) ^ S j <= ft j i g <= hi * (1 + q) ^ S j * scalar_flux P A i g / (1 - a * dt) ^ S j.
Proof.
  intros Hmed E Hext Hbnd Hlo Hst.
  assert (HV0' : forall g, (g < G)%nat -> velocity g <> 0) by (intros g Hg; specialize (HV g Hg); lra). assert (Hdt0 : dt <> 0) by lra.
  destruct (timed_history_gen false P materials G flux T s f velocity external boundary steps dt Hang (proj1 HE) Hmed HV0' Hdt0 ft) as (X & x & _ & HXY & H0 & Hs & Hfx & Hsrc & HH).
  { intros k Hk. exact (ps_divisors P G _ HE). }
  { exact E. }
  set (psi := fun j => t_psi1 (x j)) in *. fold Y in HH, HXY.
  set (g0 := / (1 - a * dt)). assert (G0 : 0 < g0) by (apply Rinv_0_lt_compat; lra).
  pose proof grow_q as Q0. pose proof grow_weight as PW. pose proof (proj1 HA) as PA.
  assert (PQ : forall k, 1 <= (1 + q) ^ k) by (intros k; apply pow_R1_Rle; lra).
  set (L := fun k => (lo - hi * ((1 + q) ^ k - 1)) * g0 ^ k). set (Hh := fun k => hi * (1 + q) ^ k * g0 ^ k).
  assert (GP : forall k, 0 < g0 ^ k) by (intros; apply pow_lt; exact G0).
  assert (H0p : forall k, 0 <= Hh k) by (intros k; unfold Hh; specialize (PQ k); specialize (GP k); apply Rmult_le_pos; [nra|lra]).
  (* the step *)
  assert (STEP : forall k, (k < steps)%nat ->
     (forall i m g, (i < cells P)%nat -> (m < angles P)%nat -> (g < G)%nat -> L k * A i m g <= psi k i m g <= Hh k * A i m g) ->
     (forall i g, (i < cells P)%nat -> (g < G)%nat -> Rabs (t_old (x k) i g) <= 2 * Hh k * scalar_flux P A i g) ->
     (forall i m g, (i < cells P)%nat -> (m < angles P)%nat -> (g < G)%nat -> L (S k) * A i m g <= psi (S k) i m g <= Hh (S k) * A i m g) /\
     (forall i g, (i < cells P)%nat -> (g < G)%nat -> L (S k) * scalar_flux P A i g <= ft k i g <= Hh (S k) * scalar_flux P A i g)).
  { intros k Hk IHp IHo. destruct (timed_body_ok _ _ _ _ _ _ _ _ _ _ _ _ (Hs k Hk)) as (_ & _ & qq & Eq & Ei & Ek & _).
    assert (Eq' := add_external_ok _ _ _ _ _ Eq). cbn [run_weight] in Ei. fold TE in Ei.
    set (r := fun i m g => psi k i m g / (velocity g * dt)).
    destruct (coupled_exists P G TE Y c _ HE Hc HD r (step_row boundary k)) as (B & HB).
    assert (HBn := afo_boundary P G TE _ _ no_inflow B ltac:(intros g' m' Hg' Hm'; rewrite (Hbnd k m' g' Hk Hm' Hg'); reflexivity) HB).
    assert (HDX : damping P G TE X c (scalar_flux P A)) by (apply (damping_ext P G _ Y X c _); [intros; symmetry; apply HXY; assumption|exact HE|exact HD]).
    assert (HBX : angular_flux_of P G TE (fun i m g => collided P G X (scalar_flux P B) i m g + at3 qq i m g) (step_row boundary k) B).
    { eapply afo_ext; [|exact HB]. intros i m g Hi Hm Hg. cbv beta. f_equal.
      - unfold collided. apply rsum_ext. intros h Hh'. rewrite HXY by assumption. reflexivity.
      - rewrite Eq'. cbn [at3]. rewrite (Hsrc k Hk), (Hext k i m g Hk Hi Hm Hg). unfold r. cbn [run_source]. unfold psi. unfold Rdiv. ring. }
    assert (Hsol := afo_solution P G _ X (at3 qq) (step_row boundary k) B HBX).
    assert (Eqq : mkArr3 (angles P) G (at3 qq) = qq) by (rewrite Eq'; reflexivity). rewrite Eqq in Hsol.
    (* the exact step *)
    assert (HR := mode_rated P G velocity T Y a A HA).
    assert (UP : forall i m g, (i < cells P)%nat -> (m < angles P)%nat -> (g < G)%nat -> L k * g0 * A i m g <= B i m g <= Hh k * g0 * A i m g).
    { intros i m g Hi Hm Hg.
      assert (U := step_envelope P G velocity T Y HV dt Hdt HE HX c _ 1 (L k * g0) a (fun _ _ _ => 0) A (psi k) B Hc HD HR HBn).
      assert (V := step_envelope P G velocity T Y HV dt Hdt HE HX c _ (-1) (Hh k * g0) a (fun _ _ _ => 0) A (psi k) B Hc HD HR HBn).
      assert (GG : forall y, y * g0 * (1 - a * dt) = y) by (intros y; unfold g0; field; lra).
      specialize (U ltac:(intros i' m' g' Hi' Hm' Hg'; rewrite GG; destruct (IHp i' m' g' Hi' Hm' Hg'); lra) ltac:(intros ? ? ? _ _ _; lra) i m g Hi Hm Hg).
      specialize (V ltac:(intros i' m' g' Hi' Hm' Hg'; rewrite GG; destruct (IHp i' m' g' Hi' Hm' Hg'); lra) ltac:(intros ? ? ? _ _ _; lra) i m g Hi Hm Hg).
      cbv beta in U, V. lra. }
    assert (US : forall i g, (i < cells P)%nat -> (g < G)%nat -> L k * g0 * scalar_flux P A i g <= scalar_flux P B i g <= Hh k * g0 * scalar_flux P A i g).
    { intros i g Hi Hg. unfold scalar_flux. rewrite <- !rsum_scal. split; apply rsum_le; intros m Hm; destruct (UP i m g Hi Hm Hg); pose proof (proj2 (proj2 HE) m Hm); nra. }
    assert (LH : - (Hh k * g0) <= L k * g0).
    { unfold L, Hh. specialize (GP k). specialize (PQ k). replace (- (hi * (1 + q) ^ k * g0 ^ k * g0)) with (- (hi * (1 + q) ^ k) * (g0 ^ k * g0)) by ring.
      rewrite (Rmult_assoc (lo - hi * ((1 + q) ^ k - 1))). apply Rmult_le_compat_r; [nra|nra]. }
    (* size of what is returned *)
    set (M := 4 * (Hh k * g0) * Rmax 1 (1 - a * dt)). pose proof (Rmax_l 1 (1 - a * dt)) as X1. pose proof (Rmax_r 1 (1 - a * dt)) as X2.
    pose proof (H0p k) as HK0. assert (HG0 : 0 <= Hh k * g0) by nra.
    assert (M0 : 0 <= M) by (unfold M; apply Rmult_le_pos; lra).
    assert (MO : 2 * Hh k <= M).
    { unfold M. apply Rle_trans with (4 * (Hh k * g0) * (1 - a * dt)); [|apply Rmult_le_compat_l; lra].
      replace (4 * (Hh k * g0) * (1 - a * dt)) with (4 * Hh k) by (unfold g0; field; lra). lra. }
    assert (MG : 4 * (Hh k * g0) <= M) by (unfold M; rewrite <- (Rmult_1_r (4 * (Hh k * g0))) at 1; apply Rmult_le_compat_l; lra).
    set (b := stop_error c (cells P)) in *. assert (b0 : 0 <= b) by (apply stop_error_nonneg; exact Hc).
    assert (b1 : b <= 1 / 4) by (unfold q in Hq; nra).
    assert (SB : forall i g, (i < cells P)%nat -> (g < G)%nat -> Rabs (scalar_flux P B i g) <= Hh k * g0 * scalar_flux P A i g).
    { intros i g Hi Hg. destruct (US i g Hi Hg). pose proof (PW i g Hi Hg). apply Rabs_le. split; [|assumption]. nra. }
    assert (SF : forall i g, (i < cells P)%nat -> (g < G)%nat -> Rabs (ft k i g) <= M * scalar_flux P A i g).
    { intros i g Hi Hg. destruct (ratio_max (cells P) G (fun i g => Rabs (ft k i g)) (scalar_flux P A) ltac:(lia) ltac:(lia) PW) as (z & i1 & g1 & Hi1 & Hg1 & Ez & Hz).
      destruct (Rle_or_lt z M) as [Lz|Lz]; [eapply Rle_trans; [apply (Hz i g Hi Hg)|]; apply Rmult_le_compat_r; [left; apply PW; assumption|exact Lz]|exfalso].
      assert (C1 := stops_close P G TE X c _ HE Hc HDX qq (step_row boundary k) (t_old (x k)) (t_old (x (S k))) _ z ltac:(lra) Hsol Ei).
      assert (C2 : within_of (cells P) G (scalar_flux P A) (b * z) (ft k) (scalar_flux P B)).
      { rewrite (Hfx k Hk). apply C1.
        - intros i' g' Hi' Hg'. eapply Rle_trans; [apply IHo; assumption|]. apply Rmult_le_compat_r; [left; apply PW; assumption|lra].
        - rewrite <- (Hfx k Hk). intros; apply Hz; assumption. }
      specialize (C2 i1 g1 Hi1 Hg1). specialize (SB i1 g1 Hi1 Hg1). pose proof (PW i1 g1 Hi1 Hg1) as P1.
      pose proof (Rabs_triang (ft k i1 g1 - scalar_flux P B i1 g1) (scalar_flux P B i1 g1)) as TR.
      replace (ft k i1 g1 - scalar_flux P B i1 g1 + scalar_flux P B i1 g1) with (ft k i1 g1) in TR by ring.
      assert (z * scalar_flux P A i1 g1 <= (b * z + Hh k * g0) * scalar_flux P A i1 g1) by (rewrite <- Ez; lra).
      assert (z <= b * z + Hh k * g0) by (apply (Rmult_le_reg_r (scalar_flux P A i1 g1)); assumption). nra. }
    set (e := b * M).
    assert (E0 : 0 <= e) by (apply Rmult_le_pos; assumption).
    assert (EQ : e = q * (Hh k * g0)) by (unfold e, M, q, b; ring).
    assert (C1 : within_of (cells P) G (scalar_flux P A) e (ft k) (scalar_flux P B)).
    { unfold e. rewrite (Hfx k Hk). apply (stops_close P G TE X c _ HE Hc HDX qq (step_row boundary k) (t_old (x k)) _ _ M M0 Hsol Ei).
      - intros i' g' Hi' Hg'. eapply Rle_trans; [apply IHo; assumption|]. apply Rmult_le_compat_r; [left; apply PW; assumption|exact MO].
      - rewrite <- (Hfx k Hk). exact SF. }
    assert (EH : Hh (S k) = Hh k * g0 + e) by (rewrite EQ; unfold Hh; cbn [pow]; ring).
    assert (EL : L (S k) = L k * g0 - e) by (rewrite EQ; unfold L, Hh; cbn [pow]; ring).
    rewrite EH, EL. split.
    - destruct (HH k Hk) as (E1 & HE1). cbn [run_derivative] in HE1. assert (HN := step_afo P G velocity dt T Y _ _ _ _ _ _ HV0' Hdt0 HE1). fold TE in HN.
      assert (HN' := afo_boundary P G TE _ _ no_inflow _ ltac:(intros g' m' Hg' Hm'; rewrite (Hbnd k m' g' Hk Hm' Hg'); reflexivity) HN).
      assert (B1 : forall g m, (g < G)%nat -> (m < angles P)%nat -> mg_boundary no_inflow (mu P) g m = 1 * mg_boundary no_inflow (mu P) g m + (-1) * mg_boundary no_inflow (mu P) g m) by (intros; rewrite no_inflow_zero; ring).
      assert (Z := afo_linear P G TE _ _ no_inflow no_inflow no_inflow (psi (S k)) B 1 (-1) B1 HN' HBn).
      assert (Z' : angular_flux_of P G TE (fun i m g => collided P G Y (fun i h => 1 * ft k i h + (-1) * scalar_flux P B i h) i m g) no_inflow (fun i m g => 1 * psi (S k) i m g + (-1) * B i m g)).
      { eapply afo_ext; [|exact Z]. intros i m g Hi Hm Hg. cbv beta. rewrite (Hext k i m g Hk Hi Hm Hg), collided_linear. unfold r. ring. }
      assert (F := grow_flight e (fun i h => 1 * ft k i h + (-1) * scalar_flux P B i h) _ E0 ltac:(intros i g Hi Hg; cbv beta; replace (1 * ft k i g + -1 * scalar_flux P B i g) with (ft k i g - scalar_flux P B i g) by ring; exact (C1 i g Hi Hg)) Z').
      intros i m g Hi Hm Hg. specialize (F i m g Hi Hm Hg). apply abs_bounds in F. destruct (UP i m g Hi Hm Hg). lra.
    - intros i g Hi Hg. specialize (C1 i g Hi Hg). apply abs_bounds in C1. destruct (US i g Hi Hg). lra. }
  assert (ALL : forall k, (k <= steps)%nat ->
     (forall i m g, (i < cells P)%nat -> (m < angles P)%nat -> (g < G)%nat -> L k * A i m g <= psi k i m g <= Hh k * A i m g) /\
     (forall i g, (i < cells P)%nat -> (g < G)%nat -> Rabs (t_old (x k) i g) <= 2 * Hh k * scalar_flux P A i g)).
  { assert (LH : forall k, - Hh k <= L k).
    { intros k. unfold L, Hh. specialize (GP k). specialize (PQ k). replace (- (hi * (1 + q) ^ k * g0 ^ k)) with (- (hi * (1 + q) ^ k) * g0 ^ k) by ring. apply Rmult_le_compat_r; [lra|nra]. }
    induction k as [|k IH]; intros Hk.
    - split.
      + intros i m g Hi Hm Hg. unfold psi. rewrite H0. cbn [t_psi1]. destruct (Hst i m g Hi Hm Hg). unfold L, Hh. cbn [pow]. lra.
      + intros i g Hi Hg. rewrite H0. cbn [t_old]. rewrite angle_sum_scalar. unfold Hh. cbn [pow]. rewrite !Rmult_1_r.
        assert (S1 : scalar_flux P flux i g <= hi * scalar_flux P A i g).
        { unfold scalar_flux. rewrite <- rsum_scal. apply rsum_le. intros m Hm. destruct (Hst i m g Hi Hm Hg). pose proof (proj2 (proj2 HE) m Hm). nra. }
        assert (S2 : lo * scalar_flux P A i g <= scalar_flux P flux i g).
        { unfold scalar_flux. rewrite <- rsum_scal. apply rsum_le. intros m Hm. destruct (Hst i m g Hi Hm Hg). pose proof (proj2 (proj2 HE) m Hm). nra. }
        pose proof (PW i g Hi Hg). assert (0 <= lo * scalar_flux P A i g) by nra. assert (0 <= hi * scalar_flux P A i g) by nra. rewrite Rabs_right by lra. lra.
    - destruct (IH ltac:(lia)) as (I1 & I2). destruct (STEP k ltac:(lia) I1 I2) as (S1 & S2). split; [exact S1|].
      intros i g Hi Hg. rewrite <- (Hfx k) by lia. destruct (S2 i g Hi Hg). pose proof (PW i g Hi Hg). specialize (LH (S k)). specialize (H0p (S k)).
      apply Rabs_le. split; nra. }
  intros j i g Hj Hi Hg. destruct (ALL j ltac:(lia)) as (I1 & I2). destruct (STEP j Hj I1 I2) as (_ & S2). destruct (S2 i g Hi Hg) as (S3 & S4).
  assert (EG : g0 ^ S j = / (1 - a * dt) ^ S j) by (unfold g0; rewrite pow_inv; reflexivity).
  unfold L in S3. unfold Hh in S4. rewrite EG in S3, S4. unfold Rdiv. split; [eapply Rle_trans; [|exact S3]|eapply Rle_trans; [exact S4|]]; apply Req_le; ring.
Qed.
End Grow.

Theorem code_run_follows P materials G flux T s f velocity external boundary steps dt ft a A c q lo hi :
  (forall g, (g < G)%nat -> 0 < velocity g) -> 0 < dt -> positive_sweeps P G (effective_total 1 T velocity dt) -> angles P <> 1%nat ->
  (forall i, (i < cells P)%nat -> (medium P i < materials)%nat) ->
  (forall i g h, (i < cells P)%nat -> (g < G)%nat -> (h < G)%nat -> 0 <= total_transfer s f (medium P i) g h) ->
  alpha_mode P G velocity T (total_transfer s f) a A -> a * dt < 1 ->
  0 <= c < 1 -> damping P G (effective_total 1 T velocity dt) (total_transfer s f) c (scalar_flux P A) ->
  q = 4 * stop_error c (cells P) * Rmax 1 (1 - a * dt) -> q <= 1 ->
  (forall k i m g, (k < steps)%nat -> (i < cells P)%nat -> (m < angles P)%nat -> (g < G)%nat ->
     at3 (step_row external k) i (bidx (d3b (step_row external k)) m) (bidx (d3c (step_row external k)) g) = 0) ->
  (forall k m g, (k < steps)%nat -> (m < angles P)%nat -> (g < G)%nat -> mg_boundary (step_row boundary k) (mu P) g m = 0) ->
  0 <= lo <= hi -> (forall i m g, (i < cells P)%nat -> (m < angles P)%nat -> (g < G)%nat -> lo * A i m g <= flux i m g <= hi * A i m g) ->
  timed_run false P materials G flux T (Scatter3 s) f velocity external boundary steps dt 1 = Ok ft ->
  forall j i g, (j < steps)%nat -> (i < cells P)%nat -> (g < G)%nat ->
    (lo - hi * ((1 + q) ^ S j - 1)) * scalar_flux P A i g / (1 - a * dt) ^ S j <= ft j i g <= hi * (1 + q) ^ S j * scalar_flux P A i g / (1 - a * dt) ^ S j.
Proof. intros HV Hdt HE Ha Hm HX HA Had Hc HD -> Hq He Hb Hl Hs HR. exact (run_follows_mode P G velocity T s f a dt c A HV Hdt HE HX Ha HA Had Hc HD Hq materials flux external boundary steps ft lo hi Hm HR He Hb Hl Hs). Qed.
