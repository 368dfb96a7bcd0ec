(** k decides: above one every free run grows geometrically, below one it dies out. *)
From Coq Require Import Lra Lia Psatz.
From Verif Require Import Base BaseFacts Contraction SlabModel SlabSpec SlabFacts SlabFacts2 SlabFacts3 SlabFacts4.
From Verif Require Import MgModel MgSpec MgFacts MgFacts2 MgFacts3 MgFacts7 SupSpec SupFacts SupFacts2 SupFacts3 SupFacts4.
From Verif Require Import TimeModel TimeSpec TimeFacts TimeFacts2 TimeFacts3 EnSpec EnFacts7 CritModel CritSpec CritFacts CritFacts2 CritFacts5 CritFacts9 DynSpec DynFacts DynFacts2 DynFacts3 DynFacts5.
Open Scope R_scope.

Lemma bound3 P G (A : mat3) : exists h, 1 <= h /\ forall i m g, (i < cells P)%nat -> (m < angles P)%nat -> (g < G)%nat -> Rabs (A i m g) <= h.
Proof.
  destruct (spread3 P G (fun i m g => 1 + Rabs (A i m g))) as (lo & hi & L & LH & B).
  - intros i m g _ _ _. pose proof (Rabs_pos (A i m g)). lra.
  - exists (1 + Rabs hi). pose proof (Rabs_pos hi). split; [lra|]. intros i m g Hi Hm Hg. destruct (B i m g Hi Hm Hg). pose proof (Rle_abs hi). cbv beta in *. lra.
Qed.

Section Super.
Variables (P : sn) (G : nat) (velocity : vec) (T : mat2) (X : mat3) (f : fission_data) (phi : mat2) (k dt0 : R).
Hypothesis HV : forall g, (g < G)%nat -> 0 < velocity g.
Hypothesis HT : damped_transport P G T X.
Hypothesis Hn : (0 < cells P)%nat.
Hypothesis HG : (0 < G)%nat.
Hypothesis HW : 0 < rsum (angles P) (wt P).
Hypothesis Hf : nonneg_fission (cells P) G (medium P) f.
Hypothesis Hk : 1 < k.
Hypothesis Hphi : positive2 (cells P) G phi.
Hypothesis He : eigenpair P G T X f phi k.
Hypothesis Hdt0 : 0 < dt0.
Hypothesis HE0 : positive_sweeps P G (effective_total 1 T velocity dt0).

Lemma super_between a : 0 <= a <= / dt0 -> positive_sweeps P G (fun n g => T n g + a / velocity g).
Proof.
  intros Ha. destruct (dt_sweeps P G T X HT) as (A & B & C). destruct HE0 as (_ & B0 & _). split; [exact A|]. split; [|exact C].
  intros g Hg m i Hm Hi. destruct (B g Hg m i Hm Hi) as (D1 & D2 & D3). destruct (B0 g Hg m i Hm Hi) as (_ & _ & D6). specialize (HV g Hg).
  assert (I0 : 0 < / velocity g) by (apply Rinv_0_lt_compat; exact HV). unfold effective_total in D6. unfold Rdiv in *.
  replace (1 * / (velocity g * dt0)) with (/ dt0 * / velocity g) in D6 by (field; lra).
  assert (a * / velocity g <= / dt0 * / velocity g) by (apply Rmult_le_compat_r; lra). assert (0 <= a * / velocity g) by (apply Rmult_le_pos; lra).
  split; [exact D1|]. split; [lra|]. nra.
Qed.

(** a flux that the collisions more than sustain *)
Lemma super_flux : exists a h V s, 0 < a /\ 0 < h /\ rated P G velocity T (total_transfer X f) a s V /\
  below3 P G (fun _ _ _ => 0) s /\ below3 P G (fun _ _ _ => 0) V /\ below3 P G V (fun _ _ _ => h) /\ below2 (cells P) G phi (scalar_flux P V).
Proof.
  assert (HP := dt_sweeps P G T X HT). assert (HX := dt_scatter P G T X HT). destruct (proj2 (proj2 (proj2 (proj2 HT)))) as (c0 & p0 & Hc0 & HD0).
  set (em := fun i (m : nat) g => emission G f (medium P) phi i g).
  assert (EM0 : below3 P G (fun _ _ _ => 0) em).
  { intros i m g Hi Hm Hg. apply rsum_nonneg. intros h Hh. apply Rmult_le_pos; [apply (emission_entry _ _ _ _ _ _ _ Hf); assumption|left; apply Hphi; assumption]. }
  destruct (afo_exists P G T HP (fun i m g => collided P G X phi i m g + em i m g / k) no_inflow) as (A & HA).
  assert (EA : agree2 (cells P) G (scalar_flux P A) phi).
  { intros i g Hi Hg. change (mg_solution P G T X (iso3 G (fun i g => emission G f (medium P) phi i g / k)) dark phi) in He.
    rewrite (afo_pass P G T HP _ _ A i g HA Hi Hg), (solution_pass P G T X HP _ _ phi He g i Hg Hi).
    apply pass_flux_at; [exact Hi| |reflexivity]. intros m j Hm Hj. unfold mg_source. rewrite (iso3_at G (fun i g => emission G f (medium P) phi i g / k) j m g Hg). reflexivity. }
  set (V0 := fun i m g => k * A i m g + 0 * A i m g).
  assert (HA' : angular_flux_of P G T (fun i m g => collided P G X (scalar_flux P A) i m g + em i m g / k) no_inflow A).
  { eapply afo_ext; [|exact HA]. intros i m g Hi Hm Hg. cbv beta. f_equal. apply collided_ext. intros h Hh. symmetry. apply EA; assumption. }
  assert (HV0 := coupled_combine P G X T _ _ A A k 0 HA' HA'). fold V0 in HV0.
  destruct (unit_angular P G T X HP HX c0 p0 Hc0 HD0) as (U & PU & HU).
  destruct (bound3 P G V0) as (h0 & Hh0 & B0). destruct (spread1 G velocity HV) as (vl & vh & VL & VLH & VB).
  set (b := h0 / vl). assert (Bp : 0 < b) by (apply Rdiv_lt_0_compat; lra).
  destruct (ratio_max (cells P) G (scalar_flux P U) phi Hn HG Hphi) as (y & iy & gy & Hiy & Hgy & Ey & Hy).
  assert (PsU := scalar_positive P G T HP HW U PU). assert (Y0 : 0 < y) by (pose proof (PsU iy gy Hiy Hgy); pose proof (Hphi iy gy Hiy Hgy); nra).
  set (a := Rmin (/ dt0) ((k - 1) / (b * y))).
  assert (BY : 0 < b * y) by (apply Rmult_lt_0_compat; assumption).
  assert (A0 : 0 < a) by (apply Rmin_glb_lt; [apply Rinv_0_lt_compat; exact Hdt0|apply Rdiv_lt_0_compat; lra]).
  assert (A1 : a <= / dt0) by apply Rmin_l.
  assert (A2 : a * (b * y) <= k - 1).
  { apply Rle_trans with ((k - 1) / (b * y) * (b * y)); [apply Rmult_le_compat_r; [lra|apply Rmin_r]|]. apply Req_le. field. split; lra. }
  set (Ta := fun n g => T n g + a / velocity g). assert (HPa : positive_sweeps P G Ta) by (apply super_between; lra).
  assert (AV : forall g, (g < G)%nat -> 0 < a / velocity g) by (intros g Hg; apply Rdiv_lt_0_compat; [exact A0|apply HV; exact Hg]).
  assert (HDa : damping P G Ta X c0 p0) by (apply (damping_more P G T Ta X c0 p0 HP HPa); [intros i g _ Hg; unfold Ta; specialize (AV g Hg); lra|exact HD0]).
  destruct (coupled_exists P G Ta X c0 p0 HPa Hc0 HDa em no_inflow) as (V & HVa).
  assert (VN : below3 P G (fun _ _ _ => 0) V) by (apply (coupled_nonneg P G Ta HPa X c0 p0 em no_inflow V Hc0 HDa HX HVa EM0); intros; rewrite no_inflow_zero; lra).
  assert (V0a : angular_flux_of P G Ta (fun i m g => collided P G X (scalar_flux P V0) i m g + (em i m g + a / velocity g * V0 i m g)) no_inflow V0).
  { eapply afo_ext; [|exact (afo_total P G T Ta _ _ _ HV0)]. intros i m g _ _ _. cbv beta. unfold Ta. replace (k * (em i m g / k)) with (em i m g) by (field; lra). unfold Rdiv. ring. }
  assert (Ua : angular_flux_of P G Ta (fun i m g => collided P G X (scalar_flux P U) i m g + (1 + a / velocity g * U i m g)) no_inflow U).
  { eapply afo_ext; [|exact (afo_total P G T Ta _ _ _ HU)]. intros i m g _ _ _. cbv beta. unfold Ta. ring. }
  assert (D1 := coupled_combine P G X Ta _ _ V V0 1 (-1) HVa V0a). assert (D2 := coupled_combine P G X Ta _ _ _ U 1 (a * b) D1 Ua). cbv beta in D2.
  assert (DN := coupled_nonneg P G Ta HPa X c0 p0 _ no_inflow _ Hc0 HDa HX D2).
  assert (LOW : forall i m g, (i < cells P)%nat -> (m < angles P)%nat -> (g < G)%nat -> V0 i m g - a * b * U i m g <= V i m g).
  { intros i m g Hi Hm Hg. assert (0 <= 1 * (1 * V i m g + -1 * V0 i m g) + a * b * U i m g); [|lra]. apply DN; try assumption; [|intros; rewrite no_inflow_zero; lra].
    intros i' m' g' Hi' Hm' Hg'. cbv beta. pose proof (PU i' m' g' Hi' Hm' Hg'). specialize (AV g' Hg'). specialize (B0 i' m' g' Hi' Hm' Hg').
    destruct (VB g' Hg') as (VB1 & _). pose proof (Rle_abs (V0 i' m' g')). specialize (HV g' Hg').
    assert (/ velocity g' * V0 i' m' g' <= b).
    { unfold b, Rdiv. rewrite (Rmult_comm h0). apply Rle_trans with (/ velocity g' * h0); [apply Rmult_le_compat_l; [left; apply Rinv_0_lt_compat; exact HV|lra]|].
      apply Rmult_le_compat_r; [lra|]. apply Rinv_le_contravar; lra. }
    assert (0 <= a * b * (a / velocity g' * U i' m' g')) by (apply Rmult_le_pos; [nra|nra]).
    replace (1 * (1 * em i' m' g' + -1 * (em i' m' g' + a / velocity g' * V0 i' m' g')) + a * b * (1 + a / velocity g' * U i' m' g'))
      with (a * (b - / velocity g' * V0 i' m' g') + a * b * (a / velocity g' * U i' m' g')) by (unfold Rdiv; ring). nra. }
  assert (SC : below2 (cells P) G phi (scalar_flux P V)).
  { intros i g Hi Hg. apply Rle_trans with (scalar_flux P (fun i m g => 1 * V0 i m g + (- (a * b)) * U i m g) i g).
    - rewrite scalar_linear. unfold V0. rewrite scalar_linear, (EA i g Hi Hg). specialize (Hy i g Hi Hg). pose proof (Hphi i g Hi Hg).
      assert (a * b * scalar_flux P U i g <= a * b * (y * phi i g)) by (apply Rmult_le_compat_l; [nra|exact Hy]). nra.
    - apply rsum_le. intros m Hm. apply Rmult_le_compat_l; [apply (proj2 (proj2 HP)); exact Hm|]. specialize (LOW i m g Hi Hm Hg). lra. }
  destruct (bound3 P G V) as (h & Hh & Bh).
  exists a, h, V, (fun i m g => collided P G (total_transfer X f) (scalar_flux P V) i m g - collided P G X (scalar_flux P V) i m g - em i m g).
  split; [exact A0|]. split; [lra|]. split.
  { unfold rated. eapply afo_ext; [|exact (afo_total P G Ta T _ _ _ HVa)]. intros i m g _ _ _. cbv beta. unfold Ta, Rdiv. ring. }
  split.
  { intros i m g Hi Hm Hg. unfold collided, em, emission. rewrite <- !rsum_minus. apply rsum_nonneg. intros x Hx. unfold total_transfer.
    pose proof (emission_entry _ _ _ _ _ _ _ Hf Hi Hg Hx). specialize (SC i x Hi Hx). nra. }
  split; [exact VN|]. split; [|exact SC]. intros i m g Hi Hm Hg. eapply Rle_trans; [apply Rle_abs|apply Bh; assumption].
Qed.

Theorem supercritical_grows : exists a C, 0 < a /\ 0 < C /\
  forall dt steps psi lo, 0 < dt -> positive_sweeps P G (effective_total 1 T velocity dt) ->
  (exists c p, 0 <= c < 1 /\ damping P G (effective_total 1 T velocity dt) (total_transfer X f) c p) ->
  free_history P G velocity dt T (total_transfer X f) steps psi -> 0 <= lo ->
  (forall i m g, (i < cells P)%nat -> (m < angles P)%nat -> (g < G)%nat -> lo <= psi 0%nat i m g) ->
  a * dt < 1 /\ forall n i g, (n <= steps)%nat -> (i < cells P)%nat -> (g < G)%nat -> C * lo * phi i g / (1 - a * dt) ^ n <= scalar_flux P (psi n) i g.
Proof.
  destruct super_flux as (a & h & V & s & A0 & H0 & HR & Hs & VN & Vh & SC). exists a, (/ h). split; [exact A0|]. split; [apply Rinv_0_lt_compat; exact H0|].
  intros dt steps psi lo Hdt HE (c & p & Hc & HD) H Hlo Hst.
  assert (HXt := transfer_nonneg P G T X f HT Hf). assert (HV0 : forall g, (g < G)%nat -> velocity g <> 0) by (intros g Hg; specialize (HV g Hg); lra).
  assert (AD : a * dt < 1).
  { destruct (Rlt_or_le (a * dt) 1) as [L|L]; [exact L|exfalso].
    assert (HRe := rated_effective P G velocity T (total_transfer X f) HV a s V dt ltac:(lra) HR).
    assert (Z := coupled_combine P G (total_transfer X f) _ _ _ V V (-1) 0 HRe HRe).
    assert (N := coupled_nonneg P G _ HE (total_transfer X f) c p _ no_inflow _ Hc HD HXt Z).
    assert (Q : forall i m g, (i < cells P)%nat -> (m < angles P)%nat -> (g < G)%nat -> V i m g <= 0).
    { intros i m g Hi Hm Hg. assert (0 <= -1 * V i m g + 0 * V i m g); [|lra]. apply N; try assumption; [|intros; rewrite no_inflow_zero; lra].
      intros i' m' g' Hi' Hm' Hg'. cbv beta. specialize (Hs i' m' g' Hi' Hm' Hg'). specialize (VN i' m' g' Hi' Hm' Hg'). cbv beta in *.
      assert (0 <= (a * dt - 1) * V i' m' g' / (velocity g' * dt)).
      { apply Rmult_le_pos; [apply Rmult_le_pos; lra|]. left. apply Rinv_0_lt_compat, Rmult_lt_0_compat; [apply HV; exact Hg'|exact Hdt]. }
      replace (-1 * (- s i' m' g' + (1 - a * dt) * V i' m' g' / (velocity g' * dt)) + 0 * (- s i' m' g' + (1 - a * dt) * V i' m' g' / (velocity g' * dt)))
        with (s i' m' g' + (a * dt - 1) * V i' m' g' / (velocity g' * dt)) by (unfold Rdiv; ring). lra. }
    pose proof (SC 0%nat 0%nat Hn HG) as S0. pose proof (Hphi 0%nat 0%nat Hn HG).
    assert (scalar_flux P V 0%nat 0%nat <= 0); [|lra]. unfold scalar_flux. rewrite <- (rsum_zero (angles P)). apply rsum_le. intros m Hm.
    specialize (Q 0%nat m 0%nat Hn Hm HG). pose proof (proj2 (proj2 HE) m Hm). nra. }
  split; [exact AD|]. intros n i g Hnn Hi Hg.
  assert (P0 : 0 < (1 - a * dt) ^ n) by (apply pow_lt; lra).
  assert (IH0 : 0 < / h) by (apply Rinv_0_lt_compat; exact H0).
  assert (L := history_envelope P G velocity T (total_transfer X f) HV dt Hdt HE HXt c p 1 (lo / h) a s V steps psi Hc HD HR AD H).
  assert (LH : 0 <= lo / h) by (apply Rmult_le_pos; lra).
  specialize (L ltac:(intros i' m' g' Hi' Hm' Hg'; specialize (Hst i' m' g' Hi' Hm' Hg'); specialize (Vh i' m' g' Hi' Hm' Hg'); cbv beta in *;
    assert (lo / h * V i' m' g' <= lo); [apply Rle_trans with (lo / h * h); [apply Rmult_le_compat_l; assumption|apply Req_le; field; lra]|lra])
    ltac:(intros i' m' g' Hi' Hm' Hg'; specialize (Hs i' m' g' Hi' Hm' Hg'); cbv beta in *; rewrite Rmult_1_l; apply Rmult_le_pos; assumption) n Hnn).
  apply Rle_trans with (lo / h / (1 - a * dt) ^ n * scalar_flux P V i g).
  - replace (/ h * lo * phi i g / (1 - a * dt) ^ n) with (lo / h / (1 - a * dt) ^ n * phi i g) by (unfold Rdiv; ring).
    apply Rmult_le_compat_l; [apply Rmult_le_pos; [exact LH|left; apply Rinv_0_lt_compat; exact P0]|apply SC; assumption].
  - unfold scalar_flux. rewrite <- rsum_scal. apply rsum_le. intros m Hm. specialize (L i m g Hi Hm Hg). cbv beta in L. pose proof (proj2 (proj2 HE) m Hm). nra.
Qed.
End Super.

Theorem subcritical_dies P G velocity T X f phi k : (forall g, (g < G)%nat -> 0 < velocity g) -> damped_transport P G T X -> (0 < cells P)%nat -> (0 < G)%nat ->
  0 < rsum (angles P) (wt P) -> nonneg_fission (cells P) G (medium P) f -> 0 < k -> k < 1 -> positive2 (cells P) G phi -> eigenpair P G T X f phi k ->
  exists K a, 1 <= K /\ 0 < a /\ forall dt steps psi d, 0 < dt -> positive_sweeps P G (effective_total 1 T velocity dt) -> 0 <= d ->
  free_history P G velocity dt T (total_transfer X f) steps psi ->
  (forall i m g, (i < cells P)%nat -> (m < angles P)%nat -> (g < G)%nat -> Rabs (psi 0%nat i m g) <= d) ->
  forall n i m g, (n <= steps)%nat -> (i < cells P)%nat -> (m < angles P)%nat -> (g < G)%nat -> Rabs (psi n i m g) <= K * d / (1 + a * dt) ^ n.
Proof.
  intros HV HT Hn HG HW Hf Hk H1 Hphi He. destruct (subcritical_damped P G T X f HT Hn HG Hf phi k Hk Hphi He H1) as (c & p & Hc & HD).
  destruct (forgets P G velocity T (total_transfer X f) (dt_sweeps P G T X HT) HW (transfer_nonneg P G T X f HT Hf) HV c p Hc HD) as (K & a & HK & Ha & F).
  exists K, a. split; [exact HK|]. split; [exact Ha|]. intros dt steps psi d Hdt HE Hd H H0 n i m g Hnn Hi Hm Hg.
  assert (Z : free_history P G velocity dt T (total_transfer X f) steps (fun _ _ _ _ => 0)).
  { intros j Hj. exists (fun _ _ _ => 0). intros g' m' _ _. split.
    - intros i' _. split; [lra|]. cbn [run_derivative]. unfold euler_derivative. rewrite rsum_zero_ext.
      + change (at3 no_inflow i' (bidx (d3b no_inflow) m') (bidx (d3c no_inflow) g')) with 0. unfold Rdiv. ring.
      + intros h _. unfold scalar_flux. rewrite rsum_zero_ext; [ring|]. intros; ring.
    - rewrite no_inflow_zero. unfold reflected_in. destruct (andb _ _); ring. }
  pose proof (F dt _ _ _ steps psi _ _ _ d 0 Hdt HE Hd (Rle_refl 0) H Z) as Q.
  assert (Q1 : within3 P G (K * (d / (1 + a * dt) ^ n + 0)) (psi n) (fun _ _ _ => 0)).
  { apply Q; [| |exact Hnn].
    - intros i' m' g' Hi' Hm' Hg'. rewrite Rminus_0_r. apply H0; assumption.
    - intros j Hj i' m' g' _ _ _. rewrite !exact_step_input. rewrite Rminus_diag_eq by reflexivity. rewrite Rabs_R0. lra. }
  specialize (Q1 i m g Hi Hm Hg). rewrite Rminus_0_r in Q1. eapply Rle_trans; [exact Q1|]. apply Req_le. unfold Rdiv. ring.
Qed.
