(** Backward Euler forgets its start at a rate independent of the time step when neutrons are lost on the whole. *)
From Coq Require Import Lra Lia Psatz.
From Verif Require Import Base BaseFacts Contraction SlabModel SlabSpec SlabFacts SlabFacts2 SlabFacts3 SlabFacts4.
From Verif Require Import MgModel MgSpec MgFacts MgFacts2 MgFacts3 MgFacts7 SupSpec SupFacts SupFacts2 SupFacts3 SupFacts4.
From Verif Require Import TimeModel TimeSpec TimeFacts TimeFacts2 TimeFacts3 EnSpec EnFacts7 CritModel CritSpec DynSpec DynFacts.
Open Scope R_scope.

Lemma spread1 n (f : vec) : (forall i, (i < n)%nat -> 0 < f i) -> exists lo hi, 0 < lo /\ lo <= hi /\ forall i, (i < n)%nat -> lo <= f i <= hi.
Proof.
  induction n as [|n IH]; intros H; [exists 1, 1; split; [lra|]; split; [lra|]; intros; lia|].
  destruct IH as (lo & hi & L & LH & B); [intros; apply H; lia|]. specialize (H n ltac:(lia)).
  exists (Rmin lo (f n)), (Rmax hi (f n)). split; [apply Rmin_glb_lt; lra|].
  pose proof (Rmin_l lo (f n)). pose proof (Rmin_r lo (f n)). pose proof (Rmax_l hi (f n)). pose proof (Rmax_r hi (f n)).
  split; [lra|]. intros i Hi. destruct (Nat.eq_dec i n) as [-> |]; [lra|]. specialize (B i ltac:(lia)). lra.
Qed.
Lemma spread3 P G (A : mat3) : positive3 P G A -> exists lo hi, 0 < lo /\ lo <= hi /\
  forall i m g, (i < cells P)%nat -> (m < angles P)%nat -> (g < G)%nat -> lo <= A i m g <= hi.
Proof.
  intros HA. set (M := angles P).
  destruct (spread1 (cells P * M * G) (fun k => A (k / G / M)%nat ((k / G) mod M) (k mod G))) as (lo & hi & L & LH & B).
  - intros k Hk. assert (G0 : G <> 0%nat) by nia. assert (M0 : M <> 0%nat) by nia.
    assert (K1 : (k / G < cells P * M)%nat) by (apply Nat.div_lt_upper_bound; nia).
    apply HA; [apply Nat.div_lt_upper_bound; nia|apply Nat.mod_upper_bound; exact M0|apply Nat.mod_upper_bound; exact G0].
  - exists lo, hi. split; [exact L|]. split; [exact LH|]. intros i m g Hi Hm Hg.
    specialize (B ((i * M + m) * G + g)%nat). destruct (flat_index G (i * M + m) g Hg) as (E1 & E2). cbv beta in B. rewrite E1, E2 in B.
    destruct (flat_index M i m Hm) as (E3 & E4). rewrite E3, E4 in B. apply B.
    assert (i * M + m < cells P * M)%nat by (unfold M in *; nia). nia.
Qed.

Lemma no_inflow_zero mu g m : mg_boundary no_inflow mu g m = 0.
Proof. reflexivity. Qed.

(** the equation of a step, at the effective total cross section *)
Lemma step_afo P G velocity dt T X ext bnd old new emit E :
  (forall g, (g < G)%nat -> velocity g <> 0) -> dt <> 0 ->
  step_equation P G velocity T X ext bnd (euler_derivative dt new old) emit E new ->
  angular_flux_of P G (effective_total 1 T velocity dt)
    (fun i m g => collided P G X emit i m g + at3 ext i (bidx (d3b ext) m) (bidx (d3c ext) g) + old i m g / (velocity g * dt)) bnd new.
Proof.
  intros Hv Hdt H. exists E. intros g m Hg Hm. destruct (H g m Hg Hm) as (H1 & H2). split; [|exact H2].
  intros i Hi. destruct (H1 i Hi) as (H3 & H4). split; [exact H3|]. unfold collided. rewrite <- H4. unfold effective_total, euler_derivative.
  specialize (Hv g Hg). generalize (mu P m / dx P i * (E g m (S i) - E g m i)). intros y. field. split; assumption.
Qed.
Lemma afo_step P G velocity dt T X ext bnd old new emit :
  (forall g, (g < G)%nat -> velocity g <> 0) -> dt <> 0 ->
  angular_flux_of P G (effective_total 1 T velocity dt)
    (fun i m g => collided P G X emit i m g + at3 ext i (bidx (d3b ext) m) (bidx (d3c ext) g) + old i m g / (velocity g * dt)) bnd new ->
  exists E, step_equation P G velocity T X ext bnd (euler_derivative dt new old) emit E new.
Proof.
  intros Hv Hdt (E & H). exists E. intros g m Hg Hm. destruct (H g m Hg Hm) as (H1 & H2). split; [|exact H2].
  intros i Hi. destruct (H1 i Hi) as (H3 & H4). split; [exact H3|]. unfold collided in H4.
  assert (Q : mu P m / dx P i * (E g m (S i) - E g m i) + effective_total 1 T velocity dt (medium P i) g * new i m g - old i m g / (velocity g * dt)
     = rsum G (fun h => X (medium P i) g h * emit i h) + at3 ext i (bidx (d3b ext) m) (bidx (d3c ext) g)) by (rewrite H4; ring).
  rewrite <- Q. unfold effective_total, euler_derivative. specialize (Hv g Hg).
  generalize (mu P m / dx P i * (E g m (S i) - E g m i)). intros y. field. split; assumption.
Qed.

Section Forget.
Variables (P : sn) (G : nat) (velocity : vec) (T : mat2) (X : mat3).
Hypothesis HP : positive_sweeps P G T.
Hypothesis HS : sound_slab P.
Hypothesis HW : 0 < rsum (angles P) (wt P).
Hypothesis HX : forall i g h, (i < cells P)%nat -> (g < G)%nat -> (h < G)%nat -> 0 <= X (medium P i) g h.
Hypothesis HV : forall g, (g < G)%nat -> 0 < velocity g.

(** the angular flux of a unit source *)
Lemma unit_angular c p : 0 <= c < 1 -> damping P G T X c p ->
  exists A, positive3 P G A /\ angular_flux_of P G T (fun i m g => collided P G X (scalar_flux P A) i m g + 1) no_inflow A.
Proof.
  intros Hc HD. set (one := mkArr3 1 1 (fun _ _ _ => 1)).
  destruct (damped_well_posed P G T X c p HP Hc HD one no_inflow) as (sol & Hs & _ & Hn).
  assert (N : below2 (cells P) G (fun _ _ => 0) sol).
  { apply Hn; [exact HX| |intros; rewrite no_inflow_zero; lra]. intros; unfold one; cbn [at3]; lra. }
  destruct (afo_exists P G T HP (fun i m g => collided P G X sol i m g + 1) no_inflow) as (A & HA).
  assert (EA : agree2 (cells P) G (scalar_flux P A) sol).
  { intros i g Hi Hg. rewrite (afo_pass P G T HP _ _ A i g HA Hi Hg), (solution_pass P G T X HP _ _ sol Hs g i Hg Hi).
    apply pass_flux_at; [exact Hi| |reflexivity]. intros m j Hm Hj. unfold mg_source, collided, one. cbn [at3]. reflexivity. }
  exists A. split.
  - apply (afo_positive P G T HP _ no_inflow A HA); [|intros; rewrite no_inflow_zero; lra]. intros i m g Hi Hm Hg.
    assert (0 <= collided P G X sol i m g); [|lra]. apply rsum_nonneg. intros h Hh. apply Rmult_le_pos; [apply HX; assumption|apply N; assumption].
  - apply (afo_ext P G T (fun i m g => collided P G X sol i m g + 1)); [|exact HA]. intros i m g Hi Hm Hg. f_equal.
    apply collided_ext. intros h Hh. symmetry. apply EA; assumption.
Qed.

Section Step.
Variables (A : mat3) (dt : R).
Hypothesis Hdt : 0 < dt.
Hypothesis HA : positive3 P G A.
Hypothesis HE : positive_sweeps P G (effective_total 1 T velocity dt).

Lemma vdt g : (g < G)%nat -> 0 < velocity g * dt.
Proof. intros Hg. apply Rmult_lt_0_compat; [apply HV; exact Hg|exact Hdt]. Qed.
Lemma effective_angular r : angular_flux_of P G T (fun i m g => collided P G X (scalar_flux P A) i m g + r i m g) no_inflow A ->
  angular_flux_of P G (effective_total 1 T velocity dt)
    (fun i m g => collided P G X (scalar_flux P A) i m g + (r i m g + A i m g / (velocity g * dt))) no_inflow A.
Proof.
  intros H. eapply afo_ext; [|apply (afo_total P G T (effective_total 1 T velocity dt) _ _ _ H)].
  intros i m g Hi Hm Hg. cbv beta. unfold effective_total. pose proof (vdt g Hg). pose proof (HV g Hg). field. split; lra.
Qed.
Lemma effective_damping r : angular_flux_of P G T (fun i m g => collided P G X (scalar_flux P A) i m g + r i m g) no_inflow A ->
  positive3 P G (fun i m g => r i m g + A i m g / (velocity g * dt)) ->
  exists c, 0 <= c < 1 /\ damping P G (effective_total 1 T velocity dt) X c (scalar_flux P A).
Proof.
  intros H Hr. apply (super_damping P G _ HE HW X (fun i m g => r i m g + A i m g / (velocity g * dt)) no_inflow A HX); [|exact Hr| |exact HA].
  - apply effective_angular. exact H.
  - intros; rewrite no_inflow_zero; lra.
Qed.
Hypothesis HU : angular_flux_of P G T (fun i m g => collided P G X (scalar_flux P A) i m g + 1) no_inflow A.
Variable a : R.
Hypothesis Ha : 0 < a.
Hypothesis Hav : forall i m g, (i < cells P)%nat -> (m < angles P)%nat -> (g < G)%nat -> a * A i m g <= velocity g.

Lemma unit_damped : exists c, 0 <= c < 1 /\ damping P G (effective_total 1 T velocity dt) X c (scalar_flux P A).
Proof.
  apply (effective_damping (fun _ _ _ => 1)); [exact HU|]. intros i m g Hi Hm Hg. pose proof (HA i m g Hi Hm Hg). pose proof (vdt g Hg).
  assert (0 < A i m g / (velocity g * dt)) by (apply Rdiv_lt_0_compat; assumption). lra.
Qed.
(** one step, one side *)
Lemma forget_side ext ext' bnd old old' new new' emit emit' E E' C r : 0 <= C -> 0 <= r ->
  step_equation P G velocity T X ext bnd (euler_derivative dt new old) emit E new ->
  step_equation P G velocity T X ext' bnd (euler_derivative dt new' old') emit' E' new' ->
  (forall i m g, (i < cells P)%nat -> (m < angles P)%nat -> (g < G)%nat -> old i m g - old' i m g <= (C + r) * A i m g) ->
  (forall i m g, (i < cells P)%nat -> (m < angles P)%nat -> (g < G)%nat -> step_input P G X ext emit new i m g - step_input P G X ext' emit' new' i m g <= r) ->
  forall i m g, (i < cells P)%nat -> (m < angles P)%nat -> (g < G)%nat -> new i m g - new' i m g <= (C / (1 + a * dt) + r) * A i m g.
Proof.
  intros HC Hr SE SE' Ho Hi0. assert (D0 : dt <> 0) by lra.
  assert (Hv : forall g, (g < G)%nat -> velocity g <> 0) by (intros g Hg; specialize (HV g Hg); lra).
  assert (F := step_afo _ _ _ _ _ _ _ _ _ _ _ _ Hv D0 SE). assert (F' := step_afo _ _ _ _ _ _ _ _ _ _ _ _ Hv D0 SE').
  assert (FA := effective_angular (fun _ _ _ => 1) HU). cbv beta in FA.
  set (C' := C / (1 + a * dt) + r).
  assert (AD : 0 < a * dt) by (apply Rmult_lt_0_compat; assumption).
  set (w := fun i m g => 1 * (C' * A i m g + (-1) * new i m g) + 1 * new' i m g).
  destruct unit_damped as (c & Hc & HD).
  set (R0 := fun i m g => C' * (1 + A i m g / (velocity g * dt)) - (step_input P G X ext emit new i m g - step_input P G X ext' emit' new' i m g)
    - (old i m g - old' i m g) / (velocity g * dt)).
  assert (Hw : angular_flux_of P G (effective_total 1 T velocity dt) (fun i m g => collided P G X (scalar_flux P w) i m g + R0 i m g) no_inflow w).
  { assert (B1 : forall g m, (g < G)%nat -> (m < angles P)%nat -> mg_boundary (mkArr3 (d3b bnd) (d3c bnd) (fun i m g => - at3 bnd i m g)) (mu P) g m
       = C' * mg_boundary no_inflow (mu P) g m + (-1) * mg_boundary bnd (mu P) g m).
    { intros g m _ _. rewrite no_inflow_zero. unfold mg_boundary. cbn [at3 d3b d3c]. ring. }
    assert (F1 := afo_linear P G _ _ _ no_inflow bnd _ A new C' (-1) B1 FA F).
    assert (B2 : forall g m, (g < G)%nat -> (m < angles P)%nat -> mg_boundary no_inflow (mu P) g m
       = 1 * mg_boundary (mkArr3 (d3b bnd) (d3c bnd) (fun i m g => - at3 bnd i m g)) (mu P) g m + 1 * mg_boundary bnd (mu P) g m).
    { intros g m _ _. rewrite no_inflow_zero. unfold mg_boundary. cbn [at3 d3b d3c]. ring. }
    assert (F2 := afo_linear P G _ _ _ _ bnd no_inflow (fun i m g => C' * A i m g + (-1) * new i m g) new' 1 1 B2 F1 F').
    eapply afo_ext; [|exact F2].
    intros i m g Hi Hm Hg. cbv beta. unfold R0, step_input, w.
    assert (EW : collided P G X (scalar_flux P (fun i m g => 1 * (C' * A i m g + (-1) * new i m g) + 1 * new' i m g)) i m g
       = C' * collided P G X (scalar_flux P A) i m g - collided P G X (scalar_flux P new) i m g + collided P G X (scalar_flux P new') i m g).
    { rewrite (collided_ext P G X _ (fun i h => 1 * (C' * scalar_flux P A i h + (-1) * scalar_flux P new i h) + 1 * scalar_flux P new' i h)).
      - rewrite (collided_linear P G X 1 1 (fun i h => C' * scalar_flux P A i h + (-1) * scalar_flux P new i h)), collided_linear. ring.
      - intros h Hh. rewrite (scalar_linear P 1 1 (fun i m g => C' * A i m g + (-1) * new i m g)), scalar_linear. reflexivity. }
    rewrite EW.
    assert (EE : forall e n, rsum G (fun h => X (medium P i) g h * (e i h - scalar_flux P n i h)) = collided P G X e i m g - collided P G X (scalar_flux P n) i m g).
    { intros e n. unfold collided. rewrite <- rsum_minus. apply rsum_ext. intros; ring. }
    rewrite !EE. unfold Rdiv. ring. }
  assert (RN : below3 P G (fun _ _ _ => 0) R0).
  { intros i m g Hi Hm Hg. unfold R0. specialize (Ho i m g Hi Hm Hg). specialize (Hi0 i m g Hi Hm Hg). specialize (Hav i m g Hi Hm Hg).
    pose proof (HA i m g Hi Hm Hg) as Ap. pose proof (vdt g Hg) as V. specialize (HV g Hg).
    set (u := A i m g / (velocity g * dt)) in *.
    assert (O1 : (old i m g - old' i m g) / (velocity g * dt) <= (C + r) * u).
    { unfold u, Rdiv. rewrite <- Rmult_assoc. apply Rmult_le_compat_r; [left; apply Rinv_0_lt_compat; exact V|exact Ho]. }
    assert (U1 : a * dt * u <= 1).
    { unfold u. apply (Rmult_le_reg_r (velocity g * dt)); [exact V|]. replace (a * dt * (A i m g / (velocity g * dt)) * (velocity g * dt)) with (a * A i m g * dt) by (field; lra). nra. }
    assert (C1 : C * u <= C / (1 + a * dt) * (1 + u)).
    { replace (C * u) with (C / (1 + a * dt) * ((1 + a * dt) * u)) by (field; lra). apply Rmult_le_compat_l; [|nra].
      apply Rmult_le_pos; [exact HC|left; apply Rinv_0_lt_compat; lra]. }
    unfold C'. nra. }
  intros i m g Hi Hm Hg.
  pose proof (coupled_nonneg P G _ HE X c _ R0 no_inflow w Hc HD HX Hw RN ltac:(intros; rewrite no_inflow_zero; lra) i m g Hi Hm Hg) as W. unfold w in W. cbv beta in W. lra.
Qed.
End Step.

Theorem forgets c p : 0 <= c < 1 -> damping P G T X c p -> exists K a, 1 <= K /\ 0 < a /\
  forall dt ext ext' bnd steps psi psi' emit emit' d r, 0 < dt -> positive_sweeps P G (effective_total 1 T velocity dt) -> 0 <= d -> 0 <= r ->
  time_history false P G velocity dt T X ext bnd steps psi emit -> time_history false P G velocity dt T X ext' bnd steps psi' emit' ->
  within3 P G d (psi 0%nat) (psi' 0%nat) ->
  (forall j, (j < steps)%nat -> within3 P G r (step_input P G X (ext j) (emit j) (psi (S j))) (step_input P G X (ext' j) (emit' j) (psi' (S j)))) ->
  forall k, (k <= steps)%nat -> within3 P G (K * (d / (1 + a * dt) ^ k + r)) (psi k) (psi' k).
Proof.
  intros Hc HD. destruct (unit_angular c p Hc HD) as (A & PA & HA).
  destruct (spread3 P G A PA) as (lo & hi & L & LH & B). destruct (spread1 G velocity HV) as (vl & vh & VL & VLH & VB).
  assert (I0 : 0 < / lo) by (apply Rinv_0_lt_compat; exact L).
  exists (hi / lo + hi), (vl / hi). assert (K1 : 1 <= hi / lo).
  { apply (Rmult_le_reg_r lo); [exact L|]. unfold Rdiv. rewrite Rmult_assoc, Rinv_l by lra. lra. }
  split; [lra|]. assert (Ha : 0 < vl / hi) by (apply Rdiv_lt_0_compat; lra). split; [exact Ha|]. set (a := vl / hi) in *.
  assert (Hav : forall i m g, (i < cells P)%nat -> (m < angles P)%nat -> (g < G)%nat -> a * A i m g <= velocity g).
  { intros i m g Hi Hm Hg. destruct (B i m g Hi Hm Hg) as (_ & B2). destruct (VB g Hg) as (V1 & _). apply Rle_trans with vl; [|exact V1].
    unfold a. apply (Rmult_le_reg_r hi); [lra|]. replace (vl / hi * A i m g * hi) with (vl * A i m g) by (field; lra). apply Rmult_le_compat_l; lra. }
  intros dt ext ext' bnd steps psi psi' emit emit' d r Hdt HE Hd Hr H H' H0 Hin.
  assert (AD : 0 < a * dt) by (apply Rmult_lt_0_compat; assumption).
  assert (Q : forall k, (k <= steps)%nat -> forall i m g, (i < cells P)%nat -> (m < angles P)%nat -> (g < G)%nat ->
     Rabs (psi k i m g - psi' k i m g) <= (d / lo / (1 + a * dt) ^ k + r) * A i m g).
  { induction k as [|k IH]; intros Hk i m g Hi Hm Hg.
    - cbn [pow]. eapply Rle_trans; [apply H0; assumption|]. destruct (B i m g Hi Hm Hg) as (B1 & _).
      apply Rle_trans with (d / lo * A i m g).
      + apply (Rmult_le_reg_r lo); [exact L|]. replace (d / lo * A i m g * lo) with (d * A i m g) by (field; lra). apply Rmult_le_compat_l; assumption.
      + apply Rmult_le_compat_r; [lra|]. unfold Rdiv. rewrite Rinv_1, Rmult_1_r. lra.
    - destruct (H k ltac:(lia)) as (E1 & S1). destruct (H' k ltac:(lia)) as (E2 & S2). cbn [run_derivative] in S1, S2.
      specialize (IH ltac:(lia)). specialize (Hin k ltac:(lia)).
      assert (P0 : 0 < (1 + a * dt) ^ k) by (apply pow_lt; lra).
      assert (C0 : 0 <= d / lo / (1 + a * dt) ^ k) by (apply Rmult_le_pos; [apply Rmult_le_pos; lra|left; apply Rinv_0_lt_compat; exact P0]).
      replace (d / lo / (1 + a * dt) ^ S k) with (d / lo / (1 + a * dt) ^ k / (1 + a * dt)) by (cbn [pow]; field; lra).
      apply Rabs_le. split.
      + assert (Z := forget_side A dt Hdt PA HE HA a Ha Hav (ext' k) (ext k) (bnd k) (psi' k) (psi k) (psi' (S k)) (psi (S k)) (emit' k) (emit k) E2 E1 (d / lo / (1 + a * dt) ^ k) r C0 Hr S2 S1).
        assert (psi' (S k) i m g - psi (S k) i m g <= (d / lo / (1 + a * dt) ^ k / (1 + a * dt) + r) * A i m g); [|lra]. apply Z; try assumption.
        * intros i' m' g' Hi' Hm' Hg'. specialize (IH i' m' g' Hi' Hm' Hg'). rewrite Rabs_minus_sym in IH. pose proof (Rle_abs (psi' k i' m' g' - psi k i' m' g')). lra.
        * intros i' m' g' Hi' Hm' Hg'. specialize (Hin i' m' g' Hi' Hm' Hg'). rewrite Rabs_minus_sym in Hin. eapply Rle_trans; [apply Rle_abs|exact Hin].
      + apply (forget_side A dt Hdt PA HE HA a Ha Hav (ext k) (ext' k) (bnd k) (psi k) (psi' k) (psi (S k)) (psi' (S k)) (emit k) (emit' k) E1 E2 (d / lo / (1 + a * dt) ^ k) r C0 Hr S1 S2); try assumption.
        * intros i' m' g' Hi' Hm' Hg'. specialize (IH i' m' g' Hi' Hm' Hg'). pose proof (Rle_abs (psi k i' m' g' - psi' k i' m' g')). lra.
        * intros i' m' g' Hi' Hm' Hg'. specialize (Hin i' m' g' Hi' Hm' Hg'). eapply Rle_trans; [apply Rle_abs|exact Hin]. }
  intros k Hk i m g Hi Hm Hg. eapply Rle_trans; [apply Q; assumption|]. destruct (B i m g Hi Hm Hg) as (_ & B2).
  assert (P0 : 0 < (1 + a * dt) ^ k) by (apply pow_lt; lra). set (e := d / (1 + a * dt) ^ k).
  assert (E0 : 0 <= e) by (apply Rmult_le_pos; [exact Hd|left; apply Rinv_0_lt_compat; exact P0]).
  replace (d / lo / (1 + a * dt) ^ k) with (e / lo) by (unfold e; field; lra).
  apply Rle_trans with ((e / lo + r) * hi); [apply Rmult_le_compat_l; [assert (0 <= e / lo) by (apply Rmult_le_pos; lra); lra|exact B2]|].
  replace ((e / lo + r) * hi) with (hi / lo * e + hi * r) by (field; lra). assert (0 <= hi / lo) by lra. nra.
Qed.
End Forget.
