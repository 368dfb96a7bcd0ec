(** Growth and decay of backward Euler runs without sources: modes that keep their shape, and the sign of their rate. *)
From Coq Require Import Lra Lia Psatz FunctionalExtensionality.
From Verif Require Import Base BaseFacts Contraction SlabModel SlabSpec SlabFacts SlabFacts2 SlabFacts3 SlabFacts4.
From Verif Require Import MgModel MgSpec MgFacts MgFacts2 MgFacts3 MgFacts7 SupSpec SupFacts SupFacts2 SupFacts3 SupFacts4.
From Verif Require Import TimeModel TimeSpec TimeFacts TimeFacts2 TimeFacts3 EnSpec EnFacts7 CritModel CritSpec CritFacts5 CritFacts9 DynSpec DynFacts DynFacts2 DynFacts3.
Open Scope R_scope.

Section Free.
Variables (P : sn) (G : nat) (velocity : vec) (T : mat2) (X : mat3).
Hypothesis HV : forall g, (g < G)%nat -> 0 < velocity g.
Lemma HV0 : forall g, (g < G)%nat -> velocity g <> 0.
Proof. intros g Hg. specialize (HV g Hg). lra. Qed.

(** [V] loses [s] and the rate [a] *)
Definition rated (a : R) (s V : mat3) : Prop :=
  angular_flux_of P G T (fun i m g => collided P G X (scalar_flux P V) i m g + (- s i m g - a * V i m g / velocity g)) no_inflow V.
Lemma mode_rated a A : alpha_mode P G velocity T X a A -> rated a (fun _ _ _ => 0) A.
Proof.
  intros (_ & E & H). exists E. intros g m Hg Hm. destruct (H g m Hg Hm) as (H1 & H2). split; [|exact H2].
  intros i Hi. destruct (H1 i Hi) as (H3 & H4). split; [exact H3|]. unfold collided. change (at3 no_inflow i (bidx (d3b no_inflow) m) (bidx (d3c no_inflow) g)) with 0 in H4.
  lra.
Qed.
Lemma rated_effective a s V dt : dt <> 0 -> rated a s V -> angular_flux_of P G (effective_total 1 T velocity dt)
  (fun i m g => collided P G X (scalar_flux P V) i m g + (- s i m g + (1 - a * dt) * V i m g / (velocity g * dt))) no_inflow V.
Proof.
  intros Hdt H. eapply afo_ext; [|exact (afo_total P G T (effective_total 1 T velocity dt) _ _ _ H)].
  intros i m g Hi Hm Hg. cbv beta. unfold effective_total. pose proof (HV0 g Hg). field. split; assumption.
Qed.
Lemma free_step dt steps psi k : dt <> 0 -> free_history P G velocity dt T X steps psi -> (k < steps)%nat ->
  angular_flux_of P G (effective_total 1 T velocity dt)
    (fun i m g => collided P G X (scalar_flux P (psi (S k))) i m g + psi k i m g / (velocity g * dt)) no_inflow (psi (S k)).
Proof.
  intros Hdt H Hk. destruct (H k Hk) as (E & HE). cbn [run_derivative] in HE.
  eapply afo_ext; [|exact (step_afo P G velocity dt T X _ _ _ _ _ _ HV0 Hdt HE)]. intros i m g _ _ _. cbv beta.
  change (at3 no_inflow i (bidx (d3b no_inflow) m) (bidx (d3c no_inflow) g)) with 0. ring.
Qed.
Lemma step_free dt steps psi : dt <> 0 -> (forall k, (k < steps)%nat -> angular_flux_of P G (effective_total 1 T velocity dt)
    (fun i m g => collided P G X (scalar_flux P (psi (S k))) i m g + psi k i m g / (velocity g * dt)) no_inflow (psi (S k))) ->
  free_history P G velocity dt T X steps psi.
Proof.
  intros Hdt H k Hk. cbn [run_derivative]. apply (afo_step P G velocity dt T X no_inflow no_inflow (psi k) (psi (S k)) _ HV0 Hdt).
  eapply afo_ext; [|exact (H k Hk)]. intros i m g _ _ _. cbv beta.
  change (at3 no_inflow i (bidx (d3b no_inflow) m) (bidx (d3c no_inflow) g)) with 0. ring.
Qed.
(** a linear combination of two coupled fluxes *)
Lemma coupled_combine T' r1 r2 A B x y :
  angular_flux_of P G T' (fun i m g => collided P G X (scalar_flux P A) i m g + r1 i m g) no_inflow A ->
  angular_flux_of P G T' (fun i m g => collided P G X (scalar_flux P B) i m g + r2 i m g) no_inflow B ->
  angular_flux_of P G T' (fun i m g => collided P G X (scalar_flux P (fun i m g => x * A i m g + y * B i m g)) i m g + (x * r1 i m g + y * r2 i m g)) no_inflow
    (fun i m g => x * A i m g + y * B i m g).
Proof.
  intros HA HB.
  assert (B1 : forall g m, (g < G)%nat -> (m < angles P)%nat -> mg_boundary no_inflow (mu P) g m = x * mg_boundary no_inflow (mu P) g m + y * mg_boundary no_inflow (mu P) g m).
  { intros. rewrite no_inflow_zero. ring. }
  eapply afo_ext; [|exact (afo_linear P G T' _ _ no_inflow no_inflow no_inflow A B x y B1 HA HB)].
  intros i m g Hi Hm Hg. cbv beta.
  rewrite (collided_ext P G X (scalar_flux P (fun i m g => x * A i m g + y * B i m g)) (fun i h => x * scalar_flux P A i h + y * scalar_flux P B i h)).
  - rewrite collided_linear. ring.
  - intros h Hh. apply scalar_linear.
Qed.

(** an exact mode makes an exact run *)
Theorem mode_history a A dt steps : alpha_mode P G velocity T X a A -> dt <> 0 -> a * dt <> 1 ->
  free_history P G velocity dt T X steps (fun k i m g => A i m g / (1 - a * dt) ^ k).
Proof.
  intros HA Hdt Had. assert (H := rated_effective a _ A dt Hdt (mode_rated a A HA)). apply step_free; [exact Hdt|]. intros k Hk.
  set (y := / (1 - a * dt) ^ S k). assert (N0 : (1 - a * dt) ^ k <> 0) by (apply pow_nonzero; lra).
  assert (Z := coupled_combine _ _ _ A A y 0 H H). cbv beta in Z.
  assert (EQ : (fun i m g => y * A i m g + 0 * A i m g) = (fun i m g => A i m g / (1 - a * dt) ^ S k)).
  { extensionality i. extensionality m. extensionality g. unfold y, Rdiv. ring. }
  rewrite EQ in Z. eapply afo_ext; [|exact Z]. intros i m g Hi Hm Hg. cbv beta. f_equal. unfold y. cbn [pow]. pose proof (HV0 g Hg). field. repeat split; try assumption. lra.
Qed.

Variable dt : R.
Hypothesis Hdt : 0 < dt.
Hypothesis HE : positive_sweeps P G (effective_total 1 T velocity dt).
Hypothesis HX : forall i g h, (i < cells P)%nat -> (g < G)%nat -> (h < G)%nat -> 0 <= X (medium P i) g h.
Lemma vdt0 g : (g < G)%nat -> 0 < velocity g * dt.
Proof. intros Hg. apply Rmult_lt_0_compat; [apply HV; exact Hg|exact Hdt]. Qed.

(** one step keeps an envelope *)
Lemma step_envelope c p e t a s V old new : 0 <= c < 1 -> damping P G (effective_total 1 T velocity dt) X c p -> rated a s V ->
  angular_flux_of P G (effective_total 1 T velocity dt) (fun i m g => collided P G X (scalar_flux P new) i m g + old i m g / (velocity g * dt)) no_inflow new ->
  below3 P G (fun _ _ _ => 0) (fun i m g => e * (old i m g - t * (1 - a * dt) * V i m g)) -> below3 P G (fun _ _ _ => 0) (fun i m g => e * t * s i m g) ->
  below3 P G (fun _ _ _ => 0) (fun i m g => e * (new i m g - t * V i m g)).
Proof.
  intros Hc HD HR HN Ho Hs. assert (H := rated_effective a s V dt ltac:(lra) HR).
  assert (Z := coupled_combine _ _ _ new V e (- (e * t)) HN H).
  assert (N := coupled_nonneg P G _ HE X c p _ no_inflow _ Hc HD HX Z). intros i m g Hi Hm Hg.
  replace (e * (new i m g - t * V i m g)) with (e * new i m g + - (e * t) * V i m g) by ring. apply N; try assumption; [|intros; rewrite no_inflow_zero; lra].
  intros i' m' g' Hi' Hm' Hg'. specialize (Ho i' m' g' Hi' Hm' Hg'). specialize (Hs i' m' g' Hi' Hm' Hg'). cbv beta in *. pose proof (vdt0 g' Hg') as V0.
  replace (e * (old i' m' g' / (velocity g' * dt)) + - (e * t) * (- s i' m' g' + (1 - a * dt) * V i' m' g' / (velocity g' * dt)))
    with (e * (old i' m' g' - t * (1 - a * dt) * V i' m' g') / (velocity g' * dt) + e * t * s i' m' g') by (pose proof (HV0 g' Hg'); field; split; lra).
  apply Rplus_le_le_0_compat; [|exact Hs]. apply Rmult_le_pos; [exact Ho|left; apply Rinv_0_lt_compat; exact V0].
Qed.
Lemma history_envelope c p e t a s V steps psi : 0 <= c < 1 -> damping P G (effective_total 1 T velocity dt) X c p -> rated a s V -> a * dt < 1 ->
  free_history P G velocity dt T X steps psi ->
  below3 P G (fun _ _ _ => 0) (fun i m g => e * (psi 0%nat i m g - t * V i m g)) -> below3 P G (fun _ _ _ => 0) (fun i m g => e * t * s i m g) ->
  forall k, (k <= steps)%nat -> below3 P G (fun _ _ _ => 0) (fun i m g => e * (psi k i m g - t / (1 - a * dt) ^ k * V i m g)).
Proof.
  intros Hc HD HR Ha H H0 Hs. assert (P0 : forall k, 0 < (1 - a * dt) ^ k) by (intros; apply pow_lt; lra).
  induction k as [|k IH]; intros Hk.
  - intros i m g Hi Hm Hg. specialize (H0 i m g Hi Hm Hg). cbn [pow]. replace (t / 1) with t by field. exact H0.
  - apply (step_envelope c p e (t / (1 - a * dt) ^ S k) a s V (psi k) (psi (S k)) Hc HD HR (free_step dt steps psi k ltac:(lra) H ltac:(lia))).
    + intros i m g Hi Hm Hg. specialize (IH ltac:(lia) i m g Hi Hm Hg). cbv beta in *.
      replace (t / (1 - a * dt) ^ S k * (1 - a * dt)) with (t / (1 - a * dt) ^ k); [exact IH|]. specialize (P0 k). cbn [pow]. field. split; lra.
    + intros i m g Hi Hm Hg. specialize (Hs i m g Hi Hm Hg). cbv beta in *. specialize (P0 (S k)).
      replace (e * (t / (1 - a * dt) ^ S k) * s i m g) with (e * t * s i m g / (1 - a * dt) ^ S k) by (unfold Rdiv; ring).
      apply Rmult_le_pos; [exact Hs|left; apply Rinv_0_lt_compat; exact P0].
Qed.

Hypothesis HW : 0 < rsum (angles P) (wt P).
Lemma mode_damped a A : alpha_mode P G velocity T X a A -> a * dt < 1 -> exists c, 0 <= c < 1 /\ damping P G (effective_total 1 T velocity dt) X c (scalar_flux P A).
Proof.
  intros HA Ha. assert (H := rated_effective a _ A dt ltac:(lra) (mode_rated a A HA)).
  apply (super_damping P G _ HE HW X _ no_inflow A HX H); [|intros; rewrite no_inflow_zero; lra|exact (proj1 HA)].
  intros i m g Hi Hm Hg. pose proof (proj1 HA i m g Hi Hm Hg). pose proof (vdt0 g Hg). cbv beta.
  assert (0 < (1 - a * dt) * A i m g / (velocity g * dt)); [|lra]. apply Rdiv_lt_0_compat; [nra|assumption].
Qed.
Theorem mode_envelope a A lo hi steps psi : alpha_mode P G velocity T X a A -> a * dt < 1 -> free_history P G velocity dt T X steps psi ->
  (forall i m g, (i < cells P)%nat -> (m < angles P)%nat -> (g < G)%nat -> lo * A i m g <= psi 0%nat i m g <= hi * A i m g) ->
  forall k i m g, (k <= steps)%nat -> (i < cells P)%nat -> (m < angles P)%nat -> (g < G)%nat ->
    lo * A i m g / (1 - a * dt) ^ k <= psi k i m g <= hi * A i m g / (1 - a * dt) ^ k.
Proof.
  intros HA Ha H H0 k i m g Hk Hi Hm Hg. destruct (mode_damped a A HA Ha) as (c & Hc & HD). assert (HR := mode_rated a A HA).
  assert (U := history_envelope c _ 1 lo a _ A steps psi Hc HD HR Ha H). assert (L := history_envelope c _ (-1) hi a _ A steps psi Hc HD HR Ha H).
  assert (Z : forall x y : R, below3 P G (fun _ _ _ => 0) (fun _ _ _ => x * y * 0)) by (intros x y ? ? ? _ _ _; lra).
  specialize (U ltac:(intros i' m' g' Hi' Hm' Hg'; destruct (H0 i' m' g' Hi' Hm' Hg'); lra) (Z 1 lo) k Hk i m g Hi Hm Hg).
  specialize (L ltac:(intros i' m' g' Hi' Hm' Hg'; destruct (H0 i' m' g' Hi' Hm' Hg'); lra) (Z (-1) hi) k Hk i m g Hi Hm Hg).
  cbv beta in U, L. replace (lo * A i m g / (1 - a * dt) ^ k) with (lo / (1 - a * dt) ^ k * A i m g) by (unfold Rdiv; ring).
  replace (hi * A i m g / (1 - a * dt) ^ k) with (hi / (1 - a * dt) ^ k * A i m g) by (unfold Rdiv; ring). lra.
Qed.
(** free runs exist while the step resolves the growth *)
Theorem mode_runs a A flux steps : alpha_mode P G velocity T X a A -> a * dt < 1 -> exists psi, psi 0%nat = flux /\ free_history P G velocity dt T X steps psi.
Proof.
  intros HA Ha. destruct (mode_damped a A HA Ha) as (c & Hc & HD).
  apply (damped_history_exists P G velocity dt T X c _ (fun _ => no_inflow) (fun _ => no_inflow) flux steps HE Hc HD HV0). lra.
Qed.
(** a step longer than the growth time has no nonnegative answer *)
Theorem mode_too_long a A psi : alpha_mode P G velocity T X a A -> 1 <= a * dt -> (0 < cells P)%nat -> (0 < angles P)%nat -> (0 < G)%nat ->
  positive3 P G (psi 0%nat) -> free_history P G velocity dt T X 1 psi -> ~ below3 P G (fun _ _ _ => 0) (psi 1%nat).
Proof.
  intros HA Ha Hn Hm HG H0 H Hneg. assert (HS := free_step dt 1 psi 0 ltac:(lra) H ltac:(lia)).
  assert (R0 : positive3 P G (fun i m g => psi 0%nat i m g / (velocity g * dt))).
  { intros i m g Hi Hm' Hg. apply Rdiv_lt_0_compat; [apply H0; assumption|apply vdt0; exact Hg]. }
  assert (P1 : positive3 P G (psi 1%nat)).
  { apply (afo_positive P G _ HE _ no_inflow _ HS); [|intros; rewrite no_inflow_zero; lra]. intros i m g Hi Hm' Hg. specialize (R0 i m g Hi Hm' Hg). cbv beta in R0.
    assert (0 <= collided P G X (scalar_flux P (psi 1%nat)) i m g); [|lra]. apply rsum_nonneg. intros h Hh. apply Rmult_le_pos; [apply HX; assumption|].
    apply rsum_nonneg. intros m2 Hm2. apply Rmult_le_pos; [apply (proj2 (proj2 HE)); exact Hm2|apply Hneg; assumption]. }
  destruct (super_damping P G _ HE HW X _ no_inflow _ HX HS R0 ltac:(intros; rewrite no_inflow_zero; lra) P1) as (c & Hc & HD).
  assert (HR := rated_effective a _ A dt ltac:(lra) (mode_rated a A HA)).
  assert (Z := coupled_combine _ _ _ A A (-1) 0 HR HR).
  assert (N := coupled_nonneg P G _ HE X c _ _ no_inflow _ Hc HD HX Z).
  assert (Q : 0 <= -1 * A 0%nat 0%nat 0%nat + 0 * A 0%nat 0%nat 0%nat).
  { apply N; try assumption; [|intros; rewrite no_inflow_zero; lra]. intros i m g Hi Hm' Hg. cbv beta. pose proof (proj1 HA i m g Hi Hm' Hg). pose proof (vdt0 g Hg).
    assert (0 <= (a * dt - 1) * A i m g / (velocity g * dt)) by (apply Rmult_le_pos; [nra|left; apply Rinv_0_lt_compat; assumption]).
    replace (-1 * (- 0 + (1 - a * dt) * A i m g / (velocity g * dt)) + 0 * (- 0 + (1 - a * dt) * A i m g / (velocity g * dt))) with ((a * dt - 1) * A i m g / (velocity g * dt)) by (unfold Rdiv; ring). assumption. }
  pose proof (proj1 HA 0%nat 0%nat 0%nat Hn Hm HG). lra.
Qed.
End Free.

(** the sign of the rate is the sign of k - 1 *)
Section Sign.
Variables (P : sn) (G : nat) (velocity : vec) (T : mat2) (X : mat3) (f : fission_data) (phi : mat2) (k a : R) (A : mat3).
Hypothesis HV : forall g, (g < G)%nat -> 0 < velocity g.
Hypothesis HT : damped_transport P G T X.
Hypothesis Hn : (0 < cells P)%nat.
Hypothesis HG : (0 < G)%nat.
Hypothesis HW : 0 < rsum (angles P) (wt P).
Hypothesis Hf : nonneg_fission (cells P) G (medium P) f.
Hypothesis Hk : 0 < k.
Hypothesis Hphi : positive2 (cells P) G phi.
Hypothesis He : eigenpair P G T X f phi k.
Hypothesis HA : alpha_mode P G velocity T (total_transfer X f) a A.
Let HP : positive_sweeps P G T := dt_sweeps P G T X HT.

Lemma sign_rated : angular_flux_of P G T (fun i m g => collided P G (total_transfer X f) (scalar_flux P A) i m g + - a * A i m g / velocity g) no_inflow A.
Proof.
  eapply afo_ext; [|exact (mode_rated P G velocity T (total_transfer X f) a A HA)]. intros i m g _ _ _. cbv beta. unfold Rdiv. ring.
Qed.
Lemma sign_neg : a < 0 -> k < 1.
Proof.
  intros Ha. destruct (super_damping P G T HP HW (total_transfer X f) _ no_inflow A (transfer_nonneg P G T X f HT Hf) sign_rated) as (c & Hc & HD).
  - intros i m g Hi Hm Hg. apply Rdiv_lt_0_compat; [|apply HV; exact Hg]. pose proof (proj1 HA i m g Hi Hm Hg). nra.
  - intros; rewrite no_inflow_zero; lra.
  - exact (proj1 HA).
  - exact (damped_subcritical P G T X f HT Hn HG Hf phi k Hk Hphi He c _ Hc HD).
Qed.
(** flight of the collisions of the mode *)
Lemma sign_flight i g : (i < cells P)%nat -> (g < G)%nat ->
  (0 < a -> scalar_flux P A i g < tau P T g (fun j => rsum G (fun h => Rabs (total_transfer X f (medium P j) g h) * scalar_flux P A j h)) i) /\
  (a = 0 -> scalar_flux P A i g = tau P T g (fun j => rsum G (fun h => Rabs (total_transfer X f (medium P j) g h) * scalar_flux P A j h)) i).
Proof.
  intros Hi Hg. set (q := fun i (m : nat) g => collided P G (total_transfer X f) (scalar_flux P A) i m g).
  destruct (afo_exists P G T HP q no_inflow) as (B & HB).
  assert (EB : scalar_flux P B i g = tau P T g (fun j => rsum G (fun h => Rabs (total_transfer X f (medium P j) g h) * scalar_flux P A j h)) i).
  { rewrite (afo_pass P G T HP _ _ B i g HB Hi Hg). unfold tau. apply pass_flux_at; [exact Hi| |intros m Hm; apply no_inflow_zero].
    intros m j Hm Hj. unfold q, collided. apply rsum_ext. intros h Hh. rewrite Rabs_right; [reflexivity|]. apply Rle_ge, (transfer_nonneg P G T X f HT Hf); assumption. }
  assert (B1 : forall g m, (g < G)%nat -> (m < angles P)%nat -> mg_boundary no_inflow (mu P) g m = 1 * mg_boundary no_inflow (mu P) g m + (-1) * mg_boundary no_inflow (mu P) g m).
  { intros. rewrite no_inflow_zero. ring. }
  assert (Z := afo_linear P G T _ _ no_inflow no_inflow no_inflow B A 1 (-1) B1 HB sign_rated). rewrite <- EB. split; intros Ha.
  - assert (Pz : positive3 P G (fun i m g => 1 * B i m g + -1 * A i m g)).
    { apply (afo_positive P G T HP _ no_inflow _ Z); [|intros; rewrite no_inflow_zero; lra]. intros i' m g' Hi' Hm Hg'. unfold q.
      pose proof (proj1 HA i' m g' Hi' Hm Hg'). specialize (HV g' Hg'). assert (0 < a * A i' m g' / velocity g') by (apply Rdiv_lt_0_compat; [nra|assumption]).
      replace (- a * A i' m g' / velocity g') with (- (a * A i' m g' / velocity g')) by (unfold Rdiv; ring). lra. }
    pose proof (scalar_positive P G T HP HW _ Pz i g Hi Hg) as Q. rewrite scalar_linear in Q. lra.
  - assert (UA : angular_flux_of P G T q no_inflow A) by (eapply afo_ext; [|exact sign_rated]; intros; cbv beta; rewrite Ha; unfold q, Rdiv; ring).
    assert (U := afo_unique P G T HP q no_inflow A B UA HB). unfold scalar_flux. apply rsum_ext. intros m Hm. rewrite (U i m g Hi Hm Hg). reflexivity.
Qed.
Lemma sign_pos : 0 < a -> 1 < k.
Proof.
  intros Ha. destruct (Rlt_or_le 1 k) as [L|L]; [exact L|exfalso].
  destruct (ratio_max (cells P) G (scalar_flux P A) phi Hn HG Hphi) as (x & i & g & Hi & Hg & Ex & Hx).
  pose proof (scalar_positive P G T HP HW A (proj1 HA) i g Hi Hg) as PA. pose proof (Hphi i g Hi Hg) as Pp. assert (X0 : 0 < x) by nra.
  pose proof (proj1 (sign_flight i g Hi Hg) Ha) as S1.
  assert (S2 : tau P T g (fun j => rsum G (fun h => Rabs (total_transfer X f (medium P j) g h) * scalar_flux P A j h)) i
    <= x * tau P T g (fun j => rsum G (fun h => Rabs (total_transfer X f (medium P j) g h) * phi j h)) i).
  { replace (x * tau P T g (fun j => rsum G (fun h => Rabs (total_transfer X f (medium P j) g h) * phi j h)) i)
      with (x * tau P T g (fun j => rsum G (fun h => Rabs (total_transfer X f (medium P j) g h) * phi j h)) i
          + 0 * tau P T g (fun j => rsum G (fun h => Rabs (total_transfer X f (medium P j) g h) * phi j h)) i) by ring.
    rewrite <- tau_lin by exact Hi. apply (tau_mono P G T HP g _ _ i Hg Hi). intros j Hj. rewrite Rmult_0_l, Rplus_0_r, <- rsum_scal. apply rsum_le. intros h Hh.
    specialize (Hx j h Hj Hh). pose proof (Rabs_pos (total_transfer X f (medium P j) g h)). nra. }
  rewrite (transfer_split P G T X f HT Hf) with (v := phi) in S2 by assumption.
  pose proof (pair_split P G T X f HT phi k ltac:(lra) He i g Hi Hg) as E1.
  assert (F0 := emission_tau_nonneg P G T X f HT Hf phi g i Hg Hi ltac:(intros ? ? ? ?; left; apply Hphi; assumption)).
  assert (Hik : 1 <= / k) by (rewrite <- Rinv_1; apply Rinv_le_contravar; lra).
  assert (tau P T g (fun j => emission G f (medium P) phi j g) i <= / k * tau P T g (fun j => emission G f (medium P) phi j g) i) by nra. nra.
Qed.
Lemma sign_zero : a = 0 -> k = 1.
Proof.
  intros Ha. apply (mode_unique P G T X HT f phi k (scalar_flux P A) 1 Hn HG Hf Hk Hphi He ltac:(lra) (scalar_positive P G T HP HW A (proj1 HA))).
  assert (S1 := afo_solution P G T X (fun i m g => emission G f (medium P) (scalar_flux P A) i g / 1) no_inflow A).
  assert (UA : angular_flux_of P G T (fun i m g => collided P G X (scalar_flux P A) i m g + emission G f (medium P) (scalar_flux P A) i g / 1) no_inflow A).
  { eapply afo_ext; [|exact sign_rated]. intros i m g _ _ _. cbv beta. rewrite Ha. unfold collided, emission, total_transfer, Rdiv.
    rewrite Rinv_1, Rmult_1_r, <- rsum_plus, Ropp_0, !Rmult_0_l, Rplus_0_r. apply rsum_ext. intros; ring. }
  specialize (S1 UA). destruct S1 as (E & H). exists E. intros g Hg. destruct (H g Hg) as (H1 & H2 & H3). split; [|split; assumption].
  intros m Hm i Hi. specialize (H1 m Hm i Hi). rewrite H1. unfold mg_source. f_equal.
Qed.
Theorem mode_sign : (a < 0 <-> k < 1) /\ (a = 0 <-> k = 1) /\ (0 < a <-> 1 < k).
Proof.
  pose proof sign_neg. pose proof sign_zero. pose proof sign_pos.
  destruct (Rtotal_order a 0) as [L|[L|L]]; repeat split; intros; intuition lra.
Qed.
End Sign.
