(** Steady limits, existence of the exact histories, and the distance of the code's backward Euler runs from them. *)
From Coq Require Import Lra Lia Psatz.
From Verif Require Import Base BaseFacts Contraction SlabModel SlabSpec SlabFacts SlabFacts2 SlabFacts3 SlabFacts4.
From Verif Require Import MgModel MgSpec MgFacts MgFacts2 MgFacts3 MgFacts7 SupSpec SupFacts SupFacts2 SupFacts3 SupFacts4.
From Verif Require Import TimeModel TimeSpec TimeFacts TimeFacts2 TimeFacts3 EnSpec EnFacts7 CritModel CritSpec DynSpec DynFacts DynFacts2.
Open Scope R_scope.

(** the coupled problem has exactly one angular flux *)
Section Coupled.
Variables (P : sn) (G : nat) (T : mat2) (X : mat3) (c : R) (p : mat2).
Hypothesis HP : positive_sweeps P G T.
Hypothesis Hc : 0 <= c < 1.
Hypothesis HD : damping P G T X c p.

Lemma coupled_exists r bnd : exists A, angular_flux_of P G T (fun i m g => collided P G X (scalar_flux P A) i m g + r i m g) bnd A.
Proof.
  destruct (damped_well_posed P G T X c p HP Hc HD (mkArr3 (angles P) G r) bnd) as (sol & Hs & _).
  destruct (afo_exists P G T HP (fun i m g => collided P G X sol i m g + r i m g) bnd) as (A & HA).
  assert (EA : agree2 (cells P) G (scalar_flux P A) sol).
  { intros i g Hi Hg. rewrite (afo_pass P G T HP _ _ A i g HA Hi Hg), (solution_pass P G T X HP _ _ sol Hs g i Hg Hi).
    apply pass_flux_at; [exact Hi| |reflexivity]. intros m j Hm Hj. unfold mg_source, collided. cbn [at3 d3b d3c].
    assert (Kg : bidx G g = g) by (unfold bidx; destruct (Nat.eqb_spec G 1); lia).
    assert (Km : bidx (angles P) m = m) by (unfold bidx; destruct (Nat.eqb_spec (angles P) 1); lia).
    rewrite Kg, Km. reflexivity. }
  exists A. apply (afo_ext P G T (fun i m g => collided P G X sol i m g + r i m g)); [|exact HA]. intros i m g Hi Hm Hg. f_equal.
  apply collided_ext. intros h Hh. symmetry. apply EA; assumption.
Qed.
Lemma coupled_minus r r' bnd A B :
  angular_flux_of P G T (fun i m g => collided P G X (scalar_flux P A) i m g + r i m g) bnd A ->
  angular_flux_of P G T (fun i m g => collided P G X (scalar_flux P B) i m g + r' i m g) bnd B ->
  angular_flux_of P G T (fun i m g => collided P G X (scalar_flux P (fun i m g => 1 * A i m g + (-1) * B i m g)) i m g + (r i m g - r' i m g)) no_inflow
    (fun i m g => 1 * A i m g + (-1) * B i m g).
Proof.
  intros HA HB.
  assert (B1 : forall g m, (g < G)%nat -> (m < angles P)%nat -> mg_boundary no_inflow (mu P) g m = 1 * mg_boundary bnd (mu P) g m + (-1) * mg_boundary bnd (mu P) g m).
  { intros. rewrite no_inflow_zero. ring. }
  eapply afo_ext; [|exact (afo_linear P G T _ _ bnd bnd no_inflow A B 1 (-1) B1 HA HB)].
  intros i m g Hi Hm Hg. cbv beta.
  rewrite (collided_ext P G X (scalar_flux P (fun i m g => 1 * A i m g + (-1) * B i m g)) (fun i h => 1 * scalar_flux P A i h + (-1) * scalar_flux P B i h)).
  - rewrite collided_linear. ring.
  - intros h Hh. apply scalar_linear.
Qed.
Hypothesis HX : forall i g h, (i < cells P)%nat -> (g < G)%nat -> (h < G)%nat -> 0 <= X (medium P i) g h.
Lemma coupled_unique r bnd A B :
  angular_flux_of P G T (fun i m g => collided P G X (scalar_flux P A) i m g + r i m g) bnd A ->
  angular_flux_of P G T (fun i m g => collided P G X (scalar_flux P B) i m g + r i m g) bnd B ->
  agree3 (cells P) (angles P) G A B.
Proof.
  intros HA HB.
  assert (Q : forall U V, angular_flux_of P G T (fun i m g => collided P G X (scalar_flux P U) i m g + r i m g) bnd U ->
    angular_flux_of P G T (fun i m g => collided P G X (scalar_flux P V) i m g + r i m g) bnd V -> below3 P G V U).
  { intros U V HU HV. pose proof (coupled_nonneg P G T HP X c p _ no_inflow _ Hc HD HX (coupled_minus r r bnd U V HU HV)) as N.
    intros i m g Hi Hm Hg. assert (0 <= 1 * U i m g + -1 * V i m g); [|lra]. apply N; try assumption; [intros ? ? ? ? ? ?; lra|intros; rewrite no_inflow_zero; lra]. }
  intros i m g Hi Hm Hg. apply Rle_antisym; [exact (Q B A HB HA i m g Hi Hm Hg)|exact (Q A B HA HB i m g Hi Hm Hg)].
Qed.
End Coupled.

(** a larger total cross section only shrinks what a flight leaves *)
Lemma damping_more P G T T' X c p : positive_sweeps P G T -> positive_sweeps P G T' ->
  (forall i g, (i < cells P)%nat -> (g < G)%nat -> T (medium P i) g <= T' (medium P i) g) ->
  damping P G T X c p -> damping P G T' X c p.
Proof.
  intros HP HP' HT HD. split; [exact (proj1 HD)|]. intros g Hg.
  exists (tau P T' g (fun j => rsum G (fun h => Rabs (X (medium P j) g h) * p j h))).
  split; [apply tau_flux_of; [apply (proj1 HP')|apply (ps_divisors P G T' HP' g Hg)]|]. intros i Hi.
  eapply Rle_trans; [|exact (damping_tau P G T X c p HP HD g i Hg Hi)].
  set (q := fun i (m : nat) g => rsum G (fun h => Rabs (X (medium P i) g h) * p i h)).
  destruct (afo_exists P G T HP q no_inflow) as (A & HA). destruct (afo_exists P G T' HP' q no_inflow) as (B & HB).
  assert (Q0 : below3 P G (fun _ _ _ => 0) q).
  { intros i' m' g' Hi' Hm' Hg'. apply rsum_nonneg. intros h Hh. apply Rmult_le_pos; [apply Rabs_pos|left; apply (proj1 HD); assumption]. }
  assert (B0 := afo_nonneg P G T' HP' q no_inflow B HB Q0 ltac:(intros; rewrite no_inflow_zero; lra)).
  assert (HB' := afo_total P G T' T q no_inflow B HB).
  assert (B1 : forall g m, (g < G)%nat -> (m < angles P)%nat -> mg_boundary no_inflow (mu P) g m = 1 * mg_boundary no_inflow (mu P) g m + (-1) * mg_boundary no_inflow (mu P) g m).
  { intros. rewrite no_inflow_zero. ring. }
  assert (HC := afo_linear P G T _ _ no_inflow no_inflow no_inflow A B 1 (-1) B1 HA HB').
  assert (C0 := afo_nonneg P G T HP _ no_inflow _ HC).
  assert (LE : below3 P G B A).
  { intros i' m' g' Hi' Hm' Hg'. assert (0 <= 1 * A i' m' g' + -1 * B i' m' g'); [|lra]. apply C0; try assumption; [|intros; rewrite no_inflow_zero; lra].
    intros i2 m2 g2 Hi2 Hm2 Hg2. specialize (B0 i2 m2 g2 Hi2 Hm2 Hg2). specialize (HT i2 g2 Hi2 Hg2). cbv beta in *. nra. }
  assert (E : forall U A0 (HU : positive_sweeps P G U), angular_flux_of P G U q no_inflow A0 -> scalar_flux P A0 i g = tau P U g (fun j => rsum G (fun h => Rabs (X (medium P j) g h) * p j h)) i).
  { intros U A0 HU HA0. rewrite (afo_pass P G U HU _ _ A0 i g HA0 Hi Hg). unfold tau. apply pass_flux_at; [exact Hi|reflexivity|]. intros m Hm. apply no_inflow_zero. }
  rewrite <- (E T A HP HA), <- (E T' B HP' HB). apply rsum_le. intros m Hm. apply Rmult_le_compat_l; [apply (proj2 (proj2 HP)); exact Hm|apply LE; assumption].
Qed.
Lemma damping_effective P G T X c p velocity dt w : positive_sweeps P G T -> positive_sweeps P G (effective_total w T velocity dt) ->
  (forall g, (g < G)%nat -> 0 < velocity g) -> 0 < dt -> 0 <= w -> damping P G T X c p -> damping P G (effective_total w T velocity dt) X c p.
Proof.
  intros HP HE HV Hdt Hw. apply damping_more; [exact HP|exact HE|]. intros i g Hi Hg. unfold effective_total.
  assert (0 <= w / (velocity g * dt)); [|lra]. apply Rmult_le_pos; [exact Hw|]. left. apply Rinv_0_lt_compat, Rmult_lt_0_compat; [apply HV; exact Hg|exact Hdt].
Qed.

(** exact backward Euler histories exist whenever every step is damped *)
Lemma damped_history_exists P G velocity dt T X c p ext bnd flux steps : positive_sweeps P G (effective_total 1 T velocity dt) -> 0 <= c < 1 ->
  damping P G (effective_total 1 T velocity dt) X c p -> (forall g, (g < G)%nat -> velocity g <> 0) -> dt <> 0 ->
  exists psi, psi 0%nat = flux /\ exact_history false P G velocity dt T X ext bnd steps psi.
Proof.
  intros HE Hc HD HV Hdt. induction steps as [|n (psi & H0 & H)]; [exists (fun _ => flux); split; [reflexivity|intros k Hk; lia]|].
  destruct (coupled_exists P G _ X c p HE Hc HD (fun i m g => at3 (ext n) i (bidx (d3b (ext n)) m) (bidx (d3c (ext n)) g) + psi n i m g / (velocity g * dt)) (bnd n)) as (A & HA).
  assert (HA' : angular_flux_of P G (effective_total 1 T velocity dt) (fun i m g => collided P G X (scalar_flux P A) i m g
      + at3 (ext n) i (bidx (d3b (ext n)) m) (bidx (d3c (ext n)) g) + psi n i m g / (velocity g * dt)) (bnd n) A).
  { eapply afo_ext; [|exact HA]. intros i m g _ _ _. cbv beta. ring. }
  destruct (afo_step P G velocity dt T X (ext n) (bnd n) (psi n) A (scalar_flux P A) HV Hdt HA') as (E & HE').
  exists (fun j => if Nat.eqb j (S n) then A else psi j). split; [exact H0|]. intros k Hk.
  destruct (Nat.eq_dec k n) as [-> |Hne].
  - rewrite Nat.eqb_refl. exists E. cbn [run_derivative]. destruct (Nat.eqb_spec n (S n)); [lia|]. exact HE'.
  - destruct (H k ltac:(lia)) as (E' & H'). exists E'. cbn [run_derivative] in *. destruct (Nat.eqb_spec (S k) (S n)); [lia|]. destruct (Nat.eqb_spec k (S n)); [lia|]. exact H'.
Qed.

Lemma exact_step_input P G X e psi i m g : step_input P G X e (scalar_flux P psi) psi i m g = at3 e i (bidx (d3b e) m) (bidx (d3c e) g).
Proof. unfold step_input. rewrite rsum_zero_ext; [ring|]. intros; ring. Qed.

(** a steady flux is a history *)
Lemma steady_history P G velocity dt T X ext bnd A steps : (forall g, (g < G)%nat -> velocity g <> 0) -> dt <> 0 ->
  angular_flux_of P G T (fun i m g => collided P G X (scalar_flux P A) i m g + at3 ext i (bidx (d3b ext) m) (bidx (d3c ext) g)) bnd A ->
  exact_history false P G velocity dt T X (fun _ => ext) (fun _ => bnd) steps (fun _ => A).
Proof.
  intros HV Hdt H k Hk. apply (afo_step P G velocity dt T X ext bnd A A (scalar_flux P A) HV Hdt).
  eapply afo_ext; [|exact (afo_total P G T (effective_total 1 T velocity dt) _ _ _ H)].
  intros i m g Hi Hm Hg. cbv beta. unfold effective_total. specialize (HV g Hg). field. split; assumption.
Qed.

Theorem relaxes P G velocity T X c p : positive_sweeps P G T -> sound_slab P -> 0 < rsum (angles P) (wt P) ->
  (forall i g h, (i < cells P)%nat -> (g < G)%nat -> (h < G)%nat -> 0 <= X (medium P i) g h) -> (forall g, (g < G)%nat -> 0 < velocity g) ->
  0 <= c < 1 -> damping P G T X c p -> exists K a, 1 <= K /\ 0 < a /\
  forall ext bnd, exists A,
    angular_flux_of P G T (fun i m g => collided P G X (scalar_flux P A) i m g + at3 ext i (bidx (d3b ext) m) (bidx (d3c ext) g)) bnd A /\
    forall dt steps psi d, 0 < dt -> positive_sweeps P G (effective_total 1 T velocity dt) -> 0 <= d ->
      exact_history false P G velocity dt T X (fun _ => ext) (fun _ => bnd) steps psi -> within3 P G d (psi 0%nat) A ->
      forall k, (k <= steps)%nat -> within3 P G (K * (d / (1 + a * dt) ^ k)) (psi k) A.
Proof.
  intros HP HS HW HX HV Hc HD. destruct (forgets P G velocity T X HP HW HX HV c p Hc HD) as (K & a & HK & Ha & F).
  exists K, a. split; [exact HK|]. split; [exact Ha|]. intros ext bnd.
  destruct (coupled_exists P G T X c p HP Hc HD (fun i m g => at3 ext i (bidx (d3b ext) m) (bidx (d3c ext) g)) bnd) as (A & HA).
  exists A. split; [exact HA|]. intros dt steps psi d Hdt HE Hd H W k Hk.
  assert (HV0 : forall g, (g < G)%nat -> velocity g <> 0) by (intros g Hg; specialize (HV g Hg); lra).
  assert (SH := steady_history P G velocity dt T X ext bnd A steps HV0 ltac:(lra) HA).
  intros i m g Hi Hm Hg. rewrite <- (Rplus_0_r (d / (1 + a * dt) ^ k)).
  apply (F dt _ _ _ steps psi (fun _ => A) _ _ d 0 Hdt HE Hd (Rle_refl 0) H SH W); try assumption.
  intros j Hj i' m' g' Hi' Hm' Hg'. rewrite !exact_step_input. rewrite Rminus_diag_eq by reflexivity. rewrite Rabs_R0. lra.
Qed.

(** the code's backward Euler runs *)
Theorem run_forgets P G velocity T s f c p : positive_sweeps P G T -> 0 < rsum (angles P) (wt P) -> angles P <> 1%nat ->
  (forall i g h, (i < cells P)%nat -> (g < G)%nat -> (h < G)%nat -> 0 <= total_transfer s f (medium P i) g h) -> (forall g, (g < G)%nat -> 0 < velocity g) ->
  0 <= c < 1 -> damping P G T (total_transfer s f) c p -> exists K a, 1 <= K /\ 0 < a /\
  forall materials flux external boundary steps dt ft, 0 < dt -> positive_sweeps P G (effective_total 1 T velocity dt) ->
  (forall i, (i < cells P)%nat -> (medium P i < materials)%nat) ->
  timed_run false P materials G flux T (Scatter3 s) f velocity external boundary steps dt 1 = Ok ft ->
  exists psi, psi 0%nat = flux /\
    time_history false P G velocity dt T (total_transfer s f) (step_row external) (step_row boundary) steps psi ft /\
    forall exact d r, 0 <= d -> 0 <= r -> exact_history false P G velocity dt T (total_transfer s f) (step_row external) (step_row boundary) steps exact ->
      within3 P G d flux (exact 0%nat) ->
      (forall j i g, (j < steps)%nat -> (i < cells P)%nat -> (g < G)%nat ->
         Rabs (rsum G (fun h => total_transfer s f (medium P i) g h * (ft j i h - scalar_flux P (psi (S j)) i h))) <= r) ->
      forall k, (k <= steps)%nat -> within3 P G (K * (d / (1 + a * dt) ^ k + r)) (psi k) (exact k).
Proof.
  intros HP HW HA HX HV Hc HD. destruct (forgets P G velocity T _ HP HW HX HV c p Hc HD) as (K & a & HK & Ha & F).
  exists K, a. split; [exact HK|]. split; [exact Ha|]. intros materials flux external boundary steps dt ft Hdt HE Hmed E.
  assert (HV0 : forall g, (g < G)%nat -> velocity g <> 0) by (intros g Hg; specialize (HV g Hg); lra).
  destruct (timed_history false P materials G flux T s f velocity external boundary steps dt HA (proj1 HP) Hmed HV0 ltac:(lra) ft) as (psi & H0 & H).
  - intros k Hk. exact (ps_divisors P G _ HE).
  - exact E.
  - exists psi. split; [exact H0|]. split; [exact H|]. intros exact d r Hd Hr HX' W Hres k Hk.
    apply (F dt _ _ _ steps psi exact ft _ d r Hdt HE Hd Hr H HX'); [rewrite H0; exact W| |exact Hk].
    intros j Hj i m g Hi Hm Hg. rewrite exact_step_input. unfold step_input.
    replace (at3 (step_row external j) i (bidx (d3b (step_row external j)) m) (bidx (d3c (step_row external j)) g)
        + rsum G (fun h => total_transfer s f (medium P i) g h * (ft j i h - scalar_flux P (psi (S j)) i h))
        - at3 (step_row external j) i (bidx (d3b (step_row external j)) m) (bidx (d3c (step_row external j)) g))
      with (rsum G (fun h => total_transfer s f (medium P i) g h * (ft j i h - scalar_flux P (psi (S j)) i h))) by ring.
    apply Hres; assumption.
Qed.
