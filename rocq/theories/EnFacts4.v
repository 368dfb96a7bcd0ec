(** Runs of the program and uniqueness on every mesh. *)
From Coq Require Import Lra Lia Psatz.
From Verif Require Import Base BaseFacts SlabModel SlabSpec MgModel MgSpec MgFacts7 TimeModel TimeSpec TimeFacts TimeFacts2 EnSpec EnFacts EnFacts2 EnFacts3.
Open Scope R_scope.

Lemma rsum_zero_terms n f : (forall i, (i < n)%nat -> 0 <= f i) -> rsum n f <= 0 -> forall i, (i < n)%nat -> f i = 0.
Proof.
  intros H Hs i Hi. pose proof (rsum_term_le n f i H Hi). specialize (H i Hi). lra.
Qed.
Lemma total3_zero_terms P G f : (forall i m g, (i < cells P)%nat -> (m < angles P)%nat -> (g < G)%nat -> 0 <= f i m g) -> total3 P G f <= 0 ->
  forall i m g, (i < cells P)%nat -> (m < angles P)%nat -> (g < G)%nat -> f i m g = 0.
Proof.
  intros H Hs i m g Hi Hm Hg. unfold total3 in Hs.
  assert (A : rsum (cells P) (fun i => rsum (angles P) (fun m => f i m g)) = 0).
  { apply (rsum_zero_terms G (fun g => rsum (cells P) (fun i => rsum (angles P) (fun m => f i m g)))); [|exact Hs|exact Hg].
    intros h Hh. apply rsum_nonneg; intros; apply rsum_nonneg; intros; apply H; assumption. }
  assert (B : rsum (angles P) (fun m => f i m g) = 0).
  { apply (rsum_zero_terms (cells P) (fun i => rsum (angles P) (fun m => f i m g))); [|lra|exact Hi].
    intros j Hj. apply rsum_nonneg; intros; apply H; assumption. }
  apply (rsum_zero_terms (angles P) (fun m => f i m g)); [|lra|exact Hm]. intros; apply H; assumption.
Qed.

Lemma sound_total P G xs_total transfer i g : sound_slab P -> no_multiplication P G xs_total transfer ->
  (i < cells P)%nat -> (g < G)%nat -> 0 <= xs_total (medium P i) g.
Proof.
  intros (_ & Hw & _) HM Hi Hg. eapply Rle_trans; [|apply HM; eassumption].
  apply Rmult_le_pos; [apply rsum_nonneg; exact Hw|].
  assert (0 <= rsum G (fun h => Rabs (transfer (medium P i) g h))) by (apply rsum_nonneg; intros; apply Rabs_pos).
  assert (0 <= rsum G (fun h => Rabs (transfer (medium P i) h g))) by (apply rsum_nonneg; intros; apply Rabs_pos). lra.
Qed.
Lemma sound_divisors P G xs_total : sound_slab P -> (forall i g, (i < cells P)%nat -> (g < G)%nat -> 0 <= xs_total (medium P i) g) ->
  mg_divisors P G xs_total.
Proof.
  intros (Hdx & _ & Hmu & _) Ht g Hg m Hm i Hi. specialize (Hdx i Hi). specialize (Ht i g Hi Hg). specialize (Hmu m Hm).
  assert (0 < Rabs (mu P m) / dx P i) by (apply Rdiv_lt_0_compat; [apply Rabs_pos_lt; exact Hmu|exact Hdx]). split; lra.
Qed.
Lemma effective_nonneg two k xs_total velocity dt m g : 0 <= xs_total m g -> 0 < velocity g -> 0 < dt ->
  0 <= effective_total (run_weight two k) xs_total velocity dt m g.
Proof.
  intros H V T. unfold effective_total. assert (0 < run_weight two k) by (unfold run_weight; destruct two, k; lra).
  assert (0 < run_weight two k / (velocity g * dt)) by (apply Rdiv_lt_0_compat; [assumption|nra]). lra.
Qed.
Lemma run_divisors two P G xs_total transfer velocity dt k : sound_slab P -> no_multiplication P G xs_total transfer ->
  (forall g, (g < G)%nat -> 0 < velocity g) -> 0 < dt -> mg_divisors P G (effective_total (run_weight two k) xs_total velocity dt).
Proof.
  intros HP HM HV Hdt. apply sound_divisors; [exact HP|]. intros i g Hi Hg. apply effective_nonneg; [eapply sound_total; eassumption|auto|exact Hdt].
Qed.

(** *** two runs *)
Lemma runs_stable two P materials groups flux flux' xs_total s f velocity external external' boundary steps dt ft ft' :
  sound_slab P -> no_multiplication P groups xs_total (total_transfer s f) -> angles P <> 1%nat ->
  (forall i, (i < cells P)%nat -> (medium P i < materials)%nat) ->
  (forall g, (g < groups)%nat -> 0 < velocity g) -> 0 < dt ->
  timed_run two P materials groups flux xs_total (Scatter3 s) f velocity external boundary steps dt 1 = Ok ft ->
  timed_run two P materials groups flux' xs_total (Scatter3 s) f velocity external' boundary steps dt 1 = Ok ft' ->
  exists psi psi' : nat -> mat3, psi 0%nat = flux /\ psi' 0%nat = flux' /\
    time_history two P groups velocity dt xs_total (total_transfer s f) (step_row external) (step_row boundary) steps psi ft /\
    time_history two P groups velocity dt xs_total (total_transfer s f) (step_row external') (step_row boundary) steps psi' ft' /\
    forall k, (k <= steps)%nat ->
      density_norm P groups velocity (minus3 (psi k) (psi' k)) <=
        (if two then sqrt 2 else 1) * density_norm P groups velocity (minus3 flux flux')
        + (if two then 6 else 1) * dt * rsum k (fun j => source_norm P groups velocity
            (minus3 (step_input P groups (total_transfer s f) (step_row external j) (ft j) (psi (S j)))
                    (step_input P groups (total_transfer s f) (step_row external' j) (ft' j) (psi' (S j))))).
Proof.
  intros HP HM Ha Hmed HV Hdt E E'.
  assert (Hv : forall g, (g < groups)%nat -> velocity g <> 0) by (intros g Hg; specialize (HV g Hg); lra).
  assert (Hd : dt <> 0) by lra. assert (Hnz : nonzero_ordinates (angles P) (mu P)) by apply HP.
  destruct (timed_history two P materials groups flux xs_total s f velocity external boundary steps dt Ha Hnz Hmed Hv Hd ft) as (psi & H0 & H); [|exact E|].
  { intros k Hk. eapply run_divisors; eassumption. }
  destruct (timed_history two P materials groups flux' xs_total s f velocity external' boundary steps dt Ha Hnz Hmed Hv Hd ft') as (psi' & H0' & H'); [|exact E'|].
  { intros k Hk. eapply run_divisors; eassumption. }
  exists psi, psi'. split; [exact H0|]. split; [exact H0'|]. split; [exact H|]. split; [exact H'|].
  intros k Hk. rewrite <- H0, <- H0'. apply (stability two P groups velocity dt xs_total (total_transfer s f) _ _ _ steps psi psi' ft ft' HP HM HV Hdt H H' k Hk).
Qed.

(** *** the scalar flux is controlled by the angular flux *)
Lemma scalar_norm P groups velocity psi : sound_slab P -> (forall g, (g < groups)%nat -> 0 < velocity g) ->
  sqrt (rsum groups (fun g => rsum (cells P) (fun i => dx P i * Rsqr (scalar_flux P psi i g) / velocity g)))
  <= sqrt (rsum (angles P) (wt P)) * density_norm P groups velocity psi.
Proof.
  intros HP HV. unfold density_norm. destruct HP as (Hdx & Hw & _).
  rewrite <- sqrt_mult_alt by (apply rsum_nonneg; exact Hw). apply sqrt_le_1_alt. unfold total3.
  rewrite <- rsum_scal. apply rsum_le; intros g Hg. rewrite <- rsum_scal. apply rsum_le; intros i Hi.
  pose proof (scalar_square P psi i g Hw) as S. specialize (Hdx i Hi). specialize (HV g Hg).
  replace (rsum (angles P) (wt P) * rsum (angles P) (fun m => dx P i * wt P m * (psi i m g)² / velocity g))
    with (dx P i / velocity g * (rsum (angles P) (wt P) * rsum (angles P) (fun m => wt P m * (psi i m g)²))).
  - replace (dx P i * (scalar_flux P psi i g)² / velocity g) with (dx P i / velocity g * Rsqr (scalar_flux P psi i g)) by (field; lra).
    apply Rmult_le_compat_l; [|exact S]. left. apply Rdiv_lt_0_compat; assumption.
  - rewrite (rsum_ext _ (fun m => dx P i * wt P m * (psi i m g)² / velocity g) (fun m => dx P i / velocity g * (wt P m * (psi i m g)²))) by (intros; field; lra).
    rewrite rsum_scal. ring.
Qed.

(** *** exact histories *)
Lemma input_exact P groups transfer ext emit psi i m g : (forall h, (h < groups)%nat -> emit i h = scalar_flux P psi i h) ->
  step_input P groups transfer ext emit psi i m g = at3 ext i (bidx (d3b ext) m) (bidx (d3c ext) g).
Proof.
  intros H. unfold step_input. rewrite rsum_zero_ext; [ring|]. intros h Hh. rewrite H by exact Hh. ring.
Qed.
Lemma source_zero P G velocity q : (forall i m g, (i < cells P)%nat -> (m < angles P)%nat -> (g < G)%nat -> q i m g = 0) -> source_norm P G velocity q = 0.
Proof.
  intros H. unfold source_norm. rewrite (total3_ext _ _ _ (fun i m g => 0)).
  - replace (total3 P G (fun _ _ _ => 0)) with 0; [apply sqrt_0|]. unfold total3. symmetry.
    apply rsum_zero_ext; intros. apply rsum_zero_ext; intros. apply rsum_zero_ext; reflexivity.
  - intros i m h Hi Hm Hh. rewrite H by assumption. unfold Rsqr. ring.
Qed.
Lemma input_minus_zero P G velocity transfer ext emit emit' psi psi' :
  agree2 (cells P) G emit (scalar_flux P psi) -> agree2 (cells P) G emit' (scalar_flux P psi') ->
  source_norm P G velocity (minus3 (step_input P G transfer ext emit psi) (step_input P G transfer ext emit' psi')) = 0.
Proof.
  intros A A'. apply source_zero. intros i m g Hi Hm Hg. unfold minus3. rewrite !input_exact by (intros; auto). ring.
Qed.
Lemma exact_decay two P G velocity dt xs_total transfer ext bnd steps psi psi' emit emit' :
  sound_slab P -> no_multiplication P G xs_total transfer -> (forall g, (g < G)%nat -> 0 < velocity g) -> 0 < dt ->
  time_history two P G velocity dt xs_total transfer ext bnd steps psi emit ->
  time_history two P G velocity dt xs_total transfer ext bnd steps psi' emit' ->
  (forall k, (k < steps)%nat -> agree2 (cells P) G (emit k) (scalar_flux P (psi (S k)))) ->
  (forall k, (k < steps)%nat -> agree2 (cells P) G (emit' k) (scalar_flux P (psi' (S k)))) ->
  (forall k, (k <= steps)%nat ->
     density_norm P G velocity (minus3 (psi k) (psi' k)) <= (if two then sqrt 2 else 1) * density_norm P G velocity (minus3 (psi 0%nat) (psi' 0%nat))) /\
  (two = false -> forall k, (k < steps)%nat ->
     density_norm P G velocity (minus3 (psi (S k)) (psi' (S k))) <= density_norm P G velocity (minus3 (psi k) (psi' k))).
Proof.
  intros HP HM HV Hdt H H' A A'. split.
  - intros k Hk. eapply Rle_trans; [apply (stability two P G velocity dt xs_total transfer ext ext bnd steps psi psi' emit emit'); eassumption|].
    rewrite (rsum_zero_ext k); [lra|]. intros j Hj. apply input_minus_zero; [apply A|apply A']; lia.
  - intros -> j Hj. eapply Rle_trans; [apply (euler_history P G velocity dt xs_total transfer HP HM HV Hdt ext ext bnd steps psi psi' emit emit' H H' j Hj)|].
    rewrite input_minus_zero; [lra|apply A; exact Hj|apply A'; exact Hj].
Qed.

(** *** one history without inflow: bounded by what was put in *)
Lemma zero_history two P G velocity dt xs_total transfer bnd steps :
  (forall k m g, (k < steps)%nat -> (m < angles P)%nat -> (g < G)%nat -> mg_boundary (bnd k) (mu P) g m = 0) ->
  time_history two P G velocity dt xs_total transfer (fun _ => no_inflow) bnd steps (fun _ _ _ _ => 0) (fun _ _ _ => 0).
Proof.
  intros HB k Hk. exists (fun _ _ _ => 0). intros g m Hg Hm. split.
  - intros i Hi. split; [lra|]. rewrite (rsum_zero_ext G) by (intros; ring). unfold no_inflow; cbn [at3].
    replace (run_derivative two dt (fun _ _ _ _ => 0) k (fun _ _ _ => 0) i m g) with 0.
    + unfold Rdiv. ring.
    + unfold run_derivative. destruct two; [destruct k|]; unfold euler_derivative, bdf2_derivative, Rdiv; ring.
  - rewrite reflected_zero, HB by assumption. ring.
Qed.
Lemma density_ext P G velocity a b : (forall i m g, (i < cells P)%nat -> (m < angles P)%nat -> (g < G)%nat -> a i m g = b i m g) ->
  density_norm P G velocity a = density_norm P G velocity b.
Proof. intros H. unfold density_norm. f_equal. apply total3_ext; intros. rewrite H by assumption. reflexivity. Qed.
Lemma source_ext P G velocity a b : (forall i m g, (i < cells P)%nat -> (m < angles P)%nat -> (g < G)%nat -> a i m g = b i m g) ->
  source_norm P G velocity a = source_norm P G velocity b.
Proof. intros H. unfold source_norm. f_equal. apply total3_ext; intros. rewrite H by assumption. reflexivity. Qed.
Lemma history_bounded two P G velocity dt xs_total transfer ext bnd steps psi emit :
  sound_slab P -> no_multiplication P G xs_total transfer -> (forall g, (g < G)%nat -> 0 < velocity g) -> 0 < dt ->
  (forall k m g, (k < steps)%nat -> (m < angles P)%nat -> (g < G)%nat -> mg_boundary (bnd k) (mu P) g m = 0) ->
  time_history two P G velocity dt xs_total transfer ext bnd steps psi emit ->
  forall k, (k <= steps)%nat ->
  density_norm P G velocity (psi k) <= (if two then sqrt 2 else 1) * density_norm P G velocity (psi 0%nat)
    + (if two then 6 else 1) * dt * rsum k (fun j => source_norm P G velocity (step_input P G transfer (ext j) (emit j) (psi (S j)))).
Proof.
  intros HP HM HV Hdt HB H k Hk.
  pose proof (stability two P G velocity dt xs_total transfer ext _ bnd steps psi _ emit _ HP HM HV Hdt H (zero_history two P G velocity dt xs_total transfer bnd steps HB) k Hk) as S.
  cbv beta in S.
  assert (Z : forall a, density_norm P G velocity (minus3 a (fun _ _ _ => 0)) = density_norm P G velocity a) by (intros; apply density_ext; intros; unfold minus3; ring).
  rewrite !Z in S. eapply Rle_trans; [exact S|]. right. f_equal. f_equal. apply rsum_ext. intros j Hj. apply source_ext. intros i m g Hi Hm Hg.
  unfold minus3. unfold step_input at 2. unfold no_inflow; cbn [at3]. rewrite (rsum_zero_ext G); [ring|].
  intros h Hh. unfold scalar_flux. rewrite (rsum_zero_ext (angles P)) by (intros; ring). ring.
Qed.
Lemma run_bounded two P materials groups flux xs_total s f velocity external boundary steps dt ft :
  sound_slab P -> no_multiplication P groups xs_total (total_transfer s f) -> angles P <> 1%nat ->
  (forall i, (i < cells P)%nat -> (medium P i < materials)%nat) ->
  (forall g, (g < groups)%nat -> 0 < velocity g) -> 0 < dt ->
  (forall k m g, (k < steps)%nat -> (m < angles P)%nat -> (g < groups)%nat -> mg_boundary (step_row boundary k) (mu P) g m = 0) ->
  timed_run two P materials groups flux xs_total (Scatter3 s) f velocity external boundary steps dt 1 = Ok ft ->
  exists psi : nat -> mat3, psi 0%nat = flux /\
    time_history two P groups velocity dt xs_total (total_transfer s f) (step_row external) (step_row boundary) steps psi ft /\
    forall k, (k <= steps)%nat ->
      density_norm P groups velocity (psi k) <= (if two then sqrt 2 else 1) * density_norm P groups velocity flux
        + (if two then 6 else 1) * dt * rsum k (fun j => source_norm P groups velocity
            (step_input P groups (total_transfer s f) (step_row external j) (ft j) (psi (S j)))).
Proof.
  intros HP HM Ha Hmed HV Hdt HB E.
  assert (Hv : forall g, (g < groups)%nat -> velocity g <> 0) by (intros g Hg; specialize (HV g Hg); lra).
  assert (Hd : dt <> 0) by lra. assert (Hnz : nonzero_ordinates (angles P) (mu P)) by apply HP.
  destruct (timed_history two P materials groups flux xs_total s f velocity external boundary steps dt Ha Hnz Hmed Hv Hd ft) as (psi & H0 & H); [|exact E|].
  { intros k Hk. eapply run_divisors; eassumption. }
  exists psi. split; [exact H0|]. split; [exact H|]. intros k Hk. rewrite <- H0. eapply history_bounded; eassumption.
Qed.

(** *** at most one solution of a step, on any mesh and for any time step *)
Lemma norm_small P G velocity d : sound_slab P -> (forall g, (g < G)%nat -> 0 < velocity g) -> ip P G velocity d d <= 0 ->
  forall i g, (i < cells P)%nat -> (g < G)%nat -> scalar_flux P d i g = 0.
Proof.
  intros HP HV H i g Hi Hg. unfold scalar_flux. apply rsum_zero_ext. intros m Hm. unfold ip in H.
  assert (K : forall i m g, (i < cells P)%nat -> (m < angles P)%nat -> (g < G)%nat -> 0 <= dx P i * wt P m / velocity g * (d i m g * d i m g)).
  { intros j n h Hj Hn Hh. apply Rmult_le_pos; [apply weight_nonneg with (G := G); assumption|apply Rle_0_sqr]. }
  pose proof (total3_zero_terms P G _ K H i m g Hi Hm Hg) as Z. cbv beta in Z.
  assert (0 < dx P i / velocity g) by (apply Rdiv_lt_0_compat; [apply HP; exact Hi|auto]).
  replace (dx P i * wt P m / velocity g * (d i m g * d i m g)) with (dx P i / velocity g * (wt P m * d i m g * d i m g)) in Z by (field; specialize (HV g Hg); lra).
  apply Rmult_integral in Z. destruct Z as [Z|Z]; [lra|]. apply Rmult_integral in Z. destruct Z as [Z|Z]; [exact Z|rewrite Z; ring].
Qed.
Lemma exact_step_at_most_one two P G velocity dt xs_total transfer ext bnd psi k phi phi' :
  sound_slab P -> no_multiplication P G xs_total transfer -> (forall g, (g < G)%nat -> 0 < velocity g) -> 0 < dt ->
  exact_step P G velocity xs_total transfer ext bnd (run_derivative two dt psi k) phi ->
  exact_step P G velocity xs_total transfer ext bnd (run_derivative two dt psi k) phi' ->
  agree2 (cells P) G phi phi'.
Proof.
  intros HP HM HV Hdt (E & p & H & A) (E' & p' & H' & A') i g Hi Hg.
  enough (Z : scalar_flux P (minus3 p p') i g = 0).
  { rewrite scalar_minus in Z. rewrite A, A' by assumption. lra. }
  apply (norm_small P G velocity (minus3 p p') HP HV); [|exact Hi|exact Hg].
  assert (Q : source_norm P G velocity (minus3 (step_input P G transfer ext phi p) (step_input P G transfer ext phi' p')) = 0)
    by (apply input_minus_zero; assumption).
  assert (Eu : forall old, step_equation P G velocity xs_total transfer ext bnd (euler_derivative dt p old) phi E p ->
    step_equation P G velocity xs_total transfer ext bnd (euler_derivative dt p' old) phi' E' p' -> ip P G velocity (minus3 p p') (minus3 p p') <= 0).
  { intros old K K'. pose proof (euler_inequality P G velocity dt xs_total transfer HP HM HV Hdt _ _ _ _ _ _ _ _ _ E E' K K') as I.
    rewrite Q in I. eapply Rle_trans; [|eapply Rle_trans; [exact I|right; ring]]. right. unfold ip. apply total3_ext; intros. unfold minus3. ring. }
  destruct two; cbn [run_derivative] in H, H'; [|eapply Eu; eassumption].
  destruct k as [|k]; [eapply Eu; eassumption|].
  pose proof (bdf2_inequality P G velocity dt xs_total transfer HP HM HV Hdt _ _ _ _ _ _ _ _ _ _ _ E E' H H') as I.
  rewrite Q in I. assert (J : 3 * ip P G velocity (minus3 p p') (minus3 p p') <= 0); [|lra].
  eapply Rle_trans; [|eapply Rle_trans; [exact I|right; ring]]. right. unfold ip. rewrite <- total3_scal. apply total3_ext; intros. unfold minus3. ring.
Qed.

(** *** at most one steady solution *)
Lemma steady_at_most_one P G xs_total xs_scatter external boundary phi phi' :
  sound_slab P -> absorbing P G xs_total xs_scatter ->
  mg_solution P G xs_total xs_scatter external boundary phi -> mg_solution P G xs_total xs_scatter external boundary phi' ->
  agree2 (cells P) G phi phi'.
Proof.
  intros HP HM (E & H) (E' & H').
  set (W := rsum (angles P) (wt P)).
  set (low := fun m g => W * ((rsum G (fun h => Rabs (xs_scatter m g h)) + rsum G (fun h => Rabs (xs_scatter m h g))) / 2)).
  set (d := fun g m k => E g m k - E' g m k).
  set (p := fun i m g => (d g m i + d g m (S i)) / 2).
  assert (L : no_multiplication P G low xs_scatter) by (intros i g Hi Hg; unfold low, W; lra).
  assert (Hphi : forall i g, (i < cells P)%nat -> (g < G)%nat -> phi i g - phi' i g = scalar_flux P p i g).
  { intros i g Hi Hg. destruct (H g Hg) as (_ & _ & A). destruct (H' g Hg) as (_ & _ & A'). rewrite A, A' by exact Hi.
    unfold scalar_flux. rewrite <- rsum_minus. apply rsum_ext. intros m Hm. unfold p, d. lra. }
  assert (I : total3 P G (fun i m g => dx P i * wt P m * ((xs_total (medium P i) g - low (medium P i) g) * p i m g / 1 * p i m g))
     <= total3 P G (fun i m g => dx P i * wt P m * (0 * p i m g))).
  { apply (energy_core P G (fun _ => 1) low xs_scatter (fun i m g => (xs_total (medium P i) g - low (medium P i) g) * p i m g) p (fun _ _ _ => 0) d HP L).
    intros g m Hg Hm. destruct (H g Hg) as (B & C & _). destruct (H' g Hg) as (B' & C' & _). split.
    - intros i Hi. split; [reflexivity|]. specialize (B m Hm i Hi). specialize (B' m Hm i Hi). unfold mg_source in B, B'.
      rewrite (rsum_ext G _ (fun h => xs_scatter (medium P i) g h * phi i h - xs_scatter (medium P i) g h * phi' i h)).
      + rewrite rsum_minus. unfold p, d. cbv beta in B, B' |- *. nra.
      + intros h Hh. rewrite <- Hphi by assumption. ring.
    - unfold d. rewrite (reflected_minus _ _ _ _ _ (E g) (E' g) m), (C m Hm), (C' m Hm). ring. }
  assert (Z : total3 P G (fun i m g => dx P i * wt P m * (0 * p i m g)) = 0).
  { unfold total3. apply rsum_zero_ext; intros. apply rsum_zero_ext; intros. apply rsum_zero_ext; intros. ring. }
  rewrite Z in I. destruct HP as (Hdx & Hw & _).
  assert (K : forall i m g, (i < cells P)%nat -> (m < angles P)%nat -> (g < G)%nat ->
     0 <= dx P i * wt P m * ((xs_total (medium P i) g - low (medium P i) g) * p i m g / 1 * p i m g)).
  { intros i m g Hi Hm Hg. specialize (HM i g Hi Hg). fold W in HM. specialize (Hdx i Hi). specialize (Hw m Hm).
    replace (dx P i * wt P m * ((xs_total (medium P i) g - low (medium P i) g) * p i m g / 1 * p i m g))
      with (dx P i * wt P m * (xs_total (medium P i) g - low (medium P i) g) * Rsqr (p i m g)) by (unfold Rsqr; field).
    apply Rmult_le_pos; [|apply Rle_0_sqr]. apply Rmult_le_pos; [nra|]. unfold low. lra. }
  intros i g Hi Hg. enough (Q : scalar_flux P p i g = 0) by (specialize (Hphi i g Hi Hg); lra).
  unfold scalar_flux. apply rsum_zero_ext. intros m Hm.
  pose proof (total3_zero_terms P G _ K I i m g Hi Hm Hg) as T. cbv beta in T. specialize (HM i g Hi Hg). fold W in HM. specialize (Hdx i Hi).
  replace (dx P i * wt P m * ((xs_total (medium P i) g - low (medium P i) g) * p i m g / 1 * p i m g))
      with (dx P i * (xs_total (medium P i) g - low (medium P i) g) * (wt P m * p i m g * p i m g)) in T by field.
  apply Rmult_integral in T. destruct T as [T|T].
  - exfalso. apply Rmult_integral in T. unfold low in T. destruct T; lra.
  - apply Rmult_integral in T. destruct T as [T|T]; [exact T|rewrite T; ring].
Qed.
