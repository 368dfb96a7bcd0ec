(** The whole error of a run; runs without scattering. *)
From Coq Require Import Lra Lia Psatz.
From Verif Require Import Base BaseFacts SlabModel SlabSpec MgModel MgSpec MgFacts2 TimeModel TimeSpec TimeFacts TimeFacts2 ConvSpec.
From Verif Require Import EnSpec EnFacts EnFacts2 EnFacts3 EnFacts4 EnFacts5 EnFacts6 OrdSpec OrdFacts OrdFacts2 OrdFacts3 OrdFacts4.
Open Scope R_scope.

Lemma effective_speed two k xs_total velocity dt m g S : 0 < velocity g -> 0 < dt -> velocity g * xs_total m g <= S ->
  velocity g * effective_total (run_weight two k) xs_total velocity dt m g <= S + 3 / (2 * dt).
Proof.
  intros Hv Hd HS. unfold effective_total. replace (velocity g * (xs_total m g + run_weight two k / (velocity g * dt))) with (velocity g * xs_total m g + run_weight two k / dt) by (field; lra).
  assert (run_weight two k / dt <= 3 / (2 * dt)).
  { replace (3 / (2 * dt)) with (3 / 2 / dt) by (field; lra). unfold Rdiv at 1 2. apply Rmult_le_compat_r; [left; apply Rinv_0_lt_compat, Hd|]. unfold run_weight. destruct two; [destruct k|]; lra. }
  lra.
Qed.

Lemma least_bound n (f : nat -> R) : exists e, 0 <= e /\ (forall g, (g < n)%nat -> f g <= e) /\ forall y, 0 <= y -> (forall g, (g < n)%nat -> f g <= y) -> e <= y.
Proof.
  induction n as [|n (e & E0 & E1 & E2)].
  - exists 0. split; [lra|]. split; [intros; lia|]. intros; lra.
  - exists (Rmax e (f n)). split; [eapply Rle_trans; [exact E0|apply Rmax_l]|]. split.
    + intros g Hg. destruct (Nat.eq_dec g n) as [-> |D]; [apply Rmax_r|]. eapply Rle_trans; [apply E1; lia|apply Rmax_l].
    + intros y Hy H. apply Rmax_lub; [apply E2; [exact Hy|intros; apply H; lia]|apply H; lia].
Qed.
Lemma near_sym P groups T d f g : near_energy P groups T d f g -> near_energy P groups T d g f.
Proof.
  intros H h Hh. specialize (H h Hh). rewrite <- (reaction_opp P (fun m => T m h)) in H.
  erewrite reaction_ext; [exact H|]. intros; cbv beta; ring.
Qed.

(** a contraction that starts from a flux of size [M] and ends at one of size [M] *)
Lemma contracted P groups T q M old new sol : sound_slab P -> (forall i h, (i < cells P)%nat -> (h < groups)%nat -> 0 <= T (medium P i) h) ->
  0 <= q < 1 -> 0 <= M -> near_energy P groups T M old (fun _ _ => 0) -> near_energy P groups T M new (fun _ _ => 0) ->
  (forall d, 0 <= d -> near_energy P groups T d old sol -> near_energy P groups T (q * d) new sol) ->
  near_energy P groups T (2 * q * M / (1 - q)) new sol.
Proof.
  intros HP HT Hq HM HO HN HC.
  destruct (least_bound groups (fun h => reaction_norm P (fun m => T m h) (fun i => new i h - sol i h))) as (e & E0 & E1 & E2).
  assert (A : near_energy P groups T e new sol) by exact E1.
  pose proof (near_join P groups T _ _ _ _ _ HP HT HO HN) as B.
  pose proof (near_join P groups T _ _ _ _ _ HP HT B (near_sym _ _ _ _ _ _ A)) as C.
  specialize (HC (M + M + e) ltac:(lra) C). specialize (E2 (q * (M + M + e)) ltac:(apply Rmult_le_pos; lra) HC).
  intros h Hh. eapply Rle_trans; [apply A; exact Hh|]. apply (Rmult_le_reg_r (1 - q)); [lra|]. unfold Rdiv. rewrite Rmult_assoc, Rinv_l by lra. lra.
Qed.

Lemma converged_run two P materials groups start xs_total s f velocity external boundary steps dt ft c S :
  sound_slab P -> no_multiplication P groups xs_total (total_transfer s f) -> angles P <> 1%nat ->
  (forall i, (i < cells P)%nat -> (medium P i < materials)%nat) ->
  (forall g, (g < groups)%nat -> 0 < velocity g) -> 0 < dt ->
  0 <= c -> rsum (angles P) (wt P) * c < 1 ->
  (forall k, (k < steps)%nat -> coupled_below P groups (effective_total (run_weight two k) xs_total velocity dt) (total_transfer s f) c) ->
  0 <= S -> (forall i g, (i < cells P)%nat -> (g < groups)%nat -> velocity g * xs_total (medium P i) g <= S) ->
  timed_run two P materials groups start xs_total (Scatter3 s) f velocity external boundary steps dt 1 = Ok ft ->
  exists psi, psi 0%nat = start /\
    time_history two P groups velocity dt xs_total (total_transfer s f) (step_row external) (step_row boundary) steps psi ft /\
    forall k M, (k < steps)%nat -> 0 <= M ->
        near_energy P groups (effective_total (run_weight two k) xs_total velocity dt) M (step_start P start ft k) (fun _ _ => 0) ->
        near_energy P groups (effective_total (run_weight two k) xs_total velocity dt) M (ft k) (fun _ _ => 0) ->
        near_energy P groups (effective_total (run_weight two k) xs_total velocity dt)
          ((1 + rsum (angles P) (wt P) * c) * iteration_error (rsum (angles P) (wt P) * c) (cells P) M) (ft k) (scalar_flux P (psi (Datatypes.S k))) /\
        source_norm P groups velocity (unresolved P groups (total_transfer s f) (ft k) (psi (Datatypes.S k))) <= iteration_residual P groups c dt S M.
Proof.
  intros HP HM Ha Hmed HV Hdt Hc Hrho HC HS0 HS E.
  destruct (run_iterations two P materials groups start xs_total s f velocity external boundary steps dt ft c HP HM Ha Hmed HV Hdt Hc Hrho HC E) as (psi & H0 & HH & n & Hn).
  exists psi. split; [exact H0|]. split; [exact HH|]. 
  intros k M Hk HM0 HB0 HB. destruct (Hn k Hk) as (Nk & STEP). cbv zeta in STEP.
  destruct (exact_step_exactly_one two P groups velocity dt xs_total (total_transfer s f) (step_row external k) (step_row boundary k) psi k HP HM HV Hdt) as (sol & Sx & _).
  destruct (STEP sol Sx) as (GEO & STOP & NEXT).
  set (T := effective_total (run_weight two k) xs_total velocity dt) in *. set (rho := rsum (angles P) (wt P) * c) in *.
  assert (PW : 0 <= rsum (angles P) (wt P)) by (apply rsum_nonneg; apply HP).
  assert (Prho : 0 <= rho) by (apply Rmult_le_pos; assumption).
  assert (HT : forall i h, (i < cells P)%nat -> (h < groups)%nat -> 0 <= T (medium P i) h).
  { intros i h Hi Hh. apply effective_nonneg; [eapply sound_total; eassumption|auto|exact Hdt]. }
  pose proof (pow_lt_1_compat rho 100 ltac:(lra) ltac:(lia)) as Hq. pose proof (pos_INR (cells P)) as PN.
  assert (PI1 : 0 <= rho * (/ 10 ^ 8 * INR (cells P) * M) / (1 - rho)).
  { unfold Rdiv. apply Rmult_le_pos; [|left; apply Rinv_0_lt_compat; lra]. apply Rmult_le_pos; [exact Prho|]. apply Rmult_le_pos; [|exact HM0].
    apply Rmult_le_pos; [left; apply Rinv_0_lt_compat, pow_lt; lra|exact PN]. }
  assert (PI2 : 0 <= 2 * rho ^ 100 * M / (1 - rho ^ 100)).
  { unfold Rdiv. apply Rmult_le_pos; [|left; apply Rinv_0_lt_compat; lra]. apply Rmult_le_pos; [lra|exact HM0]. }
  assert (STOP2 : near_energy P groups T (iteration_error rho (cells P) M) (ft k) sol).
  { destruct (Nat.eq_dec (n k) 100) as [EQ|NE].
    - rewrite EQ in GEO. pose proof (contracted P groups T (rho ^ 100) M _ _ sol HP HT Hq HM0 HB0 HB GEO) as C.
      intros h Hh. eapply Rle_trans; [apply C; exact Hh|]. unfold iteration_error. lra.
    - specialize (STOP ltac:(lia) M HM0 HB). intros h Hh. eapply Rle_trans; [apply STOP; exact Hh|]. unfold iteration_error. lra. }
  assert (PE : 0 <= iteration_error rho (cells P) M) by (unfold iteration_error; lra).
  clear STOP. rename STOP2 into STOP. specialize (NEXT _ PE STOP).
  pose proof (near_join P groups T _ _ _ _ _ HP HT STOP NEXT) as J.
  replace (iteration_error rho (cells P) M + rho * iteration_error rho (cells P) M) with ((1 + rho) * iteration_error rho (cells P) M) in J by ring.
  split; [exact J|]. unfold iteration_residual. cbv zeta. fold rho.
  apply (unresolved_norm P groups velocity T); try assumption.
  - intros i g Hi Hg. split; [apply HT; assumption|]. apply effective_speed; [apply HV; exact Hg|exact Hdt|apply HS; assumption].
  - apply Rmult_le_pos; lra.
  - apply Rplus_le_le_0_compat; [exact HS0|]. left. apply Rdiv_lt_0_compat; lra.
  - apply HC; exact Hk.
Qed.

(** Everything together. *)
Lemma total_run_error two P materials groups start xs_total s f velocity external boundary steps dt ft c S :
  sound_slab P -> no_multiplication P groups xs_total (total_transfer s f) -> angles P <> 1%nat ->
  (forall i, (i < cells P)%nat -> (medium P i < materials)%nat) ->
  (forall g, (g < groups)%nat -> 0 < velocity g) -> 0 < dt ->
  0 <= c -> rsum (angles P) (wt P) * c < 1 ->
  (forall k, (k < steps)%nat -> coupled_below P groups (effective_total (run_weight two k) xs_total velocity dt) (total_transfer s f) c) ->
  0 <= S -> (forall i g, (i < cells P)%nat -> (g < groups)%nat -> velocity g * xs_total (medium P i) g <= S) ->
  timed_run two P materials groups start xs_total (Scatter3 s) f velocity external boundary steps dt 1 = Ok ft ->
  exists psi, psi 0%nat = start /\
    time_history two P groups velocity dt xs_total (total_transfer s f) (step_row external) (step_row boundary) steps psi ft /\
    forall M source inflow x t0 h X2 X3 X2t M2 M3 flux slope, 0 <= M ->
      (forall k, (k < steps)%nat -> near_energy P groups (effective_total (run_weight two k) xs_total velocity dt) M (step_start P start ft k) (fun _ _ => 0)) ->
      (forall k, (k < steps)%nat -> near_energy P groups (effective_total (run_weight two k) xs_total velocity dt) M (ft k) (fun _ _ => 0)) ->
      0 <= X2 -> 0 <= M2 -> 0 <= M3 ->
      ordered_for (angles P) (mu P) (bc_left P) (bc_right P) -> cell_edges P x -> (forall i, (i < cells P)%nat -> dx P i <= h) ->
      source_rows P groups t0 dt steps (step_row external) source -> inflow_rows P groups t0 dt steps (step_row boundary) inflow ->
      transport_solution two P groups velocity xs_total (total_transfer s f) source inflow x t0 (time_at t0 dt steps) X2 X3 X2t M2 M3 flux slope ->
      forall k, (k <= steps)%nat ->
      density_norm P groups velocity (minus3 (psi k) (at_centres x flux (time_at t0 dt k))) <=
        (if two then sqrt 2 else 1) * density_norm P groups velocity (minus3 start (at_centres x flux t0))
        + time_error two dt (INR k * dt) M2 M3 * density_norm P groups velocity unit_flux
        + h ^ 2 * ((1 + if two then sqrt 2 else 1) * X2 / 8 * density_norm P groups velocity unit_flux
                   + (if two then 6 else 1) * (INR k * dt) * source_norm P groups velocity (space_defect P velocity xs_total X2 X3 X2t))
        + (if two then 6 else 1) * (INR k * dt) * iteration_residual P groups c dt S M.
Proof.
  intros HP HM Ha Hmed HV Hdt Hc Hrho HC HS0 HS E.
  destruct (converged_run two P materials groups start xs_total s f velocity external boundary steps dt ft c S HP HM Ha Hmed HV Hdt Hc Hrho HC HS0 HS E) as (psi & H0 & HH & Hres).
  exists psi. split; [exact H0|]. split; [exact HH|].
  intros M source inflow x t0 h X2 X3 X2t M2 M3 flux slope HM0 HB0 HB PX2 P2 P3 HO HX Hh HR HI HT k Hk.
  pose proof (space_time_accurate two P groups velocity dt xs_total (total_transfer s f) _ _ steps psi ft source inflow x t0 h X2 X3 X2t M2 M3 flux slope
    HP HM HV Hdt PX2 P2 P3 HO HX Hh HH HR HI HT k Hk) as A. rewrite H0 in A at 1. eapply Rle_trans; [exact A|]. apply Rplus_le_compat_l.
  assert (B : rsum k (fun j => source_norm P groups velocity (unresolved P groups (total_transfer s f) (ft j) (psi (Datatypes.S j)))) <= INR k * iteration_residual P groups c dt S M).
  { rewrite <- rsum_const. apply rsum_le. intros j Hj. apply (proj2 (Hres j M ltac:(lia) HM0 (HB0 j ltac:(lia)) (HB j ltac:(lia)))). }
  replace ((if two then 6 else 1) * (INR k * dt) * iteration_residual P groups c dt S M) with ((if two then 6 else 1) * dt * (INR k * iteration_residual P groups c dt S M)) by ring.
  apply Rmult_le_compat_l; [|exact B]. apply Rmult_le_pos; [destruct two; lra|lra].
Qed.

(** Without scattering and fission the returned fluxes are exactly the fluxes of the history. *)
Lemma reaction_zero P sigma f : (forall i, (i < cells P)%nat -> 0 < dx P i) -> (forall i, (i < cells P)%nat -> 0 < sigma (medium P i)) ->
  reaction_norm P sigma f <= 0 -> forall i, (i < cells P)%nat -> f i = 0.
Proof.
  intros Hdx Hs H i Hi. pose proof (sqrt_pos (rsum (cells P) (fun i => dx P i * sigma (medium P i) * Rsqr (f i)))) as Q. unfold reaction_norm in H.
  assert (N : forall j, (j < cells P)%nat -> 0 <= dx P j * sigma (medium P j) * Rsqr (f j)).
  { intros j Hj. specialize (Hdx j Hj). specialize (Hs j Hj). apply Rmult_le_pos; [apply Rmult_le_pos; lra|apply Rle_0_sqr]. }
  assert (Z : rsum (cells P) (fun i => dx P i * sigma (medium P i) * Rsqr (f i)) = 0) by (apply sqrt_eq_0; [apply rsum_nonneg; exact N|lra]).
  pose proof (rsum_term_le (cells P) _ i N Hi) as L. cbv beta in L. rewrite Z in L. specialize (N i Hi). specialize (Hdx i Hi). specialize (Hs i Hi).
  assert (P0 : 0 < dx P i * sigma (medium P i)) by (apply Rmult_lt_0_compat; assumption).
  apply Rsqr_0_uniq. apply Rmult_eq_reg_l with (dx P i * sigma (medium P i)); [lra|lra].
Qed.

Lemma run_unscattered two P materials groups start xs_total s f velocity external boundary steps dt ft :
  sound_slab P -> (forall i g, (i < cells P)%nat -> (g < groups)%nat -> 0 <= xs_total (medium P i) g) -> angles P <> 1%nat ->
  (forall i, (i < cells P)%nat -> (medium P i < materials)%nat) ->
  (forall g, (g < groups)%nat -> 0 < velocity g) -> 0 < dt ->
  (forall i g h, (i < cells P)%nat -> (g < groups)%nat -> (h < groups)%nat -> total_transfer s f (medium P i) g h = 0) ->
  timed_run two P materials groups start xs_total (Scatter3 s) f velocity external boundary steps dt 1 = Ok ft ->
  exists psi, psi 0%nat = start /\
    exact_history two P groups velocity dt xs_total (total_transfer s f) (step_row external) (step_row boundary) steps psi /\
    forall k, (k < steps)%nat -> agree2 (cells P) groups (ft k) (scalar_flux P (psi (S k))).
Proof.
  intros HP HT Ha Hmed HV Hdt HZ E. pose proof HP as (Hdx & Hw & _).
  assert (HM : no_multiplication P groups xs_total (total_transfer s f)).
  { intros i g Hi Hg. rewrite !(rsum_zero_ext groups) by (intros h Hh; rewrite HZ by assumption; apply Rabs_R0). unfold Rdiv. rewrite Rplus_0_r, Rmult_0_l, Rmult_0_r. apply HT; assumption. }
  assert (HC : forall k, (k < steps)%nat -> coupled_below P groups (effective_total (run_weight two k) xs_total velocity dt) (total_transfer s f) 0).
  { intros k Hk. exists (fun _ _ => 0). split; [intros; lra|]. split; [intros; rewrite rsum_zero_ext by reflexivity; lra|].
    intros i g h Hi Hg Hh. rewrite HZ by assumption. rewrite Rabs_R0. lra. }
  destruct (run_iterations two P materials groups start xs_total s f velocity external boundary steps dt ft 0 HP HM Ha Hmed HV Hdt (Rle_refl 0) ltac:(rewrite Rmult_0_r; lra) HC E) as (psi & H0 & HH & n & Hn).
  exists psi. split; [exact H0|].
  assert (EX : exact_history two P groups velocity dt xs_total (total_transfer s f) (step_row external) (step_row boundary) steps psi).
  { intros k Hk. destruct (HH k Hk) as (F & HF). exists F. intros g m Hg Hm. destruct (HF g m Hg Hm) as (A & B). split; [|exact B].
    intros i Hi. destruct (A i Hi) as (A1 & A2). split; [exact A1|]. rewrite A2. f_equal.
    rewrite !(rsum_zero_ext groups) by (intros h Hh; rewrite HZ by assumption; ring). reflexivity. }
  split; [exact EX|]. intros k Hk. destruct (Hn k Hk) as (Nk & STEP). cbv zeta in STEP.
  assert (SX : exact_step P groups velocity xs_total (total_transfer s f) (step_row external k) (step_row boundary k) (run_derivative two dt psi k) (scalar_flux P (psi (S k)))).
  { destruct (EX k Hk) as (F & HF). exists F, (psi (S k)). split; [exact HF|]. intros i g _ _. reflexivity. }
  destruct (STEP _ SX) as (GEO & _). set (T := effective_total (run_weight two k) xs_total velocity dt) in *.
  set (D := rsum groups (fun h => reaction_norm P (fun m => T m h) (fun i => step_start P start ft k i h - scalar_flux P (psi (S k)) i h))).
  assert (PD : forall h, (h < groups)%nat -> 0 <= reaction_norm P (fun m => T m h) (fun i => step_start P start ft k i h - scalar_flux P (psi (S k)) i h)) by (intros; apply sqrt_pos).
  specialize (GEO D ltac:(apply rsum_nonneg; exact PD)).
  assert (NE : near_energy P groups T D (step_start P start ft k) (scalar_flux P (psi (S k)))) by (intros h Hh; apply (rsum_term_le groups _ h PD Hh)).
  specialize (GEO NE). rewrite Rmult_0_r in GEO. rewrite pow_i in GEO by lia. rewrite Rmult_0_l in GEO.
  intros i g Hi Hg. apply Rminus_diag_uniq. specialize (GEO g Hg).
  refine (reaction_zero P (fun m => T m g) (fun i => ft k i g - scalar_flux P (psi (S k)) i g) Hdx _ GEO i Hi).
  intros j Hj. cbv beta. unfold T, effective_total. specialize (HT j g Hj Hg). pose proof (HV g Hg) as Pv.
  assert (0 < run_weight two k / (velocity g * dt)).
  { apply Rdiv_lt_0_compat; [unfold run_weight; destruct two; [destruct k|]; lra|apply Rmult_lt_0_compat; assumption]. }
  lra.
Qed.
