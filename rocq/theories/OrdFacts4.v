(** What the iterations of a step leave, in the energy norm. *)
From Coq Require Import Lra Lia Psatz.
From Verif Require Import Base BaseFacts SlabModel SlabSpec MgModel MgSpec MgFacts2 TimeModel TimeSpec TimeFacts TimeFacts2.
From Verif Require Import EnSpec EnFacts EnFacts2 EnFacts3 EnFacts4 EnFacts5 EnFacts6 OrdSpec OrdFacts OrdFacts2 OrdFacts3.
Open Scope R_scope.

Lemma sweeps_energy P groups T X c q1 q2 bnd E1 E2 psi1 psi2 (e : mat2) d :
  sound_slab P -> (forall i h, (i < cells P)%nat -> (h < groups)%nat -> 0 <= T (medium P i) h) -> 0 <= d ->
  coupled_below P groups T X c ->
  sweep_eq P groups T q1 bnd E1 psi1 -> sweep_eq P groups T q2 bnd E2 psi2 ->
  (forall i m g, (i < cells P)%nat -> (m < angles P)%nat -> (g < groups)%nat -> q1 i m g - q2 i m g = rsum groups (fun h => X (medium P i) g h * e i h)) ->
  (forall h, (h < groups)%nat -> reaction_norm P (fun m => T m h) (fun i => e i h) <= d) ->
  near_energy P groups T (rsum (angles P) (wt P) * c * d) (scalar_flux P psi1) (scalar_flux P psi2).
Proof.
  intros HP HT Hd (k & K0 & K1 & K2) H1 H2 Hq He g Hg.
  assert (PW : 0 <= rsum (angles P) (wt P)) by (apply rsum_nonneg; apply HP).
  assert (TR : slab_transport (cells P) (angles P) (mu P) (wt P) (dx P) (fun i => T (medium P i) g)
    (fun _ i => rsum groups (fun h => X (medium P i) g h * e i h))
    (fun m => reflected_in (cells P) (angles P) (mu P) (bc_left P) (bc_right P) (fun m k => E1 g m k - E2 g m k) m)
    (fun m k => E1 g m k - E2 g m k) (fun i => scalar_flux P psi1 i g - scalar_flux P psi2 i g)).
  { split; [|split].
    - intros m Hm i Hi. destruct (H1 g m Hg Hm) as (A & _). destruct (H2 g m Hg Hm) as (B & _). specialize (A i Hi). specialize (B i Hi). cbv beta in A, B |- *.
      rewrite <- (Hq i m g Hi Hm Hg). lra.
    - intros m Hm. destruct (H1 g m Hg Hm) as (_ & A & _). destruct (H2 g m Hg Hm) as (_ & B & _). rewrite A, B, reflected_minus. ring.
    - intros i Hi. unfold scalar_flux. rewrite <- rsum_minus. apply rsum_ext. intros m Hm.
      destruct (H1 g m Hg Hm) as (_ & _ & A). destruct (H2 g m Hg Hm) as (_ & _ & B). rewrite A, B by exact Hi. field. }
  pose proof (group_energy P groups T X (k g) g e _ _ HP Hg HT (fun h Hh => K0 g h Hg Hh) (fun i h Hi Hh => K2 i g h Hi Hg Hh) TR) as GE.
  eapply Rle_trans; [exact GE|]. rewrite Rmult_assoc. apply Rmult_le_compat_l; [exact PW|].
  apply Rle_trans with (rsum groups (fun h => k g h * d)).
  - apply rsum_le. intros h Hh. apply Rmult_le_compat_l; [apply K0; assumption|apply He; exact Hh].
  - rewrite rsum_scal_r. apply Rmult_le_compat_r; [exact Hd|apply K1; exact Hg].
Qed.

Lemma near_join P groups T d1 d2 f g s : sound_slab P -> (forall i h, (i < cells P)%nat -> (h < groups)%nat -> 0 <= T (medium P i) h) ->
  near_energy P groups T d1 f s -> near_energy P groups T d2 g s -> near_energy P groups T (d1 + d2) f g.
Proof.
  intros HP HT A B h Hh. specialize (A h Hh). specialize (B h Hh).
  rewrite (reaction_ext P (fun m => T m h) (fun i => f i h - g i h) (fun i => (f i h - s i h) + - (g i h - s i h))) by (intros; ring).
  eapply Rle_trans; [apply reaction_triangle; [apply HP|intros; apply HT; assumption]|].
  rewrite (reaction_opp P (fun m => T m h) (fun i => g i h - s i h)). lra.
Qed.

Lemma unresolved_norm P G velocity T X c emit psi d B :
  sound_slab P -> (forall g, (g < G)%nat -> 0 < velocity g) ->
  (forall i g, (i < cells P)%nat -> (g < G)%nat -> 0 <= T (medium P i) g /\ velocity g * T (medium P i) g <= B) ->
  0 <= c -> 0 <= d -> 0 <= B -> coupled_below P G T X c -> near_energy P G T d emit (scalar_flux P psi) ->
  source_norm P G velocity (unresolved P G X emit psi) <= c * d * sqrt (rsum (angles P) (wt P) * INR G * B).
Proof.
  intros HP HV HT Hc Hd HB (k & K0 & K1 & K2) HE. pose proof HP as (Hdx & Hw & _).
  assert (PW : 0 <= rsum (angles P) (wt P)) by (apply rsum_nonneg; exact Hw).
  set (W := rsum (angles P) (wt P)) in *.
  rewrite <- (sqrt_square (c * d)) by (apply Rmult_le_pos; assumption).
  rewrite <- sqrt_mult_alt by (apply Rle_0_sqr). unfold source_norm. apply sqrt_le_1_alt. unfold total3.
  replace (c * d * (c * d) * (W * INR G * B)) with (rsum G (fun _ => W * B * (c * d * (c * d)))) by (rewrite rsum_const; ring).
  apply rsum_le. intros g Hg. pose proof (HV g Hg) as Pv.
  set (a := fun i h => T (medium P i) h * Rsqr (emit i h - scalar_flux P psi i h)).
  assert (CELL : forall i, (i < cells P)%nat -> rsum (angles P) (fun m => dx P i * wt P m * velocity g * Rsqr (unresolved P G X emit psi i m g))
      <= W * B * c * rsum G (fun h => k g h * (dx P i * a i h))).
  { intros i Hi. specialize (Hdx i Hi). destruct (HT i g Hi Hg) as (Tg & Bg).
    set (r := rsum G (fun h => X (medium P i) g h * (emit i h - scalar_flux P psi i h))).
    assert (R : Rsqr r <= T (medium P i) g * (c * rsum G (fun h => k g h * a i h))).
    { pose proof (rsum_cauchy G (k g) (fun _ => 1) (fun h => sqrt (T (medium P i) h) * Rabs (emit i h - scalar_flux P psi i h)) ltac:(intros; apply K0; assumption)) as C. cbv beta in C.
      rewrite (rsum_ext G (fun h => k g h * Rsqr 1) (k g)) in C by (intros; unfold Rsqr; ring).
      rewrite (rsum_ext G (fun h => k g h * Rsqr (sqrt (T (medium P i) h) * Rabs (emit i h - scalar_flux P psi i h))) (fun h => k g h * a i h)) in C.
      2:{ intros h Hh. unfold a. rewrite Rsqr_mult, Rsqr_sqrt by (apply HT; assumption). rewrite <- Rsqr_abs. reflexivity. }
      set (z := rsum G (fun h => k g h * (1 * (sqrt (T (medium P i) h) * Rabs (emit i h - scalar_flux P psi i h))))) in C.
      assert (Z : Rabs r <= sqrt (T (medium P i) g) * z).
      { unfold r, z. rewrite <- rsum_scal. apply rsum_abs_le. intros h Hh. rewrite Rabs_mult. specialize (K2 i g h Hi Hg Hh).
        rewrite sqrt_mult_alt in K2 by exact Tg.
        replace (sqrt (T (medium P i) g) * (k g h * (1 * (sqrt (T (medium P i) h) * Rabs (emit i h - scalar_flux P psi i h)))))
          with (k g h * (sqrt (T (medium P i) g) * sqrt (T (medium P i) h)) * Rabs (emit i h - scalar_flux P psi i h)) by ring.
        apply Rmult_le_compat_r; [apply Rabs_pos|exact K2]. }
      assert (Z0 : 0 <= z). { unfold z. apply rsum_nonneg. intros h Hh. apply Rmult_le_pos; [apply K0; assumption|]. rewrite Rmult_1_l. apply Rmult_le_pos; [apply sqrt_pos|apply Rabs_pos]. }
      apply Rle_trans with (Rsqr (sqrt (T (medium P i) g) * z)).
      - apply Rsqr_le_abs_1. rewrite (Rabs_right (sqrt _ * z)); [exact Z|]. apply Rle_ge, Rmult_le_pos; [apply sqrt_pos|exact Z0].
      - rewrite Rsqr_mult, Rsqr_sqrt by exact Tg. apply Rmult_le_compat_l; [exact Tg|]. unfold Rsqr. eapply Rle_trans; [exact C|].
        apply Rmult_le_compat_r; [|apply K1; exact Hg]. apply rsum_nonneg. intros h Hh. apply Rmult_le_pos; [apply K0; assumption|].
        apply Rmult_le_pos; [apply HT; assumption|apply Rle_0_sqr]. }
    rewrite (rsum_ext (angles P) _ (fun m => dx P i * velocity g * Rsqr r * wt P m)) by (intros; unfold unresolved; fold r; ring). rewrite rsum_scal. fold W.
    assert (A0 : 0 <= rsum G (fun h => k g h * a i h)).
    { apply rsum_nonneg. intros h Hh. apply Rmult_le_pos; [apply K0; assumption|]. apply Rmult_le_pos; [apply HT; assumption|apply Rle_0_sqr]. }
    rewrite (rsum_ext G (fun h => k g h * (dx P i * a i h)) (fun h => dx P i * (k g h * a i h))) by (intros; ring). rewrite rsum_scal.
    set (A := rsum G (fun h => k g h * a i h)) in *.
    apply Rle_trans with (dx P i * velocity g * (T (medium P i) g * (c * A)) * W).
    - apply Rmult_le_compat_r; [exact PW|]. apply Rmult_le_compat_l; [|exact R]. apply Rmult_le_pos; lra.
    - replace (dx P i * velocity g * (T (medium P i) g * (c * A)) * W) with (velocity g * T (medium P i) g * (dx P i * (c * A) * W)) by ring.
      replace (W * B * c * (dx P i * A)) with (B * (dx P i * (c * A) * W)) by ring.
      apply Rmult_le_compat_r; [|exact Bg]. apply Rmult_le_pos; [apply Rmult_le_pos; [lra|apply Rmult_le_pos; assumption]|exact PW]. }
  eapply Rle_trans; [apply rsum_le; exact CELL|]. rewrite rsum_scal, rsum_swap.
  replace (W * B * (c * d * (c * d))) with (W * B * c * (c * (d * d))) by ring.
  apply Rmult_le_compat_l; [apply Rmult_le_pos; [apply Rmult_le_pos; assumption|exact Hc]|].
  apply Rle_trans with (rsum G (fun h => k g h * (d * d))).
  - apply rsum_le. intros h Hh. rewrite rsum_scal. apply Rmult_le_compat_l; [apply K0; assumption|].
    specialize (HE h Hh). pose proof (reaction_sq P (fun m => T m h) Hdx (fun i Hi => proj1 (HT i h Hi Hh)) (fun i => emit i h - scalar_flux P psi i h)) as Sq. cbv beta in Sq.
    rewrite (rsum_ext (cells P) (fun i => dx P i * a i h) (fun i => dx P i * T (medium P i) h * Rsqr (emit i h - scalar_flux P psi i h))) by (intros; unfold a; ring).
    rewrite <- Sq. apply Rmult_le_compat; try apply sqrt_pos; exact HE.
  - rewrite rsum_scal_r. apply Rmult_le_compat_r; [apply Rmult_le_pos; exact Hd|apply K1; exact Hg].
Qed.

(** The iterations of every step of a run. *)
Lemma run_iterations two P materials groups start xs_total s f velocity external boundary steps dt ft c :
  sound_slab P -> no_multiplication P groups xs_total (total_transfer s f) -> angles P <> 1%nat ->
  (forall i, (i < cells P)%nat -> (medium P i < materials)%nat) ->
  (forall g, (g < groups)%nat -> 0 < velocity g) -> 0 < dt ->
  0 <= c -> rsum (angles P) (wt P) * c < 1 ->
  (forall k, (k < steps)%nat -> coupled_below P groups (effective_total (run_weight two k) xs_total velocity dt) (total_transfer s f) c) ->
  timed_run two P materials groups start xs_total (Scatter3 s) f velocity external boundary steps dt 1 = Ok ft ->
  exists psi, psi 0%nat = start /\
    time_history two P groups velocity dt xs_total (total_transfer s f) (step_row external) (step_row boundary) steps psi ft /\
    exists n : nat -> nat, forall k, (k < steps)%nat -> (1 <= n k <= 100)%nat /\
      forall sol, exact_step P groups velocity xs_total (total_transfer s f) (step_row external k) (step_row boundary k) (run_derivative two dt psi k) sol ->
        let T := effective_total (run_weight two k) xs_total velocity dt in
        let rho := rsum (angles P) (wt P) * c in
        (forall d, 0 <= d -> near_energy P groups T d (step_start P start ft k) sol -> near_energy P groups T (rho ^ n k * d) (ft k) sol) /\
        ((n k < 100)%nat -> forall M, 0 <= M -> near_energy P groups T M (ft k) (fun _ _ => 0) ->
           near_energy P groups T (rho * (/ 10 ^ 8 * INR (cells P) * M) / (1 - rho)) (ft k) sol) /\
        (forall d, 0 <= d -> near_energy P groups T d (ft k) sol -> near_energy P groups T (rho * d) (scalar_flux P (psi (S k))) sol).
Proof.
  intros HP HM Ha Hmed HV Hdt Hc Hrho HC E.
  assert (Hv : forall g, (g < groups)%nat -> velocity g <> 0) by (intros g Hg; specialize (HV g Hg); lra).
  assert (Hd0 : dt <> 0) by lra. assert (Hnz : nonzero_ordinates (angles P) (mu P)) by apply HP.
  destruct (timed_history_gen two P materials groups start xs_total s f velocity external boundary steps dt Ha Hnz Hmed Hv Hd0 ft) as (X & x & _ & HX & H0 & Hs & Hft & Hsrc & HH); [|exact E|].
  { intros k Hk. eapply run_divisors; eassumption. }
  exists (fun j => t_psi1 (x j)). split; [rewrite H0; reflexivity|]. split; [exact HH|].
  set (psi := fun j => t_psi1 (x j)) in *.
  assert (STEP : forall k, (k < steps)%nat -> exists n, (1 <= n <= 100)%nat /\
    forall sol, exact_step P groups velocity xs_total (total_transfer s f) (step_row external k) (step_row boundary k) (run_derivative two dt psi k) sol ->
        let T := effective_total (run_weight two k) xs_total velocity dt in
        let rho := rsum (angles P) (wt P) * c in
        (forall d, 0 <= d -> near_energy P groups T d (step_start P start ft k) sol -> near_energy P groups T (rho ^ n * d) (ft k) sol) /\
        ((n < 100)%nat -> forall M, 0 <= M -> near_energy P groups T M (ft k) (fun _ _ => 0) ->
           near_energy P groups T (rho * (/ 10 ^ 8 * INR (cells P) * M) / (1 - rho)) (ft k) sol) /\
        (forall d, 0 <= d -> near_energy P groups T d (ft k) sol -> near_energy P groups T (rho * d) (scalar_flux P (psi (S k))) sol)).
  { intros k Hk. set (T := effective_total (run_weight two k) xs_total velocity dt).
    assert (HT : forall i h, (i < cells P)%nat -> (h < groups)%nat -> 0 <= T (medium P i) h).
    { intros i h Hi Hh. apply effective_nonneg; [eapply sound_total; eassumption|auto|exact Hdt]. }
    destruct (timed_body_ok _ _ _ _ _ _ _ _ _ _ _ _ (Hs k Hk)) as (_ & _ & q & Eq & Ei & Ek & _).
    assert (Eq' := add_external_ok _ _ _ _ _ Eq). fold T in Ei.
    assert (HCX : coupled_below P groups T X c).
    { destruct (HC k Hk) as (kk & K0 & K1 & K2). exists kk. split; [exact K0|]. split; [exact K1|]. intros i g h Hi Hg Hh. rewrite HX by assumption. apply K2; assumption. }
    destruct (exact_step_exactly_one two P groups velocity dt xs_total (total_transfer s f) (step_row external k) (step_row boundary k) psi k HP HM HV Hdt) as (sol0 & S0 & U0).
    assert (Hmg : forall sol, exact_step P groups velocity xs_total (total_transfer s f) (step_row external k) (step_row boundary k) (run_derivative two dt psi k) sol ->
      mg_solution P groups T X q (step_row boundary k) sol).
    { intros sol Hsol.
      assert (Hsolve : exact_step P groups velocity xs_total X (step_row external k) (step_row boundary k) (run_derivative two dt psi k) sol)
        by (eapply exact_step_xs; [|exact Hsol]; intros; symmetry; apply HX; assumption).
      apply (exact_step_solution P groups velocity dt xs_total X (step_row external k) (step_row boundary k)
        (run_weight two k) (run_source two velocity dt psi k) (run_derivative two dt psi k) q sol); [| | | |exact Hsolve].
      - intros new i m g _ _ Hg. apply run_derivative_eq; auto.
      - rewrite Eq'. reflexivity.
      - rewrite Eq'. reflexivity.
      - intros i m g Hi Hm Hg. rewrite Eq'. cbn [at3]. rewrite Hsrc by exact Hk. reflexivity. }
    destruct (outer_energy P groups T X c HP HT Hc Hrho HCX q (step_row boundary k) (t_old (x k)) (t_old (x (S k))) sol0 (Hmg sol0 S0) Ei) as (n & Hn & Hgeo & Hstop).
    assert (Hstart : t_old (x k) = step_start P start ft k).
    { unfold step_start. destruct k as [|j]; [rewrite H0; apply angle_sum_scalar|]. rewrite Hft by lia. reflexivity. }
    exists n. split; [exact Hn|]. rewrite Hstart in Hgeo. rewrite <- Hft in Hgeo, Hstop by exact Hk.
    intros sol Hsol. cbv zeta. fold T.
    assert (TO : forall d a, near_energy P groups T d a sol -> near_energy P groups T d a sol0).
    { intros d a A h Hh. specialize (A h Hh). rewrite (reaction_ext P (fun m => T m h) (fun i => a i h - sol0 i h) (fun i => a i h - sol i h)); [exact A|].
      intros i Hi. rewrite (U0 sol Hsol i h Hi Hh). reflexivity. }
    assert (FROM : forall d a, near_energy P groups T d a sol0 -> near_energy P groups T d a sol).
    { intros d a A h Hh. specialize (A h Hh). rewrite (reaction_ext P (fun m => T m h) (fun i => a i h - sol i h) (fun i => a i h - sol0 i h)); [exact A|].
      intros i Hi. rewrite (U0 sol Hsol i h Hi Hh). reflexivity. }
    split; [|split].
    - intros d Hd D. apply FROM, Hgeo; [exact Hd|]. apply TO, D.
    - intros L M HM0 D. apply FROM. exact (Hstop L M HM0 D).
    - intros d Hd D.
      destruct (HH k Hk) as [E1 HE1]. destruct Hsol as (E2 & psi2 & HE2 & A2).
      apply (sweep_step P groups velocity dt xs_total (total_transfer s f) (step_row external k) (step_row boundary k)
        (run_weight two k) (run_source two velocity dt psi k)) in HE1; [|intros i m g _ _ Hg; apply run_derivative_eq; auto].
      apply (sweep_step P groups velocity dt xs_total (total_transfer s f) (step_row external k) (step_row boundary k)
        (run_weight two k) (run_source two velocity dt psi k)) in HE2; [|intros i m g _ _ Hg; apply run_derivative_eq; auto].
      fold T in HE1, HE2.
      pose proof (sweeps_energy P groups T (total_transfer s f) c _ _ (step_row boundary k) E1 E2 _ _ (fun i h => ft k i h - sol i h) d HP HT Hd (HC k Hk) HE1 HE2) as SE. cbv beta in SE.
      assert (Q : near_energy P groups T (rsum (angles P) (wt P) * c * d) (scalar_flux P (psi (S k))) (scalar_flux P psi2)).
      { apply SE; [|exact D]. intros i m g Hi Hm Hg.
        rewrite (rsum_ext groups (fun h => total_transfer s f (medium P i) g h * (ft k i h - sol i h)) (fun h => total_transfer s f (medium P i) g h * ft k i h - total_transfer s f (medium P i) g h * sol i h)) by (intros; ring).
        rewrite rsum_minus. ring. }
      intros h Hh. specialize (Q h Hh). rewrite (reaction_ext P (fun m => T m h) (fun i => scalar_flux P (psi (S k)) i h - sol i h) (fun i => scalar_flux P (psi (S k)) i h - scalar_flux P psi2 i h)); [exact Q|].
      intros i Hi. rewrite (A2 i h Hi Hh). reflexivity. }
  assert (PICK : forall N, (N <= steps)%nat -> exists n : nat -> nat, forall k, (k < N)%nat -> (1 <= n k <= 100)%nat /\
    forall sol, exact_step P groups velocity xs_total (total_transfer s f) (step_row external k) (step_row boundary k) (run_derivative two dt psi k) sol ->
        let T := effective_total (run_weight two k) xs_total velocity dt in
        let rho := rsum (angles P) (wt P) * c in
        (forall d, 0 <= d -> near_energy P groups T d (step_start P start ft k) sol -> near_energy P groups T (rho ^ n k * d) (ft k) sol) /\
        ((n k < 100)%nat -> forall M, 0 <= M -> near_energy P groups T M (ft k) (fun _ _ => 0) ->
           near_energy P groups T (rho * (/ 10 ^ 8 * INR (cells P) * M) / (1 - rho)) (ft k) sol) /\
        (forall d, 0 <= d -> near_energy P groups T d (ft k) sol -> near_energy P groups T (rho * d) (scalar_flux P (psi (S k))) sol)).
  { induction N as [|N IH]; intros HN; [exists (fun _ => 0%nat); intros; lia|].
    destruct (IH ltac:(lia)) as (n & Hn). destruct (STEP N ltac:(lia)) as (n0 & Hn0).
    exists (fun k => if Nat.eqb k N then n0 else n k). intros k Hk. destruct (Nat.eqb_spec k N) as [-> |D]; [exact Hn0|]. apply Hn. lia. }
  destruct (PICK steps (le_n _)) as (n & Hn). exists n. exact Hn.
Qed.
