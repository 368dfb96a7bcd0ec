(** The timed drivers: history, accuracy, termination, steady states, positivity, balance, errors. *)
From Coq Require Import Lra Lia FunctionalExtensionality.
From Verif Require Import Base BaseFacts SlabModel SlabSpec SlabFacts SlabFacts2 SlabFacts4 SlabFacts5.
From Verif Require Import MgModel MgSpec MgFacts MgFacts2 MgFacts3 MgFacts4 MgFacts6.
From Verif Require Import TimeModel TimeSpec TimeFacts.
Open Scope R_scope.

Lemma transfer3 materials groups s f : exists X,
  transfer_matrix materials groups (Scatter3 s) f = Scatter3 X /\
  forall m o i, (m < materials)%nat -> (o < groups)%nat -> (i < groups)%nat -> X m o i = total_transfer s f m o i.
Proof.
  destruct (transfer_matrix materials groups (Scatter3 s) f) as [X|nm X] eqn:E.
  - exists X. split; [reflexivity|]. intros m o i Hm Ho Hi.
    destruct (transfer_entries materials groups (Scatter3 s) f m o i 0 Hm Ho Hi) as (_ & H & _).
    rewrite E in H. exact H.
  - exfalso. destruct f; cbn in E; discriminate.
Qed.

Lemma step_equation_xs P groups velocity T X Y ext bnd d emit E psi :
  (forall i o h, (i < cells P)%nat -> (o < groups)%nat -> (h < groups)%nat -> X (medium P i) o h = Y (medium P i) o h) ->
  step_equation P groups velocity T X ext bnd d emit E psi -> step_equation P groups velocity T Y ext bnd d emit E psi.
Proof.
  intros HX H g m Hg Hm. destruct (H g m Hg Hm) as [A B]. split; [|exact B].
  intros i Hi. destruct (A i Hi) as [C D]. split; [exact C|]. rewrite D. f_equal.
  apply rsum_ext. intros h Hh. rewrite HX by assumption. reflexivity.
Qed.

Lemma step_equation_emit P groups velocity T X ext bnd d e1 e2 E psi :
  agree2 (cells P) groups e1 e2 ->
  step_equation P groups velocity T X ext bnd d e1 E psi -> step_equation P groups velocity T X ext bnd d e2 E psi.
Proof.
  intros HX H g m Hg Hm. destruct (H g m Hg Hm) as [A B]. split; [|exact B].
  intros i Hi. destruct (A i Hi) as [C D]. split; [exact C|]. rewrite D. f_equal.
  apply rsum_ext. intros h Hh. rewrite HX by assumption. reflexivity.
Qed.

Lemma exact_step_xs P groups velocity T X Y ext bnd d phi :
  (forall i o h, (i < cells P)%nat -> (o < groups)%nat -> (h < groups)%nat -> X (medium P i) o h = Y (medium P i) o h) ->
  exact_step P groups velocity T X ext bnd d phi -> exact_step P groups velocity T Y ext bnd d phi.
Proof.
  intros HX (E & psi & H & A). exists E, psi. split; [|exact A]. eapply step_equation_xs; [exact HX|exact H].
Qed.

Lemma angle_sum_scalar P psi : angle_sum P psi = scalar_flux P psi.
Proof.
  unfold angle_sum, scalar_flux. extensionality i. extensionality g. apply rsum_ext. intros; ring.
Qed.

(** every sweep solution is the closed form *)
Lemma sweep_Psi P groups T q bnd E psi :
  nonzero_ordinates (angles P) (mu P) -> mg_divisors P groups T -> sweep_eq P groups T q bnd E psi ->
  forall g m k, (g < groups)%nat -> (m < angles P)%nat -> (k <= cells P)%nat ->
    E g m k = Psi P (fun m i => q i m g) (half_sig P (fun m => T m g)) (fun m => mg_boundary bnd (mu P) g m) m k.
Proof.
  intros Hnz Hd H g m k Hg Hm Hk.
  set (F := fun g => Psi P (fun m i => q i m g) (half_sig P (fun m => T m g)) (fun m => mg_boundary bnd (mu P) g m)).
  assert (HF : sweep_eq P groups T q bnd F (fun i m g => (F g m i + F g m (S i)) / 2)).
  { intros g' m' Hg' Hm'. split; [|split; [|reflexivity]].
    - apply (Psi_balance P (fun m i => q i m g') (half_sig P (fun m => T m g')) (fun m => mg_boundary bnd (mu P) g' m)
               (fun i => T (medium P i) g') m'); [reflexivity|apply Hnz; exact Hm'|apply (Hd g' Hg' m' Hm')].
    - unfold F. rewrite Psi_inflow. apply inflow_at_spec. exact Hm'. }
  destruct (sweep_unique P groups T q bnd E psi F _ Hnz Hd H HF) as [U _]. apply U; assumption.
Qed.

Lemma sweep_nonneg P groups T q bnd E psi :
  nonzero_ordinates (angles P) (mu P) -> mg_thin P groups T -> sweep_eq P groups T q bnd E psi ->
  (forall i m g, (i < cells P)%nat -> (m < angles P)%nat -> (g < groups)%nat -> 0 <= q i m g) ->
  (forall m g, (m < angles P)%nat -> (g < groups)%nat -> 0 <= mg_boundary bnd (mu P) g m) ->
  forall i m g, (i < cells P)%nat -> (m < angles P)%nat -> (g < groups)%nat -> 0 <= psi i m g.
Proof.
  intros Hnz Ht H Hq Hb i m g Hi Hm Hg.
  assert (Hd : mg_divisors P groups T) by (intros g' Hg'; apply thin_divisors; auto).
  destruct (H g m Hg Hm) as (_ & _ & C). rewrite C by exact Hi.
  assert (N : forall k, (k <= cells P)%nat -> 0 <= E g m k).
  { intros k Hk. rewrite (sweep_Psi _ _ _ _ _ _ _ Hnz Hd H g m k Hg Hm Hk).
    apply Psi_nonneg; auto. intros m' i' Hm' Hi'.
    split; [apply Hq; assumption|]. apply thin_half; [apply Ht; exact Hg|assumption|assumption]. }
  assert (A := N i ltac:(lia)). assert (B := N (S i) ltac:(lia)). lra.
Qed.

Lemma sweep_linear P groups T q1 q2 b1 b2 b3 E1 E2 psi1 psi2 a1 a2 :
  (forall m g, (m < angles P)%nat -> (g < groups)%nat ->
     mg_boundary b3 (mu P) g m = a1 * mg_boundary b1 (mu P) g m + a2 * mg_boundary b2 (mu P) g m) ->
  sweep_eq P groups T q1 b1 E1 psi1 -> sweep_eq P groups T q2 b2 E2 psi2 ->
  sweep_eq P groups T (fun i m g => a1 * q1 i m g + a2 * q2 i m g) b3
    (fun g m k => a1 * E1 g m k + a2 * E2 g m k) (fun i m g => a1 * psi1 i m g + a2 * psi2 i m g).
Proof.
  intros Hb H1 H2 g m Hg Hm. destruct (H1 g m Hg Hm) as (B1 & I1 & C1). destruct (H2 g m Hg Hm) as (B2 & I2 & C2).
  split; [|split].
  - intros i Hi. rewrite <- (B1 i Hi), <- (B2 i Hi). unfold Rdiv. ring.
  - rewrite I1, I2, Hb by assumption. unfold reflected_in. destruct (andb _ _); ring.
  - intros i Hi. rewrite C1, C2 by exact Hi. unfold Rdiv. ring.
Qed.

(** two sweeps whose sources differ by at most [kappa T] *)
Lemma sweep_perturb P groups T q1 q2 bnd E1 E2 psi1 psi2 kappa :
  nonzero_ordinates (angles P) (mu P) -> mg_thin P groups T -> 0 <= kappa ->
  sweep_eq P groups T q1 bnd E1 psi1 -> sweep_eq P groups T q2 bnd E2 psi2 ->
  (forall i m g, (i < cells P)%nat -> (m < angles P)%nat -> (g < groups)%nat ->
     Rabs (q1 i m g - q2 i m g) <= kappa * T (medium P i) g) ->
  forall i m g, (i < cells P)%nat -> (m < angles P)%nat -> (g < groups)%nat ->
    Rabs (psi1 i m g - psi2 i m g) <= kappa.
Proof.
  intros Hnz Ht Hk H1 H2 Hq i m g Hi Hm Hg.
  assert (Hd : mg_divisors P groups T) by (intros g' Hg'; apply thin_divisors; auto).
  set (b0 := mkArr3 1 1 (fun _ _ _ => 0)).
  assert (H3 : sweep_eq P groups T (fun i m g => 1 * q1 i m g + -1 * q2 i m g) b0
    (fun g m k => 1 * E1 g m k + -1 * E2 g m k) (fun i m g => 1 * psi1 i m g + -1 * psi2 i m g)).
  { apply (sweep_linear P groups T q1 q2 bnd bnd b0); auto. intros m' g' _ _. unfold mg_boundary at 1. cbn. ring. }
  assert (N : forall k, (k <= cells P)%nat -> Rabs (1 * E1 g m k + -1 * E2 g m k) <= kappa).
  { intros k Hkc. rewrite (sweep_Psi _ _ _ _ _ _ _ Hnz Hd H3 g m k Hg Hm Hkc).
    apply Psi_bounded; [exact Hnz|exact Hk| |intros m' _; reflexivity|exact Hm|exact Hkc].
      intros m' i' Hm' Hi'. split; [|apply thin_half; [apply Ht; exact Hg|assumption|assumption]].
      replace (1 * q1 i' m' g + -1 * q2 i' m' g) with (q1 i' m' g - q2 i' m' g) by ring.
      eapply Rle_trans; [apply Hq; assumption|]. unfold half_sig. lra. }
  destruct (H3 g m Hg Hm) as (_ & _ & C). specialize (C i Hi). cbv beta in C.
  replace (psi1 i m g - psi2 i m g) with (1 * psi1 i m g + -1 * psi2 i m g) by ring. rewrite C.
  assert (A := N i ltac:(lia)). assert (B := N (S i) ltac:(lia)).
  apply abs_bounds in A. apply abs_bounds in B. apply Rabs_le. lra.
Qed.

Lemma scalar_perturb P groups psi1 psi2 kappa :
  (forall m, (m < angles P)%nat -> 0 <= wt P m) ->
  (forall i m g, (i < cells P)%nat -> (m < angles P)%nat -> (g < groups)%nat ->
    Rabs (psi1 i m g - psi2 i m g) <= kappa) ->
  within2 (cells P) groups (rsum (angles P) (wt P) * kappa) (scalar_flux P psi1) (scalar_flux P psi2).
Proof.
  intros Hw H i g Hi Hg. unfold scalar_flux. rewrite <- rsum_minus, <- rsum_scal_r.
  apply rsum_abs_le. intros m Hm. replace (wt P m * psi1 i m g - wt P m * psi2 i m g) with (wt P m * (psi1 i m g - psi2 i m g)) by ring.
  rewrite Rabs_mult, (Rabs_right (wt P m)) by (apply Rle_ge, Hw, Hm).
  apply Rmult_le_compat_l; [apply Hw; exact Hm|apply H; assumption].
Qed.

(** ** History and accuracy of the timed drivers *)
Section Timed.
  Variables (two : bool) (P : sn) (materials groups : nat) (flux_last : mat3) (xs_total : mat2) (s : mat3)
    (f : fission_data) (velocity : vec) (external boundary : arr4) (steps : nat) (dt : R).
  Hypothesis Ha : angles P <> 1%nat.
  Hypothesis Hnz : nonzero_ordinates (angles P) (mu P).
  Hypothesis Hmed : forall i, (i < cells P)%nat -> (medium P i < materials)%nat.
  Hypothesis Hv : forall g, (g < groups)%nat -> velocity g <> 0.
  Hypothesis Hdt : dt <> 0.
  Let T k := effective_total (run_weight two k) xs_total velocity dt.
  Let run := timed_run two P materials groups flux_last xs_total (Scatter3 s) f velocity external boundary steps dt 1.

  Lemma timed_history_gen ft :
    (forall k, (k < steps)%nat -> mg_divisors P groups (T k)) ->
    run = Ok ft ->
    exists X x,
      transfer_matrix materials groups (Scatter3 s) f = Scatter3 X /\
      (forall i o h, (i < cells P)%nat -> (o < groups)%nat -> (h < groups)%nat ->
         X (medium P i) o h = total_transfer s f (medium P i) o h) /\
      x 0%nat = mkT (angle_sum P flux_last) flux_last (fun _ _ _ => 0) (fun _ => zeros2) /\
      (forall k, (k < steps)%nat ->
         timed_body two P groups xs_total (Scatter3 X) velocity external boundary dt 1 k (x k) = Ok (x (S k))) /\
      (forall k, (k < steps)%nat -> ft k = t_old (x (S k))) /\
      (forall k, (k < steps)%nat -> body_source two velocity dt k (x k)
                                    = run_source two velocity dt (fun j => t_psi1 (x j)) k) /\
      time_history two P groups velocity dt xs_total (total_transfer s f) (step_row external) (step_row boundary)
        steps (fun j => t_psi1 (x j)) ft.
  Proof.
    intros Hd E. unfold run in E; rewrite timed_run_eq in E.
    destruct (transfer3 materials groups s f) as (X & EX & HX).
    rewrite EX in E.
    destruct (for_up_err _ _ _) as [r|] eqn:Er; cbn [bind] in E; [|discriminate]. injection E as <-.
    destruct (timed_trace _ _ _ _ _ _ _ _ _ _ _ _ Er) as (x & H0 & Hn & Hs & Hft & Hsrc).
    assert (HXm : forall i o h, (i < cells P)%nat -> (o < groups)%nat -> (h < groups)%nat ->
         X (medium P i) o h = total_transfer s f (medium P i) o h) by (intros; apply HX; auto).
    exists X, x. split; [exact EX|]. split; [exact HXm|]. split; [exact H0|]. split; [exact Hs|].
    split; [exact Hft|]. split; [exact Hsrc|].
    intros k Hk.
    destruct (timed_body_step two P groups xs_total X velocity external boundary dt k (x k) (x (S k))
               (fun j => t_psi1 (x j)) Ha Hnz (Hd k Hk) Hv Hdt (Hsrc k Hk) (Hs k Hk)) as [E HE].
    exists E. rewrite Hft by exact Hk. eapply step_equation_xs; [exact HXm|exact HE].
  Qed.

  Lemma timed_history ft :
    (forall k, (k < steps)%nat -> mg_divisors P groups (T k)) ->
    run = Ok ft ->
    exists psi, psi 0%nat = flux_last /\
      time_history two P groups velocity dt xs_total (total_transfer s f) (step_row external) (step_row boundary)
        steps psi ft.
  Proof.
    intros Hd E. destruct (timed_history_gen ft Hd E) as (X & x & _ & _ & H0 & _ & _ & _ & HH).
    exists (fun j => t_psi1 (x j)). split; [rewrite H0; reflexivity|exact HH].
  Qed.

  Variable c : R.
  Hypothesis Hthin : forall k, (k < steps)%nat -> mg_thin P groups (T k).
  Hypothesis Hw : forall m, (m < angles P)%nat -> 0 <= wt P m.
  Hypothesis Hc : 0 <= c.
  Hypothesis Hrho : rsum (angles P) (wt P) * c < 1.
  Hypothesis Hrat : forall k, (k < steps)%nat -> mg_ratio P groups (T k) (total_transfer s f) c.

  Lemma mg_ratio_xs T0 X Y :
    (forall i o h, (i < cells P)%nat -> (o < groups)%nat -> (h < groups)%nat -> X (medium P i) o h = Y (medium P i) o h) ->
    mg_ratio P groups T0 X c -> mg_ratio P groups T0 Y c.
  Proof.
    intros H R g i Hg Hi. eapply Rle_trans; [|apply R; eassumption].
    apply Req_le, rsum_ext. intros h Hh. rewrite H by assumption. reflexivity.
  Qed.

  (** existence and uniqueness of the exact step *)
  Lemma exact_step_unique psi k : (k < steps)%nat ->
    exists sol, exact_step P groups velocity xs_total (total_transfer s f) (step_row external k) (step_row boundary k)
                  (run_derivative two dt psi k) sol /\
      forall other, exact_step P groups velocity xs_total (total_transfer s f) (step_row external k)
                      (step_row boundary k) (run_derivative two dt psi k) other -> agree2 (cells P) groups other sol.
  Proof.
    intros Hk.
    set (q := mkArr3 (angles P) groups (fun i m g =>
      at3 (step_row external k) i (bidx (d3b (step_row external k)) m) (bidx (d3c (step_row external k)) g)
      + run_source two velocity dt psi k i m g)).
    assert (Eq : forall phi, exact_step P groups velocity xs_total (total_transfer s f) (step_row external k)
        (step_row boundary k) (run_derivative two dt psi k) phi <->
      mg_solution P groups (T k) (total_transfer s f) q (step_row boundary k) phi).
    { intros phi. apply (exact_step_solution P groups velocity dt xs_total (total_transfer s f) (step_row external k)
        (step_row boundary k) (run_weight two k) (run_source two velocity dt psi k)); try reflexivity.
      intros new i m g _ _ Hg. apply run_derivative_eq; auto. }
    destruct (mg_unique_solution P groups (T k) (total_transfer s f) q (step_row boundary k) c Hnz (Hthin k Hk) Hw Hc Hrho (Hrat k Hk))
      as (sol & H & U).
    exists sol. split; [apply Eq; exact H|]. intros other Ho. apply U, Eq, Ho.
  Qed.

  Lemma timed_accuracy ft :
    run = Ok ft ->
    exists psi, psi 0%nat = flux_last /\
      time_history two P groups velocity dt xs_total (total_transfer s f) (step_row external) (step_row boundary)
        steps psi ft /\
      forall k sol, (k < steps)%nat ->
        exact_step P groups velocity xs_total (total_transfer s f) (step_row external k) (step_row boundary k)
          (run_derivative two dt psi k) sol ->
        let rho := rsum (angles P) (wt P) * c in
        exists n, (1 <= n <= 100)%nat /\
          (forall d, 0 <= d -> within2 (cells P) groups d (step_start P flux_last ft k) sol ->
             within2 (cells P) groups (rho ^ n * d) (ft k) sol /\
             within2 (cells P) groups (rho ^ S n * d) (scalar_flux P (psi (S k))) sol) /\
          ((n < 100)%nat -> forall M, 0 <= M ->
             (forall i g, (i < cells P)%nat -> (g < groups)%nat -> Rabs (ft k i g) <= M) ->
             within2 (cells P) groups (rho * (/ 10 ^ 8 * INR (cells P) * M) / (1 - rho)) (ft k) sol).
  Proof.
    intros E.
    assert (Hd : forall k, (k < steps)%nat -> mg_divisors P groups (T k)).
    { intros k Hk g Hg. apply thin_divisors; [exact Hnz|]. apply (Hthin k Hk g Hg). }
    destruct (timed_history_gen ft Hd E) as (X & x & _ & HX & H0 & Hs & Hft & Hsrc & HH).
    exists (fun j => t_psi1 (x j)). split; [rewrite H0; reflexivity|]. split; [exact HH|].
    intros k sol Hk Hsol rho.
    set (psi := fun j => t_psi1 (x j)) in *.
    destruct (timed_body_ok _ _ _ _ _ _ _ _ _ _ _ _ (Hs k Hk)) as (_ & _ & q & Eq & Ei & Ek & _).
    assert (Eq' := add_external_ok _ _ _ _ _ Eq).
    assert (Hsolve : exact_step P groups velocity xs_total X (step_row external k) (step_row boundary k)
              (run_derivative two dt psi k) sol)
      by (eapply exact_step_xs; [|exact Hsol]; intros; symmetry; apply HX; assumption).
    assert (Hmg : mg_solution P groups (T k) X q (step_row boundary k) sol).
    { apply (exact_step_solution P groups velocity dt xs_total X (step_row external k) (step_row boundary k)
        (run_weight two k) (run_source two velocity dt psi k) (run_derivative two dt psi k) q sol); [| | | |exact Hsolve].
      - intros new i m g _ _ Hg. apply run_derivative_eq; auto.
      - rewrite Eq'. reflexivity.
      - rewrite Eq'. reflexivity.
      - intros i m g Hi Hm Hg. rewrite Eq'. cbn [at3]. rewrite Hsrc by exact Hk. reflexivity. }
    assert (HratX : mg_ratio P groups (T k) X c)
      by (eapply mg_ratio_xs; [|apply Hrat, Hk]; intros; symmetry; apply HX; assumption).
    destruct (outer_error P groups (T k) X q (step_row boundary k) c (t_old (x k)) (t_old (x (S k))) sol
               (Hthin k Hk) Hw Hc Hrho HratX Hmg Ei) as (n & Hn & Hgeo & Hstop).
    assert (Hstart : t_old (x k) = step_start P flux_last ft k).
    { unfold step_start. destruct k as [|j]; [rewrite H0; apply angle_sum_scalar|]. rewrite Hft by lia. reflexivity. }
    exists n. split; [exact Hn|]. rewrite Hstart in Hgeo. rewrite <- Hft in Hgeo, Hstop by exact Hk.
    assert (Hrho0 : 0 <= rho) by (apply Rmult_le_pos; [apply rsum_nonneg; exact Hw|exact Hc]).
    split; [|exact Hstop].
    intros d Hd0 Hdist. specialize (Hgeo d Hd0 Hdist). fold rho in Hgeo. split; [exact Hgeo|].
    (* the angular flux comes from one more sweep *)
    destruct (HH k Hk) as [E1 HE1].
    destruct Hsol as (E2 & psi2 & HE2 & A2).
    apply (sweep_step P groups velocity dt xs_total (total_transfer s f) (step_row external k) (step_row boundary k)
      (run_weight two k) (run_source two velocity dt psi k)) in HE1;
      [|intros i m g _ _ Hg; apply run_derivative_eq; auto].
    apply (sweep_step P groups velocity dt xs_total (total_transfer s f) (step_row external k) (step_row boundary k)
      (run_weight two k) (run_source two velocity dt psi k)) in HE2;
      [|intros i m g _ _ Hg; apply run_derivative_eq; auto].
    set (dd := rho ^ n * d) in *.
    assert (Hdd : 0 <= dd) by (apply Rmult_le_pos; [apply pow_le; exact Hrho0|exact Hd0]).
    intros i g Hi Hg. rewrite A2 by assumption.
    replace (rho ^ S n * d) with (rsum (angles P) (wt P) * (c * dd)) by (unfold dd, rho; cbn [pow]; ring).
    revert i g Hi Hg. apply scalar_perturb; [exact Hw|].
    apply (sweep_perturb P groups (T k) _ _ (step_row boundary k) E1 E2 _ _ (c * dd) Hnz (Hthin k Hk)
             ltac:(apply Rmult_le_pos; assumption) HE1 HE2).
    intros i m g Hi Hm Hg. cbv beta.
    match goal with |- Rabs ?z <= _ => replace z with
      (rsum groups (fun h => total_transfer s f (medium P i) g h * (ft k i h - sol i h)))
      by (rewrite (rsum_ext groups _ (fun h => total_transfer s f (medium P i) g h * ft k i h - total_transfer s f (medium P i) g h * sol i h)) by (intros; ring);
          rewrite rsum_minus; ring) end.
    replace (c * dd * T k (medium P i) g) with (c * T k (medium P i) g * dd) by ring.
    eapply Rle_trans; [|apply Rmult_le_compat_r; [exact Hdd|apply (Hrat k Hk g i Hg Hi)]].
    rewrite <- rsum_scal_r. apply rsum_abs_le. intros h Hh. rewrite Rabs_mult.
    apply Rmult_le_compat_l; [apply Rabs_pos|apply Hgeo; assumption].
  Qed.
End Timed.
