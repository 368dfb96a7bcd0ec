(** C61: the erfc-based decay. *)
From Coq Require Import ZArith Lra Lia Reals.
From Verif Require Import Base BaseFacts ManFacts SrcModel SrcSpec.
Open Scope R_scope.

Lemma ftc (f F : R -> R) a b (pr : Riemann_integrable f a b) : a <= b -> (forall y, derivable_pt_lim F y (f y)) -> continuity f ->
  RiemannInt pr = F b - F a.
Proof.
  intros L D C.
  assert (DF : derivable F) by (intros y; exists (f y); apply D).
  assert (E : forall y, derive F DF y = f y).
  { intros y. unfold derive. apply derive_pt_eq_0. apply D. }
  assert (CD : continuity (derive F DF)).
  { intros y. apply (continuity_pt_locally_ext f _ 1); [lra| |apply C]. intros z _. symmetry. apply E. }
  pose (c1 := mkC1 CD).
  assert (pr2 : Riemann_integrable (derive c1 (diff0 c1)) a b).
  { apply continuity_implies_RiemannInt; [lra|]. intros y _. change (derive c1 (diff0 c1)) with (derive F (diff0 c1)).
    apply (continuity_pt_locally_ext f _ 1); [lra| |apply C]. intros z _. symmetry.
    unfold derive. apply derive_pt_eq_0. apply D. }
  pose proof (FTC_Riemann c1 pr2) as K. change (c1 b) with (F b) in K. change (c1 a) with (F a) in K.
  rewrite <- K. apply RiemannInt_P18; [lra|]. intros y _.
  unfold derive. symmetry. apply derive_pt_eq_0. apply D.
Qed.

Lemma gauss_cont : continuity (fun t => exp (- t ^ 2)).
Proof. intros x. apply gauss_continuous. Qed.
Definition ginth x (H : 0 <= x) := continuity_implies_RiemannInt (f := fun t => exp (- t ^ 2)) H (fun y _ => gauss_continuous y).

Lemma gi_lower x H (f F : R -> R) : (forall y, derivable_pt_lim F y (f y)) -> continuity f ->
  (forall t, 0 < t < x -> f t <= exp (- t ^ 2)) -> F x - F 0 <= gauss_integral x H.
Proof.
  intros D C L. assert (pr : Riemann_integrable f 0 x) by (apply continuity_implies_RiemannInt; [exact H|intros y _; apply C]).
  rewrite <- (ftc f F 0 x pr H D C). unfold gauss_integral. apply RiemannInt_P19; [exact H|exact L].
Qed.
Lemma gi_upper x H (f F : R -> R) : (forall y, derivable_pt_lim F y (f y)) -> continuity f ->
  (forall t, 0 < t < x -> exp (- t ^ 2) <= f t) -> gauss_integral x H <= F x - F 0.
Proof.
  intros D C L. assert (pr : Riemann_integrable f 0 x) by (apply continuity_implies_RiemannInt; [exact H|intros y _; apply C]).
  rewrite <- (ftc f F 0 x pr H D C). unfold gauss_integral. apply RiemannInt_P19; [exact H|exact L].
Qed.
Lemma gi_mono x y Hx Hy : x <= y -> gauss_integral x Hx <= gauss_integral y Hy.
Proof.
  intros L. assert (pr : Riemann_integrable (fun t => exp (- t ^ 2)) x y) by (apply continuity_implies_RiemannInt; [exact L|intros z _; apply gauss_continuous]).
  unfold gauss_integral. rewrite <- (RiemannInt_P26 (continuity_implies_RiemannInt Hx (fun y _ => gauss_continuous y)) pr (continuity_implies_RiemannInt Hy (fun y _ => gauss_continuous y))).
  assert (0 <= RiemannInt pr); [|lra].
  assert (p0 : Riemann_integrable (fct_cte 0) x y) by apply RiemannInt_P14.
  apply Rle_trans with (RiemannInt p0); [rewrite RiemannInt_P15; lra|]. apply RiemannInt_P19; [exact L|]. intros z _. unfold fct_cte. left. apply exp_pos.
Qed.

(** exp (- u) >= 1 - u + u^2/2 - u^3/6 *)
Lemma from_zero (f f' : R -> R) u : 0 <= u -> f 0 = 0 -> (forall t, derivable_pt_lim f t (f' t)) -> (forall t, 0 <= t -> 0 <= f' t) -> 0 <= f u.
Proof.
  intros Hu H0 D P. destruct Hu as [Hu| <-]; [|lra].
  destruct (MVT_cor2 f f' 0 u Hu (fun t _ => D t)) as (z & E & Hz). rewrite H0, !Rminus_0_r in E. rewrite E. apply Rmult_le_pos; [apply P; lra|lra].
Qed.
Lemma exp_cubic u : 0 <= u -> 1 - u + u ^ 2 / 2 - u ^ 3 / 6 <= exp (- u).
Proof.
  intros Hu.
  assert (A1 : forall u, 0 <= u -> 0 <= exp (- u) - 1 + u).
  { intros v Hv. pose proof (exp_ineq1_le (- v)). lra. }
  assert (A2 : forall u, 0 <= u -> 0 <= 1 - u + u ^ 2 / 2 - exp (- u)).
  { intros v Hv. apply (from_zero (fun u => 1 - u + u ^ 2 / 2 - exp (- u)) (fun u => exp (- u) - 1 + u)); [exact Hv| | |exact A1].
    - rewrite Ropp_0, exp_0. field.
    - intros t. eassert (D : derivable_pt_lim (fun u => 1 - u + u ^ 2 / 2 - exp (- u)) t _) by dauto. by_derivative D. field. }
  assert (A3 : 0 <= exp (- u) - (1 - u + u ^ 2 / 2 - u ^ 3 / 6)).
  { apply (from_zero (fun u => exp (- u) - (1 - u + u ^ 2 / 2 - u ^ 3 / 6)) (fun u => 1 - u + u ^ 2 / 2 - exp (- u))); [exact Hu| | |exact A2].
    - rewrite Ropp_0, exp_0. field.
    - intros t. eassert (D : derivable_pt_lim (fun u => exp (- u) - (1 - u + u ^ 2 / 2 - u ^ 3 / 6)) t _) by dauto. by_derivative D. field. }
  lra.
Qed.

Lemma gi_nonneg x H : 0 <= gauss_integral x H.
Proof.
  replace 0 with ((fun _ => 0) x - (fun _ : R => 0) 0) at 1 by (cbv beta; ring).
  apply (gi_lower x H (fun _ => 0) (fun _ => 0)); [intros; apply dl_const|apply continuity_const; intros ? ?; reflexivity|].
  intros t _. left. apply exp_pos.
Qed.
Lemma gi_small x H : gauss_integral x H <= x.
Proof.
  replace x with ((fun t => t) x - (fun t : R => t) 0) at 2 by (cbv beta; ring).
  apply (gi_upper x H (fun _ => 1) (fun t => t)); [intros; apply dl_id|apply continuity_const; intros ? ?; reflexivity|].
  intros t _. assert (0 <= t ^ 2) by (apply pow2_ge_0). pose proof (exp_pos (t ^ 2)). 
  destruct (Req_dec (t ^ 2) 0) as [-> |N]; [rewrite Ropp_0, exp_0; lra|].
  left. rewrite <- exp_0. apply exp_increasing. lra.
Qed.
Lemma gi_bounded x H : gauss_integral x H <= 1.285.
Proof.
  apply Rle_trans with ((fun t => - (exp (1 / 4) * exp (- t))) x - (fun t => - (exp (1 / 4) * exp (- t))) 0).
  - apply (gi_upper x H (fun t => exp (1 / 4) * exp (- t)) (fun t => - (exp (1 / 4) * exp (- t)))).
    + intros y. eassert (D : derivable_pt_lim (fun t => - (exp (1 / 4) * exp (- t))) y _) by dauto. by_derivative D. ring.
    + apply (dl_continuity _ (fun t => - (exp (1 / 4) * exp (- t)))). intros y.
      eassert (D : derivable_pt_lim (fun t => exp (1 / 4) * exp (- t)) y _) by dauto. by_derivative D. ring.
    + intros t _. rewrite <- exp_plus. assert (- t ^ 2 <= 1 / 4 + - t). { pose proof (pow2_ge_0 (t - 1 / 2)). replace ((t - 1 / 2) ^ 2) with (t ^ 2 - t + 1 / 4) in H0 by field. lra. }
      destruct H0 as [H0| ->]; [left; now apply exp_increasing|lra].
  - cbv beta. rewrite Ropp_0, exp_0. pose proof (exp_pos (1 / 4)). pose proof (exp_pos (- x)).
    assert (0 < exp (1 / 4) * exp (- x)) by (now apply Rmult_lt_0_compat).
    assert (B : exp (1 / 4) <= 1.285).
    { pose proof (exp_cubic (1 / 4) ltac:(lra)) as L. rewrite exp_Ropp in L. apply Rmult_le_reg_r with (/ exp (1 / 4)); [now apply Rinv_0_lt_compat|].
      rewrite Rinv_r by lra. lra. }
    lra.
Qed.
Lemma gi_large x H : 6 / 5 <= x -> 0.78 <= gauss_integral x H.
Proof.
  intros L. assert (H1 : 0 <= 6 / 5) by lra. apply Rle_trans with (gauss_integral (6 / 5) H1); [|now apply gi_mono].
  apply Rle_trans with ((fun t => t - t ^ 3 / 3 + t ^ 5 / 10 - t ^ 7 / 42) (6 / 5) - (fun t => t - t ^ 3 / 3 + t ^ 5 / 10 - t ^ 7 / 42) 0).
  - cbv beta. lra.
  - apply (gi_lower (6 / 5) H1 (fun t => 1 - t ^ 2 + (t ^ 2) ^ 2 / 2 - (t ^ 2) ^ 3 / 6) (fun t => t - t ^ 3 / 3 + t ^ 5 / 10 - t ^ 7 / 42)).
    + intros y. eassert (D : derivable_pt_lim (fun t => t - t ^ 3 / 3 + t ^ 5 / 10 - t ^ 7 / 42) y _) by dauto. by_derivative D. field.
    + apply (dl_continuity _ (fun t => - (2 * t) + 2 * t ^ 3 - t ^ 5)). intros y.
      eassert (D : derivable_pt_lim (fun t => 1 - t ^ 2 + (t ^ 2) ^ 2 / 2 - (t ^ 2) ^ 3 / 6) y _) by dauto. by_derivative D. field.
    + intros t _. apply exp_cubic. apply pow2_ge_0.
Qed.

Lemma root_pi : sqrt 3 <= sqrt PI <= 2.
Proof.
  pose proof PI2_3_2. pose proof PI_4. split; [apply sqrt_le_1_alt; lra|]. replace 2 with (sqrt 4); [apply sqrt_le_1_alt; lra|].
  replace 4 with (2 * 2) by ring. rewrite sqrt_square; lra.
Qed.
Lemma root_three : 1.73 <= sqrt 3.
Proof. rewrite <- (sqrt_square 1.73) by lra. apply sqrt_le_1_alt. lra. Qed.

Lemma erf_bounds x : 0 <= x -> 0 <= erf x <= 1.5 /\ erf x <= 1.2 * x /\ (6 / 5 <= x -> 0.78 <= erf x).
Proof.
  intros Hx. unfold erf. destruct (Rle_dec 0 x) as [H|H]; [|contradiction].
  pose proof (gi_nonneg x H) as G0. pose proof (gi_small x H) as G1. pose proof (gi_bounded x H) as G2. pose proof (gi_large x H) as G3.
  destruct root_pi as [R1 R2]. pose proof root_three as R3. set (g := gauss_integral x H) in *.
  assert (C1 : 1 <= 2 / sqrt PI). { apply Rmult_le_reg_r with (sqrt PI); [lra|]. unfold Rdiv. rewrite Rmult_assoc, Rinv_l by lra. lra. }
  assert (C2 : 2 / sqrt PI <= 1.157). { apply Rmult_le_reg_r with (sqrt PI); [lra|]. unfold Rdiv. rewrite Rmult_assoc, Rinv_l by lra. lra. }
  set (c := 2 / sqrt PI) in *.
  split; [split|split].
  - apply Rmult_le_pos; lra.
  - apply Rle_trans with (1.157 * 1.285); [apply Rmult_le_compat; lra|lra].
  - apply Rle_trans with (1.2 * g); [apply Rmult_le_compat_r; lra|]. apply Rmult_le_compat_l; lra.
  - intros L. specialize (G3 L). apply Rle_trans with (1 * g); [lra|]. apply Rmult_le_compat_r; lra.
Qed.
