(** Infinite medium with one fission spectrum: k-infinity, its mode, and what the passes of the power iteration return. *)
From Coq Require Import Lra Lia Psatz.
From Verif Require Import Base BaseFacts Contraction SlabModel SlabSpec SlabFacts MgModel MgSpec MgFacts MgFacts2 MgFacts7.
From Verif Require Import CritModel CritSpec CritFacts CritFacts2 CritFacts3 CritFacts4 CritFacts5 CritFacts10.
Open Scope R_scope.

(** *** yields below one *)
Theorem yields_0d_well_posed angles groups wt T X c rows external :
  (forall m, (m < angles)%nat -> 0 <= wt m) -> 0 <= c < 1 -> yields_0d angles groups wt T X c ->
  exists sol, balance_0d angles groups wt T X rows external sol /\
    (forall other, balance_0d angles groups wt T X rows external other -> forall g, (g < groups)%nat -> other g = sol g) /\
    ((forall g h, (g < groups)%nat -> (h < groups)%nat -> 0 <= X g h) ->
     (forall m g, (m < angles)%nat -> (g < groups)%nat -> 0 <= at2 external (bidx rows m) (bidx (cols2 external) g)) ->
     forall g, (g < groups)%nat -> 0 <= sol g).
Proof.
  intros Hw Hc HY. assert (HW : 0 <= rsum angles wt) by (apply rsum_nonneg; exact Hw).
  destruct (yield_damping_0d angles groups wt T X c ((1 + c) / 2) HW ltac:(lra) ltac:(lra) HY) as (p & HD).
  assert (Hr : 0 <= (1 + c) / 2 < 1) by lra.
  destruct (damped_0d_unique angles groups wt T X _ p HW Hr HD rows external) as (sol & Hs & Hu).
  exists sol. split; [exact Hs|]. split; [exact Hu|]. intros HX He.
  apply (damped_0d_nonneg angles groups wt T X _ p HW Hr HD rows external sol Hw HX He Hs).
Qed.
Theorem yields_0d_converges angles groups wt T X c r : 0 <= rsum angles wt -> 0 <= c -> c < r < 1 ->
  yields_0d angles groups wt T X c ->
  exists K, 1 <= K /\ forall rows external old sol, balance_0d angles groups wt T X rows external sol ->
  exists flux, source_iteration_0d angles groups wt T X rows external old = Ok flux /\
  exists n, (1 <= n <= 100)%nat /\
    (forall d, 0 <= d -> within1 groups d old sol -> within1 groups (K * r ^ n * d) flux sol) /\
    ((n < 100)%nat -> forall M, 0 <= M -> (forall g, (g < groups)%nat -> Rabs (flux g) <= M) ->
       within1 groups (K * (r * (/ 10 ^ 8 * M) / (1 - r))) flux sol).
Proof.
  intros HW Hc Hr HY. destruct (yield_damping_0d angles groups wt T X c r HW Hc (proj1 Hr) HY) as (p & HD).
  apply (damped_0d_converges angles groups wt T X r p HW ltac:(lra) HD).
Qed.

(** *** the solve of one pass *)
Section Kinf.
Variables (angles groups : nat) (wt T : vec) (X : mat2) (c : R) (p : vec).
Hypothesis HW : 0 <= rsum angles wt.
Hypothesis Hc : 0 <= c < 1.
Hypothesis HD : damping_0d angles groups wt T X c p.

Lemma solve_0d_error rows external old raw sol d M :
  balance_0d angles groups wt T X rows external sol ->
  source_iteration_0d angles groups wt T X rows external old = Ok raw ->
  0 <= d -> (forall g, (g < groups)%nat -> Rabs (old g - sol g) <= d * p g) ->
  0 <= M -> (forall g, (g < groups)%nat -> Rabs (raw g) <= M * p g) ->
  (forall g, (g < groups)%nat -> Rabs (raw g - sol g) <= c * d * p g) /\
  forall g, (g < groups)%nat -> Rabs (raw g - sol g) <= Rmax (c * (/ 10 ^ 8 * M) / (1 - c)) (c ^ 100 * d) * p g.
Proof.
  intros Hsol E Hd Hold HM Hraw.
  destruct (iterate_spec _ _ _ _ _ _ _ _ E) as (n & x & H1 & H2 & H3 & H4 & H5 & H6 & H7).
  change count_gg with 100%nat in *. subst raw.
  assert (G : forall k, (k <= n)%nat -> forall g, (g < groups)%nat -> Rabs (x k g - sol g) <= c ^ k * d * p g).
  { induction k as [|k IH]; intros Hk.
    - intros h Hh. cbn [pow]. rewrite H3, Rmult_1_l. apply Hold; exact Hh.
    - cbn [pow]. intros h Hh. rewrite (Rmult_assoc c).
      apply (sweep_0d_contracts_of angles groups wt T X c p HW Hc HD rows external (x k) (x (S k)) sol); [exact Hsol|apply H5; lia| |apply IH; lia|exact Hh].
      apply Rmult_le_pos; [apply pow_le; lra|lra]. }
  assert (PW : forall k, 0 <= c ^ k <= 1).
  { intros k. split; [apply pow_le; lra|]. induction k as [|k IH]; cbn [pow]; [lra|]. assert (0 <= c ^ k) by (apply pow_le; lra). nra. }
  split.
  - intros g Hg. eapply Rle_trans; [apply G; [lia|exact Hg]|]. pose proof (d0_pos angles groups wt T X c p HD g Hg).
    apply Rmult_le_compat_r; [lra|]. apply Rmult_le_compat_r; [exact Hd|].
    destruct n as [|n]; [lia|]. cbn [pow]. pose proof (PW n). nra.
  - intros g Hg. pose proof (d0_pos angles groups wt T X c p HD g Hg) as Pg. destruct (Nat.eq_dec n 100) as [N|N].
    + eapply Rle_trans; [apply G; [lia|exact Hg]|]. rewrite N. apply Rmult_le_compat_r; [lra|]. apply Rmax_r.
    + destruct H7 as [H7|H7]; [|lia]. apply (below_settled0 groups) in H7. change change_gg with (/ 10 ^ 8) in H7.
      assert (Ht : 0 < / 10 ^ 8) by (apply Rinv_0_lt_compat, pow_lt; lra).
      assert (En := H5 (n - 1)%nat ltac:(lia)). replace (S (n - 1)) with n in En by lia.
      eapply Rle_trans; [apply (posterior_0d angles groups wt T X c p HW Hc HD rows external (x (n - 1)%nat) (x n) sol (/ 10 ^ 8 * M) Hsol En); [apply Rmult_le_pos; lra| |exact Hg]|].
      * intros h Hh. eapply Rle_trans; [apply (settled0_close groups (x n) (x (n - 1)%nat) (/ 10 ^ 8) h ltac:(lra) H7 Hh)|].
        rewrite Rmult_assoc. apply Rmult_le_compat_l; [lra|]. apply Hraw; exact Hh.
      * apply Rmult_le_compat_r; [lra|]. apply Rmax_l.
Qed.
(** in units of the solution *)
Lemma solve_0d_relative rows external old raw sol U D :
  balance_0d angles groups wt T X rows external sol ->
  source_iteration_0d angles groups wt T X rows external old = Ok raw ->
  0 <= U -> (forall g, (g < groups)%nat -> Rabs (sol g) <= U * p g) ->
  0 <= D -> (forall g, (g < groups)%nat -> Rabs (old g - sol g) <= D * U * p g) ->
  c * / 10 ^ 8 < 1 - c ->
  forall g, (g < groups)%nat ->
    Rabs (raw g - sol g) <= Rmax (c * / 10 ^ 8 / (1 - c - c * / 10 ^ 8)) (c ^ 100 * D) * U * p g.
Proof.
  intros Hsol E HU Hu HD0 Hold Hsmall. destruct (Nat.eq_dec groups 0) as [Z|Z]; [intros; lia|].
  assert (Pp := d0_pos angles groups wt T X c p HD).
  destruct (vec_ratio_max groups (fun g => Rabs (raw g)) p ltac:(lia) Pp) as (M & j & Hj & Ej & HM). cbv beta in *.
  assert (M0 : 0 <= M) by (pose proof (Pp j Hj); pose proof (Rabs_pos (raw j)); destruct (Rle_or_lt 0 M) as [L|L]; [exact L|exfalso; nra]).
  destruct (solve_0d_error rows external old raw sol (D * U) M Hsol E ltac:(apply Rmult_le_pos; assumption) Hold M0 HM) as (_ & Q).
  set (t := / 10 ^ 8) in *. assert (Ht : 0 < t) by (apply Rinv_0_lt_compat, pow_lt; lra).
  set (rho := c * t / (1 - c - c * t)). set (eta := Rmax rho (c ^ 100 * D)).
  assert (P100 : 0 <= c ^ 100) by (apply pow_le; lra).
  assert (R0 : 0 <= rho) by (apply Rmult_le_pos; [apply Rmult_le_pos; lra|left; apply Rinv_0_lt_compat; lra]).
  assert (E0 : rho <= eta) by apply Rmax_l. assert (E1 : c ^ 100 * D <= eta) by apply Rmax_r.
  assert (RE : rho * (1 - c) = c * t * (1 + rho)) by (unfold rho; field; lra).
  assert (MB : Rmax (c * (t * M) / (1 - c)) (c ^ 100 * (D * U)) <= eta * U).
  { assert (B : c ^ 100 * (D * U) <= eta * U) by (rewrite <- Rmult_assoc; apply Rmult_le_compat_r; assumption).
    apply Rmax_lub; [|exact B].
    destruct (Rle_or_lt (c * (t * M) / (1 - c)) (c ^ 100 * (D * U))) as [A|A]; [lra|].
    set (m := c * (t * M) / (1 - c)) in *.
    assert (ME : m * (1 - c) = c * t * M) by (unfold m; field; lra).
    assert (QJ : M <= m + U).
    { specialize (Q j Hj). replace (Rmax m (c ^ 100 * (D * U))) with m in Q by (symmetry; apply Rmax_left; lra).
      specialize (Hu j Hj). pose proof (Pp j Hj) as Pj. apply (Rmult_le_reg_r (p j)); [exact Pj|]. rewrite <- Ej.
      replace (raw j) with ((raw j - sol j) + sol j) by ring. eapply Rle_trans; [apply Rabs_triang|]. lra. }
    assert (m <= rho * U); [|nra].
    assert (CT : 0 <= c * t) by (apply Rmult_le_pos; lra).
    assert (m * (1 - c - c * t) <= c * t * U) by nra.
    apply (Rmult_le_reg_r (1 - c - c * t)); [lra|].
    replace (rho * U * (1 - c - c * t)) with (c * t * U) by (unfold rho; field; lra). assumption. }
  intros g Hg. eapply Rle_trans; [apply Q; exact Hg|]. apply Rmult_le_compat_r; [left; apply Pp; exact Hg|exact MB].
Qed.

(** *** k-infinity *)
Variables (chi nusigf u : vec).
Hypothesis Hu : balance_0d angles groups wt T X 1 (mkArr2 groups (fun _ g => chi g)) u.
Let f := FissionVector0 chi nusigf.
Let kinf := rsum groups (fun g => nusigf g * u g).

Lemma emission_vec phi g : emission_0d groups f phi g = chi g * rsum groups (fun h => nusigf h * phi h).
Proof. unfold emission_0d, f. cbn [fission_entry_0d]. rewrite <- rsum_scal. apply rsum_ext. intros; ring. Qed.
Lemma production_vec phi : production_0d groups f phi = rsum groups chi * rsum groups (fun h => nusigf h * phi h).
Proof. unfold production_0d. rewrite <- rsum_scal_r. apply rsum_ext. intros g Hg. apply emission_vec. Qed.
Lemma balance_scaled s q : (forall g, (g < groups)%nat -> q g = s * chi g) ->
  balance_0d angles groups wt T X 1 (mkArr2 groups (fun _ g => q g)) (fun g => s * u g).
Proof.
  intros Hq g Hg. specialize (Hu g Hg). cbn [at2 cols2] in *.
  assert (K : bidx groups g = g) by (unfold bidx; destruct (Nat.eqb_spec groups 1); lia). rewrite K in *.
  replace (T g * (s * u g)) with (s * (T g * u g)) by ring. rewrite Hu, <- rsum_scal. apply rsum_ext. intros n Hn.
  rewrite (Hq g Hg). rewrite (rsum_ext groups (fun h => X g h * (s * u h)) (fun h => s * (X g h * u h))) by (intros; ring). rewrite rsum_scal. ring.
Qed.
Lemma nusum_scaled s (v w : vec) : (forall g, (g < groups)%nat -> w g = s * v g) ->
  rsum groups (fun g => nusigf g * w g) = s * rsum groups (fun g => nusigf g * v g).
Proof. intros H. rewrite <- rsum_scal. apply rsum_ext. intros g Hg. rewrite (H g Hg). ring. Qed.
Theorem kinf_eigenpair : kinf <> 0 -> eigenpair_0d angles groups wt T X f u kinf.
Proof.
  intros Hk. unfold eigenpair_0d.
  assert (B := balance_scaled 1 (fun g => emission_0d groups f u g / kinf)). cbv beta in B.
  assert (B' : balance_0d angles groups wt T X 1 (mkArr2 groups (fun _ g => emission_0d groups f u g / kinf)) (fun g => 1 * u g)).
  { apply B. intros g Hg. rewrite emission_vec. fold kinf. field. exact Hk. }
  intros g Hg. specialize (B' g Hg). cbn [at2 cols2] in *. rewrite Rmult_1_l in B'. rewrite B'. apply rsum_ext. intros n Hn. f_equal. f_equal.
  apply rsum_ext. intros h Hh. ring.
Qed.
Theorem kinf_unique phi k : k <> 0 -> eigenpair_0d angles groups wt T X f phi k ->
  (forall g, (g < groups)%nat -> phi g = rsum groups (fun h => nusigf h * phi h) / k * u g) /\
  (k = kinf \/ forall g, (g < groups)%nat -> phi g = 0).
Proof.
  intros Hk He. set (s := rsum groups (fun h => nusigf h * phi h)).
  destruct (damped_0d_unique angles groups wt T X c p HW Hc HD 1 (mkArr2 groups (fun _ g => emission_0d groups f phi g / k))) as (sol & Hs & Hun).
  assert (E : forall g, (g < groups)%nat -> phi g = s / k * u g).
  { intros g Hg. rewrite (Hun phi He g Hg). symmetry. apply (Hun (fun g => s / k * u g)); [|exact Hg].
    apply balance_scaled. intros h Hh. rewrite emission_vec. fold s. field. exact Hk. }
  split; [exact E|].
  assert (S1 : s = s / k * kinf) by (apply nusum_scaled; exact E).
  destruct (Req_dec s 0) as [Z|Z]; [right|left].
  - intros g Hg. rewrite (E g Hg), Z. unfold Rdiv. ring.
  - apply (Rmult_eq_reg_l s); [|exact Z]. rewrite S1 at 1. field. exact Hk.
Qed.

(** one pass *)
Theorem kinf_pass U D v k flux k' :
  rsum groups chi <> 0 -> 0 <= U -> (forall g, (g < groups)%nat -> Rabs (u g) <= U * p g) ->
  c * / 10 ^ 8 < 1 - c -> 0 <= D ->
  rsum groups (fun g => nusigf g * v g) <> 0 -> k <> 0 ->
  (forall g, (g < groups)%nat -> Rabs (v g - rsum groups (fun h => nusigf h * v h) / k * u g)
     <= D * (Rabs (rsum groups (fun h => nusigf h * v h) / k) * U * p g)) ->
  power_step_0d angles groups wt T X f (v, k) = Ok (flux, k') ->
  forall eta, eta = Rmax (c * / 10 ^ 8 / (1 - c - c * / 10 ^ 8)) (c ^ 100 * D) ->
  Rabs (k' - kinf) <= eta * (U * rsum groups (fun g => Rabs (nusigf g) * p g)) /\
  (k' <> 0 -> rsum groups (fun g => nusigf g * flux g) <> 0 /\
     forall g, (g < groups)%nat -> Rabs (flux g - rsum groups (fun h => nusigf h * flux h) / k' * u g)
       <= eta * (Rabs (rsum groups (fun h => nusigf h * flux h) / k') * U * p g)).
Proof.
  intros Hchi HU HuU Hsmall HD0 HS Hk Hv E eta Heta. set (s := rsum groups (fun h => nusigf h * v h)) in *.
  destruct (power_step_0d_spec _ _ _ _ _ _ _ _ _ _ E) as (source & raw & Hsrc & Er & Ek & Ef & _).
  assert (Pp := d0_pos angles groups wt T X c p HD).
  assert (Hsol : balance_0d angles groups wt T X 1 (mkArr2 groups (fun _ g => source g)) (fun g => s / k * u g)).
  { apply balance_scaled. intros g Hg. rewrite (Hsrc g Hg), emission_vec. fold s. field. exact Hk. }
  assert (Q : forall g, (g < groups)%nat -> Rabs (raw g - s / k * u g) <= eta * (Rabs (s / k) * U) * p g).
  { rewrite Heta. apply (solve_0d_relative 1 _ v raw (fun g => s / k * u g) (Rabs (s / k) * U) D Hsol Er).
    - apply Rmult_le_pos; [apply Rabs_pos|exact HU].
    - intros g Hg. rewrite Rabs_mult, Rmult_assoc. apply Rmult_le_compat_l; [apply Rabs_pos|apply HuU; exact Hg].
    - exact HD0.
    - intros g Hg. eapply Rle_trans; [apply Hv; exact Hg|]. right. ring.
    - exact Hsmall. }
  assert (Ek2 : k' = k * rsum groups (fun h => nusigf h * raw h) / s).
  { rewrite Ek, !production_vec. fold s. field. split; assumption. }
  split.
  - assert (Z : Rabs (rsum groups (fun h => nusigf h * raw h) - s / k * kinf) <= eta * (Rabs (s / k) * U) * rsum groups (fun g => Rabs (nusigf g) * p g)).
    { unfold kinf. rewrite <- (rsum_scal groups (s / k)), <- rsum_minus, <- rsum_scal. apply rsum_abs_le. intros g Hg.
      replace (nusigf g * raw g - s / k * (nusigf g * u g)) with (nusigf g * (raw g - s / k * u g)) by ring. rewrite Rabs_mult.
      eapply Rle_trans; [apply Rmult_le_compat_l; [apply Rabs_pos|apply Q; exact Hg]|]. right. ring. }
    set (w := s / k) in *.
    assert (Wn : 0 < Rabs w) by (apply Rabs_pos_lt; unfold w; apply Rmult_integral_contrapositive_currified; [exact HS|apply Rinv_neq_0_compat; exact Hk]).
    apply (Rmult_le_reg_r (Rabs w)); [exact Wn|]. rewrite <- Rabs_mult.
    replace ((k' - kinf) * w) with (rsum groups (fun h => nusigf h * raw h) - w * kinf).
    + eapply Rle_trans; [exact Z|]. right. ring.
    + rewrite Ek2. unfold w. field. split; assumption.
  - intros Hk'. set (N := norm1 groups raw) in *.
    assert (Hraw : rsum groups (fun h => nusigf h * raw h) <> 0).
    { intros Z. apply Hk'. rewrite Ek2, Z. unfold Rdiv. ring. }
    assert (HN : N <> 0).
    { intros Z. apply Hraw. assert (A : forall g, (g < groups)%nat -> raw g = 0).
      { intros g Hg. unfold N, norm1 in Z. apply sqrt_eq_0 in Z; [|apply rsum_nonneg; intros; apply Rle_0_sqr].
        pose proof (rsum_term_le groups (fun g => Rsqr (raw g)) g ltac:(intros; apply Rle_0_sqr) Hg) as B. cbv beta in B. rewrite Z in B.
        apply Rsqr_0_uniq. pose proof (Rle_0_sqr (raw g)). lra. }
      rewrite (rsum_ext groups _ (fun _ => 0)) by (intros g Hg; rewrite (A g Hg); ring). apply rsum_zero. }
    assert (HNp : 0 < N) by (pose proof (sqrt_pos (rsum groups (fun g => Rsqr (raw g)))) as B; fold (norm1 groups raw) in B; fold N in B; lra).
    assert (ES : rsum groups (fun g => nusigf g * flux g) = / N * rsum groups (fun h => nusigf h * raw h)).
    { apply nusum_scaled. intros g Hg. rewrite Ef. unfold Rdiv. ring. }
    split; [rewrite ES; apply Rmult_integral_contrapositive_currified; [apply Rinv_neq_0_compat; exact HN|exact Hraw]|].
    assert (ER : rsum groups (fun h => nusigf h * flux h) / k' = s / k * / N).
    { rewrite ES, Ek2. field. repeat split; assumption. }
    intros g Hg. rewrite ER, Ef. replace (raw g / N - s / k * / N * u g) with (/ N * (raw g - s / k * u g)) by (field; split; assumption).
    assert (IN : 0 < / N) by (apply Rinv_0_lt_compat; exact HNp).
    rewrite (Rabs_mult (/ N)), (Rabs_mult (s / k)), (Rabs_right (/ N)) by lra.
    eapply Rle_trans; [apply Rmult_le_compat_l; [lra|apply Q; exact Hg]|]. right. ring.
Qed.

(** the whole run *)
Theorem kinf_run U D guess flux keff :
  rsum groups chi <> 0 -> 0 <= U -> (forall g, (g < groups)%nat -> Rabs (u g) <= U * p g) ->
  c * / 10 ^ 8 < 1 - c -> 0 <= D ->
  rsum groups (fun g => nusigf g * guess g) <> 0 ->
  (forall g, (g < groups)%nat -> Rabs (guess g - rsum groups (fun h => nusigf h * guess h) / norm1 groups guess * u g)
     <= D * (Rabs (rsum groups (fun h => nusigf h * guess h) / norm1 groups guess) * U * p g)) ->
  Rmax (c * / 10 ^ 8 / (1 - c - c * / 10 ^ 8)) (c ^ 100 * D) * (U * rsum groups (fun g => Rabs (nusigf g) * p g)) < Rabs kinf ->
  power_iteration_0d angles groups wt T X f guess = Ok (flux, keff) ->
  exists n, (1 <= n <= 101)%nat /\ forall eta, eta = Rmax (c * / 10 ^ 8 / (1 - c - c * / 10 ^ 8)) (c ^ (100 * n) * D) ->
  Rabs (keff - kinf) <= eta * (U * rsum groups (fun g => Rabs (nusigf g) * p g)) /\
  exists s, s <> 0 /\ forall g, (g < groups)%nat -> Rabs (flux g - s * u g) <= eta * (Rabs s * U * p g).
Proof.
  intros Hchi HU HuU Hsmall HD0 HS Hg0 Hbig E.
  destruct (power_0d_trace _ _ _ _ _ _ _ _ E) as (n & x & Hn & H0 & Hr & Hst & _ & _).
  set (rho := c * / 10 ^ 8 / (1 - c - c * / 10 ^ 8)) in *. set (V := U * rsum groups (fun g => Rabs (nusigf g) * p g)) in *.
  assert (Pp := d0_pos angles groups wt T X c p HD).
  assert (V0 : 0 <= V).
  { apply Rmult_le_pos; [exact HU|]. apply rsum_nonneg. intros g Hg. apply Rmult_le_pos; [apply Rabs_pos|left; apply Pp; exact Hg]. }
  assert (R0 : 0 <= rho).
  { assert (0 < / 10 ^ 8) by (apply Rinv_0_lt_compat, pow_lt; lra). apply Rmult_le_pos; [apply Rmult_le_pos; lra|left; apply Rinv_0_lt_compat; lra]. }
  assert (PW : forall k, 0 <= c ^ k <= 1).
  { intros k. split; [apply pow_le; lra|]. induction k as [|k IH]; cbn [pow]; [lra|]. assert (0 <= c ^ k) by (apply pow_le; lra). nra. }
  set (N := norm1 groups guess) in *.
  assert (HN : N <> 0).
  { intros Z. apply HS. assert (A : forall g, (g < groups)%nat -> guess g = 0).
    { intros g Hg. unfold N, norm1 in Z. apply sqrt_eq_0 in Z; [|apply rsum_nonneg; intros; apply Rle_0_sqr].
      pose proof (rsum_term_le groups (fun g => Rsqr (guess g)) g ltac:(intros; apply Rle_0_sqr) Hg) as B. cbv beta in B. rewrite Z in B.
      apply Rsqr_0_uniq. pose proof (Rle_0_sqr (guess g)). lra. }
    rewrite (rsum_ext groups _ (fun _ => 0)) by (intros g Hg; rewrite (A g Hg); ring). apply rsum_zero. }
  assert (HNp : 0 < N) by (pose proof (sqrt_pos (rsum groups (fun g => Rsqr (guess g)))) as B; fold (norm1 groups guess) in B; fold N in B; lra).
  set (eta := fun k => Rmax rho (c ^ (100 * k) * D)).
  (* the state after k passes *)
  assert (I : forall k, (k <= n)%nat -> rsum groups (fun g => nusigf g * fst (x k) g) <> 0 /\ snd (x k) <> 0 /\
    (forall g, (g < groups)%nat -> Rabs (fst (x k) g - rsum groups (fun h => nusigf h * fst (x k) h) / snd (x k) * u g)
       <= (if Nat.eqb k 0 then D else eta k) * (Rabs (rsum groups (fun h => nusigf h * fst (x k) h) / snd (x k)) * U * p g)) /\
    (k <> 0%nat -> Rabs (snd (x k) - kinf) <= eta k * V)).
  { induction k as [|k IH]; intros Hk.
    - rewrite H0. cbn [fst snd Nat.eqb].
      assert (ES : rsum groups (fun g => nusigf g * (guess g / Rabs N)) = / N * rsum groups (fun h => nusigf h * guess h)).
      { apply nusum_scaled. intros g Hg. rewrite Rabs_right by lra. unfold Rdiv. ring. }
      rewrite ES. split; [apply Rmult_integral_contrapositive_currified; [apply Rinv_neq_0_compat; exact HN|exact HS]|]. split; [exact HN|]. split; [|lia].
      intros g Hg. rewrite (Rabs_right N) by lra.
      set (S0 := rsum groups (fun h => nusigf h * guess h)) in *.
      replace (guess g / N - / N * S0 / N * u g) with (/ N * (guess g - S0 / N * u g)) by (field; exact HN).
      replace (/ N * S0 / N) with (/ N * (S0 / N)) by (field; exact HN).
      assert (IN : 0 < / N) by (apply Rinv_0_lt_compat; exact HNp).
      rewrite !(Rabs_mult (/ N)), (Rabs_right (/ N)) by lra. specialize (Hg0 g Hg).
      eapply Rle_trans; [apply Rmult_le_compat_l; [lra|exact Hg0]|]. right. ring.
    - destruct (IH ltac:(lia)) as (A1 & A2 & A3 & _). assert (Es := Hst k ltac:(lia)).
      destruct (x k) as [v kk]. destruct (x (S k)) as [w k'] eqn:Ex. cbn [fst snd] in *. cbn [Nat.eqb].
      set (Dk := if Nat.eqb k 0 then D else eta k) in *.
      assert (D0 : 0 <= Dk).
      { unfold Dk. destruct (Nat.eqb k 0); [exact HD0|]. unfold eta. eapply Rle_trans; [exact R0|apply Rmax_l]. }
      destruct (kinf_pass U Dk v kk w k' Hchi HU HuU Hsmall D0 A1 A2 A3 Es _ eq_refl) as (B1 & B2).
      assert (Le : Rmax rho (c ^ 100 * Dk) <= eta (S k)).
      { unfold eta. apply Rmax_lub; [apply Rmax_l|]. unfold Dk. destruct (Nat.eqb_spec k 0) as [K0|K0].
        - subst k. rewrite Nat.mul_1_r. apply Rmax_r.
        - unfold eta. pose proof (PW 100%nat) as P1. destruct (Rle_or_lt rho (c ^ (100 * k) * D)) as [M1|M1]; [rewrite (Rmax_right _ _ M1)|rewrite (Rmax_left rho) by lra].
          + replace (100 * S k)%nat with (100 + 100 * k)%nat by lia. rewrite pow_add, Rmult_assoc. apply Rmax_r.
          + eapply Rle_trans; [|apply Rmax_l]. nra. }
      assert (Mon : eta (S k) <= Rmax rho (c ^ 100 * D)).
      { unfold eta. apply Rmax_lub; [apply Rmax_l|]. eapply Rle_trans; [|apply Rmax_r]. apply Rmult_le_compat_r; [exact HD0|].
        replace (100 * S k)%nat with (100 + 100 * k)%nat by lia. rewrite pow_add. pose proof (PW 100%nat). pose proof (PW (100 * k)%nat). nra. }
      fold rho in B1, B2. fold V in B1.
      assert (Kc : Rabs (k' - kinf) <= eta (S k) * V) by (eapply Rle_trans; [exact B1|]; apply Rmult_le_compat_r; assumption).
      assert (K0 : k' <> 0).
      { intros Z. rewrite Z in Kc. unfold Rminus in Kc. rewrite Rplus_0_l, Rabs_Ropp in Kc.
        assert (eta (S k) * V <= Rmax rho (c ^ 100 * D) * V) by (apply Rmult_le_compat_r; assumption). lra. }
      destruct (B2 K0) as (C1 & C2). split; [exact C1|]. split; [exact K0|]. split; [|intros _; exact Kc].
      intros g Hg. eapply Rle_trans; [apply C2; exact Hg|]. apply Rmult_le_compat_r; [|exact Le].
      apply Rmult_le_pos; [apply Rmult_le_pos; [apply Rabs_pos|exact HU]|left; apply Pp; exact Hg]. }
  exists n. split; [exact Hn|]. intros e ->. change (Rmax rho (c ^ (100 * n) * D)) with (eta n).
  destruct (I n ltac:(lia)) as (A1 & A2 & A3 & A4). rewrite <- Hr in *. cbn [fst snd] in *.
  split; [apply A4; lia|]. exists (rsum groups (fun h => nusigf h * flux h) / keff). split.
  - apply Rmult_integral_contrapositive_currified; [exact A1|apply Rinv_neq_0_compat; exact A2].
  - intros g Hg. specialize (A3 g Hg). destruct (Nat.eqb_spec n 0); [lia|exact A3].
Qed.
End Kinf.

Theorem kinf_mode angles groups wt T X c chi nusigf u :
  (forall m, (m < angles)%nat -> 0 <= wt m) -> 0 <= c < 1 -> yields_0d angles groups wt T X c ->
  balance_0d angles groups wt T X 1 (mkArr2 groups (fun _ g => chi g)) u ->
  (fission_rate_0d groups nusigf u <> 0 -> eigenpair_0d angles groups wt T X (FissionVector0 chi nusigf) u (fission_rate_0d groups nusigf u)) /\
  forall phi k, k <> 0 -> eigenpair_0d angles groups wt T X (FissionVector0 chi nusigf) phi k ->
    (forall g, (g < groups)%nat -> phi g = fission_rate_0d groups nusigf phi / k * u g) /\
    (k = fission_rate_0d groups nusigf u \/ forall g, (g < groups)%nat -> phi g = 0).
Proof.
  intros Hw Hc HY Hu. assert (HW : 0 <= rsum angles wt) by (apply rsum_nonneg; exact Hw).
  destruct (yield_damping_0d angles groups wt T X c ((1 + c) / 2) HW ltac:(lra) ltac:(lra) HY) as (p & HD).
  split; [apply kinf_eigenpair; exact Hu|]. apply (kinf_unique angles groups wt T X ((1 + c) / 2) p HW ltac:(lra) HD chi nusigf u Hu).
Qed.
Theorem kinf_one_pass angles groups wt T X c p chi nusigf u U D v k flux k' :
  0 <= rsum angles wt -> 0 <= c -> c * / 10 ^ 8 < 1 - c -> damping_0d angles groups wt T X c p ->
  balance_0d angles groups wt T X 1 (mkArr2 groups (fun _ g => chi g)) u ->
  rsum groups chi <> 0 -> 0 <= U -> (forall g, (g < groups)%nat -> Rabs (u g) <= U * p g) ->
  fission_rate_0d groups nusigf v <> 0 -> k <> 0 -> 0 <= D -> near_mode_0d groups nusigf u p U D v k ->
  power_step_0d angles groups wt T X (FissionVector0 chi nusigf) (v, k) = Ok (flux, k') ->
  Rabs (k' - fission_rate_0d groups nusigf u)
    <= solve_accuracy_0d c 100 D * (U * rsum groups (fun g => Rabs (nusigf g) * p g)) /\
  (k' <> 0 -> fission_rate_0d groups nusigf flux <> 0 /\ near_mode_0d groups nusigf u p U (solve_accuracy_0d c 100 D) flux k').
Proof.
  intros HW Hc Hs HD Hu Hchi HU HuU HS Hk HD0 Hn E.
  assert (Hc1 : 0 <= c < 1) by (assert (0 < / 10 ^ 8) by (apply Rinv_0_lt_compat, pow_lt; lra); split; nra).
  apply (kinf_pass angles groups wt T X c p HW Hc1 HD chi nusigf u Hu U D v k flux k' Hchi HU HuU Hs HD0 HS Hk Hn E _ eq_refl).
Qed.
Theorem kinf_power_iteration angles groups wt T X c p chi nusigf u U D guess flux keff :
  0 <= rsum angles wt -> 0 <= c -> c * / 10 ^ 8 < 1 - c -> damping_0d angles groups wt T X c p ->
  balance_0d angles groups wt T X 1 (mkArr2 groups (fun _ g => chi g)) u ->
  rsum groups chi <> 0 -> 0 <= U -> (forall g, (g < groups)%nat -> Rabs (u g) <= U * p g) ->
  fission_rate_0d groups nusigf guess <> 0 -> 0 <= D -> near_mode_0d groups nusigf u p U D guess (norm1 groups guess) ->
  solve_accuracy_0d c 100 D * (U * rsum groups (fun g => Rabs (nusigf g) * p g)) < Rabs (fission_rate_0d groups nusigf u) ->
  power_iteration_0d angles groups wt T X (FissionVector0 chi nusigf) guess = Ok (flux, keff) ->
  exists n, (1 <= n <= 101)%nat /\
    Rabs (keff - fission_rate_0d groups nusigf u)
      <= solve_accuracy_0d c (100 * n) D * (U * rsum groups (fun g => Rabs (nusigf g) * p g)) /\
    exists s, s <> 0 /\ forall g, (g < groups)%nat -> Rabs (flux g - s * u g) <= solve_accuracy_0d c (100 * n) D * (Rabs s * U * p g).
Proof.
  intros HW Hc Hs HD Hu Hchi HU HuU HS HD0 Hn Hbig E.
  assert (Hc1 : 0 <= c < 1) by (assert (0 < / 10 ^ 8) by (apply Rinv_0_lt_compat, pow_lt; lra); split; nra).
  destruct (kinf_run angles groups wt T X c p HW Hc1 HD chi nusigf u Hu U D guess flux keff Hchi HU HuU Hs HD0 HS Hn Hbig E) as (n & H1 & H2).
  exists n. split; [exact H1|]. exact (H2 _ eq_refl).
Qed.
