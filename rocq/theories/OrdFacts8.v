(** Sizes of scalar fluxes, and the size of the collided flux of a hybrid step. *)
From Coq Require Import Lra Lia Psatz.
From Verif Require Import Base BaseFacts SlabModel SlabSpec MgModel MgSpec MgFacts MgFacts2 TimeModel TimeSpec TimeFacts TimeFacts2.
From Verif Require Import EnSpec EnFacts EnFacts2 EnFacts3 EnFacts4 EnFacts5 EnFacts6 OrdSpec.
Open Scope R_scope.

(** the largest of finitely many numbers *)
Lemma finite_max n (F : nat -> R) : (forall h, (h < n)%nat -> 0 <= F h) ->
  exists s, 0 <= s /\ (forall h, (h < n)%nat -> F h <= s) /\ (s = 0 \/ exists h, (h < n)%nat /\ F h = s).
Proof.
  induction n as [|n IH]; intros HF.
  - exists 0. split; [lra|]. split; [intros; lia|left; reflexivity].
  - destruct IH as (s & S0 & S1 & S2); [intros; apply HF; lia|].
    destruct (Rle_dec (F n) s) as [L|L].
    + exists s. split; [exact S0|]. split.
      * intros h Hh. destruct (Nat.eq_dec h n) as [-> |]; [exact L|apply S1; lia].
      * destruct S2 as [Z|(h & Hh & E)]; [left; exact Z|right; exists h; split; [lia|exact E]].
    + exists (F n). split; [apply HF; lia|]. split.
      * intros h Hh. destruct (Nat.eq_dec h n) as [-> |]; [lra|]. specialize (S1 h ltac:(lia)). lra.
      * right. exists n. split; [lia|reflexivity].
Qed.

(** root mean square over the cells *)
Definition mean_square (P : sn) (f : vec) : R := reaction_norm P (fun _ => 1) f.

Section Size.
Variables (P : sn).
Hypothesis HP : sound_slab P.
Let L2 := mean_square P.
Let W := rsum (angles P) (wt P).

Lemma L2_dx : forall i, (i < cells P)%nat -> 0 < dx P i.
Proof. apply HP. Qed.
Lemma L2_one : forall i : nat, (i < cells P)%nat -> 0 <= (fun _ : nat => 1) (medium P i).
Proof. intros; lra. Qed.
Lemma L2_nonneg f : 0 <= L2 f.
Proof. apply sqrt_pos. Qed.
Lemma L2_sq f : L2 f * L2 f = rsum (cells P) (fun i => dx P i * Rsqr (f i)).
Proof.
  unfold L2, mean_square. rewrite reaction_sq; [|exact L2_dx|exact L2_one]. apply rsum_ext. intros; ring.
Qed.
Lemma L2_ext f g : (forall i, (i < cells P)%nat -> f i = g i) -> L2 f = L2 g.
Proof. apply reaction_ext. Qed.
Lemma L2_triangle f g : L2 (fun i => f i + g i) <= L2 f + L2 g.
Proof. apply reaction_triangle; [exact L2_dx|exact L2_one]. Qed.
Lemma L2_opp f : L2 (fun i => - f i) = L2 f.
Proof. apply reaction_opp. Qed.
Lemma L2_scal c f g : 0 <= c -> (forall i, (i < cells P)%nat -> Rabs (f i) <= c * Rabs (g i)) -> L2 f <= c * L2 g.
Proof. apply reaction_scal_le; [exact L2_dx|exact L2_one]. Qed.
Lemma L2_zero : L2 (fun _ => 0) = 0.
Proof.
  pose proof (L2_nonneg (fun _ => 0)). pose proof (L2_scal 0 (fun _ => 0) (fun _ => 0) ltac:(lra)) as A.
  assert (B : forall i, (i < cells P)%nat -> Rabs 0 <= 0 * Rabs 0) by (intros; rewrite Rabs_R0; lra). specialize (A B). lra.
Qed.
Lemma L2_sum n (F : mat2) : L2 (fun i => rsum n (fun h => F i h)) <= rsum n (fun h => L2 (fun i => F i h)).
Proof.
  induction n as [|n IH]; cbn [rsum]; [rewrite L2_zero; lra|].
  eapply Rle_trans; [apply (L2_triangle (fun i => rsum n (fun h => F i h)) (fun i => F i n))|]. lra.
Qed.
Lemma W_nonneg : 0 <= W.
Proof. apply rsum_nonneg. apply HP. Qed.

Lemma transfer_size G (T : mat3) tau (phi : mat2) l g : 0 <= tau -> 0 <= l ->
  (forall i h, (i < cells P)%nat -> (h < G)%nat -> Rabs (T (medium P i) g h) <= tau) ->
  (forall h, (h < G)%nat -> L2 (fun i => phi i h) <= l) ->
  L2 (fun i => rsum G (fun h => T (medium P i) g h * phi i h)) <= INR G * tau * l.
Proof.
  intros Ht Hl HT Hp. eapply Rle_trans; [apply (L2_sum G (fun i h => T (medium P i) g h * phi i h))|].
  replace (INR G * tau * l) with (INR G * (tau * l)) by ring. rewrite <- rsum_const. apply rsum_le. intros h Hh.
  apply Rle_trans with (tau * L2 (fun i => phi i h)).
  - apply L2_scal; [exact Ht|]. intros i Hi. rewrite Rabs_mult. apply Rmult_le_compat_r; [apply Rabs_pos|apply HT; assumption].
  - apply Rmult_le_compat_l; [exact Ht|apply Hp; exact Hh].
Qed.

Variables (G : nat) (velocity : vec).
Hypothesis HV : forall g, (g < G)%nat -> 0 < velocity g.
Let V := rsum G velocity.
Lemma V_nonneg : 0 <= V.
Proof. apply rsum_nonneg. intros g Hg. left. apply HV; exact Hg. Qed.
Lemma V_above g : (g < G)%nat -> velocity g <= V.
Proof. intros Hg. apply (rsum_term_le G velocity g); [intros i Hi; left; apply HV; exact Hi|exact Hg]. Qed.

Lemma source_size (q : mat2) l : 0 <= l -> (forall g, (g < G)%nat -> L2 (fun i => q i g) <= l) ->
  source_norm P G velocity (fun i _ g => q i g) <= sqrt (W * V) * l.
Proof.
  intros Hl Hq. rewrite <- (sqrt_square l Hl) at 1. pose proof W_nonneg as PW. pose proof V_nonneg as PV.
  rewrite <- sqrt_mult_alt by (apply Rmult_le_pos; assumption). apply sqrt_le_1_alt. unfold total3.
  rewrite (rsum_ext G _ (fun g => W * velocity g * (L2 (fun i => q i g) * L2 (fun i => q i g)))).
  2:{ intros g Hg. rewrite L2_sq, <- rsum_scal. apply rsum_ext. intros i Hi.
      rewrite (rsum_ext (angles P) _ (fun m => wt P m * (dx P i * velocity g * Rsqr (q i g)))) by (intros; ring).
      rewrite rsum_scal_r. fold W. ring. }
  apply Rle_trans with (rsum G (fun g => velocity g * (W * (l * l)))).
  - apply rsum_le. intros g Hg. pose proof (L2_nonneg (fun i => q i g)). specialize (Hq g Hg). specialize (HV g Hg).
    replace (W * velocity g * (L2 (fun i => q i g) * L2 (fun i => q i g))) with (velocity g * (W * (L2 (fun i => q i g) * L2 (fun i => q i g)))) by ring.
    apply Rmult_le_compat_l; [lra|]. apply Rmult_le_compat_l; [exact PW|]. apply Rmult_le_compat; lra.
  - rewrite rsum_scal_r. fold V. right; ring.
Qed.

Lemma scalar_size (psi : mat3) g : (g < G)%nat -> L2 (fun i => scalar_flux P psi i g) <= sqrt (W * V) * density_norm P G velocity psi.
Proof.
  intros Hg. pose proof W_nonneg as PW. pose proof V_nonneg as PV. pose proof (V_above g Hg) as GV. pose proof (HV g Hg) as Pg.
  pose proof (scalar_norm P G velocity psi HP HV) as SN. fold W in SN.
  set (a := fun h => rsum (cells P) (fun i => dx P i * Rsqr (scalar_flux P psi i h) / velocity h)) in *.
  assert (Pa : forall h, (h < G)%nat -> 0 <= a h).
  { intros h Hh. apply rsum_nonneg. intros i Hi. pose proof (L2_dx i Hi). specialize (HV h Hh).
    apply Rmult_le_pos; [apply Rmult_le_pos; [lra|apply Rle_0_sqr]|left; apply Rinv_0_lt_compat; lra]. }
  assert (A : L2 (fun i => scalar_flux P psi i g) * L2 (fun i => scalar_flux P psi i g) <= V * rsum G a).
  { rewrite L2_sq. rewrite (rsum_ext (cells P) _ (fun i => velocity g * (dx P i * Rsqr (scalar_flux P psi i g) / velocity g))) by (intros; field; lra).
    rewrite rsum_scal. fold (a g). apply Rmult_le_compat; [lra|apply Pa; exact Hg|exact GV|]. apply rsum_term_le; assumption. }
  rewrite (Rmult_comm W), sqrt_mult_alt, Rmult_assoc by exact PV.
  apply Rle_trans with (sqrt V * sqrt (rsum G a)); [|apply Rmult_le_compat_l; [apply sqrt_pos|exact SN]].
  rewrite <- sqrt_mult_alt by exact PV. rewrite <- (sqrt_square (L2 (fun i => scalar_flux P psi i g)) (L2_nonneg _)). apply sqrt_le_1_alt, A.
Qed.
End Size.

(** *** the collided flux *)
Section Coarse.
Variables (P : sn) (G : nat) (velocity : vec) (xs_total : mat2) (X : mat3) (tau w dt : R) (src : arr3) (q : mat2) (Q : R).
Hypothesis HP : sound_slab P.
Hypothesis HV : forall g, (g < G)%nat -> 0 < velocity g.
Hypothesis Ht : forall i g, (i < cells P)%nat -> (g < G)%nat -> 0 <= xs_total (medium P i) g.
Hypothesis Htau : 0 <= tau.
Hypothesis HX : forall i g h, (i < cells P)%nat -> (g < G)%nat -> (h < G)%nat -> Rabs (X (medium P i) g h) <= tau.
Hypothesis Hw : 1 <= w.
Hypothesis Hdt : 0 < dt.
Let W := rsum (angles P) (wt P).
Let V := rsum G velocity.
Let L2 := mean_square P.
Let xt := effective_total w xs_total velocity dt.
Hypothesis Hsmall : dt * (W * V * (INR G * tau)) <= / 2.
Hypothesis Hsrc : forall i m g, (i < cells P)%nat -> (g < G)%nat -> at3 src i (bidx (d3b src) m) (bidx (d3c src) g) = q i g.
Hypothesis HQ : 0 <= Q.
Hypothesis Hq : forall g, (g < G)%nat -> L2 (fun i => q i g) <= Q.

Lemma coarse_V g : (g < G)%nat -> 0 < V.
Proof. intros Hg. pose proof (V_above G velocity HV g Hg) as A. specialize (HV g Hg). fold V in A. lra. Qed.

Lemma coarse_total i g : (i < cells P)%nat -> (g < G)%nat -> 1 <= xt (medium P i) g * (V * dt).
Proof.
  intros Hi Hg. pose proof (V_above G velocity HV g Hg) as A. fold V in A. pose proof (HV g Hg) as B. specialize (Ht i g Hi Hg).
  unfold xt, effective_total. assert (C : 0 < velocity g * dt) by (apply Rmult_lt_0_compat; assumption).
  assert (D : w / (velocity g * dt) * (velocity g * dt) = w) by (field; lra).
  assert (E : velocity g * dt <= V * dt) by (apply Rmult_le_compat_r; lra).
  assert (F : 0 <= w / (velocity g * dt)) by (apply Rmult_le_pos; [lra|left; apply Rinv_0_lt_compat, C]).
  assert (H : 0 <= xs_total (medium P i) g * (V * dt)) by (apply Rmult_le_pos; lra).
  apply (Rmult_le_compat_l (w / (velocity g * dt))) in E; [|exact F]. lra.
Qed.
Lemma coarse_nonneg i g : (i < cells P)%nat -> (g < G)%nat -> 0 <= xt (medium P i) g.
Proof.
  intros Hi Hg. pose proof (coarse_total i g Hi Hg) as A. pose proof (coarse_V g Hg) as B.
  assert (C : 0 < V * dt) by (apply Rmult_lt_0_compat; assumption). destruct (Rle_dec 0 (xt (medium P i) g)) as [|N]; [assumption|].
  assert (xt (medium P i) g * (V * dt) <= 0 * (V * dt)) by (apply Rmult_le_compat_r; lra). lra.
Qed.

Lemma coarse_coupled : coupled_below P G xt X (INR G * (dt * (tau * V))).
Proof.
  exists (fun _ _ => dt * (tau * V)). assert (PV : 0 <= V) by (apply V_nonneg; exact HV).
  assert (PK : 0 <= dt * (tau * V)) by (apply Rmult_le_pos; [lra|apply Rmult_le_pos; assumption]).
  split; [intros; exact PK|]. split; [intros; rewrite rsum_const; lra|]. intros i g h Hi Hg Hh.
  pose proof (coarse_total i g Hi Hg) as A. pose proof (coarse_total i h Hi Hh) as B.
  pose proof (coarse_nonneg i g Hi Hg) as C. pose proof (coarse_nonneg i h Hi Hh) as D. pose proof (coarse_V g Hg) as PV'.
  set (a := xt (medium P i) g) in *. set (b := xt (medium P i) h) in *. clearbody a b.
  assert (S1 : 1 <= sqrt (a * b) * (V * dt)).
  { assert (E : 0 < V * dt) by (apply Rmult_lt_0_compat; assumption).
    rewrite <- (sqrt_square (V * dt)) by lra. rewrite <- sqrt_mult_alt by (apply Rmult_le_pos; assumption).
    rewrite <- sqrt_1. apply sqrt_le_1_alt. replace (a * b * (V * dt * (V * dt))) with ((a * (V * dt)) * (b * (V * dt))) by ring.
    rewrite <- (Rmult_1_l 1). apply Rmult_le_compat; lra. }
  eapply Rle_trans; [apply HX; assumption|]. apply (Rmult_le_compat_l tau) in S1; [|exact Htau]. lra.
Qed.

Lemma coarse_rho : W * (INR G * (dt * (tau * V))) <= / 2.
Proof. replace (W * (INR G * (dt * (tau * V)))) with (dt * (W * V * (INR G * tau))) by ring. exact Hsmall. Qed.

(** what drives group [g] of the solution *)
Lemma coarse_group sol g r : (g < G)%nat -> 0 <= r ->
  mg_solution P G xt X src no_inflow sol ->
  L2 (fun i => rsum G (fun h => X (medium P i) g h * sol i h) + q i g) <= r ->
  L2 (fun i => sol i g) <= W * V * dt * r /\
  reaction_norm P (fun m => xt m g) (fun i => sol i g) * reaction_norm P (fun m => xt m g) (fun i => sol i g) <= W * r * L2 (fun i => sol i g).
Proof.
  intros Hg Hr (psi & Hsol) Hb. specialize (Hsol g Hg).
  set (f := fun i => rsum G (fun h => X (medium P i) g h * sol i h) + q i g) in *.
  assert (Hdx : forall i, (i < cells P)%nat -> 0 < dx P i) by apply HP.
  assert (Hx : forall i, (i < cells P)%nat -> 0 <= (fun m => xt m g) (medium P i)) by (intros; apply coarse_nonneg; assumption).
  assert (PW : 0 <= W) by (apply rsum_nonneg; apply HP).
  assert (I : rsum (cells P) (fun i => dx P i * xt (medium P i) g * Rsqr (sol i g)) <= W * rsum (cells P) (fun i => dx P i * (f i * sol i g))).
  { apply (transport_energy P (fun m => xt m g) f (psi g) (fun i => sol i g) HP Hx).
    eapply transport_ext; [| |exact Hsol].
    - intros m i Hm Hi. unfold mg_source. rewrite (Hsrc i m g Hi Hg). reflexivity.
    - intros m Hm. unfold mg_boundary, no_inflow. cbn [at3]. ring. }
  assert (C : rsum (cells P) (fun i => dx P i * (f i * sol i g)) <= L2 f * L2 (fun i => sol i g)).
  { pose proof (L2_nonneg P f) as A1. pose proof (L2_nonneg P (fun i => sol i g)) as A2. fold L2 in A1, A2.
    apply Rsqr_incr_0_var; [|apply Rmult_le_pos; assumption].
    eapply Rle_trans; [apply (rsum_cauchy (cells P) (dx P)); intros i Hi; left; apply Hdx; exact Hi|]. right.
    unfold L2. rewrite <- (L2_sq P HP f), <- (L2_sq P HP (fun i => sol i g)). unfold Rsqr. ring. }
  pose proof (L2_nonneg P (fun i => sol i g)) as A2. fold L2 in A2. set (s := L2 (fun i => sol i g)) in *.
  assert (D : W * rsum (cells P) (fun i => dx P i * (f i * sol i g)) <= W * r * s).
  { rewrite Rmult_assoc. apply Rmult_le_compat_l; [exact PW|]. eapply Rle_trans; [exact C|]. apply Rmult_le_compat_r; assumption. }
  split.
  - apply step_root1; [exact A2| |].
    + pose proof (V_nonneg G velocity HV) as PV. fold V in PV. repeat apply Rmult_le_pos; try assumption; lra.
    + assert (E : s * s <= V * dt * rsum (cells P) (fun i => dx P i * xt (medium P i) g * Rsqr (sol i g))).
      { unfold s, L2. rewrite (L2_sq P HP), <- rsum_scal. apply rsum_le. intros i Hi. pose proof (coarse_total i g Hi Hg) as K.
        replace (V * dt * (dx P i * xt (medium P i) g * Rsqr (sol i g))) with ((xt (medium P i) g * (V * dt)) * (dx P i * Rsqr (sol i g))) by ring.
        rewrite <- (Rmult_1_l (dx P i * Rsqr (sol i g))) at 1. apply Rmult_le_compat_r; [|exact K].
        apply Rmult_le_pos; [left; apply Hdx; exact Hi|apply Rle_0_sqr]. }
      assert (PVd : 0 <= V * dt) by (apply Rmult_le_pos; [apply (V_nonneg G velocity HV)|lra]).
      eapply Rle_trans; [exact E|]. replace (W * V * dt * r * s) with (V * dt * (W * r * s)) by ring.
      apply Rmult_le_compat_l; [exact PVd|]. lra.
  - rewrite (reaction_sq P (fun m => xt m g) Hdx Hx). lra.
Qed.

Lemma coarse_solution sol : mg_solution P G xt X src no_inflow sol ->
  (forall g, (g < G)%nat -> L2 (fun i => sol i g) <= 2 * W * V * dt * Q) /\
  near_energy P G xt (2 * W * sqrt (V * dt) * Q) sol (fun _ _ => 0).
Proof.
  intros Hsol. assert (PW : 0 <= W) by (apply rsum_nonneg; apply HP).
  assert (PV : 0 <= V) by (apply (V_nonneg G velocity HV)).
  assert (PVd : 0 <= V * dt) by (apply Rmult_le_pos; lra).
  destruct (finite_max G (fun h => L2 (fun i => sol i h)) ltac:(intros; apply sqrt_pos)) as (s & S0 & S1 & S2).
  assert (R1 : forall g, (g < G)%nat -> L2 (fun i => rsum G (fun h => X (medium P i) g h * sol i h) + q i g) <= INR G * tau * s + Q).
  { intros g Hg. eapply Rle_trans; [apply (L2_triangle P HP (fun i => rsum G (fun h => X (medium P i) g h * sol i h)) (fun i => q i g))|].
    apply Rplus_le_compat; [|apply Hq; exact Hg]. apply (transfer_size P HP G X tau sol s g Htau S0); [intros; apply HX; assumption|exact S1]. }
  assert (PG : 0 <= INR G * tau) by (apply Rmult_le_pos; [apply pos_INR|exact Htau]).
  assert (PR : 0 <= INR G * tau * s + Q) by (assert (0 <= INR G * tau * s) by (apply Rmult_le_pos; assumption); lra).
  assert (KW : W * V * dt * (INR G * tau * s) <= / 2 * s).
  { replace (W * V * dt * (INR G * tau * s)) with (dt * (W * V * (INR G * tau)) * s) by ring. apply Rmult_le_compat_r; assumption. }
  assert (B : s <= 2 * W * V * dt * Q).
  { assert (Z : 0 <= 2 * W * V * dt * Q) by (repeat apply Rmult_le_pos; try assumption; lra).
    destruct S2 as [-> |(g & Hg & E)]; [exact Z|].
    destruct (coarse_group sol g _ Hg PR Hsol (R1 g Hg)) as (A & _). rewrite E in A.
    replace (W * V * dt * (INR G * tau * s + Q)) with (W * V * dt * (INR G * tau * s) + W * V * dt * Q) in A by ring. lra. }
  split; [intros g Hg; specialize (S1 g Hg); cbv beta in S1; lra|].
  intros g Hg. destruct (coarse_group sol g _ Hg PR Hsol (R1 g Hg)) as (_ & A). specialize (S1 g Hg). cbv beta in S1.
  rewrite (reaction_ext P (fun m => xt m g)) with (g := fun i => sol i g) by (intros; ring).
  assert (PS : 0 <= sqrt (V * dt)) by apply sqrt_pos.
  apply Rsqr_incr_0_var; [|repeat apply Rmult_le_pos; try assumption; lra]. unfold Rsqr. eapply Rle_trans; [exact A|].
  replace (2 * W * sqrt (V * dt) * Q * (2 * W * sqrt (V * dt) * Q)) with (W * (2 * Q) * (2 * W * (sqrt (V * dt) * sqrt (V * dt)) * Q)) by ring.
  rewrite sqrt_sqrt by exact PVd. replace (2 * W * (V * dt) * Q) with (2 * W * V * dt * Q) by ring.
  assert (U : W * (INR G * tau * s + Q) <= W * (2 * Q)).
  { apply Rmult_le_compat_l; [exact PW|].
    assert (INR G * tau * s <= INR G * tau * (2 * W * V * dt * Q)) by (apply Rmult_le_compat_l; assumption).
    assert (dt * (W * V * (INR G * tau)) * (2 * Q) <= / 2 * (2 * Q)) by (apply Rmult_le_compat_r; lra). lra. }
  apply Rmult_le_compat; [apply Rmult_le_pos; assumption|apply sqrt_pos|exact U|lra].
Qed.

(** What the source iteration of the program returns, started from zero. *)
Lemma coarse_flux flux : source_iteration_iso P G zeros2 xt X src no_inflow 1 = Ok flux ->
  forall g, (g < G)%nat -> L2 (fun i => flux i g) <= 4 * W * V * dt * Q.
Proof.
  intros E g Hg. assert (PW : 0 <= W) by (apply rsum_nonneg; apply HP).
  assert (PV : 0 <= V) by (apply (V_nonneg G velocity HV)).
  assert (PVd : 0 <= V * dt) by (apply Rmult_le_pos; lra).
  assert (PC : 0 <= INR G * (dt * (tau * V))) by (apply Rmult_le_pos; [apply pos_INR|apply Rmult_le_pos; [lra|apply Rmult_le_pos; assumption]]).
  pose proof coarse_rho as CR. assert (CR1 : W * (INR G * (dt * (tau * V))) < 1) by lra.
  destruct (coupled_exactly_one P G xt X src no_inflow _ HP coarse_nonneg PC CR1 coarse_coupled) as (sol & Hsol & _).
  destruct (coarse_solution sol Hsol) as (B1 & B2).
  destruct (outer_energy P G xt X _ HP coarse_nonneg PC CR1 coarse_coupled src no_inflow zeros2 flux sol Hsol E) as (n & _ & Hn & _).
  set (d := 2 * W * sqrt (V * dt) * Q) in *.
  assert (Pd : 0 <= d) by (unfold d; pose proof (sqrt_pos (V * dt)); repeat apply Rmult_le_pos; try assumption; lra).
  assert (Hdx : forall i, (i < cells P)%nat -> 0 < dx P i) by apply HP.
  assert (Hx : forall i, (i < cells P)%nat -> 0 <= (fun m => xt m g) (medium P i)) by (intros; apply coarse_nonneg; assumption).
  assert (Z : near_energy P G xt d zeros2 sol).
  { intros h Hh. specialize (B2 h Hh). cbv beta in B2. eapply Rle_trans; [|exact B2]. right. unfold reaction_norm. f_equal.
    apply rsum_ext. intros i Hi. unfold zeros2, Rsqr. ring. }
  specialize (Hn d Pd Z g Hg). cbv beta in Hn.
  assert (Hpow : (W * (INR G * (dt * (tau * V)))) ^ n <= 1).
  { rewrite <- (pow1 n). apply pow_incr. split; [apply Rmult_le_pos; assumption|lra]. }
  assert (N1 : reaction_norm P (fun m => xt m g) (fun i => flux i g - sol i g) <= d).
  { eapply Rle_trans; [exact Hn|]. rewrite <- (Rmult_1_l d) at 2. apply Rmult_le_compat_r; assumption. }
  assert (N2 : L2 (fun i => flux i g - sol i g) <= sqrt (V * dt) * d).
  { apply Rle_trans with (sqrt (V * dt) * reaction_norm P (fun m => xt m g) (fun i => flux i g - sol i g)).
    - unfold L2, mean_square, reaction_norm. rewrite <- sqrt_mult_alt by exact PVd. apply sqrt_le_1_alt. rewrite <- rsum_scal. apply rsum_le. intros i Hi.
      pose proof (coarse_total i g Hi Hg) as K.
      replace (V * dt * (dx P i * xt (medium P i) g * Rsqr (flux i g - sol i g))) with ((xt (medium P i) g * (V * dt)) * (dx P i * Rsqr (flux i g - sol i g))) by ring.
      replace (dx P i * 1 * Rsqr (flux i g - sol i g)) with (1 * (dx P i * Rsqr (flux i g - sol i g))) by ring.
      apply Rmult_le_compat_r; [|exact K]. apply Rmult_le_pos; [left; apply Hdx; exact Hi|apply Rle_0_sqr].
    - apply Rmult_le_compat_l; [apply sqrt_pos|exact N1]. }
  assert (N3 : sqrt (V * dt) * d = 2 * W * V * dt * Q).
  { unfold d. replace (sqrt (V * dt) * (2 * W * sqrt (V * dt) * Q)) with (2 * W * (sqrt (V * dt) * sqrt (V * dt)) * Q) by ring. rewrite sqrt_sqrt by exact PVd. ring. }
  rewrite N3 in N2. specialize (B1 g Hg).
  unfold L2. rewrite (L2_ext P (fun i => flux i g) (fun i => (flux i g - sol i g) + sol i g)) by (intros; ring).
  eapply Rle_trans; [apply (L2_triangle P HP)|]. fold L2. lra.
Qed.

(** the iterate and the solution differ by the square of the time step *)
Lemma coarse_gap flux sol : source_iteration_iso P G zeros2 xt X src no_inflow 1 = Ok flux -> mg_solution P G xt X src no_inflow sol ->
  forall g, (g < G)%nat -> L2 (fun i => flux i g - sol i g) <= dt * dt * (W * (INR G * (tau * V)) * (2 * W * V)) * Q.
Proof.
  intros E Hsol g Hg. assert (PW : 0 <= W) by (apply rsum_nonneg; apply HP).
  assert (PV : 0 <= V) by (apply (V_nonneg G velocity HV)).
  assert (PVd : 0 <= V * dt) by (apply Rmult_le_pos; lra).
  assert (PC : 0 <= INR G * (dt * (tau * V))) by (apply Rmult_le_pos; [apply pos_INR|apply Rmult_le_pos; [lra|apply Rmult_le_pos; assumption]]).
  pose proof coarse_rho as CR. assert (CR1 : W * (INR G * (dt * (tau * V))) < 1) by lra.
  destruct (coarse_solution sol Hsol) as (B1 & B2).
  destruct (outer_energy P G xt X _ HP coarse_nonneg PC CR1 coarse_coupled src no_inflow zeros2 flux sol Hsol E) as (n & Hn1 & Hn & _).
  set (d := 2 * W * sqrt (V * dt) * Q) in *.
  assert (Pd : 0 <= d) by (unfold d; pose proof (sqrt_pos (V * dt)); repeat apply Rmult_le_pos; try assumption; lra).
  assert (Hdx : forall i, (i < cells P)%nat -> 0 < dx P i) by apply HP.
  assert (Hx : forall i, (i < cells P)%nat -> 0 <= (fun m => xt m g) (medium P i)) by (intros; apply coarse_nonneg; assumption).
  assert (Z : near_energy P G xt d zeros2 sol).
  { intros h Hh. specialize (B2 h Hh). cbv beta in B2. eapply Rle_trans; [|exact B2]. right. unfold reaction_norm. f_equal.
    apply rsum_ext. intros i Hi. unfold zeros2, Rsqr. ring. }
  specialize (Hn d Pd Z g Hg). cbv beta in Hn.
  set (rho := W * (INR G * (dt * (tau * V)))) in *.
  assert (Pr : 0 <= rho) by (unfold rho; apply Rmult_le_pos; assumption).
  assert (Hpow : rho ^ n <= rho).
  { destruct n as [|n]; [lia|]. cbn [pow]. assert (Q1 : rho ^ n <= 1) by (rewrite <- (pow1 n); apply pow_incr; lra).
    apply Rle_trans with (rho * 1); [apply Rmult_le_compat_l; assumption|lra]. }
  assert (N1 : reaction_norm P (fun m => xt m g) (fun i => flux i g - sol i g) <= rho * d).
  { apply Rle_trans with (rho ^ n * d); [exact Hn|]. apply Rmult_le_compat_r; assumption. }
  assert (N2 : L2 (fun i => flux i g - sol i g) <= sqrt (V * dt) * (rho * d)).
  { apply Rle_trans with (sqrt (V * dt) * reaction_norm P (fun m => xt m g) (fun i => flux i g - sol i g)).
    - unfold L2, mean_square, reaction_norm. rewrite <- sqrt_mult_alt by exact PVd. apply sqrt_le_1_alt. rewrite <- rsum_scal. apply rsum_le. intros i Hi.
      pose proof (coarse_total i g Hi Hg) as K.
      replace (V * dt * (dx P i * xt (medium P i) g * Rsqr (flux i g - sol i g))) with ((xt (medium P i) g * (V * dt)) * (dx P i * Rsqr (flux i g - sol i g))) by ring.
      replace (dx P i * 1 * Rsqr (flux i g - sol i g)) with (1 * (dx P i * Rsqr (flux i g - sol i g))) by ring.
      apply Rmult_le_compat_r; [|exact K]. apply Rmult_le_pos; [left; apply Hdx; exact Hi|apply Rle_0_sqr].
    - apply Rmult_le_compat_l; [apply sqrt_pos|exact N1]. }
  eapply Rle_trans; [exact N2|]. right. unfold d, rho.
  replace (sqrt (V * dt) * (W * (INR G * (dt * (tau * V))) * (2 * W * sqrt (V * dt) * Q))) with ((sqrt (V * dt) * sqrt (V * dt)) * (W * (INR G * (dt * (tau * V))) * (2 * W * Q))) by ring.
  rewrite sqrt_sqrt by exact PVd. ring.
Qed.
(** from any first guess: one pass leaves of it a part of the size of the time step *)
Lemma coarse_from start A s0 flux : 0 <= s0 -> 0 <= A ->
  (forall i g, (i < cells P)%nat -> (g < G)%nat -> xt (medium P i) g * dt <= A) ->
  (forall g, (g < G)%nat -> L2 (fun i => start i g) <= s0) ->
  source_iteration_iso P G start xt X src no_inflow 1 = Ok flux ->
  forall g, (g < G)%nat -> L2 (fun i => flux i g) <= dt * (4 * W * V * Q + W * (INR G * (tau * V)) * (sqrt (V * A) * s0)).
Proof.
  intros Ps0 PA HA Hstart E g Hg. assert (PW : 0 <= W) by (apply rsum_nonneg; apply HP).
  assert (PV : 0 <= V) by (apply (V_nonneg G velocity HV)).
  assert (PVd : 0 <= V * dt) by (apply Rmult_le_pos; lra).
  assert (PC : 0 <= INR G * (dt * (tau * V))) by (apply Rmult_le_pos; [apply pos_INR|apply Rmult_le_pos; [lra|apply Rmult_le_pos; assumption]]).
  pose proof coarse_rho as CR. assert (CR1 : W * (INR G * (dt * (tau * V))) < 1) by lra.
  destruct (coupled_exactly_one P G xt X src no_inflow _ HP coarse_nonneg PC CR1 coarse_coupled) as (sol & Hsol & _).
  destruct (coarse_solution sol Hsol) as (B1 & B2).
  destruct (outer_energy P G xt X _ HP coarse_nonneg PC CR1 coarse_coupled src no_inflow start flux sol Hsol E) as (n & Hn1 & Hn & _).
  set (d0 := 2 * W * sqrt (V * dt) * Q) in *. set (d1 := sqrt (A / dt) * s0).
  assert (Pd : 0 <= d0) by (unfold d0; pose proof (sqrt_pos (V * dt)); repeat apply Rmult_le_pos; try assumption; lra).
  assert (Pd1 : 0 <= d1) by (unfold d1; apply Rmult_le_pos; [apply sqrt_pos|exact Ps0]).
  assert (Hdx : forall i, (i < cells P)%nat -> 0 < dx P i) by apply HP.
  assert (PAd : 0 <= A / dt) by (apply Rmult_le_pos; [exact PA|left; apply Rinv_0_lt_compat; exact Hdt]).
  assert (Z : near_energy P G xt (d1 + d0) start sol).
  { intros h Hh. assert (Hx : forall i, (i < cells P)%nat -> 0 <= (fun m => xt m h) (medium P i)) by (intros; apply coarse_nonneg; assumption).
    specialize (B2 h Hh). cbv beta in B2.
    rewrite (reaction_ext P (fun m => xt m h) (fun i => start i h - sol i h) (fun i => start i h + - sol i h)) by (intros; ring).
    eapply Rle_trans; [apply (reaction_triangle P (fun m => xt m h) Hdx Hx (fun i => start i h) (fun i => - sol i h))|].
    rewrite (reaction_opp P (fun m => xt m h) (fun i => sol i h)).
    rewrite (reaction_ext P (fun m => xt m h) (fun i => sol i h - 0) (fun i => sol i h)) in B2 by (intros; ring).
    apply Rplus_le_compat; [|exact B2]. unfold d1. apply Rle_trans with (sqrt (A / dt) * L2 (fun i => start i h)); [|apply Rmult_le_compat_l; [apply sqrt_pos|apply Hstart, Hh]].
    unfold L2, mean_square, reaction_norm. rewrite <- sqrt_mult_alt by exact PAd. apply sqrt_le_1_alt. rewrite <- rsum_scal. apply rsum_le. intros i Hi.
    assert (K : xt (medium P i) h <= A / dt).
    { apply (Rmult_le_reg_r dt); [exact Hdt|]. unfold Rdiv. rewrite Rmult_assoc, Rinv_l by lra. rewrite Rmult_1_r. apply HA; assumption. }
    replace (dx P i * xt (medium P i) h * Rsqr (start i h)) with (xt (medium P i) h * (dx P i * Rsqr (start i h))) by ring.
    replace (A / dt * (dx P i * 1 * Rsqr (start i h))) with (A / dt * (dx P i * Rsqr (start i h))) by ring.
    apply Rmult_le_compat_r; [|exact K]. apply Rmult_le_pos; [left; apply Hdx; exact Hi|apply Rle_0_sqr]. }
  specialize (Hn (d1 + d0) ltac:(lra) Z g Hg). cbv beta in Hn.
  set (rho := W * (INR G * (dt * (tau * V)))) in *.
  assert (Pr : 0 <= rho) by (unfold rho; apply Rmult_le_pos; assumption).
  assert (Hpow : rho ^ n <= rho).
  { destruct n as [|n]; [lia|]. cbn [pow]. assert (Q1 : rho ^ n <= 1) by (rewrite <- (pow1 n); apply pow_incr; lra).
    apply Rle_trans with (rho * 1); [apply Rmult_le_compat_l; assumption|lra]. }
  assert (N1 : reaction_norm P (fun m => xt m g) (fun i => flux i g - sol i g) <= rho * d1 + d0).
  { apply Rle_trans with (rho ^ n * (d1 + d0)); [exact Hn|].
    apply Rle_trans with (rho * (d1 + d0)); [apply Rmult_le_compat_r; lra|].
    assert (rho * d0 <= 1 * d0) by (apply Rmult_le_compat_r; lra). lra. }
  assert (N2 : L2 (fun i => flux i g - sol i g) <= sqrt (V * dt) * (rho * d1 + d0)).
  { apply Rle_trans with (sqrt (V * dt) * reaction_norm P (fun m => xt m g) (fun i => flux i g - sol i g)).
    - unfold L2, mean_square, reaction_norm. rewrite <- sqrt_mult_alt by exact PVd. apply sqrt_le_1_alt. rewrite <- rsum_scal. apply rsum_le. intros i Hi.
      pose proof (coarse_total i g Hi Hg) as K.
      replace (V * dt * (dx P i * xt (medium P i) g * Rsqr (flux i g - sol i g))) with ((xt (medium P i) g * (V * dt)) * (dx P i * Rsqr (flux i g - sol i g))) by ring.
      replace (dx P i * 1 * Rsqr (flux i g - sol i g)) with (1 * (dx P i * Rsqr (flux i g - sol i g))) by ring.
      apply Rmult_le_compat_r; [|exact K]. apply Rmult_le_pos; [left; apply Hdx; exact Hi|apply Rle_0_sqr].
    - apply Rmult_le_compat_l; [apply sqrt_pos|exact N1]. }
  assert (N3 : sqrt (V * dt) * d0 = 2 * W * V * dt * Q).
  { unfold d0. replace (sqrt (V * dt) * (2 * W * sqrt (V * dt) * Q)) with (2 * W * (sqrt (V * dt) * sqrt (V * dt)) * Q) by ring. rewrite sqrt_sqrt by exact PVd. ring. }
  assert (N4 : sqrt (V * dt) * (rho * d1) = dt * (W * (INR G * (tau * V)) * (sqrt (V * A) * s0))).
  { unfold d1, rho. replace (sqrt (V * dt) * (W * (INR G * (dt * (tau * V))) * (sqrt (A / dt) * s0)))
      with (dt * (W * (INR G * (tau * V)) * ((sqrt (V * dt) * sqrt (A / dt)) * s0))) by ring.
    rewrite <- sqrt_mult_alt by exact PVd. replace (V * dt * (A / dt)) with (V * A) by (field; lra). reflexivity. }
  rewrite Rmult_plus_distr_l, N3, N4 in N2. specialize (B1 g Hg).
  unfold L2. rewrite (L2_ext P (fun i => flux i g) (fun i => (flux i g - sol i g) + sol i g)) by (intros; ring).
  eapply Rle_trans; [apply (L2_triangle P HP)|]. fold L2. lra.
Qed.
End Coarse.
