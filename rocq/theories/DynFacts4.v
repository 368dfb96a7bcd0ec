(** Below criticality the accuracy of a whole backward Euler run is set by the stopping tolerance, however many steps it takes. *)
From Coq Require Import Lra Lia Psatz.
From Verif Require Import Base BaseFacts Contraction SlabModel SlabSpec SlabFacts SlabFacts2 SlabFacts3 SlabFacts4.
From Verif Require Import MgModel MgSpec MgFacts MgFacts2 MgFacts3 MgFacts7 SupSpec SupFacts SupFacts2 SupFacts3 SupFacts4.
From Verif Require Import TimeModel TimeSpec TimeFacts TimeFacts2 TimeFacts3 EnSpec EnFacts7 CritModel CritSpec DynSpec DynFacts DynFacts2 DynFacts3.
Open Scope R_scope.

Lemma damping_ext P G T X Y c p : (forall i o h, (i < cells P)%nat -> (o < G)%nat -> (h < G)%nat -> X (medium P i) o h = Y (medium P i) o h) ->
  positive_sweeps P G T -> damping P G T X c p -> damping P G T Y c p.
Proof.
  intros H HP HD. split; [exact (proj1 HD)|]. intros g Hg.
  exists (tau P T g (fun j => rsum G (fun h => Rabs (Y (medium P j) g h) * p j h))).
  split; [apply tau_flux_of; [apply (proj1 HP)|apply (ps_divisors P G T HP g Hg)]|]. intros i Hi.
  rewrite (tau_at P T g _ (fun j => rsum G (fun h => Rabs (X (medium P j) g h) * p j h)) i Hi).
  - apply (damping_tau P G T X c p HP HD); assumption.
  - intros j Hj. apply rsum_ext. intros h Hh. rewrite H by assumption. reflexivity.
Qed.

(** geometric series of the hundredth sweep *)
Lemma hundred c : 0 <= c < 1 -> 0 <= c ^ 100 < 1.
Proof.
  intros Hc. split; [apply pow_le; lra|]. apply Rle_lt_trans with c; [|lra].
  replace (c ^ 100) with (c * c ^ 99) by (change 100%nat with (S 99); reflexivity). rewrite <- (Rmult_1_r c) at 3. apply Rmult_le_compat_l; [lra|].
  rewrite <- (pow1 99). apply pow_incr. lra.
Qed.

Section Close.
Variables (P : sn) (G : nat) (T : mat2) (X : mat3) (c : R) (p : mat2).
Hypothesis HP : positive_sweeps P G T.
Hypothesis Hc : 0 <= c < 1.
Hypothesis HD : damping P G T X c p.

(** where the outer iteration ends, from the size of its start and its end *)
Lemma stops_close external boundary old flux sol M : 0 <= M -> mg_solution P G T X external boundary sol ->
  source_iteration_iso P G old T X external boundary 1 = Ok flux ->
  (forall i g, (i < cells P)%nat -> (g < G)%nat -> Rabs (old i g) <= M * p i g) -> (forall i g, (i < cells P)%nat -> (g < G)%nat -> Rabs (flux i g) <= M * p i g) ->
  within_of (cells P) G p (stop_error c (cells P) * M) flux sol.
Proof.
  intros HM Hs E Ho Hf. destruct (damped_error P G T X c p HP Hc HD external boundary old flux sol Hs E) as (n & Hn & A & B).
  pose proof (hundred c Hc) as H100. pose proof change_gg_pos as Hg0. pose proof (pos_INR (cells P)) as HI. pose proof (proj1 HD) as Pp.
  assert (S1 : 0 <= c * (change_gg * INR (cells P)) / (1 - c)) by (apply Rmult_le_pos; [apply Rmult_le_pos; [lra|nra]|left; apply Rinv_0_lt_compat; lra]).
  assert (S2 : 0 <= 2 * c ^ 100 / (1 - c ^ 100)) by (apply Rmult_le_pos; [lra|left; apply Rinv_0_lt_compat; lra]).
  unfold stop_error. change (/ 10 ^ 8) with change_gg. intros i g Hi Hg. pose proof (Pp i g Hi Hg) as Pi.
  destruct (Nat.eq_dec n 100) as [-> |Hne].
  - clear B. revert A S2 H100. generalize (c ^ 100). intros y A S2 H100.
    assert (Q : within_of (cells P) G p (2 * M / (1 - y)) old sol).
    { set (L := 2 * M / (1 - y)). assert (HL : 0 <= L) by (apply Rmult_le_pos; [lra|left; apply Rinv_0_lt_compat; lra]).
      destruct (some_distance P G T X c p HD old sol) as (e & He & W).
      assert (Gk : forall k, within_of (cells P) G p (L + (y) ^ k * e) old sol).
      { induction k as [|k IH].
        - intros j h Hj Hh. pose proof (W j h Hj Hh). pose proof (Pp j h Hj Hh). cbn [pow]. nra.
        - assert (K0 : 0 <= (y) ^ k) by (apply pow_le; lra).
          specialize (A (L + (y) ^ k * e) ltac:(nra) IH). intros j h Hj Hh. specialize (A j h Hj Hh). specialize (Ho j h Hj Hh). specialize (Hf j h Hj Hh).
          replace (old j h - sol j h) with (old j h - flux j h + (flux j h - sol j h)) by ring. eapply Rle_trans; [apply Rabs_triang|].
          pose proof (Rabs_triang (old j h) (- flux j h)) as T1. rewrite Rabs_Ropp in T1. fold (old j h - flux j h) in T1.
          apply Rle_trans with (2 * M * p j h + y * (L + (y) ^ k * e) * p j h); [lra|].
          assert (EL : 2 * M = (1 - y) * L) by (unfold L; field; lra). rewrite EL. change ((y) ^ S k) with (y * (y) ^ k).
          apply Req_le. ring. }
      intros j h Hj Hh. apply le_epsilon. intros eps Heps. pose proof (Pp j h Hj Hh) as Pj.
      destruct (pow_lt_1_zero (y) ltac:(rewrite Rabs_right; lra) (eps / ((e + 1) * p j h)) ltac:(apply Rdiv_lt_0_compat; [lra|nra])) as (N & HN).
      specialize (HN N (le_n N)). rewrite Rabs_right in HN by (apply Rle_ge, pow_le; lra). eapply Rle_trans; [apply (Gk N j h Hj Hh)|].
      assert (0 <= (y) ^ N) by (apply pow_le; lra).
      assert ((y) ^ N * ((e + 1) * p j h) <= eps).
      { apply Rle_trans with (eps / ((e + 1) * p j h) * ((e + 1) * p j h)); [apply Rmult_le_compat_r; [nra|lra]|]. apply Req_le. field. split; lra. }
      nra. }
    assert (L0 : 0 <= 2 * M / (1 - y)) by (apply Rmult_le_pos; [lra|left; apply Rinv_0_lt_compat; lra]). specialize (A _ L0 Q i g Hi Hg). eapply Rle_trans; [exact A|].
    apply Rmult_le_compat_r; [lra|]. replace (y * (2 * M / (1 - y))) with (2 * y / (1 - y) * M) by (field; lra). nra.
  - specialize (B ltac:(lia) M HM Hf i g Hi Hg). eapply Rle_trans; [exact B|]. apply Rmult_le_compat_r; [lra|].
    replace (c * (change_gg * INR (cells P) * M) / (1 - c)) with (c * (change_gg * INR (cells P)) / (1 - c) * M) by (field; lra). nra.
Qed.
(** one more flight *)
Lemma flight_close q1 q2 u v r bnd A B d : 0 <= d ->
  (forall i m g, (i < cells P)%nat -> (m < angles P)%nat -> (g < G)%nat -> q1 i m g = collided P G X u i m g + r i m g) ->
  (forall i m g, (i < cells P)%nat -> (m < angles P)%nat -> (g < G)%nat -> q2 i m g = collided P G X v i m g + r i m g) ->
  angular_flux_of P G T q1 bnd A -> angular_flux_of P G T q2 bnd B -> within_of (cells P) G p d u v ->
  within_of (cells P) G p (c * d) (scalar_flux P A) (scalar_flux P B).
Proof.
  intros Hd E1 E2 HA HB W i g Hi Hg. rewrite (afo_pass P G T HP _ _ A i g HA Hi Hg), (afo_pass P G T HP _ _ B i g HB Hi Hg).
  eapply Rle_trans.
  - apply (pass_dominated P G T HP g _ _ _ (fun j => rsum G (fun h => Rabs (X (medium P j) g h) * p j h)) d i Hg Hi).
    intros m j Hm Hj. rewrite E1, E2 by assumption.
    replace (collided P G X u j m g + r j m g - (collided P G X v j m g + r j m g)) with (collided P G X u j m g - collided P G X v j m g) by ring.
    unfold collided. rewrite <- rsum_minus, <- rsum_scal. apply rsum_abs_le. intros h Hh. rewrite <- Rmult_minus_distr_l, Rabs_mult.
    specialize (W j h Hj Hh). pose proof (Rabs_pos (X (medium P j) g h)). nra.
  - pose proof (damping_tau P G T X c p HP HD g i Hg Hi). nra.
Qed.
End Close.

Theorem run_accurate P G velocity T s f c p : positive_sweeps P G T -> 0 < rsum (angles P) (wt P) -> angles P <> 1%nat ->
  (forall i g h, (i < cells P)%nat -> (g < G)%nat -> (h < G)%nat -> 0 <= total_transfer s f (medium P i) g h) -> (forall g, (g < G)%nat -> 0 < velocity g) ->
  0 <= c < 1 -> damping P G T (total_transfer s f) c p -> exists K, 0 < K /\
  forall materials flux external boundary steps dt ft M, 0 < dt -> positive_sweeps P G (effective_total 1 T velocity dt) ->
  (forall i, (i < cells P)%nat -> (medium P i < materials)%nat) ->
  timed_run false P materials G flux T (Scatter3 s) f velocity external boundary steps dt 1 = Ok ft ->
  0 <= M -> (forall i g, (i < cells P)%nat -> (g < G)%nat -> Rabs (scalar_flux P flux i g) <= M) ->
  (forall j i g, (j < steps)%nat -> (i < cells P)%nat -> (g < G)%nat -> Rabs (ft j i g) <= M) ->
  (exists exact, exact 0%nat = flux /\ exact_history false P G velocity dt T (total_transfer s f) (step_row external) (step_row boundary) steps exact) /\
  forall exact, exact 0%nat = flux -> exact_history false P G velocity dt T (total_transfer s f) (step_row external) (step_row boundary) steps exact ->
  forall j, (j < steps)%nat -> within2 (cells P) G (K * (stop_error c (cells P) * M)) (ft j) (scalar_flux P (exact (S j))).
Proof.
  intros HP HW HA HX HV Hc HD. set (Y := total_transfer s f) in *.
  destruct (forgets P G velocity T Y HP HW HX HV c p Hc HD) as (K0 & a & HK & Ha & F).
  destruct (spread P G T Y c p HD) as (lo & hi & Hlo & Hh & Hp).
  set (Xs := rsum (cells P) (fun i => rsum G (fun g => rsum G (fun h => Rabs (Y (medium P i) g h))))).
  assert (HXs0 : 0 <= Xs) by (apply rsum_nonneg; intros; apply rsum_nonneg; intros; apply rsum_nonneg; intros; apply Rabs_pos).
  assert (HXs : forall i g, (i < cells P)%nat -> (g < G)%nat -> rsum G (fun h => Rabs (Y (medium P i) g h)) <= Xs).
  { intros i g Hi Hg. unfold Xs.
    eapply Rle_trans; [|apply (rsum_term_le (cells P) (fun i => rsum G (fun g => rsum G (fun h => Rabs (Y (medium P i) g h)))) i); [|exact Hi]].
    - apply (rsum_term_le G (fun g => rsum G (fun h => Rabs (Y (medium P i) g h))) g); [|exact Hg]. intros; apply rsum_nonneg; intros; apply Rabs_pos.
    - intros; apply rsum_nonneg; intros; apply rsum_nonneg; intros; apply Rabs_pos. }
  set (W := rsum (angles P) (wt P)) in *. set (k1 := hi / lo).
  assert (K1 : 0 < k1) by (apply Rdiv_lt_0_compat; lra).
  assert (KW : 0 <= W * K0 * Xs) by (apply Rmult_le_pos; [nra|exact HXs0]).
  exists (2 * k1 * (1 + W * K0 * Xs)). split; [nra|].
  intros materials flux external boundary steps dt ft M Hdt HE Hmed E HM Hfl Hft.
  assert (HV0 : forall g, (g < G)%nat -> velocity g <> 0) by (intros g Hg; specialize (HV g Hg); lra).
  assert (Hdt0 : dt <> 0) by lra.
  assert (HDE := damping_effective P G T Y c p velocity dt 1 HP HE HV Hdt ltac:(lra) HD).
  split; [apply (damped_history_exists P G velocity dt T Y c p (step_row external) (step_row boundary) flux steps HE Hc HDE HV0 Hdt0)|].
  intros exact X0 HX0.
  destruct (timed_history_gen false P materials G flux T s f velocity external boundary steps dt HA (proj1 HP) Hmed HV0 Hdt0 ft) as (X & x & _ & HXY & H0 & Hs & Hfx & Hsrc & HH).
  { intros k Hk. exact (ps_divisors P G _ HE). }
  { exact E. }
  set (psi := fun j => t_psi1 (x j)) in *. fold Y in HH.
  set (e := stop_error c (cells P) * (M / lo)).
  assert (SE0 : 0 <= stop_error c (cells P)).
  { pose proof (hundred c Hc). pose proof (pos_INR (cells P)). unfold stop_error. apply Rplus_le_le_0_compat; apply Rmult_le_pos; try (left; apply Rinv_0_lt_compat; lra); [|lra].
    apply Rmult_le_pos; [lra|]. apply Rmult_le_pos; [|assumption]. left. apply Rinv_0_lt_compat. lra. }
  assert (ML : 0 <= M / lo) by (apply Rmult_le_pos; [exact HM|left; apply Rinv_0_lt_compat; exact Hlo]).
  assert (E0 : 0 <= e) by (apply Rmult_le_pos; assumption).
  assert (SIZE : forall u : mat2, (forall i g, (i < cells P)%nat -> (g < G)%nat -> Rabs (u i g) <= M) -> forall i g, (i < cells P)%nat -> (g < G)%nat -> Rabs (u i g) <= M / lo * p i g).
  { intros u Hu i g Hi Hg. eapply Rle_trans; [apply Hu; assumption|]. destruct (Hp i g Hi Hg) as (L & _).
    apply (Rmult_le_reg_r lo); [exact Hlo|]. replace (M / lo * p i g * lo) with (M * p i g) by (field; lra). apply Rmult_le_compat_l; assumption. }
  assert (RES : forall j, (j < steps)%nat -> within_of (cells P) G p (2 * e) (ft j) (scalar_flux P (psi (S j)))).
  { intros j Hj. destruct (timed_body_ok _ _ _ _ _ _ _ _ _ _ _ _ (Hs j Hj)) as (_ & _ & q & Eq & Ei & Ek & _).
    assert (Eq' := add_external_ok _ _ _ _ _ Eq). cbn [run_weight] in Ei.
    set (r := fun i m g => at3 (step_row external j) i (bidx (d3b (step_row external j)) m) (bidx (d3c (step_row external j)) g) + psi j i m g / (velocity g * dt)).
    destruct (coupled_exists P G _ Y c p HE Hc HDE r (step_row boundary j)) as (A & HAf).
    assert (HDX : damping P G (effective_total 1 T velocity dt) X c p) by (apply (damping_ext P G _ Y X c p); [intros; symmetry; apply HXY; assumption|exact HE|exact HDE]).
    assert (HAX : angular_flux_of P G (effective_total 1 T velocity dt) (fun i m g => collided P G X (scalar_flux P A) i m g + at3 q i m g) (step_row boundary j) A).
    { eapply afo_ext; [|exact HAf]. intros i m g Hi Hm Hg. cbv beta. f_equal.
      - unfold collided. apply rsum_ext. intros h Hh'. rewrite HXY by assumption. reflexivity.
      - rewrite Eq'. cbn [at3]. rewrite (Hsrc j Hj). unfold r. f_equal. cbn [run_source]. unfold psi. unfold Rdiv. ring. }
    assert (Hsol := afo_solution P G _ X (at3 q) (step_row boundary j) A HAX).
    assert (Eqq : mkArr3 (angles P) G (at3 q) = q) by (rewrite Eq'; reflexivity). rewrite Eqq in Hsol.
    assert (C1 : within_of (cells P) G p e (ft j) (scalar_flux P A)).
    { rewrite (Hfx j Hj). apply (stops_close P G _ X c p HE Hc HDX q (step_row boundary j) (t_old (x j)) _ _ (M / lo) ML Hsol Ei).
      - apply SIZE. destruct j as [|j]; [rewrite H0; cbn [t_old]; rewrite angle_sum_scalar; exact Hfl|].
        rewrite <- (Hfx j) by lia. intros i g Hi Hg. apply Hft; [lia|exact Hi|exact Hg].
      - rewrite <- (Hfx j Hj). apply SIZE. intros; apply Hft; assumption. }
    destruct (HH j Hj) as (E1 & HE1). cbn [run_derivative] in HE1.
    assert (HN := step_afo P G velocity dt T Y _ _ _ _ _ _ HV0 Hdt0 HE1).
    assert (C2 : within_of (cells P) G p (c * e) (scalar_flux P (psi (S j))) (scalar_flux P A)).
    { apply (flight_close P G _ Y c p HE HDE _ _ (ft j) (scalar_flux P A) r (step_row boundary j) (psi (S j)) A e E0) with (5 := C1) (3 := HN) (4 := HAf).
      - intros i m g _ _ _. unfold r. ring.
      - intros; reflexivity. }
    intros i g Hi Hg. specialize (C1 i g Hi Hg). specialize (C2 i g Hi Hg). pose proof (proj1 HD i g Hi Hg).
    replace (ft j i g - scalar_flux P (psi (S j)) i g) with (ft j i g - scalar_flux P A i g - (scalar_flux P (psi (S j)) i g - scalar_flux P A i g)) by ring.
    eapply Rle_trans; [apply Rabs_triang|]. rewrite Rabs_Ropp. assert (c * e <= e) by nra. nra. }
  set (rr := Xs * (2 * e * hi)). assert (RR0 : 0 <= rr) by (apply Rmult_le_pos; [exact HXs0|nra]).
  intros j Hj i g Hi Hg.
  assert (D3 : within3 P G (K0 * (0 / (1 + a * dt) ^ S j + rr)) (psi (S j)) (exact (S j))).
  { apply (F dt _ _ _ steps psi exact ft _ 0 rr Hdt HE ltac:(lra) RR0 HH HX0); [| |lia].
    - intros i' m' g' _ _ _. unfold psi. rewrite H0, X0. cbn [t_psi1]. rewrite Rminus_diag_eq by reflexivity. rewrite Rabs_R0. lra.
    - intros j' Hj' i' m' g' Hi' Hm' Hg'. rewrite exact_step_input. unfold step_input.
      match goal with |- Rabs ?z <= _ => replace z with (rsum G (fun h => Y (medium P i') g' h * (ft j' i' h - scalar_flux P (psi (S j')) i' h))) by ring end.
      unfold rr. apply Rle_trans with (rsum G (fun h => Rabs (Y (medium P i') g' h)) * (2 * e * hi)); [|apply Rmult_le_compat_r; [nra|apply HXs; assumption]].
      rewrite <- rsum_scal_r. apply rsum_abs_le. intros h Hh'. rewrite Rabs_mult. apply Rmult_le_compat_l; [apply Rabs_pos|].
      eapply Rle_trans; [apply (RES j' Hj' i' h Hi' Hh')|]. apply Rmult_le_compat_l; [lra|]. apply Hp; assumption. }
  assert (D2 := scalar_perturb P G (psi (S j)) (exact (S j)) _ (proj2 (proj2 HP)) D3 i g Hi Hg). fold W in D2.
  replace (ft j i g - scalar_flux P (exact (S j)) i g) with (ft j i g - scalar_flux P (psi (S j)) i g + (scalar_flux P (psi (S j)) i g - scalar_flux P (exact (S j)) i g)) by ring.
  eapply Rle_trans; [apply Rabs_triang|]. pose proof (RES j Hj i g Hi Hg) as R1.
  assert (R2 : 2 * e * p i g <= 2 * e * hi) by (apply Rmult_le_compat_l; [lra|apply Hp; assumption]).
  replace (0 / (1 + a * dt) ^ S j) with 0 in D2 by (unfold Rdiv; ring). rewrite Rplus_0_l in D2.
  apply Rle_trans with (2 * e * hi + W * (K0 * rr)); [lra|]. unfold rr, e, k1. apply Req_le. field. lra.
Qed.
