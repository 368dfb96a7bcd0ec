(** Order of accuracy in time, and in space and time. *)
From Coq Require Import Lra Lia Psatz.
From Verif Require Import Base BaseFacts SlabModel SlabSpec SlabFacts4 MgModel MgSpec MgFacts2 TimeModel TimeSpec TimeFacts TimeFacts2 ManFacts ConvSpec ConvFacts.
From Verif Require Import EnSpec EnFacts EnFacts2 EnFacts3 EnFacts4 EnFacts5 EnFacts7 OrdSpec OrdFacts OrdFacts2.
Open Scope R_scope.

Lemma history_accurate two P G velocity dt xs_total transfer ext bnd steps psi emit source inflow t0 M2 M3 flux slope :
  sound_slab P -> no_multiplication P G xs_total transfer -> (forall g, (g < G)%nat -> 0 < velocity g) -> 0 < dt -> 0 <= M2 -> 0 <= M3 ->
  time_history two P G velocity dt xs_total transfer ext bnd steps psi emit ->
  source_rows P G t0 dt steps ext source -> inflow_rows P G t0 dt steps bnd inflow ->
  smooth_in_time two P G t0 (time_at t0 dt steps) M2 M3 flux slope ->
  evolves P G velocity xs_total transfer source inflow t0 (time_at t0 dt steps) flux slope ->
  forall k, (k <= steps)%nat ->
  density_norm P G velocity (minus3 (psi k) (flux (time_at t0 dt k))) <=
    (if two then sqrt 2 else 1) * density_norm P G velocity (minus3 (psi 0%nat) (flux t0))
    + time_error two dt (INR k * dt) M2 M3 * density_norm P G velocity unit_flux
    + (if two then 6 else 1) * dt * rsum k (fun j => source_norm P G velocity (unresolved P G transfer (emit j) (psi (S j)))).
Proof.
  intros HP HM HV Hdt HM2 HM3 HH HR HI HS HE k Hk.
  pose proof (accurate two P G velocity dt xs_total transfer ext bnd steps psi emit t0 M2 M3 flux slope (fun _ _ _ _ => 0) HP HM HV Hdt HM2 HM3 HH HS) as A.
  assert (B : forall j, (j < steps)%nat -> exists E, step_equation P G velocity xs_total transfer
     (full3 P G (fun i m g => at3 (ext j) i (bidx (d3b (ext j)) m) (bidx (d3c (ext j)) g) + 0)) (bnd j)
     (slope (time_at t0 dt (S j))) (scalar_flux P (flux (time_at t0 dt (S j)))) E (flux (time_at t0 dt (S j)))).
  { intros j Hj. pose proof (time_at_le t0 dt 0 (S j) ltac:(lra) ltac:(lia)) as L. rewrite time_at_0 in L.
    pose proof (time_at_le t0 dt (S j) steps ltac:(lra) ltac:(lia)) as U.
    destruct (HE _ (conj L U)) as (E & F). exists E. intros g m Hg Hm. destruct (F g m Hg Hm) as (F1 & F2). split.
    - intros i Hi. destruct (F1 i Hi) as (F3 & F4). split; [exact F3|]. rewrite full3_at by assumption. rewrite (HR j i m g Hj Hi Hm Hg). rewrite Rplus_0_r. exact F4.
    - rewrite (HI j m g Hj Hm Hg). exact F2. }
  specialize (A B k Hk). cbv beta in A. eapply Rle_trans; [exact A|]. apply Rplus_le_compat_l. apply Req_le. f_equal. apply rsum_ext. intros j _.
  rewrite (source_zero P G velocity (fun _ _ _ => 0)) by reflexivity. ring.
Qed.

Lemma run_history two P materials groups flux xs_total s f velocity external boundary steps dt ft :
  sound_slab P -> no_multiplication P groups xs_total (total_transfer s f) -> angles P <> 1%nat ->
  (forall i, (i < cells P)%nat -> (medium P i < materials)%nat) ->
  (forall g, (g < groups)%nat -> 0 < velocity g) -> 0 < dt ->
  timed_run two P materials groups flux xs_total (Scatter3 s) f velocity external boundary steps dt 1 = Ok ft ->
  exists psi : nat -> mat3, psi 0%nat = flux /\
    time_history two P groups velocity dt xs_total (total_transfer s f) (step_row external) (step_row boundary) steps psi ft.
Proof.
  intros HP HM Ha Hmed HV Hdt E. destruct (run_error two P materials groups flux xs_total s f velocity external boundary steps dt ft HP HM Ha Hmed HV Hdt E) as (psi & A & B & _).
  exists psi. split; assumption.
Qed.

Lemma time_run_accurate two P materials groups start xs_total s f velocity external boundary steps dt ft :
  sound_slab P -> no_multiplication P groups xs_total (total_transfer s f) -> angles P <> 1%nat ->
  (forall i, (i < cells P)%nat -> (medium P i < materials)%nat) ->
  (forall g, (g < groups)%nat -> 0 < velocity g) -> 0 < dt ->
  timed_run two P materials groups start xs_total (Scatter3 s) f velocity external boundary steps dt 1 = Ok ft ->
  exists psi : nat -> mat3, psi 0%nat = start /\
    time_history two P groups velocity dt xs_total (total_transfer s f) (step_row external) (step_row boundary) steps psi ft /\
    forall source inflow t0 M2 M3 flux slope, 0 <= M2 -> 0 <= M3 ->
      source_rows P groups t0 dt steps (step_row external) source -> inflow_rows P groups t0 dt steps (step_row boundary) inflow ->
      smooth_in_time two P groups t0 (time_at t0 dt steps) M2 M3 flux slope ->
      evolves P groups velocity xs_total (total_transfer s f) source inflow t0 (time_at t0 dt steps) flux slope ->
      forall k, (k <= steps)%nat ->
      density_norm P groups velocity (minus3 (psi k) (flux (time_at t0 dt k))) <=
        (if two then sqrt 2 else 1) * density_norm P groups velocity (minus3 start (flux t0))
        + time_error two dt (INR k * dt) M2 M3 * density_norm P groups velocity unit_flux
        + (if two then 6 else 1) * dt * rsum k (fun j => source_norm P groups velocity (unresolved P groups (total_transfer s f) (ft j) (psi (S j)))).
Proof.
  intros HP HM Ha Hmed HV Hdt E.
  destruct (run_history two P materials groups start xs_total s f velocity external boundary steps dt ft HP HM Ha Hmed HV Hdt E) as (psi & H0 & H).
  exists psi. split; [exact H0|]. split; [exact H|]. intros source inflow t0 M2 M3 flux slope P2 P3 HR HI HS HE k Hk.
  rewrite <- H0 at 1. eapply history_accurate; eassumption.
Qed.

(** With exact steps and the exact start, the error is at most a constant over the number of steps (its square). *)
Lemma exact_order two P G velocity xs_total transfer source inflow t0 T M2 M3 flux slope :
  sound_slab P -> no_multiplication P G xs_total transfer -> (forall g, (g < G)%nat -> 0 < velocity g) -> 0 < T -> 0 <= M2 -> 0 <= M3 ->
  smooth_in_time two P G t0 (t0 + T) M2 M3 flux slope ->
  evolves P G velocity xs_total transfer source inflow t0 (t0 + T) flux slope ->
  exists K, 0 <= K /\ forall n psi, (0 < n)%nat -> psi 0%nat = flux t0 ->
    exact_history two P G velocity (T / INR n) xs_total transfer
      (fun k => source (time_at t0 (T / INR n) (S k))) (fun k => inflow (time_at t0 (T / INR n) (S k))) n psi ->
    forall k, (k <= n)%nat ->
      density_norm P G velocity (minus3 (psi k) (flux (time_at t0 (T / INR n) k))) <= K / INR n ^ (if two then 2 else 1).
Proof.
  intros HP HM HV HT HM2 HM3 HS HE.
  set (D := density_norm P G velocity unit_flux). assert (PD : 0 <= D) by apply norm_nonneg.
  set (K0 := if two then (3 * M2 + 6 * T * M3) * T ^ 2 else T * M2 / 2 * T).
  assert (A1 : 0 <= T * M3) by (apply Rmult_le_pos; lra). assert (A2 : 0 <= T * M2) by (apply Rmult_le_pos; lra).
  assert (PK : 0 <= K0). { unfold K0. destruct two; [apply Rmult_le_pos; [lra|apply pow_le; lra]|apply Rmult_le_pos; lra]. }
  exists (K0 * D). split; [apply Rmult_le_pos; assumption|].
  intros n psi Hn H0 HX k Hk. assert (Pn : 0 < INR n) by (apply lt_0_INR; exact Hn).
  set (dt := T / INR n). fold dt in HX. assert (Pdt : 0 < dt) by (apply Rdiv_lt_0_compat; assumption).
  assert (EN : time_at t0 dt n = t0 + T) by (unfold time_at, dt; field; lra).
  pose proof (history_accurate two P G velocity dt xs_total transfer _ _ n psi _ source inflow t0 M2 M3 flux slope HP HM HV Pdt HM2 HM3 HX) as A.
  rewrite EN in A. specialize (A ltac:(intros j i m g _ _ _ _; reflexivity) ltac:(intros j m g _ _ _; reflexivity) HS HE k Hk). cbv beta in A.
  rewrite (rsum_zero_ext k) in A.
  2:{ intros j Hj. apply source_zero. intros i m g _ _ _. unfold unresolved. apply rsum_zero_ext. intros; ring. }
  replace (density_norm P G velocity (minus3 (psi 0%nat) (flux t0))) with 0 in A.
  2:{ rewrite H0. unfold density_norm. rewrite (total3_ext _ _ _ (fun _ _ _ => 0)); [|intros; unfold minus3, Rsqr, Rdiv; ring].
      replace (total3 P G (fun _ _ _ => 0)) with 0; [symmetry; apply sqrt_0|]. symmetry. apply rsum_zero_ext; intros. apply rsum_zero_ext; intros. apply rsum_zero_ext; reflexivity. }
  fold D in A. rewrite !Rmult_0_r, Rplus_0_l, Rplus_0_r in A.
  eapply Rle_trans; [exact A|]. clear A.
  assert (KT : INR k * dt <= T). { replace T with (INR n * dt) by (unfold dt; field; lra). apply Rmult_le_compat_r; [lra|]. apply le_INR, Hk. }
  assert (B : time_error two dt (INR k * dt) M2 M3 <= K0 / INR n ^ (if two then 2 else 1)).
  { unfold time_error, K0. destruct two.
    - replace ((3 * M2 + 6 * T * M3) * T ^ 2 / INR n ^ 2) with ((3 * M2 + 6 * T * M3) * dt ^ 2) by (unfold dt; field; lra).
      apply Rmult_le_compat_r; [apply pow_le; lra|]. apply (Rmult_le_compat_r M3) in KT; [lra|exact HM3].
    - replace (T * M2 / 2 * T / INR n ^ 1) with (T * M2 / 2 * dt) by (unfold dt; field; lra).
      apply Rmult_le_compat_r; [lra|]. apply (Rmult_le_compat_r M2) in KT; [lra|exact HM2]. }
  apply (Rmult_le_compat_r D) in B; [|exact PD]. unfold Rdiv in *. lra.
Qed.

(** *** space *)
Lemma twice_mid a b M2 f f1 : a <= b -> twice_smooth a b M2 f f1 ->
  Rabs ((f a + f b) / 2 - f ((a + b) / 2)) <= M2 * (b - a) ^ 2 / 8.
Proof.
  intros Hab (f2 & H). set (c := (a + b) / 2). set (h := (b - a) / 2).
  assert (Ea : c - h = a) by (unfold c, h; field). assert (Eb : c + h = b) by (unfold c, h; field).
  assert (Hh : 0 <= h) by (unfold h; lra). assert (Hc : a <= c <= b) by (unfold c; lra).
  assert (I1 : forall t, 0 <= t <= h -> a <= c + t <= b) by (intros; lra). assert (I2 : forall t, 0 <= t <= h -> a <= c - t <= b) by (intros; lra).
  assert (PM2 : 0 <= M2). { destruct (H c Hc) as (_ & _ & B). pose proof (Rabs_pos (f2 c)). lra. }
  assert (B1 : forall t, 0 <= t <= h -> Rabs (f1 (c + t) - f1 (c - t)) <= 2 * M2 * t ^ 1).
  { intros t Ht. replace (2 * M2 * t ^ 1) with ((2 * M2) * t ^ 1 / 1) by field.
    pose proof (grow (fun t => f1 (c + t) - f1 (c - t)) (fun t => f2 (c + t) - - f2 (c - t)) (2 * M2) 0 t ltac:(lra) ltac:(lra)) as G.
    cbn [INR] in G. apply G.
    - rewrite Rplus_0_r, Rminus_0_r. ring.
    - intros s Hs. destruct (H _ (I1 s ltac:(lra))) as (_ & D1 & Q1). destruct (H _ (I2 s ltac:(lra))) as (_ & D2 & Q2). split.
      + apply dl_minus; [now apply dl_up|now apply dl_down].
      + rewrite pow_O. apply abs_bounds in Q1, Q2. apply Rabs_le. lra. }
  pose proof (grow (fun t => f (c + t) + f (c - t) - 2 * f c) (fun t => f1 (c + t) + - f1 (c - t) - 0) (2 * M2) 1 h Hh ltac:(lra)) as G.
  cbn [INR] in G. replace (1 + 1) with 2 in G by ring. rewrite Ea, Eb in G.
  assert (K : Rabs (f b + f a - 2 * f c) <= 2 * M2 * h ^ 2 / 2).
  { apply G.
    - rewrite Rplus_0_r, Rminus_0_r. ring.
    - intros s Hs. destruct (H _ (I1 s Hs)) as (D1 & _). destruct (H _ (I2 s Hs)) as (D2 & _). split.
      + apply dl_minus; [apply dl_plus; [now apply dl_up|now apply dl_down]|apply dl_const].
      + replace (f1 (c + s) + - f1 (c - s) - 0) with (f1 (c + s) - f1 (c - s)) by ring. apply B1. exact Hs. }
  replace ((f a + f b) / 2 - f c) with ((f b + f a - 2 * f c) * / 2) by field. rewrite Rabs_mult, (Rabs_right (/ 2)) by lra.
  replace (M2 * (b - a) ^ 2 / 8) with (2 * M2 * h ^ 2 / 2 * / 2) by (unfold h; field). lra.
Qed.

Lemma mean_twice a b M2 f f1 g g1 : twice_smooth a b M2 f f1 -> twice_smooth a b M2 g g1 ->
  twice_smooth a b M2 (fun t => (f t + g t) / 2) (fun t => (f1 t + g1 t) / 2).
Proof.
  intros (f2 & F) (g2 & H). exists (fun t => (f2 t + g2 t) / 2). intros t Ht. destruct (F t Ht) as (A1 & A2 & A3). destruct (H t Ht) as (B1 & B2 & B3).
  split; [apply dl_div, dl_plus; assumption|]. split; [apply dl_div, dl_plus; assumption|].
  apply abs_bounds in A3, B3. apply Rabs_le. lra.
Qed.
Lemma mean_thrice a b M2 M3 f f1 g g1 : thrice_smooth a b M2 M3 f f1 -> thrice_smooth a b M2 M3 g g1 ->
  thrice_smooth a b M2 M3 (fun t => (f t + g t) / 2) (fun t => (f1 t + g1 t) / 2).
Proof.
  intros (f2 & f3 & F) (g2 & g3 & H). exists (fun t => (f2 t + g2 t) / 2), (fun t => (f3 t + g3 t) / 2). intros t Ht.
  destruct (F t Ht) as (A1 & A2 & A3 & A4 & A5). destruct (H t Ht) as (B1 & B2 & B3 & B4 & B5).
  split; [apply dl_div, dl_plus; assumption|]. split; [apply dl_div, dl_plus; assumption|]. split; [apply dl_div, dl_plus; assumption|].
  apply abs_bounds in A4, B4, A5, B5. split; apply Rabs_le; lra.
Qed.

Lemma reflected_any P (E : mat2) m : sound_slab P -> ordered_for (angles P) (mu P) (bc_left P) (bc_right P) -> (m < angles P)%nat ->
  reflected_in (cells P) (angles P) (mu P) (bc_left P) (bc_right P) E m
  = if enters_reflective (mu P) (bc_left P) (bc_right P) m then E (angles P - m - 1)%nat (inflow_edge (cells P) (mu P m)) else 0.
Proof.
  intros (_ & _ & Hnz & [(HL & HR)|(HS & _)]) Ho Hm; [|apply reflected_in_spec; assumption].
  unfold reflected_in, enters_reflective, leaves_reflective. apply Nat.eqb_neq in HL, HR. rewrite HL, HR.
  destruct (Rlt_dec 0 (mu P m)), (Rlt_dec 0 (mu P (angles P - m - 1)%nat)); try destruct (Rlt_dec (mu P (angles P - m - 1)%nat) 0); rewrite andb_false_r; reflexivity.
Qed.

Section Space.
Variables (two : bool) (P : sn) (G : nat) (velocity : vec) (xs_total : mat2) (transfer : mat3) (source inflow : R -> arr3).
Variables (x : vec) (t0 t1 X2 X3 X2t M2 M3 h : R) (psi slope : nat -> nat -> nat -> R -> R -> R).
Hypothesis HP : sound_slab P.
Hypothesis HM : no_multiplication P G xs_total transfer.
Hypothesis HV : forall g, (g < G)%nat -> 0 < velocity g.
Hypothesis HO : ordered_for (angles P) (mu P) (bc_left P) (bc_right P).
Hypothesis HX : cell_edges P x.
Hypothesis Hh : forall i, (i < cells P)%nat -> dx P i <= h.
Hypothesis HS : transport_solution two P G velocity xs_total transfer source inflow x t0 t1 X2 X3 X2t M2 M3 psi slope.

Definition edge_mean (f : nat -> nat -> nat -> R -> R -> R) (t : R) : mat3 := fun i m g => (f g m i (x i) t + f g m i (x (S i)) t) / 2.

Lemma mean_smooth : smooth_in_time two P G t0 t1 M2 M3 (edge_mean psi) (edge_mean slope).
Proof.
  intros i m g Hi Hm Hg. destruct HS as (_ & _ & H3 & _). pose proof (HX i Hi) as XE. destruct HP as (Hdx & _). specialize (Hdx i Hi).
  pose proof (H3 g m i (x i) Hg Hm Hi ltac:(lra)) as A. pose proof (H3 g m i (x (S i)) Hg Hm Hi ltac:(lra)) as B. clear H3.
  unfold edge_mean. destruct two; [apply mean_thrice|apply mean_twice]; assumption.
Qed.

Lemma mean_centre i m g t : (i < cells P)%nat -> (m < angles P)%nat -> (g < G)%nat -> t0 <= t <= t1 ->
  0 <= X2 /\ Rabs (edge_mean psi t i m g - at_centres x psi t i m g) <= X2 * h ^ 2 / 8.
Proof.
  intros Hi Hm Hg Ht. destruct HS as (H1 & _). destruct (H1 g m i t Hg Hm Hi Ht) as (A & _).
  pose proof (HX i Hi) as XE. destruct HP as (Hdx & _). specialize (Hdx i Hi). specialize (Hh i Hi).
  assert (PX : 0 <= X2). { destruct A as (f1 & f2 & f3 & A). destruct (A (x i) ltac:(lra)) as (_ & _ & _ & B & _). pose proof (Rabs_pos (f2 (x i))). lra. }
  split; [exact PX|]. destruct (taylor (x i) (x (S i)) X2 X3 _ ltac:(lra) A) as (d & _ & _ & T). cbv beta in T. unfold edge_mean, at_centres, centre.
  eapply Rle_trans; [exact T|]. replace (x (S i) - x i) with (dx P i) by lra.
  assert (dx P i ^ 2 <= h ^ 2) by (apply pow_incr; lra). unfold Rdiv. apply Rmult_le_compat_r; [lra|]. apply Rmult_le_compat_l; assumption.
Qed.

Lemma scatter_bound i m g t : (i < cells P)%nat -> (m < angles P)%nat -> (g < G)%nat -> t0 <= t <= t1 ->
  Rabs (rsum G (fun k => transfer (medium P i) g k * rsum (angles P) (fun n => wt P n * psi k n i (centre x i) t))
    - rsum G (fun k => transfer (medium P i) g k * scalar_flux P (edge_mean psi t) i k)) <= 2 * xs_total (medium P i) g * (X2 * h ^ 2 / 8).
Proof.
  intros Hi Hm Hg Ht. set (B := X2 * h ^ 2 / 8).
  assert (PB : 0 <= B). { destruct (mean_centre i m g t Hi Hm Hg Ht) as (A & _). pose proof (pow2_ge_0 h). unfold B, Rdiv. apply Rmult_le_pos; [apply Rmult_le_pos; assumption|lra]. }
  assert (PW : 0 <= rsum (angles P) (wt P)) by (apply rsum_nonneg; apply HP).
  rewrite <- rsum_minus.
  assert (T : forall k, (k < G)%nat -> Rabs (transfer (medium P i) g k * rsum (angles P) (fun n => wt P n * psi k n i (centre x i) t) - transfer (medium P i) g k * scalar_flux P (edge_mean psi t) i k)
      <= Rabs (transfer (medium P i) g k) * (rsum (angles P) (wt P) * B)).
  { intros k Hk. rewrite <- Rmult_minus_distr_l, Rabs_mult. apply Rmult_le_compat_l; [apply Rabs_pos|].
    unfold scalar_flux. rewrite <- rsum_minus. eapply Rle_trans; [apply rsum_abs_le; intros; apply Rle_refl|]. rewrite (Rmult_comm _ B), <- rsum_scal. apply rsum_le. intros n Hn.
    rewrite <- Rmult_minus_distr_l, Rabs_mult. assert (0 <= wt P n) by (apply HP; exact Hn). rewrite (Rabs_right (wt P n)) by lra.
    rewrite (Rmult_comm B). apply Rmult_le_compat_l; [assumption|]. destruct (mean_centre i n k t Hi Hn Hk Ht) as (_ & A). rewrite Rabs_minus_sym. exact A. }
  eapply Rle_trans; [apply rsum_abs_le; intros; apply Rle_refl|]. eapply Rle_trans; [apply rsum_le; exact T|].
  rewrite (rsum_ext G _ (fun k => (rsum (angles P) (wt P) * B) * Rabs (transfer (medium P i) g k))) by (intros; ring). rewrite rsum_scal.
  pose proof (HM i g Hi Hg) as M.
  assert (PC : 0 <= rsum G (fun k => Rabs (transfer (medium P i) k g))) by (apply rsum_nonneg; intros; apply Rabs_pos).
  set (W := rsum (angles P) (wt P)) in *. set (r := rsum G (fun k => Rabs (transfer (medium P i) g k))) in *. set (c := rsum G (fun k => Rabs (transfer (medium P i) k g))) in *.
  assert (Q : W * r <= 2 * xs_total (medium P i) g). { assert (0 <= W * c) by (apply Rmult_le_pos; assumption). unfold Rdiv in M. lra. }
  apply (Rmult_le_compat_r B) in Q; [|exact PB]. lra.
Qed.

Definition defect (t : R) : mat3 := fun i m g =>
  edge_mean slope t i m g / velocity g + mu P m / dx P i * (edge_value P x (fun i y => psi g m i y t) (S i) - edge_value P x (fun i y => psi g m i y t) i)
  + xs_total (medium P i) g * edge_mean psi t i m g
  - rsum G (fun k => transfer (medium P i) g k * scalar_flux P (edge_mean psi t) i k)
  - at3 (source t) i (bidx (d3b (source t)) m) (bidx (d3c (source t)) g).

Lemma edges_at i m g t : (i < cells P)%nat -> (m < angles P)%nat -> (g < G)%nat -> t0 <= t <= t1 ->
  edge_value P x (fun i y => psi g m i y t) i = psi g m i (x i) t /\ edge_value P x (fun i y => psi g m i y t) (S i) = psi g m i (x (S i)) t.
Proof.
  intros Hi Hm Hg Ht. split; [apply (edge_left P x (fun i y => psi g m i y t)); exact Hi|].
  apply (edge_right P x (fun i y => psi g m i y t)); [exact Hi|]. intros H. destruct HS as (_ & H2 & _). apply H2; assumption.
Qed.

Lemma defect_bound i m g t : (i < cells P)%nat -> (m < angles P)%nat -> (g < G)%nat -> t0 <= t <= t1 ->
  Rabs (defect t i m g) <= h ^ 2 * space_defect P velocity xs_total X2 X3 X2t i m g.
Proof.
  intros Hi Hm Hg Ht. unfold defect. destruct (edges_at i m g t Hi Hm Hg Ht) as (-> & ->).
  pose proof (scatter_bound i m g t Hi Hm Hg Ht) as SB. destruct (mean_centre i m g t Hi Hm Hg Ht) as (PX2 & MC).
  destruct HS as (H1 & _ & _ & H4 & _). destruct (H1 g m i t Hg Hm Hi Ht) as (A & s1 & As). destruct (H4 g m i t Hg Hm Hi Ht) as (d & Dd & EQ). clear H1 H4.
  pose proof (HX i Hi) as XE. assert (Pdx : 0 < dx P i) by (apply HP; exact Hi). pose proof (Hh i Hi) as Hhi. pose proof (HV g Hg) as Pv.
  destruct (taylor (x i) (x (S i)) X2 X3 _ ltac:(lra) A) as (d' & Dd' & T3 & _). cbv beta in T3.
  assert (d' = d) by (eapply uniqueness_limite; [exact Dd'|exact Dd]). subst d'.
  pose proof (twice_mid (x i) (x (S i)) X2t _ s1 ltac:(lra) As) as TM. cbv beta in TM. fold (centre x i) in TM.
  assert (PX3 : 0 <= X3). { destruct A as (f1 & f2 & f3 & A). destruct (A (x i) ltac:(lra)) as (_ & _ & _ & _ & B). pose proof (Rabs_pos (f3 (x i))). lra. }
  assert (PX2t : 0 <= X2t). { destruct As as (f2 & As). destruct (As (x i) ltac:(lra)) as (_ & _ & B). pose proof (Rabs_pos (f2 (x i))). lra. }
  assert (SQ : dx P i ^ 2 <= h ^ 2) by (apply pow_incr; lra).
  assert (PS : 0 <= xs_total (medium P i) g).
  { eapply Rle_trans; [|apply (HM i g Hi Hg)]. apply Rmult_le_pos; [apply rsum_nonneg; apply HP|]. unfold Rdiv. apply Rmult_le_pos; [|lra].
    apply Rplus_le_le_0_compat; apply rsum_nonneg; intros; apply Rabs_pos. }
  replace (x (S i) - x i) with (dx P i) in T3, TM by lra.
  set (sl := edge_mean slope t i m g) in *. fold (edge_mean slope t i m g) in TM. fold sl in TM.
  set (E1 := psi g m i (x (S i)) t) in *. set (E0 := psi g m i (x i) t) in *.
  set (s := at3 (source t) _ _ _) in *. unfold at_centres in MC. set (pc := psi g m i (centre x i) t) in *. set (pm := edge_mean psi t i m g) in *.
  set (sc := slope g m i (centre x i) t) in *.
  set (S1 := rsum G (fun k => transfer (medium P i) g k * rsum (angles P) (fun n => wt P n * psi k n i (centre x i) t))) in *.
  set (S2 := rsum G (fun k => transfer (medium P i) g k * scalar_flux P (edge_mean psi t) i k)) in *.
  replace (sl / velocity g + mu P m / dx P i * (E1 - E0) + xs_total (medium P i) g * pm - S2 - s)
    with ((sl - sc) / velocity g + mu P m / dx P i * (E1 - E0 - dx P i * d) + xs_total (medium P i) g * (pm - pc) + (S1 - S2))
    by (replace s with (sc / velocity g + mu P m * d + xs_total (medium P i) g * pc - S1) by lra; field; lra).
  assert (B1 : Rabs ((sl - sc) / velocity g) <= h ^ 2 * (X2t / (8 * velocity g))).
  { unfold Rdiv. rewrite Rabs_mult, (Rabs_right (/ velocity g)) by (left; apply Rlt_gt, Rinv_0_lt_compat, Pv).
    replace (h ^ 2 * (X2t * / (8 * velocity g))) with (X2t * h ^ 2 / 8 * / velocity g) by (field; lra).
    apply Rmult_le_compat_r; [left; apply Rinv_0_lt_compat, Pv|]. eapply Rle_trans; [exact TM|]. unfold Rdiv. apply Rmult_le_compat_r; [lra|]. apply Rmult_le_compat_l; assumption. }
  assert (B2 : Rabs (mu P m / dx P i * (E1 - E0 - dx P i * d)) <= h ^ 2 * (Rabs (mu P m) * X3 / 24)).
  { rewrite Rabs_mult. unfold Rdiv at 1. rewrite Rabs_mult, (Rabs_right (/ dx P i)) by (left; apply Rlt_gt, Rinv_0_lt_compat, Pdx).
    eapply Rle_trans; [apply Rmult_le_compat_l; [|exact T3]|].
    - apply Rmult_le_pos; [apply Rabs_pos|left; apply Rinv_0_lt_compat, Pdx].
    - replace (Rabs (mu P m) * / dx P i * (X3 * dx P i ^ 3 / 24)) with (dx P i ^ 2 * (Rabs (mu P m) * X3 / 24)) by (field; lra).
      apply Rmult_le_compat_r; [|exact SQ]. unfold Rdiv. apply Rmult_le_pos; [apply Rmult_le_pos; [apply Rabs_pos|assumption]|lra]. }
  assert (B3 : Rabs (xs_total (medium P i) g * (pm - pc)) <= xs_total (medium P i) g * (X2 * h ^ 2 / 8)).
  { rewrite Rabs_mult, (Rabs_right (xs_total (medium P i) g)) by lra. apply Rmult_le_compat_l; assumption. }
  unfold space_defect. eapply Rle_trans; [apply Rabs_triang|]. eapply Rle_trans; [apply Rplus_le_compat; [apply Rabs_triang|exact SB]|].
  eapply Rle_trans; [apply Rplus_le_compat_r, Rplus_le_compat; [apply Rabs_triang|exact B3]|].
  replace (h ^ 2 * (X2t / (8 * velocity g) + Rabs (mu P m) * X3 / 24 + 3 * xs_total (medium P i) g * X2 / 8))
    with (h ^ 2 * (X2t / (8 * velocity g)) + h ^ 2 * (Rabs (mu P m) * X3 / 24) + xs_total (medium P i) g * (X2 * h ^ 2 / 8) + 2 * xs_total (medium P i) g * (X2 * h ^ 2 / 8)) by (field; lra).
  lra.
Qed.

Lemma mean_equation ext bnd t : t0 <= t <= t1 ->
  (forall i m g, (i < cells P)%nat -> (m < angles P)%nat -> (g < G)%nat ->
     at3 ext i (bidx (d3b ext) m) (bidx (d3c ext) g) = at3 (source t) i (bidx (d3b (source t)) m) (bidx (d3c (source t)) g)) ->
  (forall m g, (m < angles P)%nat -> (g < G)%nat -> mg_boundary bnd (mu P) g m = mg_boundary (inflow t) (mu P) g m) ->
  exists E, step_equation P G velocity xs_total transfer
    (full3 P G (fun i m g => at3 ext i (bidx (d3b ext) m) (bidx (d3c ext) g) + defect t i m g)) bnd
    (edge_mean slope t) (scalar_flux P (edge_mean psi t)) E (edge_mean psi t).
Proof.
  intros Ht HE HB. exists (fun g m => edge_value P x (fun i y => psi g m i y t)). intros g m Hg Hm. split.
  - intros i Hi. destruct (edges_at i m g t Hi Hm Hg Ht) as (E0 & E1). split; [rewrite E0, E1; reflexivity|].
    rewrite full3_at by assumption. rewrite (HE i m g Hi Hm Hg). unfold defect. ring.
  - rewrite (reflected_any P (fun m => edge_value P x (fun i y => psi g m i y t)) m HP HO Hm), (HB m g Hm Hg).
    destruct HS as (_ & _ & _ & _ & H5). specialize (H5 g m t Hg Hm Ht). cbv zeta in H5. rewrite Rplus_comm. exact H5.
Qed.
End Space.

Lemma space_time_accurate two P G velocity dt xs_total transfer ext bnd steps psi emit source inflow x t0 h X2 X3 X2t M2 M3 flux slope :
  sound_slab P -> no_multiplication P G xs_total transfer -> (forall g, (g < G)%nat -> 0 < velocity g) -> 0 < dt -> 0 <= X2 -> 0 <= M2 -> 0 <= M3 ->
  ordered_for (angles P) (mu P) (bc_left P) (bc_right P) -> cell_edges P x -> (forall i, (i < cells P)%nat -> dx P i <= h) ->
  time_history two P G velocity dt xs_total transfer ext bnd steps psi emit ->
  source_rows P G t0 dt steps ext source -> inflow_rows P G t0 dt steps bnd inflow ->
  transport_solution two P G velocity xs_total transfer source inflow x t0 (time_at t0 dt steps) X2 X3 X2t M2 M3 flux slope ->
  forall k, (k <= steps)%nat ->
  density_norm P G velocity (minus3 (psi k) (at_centres x flux (time_at t0 dt k))) <=
    (if two then sqrt 2 else 1) * density_norm P G velocity (minus3 (psi 0%nat) (at_centres x flux t0))
    + time_error two dt (INR k * dt) M2 M3 * density_norm P G velocity unit_flux
    + h ^ 2 * ((1 + if two then sqrt 2 else 1) * X2 / 8 * density_norm P G velocity unit_flux
               + (if two then 6 else 1) * (INR k * dt) * source_norm P G velocity (space_defect P velocity xs_total X2 X3 X2t))
    + (if two then 6 else 1) * dt * rsum k (fun j => source_norm P G velocity (unresolved P G transfer (emit j) (psi (S j)))).
Proof.
  intros HP HM HV Hdt PX2 PM2 PM3 HO HX Hh HH HR HI HS k Hk. set (t1 := time_at t0 dt steps) in *.
  assert (IN : forall j, (j <= steps)%nat -> t0 <= time_at t0 dt j <= t1).
  { intros j Hj. pose proof (time_at_le t0 dt 0 j ltac:(lra) ltac:(lia)) as L. rewrite time_at_0 in L. split; [exact L|]. apply time_at_le; [lra|exact Hj]. }
  pose proof (accurate two P G velocity dt xs_total transfer ext bnd steps psi emit t0 M2 M3 (edge_mean x flux) (edge_mean x slope)
    (fun j => defect P G velocity xs_total transfer source x flux slope (time_at t0 dt (S j))) HP HM HV Hdt PM2 PM3 HH) as A. cbv beta in A.
  fold t1 in A. specialize (A (mean_smooth two P G velocity xs_total transfer source inflow x t0 t1 X2 X3 X2t M2 M3 flux slope HP HX HS)).
  assert (B : forall j, (j < steps)%nat -> exists E, step_equation P G velocity xs_total transfer
    (full3 P G (fun i m g => at3 (ext j) i (bidx (d3b (ext j)) m) (bidx (d3c (ext j)) g) + defect P G velocity xs_total transfer source x flux slope (time_at t0 dt (S j)) i m g)) (bnd j)
    (edge_mean x slope (time_at t0 dt (S j))) (scalar_flux P (edge_mean x flux (time_at t0 dt (S j)))) E (edge_mean x flux (time_at t0 dt (S j)))).
  { intros j Hj. apply (mean_equation two P G velocity xs_total transfer source inflow x t0 t1 X2 X3 X2t M2 M3 flux slope HP HO HS);
      [apply IN; lia|intros; apply HR; assumption|intros; apply HI; assumption]. }
  specialize (A B k Hk). clear B.
  set (D := density_norm P G velocity unit_flux) in *. assert (PD : 0 <= D) by apply norm_nonneg.
  set (B := X2 * h ^ 2 / 8). assert (PB : 0 <= B). { unfold B, Rdiv. pose proof (pow2_ge_0 h). apply Rmult_le_pos; [apply Rmult_le_pos; assumption|lra]. }
  assert (NEAR : forall j, (j <= steps)%nat -> density_norm P G velocity (minus3 (edge_mean x flux (time_at t0 dt j)) (at_centres x flux (time_at t0 dt j))) <= B * D).
  { intros j Hj. unfold D. rewrite <- (density_scal P G velocity) by exact PB. apply density_le; [exact HP|exact HV|].
    intros i m g Hi Hm Hg. unfold unit_flux. rewrite Rmult_1_r. unfold minus3.
    destruct (mean_centre two P G velocity xs_total transfer source inflow x t0 t1 X2 X3 X2t M2 M3 h flux slope HP HX Hh HS i m g (time_at t0 dt j) Hi Hm Hg (IN j Hj)) as (_ & C). exact C. }
  assert (TRI1 : density_norm P G velocity (minus3 (psi k) (at_centres x flux (time_at t0 dt k))) <=
    density_norm P G velocity (minus3 (psi k) (edge_mean x flux (time_at t0 dt k))) + B * D).
  { eapply Rle_trans; [|apply Rplus_le_compat_l; apply (NEAR k Hk)]. eapply Rle_trans; [|apply density_plus; assumption].
    apply Req_le, density_ext; intros. unfold minus3. ring. }
  assert (TRI0 : density_norm P G velocity (minus3 (psi 0%nat) (edge_mean x flux t0)) <=
    density_norm P G velocity (minus3 (psi 0%nat) (at_centres x flux t0)) + B * D).
  { pose proof (NEAR 0%nat ltac:(lia)) as N0. rewrite time_at_0 in N0. eapply Rle_trans; [|apply Rplus_le_compat_l; exact N0].
    rewrite (density_ext P G velocity (minus3 (psi 0%nat) (edge_mean x flux t0)) (fun i m g => minus3 (psi 0%nat) (at_centres x flux t0) i m g + - minus3 (edge_mean x flux t0) (at_centres x flux t0) i m g))
      by (intros; unfold minus3; ring).
    eapply Rle_trans; [apply density_plus; assumption|]. apply Rplus_le_compat_l, Req_le. unfold density_norm. f_equal. apply total3_ext; intros.
    unfold minus3. rewrite <- Rsqr_neg. reflexivity. }
  set (Z := source_norm P G velocity (space_defect P velocity xs_total X2 X3 X2t)).
  assert (SUM : rsum k (fun j => source_norm P G velocity (defect P G velocity xs_total transfer source x flux slope (time_at t0 dt (S j)))
      + source_norm P G velocity (unresolved P G transfer (emit j) (psi (S j)))) <=
      INR k * (h ^ 2 * Z) + rsum k (fun j => source_norm P G velocity (unresolved P G transfer (emit j) (psi (S j))))).
  { rewrite rsum_plus. apply Rplus_le_compat_r. rewrite <- rsum_const. apply rsum_le. intros j Hj. unfold Z.
    rewrite <- source_scal by (try exact HV; apply pow2_ge_0). apply source_le; [exact HP|exact HV|]. intros i m g Hi Hm Hg.
    apply (defect_bound two P G velocity xs_total transfer source inflow x t0 t1 X2 X3 X2t M2 M3 h flux slope); try assumption. apply IN. lia. }
  set (U := rsum k (fun j => source_norm P G velocity (unresolved P G transfer (emit j) (psi (S j))))) in *.
  set (c1 := if two then sqrt 2 else 1) in *. set (c2 := if two then 6 else 1) in *.
  assert (P1 : 0 <= c1) by (unfold c1; destruct two; [apply sqrt_pos|lra]). assert (P2 : 0 <= c2) by (unfold c2; destruct two; lra).
  apply (Rmult_le_compat_l c1) in TRI0; [|exact P1]. apply (Rmult_le_compat_l (c2 * dt)) in SUM; [|apply Rmult_le_pos; lra].
  replace (h ^ 2 * ((1 + c1) * X2 / 8 * D + c2 * (INR k * dt) * Z)) with (B * D + c1 * (B * D) + c2 * dt * (INR k * (h ^ 2 * Z))) by (unfold B; field).
  rewrite Rmult_plus_distr_l in TRI0, SUM. lra.
Qed.

Lemma run_space_time two P materials groups start xs_total s f velocity external boundary steps dt ft :
  sound_slab P -> no_multiplication P groups xs_total (total_transfer s f) -> angles P <> 1%nat ->
  (forall i, (i < cells P)%nat -> (medium P i < materials)%nat) ->
  (forall g, (g < groups)%nat -> 0 < velocity g) -> 0 < dt ->
  timed_run two P materials groups start xs_total (Scatter3 s) f velocity external boundary steps dt 1 = Ok ft ->
  exists psi : nat -> mat3, psi 0%nat = start /\
    time_history two P groups velocity dt xs_total (total_transfer s f) (step_row external) (step_row boundary) steps psi ft /\
    forall source inflow x t0 h X2 X3 X2t M2 M3 flux slope, 0 <= X2 -> 0 <= M2 -> 0 <= M3 ->
      ordered_for (angles P) (mu P) (bc_left P) (bc_right P) -> cell_edges P x -> (forall i, (i < cells P)%nat -> dx P i <= h) ->
      source_rows P groups t0 dt steps (step_row external) source -> inflow_rows P groups t0 dt steps (step_row boundary) inflow ->
      transport_solution two P groups velocity xs_total (total_transfer s f) source inflow x t0 (time_at t0 dt steps) X2 X3 X2t M2 M3 flux slope ->
      forall k, (k <= steps)%nat ->
      density_norm P groups velocity (minus3 (psi k) (at_centres x flux (time_at t0 dt k))) <=
        (if two then sqrt 2 else 1) * density_norm P groups velocity (minus3 start (at_centres x flux t0))
        + time_error two dt (INR k * dt) M2 M3 * density_norm P groups velocity unit_flux
        + h ^ 2 * ((1 + if two then sqrt 2 else 1) * X2 / 8 * density_norm P groups velocity unit_flux
                   + (if two then 6 else 1) * (INR k * dt) * source_norm P groups velocity (space_defect P velocity xs_total X2 X3 X2t))
        + (if two then 6 else 1) * dt * rsum k (fun j => source_norm P groups velocity (unresolved P groups (total_transfer s f) (ft j) (psi (S j)))).
Proof.
  intros HP HM Ha Hmed HV Hdt E.
  destruct (run_history two P materials groups start xs_total s f velocity external boundary steps dt ft HP HM Ha Hmed HV Hdt E) as (psi & H0 & H).
  exists psi. split; [exact H0|]. split; [exact H|]. intros source inflow x t0 h X2 X3 X2t M2 M3 flux slope PX2 P2 P3 HO HX Hh HR HI HS k Hk.
  rewrite <- H0 at 1. eapply space_time_accurate; eassumption.
Qed.
