(** The two manufactured time-dependent problems, run by the solvers. *)
From Coq Require Import Lra Lia Psatz.
From Verif Require Import Base BaseFacts SlabModel SlabSpec MgModel MgSpec MgFacts2 TimeModel TimeSpec TimeFacts TimeFacts2 TimeFacts3 ManModel ManSpec ManFacts ConvSpec.
From Verif Require Import EnSpec OrdSpec OrdFacts OrdFacts2 OrdFacts6.
Open Scope R_scope.

Lemma bidx_full n m : (m < n)%nat -> bidx n m = m.
Proof. intros H. unfold bidx. destruct (Nat.eqb_spec n 1); [lia|reflexivity]. Qed.

(** a combination of a sine and a cosine of the same angle *)
Lemma wave_bound a b u B : Rabs a + Rabs b <= B -> Rabs (a * sin u + b * cos u) <= B.
Proof.
  intros H. eapply Rle_trans; [apply Rabs_triang|]. rewrite !Rabs_mult.
  assert (S : Rabs (sin u) <= 1) by (apply Rabs_le; pose proof (SIN_bound u); lra).
  assert (C : Rabs (cos u) <= 1) by (apply Rabs_le; pose proof (COS_bound u); lra).
  pose proof (Rabs_pos a). pose proof (Rabs_pos b). pose proof (Rabs_pos (sin u)). pose proof (Rabs_pos (cos u)). nra.
Qed.

Lemma abs_minus_le a b : Rabs (a - b) <= Rabs a + Rabs b.
Proof. unfold Rminus. eapply Rle_trans; [apply Rabs_triang|]. rewrite Rabs_Ropp. apply Rle_refl. Qed.
Lemma hump y : 0 <= y <= 2 -> Rabs (- y * (y - 2)) <= 1 /\ Rabs (2 - 2 * y) <= 2.
Proof.
  intros H. assert (A : 0 <= y * (2 - y)) by (apply Rmult_le_pos; lra). pose proof (Rle_0_sqr (y - 1)) as B. unfold Rsqr in B.
  split; apply Rabs_le; lra. Qed.

Section Td01.
Let p (t y mu : R) := (- y) * (y - 2) * sin (y - 1 / 10 * t) + 2.
Let pt (t y mu : R) := - (1 / 10) * (- y * (y - 2)) * cos (y - 1 / 10 * t).

Lemma td01_space t (mu : R) : smooth_cell 0 2 7 13 (fun y => p t y mu).
Proof.
  exists (fun y => (2 - 2 * y) * sin (y - 1 / 10 * t) + - y * (y - 2) * cos (y - 1 / 10 * t)),
    (fun y => (- 2 - - y * (y - 2)) * sin (y - 1 / 10 * t) + 2 * (2 - 2 * y) * cos (y - 1 / 10 * t)),
    (fun y => - 3 * (2 - 2 * y) * sin (y - 1 / 10 * t) + (- 6 - - y * (y - 2)) * cos (y - 1 / 10 * t)).
  intros y Hy. destruct (hump y Hy) as (A & B). pose proof (hump y Hy). split; [|split; [|split; [|split]]].
  - unfold p. eassert (D : derivable_pt_lim (fun y => (- y) * (y - 2) * sin (y - 1 / 10 * t) + 2) y _) by dauto. by_derivative D. ring.
  - eassert (D : derivable_pt_lim (fun y => (2 - 2 * y) * sin (y - 1 / 10 * t) + - y * (y - 2) * cos (y - 1 / 10 * t)) y _) by dauto. by_derivative D. ring.
  - eassert (D : derivable_pt_lim (fun y => (- 2 - - y * (y - 2)) * sin (y - 1 / 10 * t) + 2 * (2 - 2 * y) * cos (y - 1 / 10 * t)) y _) by dauto. by_derivative D. ring.
  - apply wave_bound. pose proof (abs_minus_le (-2) (- y * (y - 2))) as Q. rewrite Rabs_mult, (Rabs_pos_eq 2) by lra.
    rewrite (Rabs_left (-2)) in Q by lra. lra.
  - apply wave_bound. pose proof (abs_minus_le (-6) (- y * (y - 2))) as Q. rewrite Rabs_mult, (Rabs_left (- 3)) by lra.
    rewrite (Rabs_left (-6)) in Q by lra. lra.
Qed.

Lemma td01_slope t (mu : R) : exists s1, twice_smooth 0 2 (7 / 10) (fun y => pt t y mu) s1.
Proof.
  exists (fun y => - (1 / 10) * ((2 - 2 * y) * cos (y - 1 / 10 * t) - - y * (y - 2) * sin (y - 1 / 10 * t))),
    (fun y => (1 / 10) * (2 * (2 - 2 * y)) * sin (y - 1 / 10 * t) + - (1 / 10) * (- 2 - - y * (y - 2)) * cos (y - 1 / 10 * t)).
  intros y Hy. destruct (hump y Hy) as (A & B). split; [|split].
  - unfold pt. eassert (D : derivable_pt_lim (fun y => - (1 / 10) * (- y * (y - 2)) * cos (y - 1 / 10 * t)) y _) by dauto. by_derivative D. field.
  - eassert (D : derivable_pt_lim (fun y => - (1 / 10) * ((2 - 2 * y) * cos (y - 1 / 10 * t) - - y * (y - 2) * sin (y - 1 / 10 * t))) y _) by dauto. by_derivative D. field.
  - apply wave_bound. rewrite !Rabs_mult, (Rabs_left (- (1 / 10))), (Rabs_pos_eq (1 / 10)), (Rabs_pos_eq 2) by lra.
    pose proof (abs_minus_le (-2) (- y * (y - 2))) as Q. rewrite (Rabs_left (-2)) in Q by lra.
    lra.
Qed.

Lemma td01_time y (mu : R) t1 : 0 <= y <= 2 -> thrice_smooth 0 t1 (1 / 100) (1 / 1000) (fun t => p t y mu) (fun t => pt t y mu).
Proof.
  intros Hy. destruct (hump y Hy) as (A & B).
  exists (fun t => - (1 / 100) * (- y * (y - 2)) * sin (y - 1 / 10 * t) + 0 * cos (y - 1 / 10 * t)),
    (fun t => 0 * sin (y - 1 / 10 * t) + 1 / 1000 * (- y * (y - 2)) * cos (y - 1 / 10 * t)).
  intros t _. split; [|split; [|split; [|split]]].
  - unfold p, pt. eassert (D : derivable_pt_lim (fun t => (- y) * (y - 2) * sin (y - 1 / 10 * t) + 2) t _) by dauto. by_derivative D. field.
  - unfold pt. eassert (D : derivable_pt_lim (fun t => - (1 / 10) * (- y * (y - 2)) * cos (y - 1 / 10 * t)) t _) by dauto. by_derivative D. field.
  - eassert (D : derivable_pt_lim (fun t => - (1 / 100) * (- y * (y - 2)) * sin (y - 1 / 10 * t) + 0 * cos (y - 1 / 10 * t)) t _) by dauto. by_derivative D. field.
  - apply wave_bound. rewrite Rabs_mult, Rabs_R0, (Rabs_left (- (1 / 100))) by lra. lra.
  - apply wave_bound. rewrite Rabs_mult, Rabs_R0, (Rabs_pos_eq (1 / 1000)) by lra. lra.
Qed.
End Td01.

Lemma td_01_run two P materials x h steps dt :
  sound_slab P -> meshes P x 0 2 -> angles P <> 1%nat -> (forall i, (i < cells P)%nat -> (medium P i < materials)%nat) ->
  (forall m, (m < angles P)%nat -> Rabs (mu P m) <= 1) -> (forall i, (i < cells P)%nat -> dx P i <= h) -> 0 < dt ->
  exists ft,
  timed_run two P materials 1
    (fun i m _ => solution_td_01 (cells P) (centre x) (angles P) (mu P) 1 (fun _ => 0) 0%nat i m)
    (fun _ _ => 1) (Scatter3 (fun _ _ _ => 0)) (FissionMatrix (fun _ _ _ => 0)) (fun _ => 1)
    (mkArr4 steps (angles P) 1 (fun k i m _ => external_td_01 (cells P) (centre x) (angles P) (mu P) (S steps) (time_at 0 dt) (S k) i m))
    (mkArr4 1 1 1 (fun _ _ _ _ => 2)) steps dt 1 = Ok ft /\
  forall k, (k < steps)%nat ->
    sqrt (rsum (cells P) (fun i => dx P i * Rsqr (ft k i 0%nat
      - quadrature P (solution_td_01 (cells P) (centre x) (angles P) (mu P) (S steps) (time_at 0 dt) (S k)) i)))
    <= rsum (angles P) (wt P) * sqrt 2 *
       (time_error two dt (INR (S k) * dt) (1 / 100) (1 / 1000)
        + h ^ 2 * ((1 + if two then sqrt 2 else 1) * 7 / 8 + (if two then 6 else 1) * (INR (S k) * dt) * (33 / 10))).
Proof.
  intros HP HB Ha Hmed Hmu Hh Hdt. pose proof HB as (E & E0 & EL & BL & BR).
  set (p := fun t y (mu : R) => (- y) * (y - 2) * sin (y - 1 / 10 * t) + 2).
  set (pt := fun t y (mu : R) => - (1 / 10) * (- y * (y - 2)) * cos (y - 1 / 10 * t)).
  set (q := fun t y mu => 2 + y * (-0.2 - y * (-0.1 + mu) + 2 * mu) * cos (0.1 * t - y) + ((-2 + y) * y + 2 * (y - 1) * mu) * sin (0.1 * t - y)).
  assert (TENTH : 0.1 = 1 / 10) by lra.
  pose proof (manufactured_accurate two P materials steps x 2 h dt p pt q 7 13 (7 / 10) (1 / 100) (1 / 1000) (33 / 10)
    (fun i m _ => solution_td_01 (cells P) (centre x) (angles P) (mu P) 1 (fun _ => 0) 0%nat i m)
    (mkArr4 steps (angles P) 1 (fun k i m _ => external_td_01 (cells P) (centre x) (angles P) (mu P) (S steps) (time_at 0 dt) (S k) i m))
    (mkArr4 1 1 1 (fun _ _ _ _ => 2)) HP HB Ha Hmed Hmu Hh Hdt) as A.
  destruct A as (ft & R & A); try lra.
  - intros t m. exact (td01_space t m).
  - intros t m. exact (td01_slope t m).
  - intros y m t1 Hy. exact (td01_time y m t1 Hy).
  - intros t y m. exists ((2 - 2 * y) * sin (y - 1 / 10 * t) - y * (y - 2) * cos (y - 1 / 10 * t)). split.
    + unfold p. eassert (D : derivable_pt_lim (fun y => (- y) * (y - 2) * sin (y - 1 / 10 * t) + 2) y _) by dauto. by_derivative D. ring.
    + unfold p, pt, q. rewrite TENTH. replace (1 / 10 * t - y) with (- (y - 1 / 10 * t)) by ring. rewrite cos_neg, sin_neg. replace (-0.2) with (- (2 / 10)) by lra. replace (-0.1) with (- (1 / 10)) by lra. field.
  - right. apply Nat.le_refl.
  - split; [right|left]; reflexivity.
  - left; reflexivity.
  - intros k i m Hk Hi Hm. unfold step_row. cbn [at3 d4a d4b d4c at4]. rewrite !bidx_full by assumption.
    unfold external_td_01. rewrite fill_times_at by (assumption || lia). reflexivity.
  - intros k m Hk Hm. unfold mg_boundary, step_row. cbn [at3 at4]. unfold p. destruct (Rlt_dec 0 (mu P m)); ring.
  - intros i m Hi Hm. unfold solution_td_01. rewrite fill_times_at by (assumption || lia). unfold p. rewrite TENTH. reflexivity.
  - exists ft. split; [exact R|]. intros k Hk. eapply Rle_trans; [|exact (A k Hk)]. right. f_equal. apply rsum_ext. intros i Hi. f_equal. f_equal. f_equal.
    unfold quadrature. apply rsum_ext. intros m Hm. unfold solution_td_01. rewrite fill_times_at by (assumption || lia). unfold p. rewrite TENTH. reflexivity.
Qed.

Section Td02.
Let p (t y mu : R) := 1 + sin (y - 1 / 2 * t) + cos mu.
Let pt (t y mu : R) := - (1 / 2) * cos (y - 1 / 2 * t).

Lemma td02_space t mu : smooth_cell 0 PI 1 1 (fun y => p t y mu).
Proof.
  exists (fun y => cos (y - 1 / 2 * t)), (fun y => -1 * sin (y - 1 / 2 * t) + 0 * cos (y - 1 / 2 * t)), (fun y => 0 * sin (y - 1 / 2 * t) + -1 * cos (y - 1 / 2 * t)).
  intros y Hy. split; [|split; [|split; [|split]]].
  - unfold p. eassert (D : derivable_pt_lim (fun y => 1 + sin (y - 1 / 2 * t) + cos mu) y _) by dauto. by_derivative D. ring.
  - eassert (D : derivable_pt_lim (fun y => cos (y - 1 / 2 * t)) y _) by dauto. by_derivative D. ring.
  - eassert (D : derivable_pt_lim (fun y => -1 * sin (y - 1 / 2 * t) + 0 * cos (y - 1 / 2 * t)) y _) by dauto. by_derivative D. ring.
  - apply wave_bound. rewrite Rabs_R0, (Rabs_left (-1)) by lra. lra.
  - apply wave_bound. rewrite Rabs_R0, (Rabs_left (-1)) by lra. lra.
Qed.

Lemma td02_slope t (mu : R) : exists s1, twice_smooth 0 PI (1 / 2) (fun y => pt t y mu) s1.
Proof.
  exists (fun y => 1 / 2 * sin (y - 1 / 2 * t)), (fun y => 0 * sin (y - 1 / 2 * t) + 1 / 2 * cos (y - 1 / 2 * t)).
  intros y Hy. split; [|split].
  - unfold pt. eassert (D : derivable_pt_lim (fun y => - (1 / 2) * cos (y - 1 / 2 * t)) y _) by dauto. by_derivative D. field.
  - eassert (D : derivable_pt_lim (fun y => 1 / 2 * sin (y - 1 / 2 * t)) y _) by dauto. by_derivative D. field.
  - apply wave_bound. rewrite Rabs_R0, Rabs_pos_eq by lra. lra.
Qed.

Lemma td02_time y mu t1 : thrice_smooth 0 t1 (1 / 4) (1 / 8) (fun t => p t y mu) (fun t => pt t y mu).
Proof.
  exists (fun t => - (1 / 4) * sin (y - 1 / 2 * t) + 0 * cos (y - 1 / 2 * t)), (fun t => 0 * sin (y - 1 / 2 * t) + 1 / 8 * cos (y - 1 / 2 * t)).
  intros t _. split; [|split; [|split; [|split]]].
  - unfold p, pt. eassert (D : derivable_pt_lim (fun t => 1 + sin (y - 1 / 2 * t) + cos mu) t _) by dauto. by_derivative D. field.
  - unfold pt. eassert (D : derivable_pt_lim (fun t => - (1 / 2) * cos (y - 1 / 2 * t)) t _) by dauto. by_derivative D. field.
  - eassert (D : derivable_pt_lim (fun t => - (1 / 4) * sin (y - 1 / 2 * t) + 0 * cos (y - 1 / 2 * t)) t _) by dauto. by_derivative D. field.
  - apply wave_bound. rewrite Rabs_R0, (Rabs_left (- (1 / 4))) by lra. lra.
  - apply wave_bound. rewrite Rabs_R0, (Rabs_pos_eq (1 / 8)) by lra. lra.
Qed.
End Td02.

Lemma td_02_run two P materials x h steps dt :
  sound_slab P -> meshes P x 0 PI -> angles P <> 1%nat -> (forall i, (i < cells P)%nat -> (medium P i < materials)%nat) ->
  (forall m, (m < angles P)%nat -> Rabs (mu P m) <= 1) -> (forall i, (i < cells P)%nat -> dx P i <= h) -> 0 < dt ->
  exists ft,
  timed_run two P materials 1
    (fun i m _ => solution_td_02 (cells P) (centre x) (angles P) (mu P) 1 (fun _ => 0) 0%nat i m)
    (fun _ _ => 1) (Scatter3 (fun _ _ _ => 0)) (FissionMatrix (fun _ _ _ => 0)) (fun _ => 1)
    (mkArr4 steps (angles P) 1 (fun k i m _ => external_td_02 (cells P) (centre x) (angles P) (mu P) (S steps) (time_at 0 dt) (S k) i m))
    (mkArr4 steps (angles P) 1 (fun k side m _ => boundary_td_02 (angles P) (mu P) (S steps) (time_at 0 dt) (S k) side m)) steps dt 1 = Ok ft /\
  forall k, (k < steps)%nat ->
    sqrt (rsum (cells P) (fun i => dx P i * Rsqr (ft k i 0%nat
      - quadrature P (solution_td_02 (cells P) (centre x) (angles P) (mu P) (S steps) (time_at 0 dt) (S k)) i)))
    <= rsum (angles P) (wt P) * sqrt PI *
       (time_error two dt (INR (S k) * dt) (1 / 4) (1 / 8)
        + h ^ 2 * ((1 + if two then sqrt 2 else 1) * 1 / 8 + (if two then 6 else 1) * (INR (S k) * dt) * (1 / 2))).
Proof.
  intros HP HB Ha Hmed Hmu Hh Hdt. pose proof HB as (E & E0 & EL & BL & BR).
  set (p := fun t y (mu : R) => 1 + sin (y - 1 / 2 * t) + cos mu).
  set (pt := fun t y (mu : R) => - (1 / 2) * cos (y - 1 / 2 * t)).
  set (q := fun t y mu => 1 + (mu - 0.5) * cos (0.5 * t - y) + cos mu - sin (0.5 * t - y)).
  assert (HALF : 0.5 = 1 / 2) by lra. pose proof PI_RGT_0 as PP.
  pose proof (manufactured_accurate two P materials steps x PI h dt p pt q 1 1 (1 / 2) (1 / 4) (1 / 8) (1 / 2)
    (fun i m _ => solution_td_02 (cells P) (centre x) (angles P) (mu P) 1 (fun _ => 0) 0%nat i m)
    (mkArr4 steps (angles P) 1 (fun k i m _ => external_td_02 (cells P) (centre x) (angles P) (mu P) (S steps) (time_at 0 dt) (S k) i m))
    (mkArr4 steps (angles P) 1 (fun k side m _ => boundary_td_02 (angles P) (mu P) (S steps) (time_at 0 dt) (S k) side m)) HP HB Ha Hmed Hmu Hh Hdt) as A.
  destruct A as (ft & R & A); try lra.
  - intros t m. exact (td02_space t m).
  - intros t m. exact (td02_slope t m).
  - intros y m t1 _. exact (td02_time y m t1).
  - intros t y m. exists (cos (y - 1 / 2 * t)). split.
    + unfold p. eassert (D : derivable_pt_lim (fun y => 1 + sin (y - 1 / 2 * t) + cos m) y _) by dauto. by_derivative D. ring.
    + unfold p, pt, q. rewrite HALF. replace (1 / 2 * t - y) with (- (y - 1 / 2 * t)) by ring. rewrite cos_neg, sin_neg. field.
  - right. apply Nat.le_refl.
  - split; [right|left]; reflexivity.
  - right. apply Nat.le_refl.
  - intros k i m Hk Hi Hm. unfold step_row. cbn [at3 d4a d4b d4c at4]. rewrite !bidx_full by assumption.
    unfold external_td_02. rewrite fill_times_at by (assumption || lia). reflexivity.
  - intros k m Hk Hm. unfold mg_boundary, step_row. cbn [at3 d3b d3c d4a d4b d4c at4]. rewrite !bidx_full by assumption.
    destruct (boundary_td_02_at (angles P) (mu P) (S steps) (time_at 0 dt) (S k) m ltac:(lia) Hm) as (B0 & B1).
    destruct (Rlt_dec 0 (mu P m)); [rewrite B0|rewrite B1]; unfold p; rewrite HALF; reflexivity.
  - intros i m Hi Hm. unfold solution_td_02. rewrite fill_times_at by (assumption || lia). unfold p. rewrite HALF. reflexivity.
  - exists ft. split; [exact R|]. intros k Hk. eapply Rle_trans; [|exact (A k Hk)]. right. f_equal. apply rsum_ext. intros i Hi. f_equal. f_equal. f_equal.
    unfold quadrature. apply rsum_ext. intros m Hm. unfold solution_td_02. rewrite fill_times_at by (assumption || lia). unfold p. rewrite HALF. reflexivity.
Qed.
