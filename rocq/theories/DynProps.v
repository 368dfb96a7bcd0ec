(** C132-C134: the long-time behaviour of time-dependent slabs. *)
From Coq Require Import Lra Lia FunctionalExtensionality.
From Verif Require Import Base BaseFacts SlabModel SlabSpec MgModel MgSpec SupSpec TimeModel TimeSpec TimeFacts3 SlabWitness EnSpec CritModel CritSpec.
From Verif Require Import DynSpec DynFacts DynFacts2 DynFacts3 DynFacts4 DynFacts5 DynFacts6 DynFacts7 DynWitness.
Open Scope R_scope.

(** ** C132 Below criticality a backward Euler run forgets its start *)
Theorem C132_forgets :
  forall (P : sn) (G : nat) (velocity : vec) (T : mat2) (X : mat3),
    positive_sweeps P G T ->
    0 < rsum (angles P) (wt P) ->
    (forall i g h : nat, (i < cells P)%nat -> (g < G)%nat -> (h < G)%nat -> 0 <= X (medium P i) g h) ->
    (forall g : nat, (g < G)%nat -> 0 < velocity g) ->
    forall (c : R) (p : mat2),
    0 <= c < 1 ->
    damping P G T X c p ->
    exists K a : R,
      1 <= K /\
      0 < a /\
      (forall (dt : R) (ext ext' bnd : nat -> arr3) (steps : nat) (psi psi' : nat -> mat3)
         (emit emit' : nat -> mat2) (d r : R),
       0 < dt ->
       positive_sweeps P G (effective_total 1 T velocity dt) ->
       0 <= d ->
       0 <= r ->
       time_history false P G velocity dt T X ext bnd steps psi emit ->
       time_history false P G velocity dt T X ext' bnd steps psi' emit' ->
       within3 P G d (psi 0%nat) (psi' 0%nat) ->
       (forall j : nat,
        (j < steps)%nat ->
        within3 P G r (step_input P G X (ext j) (emit j) (psi (S j)))
          (step_input P G X (ext' j) (emit' j) (psi' (S j)))) ->
       forall k : nat, (k <= steps)%nat -> within3 P G (K * (d / (1 + a * dt) ^ k + r)) (psi k) (psi' k)).
Proof. exact @forgets. Qed.
Print Assumptions C132_forgets.
Theorem C132_relaxes :
  forall P G velocity T X c p,
  positive_sweeps P G T -> sound_slab P -> 0 < rsum (angles P) (wt P) ->
  (forall i g h, (i < cells P)%nat -> (g < G)%nat -> (h < G)%nat -> 0 <= X (medium P i) g h) -> (forall g, (g < G)%nat -> 0 < velocity g) ->
  0 <= c < 1 -> damping P G T X c p -> exists K a, 1 <= K /\ 0 < a /\
  forall ext bnd, exists A,
    angular_flux_of P G T (fun i m g => collided P G X (scalar_flux P A) i m g + at3 ext i (bidx (d3b ext) m) (bidx (d3c ext) g)) bnd A /\
    forall dt steps psi d, 0 < dt -> positive_sweeps P G (effective_total 1 T velocity dt) -> 0 <= d ->
      exact_history false P G velocity dt T X (fun _ => ext) (fun _ => bnd) steps psi -> within3 P G d (psi 0%nat) A ->
      forall k, (k <= steps)%nat -> within3 P G (K * (d / (1 + a * dt) ^ k)) (psi k) A.
Proof. exact relaxes. Qed.
Print Assumptions C132_relaxes.
Theorem C132_runs :
  forall P G velocity T s f c p,
  positive_sweeps P G T -> 0 < rsum (angles P) (wt P) -> angles P <> 1%nat ->
  (forall i g h, (i < cells P)%nat -> (g < G)%nat -> (h < G)%nat -> 0 <= total_transfer s f (medium P i) g h) -> (forall g, (g < G)%nat -> 0 < velocity g) ->
  0 <= c < 1 -> damping P G T (total_transfer s f) c p -> exists K a, 1 <= K /\ 0 < a /\
  forall materials flux external boundary steps dt ft, 0 < dt -> positive_sweeps P G (effective_total 1 T velocity dt) ->
  (forall i, (i < cells P)%nat -> (medium P i < materials)%nat) ->
  timed_run false P materials G flux T (Scatter3 s) f velocity external boundary steps dt 1 = Ok ft ->
  exists psi, psi 0%nat = flux /\
    time_history false P G velocity dt T (total_transfer s f) (step_row external) (step_row boundary) steps psi ft /\
    forall exact d r, 0 <= d -> 0 <= r -> exact_history false P G velocity dt T (total_transfer s f) (step_row external) (step_row boundary) steps exact ->
      within3 P G d flux (exact 0%nat) ->
      (forall j i g, (j < steps)%nat -> (i < cells P)%nat -> (g < G)%nat ->
         Rabs (rsum G (fun h => total_transfer s f (medium P i) g h * (ft j i h - scalar_flux P (psi (S j)) i h))) <= r) ->
      forall k, (k <= steps)%nat -> within3 P G (K * (d / (1 + a * dt) ^ k + r)) (psi k) (exact k).
Proof. exact run_forgets. Qed.
Print Assumptions C132_runs.
Example C132_case :
  positive_sweeps pit 2 pit_total /\ sound_slab pit /\ 0 < rsum (angles pit) (wt pit) /\ angles pit <> 1%nat /\
  (forall i g h, (i < cells pit)%nat -> (g < 2)%nat -> (h < 2)%nat -> 0 <= total_transfer pit_scatter (pit_fission (1 / 2)) (medium pit i) g h) /\
  (forall g, (g < 2)%nat -> 0 < pit_speed g) /\
  damping pit 2 pit_total (total_transfer pit_scatter (pit_fission (1 / 2))) ((1 + 2 * (1 / 2)) / (2 + 1)) (fun _ _ => 1) /\
  (1 + 2 * (1 / 2)) / (2 + 1) < 1 /\
  (forall dt, 1 <= dt -> positive_sweeps pit 2 (effective_total 1 pit_total pit_speed dt)) /\
  (forall i, (i < cells pit)%nat -> (medium pit i < 1)%nat) /\
  (forall dt, exists ft, timed_run false pit 1 2 pit_start pit_total (Scatter3 pit_scatter) (pit_fission (1 / 2)) pit_speed pit_ext pit_bnd 4 dt 1 = Ok ft).
Proof.
  split; [apply pit_sweeps; intros; unfold pit_total; lra|]. split; [exact pit_sound|]. split; [cbn; lra|]. split; [cbn; lia|].
  split; [intros; apply pit_transfer; try assumption; lra|]. split; [intros; unfold pit_speed; lra|]. split; [apply (pit_damping (1 / 2) 1); lra|]. split; [lra|].
  split; [exact pit_eff|]. split; [intros; cbn; lia|]. intros dt. apply pit_runs.
Qed.

(** ** C133 Below criticality the accuracy of a whole run is set by the stopping rule *)
Theorem C133_run_accurate :
  forall P G velocity T s f c p,
  positive_sweeps P G T -> 0 < rsum (angles P) (wt P) -> angles P <> 1%nat ->
  (forall i g h, (i < cells P)%nat -> (g < G)%nat -> (h < G)%nat -> 0 <= total_transfer s f (medium P i) g h) -> (forall g, (g < G)%nat -> 0 < velocity g) ->
  0 <= c < 1 -> damping P G T (total_transfer s f) c p -> exists K, 0 < K /\
  forall materials flux external boundary steps dt ft M, 0 < dt -> positive_sweeps P G (effective_total 1 T velocity dt) ->
  (forall i, (i < cells P)%nat -> (medium P i < materials)%nat) ->
  timed_run false P materials G flux T (Scatter3 s) f velocity external boundary steps dt 1 = Ok ft ->
  0 <= M -> (forall i g, (i < cells P)%nat -> (g < G)%nat -> Rabs (scalar_flux P flux i g) <= M) ->
  (forall j i g, (j < steps)%nat -> (i < cells P)%nat -> (g < G)%nat -> Rabs (ft j i g) <= M) ->
  (exists exact, exact 0%nat = flux /\ exact_history false P G velocity dt T (total_transfer s f) (step_row external) (step_row boundary) steps exact) /\
  forall exact, exact 0%nat = flux -> exact_history false P G velocity dt T (total_transfer s f) (step_row external) (step_row boundary) steps exact ->
  forall j, (j < steps)%nat -> within2 (cells P) G (K * (stop_error c (cells P) * M)) (ft j) (scalar_flux P (exact (S j))).
Proof. exact run_accurate. Qed.
Print Assumptions C133_run_accurate.
Example C133_case : stop_error (2 / 3) 1 < 1 / 10 ^ 7 /\
  exists ft M, timed_run false pit 1 2 pit_start pit_total (Scatter3 pit_scatter) (pit_fission (1 / 2)) pit_speed pit_ext pit_bnd 4 2 1 = Ok ft /\
  0 <= M /\ (forall i g, (i < cells pit)%nat -> (g < 2)%nat -> Rabs (scalar_flux pit pit_start i g) <= M) /\
  (forall j i g, (j < 4)%nat -> (i < cells pit)%nat -> (g < 2)%nat -> Rabs (ft j i g) <= M).
Proof.
  split.
  - unfold stop_error. cbn [INR]. assert (H : (2 / 3) ^ 100 <= 1 / 10 ^ 9).
    { replace ((2 / 3) ^ 100) with (((2 / 3) ^ 20) ^ 5) by (rewrite <- pow_mult; reflexivity). apply Rle_trans with ((4 / 10 ^ 4) ^ 5); [apply pow_incr; lra|lra]. }
    assert (P0 : 0 <= (2 / 3) ^ 100) by (apply pow_le; lra). revert H P0. generalize ((2 / 3) ^ 100). intros y H P0.
    assert (2 * y / (1 - y) <= 4 * y); [|lra]. apply (Rmult_le_reg_r (1 - y)); [lra|]. unfold Rdiv. rewrite Rmult_assoc, Rinv_l by lra. nra.
  - destruct (pit_runs (1 / 2) 2) as (ft & E).
    set (N := rsum 4 (fun j => rsum 2 (fun g => Rabs (ft j 0%nat g)))).
    assert (N0 : forall j g, (j < 4)%nat -> (g < 2)%nat -> Rabs (ft j 0%nat g) <= N).
    { intros j g Hj Hg. unfold N. eapply Rle_trans; [|apply (rsum_term_le 4 (fun j => rsum 2 (fun g => Rabs (ft j 0%nat g))) j); [|exact Hj]].
      - apply (rsum_term_le 2 (fun g => Rabs (ft j 0%nat g)) g); [|exact Hg]. intros; apply Rabs_pos.
      - intros; apply rsum_nonneg; intros; apply Rabs_pos. }
    pose proof (Rle_trans _ _ _ (Rabs_pos _) (N0 0%nat 0%nat ltac:(lia) ltac:(lia))) as N1.
    exists ft, (2 + N). split; [exact E|]. split; [lra|]. split.
    + intros i g Hi Hg. apply Rle_trans with 2; [|lra]. unfold scalar_flux, pit_start. cbn. rewrite Rabs_right; lra.
    + intros j i g Hj Hi Hg. assert (i = 0)%nat as -> by (cbn in Hi; lia). specialize (N0 j g Hj Hg). lra.
Qed.

(** ** C134 Whether a time-dependent run grows is decided by k *)
Theorem C134_mode_run :
  forall (P : sn) (G : nat) (velocity : vec) (T : mat2) (X : mat3),
    (forall g : nat, (g < G)%nat -> 0 < velocity g) ->
    forall (a : R) (A : mat3) (dt : R) (steps : nat),
    alpha_mode P G velocity T X a A ->
    dt <> 0 ->
    a * dt <> 1 -> free_history P G velocity dt T X steps (fun k i m g : nat => A i m g / (1 - a * dt) ^ k).
Proof. exact @mode_history. Qed.
Print Assumptions C134_mode_run.
Theorem C134_envelope :
  forall (P : sn) (G : nat) (velocity : vec) (T : mat2) (X : mat3),
    (forall g : nat, (g < G)%nat -> 0 < velocity g) ->
    forall dt : R,
    0 < dt ->
    positive_sweeps P G (effective_total 1 T velocity dt) ->
    (forall i g h : nat, (i < cells P)%nat -> (g < G)%nat -> (h < G)%nat -> 0 <= X (medium P i) g h) ->
    0 < rsum (angles P) (wt P) ->
    forall (a : R) (A : mat3) (lo hi : R) (steps : nat) (psi : nat -> mat3),
    alpha_mode P G velocity T X a A ->
    a * dt < 1 ->
    free_history P G velocity dt T X steps psi ->
    (forall i m g : nat,
     (i < cells P)%nat ->
     (m < angles P)%nat -> (g < G)%nat -> lo * A i m g <= psi 0%nat i m g <= hi * A i m g) ->
    forall k i m g : nat,
    (k <= steps)%nat ->
    (i < cells P)%nat ->
    (m < angles P)%nat ->
    (g < G)%nat -> lo * A i m g / (1 - a * dt) ^ k <= psi k i m g <= hi * A i m g / (1 - a * dt) ^ k.
Proof. exact @mode_envelope. Qed.
Print Assumptions C134_envelope.
Theorem C134_runs_exist :
  forall (P : sn) (G : nat) (velocity : vec) (T : mat2) (X : mat3),
    (forall g : nat, (g < G)%nat -> 0 < velocity g) ->
    forall dt : R,
    0 < dt ->
    positive_sweeps P G (effective_total 1 T velocity dt) ->
    (forall i g h : nat, (i < cells P)%nat -> (g < G)%nat -> (h < G)%nat -> 0 <= X (medium P i) g h) ->
    0 < rsum (angles P) (wt P) ->
    forall (a : R) (A flux : mat3) (steps : nat),
    alpha_mode P G velocity T X a A ->
    a * dt < 1 -> exists psi : nat -> mat3, psi 0%nat = flux /\ free_history P G velocity dt T X steps psi.
Proof. exact @mode_runs. Qed.
Print Assumptions C134_runs_exist.
Theorem C134_step_too_long :
  forall (P : sn) (G : nat) (velocity : vec) (T : mat2) (X : mat3),
    (forall g : nat, (g < G)%nat -> 0 < velocity g) ->
    forall dt : R,
    0 < dt ->
    positive_sweeps P G (effective_total 1 T velocity dt) ->
    (forall i g h : nat, (i < cells P)%nat -> (g < G)%nat -> (h < G)%nat -> 0 <= X (medium P i) g h) ->
    0 < rsum (angles P) (wt P) ->
    forall (a : R) (A : mat3) (psi : nat -> mat3),
    alpha_mode P G velocity T X a A ->
    1 <= a * dt ->
    (0 < cells P)%nat ->
    (0 < angles P)%nat ->
    (0 < G)%nat ->
    positive3 P G (psi 0%nat) ->
    free_history P G velocity dt T X 1 psi -> ~ below3 P G (fun _ _ _ : nat => 0) (psi 1%nat).
Proof. exact @mode_too_long. Qed.
Print Assumptions C134_step_too_long.
Theorem C134_sign :
  forall (P : sn) (G : nat) (velocity : vec) (T : mat2) (X : mat3) (f : fission_data)
      (phi : mat2) (k a : R) (A : mat3),
    (forall g : nat, (g < G)%nat -> 0 < velocity g) ->
    damped_transport P G T X ->
    (0 < cells P)%nat ->
    (0 < G)%nat ->
    0 < rsum (angles P) (wt P) ->
    nonneg_fission (cells P) G (medium P) f ->
    0 < k ->
    positive2 (cells P) G phi ->
    eigenpair P G T X f phi k ->
    alpha_mode P G velocity T (total_transfer X f) a A ->
    (a < 0 <-> k < 1) /\ (a = 0 <-> k = 1) /\ (0 < a <-> 1 < k).
Proof. exact @mode_sign. Qed.
Print Assumptions C134_sign.
Theorem C134_supercritical_grows :
  forall (P : sn) (G : nat) (velocity : vec) (T : mat2) (X : mat3) (f : fission_data)
      (phi : mat2) (k dt0 : R),
    (forall g : nat, (g < G)%nat -> 0 < velocity g) ->
    damped_transport P G T X ->
    (0 < cells P)%nat ->
    (0 < G)%nat ->
    0 < rsum (angles P) (wt P) ->
    nonneg_fission (cells P) G (medium P) f ->
    1 < k ->
    positive2 (cells P) G phi ->
    eigenpair P G T X f phi k ->
    0 < dt0 ->
    positive_sweeps P G (effective_total 1 T velocity dt0) ->
    exists a C : R,
      0 < a /\
      0 < C /\
      (forall (dt : R) (steps : nat) (psi : nat -> mat3) (lo : R),
       0 < dt ->
       positive_sweeps P G (effective_total 1 T velocity dt) ->
       (exists (c : R) (p : mat2),
          0 <= c < 1 /\ damping P G (effective_total 1 T velocity dt) (total_transfer X f) c p) ->
       free_history P G velocity dt T (total_transfer X f) steps psi ->
       0 <= lo ->
       (forall i m g : nat, (i < cells P)%nat -> (m < angles P)%nat -> (g < G)%nat -> lo <= psi 0%nat i m g) ->
       a * dt < 1 /\
       (forall n i g : nat,
        (n <= steps)%nat ->
        (i < cells P)%nat -> (g < G)%nat -> C * lo * phi i g / (1 - a * dt) ^ n <= scalar_flux P (psi n) i g)).
Proof. exact @supercritical_grows. Qed.
Print Assumptions C134_supercritical_grows.
Theorem C134_subcritical_dies :
  forall P G velocity T X f phi k,
  (forall g, (g < G)%nat -> 0 < velocity g) -> damped_transport P G T X -> (0 < cells P)%nat -> (0 < G)%nat ->
  0 < rsum (angles P) (wt P) -> nonneg_fission (cells P) G (medium P) f -> 0 < k -> k < 1 -> positive2 (cells P) G phi -> eigenpair P G T X f phi k ->
  exists K a, 1 <= K /\ 0 < a /\ forall dt steps psi d, 0 < dt -> positive_sweeps P G (effective_total 1 T velocity dt) -> 0 <= d ->
  free_history P G velocity dt T (total_transfer X f) steps psi ->
  (forall i m g, (i < cells P)%nat -> (m < angles P)%nat -> (g < G)%nat -> Rabs (psi 0%nat i m g) <= d) ->
  forall n i m g, (n <= steps)%nat -> (i < cells P)%nat -> (m < angles P)%nat -> (g < G)%nat -> Rabs (psi n i m g) <= K * d / (1 + a * dt) ^ n.
Proof. exact subcritical_dies. Qed.
Print Assumptions C134_subcritical_dies.
Theorem C134_code_runs :
  forall P materials G flux T s f velocity external boundary steps dt ft a A c q lo hi,
  (forall g, (g < G)%nat -> 0 < velocity g) -> 0 < dt -> positive_sweeps P G (effective_total 1 T velocity dt) -> angles P <> 1%nat ->
  (forall i, (i < cells P)%nat -> (medium P i < materials)%nat) ->
  (forall i g h, (i < cells P)%nat -> (g < G)%nat -> (h < G)%nat -> 0 <= total_transfer s f (medium P i) g h) ->
  alpha_mode P G velocity T (total_transfer s f) a A -> a * dt < 1 ->
  0 <= c < 1 -> damping P G (effective_total 1 T velocity dt) (total_transfer s f) c (scalar_flux P A) ->
  q = 4 * stop_error c (cells P) * Rmax 1 (1 - a * dt) -> q <= 1 ->
  (forall k i m g, (k < steps)%nat -> (i < cells P)%nat -> (m < angles P)%nat -> (g < G)%nat ->
     at3 (step_row external k) i (bidx (d3b (step_row external k)) m) (bidx (d3c (step_row external k)) g) = 0) ->
  (forall k m g, (k < steps)%nat -> (m < angles P)%nat -> (g < G)%nat -> mg_boundary (step_row boundary k) (mu P) g m = 0) ->
  0 <= lo <= hi -> (forall i m g, (i < cells P)%nat -> (m < angles P)%nat -> (g < G)%nat -> lo * A i m g <= flux i m g <= hi * A i m g) ->
  timed_run false P materials G flux T (Scatter3 s) f velocity external boundary steps dt 1 = Ok ft ->
  forall j i g, (j < steps)%nat -> (i < cells P)%nat -> (g < G)%nat ->
    (lo - hi * ((1 + q) ^ S j - 1)) * scalar_flux P A i g / (1 - a * dt) ^ S j <= ft j i g <= hi * (1 + q) ^ S j * scalar_flux P A i g / (1 - a * dt) ^ S j.
Proof. exact code_run_follows. Qed.
Print Assumptions C134_code_runs.
Example C134_case :
  (forall g, (g < 2)%nat -> 0 < pit_speed g) /\ damped_transport pit 2 pit_total pit_scatter /\
  nonneg_fission (cells pit) 2 (medium pit) (pit_fission (5 / 4)) /\ positive2 (cells pit) 2 (fun _ _ => 1) /\
  eigenpair pit 2 pit_total pit_scatter (pit_fission (5 / 4)) (fun _ _ => 1) (5 / 4) /\
  eigenpair pit 2 pit_total pit_scatter (pit_fission (1 / 2)) (fun _ _ => 1) (1 / 2) /\
  alpha_mode pit 2 pit_speed pit_total (total_transfer pit_scatter (pit_fission (5 / 4))) (1 / 2) (fun _ _ _ => 1) /\
  alpha_mode pit 2 pit_speed pit_total (total_transfer pit_scatter (pit_fission (1 / 2))) (-1) (fun _ _ _ => 1) /\
  positive_sweeps pit 2 (effective_total 1 pit_total pit_speed 1) /\
  (exists c p, 0 <= c < 1 /\ damping pit 2 (effective_total 1 pit_total pit_speed 1) (total_transfer pit_scatter (pit_fission (5 / 4))) c p) /\
  exists psi, psi 0%nat = pit_start /\ free_history pit 2 pit_speed 1 pit_total (total_transfer pit_scatter (pit_fission (5 / 4))) 7 psi.
Proof.
  assert (V : forall g, (g < 2)%nat -> 0 < pit_speed g) by (intros; unfold pit_speed; lra).
  assert (A := pit_mode (5 / 4) ltac:(lra)). replace (2 * (5 / 4) - 2) with (1 / 2) in A by lra.
  assert (B := pit_mode (1 / 2) ltac:(lra)). replace (2 * (1 / 2) - 2) with (-1) in B by lra.
  assert (X : forall i g h, (i < cells pit)%nat -> (g < 2)%nat -> (h < 2)%nat -> 0 <= total_transfer pit_scatter (pit_fission (5 / 4)) (medium pit i) g h)
    by (intros; apply pit_transfer; try assumption; lra).
  assert (E := pit_eff 1 ltac:(lra)). assert (W : 0 < rsum (angles pit) (wt pit)) by (cbn; lra).
  split; [exact V|]. split; [exact pit_transport|]. split; [apply pit_nonneg; lra|]. split; [intros ? ? _ _; lra|].
  split; [apply pit_eigen; lra|]. split; [apply pit_eigen; lra|]. split; [exact A|]. split; [exact B|]. split; [exact E|]. split.
  - destruct (mode_damped pit 2 pit_speed pit_total _ V 1 ltac:(lra) E X W (1 / 2) _ A ltac:(lra)) as (c & Hc & D). exists c. eexists. split; [exact Hc|exact D].
  - apply (mode_runs pit 2 pit_speed pit_total _ V 1 ltac:(lra) E X W (1 / 2) _ pit_start 7 A). lra.
Qed.
Example C134_code_case :
  damping pit 2 (effective_total 1 pit_total pit_speed 1) (total_transfer pit_scatter (pit_fission (5 / 4))) (7 / 8) (scalar_flux pit (fun _ _ _ => 1)) /\
  4 * stop_error (7 / 8) (cells pit) * Rmax 1 (1 - 1 / 2 * 1) <= 1 / 10 ^ 4 /\
  (forall i m g, (i < cells pit)%nat -> (m < angles pit)%nat -> (g < 2)%nat -> 1 * 1 <= pit_start i m g <= 2 * 1) /\
  exists ft, timed_run false pit 1 2 pit_start pit_total (Scatter3 pit_scatter) (pit_fission (5 / 4)) pit_speed pit_dark pit_dark 6 1 1 = Ok ft.
Proof.
  split; [|split; [|split]].
  - assert (D := pit_damping (5 / 4) 2 ltac:(lra) ltac:(lra)). replace ((1 + 2 * (5 / 4)) / (2 + 2)) with (7 / 8) in D by lra.
    replace (effective_total 1 pit_total pit_speed 1) with ((fun _ _ => 2) : mat2).
    + replace (scalar_flux pit (fun _ _ _ => 1)) with ((fun _ _ => 1) : mat2); [exact D|]. extensionality i. extensionality g. unfold scalar_flux. cbn. lra.
    + extensionality n. extensionality g. unfold effective_total, pit_total, pit_speed. lra.
  - rewrite Rmax_left by lra. unfold stop_error. cbn [INR cells pit]. assert (H : (7 / 8) ^ 100 <= 1 / 10 ^ 5).
    { replace ((7 / 8) ^ 100) with (((7 / 8) ^ 20) ^ 5) by (rewrite <- pow_mult; reflexivity). apply Rle_trans with ((1 / 10) ^ 5); [apply pow_incr; lra|lra]. }
    assert (P0 : 0 <= (7 / 8) ^ 100) by (apply pow_le; lra). revert H P0. generalize ((7 / 8) ^ 100). intros y H P0.
    assert (2 * y / (1 - y) <= (2 + 1 / 10) * y); [|lra]. apply (Rmult_le_reg_r (1 - y)); [lra|]. unfold Rdiv. rewrite Rmult_assoc, Rinv_l by lra. nra.
  - intros i m g _ Hm _. unfold pit_start. cbn in Hm. small m Hm; cbn [INR]; lra.
  - apply timed_total; [intros m Hm; small m Hm; cbn; lra|left; reflexivity|left; reflexivity|split; left; reflexivity].
Qed.
