(** C136-C139, C149-C151: the order of accuracy of the time-dependent solvers. *)
From Coq Require Import Lra Lia.
From Verif Require Import Base BaseFacts SlabModel SlabSpec MgModel MgSpec TimeModel TimeSpec ManModel ConvSpec EnSpec.
From Verif Require Import MgWitness TimeWitness EnWitness OrdSpec OrdFacts3 OrdFacts4 OrdFacts5 OrdFacts7 OrdFacts10 OrdFacts11 OrdFacts13 OrdFacts14 OrdFacts17 OrdFacts18 OrdFacts20 OrdWitness.
From Verif Require Import HybModel HybSpec MainModel MainSpec MainWitness.
Open Scope R_scope.

(** ** C136 Backward Euler is first order and BDF2 second order in time *)
Theorem C136_histories :
  forall two P G velocity dt xs_total transfer ext bnd steps psi emit source inflow t0 M2 M3 flux slope,
  sound_slab P -> no_multiplication P G xs_total transfer -> (forall g, (g < G)%nat -> 0 < velocity g) -> 0 < dt -> 0 <= M2 -> 0 <= M3 ->
  time_history two P G velocity dt xs_total transfer ext bnd steps psi emit ->
  source_rows P G t0 dt steps ext source -> inflow_rows P G t0 dt steps bnd inflow ->
  smooth_in_time two P G t0 (time_at t0 dt steps) M2 M3 flux slope ->
  evolves P G velocity xs_total transfer source inflow t0 (time_at t0 dt steps) flux slope ->
  forall k, (k <= steps)%nat ->
  density_norm P G velocity (minus3 (psi k) (flux (time_at t0 dt k))) <=
    (if two then sqrt 2 else 1) * density_norm P G velocity (minus3 (psi 0%nat) (flux t0))
    + time_error two dt (INR k * dt) M2 M3 * density_norm P G velocity unit_flux
    + (if two then 6 else 1) * dt * rsum k (fun j => source_norm P G velocity (unresolved P G transfer (emit j) (psi (S j)))).
Proof. exact history_accurate. Qed.
Print Assumptions C136_histories.
Theorem C136_runs :
  forall two P materials groups start xs_total s f velocity external boundary steps dt ft,
  sound_slab P -> no_multiplication P groups xs_total (total_transfer s f) -> angles P <> 1%nat ->
  (forall i, (i < cells P)%nat -> (medium P i < materials)%nat) ->
  (forall g, (g < groups)%nat -> 0 < velocity g) -> 0 < dt ->
  timed_run two P materials groups start xs_total (Scatter3 s) f velocity external boundary steps dt 1 = Ok ft ->
  exists psi : nat -> mat3, psi 0%nat = start /\
    time_history two P groups velocity dt xs_total (total_transfer s f) (step_row external) (step_row boundary) steps psi ft /\
    forall source inflow t0 M2 M3 flux slope, 0 <= M2 -> 0 <= M3 ->
      source_rows P groups t0 dt steps (step_row external) source -> inflow_rows P groups t0 dt steps (step_row boundary) inflow ->
      smooth_in_time two P groups t0 (time_at t0 dt steps) M2 M3 flux slope ->
      evolves P groups velocity xs_total (total_transfer s f) source inflow t0 (time_at t0 dt steps) flux slope ->
      forall k, (k <= steps)%nat ->
      density_norm P groups velocity (minus3 (psi k) (flux (time_at t0 dt k))) <=
        (if two then sqrt 2 else 1) * density_norm P groups velocity (minus3 start (flux t0))
        + time_error two dt (INR k * dt) M2 M3 * density_norm P groups velocity unit_flux
        + (if two then 6 else 1) * dt * rsum k (fun j => source_norm P groups velocity (unresolved P groups (total_transfer s f) (ft j) (psi (S j)))).
Proof. exact time_run_accurate. Qed.
Print Assumptions C136_runs.
Theorem C136_order :
  forall two P G velocity xs_total transfer source inflow t0 T M2 M3 flux slope,
  sound_slab P -> no_multiplication P G xs_total transfer -> (forall g, (g < G)%nat -> 0 < velocity g) -> 0 < T -> 0 <= M2 -> 0 <= M3 ->
  smooth_in_time two P G t0 (t0 + T) M2 M3 flux slope ->
  evolves P G velocity xs_total transfer source inflow t0 (t0 + T) flux slope ->
  exists K, 0 <= K /\ forall n psi, (0 < n)%nat -> psi 0%nat = flux t0 ->
    exact_history two P G velocity (T / INR n) xs_total transfer
      (fun k => source (time_at t0 (T / INR n) (S k))) (fun k => inflow (time_at t0 (T / INR n) (S k))) n psi ->
    forall k, (k <= n)%nat ->
      density_norm P G velocity (minus3 (psi k) (flux (time_at t0 (T / INR n) k))) <= K / INR n ^ (if two then 2 else 1).
Proof. exact exact_order. Qed.
Print Assumptions C136_order.
(** A thick slab with two groups, scattering and a reflective side: the flux t^2, and runs of both methods. *)
Example C136_case two dt : 0 < dt ->
  sound_slab wide /\ no_multiplication wide 2 tick_total (total_transfer tick_scatter no_fission) /\
  (forall g, (g < 2)%nat -> 0 < tick_speed g) /\ angles wide <> 1%nat /\ (forall i, (i < cells wide)%nat -> (medium wide i < 2)%nat) /\
  source_rows wide 2 0 dt 3 (step_row (growing_ext dt)) growing_source /\ inflow_rows wide 2 0 dt 3 (step_row (growing_bnd dt)) growing_inflow /\
  smooth_in_time two wide 2 0 (time_at 0 dt 3) 2 0 growing growing_slope /\
  evolves wide 2 tick_speed tick_total (total_transfer tick_scatter no_fission) growing_source growing_inflow 0 (time_at 0 dt 3) growing growing_slope /\
  (exists ft, timed_run two wide 2 2 (growing 0) tick_total (Scatter3 tick_scatter) no_fission tick_speed (growing_ext dt) (growing_bnd dt) 3 dt 1 = Ok ft).
Proof.
  intros Hdt. split; [exact wide_sound|]. split; [exact tick_no_multiplication|]. split; [intros; unfold tick_speed; lra|]. split; [cbn; lia|].
  split; [intros i Hi; cbn in *; lia|]. split; [apply growing_rows|]. split; [apply growing_rows|]. split; [apply growing_smooth|]. split; [apply growing_evolves|apply growing_runs].
Qed.
(** The single backward Euler step of BDF2 is first order at that step: the bound on the flux t^2 is not zero. *)
Example C136_value : time_error true (1 / 10) 2 2 0 = 6 / 100 /\ time_error false (1 / 10) 2 2 0 = 2 / 10.
Proof. unfold time_error. split; lra. Qed.

(** ** C137 Time-dependent slabs are second order in space together with their order in time *)
Theorem C137_histories :
  forall two P G velocity dt xs_total transfer ext bnd steps psi emit source inflow x t0 h X2 X3 X2t M2 M3 flux slope,
  sound_slab P -> no_multiplication P G xs_total transfer -> (forall g, (g < G)%nat -> 0 < velocity g) -> 0 < dt -> 0 <= X2 -> 0 <= M2 -> 0 <= M3 ->
  ordered_for (angles P) (mu P) (bc_left P) (bc_right P) -> cell_edges P x -> (forall i, (i < cells P)%nat -> dx P i <= h) ->
  time_history two P G velocity dt xs_total transfer ext bnd steps psi emit ->
  source_rows P G t0 dt steps ext source -> inflow_rows P G t0 dt steps bnd inflow ->
  transport_solution two P G velocity xs_total transfer source inflow x t0 (time_at t0 dt steps) X2 X3 X2t M2 M3 flux slope ->
  forall k, (k <= steps)%nat ->
  density_norm P G velocity (minus3 (psi k) (at_centres x flux (time_at t0 dt k))) <=
    (if two then sqrt 2 else 1) * density_norm P G velocity (minus3 (psi 0%nat) (at_centres x flux t0))
    + time_error two dt (INR k * dt) M2 M3 * density_norm P G velocity unit_flux
    + h ^ 2 * ((1 + if two then sqrt 2 else 1) * X2 / 8 * density_norm P G velocity unit_flux
               + (if two then 6 else 1) * (INR k * dt) * source_norm P G velocity (space_defect P velocity xs_total X2 X3 X2t))
    + (if two then 6 else 1) * dt * rsum k (fun j => source_norm P G velocity (unresolved P G transfer (emit j) (psi (S j)))).
Proof. exact space_time_accurate. Qed.
Print Assumptions C137_histories.
Theorem C137_runs :
  forall two P materials groups start xs_total s f velocity external boundary steps dt ft,
  sound_slab P -> no_multiplication P groups xs_total (total_transfer s f) -> angles P <> 1%nat ->
  (forall i, (i < cells P)%nat -> (medium P i < materials)%nat) ->
  (forall g, (g < groups)%nat -> 0 < velocity g) -> 0 < dt ->
  timed_run two P materials groups start xs_total (Scatter3 s) f velocity external boundary steps dt 1 = Ok ft ->
  exists psi : nat -> mat3, psi 0%nat = start /\
    time_history two P groups velocity dt xs_total (total_transfer s f) (step_row external) (step_row boundary) steps psi ft /\
    forall source inflow x t0 h X2 X3 X2t M2 M3 flux slope, 0 <= X2 -> 0 <= M2 -> 0 <= M3 ->
      ordered_for (angles P) (mu P) (bc_left P) (bc_right P) -> cell_edges P x -> (forall i, (i < cells P)%nat -> dx P i <= h) ->
      source_rows P groups t0 dt steps (step_row external) source -> inflow_rows P groups t0 dt steps (step_row boundary) inflow ->
      transport_solution two P groups velocity xs_total (total_transfer s f) source inflow x t0 (time_at t0 dt steps) X2 X3 X2t M2 M3 flux slope ->
      forall k, (k <= steps)%nat ->
      density_norm P groups velocity (minus3 (psi k) (at_centres x flux (time_at t0 dt k))) <=
        (if two then sqrt 2 else 1) * density_norm P groups velocity (minus3 start (at_centres x flux t0))
        + time_error two dt (INR k * dt) M2 M3 * density_norm P groups velocity unit_flux
        + h ^ 2 * ((1 + if two then sqrt 2 else 1) * X2 / 8 * density_norm P groups velocity unit_flux
                   + (if two then 6 else 1) * (INR k * dt) * source_norm P groups velocity (space_defect P velocity xs_total X2 X3 X2t))
        + (if two then 6 else 1) * dt * rsum k (fun j => source_norm P groups velocity (unresolved P groups (total_transfer s f) (ft j) (psi (S j)))).
Proof. exact run_space_time. Qed.
Print Assumptions C137_runs.
(** the flux t^2 + y^2 on the same slab *)
Example C137_case two dt : 0 < dt ->
  cell_edges wide wide_edges /\ (forall i, (i < cells wide)%nat -> dx wide i <= 40) /\
  ordered_for (angles wide) (mu wide) (bc_left wide) (bc_right wide) /\
  transport_solution two wide 2 tick_speed tick_total (total_transfer tick_scatter no_fission) curved_source curved_inflow wide_edges 0 (time_at 0 dt 3) 2 0 0 2 0 curved curved_slope.
Proof. intros Hdt. split; [apply wide_mesh|]. split; [apply wide_mesh|]. split; [apply wide_mesh|]. apply curved_solves. Qed.

(** ** C138 The manufactured time-dependent problems converge at the orders their tests look for *)
Theorem C138_td_01 :
  forall two P materials x h steps dt,
  sound_slab P -> meshes P x 0 2 -> angles P <> 1%nat -> (forall i, (i < cells P)%nat -> (medium P i < materials)%nat) ->
  (forall m, (m < angles P)%nat -> Rabs (mu P m) <= 1) -> (forall i, (i < cells P)%nat -> dx P i <= h) -> 0 < dt ->
  exists ft,
  timed_run two P materials 1
    (fun i m _ => solution_td_01 (cells P) (centre x) (angles P) (mu P) 1 (fun _ => 0) 0%nat i m)
    (fun _ _ => 1) (Scatter3 (fun _ _ _ => 0)) (FissionMatrix (fun _ _ _ => 0)) (fun _ => 1)
    (mkArr4 steps (angles P) 1 (fun k i m _ => external_td_01 (cells P) (centre x) (angles P) (mu P) (S steps) (time_at 0 dt) (S k) i m))
    (mkArr4 1 1 1 (fun _ _ _ _ => 2)) steps dt 1 = Ok ft /\
  forall k, (k < steps)%nat ->
    sqrt (rsum (cells P) (fun i => dx P i * Rsqr (ft k i 0%nat
      - quadrature P (solution_td_01 (cells P) (centre x) (angles P) (mu P) (S steps) (time_at 0 dt) (S k)) i)))
    <= rsum (angles P) (wt P) * sqrt 2 *
       (time_error two dt (INR (S k) * dt) (1 / 100) (1 / 1000)
        + h ^ 2 * ((1 + if two then sqrt 2 else 1) * 7 / 8 + (if two then 6 else 1) * (INR (S k) * dt) * (33 / 10))).
Proof. exact td_01_run. Qed.
Print Assumptions C138_td_01.
Theorem C138_td_02 :
  forall two P materials x h steps dt,
  sound_slab P -> meshes P x 0 PI -> angles P <> 1%nat -> (forall i, (i < cells P)%nat -> (medium P i < materials)%nat) ->
  (forall m, (m < angles P)%nat -> Rabs (mu P m) <= 1) -> (forall i, (i < cells P)%nat -> dx P i <= h) -> 0 < dt ->
  exists ft,
  timed_run two P materials 1
    (fun i m _ => solution_td_02 (cells P) (centre x) (angles P) (mu P) 1 (fun _ => 0) 0%nat i m)
    (fun _ _ => 1) (Scatter3 (fun _ _ _ => 0)) (FissionMatrix (fun _ _ _ => 0)) (fun _ => 1)
    (mkArr4 steps (angles P) 1 (fun k i m _ => external_td_02 (cells P) (centre x) (angles P) (mu P) (S steps) (time_at 0 dt) (S k) i m))
    (mkArr4 steps (angles P) 1 (fun k side m _ => boundary_td_02 (angles P) (mu P) (S steps) (time_at 0 dt) (S k) side m)) steps dt 1 = Ok ft /\
  forall k, (k < steps)%nat ->
    sqrt (rsum (cells P) (fun i => dx P i * Rsqr (ft k i 0%nat
      - quadrature P (solution_td_02 (cells P) (centre x) (angles P) (mu P) (S steps) (time_at 0 dt) (S k)) i)))
    <= rsum (angles P) (wt P) * sqrt PI *
       (time_error two dt (INR (S k) * dt) (1 / 4) (1 / 8)
        + h ^ 2 * ((1 + if two then sqrt 2 else 1) * 1 / 8 + (if two then 6 else 1) * (INR (S k) * dt) * (1 / 2))).
Proof. exact td_02_run. Qed.
Print Assumptions C138_td_02.
Example C138_case L : 0 < L -> sound_slab (ten L) /\ meshes (ten L) (ten_edges L) 0 L /\ angles (ten L) <> 1%nat /\
  (forall i, (i < cells (ten L))%nat -> (medium (ten L) i < 1)%nat) /\
  (forall m, (m < angles (ten L))%nat -> Rabs (mu (ten L) m) <= 1) /\ (forall i, (i < cells (ten L))%nat -> dx (ten L) i <= L / 10).
Proof. exact (ten_case L). Qed.

(** ** C139 What the iterations of the steps leave in a time-dependent run *)
Theorem C139_iterations :
  forall two P materials groups start xs_total s f velocity external boundary steps dt ft c,
  sound_slab P -> no_multiplication P groups xs_total (total_transfer s f) -> angles P <> 1%nat ->
  (forall i, (i < cells P)%nat -> (medium P i < materials)%nat) ->
  (forall g, (g < groups)%nat -> 0 < velocity g) -> 0 < dt ->
  0 <= c -> rsum (angles P) (wt P) * c < 1 ->
  (forall k, (k < steps)%nat -> coupled_below P groups (effective_total (run_weight two k) xs_total velocity dt) (total_transfer s f) c) ->
  timed_run two P materials groups start xs_total (Scatter3 s) f velocity external boundary steps dt 1 = Ok ft ->
  exists psi, psi 0%nat = start /\
    time_history two P groups velocity dt xs_total (total_transfer s f) (step_row external) (step_row boundary) steps psi ft /\
    exists n : nat -> nat, forall k, (k < steps)%nat -> (1 <= n k <= 100)%nat /\
      forall sol, exact_step P groups velocity xs_total (total_transfer s f) (step_row external k) (step_row boundary k) (run_derivative two dt psi k) sol ->
        let T := effective_total (run_weight two k) xs_total velocity dt in
        let rho := rsum (angles P) (wt P) * c in
        (forall d, 0 <= d -> near_energy P groups T d (step_start P start ft k) sol -> near_energy P groups T (rho ^ n k * d) (ft k) sol) /\
        ((n k < 100)%nat -> forall M, 0 <= M -> near_energy P groups T M (ft k) (fun _ _ => 0) ->
           near_energy P groups T (rho * (/ 10 ^ 8 * INR (cells P) * M) / (1 - rho)) (ft k) sol) /\
        (forall d, 0 <= d -> near_energy P groups T d (ft k) sol -> near_energy P groups T (rho * d) (scalar_flux P (psi (S k))) sol).
Proof. exact run_iterations. Qed.
Print Assumptions C139_iterations.
Theorem C139_residual :
  forall two P materials groups start xs_total s f velocity external boundary steps dt ft c S,
  sound_slab P -> no_multiplication P groups xs_total (total_transfer s f) -> angles P <> 1%nat ->
  (forall i, (i < cells P)%nat -> (medium P i < materials)%nat) ->
  (forall g, (g < groups)%nat -> 0 < velocity g) -> 0 < dt ->
  0 <= c -> rsum (angles P) (wt P) * c < 1 ->
  (forall k, (k < steps)%nat -> coupled_below P groups (effective_total (run_weight two k) xs_total velocity dt) (total_transfer s f) c) ->
  0 <= S -> (forall i g, (i < cells P)%nat -> (g < groups)%nat -> velocity g * xs_total (medium P i) g <= S) ->
  timed_run two P materials groups start xs_total (Scatter3 s) f velocity external boundary steps dt 1 = Ok ft ->
  exists psi, psi 0%nat = start /\
    time_history two P groups velocity dt xs_total (total_transfer s f) (step_row external) (step_row boundary) steps psi ft /\
    forall k M, (k < steps)%nat -> 0 <= M ->
        near_energy P groups (effective_total (run_weight two k) xs_total velocity dt) M (step_start P start ft k) (fun _ _ => 0) ->
        near_energy P groups (effective_total (run_weight two k) xs_total velocity dt) M (ft k) (fun _ _ => 0) ->
        near_energy P groups (effective_total (run_weight two k) xs_total velocity dt)
          ((1 + rsum (angles P) (wt P) * c) * iteration_error (rsum (angles P) (wt P) * c) (cells P) M) (ft k) (scalar_flux P (psi (Datatypes.S k))) /\
        source_norm P groups velocity (unresolved P groups (total_transfer s f) (ft k) (psi (Datatypes.S k))) <= iteration_residual P groups c dt S M.
Proof. exact converged_run. Qed.
Print Assumptions C139_residual.
Theorem C139_total :
  forall two P materials groups start xs_total s f velocity external boundary steps dt ft c S,
  sound_slab P -> no_multiplication P groups xs_total (total_transfer s f) -> angles P <> 1%nat ->
  (forall i, (i < cells P)%nat -> (medium P i < materials)%nat) ->
  (forall g, (g < groups)%nat -> 0 < velocity g) -> 0 < dt ->
  0 <= c -> rsum (angles P) (wt P) * c < 1 ->
  (forall k, (k < steps)%nat -> coupled_below P groups (effective_total (run_weight two k) xs_total velocity dt) (total_transfer s f) c) ->
  0 <= S -> (forall i g, (i < cells P)%nat -> (g < groups)%nat -> velocity g * xs_total (medium P i) g <= S) ->
  timed_run two P materials groups start xs_total (Scatter3 s) f velocity external boundary steps dt 1 = Ok ft ->
  exists psi, psi 0%nat = start /\
    time_history two P groups velocity dt xs_total (total_transfer s f) (step_row external) (step_row boundary) steps psi ft /\
    forall M source inflow x t0 h X2 X3 X2t M2 M3 flux slope, 0 <= M ->
      (forall k, (k < steps)%nat -> near_energy P groups (effective_total (run_weight two k) xs_total velocity dt) M (step_start P start ft k) (fun _ _ => 0)) ->
      (forall k, (k < steps)%nat -> near_energy P groups (effective_total (run_weight two k) xs_total velocity dt) M (ft k) (fun _ _ => 0)) ->
      0 <= X2 -> 0 <= M2 -> 0 <= M3 ->
      ordered_for (angles P) (mu P) (bc_left P) (bc_right P) -> cell_edges P x -> (forall i, (i < cells P)%nat -> dx P i <= h) ->
      source_rows P groups t0 dt steps (step_row external) source -> inflow_rows P groups t0 dt steps (step_row boundary) inflow ->
      transport_solution two P groups velocity xs_total (total_transfer s f) source inflow x t0 (time_at t0 dt steps) X2 X3 X2t M2 M3 flux slope ->
      forall k, (k <= steps)%nat ->
      density_norm P groups velocity (minus3 (psi k) (at_centres x flux (time_at t0 dt k))) <=
        (if two then sqrt 2 else 1) * density_norm P groups velocity (minus3 start (at_centres x flux t0))
        + time_error two dt (INR k * dt) M2 M3 * density_norm P groups velocity unit_flux
        + h ^ 2 * ((1 + if two then sqrt 2 else 1) * X2 / 8 * density_norm P groups velocity unit_flux
                   + (if two then 6 else 1) * (INR k * dt) * source_norm P groups velocity (space_defect P velocity xs_total X2 X3 X2t))
        + (if two then 6 else 1) * (INR k * dt) * iteration_residual P groups c dt S M.
Proof. exact total_run_error. Qed.
Print Assumptions C139_total.
Theorem C139_unscattered :
  forall two P materials groups start xs_total s f velocity external boundary steps dt ft,
  sound_slab P -> (forall i g, (i < cells P)%nat -> (g < groups)%nat -> 0 <= xs_total (medium P i) g) -> angles P <> 1%nat ->
  (forall i, (i < cells P)%nat -> (medium P i < materials)%nat) ->
  (forall g, (g < groups)%nat -> 0 < velocity g) -> 0 < dt ->
  (forall i g h, (i < cells P)%nat -> (g < groups)%nat -> (h < groups)%nat -> total_transfer s f (medium P i) g h = 0) ->
  timed_run two P materials groups start xs_total (Scatter3 s) f velocity external boundary steps dt 1 = Ok ft ->
  exists psi, psi 0%nat = start /\
    exact_history two P groups velocity dt xs_total (total_transfer s f) (step_row external) (step_row boundary) steps psi /\
    forall k, (k < steps)%nat -> agree2 (cells P) groups (ft k) (scalar_flux P (psi (S k))).
Proof. exact run_unscattered. Qed.
Print Assumptions C139_unscattered.
Example C139_case two dt : 0 < dt ->
  (forall k, (k < 3)%nat -> coupled_below wide 2 (effective_total (run_weight two k) tick_total tick_speed dt) (total_transfer tick_scatter no_fission) (3 / 8)) /\
  rsum (angles wide) (wt wide) * (3 / 8) < 1 /\
  (forall i g, (i < cells wide)%nat -> (g < 2)%nat -> tick_speed g * tick_total (medium wide i) g <= 3).
Proof. intros Hdt. split; [intros k _; apply tick_coupled; exact Hdt|]. split; [cbn; lra|]. exact tick_speeds. Qed.
(** contraction 3/8: the stopping rule leaves less than one part in 10^7 of fluxes of size one on two cells *)
Example C139_value : iteration_error (3 / 8) 2 1 < 1 / 10 ^ 7.
Proof.
  unfold iteration_error. cbn [INR]. assert (H : (3 / 8) ^ 100 <= 1 / 10 ^ 20).
  { replace ((3 / 8) ^ 100) with (((3 / 8) ^ 5) ^ 20) by (rewrite <- pow_mult; reflexivity). apply Rle_trans with ((1 / 10) ^ 20); [apply pow_incr; lra|lra]. }
  assert (P0 : 0 <= (3 / 8) ^ 100) by (apply pow_le; lra). revert H P0. generalize ((3 / 8) ^ 100). intros y H P0.
  assert (2 * y * 1 / (1 - y) <= 4 * y); [|lra]. apply (Rmult_le_reg_r (1 - y)); [lra|]. unfold Rdiv. rewrite Rmult_assoc, Rinv_l by lra. nra.
Qed.

(** ** C149 Hybrid runs are stable and first order in time, whatever the coarse grids *)
Theorem C149_resolved :
  forall (two : bool) (P PC : sn) (materials G Gc : nat) (Tu Tc : mat2) (su sc : mat3)
      (fu fc : fission_data) (vu vc : vec) (ci : nat -> nat) (fac : vec),
    sound_slab P ->
    sound_slab PC ->
    angles P <> 1%nat ->
    (forall i : nat, (i < cells P)%nat -> (medium P i < materials)%nat) ->
    cells PC = cells P /\ medium PC = medium P ->
    (forall i : nat, (i < cells P)%nat -> dx PC i = dx P i) ->
    (forall g : nat, (g < G)%nat -> (ci g < Gc)%nat) ->
    no_multiplication P G Tu (total_transfer su fu) ->
    (forall i g : nat, (i < cells P)%nat -> (g < Gc)%nat -> 0 <= Tc (medium P i) g) ->
    (forall g : nat, (g < G)%nat -> 0 < vu g) ->
    (forall g : nat, (g < Gc)%nat -> 0 < vc g) ->
    exists dt0 K : R,
      0 < dt0 /\
      0 <= K /\
      (forall (start : mat3) (external boundary : arr4) (steps : nat) (dt : R) (ft : nat -> mat2),
       0 < dt ->
       dt <= dt0 ->
       hybrid_run two P PC materials G Gc start Tu Tc (Scatter3 su) (Scatter3 sc) fu fc vu vc external
         boundary ci fac steps dt 1 = Ok ft ->
       exists (psi : nat -> mat3) (emit : nat -> mat2),
         psi 0%nat = start /\
         time_history two P G vu dt Tu (total_transfer su fu) (step_row external) 
           (step_row boundary) steps psi emit /\
         (forall k : nat,
          (k < steps)%nat ->
          ft k = scalar_flux P (psi (S k)) /\
          source_norm P G vu (unresolved P G (total_transfer su fu) (emit k) (psi (S k))) <=
          K * dt * density_norm P G vu (psi (S k)))).
Proof. exact @hybrid_resolved. Qed.
Print Assumptions C149_resolved.
Theorem C149_stable :
  forall (two : bool) (P PC : sn) (materials G Gc : nat) (Tu Tc : mat2) (su sc : mat3)
      (fu fc : fission_data) (vu vc : vec) (ci : nat -> nat) (fac : vec),
    sound_slab P ->
    sound_slab PC ->
    angles P <> 1%nat ->
    (forall i : nat, (i < cells P)%nat -> (medium P i < materials)%nat) ->
    cells PC = cells P /\ medium PC = medium P ->
    (forall i : nat, (i < cells P)%nat -> dx PC i = dx P i) ->
    (forall g : nat, (g < G)%nat -> (ci g < Gc)%nat) ->
    no_multiplication P G Tu (total_transfer su fu) ->
    (forall i g : nat, (i < cells P)%nat -> (g < Gc)%nat -> 0 <= Tc (medium P i) g) ->
    (forall g : nat, (g < G)%nat -> 0 < vu g) ->
    (forall g : nat, (g < Gc)%nat -> 0 < vc g) ->
    forall T : R,
    0 <= T ->
    exists dt0 : R,
      0 < dt0 /\
      (forall (start : mat3) (external boundary : arr4) (steps : nat) (dt : R) (ft : nat -> mat2),
       0 < dt ->
       dt <= dt0 ->
       INR steps * dt <= T ->
       (forall k m g : nat,
        (k < steps)%nat ->
        (m < angles P)%nat -> (g < G)%nat -> mg_boundary (step_row boundary k) (mu P) g m = 0) ->
       hybrid_run two P PC materials G Gc start Tu Tc (Scatter3 su) (Scatter3 sc) fu fc vu vc external
         boundary ci fac steps dt 1 = Ok ft ->
       forall k : nat,
       (k < steps)%nat ->
       sqrt (rsum G (fun g : nat => rsum (cells P) (fun i : nat => dx P i * (ft k i g)² / vu g))) <=
       sqrt (rsum (angles P) (wt P)) *
       (2 *
        ((if two then sqrt 2 else 1) * density_norm P G vu start +
         (if two then 6 else 1) * dt *
         rsum (S k)
           (fun j : nat =>
            source_norm P G vu
              (fun i m g : nat =>
               at3 (step_row external j) i (bidx (d4b external) m) (bidx (d4c external) g)))))).
Proof. exact @hybrid_stable. Qed.
Print Assumptions C149_stable.
Theorem C149_exact :
  forall (two : bool) (P PC : sn) (materials G Gc : nat) (Tu Tc : mat2) (su sc : mat3)
      (fu fc : fission_data) (vu vc : vec) (ci : nat -> nat) (fac : vec),
    sound_slab P ->
    sound_slab PC ->
    angles P <> 1%nat ->
    (forall i : nat, (i < cells P)%nat -> (medium P i < materials)%nat) ->
    cells PC = cells P /\ medium PC = medium P ->
    (forall i : nat, (i < cells P)%nat -> dx PC i = dx P i) ->
    (forall g : nat, (g < G)%nat -> (ci g < Gc)%nat) ->
    no_multiplication P G Tu (total_transfer su fu) ->
    (forall i g : nat, (i < cells P)%nat -> (g < Gc)%nat -> 0 <= Tc (medium P i) g) ->
    (forall g : nat, (g < G)%nat -> 0 < vu g) ->
    (forall g : nat, (g < Gc)%nat -> 0 < vc g) ->
    forall T : R,
    0 <= T ->
    exists dt0 K : R,
      0 < dt0 /\
      0 <= K /\
      (forall (start : mat3) (external boundary : arr4) (steps : nat) (dt : R) (ft : nat -> mat2)
         (exact : nat -> mat3),
       0 < dt ->
       dt <= dt0 ->
       INR steps * dt <= T ->
       hybrid_run two P PC materials G Gc start Tu Tc (Scatter3 su) (Scatter3 sc) fu fc vu vc external
         boundary ci fac steps dt 1 = Ok ft ->
       exact 0%nat = start ->
       exact_history two P G vu dt Tu (total_transfer su fu) (step_row external) 
         (step_row boundary) steps exact ->
       forall k : nat,
       (k < steps)%nat ->
       sqrt
         (rsum G
            (fun g : nat =>
             rsum (cells P) (fun i : nat => dx P i * (ft k i g - scalar_flux P (exact (S k)) i g)² / vu g))) <=
       K * dt * (dt * rsum (S k) (fun j : nat => density_norm P G vu (exact (S j))))).
Proof. exact @hybrid_exact. Qed.
Print Assumptions C149_exact.
Theorem C149_order :
  forall (two : bool) (P PC : sn) (materials G Gc : nat) (Tu Tc : mat2) (su sc : mat3)
      (fu fc : fission_data) (vu vc : vec) (ci : nat -> nat) (fac : vec),
    sound_slab P ->
    sound_slab PC ->
    angles P <> 1%nat ->
    (forall i : nat, (i < cells P)%nat -> (medium P i < materials)%nat) ->
    cells PC = cells P /\ medium PC = medium P ->
    (forall i : nat, (i < cells P)%nat -> dx PC i = dx P i) ->
    (forall g : nat, (g < G)%nat -> (ci g < Gc)%nat) ->
    no_multiplication P G Tu (total_transfer su fu) ->
    (forall i g : nat, (i < cells P)%nat -> (g < Gc)%nat -> 0 <= Tc (medium P i) g) ->
    (forall g : nat, (g < G)%nat -> 0 < vu g) ->
    (forall g : nat, (g < Gc)%nat -> 0 < vc g) ->
    forall T : R,
    0 <= T ->
    exists dt0 K : R,
      0 < dt0 /\
      0 <= K /\
      (forall (start : mat3) (external boundary : arr4) (steps : nat) (dt : R) (ft : nat -> mat2),
       0 < dt ->
       dt <= dt0 ->
       INR steps * dt <= T ->
       hybrid_run two P PC materials G Gc start Tu Tc (Scatter3 su) (Scatter3 sc) fu fc vu vc external
         boundary ci fac steps dt 1 = Ok ft ->
       forall (source inflow : R -> arr3) (t0 M2 M3 B : R) (flux slope : R -> mat3),
       0 <= M2 ->
       0 <= M3 ->
       0 <= B ->
       source_rows P G t0 dt steps (step_row external) source ->
       inflow_rows P G t0 dt steps (step_row boundary) inflow ->
       smooth_in_time two P G t0 (time_at t0 dt steps) M2 M3 flux slope ->
       evolves P G vu Tu (total_transfer su fu) source inflow t0 (time_at t0 dt steps) flux slope ->
       (forall t : R, t0 <= t <= time_at t0 dt steps -> density_norm P G vu (flux t) <= B) ->
       forall k : nat,
       (k < steps)%nat ->
       sqrt
         (rsum G
            (fun g : nat =>
             rsum (cells P)
               (fun i : nat => dx P i * (ft k i g - scalar_flux P (flux (time_at t0 dt (S k))) i g)² / vu g))) <=
       sqrt (rsum (angles P) (wt P)) *
       (2 *
        ((if two then sqrt 2 else 1) * density_norm P G vu (minus3 start (flux t0)) +
         time_error two dt (INR (S k) * dt) M2 M3 * density_norm P G vu unit_flux)) +
       K * dt * (INR (S k) * dt * B)).
Proof. exact @hybrid_order. Qed.
Print Assumptions C149_order.
(** The thick slab, its two groups collected in one and its quadrature exchanged for a coarser one: the flux t^2. *)
Example C149_case two dt : 0 < dt ->
  sound_slab wide /\ sound_slab blunt /\ angles wide <> 1%nat /\ (forall i, (i < cells wide)%nat -> (medium wide i < 2)%nat) /\
  (cells blunt = cells wide /\ medium blunt = medium wide) /\ (forall i, (i < cells wide)%nat -> dx blunt i = dx wide i) /\
  (forall g, (g < 2)%nat -> ((fun _ => 0) g < 1)%nat) /\
  no_multiplication wide 2 tick_total (total_transfer tick_scatter no_fission) /\
  (forall i g, (i < cells wide)%nat -> (g < 1)%nat -> 0 <= blunt_total (medium wide i) g) /\
  (forall g, (g < 2)%nat -> 0 < tick_speed g) /\
  (exists ft, hybrid_run two wide blunt 2 2 1 (growing 0) tick_total blunt_total (Scatter3 tick_scatter) (Scatter3 blunt_scatter)
     no_fission no_fission tick_speed tick_speed (growing_ext dt) (growing_bnd dt) (fun _ => 0%nat) (fun _ => 1 / 2) 3 dt 1 = Ok ft) /\
  source_rows wide 2 0 dt 3 (step_row (growing_ext dt)) growing_source /\ inflow_rows wide 2 0 dt 3 (step_row (growing_bnd dt)) growing_inflow /\
  smooth_in_time two wide 2 0 (time_at 0 dt 3) 2 0 growing growing_slope /\
  evolves wide 2 tick_speed tick_total (total_transfer tick_scatter no_fission) growing_source growing_inflow 0 (time_at 0 dt 3) growing growing_slope /\
  exists B, 0 <= B /\ forall t, 0 <= t <= time_at 0 dt 3 -> density_norm wide 2 tick_speed (growing t) <= B.
Proof. exact (blunt_case two dt). Qed.
(** a run without inflow, for the stability statement, and one against exact steps *)
Example C149_closed_case two dt : 0 < dt ->
  (forall k m g, (k < 3)%nat -> (m < angles wide)%nat -> (g < 2)%nat -> mg_boundary (step_row closed_bnd k) (mu wide) g m = 0) /\
  (exists ft, hybrid_run two wide blunt 2 2 1 tick_start tick_total blunt_total (Scatter3 tick_scatter) (Scatter3 blunt_scatter)
     no_fission no_fission tick_speed tick_speed tick_ext closed_bnd (fun _ => 0%nat) (fun _ => 1 / 2) 3 dt 1 = Ok ft) /\
  exists exact : nat -> mat3, exact 0%nat = tick_start /\
    exact_history two wide 2 tick_speed dt tick_total (total_transfer tick_scatter no_fission) (step_row tick_ext) (step_row closed_bnd) 3 exact.
Proof. exact (blunt_closed_case two dt). Qed.

(** ** C150 Hybrid BDF2 runs are second order in time *)
(* the uncollided and the collided part of a step use different grids: with one coarse group the largest error up to time one is
   at least of the size of the step *)
Theorem C150_first_order_refuted :
  forall steps dt ft,
  (2 <= steps)%nat -> dt = 1 / INR steps -> lone_run steps dt = Ok ft ->
  exists k, (k < steps)%nat /\ dt / 224 < Rabs (ft k 0%nat 1%nat - 1).
Proof. exact lone_lower. Qed.
Print Assumptions C150_first_order_refuted.
Theorem C150_second_order_refuted :
  ~ exists dt0 K, 0 < dt0 /\ 0 <= K /\
  forall steps dt ft, 0 < dt -> dt <= dt0 -> INR steps * dt <= 1 -> lone_run steps dt = Ok ft ->
  forall k, (k < steps)%nat -> Rabs (ft k 0%nat 1%nat - 1) <= K * dt ^ 2.
Proof. exact lone_not_second. Qed.
Print Assumptions C150_second_order_refuted.
(** the flux of that problem is one everywhere, and the unsplit scheme reproduces it *)
Example C150_case : sound_slab lone /\ no_multiplication lone 2 lone_total (total_transfer lone_down (FissionMatrix (fun _ _ _ => 0))) /\
  (forall steps dt, exists ft, lone_run steps dt = Ok ft) /\
  forall steps dt, 0 < dt ->
    evolves lone 2 unit_speed lone_total (total_transfer lone_down (FissionMatrix (fun _ _ _ => 0))) (fun _ => step_row lone_ext 0)
      (fun _ => step_row lone_bnd 0) 0 1 (fun _ => unit_flux) (fun _ _ _ _ => 0) /\
    exact_history true lone 2 unit_speed dt lone_total (total_transfer lone_down (FissionMatrix (fun _ _ _ => 0)))
      (step_row lone_ext) (step_row lone_bnd) steps (fun _ => unit_flux) /\
    forall i g, scalar_flux lone unit_flux i g = 1.
Proof.
  split; [exact lone_sound|]. split; [exact lone_no_multiplication|]. split; [exact lone_total_run|].
  intros steps dt Hdt. destruct (lone_flat 0 1 steps dt Hdt) as (A & B). split; [exact A|]. split; [exact B|exact lone_unit].
Qed.
Print Assumptions C150_case.

(* what holds: with all energy groups kept (any quadrature of the same total weight, any coarse total cross sections and transfers)
   every step leaves unresolved scattering of the size of the step squared, and the run has the order of the unsplit scheme; the
   constants depend on the mesh *)
Theorem C150_kept_resolved_partial :
  forall (two : bool) (P PC : sn) (materials G : nat) (Tu Tc : mat2) (su sc : mat3)
      (fu fc : fission_data) (vu vc : vec) (ci : nat -> nat) (fac : vec),
    sound_slab P ->
    sound_slab PC ->
    angles P <> 1%nat ->
    (forall i : nat, (i < cells P)%nat -> (medium P i < materials)%nat) ->
    cells PC = cells P /\ medium PC = medium P ->
    (forall i : nat, (i < cells P)%nat -> dx PC i = dx P i) ->
    rsum (angles PC) (wt PC) = rsum (angles P) (wt P) ->
    (forall g : nat, (g < G)%nat -> ci g = g /\ fac g = 1 /\ vc g = vu g) ->
    no_multiplication P G Tu (total_transfer su fu) ->
    (forall i g : nat, (i < cells P)%nat -> (g < G)%nat -> 0 <= Tc (medium P i) g) ->
    (forall g : nat, (g < G)%nat -> 0 < vu g) ->
    exists dt0 K : R,
      0 < dt0 /\
      0 <= K /\
      (forall (start : mat3) (external boundary : arr4) (steps : nat) (dt : R) (ft : nat -> mat2),
       0 < dt ->
       dt <= dt0 ->
       hybrid_run two P PC materials G G start Tu Tc (Scatter3 su) (Scatter3 sc) fu fc vu vc external
         boundary ci fac steps dt 1 = Ok ft ->
       exists (psi : nat -> mat3) (emit : nat -> mat2),
         psi 0%nat = start /\
         time_history two P G vu dt Tu (total_transfer su fu) (step_row external) 
           (step_row boundary) steps psi emit /\
         (forall k : nat,
          (k < steps)%nat ->
          ft k = scalar_flux P (psi (S k)) /\
          source_norm P G vu (unresolved P G (total_transfer su fu) (emit k) (psi (S k))) <=
          K * dt ^ 2 * density_norm P G vu (psi (S k)))).
Proof. exact @kept_resolved. Qed.
Print Assumptions C150_kept_resolved_partial.
Theorem C150_kept_groups_partial :
  forall (two : bool) (P PC : sn) (materials G : nat) (Tu Tc : mat2) (su sc : mat3)
      (fu fc : fission_data) (vu vc : vec) (ci : nat -> nat) (fac : vec),
    sound_slab P ->
    sound_slab PC ->
    angles P <> 1%nat ->
    (forall i : nat, (i < cells P)%nat -> (medium P i < materials)%nat) ->
    cells PC = cells P /\ medium PC = medium P ->
    (forall i : nat, (i < cells P)%nat -> dx PC i = dx P i) ->
    rsum (angles PC) (wt PC) = rsum (angles P) (wt P) ->
    (forall g : nat, (g < G)%nat -> ci g = g /\ fac g = 1 /\ vc g = vu g) ->
    no_multiplication P G Tu (total_transfer su fu) ->
    (forall i g : nat, (i < cells P)%nat -> (g < G)%nat -> 0 <= Tc (medium P i) g) ->
    (forall g : nat, (g < G)%nat -> 0 < vu g) ->
    forall T : R,
    0 <= T ->
    exists dt0 K : R,
      0 < dt0 /\
      0 <= K /\
      (forall (start : mat3) (external boundary : arr4) (steps : nat) (dt : R) (ft : nat -> mat2),
       0 < dt ->
       dt <= dt0 ->
       INR steps * dt <= T ->
       hybrid_run two P PC materials G G start Tu Tc (Scatter3 su) (Scatter3 sc) fu fc vu vc external
         boundary ci fac steps dt 1 = Ok ft ->
       forall (source inflow : R -> arr3) (t0 M2 M3 B : R) (flux slope : R -> mat3),
       0 <= M2 ->
       0 <= M3 ->
       0 <= B ->
       source_rows P G t0 dt steps (step_row external) source ->
       inflow_rows P G t0 dt steps (step_row boundary) inflow ->
       smooth_in_time two P G t0 (time_at t0 dt steps) M2 M3 flux slope ->
       evolves P G vu Tu (total_transfer su fu) source inflow t0 (time_at t0 dt steps) flux slope ->
       (forall t : R, t0 <= t <= time_at t0 dt steps -> density_norm P G vu (flux t) <= B) ->
       forall k : nat,
       (k < steps)%nat ->
       sqrt
         (rsum G
            (fun g : nat =>
             rsum (cells P)
               (fun i : nat => dx P i * (ft k i g - scalar_flux P (flux (time_at t0 dt (S k))) i g)² / vu g))) <=
       sqrt (rsum (angles P) (wt P)) *
       (2 *
        ((if two then sqrt 2 else 1) * density_norm P G vu (minus3 start (flux t0)) +
         time_error two dt (INR (S k) * dt) M2 M3 * density_norm P G vu unit_flux)) +
       K * dt ^ 2 * (INR (S k) * dt * B)).
Proof. exact @kept_order. Qed.
Print Assumptions C150_kept_groups_partial.
Example C150_kept_case two dt : 0 < dt ->
  sound_slab wide /\ sound_slab blunt /\ angles wide <> 1%nat /\ (forall i, (i < cells wide)%nat -> (medium wide i < 2)%nat) /\
  (cells blunt = cells wide /\ medium blunt = medium wide) /\ (forall i, (i < cells wide)%nat -> dx blunt i = dx wide i) /\
  rsum (angles blunt) (wt blunt) = rsum (angles wide) (wt wide) /\
  (forall g, (g < 2)%nat -> (fun g : nat => g) g = g /\ (fun _ : nat => 1) g = 1 /\ tick_speed g = tick_speed g) /\
  no_multiplication wide 2 tick_total (total_transfer tick_scatter no_fission) /\
  (forall i g, (i < cells wide)%nat -> (g < 2)%nat -> 0 <= tick_total (medium wide i) g) /\
  (forall g, (g < 2)%nat -> 0 < tick_speed g) /\
  (exists ft, hybrid_run two wide blunt 2 2 2 (growing 0) tick_total tick_total (Scatter3 tick_scatter) (Scatter3 blunt_scatter)
     no_fission no_fission tick_speed tick_speed (growing_ext dt) (growing_bnd dt) (fun g => g) (fun _ => 1) 3 dt 1 = Ok ft) /\
  source_rows wide 2 0 dt 3 (step_row (growing_ext dt)) growing_source /\ inflow_rows wide 2 0 dt 3 (step_row (growing_bnd dt)) growing_inflow /\
  smooth_in_time two wide 2 0 (time_at 0 dt 3) 2 0 growing growing_slope /\
  evolves wide 2 tick_speed tick_total (total_transfer tick_scatter no_fission) growing_source growing_inflow 0 (time_at 0 dt 3) growing growing_slope /\
  exists B, 0 <= B /\ forall t, 0 <= t <= time_at 0 dt 3 -> density_norm wide 2 tick_speed (growing t) <= B.
Proof. exact (kept_case two dt). Qed.
Print Assumptions C150_kept_case.

(* the same for runs that change their ordinates from step to step *)
Theorem C150_variable_kept_resolved_partial :
  forall (two : bool) (P : sn) (leggauss : nat -> vec * vec) (stock : nat -> nat * vec)
      (table : nat -> nat -> option (nat -> nat)) (grid G : nat) (groups_c angles_c : per_step) 
      (Tu : mat2) (s f : mat3) (vu : vec),
    sound_slab P ->
    angles P <> 1%nat ->
    no_multiplication P G Tu (fun m o i : nat => s m o i + f m o i) ->
    (forall g : nat, (g < G)%nat -> 0 < vu g) ->
    monotone_edges (fst (stock grid)) (snd (stock grid)) ->
    (forall k gc : nat, count_at groups_c k gc -> gc = G) ->
    (forall (ci : nat -> nat) (fac : vec) (idx : nat -> nat) (e : vec),
     energy_grid_change stock table grid G G = Ok (ci, fac, idx, e) -> partition G G idx) ->
    (forall (ed : vec) (fine : nat -> nat) (coarse : option (nat -> nat)),
     energy_grid stock table grid G (Some G) true = Ok (ed, fine, coarse) ->
     partition (fst (stock grid)) G fine) ->
    (forall (k ac : nat) (xw : vec * vec),
     count_at angles_c k ac ->
     angular_x leggauss ac [bc_left P; bc_right P] = Ok xw ->
     sound_slab (with_angles P ac (fst xw) (snd xw)) /\ rsum ac (snd xw) = rsum (angles P) (wt P)) ->
    exists dt0 K : R,
      0 < dt0 /\
      0 <= K /\
      (forall (start : mat3) (external boundary : arr4) (steps : nat) (dt : R) (ft : nat -> mat2),
       0 < dt ->
       dt <= dt0 ->
       vhybrid_run two P leggauss stock table grid G groups_c angles_c start Tu s f vu external boundary
         steps dt 1 = Ok ft ->
       exists (psi : nat -> mat3) (emit : nat -> mat2),
         psi 0%nat = start /\
         time_history two P G vu dt Tu (fun m o i : nat => s m o i + f m o i) (step_row external)
           (step_row boundary) steps psi emit /\
         (forall k : nat,
          (k < steps)%nat ->
          ft k = scalar_flux P (psi (S k)) /\
          source_norm P G vu (unresolved P G (fun m o i : nat => s m o i + f m o i) (emit k) (psi (S k))) <=
          K * dt ^ 2 * density_norm P G vu (psi (S k)))).
Proof. exact @variable_kept_resolved. Qed.
Print Assumptions C150_variable_kept_resolved_partial.
Theorem C150_variable_kept_partial :
  forall (two : bool) (P : sn) (leggauss : nat -> vec * vec) (stock : nat -> nat * vec)
      (table : nat -> nat -> option (nat -> nat)) (grid G : nat) (groups_c angles_c : per_step) 
      (Tu : mat2) (s f : mat3) (vu : vec),
    sound_slab P ->
    angles P <> 1%nat ->
    no_multiplication P G Tu (fun m o i : nat => s m o i + f m o i) ->
    (forall g : nat, (g < G)%nat -> 0 < vu g) ->
    monotone_edges (fst (stock grid)) (snd (stock grid)) ->
    (forall k gc : nat, count_at groups_c k gc -> gc = G) ->
    (forall (ci : nat -> nat) (fac : vec) (idx : nat -> nat) (e : vec),
     energy_grid_change stock table grid G G = Ok (ci, fac, idx, e) -> partition G G idx) ->
    (forall (ed : vec) (fine : nat -> nat) (coarse : option (nat -> nat)),
     energy_grid stock table grid G (Some G) true = Ok (ed, fine, coarse) ->
     partition (fst (stock grid)) G fine) ->
    (forall (k ac : nat) (xw : vec * vec),
     count_at angles_c k ac ->
     angular_x leggauss ac [bc_left P; bc_right P] = Ok xw ->
     sound_slab (with_angles P ac (fst xw) (snd xw)) /\ rsum ac (snd xw) = rsum (angles P) (wt P)) ->
    forall T : R,
    0 <= T ->
    exists dt0 K : R,
      0 < dt0 /\
      0 <= K /\
      (forall (start : mat3) (external boundary : arr4) (steps : nat) (dt : R) (ft : nat -> mat2),
       0 < dt ->
       dt <= dt0 ->
       INR steps * dt <= T ->
       vhybrid_run two P leggauss stock table grid G groups_c angles_c start Tu s f vu external boundary
         steps dt 1 = Ok ft ->
       forall (source inflow : R -> arr3) (t0 M2 M3 B : R) (flux slope : R -> mat3),
       0 <= M2 ->
       0 <= M3 ->
       0 <= B ->
       source_rows P G t0 dt steps (step_row external) source ->
       inflow_rows P G t0 dt steps (step_row boundary) inflow ->
       smooth_in_time two P G t0 (time_at t0 dt steps) M2 M3 flux slope ->
       evolves P G vu Tu (fun m o i : nat => s m o i + f m o i) source inflow t0 
         (time_at t0 dt steps) flux slope ->
       (forall t : R, t0 <= t <= time_at t0 dt steps -> density_norm P G vu (flux t) <= B) ->
       forall k : nat,
       (k < steps)%nat ->
       sqrt
         (rsum G
            (fun g : nat =>
             rsum (cells P)
               (fun i : nat => dx P i * (ft k i g - scalar_flux P (flux (time_at t0 dt (S k))) i g)² / vu g))) <=
       sqrt (rsum (angles P) (wt P)) *
       (2 *
        ((if two then sqrt 2 else 1) * density_norm P G vu (minus3 start (flux t0)) +
         time_error two dt (INR (S k) * dt) M2 M3 * density_norm P G vu unit_flux)) +
       K * dt ^ 2 * (INR (S k) * dt * B)).
Proof. exact @variable_kept_order. Qed.
Print Assumptions C150_variable_kept_partial.
Theorem C150_kept_grids_partial :
  forall stock table grid G,
  (1 <= G <= fst (stock grid))%nat ->
  (forall idx, table grid G = Some idx -> partition (fst (stock grid)) G idx /\ partition G G idx) ->
  (forall ci fac idx e, energy_grid_change stock table grid G G = Ok (ci, fac, idx, e) -> partition G G idx) /\
  (forall ed fine coarse, energy_grid stock table grid G (Some G) true = Ok (ed, fine, coarse) -> partition (fst (stock grid)) G fine).
Proof. exact kept_partition. Qed.
Print Assumptions C150_kept_grids_partial.
Theorem C150_kept_ordinates_partial :
  forall P leggauss angles_c,
  sound_slab P -> rsum (angles P) (wt P) = 1 -> (bc_left P + bc_right P <= 1)%nat ->
  (forall k ac, count_at angles_c k ac -> exists h, (ac = 2 * h)%nat /\ (0 < h)%nat /\ gauss_pairs ac (fst (leggauss ac)) (snd (leggauss ac))) ->
  forall k ac xw, count_at angles_c k ac -> angular_x leggauss ac [bc_left P; bc_right P] = Ok xw ->
  sound_slab (with_angles P ac (fst xw) (snd xw)) /\ rsum ac (snd xw) = rsum (angles P) (wt P).
Proof. exact quads_weight. Qed.
Print Assumptions C150_kept_ordinates_partial.
Example C150_variable_kept_case two dt : 0 < dt ->
  sound_slab wide /\ angles wide <> 1%nat /\ no_multiplication wide 2 tick_total (fun m o i => tick_scatter m o i + 0) /\
  (forall g, (g < 2)%nat -> 0 < tick_speed g) /\ monotone_edges (fst (uneven87 87)) (snd (uneven87 87)) /\
  (forall k gc, count_at (Const 2) k gc -> gc = 2%nat) /\
  (forall ci fac idx e, energy_grid_change uneven87 no_table 87 2 2 = Ok (ci, fac, idx, e) -> partition 2 2 idx) /\
  (forall ed fine coarse, energy_grid uneven87 no_table 87 2 (Some 2%nat) true = Ok (ed, fine, coarse) -> partition (fst (uneven87 87)) 2 fine) /\
  (forall k ac xw, count_at (Const 2) k ac -> angular_x two_point ac [bc_left wide; bc_right wide] = Ok xw ->
     sound_slab (with_angles wide ac (fst xw) (snd xw)) /\ rsum ac (snd xw) = rsum (angles wide) (wt wide)) /\
  (exists ft, vhybrid_run two wide two_point uneven87 no_table 87 2 (Const 2) (Const 2) (growing 0) tick_total tick_scatter (fun _ _ _ => 0)
    tick_speed (growing_ext dt) (growing_bnd dt) 3 dt 1 = Ok ft) /\
  source_rows wide 2 0 dt 3 (step_row (growing_ext dt)) growing_source /\ inflow_rows wide 2 0 dt 3 (step_row (growing_bnd dt)) growing_inflow /\
  smooth_in_time two wide 2 0 (time_at 0 dt 3) 2 0 growing growing_slope /\
  evolves wide 2 tick_speed tick_total (fun m o i => tick_scatter m o i + 0) growing_source growing_inflow 0 (time_at 0 dt 3) growing growing_slope /\
  exists B, 0 <= B /\ forall t, 0 <= t <= time_at 0 dt 3 -> density_norm wide 2 tick_speed (growing t) <= B.
Proof. exact (keeping_case two dt). Qed.
Print Assumptions C150_variable_kept_case.

(** ** C151 Hybrid runs that change their energy groups and ordinates from step to step are stable and first order in time *)
Theorem C151_resolved :
  forall (two : bool) (P : sn) (leggauss : nat -> vec * vec) (stock : nat -> nat * vec)
      (table : nat -> nat -> option (nat -> nat)) (grid G : nat) (groups_c angles_c : per_step) 
      (Tu : mat2) (s f : mat3) (vu : vec),
    sound_slab P ->
    angles P <> 1%nat ->
    no_multiplication P G Tu (fun m o i : nat => s m o i + f m o i) ->
    (forall g : nat, (g < G)%nat -> 0 < vu g) ->
    monotone_edges G (snd (stock grid)) ->
    (forall (k gc : nat) (ci : nat -> nat) (fac : vec) (idx : nat -> nat) (e : vec),
     count_at groups_c k gc ->
     energy_grid_change stock table grid G gc = Ok (ci, fac, idx, e) -> partition G gc idx) ->
    (forall (k ac : nat) (xw : vec * vec),
     count_at angles_c k ac ->
     angular_x leggauss ac [bc_left P; bc_right P] = Ok xw ->
     sound_slab (with_angles P ac (fst xw) (snd xw))) ->
    exists dt0 K : R,
      0 < dt0 /\
      0 <= K /\
      (forall (start : mat3) (external boundary : arr4) (steps : nat) (dt : R) (ft : nat -> mat2),
       0 < dt ->
       dt <= dt0 ->
       vhybrid_run two P leggauss stock table grid G groups_c angles_c start Tu s f vu external boundary
         steps dt 1 = Ok ft ->
       exists (psi : nat -> mat3) (emit : nat -> mat2),
         psi 0%nat = start /\
         time_history two P G vu dt Tu (fun m o i : nat => s m o i + f m o i) (step_row external)
           (step_row boundary) steps psi emit /\
         (forall k : nat,
          (k < steps)%nat ->
          ft k = scalar_flux P (psi (S k)) /\
          source_norm P G vu (unresolved P G (fun m o i : nat => s m o i + f m o i) (emit k) (psi (S k))) <=
          K * dt * density_norm P G vu (psi (S k)))).
Proof. exact @variable_resolved. Qed.
Print Assumptions C151_resolved.
Theorem C151_stable :
  forall (two : bool) (P : sn) (leggauss : nat -> vec * vec) (stock : nat -> nat * vec)
      (table : nat -> nat -> option (nat -> nat)) (grid G : nat) (groups_c angles_c : per_step) 
      (Tu : mat2) (s f : mat3) (vu : vec),
    sound_slab P ->
    angles P <> 1%nat ->
    no_multiplication P G Tu (fun m o i : nat => s m o i + f m o i) ->
    (forall g : nat, (g < G)%nat -> 0 < vu g) ->
    monotone_edges G (snd (stock grid)) ->
    (forall (k gc : nat) (ci : nat -> nat) (fac : vec) (idx : nat -> nat) (e : vec),
     count_at groups_c k gc ->
     energy_grid_change stock table grid G gc = Ok (ci, fac, idx, e) -> partition G gc idx) ->
    (forall (k ac : nat) (xw : vec * vec),
     count_at angles_c k ac ->
     angular_x leggauss ac [bc_left P; bc_right P] = Ok xw ->
     sound_slab (with_angles P ac (fst xw) (snd xw))) ->
    forall T : R,
    0 <= T ->
    exists dt0 : R,
      0 < dt0 /\
      (forall (start : mat3) (external boundary : arr4) (steps : nat) (dt : R) (ft : nat -> mat2),
       0 < dt ->
       dt <= dt0 ->
       INR steps * dt <= T ->
       (forall k m g : nat,
        (k < steps)%nat ->
        (m < angles P)%nat -> (g < G)%nat -> mg_boundary (step_row boundary k) (mu P) g m = 0) ->
       vhybrid_run two P leggauss stock table grid G groups_c angles_c start Tu s f vu external boundary
         steps dt 1 = Ok ft ->
       forall k : nat,
       (k < steps)%nat ->
       sqrt (rsum G (fun g : nat => rsum (cells P) (fun i : nat => dx P i * (ft k i g)² / vu g))) <=
       sqrt (rsum (angles P) (wt P)) *
       (2 *
        ((if two then sqrt 2 else 1) * density_norm P G vu start +
         (if two then 6 else 1) * dt *
         rsum (S k)
           (fun j : nat =>
            source_norm P G vu
              (fun i m g : nat =>
               at3 (step_row external j) i (bidx (d4b external) m) (bidx (d4c external) g)))))).
Proof. exact @variable_stable. Qed.
Print Assumptions C151_stable.
Theorem C151_exact :
  forall (two : bool) (P : sn) (leggauss : nat -> vec * vec) (stock : nat -> nat * vec)
      (table : nat -> nat -> option (nat -> nat)) (grid G : nat) (groups_c angles_c : per_step) 
      (Tu : mat2) (s f : mat3) (vu : vec),
    sound_slab P ->
    angles P <> 1%nat ->
    no_multiplication P G Tu (fun m o i : nat => s m o i + f m o i) ->
    (forall g : nat, (g < G)%nat -> 0 < vu g) ->
    monotone_edges G (snd (stock grid)) ->
    (forall (k gc : nat) (ci : nat -> nat) (fac : vec) (idx : nat -> nat) (e : vec),
     count_at groups_c k gc ->
     energy_grid_change stock table grid G gc = Ok (ci, fac, idx, e) -> partition G gc idx) ->
    (forall (k ac : nat) (xw : vec * vec),
     count_at angles_c k ac ->
     angular_x leggauss ac [bc_left P; bc_right P] = Ok xw ->
     sound_slab (with_angles P ac (fst xw) (snd xw))) ->
    forall T : R,
    0 <= T ->
    exists dt0 K : R,
      0 < dt0 /\
      0 <= K /\
      (forall (start : mat3) (external boundary : arr4) (steps : nat) (dt : R) (ft : nat -> mat2)
         (exact : nat -> mat3),
       0 < dt ->
       dt <= dt0 ->
       INR steps * dt <= T ->
       vhybrid_run two P leggauss stock table grid G groups_c angles_c start Tu s f vu external boundary
         steps dt 1 = Ok ft ->
       exact 0%nat = start ->
       exact_history two P G vu dt Tu (fun m o i : nat => s m o i + f m o i) (step_row external)
         (step_row boundary) steps exact ->
       forall k : nat,
       (k < steps)%nat ->
       sqrt
         (rsum G
            (fun g : nat =>
             rsum (cells P) (fun i : nat => dx P i * (ft k i g - scalar_flux P (exact (S k)) i g)² / vu g))) <=
       K * dt * (dt * rsum (S k) (fun j : nat => density_norm P G vu (exact (S j))))).
Proof. exact @variable_exact. Qed.
Print Assumptions C151_exact.
Theorem C151_order :
  forall (two : bool) (P : sn) (leggauss : nat -> vec * vec) (stock : nat -> nat * vec)
      (table : nat -> nat -> option (nat -> nat)) (grid G : nat) (groups_c angles_c : per_step) 
      (Tu : mat2) (s f : mat3) (vu : vec),
    sound_slab P ->
    angles P <> 1%nat ->
    no_multiplication P G Tu (fun m o i : nat => s m o i + f m o i) ->
    (forall g : nat, (g < G)%nat -> 0 < vu g) ->
    monotone_edges G (snd (stock grid)) ->
    (forall (k gc : nat) (ci : nat -> nat) (fac : vec) (idx : nat -> nat) (e : vec),
     count_at groups_c k gc ->
     energy_grid_change stock table grid G gc = Ok (ci, fac, idx, e) -> partition G gc idx) ->
    (forall (k ac : nat) (xw : vec * vec),
     count_at angles_c k ac ->
     angular_x leggauss ac [bc_left P; bc_right P] = Ok xw ->
     sound_slab (with_angles P ac (fst xw) (snd xw))) ->
    forall T : R,
    0 <= T ->
    exists dt0 K : R,
      0 < dt0 /\
      0 <= K /\
      (forall (start : mat3) (external boundary : arr4) (steps : nat) (dt : R) (ft : nat -> mat2),
       0 < dt ->
       dt <= dt0 ->
       INR steps * dt <= T ->
       vhybrid_run two P leggauss stock table grid G groups_c angles_c start Tu s f vu external boundary
         steps dt 1 = Ok ft ->
       forall (source inflow : R -> arr3) (t0 M2 M3 B : R) (flux slope : R -> mat3),
       0 <= M2 ->
       0 <= M3 ->
       0 <= B ->
       source_rows P G t0 dt steps (step_row external) source ->
       inflow_rows P G t0 dt steps (step_row boundary) inflow ->
       smooth_in_time two P G t0 (time_at t0 dt steps) M2 M3 flux slope ->
       evolves P G vu Tu (fun m o i : nat => s m o i + f m o i) source inflow t0 
         (time_at t0 dt steps) flux slope ->
       (forall t : R, t0 <= t <= time_at t0 dt steps -> density_norm P G vu (flux t) <= B) ->
       forall k : nat,
       (k < steps)%nat ->
       sqrt
         (rsum G
            (fun g : nat =>
             rsum (cells P)
               (fun i : nat => dx P i * (ft k i g - scalar_flux P (flux (time_at t0 dt (S k))) i g)² / vu g))) <=
       sqrt (rsum (angles P) (wt P)) *
       (2 *
        ((if two then sqrt 2 else 1) * density_norm P G vu (minus3 start (flux t0)) +
         time_error two dt (INR (S k) * dt) M2 M3 * density_norm P G vu unit_flux)) +
       K * dt * (INR (S k) * dt * B)).
Proof. exact @variable_order. Qed.
Print Assumptions C151_order.
(** the two conditions on the coarse grids: even numbers of Gauss ordinates, packaged tables that are partitions *)
Theorem C151_grids :
  forall stock table grid G groups_c,
  (forall k gc, count_at groups_c k gc -> (1 <= gc <= G)%nat /\ (forall idx, table grid gc = Some idx -> partition G gc idx)) ->
  forall k gc ci fac idx e, count_at groups_c k gc ->
  energy_grid_change stock table grid G gc = Ok (ci, fac, idx, e) -> partition G gc idx.
Proof. exact grids_partition. Qed.
Print Assumptions C151_grids.
Theorem C151_ordinates :
  forall P leggauss angles_c,
  sound_slab P -> (bc_left P + bc_right P <= 1)%nat ->
  (forall k ac, count_at angles_c k ac -> exists h, (ac = 2 * h)%nat /\ (0 < h)%nat /\ gauss_pairs ac (fst (leggauss ac)) (snd (leggauss ac))) ->
  forall k ac xw, count_at angles_c k ac -> angular_x leggauss ac [bc_left P; bc_right P] = Ok xw ->
  sound_slab (with_angles P ac (fst xw) (snd xw)).
Proof. exact quads_sound. Qed.
Print Assumptions C151_ordinates.
(** one coarse group at the first step and two afterwards: the flux t^2 on the thick slab *)
Example C151_settings :
  (forall k gc, count_at shifting k gc -> (1 <= gc <= 2)%nat /\ (forall idx, no_table 87 gc = Some idx -> partition 2 gc idx)) /\
  (forall k ac, count_at (Const 2) k ac -> exists h, (ac = 2 * h)%nat /\ (0 < h)%nat /\ gauss_pairs ac (fst (two_point ac)) (snd (two_point ac))) /\
  (bc_left wide + bc_right wide <= 1)%nat /\ monotone_edges 2 (snd (uneven87 87)).
Proof. exact shifting_setting. Qed.
Example C151_case two dt : 0 < dt ->
  sound_slab wide /\ angles wide <> 1%nat /\ no_multiplication wide 2 tick_total (fun m o i => tick_scatter m o i + 0) /\
  (forall g, (g < 2)%nat -> 0 < tick_speed g) /\ monotone_edges 2 (snd (uneven87 87)) /\
  (forall k gc ci fac idx e, count_at shifting k gc -> energy_grid_change uneven87 no_table 87 2 gc = Ok (ci, fac, idx, e) -> partition 2 gc idx) /\
  (forall k ac xw, count_at (Const 2) k ac -> angular_x two_point ac [bc_left wide; bc_right wide] = Ok xw ->
     sound_slab (with_angles wide ac (fst xw) (snd xw))) /\
  (exists ft, vhybrid_run two wide two_point uneven87 no_table 87 2 shifting (Const 2) (growing 0) tick_total tick_scatter (fun _ _ _ => 0)
    tick_speed (growing_ext dt) (growing_bnd dt) 3 dt 1 = Ok ft) /\
  source_rows wide 2 0 dt 3 (step_row (growing_ext dt)) growing_source /\ inflow_rows wide 2 0 dt 3 (step_row (growing_bnd dt)) growing_inflow /\
  smooth_in_time two wide 2 0 (time_at 0 dt 3) 2 0 growing growing_slope /\
  evolves wide 2 tick_speed tick_total (fun m o i => tick_scatter m o i + 0) growing_source growing_inflow 0 (time_at 0 dt 3) growing growing_slope /\
  exists B, 0 <= B /\ forall t, 0 <= t <= time_at 0 dt 3 -> density_norm wide 2 tick_speed (growing t) <= B.
Proof. exact (shifting_case two dt). Qed.
Example C151_closed_case two dt : 0 < dt ->
  (forall k m g, (k < 3)%nat -> (m < angles wide)%nat -> (g < 2)%nat -> mg_boundary (step_row closed_bnd k) (mu wide) g m = 0) /\
  (exists ft, vhybrid_run two wide two_point uneven87 no_table 87 2 shifting (Const 2) tick_start tick_total tick_scatter (fun _ _ _ => 0)
    tick_speed tick_ext closed_bnd 3 dt 1 = Ok ft) /\
  exists exact : nat -> mat3, exact 0%nat = tick_start /\
    exact_history two wide 2 tick_speed dt tick_total (fun m o i => tick_scatter m o i + 0) (step_row tick_ext) (step_row closed_bnd) 3 exact.
Proof. exact (shifting_closed_case two dt). Qed.
