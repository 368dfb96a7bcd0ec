(** Property theorems from energy estimates (C122-C125): nothing here asks the mesh to be fine.
    Vocabulary: EnSpec.v, TimeSpec.v, MgSpec.v, SlabSpec.v; [timed_run] (TimeModel.v) is backward Euler for [false]
    and BDF2 for [true]; [source_iteration_iso] (MgModel.v), [slab_isotropic_sn] (SlabModel.v) are the steady drivers. *)
From Coq Require Import Lra Lia.
From Verif Require Import Base BaseFacts SlabModel SlabSpec SlabWitness MgModel MgSpec MgWitness TimeModel TimeSpec TimeWitness.
From Verif Require Import EnSpec EnFacts EnFacts2 EnFacts3 EnFacts4 EnFacts5 EnFacts6 EnFacts7 EnWitness.
Open Scope R_scope.

(** ** C122 Time stepping is unconditionally stable *)
Theorem C122_histories :
  forall two P G velocity dt xs_total transfer ext ext' bnd steps psi psi' emit emit',
  sound_slab P -> no_multiplication P G xs_total transfer -> (forall g, (g < G)%nat -> 0 < velocity g) -> 0 < dt ->
  time_history two P G velocity dt xs_total transfer ext bnd steps psi emit ->
  time_history two P G velocity dt xs_total transfer ext' bnd steps psi' emit' ->
  forall k, (k <= steps)%nat ->
  density_norm P G velocity (minus3 (psi k) (psi' k)) <=
    (if two then sqrt 2 else 1) * density_norm P G velocity (minus3 (psi 0%nat) (psi' 0%nat))
    + (if two then 6 else 1) * dt * rsum k (fun j => source_norm P G velocity
        (minus3 (step_input P G transfer (ext j) (emit j) (psi (S j))) (step_input P G transfer (ext' j) (emit' j) (psi' (S j))))).
Proof. exact stability. Qed.
Print Assumptions C122_histories.
Theorem C122_runs :
  forall two P materials groups flux flux' xs_total s f velocity external external' boundary steps dt ft ft',
  sound_slab P -> no_multiplication P groups xs_total (total_transfer s f) -> angles P <> 1%nat ->
  (forall i, (i < cells P)%nat -> (medium P i < materials)%nat) ->
  (forall g, (g < groups)%nat -> 0 < velocity g) -> 0 < dt ->
  timed_run two P materials groups flux xs_total (Scatter3 s) f velocity external boundary steps dt 1 = Ok ft ->
  timed_run two P materials groups flux' xs_total (Scatter3 s) f velocity external' boundary steps dt 1 = Ok ft' ->
  exists psi psi' : nat -> mat3, psi 0%nat = flux /\ psi' 0%nat = flux' /\
    time_history two P groups velocity dt xs_total (total_transfer s f) (step_row external) (step_row boundary) steps psi ft /\
    time_history two P groups velocity dt xs_total (total_transfer s f) (step_row external') (step_row boundary) steps psi' ft' /\
    forall k, (k <= steps)%nat ->
      density_norm P groups velocity (minus3 (psi k) (psi' k)) <=
        (if two then sqrt 2 else 1) * density_norm P groups velocity (minus3 flux flux')
        + (if two then 6 else 1) * dt * rsum k (fun j => source_norm P groups velocity
            (minus3 (step_input P groups (total_transfer s f) (step_row external j) (ft j) (psi (S j)))
                    (step_input P groups (total_transfer s f) (step_row external' j) (ft' j) (psi' (S j))))).
Proof. exact runs_stable. Qed.
Print Assumptions C122_runs.
Theorem C122_bounded :
  forall two P materials groups flux xs_total s f velocity external boundary steps dt ft,
  sound_slab P -> no_multiplication P groups xs_total (total_transfer s f) -> angles P <> 1%nat ->
  (forall i, (i < cells P)%nat -> (medium P i < materials)%nat) ->
  (forall g, (g < groups)%nat -> 0 < velocity g) -> 0 < dt ->
  (forall k m g, (k < steps)%nat -> (m < angles P)%nat -> (g < groups)%nat -> mg_boundary (step_row boundary k) (mu P) g m = 0) ->
  timed_run two P materials groups flux xs_total (Scatter3 s) f velocity external boundary steps dt 1 = Ok ft ->
  exists psi : nat -> mat3, psi 0%nat = flux /\
    time_history two P groups velocity dt xs_total (total_transfer s f) (step_row external) (step_row boundary) steps psi ft /\
    forall k, (k <= steps)%nat ->
      density_norm P groups velocity (psi k) <= (if two then sqrt 2 else 1) * density_norm P groups velocity flux
        + (if two then 6 else 1) * dt * rsum k (fun j => source_norm P groups velocity
            (step_input P groups (total_transfer s f) (step_row external j) (ft j) (psi (S j)))).
Proof. exact run_bounded. Qed.
Print Assumptions C122_bounded.
Theorem C122_decay :
  forall two P G velocity dt xs_total transfer ext bnd steps psi psi',
  sound_slab P -> no_multiplication P G xs_total transfer -> (forall g, (g < G)%nat -> 0 < velocity g) -> 0 < dt ->
  exact_history two P G velocity dt xs_total transfer ext bnd steps psi ->
  exact_history two P G velocity dt xs_total transfer ext bnd steps psi' ->
  (forall k, (k <= steps)%nat ->
     density_norm P G velocity (minus3 (psi k) (psi' k)) <= (if two then sqrt 2 else 1) * density_norm P G velocity (minus3 (psi 0%nat) (psi' 0%nat))) /\
  (two = false -> forall k, (k < steps)%nat ->
     density_norm P G velocity (minus3 (psi (S k)) (psi' (S k))) <= density_norm P G velocity (minus3 (psi k) (psi' k))).
Proof. exact exact_histories_decay. Qed.
Print Assumptions C122_decay.
Theorem C122_scalar :
  forall P groups velocity psi,
  sound_slab P -> (forall g, (g < groups)%nat -> 0 < velocity g) ->
  sqrt (rsum groups (fun g => rsum (cells P) (fun i => dx P i * Rsqr (scalar_flux P psi i g) / velocity g)))
  <= sqrt (rsum (angles P) (wt P)) * density_norm P groups velocity psi.
Proof. exact scalar_norm. Qed.
Print Assumptions C122_scalar.
Example C122_case : sound_slab wide /\ no_multiplication wide 2 tick_total (total_transfer tick_scatter no_fission) /\
  ~ mg_thin wide 2 duo_total /\ (forall g, (g < 2)%nat -> 0 < tick_speed g) /\
  forall two, (exists ft, timed_run two wide 2 2 tick_start tick_total (Scatter3 tick_scatter) no_fission tick_speed tick_ext tick_bnd 3 4 1 = Ok ft) /\
    (exists ft, timed_run two wide 2 2 other_start tick_total (Scatter3 tick_scatter) no_fission tick_speed other_ext tick_bnd 3 4 1 = Ok ft) /\
    (exists ft, timed_run two wide 2 2 tick_start tick_total (Scatter3 tick_scatter) no_fission tick_speed tick_ext closed_bnd 3 4 1 = Ok ft) /\
    density_norm wide 2 tick_speed (minus3 tick_start other_start) <> 0.
Proof.
  split; [exact wide_sound|]. split; [exact tick_no_multiplication|]. split; [exact wide_thick|]. split; [intros; unfold tick_speed; lra|].
  intros two. split; [apply wide_runs; [apply tick_rows|split; [left|right]; reflexivity]|]. split; [apply wide_runs_other|]. split; [apply wide_runs_closed|].
  unfold density_norm. intros H. apply sqrt_eq_0 in H; [|]; revert H || idtac; unfold total3, minus3, tick_start, other_start, tick_speed, Rsqr; cbn; intros; lra.
Qed.

(** ** C123 Every problem of a step has exactly one solution *)
Theorem C123_step :
  forall two P G velocity dt xs_total transfer ext bnd psi k,
  sound_slab P -> no_multiplication P G xs_total transfer -> (forall g, (g < G)%nat -> 0 < velocity g) -> 0 < dt ->
  exists sol, exact_step P G velocity xs_total transfer ext bnd (run_derivative two dt psi k) sol /\
    forall other, exact_step P G velocity xs_total transfer ext bnd (run_derivative two dt psi k) other -> agree2 (cells P) G other sol.
Proof. exact exact_step_exactly_one. Qed.
Print Assumptions C123_step.
Theorem C123_steady :
  forall P G xs_total xs_scatter external boundary,
  sound_slab P -> absorbing P G xs_total xs_scatter ->
  exists sol, mg_solution P G xs_total xs_scatter external boundary sol /\
    forall other, mg_solution P G xs_total xs_scatter external boundary other -> agree2 (cells P) G other sol.
Proof. exact steady_exactly_one. Qed.
Print Assumptions C123_steady.
Theorem C123_history :
  forall (two : bool) (P : sn) (G : nat) (velocity : vec) (dt : R) (xs_total : mat2) (transfer : mat3),
    sound_slab P ->
    no_multiplication P G xs_total transfer ->
    (forall g : nat, (g < G)%nat -> 0 < velocity g) ->
    0 < dt ->
    forall (ext bnd : nat -> arr3) (flux : mat3) (steps : nat),
    exists psi : nat -> mat3,
      psi 0%nat = flux /\ exact_history two P G velocity dt xs_total transfer ext bnd steps psi.
Proof. exact @exact_history_exists. Qed.
Print Assumptions C123_history.
Theorem C123_history_unique :
  forall (two : bool) (P : sn) (G : nat) (velocity : vec) (dt : R) (xs_total : mat2) (transfer : mat3),
    sound_slab P ->
    no_multiplication P G xs_total transfer ->
    (forall g : nat, (g < G)%nat -> 0 < velocity g) ->
    0 < dt ->
    forall (ext bnd : nat -> arr3) (flux : mat3) (steps : nat) (psi psi' : nat -> mat3),
    psi 0%nat = flux ->
    psi' 0%nat = flux ->
    exact_history two P G velocity dt xs_total transfer ext bnd steps psi ->
    exact_history two P G velocity dt xs_total transfer ext bnd steps psi' ->
    forall k : nat, (k <= steps)%nat -> agree2 (cells P) G (scalar_flux P (psi k)) (scalar_flux P (psi' k)).
Proof. exact @exact_history_unique. Qed.
Print Assumptions C123_history_unique.
Example C123_case : sound_slab wide /\ absorbing wide 2 duo_total duo_scatter /\ ~ mg_thin wide 2 duo_total /\
  no_multiplication wide 2 tick_total (total_transfer tick_scatter no_fission).
Proof. split; [exact wide_sound|]. split; [exact wide_absorbing|]. split; [exact wide_thick|exact tick_no_multiplication]. Qed.

(** ** C124 Source iteration converges on every mesh *)
Theorem C124_within_group :
  forall P xs_total xs_scatter off external boundary c flux_old flux sol,
  sound_slab P -> (forall i, (i < cells P)%nat -> 0 <= xs_total (medium P i)) -> 0 <= c ->
  (forall i, (i < cells P)%nat -> Rabs (xs_scatter (medium P i)) <= c * xs_total (medium P i)) ->
  slab_isotropic_sn P flux_old xs_total xs_scatter off external boundary 0 = Ok flux ->
  (exists r, slab_iso_pass P xs_total xs_scatter off external boundary 0 sol = Ok r /\ forall i, (i < cells P)%nat -> r i = sol i) ->
  exists n, (1 <= n <= 100)%nat /\
    reaction_norm P xs_total (fun i => flux i - sol i) <= (rsum (angles P) (wt P) * c) ^ n * reaction_norm P xs_total (fun i => flux_old i - sol i).
Proof. exact within_group_energy. Qed.
Print Assumptions C124_within_group.
Theorem C124_solution :
  forall P groups xs_total xs_scatter external boundary c,
  sound_slab P -> (forall i h, (i < cells P)%nat -> (h < groups)%nat -> 0 <= xs_total (medium P i) h) ->
  0 <= c -> rsum (angles P) (wt P) * c < 1 -> coupled_below P groups xs_total xs_scatter c ->
  exists sol, mg_solution P groups xs_total xs_scatter external boundary sol /\
    forall other, mg_solution P groups xs_total xs_scatter external boundary other -> agree2 (cells P) groups other sol.
Proof. exact coupled_exactly_one. Qed.
Print Assumptions C124_solution.
Theorem C124_sweep :
  forall (P : sn) (groups : nat) (xs_total : mat2) (xs_scatter : mat3) (c : R),
    sound_slab P ->
    (forall i h : nat, (i < cells P)%nat -> (h < groups)%nat -> 0 <= xs_total (medium P i) h) ->
    0 <= c ->
    rsum (angles P) (wt P) * c < 1 ->
    coupled_below P groups xs_total xs_scatter c ->
    forall (external boundary : arr3) (old new sol : mat2) (d : R),
    mg_solution P groups xs_total xs_scatter external boundary sol ->
    one_sweep_iso P groups xs_total xs_scatter external boundary 1 old = Ok new ->
    0 <= d ->
    near_energy P groups xs_total d old sol ->
    near_energy P groups xs_total (rsum (angles P) (wt P) * c * d) new sol.
Proof. exact @sweep_energy. Qed.
Print Assumptions C124_sweep.
Theorem C124_outer :
  forall (P : sn) (groups : nat) (xs_total : mat2) (xs_scatter : mat3) (c : R),
    sound_slab P ->
    (forall i h : nat, (i < cells P)%nat -> (h < groups)%nat -> 0 <= xs_total (medium P i) h) ->
    0 <= c ->
    rsum (angles P) (wt P) * c < 1 ->
    coupled_below P groups xs_total xs_scatter c ->
    forall (external boundary : arr3) (old flux sol : mat2),
    mg_solution P groups xs_total xs_scatter external boundary sol ->
    source_iteration_iso P groups old xs_total xs_scatter external boundary 1 = Ok flux ->
    exists n : nat,
      (1 <= n <= 100)%nat /\
      (forall d : R,
       0 <= d ->
       near_energy P groups xs_total d old sol ->
       near_energy P groups xs_total ((rsum (angles P) (wt P) * c) ^ n * d) flux sol) /\
      ((n < 100)%nat ->
       forall M : R,
       0 <= M ->
       near_energy P groups xs_total M flux (fun _ _ : nat => 0) ->
       near_energy P groups xs_total
         (rsum (angles P) (wt P) * c * (/ 10 ^ 8 * INR (cells P) * M) / (1 - rsum (angles P) (wt P) * c))
         flux sol).
Proof. exact @outer_energy. Qed.
Print Assumptions C124_outer.
Example C124_case : sound_slab wide /\ (forall i h, (i < cells wide)%nat -> (h < 2)%nat -> 0 <= duo_total (medium wide i) h) /\
  rsum (angles wide) (wt wide) * (3 / 8) < 1 /\ coupled_below wide 2 duo_total duo_scatter (3 / 8) /\ ~ mg_thin wide 2 duo_total.
Proof.
  split; [exact wide_sound|]. split; [intros i h Hi Hh; unfold duo_total; small i Hi; small h Hh; cbn; lra|].
  split; [cbn; lra|]. split; [exact wide_coupled|exact wide_thick].
Qed.

(** ** C125 The error of a run is the residual of its iterations *)
Theorem C125_run_error :
  forall two P materials groups flux xs_total s f velocity external boundary steps dt ft,
  sound_slab P -> no_multiplication P groups xs_total (total_transfer s f) -> angles P <> 1%nat ->
  (forall i, (i < cells P)%nat -> (medium P i < materials)%nat) ->
  (forall g, (g < groups)%nat -> 0 < velocity g) -> 0 < dt ->
  timed_run two P materials groups flux xs_total (Scatter3 s) f velocity external boundary steps dt 1 = Ok ft ->
  exists psi : nat -> mat3, psi 0%nat = flux /\
    time_history two P groups velocity dt xs_total (total_transfer s f) (step_row external) (step_row boundary) steps psi ft /\
    forall exact : nat -> mat3, exact 0%nat = flux ->
      exact_history two P groups velocity dt xs_total (total_transfer s f) (step_row external) (step_row boundary) steps exact ->
      forall k, (k <= steps)%nat ->
      density_norm P groups velocity (minus3 (psi k) (exact k)) <=
        (if two then 6 else 1) * dt * rsum k (fun j => source_norm P groups velocity
          (fun i _ g => rsum groups (fun h => total_transfer s f (medium P i) g h * (ft j i h - scalar_flux P (psi (S j)) i h)))).
Proof. exact run_error. Qed.
Print Assumptions C125_run_error.
Example C125_case : exists exact : nat -> mat3, exact 0%nat = tick_start /\
  exact_history true wide 2 tick_speed 4 tick_total (total_transfer tick_scatter no_fission) (step_row tick_ext) (step_row tick_bnd) 3 exact.
Proof.
  apply exact_history_exists; [exact wide_sound|exact tick_no_multiplication|intros; unfold tick_speed; lra|lra].
Qed.
