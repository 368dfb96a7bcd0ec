(** Property theorems of the time-dependent drivers (C38-C41, C83-C90).
    Vocabulary: TimeSpec.v, MgSpec.v, HybSpec.v, SlabSpec.v; [timed_run], [hybrid_run], [auto_run],
    [vhybrid_run] (TimeModel.v) are the drivers, backward Euler for [false] and BDF2 for [true]. *)
From Coq Require Import Lra Lia.
From Verif Require Import Base BaseFacts SlabModel SlabSpec SlabWitness SphereModel MgModel MgSpec MgWitness.
From Verif Require Import HybModel HybSpec HybWitness MainModel MainSpec MainWitness.
From Verif Require Import TimeModel TimeSpec TimeFacts TimeFacts2 TimeFacts3 TimeFacts4 TimeFacts5 TimeFacts6 TimeFacts7 TimeWitness.
Open Scope R_scope.

(** ** C38 Backward Euler *)
Theorem C38_backward_euler :
  forall P materials groups flux_last xs_total s f velocity external boundary steps dt ft,
  angles P <> 1%nat -> nonzero_ordinates (angles P) (mu P) ->
  (forall i, (i < cells P)%nat -> (medium P i < materials)%nat) ->
  (forall g, (g < groups)%nat -> velocity g <> 0) -> dt <> 0 ->
  mg_divisors P groups (effective_total 1 xs_total velocity dt) ->
  timed_backward_euler P materials groups flux_last xs_total (Scatter3 s) f velocity external boundary steps dt 1 = Ok ft ->
  exists psi : nat -> mat3, psi 0%nat = flux_last /\
    forall k, (k < steps)%nat -> exists E,
      step_equation P groups velocity xs_total (total_transfer s f) (step_row external k) (step_row boundary k)
        (euler_derivative dt (psi (S k)) (psi k)) (ft k) E (psi (S k)).
Proof. exact backward_euler_history. Qed.
Print Assumptions C38_backward_euler.
Example C38_case : angles demo <> 1%nat /\ nonzero_ordinates (angles demo) (mu demo) /\
  mg_divisors demo 2 (effective_total 1 tick_total tick_speed 4) /\
  exists ft, timed_backward_euler demo 2 2 tick_start tick_total (Scatter3 tick_scatter) no_fission tick_speed
    tick_ext tick_bnd 3 4 1 = Ok ft.
Proof.
  split; [cbn; lia|]. split; [exact demo_nonzero|]. split; [exact (tick_divisors false 0)|].
  apply (timed_total false demo 2 2 tick_start tick_total tick_scatter no_fission); [exact demo_nonzero| | |]; apply tick_rows.
Qed.

(** ** C39 BDF2 *)
Theorem C39_bdf2 :
  forall P materials groups flux_last xs_total s f velocity external boundary steps dt ft,
  angles P <> 1%nat -> nonzero_ordinates (angles P) (mu P) ->
  (forall i, (i < cells P)%nat -> (medium P i < materials)%nat) ->
  (forall g, (g < groups)%nat -> velocity g <> 0) -> dt <> 0 ->
  mg_divisors P groups (effective_total 1 xs_total velocity dt) ->
  mg_divisors P groups (effective_total (3 / 2) xs_total velocity dt) ->
  timed_bdf2 P materials groups flux_last xs_total (Scatter3 s) f velocity external boundary steps dt 1 = Ok ft ->
  exists psi : nat -> mat3, psi 0%nat = flux_last /\
    forall k, (k < steps)%nat -> exists E,
      step_equation P groups velocity xs_total (total_transfer s f) (step_row external k) (step_row boundary k)
        (if Nat.eqb k 0 then euler_derivative dt (psi 1%nat) (psi 0%nat)
         else bdf2_derivative dt (psi (k + 1)%nat) (psi k) (psi (k - 1)%nat))
        (ft k) E (psi (k + 1)%nat).
Proof. exact bdf2_history. Qed.
Print Assumptions C39_bdf2.
Example C39_case : mg_divisors demo 2 (effective_total (3 / 2) tick_total tick_speed 4) /\
  exists ft, timed_bdf2 demo 2 2 tick_start tick_total (Scatter3 tick_scatter) no_fission tick_speed
    tick_ext tick_bnd 3 4 1 = Ok ft.
Proof.
  split; [exact (tick_divisors true 1)|].
  apply (timed_total true demo 2 2 tick_start tick_total tick_scatter no_fission); [exact demo_nonzero| | |]; apply tick_rows.
Qed.

(** ** C40 Steady states *)
Theorem C40_steady_state :
  forall (two : bool) (P : sn) (materials groups : nat) (flux_last : mat3) (xs_total : mat2)
      (s : mat3) (f : fission_data) (velocity : nat -> R) (external boundary : arr4) 
      (ext bnd : arr3) (steps : nat) (dt : R),
    angles P <> 1%nat ->
    nonzero_ordinates (angles P) (mu P) ->
    (forall i : nat, (i < cells P)%nat -> (medium P i < materials)%nat) ->
    (forall g : nat, (g < groups)%nat -> velocity g <> 0) ->
    dt <> 0 ->
    (forall k : nat,
     (k < steps)%nat -> mg_divisors P groups (effective_total (run_weight two k) xs_total velocity dt)) ->
    rows_for external steps ->
    rows_for boundary steps ->
    broadcasts P groups external ->
    (forall k : nat, (k < steps)%nat -> step_row external k = ext /\ step_row boundary k = bnd) ->
    steady P groups xs_total (total_transfer s f) ext bnd flux_last ->
    exists ft : nat -> mat2,
      timed_run two P materials groups flux_last xs_total (Scatter3 s) f velocity external boundary steps dt
        1 = Ok ft /\
      (forall k : nat, (k < steps)%nat -> agree2 (cells P) groups (ft k) (scalar_flux P flux_last)).
Proof. exact timed_steady. Qed.
Print Assumptions C40_steady_state.
Example C40_case : steady demo 2 tick_total (total_transfer tick_scatter no_fission) (step_row steady_ext 0)
    (step_row steady_bnd 0) flat_psi /\
  (forall two k, step_row steady_ext k = step_row steady_ext 0 /\ step_row steady_bnd k = step_row steady_bnd 0 /\
     mg_divisors demo 2 (effective_total (run_weight two k) tick_total tick_speed 4)) /\
  rows_for steady_ext 9 /\ broadcasts demo 2 steady_ext.
Proof.
  split; [exact flat_steady|]. split; [intros two k; split; [reflexivity|split; [reflexivity|apply tick_divisors]]|].
  split; [left; reflexivity|]. split; [left; reflexivity|right; reflexivity].
Qed.

(** ** C41 Coefficients of the variable hybrid BDF2 *)
Theorem C41_same_source :
  forall two velocity dt step psi1 psi2 i n g,
  vhybrid_source two velocity dt step psi1 psi2 i n g
  = (if two then bdf2_source velocity dt step psi1 psi2 i n g else 1 / (velocity g * dt) * psi1 i n g).
Proof. exact vhybrid_source_timed. Qed.
Print Assumptions C41_same_source.
Theorem C41_same_collision_term :
  forall two step,
  vhybrid_num two step = run_weight two step.
Proof. exact vhybrid_num_weight. Qed.
Print Assumptions C41_same_collision_term.
Example C41_case : vhybrid_source true (fun _ => 2) 1 1%nat (fun _ _ _ => 3) (fun _ _ _ => 4) 0%nat 0%nat 0%nat = 2.
Proof. unfold vhybrid_source. cbn. lra. Qed.

(** ** C83 Time-dependent runs complete *)
Theorem C83_timed_completes :
  forall (two : bool) (P : sn) (materials groups : nat) (flux_last : mat3) (xs_total : mat2)
      (s : mat3) (f : fission_data) (velocity : vec) (external boundary : arr4) 
      (steps : nat) (dt : R),
    nonzero_ordinates (angles P) (mu P) ->
    rows_for external steps ->
    rows_for boundary steps ->
    broadcasts P groups external ->
    exists ft : nat -> mat2,
      timed_run two P materials groups flux_last xs_total (Scatter3 s) f velocity external boundary steps dt
        1 = Ok ft.
Proof. exact timed_total. Qed.
Print Assumptions C83_timed_completes.
Theorem C83_hybrid_completes :
  forall (two : bool) (P PC : sn) (materials groups groups_c : nat) (flux_last : mat3)
      (Tu Tc : mat2) (su sc : mat3) (fu fc : fission_data) (vu vc : vec) (external boundary : arr4)
      (ci : nat -> nat) (fac : vec) (steps : nat) (dt : R),
    nonzero_ordinates (angles PC) (mu PC) ->
    rows_for external steps ->
    rows_for boundary steps ->
    broadcasts P groups external ->
    exists ft : nat -> mat2,
      hybrid_run two P PC materials groups groups_c flux_last Tu Tc (Scatter3 su) 
        (Scatter3 sc) fu fc vu vc external boundary ci fac steps dt 1 = Ok ft.
Proof. exact hybrid_total. Qed.
Print Assumptions C83_hybrid_completes.
Theorem C83_variable_completes :
  forall two P leggauss stock table grid n edges groups groups_c angles_c flux_last T s f v external boundary steps dt,
  known_grid grid = true -> stock grid = (n, edges) -> (groups <= n)%nat -> (0 < steps)%nat ->
  (forall k, (k < steps)%nat -> exists gc, count_at groups_c k gc /\ (1 <= gc <= groups)%nat) ->
  (forall k, (k < steps)%nat -> exists h, count_at angles_c k (2 * h) /\ (0 < h)%nat /\
     gauss_pairs (2 * h) (fst (leggauss (2 * h)%nat)) (snd (leggauss (2 * h)%nat))) ->
  (bc_left P + bc_right P <= 1)%nat ->
  rows_for external steps -> rows_for boundary steps -> broadcasts P groups external ->
  exists ft, vhybrid_run two P leggauss stock table grid groups groups_c angles_c flux_last T s f v external boundary
    steps dt 1 = Ok ft.
Proof. exact vhybrid_total. Qed.
Print Assumptions C83_variable_completes.
Theorem C83_short_inputs_raise :
  forall two P materials groups flux_last xs_total s f velocity external boundary steps dt geometry ft,
  (d4a external <> 1%nat /\ (d4a external < steps)%nat) \/ (d4a boundary <> 1%nat /\ (d4a boundary < steps)%nat) ->
  timed_run two P materials groups flux_last xs_total s f velocity external boundary steps dt geometry <> Ok ft.
Proof. exact timed_short_rows. Qed.
Print Assumptions C83_short_inputs_raise.
(** Which exception: rows that run out are an IndexError, source shapes that do not broadcast a ValueError. *)
Theorem C83_rows_run_out :
  forall two P materials groups flux_last xs_total s f velocity external boundary m steps dt geometry ft,
  timed_run two P materials groups flux_last xs_total s f velocity external boundary m dt geometry = Ok ft -> (m < steps)%nat ->
  (d4a external = m /\ m <> 1%nat) \/ (rows_for external steps /\ broadcasts P groups external /\ d4a boundary = m /\ m <> 1%nat) ->
  timed_run two P materials groups flux_last xs_total s f velocity external boundary steps dt geometry = Raise IndexError.
Proof. exact timed_ends. Qed.
Print Assumptions C83_rows_run_out.
Theorem C83_bad_shape :
  forall two P materials groups flux_last xs_total s f velocity external boundary steps dt geometry,
  (0 < steps)%nat -> rows_for external steps -> ~ broadcasts P groups external ->
  timed_run two P materials groups flux_last xs_total s f velocity external boundary steps dt geometry = Raise ValueError.
Proof. exact timed_bad_shape. Qed.
Print Assumptions C83_bad_shape.
Theorem C83_hybrid_bad_shape :
  forall two P PC materials groups groups_c flux_last Tu Tc su sc fu fc vu vc external boundary ci fac steps dt geometry,
  (0 < steps)%nat -> rows_for external steps -> ~ broadcasts P groups external ->
  hybrid_run two P PC materials groups groups_c flux_last Tu Tc su sc fu fc vu vc external boundary ci fac steps dt geometry = Raise ValueError.
Proof. exact hybrid_bad_shape. Qed.
Print Assumptions C83_hybrid_bad_shape.
Example C83_case : rows_for tick_ext 3 /\ rows_for tick_bnd 3 /\ broadcasts demo 2 tick_ext /\ ~ rows_for tick_bnd 4 /\
  gauss_pairs (2 * 1) (fst (two_point (2 * 1))) (snd (two_point (2 * 1))) /\ (bc_left demo + bc_right demo <= 1)%nat /\
  known_grid 87 = true /\ stock87 87 = (87%nat, fun g => INR g + 1).
Proof.
  split; [apply tick_rows|]. split; [apply tick_rows|]. split; [apply tick_rows|].
  split; [unfold rows_for; cbn; lia|]. split; [exact two_point_gauss|]. split; [cbn; lia|]. split; reflexivity.
Qed.
Example C83_kind_case : ~ broadcasts demo 2 (mkArr4 1 3 1 (fun _ _ _ _ => 0)) /\
  timed_backward_euler demo 2 2 tick_start tick_total (Scatter3 tick_scatter) no_fission tick_speed tick_ext tick_bnd 4 4 1 = Raise IndexError.
Proof.
  split; [unfold broadcasts; cbn; lia|].
  destruct (timed_total false demo 2 2 tick_start tick_total tick_scatter no_fission tick_speed tick_ext tick_bnd 3 4) as [ft E];
    [exact demo_nonzero| | | |]; try apply tick_rows.
  refine (timed_ends false demo 2 2 tick_start tick_total (Scatter3 tick_scatter) no_fission tick_speed tick_ext tick_bnd 3 4 4 1 ft E ltac:(lia) _).
  right. split; [left; reflexivity|]. split; [apply tick_rows|]. split; [reflexivity|lia].
Qed.

(** ** C84 Positivity *)
Theorem C84_backward_euler_nonnegative :
  forall P materials groups flux_last xs_total s f velocity external boundary steps dt ft,
  angles P <> 1%nat -> nonzero_ordinates (angles P) (mu P) ->
  (forall i, (i < cells P)%nat -> (medium P i < materials)%nat) ->
  (forall g, (g < groups)%nat -> 0 < velocity g) -> 0 < dt ->
  mg_thin P groups (effective_total 1 xs_total velocity dt) ->
  (forall m, (m < angles P)%nat -> 0 <= wt P m) ->
  (forall i g h, (i < cells P)%nat -> (g < groups)%nat -> (h < groups)%nat -> 0 <= total_transfer s f (medium P i) g h) ->
  (forall k i m g, (k < steps)%nat -> (i < cells P)%nat -> (m < angles P)%nat -> (g < groups)%nat ->
     0 <= at3 (step_row external k) i (bidx (d4b external) m) (bidx (d4c external) g)) ->
  (forall k m g, (k < steps)%nat -> (m < angles P)%nat -> (g < groups)%nat -> 0 <= mg_boundary (step_row boundary k) (mu P) g m) ->
  (forall i m g, (i < cells P)%nat -> (m < angles P)%nat -> (g < groups)%nat -> 0 <= flux_last i m g) ->
  timed_backward_euler P materials groups flux_last xs_total (Scatter3 s) f velocity external boundary steps dt 1 = Ok ft ->
  forall k i g, (k < steps)%nat -> (i < cells P)%nat -> (g < groups)%nat -> 0 <= ft k i g.
Proof. exact timed_nonneg. Qed.
Print Assumptions C84_backward_euler_nonnegative.
Theorem C84_hybrid_nonnegative :
  forall P PC materials groups groups_c flux_last Tu Tc su sc fu fc vu vc external boundary ci fac steps dt ft,
  angles P <> 1%nat -> nonzero_ordinates (angles P) (mu P) -> nonzero_ordinates (angles PC) (mu PC) ->
  (forall i, (i < cells P)%nat -> (medium P i < materials)%nat) ->
  cells PC = cells P /\ medium PC = medium P ->
  (forall g, (g < groups)%nat -> 0 < vu g) -> 0 < dt ->
  mg_thin P groups (effective_total 1 Tu vu dt) -> mg_thin PC groups_c (effective_total 1 Tc vc dt) ->
  (forall m, (m < angles P)%nat -> 0 <= wt P m) -> (forall m, (m < angles PC)%nat -> 0 <= wt PC m) ->
  (forall i g h, (i < cells P)%nat -> (g < groups)%nat -> (h < groups)%nat -> 0 <= total_transfer su fu (medium P i) g h) ->
  (forall i g h, (i < cells P)%nat -> (g < groups_c)%nat -> (h < groups_c)%nat -> 0 <= total_transfer sc fc (medium P i) g h) ->
  (forall g, (g < groups)%nat -> (ci g < groups_c)%nat /\ 0 <= fac g) ->
  (forall k i m g, (k < steps)%nat -> (i < cells P)%nat -> (m < angles P)%nat -> (g < groups)%nat ->
     0 <= at3 (step_row external k) i (bidx (d4b external) m) (bidx (d4c external) g)) ->
  (forall k m g, (k < steps)%nat -> (m < angles P)%nat -> (g < groups)%nat -> 0 <= mg_boundary (step_row boundary k) (mu P) g m) ->
  (forall i m g, (i < cells P)%nat -> (m < angles P)%nat -> (g < groups)%nat -> 0 <= flux_last i m g) ->
  hybrid_backward_euler P PC materials groups groups_c flux_last Tu Tc (Scatter3 su) (Scatter3 sc) fu fc vu vc
    external boundary ci fac steps dt 1 = Ok ft ->
  forall k i g, (k < steps)%nat -> (i < cells P)%nat -> (g < groups)%nat -> 0 <= ft k i g.
Proof. exact hybrid_nonneg. Qed.
Print Assumptions C84_hybrid_nonnegative.
Example C84_case : mg_thin demo 2 (effective_total 1 tick_total tick_speed 4) /\
  (forall i g h, (i < cells demo)%nat -> (g < 2)%nat -> (h < 2)%nat -> 0 <= total_transfer tick_scatter no_fission (medium demo i) g h) /\
  (forall k i m g, 0 <= at3 (step_row tick_ext k) i (bidx (d4b tick_ext) m) (bidx (d4c tick_ext) g)) /\
  (forall k m g, 0 <= mg_boundary (step_row tick_bnd k) (mu demo) g m) /\ (forall i m g, 0 <= tick_start i m g).
Proof.
  split; [exact (tick_thin false 0)|]. split; [exact tick_scatter_nonneg|]. split; [exact tick_ext_nonneg|].
  split; [exact tick_bnd_nonneg|]. intros. unfold tick_start. lra.
Qed.

(** ** C85 Particle balance of every step *)
Theorem C85_step_balance :
  forall two P materials groups flux_last xs_total s f velocity external boundary steps dt ft,
  angles P <> 1%nat -> nonzero_ordinates (angles P) (mu P) ->
  (forall i, (i < cells P)%nat -> (medium P i < materials)%nat /\ dx P i <> 0) ->
  (forall g, (g < groups)%nat -> velocity g <> 0) -> dt <> 0 ->
  (forall k, (k < steps)%nat -> mg_divisors P groups (effective_total (run_weight two k) xs_total velocity dt)) ->
  timed_run two P materials groups flux_last xs_total (Scatter3 s) f velocity external boundary steps dt 1 = Ok ft ->
  exists psi : nat -> mat3, psi 0%nat = flux_last /\
    forall k, (k < steps)%nat -> exists E : mat3,
      let change := run_derivative two dt psi k (psi (S k)) in
      let ext := step_row external k in
      step_equation P groups velocity xs_total (total_transfer s f) ext (step_row boundary k) change (ft k) E (psi (S k)) /\
      rsum groups (fun g =>
        rsum (cells P) (fun i => dx P i * scalar_flux P change i g / velocity g)
        + total_leakage (cells P) (angles P) (mu P) (wt P) (E g)
        + rsum (cells P) (fun i => dx P i * xs_total (medium P i) g * scalar_flux P (psi (S k)) i g)) =
      rsum groups (fun g => rsum (cells P) (fun i => dx P i *
        (rsum (angles P) (wt P) * rsum groups (fun h => total_transfer s f (medium P i) g h * ft k i h)
         + rsum (angles P) (fun m => wt P m * at3 ext i (bidx (d3b ext) m) (bidx (d3c ext) g))))).
Proof. exact timed_balance. Qed.
Print Assumptions C85_step_balance.
Example C85_case : (forall i, (i < cells demo)%nat -> (medium demo i < 2)%nat /\ dx demo i <> 0) /\
  (forall two k, mg_divisors demo 2 (effective_total (run_weight two k) tick_total tick_speed 4)).
Proof. split; [intros i Hi; split; [cbn in *; lia|apply demo_dx; exact Hi]|exact tick_divisors]. Qed.

(** ** C86 Accuracy of every step *)
Theorem C86_exact_step_unique :
  forall (two : bool) (P : sn) (groups : nat) (xs_total : mat2) (s : mat3) (f : fission_data)
      (velocity : vec) (external boundary : arr4) (steps : nat) (dt : R),
    nonzero_ordinates (angles P) (mu P) ->
    (forall g : nat, (g < groups)%nat -> velocity g <> 0) ->
    dt <> 0 ->
    forall c : R,
    (forall k : nat,
     (k < steps)%nat -> mg_thin P groups (effective_total (run_weight two k) xs_total velocity dt)) ->
    (forall m : nat, (m < angles P)%nat -> 0 <= wt P m) ->
    0 <= c ->
    rsum (angles P) (wt P) * c < 1 ->
    (forall k : nat,
     (k < steps)%nat ->
     mg_ratio P groups (effective_total (run_weight two k) xs_total velocity dt) (total_transfer s f) c) ->
    forall (psi : nat -> mat3) (k : nat),
    (k < steps)%nat ->
    exists sol : mat2,
      exact_step P groups velocity xs_total (total_transfer s f) (step_row external k) 
        (step_row boundary k) (run_derivative two dt psi k) sol /\
      (forall other : mat2,
       exact_step P groups velocity xs_total (total_transfer s f) (step_row external k)
         (step_row boundary k) (run_derivative two dt psi k) other -> agree2 (cells P) groups other sol).
Proof. exact exact_step_unique. Qed.
Print Assumptions C86_exact_step_unique.
Theorem C86_step_accuracy :
  forall (two : bool) (P : sn) (materials groups : nat) (flux_last : mat3) (xs_total : mat2)
      (s : mat3) (f : fission_data) (velocity : vec) (external boundary : arr4) 
      (steps : nat) (dt : R),
    angles P <> 1%nat ->
    nonzero_ordinates (angles P) (mu P) ->
    (forall i : nat, (i < cells P)%nat -> (medium P i < materials)%nat) ->
    (forall g : nat, (g < groups)%nat -> velocity g <> 0) ->
    dt <> 0 ->
    forall c : R,
    (forall k : nat,
     (k < steps)%nat -> mg_thin P groups (effective_total (run_weight two k) xs_total velocity dt)) ->
    (forall m : nat, (m < angles P)%nat -> 0 <= wt P m) ->
    0 <= c ->
    rsum (angles P) (wt P) * c < 1 ->
    (forall k : nat,
     (k < steps)%nat ->
     mg_ratio P groups (effective_total (run_weight two k) xs_total velocity dt) (total_transfer s f) c) ->
    forall ft : nat -> mat2,
    timed_run two P materials groups flux_last xs_total (Scatter3 s) f velocity external boundary steps dt 1 =
    Ok ft ->
    exists psi : nat -> mat3,
      psi 0%nat = flux_last /\
      time_history two P groups velocity dt xs_total (total_transfer s f) (step_row external)
        (step_row boundary) steps psi ft /\
      (forall (k : nat) (sol : mat2),
       (k < steps)%nat ->
       exact_step P groups velocity xs_total (total_transfer s f) (step_row external k)
         (step_row boundary k) (run_derivative two dt psi k) sol ->
       let rho := rsum (angles P) (wt P) * c in
       exists n : nat,
         (1 <= n <= 100)%nat /\
         (forall d : R,
          0 <= d ->
          within2 (cells P) groups d (step_start P flux_last ft k) sol ->
          within2 (cells P) groups (rho ^ n * d) (ft k) sol /\
          within2 (cells P) groups (rho ^ S n * d) (scalar_flux P (psi (S k))) sol) /\
         ((n < 100)%nat ->
          forall M : R,
          0 <= M ->
          (forall i g : nat, (i < cells P)%nat -> (g < groups)%nat -> Rabs (ft k i g) <= M) ->
          within2 (cells P) groups (rho * (/ 10 ^ 8 * INR (cells P) * M) / (1 - rho)) (ft k) sol)).
Proof. exact timed_accuracy. Qed.
Print Assumptions C86_step_accuracy.
Example C86_case : (forall two k, mg_thin demo 2 (effective_total (run_weight two k) tick_total tick_speed 4)) /\
  (forall two k, mg_ratio demo 2 (effective_total (run_weight two k) tick_total tick_speed 4)
                   (total_transfer tick_scatter no_fission) (3 / 8)) /\
  rsum (angles demo) (wt demo) * (3 / 8) < 1.
Proof. split; [exact tick_thin|]. split; [exact tick_ratio|exact (proj2 duo_weights)]. Qed.

(** ** C87 Collision splitting *)
Theorem C87_hybrid_history :
  forall (two : bool) (P PC : sn) (materials groups groups_c : nat) (flux_last : mat3)
      (Tu Tc : mat2) (su sc : mat3) (fu fc : fission_data) (vu vc : vec) (external boundary : arr4)
      (ci : nat -> nat) (fac : vec) (steps : nat) (dt : R),
    angles P <> 1%nat ->
    nonzero_ordinates (angles P) (mu P) ->
    (forall i : nat, (i < cells P)%nat -> (medium P i < materials)%nat) ->
    (forall g : nat, (g < groups)%nat -> vu g <> 0) ->
    dt <> 0 ->
    forall ft : nat -> mat2,
    (forall k : nat, (k < steps)%nat -> mg_divisors P groups (effective_total (run_weight two k) Tu vu dt)) ->
    hybrid_run two P PC materials groups groups_c flux_last Tu Tc (Scatter3 su) 
      (Scatter3 sc) fu fc vu vc external boundary ci fac steps dt 1 = Ok ft ->
    exists (psi : nat -> mat3) (phi_u phi_c : nat -> mat2),
      psi 0%nat = flux_last /\
      time_history two P groups vu dt Tu (total_transfer su fu) (step_row external) 
        (step_row boundary) steps psi (fun k : nat => recombined ci fac (phi_u k) (phi_c k)) /\
      (forall k : nat,
       (k < steps)%nat ->
       ft k = scalar_flux P (psi (S k)) /\
       uncollided_flux two P groups vu dt Tu (step_row external k) (step_row boundary k) psi k (phi_u k)).
Proof. exact hybrid_history. Qed.
Print Assumptions C87_hybrid_history.
Theorem C87_collided_part :
  forall (two : bool) (P PC : sn) (materials groups groups_c : nat) (flux_last : mat3)
      (Tu Tc : mat2) (su sc : mat3) (fu fc : fission_data) (vu vc : vec) (external boundary : arr4)
      (ci : nat -> nat) (fac : vec) (steps : nat) (dt : R),
    angles P <> 1%nat ->
    nonzero_ordinates (angles P) (mu P) ->
    (forall i : nat, (i < cells P)%nat -> (medium P i < materials)%nat) ->
    cells PC = cells P /\ medium PC = medium P ->
    (forall g : nat, (g < groups)%nat -> vu g <> 0) ->
    dt <> 0 ->
    forall (c : R) (ft : nat -> mat2),
    (forall k : nat, (k < steps)%nat -> mg_divisors P groups (effective_total (run_weight two k) Tu vu dt)) ->
    (forall k : nat, (k < steps)%nat -> mg_thin PC groups_c (effective_total (run_weight two k) Tc vc dt)) ->
    (forall m : nat, (m < angles PC)%nat -> 0 <= wt PC m) ->
    0 <= c ->
    rsum (angles PC) (wt PC) * c < 1 ->
    (forall k : nat,
     (k < steps)%nat ->
     mg_ratio PC groups_c (effective_total (run_weight two k) Tc vc dt) (total_transfer sc fc) c) ->
    hybrid_run two P PC materials groups groups_c flux_last Tu Tc (Scatter3 su) 
      (Scatter3 sc) fu fc vu vc external boundary ci fac steps dt 1 = Ok ft ->
    exists (psi : nat -> mat3) (phi_u phi_c : nat -> mat2),
      psi 0%nat = flux_last /\
      time_history two P groups vu dt Tu (total_transfer su fu) (step_row external) 
        (step_row boundary) steps psi (fun k : nat => recombined ci fac (phi_u k) (phi_c k)) /\
      (forall k : nat,
       (k < steps)%nat ->
       ft k = scalar_flux P (psi (S k)) /\
       uncollided_flux two P groups vu dt Tu (step_row external k) (step_row boundary k) psi k (phi_u k) /\
       (forall sol : mat2,
        collided_flux two P PC groups groups_c vc dt Tc (total_transfer sc fc) (total_transfer su fu) ci k
          (phi_u k) sol ->
        exists n : nat,
          (1 <= n <= 100)%nat /\
          (forall d : R,
           0 <= d ->
           (forall i g : nat, (i < cells P)%nat -> (g < groups_c)%nat -> Rabs (sol i g) <= d) ->
           within2 (cells P) groups_c ((rsum (angles PC) (wt PC) * c) ^ n * d) (phi_c k) sol) /\
          ((n < 100)%nat ->
           forall M : R,
           0 <= M ->
           (forall i g : nat, (i < cells P)%nat -> (g < groups_c)%nat -> Rabs (phi_c k i g) <= M) ->
           within2 (cells P) groups_c
             (rsum (angles PC) (wt PC) * c * (/ 10 ^ 8 * INR (cells P) * M) /
              (1 - rsum (angles PC) (wt PC) * c)) (phi_c k) sol))).
Proof. exact hybrid_collided. Qed.
Print Assumptions C87_collided_part.
Theorem C87_superposition :
  forall two P groups velocity dt xs_total xs ext bnd psi k fu fc ci fac,
  (forall g, (g < groups)%nat -> velocity g <> 0) -> dt <> 0 ->
  (forall g, (g < groups)%nat -> ci g = g /\ fac g = 1) ->
  uncollided_flux two P groups velocity dt xs_total ext bnd psi k fu ->
  collided_flux two P P groups groups velocity dt xs_total xs xs ci k fu fc ->
  exact_step P groups velocity xs_total xs ext bnd (run_derivative two dt psi k) (recombined ci fac fu fc).
Proof. exact split_exact. Qed.
Print Assumptions C87_superposition.
Theorem C87_one_grid :
  forall (two : bool) (P : sn) (materials groups : nat) (flux_last : mat3) (T : mat2)
      (s : mat3) (f : fission_data) (v : vec) (external boundary : arr4) (ci : nat -> nat) 
      (fac : vec) (steps : nat) (dt c : R),
    angles P <> 1%nat ->
    nonzero_ordinates (angles P) (mu P) ->
    (forall i : nat, (i < cells P)%nat -> (medium P i < materials)%nat) ->
    (forall g : nat, (g < groups)%nat -> v g <> 0) ->
    dt <> 0 ->
    (forall g : nat, (g < groups)%nat -> ci g = g /\ fac g = 1) ->
    (forall k : nat, (k < steps)%nat -> mg_thin P groups (effective_total (run_weight two k) T v dt)) ->
    (forall m : nat, (m < angles P)%nat -> 0 <= wt P m) ->
    0 <= c ->
    rsum (angles P) (wt P) * c < 1 ->
    (forall k : nat,
     (k < steps)%nat -> mg_ratio P groups (effective_total (run_weight two k) T v dt) (total_transfer s f) c) ->
    forall ft : nat -> mat2,
    hybrid_run two P P materials groups groups flux_last T T (Scatter3 s) (Scatter3 s) f f v v external
      boundary ci fac steps dt 1 = Ok ft ->
    exists (psi : nat -> mat3) (phi_u : nat -> mat2),
      psi 0%nat = flux_last /\
      (forall (k : nat) (sol : mat2),
       (k < steps)%nat ->
       ft k = scalar_flux P (psi (S k)) /\
       uncollided_flux two P groups v dt T (step_row external k) (step_row boundary k) psi k (phi_u k) /\
       (exact_step P groups v T (total_transfer s f) (step_row external k) (step_row boundary k)
          (run_derivative two dt psi k) sol ->
        exists n : nat,
          (1 <= n <= 100)%nat /\
          (forall d : R,
           0 <= d ->
           within2 (cells P) groups d (phi_u k) sol ->
           within2 (cells P) groups ((rsum (angles P) (wt P) * c) ^ S n * d) (ft k) sol))).
Proof. exact hybrid_identical. Qed.
Print Assumptions C87_one_grid.
Theorem C87_auto_one_grid :
  forall two P leggauss materials groups flux_last T s f v external boundary n edges_g idx_u idx_c steps dt geometry,
  partition n groups idx_u -> monotone_edges n edges_g -> partition groups groups idx_c -> identity_grid groups idx_c ->
  exists ci fac, (forall g, (g < groups)%nat -> ci g = g /\ fac g = 1) /\
    auto_run two P leggauss materials groups flux_last T s f v external boundary (angles P) groups edges_g idx_u idx_c
      steps dt geometry
    = hybrid_run two P P materials groups groups flux_last T T (Scatter3 s) (Scatter3 s) (FissionMatrix f) (FissionMatrix f)
        v v external boundary ci fac steps dt geometry.
Proof. exact auto_identical. Qed.
Print Assumptions C87_auto_one_grid.
Example C87_case : (forall two k, mg_thin demo 2 (effective_total (run_weight two k) tick_total tick_speed 4)) /\
  partition 5 5 (fun c => c) /\ identity_grid 5 (fun c => c) /\ monotone_edges 5 squares /\
  exists ft, hybrid_run true demo demo 2 2 2 tick_start tick_total tick_total (Scatter3 tick_scatter) (Scatter3 tick_scatter)
    no_fission no_fission tick_speed tick_speed tick_ext tick_bnd (fun g => g) (fun _ => 1) 3 4 1 = Ok ft.
Proof.
  split; [exact tick_thin|]. split; [apply five_identity|]. split; [apply five_identity|]. split; [exact squares_monotone|].
  apply hybrid_total; [exact demo_nonzero| | |]; apply tick_rows.
Qed.

(** ** C88 Variable-grid hybrid runs *)
Theorem C88_variable_history :
  forall (two : bool) (P : sn) (leggauss : nat -> vec * vec) (stock : nat -> nat * vec)
      (table : nat -> nat -> option (nat -> nat)) (grid groups : nat) (groups_c angles_c : per_step)
      (flux_last : mat3) (T : mat2) (s f : mat3) (v : vec) (external boundary : arr4) 
      (steps : nat) (dt : R) (ft : nat -> mat2),
    angles P <> 1%nat ->
    nonzero_ordinates (angles P) (mu P) ->
    (forall g : nat, (g < groups)%nat -> v g <> 0) ->
    dt <> 0 ->
    (forall k : nat, (k < steps)%nat -> mg_divisors P groups (effective_total (run_weight two k) T v dt)) ->
    vhybrid_run two P leggauss stock table grid groups groups_c angles_c flux_last T s f v external boundary
      steps dt 1 = Ok ft ->
    exists psi : nat -> mat3,
      psi 0%nat = flux_last /\
      (forall k : nat,
       (k < steps)%nat ->
       exists
         (gc ac : nat) (ci : nat -> nat) (fac : vec) (idx : nat -> nat) (e : vec) 
       (xw : vec * vec) (fu fc : mat2) (E : mat3),
         count_at groups_c k gc /\
         count_at angles_c k ac /\
         energy_grid_change stock table grid groups gc = Ok (ci, fac, idx, e) /\
         angular_x leggauss ac [bc_left P; bc_right P] = Ok xw /\
         (let PC := with_angles P ac (fst xw) (snd xw) in
          let total_c := xs_vector_coarsen T e idx in
          let scatter_c :=
            coarse_scatter (fun m o i : nat => s m o i + f m o i) (width e) (block_width e idx) idx in
          let velocity_c := coarsen_velocity v idx in
          step_equation P groups v T (fun m o i : nat => s m o i + f m o i) (step_row external k)
            (step_row boundary k) (run_derivative two dt psi k (psi (S k))) (recombined ci fac fu fc) E
            (psi (S k)) /\
          ft k = scalar_flux P (psi (S k)) /\
          uncollided_flux two P groups v dt T (step_row external k) (step_row boundary k) psi k fu /\
          (forall (c : R) (sol : mat2),
           mg_thin PC gc (effective_total (run_weight two k) total_c velocity_c dt) ->
           (forall m : nat, (m < ac)%nat -> 0 <= wt PC m) ->
           0 <= c ->
           rsum ac (wt PC) * c < 1 ->
           mg_ratio PC gc (effective_total (run_weight two k) total_c velocity_c dt) scatter_c c ->
           collided_flux two P PC groups gc velocity_c dt total_c scatter_c
             (fun m o i : nat => s m o i + f m o i) ci k fu sol ->
           exists n : nat,
             (1 <= n <= 100)%nat /\
             (forall d : R,
              0 <= d ->
              within2 (cells P) gc d (fun i c0 : nat => group_sum idx c0 (fu i)) sol ->
              within2 (cells P) gc ((rsum ac (wt PC) * c) ^ n * d) fc sol)))).
Proof. exact vhybrid_history. Qed.
Print Assumptions C88_variable_history.
Example C88_case : exists ft, vhybrid_run true demo two_point stock87 table87 87 3 (Each 2 (fun k => (2 - k)%nat)) (Const 2)
  (fun _ _ _ => 1) (fun _ _ => 1) (fun _ _ _ => 1 / 8) (fun _ _ _ => 0) tick_speed
  (mkArr4 1 1 1 (fun _ _ _ _ => 1)) tick_bnd 2 4 1 = Ok ft.
Proof.
  apply (vhybrid_total true demo two_point stock87 table87 87 87 (fun g => INR g + 1)); try reflexivity; try (cbn; lia).
  - intros k Hk. exists (2 - k)%nat. destruct k as [|[|k]]; [| |lia]; (split; [split; [lia|reflexivity]|lia]).
  - intros k Hk. exists 1%nat. split; [reflexivity|]. split; [lia|exact two_point_gauss].
  - left. reflexivity.
  - right. cbn. lia.
  - split; left; reflexivity.
Qed.

(** ** C89 Widths used for the coarse data of variable-grid runs *)
Theorem C89_stock_groups_partial :
  forall stock table grid groups gc ci fac idx e fine coarse T m c n,
  energy_grid_change stock table grid groups gc = Ok (ci, fac, idx, e) ->
  energy_grid stock table grid groups (Some gc) true = Ok (snd (stock grid), fine, Some coarse) ->
  partition n gc coarse -> (forall g, (g <= n)%nat -> fine g = g) -> monotone_edges n (fun j => snd (stock grid) (fine j)) ->
  (c < gc)%nat ->
  let fe := fun j => snd (stock grid) (fine j) in
  block_width fe idx c * xs_vector_coarsen T e idx m c = group_sum idx c (fun g => width fe g * T m g).
Proof. exact vhybrid_widths. Qed.
Print Assumptions C89_stock_groups_partial.
Theorem C89_returned_edges :
  forall stock table grid groups gc ci fac idx e,
  energy_grid_change stock table grid groups gc = Ok (ci, fac, idx, e) -> e = snd (stock grid).
Proof. exact energy_grid_change_edges. Qed.
Print Assumptions C89_returned_edges.
Theorem C89_widths_refuted :
  exists stock table grid groups gc ci fac idx e fine T n,
  energy_grid_change stock table grid groups gc = Ok (ci, fac, idx, e) /\
  energy_grid stock table grid groups (Some gc) true = Ok (snd (stock grid), fine, Some idx) /\
  known_grid grid = true /\ fst (stock grid) = n /\ monotone_edges n (snd (stock grid)) /\
  partition n groups fine /\ partition groups gc idx /\
  let fe := fun j => snd (stock grid) (fine j) in
  block_width fe idx 0%nat * xs_vector_coarsen T e idx 0%nat 0%nat <> group_sum idx 0%nat (fun g => width fe g * T 0%nat g).
Proof. exact vhybrid_widths_wrong. Qed.
Print Assumptions C89_widths_refuted.
Example C89_case : exists ci fac idx e fine,
  energy_grid_change uneven87 no_table 87 3 1 = Ok (ci, fac, idx, e) /\
  energy_grid uneven87 no_table 87 3 (Some 1%nat) true = Ok (snd (uneven87 87), fine, Some idx) /\ fine 1%nat = 29%nat.
Proof.
  destruct uneven_index as (ci & fac & idx & e & fine & E1 & E2 & _ & _ & F1 & _). exists ci, fac, idx, e, fine. auto.
Qed.

(** ** C90 Configurations the time-dependent drivers reject *)
Theorem C90_anisotropic_rejected :
  forall two P materials groups flux_last xs_total nm s f velocity external boundary steps dt geometry ft,
  (0 < steps)%nat ->
  timed_run two P materials groups flux_last xs_total (Scatter4 nm s) f velocity external boundary steps dt geometry
  <> Ok ft.
Proof. exact timed_needs_iso. Qed.
Print Assumptions C90_anisotropic_rejected.
Theorem C90_hybrid_anisotropic_rejected :
  forall two P PC materials groups groups_c flux_last Tu Tc nm su sc fu fc vu vc external boundary ci fac steps dt geometry ft,
  (0 < steps)%nat ->
  hybrid_run two P PC materials groups groups_c flux_last Tu Tc (Scatter4 nm su) sc fu fc vu vc external boundary
    ci fac steps dt geometry <> Ok ft.
Proof. exact hybrid_needs_iso. Qed.
Print Assumptions C90_hybrid_anisotropic_rejected.
Theorem C90_sphere_rejected :
  forall two P materials groups flux_last xs_total s f velocity external boundary steps dt ft,
  (0 < steps)%nat -> (0 < groups)%nat -> (exists m, (m < angles P)%nat /\ mu P m <> 0) ->
  timed_run two P materials groups flux_last xs_total s f velocity external boundary steps dt 2 <> Ok ft.
Proof. exact timed_sphere_fails. Qed.
Print Assumptions C90_sphere_rejected.
Theorem C90_hybrid_sphere_rejected :
  forall two P PC materials groups groups_c flux_last Tu Tc su sc fu fc vu vc external boundary ci fac steps dt ft,
  (0 < steps)%nat -> (0 < groups)%nat -> (exists m, (m < angles P)%nat /\ mu P m <> 0) ->
  hybrid_run two P PC materials groups groups_c flux_last Tu Tc su sc fu fc vu vc external boundary ci fac steps dt 2 <> Ok ft.
Proof. exact hybrid_sphere_fails. Qed.
Print Assumptions C90_hybrid_sphere_rejected.
Theorem C90_variable_types :
  forall two P leggauss stock table grid groups groups_c angles_c flux_last T s f v external boundary steps dt geometry ft,
  (0 < steps)%nat -> groups_c = OtherType \/ angles_c = OtherType ->
  vhybrid_run two P leggauss stock table grid groups groups_c angles_c flux_last T s f v external boundary steps dt geometry
  <> Ok ft.
Proof. exact vhybrid_other_type. Qed.
Print Assumptions C90_variable_types.
Theorem C90_variable_short_lists :
  forall two P leggauss stock table grid groups groups_c angles_c flux_last T s f v external boundary steps dt geometry ft len h,
  (groups_c = Each len h \/ angles_c = Each len h) -> (len < steps)%nat ->
  vhybrid_run two P leggauss stock table grid groups groups_c angles_c flux_last T s f v external boundary steps dt geometry
  <> Ok ft.
Proof. exact vhybrid_short. Qed.
Print Assumptions C90_variable_short_lists.
Theorem C90_variable_lists_end :
  forall two P leggauss stock table grid groups groups_c angles_c flux_last T s f v external boundary m steps dt geometry ft h,
  vhybrid_run two P leggauss stock table grid groups groups_c angles_c flux_last T s f v external boundary m dt geometry = Ok ft -> (m < steps)%nat ->
  groups_c = Each m h \/ (angles_c = Each m h /\ exists n, groups_c = Const n) ->
  vhybrid_run two P leggauss stock table grid groups groups_c angles_c flux_last T s f v external boundary steps dt geometry = Raise IndexError.
Proof. exact vhybrid_lists_end. Qed.
Print Assumptions C90_variable_lists_end.
Theorem C90_variable_unbound :
  forall two P leggauss stock table grid groups groups_c angles_c flux_last T s f v external boundary steps dt geometry,
  (0 < steps)%nat -> rows_for external steps -> broadcasts P groups external ->
  groups_c = OtherType /\ (angles_c = OtherType \/ exists n, angles_c = Const n) ->
  vhybrid_run two P leggauss stock table grid groups groups_c angles_c flux_last T s f v external boundary steps dt geometry = Raise UnboundLocalError.
Proof. exact vhybrid_unbound. Qed.
Print Assumptions C90_variable_unbound.
Theorem C90_variable_two_mirrors :
  forall two P leggauss stock table grid groups groups_c angles_c flux_last T s f v external boundary steps dt ft,
  (0 < steps)%nat -> bc_left P = 1%nat -> bc_right P = 1%nat ->
  vhybrid_run two P leggauss stock table grid groups groups_c angles_c flux_last T s f v external boundary steps dt 1
  <> Ok ft.
Proof. exact vhybrid_two_mirrors. Qed.
Print Assumptions C90_variable_two_mirrors.
Theorem C90_auto_two_mirrors :
  forall two P leggauss materials groups flux_last T s f v external boundary angles_c groups_c edges_g idx_u idx_c steps dt geometry,
  bc_left P = 1%nat -> bc_right P = 1%nat -> angles_c <> angles P -> angles_c <> 0%nat ->
  auto_run two P leggauss materials groups flux_last T s f v external boundary angles_c groups_c edges_g idx_u idx_c
      steps dt geometry = Raise UnboundLocalError.
Proof. exact auto_two_mirrors. Qed.
Print Assumptions C90_auto_two_mirrors.
Theorem C90_unknown_grid :
  forall two P leggauss stock table grid groups n angles_c flux_last T s f v external boundary steps dt geometry,
  ~ In grid [87; 361; 618]%nat ->
  vhybrid_run two P leggauss stock table grid groups (Const n) angles_c flux_last T s f v external boundary steps dt geometry
  = Raise UnboundLocalError.
Proof. exact vhybrid_unknown_grid. Qed.
Print Assumptions C90_unknown_grid.
Example C90_case : (exists m, (m < angles demo)%nat /\ mu demo m <> 0) /\ bc_left mirrored_box = 1%nat /\ bc_right mirrored_box = 1%nat /\
  ~ In 100%nat [87; 361; 618]%nat.
Proof.
  split; [exists 0%nat; split; [cbn; lia|apply demo_nonzero; cbn; lia]|]. split; [reflexivity|]. split; [reflexivity|].
  cbn. lia.
Qed.
