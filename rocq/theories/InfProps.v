(** C135: infinite media with any fission data and scattering of either rank. *)
From Coq Require Import Lra Lia.
From Verif Require Import Base BaseFacts SlabModel SlabSpec MgModel MgSpec CritModel CritSpec CritWitness InfModel InfSpec InfFacts InfFacts2 InfFacts3 InfFacts4 InfFacts5 InfWitness.
Open Scope R_scope.

(** ** C135 An infinite medium with any fission matrix has one critical state, and critical0d finds it *)
Theorem C135_even :
  forall (angles groups : nat) (wt T : vec) (X : mat2),
    damped_0d angles groups wt T X ->
    (0 < groups)%nat ->
    forall f : fission_0d,
    nonneg_fission_0d groups f ->
    well_fed_0d groups X f -> exists d : R, even_generation_0d angles groups wt T X f d.
Proof. exact @inf_even. Qed.
Print Assumptions C135_even.
Theorem C135_one_mode :
  forall (angles groups : nat) (wt T : vec) (X : mat2),
    damped_0d angles groups wt T X ->
    (0 < groups)%nat ->
    forall f : fission_0d,
    nonneg_fission_0d groups f ->
    well_fed_0d groups X f ->
    fissile_0d groups f ->
    exists (phi : vec) (k : R),
      0 < k /\
      positive1 groups phi /\
      eigenpair_0d angles groups wt T X f phi k /\
      (forall (phi' : vec) (k' : R),
       0 < k' ->
       positive1 groups phi' ->
       eigenpair_0d angles groups wt T X f phi' k' ->
       k' = k /\ (exists c : R, 0 < c /\ (forall g : nat, (g < groups)%nat -> phi' g = c * phi g))).
Proof. exact @inf_one_mode. Qed.
Print Assumptions C135_one_mode.
Theorem C135_dominant :
  forall (angles groups : nat) (wt T : vec) (X : mat2),
    damped_0d angles groups wt T X ->
    (0 < groups)%nat ->
    forall f : fission_0d,
    nonneg_fission_0d groups f ->
    forall (phi : vec) (k : R),
    0 < k ->
    positive1 groups phi ->
    eigenpair_0d angles groups wt T X f phi k ->
    forall (psi : vec) (l : R),
    l <> 0 ->
    eigenpair_0d angles groups wt T X f psi l ->
    (exists g : nat, (g < groups)%nat /\ psi g <> 0) -> Rabs l <= k.
Proof. exact @inf_dominant. Qed.
Print Assumptions C135_dominant.
Theorem C135_bracket :
  forall (angles groups : nat) (wt T : vec) (X : mat2),
    damped_0d angles groups wt T X ->
    (0 < groups)%nat ->
    forall f : fission_0d,
    nonneg_fission_0d groups f ->
    forall (phi : vec) (k : R),
    0 < k ->
    positive1 groups phi ->
    eigenpair_0d angles groups wt T X f phi k ->
    forall (v w : vec) (a b : R),
    positive1 groups v ->
    next_generation_0d angles groups wt T X f v w ->
    (below1 groups (fun g : nat => a * v g) w -> a <= k) /\
    (below1 groups w (fun g : nat => b * v g) -> k <= b).
Proof. exact @inf_bracket. Qed.
Print Assumptions C135_bracket.
Theorem C135_threshold :
  forall (angles groups : nat) (wt T : vec) (X : mat2),
    damped_0d angles groups wt T X ->
    (0 < groups)%nat ->
    forall f : fission_0d,
    nonneg_fission_0d groups f ->
    forall (phi : vec) (k : R),
    0 < k ->
    positive1 groups phi ->
    eigenpair_0d angles groups wt T X f phi k ->
    k < 1 <-> (exists (c : R) (p : vec), 0 <= c < 1 /\ damping_0d angles groups wt T (transfer_0d X f) c p).
Proof. exact @inf_split. Qed.
Print Assumptions C135_threshold.
Theorem C135_either_rank :
  forall angles groups mu wt T s rows external given old,
  usable_scatter angles mu wt s -> right_tables angles mu wt s given ->
  (forall m g, (m < angles)%nat -> at2 external (bidx rows m) g = at2 external 0%nat g) ->
  source_iteration_any_0d angles groups mu wt T s rows external given old = source_iteration_0d angles groups wt T (isotropic_part s) rows external old.
Proof. exact any_rank_0d. Qed.
Print Assumptions C135_either_rank.
Theorem C135_stop :
  forall angles groups mu wt T s f phi k eta v kap flux keff,
  usable_scatter angles mu wt s -> forall X, X = isotropic_part s ->
  damped_0d angles groups wt T X -> (0 < groups)%nat -> nonneg_fission_0d groups f ->
  0 < k -> positive1 groups phi -> eigenpair_0d angles groups wt T X f phi k ->
  0 <= eta < 1 -> positive1 groups v -> 0 < kap ->
  critical_step_0d angles groups mu wt T s f (v, kap) = Ok (flux, keff) ->
  accurate_solve_0d angles groups wt T X f eta (v, kap) ->
  settled0 groups flux v (/ 10 ^ 6) ->
  (1 - eta) * (1 - / 10 ^ 6) / (1 + / 10 ^ 6) * k <= keff <= (1 + eta) * (1 + / 10 ^ 6) / (1 - / 10 ^ 6) * k.
Proof. exact critical_stop. Qed.
Print Assumptions C135_stop.
Theorem C135_power_iteration :
  forall angles groups mu wt T s f d phi k c p sp E a0 b0 guess w0 flux keff,
  usable_scatter angles mu wt s -> forall X, X = isotropic_part s ->
  damped_0d angles groups wt T X -> (0 < groups)%nat -> nonneg_fission_0d groups f ->
  even_generation_0d angles groups wt T X f d ->
  0 < k -> positive1 groups phi -> eigenpair_0d angles groups wt T X f phi k ->
  0 <= c < 1 -> damping_0d angles groups wt T X c p -> c * / 10 ^ 8 < 1 - c ->
  (forall g h, (g < groups)%nat -> (h < groups)%nat -> p g <= sp * p h) ->
  positive1 groups guess -> next_generation_0d angles groups wt T X f guess w0 ->
  0 < a0 -> below1 groups (fun g => a0 * guess g) w0 -> below1 groups w0 (fun g => b0 * guess g) ->
  norm1 groups guess <= E * a0 -> 3 * b0 <= E * a0 * d ^ 2 -> 6 <= E * d ^ 4 ->
  critical_0d angles groups mu wt T s f guess = Ok (flux, keff) ->
  forall eta kap width, eta = solve_accuracy_0d c 100 (1 + E) * sp / d -> eta <= 1 / 3 ->
  kap = (1 + eta) / (1 - eta) -> (forall m, width m = (1 - d ^ 2) ^ m + (kap - / kap) / d ^ 2) ->
  exists N x, (1 <= N <= 101)%nat /\ x 0%nat = (fun g => guess g / norm1 groups guess, norm1 groups guess) /\ x N = (flux, keff) /\
    (forall m, (m < N)%nat -> critical_step_0d angles groups mu wt T s f (x m) = Ok (x (S m))) /\
    ((2 <= N)%nat -> Rabs (keff - k) <= (width (N - 2)%nat + eta) * (kap * k / d ^ 2)) /\
    ((N < 101)%nat -> (1 - eta) * (1 - / 10 ^ 6) / (1 + / 10 ^ 6) * k <= keff <= (1 + eta) * (1 + / 10 ^ 6) / (1 - / 10 ^ 6) * k) /\
    exists t, 0 < t /\ forall g, (g < groups)%nat -> t * phi g <= flux g <= t * (1 + width (N - 1)%nat * kap ^ 2 / d ^ 6) * phi g.
Proof. exact critical_0d_converges. Qed.
Print Assumptions C135_power_iteration.
Example C135_case :
  usable_scatter 2 brook_mu pond_wt brook_scatter /\ isotropic_part brook_scatter = pond_scatter /\
  damped_0d 2 2 pond_wt pond_total pond_scatter /\ nonneg_fission_0d 2 brook_fission /\
  well_fed_0d 2 pond_scatter brook_fission /\ fissile_0d 2 brook_fission /\
  even_generation_0d 2 2 pond_wt pond_total pond_scatter brook_fission (1 / 2) /\
  positive1 2 brook_mode /\ eigenpair_0d 2 2 pond_wt pond_total pond_scatter brook_fission brook_mode 3 /\
  damping_0d 2 2 pond_wt pond_total pond_scatter (1 / 2) (fun _ => 1) /\
  positive1 2 pond_guess /\ next_generation_0d 2 2 pond_wt pond_total pond_scatter brook_fission pond_guess brook_next /\
  below1 2 (fun g => 5 / 2 * pond_guess g) brook_next /\ below1 2 brook_next (fun g => 11 / 3 * pond_guess g) /\
  norm1 2 pond_guess <= 96 * (5 / 2) /\ 3 * (11 / 3) <= 96 * (5 / 2) * (1 / 2) ^ 2 /\ 6 <= 96 * (1 / 2) ^ 4 /\
  solve_accuracy_0d (1 / 2) 100 (1 + 96) * 1 / (1 / 2) <= 1 / 10 ^ 7.
Proof. exact brook_case. Qed.
