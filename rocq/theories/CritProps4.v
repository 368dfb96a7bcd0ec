(** C131: infinite media and k-infinity. *)
From Coq Require Import Lra Lia.
From Verif Require Import Base BaseFacts SlabModel SlabSpec MgModel MgSpec CritModel CritSpec CritFacts10 CritFacts11 CritWitness.
Open Scope R_scope.

(** ** C131 The infinite-medium solver finds k-infinity *)
Theorem C131_yield_damping :
  forall angles groups wt T X c r,
  0 <= rsum angles wt -> 0 <= c -> c < r ->
  yields_0d angles groups wt T X c -> exists p, damping_0d angles groups wt T X r p.
Proof. exact yield_damping_0d. Qed.
Print Assumptions C131_yield_damping.
Theorem C131_well_posed :
  forall angles groups wt T X c rows external,
  (forall m, (m < angles)%nat -> 0 <= wt m) -> 0 <= c < 1 -> yields_0d angles groups wt T X c ->
  exists sol, balance_0d angles groups wt T X rows external sol /\
    (forall other, balance_0d angles groups wt T X rows external other -> forall g, (g < groups)%nat -> other g = sol g) /\
    ((forall g h, (g < groups)%nat -> (h < groups)%nat -> 0 <= X g h) ->
     (forall m g, (m < angles)%nat -> (g < groups)%nat -> 0 <= at2 external (bidx rows m) (bidx (cols2 external) g)) ->
     forall g, (g < groups)%nat -> 0 <= sol g).
Proof. exact yields_0d_well_posed. Qed.
Print Assumptions C131_well_posed.
Theorem C131_converges :
  forall angles groups wt T X c r,
  0 <= rsum angles wt -> 0 <= c -> c < r < 1 ->
  yields_0d angles groups wt T X c ->
  exists K, 1 <= K /\ forall rows external old sol, balance_0d angles groups wt T X rows external sol ->
  exists flux, source_iteration_0d angles groups wt T X rows external old = Ok flux /\
  exists n, (1 <= n <= 100)%nat /\
    (forall d, 0 <= d -> within1 groups d old sol -> within1 groups (K * r ^ n * d) flux sol) /\
    ((n < 100)%nat -> forall M, 0 <= M -> (forall g, (g < groups)%nat -> Rabs (flux g) <= M) ->
       within1 groups (K * (r * (/ 10 ^ 8 * M) / (1 - r))) flux sol).
Proof. exact yields_0d_converges. Qed.
Print Assumptions C131_converges.
Theorem C131_k_infinity :
  forall angles groups wt T X c chi nusigf u,
  (forall m, (m < angles)%nat -> 0 <= wt m) -> 0 <= c < 1 -> yields_0d angles groups wt T X c ->
  balance_0d angles groups wt T X 1 (mkArr2 groups (fun _ g => chi g)) u ->
  (fission_rate_0d groups nusigf u <> 0 -> eigenpair_0d angles groups wt T X (FissionVector0 chi nusigf) u (fission_rate_0d groups nusigf u)) /\
  forall phi k, k <> 0 -> eigenpair_0d angles groups wt T X (FissionVector0 chi nusigf) phi k ->
    (forall g, (g < groups)%nat -> phi g = fission_rate_0d groups nusigf phi / k * u g) /\
    (k = fission_rate_0d groups nusigf u \/ forall g, (g < groups)%nat -> phi g = 0).
Proof. exact kinf_mode. Qed.
Print Assumptions C131_k_infinity.
Theorem C131_one_pass :
  forall angles groups wt T X c p chi nusigf u U D v k flux k',
  0 <= rsum angles wt -> 0 <= c -> c * / 10 ^ 8 < 1 - c -> damping_0d angles groups wt T X c p ->
  balance_0d angles groups wt T X 1 (mkArr2 groups (fun _ g => chi g)) u ->
  rsum groups chi <> 0 -> 0 <= U -> (forall g, (g < groups)%nat -> Rabs (u g) <= U * p g) ->
  fission_rate_0d groups nusigf v <> 0 -> k <> 0 -> 0 <= D -> near_mode_0d groups nusigf u p U D v k ->
  power_step_0d angles groups wt T X (FissionVector0 chi nusigf) (v, k) = Ok (flux, k') ->
  Rabs (k' - fission_rate_0d groups nusigf u)
    <= solve_accuracy_0d c 100 D * (U * rsum groups (fun g => Rabs (nusigf g) * p g)) /\
  (k' <> 0 -> fission_rate_0d groups nusigf flux <> 0 /\ near_mode_0d groups nusigf u p U (solve_accuracy_0d c 100 D) flux k').
Proof. exact kinf_one_pass. Qed.
Print Assumptions C131_one_pass.
Theorem C131_power_iteration :
  forall angles groups wt T X c p chi nusigf u U D guess flux keff,
  0 <= rsum angles wt -> 0 <= c -> c * / 10 ^ 8 < 1 - c -> damping_0d angles groups wt T X c p ->
  balance_0d angles groups wt T X 1 (mkArr2 groups (fun _ g => chi g)) u ->
  rsum groups chi <> 0 -> 0 <= U -> (forall g, (g < groups)%nat -> Rabs (u g) <= U * p g) ->
  fission_rate_0d groups nusigf guess <> 0 -> 0 <= D -> near_mode_0d groups nusigf u p U D guess (norm1 groups guess) ->
  solve_accuracy_0d c 100 D * (U * rsum groups (fun g => Rabs (nusigf g) * p g)) < Rabs (fission_rate_0d groups nusigf u) ->
  power_iteration_0d angles groups wt T X (FissionVector0 chi nusigf) guess = Ok (flux, keff) ->
  exists n, (1 <= n <= 101)%nat /\
    Rabs (keff - fission_rate_0d groups nusigf u)
      <= solve_accuracy_0d c (100 * n) D * (U * rsum groups (fun g => Rabs (nusigf g) * p g)) /\
    exists s, s <> 0 /\ forall g, (g < groups)%nat -> Rabs (flux g - s * u g) <= solve_accuracy_0d c (100 * n) D * (Rabs s * U * p g).
Proof. exact kinf_power_iteration. Qed.
Print Assumptions C131_power_iteration.
Example C131_case :
  yields_0d 2 2 pond_wt pond_total pond_scatter (1 / 2) /\ damping_0d 2 2 pond_wt pond_total pond_scatter (1 / 2) (fun _ => 1) /\
  balance_0d 2 2 pond_wt pond_total pond_scatter 1 (mkArr2 2 (fun _ g => pond_chi g)) pond_mode /\
  fission_rate_0d 2 pond_nusigf pond_mode = 2 /\ pond_fission = FissionVector0 pond_chi pond_nusigf /\
  near_mode_0d 2 pond_nusigf pond_mode (fun _ => 1) (2 / 9) (3 / 2) pond_guess (norm1 2 pond_guess) /\
  solve_accuracy_0d (1 / 2) 100 (3 / 2) * (2 / 9 * rsum 2 (fun g => Rabs (pond_nusigf g) * 1)) < 1 / 10 ^ 7.
Proof. exact pond_hyps. Qed.
