(** Property theorems of the DMD-accelerated source iteration (C27, C28).  Vocabulary: DmdSpec.v. *)
From Coq Require Import Lra Lia.
From Verif Require Import Base BaseFacts SlabModel SlabSpec SlabWitness SphereModel MgModel MgSpec MgFacts MgWitness.
From Verif Require Import DmdModel DmdSpec DmdFacts DmdFacts2 DmdFacts3 DmdFacts4 DmdWitness.
Open Scope R_scope.

(** ** C27 DMD snapshots are consecutive differences *)
Theorem C27_history :
  forall svd P groups flux_old xs_total xs external boundary geometry warm K legs flux,
  dynamic_mode_decomp svd P groups flux_old xs_total (Scatter3 xs) external boundary geometry warm K legs = Ok flux ->
  accelerated_run svd (one_sweep_iso P groups xs_total xs external boundary geometry) (cells P) groups flux_old warm K flux.
Proof. exact dmd_history_iso. Qed.
Print Assumptions C27_history.
Theorem C27_history_anisotropic :
  forall svd P groups nm flux_old xs_total xs external boundary geometry warm K legs flux,
  dynamic_mode_decomp svd P groups flux_old xs_total (Scatter4 nm xs) external boundary geometry warm K legs = Ok flux ->
  exists leg legw,
    match legs with
    | Some l => l = (leg, legw)
    | None => legendre_polynomials nm (mu P) = Ok leg /\ forall l n, legw l n = wt P n * leg l n
    end /\
    accelerated_run svd (one_sweep_aniso P groups nm xs_total xs external boundary geometry leg legw) (cells P) groups
      flux_old warm K flux.
Proof. exact dmd_history_aniso. Qed.
Print Assumptions C27_history_anisotropic.
Theorem C27_completes :
  forall svd P groups flux_old xs_total xs external boundary warm K legs,
  nonzero_ordinates (angles P) (mu P) -> (2 <= K)%nat ->
  (exists flux, dynamic_mode_decomp svd P groups flux_old xs_total (Scatter3 xs) external boundary 1 warm K legs = Ok flux) \/
  dynamic_mode_decomp svd P groups flux_old xs_total (Scatter3 xs) external boundary 1 warm K legs = Raise LinAlgError.
Proof. exact dmd_completes. Qed.
Print Assumptions C27_completes.
Theorem C27_few_snapshots :
  forall svd P groups flux_old xs_total xs external boundary warm K legs,
  nonzero_ordinates (angles P) (mu P) -> (K <= 1)%nat ->
  (exists x n flux, dynamic_mode_decomp svd P groups flux_old xs_total (Scatter3 xs) external boundary 1 warm K legs = Ok flux /\
     flux = x (S n) /\ one_sweep_iso P groups xs_total xs external boundary 1 (x n) = Ok (x (S n)) /\
     settled2 (cells P) groups (x (S n)) (x n) (/ 10 ^ 8)) \/
  dynamic_mode_decomp svd P groups flux_old xs_total (Scatter3 xs) external boundary 1 warm K legs
    = Raise (if Nat.eqb K 0 then ValueError else IndexError).
Proof. exact dmd_few_snapshots. Qed.
Print Assumptions C27_few_snapshots.
Theorem C27_keeps_solution :
  forall svd P groups phi xs_total xs external boundary geometry warm K legs,
  one_sweep_iso P groups xs_total xs external boundary geometry phi = Ok phi ->
  (forall i g, (i < cells P)%nat -> (g < groups)%nat -> phi i g <> 0) -> (0 < K)%nat ->
  dynamic_mode_decomp svd P groups phi xs_total (Scatter3 xs) external boundary geometry warm K legs = Ok phi.
Proof. exact dmd_keeps_solution. Qed.
Print Assumptions C27_keeps_solution.
Example C27_case : nonzero_ordinates (angles demo) (mu demo) /\
  ((exists f, dynamic_mode_decomp pair_svd demo 2 zeros2 duo_total (Scatter3 duo_scatter) duo_ext duo_bnd 1 0 1 None = Ok f) \/
  dynamic_mode_decomp pair_svd demo 2 zeros2 duo_total (Scatter3 duo_scatter) duo_ext duo_bnd 1 0 1 None = Raise IndexError).
Proof.
  split; [exact demo_nonzero|].
  destruct (dmd_few_snapshots pair_svd demo 2 zeros2 duo_total duo_scatter duo_ext duo_bnd 0 1 None demo_nonzero ltac:(lia))
    as [(x & n & f & E & _)|E]; [left; exists f; exact E|right; exact E].
Qed.

(** ** C28 DMD extrapolation on linear error dynamics *)
Theorem C28_kept_modes :
  forall svd n m A K U sv Vt,
  svd n m A = (U, sv, Vt) -> is_svd n m A (U, sv, Vt) -> (m <= K)%nat ->
  exists r s_inv, svd_dmd svd n m A K = (r, U, s_inv, Vt) /\ keeps (Nat.min n m) sv r /\
    (forall j, (j < r)%nat -> s_inv j = 1 / sv j /\ 0 < sv j).
Proof. exact kept_modes. Qed.
Print Assumptions C28_kept_modes.
Theorem C28_galerkin :
  forall (cells groups K : nat) (A : mat2) (b : vec) (x : nat -> vec) (flux_old ym yp U Vt : mat2)
      (sv : vec) (svd : nat -> nat -> mat2 -> mat2 * vec * mat2),
    (2 <= K)%nat ->
    linear_history (cells * groups) A b K x ->
    snapshots (cells * groups) K x ym yp ->
    holds cells groups flux_old (x K) ->
    svd (cells * groups)%nat (K - 1)%nat ym = (U, sv, Vt) ->
    is_svd (cells * groups) (K - 1) ym (U, sv, Vt) ->
    forall flux : mat2,
    dmd svd cells groups flux_old ym yp K = Ok flux ->
    exists (r : nat) (v : vec),
      keeps (Nat.min (cells * groups) (K - 1)) sv r /\
      holds cells groups flux v /\
      in_span (cells * groups) r U (fun s : nat => v s - x (K - 1)%nat s) /\
      (forall a : nat,
       (a < r)%nat ->
       rsum (cells * groups) (fun s : nat => U s a * (apply (cells * groups) A v s + b s - v s)) = 0).
Proof. exact dmd_galerkin. Qed.
Print Assumptions C28_galerkin.
Theorem C28_exact_partial :
  forall (cells groups K : nat) (A : mat2) (b : vec) (x : nat -> vec) (flux_old ym yp U Vt : mat2)
      (sv : vec) (svd : nat -> nat -> mat2 -> mat2 * vec * mat2),
    (2 <= K)%nat ->
    linear_history (cells * groups) A b K x ->
    snapshots (cells * groups) K x ym yp ->
    holds cells groups flux_old (x K) ->
    svd (cells * groups)%nat (K - 1)%nat ym = (U, sv, Vt) ->
    is_svd (cells * groups) (K - 1) ym (U, sv, Vt) ->
    forall (flux : mat2) (r : nat) (star : vec),
    keeps (Nat.min (cells * groups) (K - 1)) sv r ->
    fixed_point (cells * groups) A b star ->
    in_span (cells * groups) r U (fun s : nat => star s - x (K - 1)%nat s) ->
    dmd svd cells groups flux_old ym yp K = Ok flux -> holds cells groups flux star.
Proof. exact dmd_exact. Qed.
Print Assumptions C28_exact_partial.
Theorem C28_one_mode :
  forall (cells groups K : nat) (A : mat2) (b : vec) (x : nat -> vec) (flux_old ym yp U Vt : mat2)
      (sv : vec) (svd : nat -> nat -> mat2 -> mat2 * vec * mat2) (v : vec) (lam : R) 
      (s0 : nat),
    (2 <= K)%nat ->
    linear_history (cells * groups) A b K x ->
    snapshots (cells * groups) K x ym yp ->
    holds cells groups flux_old (x K) ->
    svd (cells * groups)%nat (K - 1)%nat ym = (U, sv, Vt) ->
    is_svd (cells * groups) (K - 1) ym (U, sv, Vt) ->
    (forall s : nat, (s < cells * groups)%nat -> x 1%nat s - x 0%nat s = v s) ->
    (forall s : nat, (s < cells * groups)%nat -> apply (cells * groups) A v s = lam * v s) ->
    lam <> 1 ->
    (s0 < cells * groups)%nat ->
    v s0 <> 0 ->
    exists flux : mat2,
      dmd svd cells groups flux_old ym yp K = Ok flux /\
      holds cells groups flux (fun s : nat => x 0%nat s + v s / (1 - lam)) /\
      fixed_point (cells * groups) A b (fun s : nat => x 0%nat s + v s / (1 - lam)).
Proof. exact dmd_one_mode. Qed.
Print Assumptions C28_one_mode.
Theorem C28_singular :
  forall (cells groups K : nat) (A : mat2) (b : vec) (x : nat -> vec) (flux_old ym yp U Vt : mat2)
      (sv : vec) (svd : nat -> nat -> mat2 -> mat2 * vec * mat2),
    (2 <= K)%nat ->
    linear_history (cells * groups) A b K x ->
    snapshots (cells * groups) K x ym yp ->
    svd (cells * groups)%nat (K - 1)%nat ym = (U, sv, Vt) ->
    is_svd (cells * groups) (K - 1) ym (U, sv, Vt) ->
    forall e : exn,
    dmd svd cells groups flux_old ym yp K = Raise e ->
    e = LinAlgError /\
    (exists (r : nat) (z : nat -> R),
       keeps (Nat.min (cells * groups) (K - 1)) sv r /\
       (exists j : nat, (j < r)%nat /\ z j <> 0) /\
       (let w := fun s : nat => rsum r (fun j : nat => U s j * z j) in
        forall a : nat,
        (a < r)%nat ->
        rsum (cells * groups) (fun s : nat => U s a * (apply (cells * groups) A w s - w s)) = 0)).
Proof. exact dmd_raises. Qed.
Print Assumptions C28_singular.
Theorem C28_solver :
  forall n,
  forall M b x, linalg_solve n M b = Ok x ->
  (forall i, (i < n)%nat -> rsum n (fun j => M i j * x j) = b i) /\
  (forall z, (forall i, (i < n)%nat -> rsum n (fun j => M i j * z j) = 0) -> forall j, (j < n)%nat -> z j = 0).
Proof. exact solve_sound. Qed.
Print Assumptions C28_solver.
Theorem C28_solver_singular :
  forall n,
  forall M b e, linalg_solve n M b = Raise e ->
  e = LinAlgError /\ exists z : vec, (exists j, (j < n)%nat /\ z j <> 0) /\
    forall i, (i < n)%nat -> rsum n (fun j => M i j * z j) = 0.
Proof. exact solve_singular. Qed.
Print Assumptions C28_solver_singular.
Theorem C28_drops_energy :
  forall q sv r,
  keeps q sv r -> / 10 ^ 9 * tail q sv 0 < tail q sv 1 ->
  (r < q)%nat /\ / 10 ^ 9 * tail q sv 0 < tail q sv r.
Proof. exact keeps_drops_energy. Qed.
Print Assumptions C28_drops_energy.
Theorem C28_exact_refuted :
  exists cells groups K A b x flux_old ym yp U sv Vt svd star flux,
    (2 <= K)%nat /\ linear_history (cells * groups) A b K x /\ snapshots (cells * groups) K x ym yp /\
    holds cells groups flux_old (x K) /\ svd (cells * groups)%nat (K - 1)%nat ym = (U, sv, Vt) /\
    is_svd (cells * groups) (K - 1) ym (U, sv, Vt) /\
    (forall s t, 0 <= A s t) /\ (forall s, (s < cells * groups)%nat -> rsum (cells * groups) (A s) <= 1 / 2) /\
    (forall j, (j < Nat.min (cells * groups) (K - 1))%nat -> 1 / 2 <= sv j) /\
    in_span (cells * groups) (Nat.min (cells * groups) (K - 1)) U (fun s => star s - x (K - 1)%nat s) /\
    fixed_point (cells * groups) A b star /\
    dmd svd cells groups flux_old ym yp K = Ok flux /\ ~ holds cells groups flux star.
Proof. exact dmd_truncates. Qed.
Print Assumptions C28_exact_refuted.
Example C28_case :
  linear_history (2 * 1) mono_A pair_b 2 mono_x /\ snapshots (2 * 1) 2 mono_x mono_ym mono_yp /\
  is_svd (2 * 1) (2 - 1) mono_ym (eye, fun _ => 1, eye) /\
  exists flux, dmd (fun _ _ _ => (eye, fun _ => 1, eye)) 2 1 (fun i _ => mono_x 2 i) mono_ym mono_yp 2 = Ok flux /\
    flux 0%nat 0%nat = 2 /\ flux 1%nat 0%nat = 0.
Proof.
  split; [exact mono_linear|]. split; [intros s k Hs Hk; split; reflexivity|]. split; [exact mono_is_svd|].
  destruct (dmd_one_mode 2 1 2 mono_A pair_b mono_x (fun i _ => mono_x 2 i) mono_ym mono_yp eye eye (fun _ => 1)
    (fun _ _ _ => (eye, fun _ => 1, eye)) pair_b (1 / 2) 0) as (flux & E & H & _).
  - lia.
  - exact mono_linear.
  - intros s k Hs Hk; split; reflexivity.
  - intros i g Hi Hg. assert (g = 0%nat) by lia. subst g. f_equal. lia.
  - reflexivity.
  - exact mono_is_svd.
  - intros s Hs. two s Hs; unfold mono_x, pair_b; cbn; lra.
  - intros s Hs. two s Hs; unfold apply, mono_A, pair_b; cbn; lra.
  - lra.
  - cbn. lia.
  - unfold pair_b. cbn. lra.
  - exists flux. split; [exact E|].
    rewrite (H 0%nat 0%nat), (H 1%nat 0%nat) by lia. unfold mono_x, pair_b. cbn. split; lra.
Qed.
