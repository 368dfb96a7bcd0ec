(** Stability of whole histories; runs of the program. *)
From Coq Require Import Lra Lia Psatz.
From Verif Require Import Base BaseFacts SlabModel SlabSpec MgModel MgSpec TimeModel TimeSpec TimeFacts TimeFacts2 EnSpec EnFacts EnFacts2.
Open Scope R_scope.

Section History.
Variables (P : sn) (G : nat) (velocity : vec) (dt : R) (xs_total : mat2) (transfer : mat3).
Hypothesis HP : sound_slab P.
Hypothesis HM : no_multiplication P G xs_total transfer.
Hypothesis HV : forall g, (g < G)%nat -> 0 < velocity g.
Hypothesis Hdt : 0 < dt.
Variables (ext ext' bnd : nat -> arr3) (steps : nat) (psi psi' : nat -> mat3) (emit emit' : nat -> mat2).
Let N k := density_norm P G velocity (minus3 (psi k) (psi' k)).
Let Q k := source_norm P G velocity (minus3 (step_input P G transfer (ext k) (emit k) (psi (S k))) (step_input P G transfer (ext' k) (emit' k) (psi' (S k)))).

Lemma euler_history :
  time_history false P G velocity dt xs_total transfer ext bnd steps psi emit ->
  time_history false P G velocity dt xs_total transfer ext' bnd steps psi' emit' ->
  forall k, (k < steps)%nat -> N (S k) <= N k + dt * Q k.
Proof.
  intros H1 H2 k Hk. destruct (H1 k Hk) as (E1 & F1). destruct (H2 k Hk) as (E2 & F2). cbn [run_derivative] in F1, F2.
  exact (proj1 (euler_step P G velocity dt xs_total transfer HP HM HV Hdt _ _ _ _ _ _ _ _ _ E1 E2 F1 F2)).
Qed.
Lemma euler_total :
  time_history false P G velocity dt xs_total transfer ext bnd steps psi emit ->
  time_history false P G velocity dt xs_total transfer ext' bnd steps psi' emit' ->
  forall k, (k <= steps)%nat -> N k <= N 0%nat + dt * rsum k Q.
Proof.
  intros H1 H2. induction k as [|k IH]; intros Hk; [cbn [rsum]; lra|].
  specialize (IH ltac:(lia)). pose proof (euler_history H1 H2 k ltac:(lia)). cbn [rsum]. lra.
Qed.

Let gamma k := sqrt (N (S k) * N (S k) + density_norm P G velocity (twice (minus3 (psi (S k)) (psi' (S k))) (minus3 (psi k) (psi' k)))
                      * density_norm P G velocity (twice (minus3 (psi (S k)) (psi' (S k))) (minus3 (psi k) (psi' k)))).
Lemma gamma_sq k : gamma k * gamma k = N (S k) * N (S k) + density_norm P G velocity (twice (minus3 (psi (S k)) (psi' (S k))) (minus3 (psi k) (psi' k)))
                      * density_norm P G velocity (twice (minus3 (psi (S k)) (psi' (S k))) (minus3 (psi k) (psi' k))).
Proof. unfold gamma. apply sqrt_sqrt. apply Rplus_le_le_0_compat; apply Rle_0_sqr. Qed.
Lemma gamma_above k : N (S k) <= gamma k.
Proof.
  apply Rsqr_incr_0_var; [|apply sqrt_pos]. unfold Rsqr. rewrite gamma_sq.
  pose proof (Rle_0_sqr (density_norm P G velocity (twice (minus3 (psi (S k)) (psi' (S k))) (minus3 (psi k) (psi' k))))) as H. unfold Rsqr in H. lra.
Qed.
Lemma Q_nonneg k : 0 <= Q k.
Proof. apply sqrt_pos. Qed.
Lemma N0_nonneg k : 0 <= N k.
Proof. apply sqrt_pos. Qed.
Lemma bdf2_total :
  time_history true P G velocity dt xs_total transfer ext bnd steps psi emit ->
  time_history true P G velocity dt xs_total transfer ext' bnd steps psi' emit' ->
  forall k, (k < steps)%nat -> gamma k <= sqrt 2 * N 0%nat + 6 * dt * rsum (S k) Q.
Proof.
  intros H1 H2. induction k as [|k IH]; intros Hk; destruct (H1 _ Hk) as (E1 & F1); destruct (H2 _ Hk) as (E2 & F2); cbn [run_derivative] in F1, F2.
  - pose proof (proj2 (euler_step P G velocity dt xs_total transfer HP HM HV Hdt _ _ _ _ _ _ _ _ _ E1 E2 F1 F2)) as I.
    fold (N 1%nat) (N 0%nat) (Q 0%nat) in I. pose proof (gamma_sq 0) as Gs. pose proof (gamma_above 0) as Ga. pose proof (Q_nonneg 0). pose proof (N0_nonneg 0).
    assert (R2 : sqrt 2 * sqrt 2 = 2) by (apply sqrt_sqrt; lra). pose proof (sqrt_pos 2).
    cbn [rsum]. rewrite Rplus_0_l. apply step_root; [apply sqrt_pos|apply Rmult_le_pos; assumption|nra|].
    rewrite Gs. eapply Rle_trans; [exact I|]. replace (sqrt 2 * N 0%nat * (sqrt 2 * N 0%nat)) with (sqrt 2 * sqrt 2 * (N 0%nat * N 0%nat)) by ring. rewrite R2.
    apply Rplus_le_compat_l. apply Rmult_le_compat_l; [nra|exact Ga].
  - specialize (IH ltac:(lia)).
    pose proof (bdf2_step P G velocity dt xs_total transfer HP HM HV Hdt _ _ _ _ _ _ _ _ _ _ _ E1 E2 F1 F2) as I.
    fold (N (S (S k))) (N (S k)) (Q (S k)) in I. pose proof (gamma_sq k) as Gk. pose proof (gamma_sq (S k)) as Gs. pose proof (gamma_above (S k)) as Ga. pose proof (Q_nonneg (S k)).
    change (rsum (S (S k)) Q) with (rsum (S k) Q + Q (S k)).
    assert (B : gamma (S k) <= gamma k + 4 * dt * Q (S k)).
    { apply step_root; [apply sqrt_pos|apply sqrt_pos|nra|]. rewrite Gs, Gk. eapply Rle_trans; [exact I|]. apply Rplus_le_compat_l. apply Rmult_le_compat_l; [nra|exact Ga]. }
    nra.
Qed.
Lemma bdf2_stable :
  time_history true P G velocity dt xs_total transfer ext bnd steps psi emit ->
  time_history true P G velocity dt xs_total transfer ext' bnd steps psi' emit' ->
  forall k, (k <= steps)%nat -> N k <= sqrt 2 * N 0%nat + 6 * dt * rsum k Q.
Proof.
  intros H1 H2 [|k] Hk.
  - cbn [rsum]. pose proof (N0_nonneg 0). assert (1 <= sqrt 2) by (rewrite <- sqrt_1 at 1; apply sqrt_le_1_alt; lra). nra.
  - eapply Rle_trans; [apply gamma_above|]. apply bdf2_total; [exact H1|exact H2|lia].
Qed.
End History.

Lemma stability two P G velocity dt xs_total transfer ext ext' bnd steps psi psi' emit emit' :
  sound_slab P -> no_multiplication P G xs_total transfer -> (forall g, (g < G)%nat -> 0 < velocity g) -> 0 < dt ->
  time_history two P G velocity dt xs_total transfer ext bnd steps psi emit ->
  time_history two P G velocity dt xs_total transfer ext' bnd steps psi' emit' ->
  forall k, (k <= steps)%nat ->
  density_norm P G velocity (minus3 (psi k) (psi' k)) <=
    (if two then sqrt 2 else 1) * density_norm P G velocity (minus3 (psi 0%nat) (psi' 0%nat))
    + (if two then 6 else 1) * dt * rsum k (fun j => source_norm P G velocity
        (minus3 (step_input P G transfer (ext j) (emit j) (psi (S j))) (step_input P G transfer (ext' j) (emit' j) (psi' (S j))))).
Proof.
  intros HP HM HV Hdt H1 H2 k Hk. destruct two.
  - exact (bdf2_stable P G velocity dt xs_total transfer HP HM HV Hdt ext ext' bnd steps psi psi' emit emit' H1 H2 k Hk).
  - pose proof (euler_total P G velocity dt xs_total transfer HP HM HV Hdt ext ext' bnd steps psi psi' emit emit' H1 H2 k Hk). lra.
Qed.
