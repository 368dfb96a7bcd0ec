(** Scattering data of either rank: anisotropic moments drop out of the infinite-medium solvers. *)
From Coq Require Import Lra Lia Psatz FunctionalExtensionality.
From Verif Require Import Base BaseFacts SlabModel MgModel MainFacts2 CritModel CritSpec CritFacts4 InfModel InfSpec InfFacts4.
Open Scope R_scope.

Lemma legendre_step l x : INR (l + 2) * legendre (l + 2) x = (2 * INR (l + 1) + 1) * x * legendre (l + 1) x - INR (l + 1) * legendre l x.
Proof.
  unfold legendre. rewrite !plus_INR. cbn [INR]. replace (l + 2)%nat with (S (S l)) by lia. replace (l + 1)%nat with (S l) by lia.
  cbn [legendre_pair]. destruct (legendre_pair l x) as [p q]. cbn [fst snd]. pose proof (pos_INR l). field. lra.
Qed.
Lemma legendre_rows nm x : (0 < nm)%nat -> exists P, legendre_polynomials nm x = Ok P /\ forall l n, (l < nm)%nat -> P l n = legendre l (x n).
Proof.
  intros H. destruct (legendre_table nm x H) as (P & E & P0 & P1 & P2). exists P. split; [exact E|].
  assert (Two : forall l n, ((l < nm)%nat -> P l n = legendre l (x n)) /\ ((S l < nm)%nat -> P (S l) n = legendre (S l) (x n))).
  { induction l as [|l IH]; intros n.
    - split; intros Hl; [rewrite P0; reflexivity|rewrite P1 by exact Hl; reflexivity].
    - destruct (IH n) as (A & B). split; [exact B|]. intros Hl. specialize (P2 l n ltac:(lia)). pose proof (legendre_step l (x n)) as S2.
      replace (l + 2)%nat with (S (S l)) in P2, S2 by lia. replace (l + 1)%nat with (S l) in P2, S2 by lia.
      rewrite A, B in P2 by lia. apply (Rmult_eq_reg_l (INR (S (S l)))); [lra|]. apply not_0_INR. lia. }
  intros l n. apply Two.
Qed.
Theorem any_rank_0d angles groups mu wt T s rows external given old : usable_scatter angles mu wt s -> right_tables angles mu wt s given ->
  (forall m g, (m < angles)%nat -> at2 external (bidx rows m) g = at2 external 0%nat g) ->
  source_iteration_any_0d angles groups mu wt T s rows external given old = source_iteration_0d angles groups wt T (isotropic_part s) rows external old.
Proof.
  intros Hs Ht He. destruct s as [xs|nm xs]; [reflexivity|]. destruct Hs as (Hn & Hm). cbn [source_iteration_any_0d isotropic_part].
  destruct given as [[leg legw]|].
  - apply aniso_source_0d_is_iso; [exact Hn| | |exact He].
    + intros m Hm'. destruct (Ht 0%nat m Hn Hm') as (-> & ->). unfold legendre. cbn. split; ring.
    + intros l Hl. rewrite <- (Hm l Hl). apply rsum_ext. intros n Hn'. apply Ht; [lia|exact Hn'].
  - destruct (legendre_rows nm mu Hn) as (P & E & HP). rewrite E. cbn [bind]. apply aniso_source_0d_is_iso; [exact Hn| | |exact He].
    + intros m _. rewrite (HP 0%nat m Hn). unfold legendre. cbn. split; ring.
    + intros l Hl. rewrite <- (Hm l Hl). apply rsum_ext. intros n _. rewrite HP by lia. reflexivity.
Qed.
Theorem critical_any_rank angles groups mu wt T s f guess : usable_scatter angles mu wt s ->
  critical_0d angles groups mu wt T s f guess = power_iteration_0d angles groups wt T (isotropic_part s) f guess.
Proof.
  intros Hs. unfold critical_0d, power_iteration_0d. apply iterate_ext; [|reflexivity]. intros [v k]. unfold critical_step_0d, power_step_0d. cbv zeta.
  rewrite any_rank_0d; [reflexivity|exact Hs|destruct s; exact I|]. intros m g _. reflexivity.
Qed.

(** the whole run, for data of either rank *)
Theorem critical_0d_converges angles groups mu wt T s f d phi k c p sp E a0 b0 guess w0 flux keff :
  usable_scatter angles mu wt s -> forall X, X = isotropic_part s ->
  damped_0d angles groups wt T X -> (0 < groups)%nat -> nonneg_fission_0d groups f ->
  even_generation_0d angles groups wt T X f d ->
  0 < k -> positive1 groups phi -> eigenpair_0d angles groups wt T X f phi k ->
  0 <= c < 1 -> damping_0d angles groups wt T X c p -> c * / 10 ^ 8 < 1 - c ->
  (forall g h, (g < groups)%nat -> (h < groups)%nat -> p g <= sp * p h) ->
  positive1 groups guess -> next_generation_0d angles groups wt T X f guess w0 ->
  0 < a0 -> below1 groups (fun g => a0 * guess g) w0 -> below1 groups w0 (fun g => b0 * guess g) ->
  norm1 groups guess <= E * a0 -> 3 * b0 <= E * a0 * d ^ 2 -> 6 <= E * d ^ 4 ->
  critical_0d angles groups mu wt T s f guess = Ok (flux, keff) ->
  forall eta kap width, eta = solve_accuracy_0d c 100 (1 + E) * sp / d -> eta <= 1 / 3 ->
  kap = (1 + eta) / (1 - eta) -> (forall m, width m = (1 - d ^ 2) ^ m + (kap - / kap) / d ^ 2) ->
  exists N x, (1 <= N <= 101)%nat /\ x 0%nat = (fun g => guess g / norm1 groups guess, norm1 groups guess) /\ x N = (flux, keff) /\
    (forall m, (m < N)%nat -> critical_step_0d angles groups mu wt T s f (x m) = Ok (x (S m))) /\
    ((2 <= N)%nat -> Rabs (keff - k) <= (width (N - 2)%nat + eta) * (kap * k / d ^ 2)) /\
    ((N < 101)%nat -> (1 - eta) * (1 - / 10 ^ 6) / (1 + / 10 ^ 6) * k <= keff <= (1 + eta) * (1 + / 10 ^ 6) / (1 - / 10 ^ 6) * k) /\
    exists t, 0 < t /\ forall g, (g < groups)%nat -> t * phi g <= flux g <= t * (1 + width (N - 1)%nat * kap ^ 2 / d ^ 6) * phi g.
Proof.
  intros Hs X HX HD HG Hf Hev Hk Hphi He Hc Hp Hsm Hsp Hg0 Hw0 Ha0 Hlo Hhi H1 H2 H3 Er eta kap width Eeta Heta Ekap Ew. subst X.
  rewrite (critical_any_rank angles groups mu wt T s f guess Hs) in Er.
  destruct (inf_power angles groups wt T (isotropic_part s) f HD HG Hf phi k Hk Hphi He d Hev c p sp E a0 b0 guess w0 flux keff Hc Hp Hsm Hsp Hg0 Hw0 Ha0 Hlo Hhi H1 H2 H3 Er
    eta kap width Eeta Heta Ekap Ew) as (N & x & A1 & A2 & A3 & A4 & A5 & A6 & A7).
  exists N, x. split; [exact A1|]. split; [|split; [exact A3|split; [|split; [exact A5|split; [exact A6|exact A7]]]]].
  - rewrite A2. rewrite Rabs_right; [reflexivity|]. apply Rle_ge, sqrt_pos.
  - intros m Hm. rewrite <- (A4 m Hm). destruct (x m) as [v kk]. unfold critical_step_0d, power_step_0d. cbv zeta. rewrite any_rank_0d; [reflexivity|exact Hs|destruct s; exact I|]. intros j g _. reflexivity.
Qed.
(** the settled exit alone, for one pass *)
Theorem critical_stop angles groups mu wt T s f phi k eta v kap flux keff :
  usable_scatter angles mu wt s -> forall X, X = isotropic_part s ->
  damped_0d angles groups wt T X -> (0 < groups)%nat -> nonneg_fission_0d groups f ->
  0 < k -> positive1 groups phi -> eigenpair_0d angles groups wt T X f phi k ->
  0 <= eta < 1 -> positive1 groups v -> 0 < kap ->
  critical_step_0d angles groups mu wt T s f (v, kap) = Ok (flux, keff) ->
  accurate_solve_0d angles groups wt T X f eta (v, kap) ->
  settled0 groups flux v (/ 10 ^ 6) ->
  (1 - eta) * (1 - / 10 ^ 6) / (1 + / 10 ^ 6) * k <= keff <= (1 + eta) * (1 + / 10 ^ 6) / (1 - / 10 ^ 6) * k.
Proof.
  intros Hs X HX HD HG Hf Hk Hphi He Heta Hv Hkap Es Acc Hset. subst X.
  assert (t6 : 0 < / 10 ^ 6 < 1) by (split; [apply Rinv_0_lt_compat, pow_lt; lra|rewrite <- Rinv_1; apply Rinv_lt_contravar; lra]).
  apply (InfFacts3.settled_pass_0d angles groups wt T (isotropic_part s) f HD HG Hf phi k Hk Hphi He eta (/ 10 ^ 6) v kap flux keff Heta ltac:(lra) Hv Hkap); [|exact Acc|exact Hset].
  rewrite <- Es. unfold critical_step_0d, power_step_0d. cbv zeta. rewrite any_rank_0d; [reflexivity|exact Hs|destruct s; exact I|]. intros j g _. reflexivity.
Qed.
