(** Source iteration of slabs in which neutrons are lost on the whole. *)
From Coq Require Import Lra Lia Psatz.
From Verif Require Import Base BaseFacts Contraction SlabModel SlabSpec SlabFacts SlabFacts2 SlabFacts3 SlabFacts4.
From Verif Require Import MgModel MgSpec MgFacts MgFacts2 MgFacts3 MgFacts6 MgFacts7 SupSpec SupFacts SupFacts2 SupFacts3.
Open Scope R_scope.

(** Exactly one flux solves the problem, and it is nonnegative for nonnegative data. *)
Theorem damped_well_posed P G T X c p : positive_sweeps P G T -> 0 <= c < 1 -> damping P G T X c p ->
  forall external boundary, exists sol, mg_solution P G T X external boundary sol /\
    (forall other, mg_solution P G T X external boundary other -> agree2 (cells P) G other sol) /\
    ((forall i g h, (i < cells P)%nat -> (g < G)%nat -> (h < G)%nat -> 0 <= X (medium P i) g h) ->
     (forall m i g, (m < angles P)%nat -> (i < cells P)%nat -> (g < G)%nat -> 0 <= at3 external i (bidx (d3b external) m) (bidx (d3c external) g)) ->
     (forall m g, (m < angles P)%nat -> (g < G)%nat -> 0 <= mg_boundary boundary (mu P) g m) ->
     below2 (cells P) G (fun _ _ => 0) sol).
Proof.
  intros HP Hc Hp external boundary. destruct (damped_unique P G T X c p HP Hc Hp external boundary) as (sol & Hs & Hu).
  exists sol. split; [exact Hs|]. split; [exact Hu|]. intros HX He Hb. apply (damped_nonneg P G T X c p HP Hc Hp external boundary sol); assumption.
Qed.
(** The run returns, and its result approaches that flux. *)
Theorem damped_converges P G T X c p : positive_sweeps P G T -> 0 <= c < 1 -> damping P G T X c p ->
  exists K, 1 <= K /\ forall external boundary old sol, mg_solution P G T X external boundary sol ->
  exists flux, source_iteration P G old T (Scatter3 X) external boundary 1 None = Ok flux /\
  exists n, (1 <= n <= 100)%nat /\
    (forall d, 0 <= d -> within2 (cells P) G d old sol -> within2 (cells P) G (K * c ^ n * d) flux sol) /\
    ((n < 100)%nat -> forall M, 0 <= M ->
       (forall i g, (i < cells P)%nat -> (g < G)%nat -> Rabs (flux i g) <= M) ->
       within2 (cells P) G (K * (c * (change_gg * INR (cells P) * M) / (1 - c))) flux sol).
Proof.
  intros HP Hc HD. destruct (damped_error_plain P G T X c p HP Hc HD) as (K & HK & H). exists K. split; [exact HK|].
  intros external boundary old sol Hs. destruct (outer_total P G old T X external boundary (proj1 HP)) as [flux E].
  exists flux. split; [exact E|]. exact (H external boundary old flux sol Hs E).
Qed.
(** Every collision yields at most [c < 1] neutrons. *)
Theorem yield_converges P G T X c r : positive_sweeps P G T -> sound_slab P -> 0 < rsum (angles P) (wt P) ->
  0 <= c -> c < r -> r < 1 -> yields_below P G T X c ->
  (forall external boundary, exists sol, mg_solution P G T X external boundary sol /\
    (forall other, mg_solution P G T X external boundary other -> agree2 (cells P) G other sol) /\
    ((forall i g h, (i < cells P)%nat -> (g < G)%nat -> (h < G)%nat -> 0 <= X (medium P i) g h) ->
     (forall m i g, (m < angles P)%nat -> (i < cells P)%nat -> (g < G)%nat -> 0 <= at3 external i (bidx (d3b external) m) (bidx (d3c external) g)) ->
     (forall m g, (m < angles P)%nat -> (g < G)%nat -> 0 <= mg_boundary boundary (mu P) g m) ->
     below2 (cells P) G (fun _ _ => 0) sol)) /\
  exists K, 1 <= K /\ forall external boundary old sol, mg_solution P G T X external boundary sol ->
  exists flux, source_iteration P G old T (Scatter3 X) external boundary 1 None = Ok flux /\
  exists n, (1 <= n <= 100)%nat /\
    (forall d, 0 <= d -> within2 (cells P) G d old sol -> within2 (cells P) G (K * r ^ n * d) flux sol) /\
    ((n < 100)%nat -> forall M, 0 <= M ->
       (forall i g, (i < cells P)%nat -> (g < G)%nat -> Rabs (flux i g) <= M) ->
       within2 (cells P) G (K * (r * (change_gg * INR (cells P) * M) / (1 - r))) flux sol).
Proof.
  intros HP HS HW Hc Hr H1 HY. destruct (yield_damping P G T HP HS HW X c r Hc Hr HY) as (p & Hp).
  split; [apply (damped_well_posed P G T X r p HP ltac:(lra) Hp)|apply (damped_converges P G T X r p HP ltac:(lra) Hp)].
Qed.
(** No collision yields more than one neutron, and neutrons can leave. *)
Theorem leak_converges P G T X : positive_sweeps P G T -> sound_slab P -> 0 < rsum (angles P) (wt P) ->
  yields_below P G T X 1 -> transmitting P G T -> leaky P ->
  (forall external boundary, exists sol, mg_solution P G T X external boundary sol /\
    (forall other, mg_solution P G T X external boundary other -> agree2 (cells P) G other sol) /\
    ((forall i g h, (i < cells P)%nat -> (g < G)%nat -> (h < G)%nat -> 0 <= X (medium P i) g h) ->
     (forall m i g, (m < angles P)%nat -> (i < cells P)%nat -> (g < G)%nat -> 0 <= at3 external i (bidx (d3b external) m) (bidx (d3c external) g)) ->
     (forall m g, (m < angles P)%nat -> (g < G)%nat -> 0 <= mg_boundary boundary (mu P) g m) ->
     below2 (cells P) G (fun _ _ => 0) sol)) /\
  exists r K, 0 <= r < 1 /\ 1 <= K /\ forall external boundary old sol, mg_solution P G T X external boundary sol ->
  exists flux, source_iteration P G old T (Scatter3 X) external boundary 1 None = Ok flux /\
  exists n, (1 <= n <= 100)%nat /\
    (forall d, 0 <= d -> within2 (cells P) G d old sol -> within2 (cells P) G (K * r ^ n * d) flux sol) /\
    ((n < 100)%nat -> forall M, 0 <= M ->
       (forall i g, (i < cells P)%nat -> (g < G)%nat -> Rabs (flux i g) <= M) ->
       within2 (cells P) G (K * (r * (change_gg * INR (cells P) * M) / (1 - r))) flux sol).
Proof.
  intros HP HS HW HY HT HL. destruct (free_damping P G T HP HW X) as (c & p & Hc & Hp).
  { apply leak_no_self_fed; assumption. }
  split; [apply (damped_well_posed P G T X c p HP Hc Hp)|]. destruct (damped_converges P G T X c p HP Hc Hp) as (K & HK & H).
  exists c, K. split; [exact Hc|]. split; [exact HK|exact H].
Qed.
