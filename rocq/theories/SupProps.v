(** C129: source iteration where neutrons are lost on the whole. *)
From Coq Require Import Lra Lia.
From Verif Require Import Base BaseFacts SlabModel SlabSpec MgModel MgSpec SupSpec SupFacts SupFacts2 SupFacts3 SupFacts4 SupWitness.
Open Scope R_scope.

(** ** C129 Source iteration converges whenever no collision yields more neutrons than it takes *)
Theorem C129_yield :
  forall P G T X c r,
  positive_sweeps P G T -> sound_slab P -> 0 < rsum (angles P) (wt P) ->
  0 <= c -> c < r -> r < 1 -> yields_below P G T X c ->
  (forall external boundary, exists sol, mg_solution P G T X external boundary sol /\
    (forall other, mg_solution P G T X external boundary other -> agree2 (cells P) G other sol) /\
    ((forall i g h, (i < cells P)%nat -> (g < G)%nat -> (h < G)%nat -> 0 <= X (medium P i) g h) ->
     (forall m i g, (m < angles P)%nat -> (i < cells P)%nat -> (g < G)%nat -> 0 <= at3 external i (bidx (d3b external) m) (bidx (d3c external) g)) ->
     (forall m g, (m < angles P)%nat -> (g < G)%nat -> 0 <= mg_boundary boundary (mu P) g m) ->
     below2 (cells P) G (fun _ _ => 0) sol)) /\
  exists K, 1 <= K /\ forall external boundary old sol, mg_solution P G T X external boundary sol ->
  exists flux, source_iteration P G old T (Scatter3 X) external boundary 1 None = Ok flux /\
  exists n, (1 <= n <= 100)%nat /\
    (forall d, 0 <= d -> within2 (cells P) G d old sol -> within2 (cells P) G (K * r ^ n * d) flux sol) /\
    ((n < 100)%nat -> forall M, 0 <= M ->
       (forall i g, (i < cells P)%nat -> (g < G)%nat -> Rabs (flux i g) <= M) ->
       within2 (cells P) G (K * (r * (/ 10 ^ 8 * INR (cells P) * M) / (1 - r))) flux sol).
Proof. exact yield_converges. Qed.
Print Assumptions C129_yield.
Theorem C129_leakage :
  forall P G T X,
  positive_sweeps P G T -> sound_slab P -> 0 < rsum (angles P) (wt P) ->
  yields_below P G T X 1 -> transmitting P G T -> leaky P ->
  (forall external boundary, exists sol, mg_solution P G T X external boundary sol /\
    (forall other, mg_solution P G T X external boundary other -> agree2 (cells P) G other sol) /\
    ((forall i g h, (i < cells P)%nat -> (g < G)%nat -> (h < G)%nat -> 0 <= X (medium P i) g h) ->
     (forall m i g, (m < angles P)%nat -> (i < cells P)%nat -> (g < G)%nat -> 0 <= at3 external i (bidx (d3b external) m) (bidx (d3c external) g)) ->
     (forall m g, (m < angles P)%nat -> (g < G)%nat -> 0 <= mg_boundary boundary (mu P) g m) ->
     below2 (cells P) G (fun _ _ => 0) sol)) /\
  exists r K, 0 <= r < 1 /\ 1 <= K /\ forall external boundary old sol, mg_solution P G T X external boundary sol ->
  exists flux, source_iteration P G old T (Scatter3 X) external boundary 1 None = Ok flux /\
  exists n, (1 <= n <= 100)%nat /\
    (forall d, 0 <= d -> within2 (cells P) G d old sol -> within2 (cells P) G (K * r ^ n * d) flux sol) /\
    ((n < 100)%nat -> forall M, 0 <= M ->
       (forall i g, (i < cells P)%nat -> (g < G)%nat -> Rabs (flux i g) <= M) ->
       within2 (cells P) G (K * (r * (/ 10 ^ 8 * INR (cells P) * M) / (1 - r))) flux sol).
Proof. exact leak_converges. Qed.
Print Assumptions C129_leakage.
Theorem C129_damped :
  forall P G T X c p,
  positive_sweeps P G T -> 0 <= c < 1 -> damping P G T X c p ->
  exists K, 1 <= K /\ forall external boundary old sol, mg_solution P G T X external boundary sol ->
  exists flux, source_iteration P G old T (Scatter3 X) external boundary 1 None = Ok flux /\
  exists n, (1 <= n <= 100)%nat /\
    (forall d, 0 <= d -> within2 (cells P) G d old sol -> within2 (cells P) G (K * c ^ n * d) flux sol) /\
    ((n < 100)%nat -> forall M, 0 <= M ->
       (forall i g, (i < cells P)%nat -> (g < G)%nat -> Rabs (flux i g) <= M) ->
       within2 (cells P) G (K * (c * (/ 10 ^ 8 * INR (cells P) * M) / (1 - c))) flux sol).
Proof. exact damped_converges. Qed.
Print Assumptions C129_damped.
Theorem C129_well_posed :
  forall P G T X c p,
  positive_sweeps P G T -> 0 <= c < 1 -> damping P G T X c p ->
  forall external boundary, exists sol, mg_solution P G T X external boundary sol /\
    (forall other, mg_solution P G T X external boundary other -> agree2 (cells P) G other sol) /\
    ((forall i g h, (i < cells P)%nat -> (g < G)%nat -> (h < G)%nat -> 0 <= X (medium P i) g h) ->
     (forall m i g, (m < angles P)%nat -> (i < cells P)%nat -> (g < G)%nat -> 0 <= at3 external i (bidx (d3b external) m) (bidx (d3c external) g)) ->
     (forall m g, (m < angles P)%nat -> (g < G)%nat -> 0 <= mg_boundary boundary (mu P) g m) ->
     below2 (cells P) G (fun _ _ => 0) sol).
Proof. exact damped_well_posed. Qed.
Print Assumptions C129_well_posed.
(** Row sums above the total cross section (so the hypothesis of C24 fails for every c < 1), column sums 9/10, and the
    lossless case. *)
Example C129_case :
  positive_sweeps slow 2 slow_total /\ sound_slab slow /\ 0 < rsum (angles slow) (wt slow) /\
  yields_below slow 2 slow_total (slow_scatter (9 / 10)) (9 / 10) /\
  (forall c, c < 1 -> ~ mg_ratio slow 2 slow_total (slow_scatter (9 / 10)) c) /\
  yields_below slow 2 slow_total (slow_scatter 1) 1 /\ transmitting slow 2 slow_total /\ leaky slow.
Proof.
  split; [exact slow_sweeps|]. split; [exact slow_sound|]. split; [cbn; lra|]. split; [apply slow_yields; lra|].
  split; [intros c Hc; apply slow_no_ratio; lra|]. split; [apply slow_yields; lra|]. split; [exact slow_transmitting|exact slow_leaky].
Qed.
