(** C130: fixed-source problems with fission. *)
From Coq Require Import Lra Lia.
From Verif Require Import Base BaseFacts SlabModel SlabSpec MgModel MgSpec SupSpec CritModel CritSpec CritFacts CritFacts5 CritFacts9 CritWitness2.
Open Scope R_scope.

(** ** C130 A source problem with fission has a physical solution exactly below criticality *)
Theorem C130_subcritical :
  forall (P : sn) (G : nat) (T : mat2) (X : mat3) (f : fission_data),
    damped_transport P G T X ->
    (0 < cells P)%nat ->
    (0 < G)%nat ->
    nonneg_fission (cells P) G (medium P) f ->
    forall (phi : mat2) (k : R),
    0 < k ->
    positive2 (cells P) G phi ->
    eigenpair P G T X f phi k ->
    k < 1 ->
    (forall external boundary : arr3,
     exists sol : mat2,
       mg_solution P G T (total_transfer X f) external boundary sol /\
       (forall other : mat2,
        mg_solution P G T (total_transfer X f) external boundary other -> agree2 (cells P) G other sol) /\
       ((forall m i g : nat,
         (m < angles P)%nat ->
         (i < cells P)%nat ->
         (g < G)%nat -> 0 <= at3 external i (bidx (d3b external) m) (bidx (d3c external) g)) ->
        (forall m g : nat, (m < angles P)%nat -> (g < G)%nat -> 0 <= mg_boundary boundary (mu P) g m) ->
        below2 (cells P) G (fun _ _ : nat => 0) sol)) /\
    (exists c K : R,
       0 <= c < 1 /\
       1 <= K /\
       (forall (external boundary : arr3) (old sol : mat2),
        mg_solution P G T (total_transfer X f) external boundary sol ->
        exists flux : mat2,
          source_iteration P G old T (Scatter3 (total_transfer X f)) external boundary 1 None = Ok flux /\
          (exists n : nat,
             (1 <= n <= 100)%nat /\
             (forall d : R,
              0 <= d -> within2 (cells P) G d old sol -> within2 (cells P) G (K * c ^ n * d) flux sol) /\
             ((n < 100)%nat ->
              forall M : R,
              0 <= M ->
              (forall i g : nat, (i < cells P)%nat -> (g < G)%nat -> Rabs (flux i g) <= M) ->
              within2 (cells P) G (K * (c * (/ 10 ^ 8 * INR (cells P) * M) / (1 - c))) flux sol)))).
Proof. exact @subcritical_solvable. Qed.
Print Assumptions C130_subcritical.
Theorem C130_supercritical :
  forall (P : sn) (G : nat) (T : mat2) (X : mat3) (f : fission_data),
    damped_transport P G T X ->
    (0 < cells P)%nat ->
    (0 < G)%nat ->
    nonneg_fission (cells P) G (medium P) f ->
    forall (phi : mat2) (k : R),
    0 < k ->
    positive2 (cells P) G phi ->
    eigenpair P G T X f phi k ->
    forall (external boundary : arr3) (w : mat2),
    1 <= k ->
    mg_solution P G T X external boundary w ->
    positive2 (cells P) G w ->
    ~
    (exists psi : mat2,
       below2 (cells P) G (fun _ _ : nat => 0) psi /\
       mg_solution P G T (total_transfer X f) external boundary psi).
Proof. exact @supercritical_unsolvable. Qed.
Print Assumptions C130_supercritical.
Theorem C130_multiplication :
  forall (P : sn) (G : nat) (T : mat2) (X : mat3) (f : fission_data),
    damped_transport P G T X ->
    (0 < cells P)%nat ->
    (0 < G)%nat ->
    nonneg_fission (cells P) G (medium P) f ->
    forall (phi : mat2) (k : R),
    0 < k ->
    positive2 (cells P) G phi ->
    eigenpair P G T X f phi k ->
    forall (external boundary : arr3) (w psi : mat2) (a b : R),
    k < 1 ->
    mg_solution P G T X external boundary w ->
    mg_solution P G T (total_transfer X f) external boundary psi ->
    (forall i g : nat, (i < cells P)%nat -> (g < G)%nat -> a * phi i g <= w i g <= b * phi i g) ->
    forall i g : nat,
    (i < cells P)%nat -> (g < G)%nat -> a / (1 - k) * phi i g <= psi i g <= b / (1 - k) * phi i g.
Proof. exact @source_multiplication. Qed.
Print Assumptions C130_multiplication.
Theorem C130_threshold :
  forall (P : sn) (G : nat) (T : mat2) (X : mat3) (f : fission_data) (phi : mat2) (k lam : R),
    damped_transport P G T X ->
    (0 < cells P)%nat ->
    (0 < G)%nat ->
    nonneg_fission (cells P) G (medium P) f ->
    0 < k ->
    positive2 (cells P) G phi ->
    eigenpair P G T X f phi k ->
    0 < lam ->
    k < lam <->
    (exists (c : R) (p : mat2), 0 <= c < 1 /\ damping P G T (total_transfer X (scale_fission (/ lam) f)) c p).
Proof. exact @critical_threshold. Qed.
Print Assumptions C130_threshold.
Theorem C130_split :
  forall (P : sn) (G : nat) (T : mat2) (X : mat3) (f : fission_data),
    damped_transport P G T X ->
    (0 < cells P)%nat ->
    (0 < G)%nat ->
    nonneg_fission (cells P) G (medium P) f ->
    forall (phi : mat2) (k : R),
    0 < k ->
    positive2 (cells P) G phi ->
    eigenpair P G T X f phi k ->
    k < 1 <-> (exists (c : R) (p : mat2), 0 <= c < 1 /\ damping P G T (total_transfer X f) c p).
Proof. exact @critical_split. Qed.
Print Assumptions C130_split.
Example C130_case :
  damped_transport bar 2 bar_total bar_scatter /\ nonneg_fission (cells bar) 2 (medium bar) bar_fission /\
  positive2 (cells bar) 2 bar_phi /\ eigenpair bar 2 bar_total bar_scatter bar_fission bar_phi 2 /\
  eigenpair bar 2 bar_total bar_scatter (scale_fission (1 / 4) bar_fission) bar_phi (1 / 2) /\
  nonneg_fission (cells bar) 2 (medium bar) (scale_fission (1 / 4) bar_fission) /\
  exists w, mg_solution bar 2 bar_total bar_scatter (mkArr3 1 2 (fun i _ g => emission 2 bar_fission (medium bar) bar_phi i g))
    (mkArr3 1 1 (fun _ _ _ => 0)) w /\ positive2 (cells bar) 2 w.
Proof.
  split; [exact bar_damped|]. split; [exact bar_nonneg|]. split; [exact bar_positive|]. split; [exact bar_eigenpair|]. split; [|split].
  - unfold eigenpair. apply (solution_ext bar 2 bar_total bar_scatter (fun i g => emission 2 bar_fission (medium bar) bar_phi i g / 2) _ dark bar_phi bar_phi); [|intros ? ? _ _; reflexivity|exact bar_eigenpair].
    intros i g _ _. rewrite scale_emission. field.
  - apply scale_nonneg; [lra|exact bar_nonneg].
  - exists (fun i g => 2 * bar_phi i g). split; [apply (eigenpair_generation bar 2 bar_total bar_scatter bar_fission bar_phi 2); [lra|exact bar_eigenpair]|].
    intros i g Hi Hg. pose proof (bar_positive i g Hi Hg). lra.
Qed.
