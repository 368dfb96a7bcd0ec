(** C54, C55, C56, C92, C93: the matrix exponential of depletion chains, [cram_expm] (CramModel.v). *)
From Coq Require Import ZArith Lra Lia.
From Verif Require Import Base CramModel CramSpec CramFacts3 CramWitness.
Open Scope R_scope.

(** ** C54 Parameters *)
Theorem C54_order :
  forall rows cols A len n0 dt order sub,
  (order <> 16 -> order <> 48 ->
  cram_expm rows cols A len n0 dt order sub = Raise ValueError)%Z.
Proof. exact cram_bad_order. Qed.
Print Assumptions C54_order.
Theorem C54_substeps :
  forall rows cols A len n0 dt order sub,
  (sub < 1)%Z ->
  cram_expm rows cols A len n0 dt order sub = Raise ValueError.
Proof. exact cram_bad_substeps. Qed.
Print Assumptions C54_substeps.
Theorem C54_square :
  forall rows cols A len n0 dt order sub,
  rows <> cols ->
  cram_expm rows cols A len n0 dt order sub = Raise ValueError.
Proof. exact cram_bad_shape. Qed.
Print Assumptions C54_square.
Theorem C54_length :
  forall n A len n0 dt order sub y,
  len <> n ->
  cram_expm n n A len n0 dt order sub <> Ok y.
Proof. exact cram_wrong_length. Qed.
Print Assumptions C54_length.
Theorem C54_outcomes :
  forall n A n0 dt order sub,
  (order = 16 \/ order = 48)%Z -> (1 <= sub)%Z ->
  exists poles alpha0, coefficients order = Some (poles, alpha0) /\
    ((exists y, cram_expm n n A n n0 dt order sub = Ok y) /\
     (forall p, In p poles -> ~ resonant n A (dt / IZR sub) (fst p)) \/
     cram_expm n n A n n0 dt order sub = Raise RuntimeError /\
     exists p, In p poles /\ resonant n A (dt / IZR sub) (fst p)).
Proof. exact cram_outcomes. Qed.
Print Assumptions C54_outcomes.
Example C54_case_ok : exists y, cram_expm 3 3 triple 3 triple_start 5 48 4 = Ok y.
Proof. apply triple_runs; [right; reflexivity|lia]. Qed.
Example C54_case_resonant : cram_expm 2 2 pole_matrix 2 (fun _ => 1) 1 16 1 = Raise RuntimeError.
Proof. exact (pole_resonant _). Qed.

(** ** C55 Linearity, substeps and the documented recurrence *)
Theorem C55_linear :
  forall n A dt order sub k (c : vec) (u : nat -> vec) (y : nat -> vec) n0 y0,
  (forall j, (j < k)%nat -> cram_expm n n A n (u j) dt order sub = Ok (y j)) ->
  (forall i, (i < n)%nat -> n0 i = rsum k (fun j => c j * u j i)) ->
  cram_expm n n A n n0 dt order sub = Ok y0 ->
  forall i, (i < n)%nat -> y0 i = rsum k (fun j => c j * y j i).
Proof. exact cram_linear. Qed.
Print Assumptions C55_linear.
Theorem C55_substeps :
  forall n A n0 dt order sub,
  (1 <= sub)%Z ->
  cram_expm n n A n n0 dt order sub
  = for_up_err (Z.to_nat sub) (fun _ y => cram_expm n n A n y (dt / IZR sub) order 1) n0.
Proof. exact cram_substeps. Qed.
Print Assumptions C55_substeps.
Theorem C55_recurrence :
  forall n A n0 dt order sub y,
  cram_expm n n A n n0 dt order sub = Ok y ->
  exists poles alpha0 x, coefficients order = Some (poles, alpha0) /\ x 0%nat = n0 /\ y = x (Z.to_nat sub) /\
    forall s, (s < Z.to_nat sub)%nat ->
      exists z, partial_fractions n A (dt / IZR sub) poles (x s) z /\ x (S s) = (fun i => alpha0 * z i).
Proof. exact cram_documented. Qed.
Print Assumptions C55_recurrence.
Example C55_case : exists y, cram_expm 3 3 triple 3 triple_start 5 16 7 = Ok y.
Proof. apply triple_runs; [left; reflexivity|lia]. Qed.

(** ** C56 Nothing decays: equilibrium vectors and conserved totals *)
Theorem C56_equilibrium :
  forall order sub,
  (order = 16 \/ order = 48)%Z ->
  exists f, Rabs (f - 1) <= 5e-16 /\
    forall n A n0 dt y, cram_expm n n A n n0 dt order sub = Ok y ->
      ((forall i, (i < n)%nat -> rsum n (fun j => A i j * n0 j) = 0) ->
        forall i, (i < n)%nat -> y i = f ^ Z.to_nat sub * n0 i) /\
      forall w : vec, (forall j, (j < n)%nat -> rsum n (fun i => w i * A i j) = 0) ->
        rsum n (fun i => w i * y i) = f ^ Z.to_nat sub * rsum n (fun i => w i * n0 i).
Proof. exact null_factor. Qed.
Print Assumptions C56_equilibrium.
Example C56_case : exists f y, Rabs (f - 1) <= 5e-16 /\ cram_expm 3 3 triple 3 triple_start 5 48 4 = Ok y /\
  rsum 3 (fun i => 1 * y i) = f ^ 4 * 1.
Proof.
  destruct (null_factor 48 4 (or_intror eq_refl)) as (f & Hf & H).
  destruct (triple_runs 48 4 (or_intror eq_refl) ltac:(lia)) as [y Ey]. exists f, y. split; [exact Hf|]. split; [exact Ey|].
  destruct (H _ _ _ _ _ Ey) as [_ K]. rewrite (K (fun _ => 1) triple_columns). cbn [rsum triple_start]. change (Z.to_nat 4) with 4%nat. ring.
Qed.

(** ** C92 Accuracy for real decay modes *)
Theorem C92_modes :
  forall n A n0 dt order sub k c lambda v y,
  (order = 16 \/ order = 48)%Z -> 0 <= dt ->
  (forall j, (j < k)%nat -> eigenvector n A (lambda j) (v j) /\ lambda j <= 0) ->
  (forall i, (i < n)%nat -> n0 i = rsum k (fun j => c j * v j i)) ->
  cram_expm n n A n n0 dt order sub = Ok y ->
  solves n A n0 (modes k c lambda v) /\
  forall i, (i < n)%nat ->
    Rabs (y i - modes k c lambda v dt i)
    <= ((1 + cram_eps order) ^ Z.to_nat sub - 1) * rsum k (fun j => Rabs (c j * v j i)).
Proof. exact cram_accuracy. Qed.
Print Assumptions C92_modes.
Theorem C92_left_modes :
  forall n A n0 dt order sub lambda w y,
  (order = 16 \/ order = 48)%Z -> 0 <= dt -> lambda <= 0 -> left_eigenvector n A lambda w ->
  cram_expm n n A n n0 dt order sub = Ok y ->
  Rabs (rsum n (fun i => w i * y i) - exp (lambda * dt) * rsum n (fun i => w i * n0 i))
  <= ((1 + cram_eps order) ^ Z.to_nat sub - 1) * Rabs (rsum n (fun i => w i * n0 i)).
Proof. exact cram_left_accuracy. Qed.
Print Assumptions C92_left_modes.
Theorem C92_unfed :
  forall n A n0 dt order sub i y,
  (order = 16 \/ order = 48)%Z -> 0 <= dt -> (i < n)%nat -> A i i <= 0 ->
  (forall j, (j < n)%nat -> j <> i -> A i j = 0) ->
  cram_expm n n A n n0 dt order sub = Ok y ->
  Rabs (y i - exp (A i i * dt) * n0 i) <= ((1 + cram_eps order) ^ Z.to_nat sub - 1) * Rabs (n0 i).
Proof. exact cram_unfed. Qed.
Print Assumptions C92_unfed.
Example C92_case : exists y, cram_expm 3 3 triple 3 triple_start 5 48 1 = Ok y /\
  Rabs (y 1%nat - (exp (-1 * 5) - exp (-2 * 5))) <= 13e-16.
Proof.
  destruct (triple_runs 48 1 (or_intror eq_refl) ltac:(lia)) as [y Ey]. exists y. split; [exact Ey|].
  destruct (cram_accuracy 3 triple triple_start 5 48 1 3 triple_coef triple_rate triple_mode y (or_intror eq_refl) ltac:(lra)
    triple_eigen triple_expand Ey) as [_ H]. specialize (H 1%nat ltac:(lia)).
  unfold modes in H. cbn [rsum triple_coef triple_rate triple_mode] in H. change (Z.to_nat 1) with 1%nat in H. unfold cram_eps in H.
  cbn [Z.eqb Pos.eqb] in H. rewrite !Rmult_0_r, !Rplus_0_r, Rabs_R0, !Rmult_1_r in H.
  rewrite Rabs_R1, Rplus_0_r, (Rabs_left (-1)) in H by lra.
  replace (exp (-1 * 5) - exp (-2 * 5)) with (0 + 1 * exp (-1 * 5) + -1 * exp (-2 * 5)) by ring.
  rewrite pow_1 in H. lra.
Qed.

(** ** C93 Decay chains and real spectra never fail *)
Theorem C93_chain :
  forall n A n0 dt order sub,
  (order = 16 \/ order = 48)%Z -> (1 <= sub)%Z -> chain n A ->
  exists y, cram_expm n n A n n0 dt order sub = Ok y.
Proof. exact cram_chain. Qed.
Print Assumptions C93_chain.
Theorem C93_real_spectrum :
  forall n A n0 dt order sub lambda v,
  (order = 16 \/ order = 48)%Z -> (1 <= sub)%Z ->
  basis n v -> (forall j, (j < n)%nat -> eigenvector n A (lambda j) (v j)) ->
  exists y, cram_expm n n A n n0 dt order sub = Ok y.
Proof. exact cram_basis. Qed.
Print Assumptions C93_real_spectrum.
Example C93_case : exists y, cram_expm 3 3 triple 3 triple_start 5 16 1 = Ok y.
Proof. exact (cram_basis 3 triple triple_start 5 16 1 triple_rate triple_mode (or_introl eq_refl) ltac:(lia) triple_basis (fun j Hj => proj1 (triple_eigen j Hj))). Qed.
