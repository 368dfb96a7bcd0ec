(** C58, C59, C60, C94: manufactured solutions, observed order, Wynn's epsilon algorithm, spatial error. *)
From Coq Require Import ZArith Lra Lia Reals.
From Verif Require Import Base BaseFacts ManModel ManSpec ManFacts ManFacts2.
Open Scope R_scope.

(** ** C58 The manufactured solutions solve the manufactured problems *)
Theorem C58_ss_01 :
  exists psi, tabulates solution_ss_01 psi /\
  (forall x mu, mu <> 0 -> balanced 1 0 psi (fun _ _ => 1) x mu) /\
  (forall mu, 0 < mu -> psi 0 mu = 1) /\ (forall mu, mu < 0 -> psi 1 mu = 0).
Proof. exact ss_01_solves. Qed.
Print Assumptions C58_ss_01.
Theorem C58_ss_02 :
  exists psi, tabulates solution_ss_02 psi /\
  (forall x mu, mu <> 0 -> balanced 1 0 psi (fun _ _ => 1 / 2) x mu) /\
  (forall mu, 0 < mu -> psi 0 mu = 1) /\ (forall mu, mu < 0 -> psi 1 mu = 0).
Proof. exact ss_02_solves. Qed.
Print Assumptions C58_ss_02.
Theorem C58_ss_03 :
  exists psi q, tabulates solution_ss_03 psi /\ tabulates external_ss_03 q /\
  (forall x mu, balanced 1 0.9 psi q x mu) /\
  (forall angles angle_x n, (n < angles)%nat ->
    boundary_ss_03 angles angle_x 0%nat n = psi 0 (angle_x n) /\ boundary_ss_03 angles angle_x 1%nat n = psi 1 (angle_x n)).
Proof. exact ss_03_solves. Qed.
Print Assumptions C58_ss_03.
Theorem C58_ss_04_partial :
  exists psi q, tabulates solution_ss_04 psi /\ tabulates external_ss_04 q /\
  (forall x mu, x < 1 -> balanced 1 0.3 psi q x mu) /\ (forall x mu, 1 < x -> balanced 1 0.9 psi q x mu) /\
  (forall mu, continuity (fun x => psi x mu)) /\
  (forall mu, boundary_ss_04 0%nat = psi 0 mu /\ boundary_ss_04 1%nat = psi 2 mu).
Proof. exact ss_04_solves. Qed.
Print Assumptions C58_ss_04_partial.
Theorem C58_ss_05_partial :
  exists psi q, tabulates solution_ss_05 psi /\ tabulates external_ss_05 q /\
  (forall x mu, x < 1 -> balanced 1 0.3 psi q x mu) /\ (forall x mu, 1 < x -> balanced 1 0.9 psi q x mu) /\
  (forall mu, continuity (fun x => psi x mu)) /\
  (forall mu, boundary_ss_05 0%nat = psi 0 mu /\ boundary_ss_05 1%nat = psi 2 mu).
Proof. exact ss_05_solves. Qed.
Print Assumptions C58_ss_05_partial.
Theorem C58_td_01 :
  exists psi q, tabulates_td solution_td_01 psi /\ tabulates_td external_td_01 q /\
  (forall t x mu, balanced_td 1 1 psi q t x mu) /\ (forall t mu, psi t 0 mu = 2 /\ psi t 2 mu = 2).
Proof. exact td_01_solves. Qed.
Print Assumptions C58_td_01.
Theorem C58_td_02 :
  exists psi q, tabulates_td solution_td_02 psi /\ tabulates_td external_td_02 q /\
  (forall t x mu, balanced_td 1 1 psi q t x mu) /\
  (forall angles angle_x times edges_t k n, (k < times)%nat -> (n < angles)%nat ->
    boundary_td_02 angles angle_x times edges_t k 0%nat n = psi (edges_t k) 0 (angle_x n) /\
    boundary_td_02 angles angle_x times edges_t k 1%nat n = psi (edges_t k) PI (angle_x n)).
Proof. exact td_02_solves. Qed.
Print Assumptions C58_td_02.
(** At the interface itself the source arrays of problems 4 and 5 are zero. *)
Theorem C58_interface_refuted :
  forall cells x angles angle_x i n,
  (i < cells)%nat -> (n < angles)%nat -> x i = 1 ->
  external_ss_04 cells x angles angle_x i n = 0 /\ external_ss_05 cells x angles angle_x i n = 0 /\
  solution_ss_04 cells x angles angle_x i n = 2 /\ solution_ss_05 cells x angles angle_x i n = 8 - 2 * exp (angle_x n).
Proof. exact interface_source. Qed.
Print Assumptions C58_interface_refuted.
Example C58_case : solution_ss_03 2 (fun i => INR i) 3 (fun n => INR n - 1) 1%nat 2%nat = 0.5 + 0.25 * exp 1.
Proof.
  unfold solution_ss_03. rewrite fill_columns_at by lia. cbn [INR]. replace (1 + 1 - 1) with 1 by ring. ring.
Qed.

(** ** C59 Observed order of accuracy *)
Theorem C59_exact :
  forall C p h ratio,
  C <> 0 -> 0 < h -> 0 < ratio -> ratio <> 1 ->
  order_accuracy (C * Rpower h p) (C * Rpower (h / ratio) p) ratio = p.
Proof. exact order_exact. Qed.
Print Assumptions C59_exact.
Theorem C59_explains :
  forall e1 e2 ratio,
  0 < e1 -> 0 < e2 -> 0 < ratio -> ratio <> 1 ->
  e1 = e2 * Rpower ratio (order_accuracy e1 e2 ratio).
Proof. exact order_explains. Qed.
Print Assumptions C59_explains.
Example C59_case : order_accuracy (3 * Rpower 0.5 2) (3 * Rpower (0.5 / 2) 2) 2 = 2.
Proof. apply order_exact; lra. Qed.

(** ** C60 Wynn's epsilon algorithm *)
Theorem C60_errors :
  forall lst rank,
  ((rank <= -2)%Z -> wynn_epsilon lst rank = Raise ValueError) /\
  (rank = (-1)%Z -> wynn_epsilon lst rank = Raise IndexError) /\
  ((0 <= rank)%Z -> (Z.of_nat (length lst) < 2 * rank + 1)%Z -> wynn_epsilon lst rank = Raise IndexError).
Proof. exact wynn_errors. Qed.
Print Assumptions C60_errors.
Theorem C60_constant :
  forall v lst rank,
  (0 <= rank)%Z -> (2 * rank + 1 <= Z.of_nat (length lst))%Z -> (forall x, In x lst -> x = v) ->
  wynn_epsilon lst rank = Ok (Rabs v).
Proof. exact wynn_constant. Qed.
Print Assumptions C60_constant.
Theorem C60_equivariant :
  forall lst rank,
  (0 <= rank)%Z -> (2 * rank + 1 <= Z.of_nat (length lst))%Z ->
  exists t, wynn_epsilon lst rank = Ok (Rabs t) /\
    forall a b, b <> 0 -> wynn_epsilon (map (fun x => a + b * x) lst) rank = Ok (Rabs (a + b * t)).
Proof. exact wynn_equivariant. Qed.
Print Assumptions C60_equivariant.
Theorem C60_prefix :
  forall lst rest rank,
  (0 <= rank)%Z -> (2 * rank + 1 <= Z.of_nat (length lst))%Z ->
  wynn_epsilon (lst ++ rest) rank = wynn_epsilon lst rank.
Proof. exact wynn_prefix. Qed.
Print Assumptions C60_prefix.
Theorem C60_rank_one_partial :
  forall s a r,
  r <> 0 -> r <> 1 -> wynn_epsilon (exponential_sum s [(a, r)] 3) 1 = Ok (Rabs s).
Proof. exact wynn_rank_one. Qed.
Print Assumptions C60_rank_one_partial.
Theorem C60_two_terms_partial :
  forall s a r b q,
  0 < r < q -> q < 1 -> 0 < a -> 0 < b ->
  wynn_epsilon (exponential_sum s [(a, r); (b, q)] 5) 2 = Ok (Rabs s).
Proof. exact wynn_two_terms. Qed.
Print Assumptions C60_two_terms_partial.
Theorem C60_rank_two_refuted :
  forall s a r,
  a <> 0 -> r <> 0 -> r <> 1 ->
  wynn_epsilon (exponential_sum s [(a, r)] 5) 2 = Ok (Rabs (s - a * r ^ 2)).
Proof. exact wynn_rank_two. Qed.
Print Assumptions C60_rank_two_refuted.
Theorem C60_settled_refuted :
  forall s a,
  a <> 0 -> wynn_epsilon [s + a; s; s] 1 = Ok (Rabs (s + a)).
Proof. exact wynn_settled. Qed.
Print Assumptions C60_settled_refuted.
Example C60_case : wynn_epsilon (exponential_sum 5 [(3, 1 / 2)] 3) 1 = Ok (Rabs 5).
Proof. apply wynn_rank_one; lra. Qed.
Example C60_case_wrong : wynn_epsilon (exponential_sum 1 [(1, -2)] 5) 2 = Ok 3.
Proof. rewrite wynn_rank_two by lra. f_equal. replace (1 - 1 * (-2) ^ 2) with (-3) by ring. rewrite Rabs_left; lra. Qed.

(** ** C94 The spatial error is a normalised distance *)
Theorem C94_distance :
  forall ds ndims m,
  counts_cells ds ndims m -> (0 < m)%nat ->
  exists dist, (forall a b, spatial_error ds ds a b ndims = Ok (dist a b)) /\
    (forall a b, 0 <= dist a b /\ dist a b = dist b a) /\
    (forall a b, dist a b = 0 <-> forall k, (k < fold_right Nat.mul 1%nat ds)%nat -> a k = b k) /\
    (forall a b c, dist a c <= dist a b + dist b c) /\
    (forall a b e, 0 <= e -> fold_right Nat.mul 1%nat ds = m -> (forall k, (k < m)%nat -> Rabs (a k - b k) <= e) -> dist a b <= e) /\
    (forall a b e, fold_right Nat.mul 1%nat ds = m -> (forall k, (k < m)%nat -> Rabs (a k - b k) = e) -> dist a b = e).
Proof. exact spatial_error_distance_shape. Qed.
Print Assumptions C94_distance.
Theorem C94_errors :
  forall ds dr a b ndims,
  (ds <> dr -> spatial_error ds dr a b ndims = Raise AssertionError) /\
  (ds = dr -> counts_cells ds ndims 0 -> spatial_error ds dr a b ndims = Raise ZeroDivisionError) /\
  (ds = dr -> ndims <> 1%Z -> ndims <> 2%Z -> spatial_error ds dr a b ndims = Raise UnboundLocalError).
Proof. exact spatial_error_errors. Qed.
Print Assumptions C94_errors.
Theorem C94_missing_axis :
  forall ds dr a b ndims,
  ds = dr -> (ndims = 1%Z /\ ds = []) \/ (ndims = 2%Z /\ (length ds < 2)%nat) ->
  spatial_error ds dr a b ndims = Raise IndexError.
Proof. exact spatial_error_axes. Qed.
Print Assumptions C94_missing_axis.
Example C94_case : spatial_error [2%nat; 3%nat] [2%nat; 3%nat] (fun k => 1) (fun k => 1) 1 = Ok 0.
Proof.
  unfold spatial_error. cbn [eqb_shape]. destruct (eqb_shape _ _) eqn:E; [|discriminate]. cbn [negb Z.eqb Pos.eqb root_inverse Nat.eqb bind size_of].
  f_equal. rewrite (rsum_ext _ _ (fun _ => 0)) by (intros; unfold Rsqr; ring). cbn. rewrite !Rplus_0_r, sqrt_0. ring.
Qed.
