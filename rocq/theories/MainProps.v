(** Property theorems of main.py and of the Legendre table (C50-C53, C57, C82).
    Vocabulary: MainSpec.v, HybSpec.v, SlabSpec.v. *)
From Coq Require Import Lra Lia String Ascii Permutation.
From Verif Require Import Base BaseFacts SlabModel SlabSpec MgModel HybModel HybSpec.
From Verif Require Import MainModel MainSpec MainFacts MainFacts2 MainWitness.
Open Scope R_scope.

(** ** C50 Material map *)
Theorem C50_material_map :
  forall fo layers n edges check,
  match spatial1d fo layers n edges check with
  | Ok m => exists fills, reads fo (texts layers) fills /\
      forall i, (i < n)%nat -> material_of n edges fills i (m i) /\ (check = true -> m i <> -1)
  | Raise e => (e = ValueError /\ forall fills, ~ reads fo (texts layers) fills) \/
      (e = AssertionError /\ check = true /\ exists fills i, reads fo (texts layers) fills /\
         (i < n)%nat /\ material_of n edges fills i (-1))
  end.
Proof. exact spatial_map. Qed.
Print Assumptions C50_material_map.
Theorem C50_gaps_rejected :
  forall fo layers n edges fills,
  reads fo (texts layers) fills ->
  (forall idx a b, In (idx, a, b) fills -> idx <> -1) ->
  ((exists i, (i < n)%nat /\ forall idx a b, In (idx, a, b) fills -> ~ covers n edges a b i) ->
     spatial1d fo layers n edges true = Raise AssertionError) /\
  ((forall i, (i < n)%nat -> exists idx a b, In (idx, a, b) fills /\ covers n edges a b i) ->
     exists m, spatial1d fo layers n edges true = Ok m).
Proof. exact spatial_gap. Qed.
Print Assumptions C50_gaps_rejected.
Theorem C50_edge_regions :
  forall n edges,
  (forall i, (i < n)%nat -> edges i < edges (i + 1)%nat) ->
  forall a b, (a <= n)%nat -> (b <= n)%nat -> forall i, (i < n)%nat ->
    (covers n edges (edges a) (edges b) i <-> edges a <= edges i /\ edges (i + 1)%nat <= edges b).
Proof. exact covers_edges. Qed.
Print Assumptions C50_edge_regions.
Theorem C50_reading_unique :
  forall fo l fills,
  reads fo l fills -> forall fills', reads fo l fills' -> fills = fills'.
Proof. exact reads_unique. Qed.
Print Assumptions C50_reading_unique.
Example C50_case : reads digits (texts two_layers) [(0, 0, 2); (3, 1, 2)] /\
  (forall i, (i < 4)%nat -> mesh i < mesh (i + 1)%nat) /\
  (exists m, spatial1d digits two_layers 4 mesh true = Ok m /\ m 1%nat = 0 /\ m 2%nat = 3) /\
  spatial1d digits [mkLayer 0 "-1 - 2"] 4 mesh true = Raise ValueError.
Proof.
  split; [exact two_layers_read|]. split; [exact mesh_increasing|]. split; [exact two_layers_map|]. reflexivity.
Qed.

(** ** C51 Quadrature *)
Theorem C51_normalized_reordered :
  forall (lg : nat -> vec * vec) n bc,
  (0 < n)%nat -> rsum n (snd (lg n)) <> 0 ->
  match angular_x lg n bc with
  | Ok (x, w) =>
      rsum n w = 1 /\
      reordered n (fst (lg n)) (fun i => snd (lg n) i / rsum n (snd (lg n))) x w /\
      (bc = [1; 0]%nat -> forall i j, (i <= j)%nat -> (j < n)%nat -> x i <= x j) /\
      (bc = [0; 1]%nat -> forall i j, (i <= j)%nat -> (j < n)%nat -> x j <= x i)
  | Raise e => e = UnboundLocalError /\ (0 < list_sum bc)%nat /\ bc <> [1; 0]%nat /\ bc <> [0; 1]%nat
  end.
Proof. exact angular_weights. Qed.
Print Assumptions C51_normalized_reordered.
Theorem C51_solver_order :
  forall (lg : nat -> vec * vec) h bl br,
  let n := (2 * h)%nat in (0 < h)%nat ->
  gauss_pairs n (fst (lg n)) (snd (lg n)) -> (bl + br <= 1)%nat ->
  exists x w, angular_x lg n [bl; br] = Ok (x, w) /\
    symmetric_quadrature n x /\ nonzero_ordinates n x /\ ordered_for n x bl br /\
    rsum n w = 1 /\ (forall i, (i < n)%nat -> 0 < w i /\ w (n - i - 1)%nat = w i).
Proof. exact angular_solver_order. Qed.
Print Assumptions C51_solver_order.
Theorem C51_odd_count_has_zero :
  forall h x w,
  gauss_pairs (2 * h + 1) x w -> x h = 0.
Proof. exact odd_has_zero. Qed.
Print Assumptions C51_odd_count_has_zero.
Example C51_case : gauss_pairs (2 * 1) (fst (two_point 2)) (snd (two_point 2)) /\
  rsum 2 (snd (two_point 2)) <> 0 /\ angular_x two_point 2 [1; 1]%nat = Raise UnboundLocalError.
Proof. split; [exact two_point_gauss|]. split; [cbn; lra|reflexivity]. Qed.

(** ** C52 Speeds *)
Theorem C52_speed :
  forall (e : vec) g,
  0 < e g + e (g + 1)%nat ->
  let v := energy_velocity (Some e) g in
  0 < v < 100 * 299792460 /\
  kinetic_energy (167493 / 10 ^ 32) 299792460 (v / 100) = 160218 / 10 ^ 24 * ((e g + e (g + 1)%nat) / 2) /\
  forall h, e g + e (g + 1)%nat < e h + e (h + 1)%nat -> v < energy_velocity (Some e) h.
Proof. exact speeds. Qed.
Print Assumptions C52_speed.
Theorem C52_magnitude :
  forall (e : vec) g,
  let E := (e g + e (g + 1)%nat) / 2 in 0 <= E <= 20000000 ->
  1354000 * sqrt E <= energy_velocity (Some e) g <= 1383200 * sqrt E.
Proof. exact speed_magnitude. Qed.
Print Assumptions C52_magnitude.
Theorem C52_no_edges :
  forall g,
  energy_velocity None g = 1.
Proof. exact no_edges_speed. Qed.
Print Assumptions C52_no_edges.
Example C52_case : 0 < (fun g => INR g + 1) 0%nat + (fun g => INR g + 1) 1%nat /\
  (fun g => INR g + 1) 0%nat + (fun g => INR g + 1) 1%nat < (fun g => INR g + 1) 1%nat + (fun g => INR g + 1) 2%nat.
Proof. cbn. lra. Qed.

(** ** C53 Time grid *)
Theorem C53_time_grid :
  forall edges gamma half,
  ascending edges -> 0 <= gamma <= 1 -> (2 <= length edges)%nat ->
  exists grid, gamma_time_steps edges gamma half = Ok grid /\
    length grid = (2 * length edges - 1)%nat /\ ascending grid /\
    (forall k, (k < length edges)%nat -> nth (2 * k) grid 0 = nth k edges 0) /\
    (forall k, (k + 1 < length edges)%nat ->
       nth (2 * k + 1) grid 0 =
         nth k edges 0 + (if andb half (Nat.eqb k 0) then 1 / 2 else gamma) * (nth (k + 1) edges 0 - nth k edges 0)).
Proof. exact time_grid. Qed.
Print Assumptions C53_time_grid.
Theorem C53_too_short :
  forall edges gamma,
  (length edges <= 1)%nat -> gamma_time_steps edges gamma true = Raise IndexError.
Proof. exact time_grid_short. Qed.
Print Assumptions C53_too_short.
Example C53_case : ascending [0; 1; 3] /\ 0 <= 1 / 4 <= 1 /\
  exists grid, gamma_time_steps [0; 1; 3] (1 / 4) true = Ok grid /\ nth 1 grid 0 = 1 / 2 /\ nth 3 grid 0 = 3 / 2.
Proof.
  assert (A : ascending [0; 1; 3]).
  { intros i j Hij Hj. cbn in Hj. destruct j as [|[|[|j]]]; [| | |lia]; destruct i as [|[|[|i]]]; try lia; cbn; lra. }
  split; [exact A|]. split; [lra|].
  destruct (time_grid [0; 1; 3] (1 / 4) true A ltac:(lra) ltac:(cbn; lia)) as (grid & E & _ & _ & _ & H).
  exists grid. split; [exact E|]. pose proof (H 0%nat ltac:(cbn; lia)) as H0. pose proof (H 1%nat ltac:(cbn; lia)) as H1.
  cbn [Nat.mul Nat.add Nat.eqb andb nth] in H0, H1. rewrite H0, H1. lra.
Qed.

(** ** C57 Legendre table *)
Theorem C57_recurrence :
  forall nm x,
  (0 < nm)%nat -> exists P, legendre_polynomials nm x = Ok P /\
  (forall n, P 0%nat n = 1) /\
  ((1 < nm)%nat -> forall n, P 1%nat n = x n) /\
  (forall l n, (l + 2 < nm)%nat ->
     INR (l + 2) * P (l + 2)%nat n = (2 * INR (l + 1) + 1) * x n * P (l + 1)%nat n - INR (l + 1) * P l n).
Proof. exact legendre_table. Qed.
Print Assumptions C57_recurrence.
Theorem C57_no_moments :
  forall x,
  legendre_polynomials 0 x = Raise IndexError.
Proof. exact legendre_none. Qed.
Print Assumptions C57_no_moments.
Theorem C57_value_and_parity :
  forall nm x y P Q,
  legendre_polynomials nm x = Ok P -> legendre_polynomials nm y = Ok Q ->
  forall l n, (l < nm)%nat ->
    (x n = 1 -> P l n = 1) /\
    (forall m, y m = - x n -> Q l m = (-1) ^ l * P l n) /\
    (forall m, y m = x n -> Q l m = P l n).
Proof. exact legendre_values. Qed.
Print Assumptions C57_value_and_parity.
Theorem C57_odd_moments_vanish :
  forall nm angles x w P,
  legendre_polynomials nm x = Ok P ->
  symmetric_quadrature angles x -> (forall m, (m < angles)%nat -> w (angles - m - 1)%nat = w m) ->
  forall k, (2 * k + 1 < nm)%nat -> rsum angles (fun m => w m * P (2 * k + 1)%nat m) = 0.
Proof. exact odd_moments_vanish. Qed.
Print Assumptions C57_odd_moments_vanish.
Example C57_case : exists P, legendre_polynomials 4 (fst (two_point 2)) = Ok P /\
  symmetric_quadrature 2 (fst (two_point 2)) /\
  (forall m, (m < 2)%nat -> snd (two_point 2) (2 - m - 1)%nat = snd (two_point 2) m).
Proof.
  eexists. split; [reflexivity|]. split; [|reflexivity]. intros m Hm. apply (proj1 (proj2 two_point_gauss)). exact Hm.
Qed.

(** ** C82 Energy grids *)
Theorem C82_computed_partial :
  forall stock table grid fine coarse n edges,
  known_grid grid = true ->
  stock grid = (n, edges) -> (1 <= coarse <= fine)%nat -> (fine <= n)%nat ->
  exists idxf idxc : nat -> nat, energy_grid stock table grid fine (Some coarse) false = Ok (edges, idxf, Some idxc) /\
    partition n fine idxf /\ partition fine coarse idxc /\
    energy_grid stock table grid fine None false = Ok (edges, idxf, None).
Proof. exact energy_grid_computed. Qed.
Print Assumptions C82_computed_partial.
Theorem C82_unknown_grid :
  forall stock table grid fine coarse optimize,
  (known_grid grid = true <-> In grid [87; 361; 618]%nat) /\
  (known_grid grid = false -> energy_grid stock table grid fine coarse optimize = Raise UnboundLocalError).
Proof. exact energy_grid_unknown. Qed.
Print Assumptions C82_unknown_grid.
Theorem C82_tables_refuted :
  forall stock table grid fine coarse n edges idxf idxc,
  known_grid grid = true -> stock grid = (n, edges) ->
  table grid fine = Some idxf -> table grid coarse = Some idxc ->
  partition n fine idxf -> partition n coarse idxc -> (fine < n)%nat ->
  energy_grid stock table grid fine (Some coarse) true = Ok (edges, idxf, Some idxc) /\
  ~ partition fine coarse idxc.
Proof. exact energy_grid_table_refuted. Qed.
Print Assumptions C82_tables_refuted.
Theorem C82_change_partial :
  forall stock table grid fine coarse n edges,
  known_grid grid = true -> stock grid = (n, edges) ->
  table grid fine = None -> table grid coarse = None -> (1 <= coarse <= fine)%nat -> (fine <= n)%nat ->
  exists ci factor idxc, energy_grid_change stock table grid fine coarse = Ok (ci, factor, idxc, edges) /\ partition fine coarse idxc.
Proof. exact grid_change_computed. Qed.
Print Assumptions C82_change_partial.
Theorem C82_change_tables_refuted :
  forall stock table grid fine coarse n edges idxf idxc,
  known_grid grid = true -> stock grid = (n, edges) ->
  table grid fine = Some idxf -> table grid coarse = Some idxc ->
  partition n fine idxf -> partition n coarse idxc -> (fine < n)%nat ->
  exists ci factor, energy_grid_change stock table grid fine coarse = Ok (ci, factor, idxc, edges) /\ ~ partition fine coarse idxc.
Proof. exact grid_change_tables. Qed.
Print Assumptions C82_change_tables_refuted.
Example C82_case : known_grid 87 = true /\ partition 87 3 cut3 /\ partition 87 2 cut2 /\
  energy_grid stock87 table87 87 3 (Some 2%nat) true = Ok (snd (stock87 87), cut3, Some cut2).
Proof. split; [reflexivity|]. split; [exact cut3_partition|]. split; [exact cut2_partition|reflexivity]. Qed.
