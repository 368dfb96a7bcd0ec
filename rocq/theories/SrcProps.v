(** C61, C62, C63, C97, C98, C99: fusion sources, time dependence, Reed's and AmBe sources, materials. *)
From Coq Require Import ZArith Lra Lia Reals String Ascii List.
From Verif Require Import Base BaseFacts TimeModel SrcModel SrcSpec SrcFacts SrcFacts2 SrcFacts3 SrcFacts4 SrcFacts5 SrcWitness.
Open Scope R_scope.

(** ** C61 Boundary sources that switch off or decay *)
Theorem C61_constant :
  forall (b : arr3) (step : nat),
  let c := time_dependence_constant b in
  row4 (mkArr4 (fst c) (d3b b) (d3c b) (fun k => at3 (snd c k))) step = Ok b /\ fst c = 1%nat.
Proof. exact constant_rows. Qed.
Print Assumptions C61_constant.
Theorem C61_switch :
  forall boundary_x edges edges_t off_time,
  (0 < edges)%nat ->
  exists out, time_dependence_decay_01 boundary_x edges edges_t off_time = Ok ((edges - 1)%nat, out) /\
    (forall k, (k < edges - 1)%nat -> edges_t (S k) <= off_time -> forall s n g, out k s n g = boundary_x s n g) /\
    (forall k, (k < edges - 1)%nat -> off_time < edges_t (S k) -> forall s n g, out k s n g = 0).
Proof. exact decay_01_switch. Qed.
Print Assumptions C61_switch.
Theorem C61_switches_once :
  forall boundary_x edges edges_t off_time,
  (0 < edges)%nat -> increasing edges edges_t ->
  exists out last, time_dependence_decay_01 boundary_x edges edges_t off_time = Ok ((edges - 1)%nat, out) /\ (last <= edges - 1)%nat /\
    (forall k s n g, (k < last)%nat -> out k s n g = boundary_x s n g) /\
    (forall k s n g, (last <= k < edges - 1)%nat -> out k s n g = 0).
Proof. exact decay_01_once. Qed.
Print Assumptions C61_switches_once.
Theorem C61_decay_partial :
  forall S N G a edges edges_t s n g,
  (0 < edges)%nat -> (s < S)%nat -> (n < N)%nat -> (g < G)%nat -> a s n g <> 0 ->
  (forall s' n' g', (s' < S)%nat -> (n' < N)%nat -> (g' < G)%nat -> a s' n' g' <> 0 -> s' = s /\ n' = n /\ g' = g) ->
  exists out, time_dependence_decay_02 S N G a edges edges_t = Ok ((edges - 1)%nat, out) /\
    forall k, (k < edges - 1)%nat -> let t := round12 (edges_t (k + 1)%nat * 10 ^ 6) in
      (forall s' n' g', (s', n', g') <> (s, n, g) -> out k s' n' g' = a s' n' g') /\
      (t < 0.2 -> out k s n g = a s n g) /\
      (0.2 <= t -> exists m u, INR m - 1 < (t - 0.2) / 0.1 <= INR m /\ u = (t - 0.1 * (1 + INR m)) / 0.01 /\
         out k s n g = 0.5 ^ m * (1 + 2 * (1 - erf u))) /\
      (forall p, 0.2 + 0.1 * INR p <= t -> 0 <= out k s n g <= 3 * 0.5 ^ p).
Proof. exact decay_02_one. Qed.
Print Assumptions C61_decay_partial.
Theorem C61_decay_bounds_partial :
  forall t p,
  0.2 <= t -> 0.2 + 0.1 * INR p <= t -> 0 <= decay_value t <= 3 * 0.5 ^ p.
Proof. exact decay_value_bounds. Qed.
Print Assumptions C61_decay_bounds_partial.
(** Not a decay: the value rises between two steps, dark boundaries light up, two lit entries fail. *)
Theorem C61_decay_rises_refuted :
  exists S N G a edges edges_t out, increasing edges edges_t /\
  time_dependence_decay_02 S N G a edges edges_t = Ok ((edges - 1)%nat, out) /\ 0 < a 0%nat 0%nat 0%nat /\
  out 0%nat 0%nat 0%nat 0%nat < out 1%nat 0%nat 0%nat 0%nat.
Proof. exact decay_02_rises. Qed.
Print Assumptions C61_decay_rises_refuted.
Theorem C61_dark_boundary_refuted :
  forall S N G a edges edges_t,
  (0 < edges)%nat ->
  (forall s n g, (s < S)%nat -> (n < N)%nat -> (g < G)%nat -> a s n g = 0) ->
  exists out, time_dependence_decay_02 S N G a edges edges_t = Ok ((edges - 1)%nat, out) /\
    forall k, (k < edges - 1)%nat -> let t := round12 (edges_t (k + 1)%nat * 10 ^ 6) in
      (0.2 <= t -> forall s n g, out k s n g = decay_value t) /\ (t < 0.2 -> forall s n g, out k s n g = a s n g).
Proof. exact decay_02_zero. Qed.
Print Assumptions C61_dark_boundary_refuted.
Theorem C61_several_entries_refuted :
  forall S N G a edges edges_t s n g s' n' g' k,
  (s < S)%nat -> (n < N)%nat -> (g < G)%nat -> (s' < S)%nat -> (n' < N)%nat -> (g' < G)%nat ->
  a s n g <> 0 -> a s' n' g' <> 0 -> (s, n, g) <> (s', n', g') -> (k + 1 < edges)%nat -> 0.2 <= round12 (edges_t (k + 1)%nat * 10 ^ 6) ->
  time_dependence_decay_02 S N G a edges edges_t = Raise IndexError.
Proof. exact decay_02_two. Qed.
Print Assumptions C61_several_entries_refuted.
Example C61_case : exists out, time_dependence_decay_02 2 1 2 lamp 5 (fun k => INR k / 10 ^ 7) = Ok (4%nat, out).
Proof. apply lamp_runs. Qed.
Example C61_case_dark : exists out, time_dependence_decay_02 2 1 2 (fun _ _ _ => 0) 2 (fun k => 2 / 10 ^ 7 * INR k) = Ok (1%nat, out) /\ 0 < out 0%nat 1%nat 0%nat 1%nat.
Proof. exact dark_lights. Qed.
Example C61_case_lit : time_dependence_decay_02 2 1 2 (fun _ _ _ => 1) 2 (fun k => INR k) = Raise IndexError.
Proof. exact lit_fails. Qed.

(** ** C62 Fusion sources *)
Theorem C62_one_entry :
  forall energy location edges edges_g b,
  fusion_source energy location edges edges_g = Ok b ->
  exists row col, (row < 2)%nat /\ (Z.of_nat row = location \/ Z.of_nat row = (location + 2)%Z) /\ (col < edges - 1)%nat /\
    (forall r g, b r g = if Nat.eqb r row && Nat.eqb g col then 1 else 0) /\
    (forall k, (k < edges)%nat -> Rabs (edges_g col - energy) <= Rabs (edges_g k - energy)).
Proof. exact fusion_returns. Qed.
Print Assumptions C62_one_entry.
Theorem C62_group_partial :
  forall energy location edges edges_g j,
  increasing edges edges_g -> (S j < edges)%nat ->
  edges_g j <= energy < edges_g (S j) -> (-2 <= location < 2)%Z ->
  (energy - edges_g j <= edges_g (S j) - energy ->
     exists b, fusion_source energy location edges edges_g = Ok b /\ forall r g, b r g <> 0 -> g = j) /\
  (edges_g (S j) - energy < energy - edges_g j -> (S (S j) < edges)%nat ->
     exists b, fusion_source energy location edges edges_g = Ok b /\ forall r g, b r g <> 0 -> g = S j) /\
  (edges_g (S j) - energy < energy - edges_g j -> edges = S (S j) ->
     fusion_source energy location edges edges_g = Raise IndexError).
Proof. exact fusion_group. Qed.
Print Assumptions C62_group_partial.
Theorem C62_failures :
  forall energy location edges edges_g,
  (edges = 0%nat -> fusion_source energy location edges edges_g = Raise ValueError) /\
  ((0 < edges)%nat -> ~ (-2 <= location < 2)%Z -> fusion_source energy location edges edges_g = Raise IndexError) /\
  ((0 < edges)%nat -> (-2 <= location < 2)%Z ->
     (forall k, (k < edges - 1)%nat -> Rabs (edges_g (edges - 1)%nat - energy) < Rabs (edges_g k - energy)) ->
     fusion_source energy location edges edges_g = Raise IndexError) /\
  ((0 < edges)%nat -> (-2 <= location < 2)%Z ->
     (exists k, (k < edges - 1)%nat /\ Rabs (edges_g k - energy) <= Rabs (edges_g (edges - 1)%nat - energy)) ->
     exists b, fusion_source energy location edges edges_g = Ok b).
Proof. exact fusion_failures. Qed.
Print Assumptions C62_failures.
Theorem C62_wrong_group_refuted :
  exists location edges edges_g, (location = 0%Z \/ location = 1%Z) /\ increasing edges edges_g /\
  (exists j b, (S j < edges)%nat /\ edges_g j <= 2.45e6 < edges_g (S j) /\ deuterium_deuterium location edges edges_g = Ok b /\ b 0%nat j = 0 /\ b 0%nat (S j) = 1).
Proof. exact fusion_refuted. Qed.
Print Assumptions C62_wrong_group_refuted.
Example C62_case : increasing 3 (two_groups 1e7 1.5e7) /\ two_groups 1e7 1.5e7 1%nat <= 14.1e6 < two_groups 1e7 1.5e7 2%nat /\
  deuterium_tritium 0 3 (two_groups 1e7 1.5e7) = Raise IndexError.
Proof. exact fusion_last_group. Qed.

(** ** C63 Materials *)
Theorem C63_mixture_partial :
  forall load float_of groups name heavy light text x p a b,
  (name, heavy, light) = ("uranium", "uranium-235", "uranium-238")%string \/
  (name, heavy, light) = ("plutonium", "plutonium-239", "plutonium-240")%string ->
  plain text -> x = text \/ x = (text ++ "%")%string -> float_of text = Some p ->
  load heavy = Ok a -> load light = Ok b -> xs_groups a = xs_groups b ->
  exists z, materials load float_of groups [(name ++ "-%" ++ x)%string] = Ok ([z], [(0%nat, (name ++ "-%" ++ x)%string)]) /\
    combination (p / 100) a (1 - p / 100) b z /\ (0 <= p <= 100 -> between a b z).
Proof. exact enriched_mixture. Qed.
Print Assumptions C63_mixture_partial.
Theorem C63_vacuum :
  forall load float_of groups,
  exists z, materials load float_of groups ["vacuum"%string] = Ok ([z], [(0%nat, "vacuum"%string)]) /\
  xs_groups z = groups /\ (forall g, xs_t z g = 0) /\ (forall g h, xs_s z g h = 0) /\ (forall g h, xs_f z g h = 0).
Proof. exact vacuum_material. Qed.
Print Assumptions C63_vacuum.
Theorem C63_in_order :
  forall load float_of groups names data keys,
  materials load float_of groups names = Ok (data, keys) ->
  length data = length names /\ keys = combine (seq 0 (length names)) names /\
  (forall k m, nth_error names k = Some m -> exists x, nth_error data k = Some x /\ 
     materials load float_of groups [m] = Ok ([x], [(0%nat, m)]) /\ (forall j y, nth_error data j = Some y -> xs_groups y = xs_groups x)).
Proof. exact materials_in_order. Qed.
Print Assumptions C63_in_order.
Theorem C63_missing_enrichment :
  forall load float_of groups a b,
  materials load float_of groups ["uranium-hydride"%string] = Raise UnboundLocalError /\
  (load "uranium-235"%string = Ok a -> load "uranium-238"%string = Ok b -> materials load float_of groups ["uranium"%string] = Raise UnboundLocalError) /\
  (load "plutonium-239"%string = Ok a -> load "plutonium-240"%string = Ok b -> materials load float_of groups ["plutonium"%string] = Raise UnboundLocalError).
Proof. exact enrichment_missing. Qed.
Print Assumptions C63_missing_enrichment.
Theorem C63_documented_spelling_refuted :
  forall load float_of groups name c x,
  name = "uranium"%string \/ name = "plutonium"%string \/ name = "uranium-hydride"%string ->
  plain (String c x) -> materials load float_of groups [(name ++ "-" ++ String c x ++ "%")%string] = Raise AssertionError.
Proof. exact documented_spelling_rejected. Qed.
Print Assumptions C63_documented_spelling_refuted.
Theorem C63_packaged_data_refuted :
  forall float_of groups names r,
  materials packaged_load float_of groups names = Ok r ->
  forall m, In m names -> hd EmptyString (py_split dash percent m) = "vacuum"%string.
Proof. exact packaged_only_vacuum. Qed.
Print Assumptions C63_packaged_data_refuted.
Example C63_case : exists z, materials toy_load toy_float 1 ["uranium-%20%"%string] = Ok ([z], [(0%nat, "uranium-%20%"%string)]) /\ xs_t z 0%nat = 1.4.
Proof. exact toy_uranium. Qed.
Example C63_case_rejected : materials toy_load toy_float 1 ["uranium-5%"%string] = Raise AssertionError.
Proof. exact toy_rejected. Qed.
Example C63_case_list : exists data keys, materials toy_load toy_float 1 ["hydrogen"; "vacuum"; "uranium-235"]%string = Ok (data, keys) /\ length data = 3%nat.
Proof. exact toy_list. Qed.

(** ** C97 Reed's source *)
Theorem C97_density :
  forall edges edges_x bc L off,
  increasing edges edges_x -> reeds_domain bc L off -> has_interfaces edges edges_x L ->
  exists ext, reeds edges edges_x bc = Ok ext /\
    forall i x, (S i < edges)%nat -> edges_x i < x < edges_x (S i) ->
      ext i = if Rlt_dec x 0 then 0 else if Rlt_dec x L then reeds_density (x + off) else 0.
Proof. exact reeds_values. Qed.
Print Assumptions C97_density.
Theorem C97_needs_interfaces :
  forall edges edges_x bc L off k,
  (0 < edges)%nat -> reeds_domain bc L off -> 2 * INR k <= L ->
  (forall i, (i < edges)%nat -> edges_x i <> 2 * INR k) \/ (exists i j, (i < j < edges)%nat /\ edges_x i = 2 * INR k /\ edges_x j = 2 * INR k) ->
  reeds edges edges_x bc = Raise TypeError.
Proof. exact reeds_needs_interfaces. Qed.
Print Assumptions C97_needs_interfaces.
Example C97_case : exists ext, reeds 17 unit_edges (0, 0)%Z = Ok ext /\ ext 7%nat = 50 /\ ext 12%nat = 1 /\ ext 0%nat = 0.
Proof. exact reeds_demo. Qed.

(** ** C98 AmBe source *)
Theorem C98_spectrum_partial :
  forall bins bin_edges magnitude cells row edges edges_g,
  (0 < edges)%nat -> (row < cells)%nat -> increasing (S bins) bin_edges ->
  exists ext grid, ambe (Ok (bins, bin_edges, magnitude)) cells (Z.of_nat row) edges edges_g = Ok (ext, grid) /\
    ((exists k, (k < edges)%nat /\ 20 < edges_g k) -> forall k, grid k = edges_g k / 10 ^ 6) /\
    ((forall k, (k < edges)%nat -> edges_g k <= 20) -> forall k, grid k = edges_g k) /\
    (forall i g, i <> row -> ext i g = 0) /\
    (forall b g, (b < bins)%nat -> (S g < edges)%nat -> bin_edges b < (grid g + grid (S g)) / 2 <= bin_edges (S b) ->
       ext row g = magnitude b) /\
    (forall g, (S g < edges)%nat -> (grid g + grid (S g)) / 2 <= bin_edges 0%nat \/ bin_edges bins < (grid g + grid (S g)) / 2 -> ext row g = 0).
Proof. exact ambe_source. Qed.
Print Assumptions C98_spectrum_partial.
Theorem C98_packaged_data_refuted :
  forall cells loc_x edges edges_g,
  (0 < edges)%nat -> ambe packaged_ambe cells loc_x edges edges_g = Raise TypeError.
Proof. exact ambe_packaged_fails. Qed.
Print Assumptions C98_packaged_data_refuted.
Theorem C98_changes_grid_refuted :
  exists load cells loc_x edges edges_g ext grid, ambe load cells loc_x edges edges_g = Ok (ext, grid) /\ increasing edges edges_g /\ grid 1%nat <> edges_g 1%nat.
Proof. exact ambe_changes_grid. Qed.
Print Assumptions C98_changes_grid_refuted.
Example C98_case : exists ext grid, ambe (Ok (2%nat, fun k => 4 * INR k, fun k => 1 + INR k)) 3 1 3 (two_groups 1e7 1.2e7) = Ok (ext, grid) /\
  ext 1%nat 0%nat = 2 /\ ext 1%nat 1%nat = 0 /\ grid 1%nat = 10 /\ grid 1%nat <> two_groups 1e7 1.2e7 1%nat.
Proof. exact ambe_demo. Qed.

(** ** C99 Uranium hydride *)
Theorem C99_composition :
  forall load float_of groups text x p u235 u238 h1,
  plain text -> x = text \/ x = (text ++ "%")%string -> float_of text = Some p -> 0 <= p <= 100 ->
  load "uranium-235"%string = Ok u235 -> load "uranium-238"%string = Ok u238 -> load "hydrogen"%string = Ok h1 ->
  xs_groups u235 = xs_groups u238 -> xs_groups u235 = xs_groups h1 ->
  let e := p / 100 in
  let molar := e * 235.04393 + (1 - e) * 238.0289 in
  let metal := 19.1 * (6022 * 10 ^ 20) / molar in
  exists z hydride w235 w238 wh,
    materials load float_of groups [("uranium-hydride-%" ++ x)%string] = Ok ([z], [(0%nat, ("uranium-hydride-%" ++ x)%string)]) /\
    xs_groups z = xs_groups u235 /\
    (forall g, xs_t z g = w235 * xs_t u235 g + w238 * xs_t u238 g + wh * xs_t h1 g) /\
    (forall g h, xs_s z g h = w235 * xs_s u235 g h + w238 * xs_s u238 g h + wh * xs_s h1 g h) /\
    (forall g h, xs_f z g h = w235 * xs_f u235 g h + w238 * xs_f u238 g h + wh * xs_f h1 g h) /\
    0 < hydride /\ hydride * (molar + 3 * 1.00784) / (6022 * 10 ^ 20) = 10.95 /\
    w235 * metal = e * hydride /\ w238 * metal = (1 - e) * hydride /\ wh = 3 * hydride / 10 ^ 24.
Proof. exact hydride_material_numbers. Qed.
Print Assumptions C99_composition.
Theorem C99_group_mismatch :
  forall load float_of groups text x p u235 u238 h1,
  plain text -> x = text \/ x = (text ++ "%")%string -> float_of text = Some p ->
  load "uranium-235"%string = Ok u235 -> load "uranium-238"%string = Ok u238 -> load "hydrogen"%string = Ok h1 ->
  xs_groups u235 <> xs_groups u238 \/ xs_groups u235 <> xs_groups h1 ->
  materials load float_of groups [("uranium-hydride-%" ++ x)%string] = Raise ValueError.
Proof. exact hydride_group_mismatch. Qed.
Print Assumptions C99_group_mismatch.
Example C99_case : exists z, materials toy_load toy_float 1 ["uranium-hydride-%20%"%string] = Ok ([z], [(0%nat, "uranium-hydride-%20%"%string)]).
Proof. exact toy_hydride. Qed.
