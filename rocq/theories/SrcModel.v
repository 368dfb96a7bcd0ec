(** Model of the source and material factories: discrete1/boundary1d.py (fusion sources and time
    dependence), discrete1/external1d.py (reeds, ambe) and discrete1/materials.py.  Definitions only. *)
From Coq Require Import ZArith String Ascii.
From Verif Require Import Base.
Open Scope R_scope.

(** ** boundary1d.py *)

(** [np.argmin(f[0:n])] for [n > 0]: the first index of a smallest entry. *)
Fixpoint argmin (n : nat) (f : vec) : nat :=
  match n with
  | O => 0%nat
  | S k => match k with
           | O => 0%nat
           | S _ => let j := argmin k f in if Rlt_dec (f k) (f j) then k else j
           end
  end.

(** Index of an axis of length [n] given by a Python integer: negative values count from the end. *)
Definition axis_index (n : nat) (z : Z) : outcome nat :=
  if (Z.leb 0 z && Z.ltb z (Z.of_nat n))%bool then Ok (Z.to_nat z)
  else if (Z.leb (- Z.of_nat n) z && Z.ltb z 0)%bool then Ok (Z.to_nat (z + Z.of_nat n))
  else Raise IndexError.

(** boundary1d.py:110-135 deuterium_deuterium and 138-163 deuterium_tritium; the array has shape
    (2, 1, edges - 1) and is given without its middle axis.  An empty [edges_g] makes argmin raise
    ValueError.  [energy] is 2.45e6 or 14.1e6. *)
Definition fusion_source (energy : R) (location : Z) (edges : nat) (edges_g : vec) : outcome mat2 :=
  if Nat.eqb edges 0 then Raise ValueError
  else
    let group := argmin edges (fun k => Rabs (edges_g k - energy)) in
    bind (axis_index 2 location) (fun row =>
      bind (axis_index (edges - 1) (Z.of_nat group)) (fun col =>
        Ok (fun r g => if Nat.eqb r row && Nat.eqb g col then 1 else 0))).
Definition deuterium_deuterium := fusion_source 2.45e6.
Definition deuterium_tritium := fusion_source 14.1e6.

(** boundary1d.py:166-180, external1d.py:300-313 time_dependence_constant: one time step. *)
Definition time_dependence_constant {A} (boundary_x : A) : nat * (nat -> A) := (1%nat, fun _ => boundary_x).

(** boundary1d.py:183-213 time_dependence_decay_01.  Arrays over (side, angle, group) are [mat3]; the
    result is (number of steps, step -> array).  Without any time edge [np.repeat] is asked for -1
    copies. *)
Definition time_dependence_decay_01 (boundary_x : mat3) (edges : nat) (edges_t : vec) (off_time : R)
  : outcome (nat * (nat -> mat3)) :=
  if Nat.eqb edges 0 then Raise ValueError
  else
    let steps := (edges - 1)%nat in
    Ok (steps, fun k s n g =>
      if Rlt_dec off_time (edges_t (1 + k)%nat) then boundary_x s n g * 0 else boundary_x s n g).

(** The Gauss error function [math.erf]. *)
Lemma gauss_continuous : forall x, continuity_pt (fun t => exp (- t ^ 2)) x.
Proof.
  intros x. apply (continuity_pt_comp (fun t => - t ^ 2) exp).
  - apply continuity_pt_opp. apply derivable_continuous_pt. apply derivable_pt_pow.
  - apply derivable_continuous_pt. apply derivable_pt_exp.
Qed.
Definition gauss_integral (x : R) (H : 0 <= x) : R :=
  RiemannInt (continuity_implies_RiemannInt (f := fun t => exp (- t ^ 2)) H (fun y _ => gauss_continuous y)).
Definition erf (x : R) : R :=
  2 / sqrt PI * match Rle_dec 0 x with
                | left H => gauss_integral x H
                | right H => - gauss_integral (- x) (Rlt_le _ _ (Ropp_0_gt_lt_contravar _ (Rnot_le_lt _ _ H)))
                end.

(** Rounding to the nearest integer, halves to even, and [np.round(x, 12)]. *)
Definition rint (x : R) : Z :=
  let f := Int_part x in
  let d := x - IZR f in
  if Rlt_dec d (1 / 2) then f else if Rlt_dec (1 / 2) d then (f + 1)%Z else if Z.even f then f else (f + 1)%Z.
Definition round12 (x : R) : R := IZR (rint (x * 10 ^ 12)) / 10 ^ 12.
(** [np.ceil] *)
Definition ceil (x : R) : Z := (- Int_part (- x))%Z.

(** boundary1d.py:246-253: the entry of one time step at [t] microseconds.  [k] is never negative. *)
Definition decay_value (t_us : R) : R :=
  let k := ceil ((t_us - 0.2) / 0.1) in
  let err_arg := (t_us - 0.1 * (1 + IZR k)) / 0.01 in
  0.5 ^ Z.to_nat k * (1 + 2 * (1 - erf err_arg)).

(** boundary1d.py:216-254 time_dependence_decay_02 for an array of shape (sides, angles, groups).
    [idx] is the concatenation of the index triples of all nonzero entries, in C order; an empty tuple
    addresses the whole array and a tuple longer than three raises IndexError. *)
Definition nonzero_indices (sides angles groups : nat) (a : mat3) : list nat :=
  flat_map (fun s => flat_map (fun n => flat_map (fun g =>
    if Req_EM_T (a s n g) 0 then [] else [s; n; g]) (seq 0 groups)) (seq 0 angles)) (seq 0 sides).
Definition set_index (a : mat3) (idx : list nat) (v : R) : outcome mat3 :=
  match idx with
  | [] => Ok (fun _ _ _ => v)
  | [s; n; g] => Ok (fun s' n' g' => if Nat.eqb s' s && Nat.eqb n' n && Nat.eqb g' g then v else a s' n' g')
  | _ => Raise IndexError
  end.
Definition time_dependence_decay_02 (sides angles groups : nat) (boundary_x : mat3) (edges : nat) (edges_t : vec)
  : outcome (nat * (nat -> mat3)) :=
  if Nat.eqb edges 0 then Raise ValueError
  else
    let steps := (edges - 1)%nat in
    let idx := nonzero_indices sides angles groups boundary_x in
    bind (for_up_err steps (fun tt out =>
            let t_us := round12 (edges_t (tt + 1)%nat * 10 ^ 6) in
            if Rle_dec 0.2 t_us then
              bind (set_index (out tt) idx (decay_value t_us)) (fun new =>
                Ok (fun k => if Nat.eqb k tt then new else out k))
            else Ok out)
          (fun _ => boundary_x))
      (fun out => Ok (steps, out)).

(** ** external1d.py *)

(** external1d.py:250-251 [int(np.argwhere(edges_x == x))]: the one index, or TypeError. *)
Definition matches (edges : nat) (edges_x : vec) (x : R) : list nat :=
  filter (fun k => if Req_EM_T (edges_x k) x then true else false) (seq 0 edges).
Definition edge_at (edges : nat) (edges_x : vec) (x : R) : outcome nat :=
  match matches edges edges_x x with [k] => Ok k | _ => Raise TypeError end.

(** external1d.py:218-258 reeds; result over cells (shape (cells, 1, 1)).  [bc] is a list of two flags.
    No edge at all makes [np.zeros] raise ValueError. *)
Definition reeds_regions (bc : Z * Z) : list (R * R * R) :=
  let all := [(0, 2, 0); (2, 4, 1); (4, 6, 0); (6, 8, 50); (8, 10, 50); (10, 12, 0); (12, 14, 1); (14, 16, 0)] in
  if Z.ltb 0 (fst bc + snd bc) then
    if (Z.eqb (fst bc) 0 && Z.eqb (snd bc) 1)%bool
    then map (fun t => let '(l, r, v) := t in (l - 0, r - 0, v)) (firstn 4 all)
    else map (fun t => let '(l, r, v) := t in (l - 8, r - 8, v)) (skipn 4 all)
  else all.
Fixpoint reeds_bounds (edges : nat) (edges_x : vec) (regions : list (R * R * R)) : outcome (list (nat * nat * R)) :=
  match regions with
  | [] => Ok []
  | (l, r, v) :: rest =>
      bind (edge_at edges edges_x l) (fun a => bind (edge_at edges edges_x r) (fun b =>
        bind (reeds_bounds edges edges_x rest) (fun t => Ok ((a, b, v) :: t))))
  end.
Definition reeds (edges : nat) (edges_x : vec) (bc : Z * Z) : outcome vec :=
  if Nat.eqb edges 0 then Raise ValueError
  else
    bind (reeds_bounds edges edges_x (reeds_regions bc)) (fun bounds =>
      Ok (fold_left (fun ext t => let '(a, b, v) := t in
            fun i => if Nat.leb a i && Nat.ltb i b && Nat.ltb i (edges - 1) then v else ext i)
          bounds zeros)).

(** external1d.py:261-297 ambe.  [load] is [np.load(DATA_PATH + "external/AmBe_source_050G.npz")]:
    the number of bins, their edges and magnitudes.  Returns the source (cells, groups) and the caller's
    [edges_g], which is rescaled in place.  [loc_x] is an integer index. *)
Definition maxl (n : nat) (f : vec) : R := for_up n (fun k m => Rmax m (f k)) (f 0%nat).
Definition ambe (load : outcome (nat * vec * vec)) (cells : nat) (loc_x : Z) (edges : nat) (edges_g : vec)
  : outcome (mat2 * vec) :=
  if Nat.eqb edges 0 then Raise ValueError
  else
    bind load (fun data => let '(bins, bin_edges, magnitude) := data in
      let edges_g := if Rlt_dec 20 (maxl edges edges_g) then fun k => edges_g k * / 10 ^ 6 else edges_g in
      let centers_g := fun g => 0.5 * (edges_g (g + 1)%nat + edges_g g) in
      bind (for_up_err bins (fun ii external =>
              bind (axis_index cells loc_x) (fun row =>
                Ok (fun i g => if Nat.eqb i row && Nat.ltb g (edges - 1) &&
                                  (if Rlt_dec (bin_edges ii) (centers_g g) then true else false) &&
                                  (if Rle_dec (centers_g g) (bin_edges (ii + 1)%nat) then true else false)
                               then magnitude ii else external i g)))
            zeros2)
        (fun external => Ok (external, edges_g))).

(** ** materials.py *)

(** [s.split(ab)] for a separator of two characters. *)
Fixpoint py_split (a b : ascii) (s : string) : list string :=
  match s with
  | EmptyString => [EmptyString]
  | String c rest =>
      let skip := match py_split a b rest with h :: t => String c h :: t | [] => [] end in
      if Ascii.eqb c a then
        match rest with
        | String d rest' => if Ascii.eqb d b then EmptyString :: py_split a b rest' else skip
        | EmptyString => skip
        end
      else skip
  end.
(** [ch in s] and [s.strip(ch)] *)
Fixpoint contains (ch : ascii) (s : string) : bool :=
  match s with EmptyString => false | String c rest => Ascii.eqb c ch || contains ch rest end.
Fixpoint drop_leading (ch : ascii) (l : list ascii) : list ascii :=
  match l with c :: rest => if Ascii.eqb c ch then drop_leading ch rest else l | [] => [] end.
Definition strip (ch : ascii) (s : string) : string :=
  string_of_list_ascii (rev (drop_leading ch (rev (drop_leading ch (list_ascii_of_string s))))).

(** Contents of one .npz file: number of groups, total, scatter and fission data.  A file with other
    keys is not modelled. *)
Record xs_data := mkXs { xs_groups : nat; xs_t : vec; xs_s : mat2; xs_f : mat2 }.

(** materials.py:29-45 *)
Definition enrichment_materials : list string := ["uranium"; "uranium-hydride"; "plutonium"]%string.
Definition nonenrichment_materials : list string :=
  ["stainless-steel-440"; "hydrogen"; "high-density-polyethyene-618"; "high-density-polyethyene-087"; "carbon";
   "uranium-235"; "uranium-238"; "water-uranium-dioxide"; "plutonium-239"; "plutonium-240"; "vacuum"]%string.
Definition known_materials : list string := enrichment_materials ++ nonenrichment_materials.
Definition mem (s : string) (l : list string) : bool := existsb (String.eqb s) l.

(** constants.py:24, 25, 37, 38, 41, 65, 69 *)
Definition AVAGADRO : R := 6.022e23.
Definition CM_TO_BARNS : R := 1e-24.
Definition URANIUM_235_MM : R := 235.04393.
Definition URANIUM_238_MM : R := 238.0289.
Definition HYDROGEN_MM : R := 1.00784.
Definition URANIUM_RHO : R := 19.1.
Definition URANIUM_HYDRIDE_RHO : R := 10.95.

(** [a * x + b * y] on the three arrays of two files (materials.py:126, 131).  Arrays of different group
    counts do not broadcast (a file with a single group, which would, is not modelled). *)
Definition mix (a : R) (x : xs_data) (b : R) (y : xs_data) : outcome xs_data :=
  if Nat.eqb (xs_groups x) (xs_groups y) then
    Ok (mkXs (xs_groups x) (fun g => xs_t x g * a + xs_t y g * b)
         (fun g h => xs_s x g h * a + xs_s y g h * b) (fun g h => xs_f x g h * a + xs_f y g h * b))
  else Raise ValueError.

(** materials.py:138-154 _generate_uranium_hydride.  [load name] is
    [np.load(DATA_PATH + "materials/" + name + ".npz")]. *)
Definition hydride_weights (enrichment : R) : R * R * R :=
  let molar := enrichment * URANIUM_235_MM + (1 - enrichment) * URANIUM_238_MM in
  let rho := URANIUM_HYDRIDE_RHO / URANIUM_RHO in
  let n235 := (enrichment * rho * molar) / (molar + 3 * HYDROGEN_MM) in
  let n238 := ((1 - enrichment) * rho * molar) / (molar + 3 * HYDROGEN_MM) in
  let n1 := URANIUM_HYDRIDE_RHO * AVAGADRO / (molar + 3 * HYDROGEN_MM) in
  (n235, n238, n1 * (CM_TO_BARNS * 3)).
Definition uranium_hydride (load : string -> outcome xs_data) (enrichment : R) : outcome xs_data :=
  let '(n235, n238, n1) := hydride_weights enrichment in
  bind (load "uranium-235"%string) (fun u235 => bind (load "uranium-238"%string) (fun u238 =>
    bind (load "hydrogen"%string) (fun h1 =>
      if Nat.eqb (xs_groups u235) (xs_groups u238) && Nat.eqb (xs_groups u235) (xs_groups h1) then
        Ok (mkXs (xs_groups u235)
             (fun g => n235 * xs_t u235 g + n238 * xs_t u238 g + n1 * xs_t h1 g)
             (fun g h => n235 * xs_s u235 g h + n238 * xs_s u238 g h + n1 * xs_s h1 g h)
             (fun g h => n235 * xs_f u235 g h + n238 * xs_f u238 g h + n1 * xs_f h1 g h))
      else Raise ValueError))).

(** materials.py:105-135 _generate_cross_section.  [float_of] is [float(text)]: [None] when it raises
    ValueError (nan and inf are not modelled).  [enrichment] is unbound unless "%" occurs. *)
Definition percent : ascii := "%"%char.
Definition dash : ascii := "-"%char.
Definition enriched (load : string -> outcome xs_data) (heavy light : string) (enrichment : option R) : outcome xs_data :=
  bind (load heavy) (fun a => bind (load light) (fun b =>
    match enrichment with
    | Some e => mix e a (1 - e) b
    | None => Raise UnboundLocalError
    end)).
Definition generate_cross_section (load : string -> outcome xs_data) (float_of : string -> option R) (groups : nat)
    (material : string) : outcome xs_data :=
  bind (if contains percent material then
          match py_split dash percent material with
          | [name; text] =>
              match float_of (strip percent text) with
              | Some p => Ok (name, Some (p * 0.01))
              | None => Raise ValueError
              end
          | _ => Raise ValueError
          end
        else Ok (material, None))
    (fun parsed => let '(material, enrichment) := parsed in
      if String.eqb material "vacuum" then Ok (mkXs groups zeros zeros2 zeros2)
      else if mem material nonenrichment_materials then load material
      else if String.eqb material "uranium" then enriched load "uranium-235" "uranium-238" enrichment
      else if String.eqb material "plutonium" then enriched load "plutonium-239" "plutonium-240" enrichment
      else if String.eqb material "uranium-hydride" then
        match enrichment with Some e => uranium_hydride load e | None => Raise UnboundLocalError end
      else Raise KeyError).

(** materials.py:48-102 materials: the cross sections in the order of the names and the key (index, name).
    Stacking arrays of different group counts raises ValueError. *)
Definition materials (load : string -> outcome xs_data) (float_of : string -> option R) (groups : nat)
    (names : list string) : outcome (list xs_data * list (nat * string)) :=
  bind (fold_left (fun acc material => bind acc (fun done =>
          let '(idx, data, keys) := done in
          if mem (hd EmptyString (py_split dash percent material)) known_materials then
            bind (generate_cross_section load float_of groups material) (fun x =>
              Ok (S idx, data ++ [x], keys ++ [(idx, material)]))
          else Raise AssertionError))
        names (Ok (0%nat, [], [])))
    (fun done => let '(idx, data, keys) := done in
      match data with
      | x :: rest => if forallb (fun y => Nat.eqb (xs_groups y) (xs_groups x)) rest then Ok (data, keys) else Raise ValueError
      | [] => Ok (data, keys)
      end).

(** materials.py:20, 116-144 and external1d.py:22, 281: [DATA_PATH] is a path object, and adding a string
    to a path raises TypeError before any file is opened. *)
Definition packaged_load (name : string) : outcome xs_data := Raise TypeError.
Definition packaged_ambe : outcome (nat * vec * vec) := Raise TypeError.
