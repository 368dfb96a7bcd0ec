(** Concrete cases that meet the hypotheses of the theorems in SrcProps, and the failing cases. *)
From Coq Require Import ZArith Lra Lia Reals String Ascii List.
From Verif Require Import Base BaseFacts SrcModel SrcSpec SrcFacts SrcFacts2 SrcFacts3 SrcFacts4 SrcFacts5.
Open Scope R_scope.

(** Edges at 0, 1, 2, ... *)
Definition unit_edges : vec := fun i => INR i.
Lemma unit_increasing n : increasing n unit_edges.
Proof. intros i j L _. now apply lt_INR. Qed.
Lemma unit_interfaces n L : L <= 16 -> (17 <= n)%nat -> has_interfaces n unit_edges L.
Proof.
  intros HL Hn k Hk. exists (2 * k)%nat. split.
  - assert (2 * k <= 16)%nat; [|lia]. apply INR_le. rewrite mult_INR. cbn [INR]. lra.
  - unfold unit_edges. rewrite mult_INR. cbn [INR]. lra.
Qed.
Lemma reeds_demo : exists ext, reeds 17 unit_edges (0, 0)%Z = Ok ext /\ ext 7%nat = 50 /\ ext 12%nat = 1 /\ ext 0%nat = 0.
Proof.
  destruct (reeds_values 17 unit_edges (0, 0)%Z 16 0) as (ext & E & V); [apply unit_increasing|now constructor|apply unit_interfaces; [lra|lia]|].
  exists ext. split; [exact E|].
  rewrite (V 7%nat 7.5), (V 12%nat 12.5), (V 0%nat 0.5); try lia; unfold unit_edges; cbn [INR]; try lra.
  unfold reeds_density. repeat match goal with |- context [Rlt_dec ?a ?b] => destruct (Rlt_dec a b); [first [lra|idtac]|first [lra|idtac]] end; repeat split; lra.
Qed.

(** Two groups [0, 10 MeV], [10, 15 MeV] and two [0, 4 MeV], [4 MeV, 20 MeV]: the fusion sources. *)
Definition two_groups (a b : R) : vec := fun k => match k with O => 0 | 1%nat => a | _ => b end.
Lemma two_increasing a b : 0 < a < b -> increasing 3 (two_groups a b).
Proof. intros H i j L J. destruct j as [|[|[|j]]]; try lia; destruct i as [|[|i]]; try lia; unfold two_groups; lra. Qed.
(** 2.45 MeV lies in the first group and is deposited in the second; 14.1 MeV lies in the last group and
    the call fails. *)
Lemma fusion_wrong_group : increasing 3 (two_groups 4e6 2e7) /\ two_groups 4e6 2e7 0%nat <= 2.45e6 < two_groups 4e6 2e7 1%nat /\
  exists b, deuterium_deuterium 0 3 (two_groups 4e6 2e7) = Ok b /\ b 0%nat 1%nat = 1 /\ forall r g, b r g <> 0 -> g = 1%nat.
Proof.
  assert (I : increasing 3 (two_groups 4e6 2e7)) by (apply two_increasing; lra). split; [exact I|]. split; [unfold two_groups; lra|].
  destruct (fusion_group 2.45e6 0 3 (two_groups 4e6 2e7) 0 I ltac:(lia)) as (_ & F & _); [unfold two_groups; lra|lia|].
  destruct F as (b & E & U); [unfold two_groups; lra|lia|]. exists b. split; [exact E|]. split; [|exact U].
  destruct (fusion_returns _ _ _ _ _ E) as (row & col & R1 & R2 & C1 & V & _).
  assert (row = 0)%nat by lia. subst row. rewrite V. destruct (Nat.eqb_spec 1 col) as [|N]; [reflexivity|]. exfalso. apply N. symmetry. apply (U 0%nat).
  rewrite V. rewrite !Nat.eqb_refl. cbn [andb]. lra.
Qed.
Lemma fusion_last_group : increasing 3 (two_groups 1e7 1.5e7) /\ two_groups 1e7 1.5e7 1%nat <= 14.1e6 < two_groups 1e7 1.5e7 2%nat /\
  deuterium_tritium 0 3 (two_groups 1e7 1.5e7) = Raise IndexError.
Proof.
  assert (I : increasing 3 (two_groups 1e7 1.5e7)) by (apply two_increasing; lra). split; [exact I|]. split; [unfold two_groups; lra|].
  destruct (fusion_group 14.1e6 0 3 (two_groups 1e7 1.5e7) 1 I ltac:(lia)) as (_ & _ & F); [unfold two_groups; lra|lia|].
  apply F; [unfold two_groups; lra|reflexivity].
Qed.
Lemma fusion_refuted : exists location edges edges_g, (location = 0%Z \/ location = 1%Z) /\ increasing edges edges_g /\
  (exists j b, (S j < edges)%nat /\ edges_g j <= 2.45e6 < edges_g (S j) /\ deuterium_deuterium location edges edges_g = Ok b /\ b 0%nat j = 0 /\ b 0%nat (S j) = 1).
Proof.
  destruct fusion_wrong_group as (I & J & b & E & B & U). exists 0%Z, 3%nat, (two_groups 4e6 2e7). split; [now left|]. split; [exact I|].
  exists 0%nat, b. split; [lia|]. split; [exact J|]. split; [exact E|]. split; [|exact B].
  destruct (Req_dec (b 0%nat 0%nat) 0) as [|N]; [assumption|]. specialize (U _ _ N). lia.
Qed.

(** A boundary with one lit entry. *)
Definition lamp : mat3 := fun s n g => if Nat.eqb s 0 && Nat.eqb n 0 && Nat.eqb g 1 then 1 else 0.
Lemma lamp_one s n g : lamp s n g <> 0 -> s = 0%nat /\ n = 0%nat /\ g = 1%nat.
Proof. unfold lamp. destruct (Nat.eqb_spec s 0), (Nat.eqb_spec n 0), (Nat.eqb_spec g 1); cbn [andb]; try lra. auto. Qed.
Lemma lamp_runs edges_t : exists out, time_dependence_decay_02 2 1 2 lamp 5 edges_t = Ok (4%nat, out).
Proof.
  destruct (decay_02_one 2 1 2 lamp 5 edges_t 0 0 1) as (out & E & _); try lia.
  - unfold lamp. cbn. lra.
  - intros s n g _ _ _. apply lamp_one.
  - exists out. exact E.
Qed.
(** Three nonzero entries fail at the first late step. *)
Lemma lit_fails : time_dependence_decay_02 2 1 2 (fun _ _ _ => 1) 2 (fun k => INR k) = Raise IndexError.
Proof.
  apply (decay_02_two 2 1 2 _ 2 _ 0 0 0 1 0 0 0); try lia; try lra; try congruence.
  cbn [Nat.add INR]. replace (1 * 10 ^ 6) with (IZR (10 ^ 18) / 10 ^ 12) by lra. rewrite round12_exact. lra.
Qed.
(** A dark boundary lights up. *)
Lemma dark_lights : exists out, time_dependence_decay_02 2 1 2 (fun _ _ _ => 0) 2 (fun k => 2 / 10 ^ 7 * INR k) = Ok (1%nat, out) /\ 0 < out 0%nat 1%nat 0%nat 1%nat.
Proof.
  destruct (decay_02_zero 2 1 2 (fun _ _ _ => 0) 2 (fun k => 2 / 10 ^ 7 * INR k) ltac:(lia)) as (out & E & V); [reflexivity|].
  exists out. split; [exact E|]. destruct (V 0%nat ltac:(lia)) as [V1 _].
  assert (T : round12 (2 / 10 ^ 7 * INR (0 + 1) * 10 ^ 6) = 0.2).
  { cbn [Nat.add INR]. replace (2 / 10 ^ 7 * 1 * 10 ^ 6) with (IZR 200000000000 / 10 ^ 12) by lra. rewrite round12_exact. lra. }
  rewrite T in V1. rewrite V1 by lra. destruct (decay_value_form 0.2 ltac:(lra)) as (k & u & K & U & _ & ->).
  destruct (erf_bounds u ltac:(lra)) as ((E0 & E1) & _). pose proof (half_pow_le 0 k ltac:(lia)).
  assert (k = 0%nat) by (destruct k; [reflexivity|rewrite S_INR in K; pose proof (pos_INR k); lra]). subst k.
  destruct (ceil_spec 0). assert (u <= 10) by lra.
  cbn [pow].
  assert (erf u < 1.5); [|lra]. 
  unfold erf. destruct (Rle_dec 0 u) as [Hu|Hu]; [|exfalso; apply Hu; left; apply U]. pose proof (gi_bounded u Hu). pose proof (gi_nonneg u Hu). destruct root_pi as [R1 R2]. pose proof root_three.
  assert (C2 : 2 / sqrt PI <= 1.157). { apply Rmult_le_reg_r with (sqrt PI); [lra|]. unfold Rdiv. rewrite Rmult_assoc, Rinv_l by lra. lra. }
  apply Rle_lt_trans with (1.157 * 1.285); [apply Rmult_le_compat; try lra|lra]. apply Rlt_le, Rdiv_lt_0_compat; lra.
Qed.

(** Materials with made-up data. *)
Definition toy_load (name : string) : outcome xs_data :=
  if String.eqb name "uranium-235" then Ok (mkXs 1 (fun _ => 3) (fun _ _ => 1) (fun _ _ => 2))
  else if String.eqb name "uranium-238" then Ok (mkXs 1 (fun _ => 1) (fun _ _ => 1) zeros2)
  else if String.eqb name "hydrogen" then Ok (mkXs 1 (fun _ => 20) (fun _ _ => 19) zeros2)
  else Raise FileNotFound.
Definition toy_float (text : string) : option R := if String.eqb text "20" then Some 20 else None.
Lemma toy_uranium : exists z, materials toy_load toy_float 1 ["uranium-%20%"%string] = Ok ([z], [(0%nat, "uranium-%20%"%string)]) /\ xs_t z 0%nat = 1.4.
Proof.
  destruct (enriched_mixture toy_load toy_float 1 "uranium" "uranium-235" "uranium-238" "20" "20%" 20 (mkXs 1 (fun _ => 3) (fun _ _ => 1) (fun _ _ => 2)) (mkXs 1 (fun _ => 1) (fun _ _ => 1) zeros2))
    as (z & E & (_ & C & _) & _); try reflexivity; [now left|split; reflexivity|now right|]. exists z. split; [exact E|]. rewrite C. cbn [xs_t]. lra.
Qed.
Lemma toy_hydride : exists z, materials toy_load toy_float 1 ["uranium-hydride-%20%"%string] = Ok ([z], [(0%nat, "uranium-hydride-%20%"%string)]).
Proof.
  destruct (hydride_material toy_load toy_float 1 "20" "20%" 20 (mkXs 1 (fun _ => 3) (fun _ _ => 1) (fun _ _ => 2)) (mkXs 1 (fun _ => 1) (fun _ _ => 1) zeros2) (mkXs 1 (fun _ => 20) (fun _ _ => 19) zeros2))
    as (z & ? & ? & ? & ? & E & _); try reflexivity; [split; reflexivity|now right|lra|]. exists z. exact E.
Qed.
Lemma toy_rejected : materials toy_load toy_float 1 ["uranium-5%"%string] = Raise AssertionError.
Proof. apply (documented_spelling_rejected toy_load toy_float 1 "uranium" "5" ""); [now left|split; reflexivity]. Qed.
(** A mixture of two materials and vacuum. *)
Lemma toy_list : exists data keys, materials toy_load toy_float 1 ["hydrogen"; "vacuum"; "uranium-235"]%string = Ok (data, keys) /\ length data = 3%nat.
Proof. eexists _, _. split; [reflexivity|reflexivity]. Qed.

(** A two-bin AmBe spectrum on a grid in eV: the first group lies in the second bin, and the caller's grid
    is divided by a million. *)
Lemma ambe_demo : exists ext grid, ambe (Ok (2%nat, fun k => 4 * INR k, fun k => 1 + INR k)) 3 1 3 (two_groups 1e7 1.2e7) = Ok (ext, grid) /\
  ext 1%nat 0%nat = 2 /\ ext 1%nat 1%nat = 0 /\ grid 1%nat = 10 /\ grid 1%nat <> two_groups 1e7 1.2e7 1%nat.
Proof.
  destruct (ambe_source 2 (fun k => 4 * INR k) (fun k => 1 + INR k) 3 1 3 (two_groups 1e7 1.2e7)) as (ext & grid & E & S1 & _ & _ & V & O); try lia.
  { intros i j L J. apply lt_INR in L. lra. }
  exists ext, grid. split; [exact E|].
  assert (SG : forall k, grid k = two_groups 1e7 1.2e7 k / 10 ^ 6) by (apply S1; exists 1%nat; split; [lia|unfold two_groups; lra]).
  split; [|split; [|split]].
  - rewrite (V 1%nat 0%nat); [cbn [INR]; lra|lia|lia|]. rewrite !SG. unfold two_groups. cbn [INR]. lra.
  - apply O; [lia|]. right. rewrite !SG. unfold two_groups. cbn [INR]. lra.
  - rewrite SG. unfold two_groups. lra.
  - rewrite SG. unfold two_groups. lra.
Qed.
Lemma ambe_changes_grid : exists load cells loc_x edges edges_g ext grid, ambe load cells loc_x edges edges_g = Ok (ext, grid) /\ increasing edges edges_g /\ grid 1%nat <> edges_g 1%nat.
Proof.
  destruct ambe_demo as (ext & grid & E & _ & _ & _ & N). eexists _, _, _, _, _, ext, grid. split; [exact E|]. split; [apply two_increasing; lra|exact N].
Qed.
