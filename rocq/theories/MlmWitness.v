(** Concrete cases that meet the hypotheses of the theorems in MlmProps. *)
From Coq Require Import Reals ZArith Lra Lia List String Permutation.
From Verif Require Import Base BaseFacts MlmModel MlmSpec MlmFacts MlmFacts2.
Local Open Scope R_scope.

(** The row 2, NaN, 4 (cleaned: 2, 0, 4). *)
Lemma normalize_demo : exists r, min_max_normalization 3 (fun _ j => match j with 0%nat => Num 2 | 1%nat => NaN | _ => Num 4 end) = Ok r /\
  ndata r 0%nat 0%nat = 1 / 2 /\ ndata r 0%nat 1%nat = 0 /\ ndata r 0%nat 2%nat = 1.
Proof.
  eexists. split; [reflexivity|]. cbn [ndata row_max row_min nan_to_num]. assert (E1 : Rmax (Rmax 2 0) 4 = 4) by (unfold Rmax; repeat destruct Rle_dec; lra).
  assert (E2 : Rmin (Rmin 2 0) 4 = 0) by (unfold Rmin; repeat destruct Rle_dec; lra). rewrite E1, E2. unfold fdiv. destruct Req_EM_T; [lra|]. cbn [nan_to_num]. repeat split; field.
Qed.
(** Truth 0, 2; predictions 1, 2: R2 = 1/2, explained variance 3/4. *)
Definition y2 (i : nat) : R := match i with 0%nat => 0 | _ => 2 end.
Definition p2 (i : nat) : R := match i with 0%nat => 1 | _ => 2 end.
Lemma scores_demo : (exists i j, (i < 2)%nat /\ (j < 2)%nat /\ y2 i <> y2 j) /\ r2_score 2 y2 p2 = 1 / 2 /\ mean_absolute_error 2 y2 p2 = 1 / 2 /\ mean_squared_error 2 y2 p2 = 1 / 2.
Proof.
  assert (H : exists i j, (i < 2)%nat /\ (j < 2)%nat /\ y2 i <> y2 j) by (exists 0%nat, 1%nat; cbn; repeat split; try lia; lra).
  split; [exact H|]. destruct (scores_spec 2 y2 p2 H) as (-> & _). unfold mean_absolute_error, mean_squared_error, mean. cbn [rsum y2 p2 INR]. unfold Rsqr.
  replace (0 - 1) with (-1) by ring. replace (2 - 2) with 0 by ring. rewrite Rabs_R0. replace (Rabs (-1)) with 1 by (symmetry; rewrite Rabs_left; lra). repeat split; lra.
Qed.
(** Three samples, two labels in two splits. *)
Lemma split_demo2 : disjoint_labels [("hdpe"%string, [15]); ("uh3"%string, [0; 1])] /\ distinct_names [("hdpe"%string, [15]); ("uh3"%string, [0; 1])] /\
  split_by_material (fun x : R => x) [0; 15; 1] [("hdpe"%string, [15]); ("uh3"%string, [0; 1])] = ([("uh3"%string, [0; 1]); ("hdpe"%string, [15])], Ok tt).
Proof.
  split; [|split].
  - repeat constructor. cbn. intros x [<- |[]] [H|[H|[]]]; lra.
  - unfold distinct_names. cbn. repeat constructor; cbn; intuition discriminate.
  - unfold split_by_material. cbn [split_loop filter isin existsb]. repeat (destruct Req_EM_T; try lra). reflexivity.
Qed.
(** One cell, two groups, pure downscatter. *)
Lemma combine_demo : exists s, combine_flux_reaction 1 1 2 (fun _ _ g => INR g) (fun _ g h => if Nat.eqb g h then 1 else 0) (fun _ => 0%nat) (fun _ => 15) = [s] /\
  label s = 15 /\ inputs s 1%nat = 1 /\ targets s 1%nat = 1.
Proof.
  eexists. unfold combine_flux_reaction, all_samples. cbn [seq flat_map map app filter]. unfold keeps. cbn [rsum inputs targets one_sample Nat.eqb INR]. destruct Req_EM_T; [lra|].
  split; [reflexivity|]. cbn [label inputs targets one_sample rsum Nat.eqb INR]. repeat split; lra.
Qed.
(** A network that sums each row, cube-root-like scaling by halves. *)
Lemma predict_demo : MltSpec.row_wise (map (fun r : list R => r)) (fun r => r) /\
  djinn_predict (map (fun r => r)) (Some (fun r => (map (map (Rmult 2)) r, r))) (Some (fun r => (map (map (Rmult 3)) r, r))) [[1]; [2]] (Some [7]) = (Ok [[3 * 7; 3 * (2 * 1)]; [3 * 7; 3 * (2 * 2)]], [[1]; [2]]).
Proof. split; [intros r; reflexivity|]. reflexivity. Qed.
(** A split like train_test_split without shuffling: the last ceil(q n) rows are the test part. *)
Definition cut (A : Type) (q : R) (l : list A) : list A * list A :=
  let k := (List.length l - Z.to_nat (- Int_part (- (q * INR (List.length l)))))%nat in (firstn k l, skipn k l).
Lemma cut_demo (A : Type) : (forall q (l : list A), Permutation.Permutation (fst (cut A q l) ++ snd (cut A q l)) l) /\
  (forall q (l : list A), 0 < q < 1 -> rounded_up (q * INR (List.length l)) (List.length (snd (cut A q l)))) /\ process_data (cut nat) (seq 0 10) = (seq 0 6, seq 6 2, seq 8 2).
Proof.
  split; [|split].
  - intros q l. unfold cut. cbn [fst snd]. now rewrite firstn_skipn.
  - intros q l Hq. unfold cut, rounded_up. cbn [fst snd]. rewrite skipn_length. set (n := List.length l). set (x := q * INR n).
    assert (Hx : 0 <= x <= INR n). { pose proof (pos_INR n). unfold x. split; [apply Rmult_le_pos; lra|]. rewrite <- (Rmult_1_l (INR n)) at 2. apply Rmult_le_compat_r; lra. }
    destruct (base_Int_part (- x)) as (A1 & A2). set (z := (- Int_part (- x))%Z). assert (Ez : IZR z = - IZR (Int_part (- x))) by (unfold z; apply opp_IZR).
    assert (Hz : x <= IZR z < x + 1) by lra. assert (Z0 : (0 <= z)%Z). { assert (-1 < z)%Z; [apply lt_IZR; lra|lia]. }
    assert (Zn : (z <= Z.of_nat n)%Z). { assert (z < Z.of_nat n + 1)%Z; [|lia]. apply lt_IZR. rewrite plus_IZR, <- INR_IZR_INZ. lra. }
    replace (n - (n - Z.to_nat z))%nat with (Z.to_nat z) by lia. rewrite INR_IZR_INZ, Znat.Z2Nat.id by exact Z0. exact Hz.
  - assert (I : forall (x : R) (z : Z), IZR z <= x < IZR z + 1 -> Int_part x = z).
    { intros x z (H1 & H2). destruct (base_Int_part x) as (A1 & A2). assert (Int_part x < z + 1)%Z by (apply lt_IZR; rewrite plus_IZR; lra). assert (z < Int_part x + 1)%Z by (apply lt_IZR; rewrite plus_IZR; lra). lia. }
    unfold process_data, cut. rewrite seq_length. replace (INR 10) with 10 by (cbn [INR]; lra). rewrite (I (- (2 / 10 * 10)) (-2)%Z) by lra.
    replace (10 - Z.to_nat (- (-2)))%nat with 8%nat by reflexivity. change (firstn 8 (seq 0 10)) with (seq 0 8). change (skipn 8 (seq 0 10)) with (seq 8 2). rewrite seq_length. replace (INR 8) with 8 by (cbn [INR]; lra).
    rewrite (I (- (1 / 4 * 8)) (-2)%Z) by lra. reflexivity.
Qed.
