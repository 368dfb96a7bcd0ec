(** Concrete inputs meeting the hypotheses of the theorems on grids and material maps. *)
From Coq Require Import Lra Lia String Ascii.
From Verif Require Import Base BaseFacts SlabModel SlabSpec MgModel HybModel HybSpec MainModel MainSpec MainFacts MainFacts2.
Open Scope R_scope.

(** the two-point Gauss-Legendre rule *)
Definition two_point (n : nat) : vec * vec :=
  ((fun i => if Nat.eqb i 0 then - / sqrt 3 else / sqrt 3), (fun _ => 1)).

Lemma two_point_gauss : gauss_pairs 2 (fst (two_point 2)) (snd (two_point 2)).
Proof.
  assert (H : 0 < / sqrt 3) by (apply Rinv_0_lt_compat, sqrt_lt_R0; lra).
  split; [|split].
  - intros i Hi. replace i with 0%nat by lia. cbn. lra.
  - intros [|[|i]] Hi; cbn; try lia; split; lra.
  - intros i _. cbn. lra.
Qed.

(** a reader for three numbers *)
Definition digits (s : string) : option R :=
  if String.eqb s "0 " then Some 0 else if String.eqb s " 1" then Some 1 else if String.eqb s " 2" then Some 2
  else if String.eqb s " 1 " then Some 1 else None.
Definition mesh : vec := fun i => INR i / 2.
(** material 0 everywhere, then material 3 on the right half *)
Definition two_layers : list layer := [mkLayer 0 "0 - 2"; mkLayer 3 " 1 - 2"].

Lemma mesh_increasing : forall i, (i < 4)%nat -> mesh i < mesh (i + 1)%nat.
Proof. intros i _. unfold mesh. rewrite plus_INR. cbn. lra. Qed.

Lemma two_layers_read : reads digits (texts two_layers) [(0, 0, 2); (3, 1, 2)].
Proof.
  assert (N : forall c s l, split_on c s = l -> pieces_of c s l) by (intros; apply pieces_split; assumption).
  apply (reads_layer digits 0 "0 - 2" _ ["0 - 2"%string] [(0, 2)] [(3, 1, 2)]).
  - apply N. reflexivity.
  - constructor; [|constructor]. exists "0 "%string, " 2"%string. split; [apply N; reflexivity|split; reflexivity].
  - apply (reads_layer digits 3 " 1 - 2" _ [" 1 - 2"%string] [(1, 2)] []).
    + apply N. reflexivity.
    + constructor; [|constructor]. exists " 1 "%string, " 2"%string. split; [apply N; reflexivity|split; reflexivity].
    + constructor.
Qed.

Lemma two_layers_cover : forall i, (i < 4)%nat ->
  covers 4 mesh 0 2 i /\ (covers 4 mesh 1 2 i <-> (2 <= i)%nat).
Proof.
  intros i Hi.
  assert (E0 : 0 = mesh 0%nat) by (unfold mesh; cbn; lra). assert (E1 : 1 = mesh 2%nat) by (unfold mesh; cbn; lra).
  assert (E2 : 2 = mesh 4%nat) by (unfold mesh; cbn; lra).
  assert (Hm : forall a b, (a <= b)%nat <-> mesh a <= mesh b).
  { intros a b. unfold mesh. split; intros H.
    - apply le_INR in H. lra.
    - apply INR_le. lra. }
  split.
  - rewrite E0, E2. apply covers_edges; [exact mesh_increasing|lia|lia|exact Hi|]. split; apply Hm; lia.
  - rewrite E1, E2. rewrite covers_edges by (try exact mesh_increasing; lia). rewrite <- !Hm. lia.
Qed.

Lemma two_layers_map : exists m, spatial1d digits two_layers 4 mesh true = Ok m /\ m 1%nat = 0 /\ m 2%nat = 3.
Proof.
  assert (OK : exists m, spatial1d digits two_layers 4 mesh true = Ok m).
  { apply (spatial_gap digits two_layers 4 mesh _ two_layers_read).
    - intros idx a b [H|[H|[]]]; injection H as <- _ _; lra.
    - intros i Hi. exists 0, 0, 2. split; [left; reflexivity|]. apply two_layers_cover. exact Hi. }
  destruct OK as [m E]. exists m. split; [exact E|].
  pose proof (spatial_map digits two_layers 4 mesh true) as HS. rewrite E in HS. destruct HS as (fills & Rd & HM).
  rewrite <- (reads_unique _ _ _ two_layers_read _ Rd) in HM. split.
  - destruct (HM 1%nat ltac:(lia)) as [[(bf & idx & a & b & af & Hf & C & Hn & Hv)|[Hn _]] _].
    + destruct bf as [|x bf]; cbn in Hf; [injection Hf as <- _ _ _; exact Hv|].
      injection Hf as _ Hf. destruct bf as [|y bf]; cbn in Hf; [|destruct bf; discriminate].
      injection Hf as <- <- <- _. apply (two_layers_cover 1%nat ltac:(lia)) in C. lia.
    + exfalso. apply (Hn 0 0 2); [left; reflexivity|apply two_layers_cover; lia].
  - destruct (HM 2%nat ltac:(lia)) as [[(bf & idx & a & b & af & Hf & C & Hn & Hv)|[Hn _]] _].
    + destruct bf as [|x bf]; cbn in Hf.
      * injection Hf as <- <- <- <-. exfalso. apply (Hn 3 1 2); [left; reflexivity|]. apply two_layers_cover; lia.
      * injection Hf as _ Hf. destruct bf as [|y bf]; cbn in Hf; [|destruct bf; discriminate].
        injection Hf as <- _ _ _. exact Hv.
    + exfalso. apply (Hn 0 0 2); [left; reflexivity|apply two_layers_cover; lia].
Qed.

(** a stock grid with 87 groups *)
Definition stock87 (grid : nat) : nat * vec := (87%nat, fun g => INR g + 1).
Definition cut2 : nat -> nat := fun c => match c with 0%nat => 0%nat | 1%nat => 40%nat | _ => 87%nat end.
Definition cut3 : nat -> nat := fun c => match c with 0%nat => 0%nat | 1%nat => 20%nat | 2%nat => 50%nat | _ => 87%nat end.
Definition table87 (grid groups : nat) : option (nat -> nat) :=
  if Nat.eqb groups 2 then Some cut2 else if Nat.eqb groups 3 then Some cut3 else None.
Lemma cut2_partition : partition 87 2 cut2.
Proof. split; [reflexivity|split; [reflexivity|]]. intros [|[|c]] H; cbn; lia. Qed.
Lemma cut3_partition : partition 87 3 cut3.
Proof. split; [reflexivity|split; [reflexivity|]]. intros [|[|[|c]]] H; cbn; lia. Qed.
