(** Proofs about the fixed-source drivers: geometries and data for which an output mode does not work. *)
From Coq Require Import Lra Lia Bool FunctionalExtensionality.
From Verif Require Import Base BaseFacts SlabModel SphereModel SphereFacts2 MgModel DmdModel.
From Verif Require Import FixModel FixSpec.
Open Scope R_scope.

Lemma sphere_angular_raises P groups T q bnd edges :
  (exists m, (m < angles P)%nat /\ mu P m <> 0) -> (0 < groups)%nat ->
  known_source_angular P groups T q bnd 2 edges = Raise IndexError.
Proof.
  intros Hm Hg. unfold known_source_angular.
  rewrite (for_up_err_raise groups _ _ 0 IndexError); [reflexivity|exact Hg| |].
  - intros t. rewrite sphere_known_fails by exact Hm. reflexivity.
  - intros j t e Hj. rewrite sphere_known_fails by exact Hm. cbn [bind]. intros E. injection E as <-. reflexivity.
Qed.

Lemma sphere_scalar_raises P groups T q bnd edges :
  (exists m, (m < angles P)%nat /\ mu P m <> 0) -> (0 < groups)%nat ->
  known_source_scalar P groups T q bnd 2 edges = Raise IndexError.
Proof.
  intros Hm Hg. unfold known_source_scalar.
  rewrite (for_up_err_raise groups _ _ 0 IndexError); [reflexivity|exact Hg| |].
  - intros t. rewrite sphere_known_fails by exact Hm. reflexivity.
  - intros j t e Hj. rewrite sphere_known_fails by exact Hm. cbn [bind]. intros E. injection E as <-. reflexivity.
Qed.

Definition other_mode (a : py_flag) (edges : nat) : Prop := a <> FlagFalse \/ edges <> 0%nat.

Lemma other_mode_known P groups T xs ext bnd geometry a e flux : other_mode a e ->
  fixed_output_of P groups T xs ext bnd geometry a e flux
  = known_source_calculation P groups flux T xs ext bnd geometry a e.
Proof.
  intros H. unfold fixed_output_of. replace (is_false a && Nat.eqb e 0)%bool with false; [reflexivity|].
  symmetry. apply andb_false_iff. destruct H as [H|H].
  - left. destruct a; [congruence|reflexivity|reflexivity].
  - right. apply Nat.eqb_neq. exact H.
Qed.

Lemma sphere_known_raises P groups T xs ext bnd a e flux :
  (exists m, (m < angles P)%nat /\ mu P m <> 0) -> (0 < groups)%nat ->
  exists x, known_source_calculation P groups flux T xs ext bnd 2 a e = Raise x.
Proof.
  intros Hm Hg. unfold known_source_calculation. destruct xs; [|eauto].
  destruct (is_false a && Nat.eqb e 1)%bool.
  - rewrite sphere_scalar_raises by assumption. cbn [bind]. eauto.
  - rewrite sphere_angular_raises by assumption. cbn [bind]. eauto.
Qed.

Lemma fixed_sphere_modes svd P materials groups T xs f ext bnd a e warm K :
  (exists m, (m < angles P)%nat /\ mu P m <> 0) -> (0 < groups)%nat -> a <> FlagFalse \/ e <> 0%nat ->
  (exists x, fixed_source_iteration P materials groups T xs f ext bnd 2 a e = Raise x) /\
  (exists x, fixed_dynamic_mode_decomp svd P materials groups T xs f ext bnd 2 a e warm K = Raise x).
Proof.
  intros Hm Hg Ho. unfold fixed_source_iteration, fixed_dynamic_mode_decomp. split.
  - destruct (source_iteration _ _ _ _ _ _ _ _ _) as [phi|x]; cbn [bind]; [|eauto].
    rewrite other_mode_known by exact Ho. apply sphere_known_raises; assumption.
  - destruct (dynamic_mode_decomp _ _ _ _ _ _ _ _ _ _ _) as [phi|x]; cbn [bind]; [|eauto].
    rewrite other_mode_known by exact Ho. apply sphere_known_raises; assumption.
Qed.

Lemma fixed_moments_modes svd P materials groups T nm xs f ext bnd geometry a e warm K :
  a <> FlagFalse \/ e <> 0%nat ->
  fixed_source_iteration P materials groups T (Scatter4 nm xs) f ext bnd geometry a e
    = bind (fixed_source_iteration P materials groups T (Scatter4 nm xs) f ext bnd geometry FlagFalse 0) (fun _ => Raise TypeError) /\
  fixed_dynamic_mode_decomp svd P materials groups T (Scatter4 nm xs) f ext bnd geometry a e warm K
    = bind (fixed_dynamic_mode_decomp svd P materials groups T (Scatter4 nm xs) f ext bnd geometry FlagFalse 0 warm K) (fun _ => Raise TypeError).
Proof.
  intros Ho. unfold fixed_source_iteration, fixed_dynamic_mode_decomp.
  assert (EX : exists Y, transfer_matrix materials groups (Scatter4 nm xs) f = Scatter4 nm Y).
  { destruct f; unfold transfer_matrix; eauto. }
  destruct EX as [Y ->]. split.
  - destruct (source_iteration _ _ _ _ _ _ _ _ _) as [phi|x]; cbn [bind]; [|reflexivity].
    rewrite other_mode_known by exact Ho. cbn. reflexivity.
  - destruct (dynamic_mode_decomp _ _ _ _ _ _ _ _ _ _ _) as [phi|x]; cbn [bind]; [|reflexivity].
    rewrite other_mode_known by exact Ho. cbn. reflexivity.
Qed.

Lemma iterate_const {St : Type} fuel (sweep : St -> outcome St) change tol cap count old z :
  (forall o, sweep o = Ok z) -> (0 < fuel)%nat -> (cap < count + fuel)%nat ->
  iterate fuel sweep change tol cap count old = Ok z.
Proof.
  intros Hs. revert count old. induction fuel as [|n IH]; intros count old Hf Hc; [lia|].
  cbn [iterate]. rewrite Hs. cbn [bind].
  destruct (orb (below (change z old) tol) (Nat.leb cap count)) eqn:E; [reflexivity|].
  apply orb_false_iff in E. destruct E as [_ E]. apply Nat.leb_gt in E. apply IH; lia.
Qed.

Lemma loop_ok {St : Type} n (x : St) : for_up_err n (fun _ s => Ok s) x = Ok x.
Proof. induction n as [|n IH]; cbn; [reflexivity|]. rewrite IH. reflexivity. Qed.

Lemma no_sweep P groups T xs ext bnd geometry old : geometry <> 1%nat -> geometry <> 2%nat ->
  one_sweep_iso P groups T xs ext bnd geometry old = Ok zeros2.
Proof.
  intros H1 H2. apply Nat.eqb_neq in H1. apply Nat.eqb_neq in H2. unfold one_sweep_iso. rewrite H1, H2. apply loop_ok.
Qed.

Lemma fixed_other_geometry P materials groups T s f ext bnd geometry a e :
  geometry <> 1%nat -> geometry <> 2%nat ->
  (a = FlagFalse -> (e <= 1)%nat ->
     fixed_source_iteration P materials groups T (Scatter3 s) f ext bnd geometry a e = Ok (ScalarOut (fun _ _ => 0))) /\
  (a <> FlagFalse -> fixed_source_iteration P materials groups T (Scatter3 s) f ext bnd geometry a e
     = Ok (AngularOut (fun _ _ _ => 0))).
Proof.
  intros H1 H2. unfold fixed_source_iteration.
  assert (EX : exists Y, transfer_matrix materials groups (Scatter3 s) f = Scatter3 Y).
  { destruct f; unfold transfer_matrix; eauto. }
  destruct EX as [Y ->]. cbn [source_iteration]. unfold source_iteration_iso.
  rewrite (iterate_const count_gg _ _ _ _ _ _ zeros2).
  2:{ intros o. apply no_sweep; assumption. }
  2:{ unfold count_gg. lia. }
  2:{ lia. }
  cbn [bind]. assert (E1 := H1). assert (E2 := H2). apply Nat.eqb_neq in E1. apply Nat.eqb_neq in E2.
  assert (N : forall flux xdim T source boundary edges, known_source_sn P flux xdim T source boundary geometry edges = None).
  { intros. unfold known_source_sn. rewrite E1, E2. reflexivity. }
  split.
  - intros -> He. unfold fixed_output_of. cbn [is_false andb]. destruct (Nat.eqb e 0) eqn:Ee; [reflexivity|].
    apply Nat.eqb_neq in Ee. assert (e = 1)%nat as -> by lia. unfold known_source_calculation. cbn [is_false andb Nat.eqb].
    unfold known_source_scalar. erewrite for_up_err_ext with (b2 := fun _ s => Ok s).
    + rewrite loop_ok. reflexivity.
    + intros; cbv beta zeta; rewrite N; reflexivity.
  - intros Ha. unfold fixed_output_of. replace (is_false a) with false by (destruct a; [congruence|reflexivity|reflexivity]). cbn [andb].
    unfold known_source_calculation. replace (is_false a) with false by (destruct a; [congruence|reflexivity|reflexivity]). cbn [andb].
    unfold known_source_angular. erewrite for_up_err_ext with (b2 := fun _ s => Ok s).
    + rewrite loop_ok. reflexivity.
    + intros; cbv beta zeta; rewrite N; reflexivity.
Qed.

(** A value equal to False that is not the object False selects the angular flux. *)
Lemma fixed_flag_identity svd P materials groups T xs f ext bnd geometry e warm K :
  fixed_source_iteration P materials groups T xs f ext bnd geometry FlagOther e
    = fixed_source_iteration P materials groups T xs f ext bnd geometry FlagTrue e /\
  fixed_dynamic_mode_decomp svd P materials groups T xs f ext bnd geometry FlagOther e warm K
    = fixed_dynamic_mode_decomp svd P materials groups T xs f ext bnd geometry FlagTrue e warm K.
Proof. split; reflexivity. Qed.
