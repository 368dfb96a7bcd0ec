(** Proofs about the fixed-source drivers, continued: the drivers. *)
From Coq Require Import Lra Lia Bool FunctionalExtensionality.
From Verif Require Import Base BaseFacts SlabModel SlabSpec SlabFacts SlabFacts2 SlabFacts3 SlabFacts4 SlabFacts5.
From Verif Require Import SphereModel SphereFacts SphereFacts2.
From Verif Require Import MgModel MgSpec MgFacts MgFacts2 MgFacts3 MgFacts4 MgFacts6 DmdModel DmdSpec DmdFacts DmdFacts2 DmdFacts3 DmdFacts4.
From Verif Require Import FixModel FixSpec FixFacts.
Open Scope R_scope.

Lemma combined_matrix materials groups s f : exists xs,
  transfer_matrix materials groups (Scatter3 s) f = Scatter3 xs /\
  forall m o i, (m < materials)%nat -> (o < groups)%nat -> (i < groups)%nat -> xs m o i = mixed s f m o i.
Proof.
  destruct (transfer_matrix materials groups (Scatter3 s) f) as [xs|nm xs] eqn:E.
  - exists xs. split; [reflexivity|]. intros m o i Hm Ho Hi.
    destruct (transfer_entries materials groups (Scatter3 s) f m o i 0 Hm Ho Hi) as (_ & H & _).
    rewrite E in H. exact H.
  - destruct f; discriminate E.
Qed.

Section Agree.
Variables (P : sn) (groups : nat) (xs1 xs2 : mat3).
Hypothesis Hx : forall i g h, (i < cells P)%nat -> (g < groups)%nat -> (h < groups)%nat -> xs1 (medium P i) g h = xs2 (medium P i) g h.

Lemma mg_source_agree external phi g m i : (g < groups)%nat -> (i < cells P)%nat ->
  mg_source (medium P) groups xs1 external phi g m i = mg_source (medium P) groups xs2 external phi g m i.
Proof. intros Hg Hi. unfold mg_source. f_equal. apply rsum_ext. intros h Hh. rewrite Hx by assumption. reflexivity. Qed.

Lemma carried_agree xs_total external boundary phi psi :
  carried_by P groups xs_total xs1 external boundary phi psi -> carried_by P groups xs_total xs2 external boundary phi psi.
Proof.
  intros H g Hg. destruct (H g Hg) as [A B]. split; [|exact B].
  intros m Hm i Hi. rewrite <- mg_source_agree by assumption. apply (A m Hm i Hi).
Qed.

Lemma solution_agree xs_total external boundary phi :
  mg_solution P groups xs_total xs1 external boundary phi -> mg_solution P groups xs_total xs2 external boundary phi.
Proof.
  intros [psi H]. exists psi. intros g Hg. destruct (H g Hg) as (A & B & C). split; [|split; [exact B|exact C]].
  intros m Hm i Hi. rewrite <- mg_source_agree by assumption. apply (A m Hm i Hi).
Qed.

Lemma ratio_agree xs_total c : mg_ratio P groups xs_total xs1 c -> mg_ratio P groups xs_total xs2 c.
Proof.
  intros H g i Hg Hi. rewrite (rsum_ext _ _ (fun h => Rabs (xs1 (medium P i) g h))); [apply H; assumption|].
  intros h Hh. rewrite Hx by assumption. reflexivity.
Qed.
End Agree.

(** The flux of a solution is carried by it. *)
Lemma solution_carried P groups xs_total xs external boundary psi phi :
  mg_transport P groups xs_total xs external boundary psi phi ->
  carried_by P groups xs_total xs external boundary phi (fun k m g => psi g m k).
Proof. intros H g Hg. destruct (H g Hg) as (A & B & _). split; [exact A|exact B]. Qed.

Section Drivers.
Variables (P : sn) (materials groups : nat) (xs_total : mat2) (s : mat3) (f : fission_data) (external boundary : arr3).
Let run a e := fixed_source_iteration P materials groups xs_total (Scatter3 s) f external boundary 1 a e.

Lemma run_unfold : exists xs phi,
  transfer_matrix materials groups (Scatter3 s) f = Scatter3 xs /\
  (forall m o i, (m < materials)%nat -> (o < groups)%nat -> (i < groups)%nat -> xs m o i = mixed s f m o i) /\
  (nonzero_ordinates (angles P) (mu P) -> source_iteration_iso P groups zeros2 xs_total xs external boundary 1 = Ok phi /\
     forall a e, run a e = fixed_output_of P groups xs_total (Scatter3 xs) external boundary 1 a e phi).
Proof.
  destruct (combined_matrix materials groups s f) as (xs & E & Hxs).
  destruct (source_iteration_iso P groups zeros2 xs_total xs external boundary 1) as [phi|e] eqn:Ei.
  - exists xs, phi. split; [exact E|]. split; [exact Hxs|]. intros _. split; [exact Ei|].
    intros a e. unfold run, fixed_source_iteration. rewrite E. cbn [source_iteration]. rewrite Ei. reflexivity.
  - exists xs, zeros2. split; [exact E|]. split; [exact Hxs|]. intros Hnz.
    destruct (outer_total P groups zeros2 xs_total xs external boundary Hnz) as [phi E']. congruence.
Qed.

Lemma fixed_outputs :
  angles P <> 1%nat -> nonzero_ordinates (angles P) (mu P) -> mg_divisors P groups xs_total ->
  (forall i, (i < cells P)%nat -> (medium P i < materials)%nat) ->
  exists F,
    run FlagFalse 0 = Ok (ScalarOut (scalar_c F)) /\ run FlagFalse 1 = Ok (ScalarOut (scalar_e F)) /\
    (forall a, a <> FlagFalse -> run a 0 = Ok (AngularOut (angular_c F)) /\ run a 1 = Ok (AngularOut (angular_e F))) /\
    carried_by P groups xs_total (mixed s f) external boundary (scalar_c F) (angular_e F) /\
    centres (cells P) (angles P) groups (angular_e F) (angular_c F) /\
    direction_sums (S (cells P)) (angles P) groups (wt P) (angular_e F) (scalar_e F) /\
    exists xs, (forall m o i, (m < materials)%nat -> (o < groups)%nat -> (i < groups)%nat -> xs m o i = mixed s f m o i) /\
      documented_exit (one_sweep_iso P groups xs_total xs external boundary 1) (cells P) groups 100 (/ 10 ^ 8)
        (fun _ _ => 0) (scalar_c F).
Proof.
  intros Ha Hnz Hd Hm. destruct run_unfold as (xs & phi & _ & Hxs & R). destruct (R Hnz) as [Ei Hr]. clear R.
  destruct (known_four P groups xs_total xs external boundary phi Ha Hnz Hd) as (phi_e & psi_c & psi_e & H1 & H2 & H3 & H4 & H5 & H6).
  exists (mkFour phi phi_e psi_c psi_e). cbn [scalar_c scalar_e angular_c angular_e].
  split; [rewrite Hr; exact H1|]. split; [rewrite Hr; exact H2|]. split.
  { intros a Hna. rewrite !Hr. apply H3. exact Hna. }
  split; [|split; [exact H5|split; [exact H6|]]].
  - apply (carried_agree P groups xs); [|exact H4]. intros i g h Hi Hg Hh. apply Hxs; auto.
  - exists xs. split; [exact Hxs|]. exact (outer_exit_iso P groups zeros2 xs_total xs external boundary 1 phi Ei).
Qed.

Lemma fixed_carried phi psi_e :
  angles P <> 1%nat -> nonzero_ordinates (angles P) (mu P) -> mg_divisors P groups xs_total ->
  (forall i, (i < cells P)%nat -> (medium P i < materials)%nat) ->
  run FlagFalse 0 = Ok (ScalarOut phi) -> run FlagTrue 1 = Ok (AngularOut psi_e) ->
  carried_by P groups xs_total (mixed s f) external boundary phi psi_e /\
  (forall psi_c, run FlagTrue 0 = Ok (AngularOut psi_c) -> centres (cells P) (angles P) groups psi_e psi_c) /\
  (forall phi_e, run FlagFalse 1 = Ok (ScalarOut phi_e) -> direction_sums (S (cells P)) (angles P) groups (wt P) psi_e phi_e).
Proof.
  intros Ha Hnz Hd Hm E1 E2. destruct (fixed_outputs Ha Hnz Hd Hm) as (F & R1 & R2 & R3 & C1 & C2 & C3 & _).
  destruct (R3 FlagTrue ltac:(discriminate)) as [R4 R5].
  rewrite E1 in R1. injection R1 as R1. rewrite E2 in R5. injection R5 as R5. rewrite <- R1, <- R5 in C1. rewrite <- R5 in C2, C3.
  split; [exact C1|]. split.
  - intros psi_c E. rewrite E in R4. injection R4 as R4. rewrite R4. exact C2.
  - intros phi_e E. rewrite E in R2. injection R2 as R2. rewrite R2. exact C3.
Qed.

Lemma within_sum w (psi1 psi2 : nat -> R) d n : (forall m, (m < n)%nat -> 0 <= w m) ->
  (forall m, (m < n)%nat -> Rabs (psi1 m - psi2 m) <= d) ->
  Rabs (rsum n (fun m => w m * psi1 m) - rsum n (fun m => w m * psi2 m)) <= rsum n w * d.
Proof.
  intros Hw H. rewrite <- rsum_minus. rewrite <- rsum_scal_r.
  assert (GS : forall k (u v : vec), (forall m, (m < k)%nat -> Rabs (u m) <= v m) -> Rabs (rsum k u) <= rsum k v).
  { induction k as [|k IH]; intros u v Huv; simpl; [rewrite Rabs_R0; lra|].
    eapply Rle_trans; [apply Rabs_triang|]. apply Rplus_le_compat; [apply IH; intros; apply Huv; lia|apply Huv; lia]. }
  apply GS. intros m Hm. replace (w m * psi1 m - w m * psi2 m) with (w m * (psi1 m - psi2 m)) by ring.
  rewrite Rabs_mult, (Rabs_right (w m)) by (apply Rle_ge, Hw; exact Hm).
  apply Rmult_le_compat_l; [apply Hw; exact Hm|apply H; exact Hm].
Qed.

Lemma fixed_accuracy c :
  angles P <> 1%nat -> nonzero_ordinates (angles P) (mu P) -> mg_thin P groups xs_total ->
  (forall i, (i < cells P)%nat -> (medium P i < materials)%nat) ->
  (forall m, (m < angles P)%nat -> 0 <= wt P m) -> 0 <= c ->
  rsum (angles P) (wt P) * c < 1 -> mg_ratio P groups xs_total (mixed s f) c ->
  exists sol psi, mg_transport P groups xs_total (mixed s f) external boundary psi sol /\
    (forall other, mg_solution P groups xs_total (mixed s f) external boundary other -> agree2 (cells P) groups other sol) /\
    forall phi phi_e psi_c psi_e,
      run FlagFalse 0 = Ok (ScalarOut phi) -> run FlagFalse 1 = Ok (ScalarOut phi_e) ->
      run FlagTrue 0 = Ok (AngularOut psi_c) -> run FlagTrue 1 = Ok (AngularOut psi_e) ->
      (exists n, (1 <= n <= 100)%nat /\ forall M, 0 <= M ->
         (forall i g, (i < cells P)%nat -> (g < groups)%nat -> Rabs (sol i g) <= M) ->
         within2 (cells P) groups ((rsum (angles P) (wt P) * c) ^ n * M) phi sol) /\
      forall d, 0 <= d -> within2 (cells P) groups d phi sol ->
        (forall k m g, (k <= cells P)%nat -> (m < angles P)%nat -> (g < groups)%nat ->
           Rabs (psi_e k m g - psi g m k) <= c * d) /\
        within2 (S (cells P)) groups (rsum (angles P) (wt P) * (c * d)) phi_e
          (over_directions (angles P) (wt P) (fun k m g => psi g m k)) /\
        within2 (cells P) groups (rsum (angles P) (wt P) * (c * d)) (over_directions (angles P) (wt P) psi_c) sol.
Proof.
  intros Ha Hnz Ht Hm Hw Hc Hrho Hrat. assert (Hd := thin_mg_divisors _ _ _ Hnz Ht).
  destruct (mg_unique_solution P groups xs_total (mixed s f) external boundary c Hnz Ht Hw Hc Hrho Hrat) as (sol & (psi & HT) & U).
  exists sol, psi. split; [exact HT|]. split; [exact U|].
  intros phi phi_e psi_c psi_e R1 R2 R3 R4.
  destruct (fixed_carried phi psi_e Ha Hnz Hd Hm R1 R4) as (C1 & C2 & C3). specialize (C2 _ R3). specialize (C3 _ R2).
  split.
  - destruct run_unfold as (xs & phi' & _ & Hxs & R). destruct (R Hnz) as [Ei Hr]. clear R.
    assert (phi' = phi) as ->. { specialize (Hr FlagFalse 0%nat). rewrite R1 in Hr. unfold fixed_output_of in Hr. cbn in Hr. congruence. }
    assert (X : forall i g h, (i < cells P)%nat -> (g < groups)%nat -> (h < groups)%nat -> mixed s f (medium P i) g h = xs (medium P i) g h).
    { intros i g h Hi Hg Hh. symmetry. apply Hxs; auto. }
    destruct (outer_error P groups xs_total xs external boundary c zeros2 phi sol Ht Hw Hc Hrho
      (ratio_agree P groups _ _ X xs_total c Hrat)
      (solution_agree P groups _ _ X xs_total external boundary sol (ex_intro _ psi HT)) Ei) as (n & Hn & Hb & _).
    exists n. split; [exact Hn|]. intros M HM HsM. apply Hb; [exact HM|].
    intros i g Hi Hg. unfold zeros2. rewrite Rabs_minus_sym, Rminus_0_r. apply HsM; assumption.
  - intros d Hd0 Hw2.
    assert (A : forall k m g, (k <= cells P)%nat -> (m < angles P)%nat -> (g < groups)%nat -> Rabs (psi_e k m g - psi g m k) <= c * d).
    { exact (carried_close P groups xs_total (mixed s f) external boundary phi sol psi_e (fun k m g => psi g m k) c d Hnz Ht Hc Hd0 Hrat Hw2 C1
        (solution_carried _ _ _ _ _ _ _ _ HT)). }
    split; [exact A|]. split.
    + intros k g Hk Hg. rewrite C3 by assumption. unfold over_directions. apply within_sum; [exact Hw|].
      intros m Hmm. apply A; [lia|assumption|assumption].
    + intros i g Hi Hg. unfold over_directions. destruct (HT g Hg) as (_ & _ & Hphi). rewrite Hphi by exact Hi.
      apply within_sum; [exact Hw|]. intros m Hmm. rewrite C2 by assumption.
      assert (B1 := A i m g ltac:(lia) Hmm Hg). assert (B2 := A (S i) m g ltac:(lia) Hmm Hg).
      assert (Hab : forall u v : R, Rabs u <= v -> - v <= u <= v).
      { intros u v Huv. assert (X := Rle_abs u). assert (Y := Rle_abs (- u)). rewrite Rabs_Ropp in Y. lra. }
      apply Hab in B1. apply Hab in B2. apply Rabs_le. lra.
Qed.

Lemma fixed_nonneg :
  angles P <> 1%nat -> nonzero_ordinates (angles P) (mu P) -> mg_thin P groups xs_total ->
  (forall i, (i < cells P)%nat -> (medium P i < materials)%nat) ->
  nonneg_problem P groups (mixed s f) external boundary ->
  (forall a e phi, (e <= 1)%nat -> run a e = Ok (ScalarOut phi) ->
     forall k g, (k < cells P + e)%nat -> (g < groups)%nat -> 0 <= phi k g) /\
  (forall a e psi, (e <= 1)%nat -> run a e = Ok (AngularOut psi) ->
     forall k m g, (k < cells P + e)%nat -> (m < angles P)%nat -> (g < groups)%nat -> 0 <= psi k m g).
Proof.
  intros Ha Hnz Ht Hm Hn. assert (Hd := thin_mg_divisors _ _ _ Hnz Ht).
  destruct (fixed_outputs Ha Hnz Hd Hm) as (F & R1 & R2 & R3 & C1 & C2 & C3 & _).
  assert (Hphi : forall i g, (i < cells P)%nat -> (g < groups)%nat -> 0 <= scalar_c F i g).
  { destruct run_unfold as (xs & phi' & _ & Hxs & R). destruct (R Hnz) as [Ei Hr]. clear R.
    assert (phi' = scalar_c F) as ->. { specialize (Hr FlagFalse 0%nat). rewrite R1 in Hr. unfold fixed_output_of in Hr. cbn in Hr. congruence. }
    destruct Hn as (Hw & Hs & He & Hb).
    apply (outer_nonneg P groups xs_total xs external boundary zeros2 (scalar_c F)); try assumption.
    - intros i g h Hi Hg Hh. rewrite Hxs by auto. apply Hs; assumption.
    - intros. unfold zeros2. lra. }
  assert (He : forall k m g, (k <= cells P)%nat -> (m < angles P)%nat -> (g < groups)%nat -> 0 <= angular_e F k m g).
  { exact (carried_nonneg P groups xs_total (mixed s f) external boundary _ _ Hnz Ht Hn Hphi C1). }
  assert (Hc : forall k m g, (k < cells P)%nat -> (m < angles P)%nat -> (g < groups)%nat -> 0 <= angular_c F k m g).
  { intros k m g Hk Hmm Hg. rewrite C2 by assumption.
    assert (A := He k m g ltac:(lia) Hmm Hg). assert (B := He (S k) m g ltac:(lia) Hmm Hg). lra. }
  assert (Hse : forall k g, (k < S (cells P))%nat -> (g < groups)%nat -> 0 <= scalar_e F k g).
  { intros k g Hk Hg. rewrite C3 by assumption. apply rsum_nonneg. intros m Hmm.
    apply Rmult_le_pos; [apply (proj1 Hn); exact Hmm|apply He; lia]. }
  assert (Cases : forall e, (e <= 1)%nat -> e = 0%nat \/ e = 1%nat) by lia.
  split.
  - intros a e phi Hle E k g Hk Hg. destruct (Cases e Hle) as [-> | ->].
    + destruct a; [rewrite R1 in E; injection E as <-; apply Hphi; lia| |];
        destruct (R3 FlagTrue ltac:(discriminate)) as [X _]; destruct (R3 FlagOther ltac:(discriminate)) as [Y _]; congruence.
    + destruct a; [rewrite R2 in E; injection E as <-; apply Hse; lia| |];
        destruct (R3 FlagTrue ltac:(discriminate)) as [_ X]; destruct (R3 FlagOther ltac:(discriminate)) as [_ Y]; congruence.
  - intros a e psi Hle E k m g Hk Hmm Hg.
    assert (Hna : a <> FlagFalse). { intros ->. destruct (Cases e Hle) as [-> | ->]; congruence. }
    destruct (R3 a Hna) as [X Y]. destruct (Cases e Hle) as [-> | ->].
    + rewrite X in E. injection E as <-. apply Hc; lia.
    + rewrite Y in E. injection E as <-. apply He; lia.
Qed.

(** Particle balance of the returned angular fluxes. *)
Lemma fixed_balance phi psi_c psi_e :
  angles P <> 1%nat -> nonzero_ordinates (angles P) (mu P) -> mg_divisors P groups xs_total ->
  (forall i, (i < cells P)%nat -> (medium P i < materials)%nat) -> (forall i, (i < cells P)%nat -> dx P i <> 0) ->
  run FlagFalse 0 = Ok (ScalarOut phi) -> run FlagTrue 0 = Ok (AngularOut psi_c) -> run FlagTrue 1 = Ok (AngularOut psi_e) ->
  leakage P groups psi_e
  + rsum (cells P) (fun i => dx P i * rsum groups (fun g =>
      xs_total (medium P i) g * over_directions (angles P) (wt P) psi_c i g))
  = rsum (cells P) (fun i => dx P i * rsum groups (fun g =>
      rsum (angles P) (wt P) * rsum groups (fun o => mixed s f (medium P i) o g) * phi i g))
    + rsum (cells P) (fun i => dx P i * rsum groups (fun g =>
        rsum (angles P) (fun m => wt P m * at3 external i (bidx (d3b external) m) (bidx (d3c external) g)))).
Proof.
  intros Ha Hnz Hd Hm Hdx R1 R2 R3.
  destruct (fixed_carried phi psi_e Ha Hnz Hd Hm R1 R3) as (C1 & C2 & _). specialize (C2 _ R2).
  set (W := rsum (angles P) (wt P)).
  assert (E : rsum groups (fun g => total_leakage (cells P) (angles P) (mu P) (wt P) (fun m k => psi_e k m g)
      + rsum (cells P) (fun i => dx P i * xs_total (medium P i) g * over_directions (angles P) (wt P) psi_c i g))
    = rsum groups (fun g => rsum (cells P) (fun i => dx P i * (W * rsum groups (fun h => mixed s f (medium P i) g h * phi i h)))
      + rsum (cells P) (fun i => dx P i *
      rsum (angles P) (fun m => wt P m * at3 external i (bidx (d3b external) m) (bidx (d3c external) g))))).
  { apply rsum_ext. intros g Hg. destruct (C1 g Hg) as [B1 B2].
    rewrite (transport_conservation (cells P) (angles P) (mu P) (wt P) (dx P) (fun i => xs_total (medium P i) g)
       (mg_source (medium P) groups (mixed s f) external phi g)
       (fun m => reflected_in (cells P) (angles P) (mu P) (bc_left P) (bc_right P) (fun m0 k => psi_e k m0 g) m + mg_boundary boundary (mu P) g m) (fun m k => psi_e k m g) (fun i => over_directions (angles P) (wt P) psi_c i g) Hdx).
    - rewrite <- rsum_plus. apply rsum_ext. intros i Hi. rewrite <- Rmult_plus_distr_l. f_equal.
      unfold mg_source, W. rewrite <- rsum_scal_r. rewrite <- rsum_plus. apply rsum_ext. intros m Hmm. ring.
    - split; [exact B1|]. split; [exact B2|]. intros i Hi. unfold over_directions. apply rsum_ext. intros m Hmm. rewrite C2 by assumption. reflexivity. }
  rewrite !rsum_plus in E. unfold leakage.
  assert (E1 : rsum groups (fun g => rsum (cells P) (fun i => dx P i * xs_total (medium P i) g * over_directions (angles P) (wt P) psi_c i g))
             = rsum (cells P) (fun i => dx P i * rsum groups (fun g => xs_total (medium P i) g * over_directions (angles P) (wt P) psi_c i g))).
  { rewrite rsum_swap. apply rsum_ext. intros i Hi. rewrite <- rsum_scal. apply rsum_ext. intros; ring. }
  assert (E2 : rsum groups (fun g => rsum (cells P) (fun i => dx P i * (W * rsum groups (fun h => mixed s f (medium P i) g h * phi i h))))
             = rsum (cells P) (fun i => dx P i * rsum groups (fun g => W * rsum groups (fun o => mixed s f (medium P i) o g) * phi i g))).
  { rewrite rsum_swap. apply rsum_ext. intros i Hi. rewrite rsum_scal. f_equal. rewrite rsum_scal.
    rewrite rsum_swap. rewrite <- rsum_scal. apply rsum_ext. intros h Hh. rewrite rsum_scal_r. ring. }
  assert (E3 : rsum groups (fun g => rsum (cells P) (fun i => dx P i *
      rsum (angles P) (fun m => wt P m * at3 external i (bidx (d3b external) m) (bidx (d3c external) g))))
    = rsum (cells P) (fun i => dx P i * rsum groups (fun g =>
        rsum (angles P) (fun m => wt P m * at3 external i (bidx (d3b external) m) (bidx (d3c external) g))))).
  { rewrite rsum_swap. apply rsum_ext. intros i Hi. rewrite rsum_scal. reflexivity. }
  rewrite E1, E2, E3 in E. exact E.
Qed.
End Drivers.

(** *** DMD *)
Lemma fixed_dmd_outputs svd P materials groups xs_total s f external boundary warm K :
  angles P <> 1%nat -> nonzero_ordinates (angles P) (mu P) -> mg_divisors P groups xs_total ->
  (forall i, (i < cells P)%nat -> (medium P i < materials)%nat) ->
  let run a e := fixed_dynamic_mode_decomp svd P materials groups xs_total (Scatter3 s) f external boundary 1 a e warm K in
  (exists F xs,
    run FlagFalse 0%nat = Ok (ScalarOut (scalar_c F)) /\ run FlagFalse 1%nat = Ok (ScalarOut (scalar_e F)) /\
    (forall a, a <> FlagFalse -> run a 0%nat = Ok (AngularOut (angular_c F)) /\ run a 1%nat = Ok (AngularOut (angular_e F))) /\
    carried_by P groups xs_total (mixed s f) external boundary (scalar_c F) (angular_e F) /\
    centres (cells P) (angles P) groups (angular_e F) (angular_c F) /\
    direction_sums (S (cells P)) (angles P) groups (wt P) (angular_e F) (scalar_e F) /\
    (forall m o i, (m < materials)%nat -> (o < groups)%nat -> (i < groups)%nat -> xs m o i = mixed s f m o i) /\
    accelerated_run svd (one_sweep_iso P groups xs_total xs external boundary 1) (cells P) groups (fun _ _ => 0) warm K (scalar_c F)) \/
  (exists e, forall a ed, run a ed = Raise e).
Proof.
  intros Ha Hnz Hd Hm run. destruct (combined_matrix materials groups s f) as (xs & E & Hxs).
  destruct (dynamic_mode_decomp svd P groups zeros2 xs_total (Scatter3 xs) external boundary 1 warm K None) as [phi|e] eqn:Ed.
  2:{ right. exists e. intros a ed. unfold run, fixed_dynamic_mode_decomp. rewrite E, Ed. reflexivity. }
  left. assert (Hr : forall a ed, run a ed = fixed_output_of P groups xs_total (Scatter3 xs) external boundary 1 a ed phi).
  { intros a ed. unfold run, fixed_dynamic_mode_decomp. rewrite E, Ed. reflexivity. }
  destruct (known_four P groups xs_total xs external boundary phi Ha Hnz Hd) as (phi_e & psi_c & psi_e & H1 & H2 & H3 & H4 & H5 & H6).
  exists (mkFour phi phi_e psi_c psi_e), xs. cbn [scalar_c scalar_e angular_c angular_e].
  split; [rewrite Hr; exact H1|]. split; [rewrite Hr; exact H2|]. split.
  { intros a Hna. rewrite !Hr. apply H3. exact Hna. }
  split; [|split; [exact H5|split; [exact H6|split; [exact Hxs|]]]].
  - apply (carried_agree P groups xs); [|exact H4]. intros i g h Hi Hg Hh. apply Hxs; auto.
  - exact (dmd_history_iso svd P groups zeros2 xs_total xs external boundary 1 warm K None phi Ed).
Qed.
