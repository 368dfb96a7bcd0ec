(** Facts about the time-dependent drivers: step equations, traces of a run. *)
From Coq Require Import Lra Lia FunctionalExtensionality.
From Verif Require Import Base BaseFacts SlabModel SlabSpec SlabFacts SlabFacts5.
From Verif Require Import MgModel MgSpec MgFacts MgFacts2 MgFacts3 MgFacts4 MgFacts6.
From Verif Require Import TimeModel TimeSpec.
Open Scope R_scope.

Lemma bidx_full n m : (m < n)%nat -> bidx n m = m.
Proof. unfold bidx. intros H. destruct (Nat.eqb_spec n 1); lia. Qed.

(** A run of a raising loop, state by state. *)
Lemma for_up_err_trace {St} n (body : nat -> St -> outcome St) s r :
  for_up_err n body s = Ok r ->
  exists x, x 0%nat = s /\ x n = r /\ forall k, (k < n)%nat -> body k (x k) = Ok (x (S k)).
Proof.
  revert r. induction n as [|n IH]; intros r E; cbn [for_up_err] in E.
  - injection E as <-. exists (fun _ => s). repeat split; intros; lia.
  - destruct (for_up_err n body s) as [t|e] eqn:Et; cbn [bind] in E; [|discriminate].
    destruct (IH t eq_refl) as (x & H0 & Hn & Hs).
    exists (fun k => if Nat.leb k n then x k else r). cbn beta.
    destruct (Nat.leb_spec (S n) n); [lia|]. split; [|split].
    + cbn. exact H0.
    + reflexivity.
    + intros k Hk. destruct (Nat.leb_spec k n) as [_|]; [|lia].
      destruct (Nat.leb_spec (S k) n) as [Hk2|Hk2]; [apply Hs; lia|].
      assert (k = n) as -> by lia. rewrite Hn. exact E.
Qed.

(** One angular solve: [E] (group, ordinate, edge) solves the diamond-difference equations with
    source [q] (cell, ordinate, group), [psi] are its cell averages. *)
Definition sweep_eq (P : sn) (groups : nat) (T : mat2) (q : mat3) (bnd : arr3) (E psi : mat3) : Prop :=
  forall g m, (g < groups)%nat -> (m < angles P)%nat ->
    dd_balance (cells P) (mu P m) (dx P) (fun i => T (medium P i) g) (fun i => q i m g) (E g m) /\
    E g m (inflow_edge (cells P) (mu P m))
      = reflected_in (cells P) (angles P) (mu P) (bc_left P) (bc_right P) (E g) m
        + mg_boundary bnd (mu P) g m /\
    (forall i, (i < cells P)%nat -> psi i m g = (E g m i + E g m (S i)) / 2).

Lemma sweep_eq_ext P groups T q q' bnd E psi :
  agree3 (cells P) (angles P) groups q q' ->
  sweep_eq P groups T q bnd E psi -> sweep_eq P groups T q' bnd E psi.
Proof.
  intros Hq H g m Hg Hm. destruct (H g m Hg Hm) as (A & B & C). split; [|auto].
  intros i Hi. rewrite (A i Hi). apply Hq; assumption.
Qed.

Lemma known_sweep P groups T q bnd psi :
  angles P <> 1%nat -> nonzero_ordinates (angles P) (mu P) -> mg_divisors P groups T ->
  known_source_angular P groups T (mkArr3 (angles P) groups q) bnd 1 0 = Ok psi ->
  exists E, sweep_eq P groups T q bnd E psi.
Proof.
  intros Ha Hnz Hd Ek.
  pose proof (known_angular_columns _ _ _ _ _ _ _ Ek) as Hc. cbn [d3b d3c] in Hc.
  set (sr := fun g => slice3 (mkArr3 (angles P) groups q) (bidx groups g)).
  set (bd := fun g => slice3 bnd (bidx (d3c bnd) g)).
  exists (fun g m k => slab_known_source_sn P zeros2 (angles P) (fun m => T m g) (sr g) (bd g) 1 k m).
  intros g m Hg Hm.
  destruct (known_transport P (fun m => T m g) (sr g) (bd g) Ha Hnz (Hd g Hg)) as (F & (B & I & S) & HE & HC).
  assert (Hedge : (inflow_edge (cells P) (mu P m) <= cells P)%nat)
    by (unfold inflow_edge; destruct (Rlt_dec _ _); lia).
  split; [|split].
  - intros i Hi. rewrite !HE by (assumption || lia). rewrite (B m Hm i Hi). cbn.
    rewrite !bidx_full by assumption. reflexivity.
  - rewrite HE by assumption. rewrite (I m Hm). f_equal.
    unfold reflected_in.
    destruct (andb _ _) eqn:Eb; [|reflexivity].
    apply Bool.andb_true_iff in Eb. destruct Eb as [Eb _]. apply Nat.ltb_lt in Eb.
    rewrite HE; [reflexivity|lia|unfold outflow_edge; destruct (Rlt_dec _ _); lia].
  - intros i Hi. rewrite (Hc i m g Hg). fold (sr g) (bd g). rewrite HC by assumption.
    rewrite !HE by (assumption || lia). reflexivity.
Qed.

Lemma known_sweep_scalar P groups T q bnd phi :
  angles P <> 1%nat -> nonzero_ordinates (angles P) (mu P) -> mg_divisors P groups T ->
  known_source_scalar P groups T (mkArr3 (angles P) groups q) bnd 1 0 = Ok phi ->
  exists E psi, sweep_eq P groups T q bnd E psi /\ agree2 (cells P) groups phi (scalar_flux P psi).
Proof.
  intros Ha Hnz Hd Ek.
  destruct (known_total P groups T (mkArr3 (angles P) groups q) bnd 0) as [_ [psi Epsi]].
  destruct (known_sweep P groups T q bnd psi Ha Hnz Hd Epsi) as [E HE].
  exists E, psi. split; [exact HE|]. intros i g Hi Hg. unfold scalar_flux.
  apply (mg_scalar_is_sum P groups T (mkArr3 (angles P) groups q) bnd 0 phi psi); auto.
Qed.

(** two solutions of the same sweep agree *)
Lemma sweep_unique P groups T q bnd E1 psi1 E2 psi2 :
  nonzero_ordinates (angles P) (mu P) -> mg_divisors P groups T ->
  sweep_eq P groups T q bnd E1 psi1 -> sweep_eq P groups T q bnd E2 psi2 ->
  (forall g m k, (g < groups)%nat -> (m < angles P)%nat -> (k <= cells P)%nat -> E1 g m k = E2 g m k) /\
  agree3 (cells P) (angles P) groups psi1 psi2.
Proof.
  intros Hnz Hd H1 H2.
  assert (HE : forall g m k, (g < groups)%nat -> (m < angles P)%nat -> (k <= cells P)%nat -> E1 g m k = E2 g m k).
  { intros g m k Hg. revert k. induction m as [m IH] using (well_founded_induction lt_wf). intros k Hm Hk.
    destruct (H1 g m Hg Hm) as (B1 & I1 & _). destruct (H2 g m Hg Hm) as (B2 & I2 & _).
    assert (I : E1 g m (inflow_edge (cells P) (mu P m)) = E2 g m (inflow_edge (cells P) (mu P m))).
    { rewrite I1, I2. f_equal. unfold reflected_in.
      destruct (andb _ _) eqn:Eb; [|reflexivity].
      apply Bool.andb_true_iff in Eb. destruct Eb as [Eb _]. apply Nat.ltb_lt in Eb.
      apply IH; [exact Eb|lia|unfold outflow_edge; destruct (Rlt_dec _ _); lia]. }
    specialize (Hd g Hg m Hm). specialize (Hnz m Hm).
    unfold inflow_edge in I. destruct (Rlt_dec 0 (mu P m)) as [Hp|Hp].
    - eapply dd_unique_fwd; [|exact B1|exact B2|exact I|exact Hk]. apply divisors_fwd; assumption.
    - eapply dd_unique_bwd; [|exact B1|exact B2|exact I|exact Hk]. apply divisors_bwd; [lra|assumption]. }
  split; [exact HE|]. intros i m g Hi Hm Hg.
  destruct (H1 g m Hg Hm) as (_ & _ & C1). destruct (H2 g m Hg Hm) as (_ & _ & C2).
  rewrite C1, C2 by exact Hi. rewrite !HE by (assumption || lia). reflexivity.
Qed.

(** ** Step equations and sweeps *)
Section Step.
  Variables (P : sn) (groups : nat) (velocity : vec) (dt : R) (xs_total : mat2) (xs : mat3).
  Variables (ext bnd : arr3) (weight : R).
  Let T := effective_total weight xs_total velocity dt.
  Let qext i m g := at3 ext i (bidx (d3b ext) m) (bidx (d3c ext) g).

  Lemma sweep_step b (derivative : mat3) emit E psi :
    (forall i m g, (i < cells P)%nat -> (m < angles P)%nat -> (g < groups)%nat ->
       derivative i m g / velocity g = weight / (velocity g * dt) * psi i m g - b i m g) ->
    sweep_eq P groups T
      (fun i m g => qext i m g + b i m g + rsum groups (fun h => xs (medium P i) g h * emit i h)) bnd E psi
    <-> step_equation P groups velocity xs_total xs ext bnd derivative emit E psi.
  Proof.
    intros Hder. split.
    - intros H g m Hg Hm. destruct (H g m Hg Hm) as (B & I & C). split; [|exact I].
      intros i Hi. split; [apply C; exact Hi|].
      rewrite Hder by assumption. specialize (B i Hi). rewrite <- (C i Hi) in B.
      unfold T, effective_total in B. fold (qext i m g).
      replace (rsum groups (fun h => xs (medium P i) g h * emit i h) + qext i m g)
        with (qext i m g + b i m g + rsum groups (fun h => xs (medium P i) g h * emit i h) - b i m g) by ring.
      rewrite <- B. ring.
    - intros H g m Hg Hm. destruct (H g m Hg Hm) as (B & I). split; [|split; [exact I|]].
      + intros i Hi. destruct (B i Hi) as [C Bi]. rewrite Hder in Bi by assumption.
        rewrite <- C. unfold T, effective_total. fold (qext i m g) in Bi.
        replace (qext i m g + b i m g + rsum groups (fun h => xs (medium P i) g h * emit i h))
          with (rsum groups (fun h => xs (medium P i) g h * emit i h) + qext i m g + b i m g) by ring.
        rewrite <- Bi. ring.
      + intros i Hi. apply B. exact Hi.
  Qed.
End Step.

Lemma transport_sweep P groups T xs ext bnd E phi :
  mg_transport P groups T xs ext bnd E phi <->
  sweep_eq P groups T
    (fun i m g => rsum groups (fun h => xs (medium P i) g h * phi i h)
                  + at3 ext i (bidx (d3b ext) m) (bidx (d3c ext) g)) bnd E
    (fun i m g => (E g m i + E g m (S i)) / 2) /\
  agree2 (cells P) groups phi (scalar_flux P (fun i m g => (E g m i + E g m (S i)) / 2)).
Proof.
  split.
  - intros H. split.
    + intros g m Hg Hm. destruct (H g Hg) as (B & I & S). split; [apply B; exact Hm|]. split; [apply I; exact Hm|reflexivity].
    + intros i g Hi Hg. destruct (H g Hg) as (_ & _ & S). apply S. exact Hi.
  - intros [H A] g Hg. split; [|split].
    + intros m Hm. apply (H g m Hg Hm).
    + intros m Hm. apply (H g m Hg Hm).
    + intros i Hi. apply A; assumption.
Qed.

Lemma sweep_psi_ext P groups T q bnd E psi psi' :
  agree3 (cells P) (angles P) groups psi psi' ->
  sweep_eq P groups T q bnd E psi -> sweep_eq P groups T q bnd E psi'.
Proof.
  intros Hp H g m Hg Hm. destruct (H g m Hg Hm) as (A & B & C). split; [exact A|]. split; [exact B|].
  intros i Hi. rewrite <- Hp by assumption. apply C. exact Hi.
Qed.

Lemma scalar_flux_ext P groups psi psi' :
  agree3 (cells P) (angles P) groups psi psi' -> agree2 (cells P) groups (scalar_flux P psi) (scalar_flux P psi').
Proof. intros H i g Hi Hg. apply rsum_ext. intros m Hm. rewrite H by assumption. reflexivity. Qed.

(** The exact implicit step is the multigroup solution of the problem with the effective total cross
    section and the effective source. *)
Lemma exact_step_solution P groups velocity dt xs_total xs ext bnd weight b (derivative : mat3 -> mat3) q phi :
  (forall new i m g, (i < cells P)%nat -> (m < angles P)%nat -> (g < groups)%nat ->
     derivative new i m g / velocity g = weight / (velocity g * dt) * new i m g - b i m g) ->
  d3b q = angles P -> d3c q = groups ->
  (forall i m g, (i < cells P)%nat -> (m < angles P)%nat -> (g < groups)%nat ->
     at3 q i m g = at3 ext i (bidx (d3b ext) m) (bidx (d3c ext) g) + b i m g) ->
  exact_step P groups velocity xs_total xs ext bnd derivative phi <->
  mg_solution P groups (effective_total weight xs_total velocity dt) xs q bnd phi.
Proof.
  intros Hder Hb Hc Hq. split.
  - intros (E & psi & Hs & Ha). exists E. apply transport_sweep.
    apply (sweep_step P groups velocity dt xs_total xs ext bnd weight b (derivative psi)) in Hs; [|intros; apply Hder; assumption].
    assert (Hc3 : agree3 (cells P) (angles P) groups psi (fun i m g => (E g m i + E g m (S i)) / 2)).
    { intros i m g Hi Hm Hg. destruct (Hs g m Hg Hm) as (_ & _ & C). apply C. exact Hi. }
    split.
    + eapply sweep_psi_ext; [exact Hc3|]. eapply sweep_eq_ext; [|exact Hs].
      intros i m g Hi Hm Hg. cbv beta. rewrite Hb, Hc, (bidx_full (angles P) m Hm), (bidx_full groups g Hg). rewrite Hq by assumption. ring.
    + intros i g Hi Hg. rewrite Ha by assumption. apply (scalar_flux_ext P groups psi _ Hc3 i g Hi Hg).
  - intros (E & HT). apply transport_sweep in HT. destruct HT as [HS Ha].
    exists E, (fun i m g => (E g m i + E g m (S i)) / 2). split; [|exact Ha].
    apply (sweep_step P groups velocity dt xs_total xs ext bnd weight b); [intros; apply Hder; assumption|].
    eapply sweep_eq_ext; [|exact HS].
    intros i m g Hi Hm Hg. cbv beta. rewrite Hb, Hc, (bidx_full (angles P) m Hm), (bidx_full groups g Hg). rewrite Hq by assumption. ring.
Qed.

(** ** Sources of the runs *)
Definition run_source (two : bool) (velocity : vec) (dt : R) (psi : nat -> mat3) (k : nat) : mat3 :=
  if two then match k with
              | O => fun i n g => 1 / (velocity g * dt) * psi 0%nat i n g
              | S j => fun i n g => 2 / (velocity g * dt) * psi k i n g - 1 / (2 * velocity g * dt) * psi j i n g
              end
  else fun i n g => 1 / (velocity g * dt) * psi k i n g.

Lemma run_derivative_eq two velocity dt psi k new i m g :
  velocity g <> 0 -> dt <> 0 ->
  run_derivative two dt psi k new i m g / velocity g
  = run_weight two k / (velocity g * dt) * new i m g - run_source two velocity dt psi k i m g.
Proof.
  intros Hv Hdt. unfold run_derivative, run_weight, run_source, euler_derivative, bdf2_derivative.
  destruct two; [destruct k|]; field; auto.
Qed.

Lemma star_effective (two : bool) k xs_total velocity dt :
  star_total (if two then (if Nat.eqb k 0 then 1 else 1.5) else 1) xs_total velocity dt
  = effective_total (run_weight two k) xs_total velocity dt.
Proof.
  unfold star_total, effective_total, run_weight. extensionality m. extensionality g.
  destruct two; [destruct k|]; cbn [Nat.eqb]; [reflexivity| |reflexivity].
  replace 1.5 with (3 / 2) by lra. reflexivity.
Qed.

Lemma row4_ok a k r : row4 a k = Ok r -> r = step_row a k.
Proof. unfold row4, step_row. destruct (Nat.ltb _ _); intros H; [injection H as <-; reflexivity|discriminate]. Qed.

Lemma add_external_ok n G ext b q : add_external n G ext b = Ok q ->
  q = mkArr3 n G (fun i m g => at3 ext i (bidx (d3b ext) m) (bidx (d3c ext) g) + b i m g).
Proof. unfold add_external. destruct (andb _ _); intros H; [injection H as <-; reflexivity|discriminate]. Qed.

Lemma history_row n (x : nat -> tstate) :
  (forall k, (k < n)%nat -> exists f, t_flux (x (S k)) = set_row (t_flux (x k)) k f) ->
  forall j, (j < n)%nat -> t_flux (x n) j = t_flux (x (S j)) j.
Proof.
  induction n as [|n IH]; intros H j Hj; [lia|].
  destruct (Nat.eq_dec j n) as [-> |Hne]; [reflexivity|].
  destruct (H n ltac:(lia)) as [f ->]. unfold set_row. destruct (Nat.eqb_spec j n); [lia|].
  apply IH; [|lia]. intros k Hk. apply H. lia.
Qed.

(** ** The timed drivers *)
Definition timed_body (two : bool) := if two then timed_bdf2_body else timed_bdf1_body.

Lemma timed_run_eq two P materials groups flux_last xs_total xs_scatter xs_fission velocity external
    boundary steps dt geometry :
  timed_run two P materials groups flux_last xs_total xs_scatter xs_fission velocity external boundary
    steps dt geometry =
  bind (for_up_err steps
          (timed_body two P groups xs_total (transfer_matrix materials groups xs_scatter xs_fission)
             velocity external boundary dt geometry)
          (mkT (angle_sum P flux_last) flux_last (fun _ _ _ => 0) (fun _ => zeros2)))
    (fun st => Ok (t_flux st)).
Proof. destruct two; reflexivity. Qed.

Lemma timed_run_be : timed_run false = timed_backward_euler. Proof. reflexivity. Qed.
Lemma timed_run_bdf2 : timed_run true = timed_bdf2. Proof. reflexivity. Qed.

Definition body_source (two : bool) (velocity : vec) (dt : R) (k : nat) (st : tstate) : mat3 :=
  if two then bdf2_source velocity dt k (t_psi1 st) (t_psi2 st)
  else fun i n g => 1 / (velocity g * dt) * t_psi1 st i n g.

Lemma timed_body_ok two P groups xs_total xs velocity external boundary dt k st st' :
  timed_body two P groups xs_total (Scatter3 xs) velocity external boundary dt 1 k st = Ok st' ->
  row4 external k = Ok (step_row external k) /\ row4 boundary k = Ok (step_row boundary k) /\
  exists q, add_external (angles P) groups (step_row external k) (body_source two velocity dt k st) = Ok q /\
  source_iteration_iso P groups (t_old st) (effective_total (run_weight two k) xs_total velocity dt) xs q
    (step_row boundary k) 1 = Ok (t_old st') /\
  known_source_angular P groups (effective_total (run_weight two k) xs_total velocity dt)
    (mkArr3 (angles P) groups (time_right_side (cells P) (angles P) groups (at3 q) (t_old st') xs (medium P)))
    (step_row boundary k) 1 0 = Ok (t_psi1 st') /\
  t_flux st' = set_row (t_flux st) k (t_old st') /\
  t_psi2 st' = (if two then t_psi1 st else t_psi2 st).
Proof.
  assert (HS := star_effective two k xs_total velocity dt).
  destruct two; cbn [timed_body]; unfold timed_bdf2_body, timed_bdf1_body, timed_solve, source_iteration;
    rewrite HS; cbn [body_source];
    (destruct (row4 external k) as [ext|] eqn:E1; cbn [bind]; [|discriminate]);
    (destruct (add_external _ _ _ _) as [q|] eqn:E2; cbn [bind]; [|discriminate]);
    (destruct (row4 boundary k) as [bd|] eqn:E3; cbn [bind]; [|discriminate]);
    apply row4_ok in E1 as ->; apply row4_ok in E3 as ->;
    (destruct (source_iteration_iso _ _ _ _ _ _ _ _) as [flux|] eqn:E4; cbn [bind]; [|discriminate]);
    (destruct (known_source_angular _ _ _ _ _ _ _) as [psi|] eqn:E5; cbn [bind]; [|discriminate]);
    cbn [fst snd]; intros H; injection H as <-;
    (split; [reflexivity|]); (split; [reflexivity|]); exists q; cbn [t_old t_psi1 t_psi2 t_flux];
    repeat split; assumption.
Qed.

(** one step: the equation satisfied by the new angular flux *)
Lemma timed_body_step two P groups xs_total xs velocity external boundary dt k st st' psi :
  angles P <> 1%nat -> nonzero_ordinates (angles P) (mu P) ->
  mg_divisors P groups (effective_total (run_weight two k) xs_total velocity dt) ->
  (forall g, (g < groups)%nat -> velocity g <> 0) -> dt <> 0 ->
  body_source two velocity dt k st = run_source two velocity dt psi k ->
  timed_body two P groups xs_total (Scatter3 xs) velocity external boundary dt 1 k st = Ok st' ->
  exists E, step_equation P groups velocity xs_total xs (step_row external k) (step_row boundary k)
    (run_derivative two dt psi k (t_psi1 st')) (t_old st') E (t_psi1 st').
Proof.
  intros Ha Hnz Hd Hv Hdt Hsrc Eb.
  destruct (timed_body_ok _ _ _ _ _ _ _ _ _ _ _ _ Eb) as (_ & _ & q & Eq & _ & Ek & _).
  destruct (known_sweep _ _ _ _ _ _ Ha Hnz Hd Ek) as [E HE]. exists E.
  eapply (sweep_step P groups velocity dt xs_total xs (step_row external k) (step_row boundary k)
            (run_weight two k) (run_source two velocity dt psi k)).
  - intros i m g Hi Hm Hg. apply run_derivative_eq; auto.
  - eapply sweep_eq_ext; [|exact HE]. intros i m g Hi Hm Hg.
    rewrite time_right_side_eq by assumption. apply add_external_ok in Eq as ->. rewrite Hsrc. reflexivity.
Qed.

(** the history behind a run *)
Lemma timed_trace two P groups xs_total xs velocity external boundary dt steps s r :
  for_up_err steps (timed_body two P groups xs_total (Scatter3 xs) velocity external boundary dt 1) s = Ok r ->
  exists x, x 0%nat = s /\ x steps = r /\
    (forall k, (k < steps)%nat ->
       timed_body two P groups xs_total (Scatter3 xs) velocity external boundary dt 1 k (x k) = Ok (x (S k))) /\
    (forall k, (k < steps)%nat -> t_flux r k = t_old (x (S k))) /\
    (forall k, (k < steps)%nat -> body_source two velocity dt k (x k)
                                  = run_source two velocity dt (fun j => t_psi1 (x j)) k).
Proof.
  intros E. destruct (for_up_err_trace _ _ _ _ E) as (x & H0 & Hn & Hs).
  exists x. split; [exact H0|]. split; [exact Hn|]. split; [exact Hs|]. split.
  - intros k Hk. rewrite <- Hn, (history_row steps x); [|intros j Hj|exact Hk].
    + destruct (timed_body_ok _ _ _ _ _ _ _ _ _ _ _ _ (Hs k Hk)) as (_ & _ & q & _ & _ & _ & Hf & _).
      rewrite Hf. unfold set_row. rewrite Nat.eqb_refl. reflexivity.
    + destruct (timed_body_ok _ _ _ _ _ _ _ _ _ _ _ _ (Hs j Hj)) as (_ & _ & q & _ & _ & _ & Hf & _). eauto.
  - intros k Hk. unfold body_source, run_source. destruct two; [|reflexivity].
    unfold bdf2_source. destruct k as [|k]; [reflexivity|]. cbn [Nat.eqb].
    destruct (timed_body_ok _ _ _ _ _ _ _ _ _ _ _ _ (Hs k ltac:(lia))) as (_ & _ & q & _ & _ & _ & _ & H2).
    rewrite H2. reflexivity.
Qed.
