(** Exact histories, and the error of a run against them. *)
From Coq Require Import Lra Lia Psatz.
From Verif Require Import Base BaseFacts SlabModel SlabSpec MgModel MgSpec TimeModel TimeSpec TimeFacts TimeFacts2 EnSpec EnFacts EnFacts2 EnFacts3 EnFacts4 EnFacts5.
Open Scope R_scope.

Lemma run_derivative_hist two dt psi psi' k new : (forall j, (j <= k)%nat -> psi j = psi' j) -> run_derivative two dt psi k new = run_derivative two dt psi' k new.
Proof.
  intros H. unfold run_derivative. destruct two; [destruct k as [|k]|]; rewrite ?(H 0%nat) by lia; try reflexivity.
  - rewrite (H (S k)), (H k) by lia. reflexivity.
  - rewrite (H k) by lia. reflexivity.
Qed.
Lemma step_emit P G velocity xs_total transfer ext bnd D emit emit' E psi : agree2 (cells P) G emit emit' ->
  step_equation P G velocity xs_total transfer ext bnd D emit E psi -> step_equation P G velocity xs_total transfer ext bnd D emit' E psi.
Proof.
  intros A H g m Hg Hm. destruct (H g m Hg Hm) as (H1 & H2). split; [|exact H2]. intros i Hi. destruct (H1 i Hi) as (H3 & H4). split; [exact H3|].
  rewrite H4. f_equal. apply rsum_ext. intros h Hh. rewrite A by assumption. reflexivity.
Qed.
Section Exact.
Variables (two : bool) (P : sn) (G : nat) (velocity : vec) (dt : R) (xs_total : mat2) (transfer : mat3).
Hypothesis HP : sound_slab P.
Hypothesis HM : no_multiplication P G xs_total transfer.
Hypothesis HV : forall g, (g < G)%nat -> 0 < velocity g.
Hypothesis Hdt : 0 < dt.
Variables (ext bnd : nat -> arr3) (flux : mat3).

Lemma exact_history_exists steps : exists psi, psi 0%nat = flux /\ exact_history two P G velocity dt xs_total transfer ext bnd steps psi.
Proof.
  induction steps as [|n (psi & H0 & H)]; [exists (fun _ => flux); split; [reflexivity|intros k Hk; lia]|].
  destruct (exact_step_exactly_one two P G velocity dt xs_total transfer (ext n) (bnd n) psi n HP HM HV Hdt) as (sol & (E & p & HE & A) & _).
  exists (fun j => if Nat.eqb j (S n) then p else psi j). split; [exact H0|]. intros k Hk.
  destruct (Nat.eq_dec k n) as [-> |Hne].
  - rewrite Nat.eqb_refl. exists E. eapply step_emit; [exact A|].
    rewrite (run_derivative_hist two dt _ psi); [exact HE|]. intros j Hj. destruct (Nat.eqb_spec j (S n)); [lia|reflexivity].
  - destruct (H k ltac:(lia)) as (E' & H'). exists E'. destruct (Nat.eqb_spec (S k) (S n)); [lia|].
    rewrite (run_derivative_hist two dt _ psi); [exact H'|]. intros j Hj. destruct (Nat.eqb_spec j (S n)); [lia|reflexivity].
Qed.

Lemma exact_history_unique steps psi psi' : psi 0%nat = flux -> psi' 0%nat = flux ->
  exact_history two P G velocity dt xs_total transfer ext bnd steps psi -> exact_history two P G velocity dt xs_total transfer ext bnd steps psi' ->
  forall k, (k <= steps)%nat -> agree2 (cells P) G (scalar_flux P (psi k)) (scalar_flux P (psi' k)).
Proof.
  intros Z Z' H H' k Hk.
  destruct (exact_decay two P G velocity dt xs_total transfer ext bnd steps psi psi' _ _ HP HM HV Hdt H H') as (D & _).
  - intros j Hj i g Hi Hg. reflexivity.
  - intros j Hj i g Hi Hg. reflexivity.
  - specialize (D k Hk). rewrite Z, Z' in D.
    replace (density_norm P G velocity (minus3 flux flux)) with 0 in D.
    2:{ unfold density_norm. rewrite (total3_ext _ _ _ (fun _ _ _ => 0)); [|intros; unfold minus3, Rsqr, Rdiv; ring].
        replace (total3 P G (fun _ _ _ => 0)) with 0; [symmetry; apply sqrt_0|]. symmetry. apply rsum_zero_ext; intros. apply rsum_zero_ext; intros. apply rsum_zero_ext; reflexivity. }
    rewrite Rmult_0_r in D.
    intros i g Hi Hg. enough (Q : scalar_flux P (minus3 (psi k) (psi' k)) i g = 0) by (rewrite scalar_minus in Q; lra).
    apply (norm_small P G velocity (minus3 (psi k) (psi' k)) HP HV); [|exact Hi|exact Hg].
    rewrite <- (norm_sq P G velocity HP HV). pose proof (norm_nonneg P G velocity (minus3 (psi k) (psi' k))) as N0.
    replace (density_norm P G velocity (minus3 (psi k) (psi' k))) with 0 by lra. unfold Rsqr. lra.
Qed.
End Exact.

Lemma residual_input P G velocity transfer ext emit psi psi' :
  source_norm P G velocity (minus3 (step_input P G transfer ext emit psi) (step_input P G transfer ext (scalar_flux P psi') psi'))
  = source_norm P G velocity (fun i _ g => rsum G (fun h => transfer (medium P i) g h * (emit i h - scalar_flux P psi i h))).
Proof.
  apply source_ext. intros i m g Hi Hm Hg. unfold minus3. rewrite (input_exact P G transfer ext (scalar_flux P psi') psi') by reflexivity. unfold step_input. ring.
Qed.
Lemma run_error two P materials groups flux xs_total s f velocity external boundary steps dt ft :
  sound_slab P -> no_multiplication P groups xs_total (total_transfer s f) -> angles P <> 1%nat ->
  (forall i, (i < cells P)%nat -> (medium P i < materials)%nat) ->
  (forall g, (g < groups)%nat -> 0 < velocity g) -> 0 < dt ->
  timed_run two P materials groups flux xs_total (Scatter3 s) f velocity external boundary steps dt 1 = Ok ft ->
  exists psi : nat -> mat3, psi 0%nat = flux /\
    time_history two P groups velocity dt xs_total (total_transfer s f) (step_row external) (step_row boundary) steps psi ft /\
    forall exact : nat -> mat3, exact 0%nat = flux ->
      exact_history two P groups velocity dt xs_total (total_transfer s f) (step_row external) (step_row boundary) steps exact ->
      forall k, (k <= steps)%nat ->
      density_norm P groups velocity (minus3 (psi k) (exact k)) <=
        (if two then 6 else 1) * dt * rsum k (fun j => source_norm P groups velocity
          (fun i _ g => rsum groups (fun h => total_transfer s f (medium P i) g h * (ft j i h - scalar_flux P (psi (S j)) i h)))).
Proof.
  intros HP HM Ha Hmed HV Hdt E.
  assert (Hv : forall g, (g < groups)%nat -> velocity g <> 0) by (intros g Hg; specialize (HV g Hg); lra).
  assert (Hd : dt <> 0) by lra. assert (Hnz : nonzero_ordinates (angles P) (mu P)) by apply HP.
  destruct (timed_history two P materials groups flux xs_total s f velocity external boundary steps dt Ha Hnz Hmed Hv Hd ft) as (psi & H0 & H); [|exact E|].
  { intros k Hk. eapply run_divisors; eassumption. }
  exists psi. split; [exact H0|]. split; [exact H|]. intros exact Z HX k Hk.
  pose proof (stability two P groups velocity dt xs_total (total_transfer s f) _ _ _ steps psi exact ft _ HP HM HV Hdt H HX k Hk) as S. cbv beta in S.
  rewrite H0, Z in S. replace (density_norm P groups velocity (minus3 flux flux)) with 0 in S.
  2:{ unfold density_norm. rewrite (total3_ext _ _ _ (fun _ _ _ => 0)); [|intros; unfold minus3, Rsqr, Rdiv; ring].
      replace (total3 P groups (fun _ _ _ => 0)) with 0; [symmetry; apply sqrt_0|]. symmetry. apply rsum_zero_ext; intros. apply rsum_zero_ext; intros. apply rsum_zero_ext; reflexivity. }
  rewrite Rmult_0_r, Rplus_0_l in S. eapply Rle_trans; [exact S|]. right. f_equal. apply rsum_ext. intros j Hj. apply residual_input.
Qed.

Lemma exact_histories_decay two P G velocity dt xs_total transfer ext bnd steps psi psi' :
  sound_slab P -> no_multiplication P G xs_total transfer -> (forall g, (g < G)%nat -> 0 < velocity g) -> 0 < dt ->
  exact_history two P G velocity dt xs_total transfer ext bnd steps psi ->
  exact_history two P G velocity dt xs_total transfer ext bnd steps psi' ->
  (forall k, (k <= steps)%nat ->
     density_norm P G velocity (minus3 (psi k) (psi' k)) <= (if two then sqrt 2 else 1) * density_norm P G velocity (minus3 (psi 0%nat) (psi' 0%nat))) /\
  (two = false -> forall k, (k < steps)%nat ->
     density_norm P G velocity (minus3 (psi (S k)) (psi' (S k))) <= density_norm P G velocity (minus3 (psi k) (psi' k))).
Proof.
  intros HP HM HV Hdt H H'. eapply exact_decay; try eassumption; intros k Hk i g Hi Hg; reflexivity.
Qed.
