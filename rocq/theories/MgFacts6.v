(** Termination reasons of the outer loops, and the cases left over by MgFacts1-5. *)
From Coq Require Import Lra Lia FunctionalExtensionality.
From Verif Require Import Base BaseFacts SlabModel SlabSpec SlabFacts MgModel MgSpec MgFacts MgFacts2 MgFacts4 MgFacts5.
Open Scope R_scope.


Lemma iterate_total {St} (sweep : St -> outcome St) change tol cap :
  (forall x, exists y, sweep x = Ok y) ->
  forall fuel count old, (cap - count < fuel)%nat -> exists r, iterate fuel sweep change tol cap count old = Ok r.
Proof.
  intros Hs. induction fuel as [|f IH]; intros count old Hf; [lia|].
  cbn [iterate]. destruct (Hs old) as [y Hy]. rewrite Hy. cbn [bind].
  destruct (Nat.leb cap count) eqn:E.
  - rewrite orb_true_r. eauto.
  - rewrite orb_false_r. destruct (below _ _); [eauto|]. apply IH. apply Nat.leb_gt in E. lia.
Qed.

(** an exception of one sweep is the only way an outer loop fails *)
Lemma iterate_raises {St} (sweep : St -> outcome St) change tol cap :
  forall fuel count old e, (cap - count < fuel)%nat ->
  iterate fuel sweep change tol cap count old = Raise e -> exists x, sweep x = Raise e.
Proof.
  induction fuel as [|f IH]; intros count old e Hf; [lia|].
  cbn [iterate]. destruct (sweep old) as [y|e'] eqn:Hy; cbn [bind].
  - destruct (Nat.leb cap count) eqn:E.
    + rewrite orb_true_r. discriminate.
    + rewrite orb_false_r. destruct (below _ _); [discriminate|]. apply IH. apply Nat.leb_gt in E. lia.
  - intros H. injection H as ->. eauto.
Qed.

Lemma outer_exit_iso P groups old xs_total xs_scatter external boundary geometry flux :
  source_iteration_iso P groups old xs_total xs_scatter external boundary geometry = Ok flux ->
  documented_exit (one_sweep_iso P groups xs_total xs_scatter external boundary geometry)
    (cells P) groups 100 (/ 10 ^ 8) old flux.
Proof. apply outer_documented. unfold count_gg, count_pp; lia. Qed.

Lemma outer_exit_aniso P groups nm old xs_total xs_scatter external boundary geometry leg legw flux :
  source_iteration_aniso P groups nm old xs_total xs_scatter external boundary geometry leg legw = Ok flux ->
  documented_exit (one_sweep_aniso P groups nm xs_total xs_scatter external boundary geometry leg legw)
    (cells P) groups 100 (/ 10 ^ 8) old flux.
Proof. apply outer_documented. unfold count_gg, count_pp; lia. Qed.

Lemma outer_exit_ml P groups old xs_total xs_scatter external boundary geometry models label flux :
  ml_source_iteration P groups old xs_total xs_scatter external boundary geometry models label = Ok flux ->
  documented_exit (ml_sweep P groups xs_total xs_scatter external boundary geometry models label)
    (cells P) groups 50 (/ 10 ^ 8) old flux.
Proof. apply outer_documented. unfold count_gg, count_pp; lia. Qed.

Lemma outer_total P groups old xs_total xs_scatter external boundary :
  nonzero_ordinates (angles P) (mu P) ->
  exists flux, source_iteration_iso P groups old xs_total xs_scatter external boundary 1 = Ok flux.
Proof.
  intros Hn. apply iterate_total; [|unfold count_gg; lia].
  intros x. apply one_sweep_total. exact Hn.
Qed.

(** no outer loop runs for ever: a failure is an exception of a sweep *)
Lemma outer_failure P groups old xs_total xs_scatter external boundary geometry models label e :
  (source_iteration_iso P groups old xs_total xs_scatter external boundary geometry = Raise e ->
   exists x, one_sweep_iso P groups xs_total xs_scatter external boundary geometry x = Raise e) /\
  (ml_source_iteration P groups old xs_total xs_scatter external boundary geometry models label = Raise e ->
   exists x, ml_sweep P groups xs_total xs_scatter external boundary geometry models label x = Raise e).
Proof.
  split; intros H; eapply iterate_raises; try exact H; unfold count_gg, count_pp; lia.
Qed.

(** all entries of [_time_right_side_aniso] *)
Lemma time_right_side_aniso_eq cells angles groups nm q_star flux xs medium leg i n g :
  (1 <= nm)%nat -> (i < cells)%nat -> (n < angles)%nat -> (g < groups)%nat -> leg 0%nat n = 1 ->
  time_right_side_aniso cells angles groups nm q_star flux xs medium leg i n g
  = q_star i n g + rsum groups (fun h => xs (medium i) g h 0%nat * flux i h).
Proof.
  intros Hm Hi Hn Hg Hl. unfold time_right_side_aniso.
  set (S := fun i n g => rsum groups (fun h => xs (medium i) g h 0%nat * flux i h) * leg 0%nat n).
  assert (E : forall ii og nn,
    for_up nm (fun ll s => if Nat.eqb ll 0 then
        s + (2 * INR ll + 1) * for_up groups (fun ig t => t + flux ii ig * xs (medium ii) og ig ll) 0 * leg ll nn
      else s) 0 = S ii nn og).
  { intros ii og nn.
    assert (A : forall k, for_up k (fun ll s => if Nat.eqb ll 0 then
        s + (2 * INR ll + 1) * for_up groups (fun ig t => t + flux ii ig * xs (medium ii) og ig ll) 0 * leg ll nn
      else s) 0 = if Nat.eqb k 0 then 0 else S ii nn og).
    { induction k as [|k IH]; cbn [for_up]; [reflexivity|]. rewrite IH.
      destruct k as [|k]; cbn [Nat.eqb].
      - rewrite acc_scalar. unfold S. cbn [INR].
        rewrite (rsum_ext groups (fun ig => flux ii ig * xs (medium ii) og ig 0%nat)
                   (fun h => xs (medium ii) og h 0%nat * flux ii h)) by (intros; ring). ring.
      - reflexivity. }
    rewrite A. destruct nm; [lia|reflexivity]. }
  rewrite (own_loop cells _ (fun x _ _ => x)
    (fun x y z v => if andb (Nat.ltb z groups) (Nat.ltb y angles) then v + S x y z else v)).
  - replace (Nat.ltb i cells) with true by (symmetry; apply Nat.ltb_lt; lia).
    replace (Nat.ltb g groups) with true by (symmetry; apply Nat.ltb_lt; lia).
    replace (Nat.ltb n angles) with true by (symmetry; apply Nat.ltb_lt; lia). cbn [andb].
    unfold S. rewrite Hl. ring.
  - intros k t x y z Hk. cbv beta zeta.
    rewrite (own_loop groups _ (fun _ _ z => z)
      (fun x y z v => if andb (Nat.eqb x k) (Nat.ltb y angles) then v + S k y z else v)).
    + destruct (Nat.eqb_spec x k) as [-> |]; cbn [andb]; destruct (Nat.ltb z groups); destruct (Nat.ltb y angles); reflexivity.
    + intros k' t' x' y' z' Hk'. cbv beta zeta.
      rewrite (own_loop angles _ (fun _ y _ => y)
        (fun x y z v => if andb (Nat.eqb x k) (Nat.eqb z k') then v + S k y z else v)).
      * destruct (Nat.eqb_spec z' k') as [-> |]; destruct (Nat.eqb_spec x' k) as [-> |]; cbn [andb]; destruct (Nat.ltb y' angles); reflexivity.
      * intros k2 t2 x2 y2 z2 Hk2. cbv beta zeta. rewrite E. unfold upd3.
        destruct (Nat.eqb_spec x2 k) as [-> |]; destruct (Nat.eqb_spec y2 k2) as [-> |];
          destruct (Nat.eqb_spec z2 k') as [-> |]; cbn [andb]; reflexivity.
Qed.

(** C21 entry by entry *)
Lemma off_scatter_entry cells groups new old medium xs gg i : (gg < groups)%nat -> (i < cells)%nat ->
  off_scatter cells groups new old medium xs gg i
  = rsum groups (fun h => if Nat.eqb h gg then 0
                          else xs (medium i) gg h * (if Nat.ltb h gg then new i h else old i h)).
Proof.
  intros Hg Hi. rewrite off_scatter_eq by exact Hg. unfold gs_off.
  replace (Nat.ltb i cells) with true by (symmetry; apply Nat.ltb_lt; lia). reflexivity.
Qed.

Lemma off_scatter_full cells groups phi medium xs gg i : (gg < groups)%nat -> (i < cells)%nat ->
  xs (medium i) gg gg * phi i gg + off_scatter cells groups phi phi medium xs gg i
  = rsum groups (fun h => xs (medium i) gg h * phi i h).
Proof. intros Hg Hi. rewrite off_scatter_eq by exact Hg. apply gs_off_full; assumption. Qed.

(** C10: a fixed point without zero entries is returned after one outer iteration *)
Lemma outer_fixed P groups phi xs_total xs_scatter external boundary geometry :
  one_sweep_iso P groups xs_total xs_scatter external boundary geometry phi = Ok phi ->
  (forall i g, (i < cells P)%nat -> (g < groups)%nat -> phi i g <> 0) ->
  source_iteration_iso P groups phi xs_total xs_scatter external boundary geometry = Ok phi.
Proof.
  intros E Hz. unfold source_iteration_iso. unfold count_gg at 1.
  apply (iterate_fixed _ _ _ _ 99); [exact E| |apply change_gg_pos].
  apply rel_change2_same. exact Hz.
Qed.

(** C77 for the ML solver when every material falls back to physics *)
Lemma ml_outer_error P groups xs_total xs_scatter external boundary models label c old flux sol :
  matching_columns P external boundary -> nonzero_ordinates (angles P) (mu P) ->
  mg_thin P groups xs_total ->
  (forall m, (m < angles P)%nat -> 0 <= wt P m) -> 0 <= c ->
  mg_ratio P groups xs_total xs_scatter c ->
  (forall i, (i < cells P)%nat -> (medium P i < length models)%nat /\ nth (medium P i) models Placeholder = Placeholder) ->
  (forall i o h, (i < cells P)%nat -> (o < groups)%nat -> (h < groups)%nat -> 0 <= xs_scatter (medium P i) o h) ->
  mg_solution P groups xs_total xs_scatter external boundary sol ->
  ml_source_iteration P groups old xs_total xs_scatter external boundary 1 models label = Ok flux ->
  exists n, (1 <= n <= 50)%nat /\
    forall d, 0 <= d -> within2 (cells P) groups d old sol ->
      within2 (cells P) groups ((rsum (angles P) (wt P) * c) ^ n * d) flux sol.
Proof.
  intros Hm Hnz Hthin Hw Hc Hrat Hmod Hpos Hsol E.
  destruct (outer_exit_ml _ _ _ _ _ _ _ _ _ _ _ E) as (n & x & Hn & H0 & -> & Hstep & _).
  exists n. split; [exact Hn|]. intros d Hd Hdist.
  assert (HW : 0 <= rsum (angles P) (wt P)) by (apply rsum_nonneg; exact Hw).
  assert (Hr : 0 <= rsum (angles P) (wt P) * c) by (apply Rmult_le_pos; assumption).
  assert (G : forall k, (k <= n)%nat -> within2 (cells P) groups ((rsum (angles P) (wt P) * c) ^ k * d) (x k) sol).
  { induction k as [|k IH]; intros Hk.
    - rewrite H0. simpl. rewrite Rmult_1_l. exact Hdist.
    - cbn [pow]. rewrite Rmult_assoc.
      eapply (ml_sweep_contracts P groups xs_total xs_scatter external boundary models label c (x k)); try eassumption.
      + apply Hstep; lia.
      + apply Rmult_le_pos; [apply pow_le; exact Hr|exact Hd].
      + apply IH; lia. }
  apply G. lia.
Qed.
