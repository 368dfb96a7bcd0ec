(** Multigroup convergence, positivity, conservation, traces. *)
From Coq Require Import Lra Lia FunctionalExtensionality.
From Verif Require Import Base BaseFacts Contraction SlabModel SlabSpec SlabFacts SlabFacts2
  SlabFacts3 SlabFacts4 SlabFacts5 SphereModel MgModel MgSpec MgFacts.
Open Scope R_scope.

Lemma rsum_abs_le k (u v : vec) : (forall m, (m < k)%nat -> Rabs (u m) <= v m) -> Rabs (rsum k u) <= rsum k v.
Proof.
  induction k as [|k IH]; intros H; simpl; [rewrite Rabs_R0; lra|].
  eapply Rle_trans; [apply Rabs_triang|].
  apply Rplus_le_compat; [apply IH; intros; apply H; lia|apply H; lia].
Qed.

Lemma abs_bounds (u v : R) : Rabs u <= v -> - v <= u <= v.
Proof. intros H. assert (X := Rle_abs u). assert (Y := Rle_abs (- u)). rewrite Rabs_Ropp in Y. lra. Qed.

Lemma pass_flux_perturb P q1 q2 s b kappa :
  nonzero_ordinates (angles P) (mu P) -> 0 <= kappa ->
  (forall m, (m < angles P)%nat -> 0 <= wt P m) ->
  (forall m i, (m < angles P)%nat -> (i < cells P)%nat ->
     Rabs (q1 m i - q2 m i) <= 2 * s i * kappa /\ 0 <= s i /\ s i <= Rabs (mu P m) / dx P i /\ 0 < dx P i) ->
  forall i, (i < cells P)%nat ->
    Rabs (pass_flux P q1 s b 0 (angles P) i - pass_flux P q2 s b 0 (angles P) i)
    <= rsum (angles P) (wt P) * kappa.
Proof.
  intros Hnz Hk Hw Hq i Hi. rewrite !pass_flux_center by exact Hi. rewrite <- rsum_minus.
  assert (G : forall m k, (m < angles P)%nat -> (k <= cells P)%nat ->
     Rabs (Psi P q1 s b m k - Psi P q2 s b m k) <= kappa).
  { intros m k Hm Hkk.
    replace (Psi P q1 s b m k - Psi P q2 s b m k)
      with (1 * Psi P q1 s b m k + (-1) * Psi P q2 s b m k) by ring.
    rewrite <- Psi_linear. apply Psi_bounded; try assumption.
    - intros m' i' Hm' Hi'. destruct (Hq m' i' Hm' Hi') as (H1 & H2 & H3 & H4).
      repeat split; try assumption.
      match goal with |- Rabs ?x <= _ => replace x with (q1 m' i' - q2 m' i') by ring end. exact H1.
    - intros; ring. }
  rewrite <- rsum_scal_r. apply rsum_abs_le. intros m Hm.
  match goal with |- Rabs ?x <= _ => replace x with
    (wt P m * (((Psi P q1 s b m i - Psi P q2 s b m i) + (Psi P q1 s b m (S i) - Psi P q2 s b m (S i))) / 2)) by lra end.
  rewrite Rabs_mult, (Rabs_right (wt P m)) by (apply Rle_ge, Hw; exact Hm).
  apply Rmult_le_compat_l; [apply Hw; exact Hm|].
  assert (A := abs_bounds _ _ (G m i Hm ltac:(lia))). assert (B := abs_bounds _ _ (G m (S i) Hm ltac:(lia))).
  apply Rabs_le. lra.
Qed.

Lemma thin_half P xs_total m i : thin_mesh P xs_total -> (m < angles P)%nat -> (i < cells P)%nat ->
  0 <= half_sig P xs_total i /\ half_sig P xs_total i <= Rabs (mu P m) / dx P i /\ 0 < dx P i.
Proof.
  intros Hmesh Hm Hi. destruct (Hmesh m i Hm Hi) as (H1 & H2 & H3). unfold half_sig. repeat split; [lra| |exact H1].
  apply (Rmult_le_reg_r (dx P i)); [exact H1|].
  replace (Rabs (mu P m) / dx P i * dx P i) with (Rabs (mu P m)) by (field; lra). lra.
Qed.

Lemma thin_divisors P xs_total : nonzero_ordinates (angles P) (mu P) -> thin_mesh P xs_total -> good_divisors P xs_total.
Proof.
  intros Hnz Ht m Hm i Hi. destruct (Ht m i Hm Hi) as (H1 & H2 & H3). split; [lra|].
  assert (0 < Rabs (mu P m)) by (apply Rabs_pos_lt, Hnz, Hm).
  assert (0 < Rabs (mu P m) / dx P i) by (apply Rdiv_lt_0_compat; assumption). lra.
Qed.

(** One pass with perturbed off-group source and flux. *)
Lemma pass_perturb P xs_total xs_scatter off1 off2 external boundary f g f' g' kappa :
  thin_mesh P xs_total ->
  (forall m, (m < angles P)%nat -> 0 <= wt P m) -> 0 <= kappa ->
  (forall i, (i < cells P)%nat ->
     Rabs (xs_scatter (medium P i) * (f i - g i) + (off1 i - off2 i)) <= kappa * xs_total (medium P i)) ->
  slab_iso_pass P xs_total xs_scatter off1 external boundary 0 f = Ok f' ->
  slab_iso_pass P xs_total xs_scatter off2 external boundary 0 g = Ok g' ->
  within (cells P) (rsum (angles P) (wt P) * kappa) f' g'.
Proof.
  intros Hmesh Hw Hk Hq Ef Eg i Hi.
  assert (Hnz := pass_ok_nonzero _ _ _ _ _ _ _ _ _ Ef).
  rewrite slab_iso_pass_ok in Ef, Eg by exact Hnz. injection Ef as <-. injection Eg as <-.
  apply pass_flux_perturb; try assumption.
  intros m j Hm Hj. split; [|apply thin_half; assumption].
  unfold iso_q, iso_source, half_sig.
  match goal with |- Rabs ?x <= _ => replace x with (xs_scatter (medium P j) * (f j - g j) + (off1 j - off2 j)) by ring end.
  replace (2 * (0.5 * xs_total (medium P j)) * kappa) with (kappa * xs_total (medium P j)) by lra.
  apply Hq; exact Hj.
Qed.

(** Difference of two group sources. *)
Lemma gs_source_diff P groups xs_scatter x n1 o1 sol g e :
  (g < groups)%nat -> 0 <= e ->
  (forall i, (i < cells P)%nat -> Rabs (x i - sol i g) <= e) ->
  (forall i h, (i < cells P)%nat -> (h < g)%nat -> Rabs (n1 i h - sol i h) <= e) ->
  (forall i h, (i < cells P)%nat -> (g < h < groups)%nat -> Rabs (o1 i h - sol i h) <= e) ->
  forall i, (i < cells P)%nat ->
  Rabs (xs_scatter (medium P i) g g * (x i - sol i g)
        + (gs_off (cells P) groups n1 o1 (medium P) xs_scatter g i
           - gs_off (cells P) groups sol sol (medium P) xs_scatter g i))
  <= rsum groups (fun h => Rabs (xs_scatter (medium P i) g h)) * e.
Proof.
  intros Hg He Hx Hn Ho i Hi. unfold gs_off. rewrite (proj2 (Nat.ltb_lt i (cells P))) by lia.
  rewrite <- rsum_minus.
  assert (S := rsum_single groups (fun h => if Nat.eqb h g then xs_scatter (medium P i) g g * (x i - sol i g) else 0) g Hg).
  cbv beta in S. rewrite Nat.eqb_refl in S. rewrite <- S.
  2:{ intros h Hh Hne. destruct (Nat.eqb_spec h g); [lia|reflexivity]. }
  rewrite <- rsum_plus, <- rsum_scal_r. apply rsum_abs_le. intros h Hh.
  destruct (Nat.eqb_spec h g) as [-> |Hne].
  - match goal with |- Rabs ?z <= _ => replace z with (xs_scatter (medium P i) g g * (x i - sol i g)) by ring end.
    rewrite Rabs_mult. apply Rmult_le_compat_l; [apply Rabs_pos|apply Hx; exact Hi].
  - destruct (Nat.ltb_spec h g).
    + match goal with |- Rabs ?z <= _ => replace z with (xs_scatter (medium P i) g h * (n1 i h - sol i h)) by ring end.
      rewrite Rabs_mult. apply Rmult_le_compat_l; [apply Rabs_pos|apply Hn; assumption].
    + match goal with |- Rabs ?z <= _ => replace z with (xs_scatter (medium P i) g h * (o1 i h - sol i h)) by ring end.
      rewrite Rabs_mult. apply Rmult_le_compat_l; [apply Rabs_pos|apply Ho; [assumption|lia]].
Qed.

(** An outer iteration reduces the distance to a solution. *)
Lemma sweep_contracts P groups xs_total xs_scatter external boundary c old new sol d :
  mg_thin P groups xs_total ->
  (forall m, (m < angles P)%nat -> 0 <= wt P m) -> 0 <= c ->
  rsum (angles P) (wt P) * c < 1 ->
  mg_ratio P groups xs_total xs_scatter c ->
  mg_solution P groups xs_total xs_scatter external boundary sol ->
  one_sweep_iso P groups xs_total xs_scatter external boundary 1 old = Ok new ->
  0 <= d -> within2 (cells P) groups d old sol ->
  within2 (cells P) groups (rsum (angles P) (wt P) * c * d) new sol.
Proof.
  intros Hthin Hw Hc Hrho Hrat Hsol E Hd Hold.
  destruct (Nat.eq_dec groups 0) as [-> |Hg0]; [intros i h Hi Hh; lia|].
  destruct (one_sweep_groups _ _ _ _ _ _ _ _ E) as [Hg _].
  assert (Hnz : nonzero_ordinates (angles P) (mu P)).
  { specialize (Hg 0%nat ltac:(lia)). unfold slab_group in Hg.
    destruct (driver_last_pass _ _ _ _ _ _ _ _ _ Hg) as [prev Ep]. exact (pass_ok_nonzero _ _ _ _ _ _ _ _ _ Ep). }
  assert (HW : 0 <= rsum (angles P) (wt P)) by (apply rsum_nonneg; exact Hw).
  set (W := rsum (angles P) (wt P)) in *.
  assert (Hr : 0 <= W * c) by (apply Rmult_le_pos; assumption).
  destruct Hsol as [psi Hsol].
  assert (H : forall g, (g < groups)%nat -> forall i, (i < cells P)%nat -> Rabs (new i g - sol i g) <= W * c * d).
  { intros g. induction g as [g IH] using (well_founded_induction lt_wf). intros Hgg.
    specialize (Hg g Hgg). unfold slab_group in Hg.
    set (xt := fun m => xs_total m g) in *. set (xsg := fun m => xs_scatter m g g) in *.
    set (qg := slice3 external (bidx (d3c external) g)) in *. set (bg := slice3 boundary (bidx (d3c boundary) g)) in *.
    assert (T : slab_transport (cells P) (angles P) (mu P) (wt P) (dx P) (fun i => xt (medium P i))
        (iso_source (medium P) xsg (gs_off (cells P) groups sol sol (medium P) xs_scatter g) qg (fun i => sol i g))
        (fun m => reflected_in (cells P) (angles P) (mu P) (bc_left P) (bc_right P) (psi g) m + boundary_in bg (mu P) m)
        (psi g) (fun i => sol i g)).
    { eapply transport_ext; [| |apply Hsol; exact Hgg].
      - intros m i Hma Hi. unfold mg_source, iso_source. rewrite <- gs_off_full with (cells := cells P) by assumption.
        cbn. unfold xsg. ring.
      - intros; reflexivity. }
    destruct (transport_is_pass P xt xsg _ _ _ _ (psi g) _ Hnz (thin_divisors _ _ Hnz (Hthin g Hgg)) T) as (r & Er & Hrr).
    destruct (driver_trace _ _ _ _ _ _ _ _ _ Hg) as (n & x & Hn & Hx0 & Hxn & Hstep & _).
    assert (Hlt : W * c * d <= d) by nra.
    assert (K : forall k, (k <= n)%nat -> forall i, (i < cells P)%nat ->
               Rabs (x k i - sol i g) <= if Nat.eqb k 0 then d else W * c * d).
    { induction k as [|k IHk]; intros Hk i Hi.
      - rewrite Hx0. simpl. apply Hold; assumption.
      - cbn [Nat.eqb]. rewrite <- Hrr by exact Hi. rewrite Rmult_assoc.
        refine (pass_perturb P xt xsg _ _ qg bg (x k) (fun i => sol i g) _ _ (c * d) (Hthin g Hgg) Hw _ _ (Hstep k _) Er i Hi);
          [apply Rmult_le_pos; assumption| |lia].
        intros j Hj. eapply Rle_trans.
        + apply (gs_source_diff P groups xs_scatter (x k) new old sol g d Hgg Hd); try assumption.
          * intros i' Hi'. eapply Rle_trans; [apply IHk; [lia|exact Hi']|]. destruct (Nat.eqb k 0); lra.
          * intros i' h Hi' Hh. eapply Rle_trans; [apply IH; [lia|lia|exact Hi']|]. exact Hlt.
          * intros i' h Hi' Hh. apply Hold; lia.
        + replace (c * d * xt (medium P j)) with ((c * xt (medium P j)) * d) by ring.
          apply Rmult_le_compat_r; [exact Hd|]. apply Hrat; assumption. }
    intros i Hi. assert (Q := K n ltac:(lia) i Hi). rewrite <- Hxn in Q.
    destruct (Nat.eqb_spec n 0); [lia|]. exact Q. }
  intros i h Hi Hh. apply H; assumption.
Qed.

Lemma change_gg_pos : 0 < change_gg.
Proof. unfold change_gg. apply Rinv_0_lt_compat, pow_lt. lra. Qed.

(** Every outer loop: at least one, at most [cap] iterations; early exit only when the change is small. *)
Lemma outer_trace (sweep : mat2 -> outcome mat2) cells groups tol cap old flux :
  (1 <= cap)%nat ->
  iterate cap sweep (rel_change2 cells groups) tol cap 1 old = Ok flux ->
  exists n x,
    (1 <= n <= cap)%nat /\ x 0%nat = old /\ flux = x n /\
    (forall k, (k < n)%nat -> sweep (x k) = Ok (x (S k))) /\
    (forall k c, (0 < k < n)%nat -> rel_change2 cells groups (x k) (x (k - 1)%nat) = Some c -> tol <= c) /\
    ((n < cap)%nat ->
       (exists c, rel_change2 cells groups (x n) (x (n - 1)%nat) = Some c /\ c < tol) /\
       (forall i g, (i < cells)%nat -> (g < groups)%nat -> flux i g <> 0)).
Proof.
  intros Hcap E. destruct (iterate_spec _ _ _ _ _ _ _ _ E) as (n & x & H1 & H2 & H3 & H4 & H5 & H6 & H7).
  exists n, x. split; [lia|]. split; [exact H3|]. split; [exact H4|]. split; [exact H5|]. split.
  - intros k c Hk Hc. specialize (H6 k Hk). rewrite Hc in H6. cbn in H6.
    destruct (Rlt_dec c tol); [discriminate|lra].
  - intros Hn. destruct H7 as [H7|H7]; [|lia]. apply below_true in H7. split; [exact H7|].
    destruct H7 as (c & Hc & _). unfold rel_change2 in Hc.
    destruct (has_zero2 cells groups (x n)) eqn:Hz; [discriminate|]. rewrite H4.
    apply has_zero2_false; exact Hz.
Qed.

Lemma rel_change2_entry cells groups new old c i g :
  rel_change2 cells groups new old = Some c -> (i < cells)%nat -> (g < groups)%nat ->
  new i g <> 0 /\ Rabs (new i g - old i g) <= c * INR cells * Rabs (new i g).
Proof.
  intros E Hi Hg. unfold rel_change2 in E. destruct (has_zero2 cells groups new) eqn:Hz; [discriminate|].
  injection E as E. assert (Hnz := proj1 (has_zero2_false _ _ _) Hz i g Hi Hg). split; [exact Hnz|].
  set (t := (new i g - old i g) / new i g / INR cells).
  assert (HI : 0 < INR cells) by (apply lt_0_INR; lia).
  assert (Ht : Rabs t <= c).
  { rewrite <- E, <- sqrt_Rsqr_abs. apply sqrt_le_1_alt.
    eapply Rle_trans; [|apply (rsum_term_le cells (fun i => rsum groups (fun g => ((new i g - old i g) / new i g / INR cells)²)) i);
      [intros; apply rsum_nonneg; intros; apply Rle_0_sqr|exact Hi]].
    apply (rsum_term_le groups (fun g => ((new i g - old i g) / new i g / INR cells)²) g);
      [intros; apply Rle_0_sqr|exact Hg]. }
  replace (new i g - old i g) with (t * INR cells * new i g)
    by (unfold t; field; split; [exact Hnz|apply Rgt_not_eq; exact HI]).
  rewrite !Rabs_mult, (Rabs_right (INR cells)) by lra.
  apply Rmult_le_compat_r; [apply Rabs_pos|]. apply Rmult_le_compat_r; [lra|exact Ht].
Qed.

(** Error of the multigroup source iteration. *)
Lemma outer_error P groups xs_total xs_scatter external boundary c old flux sol :
  mg_thin P groups xs_total ->
  (forall m, (m < angles P)%nat -> 0 <= wt P m) -> 0 <= c ->
  rsum (angles P) (wt P) * c < 1 ->
  mg_ratio P groups xs_total xs_scatter c ->
  mg_solution P groups xs_total xs_scatter external boundary sol ->
  source_iteration_iso P groups old xs_total xs_scatter external boundary 1 = Ok flux ->
  let rho := rsum (angles P) (wt P) * c in
  exists n, (1 <= n <= 100)%nat /\
    (forall d, 0 <= d -> within2 (cells P) groups d old sol -> within2 (cells P) groups (rho ^ n * d) flux sol) /\
    ((n < 100)%nat -> forall M, 0 <= M ->
       (forall i g, (i < cells P)%nat -> (g < groups)%nat -> Rabs (flux i g) <= M) ->
       within2 (cells P) groups (rho * (change_gg * INR (cells P) * M) / (1 - rho)) flux sol).
Proof.
  intros Hthin Hw Hc Hrho Hrat Hsol E rho.
  assert (Hcap : (1 <= count_gg)%nat) by (unfold count_gg; lia).
  destruct (outer_trace _ _ _ _ _ _ _ Hcap E) as (n & x & Hn & H0 & -> & Hstep & _ & Hconv).
  change count_gg with 100%nat in *.
  assert (HW : 0 <= rsum (angles P) (wt P)) by (apply rsum_nonneg; exact Hw).
  assert (Hr : 0 <= rho < 1) by (split; [apply Rmult_le_pos; assumption|assumption]).
  assert (HT : forall k d, (k < n)%nat -> 0 <= d -> within2 (cells P) groups d (x k) sol ->
            within2 (cells P) groups (rho * d) (x (S k)) sol).
  { intros k d Hk Hd H. eapply sweep_contracts; try eassumption. apply Hstep; exact Hk. }
  exists n. split; [exact Hn|]. split.
  - intros d Hd Hdist.
    assert (G : forall k, (k <= n)%nat -> within2 (cells P) groups (rho ^ k * d) (x k) sol).
    { induction k as [|k IH]; intros Hk.
      - rewrite H0. simpl. rewrite Rmult_1_l. exact Hdist.
      - cbn [pow]. rewrite Rmult_assoc. apply HT; [lia| |apply IH; lia].
        apply Rmult_le_pos; [apply pow_le; lra|exact Hd]. }
    apply G. lia.
  - intros Hlt M HM Hb. destruct (Hconv Hlt) as ((ch & Hch & Hsmall) & _).
    set (dl := change_gg * INR (cells P) * M).
    assert (Hdl : 0 <= dl).
    { apply Rmult_le_pos; [apply Rmult_le_pos; [left; apply change_gg_pos|apply pos_INR]|exact HM]. }
    assert (Hclose : within2 (cells P) groups dl (x n) (x (n - 1)%nat)).
    { intros i g Hi Hg. destruct (rel_change2_entry _ _ _ _ _ i g Hch Hi Hg) as [_ Q].
      eapply Rle_trans; [exact Q|]. unfold dl. apply Rmult_le_compat.
      - apply Rmult_le_pos; [|apply pos_INR]. assert (S := sqrt_pos (rsum (cells P) (fun i => rsum groups (fun g => Rsqr ((x n i g - x (n - 1)%nat i g) / x n i g / INR (cells P)))))).
        unfold rel_change2 in Hch. destruct (has_zero2 _ _ _); [discriminate|]. injection Hch as <-. exact S.
      - apply Rabs_pos.
      - apply Rmult_le_compat_r; [apply pos_INR|lra].
      - apply Hb; assumption. }
    (* scalar version of the a posteriori argument *)
    assert (Hbound : exists e, 0 <= e /\ within2 (cells P) groups e (x n) sol).
    { exists (rsum (cells P) (fun i => rsum groups (fun g => Rabs (x n i g - sol i g)))). split.
      - apply rsum_nonneg; intros; apply rsum_nonneg; intros; apply Rabs_pos.
      - intros i g Hi Hg.
        eapply Rle_trans; [|apply (rsum_term_le (cells P) (fun i => rsum groups (fun g => Rabs (x n i g - sol i g))) i);
          [intros; apply rsum_nonneg; intros; apply Rabs_pos|exact Hi]].
        apply (rsum_term_le groups (fun g => Rabs (x n i g - sol i g)) g); [intros; apply Rabs_pos|exact Hg]. }
    destruct Hbound as (e & He & Hen).
    assert (Hstep2 : forall e, 0 <= e -> within2 (cells P) groups e (x n) sol ->
              within2 (cells P) groups (rho * (e + dl)) (x n) sol).
    { intros e' He' Hn'. assert (Q : within2 (cells P) groups (rho * (e' + dl)) (x (S (n - 1))) sol); [|replace (S (n - 1)) with n in Q by lia; exact Q].
      apply HT; [lia|lra|].
      intros i g Hi Hg. replace (x (n - 1)%nat i g - sol i g) with ((x n i g - sol i g) - (x n i g - x (n - 1)%nat i g)) by ring.
      eapply Rle_trans; [apply Rabs_triang|]. rewrite Rabs_Ropp. apply Rplus_le_compat; auto. }
    set (L := rho * dl / (1 - rho)).
    assert (HL : 0 <= L).
    { unfold L. apply Rmult_le_pos; [apply Rmult_le_pos; lra|left; apply Rinv_0_lt_compat; lra]. }
    assert (Gk : forall k, within2 (cells P) groups (L + rho ^ k * e) (x n) sol).
    { induction k as [|k IH].
      - intros i g Hi Hg. eapply Rle_trans; [apply Hen; assumption|]. simpl. lra.
      - assert (Hp : 0 <= rho ^ k) by (apply pow_le; lra).
        intros i g Hi Hg. eapply Rle_trans; [apply (Hstep2 (L + rho ^ k * e)); [apply Rplus_le_le_0_compat; [exact HL|apply Rmult_le_pos; assumption]|exact IH|exact Hi|exact Hg]|].
        right. unfold L. simpl. field. lra. }
    intros i g Hi Hg. destruct (Rle_or_lt (Rabs (x n i g - sol i g)) L) as [Hle|Hgt]; [exact Hle|exfalso].
    set (gap := Rabs (x n i g - sol i g) - L).
    assert (Hgap : 0 < gap) by (unfold gap; lra).
    destruct (pow_lt_1_zero rho ltac:(rewrite Rabs_right; lra) (gap / (e + 1))
                ltac:(apply Rdiv_lt_0_compat; lra)) as [N HN].
    specialize (HN N ltac:(lia)). specialize (Gk N i g Hi Hg).
    rewrite Rabs_right in HN by (apply Rle_ge, pow_le; lra).
    assert (rho ^ N * (e + 1) < gap).
    { apply (Rmult_lt_compat_r (e + 1)) in HN; [|lra].
      replace (gap / (e + 1) * (e + 1)) with gap in HN by (field; lra). exact HN. }
    assert (0 <= rho ^ N) by (apply pow_le; lra). unfold gap in *. nra.
Qed.

Lemma outer_documented (sweep : mat2 -> outcome mat2) cells groups tol cap old flux :
  (1 <= cap)%nat ->
  iterate cap sweep (rel_change2 cells groups) tol cap 1 old = Ok flux ->
  documented_exit sweep cells groups cap tol old flux.
Proof.
  intros Hcap E. destruct (iterate_spec _ _ _ _ _ _ _ _ E) as (n & x & H1 & H2 & H3 & H4 & H5 & H6 & H7).
  exists n, x. split; [lia|]. split; [exact H3|]. split; [exact H4|]. split; [exact H5|]. split.
  - intros k Hk. apply below_unsettled2, H6, Hk.
  - intros Hn. destruct H7 as [H7|H7]; [|lia]. apply below_settled2, H7.
Qed.
