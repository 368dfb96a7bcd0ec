(** Positivity, rate and stopping error measured against a damped flux; spread of the damped flux. *)
From Coq Require Import Lra Lia Psatz.
From Verif Require Import Base BaseFacts Contraction SlabModel SlabSpec SlabFacts SlabFacts2 SlabFacts3 SlabFacts4.
From Verif Require Import MgModel MgSpec MgFacts MgFacts2 MgFacts3 MgFacts7 SupSpec SupFacts.
Open Scope R_scope.

Section Damped.
Variables (P : sn) (G : nat) (T : mat2) (X : mat3) (c : R) (p : mat2).
Hypothesis HP : positive_sweeps P G T.
Hypothesis Hc : 0 <= c < 1.
Hypothesis HD : damping P G T X c p.

Theorem damped_nonneg external boundary sol :
  (forall i g h, (i < cells P)%nat -> (g < G)%nat -> (h < G)%nat -> 0 <= X (medium P i) g h) ->
  (forall m i g, (m < angles P)%nat -> (i < cells P)%nat -> (g < G)%nat -> 0 <= at3 external i (bidx (d3b external) m) (bidx (d3c external) g)) ->
  (forall m g, (m < angles P)%nat -> (g < G)%nat -> 0 <= mg_boundary boundary (mu P) g m) ->
  mg_solution P G T X external boundary sol -> below2 (cells P) G (fun _ _ => 0) sol.
Proof.
  intros HX He Hb Hs.
  assert (A : agree2 (cells P) G (fun i g => Rmin (sol i g) 0) (fun _ _ => 0)).
  { apply (zero_of_shrinking P G T X c p HD _ _ c Hc). intros d Hd W i g Hi Hg.
    pose proof (p_pos P G T X c p HD i g Hi Hg) as Hp.
    assert (B : forall j h, (j < cells P)%nat -> (h < G)%nat -> - (d * p j h) <= sol j h).
    { intros j h Hj Hh. specialize (W j h Hj Hh). cbv beta in W. apply abs_bounds in W. pose proof (Rmin_l (sol j h) 0). lra. }
    assert (L : - (c * d * p i g) <= sol i g).
    { rewrite (solution_pass P G T X HP _ _ sol Hs g i Hg Hi).
      set (Q := fun j => rsum G (fun h => Rabs (X (medium P j) g h) * p j h)).
      assert (K : 0 <= pass_flux P (fun m j => 1 * mg_source (medium P) G X external sol g m j + d * Q j) (half_sig P (fun m => T m g))
                        (fun m => 1 * mg_boundary boundary (mu P) g m + d * 0) 0 (angles P) i).
      { apply (pass_nonneg_flux P G T HP g _ _ i Hg Hi).
        - intros m j Hm Hj. unfold mg_source, Q. specialize (He m j g Hm Hj Hg).
          assert (0 <= rsum G (fun h => X (medium P j) g h * sol j h) + d * rsum G (fun h => Rabs (X (medium P j) g h) * p j h)); [|lra].
          rewrite <- rsum_scal, <- rsum_plus. apply rsum_nonneg. intros h Hh. specialize (HX j g h Hj Hg Hh). rewrite Rabs_right by lra.
          specialize (B j h Hj Hh). replace (X (medium P j) g h * sol j h + d * (X (medium P j) g h * p j h)) with (X (medium P j) g h * (sol j h + d * p j h)) by ring.
          apply Rmult_le_pos; lra.
        - intros m Hm. specialize (Hb m g Hm Hg). lra. }
      rewrite (pass_flux_linear P _ (fun _ j => Q j) _ _ (fun _ => 0)) in K by exact Hi. fold (tau P T g Q i) in K.
      pose proof (damping_tau P G T X c p HP HD g i Hg Hi) as D. fold Q in D.
      assert (d * tau P T g Q i <= d * (c * p i g)) by (apply Rmult_le_compat_l; assumption). lra. }
    cbv beta. unfold Rmin. destruct (Rle_dec (sol i g) 0) as [H|H].
    - rewrite Rminus_0_r, Rabs_left1 by exact H. lra.
    - rewrite Rminus_0_r, Rabs_R0. apply Rmult_le_pos; [|lra]. apply Rmult_le_pos; lra. }
  intros i g Hi Hg. specialize (A i g Hi Hg). cbv beta in A. pose proof (Rmin_l (sol i g) 0). lra.
Qed.

(** Error after the last sweep, from its change. *)
Lemma posterior_of external boundary before new sol e :
  mg_solution P G T X external boundary sol -> one_sweep_iso P G T X external boundary 1 before = Ok new -> 0 <= e ->
  within_of (cells P) G p e new before -> within_of (cells P) G p (c * e / (1 - c)) new sol.
Proof.
  intros Hs E He Hn. set (L := c * e / (1 - c)).
  assert (HL : 0 <= L) by (apply Rmult_le_pos; [nra|left; apply Rinv_0_lt_compat; lra]).
  assert (S : forall d, 0 <= d -> within_of (cells P) G p d new sol -> within_of (cells P) G p (c * (d + e)) new sol).
  { intros d Hd W. eapply sweep_contracts_of; try eassumption; [lra|]. intros i g Hi Hg.
    replace (before i g - sol i g) with ((new i g - sol i g) - (new i g - before i g)) by ring.
    eapply Rle_trans; [apply Rabs_triang|]. rewrite Rabs_Ropp. specialize (W i g Hi Hg). specialize (Hn i g Hi Hg). lra. }
  (* the part of the error beyond L shrinks *)
  destruct (some_distance P G T X c p HD new sol) as (e0 & He0 & W0).
  assert (Gk : forall k, within_of (cells P) G p (L + c ^ k * e0) new sol).
  { induction k as [|k IH].
    - intros i g Hi Hg. eapply Rle_trans; [apply W0; assumption|]. pose proof (p_pos P G T X c p HD i g Hi Hg). simpl. nra.
    - assert (Hp : 0 <= c ^ k) by (apply pow_le; lra).
      assert (V := S (L + c ^ k * e0) ltac:(nra) IH). replace (c * (L + c ^ k * e0 + e)) with (L + c ^ (Datatypes.S k) * e0) in V; [exact V|].
      unfold L. simpl. field. lra. }
  intros i g Hi Hg. pose proof (p_pos P G T X c p HD i g Hi Hg) as Hp.
  destruct (Rle_or_lt (Rabs (new i g - sol i g)) (L * p i g)) as [H|H]; [exact H|exfalso].
  set (gap := Rabs (new i g - sol i g) - L * p i g). assert (Hgap : 0 < gap) by (unfold gap; lra).
  destruct (pow_lt_1_zero c ltac:(rewrite Rabs_right; lra) (gap / (e0 * p i g + 1)) ltac:(apply Rdiv_lt_0_compat; [exact Hgap|nra])) as [N HN].
  specialize (HN N ltac:(lia)). specialize (Gk N i g Hi Hg). rewrite Rabs_right in HN by (apply Rle_ge, pow_le; lra).
  assert (0 < e0 * p i g + 1) by nra. apply (Rmult_lt_compat_r (e0 * p i g + 1)) in HN; [|assumption].
  replace (gap / (e0 * p i g + 1) * (e0 * p i g + 1)) with gap in HN by (field; lra).
  assert (0 <= c ^ N) by (apply pow_le; lra). unfold gap in HN. nra.
Qed.

Lemma settled2_close new before tol : 0 <= tol -> settled2 (cells P) G new before tol ->
  forall i g, (i < cells P)%nat -> (g < G)%nat -> Rabs (new i g - before i g) <= tol * INR (cells P) * Rabs (new i g).
Proof.
  intros Ht H i g Hi Hg. apply below_settled2 in H. destruct (proj1 (below_true _ _) H) as (ch & E & Hch).
  destruct (rel_change2_entry _ _ _ _ _ i g E Hi Hg) as (_ & Q). eapply Rle_trans; [exact Q|].
  apply Rmult_le_compat_r; [apply Rabs_pos|]. apply Rmult_le_compat_r; [apply pos_INR|lra].
Qed.

Theorem damped_error external boundary old flux sol :
  mg_solution P G T X external boundary sol ->
  source_iteration_iso P G old T X external boundary 1 = Ok flux ->
  exists n, (1 <= n <= 100)%nat /\
    (forall d, 0 <= d -> within_of (cells P) G p d old sol -> within_of (cells P) G p (c ^ n * d) flux sol) /\
    ((n < 100)%nat -> forall M, 0 <= M ->
       (forall i g, (i < cells P)%nat -> (g < G)%nat -> Rabs (flux i g) <= M * p i g) ->
       within_of (cells P) G p (c * (change_gg * INR (cells P) * M) / (1 - c)) flux sol).
Proof.
  intros Hs E. assert (Hcap : (1 <= count_gg)%nat) by (unfold count_gg; lia).
  destruct (outer_documented _ _ _ _ _ _ _ Hcap E) as (n & x & Hn & H0 & -> & Hstep & _ & Hend).
  change count_gg with 100%nat in *. exists n. split; [exact Hn|]. split.
  - intros d Hd W. assert (K : forall k, (k <= n)%nat -> within_of (cells P) G p (c ^ k * d) (x k) sol).
    { induction k as [|k IH]; intros Hk; [rewrite H0; simpl; rewrite Rmult_1_l; exact W|].
      cbn [pow]. rewrite Rmult_assoc. eapply sweep_contracts_of; try eassumption; [apply Hstep; lia|apply Rmult_le_pos; [apply pow_le; lra|exact Hd]|apply IH; lia]. }
    apply K. lia.
  - intros Hlt M HM Hb. assert (Hpos := change_gg_pos). assert (HI := pos_INR (cells P)).
    assert (E1 : one_sweep_iso P G T X external boundary 1 (x (n - 1)%nat) = Ok (x n)).
    { replace n with (S (n - 1)) at 2 by lia. apply Hstep. lia. }
    refine (posterior_of external boundary (x (n - 1)%nat) (x n) sol (change_gg * INR (cells P) * M) Hs E1 _ _).
    + apply Rmult_le_pos; [apply Rmult_le_pos; lra|exact HM].
    + intros i g Hi Hg. eapply Rle_trans; [apply (settled2_close _ _ change_gg ltac:(lra) (Hend Hlt)); assumption|].
      rewrite Rmult_assoc. rewrite (Rmult_assoc (change_gg * INR (cells P))). rewrite <- Rmult_assoc.
      apply Rmult_le_compat_l; [apply Rmult_le_pos; lra|]. apply Hb; assumption.
Qed.

(** Largest over smallest value of [p]. *)
Lemma spread : exists lo hi, 0 < lo /\ lo <= hi /\ forall i g, (i < cells P)%nat -> (g < G)%nat -> lo <= p i g <= hi.
Proof.
  set (q := fun i g => if Rlt_dec 0 (p i g) then p i g else 1).
  assert (Hq : forall i g, 0 < q i g) by (intros i g; unfold q; destruct (Rlt_dec 0 (p i g)); lra).
  assert (Hq' : forall i g, 0 <= / q i g) by (intros i g; left; apply Rinv_0_lt_compat, Hq).
  set (hi := 1 + rsum (cells P) (fun i => rsum G (fun g => q i g))). set (lo := / (1 + rsum (cells P) (fun i => rsum G (fun g => / q i g)))).
  assert (A : 0 <= rsum (cells P) (fun i => rsum G (fun g => q i g))) by (apply rsum_nonneg; intros; apply rsum_nonneg; intros; left; apply Hq).
  assert (B : 0 <= rsum (cells P) (fun i => rsum G (fun g => / q i g))) by (apply rsum_nonneg; intros; apply rsum_nonneg; intros; apply Hq').
  exists lo, hi. split; [apply Rinv_0_lt_compat; lra|]. split.
  - apply Rle_trans with 1; [|unfold hi; lra]. unfold lo. rewrite <- Rinv_1 at 2. apply Rinv_le_contravar; lra.
  - intros i g Hi Hg. pose proof (p_pos P G T X c p HD i g Hi Hg) as Hp. assert (Eq : q i g = p i g) by (unfold q; destruct (Rlt_dec 0 (p i g)); [reflexivity|lra]).
    split.
    + assert (C : / p i g <= rsum (cells P) (fun i => rsum G (fun g => / q i g))).
      { rewrite <- Eq. eapply Rle_trans; [|apply (rsum_term_le (cells P) (fun i => rsum G (fun g => / q i g)) i); [intros; apply rsum_nonneg; intros; apply Hq'|exact Hi]].
        apply (rsum_term_le G (fun g => / q i g) g); [intros; apply Hq'|exact Hg]. }
      unfold lo. rewrite <- (Rinv_inv (p i g)). apply Rinv_le_contravar; [apply Rinv_0_lt_compat; exact Hp|lra].
    + assert (C : p i g <= rsum (cells P) (fun i => rsum G (fun g => q i g))).
      { rewrite <- Eq at 1. eapply Rle_trans; [|apply (rsum_term_le (cells P) (fun i => rsum G (fun g => q i g)) i); [intros; apply rsum_nonneg; intros; left; apply Hq|exact Hi]].
        apply (rsum_term_le G (fun g => q i g) g); [intros; left; apply Hq|exact Hg]. }
      unfold hi. lra.
Qed.
End Damped.

(** The same in the plain maximum norm. *)
Theorem damped_error_plain P G T X c p : positive_sweeps P G T -> 0 <= c < 1 -> damping P G T X c p ->
  exists K, 1 <= K /\ forall external boundary old flux sol,
  mg_solution P G T X external boundary sol -> source_iteration_iso P G old T X external boundary 1 = Ok flux ->
  exists n, (1 <= n <= 100)%nat /\
    (forall d, 0 <= d -> within2 (cells P) G d old sol -> within2 (cells P) G (K * c ^ n * d) flux sol) /\
    ((n < 100)%nat -> forall M, 0 <= M ->
       (forall i g, (i < cells P)%nat -> (g < G)%nat -> Rabs (flux i g) <= M) ->
       within2 (cells P) G (K * (c * (change_gg * INR (cells P) * M) / (1 - c))) flux sol).
Proof.
  intros HP Hc HD. destruct (spread P G T X c p HD) as (lo & hi & Hlo & Hh & Hp).
  exists (hi / lo). split; [apply (Rmult_le_reg_r lo); [exact Hlo|]; unfold Rdiv; rewrite Rmult_assoc, Rinv_l by lra; lra|].
  intros external boundary old flux sol Hs E.
  destruct (damped_error P G T X c p HP Hc HD external boundary old flux sol Hs E) as (n & Hn & A & B).
  assert (HK : 0 < / lo) by (apply Rinv_0_lt_compat; exact Hlo).
  exists n. split; [exact Hn|]. split.
  - intros d Hd W i g Hi Hg. assert (V := A (d / lo) ltac:(apply Rmult_le_pos; lra)).
    eapply Rle_trans; [apply V; try assumption|].
    + intros j h Hj Hh'. eapply Rle_trans; [apply W; assumption|]. destruct (Hp j h Hj Hh') as (Q & _).
      unfold Rdiv. rewrite Rmult_assoc. rewrite <- (Rmult_1_r d) at 1. apply Rmult_le_compat_l; [exact Hd|].
      apply (Rmult_le_reg_l lo); [exact Hlo|]. rewrite <- Rmult_assoc, Rinv_r by lra. lra.
    + assert (0 <= c ^ n) by (apply pow_le; lra).
      replace (hi / lo * c ^ n * d) with (c ^ n * (d / lo) * hi) by (field; lra).
      apply Rmult_le_compat_l; [apply Rmult_le_pos; [assumption|apply Rmult_le_pos; lra]|]. apply Hp; assumption.
  - intros Hlt M HM Hb i g Hi Hg. eapply Rle_trans; [apply (B Hlt (M / lo)); try assumption; [apply Rmult_le_pos; lra|]|].
    + intros j h Hj Hh'. eapply Rle_trans; [apply Hb; assumption|]. destruct (Hp j h Hj Hh') as (Q & _).
      unfold Rdiv. rewrite Rmult_assoc. rewrite <- (Rmult_1_r M) at 1. apply Rmult_le_compat_l; [exact HM|].
      apply (Rmult_le_reg_l lo); [exact Hlo|]. rewrite <- Rmult_assoc, Rinv_r by lra. lra.
    + pose proof change_gg_pos. pose proof (pos_INR (cells P)).
      replace (hi / lo * (c * (change_gg * INR (cells P) * M) / (1 - c))) with (c * (change_gg * INR (cells P) * (M / lo)) / (1 - c) * hi) by (field; lra).
      apply Rmult_le_compat_l; [|apply Hp; assumption].
      apply Rmult_le_pos; [|left; apply Rinv_0_lt_compat; lra]. apply Rmult_le_pos; [lra|]. apply Rmult_le_pos; [apply Rmult_le_pos; lra|apply Rmult_le_pos; lra].
Qed.
