(** Convergence of the multigroup iteration measured against a damped positive flux. *)
From Coq Require Import Lra Lia Psatz.
From Verif Require Import Base BaseFacts Contraction SlabModel SlabSpec SlabFacts SlabFacts2 SlabFacts3 SlabFacts4.
From Verif Require Import MgModel MgSpec MgFacts MgFacts2 MgFacts3 MgFacts7 SupSpec.
Open Scope R_scope.

(** Flux of group [g] for an isotropic source. *)
Definition tau (P : sn) (T : mat2) (g : nat) (q : vec) (i : nat) : R :=
  pass_flux P (fun _ j => q j) (half_sig P (fun m => T m g)) (fun _ => 0) 0 (angles P) i.

Lemma tau_at P T g q q' i : (i < cells P)%nat -> (forall j, (j < cells P)%nat -> q j = q' j) -> tau P T g q i = tau P T g q' i.
Proof. intros Hi H. unfold tau. apply pass_flux_at; [exact Hi| |reflexivity]. intros; apply H; assumption. Qed.
Lemma tau_lin P T g q1 q2 a b i : (i < cells P)%nat ->
  tau P T g (fun j => a * q1 j + b * q2 j) i = a * tau P T g q1 i + b * tau P T g q2 i.
Proof.
  intros Hi. unfold tau. rewrite <- pass_flux_linear by exact Hi. apply pass_flux_at; [exact Hi|reflexivity|].
  intros; ring.
Qed.

Lemma flux_of_tau P T g q u : nonzero_ordinates (angles P) (mu P) -> good_divisors P (fun m => T m g) ->
  flux_of P (fun i => T (medium P i) g) q u -> forall i, (i < cells P)%nat -> u i = tau P T g q i.
Proof.
  intros Hnz Hd (psi & H) i Hi.
  assert (K : slab_transport (cells P) (angles P) (mu P) (wt P) (dx P) (fun i => (fun m => T m g) (medium P i))
      (iso_source (medium P) (fun _ => 0) q (mkArr2 1 (fun _ _ => 0)) (fun _ => 0))
      (fun m => reflected_in (cells P) (angles P) (mu P) (bc_left P) (bc_right P) psi m + boundary_in (mkArr2 1 (fun _ _ => 0)) (mu P) m)
      psi u).
  { eapply transport_ext; [| |exact H]; intros; unfold iso_source, boundary_in; cbn [at2]; ring. }
  destruct (transport_is_pass P (fun m => T m g) _ _ _ _ _ psi u Hnz Hd K) as (r & E & Hr).
  rewrite slab_iso_pass_ok in E by assumption. injection E as <-. rewrite <- Hr by exact Hi.
  unfold tau. apply pass_flux_at; [exact Hi| |]; intros; unfold iso_q, iso_source, boundary_in; cbn [at2]; ring.
Qed.
Lemma tau_flux_of P T g q : nonzero_ordinates (angles P) (mu P) -> good_divisors P (fun m => T m g) ->
  flux_of P (fun i => T (medium P i) g) q (tau P T g q).
Proof.
  intros Hnz Hd.
  exists (Psi P (fun _ j => q j) (half_sig P (fun m => T m g)) (fun _ => 0)). split; [|split].
  - intros m Hm. apply Psi_balance; [reflexivity|exact (Hnz m Hm)|exact (Hd m Hm)].
  - intros m Hm. rewrite Psi_inflow, inflow_at_spec by exact Hm. ring.
  - intros i Hi. apply pass_flux_center. exact Hi.
Qed.

Section Positive.
Variables (P : sn) (G : nat) (T : mat2).
Hypothesis HP : positive_sweeps P G T.

Lemma ps_divisors g : (g < G)%nat -> good_divisors P (fun m => T m g).
Proof. intros Hg. apply thin_divisors; [apply (proj1 HP)|apply (proj1 (proj2 HP)); exact Hg]. Qed.
Lemma ps_mg_divisors : mg_divisors P G T.
Proof. intros g Hg. apply ps_divisors, Hg. Qed.

(** One pass with dominated sources. *)
Lemma pass_nonneg_flux g q b i : (g < G)%nat -> (i < cells P)%nat ->
  (forall m j, (m < angles P)%nat -> (j < cells P)%nat -> 0 <= q m j) -> (forall m, (m < angles P)%nat -> 0 <= b m) ->
  0 <= pass_flux P q (half_sig P (fun m => T m g)) b 0 (angles P) i.
Proof.
  intros Hg Hi Hq Hb. destruct HP as (Hnz & Ht & Hw). rewrite pass_flux_center by exact Hi.
  assert (N := Psi_nonneg P q (half_sig P (fun m => T m g)) b Hnz).
  assert (K : forall m k, (m < angles P)%nat -> (k <= cells P)%nat -> 0 <= Psi P q (half_sig P (fun m => T m g)) b m k).
  { apply N; [|exact Hb]. intros m j Hm Hj. split; [apply Hq; assumption|]. apply thin_half; [apply Ht| |]; assumption. }
  apply rsum_nonneg. intros m Hm. apply Rmult_le_pos; [apply Hw; exact Hm|].
  pose proof (K m i Hm ltac:(lia)). pose proof (K m (S i) Hm ltac:(lia)). lra.
Qed.
Lemma tau_nonneg g q i : (g < G)%nat -> (i < cells P)%nat -> (forall j, (j < cells P)%nat -> 0 <= q j) -> 0 <= tau P T g q i.
Proof. intros. apply pass_nonneg_flux; try assumption; intros; [auto|lra]. Qed.
Lemma tau_mono g q q' i : (g < G)%nat -> (i < cells P)%nat -> (forall j, (j < cells P)%nat -> q j <= q' j) -> tau P T g q i <= tau P T g q' i.
Proof.
  intros Hg Hi H. assert (K : 0 <= tau P T g (fun j => 1 * q' j + (-1) * q j) i).
  { apply tau_nonneg; try assumption. intros j Hj. specialize (H j Hj). lra. }
  rewrite tau_lin in K by exact Hi. lra.
Qed.

Lemma pass_dominated g q1 q2 b Q t i : (g < G)%nat -> (i < cells P)%nat ->
  (forall m j, (m < angles P)%nat -> (j < cells P)%nat -> Rabs (q1 m j - q2 m j) <= t * Q j) ->
  Rabs (pass_flux P q1 (half_sig P (fun m => T m g)) b 0 (angles P) i - pass_flux P q2 (half_sig P (fun m => T m g)) b 0 (angles P) i)
  <= t * tau P T g Q i.
Proof.
  intros Hg Hi H. set (s := half_sig P (fun m => T m g)).
  set (d := fun m j => 1 * q1 m j + (-1) * q2 m j).
  assert (D : pass_flux P d s (fun _ => 0) 0 (angles P) i = pass_flux P q1 s b 0 (angles P) i - pass_flux P q2 s b 0 (angles P) i).
  { transitivity (1 * pass_flux P q1 s b 0 (angles P) i + (-1) * pass_flux P q2 s b 0 (angles P) i); [|ring].
    rewrite <- pass_flux_linear by exact Hi. apply pass_flux_at; [exact Hi|reflexivity|]. intros; ring. }
  rewrite <- D.
  assert (U : 0 <= pass_flux P (fun m j => t * Q j + (-1) * d m j) s (fun m => t * 0 + (-1) * 0) 0 (angles P) i).
  { apply pass_nonneg_flux; try assumption; [|intros; lra]. intros m j Hm Hj. specialize (H m j Hm Hj). apply abs_bounds in H. unfold d. lra. }
  assert (L : 0 <= pass_flux P (fun m j => t * Q j + 1 * d m j) s (fun m => t * 0 + 1 * 0) 0 (angles P) i).
  { apply pass_nonneg_flux; try assumption; [|intros; lra]. intros m j Hm Hj. specialize (H m j Hm Hj). apply abs_bounds in H. unfold d. lra. }
  rewrite (pass_flux_linear P (fun _ j => Q j) d s (fun _ => 0) (fun _ => 0)) in U, L by exact Hi.
  fold (tau P T g Q i) in U, L. unfold s in U, L. fold (tau P T g Q i) in U, L. apply Rabs_le. fold s in U, L. lra.
Qed.
End Positive.

(** Difference of two group sources, with a bound depending on cell and group. *)
Lemma gs_source_weighted P groups xs_scatter x n1 o1 sol g (e : mat2) :
  (g < groups)%nat ->
  (forall i, (i < cells P)%nat -> Rabs (x i - sol i g) <= e i g) ->
  (forall i h, (i < cells P)%nat -> (h < g)%nat -> Rabs (n1 i h - sol i h) <= e i h) ->
  (forall i h, (i < cells P)%nat -> (g < h < groups)%nat -> Rabs (o1 i h - sol i h) <= e i h) ->
  forall i, (i < cells P)%nat ->
  Rabs (xs_scatter (medium P i) g g * (x i - sol i g)
        + (gs_off (cells P) groups n1 o1 (medium P) xs_scatter g i
           - gs_off (cells P) groups sol sol (medium P) xs_scatter g i))
  <= rsum groups (fun h => Rabs (xs_scatter (medium P i) g h) * e i h).
Proof.
  intros Hg Hx Hn Ho i Hi. unfold gs_off. rewrite (proj2 (Nat.ltb_lt i (cells P))) by lia.
  rewrite <- rsum_minus.
  assert (S := rsum_single groups (fun h => if Nat.eqb h g then xs_scatter (medium P i) g g * (x i - sol i g) else 0) g Hg).
  cbv beta in S. rewrite Nat.eqb_refl in S. rewrite <- S.
  2:{ intros h Hh Hne. destruct (Nat.eqb_spec h g); [lia|reflexivity]. }
  rewrite <- rsum_plus. apply rsum_abs_le. intros h Hh.
  destruct (Nat.eqb_spec h g) as [-> |Hne].
  - match goal with |- Rabs ?z <= _ => replace z with (xs_scatter (medium P i) g g * (x i - sol i g)) by ring end.
    rewrite Rabs_mult. apply Rmult_le_compat_l; [apply Rabs_pos|apply Hx; exact Hi].
  - destruct (Nat.ltb_spec h g).
    + match goal with |- Rabs ?z <= _ => replace z with (xs_scatter (medium P i) g h * (n1 i h - sol i h)) by ring end.
      rewrite Rabs_mult. apply Rmult_le_compat_l; [apply Rabs_pos|apply Hn; assumption].
    + match goal with |- Rabs ?z <= _ => replace z with (xs_scatter (medium P i) g h * (o1 i h - sol i h)) by ring end.
      rewrite Rabs_mult. apply Rmult_le_compat_l; [apply Rabs_pos|apply Ho; [assumption|lia]].
Qed.

Section Damped.
Variables (P : sn) (G : nat) (T : mat2) (X : mat3) (c : R) (p : mat2).
Hypothesis HP : positive_sweeps P G T.
Hypothesis Hc : 0 <= c < 1.
Hypothesis HD : damping P G T X c p.

Lemma damping_tau g i : (g < G)%nat -> (i < cells P)%nat ->
  tau P T g (fun j => rsum G (fun h => Rabs (X (medium P j) g h) * p j h)) i <= c * p i g.
Proof.
  intros Hg Hi. destruct (proj2 HD g Hg) as (u & Hu & Hb). rewrite <- (flux_of_tau P T g _ u); [apply Hb; exact Hi|apply (proj1 HP)|apply (ps_divisors P G T HP), Hg|exact Hu|exact Hi].
Qed.
Lemma p_pos i g : (i < cells P)%nat -> (g < G)%nat -> 0 < p i g.
Proof. intros; apply (proj1 HD); assumption. Qed.

Lemma sweep_contracts_of external boundary old new sol d :
  mg_solution P G T X external boundary sol ->
  one_sweep_iso P G T X external boundary 1 old = Ok new ->
  0 <= d -> within_of (cells P) G p d old sol -> within_of (cells P) G p (c * d) new sol.
Proof.
  intros Hsol E Hd Hold. destruct HP as (Hnz & Hthin & Hw).
  destruct (one_sweep_groups _ _ _ _ _ _ _ _ E) as [Hg _]. destruct Hsol as [psi Hsol].
  assert (H : forall g, (g < G)%nat -> forall i, (i < cells P)%nat -> Rabs (new i g - sol i g) <= c * d * p i g).
  { intros g. induction g as [g IH] using (well_founded_induction lt_wf). intros Hgg.
    specialize (Hg g Hgg). unfold slab_group in Hg.
    set (xt := fun m => T m g) in *. set (xsg := fun m => X m g g) in *.
    set (qg := slice3 external (bidx (d3c external) g)) in *. set (bg := slice3 boundary (bidx (d3c boundary) g)) in *.
    assert (TT : slab_transport (cells P) (angles P) (mu P) (wt P) (dx P) (fun i => xt (medium P i))
        (iso_source (medium P) xsg (gs_off (cells P) G sol sol (medium P) X g) qg (fun i => sol i g))
        (fun m => reflected_in (cells P) (angles P) (mu P) (bc_left P) (bc_right P) (psi g) m + boundary_in bg (mu P) m)
        (psi g) (fun i => sol i g)).
    { eapply transport_ext; [| |apply Hsol; exact Hgg].
      - intros m i Hma Hi. unfold mg_source, iso_source. rewrite <- gs_off_full with (cells := cells P) by assumption.
        cbn. unfold xsg. ring.
      - intros; reflexivity. }
    destruct (transport_is_pass P xt xsg _ _ _ _ (psi g) _ Hnz (thin_divisors _ _ Hnz (Hthin g Hgg)) TT) as (r & Er & Hrr).
    destruct (driver_trace _ _ _ _ _ _ _ _ _ Hg) as (n & x & Hn & Hx0 & Hxn & Hstep & _).
    assert (Hlt : forall i h, (i < cells P)%nat -> (h < G)%nat -> c * d * p i h <= d * p i h).
    { intros i h Hi Hh. pose proof (p_pos i h Hi Hh). apply Rmult_le_compat_r; [lra|]. nra. }
    assert (K : forall k, (k <= n)%nat -> forall i, (i < cells P)%nat ->
               Rabs (x k i - sol i g) <= if Nat.eqb k 0 then d * p i g else c * d * p i g).
    { induction k as [|k IHk]; intros Hk i Hi.
      - rewrite Hx0. simpl. apply Hold; assumption.
      - cbn [Nat.eqb]. rewrite <- Hrr by exact Hi.
        assert (Ef := Hstep k ltac:(lia)). rewrite slab_iso_pass_ok in Ef, Er by exact Hnz. injection Ef as <-. injection Er as <-.
        eapply Rle_trans.
        + apply (pass_dominated P G T HP g _ _ _ (fun j => rsum G (fun h => Rabs (X (medium P j) g h) * p j h)) d i Hgg Hi).
          intros m j Hm Hj. unfold iso_q, iso_source.
          match goal with |- Rabs ?z <= _ => replace z with (X (medium P j) g g * (x k j - sol j g)
            + (gs_off (cells P) G new old (medium P) X g j - gs_off (cells P) G sol sol (medium P) X g j)) by (unfold xsg; ring) end.
          rewrite <- rsum_scal.
          rewrite (rsum_ext G (fun h => d * (Rabs (X (medium P j) g h) * p j h)) (fun h => Rabs (X (medium P j) g h) * (d * p j h))) by (intros; ring).
          apply (gs_source_weighted P G X (x k) new old sol g (fun i h => d * p i h) Hgg); try assumption.
          * intros i' Hi'. eapply Rle_trans; [apply IHk; [lia|exact Hi']|]. destruct (Nat.eqb k 0); [lra|apply Hlt; assumption].
          * intros i' h Hi' Hh. eapply Rle_trans; [apply IH; [lia|lia|exact Hi']|]. apply Hlt; [exact Hi'|lia].
          * intros i' h Hi' Hh. apply Hold; lia.
        + replace (c * d * p i g) with (d * (c * p i g)) by ring. apply Rmult_le_compat_l; [exact Hd|]. apply damping_tau; assumption. }
    intros i Hi. assert (Q := K n ltac:(lia) i Hi). rewrite <- Hxn in Q.
    destruct (Nat.eqb_spec n 0); [lia|]. exact Q. }
  intros i h Hi Hh. apply H; assumption.
Qed.

(** Two functions always have a finite distance measured against [p]. *)
Lemma some_distance (f g : mat2) : exists e, 0 <= e /\ within_of (cells P) G p e f g.
Proof.
  set (q := fun i h => if Rlt_dec 0 (p i h) then Rabs (f i h - g i h) / p i h else 0).
  assert (Hq : forall i h, 0 <= q i h).
  { intros i h. unfold q. destruct (Rlt_dec 0 (p i h)); [|lra]. apply Rmult_le_pos; [apply Rabs_pos|]. left; apply Rinv_0_lt_compat; assumption. }
  exists (rsum (cells P) (fun i => rsum G (fun h => q i h))). split; [apply rsum_nonneg; intros; apply rsum_nonneg; intros; apply Hq|].
  intros i h Hi Hh. pose proof (p_pos i h Hi Hh) as Hp.
  assert (q i h <= rsum (cells P) (fun i => rsum G (fun h => q i h))).
  { eapply Rle_trans; [|apply (rsum_term_le (cells P) (fun i => rsum G (fun h => q i h)) i); [intros; apply rsum_nonneg; intros; apply Hq|exact Hi]].
    apply (rsum_term_le G (fun h => q i h) h); [intros; apply Hq|exact Hh]. }
  apply Rle_trans with (q i h * p i h); [|apply Rmult_le_compat_r; lra].
  unfold q. destruct (Rlt_dec 0 (p i h)); [|lra]. right. field. lra.
Qed.
Lemma zero_of_shrinking (f g : mat2) (r : R) : 0 <= r < 1 ->
  (forall d, 0 <= d -> within_of (cells P) G p d f g -> within_of (cells P) G p (r * d) f g) -> agree2 (cells P) G f g.
Proof.
  intros Hr H. destruct (some_distance f g) as (e & He & W).
  assert (K : forall k, within_of (cells P) G p (r ^ k * e) f g).
  { induction k as [|k IH]; [simpl; rewrite Rmult_1_l; exact W|]. cbn [pow]. rewrite Rmult_assoc.
    apply H; [apply Rmult_le_pos; [apply pow_le; lra|exact He]|exact IH]. }
  intros i h Hi Hh. pose proof (p_pos i h Hi Hh) as Hp. destruct (Req_dec (f i h) (g i h)) as [Q|Q]; [exact Q|exfalso].
  assert (Hgap : 0 < Rabs (f i h - g i h)) by (apply Rabs_pos_lt; lra).
  destruct (pow_lt_1_zero r ltac:(rewrite Rabs_right; lra) (Rabs (f i h - g i h) / (e * p i h + 1))
     ltac:(apply Rdiv_lt_0_compat; [exact Hgap|nra])) as [N HN].
  specialize (HN N ltac:(lia)). specialize (K N i h Hi Hh).
  rewrite Rabs_right in HN by (apply Rle_ge, pow_le; lra).
  assert (0 < e * p i h + 1) by nra.
  apply (Rmult_lt_compat_r (e * p i h + 1)) in HN; [|assumption].
  replace (Rabs (f i h - g i h) / (e * p i h + 1) * (e * p i h + 1)) with (Rabs (f i h - g i h)) in HN by (field; lra).
  assert (0 <= r ^ N) by (apply pow_le; lra). nra.
Qed.
Lemma solution_pass external boundary phi : mg_solution P G T X external boundary phi -> forall g i, (g < G)%nat -> (i < cells P)%nat ->
  phi i g = pass_flux P (mg_source (medium P) G X external phi g) (half_sig P (fun m => T m g)) (mg_boundary boundary (mu P) g) 0 (angles P) i.
Proof.
  intros H g i Hg Hi.
  pose proof (solution_jac P G T X external boundary phi ltac:(lia) (proj1 HP) (ps_mg_divisors P G T HP) H) as J. cbv zeta in J.
  specialize (J (i * G + g)%nat ltac:(nia)). unfold jac in J. destruct (flat_index G i g Hg) as (E1 & E2). rewrite E1, E2 in J. rewrite <- J.
  apply pass_flux_at; [exact Hi| |reflexivity]. intros m j Hm Hj. unfold mg_source. f_equal. apply rsum_ext. intros h Hh.
  destruct (flat_index G j h Hh) as (E3 & E4). rewrite E3, E4. reflexivity.
Qed.
Lemma solutions_agree external boundary f g : mg_solution P G T X external boundary f -> mg_solution P G T X external boundary g ->
  agree2 (cells P) G f g.
Proof.
  intros Hf Hg. apply (zero_of_shrinking f g c); [exact Hc|]. intros d Hd W i h Hi Hh.
  rewrite (solution_pass _ _ f Hf h i Hh Hi), (solution_pass _ _ g Hg h i Hh Hi).
  eapply Rle_trans.
  - apply (pass_dominated P G T HP h _ _ _ (fun j => rsum G (fun h' => Rabs (X (medium P j) h h') * p j h')) d i Hh Hi).
    intros m j Hm Hj. unfold mg_source.
    match goal with |- Rabs (?a + ?e - (?b + ?e)) <= _ => replace (a + e - (b + e)) with (a - b) by ring end.
    rewrite <- rsum_minus, <- rsum_scal. apply rsum_abs_le. intros h' Hh'. rewrite <- Rmult_minus_distr_l, Rabs_mult.
    replace (d * (Rabs (X (medium P j) h h') * p j h')) with (Rabs (X (medium P j) h h') * (d * p j h')) by ring.
    apply Rmult_le_compat_l; [apply Rabs_pos|]. apply W; assumption.
  - replace (c * d * p i h) with (d * (c * p i h)) by ring. apply Rmult_le_compat_l; [exact Hd|]. apply damping_tau; assumption.
Qed.
Theorem damped_unique external boundary : exists sol, mg_solution P G T X external boundary sol /\
  forall other, mg_solution P G T X external boundary other -> agree2 (cells P) G other sol.
Proof.
  destruct (fredholm P G T X (proj1 HP) (ps_mg_divisors P G T HP)) with (external := external) (boundary := boundary) as (sol & H).
  - intros phi H. apply (solutions_agree silent silent); [exact H|apply zero_solution].
  - exists sol. split; [exact H|]. intros other Ho. apply (solutions_agree external boundary); assumption.
Qed.
End Damped.
