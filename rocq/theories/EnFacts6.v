(** Source iteration converges on every mesh. *)
From Coq Require Import Lra Lia Psatz.
From Verif Require Import Base BaseFacts Contraction SlabModel SlabSpec SlabFacts SlabFacts2 SlabFacts3 SlabFacts4.
From Verif Require Import MgModel MgSpec MgFacts MgFacts2 MgFacts3 MgFacts7 TimeModel TimeSpec EnSpec EnFacts EnFacts2 EnFacts3 EnFacts4 EnFacts5.
Open Scope R_scope.

(** *** the reaction norm *)
Section Reaction.
Variables (P : sn) (sigma : vec).
Hypothesis Hdx : forall i, (i < cells P)%nat -> 0 < dx P i.
Hypothesis Hs : forall i, (i < cells P)%nat -> 0 <= sigma (medium P i).
Let N := reaction_norm P sigma.
Lemma reaction_nonneg f : 0 <= N f.
Proof. apply sqrt_pos. Qed.
Lemma reaction_weight i : (i < cells P)%nat -> 0 <= dx P i * sigma (medium P i).
Proof. intros Hi. apply Rmult_le_pos; [left; apply Hdx|apply Hs]; exact Hi. Qed.
Lemma reaction_sq f : N f * N f = rsum (cells P) (fun i => dx P i * sigma (medium P i) * Rsqr (f i)).
Proof.
  unfold N, reaction_norm. apply sqrt_sqrt. apply rsum_nonneg. intros i Hi. apply Rmult_le_pos; [apply reaction_weight; exact Hi|apply Rle_0_sqr].
Qed.
Lemma reaction_ext f g : (forall i, (i < cells P)%nat -> f i = g i) -> N f = N g.
Proof. intros H. unfold N, reaction_norm. f_equal. apply rsum_ext. intros i Hi. rewrite H by exact Hi. reflexivity. Qed.
Lemma reaction_triangle f g : N (fun i => f i + g i) <= N f + N g.
Proof.
  pose proof (reaction_nonneg f) as A. pose proof (reaction_nonneg g) as B.
  apply Rsqr_incr_0_var; [|lra]. unfold Rsqr. rewrite reaction_sq.
  replace ((N f + N g) * (N f + N g)) with (N f * N f + N g * N g + 2 * (N f * N g)) by ring. rewrite !reaction_sq.
  pose proof (rsum_cauchy (cells P) (fun i => dx P i * sigma (medium P i)) f g ltac:(intros; apply reaction_weight; assumption)) as C.
  rewrite <- !reaction_sq in C. cbv beta in C.
  set (X := rsum (cells P) (fun i => dx P i * sigma (medium P i) * (f i * g i))) in *.
  assert (D : X <= N f * N g).
  { apply Rsqr_incr_0_var; [|nra]. eapply Rle_trans; [exact C|]. right. unfold Rsqr. ring. }
  rewrite (rsum_ext (cells P) _ (fun i => dx P i * sigma (medium P i) * Rsqr (f i) + dx P i * sigma (medium P i) * Rsqr (g i) + 2 * (dx P i * sigma (medium P i) * (f i * g i)))) by (intros; unfold Rsqr; ring).
  rewrite !rsum_plus, rsum_scal. fold X. lra.
Qed.
Lemma reaction_opp f : N (fun i => - f i) = N f.
Proof. unfold N, reaction_norm. f_equal. apply rsum_ext. intros i Hi. unfold Rsqr. ring. Qed.
Lemma reaction_scal_le c f g : 0 <= c -> (forall i, (i < cells P)%nat -> Rabs (f i) <= c * Rabs (g i)) -> N f <= c * N g.
Proof.
  intros Hc H. pose proof (reaction_nonneg g). apply Rsqr_incr_0_var; [|nra]. unfold Rsqr.
  replace (c * N g * (c * N g)) with (c * c * (N g * N g)) by ring. rewrite !reaction_sq, <- rsum_scal. apply rsum_le. intros i Hi.
  replace (c * c * (dx P i * sigma (medium P i) * Rsqr (g i))) with (dx P i * sigma (medium P i) * Rsqr (c * g i)) by (unfold Rsqr; ring).
  apply Rmult_le_compat_l; [apply reaction_weight; exact Hi|]. apply Rsqr_le_abs_1. rewrite Rabs_mult, (Rabs_right c) by lra. apply H; exact Hi.
Qed.
End Reaction.

(** *** one group: sweeping contracts *)
Lemma transport_energy P sigma r psi phi :
  sound_slab P -> (forall i, (i < cells P)%nat -> 0 <= sigma (medium P i)) ->
  slab_transport (cells P) (angles P) (mu P) (wt P) (dx P) (fun i => sigma (medium P i)) (fun _ i => r i)
    (fun m => reflected_in (cells P) (angles P) (mu P) (bc_left P) (bc_right P) psi m) psi phi ->
  rsum (cells P) (fun i => dx P i * sigma (medium P i) * Rsqr (phi i)) <= rsum (angles P) (wt P) * rsum (cells P) (fun i => dx P i * (r i * phi i)).
Proof.
  intros HP Hs (B & C & F).
  set (p := fun i m (_ : nat) => (psi m i + psi m (S i)) / 2).
  assert (Sc : forall i, (i < cells P)%nat -> scalar_flux P p i 0%nat = phi i) by (intros i Hi; symmetry; apply F; exact Hi).
  assert (M0 : no_multiplication P 1 (fun _ _ => 0) (fun _ _ _ => 0)).
  { intros i g Hi Hg. right. cbn [rsum]. rewrite Rabs_R0. lra. }
  assert (I : total3 P 1 (fun i m g => dx P i * wt P m * (sigma (medium P i) * p i m g / 1 * p i m g)) <= total3 P 1 (fun i m g => dx P i * wt P m * (r i * p i m g))).
  { apply (energy_core P 1 (fun _ => 1) (fun _ _ => 0) (fun _ _ _ => 0) (fun i m g => sigma (medium P i) * p i m g) p (fun i _ _ => r i) (fun _ => psi) HP M0).
    intros g m Hg Hm. split; [|apply C; exact Hm]. intros i Hi. split; [reflexivity|]. specialize (B m Hm i Hi). cbv beta in B.
    cbn [rsum]. unfold p at 1 2. cbv beta. lra. }
  unfold total3 in I. cbn [rsum] in I. rewrite !Rplus_0_l in I.
  pose proof HP as (Hdx & Hw & _).
  assert (HW : 0 <= rsum (angles P) (wt P)) by (apply rsum_nonneg; exact Hw).
  eapply Rle_trans; [|apply Rmult_le_compat_l; [exact HW|eapply Rle_trans; [exact I|]]].
  - rewrite <- rsum_scal. apply rsum_le. intros i Hi. pose proof (scalar_square P p i 0 Hw) as Q. rewrite Sc in Q by exact Hi.
    replace (rsum (angles P) (fun m => dx P i * wt P m * (sigma (medium P i) * p i m 0%nat / 1 * p i m 0%nat)))
      with (dx P i * sigma (medium P i) * rsum (angles P) (fun m => wt P m * Rsqr (p i m 0%nat))).
    + replace (rsum (angles P) (wt P) * (dx P i * sigma (medium P i) * rsum (angles P) (fun m => wt P m * Rsqr (p i m 0%nat))))
        with (dx P i * sigma (medium P i) * (rsum (angles P) (wt P) * rsum (angles P) (fun m => wt P m * Rsqr (p i m 0%nat)))) by ring.
      apply Rmult_le_compat_l; [|exact Q]. apply Rmult_le_pos; [left; apply Hdx|apply Hs]; exact Hi.
    + rewrite <- rsum_scal. apply rsum_ext. intros m Hm. unfold Rsqr. field.
  - right. apply rsum_ext. intros i Hi. rewrite <- (Sc i Hi). unfold scalar_flux. rewrite <- (rsum_scal (angles P) (r i)), <- rsum_scal.
    apply rsum_ext. intros m Hm. ring.
Qed.

(** the source of one group is a sum over groups [h] of scattering of the errors [e h] *)
Lemma group_energy P groups xs_total xs_scatter k g (e : mat2) psi phi :
  sound_slab P -> (g < groups)%nat ->
  (forall i h, (i < cells P)%nat -> (h < groups)%nat -> 0 <= xs_total (medium P i) h) ->
  (forall h, (h < groups)%nat -> 0 <= k h) ->
  (forall i h, (i < cells P)%nat -> (h < groups)%nat -> Rabs (xs_scatter (medium P i) g h) <= k h * sqrt (xs_total (medium P i) g * xs_total (medium P i) h)) ->
  slab_transport (cells P) (angles P) (mu P) (wt P) (dx P) (fun i => xs_total (medium P i) g)
    (fun _ i => rsum groups (fun h => xs_scatter (medium P i) g h * e i h))
    (fun m => reflected_in (cells P) (angles P) (mu P) (bc_left P) (bc_right P) psi m) psi phi ->
  reaction_norm P (fun m => xs_total m g) phi <=
    rsum (angles P) (wt P) * rsum groups (fun h => k h * reaction_norm P (fun m => xs_total m h) (fun i => e i h)).
Proof.
  intros HP Hg Ht Hk Hs T. pose proof HP as (Hdx & Hw & _).
  assert (HW : 0 <= rsum (angles P) (wt P)) by (apply rsum_nonneg; exact Hw).
  set (N := fun h f => reaction_norm P (fun m => xs_total m h) f).
  assert (Htg : forall h, (h < groups)%nat -> forall i, (i < cells P)%nat -> 0 <= (fun m => xs_total m h) (medium P i)) by (intros; apply Ht; assumption).
  pose proof (transport_energy P (fun m => xs_total m g) _ psi phi HP (Htg g Hg) T) as I.
  pose proof (reaction_sq P (fun m => xs_total m g) Hdx (Htg g Hg) phi) as Sq. cbv beta in Sq, I. rewrite <- Sq in I. clear Sq.
  fold (N g phi) in I |- *.
  assert (N0 : forall h f, 0 <= N h f) by (intros; apply sqrt_pos).
  assert (B : rsum (cells P) (fun i => dx P i * (rsum groups (fun h => xs_scatter (medium P i) g h * e i h) * phi i))
     <= rsum groups (fun h => k h * N h (fun i => e i h)) * N g phi).
  { rewrite (rsum_ext (cells P) _ (fun i => rsum groups (fun h => dx P i * (xs_scatter (medium P i) g h * e i h * phi i)))).
    2:{ intros i Hi. rewrite <- rsum_scal_r, <- rsum_scal. reflexivity. }
    rewrite rsum_swap, <- rsum_scal_r. apply rsum_le. intros h Hh.
    set (a := fun i => sqrt (xs_total (medium P i) h) * Rabs (e i h)). set (b := fun i => sqrt (xs_total (medium P i) g) * Rabs (phi i)).
    apply Rle_trans with (k h * rsum (cells P) (fun i => dx P i * (a i * b i))).
    - rewrite <- rsum_scal. apply rsum_le. intros i Hi. specialize (Hdx i Hi). specialize (Hs i h Hi Hh).
      rewrite sqrt_mult_alt in Hs by (apply Ht; assumption).
      replace (k h * (dx P i * (a i * b i))) with (dx P i * (k h * (sqrt (xs_total (medium P i) g) * sqrt (xs_total (medium P i) h)) * (Rabs (e i h) * Rabs (phi i)))) by (unfold a, b; ring).
      apply Rmult_le_compat_l; [lra|].
      apply Rle_trans with (Rabs (xs_scatter (medium P i) g h) * (Rabs (e i h) * Rabs (phi i))).
      + rewrite <- !Rabs_mult. rewrite <- Rmult_assoc. apply Rle_abs.
      + apply Rmult_le_compat_r; [|exact Hs]. apply Rmult_le_pos; apply Rabs_pos.
    - rewrite Rmult_assoc. apply Rmult_le_compat_l; [apply Hk; exact Hh|].
      pose proof (rsum_cauchy (cells P) (dx P) a b ltac:(intros i Hi; left; apply Hdx; exact Hi)) as C.
      apply Rsqr_incr_0_var; [|apply Rmult_le_pos; apply N0]. eapply Rle_trans; [exact C|]. right.
      assert (S2 : forall h' f, (h' < groups)%nat -> rsum (cells P) (fun i => dx P i * Rsqr (sqrt (xs_total (medium P i) h') * Rabs (f i))) = N h' f * N h' f).
      { intros h' f Hh'. unfold N. rewrite (reaction_sq P (fun m => xs_total m h') Hdx (Htg h' Hh')). apply rsum_ext. intros i Hi.
        unfold Rsqr. replace (sqrt (xs_total (medium P i) h') * Rabs (f i) * (sqrt (xs_total (medium P i) h') * Rabs (f i)))
          with (sqrt (xs_total (medium P i) h') * sqrt (xs_total (medium P i) h') * (Rabs (f i) * Rabs (f i))) by ring.
        rewrite sqrt_sqrt by (apply Ht; assumption). rewrite <- Rabs_mult, (Rabs_right (f i * f i)) by (apply Rle_ge, Rle_0_sqr). ring. }
      unfold a, b. rewrite (S2 h (fun i => e i h) Hh), (S2 g phi Hg). unfold Rsqr. ring. }
  apply step_root1; [apply N0| |].
  - apply Rmult_le_pos; [exact HW|]. apply rsum_nonneg. intros h Hh. apply Rmult_le_pos; [apply Hk; exact Hh|apply N0].
  - eapply Rle_trans; [exact I|]. rewrite Rmult_assoc. apply Rmult_le_compat_l; [exact HW|exact B].
Qed.

Lemma transport_minus P sigt q q' b psi psi' phi phi' :
  slab_transport (cells P) (angles P) (mu P) (wt P) (dx P) sigt q
    (fun m => reflected_in (cells P) (angles P) (mu P) (bc_left P) (bc_right P) psi m + b m) psi phi ->
  slab_transport (cells P) (angles P) (mu P) (wt P) (dx P) sigt q'
    (fun m => reflected_in (cells P) (angles P) (mu P) (bc_left P) (bc_right P) psi' m + b m) psi' phi' ->
  slab_transport (cells P) (angles P) (mu P) (wt P) (dx P) sigt (fun m i => q m i - q' m i)
    (fun m => reflected_in (cells P) (angles P) (mu P) (bc_left P) (bc_right P) (fun m k => psi m k - psi' m k) m)
    (fun m k => psi m k - psi' m k) (fun i => phi i - phi' i).
Proof.
  intros (B & C & F) (B' & C' & F'). split; [|split].
  - intros m Hm i Hi. specialize (B m Hm i Hi). specialize (B' m Hm i Hi). cbv beta in *. lra.
  - intros m Hm. rewrite (C m Hm), (C' m Hm), reflected_minus. ring.
  - intros i Hi. rewrite (F i Hi), (F' i Hi), <- rsum_minus. apply rsum_ext. intros m Hm. lra.
Qed.

Section Coupled.
Variables (P : sn) (groups : nat) (xs_total : mat2) (xs_scatter : mat3) (c : R).
Hypothesis HP : sound_slab P.
Hypothesis Ht : forall i h, (i < cells P)%nat -> (h < groups)%nat -> 0 <= xs_total (medium P i) h.
Hypothesis Hc : 0 <= c.
Hypothesis Hrho : rsum (angles P) (wt P) * c < 1.
Hypothesis HK : coupled_below P groups xs_total xs_scatter c.
Let W := rsum (angles P) (wt P).
Let N h f := reaction_norm P (fun m => xs_total m h) f.
Lemma coupled_W : 0 <= W.
Proof. apply rsum_nonneg. apply HP. Qed.
Lemma coupled_rho : 0 <= W * c < 1.
Proof. split; [apply Rmult_le_pos; [apply coupled_W|exact Hc]|exact Hrho]. Qed.

Lemma group_contracts g (e : mat2) psi phi d : (g < groups)%nat -> 0 <= d ->
  (forall h, (h < groups)%nat -> N h (fun i => e i h) <= d) ->
  slab_transport (cells P) (angles P) (mu P) (wt P) (dx P) (fun i => xs_total (medium P i) g)
    (fun _ i => rsum groups (fun h => xs_scatter (medium P i) g h * e i h))
    (fun m => reflected_in (cells P) (angles P) (mu P) (bc_left P) (bc_right P) psi m) psi phi ->
  N g phi <= W * c * d.
Proof.
  intros Hg Hd He T. destruct HK as (k & K0 & K1 & K2).
  eapply Rle_trans; [apply (group_energy P groups xs_total xs_scatter (k g) g e psi phi HP Hg Ht); [intros; apply K0; assumption|intros; apply K2; assumption|exact T]|].
  fold W. rewrite Rmult_assoc. apply Rmult_le_compat_l; [apply coupled_W|].
  apply Rle_trans with (rsum groups (fun h => k g h * d)).
  - apply rsum_le. intros h Hh. apply Rmult_le_compat_l; [apply K0; assumption|apply He; exact Hh].
  - rewrite rsum_scal_r. apply Rmult_le_compat_r; [exact Hd|apply K1; exact Hg].
Qed.

Lemma divisors_here : mg_divisors P groups xs_total.
Proof. apply sound_divisors; assumption. Qed.

Variables (external boundary : arr3).
Lemma sweep_energy old new sol d :
  mg_solution P groups xs_total xs_scatter external boundary sol ->
  one_sweep_iso P groups xs_total xs_scatter external boundary 1 old = Ok new ->
  0 <= d -> near_energy P groups xs_total d old sol -> near_energy P groups xs_total (W * c * d) new sol.
Proof.
  intros (psi & Hsol) E Hd Hold. pose proof coupled_rho as Hr.
  assert (Hnz : nonzero_ordinates (angles P) (mu P)) by apply HP.
  destruct (one_sweep_groups _ _ _ _ _ _ _ _ E) as [Hg _].
  assert (H : forall g, (g < groups)%nat -> N g (fun i => new i g - sol i g) <= W * c * d); [|exact H].
  intros g. induction g as [g IH] using (well_founded_induction lt_wf). intros Hgg.
  specialize (Hg g Hgg). unfold slab_group in Hg.
  destruct (driver_trace _ _ _ _ _ _ _ _ _ Hg) as (n & x & Hn & Hx0 & Hxn & Hstep & _).
  assert (K : forall k, (k <= n)%nat -> N g (fun i => x k i - sol i g) <= if Nat.eqb k 0 then d else W * c * d).
  { induction k as [|k IHk]; intros Hk.
    - rewrite Hx0. cbn [Nat.eqb]. apply Hold; exact Hgg.
    - cbn [Nat.eqb]. specialize (Hstep k ltac:(lia)).
      destruct (slab_iso_pass_transport P (fun m => xs_total m g) _ _ _ _ _ _ Hnz (divisors_here g Hgg) Hstep) as (p & T).
      set (e := fun i h => if Nat.eqb h g then x k i - sol i g else if Nat.ltb h g then new i h - sol i h else old i h - sol i h).
      refine (group_contracts g e (fun m k0 => p m k0 - psi g m k0) (fun i => x (S k) i - sol i g) d Hgg Hd _ _).
      + intros h Hh. specialize (IHk ltac:(lia)). unfold e. destruct (Nat.eqb_spec h g) as [-> |Hne].
        * destruct (Nat.eqb k 0); [exact IHk|]. fold (N g (fun i => x k i - sol i g)). nra.
        * destruct (Nat.ltb_spec h g); [|apply Hold; exact Hh]. specialize (IH h ltac:(lia) Hh). nra.
      + pose proof (transport_minus P (fun i => xs_total (medium P i) g) _ _ (mg_boundary boundary (mu P) g) p (psi g) _ (fun i => sol i g) T (Hsol g Hgg)) as D.
        eapply transport_ext; [| |exact D]; [|reflexivity].
        intros m i Hm Hi. cbv beta. unfold iso_q, iso_source, mg_source.
        rewrite <- (gs_off_full (cells P) groups sol (medium P) xs_scatter g i Hgg Hi).
        unfold gs_off. rewrite (proj2 (Nat.ltb_lt i (cells P)) Hi).
        assert (S1 := rsum_single groups (fun h => if Nat.eqb h g then xs_scatter (medium P i) g g * (x k i - sol i g) else 0) g Hgg).
        cbv beta in S1. rewrite Nat.eqb_refl in S1. specialize (S1 ltac:(intros h Hh Hne; destruct (Nat.eqb_spec h g); [lia|reflexivity])).
        cbn [cols2 at2 slice3 d3b].
        symmetry. match goal with |- ?l = ?r => transitivity (xs_scatter (medium P i) g g * (x k i - sol i g) + (rsum groups (fun h => if Nat.eqb h g then 0 else xs_scatter (medium P i) g h * (if Nat.ltb h g then new i h else old i h))
           - rsum groups (fun h => if Nat.eqb h g then 0 else xs_scatter (medium P i) g h * (if Nat.ltb h g then sol i h else sol i h)))) end; [|ring].
        rewrite <- S1, <- rsum_minus, <- rsum_plus. apply rsum_ext. intros h Hh. unfold e.
        destruct (Nat.eqb_spec h g) as [-> |Hne]; [ring|]. destruct (Nat.ltb h g); ring. }
  specialize (K n ltac:(lia)). rewrite <- Hxn in K. destruct (Nat.eqb_spec n 0); [lia|exact K].
Qed.

(** The iteration of the program. *)
Lemma outer_energy old flux sol :
  mg_solution P groups xs_total xs_scatter external boundary sol ->
  source_iteration_iso P groups old xs_total xs_scatter external boundary 1 = Ok flux ->
  exists n, (1 <= n <= 100)%nat /\
    (forall d, 0 <= d -> near_energy P groups xs_total d old sol -> near_energy P groups xs_total ((W * c) ^ n * d) flux sol) /\
    ((n < 100)%nat -> forall M, 0 <= M -> near_energy P groups xs_total M flux (fun _ _ => 0) ->
       near_energy P groups xs_total (W * c * (change_gg * INR (cells P) * M) / (1 - W * c)) flux sol).
Proof.
  intros Hsol E. pose proof coupled_rho as Hr. set (rho := W * c) in *.
  assert (Hcap : (1 <= count_gg)%nat) by (unfold count_gg; lia).
  destruct (outer_trace _ _ _ _ _ _ _ Hcap E) as (n & x & Hn & H0 & -> & Hstep & _ & Hconv).
  change count_gg with 100%nat in *.
  assert (HT : forall k d, (k < n)%nat -> 0 <= d -> near_energy P groups xs_total d (x k) sol -> near_energy P groups xs_total (rho * d) (x (S k)) sol).
  { intros k d Hk Hd H. eapply sweep_energy; try eassumption. apply Hstep; exact Hk. }
  assert (Hdx : forall i, (i < cells P)%nat -> 0 < dx P i) by apply HP.
  exists n. split; [exact Hn|]. split.
  - intros d Hd Hdist.
    assert (G : forall k, (k <= n)%nat -> near_energy P groups xs_total (rho ^ k * d) (x k) sol).
    { induction k as [|k IH]; intros Hk.
      - rewrite H0. cbn [pow]. rewrite Rmult_1_l. exact Hdist.
      - cbn [pow]. rewrite Rmult_assoc. apply HT; [lia| |apply IH; lia]. apply Rmult_le_pos; [apply pow_le; lra|exact Hd]. }
    apply G. lia.
  - intros Hlt M HM Hb. destruct (Hconv Hlt) as ((ch & Hch & Hsmall) & _).
    set (dl := change_gg * INR (cells P) * M).
    assert (Hch0 : 0 <= ch).
    { unfold rel_change2 in Hch. destruct (has_zero2 _ _ _); [discriminate|]. injection Hch as <-. apply sqrt_pos. }
    assert (Hclose : near_energy P groups xs_total dl (x n) (x (n - 1)%nat)).
    { intros g Hg. apply Rle_trans with (ch * INR (cells P) * reaction_norm P (fun m => xs_total m g) (fun i => x n i g)).
      - apply reaction_scal_le; [exact Hdx|intros; apply Ht; assumption|apply Rmult_le_pos; [exact Hch0|apply pos_INR]|].
        intros i Hi. apply (rel_change2_entry _ _ _ _ _ i g Hch Hi Hg).
      - specialize (Hb g Hg). cbv beta in Hb. rewrite (reaction_ext P (fun m => xs_total m g) (fun i => x n i g - 0) (fun i => x n i g)) in Hb by (intros; ring).
        unfold dl. apply Rmult_le_compat; [apply Rmult_le_pos; [exact Hch0|apply pos_INR]|apply sqrt_pos| |exact Hb].
        apply Rmult_le_compat_r; [apply pos_INR|lra]. }
    (* distance of the last but one iterate *)
    assert (Fin : forall F : nat -> R, exists e, 0 <= e /\ forall h, (h < groups)%nat -> F h <= e).
    { intros F. exists (rsum groups (fun h => Rabs (F h))). split; [apply rsum_nonneg; intros; apply Rabs_pos|].
      intros h Hh. eapply Rle_trans; [apply Rle_abs|]. apply (rsum_term_le groups (fun h => Rabs (F h)) h); [intros; apply Rabs_pos|exact Hh]. }
    set (y := x (n - 1)%nat) in *.
    assert (Hy : forall d, 0 <= d -> near_energy P groups xs_total d y sol -> near_energy P groups xs_total (rho * d) (x n) sol).
    { intros d Hd H. replace n with (S (n - 1)) by lia. apply HT; [lia|exact Hd|exact H]. }
    assert (Hdl : 0 <= dl).
    { unfold dl. apply Rmult_le_pos; [apply Rmult_le_pos; [left; apply change_gg_pos|apply pos_INR]|exact HM]. }
    assert (Hback : forall d, 0 <= d -> near_energy P groups xs_total d y sol -> near_energy P groups xs_total (dl + rho * d) y sol).
    { intros d Hd H g Hg. specialize (Hclose g Hg). pose proof (Hy d Hd H g Hg) as A.
      rewrite (reaction_ext P (fun m => xs_total m g) (fun i => y i g - sol i g) (fun i => - (x n i g - y i g) + (x n i g - sol i g))) by (intros; ring).
      eapply Rle_trans; [apply reaction_triangle; [exact Hdx|intros; apply Ht; assumption]|].
      rewrite (reaction_opp P (fun m => xs_total m g) (fun i => x n i g - y i g)). lra. }
    destruct (Fin (fun h => reaction_norm P (fun m => xs_total m h) (fun i => y i h - sol i h))) as (e & He & HF).
    assert (Gk : forall k, near_energy P groups xs_total (dl / (1 - rho) + rho ^ k * e) y sol).
    { assert (0 <= dl / (1 - rho)) by (apply Rmult_le_pos; [exact Hdl|left; apply Rinv_0_lt_compat; lra]).
      induction k as [|k IH].
      - intros g Hg. cbn [pow]. eapply Rle_trans; [apply HF; exact Hg|]. lra.
      - assert (0 <= rho ^ k * e) by (apply Rmult_le_pos; [apply pow_le; lra|exact He]).
        intros g Hg. eapply Rle_trans; [apply (Hback (dl / (1 - rho) + rho ^ k * e) ltac:(lra) IH g Hg)|]. right. cbn [pow]. field. lra. }
    assert (Hlast : near_energy P groups xs_total (dl / (1 - rho)) y sol).
    { intros g Hg. apply Rnot_lt_le. intros Hbad.
      set (gap := reaction_norm P (fun m => xs_total m g) (fun i => y i g - sol i g) - dl / (1 - rho)) in *.
      assert (Hgap : 0 < gap) by (unfold gap; lra).
      destruct (pow_lt_1_zero rho ltac:(rewrite Rabs_right; lra) (gap / (e + 1)) ltac:(apply Rdiv_lt_0_compat; lra)) as [K HKK].
      specialize (HKK K ltac:(lia)). specialize (Gk K g Hg). rewrite Rabs_right in HKK by (apply Rle_ge, pow_le; lra).
      assert (rho ^ K * (e + 1) < gap).
      { apply (Rmult_lt_compat_r (e + 1)) in HKK; [|lra]. replace (gap / (e + 1) * (e + 1)) with gap in HKK by (field; lra). exact HKK. }
      assert (0 <= rho ^ K) by (apply pow_le; lra). unfold gap in *. nra. }
    replace (rho * dl / (1 - rho)) with (rho * (dl / (1 - rho))) by (unfold Rdiv; ring).
    apply Hy; [|exact Hlast]. apply Rmult_le_pos; [exact Hdl|left; apply Rinv_0_lt_compat; lra].
Qed.

(** Contraction gives uniqueness, and uniqueness existence. *)
Lemma coupled_at_most_one phi phi' :
  mg_solution P groups xs_total xs_scatter external boundary phi -> mg_solution P groups xs_total xs_scatter external boundary phi' ->
  forall g, (g < groups)%nat -> N g (fun i => phi i g - phi' i g) = 0.
Proof.
  intros (psi & H) (psi' & H'). pose proof coupled_rho as Hr.
  set (e := rsum groups (fun h => N h (fun i => phi i h - phi' i h))).
  assert (N0 : forall h f, 0 <= N h f) by (intros; apply sqrt_pos).
  assert (Up : forall h, (h < groups)%nat -> N h (fun i => phi i h - phi' i h) <= e).
  { intros h Hh. apply (rsum_term_le groups (fun h => N h (fun i => phi i h - phi' i h)) h); [intros; apply N0|exact Hh]. }
  assert (Step : forall d, 0 <= d -> (forall h, (h < groups)%nat -> N h (fun i => phi i h - phi' i h) <= d) ->
     forall h, (h < groups)%nat -> N h (fun i => phi i h - phi' i h) <= W * c * d).
  { intros d Hd Hb g Hg.
    pose proof (transport_minus P (fun i => xs_total (medium P i) g) _ _ (mg_boundary boundary (mu P) g) (psi g) (psi' g) (fun i => phi i g) (fun i => phi' i g) (H g Hg) (H' g Hg)) as D.
    refine (group_contracts g (fun i h => phi i h - phi' i h) _ _ d Hg Hd Hb _). eapply transport_ext; [| |exact D]; [|reflexivity].
    intros m i Hm Hi. cbv beta. unfold mg_source.
    rewrite (rsum_ext groups (fun h => xs_scatter (medium P i) g h * (phi i h - phi' i h)) (fun h => xs_scatter (medium P i) g h * phi i h - xs_scatter (medium P i) g h * phi' i h)) by (intros; ring).
    rewrite rsum_minus. ring. }
  assert (E0 : 0 <= e) by (apply rsum_nonneg; intros; apply N0).
  assert (Pw : forall k h, (h < groups)%nat -> N h (fun i => phi i h - phi' i h) <= (W * c) ^ k * e).
  { induction k as [|k IH]; intros h Hh; [cbn [pow]; rewrite Rmult_1_l; apply Up; exact Hh|].
    cbn [pow]. rewrite Rmult_assoc. apply Step; [apply Rmult_le_pos; [apply pow_le; lra|exact E0]|exact IH|exact Hh]. }
  intros g Hg. apply Rle_antisym; [|apply N0]. apply Rnot_lt_le. intros Hbad.
  destruct (pow_lt_1_zero (W * c) ltac:(rewrite Rabs_right; lra) (N g (fun i => phi i g - phi' i g) / (e + 1)) ltac:(apply Rdiv_lt_0_compat; lra)) as [K HKK].
  specialize (HKK K ltac:(lia)). specialize (Pw K g Hg). rewrite Rabs_right in HKK by (apply Rle_ge, pow_le; lra).
  apply (Rmult_lt_compat_r (e + 1)) in HKK; [|lra].
  replace (N g (fun i => phi i g - phi' i g) / (e + 1) * (e + 1)) with (N g (fun i => phi i g - phi' i g)) in HKK by (field; lra).
  assert (0 <= (W * c) ^ K) by (apply pow_le; lra). nra.
Qed.

Lemma coupled_unique phi phi' :
  mg_solution P groups xs_total xs_scatter external boundary phi -> mg_solution P groups xs_total xs_scatter external boundary phi' ->
  agree2 (cells P) groups phi phi'.
Proof.
  intros H H' i g Hi Hg. pose proof (coupled_at_most_one phi phi' H H') as Z.
  assert (Hnz : nonzero_ordinates (angles P) (mu P)) by apply HP. assert (Hg0 : (0 < groups)%nat) by lia.
  assert (Hdx : forall i, (i < cells P)%nat -> 0 < dx P i) by apply HP.
  assert (Same : forall j h, (j < cells P)%nat -> (h < groups)%nat -> xs_scatter (medium P j) g h * phi j h = xs_scatter (medium P j) g h * phi' j h).
  { intros j h Hj Hh. destruct HK as (k & _ & _ & K2). specialize (K2 j g h Hj Hg Hh).
    destruct (Req_dec (xs_total (medium P j) h) 0) as [Z0|Z0].
    - rewrite Z0, Rmult_0_r, sqrt_0, Rmult_0_r in K2. pose proof (Rabs_pos (xs_scatter (medium P j) g h)).
      assert (Q : xs_scatter (medium P j) g h = 0); [|rewrite Q; ring].
      destruct (Req_dec (xs_scatter (medium P j) g h) 0) as [Q|Q]; [exact Q|]. apply Rabs_pos_lt in Q. lra.
    - f_equal. specialize (Z h Hh). pose proof (reaction_sq P (fun m => xs_total m h) Hdx (fun i0 Hi0 => Ht i0 h Hi0 Hh) (fun i => phi i h - phi' i h)) as Sq.
      fold (N h (fun i => phi i h - phi' i h)) in Sq. rewrite Z, Rmult_0_l in Sq.
      assert (T : dx P j * xs_total (medium P j) h * Rsqr (phi j h - phi' j h) = 0).
      { apply (rsum_zero_terms (cells P) (fun i => dx P i * xs_total (medium P i) h * Rsqr (phi i h - phi' i h))); [|lra|exact Hj].
        intros l Hl. apply Rmult_le_pos; [apply Rmult_le_pos; [left; apply Hdx|apply Ht]; assumption|apply Rle_0_sqr]. }
      pose proof (Hdx j Hj). apply Rmult_integral in T. destruct T as [T|T]; [apply Rmult_integral in T; lra|]. apply Rsqr_0_uniq in T. lra. }
  assert (Eq := solution_jac P groups xs_total xs_scatter external boundary phi Hg0 Hnz divisors_here H).
  assert (Eq' := solution_jac P groups xs_total xs_scatter external boundary phi' Hg0 Hnz divisors_here H'). cbv zeta in Eq, Eq'.
  assert (Hk : (i * groups + g < cells P * groups)%nat) by nia.
  specialize (Eq _ Hk). specialize (Eq' _ Hk). unfold jac in Eq, Eq'. destruct (flat_index groups i g Hg) as [F1 F2]. rewrite F1, F2 in Eq, Eq'.
  rewrite <- Eq, <- Eq'. apply pass_flux_at; [exact Hi| |reflexivity].
  intros m j Hm Hj. unfold mg_source. f_equal. apply rsum_ext. intros h Hh.
  destruct (flat_index groups j h Hh) as [F3 F4]. rewrite F3, F4. apply Same; assumption.
Qed.
End Coupled.

Lemma coupled_exactly_one P groups xs_total xs_scatter external boundary c :
  sound_slab P -> (forall i h, (i < cells P)%nat -> (h < groups)%nat -> 0 <= xs_total (medium P i) h) ->
  0 <= c -> rsum (angles P) (wt P) * c < 1 -> coupled_below P groups xs_total xs_scatter c ->
  exists sol, mg_solution P groups xs_total xs_scatter external boundary sol /\
    forall other, mg_solution P groups xs_total xs_scatter external boundary other -> agree2 (cells P) groups other sol.
Proof.
  intros HP Ht Hc Hrho HK.
  destruct (fredholm P groups xs_total xs_scatter) with (external := external) (boundary := boundary) as (sol & H).
  - apply HP.
  - apply sound_divisors; assumption.
  - intros phi H. eapply (coupled_unique P groups xs_total xs_scatter c); try eassumption. apply zero_solution.
  - exists sol. split; [exact H|]. intros other Ho. eapply (coupled_unique P groups xs_total xs_scatter c); eassumption.
Qed.

(** *** one group: the driver itself *)
Lemma within_group_pass P xs_total xs_scatter off external boundary c f g f' g' :
  sound_slab P -> (forall i, (i < cells P)%nat -> 0 <= xs_total (medium P i)) -> 0 <= c ->
  (forall i, (i < cells P)%nat -> Rabs (xs_scatter (medium P i)) <= c * xs_total (medium P i)) ->
  slab_iso_pass P xs_total xs_scatter off external boundary 0 f = Ok f' ->
  slab_iso_pass P xs_total xs_scatter off external boundary 0 g = Ok g' ->
  reaction_norm P xs_total (fun i => f' i - g' i) <= rsum (angles P) (wt P) * c * reaction_norm P xs_total (fun i => f i - g i).
Proof.
  intros HP Ht Hc Hs Ef Eg. assert (Hnz : nonzero_ordinates (angles P) (mu P)) by apply HP.
  assert (Ht1 : forall i h, (i < cells P)%nat -> (h < 1)%nat -> 0 <= (fun m (_ : nat) => xs_total m) (medium P i) h) by (intros; apply Ht; assumption).
  pose proof (sound_divisors P 1 (fun m _ => xs_total m) HP Ht1 0%nat ltac:(lia)) as Hd. cbv beta in Hd.
  destruct (slab_iso_pass_transport P xs_total _ _ _ _ _ _ Hnz Hd Ef) as (p & T). destruct (slab_iso_pass_transport P xs_total _ _ _ _ _ _ Hnz Hd Eg) as (p' & T').
  pose proof (transport_minus P (fun i => xs_total (medium P i)) _ _ (boundary_in boundary (mu P)) p p' f' g' T T') as D.
  pose proof (group_energy P 1 (fun m _ => xs_total m) (fun m _ _ => xs_scatter m) (fun _ => c) 0%nat (fun i _ => f i - g i) (fun m k => p m k - p' m k) (fun i => f' i - g' i) HP ltac:(lia) Ht1) as G.
  cbv beta in G. cbn [rsum] in G. rewrite !Rplus_0_l in G. rewrite Rmult_assoc. eapply G; [intros; exact Hc| |].
  - intros i h Hi Hh. rewrite sqrt_square by (apply Ht; exact Hi). apply Hs; exact Hi.
  - eapply transport_ext; [| |exact D]; [|reflexivity]. intros m i Hm Hi. cbv beta. cbn [rsum]. unfold iso_q, iso_source. ring.
Qed.
Lemma within_group_energy P xs_total xs_scatter off external boundary c flux_old flux sol :
  sound_slab P -> (forall i, (i < cells P)%nat -> 0 <= xs_total (medium P i)) -> 0 <= c ->
  (forall i, (i < cells P)%nat -> Rabs (xs_scatter (medium P i)) <= c * xs_total (medium P i)) ->
  slab_isotropic_sn P flux_old xs_total xs_scatter off external boundary 0 = Ok flux ->
  (exists r, slab_iso_pass P xs_total xs_scatter off external boundary 0 sol = Ok r /\ forall i, (i < cells P)%nat -> r i = sol i) ->
  exists n, (1 <= n <= 100)%nat /\
    reaction_norm P xs_total (fun i => flux i - sol i) <= (rsum (angles P) (wt P) * c) ^ n * reaction_norm P xs_total (fun i => flux_old i - sol i).
Proof.
  intros HP Ht Hc Hs E (r & Er & Hr).
  destruct (driver_trace _ _ _ _ _ _ _ _ _ E) as (n & x & Hn & H0 & -> & Hstep & _ & _).
  exists n. split; [exact Hn|]. assert (HW : 0 <= rsum (angles P) (wt P)) by (apply rsum_nonneg; apply HP).
  assert (G : forall k, (k <= n)%nat -> reaction_norm P xs_total (fun i => x k i - sol i) <= (rsum (angles P) (wt P) * c) ^ k * reaction_norm P xs_total (fun i => flux_old i - sol i)).
  { induction k as [|k IH]; intros Hk; [rewrite H0; cbn [pow]; lra|].
    cbn [pow]. rewrite (reaction_ext P xs_total (fun i => x (S k) i - sol i) (fun i => x (S k) i - r i)) by (intros i Hi; rewrite Hr by exact Hi; reflexivity).
    eapply Rle_trans; [apply (within_group_pass P xs_total xs_scatter off external boundary c (x k) sol (x (S k)) r HP Ht Hc Hs (Hstep k ltac:(lia)) Er)|].
    rewrite (Rmult_assoc (rsum (angles P) (wt P) * c)). apply Rmult_le_compat_l; [apply Rmult_le_pos; assumption|]. apply IH; lia. }
  apply G. lia.
Qed.
