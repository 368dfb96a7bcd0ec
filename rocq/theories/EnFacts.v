(** Energy identities of the diamond-difference equations. *)
From Coq Require Import Lra Lia Psatz.
From Verif Require Import Base BaseFacts SlabModel SlabSpec MgModel MgSpec TimeModel TimeSpec EnSpec.
Open Scope R_scope.

(** *** sums *)
Lemma total3_ext P G f g : (forall i m h, (i < cells P)%nat -> (m < angles P)%nat -> (h < G)%nat -> f i m h = g i m h) -> total3 P G f = total3 P G g.
Proof. intros H. apply rsum_ext; intros h Hh. apply rsum_ext; intros i Hi. apply rsum_ext; intros m Hm. auto. Qed.
Lemma total3_plus P G f g : total3 P G (fun i m h => f i m h + g i m h) = total3 P G f + total3 P G g.
Proof.
  unfold total3. rewrite <- rsum_plus. apply rsum_ext; intros h Hh. rewrite <- rsum_plus. apply rsum_ext; intros i Hi. apply rsum_plus.
Qed.
Lemma total3_scal P G c f : total3 P G (fun i m h => c * f i m h) = c * total3 P G f.
Proof.
  unfold total3. rewrite <- rsum_scal. apply rsum_ext; intros h Hh. rewrite <- rsum_scal. apply rsum_ext; intros i Hi. apply rsum_scal.
Qed.
Lemma total3_le P G f g : (forall i m h, (i < cells P)%nat -> (m < angles P)%nat -> (h < G)%nat -> f i m h <= g i m h) -> total3 P G f <= total3 P G g.
Proof. intros H. apply rsum_le; intros h Hh. apply rsum_le; intros i Hi. apply rsum_le; intros m Hm. auto. Qed.
Lemma total3_nonneg P G f : (forall i m h, (i < cells P)%nat -> (m < angles P)%nat -> (h < G)%nat -> 0 <= f i m h) -> 0 <= total3 P G f.
Proof. intros H. apply rsum_nonneg; intros h Hh. apply rsum_nonneg; intros i Hi. apply rsum_nonneg; intros m Hm. auto. Qed.

(** A quadratic that is never negative. *)
Lemma quadratic A B C : 0 <= A -> 0 <= C -> (forall t, 0 <= A + 2 * t * B + t * t * C) -> B * B <= A * C.
Proof.
  intros HA HC H. destruct (Req_dec C 0) as [->|NC].
  - destruct (Req_dec B 0) as [->|NB]; [nra|]. exfalso. specialize (H (- (A + 1) / (2 * B))).
    assert (E : A + 2 * (- (A + 1) / (2 * B)) * B + (- (A + 1) / (2 * B)) * (- (A + 1) / (2 * B)) * 0 = -1) by (field; exact NB). lra.
  - specialize (H (- B / C)). assert (E : A + 2 * (- B / C) * B + - B / C * (- B / C) * C = (A * C - B * B) / C) by (field; exact NC).
    rewrite E in H. assert (0 < C) by lra. apply (Rmult_le_compat_r C) in H; [|lra]. replace ((A * C - B * B) / C * C) with (A * C - B * B) in H by (field; exact NC). lra.
Qed.

(** Cauchy-Schwarz for the total with weights [k]. *)
Lemma total3_cauchy P G k a b : (forall i m h, (i < cells P)%nat -> (m < angles P)%nat -> (h < G)%nat -> 0 <= k i m h) ->
  Rsqr (total3 P G (fun i m h => k i m h * (a i m h * b i m h)))
  <= total3 P G (fun i m h => k i m h * Rsqr (a i m h)) * total3 P G (fun i m h => k i m h * Rsqr (b i m h)).
Proof.
  intros K. unfold Rsqr at 1. apply quadratic.
  - apply total3_nonneg; intros. apply Rmult_le_pos; [auto|apply Rle_0_sqr].
  - apply total3_nonneg; intros. apply Rmult_le_pos; [auto|apply Rle_0_sqr].
  - intros t. rewrite <- (total3_scal P G (2 * t)), <- (total3_scal P G (t * t)), <- !total3_plus.
    apply total3_nonneg; intros i m h Hi Hm Hh.
    replace (k i m h * Rsqr (a i m h) + 2 * t * (k i m h * (a i m h * b i m h)) + t * t * (k i m h * Rsqr (b i m h)))
      with (k i m h * Rsqr (a i m h + t * b i m h)) by (unfold Rsqr; ring).
    apply Rmult_le_pos; [auto|apply Rle_0_sqr].
Qed.
Lemma rsum_cauchy n k a b : (forall i, (i < n)%nat -> 0 <= k i) ->
  Rsqr (rsum n (fun i => k i * (a i * b i))) <= rsum n (fun i => k i * Rsqr (a i)) * rsum n (fun i => k i * Rsqr (b i)).
Proof.
  intros K. unfold Rsqr at 1. apply quadratic.
  - apply rsum_nonneg; intros. apply Rmult_le_pos; [auto|apply Rle_0_sqr].
  - apply rsum_nonneg; intros. apply Rmult_le_pos; [auto|apply Rle_0_sqr].
  - intros t. rewrite <- (rsum_scal n (2 * t)), <- (rsum_scal n (t * t)), <- !rsum_plus.
    apply rsum_nonneg; intros i Hi.
    replace (k i * Rsqr (a i) + 2 * t * (k i * (a i * b i)) + t * t * (k i * Rsqr (b i))) with (k i * Rsqr (a i + t * b i)) by (unfold Rsqr; ring).
    apply Rmult_le_pos; [auto|apply Rle_0_sqr].
Qed.

(** *** one ordinate: the streaming term is the gain of the edge energy *)
Lemma streaming_energy n (m : R) (w : vec) (E : vec) : (forall i, (i < n)%nat -> w i <> 0) ->
  rsum n (fun i => w i * (m / w i * (E (S i) - E i)) * ((E i + E (S i)) / 2)) = m / 2 * (Rsqr (E n) - Rsqr (E 0%nat)).
Proof.
  intros W. rewrite <- (rsum_telescope n (fun i => Rsqr (E i))), <- rsum_scal. apply rsum_ext; intros i Hi.
  specialize (W i Hi). unfold Rsqr. field. exact W.
Qed.
Lemma edge_energy n (m : R) (E : vec) : m <> 0 -> m / 2 * (Rsqr (E n) - Rsqr (E 0%nat)) = Rabs m / 2 * (Rsqr (E (outflow_edge n m)) - Rsqr (E (inflow_edge n m))).
Proof.
  intros N. unfold outflow_edge, inflow_edge. destruct (Rlt_dec 0 m) as [H|H].
  - rewrite Rabs_right by lra. reflexivity.
  - rewrite Rabs_left by lra. lra.
Qed.

(** *** all ordinates: what comes in by reflection went out *)
Lemma leakage_nonneg P (E : mat2) : sound_slab P ->
  (forall m, (m < angles P)%nat -> E m (inflow_edge (cells P) (mu P m)) = reflected_in (cells P) (angles P) (mu P) (bc_left P) (bc_right P) E m) ->
  0 <= rsum (angles P) (fun m => wt P m * (mu P m / 2 * (Rsqr (E m (cells P)) - Rsqr (E m 0%nat)))).
Proof.
  intros (_ & Hw & Hn & Hr) HE.
  set (out := fun m => wt P m * (Rabs (mu P m) / 2 * Rsqr (E m (outflow_edge (cells P) (mu P m))))).
  assert (Ho : forall m, (m < angles P)%nat -> 0 <= out m).
  { intros m Hm. unfold out. pose proof (Hw m Hm). pose proof (Rabs_pos (mu P m)). pose proof (Rle_0_sqr (E m (outflow_edge (cells P) (mu P m)))).
    apply Rmult_le_pos; [assumption|]. apply Rmult_le_pos; lra. }
  assert (I : forall m, (m < angles P)%nat -> wt P m * (Rabs (mu P m) / 2 * Rsqr (E m (inflow_edge (cells P) (mu P m)))) <= out (angles P - 1 - m)%nat).
  { intros m Hm. rewrite (HE m Hm). unfold reflected_in. set (m' := (angles P - m - 1)%nat). replace (angles P - 1 - m)%nat with m' by (unfold m'; lia).
    assert (Hm' : (m' < angles P)%nat) by (unfold m'; lia).
    destruct (Nat.ltb m' m && leaves_reflective (mu P) (bc_left P) (bc_right P) m')%bool eqn:B.
    - destruct Hr as [(L & R)|(Sm & Sw)].
      + exfalso. apply Bool.andb_true_iff in B. destruct B as (_ & B). unfold leaves_reflective in B.
        destruct (Rlt_dec 0 (mu P m')); [apply Nat.eqb_eq in B; contradiction|]. destruct (Rlt_dec (mu P m') 0); [apply Nat.eqb_eq in B; contradiction|discriminate].
      + unfold out. replace (wt P m') with (wt P m) by (symmetry; apply Sw, Hm). replace (Rabs (mu P m')) with (Rabs (mu P m)); [lra|].
        unfold m'. rewrite (Sm m Hm), Rabs_Ropp. reflexivity.
    - replace (Rsqr 0) with 0 by (unfold Rsqr; ring). specialize (Ho m' Hm'). lra. }
  apply rsum_le in I. rewrite (rsum_rev (angles P) out) in I.
  rewrite (rsum_ext _ _ (fun m => out m + - (wt P m * (Rabs (mu P m) / 2 * Rsqr (E m (inflow_edge (cells P) (mu P m))))))).
  - rewrite rsum_plus, rsum_opp. lra.
  - intros m Hm. rewrite (edge_energy (cells P) (mu P m) (E m)) by (apply Hn, Hm). unfold out. ring.
Qed.

(** *** scattering never beats removal *)
Lemma scalar_square P psi i g : (forall m, (m < angles P)%nat -> 0 <= wt P m) ->
  Rsqr (scalar_flux P psi i g) <= rsum (angles P) (wt P) * rsum (angles P) (fun m => wt P m * Rsqr (psi i m g)).
Proof.
  intros W. unfold scalar_flux. pose proof (rsum_cauchy (angles P) (wt P) (fun _ => 1) (fun m => psi i m g) W) as H. cbv beta in H.
  rewrite (rsum_ext (angles P) (fun m => wt P m * Rsqr 1) (wt P)) in H by (intros; unfold Rsqr; ring).
  rewrite (rsum_ext (angles P) (fun m => wt P m * (1 * psi i m g)) (fun m => wt P m * psi i m g)) in H by (intros; ring). exact H.
Qed.
Lemma scatter_form G (s : mat2) (f : vec) :
  rsum G (fun g => f g * rsum G (fun h => s g h * f h))
  <= rsum G (fun g => (rsum G (fun h => Rabs (s g h)) + rsum G (fun h => Rabs (s h g))) / 2 * Rsqr (f g)).
Proof.
  apply Rle_trans with (rsum G (fun g => rsum G (fun h => Rabs (s g h) * ((Rsqr (f g) + Rsqr (f h)) / 2)))).
  - apply rsum_le; intros g Hg. rewrite <- rsum_scal. apply rsum_le; intros h Hh.
    destruct (Rle_dec 0 (s g h)) as [C|C]; [rewrite Rabs_right by lra|rewrite Rabs_left by lra].
    + assert (Q : 0 <= s g h * Rsqr (f g - f h)) by (apply Rmult_le_pos; [lra|apply Rle_0_sqr]). unfold Rsqr in *. lra.
    + assert (Q : 0 <= - s g h * Rsqr (f g + f h)) by (apply Rmult_le_pos; [lra|apply Rle_0_sqr]). unfold Rsqr in *. lra.
  - apply Req_le. transitivity (rsum G (fun g => rsum G (fun h => Rabs (s g h) * (Rsqr (f g) / 2))) + rsum G (fun g => rsum G (fun h => Rabs (s g h) * (Rsqr (f h) / 2)))).
    + rewrite <- rsum_plus. apply rsum_ext; intros g Hg. rewrite <- rsum_plus. apply rsum_ext; intros; lra.
    + rewrite (rsum_swap G G (fun g h => Rabs (s g h) * (Rsqr (f h) / 2))), <- rsum_plus. apply rsum_ext; intros g Hg.
      rewrite (rsum_scal_r G (Rsqr (f g) / 2) (fun h => Rabs (s g h))), (rsum_scal_r G (Rsqr (f g) / 2) (fun h => Rabs (s h g))). lra.
Qed.

(** *** the energy inequality of one step *)
Section Core.
Variables (P : sn) (G : nat) (velocity : vec) (xs_total : mat2) (transfer : mat3) (D psi q E : mat3).
Hypothesis HP : sound_slab P.
Hypothesis HM : no_multiplication P G xs_total transfer.
Hypothesis HE : forall g m, (g < G)%nat -> (m < angles P)%nat ->
  (forall i, (i < cells P)%nat -> psi i m g = (E g m i + E g m (S i)) / 2 /\
     D i m g / velocity g + mu P m / dx P i * (E g m (S i) - E g m i) + xs_total (medium P i) g * psi i m g
     = rsum G (fun h => transfer (medium P i) g h * scalar_flux P psi i h) + q i m g) /\
  E g m (inflow_edge (cells P) (mu P m)) = reflected_in (cells P) (angles P) (mu P) (bc_left P) (bc_right P) (E g) m.

Lemma core_scatter :
  total3 P G (fun i m g => dx P i * wt P m * (psi i m g * rsum G (fun h => transfer (medium P i) g h * scalar_flux P psi i h)))
  <= total3 P G (fun i m g => dx P i * wt P m * (xs_total (medium P i) g * Rsqr (psi i m g))).
Proof.
  destruct HP as (Hdx & Hw & _ & _).
  assert (L : total3 P G (fun i m g => dx P i * wt P m * (psi i m g * rsum G (fun h => transfer (medium P i) g h * scalar_flux P psi i h)))
    = rsum (cells P) (fun i => dx P i * rsum G (fun g => scalar_flux P psi i g * rsum G (fun h => transfer (medium P i) g h * scalar_flux P psi i h)))).
  { unfold total3. rewrite (rsum_swap G (cells P)). apply rsum_ext; intros i Hi. rewrite <- rsum_scal. apply rsum_ext; intros g Hg.
    unfold scalar_flux at 2. rewrite <- (rsum_scal_r (angles P)), <- rsum_scal. apply rsum_ext; intros m Hm. ring. }
  assert (R : total3 P G (fun i m g => dx P i * wt P m * (xs_total (medium P i) g * Rsqr (psi i m g)))
    = rsum (cells P) (fun i => dx P i * rsum G (fun g => xs_total (medium P i) g * rsum (angles P) (fun m => wt P m * Rsqr (psi i m g))))).
  { unfold total3. rewrite (rsum_swap G (cells P)). apply rsum_ext; intros i Hi. rewrite <- rsum_scal. apply rsum_ext; intros g Hg.
    rewrite <- !rsum_scal. apply rsum_ext; intros m Hm. ring. }
  rewrite L, R. apply rsum_le; intros i Hi. apply Rmult_le_compat_l; [specialize (Hdx i Hi); lra|].
  eapply Rle_trans; [apply (scatter_form G (transfer (medium P i)) (fun g => scalar_flux P psi i g))|].
  apply rsum_le; intros g Hg. specialize (HM i g Hi Hg).
  set (k := (rsum G (fun h => Rabs (transfer (medium P i) g h)) + rsum G (fun h => Rabs (transfer (medium P i) h g))) / 2) in *.
  assert (K : 0 <= k).
  { unfold k. assert (0 <= rsum G (fun h => Rabs (transfer (medium P i) g h))) by (apply rsum_nonneg; intros; apply Rabs_pos).
    assert (0 <= rsum G (fun h => Rabs (transfer (medium P i) h g))) by (apply rsum_nonneg; intros; apply Rabs_pos). lra. }
  pose proof (scalar_square P psi i g Hw) as S.
  assert (N : 0 <= rsum (angles P) (fun m => wt P m * Rsqr (psi i m g))) by (apply rsum_nonneg; intros; apply Rmult_le_pos; [auto|apply Rle_0_sqr]).
  apply (Rmult_le_compat_l k) in S; [|exact K]. apply (Rmult_le_compat_r _ _ _ N) in HM. lra.
Qed.

Lemma core_leakage :
  0 <= total3 P G (fun i m g => wt P m * (dx P i * (mu P m / dx P i * (E g m (S i) - E g m i)) * ((E g m i + E g m (S i)) / 2))).
Proof.
  unfold total3. apply rsum_nonneg; intros g Hg. rewrite rsum_swap.
  rewrite (rsum_ext _ _ (fun m => wt P m * (mu P m / 2 * (Rsqr (E g m (cells P)) - Rsqr (E g m 0%nat))))).
  - apply leakage_nonneg; [exact HP|]. intros m Hm. exact (proj2 (HE g m Hg Hm)).
  - intros m Hm. rewrite rsum_scal. f_equal. apply (streaming_energy (cells P) (mu P m) (dx P) (E g m)).
    intros i Hi. destruct HP as (Hdx & _). specialize (Hdx i Hi). lra.
Qed.

Lemma energy_core :
  total3 P G (fun i m g => dx P i * wt P m * (D i m g / velocity g * psi i m g)) <= total3 P G (fun i m g => dx P i * wt P m * (q i m g * psi i m g)).
Proof.
  pose proof core_scatter as CS. pose proof core_leakage as L.
  assert (I : total3 P G (fun i m g => dx P i * wt P m * (q i m g * psi i m g))
     + total3 P G (fun i m g => dx P i * wt P m * (psi i m g * rsum G (fun h => transfer (medium P i) g h * scalar_flux P psi i h)))
     = total3 P G (fun i m g => dx P i * wt P m * (D i m g / velocity g * psi i m g))
     + total3 P G (fun i m g => dx P i * wt P m * (xs_total (medium P i) g * Rsqr (psi i m g)))
     + total3 P G (fun i m g => wt P m * (dx P i * (mu P m / dx P i * (E g m (S i) - E g m i)) * ((E g m i + E g m (S i)) / 2)))).
  { rewrite <- !total3_plus. apply total3_ext; intros i m g Hi Hm Hg. destruct (HE g m Hg Hm) as (H & _). destruct (H i Hi) as (H1 & H2). clear H.
    rewrite <- H1. apply (f_equal (fun x => dx P i * wt P m * psi i m g * x)) in H2. unfold Rsqr. lra. }
  lra.
Qed.
End Core.
