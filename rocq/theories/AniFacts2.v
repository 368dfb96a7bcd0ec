(** Energy estimate for the Legendre moments of a sweep, and the contraction of the group equations. *)
From Coq Require Import Lra Lia Psatz.
From Verif Require Import Base BaseFacts SlabModel SlabSpec MgModel MgSpec TimeModel TimeSpec EnSpec EnFacts EnFacts2 EnFacts4 EnFacts6 InfSpec AniSpec AniFacts.
Open Scope R_scope.

Lemma bessel P nm (p : vec) : exact_products P nm -> (forall m, (m < angles P)%nat -> 0 <= wt P m) ->
  rsum nm (fun l => (2 * INR l + 1) * Rsqr (rsum (angles P) (fun m => wt P m * legendre l (mu P m) * p m)))
  <= rsum (angles P) (fun m => wt P m * Rsqr (p m)).
Proof.
  intros HX Hw. set (A := angles P). set (mom := fun l => rsum A (fun m => wt P m * legendre l (mu P m) * p m)).
  set (c := fun l => (2 * INR l + 1) * mom l). set (s := fun m => rsum nm (fun l => c l * legendre l (mu P m))).
  assert (Cr : rsum A (fun m => wt P m * (p m * s m)) = rsum nm (fun l => c l * mom l)).
  { unfold s. rewrite (rsum_ext A _ (fun m => rsum nm (fun l => c l * (wt P m * legendre l (mu P m) * p m)))).
    - rewrite rsum_swap. apply rsum_ext. intros l Hl. rewrite rsum_scal. reflexivity.
    - intros m Hm. rewrite <- rsum_scal, <- rsum_scal. apply rsum_ext. intros; ring. }
  assert (Sq : rsum A (fun m => wt P m * (s m * s m)) = rsum nm (fun l => c l * mom l)).
  { transitivity (rsum nm (fun l => c l * rsum A (fun m => wt P m * (legendre l (mu P m) * s m)))).
    - rewrite (rsum_ext A _ (fun m => rsum nm (fun l => c l * (wt P m * (legendre l (mu P m) * s m))))).
      + rewrite rsum_swap. apply rsum_ext. intros l Hl. rewrite rsum_scal. reflexivity.
      + intros m Hm. unfold s at 1. rewrite <- rsum_scal_r, <- rsum_scal. apply rsum_ext. intros; ring.
    - apply rsum_ext. intros l Hl. f_equal. unfold s.
      transitivity (rsum nm (fun k => c k * rsum A (fun m => wt P m * (legendre l (mu P m) * legendre k (mu P m))))).
      + rewrite (rsum_ext A _ (fun m => rsum nm (fun k => c k * (wt P m * (legendre l (mu P m) * legendre k (mu P m)))))).
        * rewrite rsum_swap. apply rsum_ext. intros k Hk. rewrite rsum_scal. reflexivity.
        * intros m Hm. rewrite <- rsum_scal, <- rsum_scal. apply rsum_ext. intros; ring.
      + rewrite (rsum_single nm _ l Hl).
        * unfold A. rewrite (table_orthogonal P nm l l HX Hl Hl), Nat.eqb_refl. unfold c. pose proof (pos_INR l). field. lra.
        * intros k Hk Hkl. unfold A. rewrite (table_orthogonal P nm l k HX Hl Hk). destruct (Nat.eqb_spec l k); [congruence|ring]. }
  assert (Pos : 0 <= rsum A (fun m => wt P m * Rsqr (p m - s m))) by (apply rsum_nonneg; intros m Hm; apply Rmult_le_pos; [apply Hw; exact Hm|apply Rle_0_sqr]).
  rewrite (rsum_ext A _ (fun m => wt P m * Rsqr (p m) + (wt P m * (s m * s m) - 2 * (wt P m * (p m * s m))))) in Pos by (intros; unfold Rsqr; ring).
  rewrite rsum_plus, rsum_minus, rsum_scal, Cr, Sq in Pos.
  rewrite (rsum_ext nm _ (fun l => c l * mom l)); [lra|]. intros l Hl. unfold c, mom, A, Rsqr. ring.
Qed.

Lemma moment_energy P sigma nm (s : mat2) psi phi :
  sound_slab P -> exact_products P nm -> (forall i, (i < cells P)%nat -> 0 <= sigma (medium P i)) ->
  slab_transport (cells P) (angles P) (mu P) (wt P) (dx P) (fun i => sigma (medium P i))
    (fun m i => rsum nm (fun l => s i l * legendre l (mu P m)))
    (fun m => reflected_in (cells P) (angles P) (mu P) (bc_left P) (bc_right P) psi m) psi phi ->
  rsum (cells P) (fun i => rsum nm (fun l => dx P i * sigma (medium P i) * (2 * INR l + 1) * Rsqr (edge_moment P psi i l)))
  <= rsum (cells P) (fun i => rsum nm (fun l => dx P i * (s i l * edge_moment P psi i l))).
Proof.
  intros HP HX Hs (B & C & _).
  set (p := fun i m (_ : nat) => (psi m i + psi m (S i)) / 2).
  assert (M0 : no_multiplication P 1 (fun _ _ => 0) (fun _ _ _ => 0)).
  { intros i g Hi Hg. right. cbn [rsum]. rewrite Rabs_R0. lra. }
  assert (I : total3 P 1 (fun i m g => dx P i * wt P m * (sigma (medium P i) * p i m g / 1 * p i m g))
     <= total3 P 1 (fun i m g => dx P i * wt P m * (rsum nm (fun l => s i l * legendre l (mu P m)) * p i m g))).
  { apply (energy_core P 1 (fun _ => 1) (fun _ _ => 0) (fun _ _ _ => 0) (fun i m g => sigma (medium P i) * p i m g) p
      (fun i m _ => rsum nm (fun l => s i l * legendre l (mu P m))) (fun _ => psi) HP M0).
    intros g m Hg Hm. split; [|apply C; exact Hm]. intros i Hi. split; [reflexivity|]. specialize (B m Hm i Hi). cbv beta in B.
    cbn [rsum]. unfold p at 1 2. cbv beta. lra. }
  unfold total3 in I. cbn [rsum] in I. rewrite !Rplus_0_l in I.
  pose proof HP as (Hdx & Hw & _).
  eapply Rle_trans; [|eapply Rle_trans; [exact I|]].
  - apply rsum_le. intros i Hi. pose proof (bessel P nm (fun m => p i m 0%nat) HX Hw) as Q.
    replace (rsum nm (fun l => dx P i * sigma (medium P i) * (2 * INR l + 1) * Rsqr (edge_moment P psi i l)))
      with (dx P i * sigma (medium P i) * rsum nm (fun l => (2 * INR l + 1) * Rsqr (rsum (angles P) (fun m => wt P m * legendre l (mu P m) * p i m 0%nat))))
      by (rewrite <- rsum_scal; apply rsum_ext; intros l Hl; unfold edge_moment, p; ring).
    replace (rsum (angles P) (fun m => dx P i * wt P m * (sigma (medium P i) * p i m 0%nat / 1 * p i m 0%nat)))
      with (dx P i * sigma (medium P i) * rsum (angles P) (fun m => wt P m * Rsqr (p i m 0%nat))).
    + apply Rmult_le_compat_l; [|exact Q]. apply Rmult_le_pos; [left; apply Hdx|apply Hs]; exact Hi.
    + rewrite <- rsum_scal. apply rsum_ext. intros m Hm. unfold Rsqr. field.
  - right. apply rsum_ext. intros i Hi.
    rewrite (rsum_ext (angles P) _ (fun m => rsum nm (fun l => dx P i * s i l * (wt P m * legendre l (mu P m) * p i m 0%nat)))).
    + rewrite rsum_swap. apply rsum_ext. intros l Hl. rewrite rsum_scal. unfold edge_moment, p. ring.
    + intros m Hm. rewrite <- (rsum_scal_r nm (p i m 0%nat)), <- rsum_scal. apply rsum_ext. intros; ring.
Qed.

(** *** the norm of moment tables *)
Section Norm.
Variables (P : sn) (nm : nat) (sigma : vec).
Hypothesis Hdx : forall i, (i < cells P)%nat -> 0 < dx P i.
Hypothesis Hs : forall i, (i < cells P)%nat -> 0 <= sigma (medium P i).
Let N f := moment_norm P nm sigma f.
Let S2 (f : mat2) := rsum (cells P) (fun i => rsum nm (f i)).
Let k i l := dx P i * sigma (medium P i) * (2 * INR l + 1).
Lemma moment_weight i l : (i < cells P)%nat -> 0 <= k i l.
Proof. intros Hi. unfold k. pose proof (pos_INR l). apply Rmult_le_pos; [apply Rmult_le_pos; [left; apply Hdx|apply Hs]; exact Hi|lra]. Qed.
Lemma moment_nonneg f : 0 <= N f.
Proof. apply sqrt_pos. Qed.
Lemma moment_sq f : N f * N f = S2 (fun i l => k i l * Rsqr (f i l)).
Proof.
  unfold N, moment_norm. rewrite sqrt_def; [reflexivity|].
  apply rsum_nonneg. intros i Hi. apply rsum_nonneg. intros l Hl. apply Rmult_le_pos; [apply moment_weight; exact Hi|apply Rle_0_sqr].
Qed.
Lemma moment_ext f g : (forall i l, (i < cells P)%nat -> (l < nm)%nat -> f i l = g i l) -> N f = N g.
Proof. intros H. unfold N, moment_norm. f_equal. apply rsum_ext; intros i Hi. apply rsum_ext; intros l Hl. rewrite H by assumption. reflexivity. Qed.
Lemma moment_triangle f g : N (fun i l => f i l + g i l) <= N f + N g.
Proof.
  set (B := S2 (fun i l => k i l * (f i l * g i l))).
  assert (Q : B * B <= (N f * N f) * (N g * N g)).
  { apply quadratic; [apply Rmult_le_pos; apply moment_nonneg|apply Rmult_le_pos; apply moment_nonneg|]. intros t. rewrite !moment_sq.
    replace (S2 (fun i l => k i l * Rsqr (f i l)) + 2 * t * B + t * t * S2 (fun i l => k i l * Rsqr (g i l)))
      with (S2 (fun i l => k i l * Rsqr (f i l + t * g i l))).
    - apply rsum_nonneg; intros i Hi. apply rsum_nonneg; intros l Hl. apply Rmult_le_pos; [apply moment_weight; exact Hi|apply Rle_0_sqr].
    - unfold B, S2. rewrite <- !rsum_scal, <- !rsum_plus. apply rsum_ext; intros i Hi. rewrite <- !rsum_scal, <- !rsum_plus. apply rsum_ext; intros l Hl.
      unfold Rsqr. ring. }
  assert (Bl : B <= N f * N g).
  { assert (0 <= N f * N g) by (apply Rmult_le_pos; apply moment_nonneg). nra. }
  pose proof (moment_nonneg f) as F. pose proof (moment_nonneg g) as G. pose proof (moment_nonneg (fun i l => f i l + g i l)) as H.
  apply Rsqr_incr_0_var; [|lra]. unfold Rsqr. rewrite moment_sq.
  replace (S2 (fun i l => k i l * Rsqr (f i l + g i l))) with (N f * N f + 2 * B + N g * N g); [nra|].
  rewrite !moment_sq. unfold B, S2. rewrite <- !rsum_scal, <- !rsum_plus. apply rsum_ext; intros i Hi. rewrite <- !rsum_scal, <- !rsum_plus. apply rsum_ext; intros l Hl.
  unfold Rsqr. ring.
Qed.
Lemma scalar_below_moment f : (0 < nm)%nat -> reaction_norm P sigma (fun i => f i 0%nat) <= N f.
Proof.
  intros Hn. unfold reaction_norm, N, moment_norm. apply sqrt_le_1_alt. apply rsum_le. intros i Hi.
  eapply Rle_trans; [|apply (rsum_term_le nm (fun l => dx P i * sigma (medium P i) * (2 * INR l + 1) * Rsqr (f i l)) 0); [|exact Hn]].
  - cbn [INR]. right. ring.
  - intros l Hl. apply Rmult_le_pos; [apply moment_weight; exact Hi|apply Rle_0_sqr].
Qed.
Lemma moment_of_scalar phi : (0 < nm)%nat -> N (only_scalar phi) = reaction_norm P sigma phi.
Proof.
  intros Hn. unfold reaction_norm, N, moment_norm. f_equal. apply rsum_ext. intros i Hi.
  rewrite (rsum_single nm _ 0%nat Hn).
  - unfold only_scalar. cbn [Nat.eqb INR]. ring.
  - intros l Hl H0. unfold only_scalar. destruct (Nat.eqb_spec l 0); [lia|]. unfold Rsqr. ring.
Qed.
Lemma moment_zero_entry f i l : N f = 0 -> (i < cells P)%nat -> (l < nm)%nat -> sigma (medium P i) <> 0 -> f i l = 0.
Proof.
  intros Z Hi Hl Hne. pose proof (moment_sq f) as Q. rewrite Z, Rmult_0_l in Q.
  assert (T : forall i, (i < cells P)%nat -> forall l, (l < nm)%nat -> 0 <= k i l * Rsqr (f i l)) by (intros; apply Rmult_le_pos; [apply moment_weight; assumption|apply Rle_0_sqr]).
  assert (T1 : rsum nm (fun l => k i l * Rsqr (f i l)) = 0).
  { apply (rsum_zero_terms (cells P) (fun i => rsum nm (fun l => k i l * Rsqr (f i l)))); [intros j Hj; apply rsum_nonneg; apply T; exact Hj|unfold S2 in Q; lra|exact Hi]. }
  assert (T2 : k i l * Rsqr (f i l) = 0).
  { apply (rsum_zero_terms nm (fun l => k i l * Rsqr (f i l))); [apply T; exact Hi|lra|exact Hl]. }
  apply Rmult_integral in T2. destruct T2 as [T2|T2]; [|apply Rsqr_0_uniq; exact T2]. exfalso. unfold k in T2.
  specialize (Hdx i Hi). pose proof (pos_INR l). apply Rmult_integral in T2. destruct T2 as [T2|T2]; [|lra]. apply Rmult_integral in T2. destruct T2; lra.
Qed.
End Norm.
