(** Contraction of the anisotropic group equations; existence and uniqueness of their solution. *)
From Coq Require Import Lra Lia Psatz.
From Verif Require Import Base BaseFacts SlabModel SlabSpec SlabFacts SlabFacts2 MgModel MgSpec MgFacts3 MgFacts7 MgFacts TimeModel TimeSpec EnSpec EnFacts EnFacts2 EnFacts4 EnFacts6 InfSpec AniSpec AniFacts AniFacts2.
Open Scope R_scope.

Lemma double_cauchy n m (k a b : mat2) : (forall i l, (i < n)%nat -> (l < m)%nat -> 0 <= k i l) ->
  rsum n (fun i => rsum m (fun l => k i l * (a i l * b i l)))
  <= sqrt (rsum n (fun i => rsum m (fun l => k i l * Rsqr (a i l)))) * sqrt (rsum n (fun i => rsum m (fun l => k i l * Rsqr (b i l)))).
Proof.
  intros Hk. set (A := rsum n (fun i => rsum m (fun l => k i l * Rsqr (a i l)))). set (C := rsum n (fun i => rsum m (fun l => k i l * Rsqr (b i l)))).
  set (B := rsum n _).
  assert (Sq : forall f : mat2, 0 <= rsum n (fun i => rsum m (fun l => k i l * Rsqr (f i l)))).
  { intros f. apply rsum_nonneg; intros i Hi. apply rsum_nonneg; intros l Hl. apply Rmult_le_pos; [apply Hk; assumption|apply Rle_0_sqr]. }
  assert (HA : 0 <= A) by apply Sq. assert (HC : 0 <= C) by apply Sq.
  assert (Q : B * B <= A * C).
  { apply quadratic; [exact HA|exact HC|]. intros t.
    replace (A + 2 * t * B + t * t * C) with (rsum n (fun i => rsum m (fun l => k i l * Rsqr (a i l + t * b i l)))); [apply Sq|].
    unfold A, B, C. rewrite <- !rsum_scal, <- !rsum_plus. apply rsum_ext; intros i Hi. rewrite <- !rsum_scal, <- !rsum_plus. apply rsum_ext; intros l Hl.
    unfold Rsqr. ring. }
  rewrite <- sqrt_mult_alt by exact HA. destruct (Rle_or_lt B 0) as [H|H]; [pose proof (sqrt_pos (A * C)); lra|].
  rewrite <- (sqrt_square B) by lra. apply sqrt_le_1_alt. exact Q.
Qed.

(** coefficient of moment [l] of group [h] in the source of group [g] *)
Definition coef (xs : mat4) (g h m l : nat) : R :=
  if Nat.eqb h g then (2 * INR l + 1) * xs m g g l else if Nat.eqb l 0 then xs m g h 0%nat else 0.
(** the moments of the source *)
Definition src (P : sn) (groups : nat) (xs : mat4) (g : nat) (e : mat3) : mat2 :=
  fun i l => rsum groups (fun h => coef xs g h (medium P i) l * e i h l).

Lemma src_emission P groups nm xs g (e : mat3) m i : (0 < nm)%nat -> (g < groups)%nat ->
  rsum nm (fun l => src P groups xs g e i l * legendre l (mu P m))
  = rsum groups (fun h => if Nat.eqb h g then 0 else xs (medium P i) g h 0%nat * e i h 0%nat)
    + rsum nm (fun l => (2 * INR l + 1) * xs (medium P i) g g l * e i g l * legendre l (mu P m)).
Proof.
  intros Hn Hg. unfold src.
  rewrite (rsum_ext nm _ (fun l => rsum groups (fun h => coef xs g h (medium P i) l * e i h l * legendre l (mu P m)))) by (intros; rewrite rsum_scal_r; reflexivity).
  rewrite rsum_swap.
  rewrite (rsum_ext groups _ (fun h => (if Nat.eqb h g then 0 else xs (medium P i) g h 0%nat * e i h 0%nat)
     + (if Nat.eqb h g then rsum nm (fun l => (2 * INR l + 1) * xs (medium P i) g g l * e i g l * legendre l (mu P m)) else 0))).
  - rewrite rsum_plus. f_equal. rewrite (rsum_single groups _ g Hg).
    + rewrite Nat.eqb_refl. reflexivity.
    + intros h Hh Hne. apply Nat.eqb_neq in Hne. rewrite Hne. reflexivity.
  - intros h Hh. unfold coef. destruct (Nat.eqb_spec h g) as [-> |Hne].
    + rewrite Rplus_0_l. reflexivity.
    + rewrite Rplus_0_r. rewrite (rsum_single nm _ 0%nat Hn).
      * cbn [Nat.eqb]. rewrite legendre_0. ring.
      * intros l Hl H0. destruct (Nat.eqb_spec l 0); [lia|]. ring.
Qed.

Section Aniso.
Variables (P : sn) (groups nm : nat) (xs_total : mat2) (xs : mat4) (c : R).
Hypothesis HP : sound_slab P.
Hypothesis Hn : (0 < nm)%nat.
Hypothesis HX : exact_products P nm.
Hypothesis Ht : forall i h, (i < cells P)%nat -> (h < groups)%nat -> 0 <= xs_total (medium P i) h.
Hypothesis Hc : 0 <= c < 1.
Hypothesis HK : aniso_coupled P groups nm xs_total xs c.
Let N h f := moment_norm P nm (fun m => xs_total m h) f.

Lemma N_pos h f : 0 <= N h f.
Proof. apply sqrt_pos. Qed.

Lemma aniso_group_energy g (e : mat3) psi phi (k : vec) : (g < groups)%nat ->
  (forall h, (h < groups)%nat -> 0 <= k h) ->
  (forall i h l, (i < cells P)%nat -> (h < groups)%nat -> (l < nm)%nat ->
     Rabs (coef xs g h (medium P i) l) <= (2 * INR l + 1) * (k h * sqrt (xs_total (medium P i) g * xs_total (medium P i) h))) ->
  slab_transport (cells P) (angles P) (mu P) (wt P) (dx P) (fun i => xs_total (medium P i) g)
    (fun m i => rsum nm (fun l => src P groups xs g e i l * legendre l (mu P m)))
    (fun m => reflected_in (cells P) (angles P) (mu P) (bc_left P) (bc_right P) psi m) psi phi ->
  N g (edge_moment P psi) <= rsum groups (fun h => k h * N h (fun i l => e i h l)).
Proof.
  intros Hg Hk Hco T. pose proof HP as (Hdx & Hw & _).
  pose proof (moment_energy P (fun m => xs_total m g) nm (src P groups xs g e) psi phi HP HX (fun i Hi => Ht i g Hi Hg) T) as E.
  pose proof (moment_sq P nm (fun m => xs_total m g) Hdx (fun i Hi => Ht i g Hi Hg) (edge_moment P psi)) as Sq. cbv beta in Sq.
  apply step_root1; [apply N_pos|apply rsum_nonneg; intros h Hh; apply Rmult_le_pos; [apply Hk; exact Hh|apply N_pos]|].
  unfold N at 1 2. rewrite Sq. eapply Rle_trans; [exact E|].
  rewrite (rsum_ext (cells P) _ (fun i => rsum groups (fun h => rsum nm (fun l => dx P i * (coef xs g h (medium P i) l * e i h l * edge_moment P psi i l))))).
  2:{ intros i Hi. rewrite rsum_swap. apply rsum_ext. intros l Hl. unfold src. rewrite <- rsum_scal_r, <- rsum_scal. reflexivity. }
  rewrite rsum_swap, <- rsum_scal_r. apply rsum_le. intros h Hh. rewrite Rmult_assoc.
  set (a := fun i l : nat => sqrt (xs_total (medium P i) h) * Rabs (e i h l)). set (b := fun i l => sqrt (xs_total (medium P i) g) * Rabs (edge_moment P psi i l)).
  assert (Na : N h (fun i l => e i h l) = sqrt (rsum (cells P) (fun i => rsum nm (fun l => dx P i * (2 * INR l + 1) * Rsqr (a i l))))).
  { unfold N, moment_norm. f_equal. apply rsum_ext; intros i Hi. apply rsum_ext; intros l Hl. unfold a. rewrite Rsqr_mult, <- Rsqr_abs, Rsqr_sqrt by (apply Ht; assumption). ring. }
  assert (Nb : N g (edge_moment P psi) = sqrt (rsum (cells P) (fun i => rsum nm (fun l => dx P i * (2 * INR l + 1) * Rsqr (b i l))))).
  { unfold N, moment_norm. f_equal. apply rsum_ext; intros i Hi. apply rsum_ext; intros l Hl. unfold b. rewrite Rsqr_mult, <- Rsqr_abs, Rsqr_sqrt by (apply Ht; assumption). ring. }
  assert (Cs : rsum (cells P) (fun i => rsum nm (fun l => dx P i * (2 * INR l + 1) * (a i l * b i l))) <= N h (fun i l => e i h l) * N g (edge_moment P psi)).
  { rewrite Na, Nb. apply double_cauchy. intros i l Hi Hl. pose proof (pos_INR l). specialize (Hdx i Hi). apply Rmult_le_pos; lra. }
  eapply Rle_trans; [|apply Rmult_le_compat_l; [apply Hk; exact Hh|exact Cs]].
  rewrite <- rsum_scal. apply rsum_le; intros i Hi. rewrite <- rsum_scal. apply rsum_le; intros l Hl.
  specialize (Hdx i Hi).
  replace (k h * (dx P i * (2 * INR l + 1) * (a i l * b i l))) with (dx P i * ((2 * INR l + 1) * (k h * (sqrt (xs_total (medium P i) g) * sqrt (xs_total (medium P i) h))) * (Rabs (e i h l) * Rabs (edge_moment P psi i l)))) by (unfold a, b; ring).
  apply Rmult_le_compat_l; [lra|]. rewrite <- sqrt_mult_alt by (apply Ht; assumption). rewrite Rmult_assoc. eapply Rle_trans; [apply Rle_abs|]. rewrite !Rabs_mult.
  apply Rmult_le_compat_r; [apply Rmult_le_pos; apply Rabs_pos|]. apply Hco; assumption.
Qed.

Lemma coef_bound k g i h l : (g < groups)%nat ->
  (forall g h, (g < groups)%nat -> (h < groups)%nat -> 0 <= k g h) ->
  (forall i g h, (i < cells P)%nat -> (g < groups)%nat -> (h < groups)%nat ->
      Rabs (xs (medium P i) g h 0%nat) <= k g h * sqrt (xs_total (medium P i) g * xs_total (medium P i) h)) ->
  (forall i g l, (i < cells P)%nat -> (g < groups)%nat -> (l < nm)%nat -> Rabs (xs (medium P i) g g l) <= k g g * xs_total (medium P i) g) ->
  (i < cells P)%nat -> (h < groups)%nat -> (l < nm)%nat ->
  Rabs (coef xs g h (medium P i) l) <= (2 * INR l + 1) * (k g h * sqrt (xs_total (medium P i) g * xs_total (medium P i) h)).
Proof.
  intros Hg K0 K2 K3 Hi Hh Hl. unfold coef. pose proof (pos_INR l) as Pl. destruct (Nat.eqb_spec h g) as [-> |Hne].
  - rewrite sqrt_square by (apply Ht; assumption). rewrite Rabs_mult, (Rabs_right (2 * INR l + 1)) by lra.
    apply Rmult_le_compat_l; [lra|]. apply K3; assumption.
  - destruct (Nat.eqb_spec l 0) as [-> |H0].
    + cbn [INR]. replace (2 * 0 + 1) with 1 by ring. rewrite Rmult_1_l. apply K2; assumption.
    + rewrite Rabs_R0. apply Rmult_le_pos; [lra|]. apply Rmult_le_pos; [apply K0; assumption|apply sqrt_pos].
Qed.

Lemma aniso_contracts g (e : mat3) psi phi d : (g < groups)%nat -> 0 <= d ->
  (forall h, (h < groups)%nat -> N h (fun i l => e i h l) <= d) ->
  slab_transport (cells P) (angles P) (mu P) (wt P) (dx P) (fun i => xs_total (medium P i) g)
    (fun m i => rsum nm (fun l => src P groups xs g e i l * legendre l (mu P m)))
    (fun m => reflected_in (cells P) (angles P) (mu P) (bc_left P) (bc_right P) psi m) psi phi ->
  N g (edge_moment P psi) <= c * d.
Proof.
  intros Hg Hd He T. destruct HK as (k & K0 & K1 & K2 & K3).
  eapply Rle_trans; [apply (aniso_group_energy g e psi phi (k g) Hg); [intros; apply K0; assumption|intros; apply coef_bound; assumption|exact T]|].
  apply Rle_trans with (rsum groups (fun h => k g h * d)).
  - apply rsum_le. intros h Hh. apply Rmult_le_compat_l; [apply K0; assumption|apply He; exact Hh].
  - rewrite rsum_scal_r. apply Rmult_le_compat_r; [exact Hd|apply K1; exact Hg].
Qed.

(** the scalar flux of a transport solution is its moment 0 *)
Lemma moment_scalar sigt q b psi phi : slab_transport (cells P) (angles P) (mu P) (wt P) (dx P) sigt q b psi phi ->
  forall i, (i < cells P)%nat -> edge_moment P psi i 0%nat = phi i.
Proof. intros (_ & _ & F) i Hi. rewrite F by exact Hi. apply rsum_ext. intros m Hm. rewrite legendre_0. ring. Qed.

(** two solutions: the differences of their moments satisfy the homogeneous equations *)
Lemma aniso_difference external boundary psi phi psi' phi' g :
  aniso_transport P groups nm xs_total xs external boundary psi phi -> aniso_transport P groups nm xs_total xs external boundary psi' phi' -> (g < groups)%nat ->
  slab_transport (cells P) (angles P) (mu P) (wt P) (dx P) (fun i => xs_total (medium P i) g)
    (fun m i => rsum nm (fun l => src P groups xs g (fun i h l => edge_moment P (psi h) i l - edge_moment P (psi' h) i l) i l * legendre l (mu P m)))
    (fun m => reflected_in (cells P) (angles P) (mu P) (bc_left P) (bc_right P) (fun m k => psi g m k - psi' g m k) m)
    (fun m k => psi g m k - psi' g m k) (fun i => phi i g - phi' i g).
Proof.
  intros H H' Hg.
  pose proof (transport_minus P (fun i => xs_total (medium P i) g) _ _ (mg_boundary boundary (mu P) g) (psi g) (psi' g) (fun i => phi i g) (fun i => phi' i g) (H g Hg) (H' g Hg)) as D.
  eapply transport_ext; [| |exact D]; [|reflexivity]. intros m i Hm Hi. cbv beta. rewrite src_emission by assumption. unfold aniso_emission.
  rewrite (rsum_ext groups (fun h => if Nat.eqb h g then 0 else xs (medium P i) g h 0%nat * (edge_moment P (psi h) i 0 - edge_moment P (psi' h) i 0))
    (fun h => (if Nat.eqb h g then 0 else xs (medium P i) g h 0%nat * phi i h) - (if Nat.eqb h g then 0 else xs (medium P i) g h 0%nat * phi' i h))).
  - rewrite rsum_minus.
    rewrite (rsum_ext nm (fun l => (2 * INR l + 1) * xs (medium P i) g g l * (edge_moment P (psi g) i l - edge_moment P (psi' g) i l) * legendre l (mu P m))
      (fun l => (2 * INR l + 1) * xs (medium P i) g g l * edge_moment P (psi g) i l * legendre l (mu P m) - (2 * INR l + 1) * xs (medium P i) g g l * edge_moment P (psi' g) i l * legendre l (mu P m))) by (intros; ring).
    rewrite rsum_minus. ring.
  - intros h Hh. destruct (Nat.eqb h g); [ring|]. rewrite (moment_scalar _ _ _ _ _ (H h Hh) i Hi), (moment_scalar _ _ _ _ _ (H' h Hh) i Hi). ring.
Qed.
Lemma edge_moment_minus (p q : mat2) i l : edge_moment P (fun m k => p m k - q m k) i l = edge_moment P p i l - edge_moment P q i l.
Proof. unfold edge_moment. rewrite <- rsum_minus. apply rsum_ext. intros. lra. Qed.

Lemma shrink (v : vec) e : 0 <= e -> (forall g, (g < groups)%nat -> 0 <= v g) -> (forall g, (g < groups)%nat -> v g <= e) ->
  (forall d, 0 <= d -> (forall g, (g < groups)%nat -> v g <= d) -> forall g, (g < groups)%nat -> v g <= c * d) ->
  forall g, (g < groups)%nat -> v g = 0.
Proof.
  intros E0 V0 Up Step g Hg.
  assert (Pw : forall k h, (h < groups)%nat -> v h <= c ^ k * e).
  { induction k as [|k IH]; intros h Hh; [cbn [pow]; rewrite Rmult_1_l; apply Up; exact Hh|].
    cbn [pow]. rewrite Rmult_assoc. apply Step; [apply Rmult_le_pos; [apply pow_le; lra|exact E0]|exact IH|exact Hh]. }
  apply Rle_antisym; [|apply V0; exact Hg]. apply Rnot_lt_le. intros Hbad.
  destruct (pow_lt_1_zero c ltac:(rewrite Rabs_right; lra) (v g / (e + 1)) ltac:(apply Rdiv_lt_0_compat; lra)) as [K HKK].
  specialize (HKK K ltac:(lia)). specialize (Pw K g Hg). rewrite Rabs_right in HKK by (apply Rle_ge, pow_le; lra).
  apply (Rmult_lt_compat_r (e + 1)) in HKK; [|lra].
  replace (v g / (e + 1) * (e + 1)) with (v g) in HKK by (field; lra).
  assert (0 <= c ^ K) by (apply pow_le; lra). nra.
Qed.

(** where the total cross section vanishes nothing scatters *)
Lemma coef_null g i h l : (g < groups)%nat -> (i < cells P)%nat -> (h < groups)%nat -> (l < nm)%nat -> xs_total (medium P i) h = 0 -> coef xs g h (medium P i) l = 0.
Proof.
  intros Hg Hi Hh Hl Z. destruct HK as (k & K0 & _ & K2 & K3). pose proof (coef_bound k g i h l Hg K0 K2 K3 Hi Hh Hl) as B.
  rewrite Z, Rmult_0_r, sqrt_0, !Rmult_0_r in B. destruct (Req_dec (coef xs g h (medium P i) l) 0) as [Q|Q]; [exact Q|]. apply Rabs_pos_lt in Q. lra.
Qed.

Lemma moments_agree_null (e : mat3) : (forall h, (h < groups)%nat -> N h (fun i l => e i h l) = 0) ->
  forall g i l, (g < groups)%nat -> (i < cells P)%nat -> (l < nm)%nat -> src P groups xs g e i l = 0.
Proof.
  intros Z g i l Hg Hi Hl. unfold src. apply rsum_zero_ext. intros h Hh.
  destruct (Req_dec (xs_total (medium P i) h) 0) as [Q|Q]; [rewrite (coef_null g i h l Hg Hi Hh Hl Q); ring|].
  pose proof HP as (Hdx & _).
  pose proof (moment_zero_entry P nm (fun m => xs_total m h) Hdx (fun j Hj => Ht j h Hj Hh) (fun i l => e i h l) i l (Z h Hh) Hi Hl Q) as E. cbv beta in E. rewrite E. ring.
Qed.
End Aniso.
