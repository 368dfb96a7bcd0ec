(** Stability of the time-dependent solver in the energy norm, for any mesh and any step. *)
From Coq Require Import Lra Lia Psatz.
From Verif Require Import Base BaseFacts SlabModel SlabSpec MgModel MgSpec TimeModel TimeSpec EnSpec EnFacts.
Open Scope R_scope.

(** *** the norm *)
Section Norm.
Variables (P : sn) (G : nat) (velocity : vec).
Hypothesis HP : sound_slab P.
Hypothesis HV : forall g, (g < G)%nat -> 0 < velocity g.
Definition ip (a b : mat3) : R := total3 P G (fun i m g => dx P i * wt P m / velocity g * (a i m g * b i m g)).
Lemma weight_nonneg i m g : (i < cells P)%nat -> (m < angles P)%nat -> (g < G)%nat -> 0 <= dx P i * wt P m / velocity g.
Proof.
  intros Hi Hm Hg. destruct HP as (Hdx & Hw & _). specialize (Hdx i Hi). specialize (Hw m Hm). specialize (HV g Hg).
  apply Rmult_le_pos; [apply Rmult_le_pos; lra|]. left. apply Rinv_0_lt_compat, HV.
Qed.
Lemma norm_ip a : density_norm P G velocity a = sqrt (ip a a).
Proof. unfold density_norm, ip. f_equal. apply total3_ext; intros. unfold Rsqr, Rdiv. ring. Qed.
Lemma ip_nonneg a : 0 <= ip a a.
Proof. apply total3_nonneg; intros. apply Rmult_le_pos; [apply weight_nonneg; assumption|]. apply Rle_0_sqr. Qed.
Lemma norm_sq a : Rsqr (density_norm P G velocity a) = ip a a.
Proof. rewrite norm_ip. apply Rsqr_sqrt, ip_nonneg. Qed.
Lemma norm_nonneg a : 0 <= density_norm P G velocity a.
Proof. apply sqrt_pos. Qed.
Lemma ip_cauchy a b : ip a b <= density_norm P G velocity a * density_norm P G velocity b.
Proof.
  apply Rsqr_incr_0_var; [|apply Rmult_le_pos; apply norm_nonneg].
  rewrite Rsqr_mult, !norm_sq. unfold ip. apply total3_cauchy. intros; apply weight_nonneg; assumption.
Qed.
Lemma source_cauchy q a : total3 P G (fun i m g => dx P i * wt P m * (q i m g * a i m g)) <= source_norm P G velocity q * density_norm P G velocity a.
Proof.
  destruct HP as (Hdx & Hw & _).
  apply Rsqr_incr_0_var; [|apply Rmult_le_pos; apply sqrt_pos].
  rewrite Rsqr_mult, norm_sq. unfold source_norm. rewrite Rsqr_sqrt.
  - pose proof (total3_cauchy P G (fun i m g => dx P i * wt P m / velocity g) (fun i m g => velocity g * q i m g) a weight_nonneg) as C.
    cbv beta in C. rewrite (total3_ext P G (fun i m h => dx P i * wt P m / velocity h * (velocity h * q i m h * a i m h)) (fun i m g => dx P i * wt P m * (q i m g * a i m g))) in C
      by (intros i m g Hi Hm Hg; field; specialize (HV g Hg); lra).
    eapply Rle_trans; [exact C|]. apply Req_le. f_equal; apply total3_ext; intros i m g Hi Hm Hg; unfold Rsqr; specialize (HV g Hg); field; lra.
  - apply total3_nonneg; intros i m g Hi Hm Hg. specialize (Hdx i Hi). specialize (Hw m Hm). specialize (HV g Hg).
    apply Rmult_le_pos; [|apply Rle_0_sqr]. apply Rmult_le_pos; [apply Rmult_le_pos|]; lra.
Qed.
End Norm.

(** *** the difference of two steps *)
Lemma reflected_minus n A mu bl br (E E' : mat2) m :
  reflected_in n A mu bl br (fun m k => E m k - E' m k) m = reflected_in n A mu bl br E m - reflected_in n A mu bl br E' m.
Proof. unfold reflected_in. destruct (_ && _)%bool; ring. Qed.
Lemma scalar_minus P a b i h : scalar_flux P (minus3 a b) i h = scalar_flux P a i h - scalar_flux P b i h.
Proof. unfold scalar_flux, minus3. rewrite <- rsum_minus. apply rsum_ext; intros; ring. Qed.

Lemma step_energy P G velocity xs_total transfer ext ext' bnd D D' emit emit' E E' psi psi' :
  sound_slab P -> no_multiplication P G xs_total transfer ->
  step_equation P G velocity xs_total transfer ext bnd D emit E psi ->
  step_equation P G velocity xs_total transfer ext' bnd D' emit' E' psi' ->
  total3 P G (fun i m g => dx P i * wt P m * (minus3 D D' i m g / velocity g * minus3 psi psi' i m g))
  <= total3 P G (fun i m g => dx P i * wt P m *
       (minus3 (step_input P G transfer ext emit psi) (step_input P G transfer ext' emit' psi') i m g * minus3 psi psi' i m g)).
Proof.
  intros HP HM H1 H2.
  apply (energy_core P G velocity xs_total transfer (minus3 D D') (minus3 psi psi')
           (minus3 (step_input P G transfer ext emit psi) (step_input P G transfer ext' emit' psi')) (fun g m k => E g m k - E' g m k) HP HM).
  intros g m Hg Hm. destruct (H1 g m Hg Hm) as (A1 & B1). destruct (H2 g m Hg Hm) as (A2 & B2). split.
  - intros i Hi. destruct (A1 i Hi) as (C1 & F1). destruct (A2 i Hi) as (C2 & F2). split; [unfold minus3; rewrite C1, C2; lra|].
    rewrite (rsum_ext G (fun h => transfer (medium P i) g h * scalar_flux P (minus3 psi psi') i h)
       (fun h => transfer (medium P i) g h * scalar_flux P psi i h - transfer (medium P i) g h * scalar_flux P psi' i h))
      by (intros; rewrite scalar_minus; ring).
    rewrite rsum_minus. unfold minus3, step_input.
    rewrite (rsum_ext G (fun h => transfer (medium P i) g h * (emit i h - scalar_flux P psi i h))
       (fun h => transfer (medium P i) g h * emit i h - transfer (medium P i) g h * scalar_flux P psi i h)) by (intros; ring).
    rewrite (rsum_ext G (fun h => transfer (medium P i) g h * (emit' i h - scalar_flux P psi' i h))
       (fun h => transfer (medium P i) g h * emit' i h - transfer (medium P i) g h * scalar_flux P psi' i h)) by (intros; ring).
    rewrite !rsum_minus. unfold Rdiv in *. lra.
  - rewrite reflected_minus, B1, B2. lra.
Qed.

(** *** recurrences *)
Lemma step_root a b c : 0 <= a -> 0 <= b -> 0 <= c -> a * a <= b * b + c * a -> a <= b + c.
Proof. intros. apply Rnot_lt_le. intros N. nra. Qed.
Lemma step_root1 a b : 0 <= a -> 0 <= b -> a * a <= b * a -> a <= b.
Proof. intros. apply Rnot_lt_le. intros N. nra. Qed.

Section Stability.
Variables (P : sn) (G : nat) (velocity : vec) (dt : R) (xs_total : mat2) (transfer : mat3).
Hypothesis HP : sound_slab P.
Hypothesis HM : no_multiplication P G xs_total transfer.
Hypothesis HV : forall g, (g < G)%nat -> 0 < velocity g.
Hypothesis Hdt : 0 < dt.
Let N := density_norm P G velocity.
Let S0 := source_norm P G velocity.
Let IP := ip P G velocity.
Definition twice (a b : mat3) : mat3 := fun i m g => 2 * a i m g - b i m g.

Lemma euler_identity a b : 2 * IP (minus3 a b) a = IP a a - IP b b + IP (minus3 a b) (minus3 a b).
Proof.
  unfold IP, ip. rewrite <- (total3_scal P G 2).
  enough (E : total3 P G (fun i m g => 2 * (dx P i * wt P m / velocity g * (minus3 a b i m g * a i m g))) + total3 P G (fun i m g => dx P i * wt P m / velocity g * (b i m g * b i m g))
    = total3 P G (fun i m g => dx P i * wt P m / velocity g * (a i m g * a i m g)) + total3 P G (fun i m g => dx P i * wt P m / velocity g * (minus3 a b i m g * minus3 a b i m g))) by lra.
  rewrite <- !total3_plus. apply total3_ext; intros. unfold minus3. ring.
Qed.
Lemma twice_identity a b : IP (twice a b) (twice a b) = IP a a + 2 * IP (minus3 a b) a + IP (minus3 a b) (minus3 a b).
Proof.
  unfold IP, ip. rewrite <- (total3_scal P G 2), <- !total3_plus. apply total3_ext; intros. unfold twice, minus3. ring.
Qed.
Lemma bdf2_identity a b c : IP a a + IP (twice a b) (twice a b) <= IP b b + IP (twice b c) (twice b c) + 2 * IP (fun i m g => 3 * a i m g - 4 * b i m g + c i m g) a.
Proof.
  unfold IP, ip. rewrite <- (total3_scal P G 2), <- !total3_plus. apply total3_le; intros i m g Hi Hm Hg.
  pose proof (weight_nonneg P G velocity HP HV i m g Hi Hm Hg) as W. set (k := dx P i * wt P m / velocity g) in *.
  assert (Q : 0 <= k * Rsqr (a i m g - 2 * b i m g + c i m g)) by (apply Rmult_le_pos; [exact W|apply Rle_0_sqr]). unfold twice, Rsqr in *. lra.
Qed.

Variables (ext ext' bnd : arr3) (emit emit' : mat2) (psi psi' old old' older older' : mat3).
Let d := minus3 psi psi'. Let d1 := minus3 old old'. Let d2 := minus3 older older'.
Let q := minus3 (step_input P G transfer ext emit psi) (step_input P G transfer ext' emit' psi').

Lemma euler_inequality E E' :
  step_equation P G velocity xs_total transfer ext bnd (euler_derivative dt psi old) emit E psi ->
  step_equation P G velocity xs_total transfer ext' bnd (euler_derivative dt psi' old') emit' E' psi' ->
  IP (minus3 d d1) d <= dt * S0 q * N d.
Proof.
  intros H1 H2. pose proof (step_energy _ _ _ _ _ _ _ _ _ _ _ _ _ _ _ _ HP HM H1 H2) as H.
  pose proof (source_cauchy P G velocity HP HV q d) as C. fold S0 N in C.
  assert (H' : total3 P G (fun i m g => dx P i * wt P m * (minus3 (euler_derivative dt psi old) (euler_derivative dt psi' old') i m g / velocity g * minus3 psi psi' i m g)) <= S0 q * N d) by (eapply Rle_trans; [exact H|exact C]).
  clear H C. apply (Rmult_le_compat_l dt) in H'; [|lra]. rewrite <- total3_scal in H'.
  replace (IP (minus3 d d1) d) with (total3 P G (fun i m g => dt * (dx P i * wt P m * (minus3 (euler_derivative dt psi old) (euler_derivative dt psi' old') i m g / velocity g * minus3 psi psi' i m g)))); [lra|].
  unfold IP, ip. apply total3_ext; intros i m g Hi Hm Hg. unfold d, d1, minus3, euler_derivative. specialize (HV g Hg). field. lra.
Qed.
Lemma bdf2_inequality E E' :
  step_equation P G velocity xs_total transfer ext bnd (bdf2_derivative dt psi old older) emit E psi ->
  step_equation P G velocity xs_total transfer ext' bnd (bdf2_derivative dt psi' old' older') emit' E' psi' ->
  IP (fun i m g => 3 * d i m g - 4 * d1 i m g + d2 i m g) d <= 2 * dt * S0 q * N d.
Proof.
  intros H1 H2. pose proof (step_energy _ _ _ _ _ _ _ _ _ _ _ _ _ _ _ _ HP HM H1 H2) as H.
  pose proof (source_cauchy P G velocity HP HV q d) as C. fold S0 N in C.
  assert (H' : total3 P G (fun i m g => dx P i * wt P m * (minus3 (bdf2_derivative dt psi old older) (bdf2_derivative dt psi' old' older') i m g / velocity g * minus3 psi psi' i m g)) <= S0 q * N d) by (eapply Rle_trans; [exact H|exact C]).
  clear H C. apply (Rmult_le_compat_l (2 * dt)) in H'; [|lra]. rewrite <- total3_scal in H'.
  replace (IP (fun i m g => 3 * d i m g - 4 * d1 i m g + d2 i m g) d) with (total3 P G (fun i m g => 2 * dt * (dx P i * wt P m * (minus3 (bdf2_derivative dt psi old older) (bdf2_derivative dt psi' old' older') i m g / velocity g * minus3 psi psi' i m g)))); [lra|].
  unfold IP, ip. apply total3_ext; intros i m g Hi Hm Hg. unfold d, d1, d2, minus3, bdf2_derivative. specialize (HV g Hg). field. lra.
Qed.

Lemma norm_sq' a : N a * N a = IP a a.
Proof. exact (norm_sq P G velocity HP HV a). Qed.
Lemma N_nonneg a : 0 <= N a.
Proof. apply norm_nonneg. Qed.
Lemma S_nonneg a : 0 <= S0 a.
Proof. apply sqrt_pos. Qed.

Lemma euler_step E E' :
  step_equation P G velocity xs_total transfer ext bnd (euler_derivative dt psi old) emit E psi ->
  step_equation P G velocity xs_total transfer ext' bnd (euler_derivative dt psi' old') emit' E' psi' ->
  N d <= N d1 + dt * S0 q /\ N d * N d + N (twice d d1) * N (twice d d1) <= 2 * (N d1 * N d1) + 6 * dt * S0 q * N d.
Proof.
  intros H1 H2. pose proof (euler_inequality E E' H1 H2) as I. pose proof (euler_identity d d1) as Id.
  pose proof (ip_cauchy P G velocity HP HV d1 d) as C. fold IP N in C.
  assert (L : IP (minus3 d d1) d = IP d d - IP d1 d).
  { unfold IP, ip. enough (Q : total3 P G (fun i m g => dx P i * wt P m / velocity g * (minus3 d d1 i m g * d i m g)) + total3 P G (fun i m g => dx P i * wt P m / velocity g * (d1 i m g * d i m g)) = total3 P G (fun i m g => dx P i * wt P m / velocity g * (d i m g * d i m g))) by lra.
    rewrite <- total3_plus. apply total3_ext; intros. unfold minus3. ring. }
  pose proof (N_nonneg d). pose proof (N_nonneg d1). pose proof (S_nonneg q). split.
  - apply step_root1; [assumption|nra|]. rewrite norm_sq'. nra.
  - rewrite !norm_sq', twice_identity. pose proof (ip_nonneg P G velocity HP HV (minus3 d d1)) as Z. fold IP in Z. lra.
Qed.
Lemma bdf2_step E E' :
  step_equation P G velocity xs_total transfer ext bnd (bdf2_derivative dt psi old older) emit E psi ->
  step_equation P G velocity xs_total transfer ext' bnd (bdf2_derivative dt psi' old' older') emit' E' psi' ->
  N d * N d + N (twice d d1) * N (twice d d1) <= N d1 * N d1 + N (twice d1 d2) * N (twice d1 d2) + 4 * dt * S0 q * N d.
Proof.
  intros H1 H2. pose proof (bdf2_inequality E E' H1 H2) as I. pose proof (bdf2_identity d d1 d2) as Id. rewrite !norm_sq'. lra.
Qed.
End Stability.
