(** Floating-point sweeps: several groups, monotonicity, scaling, no source. *)
From Coq Require Import ZArith Lra Lia Bool FunctionalExtensionality.
From Verif Require Import Base BaseFacts SlabModel SlabSpec MgModel MgSpec.
From Verif Require Import FltModel FltSpec FltFacts FltFacts2 FixSpec.
From Flocq Require Import Core.
Open Scope R_scope.

Lemma flt_outer_nonneg rnd norm norm2 P groups T s ext bnd fo : correct_rounding rnd ->
  nonzero_ordinates (angles P) (mu P) -> mg_thin P groups T -> no_underflow rnd P ->
  nonneg_problem P groups s ext bnd -> (forall i g, (i < cells P)%nat -> (g < groups)%nat -> 0 <= fo i g) ->
  exists flux, flt_source_iteration rnd norm norm2 P groups fo T s ext bnd = Ok flux /\
    forall i g, (i < cells P)%nat -> (g < groups)%nat -> 0 <= flux i g.
Proof.
  intros Hr Hnz Ht Hu (Hw & Hs & He & Hb) Hf.
  destruct (flt_outer_total rnd norm norm2 P groups fo T s ext bnd Hnz) as [f E]. exists f. split; [exact E|].
  assert (X := outer_rel rnd (fun x y => 0 <= x /\ y = x) (fun c => 0 <= c) (fun d => 0 < d) (conj (Rle_refl 0) eq_refl)
    (same_add rnd Hr) (same_mul rnd Hr) (same_div rnd Hr)
    (fun norm n a b a' b' H H' => change_ext rnd norm n a b a' b'
       (fun i Hi => ltac:(destruct (H' i Hi) as [_ ->]; tauto)) (fun i Hi => ltac:(destruct (H' i Hi) as [_ ->], (H i Hi) as [_ ->]; reflexivity)))
    (fun norm n g a b a' b' H H' => change2_ext rnd norm n g a b a' b'
       (fun i h Hi Hh => ltac:(destruct (H' i h Hi Hh) as [_ ->]; tauto)) (fun i h Hi Hh => ltac:(destruct (H' i h Hi Hh) as [_ ->], (H i h Hi Hh) as [_ ->]; reflexivity)))
    norm norm2 P groups T s ext ext bnd bnd
    (fun g Hg => thin_coefficients rnd Hr P _ _ (Ht g Hg) Hu (fun i Hi => Hs i g g Hi Hg Hg))
    Hs (nonneg_weights rnd Hr P Hw)).
  specialize (X ltac:(split; [reflexivity|]; split; [reflexivity|]; intros; split; auto)).
  specialize (X ltac:(split; [reflexivity|]; split; [reflexivity|]; intros; split; [apply Hb; assumption|reflexivity])).
  specialize (X fo fo ltac:(intros i g Hi Hg; split; auto)).
  rewrite E in X. cbn [out_rel] in X. intros i g Hi Hg. apply (X i g Hi Hg).
Qed.

(** *** Monotonicity *)
Section Mono.
Variable rnd : R -> R.
Hypothesis Hr : correct_rounding rnd.
Variables (P : sn) (T s : vec).
Hypothesis Ht : thin_mesh P T.
Hypothesis Hu : no_underflow rnd P.
Hypothesis Hs : forall i, (i < cells P)%nat -> 0 <= s (medium P i).
Hypothesis Hw : forall m, (m < angles P)%nat -> 0 <= wt P m.

Lemma le_add x x' y y' : x <= x' -> y <= y' -> rnd (x + y) <= rnd (x' + y').
Proof. intros. apply (proj1 Hr). lra. Qed.
Lemma le_mul c x x' : 0 <= c -> x <= x' -> rnd (c * x) <= rnd (c * x').
Proof. intros. apply (proj1 Hr). nra. Qed.
Lemma le_div d x x' : 0 < d -> x <= x' -> rnd (x / d) <= rnd (x' / d).
Proof. intros. apply (proj1 Hr). apply Rmult_le_compat_r; [left; apply Rinv_0_lt_compat; assumption|assumption]. Qed.

Lemma flt_pass_monotone off off' ext ext' bnd bnd' edges fo fo' flux flux' :
  data_le P off off' ext ext' bnd bnd' -> (forall i, (i < cells P)%nat -> fo i <= fo' i) ->
  flt_iso_pass rnd P T s off ext bnd edges fo = Ok flux ->
  flt_iso_pass rnd P T s off' ext' bnd' edges fo' = Ok flux' ->
  forall i, flux i <= flux' i.
Proof.
  intros (E1 & E2 & He & Hb & Ho) Hf R1 R2.
  assert (X := pass_rel rnd Rle (fun c => 0 <= c) (fun d => 0 < d) (Rle_refl 0) le_add le_mul le_div P T s off off'
    ext ext' bnd bnd' edges fo fo' (thin_coefficients rnd Hr P T s Ht Hu Hs) (nonneg_weights rnd Hr P Hw) E1 E2 He Hb Ho Hf).
  rewrite R1, R2 in X. exact X.
Qed.

(** the iterates from the zero flux, or from any flux a pass does not lower, never decrease; they stay
    below every flux that a pass does not raise *)
Lemma flt_iterates off ext bnd norm fo flux :
  nonzero_ordinates (angles P) (mu P) ->
  (forall f, flt_iso_pass rnd P T s off ext bnd 0 fo = Ok f -> forall i, (i < cells P)%nat -> fo i <= f i) ->
  flt_isotropic_sn rnd norm P fo T s off ext bnd 0 = Ok flux ->
  exists n x, (1 <= n <= 100)%nat /\ x 0%nat = fo /\ x n = flux /\
    (forall k, (k < n)%nat -> flt_iso_pass rnd P T s off ext bnd 0 (x k) = Ok (x (S k))) /\
    (forall k i, (k < n)%nat -> (i < cells P)%nat -> x k i <= x (S k) i) /\
    forall v v', flt_iso_pass rnd P T s off ext bnd 0 v = Ok v' -> (forall i, (i < cells P)%nat -> v' i <= v i) ->
      (forall i, (i < cells P)%nat -> fo i <= v i) -> forall i, (i < cells P)%nat -> flux i <= v i.
Proof.
  intros Hnz H0 E. destruct (iterate_spec _ _ _ _ _ _ _ _ E) as (n & x & Hn1 & Hn2 & X0 & Xn & Xs & _).
  exists n, x. split. { change count_nn with 100%nat in Hn2. lia. }
  split; [exact X0|]. split; [symmetry; exact Xn|]. split; [exact Xs|].
  assert (DL : data_le P off off ext ext bnd bnd).
  { split; [reflexivity|]. split; [reflexivity|]. repeat split; intros; apply Rle_refl. }
  assert (M : forall k i, (k < n)%nat -> (i < cells P)%nat -> x k i <= x (S k) i).
  { induction k as [|k IH]; intros i Hk Hi.
    - rewrite X0. apply H0; [|exact Hi]. rewrite <- X0. apply Xs. exact Hk.
    - apply (flt_pass_monotone off off ext ext bnd bnd 0 (x k) (x (S k))); [exact DL| |apply Xs; lia|apply Xs; lia].
      intros j Hj. apply IH; [lia|exact Hj]. }
  split; [exact M|].
  intros v v' Ev Hv Hfo. assert (G : forall k, (k <= n)%nat -> forall i, (i < cells P)%nat -> x k i <= v i).
  { induction k as [|k IH]; intros Hk i Hi; [rewrite X0; apply Hfo; exact Hi|].
    apply Rle_trans with (v' i); [|apply Hv; exact Hi].
    apply (flt_pass_monotone off off ext ext bnd bnd 0 (x k) v (x (S k)) v' DL); [|apply Xs; lia|exact Ev].
    intros j Hj. apply IH; [lia|exact Hj]. }
  rewrite Xn. apply G. lia.
Qed.

Lemma flt_from_zero off ext bnd norm flux :
  nonzero_ordinates (angles P) (mu P) -> nonneg_data P off ext bnd ->
  flt_isotropic_sn rnd norm P zeros T s off ext bnd 0 = Ok flux ->
  exists n x, (1 <= n <= 100)%nat /\ (forall i, x 0%nat i = 0) /\ x n = flux /\
    (forall k, (k < n)%nat -> flt_iso_pass rnd P T s off ext bnd 0 (x k) = Ok (x (S k))) /\
    (forall k i, (k < n)%nat -> (i < cells P)%nat -> x k i <= x (S k) i) /\
    forall v v', flt_iso_pass rnd P T s off ext bnd 0 v = Ok v' -> (forall i, (i < cells P)%nat -> 0 <= v' i <= v i) ->
      forall i, (i < cells P)%nat -> flux i <= v i.
Proof.
  intros Hnz Hd E. destruct (flt_iterates off ext bnd norm zeros flux Hnz) as (n & x & A1 & A2 & A3 & A4 & A5 & A6).
  - intros f Ef i Hi. destruct (flt_pass_nonneg rnd P T s off ext bnd 0 zeros Hr Hnz Ht Hu Hs Hw Hd) as (f' & Ef' & N).
    { intros. unfold zeros. lra. }
    rewrite Ef in Ef'. injection Ef' as <-. apply N.
  - exact E.
  - exists n, x. split; [exact A1|]. split; [intros i; rewrite A2; reflexivity|]. split; [exact A3|].
    split; [exact A4|]. split; [exact A5|]. intros v v' Ev Hv i Hi. apply (A6 v v' Ev); [intros j Hj; apply Hv; exact Hj| |exact Hi].
    intros j Hj. unfold zeros. specialize (Hv j Hj). lra.
Qed.
End Mono.

(** *** Scaling *)
Section Scale.
Variables (rnd : R -> R) (c : R).
Hypothesis Hc : c <> 0.
Hypothesis Hsc : scales c rnd.

Let sc (x y : R) : Prop := y = c * x.
Let anyR (x : R) : Prop := True.
Lemma sc_0 : sc 0 0.
Proof. unfold sc. ring. Qed.
Lemma sc_add x x' y y' : sc x x' -> sc y y' -> sc (rnd (x + y)) (rnd (x' + y')).
Proof. unfold sc. intros -> ->. rewrite <- Hsc. f_equal. ring. Qed.
Lemma sc_mul d x x' : anyR d -> sc x x' -> sc (rnd (d * x)) (rnd (d * x')).
Proof. unfold sc. intros _ ->. rewrite <- Hsc. f_equal. ring. Qed.
Lemma sc_div d x x' : anyR d -> sc x x' -> sc (rnd (x / d)) (rnd (x' / d)).
Proof. unfold sc. intros _ ->. rewrite <- Hsc. f_equal. unfold Rdiv. ring. Qed.

Lemma sc_quotient x y n : y <> 0 ->
  fdiv rnd (fdiv rnd (fsub rnd y x) y) n = fdiv rnd (fdiv rnd (fsub rnd (c * y) (c * x)) (c * y)) n.
Proof.
  intros Hy. unfold fdiv, fsub. do 3 f_equal. replace (c * y - c * x) with (c * (y - x)) by ring. rewrite Hsc.
  field. split; assumption.
Qed.

Lemma sc_zero x : x = 0 <-> c * x = 0.
Proof. split; [intros ->; ring|]. intros H. apply Rmult_integral in H. tauto. Qed.

Lemma sc_change norm n a b a' b' : vrel_in sc n a b -> vrel_in sc n a' b' ->
  flt_change rnd norm n a' a = flt_change rnd norm n b' b.
Proof.
  intros H H'. unfold flt_change.
  rewrite (has_zero_ext n a' b'). 2:{ intros i Hi. rewrite (H' i Hi). apply sc_zero. }
  destruct (has_zero n b') eqn:Ez; [reflexivity|]. rewrite has_zero_false in Ez.
  do 2 f_equal. extensionality i. destruct (Nat.ltb i n) eqn:E; [|reflexivity]. apply Nat.ltb_lt in E.
  rewrite (H' i E), (H i E). apply sc_quotient. intros Z. apply (Ez i E). rewrite (H' i E), Z. ring.
Qed.

Lemma sc_change2 norm n g (a b a' b' : mat2) :
  (forall i h, (i < n)%nat -> (h < g)%nat -> sc (a i h) (b i h)) ->
  (forall i h, (i < n)%nat -> (h < g)%nat -> sc (a' i h) (b' i h)) ->
  flt_change2 rnd norm n g a' a = flt_change2 rnd norm n g b' b.
Proof.
  intros H H'. unfold flt_change2.
  rewrite (has_zero2_ext n g a' b'). 2:{ intros i h Hi Hh. rewrite (H' i h Hi Hh). apply sc_zero. }
  destruct (has_zero2 n g b') eqn:Ez; [reflexivity|]. rewrite has_zero2_false in Ez.
  do 2 f_equal. extensionality i. extensionality h. destruct (Nat.ltb i n) eqn:E, (Nat.ltb h g) eqn:F; try reflexivity.
  apply Nat.ltb_lt in E, F. cbn [andb]. rewrite (H' i h E F), (H i h E F). apply sc_quotient.
  intros Z. apply (Ez i h E F). rewrite (H' i h E F), Z. ring.
Qed.

Lemma boundary_scaled b mu m : boundary_in (scaled2 c b) mu m = c * boundary_in b mu m.
Proof. reflexivity. Qed.

Lemma flt_driver_scaled norm P fo T s off ext bnd flux :
  flt_isotropic_sn rnd norm P fo T s off ext bnd 0 = Ok flux ->
  exists flux', flt_isotropic_sn rnd norm P (scaled1 c fo) T s (scaled1 c off) (scaled2 c ext) (scaled2 c bnd) 0 = Ok flux' /\
    forall i, (i < cells P)%nat -> flux' i = c * flux i.
Proof.
  intros E.
  assert (X := driver_rel rnd sc anyR anyR sc_0 sc_add sc_mul sc_div sc_change norm P T s off (scaled1 c off) ext (scaled2 c ext)
    bnd (scaled2 c bnd) 0 fo (scaled1 c fo)).
  rewrite E in X.
  destruct (flt_isotropic_sn rnd norm P (scaled1 c fo) T s (scaled1 c off) (scaled2 c ext) (scaled2 c bnd) 0) as [f'|e].
  - exists f'. split; [reflexivity|]. apply X; try reflexivity; repeat split; intros; exact I.
  - exfalso. apply X; try reflexivity; repeat split; intros; exact I.
Qed.

Lemma flt_outer_scaled norm norm2 P groups fo T s ext bnd flux :
  flt_source_iteration rnd norm norm2 P groups fo T s ext bnd = Ok flux ->
  exists flux', flt_source_iteration rnd norm norm2 P groups (fun i g => c * fo i g) T s (scaled3 c ext) (scaled3 c bnd) = Ok flux' /\
    forall i g, (i < cells P)%nat -> (g < groups)%nat -> flux' i g = c * flux i g.
Proof.
  intros E.
  assert (X := outer_rel rnd sc anyR anyR sc_0 sc_add sc_mul sc_div sc_change sc_change2 norm norm2 P groups T s ext (scaled3 c ext)
    bnd (scaled3 c bnd)).
  specialize (X ltac:(repeat split; exact I) ltac:(intros; exact I) ltac:(repeat split; exact I)).
  specialize (X ltac:(split; [reflexivity|]; split; [reflexivity|]; intros; reflexivity)).
  specialize (X ltac:(split; [reflexivity|]; split; [reflexivity|]; intros; reflexivity)).
  specialize (X fo (fun i g => c * fo i g) ltac:(intros i g _ _; reflexivity)).
  rewrite E in X.
  destruct (flt_source_iteration rnd norm norm2 P groups (fun i g => c * fo i g) T s (scaled3 c ext) (scaled3 c bnd)) as [f'|e].
  - exists f'. split; [reflexivity|]. exact X.
  - contradiction.
Qed.
End Scale.

(** *** No source, no flux *)
Lemma flt_dark rnd norm norm2 P groups T s ext bnd flux : rnd 0 = 0 ->
  (forall i m g, (i < cells P)%nat -> (m < angles P)%nat -> (g < groups)%nat ->
     at3 ext i (bidx (d3b ext) m) (bidx (d3c ext) g) = 0) ->
  (forall m g, (m < angles P)%nat -> (g < groups)%nat -> boundary_in (slice3 bnd (bidx (d3c bnd) g)) (mu P) m = 0) ->
  flt_source_iteration rnd norm norm2 P groups zeros2 T s ext bnd = Ok flux ->
  forall i g, (i < cells P)%nat -> (g < groups)%nat -> flux i g = 0.
Proof.
  intros R0 He Hb E.
  assert (Z1 : forall x x' y y' : R, x = 0 /\ x' = x -> y = 0 /\ y' = y -> rnd (x + y) = 0 /\ rnd (x' + y') = rnd (x + y)).
  { intros x x' y y' [-> ->] [-> ->]. rewrite Rplus_0_l. auto. }
  assert (Z2 : forall c x x' : R, True -> x = 0 /\ x' = x -> rnd (c * x) = 0 /\ rnd (c * x') = rnd (c * x)).
  { intros c x x' _ [-> ->]. rewrite Rmult_0_r. auto. }
  assert (Z3 : forall d x x' : R, True -> x = 0 /\ x' = x -> rnd (x / d) = 0 /\ rnd (x' / d) = rnd (x / d)).
  { intros d x x' _ [-> ->]. unfold Rdiv. rewrite Rmult_0_l. auto. }
  assert (X := outer_rel rnd (fun x y => x = 0 /\ y = x) (fun c => True) (fun d => True) (conj eq_refl eq_refl) Z1 Z2 Z3
    (fun norm n a b a' b' H H' => change_ext rnd norm n a b a' b'
       (fun i Hi => ltac:(destruct (H' i Hi) as [_ ->]; tauto)) (fun i Hi => ltac:(destruct (H' i Hi) as [_ ->], (H i Hi) as [_ ->]; reflexivity)))
    (fun norm n g a b a' b' H H' => change2_ext rnd norm n g a b a' b'
       (fun i h Hi Hh => ltac:(destruct (H' i h Hi Hh) as [_ ->]; tauto)) (fun i h Hi Hh => ltac:(destruct (H' i h Hi Hh) as [_ ->], (H i h Hi Hh) as [_ ->]; reflexivity)))
    norm norm2 P groups T s ext ext bnd bnd).
  specialize (X ltac:(repeat split; exact I) ltac:(intros; exact I) ltac:(repeat split; exact I)).
  specialize (X ltac:(split; [reflexivity|]; split; [reflexivity|]; intros; split; auto)).
  specialize (X ltac:(split; [reflexivity|]; split; [reflexivity|]; intros; split; auto)).
  specialize (X zeros2 zeros2 ltac:(intros i g _ _; split; reflexivity)).
  rewrite E in X. cbn [out_rel] in X. intros i g Hi Hg. apply (X i g Hi Hg).
Qed.
