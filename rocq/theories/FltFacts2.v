(** Floating-point sweeps: signs, monotonicity, scaling. *)
From Coq Require Import ZArith Lra Lia Bool FunctionalExtensionality.
From Verif Require Import Base BaseFacts SlabModel SlabSpec SlabFacts SlabFacts2 SlabFacts3 MgModel MgSpec MgFacts MgFacts6.
From Verif Require Import FltModel FltSpec FltFacts.
Open Scope R_scope.

(** *** With exact arithmetic the floating-point program is the real one *)
Lemma exact_forward P fl fo T s off ext e a w edges :
  flt_forward_iso (fun x => x) P fl fo T s off ext e a w edges = slab_forward_iso P fl fo T s off ext e a w edges.
Proof. reflexivity. Qed.
Lemma exact_backward P fl fo T s off ext e a w edges :
  flt_backward_iso (fun x => x) P fl fo T s off ext e a w edges = slab_backward_iso P fl fo T s off ext e a w edges.
Proof. reflexivity. Qed.
Lemma exact_pass P T s off ext bnd edges fo :
  flt_iso_pass (fun x => x) P T s off ext bnd edges fo = slab_iso_pass P T s off ext bnd edges fo.
Proof. reflexivity. Qed.
Lemma exact_off c g fl fo med xs gg : flt_off_scatter (fun x => x) c g fl fo med xs gg = off_scatter c g fl fo med xs gg.
Proof. reflexivity. Qed.

(** the Euclidean norm of the quotients *)
Lemma exact_change n f g : flt_change (fun x => x) (fun v => sqrt (rsum n (fun i => Rsqr (v i)))) n f g = rel_change n f g.
Proof.
  unfold flt_change, rel_change. destruct (has_zero n f); [reflexivity|]. do 2 f_equal. apply rsum_ext. intros i Hi.
  apply Nat.ltb_lt in Hi. rewrite Hi. reflexivity.
Qed.
Lemma exact_change2 n k f g :
  flt_change2 (fun x => x) (fun v => sqrt (rsum n (fun i => rsum k (fun h => Rsqr (v i h))))) n k f g = rel_change2 n k f g.
Proof.
  unfold flt_change2, rel_change2. destruct (has_zero2 n k f); [reflexivity|]. do 2 f_equal. apply rsum_ext. intros i Hi.
  apply rsum_ext. intros h Hh. apply Nat.ltb_lt in Hi, Hh. rewrite Hi, Hh. reflexivity.
Qed.

Lemma exact_driver P fo T s off ext bnd edges :
  flt_isotropic_sn (fun x => x) (fun v => sqrt (rsum (cells P) (fun i => Rsqr (v i)))) P fo T s off ext bnd edges
  = slab_isotropic_sn P fo T s off ext bnd edges.
Proof. unfold flt_isotropic_sn, slab_isotropic_sn. apply iterate_ext; [reflexivity|]. intros; apply exact_change. Qed.

Lemma exact_outer P groups fo T s ext bnd :
  flt_source_iteration (fun x => x) (fun v => sqrt (rsum (cells P) (fun i => Rsqr (v i))))
    (fun v => sqrt (rsum (cells P) (fun i => rsum groups (fun h => Rsqr (v i h))))) P groups fo T s ext bnd
  = source_iteration_iso P groups fo T s ext bnd 1.
Proof.
  unfold flt_source_iteration, source_iteration_iso. apply iterate_ext; [|intros; apply exact_change2].
  intros x. unfold flt_one_sweep, one_sweep_iso. apply for_up_err_ext. intros g t Hg. cbv zeta. cbn [Nat.eqb].
  rewrite exact_off. rewrite exact_driver. reflexivity.
Qed.

(** *** Totality *)
Lemma flt_pass_total rnd P T s off ext bnd edges fo : nonzero_ordinates (angles P) (mu P) ->
  exists f, flt_iso_pass rnd P T s off ext bnd edges fo = Ok f.
Proof.
  intros Hnz. unfold flt_iso_pass.
  match goal with |- exists f, bind ?a _ = _ => assert (X : exists r, a = Ok r) end.
  { apply for_up_err_ok. intros k [fl r] Hk. assert (N := Hnz k Hk).
    destruct (Rlt_dec 0 (mu P k)); [destruct (flt_forward_iso _ _ _ _ _ _ _ _ _ _ _ _); eauto|].
    destruct (Rlt_dec (mu P k) 0); [destruct (flt_backward_iso _ _ _ _ _ _ _ _ _ _ _ _); eauto|lra]. }
  destruct X as [r ->]. cbn. eauto.
Qed.
Lemma flt_driver_total rnd norm P fo T s off ext bnd edges : nonzero_ordinates (angles P) (mu P) ->
  exists f, flt_isotropic_sn rnd norm P fo T s off ext bnd edges = Ok f.
Proof. intros Hnz. apply iterate_total; [|unfold count_nn; lia]. intros x. apply flt_pass_total. exact Hnz. Qed.
Lemma flt_outer_total rnd norm norm2 P groups fo T s ext bnd : nonzero_ordinates (angles P) (mu P) ->
  exists f, flt_source_iteration rnd norm norm2 P groups fo T s ext bnd = Ok f.
Proof.
  intros Hnz. apply iterate_total; [|unfold count_gg; lia]. intros x. unfold flt_one_sweep. apply for_up_err_ok.
  intros g t Hg. cbv zeta.
  match goal with |- exists t', bind (flt_isotropic_sn ?r ?n ?P ?f ?T ?s ?o ?e ?b ?d) _ = _ =>
    destruct (flt_driver_total r n P f T s o e b d Hnz) as [c ->] end. cbn [bind]. eauto.
Qed.

(** *** Signs of the coefficients *)
Section Signs.
Variable rnd : R -> R.
Hypothesis Hr : correct_rounding rnd.
Let rmono := proj1 Hr.
Let rzero := proj1 (proj2 Hr).
Let ridem := proj2 (proj2 Hr).

Lemma rnd_nonneg x : 0 <= x -> 0 <= rnd x.
Proof. intros H. rewrite <- rzero. apply rmono. exact H. Qed.

Lemma thin_coefficients P T s : thin_mesh P T -> no_underflow rnd P ->
  (forall i, (i < cells P)%nat -> 0 <= s (medium P i)) ->
  coefficients rnd (fun c => 0 <= c) (fun d => 0 < d) P T s.
Proof.
  intros Ht Hu Hs m i Hm Hi. destruct (Ht m i Hm Hi) as (Hdx & HT & Hthin).
  assert (Hab : 0.5 * T (medium P i) <= Rabs (mu P m) / dx P i).
  { apply (Rmult_le_reg_r (dx P i)); [exact Hdx|]. replace (Rabs (mu P m) / dx P i * dx P i) with (Rabs (mu P m)) by (field; lra). nra. }
  assert (B : 0 <= fmul rnd 0.5 (T (medium P i))) by (apply rnd_nonneg; nra).
  split; [apply Hs; exact Hi|]. split.
  - apply rnd_nonneg. apply rmono in Hab. unfold fdiv, fmul. lra.
  - unfold fadd. apply Rlt_le_trans with (rnd (rnd (Rabs (mu P m) / dx P i))).
    + rewrite ridem. apply Hu; assumption.
    + apply rmono. unfold fdiv. lra.
Qed.

Lemma nonneg_weights P : (forall m, (m < angles P)%nat -> 0 <= wt P m) -> weights_good rnd (fun c => 0 <= c) P.
Proof. intros H m Hm. specialize (H m Hm). split; [exact H|]. apply rnd_nonneg. lra. Qed.

(** the same run, with the signs *)
Let same (x y : R) : Prop := 0 <= x /\ y = x.
Lemma same_add x x' y y' : same x x' -> same y y' -> same (rnd (x + y)) (rnd (x' + y')).
Proof. intros [A ->] [B ->]. split; [apply rnd_nonneg; lra|reflexivity]. Qed.
Lemma same_mul c x x' : 0 <= c -> same x x' -> same (rnd (c * x)) (rnd (c * x')).
Proof. intros Hc [A ->]. split; [apply rnd_nonneg; nra|reflexivity]. Qed.
Lemma same_div d x x' : 0 < d -> same x x' -> same (rnd (x / d)) (rnd (x' / d)).
Proof. intros Hd [A ->]. split; [apply rnd_nonneg; apply Rle_mult_inv_pos; assumption|reflexivity]. Qed.
End Signs.

Lemma has_zero_ext n (f g : vec) : (forall i, (i < n)%nat -> f i = 0 <-> g i = 0) -> has_zero n f = has_zero n g.
Proof.
  intros H. induction n as [|n IH]; [reflexivity|]. cbn [has_zero].
  rewrite IH by (intros; apply H; lia). assert (E := H n ltac:(lia)).
  destruct (Req_EM_T (f n) 0), (Req_EM_T (g n) 0); tauto.
Qed.
Lemma has_zero2_ext n k (f g : mat2) : (forall i h, (i < n)%nat -> (h < k)%nat -> f i h = 0 <-> g i h = 0) ->
  has_zero2 n k f = has_zero2 n k g.
Proof.
  intros H. induction n as [|n IH]; [reflexivity|]. cbn [has_zero2].
  rewrite IH by (intros; apply H; lia). rewrite (has_zero_ext k (f n) (g n)); [reflexivity|]. intros; apply H; lia.
Qed.

Lemma change_ext rnd norm n (a b a' b' : vec) :
  (forall i, (i < n)%nat -> a' i = 0 <-> b' i = 0) ->
  (forall i, (i < n)%nat -> fdiv rnd (fdiv rnd (fsub rnd (a' i) (a i)) (a' i)) (INR n)
                          = fdiv rnd (fdiv rnd (fsub rnd (b' i) (b i)) (b' i)) (INR n)) ->
  flt_change rnd norm n a' a = flt_change rnd norm n b' b.
Proof.
  intros H1 H2. unfold flt_change. rewrite (has_zero_ext n a' b' H1). destruct (has_zero n b'); [reflexivity|].
  do 2 f_equal. extensionality i. destruct (Nat.ltb i n) eqn:E; [|reflexivity]. apply H2. apply Nat.ltb_lt. exact E.
Qed.
Lemma change2_ext rnd norm n k (a b a' b' : mat2) :
  (forall i h, (i < n)%nat -> (h < k)%nat -> a' i h = 0 <-> b' i h = 0) ->
  (forall i h, (i < n)%nat -> (h < k)%nat -> fdiv rnd (fdiv rnd (fsub rnd (a' i h) (a i h)) (a' i h)) (INR n)
                          = fdiv rnd (fdiv rnd (fsub rnd (b' i h) (b i h)) (b' i h)) (INR n)) ->
  flt_change2 rnd norm n k a' a = flt_change2 rnd norm n k b' b.
Proof.
  intros H1 H2. unfold flt_change2. rewrite (has_zero2_ext n k a' b' H1). destruct (has_zero2 n k b'); [reflexivity|].
  do 2 f_equal. extensionality i. extensionality h. destruct (Nat.ltb i n) eqn:E, (Nat.ltb h k) eqn:F; try reflexivity.
  apply Nat.ltb_lt in E, F. apply H2; assumption.
Qed.

(** *** Positivity *)
Lemma flt_pass_nonneg rnd P T s off ext bnd edges fo : correct_rounding rnd ->
  nonzero_ordinates (angles P) (mu P) -> thin_mesh P T -> no_underflow rnd P ->
  (forall i, (i < cells P)%nat -> 0 <= s (medium P i)) -> (forall m, (m < angles P)%nat -> 0 <= wt P m) ->
  nonneg_data P off ext bnd -> (forall i, (i < cells P)%nat -> 0 <= fo i) ->
  exists flux, flt_iso_pass rnd P T s off ext bnd edges fo = Ok flux /\ forall i, 0 <= flux i.
Proof.
  intros Hr Hnz Ht Hu Hs Hw (He & Hb & Ho) Hf.
  destruct (flt_pass_total rnd P T s off ext bnd edges fo Hnz) as [f E]. exists f. split; [exact E|].
  assert (X := pass_rel rnd (fun x y => 0 <= x /\ y = x) (fun c => 0 <= c) (fun d => 0 < d) (conj (Rle_refl 0) eq_refl)
    (same_add rnd Hr) (same_mul rnd Hr) (same_div rnd Hr) P T s off off ext ext bnd bnd edges fo fo
    (thin_coefficients rnd Hr P T s Ht Hu Hs) (nonneg_weights rnd Hr P Hw) eq_refl eq_refl).
  rewrite E in X. cbn [out_rel] in X. intros i. apply X; intros; split; auto.
Qed.

Lemma flt_driver_nonneg rnd norm P T s off ext bnd fo : correct_rounding rnd ->
  nonzero_ordinates (angles P) (mu P) -> thin_mesh P T -> no_underflow rnd P ->
  (forall i, (i < cells P)%nat -> 0 <= s (medium P i)) -> (forall m, (m < angles P)%nat -> 0 <= wt P m) ->
  nonneg_data P off ext bnd -> (forall i, (i < cells P)%nat -> 0 <= fo i) ->
  exists flux, flt_isotropic_sn rnd norm P fo T s off ext bnd 0 = Ok flux /\ forall i, (i < cells P)%nat -> 0 <= flux i.
Proof.
  intros Hr Hnz Ht Hu Hs Hw (He & Hb & Ho) Hf.
  destruct (flt_driver_total rnd norm P fo T s off ext bnd 0 Hnz) as [f E]. exists f. split; [exact E|].
  assert (X := driver_rel rnd (fun x y => 0 <= x /\ y = x) (fun c => 0 <= c) (fun d => 0 < d) (conj (Rle_refl 0) eq_refl)
    (same_add rnd Hr) (same_mul rnd Hr) (same_div rnd Hr)
    (fun norm n a b a' b' H H' => change_ext rnd norm n a b a' b'
       (fun i Hi => ltac:(destruct (H' i Hi) as [_ ->]; tauto)) (fun i Hi => ltac:(destruct (H' i Hi) as [_ ->], (H i Hi) as [_ ->]; reflexivity)))
    norm P T s off off ext ext bnd bnd 0 fo fo
    (thin_coefficients rnd Hr P T s Ht Hu Hs) (nonneg_weights rnd Hr P Hw) eq_refl eq_refl).
  rewrite E in X. cbn [out_rel] in X. intros i Hi. apply X; try exact Hi; try (intros; split; auto; fail); intros k Hk; split; auto.
Qed.
