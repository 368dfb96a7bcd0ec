(** Floating-point sweeps: rounding functions, relations between runs. *)
From Coq Require Import ZArith Lra Lia Bool FunctionalExtensionality.
From Verif Require Import Base BaseFacts SlabModel SlabSpec MgModel FltModel FltSpec.
From Flocq Require Import Core Relative.
Open Scope R_scope.

(** *** The IEEE formats *)
Lemma binary64_correct : correct_rounding binary64.
Proof.
  split; [|split].
  - intros x y H. unfold binary64. apply round_le; [apply FLT_exp_valid; reflexivity|apply valid_rnd_N|exact H].
  - apply round_0. apply valid_rnd_N.
  - intros x. unfold binary64. apply round_generic; [apply valid_rnd_N|].
    apply generic_format_round; [apply FLT_exp_valid; reflexivity|apply valid_rnd_N].
Qed.

Lemma unbounded_correct : correct_rounding binary64_unbounded.
Proof.
  split; [|split].
  - intros x y H. unfold binary64_unbounded. apply round_le; [apply FLX_exp_valid; reflexivity|apply valid_rnd_N|exact H].
  - apply round_0. apply valid_rnd_N.
  - intros x. unfold binary64_unbounded. apply round_generic; [apply valid_rnd_N|].
    apply generic_format_round; [apply FLX_exp_valid; reflexivity|apply valid_rnd_N].
Qed.

Lemma unbounded_relative : relative_rounding (/ 2 ^ 53) binary64_unbounded.
Proof.
  intros x. unfold binary64_unbounded.
  assert (H := relative_error_N_FLX radix2 53 ltac:(reflexivity) (fun x => negb (Z.even x)) x).
  replace (/ 2 * bpow radix2 (- (53) + 1)) with (/ 2 ^ 53) in H; [exact H|].
  cbn. lra.
Qed.

Lemma unbounded_scales e : scales (bpow radix2 e) binary64_unbounded.
Proof.
  intros x. unfold binary64_unbounded. destruct (Req_dec x 0) as [-> |Hx].
  { rewrite Rmult_0_r, round_0 by apply valid_rnd_N. ring. }
  unfold round, scaled_mantissa, F2R, cexp. cbn [Fnum Fexp].
  rewrite (Rmult_comm (bpow radix2 e) x), mag_mult_bpow by exact Hx.
  unfold FLX_exp. replace (mag radix2 x + e - 53)%Z with (mag radix2 x - 53 + e)%Z by lia.
  rewrite Z.opp_add_distr, bpow_plus. replace (x * bpow radix2 e * (bpow radix2 (- (mag radix2 x - 53)) * bpow radix2 (- e)))
    with (x * bpow radix2 (- (mag radix2 x - 53)) * (bpow radix2 e * bpow radix2 (- e))) by ring.
  rewrite <- bpow_plus. replace (e + - e)%Z with 0%Z by lia. cbn [bpow]. rewrite Rmult_1_r.
  rewrite bpow_plus. ring.
Qed.

(** *** Related runs *)
Lemma for_up_rel {S1 S2} (Rel : S1 -> S2 -> Prop) n b1 b2 s t :
  (forall k x y, (k < n)%nat -> Rel x y -> Rel (b1 k x) (b2 k y)) -> Rel s t -> Rel (for_up n b1 s) (for_up n b2 t).
Proof. intros H H0. induction n as [|n IH]; [exact H0|]. cbn [for_up]. apply H; [lia|]. apply IH. intros; apply H; [lia|assumption]. Qed.

Lemma for_down_rel {S1 S2} (Rel : S1 -> S2 -> Prop) n b1 b2 : forall s t,
  (forall k x y, (k < n)%nat -> Rel x y -> Rel (b1 k x) (b2 k y)) -> Rel s t -> Rel (for_down n b1 s) (for_down n b2 t).
Proof.
  induction n as [|n IH]; intros s t H H0; [exact H0|]. cbn [for_down]. apply IH; [intros; apply H; [lia|assumption]|].
  apply H; [lia|exact H0].
Qed.

Definition out_rel {A B} (Rel : A -> B -> Prop) (x : outcome A) (y : outcome B) : Prop :=
  match x, y with Ok a, Ok b => Rel a b | Raise e, Raise e' => e = e' | _, _ => False end.

Lemma for_up_err_rel {S1 S2} (Rel : S1 -> S2 -> Prop) n b1 b2 s t :
  (forall k x y, (k < n)%nat -> Rel x y -> out_rel Rel (b1 k x) (b2 k y)) -> Rel s t ->
  out_rel Rel (for_up_err n b1 s) (for_up_err n b2 t).
Proof.
  intros H H0. induction n as [|n IH]; [exact H0|]. cbn [for_up_err].
  assert (X : out_rel Rel (for_up_err n b1 s) (for_up_err n b2 t)) by (apply IH; intros; apply H; [lia|assumption]).
  destruct (for_up_err n b1 s), (for_up_err n b2 t); cbn [bind out_rel] in *; try contradiction; [apply H; [lia|exact X]|exact X].
Qed.

Lemma iterate_rel {S1 S2} (Rel : S1 -> S2 -> Prop) s1 s2 c1 c2 tol cap fuel : forall count x y,
  (forall a b, Rel a b -> out_rel Rel (s1 a) (s2 b)) ->
  (forall a b a' b', Rel a b -> Rel a' b' -> c1 a' a = c2 b' b) ->
  Rel x y -> out_rel Rel (iterate fuel s1 c1 tol cap count x) (iterate fuel s2 c2 tol cap count y).
Proof.
  induction fuel as [|n IH]; intros count x y Hs Hc H0; [reflexivity|]. cbn [iterate].
  assert (X := Hs x y H0). destruct (s1 x) as [x'|], (s2 y) as [y'|]; cbn [bind out_rel] in *; try contradiction; [|exact X].
  rewrite (Hc x y x' y' H0 X). destruct (orb _ _); [exact X|]. apply IH; assumption.
Qed.

(** *** Runs related number by number through operations that keep the relation *)
Section Rel.
Variables (rnd : R -> R) (rel : R -> R -> Prop) (good goodd : R -> Prop).
Hypothesis r0 : rel 0 0.
Hypothesis radd : forall x x' y y', rel x x' -> rel y y' -> rel (rnd (x + y)) (rnd (x' + y')).
Hypothesis rmul : forall c x x', good c -> rel x x' -> rel (rnd (c * x)) (rnd (c * x')).
Hypothesis rdiv : forall d x x', goodd d -> rel x x' -> rel (rnd (x / d)) (rnd (x' / d)).

Definition vrel (f g : vec) : Prop := forall i, rel (f i) (g i).
Definition vrel_in (n : nat) (f g : vec) : Prop := forall i, (i < n)%nat -> rel (f i) (g i).

Lemma upd_rel f g k x y : vrel f g -> rel x y -> vrel (upd f k x) (upd g k y).
Proof. intros H Hx i. unfold upd. destruct (Nat.eqb i k); auto. Qed.

Lemma edge2_rel s f f' e e' o o' p p' a w t :
  good s -> good (fsub rnd (fdiv rnd a w) (fmul rnd 0.5 t)) -> goodd (fadd rnd (fdiv rnd a w) (fmul rnd 0.5 t)) ->
  rel f f' -> rel e e' -> rel o o' -> rel p p' ->
  rel (flt_edge2 rnd s f e o p a w t) (flt_edge2 rnd s f' e' o' p' a w t).
Proof.
  intros Hs Hc Hd Hf He Ho Hp. unfold flt_edge2. unfold fdiv at 1 4. apply rdiv; [exact Hd|].
  unfold fadd at 1 5. apply radd.
  - apply radd; [apply radd; [apply rmul; assumption|assumption]|assumption].
  - unfold fmul at 1 3. rewrite (Rmult_comm p), (Rmult_comm p'). apply rmul; assumption.
Qed.

Definition st_rel (s t : R * vec) : Prop := rel (fst s) (fst t) /\ vrel (snd s) (snd t).

Section Sweep.
Variables (P : sn) (xs_total xs_scatter : vec) (angle_w a : R).
Hypothesis Hs : forall i, (i < cells P)%nat -> good (xs_scatter (medium P i)).
Hypothesis Hc : forall i, (i < cells P)%nat -> good (fsub rnd (fdiv rnd a (dx P i)) (fmul rnd 0.5 (xs_total (medium P i)))).
Hypothesis Hd : forall i, (i < cells P)%nat -> goodd (fadd rnd (fdiv rnd a (dx P i)) (fmul rnd 0.5 (xs_total (medium P i)))).
Hypothesis Hw : good angle_w.
Hypothesis Hw2 : good (fmul rnd 0.5 angle_w).

Lemma forward_rel fl fl' fo fo' off off' ext ext' e e' edges :
  vrel fl fl' -> vrel_in (cells P) fo fo' -> vrel_in (cells P) off off' -> vrel_in (cells P) ext ext' -> rel e e' ->
  st_rel (flt_forward_iso rnd P fl fo xs_total xs_scatter off ext e a angle_w edges)
         (flt_forward_iso rnd P fl' fo' xs_total xs_scatter off' ext' e' a angle_w edges).
Proof.
  intros Hfl Hfo Hoff Hext He. unfold flt_forward_iso. apply for_up_rel.
  - intros k [p f] [p' f'] Hk [Hp Hf]. cbn [fst snd] in Hp, Hf.
    assert (E : rel (flt_edge2 rnd (xs_scatter (medium P k)) (fo k) (ext k) (off k) p a (dx P k) (xs_total (medium P k)))
                    (flt_edge2 rnd (xs_scatter (medium P k)) (fo' k) (ext' k) (off' k) p' a (dx P k) (xs_total (medium P k)))).
    { apply edge2_rel; auto. }
    split; cbn [fst snd]; [exact E|]. destruct (Nat.eqb edges 1).
    + apply upd_rel; [exact Hf|]. apply radd; [apply Hf|]. apply rmul; assumption.
    + apply upd_rel; [exact Hf|]. apply radd; [apply Hf|]. apply rmul; [exact Hw2|]. apply radd; assumption.
  - split; cbn [fst snd]; [exact He|]. destruct (Nat.eqb edges 1); [|exact Hfl].
    apply upd_rel; [exact Hfl|]. apply radd; [apply Hfl|]. apply rmul; assumption.
Qed.

Lemma backward_rel mu fl fl' fo fo' off off' ext ext' e e' edges : - mu = a ->
  vrel fl fl' -> vrel_in (cells P) fo fo' -> vrel_in (cells P) off off' -> vrel_in (cells P) ext ext' -> rel e e' ->
  st_rel (flt_backward_iso rnd P fl fo xs_total xs_scatter off ext e mu angle_w edges)
         (flt_backward_iso rnd P fl' fo' xs_total xs_scatter off' ext' e' mu angle_w edges).
Proof.
  intros Em Hfl Hfo Hoff Hext He. unfold flt_backward_iso. rewrite Em. apply for_down_rel.
  - intros k [p f] [p' f'] Hk [Hp Hf]. cbn [fst snd] in Hp, Hf.
    assert (E : rel (flt_edge2 rnd (xs_scatter (medium P k)) (fo k) (ext k) (off k) p a (dx P k) (xs_total (medium P k)))
                    (flt_edge2 rnd (xs_scatter (medium P k)) (fo' k) (ext' k) (off' k) p' a (dx P k) (xs_total (medium P k)))).
    { apply edge2_rel; auto. }
    split; cbn [fst snd]; [exact E|]. destruct (Nat.eqb edges 1).
    + apply upd_rel; [exact Hf|]. apply radd; [apply Hf|]. apply rmul; assumption.
    + apply upd_rel; [exact Hf|]. apply radd; [apply Hf|]. apply rmul; [exact Hw2|]. apply radd; assumption.
  - split; cbn [fst snd]; [exact He|]. destruct (Nat.eqb edges 1); [|exact Hfl].
    apply upd_rel; [exact Hfl|]. apply radd; [apply Hfl|]. apply rmul; assumption.
Qed.
End Sweep.

(** The numbers a pass multiplies and divides by. *)
Definition coefficients (P : sn) (xs_total xs_scatter : vec) : Prop :=
  forall m i, (m < angles P)%nat -> (i < cells P)%nat ->
    good (xs_scatter (medium P i)) /\
    good (fsub rnd (fdiv rnd (Rabs (mu P m)) (dx P i)) (fmul rnd 0.5 (xs_total (medium P i)))) /\
    goodd (fadd rnd (fdiv rnd (Rabs (mu P m)) (dx P i)) (fmul rnd 0.5 (xs_total (medium P i)))).
Definition weights_good (P : sn) : Prop := forall m, (m < angles P)%nat -> good (wt P m) /\ good (fmul rnd 0.5 (wt P m)).

Lemma corrector_rel P r r' e e' nn : vrel r r' -> rel e e' ->
  vrel (reflector_corrector P r e nn) (reflector_corrector P r' e' nn).
Proof. intros Hr He. unfold reflector_corrector. destruct (orb _ _); [apply upd_rel; assumption|exact Hr]. Qed.

Lemma pass_rel P xs_total xs_scatter off off' external external' boundary boundary' edges fo fo' :
  coefficients P xs_total xs_scatter -> weights_good P ->
  cols2 external = cols2 external' -> cols2 boundary = cols2 boundary' ->
  (forall i m, (i < cells P)%nat -> (m < angles P)%nat ->
     rel (at2 external i (bidx (cols2 external) m)) (at2 external' i (bidx (cols2 external) m))) ->
  (forall m, (m < angles P)%nat -> rel (boundary_in boundary (mu P) m) (boundary_in boundary' (mu P) m)) ->
  vrel_in (cells P) off off' -> vrel_in (cells P) fo fo' ->
  out_rel vrel (flt_iso_pass rnd P xs_total xs_scatter off external boundary edges fo)
               (flt_iso_pass rnd P xs_total xs_scatter off' external' boundary' edges fo').
Proof.
  intros HC HW Ee Eb He Hb Hoff Hfo. unfold flt_iso_pass.
  match goal with |- out_rel _ (bind ?a _) (bind ?b _) =>
    assert (X : out_rel (fun s t : vec * vec => vrel (fst s) (fst t) /\ vrel (snd s) (snd t)) a b) end.
  { apply for_up_err_rel.
    2:{ split; intros i; exact r0. }
    intros m [fl r] [fl' r'] Hm [Hfl Hr]. cbn [fst snd] in Hfl, Hr. rewrite <- Ee, <- Eb.
    assert (B := Hb m Hm). unfold boundary_in in B. rewrite <- Eb in B.
    destruct (HW m Hm) as [W1 W2].
    destruct (Rlt_dec 0 (mu P m)) as [Hp|Hp].
    - assert (A : Rabs (mu P m) = mu P m) by (apply Rabs_right; lra).
      assert (Y : st_rel
        (flt_forward_iso rnd P fl fo xs_total xs_scatter off (fun i => at2 external i (bidx (cols2 external) m))
           (fadd rnd (r m) (at2 boundary 0%nat (bidx (cols2 boundary) m))) (mu P m) (wt P m) edges)
        (flt_forward_iso rnd P fl' fo' xs_total xs_scatter off' (fun i => at2 external' i (bidx (cols2 external) m))
           (fadd rnd (r' m) (at2 boundary' 0%nat (bidx (cols2 boundary) m))) (mu P m) (wt P m) edges)).
      { apply forward_rel; try assumption.
        - intros i Hi. apply (HC m i Hm Hi).
        - intros i Hi. destruct (HC m i Hm Hi) as (_ & C & _). rewrite A in C. exact C.
        - intros i Hi. destruct (HC m i Hm Hi) as (_ & _ & C). rewrite A in C. exact C.
        - intros i Hi. apply He; assumption.
        - apply radd; [apply Hr|exact B]. }
      destruct (flt_forward_iso _ _ _ _ _ _ _ _ _ _ _ _) as [p f]. destruct (flt_forward_iso _ _ _ _ _ _ _ _ _ _ _ _) as [p' f'].
      destruct Y as [Y1 Y2]. cbn [fst snd] in Y1, Y2. cbn [out_rel]. split; cbn [fst snd]; [exact Y2|apply corrector_rel; assumption].
    - destruct (Rlt_dec (mu P m) 0) as [Hq|Hq]; [|reflexivity].
      assert (A : - mu P m = Rabs (mu P m)) by (symmetry; apply Rabs_left; lra).
      assert (Y : st_rel
        (flt_backward_iso rnd P fl fo xs_total xs_scatter off (fun i => at2 external i (bidx (cols2 external) m))
           (fadd rnd (r m) (at2 boundary 1%nat (bidx (cols2 boundary) m))) (mu P m) (wt P m) edges)
        (flt_backward_iso rnd P fl' fo' xs_total xs_scatter off' (fun i => at2 external' i (bidx (cols2 external) m))
           (fadd rnd (r' m) (at2 boundary' 1%nat (bidx (cols2 boundary) m))) (mu P m) (wt P m) edges)).
      { apply backward_rel with (a := Rabs (mu P m)); try assumption.
        - intros i Hi. apply (HC m i Hm Hi).
        - intros i Hi. apply (HC m i Hm Hi).
        - intros i Hi. apply (HC m i Hm Hi).
        - intros i Hi. apply He; assumption.
        - apply radd; [apply Hr|exact B]. }
      destruct (flt_backward_iso _ _ _ _ _ _ _ _ _ _ _ _) as [p f]. destruct (flt_backward_iso _ _ _ _ _ _ _ _ _ _ _ _) as [p' f'].
      destruct Y as [Y1 Y2]. cbn [fst snd] in Y1, Y2. cbn [out_rel]. split; cbn [fst snd]; [exact Y2|apply corrector_rel; assumption]. }
  destruct (for_up_err (angles P) _ _) as [[f r]|], (for_up_err (angles P) _ _) as [[f' r']|]; cbn [bind out_rel fst snd] in *; try contradiction; [apply X|exact X].
Qed.

(** Runs whose convergence tests agree. *)
Hypothesis rchange : forall norm n a b a' b', vrel_in n a b -> vrel_in n a' b' ->
  flt_change rnd norm n a' a = flt_change rnd norm n b' b.
Hypothesis rchange2 : forall norm n g (a b a' b' : mat2),
  (forall i h, (i < n)%nat -> (h < g)%nat -> rel (a i h) (b i h)) ->
  (forall i h, (i < n)%nat -> (h < g)%nat -> rel (a' i h) (b' i h)) ->
  flt_change2 rnd norm n g a' a = flt_change2 rnd norm n g b' b.

Lemma out_weaken {A B} (R1 R2 : A -> B -> Prop) x y : (forall a b, R1 a b -> R2 a b) -> out_rel R1 x y -> out_rel R2 x y.
Proof. intros H. destruct x, y; cbn; auto. Qed.

Lemma driver_rel norm P xs_total xs_scatter off off' external external' boundary boundary' edges fo fo' :
  coefficients P xs_total xs_scatter -> weights_good P ->
  cols2 external = cols2 external' -> cols2 boundary = cols2 boundary' ->
  (forall i m, (i < cells P)%nat -> (m < angles P)%nat ->
     rel (at2 external i (bidx (cols2 external) m)) (at2 external' i (bidx (cols2 external) m))) ->
  (forall m, (m < angles P)%nat -> rel (boundary_in boundary (mu P) m) (boundary_in boundary' (mu P) m)) ->
  vrel_in (cells P) off off' -> vrel_in (cells P) fo fo' ->
  out_rel (vrel_in (cells P)) (flt_isotropic_sn rnd norm P fo xs_total xs_scatter off external boundary edges)
               (flt_isotropic_sn rnd norm P fo' xs_total xs_scatter off' external' boundary' edges).
Proof.
  intros HC HW Ee Eb He Hb Hoff Hfo. unfold flt_isotropic_sn. apply iterate_rel.
  - intros a b Hab. apply (out_weaken vrel); [intros f g H i _; apply H|]. apply pass_rel; assumption.
  - intros a b a' b' H1 H2. apply rchange; assumption.
  - exact Hfo.
Qed.

Lemma off_rel P groups fl fl' fo fo' xs gg : (gg < groups)%nat ->
  (forall i h, (i < cells P)%nat -> (h < groups)%nat -> good (xs (medium P i) gg h)) ->
  (forall i h, (i < cells P)%nat -> (h < groups)%nat -> rel (fl i h) (fl' i h)) ->
  (forall i h, (i < cells P)%nat -> (h < groups)%nat -> rel (fo i h) (fo' i h)) ->
  vrel (flt_off_scatter rnd (cells P) groups fl fo (medium P) xs gg) (flt_off_scatter rnd (cells P) groups fl' fo' (medium P) xs gg).
Proof.
  intros Hg Hx Hfl Hfo. unfold flt_off_scatter. apply for_up_rel; [|intros i; exact r0].
  intros k x y Hk Hxy. apply for_up_rel.
  - intros h u v Hh Huv. apply upd_rel; [exact Huv|]. apply radd; [apply Huv|]. apply rmul; [apply Hx; lia|apply Hfo; lia].
  - apply for_up_rel; [|exact Hxy].
    intros h u v Hh Huv. apply upd_rel; [exact Huv|]. apply radd; [apply Huv|]. apply rmul; [apply Hx; lia|apply Hfl; lia].
Qed.

Definition mrel (n g : nat) (a b : mat2) : Prop := forall i h, (i < n)%nat -> (h < g)%nat -> rel (a i h) (b i h).

Lemma bind_col_rel n gs (g : nat) fl fl' : mrel n gs fl fl' -> forall o o' : outcome vec, out_rel (vrel_in n) o o' ->
  out_rel (mrel n gs) (bind o (fun c => Ok (set_col fl g c))) (bind o' (fun c => Ok (set_col fl' g c))).
Proof.
  intros Hfl o o' Y. destruct o, o'; cbn [bind out_rel] in *; try contradiction; [|exact Y].
  intros i h Hi Hh. unfold set_col. destruct (Nat.eqb h g); [apply Y; exact Hi|apply Hfl; assumption].
Qed.

Section Groups.
Variables (norm : vec -> R) (norm2 : mat2 -> R) (P : sn) (groups : nat) (xs_total : mat2) (xs_scatter : mat3)
  (external external' boundary boundary' : arr3).
Hypothesis HC : forall g, (g < groups)%nat -> coefficients P (fun m => xs_total m g) (fun m => xs_scatter m g g).
Hypothesis HX : forall i g h, (i < cells P)%nat -> (g < groups)%nat -> (h < groups)%nat -> good (xs_scatter (medium P i) g h).
Hypothesis HW : weights_good P.
Hypothesis He : d3b external = d3b external' /\ d3c external = d3c external' /\
  forall i m g, (i < cells P)%nat -> (m < angles P)%nat -> (g < groups)%nat ->
    rel (at3 external i (bidx (d3b external) m) (bidx (d3c external) g))
        (at3 external' i (bidx (d3b external) m) (bidx (d3c external) g)).
Hypothesis Hb : d3b boundary = d3b boundary' /\ d3c boundary = d3c boundary' /\
  forall m g, (m < angles P)%nat -> (g < groups)%nat ->
    rel (boundary_in (slice3 boundary (bidx (d3c boundary) g)) (mu P) m)
        (boundary_in (slice3 boundary' (bidx (d3c boundary) g)) (mu P) m).

Lemma sweep_rel fo fo' : mrel (cells P) groups fo fo' ->
  out_rel (mrel (cells P) groups) (flt_one_sweep rnd norm P groups xs_total xs_scatter external boundary fo)
    (flt_one_sweep rnd norm P groups xs_total xs_scatter external' boundary' fo').
Proof.
  intros Hfo. destruct He as (E1 & E2 & E3). destruct Hb as (B1 & B2 & B3). unfold flt_one_sweep.
  apply for_up_err_rel; [|intros i h _ _; exact r0].
  intros g fl fl' Hg Hfl. cbv zeta. rewrite <- E2, <- B2.
  assert (Y : out_rel (vrel_in (cells P))
    (flt_isotropic_sn rnd norm P (fun i => fo i g) (fun m => xs_total m g) (fun m => xs_scatter m g g)
      (flt_off_scatter rnd (cells P) groups fl fo (medium P) xs_scatter g)
      (slice3 external (bidx (d3c external) g)) (slice3 boundary (bidx (d3c boundary) g)) 0)
    (flt_isotropic_sn rnd norm P (fun i => fo' i g) (fun m => xs_total m g) (fun m => xs_scatter m g g)
      (flt_off_scatter rnd (cells P) groups fl' fo' (medium P) xs_scatter g)
      (slice3 external' (bidx (d3c external) g)) (slice3 boundary' (bidx (d3c boundary) g)) 0)).
  { apply driver_rel; cbn [cols2 at2 slice3]; auto.
    - intros i Hi. apply off_rel; auto.
    - intros i Hi. apply Hfo; assumption. }
  apply bind_col_rel; [exact Hfl|exact Y].
Qed.

Lemma outer_rel fo fo' : mrel (cells P) groups fo fo' ->
  out_rel (mrel (cells P) groups) (flt_source_iteration rnd norm norm2 P groups fo xs_total xs_scatter external boundary)
    (flt_source_iteration rnd norm norm2 P groups fo' xs_total xs_scatter external' boundary').
Proof.
  intros Hfo. unfold flt_source_iteration. apply iterate_rel.
  - intros a b Hab. apply sweep_rel. exact Hab.
  - intros a b a' b' H1 H2. apply rchange2; assumption.
  - exact Hfo.
Qed.
End Groups.
End Rel.
