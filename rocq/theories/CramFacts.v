(** The complex solves and the incomplete partial fractions. *)
From Coq Require Import ZArith Lra Lia FunctionalExtensionality.
From Verif Require Import Base BaseFacts SlabModel SphereModel MgModel DmdModel DmdSpec DmdFacts.
From Verif Require Import CramModel CramSpec.
Open Scope R_scope.

Lemma rsum_two n f : rsum (2 * n) f = rsum n f + rsum n (fun i => f (n + i)%nat).
Proof. replace (2 * n)%nat with (n + n)%nat by lia. apply rsum_split. Qed.

Section Pole.
  Variables (n : nat) (A : mat2) (h : R) (theta : R * R).
  Let B : mat2 := fun i j => A i j * h.

  Lemma shifted_rows (z : vec) i : (i < n)%nat ->
    rsum (2 * n) (fun j => shifted n B theta i j * z j)
    = h * rsum n (fun j => A i j * z j) - fst theta * z i + snd theta * z (n + i)%nat /\
    rsum (2 * n) (fun j => shifted n B theta (n + i)%nat j * z j)
    = h * rsum n (fun j => A i j * z (n + j)%nat) - fst theta * z (n + i)%nat - snd theta * z i.
  Proof.
    intros Hi.
    assert (D : forall u : vec, rsum n (fun j => (if Nat.eqb i j then 1 else 0) * u j) = u i).
    { intros u. rewrite (rsum_single n _ i Hi); [rewrite Nat.eqb_refl; ring|].
      intros j _ Hj. destruct (Nat.eqb_spec i j); [lia|ring]. }
    split; rewrite rsum_two; unfold shifted; cbv zeta.
    - rewrite (rsum_ext n _ (fun j => h * (A i j * z j) - fst theta * ((if Nat.eqb i j then 1 else 0) * z j))).
      2: { intros j Hj. destruct (Nat.ltb_spec i n); [|lia]. destruct (Nat.ltb_spec j n); [|lia]. unfold B. ring. }
      rewrite (rsum_ext n (fun j => _ * z (n + j)%nat) (fun j => snd theta * ((if Nat.eqb i j then 1 else 0) * z (n + j)%nat))).
      2: { intros j Hj. destruct (Nat.ltb_spec i n); [|lia]. destruct (Nat.ltb_spec (n + j) n); [lia|].
           replace (n + j - n)%nat with j by lia. ring. }
      rewrite rsum_minus, !rsum_scal, D, (D (fun j => z (n + j)%nat)). ring.
    - rewrite (rsum_ext n _ (fun j => - snd theta * ((if Nat.eqb i j then 1 else 0) * z j))).
      2: { intros j Hj. destruct (Nat.ltb_spec (n + i) n); [lia|]. destruct (Nat.ltb_spec j n); [|lia].
           replace (n + i - n)%nat with i by lia. ring. }
      rewrite (rsum_ext n (fun j => _ * z (n + j)%nat)
        (fun j => h * (A i j * z (n + j)%nat) - fst theta * ((if Nat.eqb i j then 1 else 0) * z (n + j)%nat))).
      2: { intros j Hj. destruct (Nat.ltb_spec (n + i) n); [lia|]. destruct (Nat.ltb_spec (n + j) n); [lia|].
           replace (n + i - n)%nat with i by lia. replace (n + j - n)%nat with j by lia. unfold B. ring. }
      rewrite rsum_minus, !rsum_scal, D, (D (fun j => z (n + j)%nat)). ring.
  Qed.

  Lemma shifted_system (z b : vec) :
    (forall i, (i < 2 * n)%nat -> rsum (2 * n) (fun j => shifted n B theta i j * z j) = (if Nat.ltb i n then b i else 0)) <->
    complex_system n A h theta b z (fun i => z (n + i)%nat).
  Proof.
    split.
    - intros H i Hi. destruct (shifted_rows z i Hi) as [E1 E2]. split.
      + rewrite <- E1, H by lia. destruct (Nat.ltb_spec i n); [reflexivity|lia].
      + rewrite <- E2, H by lia. destruct (Nat.ltb_spec (n + i) n); [lia|reflexivity].
    - intros H i Hi. destruct (Nat.ltb_spec i n) as [L|L].
      + destruct (shifted_rows z i L) as [-> _]. exact (proj1 (H i L)).
      + assert (L' : (i - n < n)%nat) by lia.
        transitivity (rsum (2 * n) (fun j => shifted n B theta (n + (i - n))%nat j * z j)).
        { apply rsum_ext. intros j _. replace (n + (i - n))%nat with i by lia. reflexivity. }
        destruct (shifted_rows z (i - n)%nat L') as [_ ->]. exact (proj2 (H _ L')).
  Qed.

  Lemma pole_solve_spec b z : pole_solve n B theta b = Ok z ->
    complex_system n A h theta b (fst z) (snd z) /\
    (forall zr zi, complex_system n A h theta (fun _ => 0) zr zi ->
       forall j, (j < n)%nat -> zr j = 0 /\ zi j = 0).
  Proof.
    unfold pole_solve. destruct (linalg_solve _ _ _) as [x|e] eqn:E; [|discriminate]. intros [= <-].
    destruct (solve_sound _ _ _ _ E) as [Hs Hi]. split; [apply shifted_system; exact Hs|].
    intros zr zi Hz. set (u := fun i : nat => if Nat.ltb i n then zr i else zi (i - n)%nat).
    assert (U1 : forall i, (i < n)%nat -> u i = zr i).
    { intros i Hi'. unfold u. destruct (Nat.ltb_spec i n); [reflexivity|lia]. }
    assert (U2 : forall i, u (n + i)%nat = zi i).
    { intros i. unfold u. destruct (Nat.ltb_spec (n + i) n); [lia|]. f_equal. lia. }
    assert (Hu : forall j, (j < 2 * n)%nat -> u j = 0).
    { apply Hi. assert (K : complex_system n A h theta (fun _ => 0) u (fun i => u (n + i)%nat)).
      { intros i Hi'. rewrite U1, U2 by exact Hi'. destruct (Hz i Hi') as [Z1 Z2]. split.
        - rewrite (rsum_ext n _ (fun j => A i j * zr j)) by (intros; rewrite U1 by assumption; reflexivity). exact Z1.
        - rewrite (rsum_ext n _ (fun j => A i j * zi j)) by (intros; rewrite U2; reflexivity). exact Z2. }
      intros i Hi'. rewrite (proj2 (shifted_system u (fun _ => 0)) K i Hi'). destruct (Nat.ltb i n); reflexivity. }
    intros j Hj. split; [rewrite <- U1 by exact Hj; apply Hu; lia|rewrite <- U2; apply Hu; lia].
  Qed.

  Lemma pole_solve_raise b e : pole_solve n B theta b = Raise e -> e = RuntimeError /\ resonant n A h theta.
  Proof.
    unfold pole_solve. destruct (linalg_solve _ _ _) as [x|e'] eqn:E; [discriminate|]. intros [= <-].
    split; [reflexivity|]. destruct (solve_singular _ _ _ _ E) as (_ & z & (j & Hj & Hz) & H0).
    exists z, (fun i => z (n + i)%nat). split.
    - destruct (lt_dec j n) as [L|L]; [exists j; split; [exact L|left; exact Hz]|].
      exists (j - n)%nat. split; [lia|right]. replace (n + (j - n))%nat with j by lia. exact Hz.
    - apply shifted_system. intros i Hi. rewrite H0 by exact Hi. destruct (Nat.ltb i n); reflexivity.
  Qed.

  Lemma pole_solve_ok b : ~ resonant n A h theta <-> exists z, pole_solve n B theta b = Ok z.
  Proof.
    split.
    - intros H. destruct (pole_solve n B theta b) as [z|e] eqn:E; [eauto|].
      exfalso. apply H. exact (proj2 (pole_solve_raise b e E)).
    - intros [z E] (zr & zi & (j & Hj & Hn) & Hz). destruct (pole_solve_spec b z E) as [_ Hi].
      destruct (Hi zr zi Hz j Hj). tauto.
  Qed.

  (** linearity of the complex system *)
  Lemma system_linear k (c : vec) (y zr zi : nat -> vec) y' :
    (forall j, (j < k)%nat -> complex_system n A h theta (y j) (zr j) (zi j)) ->
    (forall i, (i < n)%nat -> y' i = rsum k (fun j => c j * y j i)) ->
    complex_system n A h theta y' (fun i => rsum k (fun j => c j * zr j i)) (fun i => rsum k (fun j => c j * zi j i)).
  Proof.
    intros H Hy i Hi. rewrite Hy by exact Hi.
    assert (K : forall u : nat -> vec, rsum n (fun j => A i j * rsum k (fun m => c m * u m j))
              = rsum k (fun m => c m * rsum n (fun j => A i j * u m j))).
    { intros u. rewrite (rsum_ext n _ (fun j => rsum k (fun m => c m * (A i j * u m j)))).
      2: { intros j _. rewrite <- rsum_scal. apply rsum_ext. intros; ring. }
      rewrite rsum_swap. apply rsum_ext. intros m _. apply rsum_scal. }
    rewrite !K, <- !rsum_scal. split.
    - rewrite <- rsum_minus, <- rsum_plus. apply rsum_ext. intros j Hj. rewrite <- (proj1 (H j Hj i Hi)). ring.
    - rewrite <- !rsum_minus. apply rsum_zero_ext. intros j Hj.
      transitivity (c j * (h * rsum n (fun m => A i m * zi j m) - fst theta * zi j i - snd theta * zr j i)); [ring|].
      rewrite (proj2 (H j Hj i Hi)). ring.
  Qed.

  Lemma system_unique y zr zi zr' zi' : ~ resonant n A h theta ->
    complex_system n A h theta y zr zi -> complex_system n A h theta y zr' zi' ->
    forall j, (j < n)%nat -> zr j = zr' j /\ zi j = zi' j.
  Proof.
    intros Hn H1 H2 j Hj. destruct (proj1 (pole_solve_ok zeros) Hn) as [z E].
    destruct (pole_solve_spec _ _ E) as [_ Hi].
    assert (K : complex_system n A h theta (fun _ => 0) (fun i => zr i - zr' i) (fun i => zi i - zi' i)).
    { intros i Hi'. destruct (H1 i Hi') as [A1 A2]. destruct (H2 i Hi') as [B1 B2].
      assert (D : forall u u' : vec, rsum n (fun j => A i j * (u j - u' j)) = rsum n (fun j => A i j * u j) - rsum n (fun j => A i j * u' j)).
      { intros u u'. rewrite <- rsum_minus. apply rsum_ext. intros; ring. }
      rewrite !D. split; lra. }
    destruct (Hi _ _ K j Hj). split; lra.
  Qed.
End Pole.

(** ** All the poles *)
Definition clear (n : nat) (A : mat2) (h : R) (poles : list ((R * R) * (R * R))) : Prop :=
  forall p, In p poles -> ~ resonant n A h (fst p).

Lemma factorize_ok n A h poles :
  factorize n (fun i j => A i j * h) poles = Ok tt <-> clear n A h poles.
Proof.
  induction poles as [|[theta alpha] rest IH]; cbn [factorize].
  - split; [intros _ p []|reflexivity].
  - split.
    + intros E. destruct (pole_solve _ _ _ _) as [z|] eqn:Ez; cbn [bind] in E; [|discriminate].
      apply IH in E. intros p [<-|Hp]; [|apply E; exact Hp].
      apply (proj2 (pole_solve_ok n A h theta zeros)). eauto.
    + intros H. destruct (proj1 (pole_solve_ok n A h theta zeros) (H _ (or_introl eq_refl))) as [z ->]. cbn [bind].
      apply IH. intros p Hp. apply H. right. exact Hp.
Qed.

Lemma factorize_raise n A h poles e :
  factorize n (fun i j => A i j * h) poles = Raise e ->
  e = RuntimeError /\ exists p, In p poles /\ resonant n A h (fst p).
Proof.
  induction poles as [|[theta alpha] rest IH]; cbn [factorize]; [discriminate|].
  intros E. destruct (pole_solve _ _ _ _) as [z|e'] eqn:Ez; cbn [bind] in E.
  - destruct (IH E) as [He (p & Hp & Hr)]. split; [exact He|]. exists p. split; [right; exact Hp|exact Hr].
  - injection E as <-. destruct (pole_solve_raise _ _ _ _ _ _ Ez) as [-> Hr]. split; [reflexivity|].
    exists (theta, alpha). split; [left; reflexivity|exact Hr].
Qed.

Lemma apply_poles_ok n A h poles y : clear n A h poles ->
  exists y', apply_poles n (fun i j => A i j * h) poles y = Ok y' /\ partial_fractions n A h poles y y'.
Proof.
  revert y. induction poles as [|[theta alpha] rest IH]; intros y H; cbn [apply_poles].
  - exists y. split; [reflexivity|constructor; reflexivity].
  - destruct (proj1 (pole_solve_ok n A h theta y) (H _ (or_introl eq_refl))) as [z Ez]. rewrite Ez. cbn [bind].
    destruct (IH (fun i => y i + 2 * (fst alpha * fst z i - snd alpha * snd z i))) as (y' & E & P).
    { intros p Hp. apply H. right. exact Hp. }
    exists y'. split; [exact E|]. destruct (pole_solve_spec _ _ _ _ _ _ Ez) as [Hz _].
    econstructor; [exact Hz|reflexivity|exact P].
Qed.

(** linear combinations of inputs give linear combinations of outputs *)
Lemma fractions_linear n A h poles : clear n A h poles ->
  forall k (c : vec) (y y' : nat -> vec) u u',
    (forall j, (j < k)%nat -> partial_fractions n A h poles (y j) (y' j)) ->
    (forall i, (i < n)%nat -> u i = rsum k (fun j => c j * y j i)) ->
    partial_fractions n A h poles u u' ->
    forall i, (i < n)%nat -> u' i = rsum k (fun j => c j * y' j i).
Proof.
  induction poles as [|[theta alpha] rest IH]; intros Hc k c y y' u u' Hy Hu P i Hi.
  - inversion P as [u0 u0' E|]; subst. rewrite E, Hu by exact Hi. apply rsum_ext. intros j Hj.
    specialize (Hy j Hj). inversion Hy as [v v' E'|]; subst. rewrite E' by exact Hi. reflexivity.
  - inversion P as [|th al re u0 zr zi u1 u0' Hz Hu1 P']; subst.
    assert (Ch : forall j, exists t : vec * vec * vec, (j < k)%nat ->
      complex_system n A h theta (y j) (fst (fst t)) (snd (fst t)) /\
      (forall i, (i < n)%nat -> snd t i = y j i + 2 * (fst alpha * fst (fst t) i - snd alpha * snd (fst t) i)) /\
      partial_fractions n A h rest (snd t) (y' j)).
    { intros j. destruct (lt_dec j k) as [L|L]; [|exists (zeros, zeros, zeros); intros; lia].
      specialize (Hy j L). inversion Hy as [|th al re v vr vi v1 v' Hv Hv1 Pv]; subst.
      exists (vr, vi, v1). intros _. cbn [fst snd]. auto. }
    assert (Ex : exists T : nat -> vec * vec * vec, forall j, (j < k)%nat ->
      complex_system n A h theta (y j) (fst (fst (T j))) (snd (fst (T j))) /\
      (forall i, (i < n)%nat -> snd (T j) i = y j i + 2 * (fst alpha * fst (fst (T j)) i - snd alpha * snd (fst (T j)) i)) /\
      partial_fractions n A h rest (snd (T j)) (y' j)).
    { clear -Ch. induction k as [|k IHk].
      - exists (fun _ => (zeros, zeros, zeros)). intros; lia.
      - destruct IHk as [T HT].
        { intros j. destruct (Ch j) as [t Ht]. exists t. intros Hj. apply Ht. lia. }
        destruct (Ch k) as [t Ht]. exists (fun j => if Nat.eqb j k then t else T j). intros j Hj.
        destruct (Nat.eqb_spec j k) as [->|]; [apply Ht; lia|apply HT; lia]. }
    destruct Ex as [T HT].
    assert (Hz' := system_linear n A h theta k c y (fun j => fst (fst (T j))) (fun j => snd (fst (T j))) u
                     (fun j Hj => proj1 (HT j Hj)) Hu).
    assert (U := system_unique n A h theta _ _ _ _ _ (Hc _ (or_introl eq_refl)) Hz Hz'). cbv beta in U.
    apply (IH (fun p Hp => Hc p (or_intror Hp)) k c (fun j => snd (T j)) y' u1 u'
             (fun j Hj => proj2 (proj2 (HT j Hj)))); [|exact P'|exact Hi].
    intros m Hm. rewrite Hu1, Hu by exact Hm. destruct (U m Hm) as [-> ->].
    rewrite <- !rsum_scal, <- rsum_minus, <- rsum_scal, <- rsum_plus. apply rsum_ext. intros j Hj.
    destruct (HT j Hj) as (_ & E & _). rewrite E by exact Hm. ring.
Qed.

Lemma den_off u b : b <> 0 -> u ^ 2 + b ^ 2 <> 0.
Proof. intros Hb. assert (H1 := pow2_ge_0 u). assert (H2 : 0 < b ^ 2) by (replace (b ^ 2) with (Rsqr b) by (unfold Rsqr; ring); apply Rsqr_pos_lt; exact Hb). lra. Qed.

(** ** Left eigenvectors (conserved quantities) *)
Definition off_axis (poles : list ((R * R) * (R * R))) : Prop := forall p, In p poles -> snd (fst p) <> 0.

Lemma fractions_left n A h poles w lambda y y' : off_axis poles ->
  left_eigenvector n A lambda w -> partial_fractions n A h poles y y' ->
  rsum n (fun i => w i * y' i) = rational poles 1 (lambda * h) * rsum n (fun i => w i * y i).
Proof.
  intros Ho Hw P. induction P as [y y' E|theta alpha rest y zr zi y1 y' Hz H1 P IH].
  - cbn [rational]. rewrite Rmult_1_l. apply rsum_ext. intros i Hi. rewrite E by exact Hi. reflexivity.
  - destruct theta as [a b], alpha as [c d]. cbn [fst snd] in *. cbn [rational].
    rewrite IH by (intros p Hp; apply Ho; right; exact Hp).
    assert (Hb : b <> 0) by exact (Ho _ (or_introl eq_refl)).
    assert (G : forall z : vec, rsum n (fun i => w i * (h * rsum n (fun j => A i j * z j))) = lambda * h * rsum n (fun i => w i * z i)).
    { intros z. rewrite (rsum_ext n _ (fun i => h * rsum n (fun j => w i * A i j * z j))).
      2: { intros i _. rewrite (rsum_ext n (fun j => w i * A i j * z j) (fun j => w i * (A i j * z j))) by (intros; ring).
           rewrite rsum_scal. ring. }
      rewrite rsum_scal, rsum_swap.
      rewrite (rsum_ext n (fun j => rsum n (fun i => w i * A i j * z j)) (fun j => lambda * (w j * z j))).
      2: { intros j Hj. rewrite rsum_scal_r, Hw by exact Hj. ring. }
      rewrite rsum_scal. ring. }
    set (x := lambda * h) in *.
    set (Wr := rsum n (fun i => w i * zr i)). set (Wi := rsum n (fun i => w i * zi i)). set (W := rsum n (fun i => w i * y i)).
    assert (E1 : (x - a) * Wr + b * Wi = W).
    { unfold W. rewrite (rsum_ext n (fun i => w i * y i) (fun i => w i * (h * rsum n (fun j => A i j * zr j)) - a * (w i * zr i) + b * (w i * zi i))).
      2: { intros i Hi. rewrite <- (proj1 (Hz i Hi)). cbn [fst snd]. ring. }
      rewrite rsum_plus, rsum_minus, !rsum_scal, G. fold Wr Wi. ring. }
    assert (E2 : (x - a) * Wi - b * Wr = 0).
    { transitivity (rsum n (fun i => w i * (h * rsum n (fun j => A i j * zi j)) - a * (w i * zi i) - b * (w i * zr i))).
      - rewrite !rsum_minus, !rsum_scal, G. fold Wr Wi. ring.
      - apply rsum_zero_ext. intros i Hi. transitivity (w i * (h * rsum n (fun j => A i j * zi j) - a * zi i - b * zr i)); [ring|].
        pose proof (proj2 (Hz i Hi)) as Z. cbn [fst snd] in Z. rewrite Z. ring. }
    assert (E3 : rsum n (fun i => w i * y1 i) = W + 2 * (c * Wr - d * Wi)).
    { rewrite (rsum_ext n _ (fun i => w i * y i + 2 * (c * (w i * zr i) - d * (w i * zi i)))).
      2: { intros i Hi. rewrite H1 by exact Hi. ring. }
      rewrite rsum_plus, rsum_scal, rsum_minus, !rsum_scal. reflexivity. }
    rewrite E3. assert (D : (x - a) ^ 2 + b ^ 2 <> 0) by (apply den_off; exact Hb).
    assert (R1 : Wr = (x - a) * W / ((x - a) ^ 2 + b ^ 2)).
    { apply (Rmult_eq_reg_r ((x - a) ^ 2 + b ^ 2)); [|exact D]. unfold Rdiv. rewrite Rmult_assoc, Rinv_l by exact D.
      transitivity ((x - a) * ((x - a) * Wr + b * Wi) - b * ((x - a) * Wi - b * Wr)); [ring|]. rewrite E1, E2. ring. }
    assert (R2 : Wi = b * W / ((x - a) ^ 2 + b ^ 2)).
    { apply (Rmult_eq_reg_r ((x - a) ^ 2 + b ^ 2)); [|exact D]. unfold Rdiv. rewrite Rmult_assoc, Rinv_l by exact D.
      transitivity (b * ((x - a) * Wr + b * Wi) + (x - a) * ((x - a) * Wi - b * Wr)); [ring|]. rewrite E1, E2. ring. }
    rewrite R1, R2. field. exact D.
Qed.

(** ** Right eigenvectors *)
Lemma fractions_modes n A h poles : off_axis poles -> clear n A h poles ->
  forall k (c lambda : vec) (v : nat -> vec) y y',
    (forall j, (j < k)%nat -> eigenvector n A (lambda j) (v j)) ->
    (forall i, (i < n)%nat -> y i = rsum k (fun j => c j * v j i)) ->
    partial_fractions n A h poles y y' ->
    forall i, (i < n)%nat -> y' i = rsum k (fun j => c j * rational poles 1 (lambda j * h) * v j i).
Proof.
  intros Ho Hc k c lambda v y y' Hv Hy P. revert c Hy.
  induction P as [y y' E|theta alpha rest y zr zi y1 y' Hz H1 P IH]; intros c Hy i Hi.
  - rewrite E, Hy by exact Hi. apply rsum_ext. intros j _. cbn [rational]. ring.
  - destruct theta as [a b], alpha as [al be]. cbn [fst snd] in *.
    assert (Hb : b <> 0) by exact (Ho _ (or_introl eq_refl)).
    pose (den j := (lambda j * h - a) ^ 2 + b ^ 2).
    assert (D : forall j, den j <> 0) by (intros j; apply den_off; exact Hb).
    pose (f j := 1 + 2 * ((al * (lambda j * h - a) - be * b) / den j)).
    assert (Hs : complex_system n A h (a, b) y
      (fun i => rsum k (fun j => c j * ((lambda j * h - a) / den j * v j i)))
      (fun i => rsum k (fun j => c j * (b / den j * v j i)))).
    { apply (system_linear n A h (a, b) k c v (fun j i => (lambda j * h - a) / den j * v j i) (fun j i => b / den j * v j i)); [|exact Hy].
      intros j Hj m Hm. cbn [fst snd].
      rewrite (rsum_ext n (fun j0 => A m j0 * ((lambda j * h - a) / den j * v j j0)) (fun j0 => (lambda j * h - a) / den j * (A m j0 * v j j0))) by (intros; ring).
      rewrite (rsum_ext n (fun j0 => A m j0 * (b / den j * v j j0)) (fun j0 => b / den j * (A m j0 * v j j0))) by (intros; ring).
      rewrite !rsum_scal, (Hv j Hj m Hm). split; [|field; apply D].
      transitivity (v j m * (((lambda j * h - a) ^ 2 + b ^ 2) / den j)); [field; apply D|].
      fold (den j). field. apply D. }
    assert (U := system_unique n A h (a, b) _ _ _ _ _ (Hc _ (or_introl eq_refl)) Hz Hs). cbv beta in U.
    rewrite (IH (fun p Hp => Ho p (or_intror Hp)) (fun p Hp => Hc p (or_intror Hp)) (fun j => c j * f j)); [| |exact Hi].
    + apply rsum_ext. intros j _. cbn [rational]. unfold f, den. ring.
    + intros m Hm. rewrite H1, Hy by exact Hm. destruct (U m Hm) as [-> ->].
      rewrite <- !rsum_scal, <- rsum_minus, <- rsum_scal, <- rsum_plus. apply rsum_ext. intros j _. unfold f. field. apply D.
Qed.

Lemma rational_scale poles alpha0 x : rational poles alpha0 x = alpha0 * rational poles 1 x.
Proof.
  induction poles as [|[[a b] [c d]] rest IH]; cbn [rational]; [ring|]. rewrite IH. ring.
Qed.
