(** cram_expm: outcomes, linearity, substeps, modes. *)
From Coq Require Import ZArith Lra Lia FunctionalExtensionality Classical.
From Verif Require Import Base BaseFacts SlabModel SphereModel MgModel DmdModel.
From Verif Require Import CramModel CramSpec CramFacts CramPoly CramFacts2.
Open Scope R_scope.

Lemma coefficients_off order poles alpha0 : coefficients order = Some (poles, alpha0) -> off_axis poles.
Proof.
  unfold coefficients. destruct (Z.eqb order 16); [|destruct (Z.eqb order 48); [|discriminate]]; intros [= <- <-].
  - rewrite poles16_exact. intros p Hp. apply in_map_iff in Hp. destruct Hp as ([[a b] [c d]] & <- & Hq). cbn [to_pole fst snd].
    assert (zoff zpoles16 = true) by reflexivity. unfold zoff in H. rewrite forallb_forall in H. specialize (H _ Hq).
    cbn [fst snd] in H. apply negb_true_iff, Z.eqb_neq in H. unfold Rdiv.
    apply Rmult_integral_contrapositive_currified; [apply not_0_IZR; exact H|apply Rinv_neq_0_compat, not_0_IZR; discriminate].
  - rewrite poles48_exact. intros p Hp. apply in_map_iff in Hp. destruct Hp as ([[a b] [c d]] & <- & Hq). cbn [to_pole fst snd].
    assert (zoff zpoles48 = true) by reflexivity. unfold zoff in H. rewrite forallb_forall in H. specialize (H _ Hq).
    cbn [fst snd] in H. apply negb_true_iff, Z.eqb_neq in H. unfold Rdiv.
    apply Rmult_integral_contrapositive_currified; [apply not_0_IZR; exact H|apply Rinv_neq_0_compat, not_0_IZR; discriminate].
Qed.

Lemma coefficients_known order : (order = 16 \/ order = 48)%Z <-> exists poles alpha0, coefficients order = Some (poles, alpha0).
Proof.
  unfold coefficients. destruct (Z.eqb_spec order 16) as [->|]; [split; [eauto|left; reflexivity]|].
  destruct (Z.eqb_spec order 48) as [->|]; [split; [eauto|right; reflexivity]|].
  split; [lia|]. intros (p & a & E). discriminate.
Qed.

Lemma coefficients_accuracy order poles alpha0 : coefficients order = Some (poles, alpha0) ->
  Rabs (rational poles alpha0 0 - 1) <= 5e-16 /\
  forall x, x <= 0 -> Rabs (rational poles alpha0 x - exp x) <= cram_eps order.
Proof.
  unfold coefficients, cram_eps. destruct (Z.eqb_spec order 16) as [->|]; [|destruct (Z.eqb order 48); [|discriminate]];
    intros [= <- <-].
  - destruct accuracy16 as [H0 H]. split; [lra|exact H].
  - exact accuracy48.
Qed.

(** ** Parameters *)
Lemma cram_bad_order rows cols A len n0 dt order sub : (order <> 16 -> order <> 48 ->
  cram_expm rows cols A len n0 dt order sub = Raise ValueError)%Z.
Proof.
  intros H1 H2. unfold cram_expm, coefficients. destruct (Z.eqb_spec order 16); [lia|].
  destruct (Z.eqb_spec order 48); [lia|]. reflexivity.
Qed.
Lemma cram_bad_substeps rows cols A len n0 dt order sub : (sub < 1)%Z ->
  cram_expm rows cols A len n0 dt order sub = Raise ValueError.
Proof.
  intros H. unfold cram_expm. destruct (coefficients order) as [[p a]|]; [|reflexivity].
  destruct (Z.ltb_spec sub 1); [reflexivity|lia].
Qed.
Lemma cram_bad_shape rows cols A len n0 dt order sub : rows <> cols ->
  cram_expm rows cols A len n0 dt order sub = Raise ValueError.
Proof.
  intros H. unfold cram_expm. destruct (coefficients order) as [[p a]|]; [|reflexivity].
  destruct (Z.ltb sub 1); [reflexivity|]. destruct (Nat.eqb_spec rows cols); [contradiction|reflexivity].
Qed.

Section Valid.
  Variables (n : nat) (A : mat2) (dt : R) (order sub : Z) (poles : list ((R * R) * (R * R))) (alpha0 : R).
  Hypothesis Hc : coefficients order = Some (poles, alpha0).
  Hypothesis Hs : (1 <= sub)%Z.
  Let h := dt / IZR sub.

  Lemma cram_unfold len n0 : cram_expm n n A len n0 dt order sub =
    bind (factorize n (fun i j => A i j * h) poles) (fun _ =>
      if negb (Nat.eqb len n) then Raise ValueError
      else for_up_err (Z.to_nat sub)
        (fun _ y => bind (apply_poles n (fun i j => A i j * h) poles y) (fun y => Ok (fun i => alpha0 * y i))) n0).
  Proof.
    unfold cram_expm. rewrite Hc. destruct (Z.ltb_spec sub 1); [lia|]. rewrite Nat.eqb_refl. reflexivity.
  Qed.

  Lemma factorize_cases : (factorize n (fun i j => A i j * h) poles = Ok tt /\ clear n A h poles) \/
    (factorize n (fun i j => A i j * h) poles = Raise RuntimeError /\ exists p, In p poles /\ resonant n A h (fst p)).
  Proof.
    destruct (factorize n (fun i j => A i j * h) poles) as [[]|e] eqn:E.
    - left. split; [reflexivity|]. apply factorize_ok. exact E.
    - right. destruct (factorize_raise _ _ _ _ _ E) as [-> H]. split; [reflexivity|exact H].
  Qed.

  (** the substeps, given that no pole is an eigenvalue *)
  Definition stages (n0 : vec) (x : nat -> vec) : Prop :=
    x 0%nat = n0 /\ forall s, (s < Z.to_nat sub)%nat ->
      exists y, partial_fractions n A h poles (x s) y /\ x (S s) = (fun i => alpha0 * y i).

  Lemma cram_stages n0 : clear n A h poles ->
    exists x, stages n0 x /\ cram_expm n n A n n0 dt order sub = Ok (x (Z.to_nat sub)).
  Proof.
    intros Hk. rewrite cram_unfold, (proj2 (factorize_ok n A h poles) Hk). cbn [bind]. rewrite Nat.eqb_refl. cbn [negb].
    unfold stages. generalize (Z.to_nat sub) as m. induction m as [|m IH].
    - exists (fun _ => n0). split; [split; [reflexivity|intros; lia]|reflexivity].
    - destruct IH as (x & [H0 Hx] & E). destruct (apply_poles_ok n A h poles (x m) Hk) as (y & Ey & Py).
      exists (fun s => if Nat.eqb s (S m) then (fun i => alpha0 * y i) else x s). split; [split|].
      + cbn [Nat.eqb]. exact H0.
      + intros s Hs'. destruct (Nat.eqb_spec s (S m)); [lia|]. destruct (Nat.eqb_spec (S s) (S m)) as [E'|].
        * injection E' as ->. exists y. split; [exact Py|reflexivity].
        * destruct (Hx s ltac:(lia)) as (u & Pu & Eu). exists u. split; assumption.
      + cbn [for_up_err]. rewrite E. cbn [bind]. rewrite Ey. cbn [bind]. rewrite Nat.eqb_refl. reflexivity.
  Qed.

  Lemma cram_ok_clear n0 y : cram_expm n n A n n0 dt order sub = Ok y -> clear n A h poles.
  Proof.
    intros E. rewrite cram_unfold in E. destruct factorize_cases as [[_ H]|[H _]]; [exact H|].
    rewrite H in E. discriminate.
  Qed.

  Lemma cram_result n0 y : cram_expm n n A n n0 dt order sub = Ok y ->
    clear n A h poles /\ exists x, stages n0 x /\ y = x (Z.to_nat sub).
  Proof.
    intros E. pose proof (cram_ok_clear _ _ E) as Hk. split; [exact Hk|].
    destruct (cram_stages n0 Hk) as (x & Hx & Ex). rewrite Ex in E. injection E as <-. eauto.
  Qed.
End Valid.

(** ** Every outcome for a square matrix and a vector of the right length *)
Lemma cram_outcomes n A n0 dt order sub : (order = 16 \/ order = 48)%Z -> (1 <= sub)%Z ->
  exists poles alpha0, coefficients order = Some (poles, alpha0) /\
    ((exists y, cram_expm n n A n n0 dt order sub = Ok y) /\
     (forall p, In p poles -> ~ resonant n A (dt / IZR sub) (fst p)) \/
     cram_expm n n A n n0 dt order sub = Raise RuntimeError /\
     exists p, In p poles /\ resonant n A (dt / IZR sub) (fst p)).
Proof.
  intros Ho Hs. destruct (proj1 (coefficients_known order) Ho) as (poles & alpha0 & Hc).
  exists poles, alpha0. split; [exact Hc|].
  destruct (factorize_cases n A dt sub poles) as [[E Hk]|[E Hr]].
  - left. destruct (cram_stages n A dt order sub poles alpha0 Hc Hs n0 Hk) as (x & _ & Ex). split; [eauto|exact Hk].
  - right. split; [|exact Hr]. rewrite (cram_unfold n A dt order sub poles alpha0 Hc Hs). rewrite E. reflexivity.
Qed.

Lemma cram_wrong_length n A len n0 dt order sub y : len <> n ->
  cram_expm n n A len n0 dt order sub <> Ok y.
Proof.
  intros Hl E. unfold cram_expm in E. destruct (coefficients order) as [[p a]|]; [|discriminate].
  destruct (Z.ltb sub 1); [discriminate|]. rewrite Nat.eqb_refl in E. cbn [negb] in E.
  destruct (factorize _ _ _); cbn [bind] in E; [|discriminate]. destruct (Nat.eqb_spec len n); [contradiction|discriminate].
Qed.

(** ** Decay chains are never resonant *)
Lemma chain_clear n A h theta : chain n A -> snd theta <> 0 -> ~ resonant n A h theta.
Proof.
  intros Hch Hb (zr & zi & (j & Hj & Hn) & Hz).
  assert (K : forall m, (m <= n)%nat -> forall i, (i < m)%nat -> zr i = 0 /\ zi i = 0).
  { induction m as [|m IH]; intros Hm i Hi; [lia|]. destruct (Nat.eq_dec i m) as [->|]; [|apply IH; lia].
    destruct (Hz m ltac:(lia)) as [E1 E2].
    assert (S : forall z : vec, (forall i, (i < m)%nat -> z i = 0) -> rsum n (fun j => A m j * z j) = A m m * z m).
    { intros z H0. apply (rsum_single n (fun j => A m j * z j) m); [lia|]. intros i' Hi' Hne. destruct (lt_dec i' m) as [L|L].
      - rewrite (H0 i' L). ring.
      - rewrite (Hch m i' ltac:(lia) Hi'). ring. }
    rewrite (S zr) in E1 by (intros i' Hi'; apply (IH ltac:(lia) i' Hi')).
    rewrite (S zi) in E2 by (intros i' Hi'; apply (IH ltac:(lia) i' Hi')).
    set (x := h * A m m - fst theta).
    assert (F1 : x * zr m + snd theta * zi m = 0) by (unfold x; lra).
    assert (F2 : x * zi m - snd theta * zr m = 0) by (unfold x; lra).
    assert (D : x ^ 2 + snd theta ^ 2 <> 0) by (apply den_off; exact Hb).
    assert (Z1 : (x ^ 2 + snd theta ^ 2) * zr m = 0).
    { transitivity (x * (x * zr m + snd theta * zi m) - snd theta * (x * zi m - snd theta * zr m)); [ring|]. rewrite F1, F2. ring. }
    assert (Z2 : (x ^ 2 + snd theta ^ 2) * zi m = 0).
    { transitivity (snd theta * (x * zr m + snd theta * zi m) + x * (x * zi m - snd theta * zr m)); [ring|]. rewrite F1, F2. ring. }
    apply Rmult_integral in Z1. apply Rmult_integral in Z2. tauto. }
  destruct (K n (le_n n) j Hj). tauto.
Qed.

Lemma cram_chain n A n0 dt order sub : (order = 16 \/ order = 48)%Z -> (1 <= sub)%Z -> chain n A ->
  exists y, cram_expm n n A n n0 dt order sub = Ok y.
Proof.
  intros Ho Hs Hch. destruct (proj1 (coefficients_known order) Ho) as (poles & alpha0 & Hc).
  destruct (cram_stages n A dt order sub poles alpha0 Hc Hs n0) as (x & _ & E); [|eauto].
  intros p Hp. apply chain_clear; [exact Hch|]. exact (coefficients_off _ _ _ Hc p Hp).
Qed.

(** ** A basis of real eigenvectors: never resonant *)
Lemma basis_clear n A h theta lambda v : basis n v ->
  (forall j, (j < n)%nat -> eigenvector n A (lambda j) (v j)) -> snd theta <> 0 -> ~ resonant n A h theta.
Proof.
  intros [Hspan Hind] Hv Hb (zr & zi & (j & Hj & Hn) & Hz).
  destruct (Hspan zr) as [c Hcr]. destruct (Hspan zi) as [d Hdi].
  assert (AV : forall (e z : vec), (forall i, (i < n)%nat -> z i = rsum n (fun j => e j * v j i)) ->
    forall i, (i < n)%nat -> rsum n (fun j => A i j * z j) = rsum n (fun j => e j * lambda j * v j i)).
  { intros e z Hez i Hi.
    rewrite (rsum_ext n _ (fun j => rsum n (fun m => e m * (A i j * v m j)))).
    2: { intros j' Hj'. rewrite Hez, <- rsum_scal by exact Hj'. apply rsum_ext. intros; ring. }
    rewrite rsum_swap. apply rsum_ext. intros m Hm. rewrite rsum_scal, (Hv m Hm i Hi). ring. }
  assert (C1 : forall m, (m < n)%nat -> c m * (lambda m * h - fst theta) + snd theta * d m = 0).
  { apply (Hind (fun m => c m * (lambda m * h - fst theta) + snd theta * d m)). intros i Hi.
    destruct (Hz i Hi) as [E1 _]. rewrite (AV c zr Hcr i Hi), Hcr, Hdi in E1 by exact Hi.
    rewrite <- !rsum_scal, <- rsum_minus, <- rsum_plus in E1. rewrite <- E1. apply rsum_ext. intros; ring. }
  assert (C2 : forall m, (m < n)%nat -> d m * (lambda m * h - fst theta) - snd theta * c m = 0).
  { apply (Hind (fun m => d m * (lambda m * h - fst theta) - snd theta * c m)). intros i Hi.
    destruct (Hz i Hi) as [_ E2]. rewrite (AV d zi Hdi i Hi), Hcr, Hdi in E2 by exact Hi.
    rewrite <- !rsum_scal, <- !rsum_minus in E2. rewrite <- E2. apply rsum_ext. intros; ring. }
  assert (C : forall m, (m < n)%nat -> c m = 0 /\ d m = 0).
  { intros m Hm. specialize (C1 m Hm). specialize (C2 m Hm). set (x := lambda m * h - fst theta) in *.
    assert (D : x ^ 2 + snd theta ^ 2 <> 0) by (apply den_off; exact Hb).
    assert (Z1 : (x ^ 2 + snd theta ^ 2) * c m = 0).
    { transitivity (x * (c m * x + snd theta * d m) - snd theta * (d m * x - snd theta * c m)); [ring|]. rewrite C1, C2. ring. }
    assert (Z2 : (x ^ 2 + snd theta ^ 2) * d m = 0).
    { transitivity (snd theta * (c m * x + snd theta * d m) + x * (d m * x - snd theta * c m)); [ring|]. rewrite C1, C2. ring. }
    apply Rmult_integral in Z1. apply Rmult_integral in Z2. tauto. }
  destruct Hn as [Hn|Hn]; apply Hn; [rewrite Hcr by exact Hj|rewrite Hdi by exact Hj];
    apply rsum_zero_ext; intros m Hm; destruct (C m Hm) as [C3 C4]; rewrite ?C3, ?C4; ring.
Qed.

Lemma cram_basis n A n0 dt order sub lambda v : (order = 16 \/ order = 48)%Z -> (1 <= sub)%Z ->
  basis n v -> (forall j, (j < n)%nat -> eigenvector n A (lambda j) (v j)) ->
  exists y, cram_expm n n A n n0 dt order sub = Ok y.
Proof.
  intros Ho Hs Hb Hv. destruct (proj1 (coefficients_known order) Ho) as (poles & alpha0 & Hc).
  destruct (cram_stages n A dt order sub poles alpha0 Hc Hs n0) as (x & _ & E); [|eauto].
  intros p Hp. apply (basis_clear n A _ _ lambda v Hb Hv). exact (coefficients_off _ _ _ Hc p Hp).
Qed.

(** ** Linearity *)
Lemma cram_linear n A dt order sub k (c : vec) (u : nat -> vec) (y : nat -> vec) n0 y0 :
  (forall j, (j < k)%nat -> cram_expm n n A n (u j) dt order sub = Ok (y j)) ->
  (forall i, (i < n)%nat -> n0 i = rsum k (fun j => c j * u j i)) ->
  cram_expm n n A n n0 dt order sub = Ok y0 ->
  forall i, (i < n)%nat -> y0 i = rsum k (fun j => c j * y j i).
Proof.
  intros Hu H0 E i Hi.
  assert (V : (exists poles alpha0, coefficients order = Some (poles, alpha0)) /\ (1 <= sub)%Z).
  { unfold cram_expm in E. destruct (coefficients order) as [[p a]|]; [|discriminate].
    destruct (Z.ltb_spec sub 1); [discriminate|]. split; [eauto|lia]. }
  destruct V as [(poles & alpha0 & Hc) Hs].
  destruct (cram_result n A dt order sub poles alpha0 Hc Hs n0 y0 E) as (Hk & x & [X0 Xs] & ->).
  assert (Ex : exists T : nat -> nat -> vec, forall j, (j < k)%nat ->
    stages n A dt sub poles alpha0 (u j) (T j) /\ y j = T j (Z.to_nat sub)).
  { clear -Hu Hc Hs. induction k as [|k IH].
    - exists (fun _ _ => zeros). intros; lia.
    - destruct IH as [T HT]; [intros j Hj; apply Hu; lia|].
      destruct (cram_result n A dt order sub poles alpha0 Hc Hs (u k) (y k) (Hu k ltac:(lia))) as (_ & x & Hx & Ey).
      exists (fun j => if Nat.eqb j k then x else T j). intros j Hj. destruct (Nat.eqb_spec j k) as [->|]; [auto|apply HT; lia]. }
  destruct Ex as [T HT].
  rewrite (rsum_ext k _ (fun j => c j * T j (Z.to_nat sub) i)) by (intros j Hj; rewrite (proj2 (HT j Hj)); reflexivity).
  assert (G : forall m, (m <= Z.to_nat sub)%nat -> forall i, (i < n)%nat -> x m i = rsum k (fun j => c j * T j m i)).
  { induction m as [|m IH]; intros Hm i' Hi'.
    - rewrite X0, H0 by exact Hi'. apply rsum_ext. intros j Hj. destruct (HT j Hj) as [[-> _] _]. reflexivity.
    - destruct (Xs m ltac:(lia)) as (w & Pw & ->).
      assert (Ex2 : exists W : nat -> vec, forall j, (j < k)%nat ->
        partial_fractions n A (dt / IZR sub) poles (T j m) (W j) /\ T j (S m) = (fun i => alpha0 * W j i)).
      { clear -HT Hm. induction k as [|k IHk]; [exists (fun _ => zeros); intros; lia|].
        destruct IHk as [W HW]; [intros j Hj; apply HT; lia|].
        destruct (HT k ltac:(lia)) as [[_ Hst] _]. destruct (Hst m ltac:(lia)) as (w & Pw & Ew).
        exists (fun j => if Nat.eqb j k then w else W j). intros j Hj. destruct (Nat.eqb_spec j k) as [->|]; [auto|apply HW; lia]. }
      destruct Ex2 as [W HW].
      rewrite (fractions_linear n A _ poles Hk k c (fun j => T j m) W (x m) w (fun j Hj => proj1 (HW j Hj)) (IH ltac:(lia)) Pw i' Hi').
      rewrite <- rsum_scal. apply rsum_ext. intros j Hj. rewrite (proj2 (HW j Hj)). ring. }
  apply G; [lia|exact Hi].
Qed.

(** ** n substeps are n calls with one substep each *)
Lemma cram_substeps n A n0 dt order sub : (1 <= sub)%Z ->
  cram_expm n n A n n0 dt order sub
  = for_up_err (Z.to_nat sub) (fun _ y => cram_expm n n A n y (dt / IZR sub) order 1) n0.
Proof.
  intros Hs. destruct (coefficients order) as [[poles alpha0]|] eqn:Hc.
  - set (body := fun (_ : nat) y => cram_expm n n A n y (dt / IZR sub) order 1).
    assert (Eh : dt / IZR sub / 1 = dt / IZR sub) by (unfold Rdiv; rewrite Rinv_1; ring).
    assert (B : forall k y, body k y = bind (factorize n (fun i j => A i j * (dt / IZR sub)) poles) (fun _ =>
        bind (apply_poles n (fun i j => A i j * (dt / IZR sub)) poles y) (fun y => Ok (fun i => alpha0 * y i)))).
    { intros k y. unfold body. rewrite (cram_unfold n A _ order 1 poles alpha0 Hc ltac:(lia)).
      rewrite Eh. destruct (factorize _ _ _); cbn [bind]; [|reflexivity]. rewrite Nat.eqb_refl. cbn [negb].
      change (Z.to_nat 1) with 1%nat. cbn [for_up_err bind]. reflexivity. }
    rewrite (cram_unfold n A dt order sub poles alpha0 Hc Hs).
    destruct (factorize n (fun i j => A i j * (dt / IZR sub)) poles) as [u|e] eqn:Ef; cbn [bind].
    + rewrite Nat.eqb_refl. cbn [negb].
      assert (G : forall m, for_up_err m (fun _ y => bind (apply_poles n (fun i j => A i j * (dt / IZR sub)) poles y)
          (fun y => Ok (fun i => alpha0 * y i))) n0 = for_up_err m body n0).
      { induction m as [|m IH]; [reflexivity|]. cbn [for_up_err]. rewrite IH.
        destruct (for_up_err m body n0) as [y|]; cbn [bind]; [|reflexivity]. rewrite B. reflexivity. }
      apply G.
    + assert (G : forall m, for_up_err (S m) body n0 = Raise e).
      { induction m as [|m IH]; [cbn [for_up_err bind]; rewrite B; reflexivity|].
        cbn [for_up_err] in IH |- *. rewrite IH. reflexivity. }
      destruct (Z.to_nat sub) as [|m] eqn:Em; [lia|]. symmetry. apply G.
  - assert (E : forall m y d s, cram_expm m m A m y d order s = Raise ValueError) by (intros; unfold cram_expm; rewrite Hc; reflexivity).
    rewrite E. set (body := fun _ y => _).
    assert (G : forall m, for_up_err (S m) body n0 = Raise ValueError).
    { induction m as [|m IH]; [cbn [for_up_err bind]; apply E|]. cbn [for_up_err] in IH |- *. rewrite IH. reflexivity. }
    destruct (Z.to_nat sub) as [|m] eqn:Em; [lia|]. symmetry. apply G.
Qed.

(** ** Modes *)
Lemma cram_modes n A n0 dt order sub poles alpha0 k c lambda v y :
  coefficients order = Some (poles, alpha0) ->
  (forall j, (j < k)%nat -> eigenvector n A (lambda j) (v j)) ->
  (forall i, (i < n)%nat -> n0 i = rsum k (fun j => c j * v j i)) ->
  cram_expm n n A n n0 dt order sub = Ok y ->
  forall i, (i < n)%nat ->
    y i = rsum k (fun j => c j * rational poles alpha0 (lambda j * (dt / IZR sub)) ^ Z.to_nat sub * v j i).
Proof.
  intros Hc Hv H0 E. assert (Hs : (1 <= sub)%Z).
  { destruct (Z.ltb_spec sub 1); [rewrite cram_bad_substeps in E by assumption; discriminate|lia]. }
  destruct (cram_result n A dt order sub poles alpha0 Hc Hs n0 y E) as (Hk & x & [X0 Xs] & ->).
  assert (G : forall m, (m <= Z.to_nat sub)%nat -> forall i, (i < n)%nat ->
    x m i = rsum k (fun j => c j * rational poles alpha0 (lambda j * (dt / IZR sub)) ^ m * v j i)).
  { induction m as [|m IH]; intros Hm i Hi.
    - rewrite X0, H0 by exact Hi. apply rsum_ext. intros; cbn [pow]; ring.
    - destruct (Xs m ltac:(lia)) as (w & Pw & ->).
      rewrite (fractions_modes n A _ poles (coefficients_off _ _ _ Hc) Hk k
        (fun j => c j * rational poles alpha0 (lambda j * (dt / IZR sub)) ^ m) lambda v (x m) w Hv (IH ltac:(lia)) Pw i Hi).
      rewrite <- rsum_scal. apply rsum_ext. intros j _. cbn [pow]. rewrite (rational_scale poles alpha0). ring. }
  apply G. lia.
Qed.

Lemma cram_left n A n0 dt order sub poles alpha0 lambda w y :
  coefficients order = Some (poles, alpha0) -> left_eigenvector n A lambda w ->
  cram_expm n n A n n0 dt order sub = Ok y ->
  rsum n (fun i => w i * y i) = rational poles alpha0 (lambda * (dt / IZR sub)) ^ Z.to_nat sub * rsum n (fun i => w i * n0 i).
Proof.
  intros Hc Hw E. assert (Hs : (1 <= sub)%Z).
  { destruct (Z.ltb_spec sub 1); [rewrite cram_bad_substeps in E by assumption; discriminate|lia]. }
  destruct (cram_result n A dt order sub poles alpha0 Hc Hs n0 y E) as (Hk & x & [X0 Xs] & ->).
  assert (G : forall m, (m <= Z.to_nat sub)%nat -> rsum n (fun i => w i * x m i)
    = rational poles alpha0 (lambda * (dt / IZR sub)) ^ m * rsum n (fun i => w i * n0 i)).
  { induction m as [|m IH]; intros Hm; [rewrite X0; cbn [pow]; ring|].
    destruct (Xs m ltac:(lia)) as (u & Pu & ->).
    rewrite (rsum_ext n _ (fun i => alpha0 * (w i * u i))) by (intros; ring). rewrite rsum_scal.
    rewrite (fractions_left n A _ poles w lambda (x m) u (coefficients_off _ _ _ Hc) Hw Pu), (IH ltac:(lia)).
    cbn [pow]. rewrite (rational_scale poles alpha0). ring. }
  apply G. lia.
Qed.

(** ** Accuracy *)
Lemma power_error a b e m : 0 <= b <= 1 -> Rabs (a - b) <= e -> Rabs (a ^ m - b ^ m) <= (1 + e) ^ m - 1.
Proof.
  intros Hb He. assert (He0 : 0 <= e) by (eapply Rle_trans; [apply Rabs_pos|exact He]).
  assert (B : forall k, 0 <= b ^ k <= 1).
  { intros k. split; [apply pow_le; lra|]. induction k as [|k IH]; cbn [pow]; [lra|].
    assert (0 <= b ^ k) by (apply pow_le; lra). nra. }
  assert (Ha : Rabs a <= 1 + e).
  { replace a with ((a - b) + b) by ring. eapply Rle_trans; [apply Rabs_triang|]. rewrite (Rabs_pos_eq b) by lra. lra. }
  induction m as [|m IH]; cbn [pow]; [rewrite Rminus_diag_eq, Rabs_R0 by reflexivity; lra|].
  replace (a * a ^ m - b * b ^ m) with (a * (a ^ m - b ^ m) + (a - b) * b ^ m) by ring.
  eapply Rle_trans; [apply Rabs_triang|]. rewrite !Rabs_mult, (Rabs_pos_eq (b ^ m)) by apply B.
  assert (P := Rabs_pos (a ^ m - b ^ m)). assert (P' := Rabs_pos (a - b)). assert (P'' := Rabs_pos a). specialize (B m).
  assert (K1 : Rabs a * Rabs (a ^ m - b ^ m) <= (1 + e) * ((1 + e) ^ m - 1)) by (apply Rmult_le_compat; lra).
  assert (K2 : Rabs (a - b) * b ^ m <= e * 1) by (apply Rmult_le_compat; lra). lra.
Qed.

Lemma exp_power x m : exp x ^ m = exp (INR m * x).
Proof.
  induction m as [|m IH]; [cbn [pow INR]; rewrite Rmult_0_l, exp_0; reflexivity|].
  cbn [pow]. rewrite IH, <- exp_plus, S_INR. f_equal. ring.
Qed.

Lemma factor_accuracy order sub poles alpha0 lambda dt : coefficients order = Some (poles, alpha0) -> (1 <= sub)%Z ->
  lambda <= 0 -> 0 <= dt ->
  Rabs (rational poles alpha0 (lambda * (dt / IZR sub)) ^ Z.to_nat sub - exp (lambda * dt))
  <= (1 + cram_eps order) ^ Z.to_nat sub - 1.
Proof.
  intros Hc Hs Hl Hd. assert (P : 0 < IZR sub) by (apply IZR_lt; lia).
  assert (Hx : lambda * (dt / IZR sub) <= 0).
  { assert (0 <= dt / IZR sub) by (unfold Rdiv; apply Rmult_le_pos; [exact Hd|apply Rlt_le, Rinv_0_lt_compat, P]). nra. }
  replace (exp (lambda * dt)) with (exp (lambda * (dt / IZR sub)) ^ Z.to_nat sub).
  2: { rewrite exp_power. f_equal. rewrite INR_IZR_INZ, Z2Nat.id by lia. field. lra. }
  apply power_error.
  - split; [apply Rlt_le, exp_pos|]. rewrite <- exp_0. destruct Hx as [Hx| ->]; [left; apply exp_increasing; exact Hx|right; reflexivity].
  - exact (proj2 (coefficients_accuracy _ _ _ Hc) _ Hx).
Qed.

Lemma modes_solve n A n0 k c lambda v :
  (forall j, (j < k)%nat -> eigenvector n A (lambda j) (v j)) ->
  (forall i, (i < n)%nat -> n0 i = rsum k (fun j => c j * v j i)) ->
  solves n A n0 (modes k c lambda v).
Proof.
  intros Hv H0. split.
  - intros i Hi. unfold modes. rewrite H0 by exact Hi. apply rsum_ext. intros j _. rewrite Rmult_0_r, exp_0. ring.
  - intros t i Hi.
    replace (rsum n (fun j => A i j * modes k c lambda v t j)) with (rsum k (fun j => lambda j * (c j * exp (lambda j * t) * v j i))).
    2: { unfold modes. rewrite (rsum_ext n _ (fun j => rsum k (fun m => c m * exp (lambda m * t) * (A i j * v m j)))).
         2: { intros j _. rewrite <- rsum_scal. apply rsum_ext. intros; ring. }
         rewrite rsum_swap. apply rsum_ext. intros m Hm. rewrite rsum_scal, (Hv m Hm i Hi). ring. }
    unfold modes. clear -k. induction k as [|k IH]; cbn [rsum].
    + apply (derivable_pt_lim_const 0).
    + apply (derivable_pt_lim_plus (fun s => rsum k (fun j => c j * exp (lambda j * s) * v j i)) (fun s => c k * exp (lambda k * s) * v k i)); [exact IH|].
      replace (lambda k * (c k * exp (lambda k * t) * v k i)) with (c k * v k i * (exp (lambda k * t) * (lambda k * 1))) by ring.
      assert (D : derivable_pt_lim (fun s => c k * v k i * exp (lambda k * s)) t (c k * v k i * (exp (lambda k * t) * (lambda k * 1)))).
      { apply (derivable_pt_lim_scal (fun s => exp (lambda k * s)) (c k * v k i)).
        apply (derivable_pt_lim_comp (fun s => lambda k * s) exp); [|apply derivable_pt_lim_exp].
        apply (derivable_pt_lim_scal (fun s => s) (lambda k)). apply derivable_pt_lim_id. }
      intros eps He. destruct (D eps He) as [d Hd]. exists d. intros h Hh Hh'. specialize (Hd h Hh Hh').
      replace (c k * exp (lambda k * (t + h)) * v k i - c k * exp (lambda k * t) * v k i)
        with (c k * v k i * exp (lambda k * (t + h)) - c k * v k i * exp (lambda k * t)) by ring. exact Hd.
Qed.

Lemma rsum_abs n f : Rabs (rsum n f) <= rsum n (fun i => Rabs (f i)).
Proof.
  induction n as [|n IH]; cbn [rsum]; [rewrite Rabs_R0; lra|]. eapply Rle_trans; [apply Rabs_triang|]. lra.
Qed.

Lemma cram_accuracy n A n0 dt order sub k c lambda v y :
  (order = 16 \/ order = 48)%Z -> 0 <= dt ->
  (forall j, (j < k)%nat -> eigenvector n A (lambda j) (v j) /\ lambda j <= 0) ->
  (forall i, (i < n)%nat -> n0 i = rsum k (fun j => c j * v j i)) ->
  cram_expm n n A n n0 dt order sub = Ok y ->
  solves n A n0 (modes k c lambda v) /\
  forall i, (i < n)%nat ->
    Rabs (y i - modes k c lambda v dt i)
    <= ((1 + cram_eps order) ^ Z.to_nat sub - 1) * rsum k (fun j => Rabs (c j * v j i)).
Proof.
  intros Ho Hd Hv H0 E. split; [apply modes_solve; [intros j Hj; apply Hv; exact Hj|exact H0]|].
  intros i Hi. destruct (proj1 (coefficients_known order) Ho) as (poles & alpha0 & Hc).
  assert (Hs : (1 <= sub)%Z).
  { destruct (Z.ltb_spec sub 1); [rewrite cram_bad_substeps in E by assumption; discriminate|lia]. }
  rewrite (cram_modes n A n0 dt order sub poles alpha0 k c lambda v y Hc (fun j Hj => proj1 (Hv j Hj)) H0 E i Hi).
  unfold modes. rewrite <- rsum_minus, <- rsum_scal. eapply Rle_trans; [apply rsum_abs|].
  apply rsum_le. intros j Hj.
  replace (c j * rational poles alpha0 (lambda j * (dt / IZR sub)) ^ Z.to_nat sub * v j i - c j * exp (lambda j * dt) * v j i)
    with ((rational poles alpha0 (lambda j * (dt / IZR sub)) ^ Z.to_nat sub - exp (lambda j * dt)) * (c j * v j i)) by ring.
  rewrite Rabs_mult. apply Rmult_le_compat_r; [apply Rabs_pos|].
  exact (factor_accuracy order sub poles alpha0 (lambda j) dt Hc Hs (proj2 (Hv j Hj)) Hd).
Qed.

Lemma cram_left_accuracy n A n0 dt order sub lambda w y :
  (order = 16 \/ order = 48)%Z -> 0 <= dt -> lambda <= 0 -> left_eigenvector n A lambda w ->
  cram_expm n n A n n0 dt order sub = Ok y ->
  Rabs (rsum n (fun i => w i * y i) - exp (lambda * dt) * rsum n (fun i => w i * n0 i))
  <= ((1 + cram_eps order) ^ Z.to_nat sub - 1) * Rabs (rsum n (fun i => w i * n0 i)).
Proof.
  intros Ho Hd Hl Hw E. destruct (proj1 (coefficients_known order) Ho) as (poles & alpha0 & Hc).
  assert (Hs : (1 <= sub)%Z).
  { destruct (Z.ltb_spec sub 1); [rewrite cram_bad_substeps in E by assumption; discriminate|lia]. }
  rewrite (cram_left n A n0 dt order sub poles alpha0 lambda w y Hc Hw E), <- Rmult_minus_distr_r, Rabs_mult.
  apply Rmult_le_compat_r; [apply Rabs_pos|]. exact (factor_accuracy order sub poles alpha0 lambda dt Hc Hs Hl Hd).
Qed.

(** ** Nothing decays: the zero matrix, stable nuclides, conserved totals *)
Lemma null_factor order sub : (order = 16 \/ order = 48)%Z ->
  exists f, Rabs (f - 1) <= 5e-16 /\
    forall n A n0 dt y, cram_expm n n A n n0 dt order sub = Ok y ->
      ((forall i, (i < n)%nat -> rsum n (fun j => A i j * n0 j) = 0) ->
        forall i, (i < n)%nat -> y i = f ^ Z.to_nat sub * n0 i) /\
      forall w : vec, (forall j, (j < n)%nat -> rsum n (fun i => w i * A i j) = 0) ->
        rsum n (fun i => w i * y i) = f ^ Z.to_nat sub * rsum n (fun i => w i * n0 i).
Proof.
  intros Ho. destruct (proj1 (coefficients_known order) Ho) as (poles & alpha0 & Hc).
  exists (rational poles alpha0 0). split; [exact (proj1 (coefficients_accuracy _ _ _ Hc))|].
  intros n A n0 dt y E. split.
  - intros H i Hi.
    rewrite (cram_modes n A n0 dt order sub poles alpha0 1 (fun _ => 1) (fun _ => 0) (fun _ => n0) y Hc); [| | |exact E|exact Hi].
    + cbn [rsum]. rewrite Rmult_0_l. ring.
    + intros j _ m Hm. rewrite H by exact Hm. ring.
    + intros m _. cbn [rsum]. ring.
  - intros w Hw. rewrite (cram_left n A n0 dt order sub poles alpha0 0 w y Hc); [rewrite Rmult_0_l; reflexivity| |exact E].
    intros j Hj. rewrite Hw by exact Hj. ring.
Qed.

(** ** The documented recurrence *)
Lemma cram_documented n A n0 dt order sub y : cram_expm n n A n n0 dt order sub = Ok y ->
  exists poles alpha0 x, coefficients order = Some (poles, alpha0) /\ x 0%nat = n0 /\ y = x (Z.to_nat sub) /\
    forall s, (s < Z.to_nat sub)%nat ->
      exists z, partial_fractions n A (dt / IZR sub) poles (x s) z /\ x (S s) = (fun i => alpha0 * z i).
Proof.
  intros E. assert (V : (exists poles alpha0, coefficients order = Some (poles, alpha0)) /\ (1 <= sub)%Z).
  { unfold cram_expm in E. destruct (coefficients order) as [[p a]|]; [|discriminate].
    destruct (Z.ltb_spec sub 1); [discriminate|]. split; [eauto|lia]. }
  destruct V as [(poles & alpha0 & Hc) Hs].
  destruct (cram_result n A dt order sub poles alpha0 Hc Hs n0 y E) as (_ & x & [X0 Xs] & Ey).
  exists poles, alpha0, x. auto.
Qed.

(** a nuclide that no other nuclide feeds decays on its own *)
Lemma cram_unfed n A n0 dt order sub i y :
  (order = 16 \/ order = 48)%Z -> 0 <= dt -> (i < n)%nat -> A i i <= 0 ->
  (forall j, (j < n)%nat -> j <> i -> A i j = 0) ->
  cram_expm n n A n n0 dt order sub = Ok y ->
  Rabs (y i - exp (A i i * dt) * n0 i) <= ((1 + cram_eps order) ^ Z.to_nat sub - 1) * Rabs (n0 i).
Proof.
  intros Ho Hd Hi Hl H0 E. pose (w := fun j : nat => if Nat.eqb j i then 1 else 0).
  assert (W : forall u : vec, rsum n (fun j => w j * u j) = u i).
  { intros u. rewrite (rsum_single n (fun j => w j * u j) i Hi).
    - unfold w. rewrite Nat.eqb_refl. ring.
    - intros j _ Hj. unfold w. destruct (Nat.eqb_spec j i); [contradiction|ring]. }
  pose proof (cram_left_accuracy n A n0 dt order sub (A i i) w y Ho Hd Hl) as K. rewrite !W in K. apply K; [|exact E].
  intros j Hj. rewrite (W (fun m => A m j)). unfold w. destruct (Nat.eqb_spec j i) as [->|Hne]; [ring|].
  rewrite H0 by assumption. ring.
Qed.
