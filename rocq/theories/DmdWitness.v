(** Concrete data for the DMD theorems, and the truncation counterexample. *)
From Coq Require Import Lra Lia.
From Verif Require Import Base BaseFacts SlabModel SlabSpec SphereModel MgModel MgSpec MgFacts DmdModel DmdSpec DmdFacts DmdFacts2 DmdFacts3 DmdFacts4.
Open Scope R_scope.

Ltac two s Hs := destruct s as [|[|s]]; [| |exfalso; cbn in Hs; lia]; clear Hs.

(** Two states (two cells, one group), [x -> A x + b] with nonnegative [A] of spectral radius 1/2, three
    snapshots.  The first two differences are orthogonal, so their decomposition is explicit. *)
Definition pair_A : mat2 := fun s t => if Nat.eqb s t then 0 else 1 / 2.
Definition pair_b : vec := fun s => if Nat.eqb s 0 then 1 else 0.
Definition pair_x (k : nat) : vec := fun s =>
  match k with
  | O => 0
  | 1%nat => if Nat.eqb s 0 then 1 else 0
  | 2%nat => if Nat.eqb s 0 then 1 else 1 / 2
  | _ => if Nat.eqb s 0 then 5 / 4 else 1 / 2
  end.
Definition pair_ym : mat2 := fun s k => pair_x (k + 1) s - pair_x k s.
Definition pair_yp : mat2 := fun s k => pair_x (k + 2) s - pair_x (k + 1) s.
Definition eye : mat2 := fun a b => if Nat.eqb a b then 1 else 0.
Definition pair_sv : vec := fun j => if Nat.eqb j 0 then 1 else 1 / 2.
Definition pair_svd : nat -> nat -> mat2 -> mat2 * vec * mat2 := fun _ _ _ => (eye, pair_sv, eye).
Definition pair_flux : mat2 := fun i _ => pair_x 3 i.
Definition pair_star : vec := fun s => if Nat.eqb s 0 then 4 / 3 else 2 / 3.

Lemma pair_linear : linear_history (2 * 1) pair_A pair_b 3 pair_x.
Proof.
  intros k s Hk Hs. unfold apply. cbn [Nat.mul Nat.add] in *.
  destruct k as [|[|[|k]]]; [| | |lia]; two s Hs; cbn; unfold pair_A, pair_b; cbn; lra.
Qed.
Lemma pair_snapshots : snapshots (2 * 1) 3 pair_x pair_ym pair_yp.
Proof. intros s k Hs Hk. split; reflexivity. Qed.
Lemma pair_holds : holds 2 1 pair_flux (pair_x 3).
Proof.
  intros i g Hi Hg. unfold pair_flux. assert (g = 0%nat) by lia. subst g. f_equal. lia.
Qed.
Lemma pair_is_svd : is_svd (2 * 1) (3 - 1) pair_ym (eye, pair_sv, eye).
Proof.
  unfold is_svd. cbn [Nat.mul Nat.add Nat.sub Nat.min]. split; [|split; [|split; [|split]]].
  - intros s k Hs Hk. two s Hs; two k Hk; cbn; unfold pair_ym, eye, pair_sv; cbn; lra.
  - intros a c Ha Hc. two a Ha; two c Hc; cbn; unfold eye; cbn; lra.
  - intros a c Ha Hc. two a Ha; two c Hc; cbn; unfold eye; cbn; lra.
  - intros j Hj. two j Hj; unfold pair_sv; cbn; lra.
  - intros i j Hij Hj. two j Hj; destruct i as [|[|i]]; try lia; unfold pair_sv; cbn; lra.
Qed.
Lemma pair_fixed : fixed_point (2 * 1) pair_A pair_b pair_star.
Proof. intros s Hs. two s Hs; unfold apply, pair_A, pair_b, pair_star; cbn; lra. Qed.

Lemma pair_tail1 : / 10 ^ 9 * tail 2 pair_sv 0 < tail 2 pair_sv 1.
Proof. unfold tail, pair_sv. cbn. lra. Qed.

Lemma pair_keeps r : keeps 2 pair_sv r -> r = 1%nat.
Proof.
  intros Hk. destruct (keeps_drops_energy 2 pair_sv r Hk pair_tail1) as [Hr HT].
  destruct r as [|[|r]]; [exfalso|reflexivity|lia].
  destruct Hk as (_ & [[_ HB]|[HN _]]).
  - assert (0 < 0)%nat; [|lia]. apply (HB 0%nat ltac:(lia)). exact pair_tail1.
  - exact (HN 0%nat ltac:(lia) pair_tail1).
Qed.

(** The error after the snapshots lies in the span of the two differences, both singular values are
    positive, the reduced problem is solvable: the result is not the fixed point. *)
Lemma dmd_truncates :
  exists cells groups K A b x flux_old ym yp U sv Vt svd star flux,
    (2 <= K)%nat /\ linear_history (cells * groups) A b K x /\ snapshots (cells * groups) K x ym yp /\
    holds cells groups flux_old (x K) /\ svd (cells * groups)%nat (K - 1)%nat ym = (U, sv, Vt) /\
    is_svd (cells * groups) (K - 1) ym (U, sv, Vt) /\
    (forall s t, 0 <= A s t) /\ (forall s, (s < cells * groups)%nat -> rsum (cells * groups) (A s) <= 1 / 2) /\
    (forall j, (j < Nat.min (cells * groups) (K - 1))%nat -> 1 / 2 <= sv j) /\
    in_span (cells * groups) (Nat.min (cells * groups) (K - 1)) U (fun s => star s - x (K - 1)%nat s) /\
    fixed_point (cells * groups) A b star /\
    dmd svd cells groups flux_old ym yp K = Ok flux /\ ~ holds cells groups flux star.
Proof.
  exists 2%nat, 1%nat, 3%nat, pair_A, pair_b, pair_x, pair_flux, pair_ym, pair_yp, eye, pair_sv, eye, pair_svd, pair_star.
  destruct (dmd pair_svd 2 1 pair_flux pair_ym pair_yp 3) as [flux|e] eqn:E.
  - exists flux. split; [lia|]. split; [exact pair_linear|]. split; [exact pair_snapshots|]. split; [exact pair_holds|].
    split; [reflexivity|]. split; [exact pair_is_svd|]. split; [|split; [|split; [|split; [|split; [|split]]]]].
    + intros s t. unfold pair_A. destruct (Nat.eqb s t); lra.
    + intros s Hs. two s Hs; unfold pair_A; cbn; lra.
    + intros j Hj. two j Hj; unfold pair_sv; cbn; lra.
    + exists (fun j => pair_star j - pair_x 2 j). intros s Hs. two s Hs; cbn; unfold eye, pair_star; cbn; lra.
    + exact pair_fixed.
    + reflexivity.
    + intros Hh.
      destruct (dmd_galerkin 2 1 3 pair_A pair_b pair_x pair_flux pair_ym pair_yp eye eye pair_sv pair_svd ltac:(lia)
        pair_linear pair_snapshots pair_holds eq_refl pair_is_svd flux E) as (r & v & Hk & Hv & (c & Hc) & _).
      assert (r = 1%nat) by (apply pair_keeps; exact Hk). subst r.
      assert (C1 := Hc 1%nat ltac:(cbn; lia)). assert (V1 := Hv 1%nat 0%nat ltac:(lia) ltac:(lia)).
      assert (H1 := Hh 1%nat 0%nat ltac:(lia) ltac:(lia)).
      cbn in C1, V1, H1. unfold eye, pair_star in *. cbn in C1, H1. lra.
  - exfalso.
    destruct (dmd_raises 2 1 3 pair_A pair_b pair_x pair_flux pair_ym pair_yp eye eye pair_sv pair_svd ltac:(lia)
      pair_linear pair_snapshots eq_refl pair_is_svd e E) as (_ & r & z & Hk & (j & Hj & Hz) & H0).
    assert (r = 1%nat) by (apply pair_keeps; exact Hk). subst r. assert (j = 0%nat) by lia. subst j.
    specialize (H0 0%nat ltac:(lia)). cbn in H0. unfold apply, eye, pair_A in H0. cbn in H0. lra.
Qed.

(** One error mode: [x -> x/2 + 1] from 0, in the first of two cells. *)
Definition mono_A : mat2 := fun s t => if Nat.eqb s t then 1 / 2 else 0.
Definition mono_x (k : nat) : vec := fun s => if Nat.eqb s 0 then 2 - 2 * (1 / 2) ^ k else 0.
Definition mono_ym : mat2 := fun s k => mono_x (k + 1) s - mono_x k s.
Definition mono_yp : mat2 := fun s k => mono_x (k + 2) s - mono_x (k + 1) s.

Lemma mono_linear : linear_history (2 * 1) mono_A pair_b 2 mono_x.
Proof.
  intros k s Hk Hs. unfold apply. cbn [Nat.mul Nat.add] in *.
  two k Hk; two s Hs; cbn; unfold mono_A, pair_b, mono_x; cbn; lra.
Qed.
Lemma mono_is_svd : is_svd (2 * 1) (2 - 1) mono_ym (eye, fun _ => 1, eye).
Proof.
  unfold is_svd. cbn [Nat.mul Nat.add Nat.sub Nat.min]. split; [|split; [|split; [|split]]].
  - intros s k Hs Hk. assert (k = 0%nat) by lia. subst k. two s Hs; cbn; unfold mono_ym, eye, mono_x; cbn; lra.
  - intros a c Ha Hc. assert (a = 0%nat) by lia. assert (c = 0%nat) by lia. subst. cbn; unfold eye; cbn; lra.
  - intros a c Ha Hc. assert (a = 0%nat) by lia. assert (c = 0%nat) by lia. subst. cbn; unfold eye; cbn; lra.
  - intros; lra.
  - intros; lra.
Qed.
