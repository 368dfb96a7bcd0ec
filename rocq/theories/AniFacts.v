(** Legendre tables of exact quadratures are orthogonal; the energy estimate for moments. *)
From Coq Require Import Lra Lia Psatz.
From Verif Require Import Base BaseFacts SlabModel SlabSpec MgModel MgSpec EnSpec EnFacts InfSpec InfFacts5 AniSpec.
Open Scope R_scope.

Lemma legendre_0 x : legendre 0 x = 1.
Proof. reflexivity. Qed.
Lemma legendre_1 x : legendre 1 x = x.
Proof. reflexivity. Qed.
(** x P_l = ((l+1) P_{l+1} + l P_{l-1}) / (2l+1) *)
Lemma legendre_times l x : (2 * INR (S l) + 1) * (x * legendre (S l) x) = INR (S (S l)) * legendre (S (S l)) x + INR (S l) * legendre l x.
Proof.
  pose proof (legendre_step l x) as H. replace (l + 2)%nat with (S (S l)) in H by lia. replace (l + 1)%nat with (S l) in H by lia. lra.
Qed.

Section Orthogonal.
Variables (A K : nat) (x w : vec).
Hypothesis Hw : rsum A w = 1.
Hypothesis He : exact_moments A (S K) x w.
Let a l m := rsum A (fun n => w n * (legendre l (x n) * legendre m (x n))).
Lemma product_sym l m : a l m = a m l.
Proof. apply rsum_ext. intros; ring. Qed.
Lemma product_zero l : (l <= K)%nat -> a l 0 = if Nat.eqb l 0 then 1 else 0.
Proof.
  intros Hl. unfold a. destruct l as [|l]; cbn [Nat.eqb].
  - rewrite <- Hw. apply rsum_ext. intros. rewrite legendre_0. ring.
  - rewrite <- (He (S l)) by lia. apply rsum_ext. intros. rewrite legendre_0. ring.
Qed.
Lemma product_shift l m : (INR (S (S l)) * a (S (S l)) (S m) + INR (S l) * a l (S m)) * (2 * INR (S m) + 1)
  = (INR (S (S m)) * a (S l) (S (S m)) + INR (S m) * a (S l) m) * (2 * INR (S l) + 1).
Proof.
  assert (L : forall p q, INR (S (S p)) * a (S (S p)) q + INR (S p) * a p q = (2 * INR (S p) + 1) * rsum A (fun n => w n * (x n * legendre (S p) (x n) * legendre q (x n)))).
  { intros p q. unfold a. rewrite <- !rsum_scal, <- rsum_plus. apply rsum_ext. intros n Hn.
    pose proof (legendre_times p (x n)) as H. apply (f_equal (fun z => w n * legendre q (x n) * z)) in H. lra. }
  rewrite L. rewrite (product_sym (S l) (S (S m))), (product_sym (S l) m), L. 
  rewrite (rsum_ext A (fun n => w n * (x n * legendre (S m) (x n) * legendre (S l) (x n))) (fun n => w n * (x n * legendre (S l) (x n) * legendre (S m) (x n)))) by (intros; ring).
  ring.
Qed.
Lemma product_one l : (S l <= K)%nat -> a l 1 = if Nat.eqb l 1 then / 3 else 0.
Proof.
  intros Hl. destruct l as [|l].
  - rewrite (product_sym 0), product_zero by lia. reflexivity.
  - assert (H : (2 * INR (S l) + 1) * a (S l) 1 = INR (S (S l)) * a (S (S l)) 0 + INR (S l) * a l 0).
    { unfold a. rewrite <- !rsum_scal, <- rsum_plus. apply rsum_ext. intros n Hn. rewrite legendre_0, legendre_1.
      pose proof (legendre_times l (x n)) as H. apply (f_equal (fun z => w n * z)) in H. lra. }
    rewrite !product_zero in H by lia.
    destruct l as [|l].
    + cbn [Nat.eqb INR] in *. lra.
    + pose proof (pos_INR (S (S l))) as I. cbn [Nat.eqb] in *. rewrite !Rmult_0_r, Rplus_0_r in H.
      apply Rmult_integral in H. destruct H as [H|H]; [lra|exact H].
Qed.
Lemma products : forall m l, (l + m <= K)%nat -> a l m = if Nat.eqb l m then / (2 * INR m + 1) else 0.
Proof.
  assert (G : forall m, (forall l, (l + m <= K)%nat -> a l m = if Nat.eqb l m then / (2 * INR m + 1) else 0) /\
     (forall l, (l + S m <= K)%nat -> a l (S m) = if Nat.eqb l (S m) then / (2 * INR (S m) + 1) else 0)).
  { induction m as [|m (IH0 & IH1)].
    - split; intros l Hl.
      + rewrite (product_zero l) by lia. destruct (Nat.eqb_spec l 0); [|reflexivity]. cbn [INR]. field.
      + rewrite product_one by lia. destruct (Nat.eqb_spec l 1); [|reflexivity]. cbn [INR]. field.
    - split; [exact IH1|]. intros l Hl. destruct l as [|l].
      + rewrite (product_sym 0), product_zero by lia. reflexivity.
      + pose proof (product_shift l m) as H. rewrite (IH1 (S (S l))), (IH1 l), (IH0 (S l)) in H by lia.
        assert (I0 := pos_INR m). assert (I1 := pos_INR l).
        destruct (Nat.eqb_spec (S (S l)) (S m)) as [E1|E1], (Nat.eqb_spec l (S m)) as [E2|E2], (Nat.eqb_spec (S l) m) as [E3|E3], (Nat.eqb_spec (S l) (S (S m))) as [E4|E4]; try lia.
        * subst m. rewrite !S_INR in *. rewrite Rmult_0_r, Rplus_0_r in H.
          assert (Z1 : (INR l + 1 + 1) * / (2 * (INR l + 1 + 1) + 1) * (2 * (INR l + 1 + 1) + 1) = INR l + 1 + 1) by (field; lra).
          assert (Z2 : (INR l + 1 + 1) * / (2 * (INR l + 1) + 1) * (2 * (INR l + 1) + 1) = INR l + 1 + 1) by (field; lra).
          assert (Q : (INR l + 1 + 1 + 1) * (2 * (INR l + 1) + 1) * a (S l) (S (S (S l))) = 0) by lra.
          apply Rmult_integral in Q. destruct Q as [Q|Q]; [exfalso; nra|exact Q].
        * subst l. rewrite !S_INR in *. rewrite !Rmult_0_r, Rplus_0_l, Rplus_0_r in H.
          rewrite Rmult_assoc, Rinv_l, Rmult_1_r in H by lra.
          apply (Rmult_eq_reg_r ((INR m + 1 + 1) * (2 * (INR m + 1 + 1) + 1))); [|nra].
          replace (/ (2 * (INR m + 1 + 1) + 1) * ((INR m + 1 + 1) * (2 * (INR m + 1 + 1) + 1))) with (INR m + 1 + 1) by (field; lra). lra.
        * rewrite !S_INR in *. rewrite !Rmult_0_r, !Rplus_0_r, Rmult_0_l in H. symmetry in H.
          apply Rmult_integral in H. destruct H as [H|H]; [|lra]. apply Rmult_integral in H. destruct H as [H|H]; [lra|exact H]. }
  intros m l. apply G.
Qed.
End Orthogonal.

(** the tables the solvers use *)
Lemma table_orthogonal P nm l m : exact_products P nm -> (l < nm)%nat -> (m < nm)%nat ->
  rsum (angles P) (fun n => wt P n * (legendre l (mu P n) * legendre m (mu P n))) = if Nat.eqb l m then / (2 * INR l + 1) else 0.
Proof.
  intros (Hw & He) Hl Hm. replace (2 * nm - 1)%nat with (S (2 * nm - 2)) in He by lia.
  rewrite (products (angles P) (2 * nm - 2) (mu P) (wt P) Hw He m l) by lia. destruct (Nat.eqb_spec l m); subst; reflexivity.
Qed.
