(** Rigorous bounds of polynomials with large integer coefficients on the half line: exact products,
    rounded enclosures, and positivity by Vincent's method (Taylor shifts and reversals until all
    coefficients are nonnegative).  Used for the accuracy of the rational approximations. *)
From Coq Require Import Reals ZArith List Bool Lra Lia.
Import ListNotations.
Open Scope R_scope.

(** ** Coefficient lists over any carrier *)
Section Lists.
  Variables (T : Type) (zero : T) (add mul : T -> T -> T).
  Fixpoint gadd (p q : list T) : list T :=
    match p, q with
    | [], _ => q
    | _, [] => p
    | a :: p', b :: q' => add a b :: gadd p' q'
    end.
  Definition gscal (a : T) (p : list T) : list T := map (mul a) p.
  Fixpoint gmul (p q : list T) : list T :=
    match p with
    | [] => []
    | a :: p' => gadd (gscal a q) (zero :: gmul p' q)
    end.
  (** (a + t q)' = q + t q' *)
  Fixpoint gder (p : list T) : list T :=
    match p with
    | [] => []
    | _ :: q => gadd q (zero :: gder q)
    end.
  (** p(t + 1) *)
  Fixpoint gshift (p : list T) : list T :=
    match p with
    | [] => []
    | a :: q => let s := gshift q in gadd (a :: s) s
    end.
End Lists.

Section Related.
  Variables (T U : Type) (zt : T) (zu : U) (at_ mt : T -> T -> T) (au mu : U -> U -> U) (rel : T -> U -> Prop).
  Hypothesis rel_zero : rel zt zu.
  Hypothesis rel_add : forall a b c d, rel a c -> rel b d -> rel (at_ a b) (au c d).
  Hypothesis rel_mul : forall a b c d, rel a c -> rel b d -> rel (mt a b) (mu c d).

  Lemma rel_gadd p q p' q' : Forall2 rel p p' -> Forall2 rel q q' ->
    Forall2 rel (gadd T at_ p q) (gadd U au p' q').
  Proof.
    intros H. revert q q'. induction H as [|a c p p' Ha Hp IH]; intros q q' Hq; [exact Hq|].
    destruct Hq as [|b d q q' Hb Hq]; cbn [gadd]; [constructor; assumption|]. constructor; auto.
  Qed.
  Lemma rel_gscal a c q q' : rel a c -> Forall2 rel q q' -> Forall2 rel (gscal T mt a q) (gscal U mu c q').
  Proof. intros Ha H. unfold gscal. induction H; cbn [map]; constructor; auto. Qed.
  Lemma rel_gmul p q p' q' : Forall2 rel p p' -> Forall2 rel q q' ->
    Forall2 rel (gmul T zt at_ mt p q) (gmul U zu au mu p' q').
  Proof.
    intros H Hq. induction H as [|a c p p' Ha Hp IH]; cbn [gmul]; [constructor|].
    apply rel_gadd; [apply rel_gscal; assumption|]. constructor; assumption.
  Qed.
  Lemma rel_gder p p' : Forall2 rel p p' -> Forall2 rel (gder T zt at_ p) (gder U zu au p').
  Proof.
    intros H. induction H as [|a c p p' Ha Hp IH]; cbn [gder]; [constructor|].
    apply rel_gadd; [assumption|]. constructor; assumption.
  Qed.
  Lemma rel_gshift p p' : Forall2 rel p p' -> Forall2 rel (gshift T at_ p) (gshift U au p').
  Proof.
    intros H. induction H as [|a c p p' Ha Hp IH]; cbn [gshift]; [constructor|].
    cbv zeta. apply rel_gadd; [constructor; assumption|assumption].
  Qed.
End Related.

(** ** Real coefficients *)
Fixpoint pev (p : list R) (t : R) : R := match p with [] => 0 | c :: q => c + t * pev q t end.
Notation radd := (gadd R Rplus).
Notation rmul := (gmul R 0 Rplus Rmult).
Notation rder := (gder R 0 Rplus).
Notation rscal := (gscal R Rmult).

Lemma pev_add p : forall q t, pev (radd p q) t = pev p t + pev q t.
Proof.
  induction p as [|a p IH]; intros q t; cbn [gadd pev]; [ring|]. destruct q as [|b q]; cbn [pev]; [ring|].
  rewrite IH. ring.
Qed.
Lemma pev_scal a p t : pev (rscal a p) t = a * pev p t.
Proof. unfold gscal. induction p as [|c p IH]; cbn [map pev]; [ring|]. rewrite IH. ring. Qed.
Lemma pev_mul p q t : pev (rmul p q) t = pev p t * pev q t.
Proof. induction p as [|a p IH]; cbn [gmul pev]; [ring|]. rewrite pev_add, pev_scal. cbn [pev]. rewrite IH. ring. Qed.
Lemma pev_shift p t : pev (gshift R Rplus p) t = pev p (t + 1).
Proof.
  induction p as [|a p IH]; cbn [gshift pev]; [ring|]. cbv zeta. rewrite pev_add. cbn [pev]. rewrite IH. ring.
Qed.
Lemma pev_der p t : derivable_pt_lim (pev p) t (pev (rder p) t).
Proof.
  induction p as [|a p IH]; cbn [gder].
  - cbn [pev]. apply (derivable_pt_lim_const 0).
  - rewrite pev_add. cbn [pev].
    replace (pev p t + (0 + t * pev (rder p) t)) with (0 + (1 * pev p t + t * pev (rder p) t)) by ring.
    apply (derivable_pt_lim_plus (fct_cte a) (fun t => t * pev p t)); [apply derivable_pt_lim_const|].
    apply (derivable_pt_lim_mult (fun t => t) (pev p)); [apply derivable_pt_lim_id|exact IH].
Qed.
Lemma pev_app p q t : pev (p ++ q) t = pev p t + t ^ length p * pev q t.
Proof. induction p as [|a p IH]; cbn [app pev length pow]; [ring|]. rewrite IH. ring. Qed.
Lemma pev_rev p v : v <> 0 -> v ^ length p * pev p (/ v) = v * pev (rev p) v.
Proof.
  intros Hv. induction p as [|a p IH]; cbn [length pev rev pow]; [ring|].
  rewrite pev_app, rev_length. cbn [pev].
  transitivity (v * (v ^ length p * a) + v ^ length p * pev p (/ v)); [field; exact Hv|]. rewrite IH. ring.
Qed.

(** ** Integer coefficients *)
Notation zadd := (gadd Z Z.add).
Notation zmul := (gmul Z 0%Z Z.add Z.mul).
Definition zr (p : list Z) : list R := map IZR p.
Definition is_z (z : Z) (r : R) : Prop := r = IZR z.

Lemma is_z_list p : Forall2 is_z p (zr p).
Proof. induction p; constructor; auto. reflexivity. Qed.
Lemma is_z_eq p q : Forall2 is_z p q -> q = zr p.
Proof. intros H. induction H as [|a b p q Ha Hp IH]; [reflexivity|]. cbn. rewrite IH, Ha. reflexivity. Qed.
Lemma zr_mul p q : zr (zmul p q) = rmul (zr p) (zr q).
Proof.
  symmetry. apply is_z_eq. apply rel_gmul; try apply is_z_list; unfold is_z.
  - reflexivity.
  - intros a b c d -> ->. symmetry. apply plus_IZR.
  - intros a b c d -> ->. symmetry. apply mult_IZR.
Qed.
Lemma zr_shift p : zr (gshift Z Z.add p) = gshift R Rplus (zr p).
Proof.
  symmetry. apply is_z_eq. apply rel_gshift; try apply is_z_list; unfold is_z.
  intros a b c d -> ->. symmetry. apply plus_IZR.
Qed.
Lemma pevz_mul p q t : pev (zr (zmul p q)) t = pev (zr p) t * pev (zr q) t.
Proof. rewrite zr_mul. apply pev_mul. Qed.

(** nonnegative on the half line, by Vincent's method *)
Fixpoint vincent (fuel : nat) (p : list Z) : bool :=
  if forallb (Z.leb 0) p then true
  else match fuel with
       | O => false
       | S f => if match p with a :: _ => Z.leb 0 a | [] => true end
                then if vincent f (gshift Z Z.add p) then vincent f (gshift Z Z.add (rev p)) else false
                else false
       end.

Lemma coefs_nonneg p t : forallb (Z.leb 0) p = true -> 0 <= t -> 0 <= pev (zr p) t.
Proof.
  intros H Ht. induction p as [|a p IH]; cbn [zr map pev]; [lra|]. fold (zr p). cbn [forallb] in H.
  apply andb_true_iff in H. destruct H as [Ha Hp]. apply Z.leb_le in Ha. apply IZR_le in Ha. specialize (IH Hp).
  assert (0 <= t * pev (zr p) t) by (apply Rmult_le_pos; assumption). lra.
Qed.

Lemma vincent_sound fuel : forall p, vincent fuel p = true -> forall t, 0 <= t -> 0 <= pev (zr p) t.
Proof.
  induction fuel as [|f IH]; intros p H t Ht; cbn [vincent] in H;
    destruct (forallb (Z.leb 0) p) eqn:E; try (apply coefs_nonneg; assumption); [discriminate|].
  destruct (match p with a :: _ => Z.leb 0 a | [] => true end) eqn:E0; [|discriminate].
  destruct (vincent f (gshift Z Z.add p)) eqn:E1; [|discriminate].
  destruct (Rle_dec 1 t) as [L|L].
  - specialize (IH _ E1 (t - 1) ltac:(lra)). rewrite zr_shift, pev_shift in IH.
    replace (t - 1 + 1) with t in IH by ring. exact IH.
  - destruct (Req_dec t 0) as [->|Hn].
    + destruct p as [|a p]; cbn [zr map pev]; [lra|]. apply Z.leb_le in E0. apply IZR_le in E0. lra.
    + assert (Hv : / t <> 0) by (apply Rinv_neq_0_compat; exact Hn).
      assert (H1 : 1 <= / t). { rewrite <- Rinv_1. apply Rinv_le_contravar; lra. }
      specialize (IH _ H (/ t - 1) ltac:(lra)). rewrite zr_shift, pev_shift in IH.
      replace (/ t - 1 + 1) with (/ t) in IH by ring. unfold zr in IH. rewrite map_rev in IH. fold (zr p) in IH.
      pose proof (pev_rev (zr p) (/ t) Hv) as K. rewrite Rinv_inv in K.
      assert (P : 0 < (/ t) ^ length (zr p)) by (apply pow_lt; lra).
      apply (Rmult_le_reg_l _ _ _ P). rewrite Rmult_0_r, K. apply Rmult_le_pos; [lra|exact IH].
Qed.

(** ** Enclosures: a middle and a radius *)
Definition ball := (Z * Z)%type.
Definition inball (b : ball) (c : R) : Prop := Rabs (c - IZR (fst b)) <= IZR (snd b).
Definition badd (a b : ball) : ball := (fst a + fst b, snd a + snd b)%Z.
Definition bmul (a b : ball) : ball :=
  (fst a * fst b, Z.abs (fst a) * snd b + Z.abs (fst b) * snd a + snd a * snd b)%Z.

Lemma inball_zero : inball (0, 0)%Z 0.
Proof. unfold inball. cbn. rewrite Rminus_0_r, Rabs_R0. lra. Qed.
Lemma inball_add a b c d : inball a c -> inball b d -> inball (badd a b) (c + d).
Proof.
  unfold inball, badd. cbn [fst snd]. rewrite !plus_IZR. intros H1 H2.
  replace (c + d - (IZR (fst a) + IZR (fst b))) with ((c - IZR (fst a)) + (d - IZR (fst b))) by ring.
  eapply Rle_trans; [apply Rabs_triang|]. lra.
Qed.
Lemma inball_mul a b c d : inball a c -> inball b d -> inball (bmul a b) (c * d).
Proof.
  unfold inball, bmul. cbn [fst snd]. rewrite !plus_IZR, !mult_IZR, !abs_IZR. intros H1 H2.
  set (m := IZR (fst a)) in *. set (m' := IZR (fst b)) in *. set (u := c - m) in *. set (u' := d - m') in *.
  replace (c * d - m * m') with (m * u' + m' * u + u * u') by (unfold u, u'; ring).
  eapply Rle_trans; [apply Rabs_triang|]. eapply Rle_trans; [apply Rplus_le_compat_r, Rabs_triang|].
  rewrite !Rabs_mult.
  assert (P1 := Rabs_pos m). assert (P2 := Rabs_pos m'). assert (P3 := Rabs_pos u). assert (P4 := Rabs_pos u').
  apply Rplus_le_compat; [apply Rplus_le_compat|]; apply Rmult_le_compat; lra.
Qed.

(** a rational coefficient, rounded down *)
Lemma inball_quotient a b : b <> 0%Z -> inball ((a / b)%Z, 1%Z) (IZR a / IZR b).
Proof.
  intros Hb. unfold inball. cbn [fst snd].
  pose proof (Z.div_mod a b Hb) as D. assert (B : (Z.abs (a mod b) < Z.abs b)%Z).
  { destruct (Z.lt_ge_cases 0 b) as [P|P].
    - pose proof (Z.mod_pos_bound a b P). lia.
    - pose proof (Z.mod_neg_bound a b ltac:(lia)). lia. }
  assert (Hbr : IZR b <> 0) by (apply not_0_IZR; exact Hb).
  set (q := (a / b)%Z) in *. set (s := (a mod b)%Z) in *.
  replace (IZR a / IZR b - IZR q) with (IZR s * / IZR b).
  2: { rewrite D, plus_IZR, mult_IZR. field. exact Hbr. }
  rewrite Rabs_mult, Rabs_inv, <- !abs_IZR. apply IZR_lt in B.
  assert (P : 0 < IZR (Z.abs b)) by (apply IZR_lt; lia).
  apply (Rmult_le_reg_r (IZR (Z.abs b)) _ _ P). rewrite Rmult_assoc, Rinv_l by lra. lra.
Qed.

(** division by 2^k, rounded outwards *)
Definition round_ball (k : Z) (b : ball) : ball := (Z.shiftr (fst b) k, Z.shiftr (snd b) k + 2)%Z.
Lemma round_ball_ok k b c : (0 <= k)%Z -> inball b c -> inball (round_ball k b) (/ IZR (2 ^ k) * c).
Proof.
  intros Hk H. unfold inball, round_ball in *. cbn [fst snd]. rewrite !Z.shiftr_div_pow2 by exact Hk.
  assert (P : (0 < 2 ^ k)%Z) by (apply Z.pow_pos_nonneg; lia). pose proof (IZR_lt _ _ P) as PR.
  pose proof (inball_quotient (fst b) (2 ^ k) ltac:(lia)) as Q1. pose proof (inball_quotient (snd b) (2 ^ k) ltac:(lia)) as Q2.
  unfold inball in Q1, Q2. cbn [fst snd] in Q1, Q2. rewrite plus_IZR.
  set (u := IZR (2 ^ k)) in *. set (m := IZR (fst b)) in *. set (r := IZR (snd b)) in *.
  set (m' := IZR (fst b / 2 ^ k)) in *. set (r' := IZR (snd b / 2 ^ k)) in *.
  replace (/ u * c - m') with (/ u * (c - m) + (m / u - m')) by (field; lra).
  eapply Rle_trans; [apply Rabs_triang|]. rewrite Rabs_mult, (Rabs_pos_eq (/ u)) by (apply Rlt_le, Rinv_0_lt_compat, PR).
  assert (A : / u * Rabs (c - m) <= / u * r) by (apply Rmult_le_compat_l; [apply Rlt_le, Rinv_0_lt_compat, PR|exact H]).
  pose proof (Rle_abs (r / u - r')) as A2. unfold Rdiv in *. lra.
Qed.

Lemma ball_lower bs p t : Forall2 inball bs p -> 0 <= t ->
  pev (zr (map (fun b => (fst b - snd b)%Z) bs)) t <= pev p t.
Proof.
  intros H Ht. induction H as [|b c bs p Hb Hp IH]; cbn [map zr pev]; [lra|].
  fold (zr (map (fun b => (fst b - snd b)%Z) bs)).
  assert (t * pev (zr (map (fun b => (fst b - snd b)%Z) bs)) t <= t * pev p t) by (apply Rmult_le_compat_l; assumption).
  unfold inball in Hb. rewrite minus_IZR. pose proof (Rle_abs (- (c - IZR (fst b)))) as A. rewrite Rabs_Ropp in A. lra.
Qed.

(** ** |P' Q - P Q' + P Q| <= Q^2 / D on the half line *)
Notation badd_ := (gadd ball badd).
Notation bmul_ := (gmul ball (0, 0)%Z badd bmul).
Notation bder_ := (gder ball (0, 0)%Z badd).
Notation bscal_ := (gscal ball bmul).

(** products of quadratic factors n0 + n1 t + n2 t^2, each divided by n0, in the variable s = t / c *)
Definition quad := (Z * Z * Z)%type.
Definition qev (q : quad) (t : R) : R := let '(a, b, c) := q in IZR a + t * (IZR b + t * IZR c).
Definition qhead (q : quad) : Z := let '(a, _, _) := q in a.
Fixpoint quotients (qs : list quad) (t : R) : R :=
  match qs with [] => 1 | q :: r => qev q t / IZR (qhead q) * quotients r t end.

Definition bfactor (k c : Z) (q : quad) : list ball :=
  let '(a, b, d) := q in
  [(2 ^ k, 0); (b * c * 2 ^ k / a, 1); (d * (c * c) * 2 ^ k / a, 1)]%Z.
Fixpoint bprod (k c : Z) (qs : list quad) : list ball :=
  match qs with
  | [] => [(2 ^ k, 0)%Z]
  | q :: r => map (round_ball k) (bmul_ (bfactor k c q) (bprod k c r))
  end.

Definition bdefect (c : Z) (P Q : list ball) : list ball :=
  badd_ (bmul_ (badd_ (bder_ P) (bscal_ (c, 0)%Z P)) Q) (bscal_ (-1, 0)%Z (bmul_ P (bder_ Q))).
Definition defect (c : Z) (P Q : list R) : list R :=
  radd (rmul (radd (rder P) (rscal (IZR c) P)) Q) (rscal (-1) (rmul P (rder Q))).

Definition certificate (k : Z) (fuel : nat) (c D : Z) (nums dens : list quad) : bool :=
  let P := bprod k c nums in
  let Q := bprod k c dens in
  let W := bdefect c P Q in
  let QQ := bscal_ (c, 0)%Z (bmul_ Q Q) in
  let low d := map (fun b => (fst b - snd b)%Z) (badd_ QQ (bscal_ (d, 0)%Z W)) in
  if vincent fuel (low D) then vincent fuel (low (- D)%Z) else false.

Lemma inball_z z : inball (z, 0%Z) (IZR z).
Proof. unfold inball. cbn [fst snd]. rewrite Rminus_diag_eq, Rabs_R0 by reflexivity. lra. Qed.

Lemma bprod_ok k c qs : (0 <= k)%Z -> forallb (fun q => negb (Z.eqb (qhead q) 0)) qs = true ->
  exists X, Forall2 inball (bprod k c qs) X /\ forall s, pev X s = IZR (2 ^ k) * quotients qs (IZR c * s).
Proof.
  intros Hk. assert (P : (0 < 2 ^ k)%Z) by (apply Z.pow_pos_nonneg; lia). pose proof (IZR_lt _ _ P) as PR.
  induction qs as [|[[a b] d] r IH]; intros H; cbn [bprod].
  - exists [IZR (2 ^ k)]. split; [constructor; [apply inball_z|constructor]|]. intros s. cbn [pev quotients]. ring.
  - cbn [forallb qhead] in H. apply andb_true_iff in H. destruct H as [Ha Hr]. apply negb_true_iff, Z.eqb_neq in Ha.
    destruct (IH Hr) as (X & HX & EX). assert (Har : IZR a <> 0) by (apply not_0_IZR; exact Ha).
    pose (F := [IZR (2 ^ k); IZR (b * c * 2 ^ k) / IZR a; IZR (d * (c * c) * 2 ^ k) / IZR a]).
    exists (rscal (/ IZR (2 ^ k)) (rmul F X)). split.
    + assert (M : Forall2 inball (bmul_ (bfactor k c (a, b, d)) (bprod k c r)) (rmul F X)).
      { apply (rel_gmul ball R (0, 0)%Z 0 badd bmul Rplus Rmult inball inball_zero inball_add inball_mul); [|exact HX].
        unfold bfactor, F. constructor; [apply inball_z|]. constructor; [apply inball_quotient; exact Ha|].
        constructor; [apply inball_quotient; exact Ha|constructor]. }
      unfold gscal. induction M as [|x y l l' Hx Hl IHl]; cbn [map]; constructor; [apply round_ball_ok; assumption|exact IHl].
    + intros s. rewrite pev_scal, pev_mul, EX. cbn [quotients qev qhead]. unfold F. cbn [pev]. rewrite !mult_IZR. field. lra.
Qed.

Lemma certificate_sound k fuel c D nums dens : (0 <= k)%Z -> (0 < c)%Z -> (0 < D)%Z ->
  forallb (fun q => negb (Z.eqb (qhead q) 0)) nums = true -> forallb (fun q => negb (Z.eqb (qhead q) 0)) dens = true ->
  certificate k fuel c D nums dens = true ->
  exists P Q : list R,
    (forall s, pev P s = IZR (2 ^ k) * quotients nums (IZR c * s)) /\
    (forall s, pev Q s = IZR (2 ^ k) * quotients dens (IZR c * s)) /\
    forall s, 0 <= s ->
      Rabs (pev (rder P) s * pev Q s - pev P s * pev (rder Q) s + IZR c * (pev P s * pev Q s))
      <= IZR c * (pev Q s * pev Q s) / IZR D.
Proof.
  intros Hk Hc HD Hn Hd H.
  destruct (bprod_ok k c nums Hk Hn) as (P & HP & EP). destruct (bprod_ok k c dens Hk Hd) as (Q & HQ & EQ).
  exists P, Q. split; [exact EP|]. split; [exact EQ|]. intros s Hs. unfold certificate in H. cbv zeta in H.
  set (bP := bprod k c nums) in *. set (bQ := bprod k c dens) in *.
  assert (RA := rel_gadd ball R badd Rplus inball inball_add).
  assert (RM := rel_gmul ball R (0, 0)%Z 0 badd bmul Rplus Rmult inball inball_zero inball_add inball_mul).
  assert (RD := rel_gder ball R (0, 0)%Z 0 badd Rplus inball inball_zero inball_add).
  assert (RS := rel_gscal ball R bmul Rmult inball inball_mul).
  assert (L : forall d, Forall2 inball (badd_ (bscal_ (c, 0%Z) (bmul_ bQ bQ)) (bscal_ (d, 0%Z) (bdefect c bP bQ)))
     (radd (rscal (IZR c) (rmul Q Q)) (rscal (IZR d) (defect c P Q)))).
  { intros d. apply RA; [apply RS; [apply inball_z|apply RM; assumption]|]. apply RS; [apply inball_z|]. unfold bdefect, defect.
    apply RA; [apply RM; [apply RA; [apply RD; assumption|apply RS; [apply inball_z|assumption]]|assumption]|].
    apply RS; [apply inball_z|]. apply RM; [assumption|]. apply RD; assumption. }
  assert (V : forall d, vincent fuel (map (fun b => (fst b - snd b)%Z)
       (badd_ (bscal_ (c, 0%Z) (bmul_ bQ bQ)) (bscal_ (d, 0%Z) (bdefect c bP bQ)))) = true ->
     0 <= IZR c * (pev Q s * pev Q s) + IZR d * pev (defect c P Q) s).
  { intros d Hv. pose proof (vincent_sound _ _ Hv s Hs) as V.
    pose proof (ball_lower _ _ s (L d) Hs) as B. rewrite pev_add, !pev_scal, pev_mul in B. lra. }
  destruct (vincent fuel _) eqn:E1 in H; [|discriminate].
  apply V in E1. apply V in H. rewrite opp_IZR in H. clear V L.
  assert (Ed : pev (defect c P Q) s = pev (rder P) s * pev Q s - pev P s * pev (rder Q) s + IZR c * (pev P s * pev Q s)).
  { unfold defect. rewrite pev_add, pev_scal, !pev_mul, pev_add, pev_scal. ring. }
  rewrite Ed in E1, H. set (W := pev (rder P) s * pev Q s - pev P s * pev (rder Q) s + IZR c * (pev P s * pev Q s)) in *.
  pose proof (IZR_lt _ _ HD) as HDr. apply (Rmult_le_reg_l (IZR D) _ _ HDr).
  replace (IZR D * (IZR c * (pev Q s * pev Q s) / IZR D)) with (IZR c * (pev Q s * pev Q s)) by (field; lra).
  rewrite <- (Rabs_pos_eq (IZR D)) by lra. rewrite <- Rabs_mult. apply Rabs_le. lra.
Qed.

(** ** From the defect to the exponential *)
Lemma defect_exponential (g dg : R -> R) (eps : R) t :
  (forall u, 0 <= u -> derivable_pt_lim g u (dg u)) ->
  (forall u, 0 <= u -> Rabs (dg u + g u) <= eps) -> 0 <= t ->
  Rabs (g t - exp (- t)) <= Rabs (g 0 - 1) + eps.
Proof.
  intros Hd He Ht.
  assert (Heps : 0 <= eps). { eapply Rle_trans; [apply Rabs_pos|apply (He 0); lra]. }
  assert (K : forall sg, sg = 1 \/ sg = -1 -> sg * (g t * exp t - g 0) <= eps * (exp t - 1)).
  { intros sg Hsg. destruct (Req_dec t 0) as [->|Hn]; [rewrite exp_0; destruct Hsg as [-> | ->]; lra|].
    pose (phi := fun u => eps * exp u - sg * (g u * exp u)).
    pose (dphi := fun u => eps * exp u - sg * (dg u * exp u + g u * exp u)).
    destruct (MVT_cor2 phi dphi 0 t ltac:(lra)) as (x & Hx & Hx1).
    { intros u Hu. unfold phi, dphi.
      apply (derivable_pt_lim_minus (fun u => eps * exp u) (fun u => sg * (g u * exp u))).
      - apply (derivable_pt_lim_scal exp eps). apply derivable_pt_lim_exp.
      - apply (derivable_pt_lim_scal (fun u => g u * exp u) sg).
        apply (derivable_pt_lim_mult g exp); [apply Hd; lra|apply derivable_pt_lim_exp]. }
    assert (P : 0 <= dphi x).
    { unfold dphi. replace (eps * exp x - sg * (dg x * exp x + g x * exp x)) with (exp x * (eps - sg * (dg x + g x))) by ring.
      apply Rmult_le_pos; [apply Rlt_le, exp_pos|]. pose proof (He x ltac:(lra)) as B.
      assert (A1 := Rle_abs (dg x + g x)). assert (A2 := Rle_abs (- (dg x + g x))). rewrite Rabs_Ropp in A2.
      destruct Hsg as [-> | ->]; lra. }
    assert (0 <= phi t - phi 0) by (rewrite Hx; apply Rmult_le_pos; lra).
    unfold phi in H. rewrite exp_0 in H. lra. }
  assert (K1 := K 1 (or_introl eq_refl)). assert (K2 := K (-1) (or_intror eq_refl)).
  assert (Ep := exp_pos t). assert (E1 : exp t * exp (- t) = 1) by (rewrite <- exp_plus, Rplus_opp_r, exp_0; reflexivity).
  assert (E2 : 1 <= exp t). { rewrite <- exp_0. destruct Ht as [Ht| <-]; [left; apply exp_increasing; exact Ht|right; reflexivity]. }
  apply (Rmult_le_reg_l (exp t) _ _ Ep). rewrite <- (Rabs_pos_eq (exp t)) at 1 by lra. rewrite <- Rabs_mult.
  replace (exp t * (g t - exp (- t))) with (g t * exp t - 1) by (rewrite Rmult_minus_distr_l, E1; ring).
  assert (A1 := Rle_abs (g 0 - 1)). assert (A2 := Rle_abs (- (g 0 - 1))). rewrite Rabs_Ropp in A2.
  assert (A3 : Rabs (g 0 - 1) <= exp t * Rabs (g 0 - 1)).
  { rewrite <- (Rmult_1_l (Rabs (g 0 - 1))) at 1. apply Rmult_le_compat_r; [apply Rabs_pos|exact E2]. }
  rewrite Rmult_plus_distr_l. apply Rabs_le. lra.
Qed.
