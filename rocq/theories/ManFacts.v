(** C58: the manufactured solutions solve their transport problems. *)
From Coq Require Import Lra Lia Reals.
From Verif Require Import Base BaseFacts ManModel ManSpec.
Open Scope R_scope.

Lemma fill_columns_at cells x angles angle_x f i n : (i < cells)%nat -> (n < angles)%nat ->
  fill_columns cells x angles angle_x f i n = f (x i) (angle_x n).
Proof.
  intros Hi Hn. unfold fill_columns. induction angles as [|a IH]; [lia|]. cbn [for_up]. unfold set_col at 1.
  destruct (Nat.eqb_spec n a) as [-> |D].
  - destruct (Nat.ltb_spec i cells); [reflexivity|lia].
  - apply IH. lia.
Qed.

Lemma fill_times_at cells x angles angle_x times edges_t f k i n :
  (k < times)%nat -> (i < cells)%nat -> (n < angles)%nat ->
  fill_times cells x angles angle_x times edges_t f k i n = f (edges_t k) (x i) (angle_x n).
Proof.
  intros Hk Hi Hn. unfold fill_times. induction times as [|a IH]; [lia|]. cbn [for_up].
  destruct (Nat.eqb_spec k a) as [-> |D]; [now apply fill_columns_at|]. apply IH. lia.
Qed.

(** two masked writes per column *)
Lemma two_masks cells x angles (m1 m2 : R -> bool) (f1 f2 : nat -> R -> R) i n : (i < cells)%nat -> (n < angles)%nat ->
  for_up angles (fun n flux =>
    set_col_where (set_col_where flux n cells x m1 (f1 n)) n cells x m2 (f2 n)) zeros2 i n
  = if m2 (x i) then f2 n (x i) else if m1 (x i) then f1 n (x i) else 0.
Proof.
  intros Hi.
  assert (G : forall a, (a <= n)%nat -> for_up a (fun n flux =>
    set_col_where (set_col_where flux n cells x m1 (f1 n)) n cells x m2 (f2 n)) zeros2 i n = 0).
  { induction a as [|a IH]; [reflexivity|]. intros Ha. cbn [for_up]. unfold set_col_where, set_col.
    destruct (Nat.eqb_spec n a); [lia|]. apply IH. lia. }
  intros Hn. induction angles as [|a IH]; [lia|]. cbn [for_up].
  destruct (Nat.eqb_spec n a) as [-> |D].
  - unfold set_col_where at 1 2, set_col. rewrite !Nat.eqb_refl. destruct (Nat.ltb_spec i cells); [|lia]. cbn [andb].
    destruct (m2 (x i)); [reflexivity|]. destruct (m1 (x i)); [reflexivity|]. apply G. lia.
  - unfold set_col_where at 1 2, set_col. destruct (Nat.eqb_spec n a); [lia|]. apply IH. lia.
Qed.

Lemma r_lt_true a b : a < b -> r_lt a b = true.
Proof. intros H. unfold r_lt. destruct (Rlt_dec a b); [reflexivity|lra]. Qed.
Lemma r_lt_false a b : b <= a -> r_lt a b = false.
Proof. intros H. unfold r_lt. destruct (Rlt_dec a b); [lra|reflexivity]. Qed.
Lemma r_le_true a b : a <= b -> r_le a b = true.
Proof. intros H. unfold r_le. destruct (Rle_dec a b); [reflexivity|lra]. Qed.
Lemma r_le_false a b : b < a -> r_le a b = false.
Proof. intros H. unfold r_le. destruct (Rle_dec a b); [lra|reflexivity]. Qed.

(** derivatives agree for functions that agree near the point *)
Lemma derivable_near f g x l d : 0 < d -> (forall y, Rabs (y - x) < d -> f y = g y) ->
  derivable_pt_lim f x l -> derivable_pt_lim g x l.
Proof.
  intros Hd E D eps He. destruct (D eps He) as [delta Hdelta].
  assert (P : 0 < Rmin delta d) by (apply Rmin_pos; [apply cond_pos|exact Hd]).
  exists (mkposreal _ P). cbn [pos]. intros h Hh Hs.
  assert (S1 : Rabs h < delta) by (eapply Rlt_le_trans; [exact Hs|apply Rmin_l]).
  assert (S2 : Rabs h < d) by (eapply Rlt_le_trans; [exact Hs|apply Rmin_r]).
  rewrite <- (E (x + h)), <- (E x).
  - now apply Hdelta.
  - rewrite Rminus_diag_eq, Rabs_R0 by reflexivity. exact Hd.
  - replace (x + h - x) with h by ring. exact S2.
Qed.

(** integral from an antiderivative *)
Lemma integral_of (f F : R -> R) v : (forall y, derivable_pt_lim F y (f y)) -> continuity f ->
  v = F 1 - F (-1) -> over_directions f v.
Proof.
  intros D C ->.
  assert (pr : Riemann_integrable f (-1) 1).
  { apply continuity_implies_RiemannInt; [lra|]. intros y _. apply C. }
  exists pr.
  assert (DF : derivable F) by (intros y; exists (f y); apply D).
  assert (E : forall y, derive F DF y = f y).
  { intros y. unfold derive. apply derive_pt_eq_0. apply D. }
  assert (CD : continuity (derive F DF)).
  { intros y. apply (continuity_pt_locally_ext f _ 1); [lra| |apply C]. intros z _. symmetry. apply E. }
  pose (c1 := mkC1 CD).
  assert (pr2 : Riemann_integrable (derive c1 (diff0 c1)) (-1) 1).
  { apply continuity_implies_RiemannInt; [lra|]. intros y _. change (derive c1 (diff0 c1)) with (derive F (diff0 c1)).
    apply (continuity_pt_locally_ext f _ 1); [lra| |apply C]. intros z _. symmetry.
    unfold derive. apply derive_pt_eq_0. apply D. }
  pose proof (FTC_Riemann c1 pr2) as K. change (c1 1) with (F 1) in K. change (c1 (-1)) with (F (-1)) in K.
  rewrite <- K. apply RiemannInt_P18; [lra|]. intros y _.
  unfold derive. symmetry. apply derive_pt_eq_0. apply D.
Qed.

(** derivative calculus in lambda form *)
Lemma dl_const c x : derivable_pt_lim (fun _ => c) x 0.
Proof. apply derivable_pt_lim_const. Qed.
Lemma dl_id x : derivable_pt_lim (fun y => y) x 1.
Proof. apply derivable_pt_lim_id. Qed.
Lemma dl_plus f g x a b : derivable_pt_lim f x a -> derivable_pt_lim g x b -> derivable_pt_lim (fun y => f y + g y) x (a + b).
Proof. apply derivable_pt_lim_plus. Qed.
Lemma dl_minus f g x a b : derivable_pt_lim f x a -> derivable_pt_lim g x b -> derivable_pt_lim (fun y => f y - g y) x (a - b).
Proof. apply derivable_pt_lim_minus. Qed.
Lemma dl_opp f x a : derivable_pt_lim f x a -> derivable_pt_lim (fun y => - f y) x (- a).
Proof. apply derivable_pt_lim_opp. Qed.
Lemma dl_mult f g x a b : derivable_pt_lim f x a -> derivable_pt_lim g x b ->
  derivable_pt_lim (fun y => f y * g y) x (a * g x + f x * b).
Proof. apply derivable_pt_lim_mult. Qed.
Lemma dl_sq f x a : derivable_pt_lim f x a -> derivable_pt_lim (fun y => f y ^ 2) x (2 * f x * a).
Proof.
  intros H. apply (derivable_near (fun y => f y * f y) _ _ _ 1); [lra|intros; ring|].
  replace (2 * f x * a) with (a * f x + f x * a) by ring. now apply dl_mult.
Qed.
Lemma dl_div f c x a : derivable_pt_lim f x a -> derivable_pt_lim (fun y => f y / c) x (a / c).
Proof.
  intros H. unfold Rdiv. replace (a * / c) with (a * / c + f x * 0) by ring. apply (dl_mult f (fun _ => / c)); [exact H|apply dl_const].
Qed.
Lemma dl_exp f x a : derivable_pt_lim f x a -> derivable_pt_lim (fun y => exp (f y)) x (exp (f x) * a).
Proof. intros H. apply (derivable_pt_lim_comp f exp); [exact H|apply derivable_pt_lim_exp]. Qed.
Lemma dl_sin f x a : derivable_pt_lim f x a -> derivable_pt_lim (fun y => sin (f y)) x (cos (f x) * a).
Proof. intros H. apply (derivable_pt_lim_comp f sin); [exact H|apply derivable_pt_lim_sin]. Qed.
Lemma dl_cos f x a : derivable_pt_lim f x a -> derivable_pt_lim (fun y => cos (f y)) x (- sin (f x) * a).
Proof. intros H. apply (derivable_pt_lim_comp f cos); [exact H|apply derivable_pt_lim_cos]. Qed.

Ltac dstep := first
  [ apply dl_const | apply dl_id | eapply dl_exp | eapply dl_sin | eapply dl_cos | eapply dl_sq
  | eapply dl_plus | eapply dl_minus | eapply dl_opp | eapply dl_mult | eapply dl_div ].
Ltac dauto := repeat dstep.
Lemma dl_eq f x a b : derivable_pt_lim f x a -> a = b -> derivable_pt_lim f x b.
Proof. now intros H <-. Qed.
Ltac by_derivative D := apply (dl_eq _ _ _ _ D).

Lemma dl_continuity f (F : R -> R) : (forall y, derivable_pt_lim f y (F y)) -> continuity f.
Proof. intros H y. apply derivable_continuous_pt. exists (F y). apply H. Qed.

(** two continuous functions glued at [c] *)
Lemma glued (f g : R -> R) c h : continuity f -> continuity g -> (forall y, y <= c -> h y = f y) -> (forall y, c <= y -> h y = g y) ->
  continuity h.
Proof.
  intros Cf Cg Hf Hg y eps He.
  destruct (Cf y eps He) as (d1 & P1 & Q1). destruct (Cg y eps He) as (d2 & P2 & Q2).
  cbn [dist R_met] in *. unfold R_dist in *.
  destruct (Rtotal_order y c) as [L|[E|G]].
  - exists (Rmin d1 (c - y)). split; [apply Rmin_pos; lra|]. intros z [Dz Hz]. cbn [dist R_met]. unfold R_dist.
    assert (A : Rabs (z - y) < d1) by (eapply Rlt_le_trans; [exact Hz|apply Rmin_l]).
    assert (B : Rabs (z - y) < c - y) by (eapply Rlt_le_trans; [exact Hz|apply Rmin_r]).
    apply Rabs_def2 in B. rewrite (Hf z), (Hf y) by lra. apply Q1. now split.
  - exists (Rmin d1 d2). split; [apply Rmin_pos; lra|]. intros z [Dz Hz]. cbn [dist R_met]. unfold R_dist.
    destruct (Rle_or_lt z c) as [K|K].
    + rewrite (Hf z), (Hf y) by lra. apply Q1. split; [exact Dz|]. eapply Rlt_le_trans; [exact Hz|apply Rmin_l].
    + rewrite (Hg z), (Hg y) by lra. apply Q2. split; [exact Dz|]. eapply Rlt_le_trans; [exact Hz|apply Rmin_r].
  - exists (Rmin d2 (y - c)). split; [apply Rmin_pos; lra|]. intros z [Dz Hz]. cbn [dist R_met]. unfold R_dist.
    assert (A : Rabs (z - y) < d2) by (eapply Rlt_le_trans; [exact Hz|apply Rmin_l]).
    assert (B : Rabs (z - y) < y - c) by (eapply Rlt_le_trans; [exact Hz|apply Rmin_r]).
    apply Rabs_def2 in B. rewrite (Hg z), (Hg y) by lra. apply Q2. now split.
Qed.

(** *** One material, no scattering *)
Lemma ss_01_solves : exists psi, tabulates solution_ss_01 psi /\
  (forall x mu, mu <> 0 -> balanced 1 0 psi (fun _ _ => 1) x mu) /\
  (forall mu, 0 < mu -> psi 0 mu = 1) /\ (forall mu, mu < 0 -> psi 1 mu = 0).
Proof.
  exists (fun x mu => if r_lt 0 mu then 1 else 1 - exp ((1 - x) / mu)). split; [|split; [|split]].
  - intros cells x angles ax i n Hi Hn. apply (fill_columns_at cells x angles ax (fun x mu => if r_lt 0 mu then 1 else 1 - exp ((1 - x) / mu))); assumption.
  - intros x mu Hm. destruct (Rlt_or_le 0 mu) as [P|P].
    + exists 0, 0. rewrite (r_lt_true 0 mu) by lra. split; [apply dl_const|]. split; [now left|ring].
    + exists (exp ((1 - x) / mu) / mu), 0. rewrite (r_lt_false 0 mu) by lra. split; [|split; [now left|]].
      * eassert (D : derivable_pt_lim (fun y => 1 - exp ((1 - y) / mu)) x _) by dauto.
        by_derivative D. field. exact Hm.
      * field. exact Hm.
  - intros mu Hm. rewrite r_lt_true by lra. reflexivity.
  - intros mu Hm. rewrite r_lt_false by lra. replace ((1 - 1) / mu) with 0 by (field; lra). rewrite exp_0. ring.
Qed.

Lemma ss_02_solves : exists psi, tabulates solution_ss_02 psi /\
  (forall x mu, mu <> 0 -> balanced 1 0 psi (fun _ _ => 1 / 2) x mu) /\
  (forall mu, 0 < mu -> psi 0 mu = 1) /\ (forall mu, mu < 0 -> psi 1 mu = 0).
Proof.
  pose (f := fun x mu => if r_lt 0 mu then 0.5 + 0.5 * exp (- x / mu) else 0.5 - 0.5 * exp ((1 - x) / mu)).
  exists f. split; [|split; [|split]].
  - intros cells x angles ax i n Hi Hn. apply (fill_columns_at cells x angles ax f); assumption.
  - intros x mu Hm. unfold balanced, f. destruct (Rlt_or_le 0 mu) as [P|P].
    + exists (- (0.5 * exp (- x / mu) / mu)), 0. rewrite (r_lt_true 0 mu) by lra. split; [|split; [now left|]].
      * eassert (D : derivable_pt_lim (fun y => 0.5 + 0.5 * exp (- y / mu)) x _) by dauto. by_derivative D. field. exact Hm.
      * replace 0.5 with (1 / 2) by lra. field. exact Hm.
    + exists (0.5 * exp ((1 - x) / mu) / mu), 0. rewrite (r_lt_false 0 mu) by lra. split; [|split; [now left|]].
      * eassert (D : derivable_pt_lim (fun y => 0.5 - 0.5 * exp ((1 - y) / mu)) x _) by dauto. by_derivative D. field. exact Hm.
      * replace 0.5 with (1 / 2) by lra. field. exact Hm.
  - intros mu Hm. unfold f. rewrite r_lt_true by lra. replace (- 0 / mu) with 0 by (field; lra). rewrite exp_0. lra.
  - intros mu Hm. unfold f. rewrite r_lt_false by lra. replace ((1 - 1) / mu) with 0 by (field; lra). rewrite exp_0. lra.
Qed.

(** *** Scattering, angle-dependent source *)
Lemma ss_03_solves : exists psi q, tabulates solution_ss_03 psi /\ tabulates external_ss_03 q /\
  (forall x mu, balanced 1 0.9 psi q x mu) /\
  (forall angles angle_x n, (n < angles)%nat ->
    boundary_ss_03 angles angle_x 0%nat n = psi 0 (angle_x n) /\ boundary_ss_03 angles angle_x 1%nat n = psi 1 (angle_x n)).
Proof.
  pose (f := fun x mu => 0.5 + 0.25 * x ^ 2 * exp mu).
  pose (q := fun x mu => 0.25 * mu * exp mu * 2 * x + 0.5 + 0.25 * x ^ 2 * exp mu
    - 0.9 / 2 * (2 * 0.5 + 0.25 * x ^ 2 * (exp 1 - exp (-1)))).
  exists f, q. split; [|split; [|split]].
  - intros cells x angles ax i n Hi Hn. apply (fill_columns_at cells x angles ax f); assumption.
  - intros cells x angles ax i n Hi Hn. apply (fill_columns_at cells x angles ax q); assumption.
  - intros x mu. exists (0.25 * (2 * x) * exp mu), (0.9 / 2 * (2 * 0.5 + 0.25 * x ^ 2 * (exp 1 - exp (-1)))). split; [|split].
    + unfold f. eassert (D : derivable_pt_lim (fun y => 0.5 + 0.25 * y ^ 2 * exp mu) x _) by dauto. by_derivative D. ring.
    + right. eexists. split; [|reflexivity].
      apply (integral_of _ (fun m => 0.5 * m + 0.25 * x ^ 2 * exp m)).
      * intros m. unfold f. eassert (D : derivable_pt_lim (fun y => 0.5 * y + 0.25 * x ^ 2 * exp y) m _) by dauto. by_derivative D. ring.
      * unfold f. apply (dl_continuity _ (fun m => 0.25 * x ^ 2 * exp m)). intros m.
        eassert (D : derivable_pt_lim (fun y => 0.5 + 0.25 * x ^ 2 * exp y) m _) by dauto. by_derivative D. ring.
      * ring.
    + unfold f, q. ring.
  - intros angles ax n Hn. unfold boundary_ss_03, f. destruct (Nat.ltb_spec n angles); [|lia]. cbn [Nat.eqb]. split; lra.
Qed.

(** *** Two materials *)
Lemma ss_04_solves : exists psi q, tabulates solution_ss_04 psi /\ tabulates external_ss_04 q /\
  (forall x mu, x < 1 -> balanced 1 0.3 psi q x mu) /\ (forall x mu, 1 < x -> balanced 1 0.9 psi q x mu) /\
  (forall mu, continuity (fun x => psi x mu)) /\
  (forall mu, boundary_ss_04 0%nat = psi 0 mu /\ boundary_ss_04 1%nat = psi 2 mu).
Proof.
  pose (f1 := fun (n : nat) y => -2 * y ^ 2 + 2 * 2 * y). pose (f2 := fun (n : nat) y => 0.25 * y - 0.125 * 2 + 0.5 * 2 ^ 2).
  pose (psi := fun x (mu : R) => if r_lt 1 x then f2 0%nat x else if r_le x 1 then f1 0%nat x else 0).
  pose (q1 := fun mu x => 2 * 2 * mu - 4 * x * mu - 2 * x ^ 2 + 2 * 2 * x - 0.3 * (-2 * x ^ 2 + 2 * 2 * x)).
  pose (q2 := fun mu x => 0.25 * (mu + x) + (-0.125 * 2 + 0.5 * 2 ^ 2) - 0.9 * (0.25 * x + (-0.125 * 2 + 0.5 * 2 ^ 2))).
  pose (q := fun x mu => if r_lt (0.5 * 2) x then q2 mu x else if r_lt x (0.5 * 2) then q1 mu x else 0).
  assert (PL : forall x mu, x <= 1 -> psi x mu = f1 0%nat x).
  { intros x mu H. unfold psi. rewrite r_lt_false, r_le_true by lra. reflexivity. }
  assert (PR : forall x mu, 1 <= x -> psi x mu = f2 0%nat x).
  { intros x mu H. unfold psi. destruct (Req_dec x 1) as [-> |D].
    - rewrite r_lt_false, r_le_true by lra. unfold f1, f2. lra.
    - rewrite r_lt_true by lra. reflexivity. }
  exists psi, q. split; [|split; [|split; [|split; [|split]]]].
  - intros cells x angles ax i n Hi Hn. unfold solution_ss_04. cbv zeta.
    rewrite (two_masks cells x angles (fun y => r_le y 1) (fun y => r_lt 1 y) f1 f2) by assumption. reflexivity.
  - intros cells x angles ax i n Hi Hn. unfold external_ss_04. cbv zeta.
    rewrite (two_masks cells x angles (fun y => r_lt y (0.5 * 2)) (fun y => r_lt (0.5 * 2) y) (fun n => q1 (ax n)) (fun n => q2 (ax n))) by assumption. reflexivity.
  - intros x mu Hx. exists (-4 * x + 4), (0.3 * f1 0%nat x). split; [|split].
    + apply (derivable_near (f1 0%nat) _ _ _ (1 - x)); [lra| |].
      * intros y Hy. rewrite PL; [reflexivity|]. apply Rabs_def2 in Hy. lra.
      * unfold f1. eassert (D : derivable_pt_lim (fun y => -2 * y ^ 2 + 2 * 2 * y) x _) by dauto. by_derivative D. ring.
    + right. exists (2 * f1 0%nat x). split; [|lra]. apply (integral_of _ (fun m => f1 0%nat x * m)); [| |ring].
      * intros m. rewrite PL by lra. eassert (D : derivable_pt_lim (fun y => f1 0%nat x * y) m _) by dauto. by_derivative D. ring.
      * apply (dl_continuity _ (fun _ => 0)). intros m. apply (derivable_near (fun _ => f1 0%nat x) _ _ _ 1); [lra| |apply dl_const].
        intros y _. now rewrite PL by lra.
    + rewrite PL by lra. unfold q. rewrite r_lt_false, r_lt_true by lra. unfold q1, f1. ring.
  - intros x mu Hx. exists 0.25, (0.9 * f2 0%nat x). split; [|split].
    + apply (derivable_near (f2 0%nat) _ _ _ (x - 1)); [lra| |].
      * intros y Hy. rewrite PR; [reflexivity|]. apply Rabs_def2 in Hy. lra.
      * unfold f2. eassert (D : derivable_pt_lim (fun y => 0.25 * y - 0.125 * 2 + 0.5 * 2 ^ 2) x _) by dauto. by_derivative D. ring.
    + right. exists (2 * f2 0%nat x). split; [|lra]. apply (integral_of _ (fun m => f2 0%nat x * m)); [| |ring].
      * intros m. rewrite PR by lra. eassert (D : derivable_pt_lim (fun y => f2 0%nat x * y) m _) by dauto. by_derivative D. ring.
      * apply (dl_continuity _ (fun _ => 0)). intros m. apply (derivable_near (fun _ => f2 0%nat x) _ _ _ 1); [lra| |apply dl_const].
        intros y _. now rewrite PR by lra.
    + rewrite PR by lra. unfold q. rewrite r_lt_true by lra. unfold q2, f2. lra.
  - intros mu. apply (glued (f1 0%nat) (f2 0%nat) 1).
    + apply (dl_continuity _ (fun x => -4 * x + 4)). intros x. unfold f1.
      eassert (D : derivable_pt_lim (fun y => -2 * y ^ 2 + 2 * 2 * y) x _) by dauto. by_derivative D. ring.
    + apply (dl_continuity _ (fun x => 0.25)). intros x. unfold f2.
      eassert (D : derivable_pt_lim (fun y => 0.25 * y - 0.125 * 2 + 0.5 * 2 ^ 2) x _) by dauto. by_derivative D. ring.
    + intros y Hy. now apply PL.
    + intros y Hy. now apply PR.
  - intros mu. rewrite PL, PR by lra. unfold boundary_ss_04, upd, zeros, f1, f2. cbn [Nat.eqb]. split; lra.
Qed.

Lemma ss_05_solves : exists psi q, tabulates solution_ss_05 psi /\ tabulates external_ss_05 q /\
  (forall x mu, x < 1 -> balanced 1 0.3 psi q x mu) /\ (forall x mu, 1 < x -> balanced 1 0.9 psi q x mu) /\
  (forall mu, continuity (fun x => psi x mu)) /\
  (forall mu, boundary_ss_05 0%nat = psi 0 mu /\ boundary_ss_05 1%nat = psi 2 mu).
Proof.
  pose (f1 := fun mu y => -2 * exp mu * y ^ 2 + 2 * 2 ^ 2 * y). pose (f2 := fun mu y => 2 * exp mu * y + 2 ^ 2 * (2 - exp mu)).
  pose (psi := fun x (mu : R) => if r_lt 1 x then f2 mu x else if r_le x 1 then f1 mu x else 0).
  pose (q1 := fun mu x => mu * (2 * 2 ^ 2 - 4 * exp mu * x) - 2 * exp mu * x ^ 2 + 2 * 2 ^ 2 * x
    - 0.3 / 2 * (-2 * x ^ 2 * (exp 1 - exp (-1)) + 4 * 2 ^ 2 * x)).
  pose (q2 := fun mu x => 2 * mu * exp mu + 2 * x * exp mu + (2 ^ 3 - 2 ^ 2 * exp mu)
    - 0.9 / 2 * (2 * 2 ^ 3 + (exp 1 - exp (-1)) * (x * 2 - 2 ^ 2))).
  pose (q := fun x mu => if r_lt (0.5 * 2) x then q2 mu x else if r_lt x (0.5 * 2) then q1 mu x else 0).
  assert (PL : forall x mu, x <= 1 -> psi x mu = f1 mu x).
  { intros x mu H. unfold psi. rewrite r_lt_false, r_le_true by lra. reflexivity. }
  assert (PR : forall x mu, 1 <= x -> psi x mu = f2 mu x).
  { intros x mu H. unfold psi. destruct (Req_dec x 1) as [-> |D].
    - rewrite r_lt_false, r_le_true by lra. unfold f1, f2. lra.
    - rewrite r_lt_true by lra. reflexivity. }
  exists psi, q. split; [|split; [|split; [|split; [|split]]]].
  - intros cells x angles ax i n Hi Hn. unfold solution_ss_05. cbv zeta.
    rewrite (two_masks cells x angles (fun y => r_le y 1) (fun y => r_lt 1 y) (fun n => f1 (ax n)) (fun n => f2 (ax n))) by assumption. reflexivity.
  - intros cells x angles ax i n Hi Hn. unfold external_ss_05. cbv zeta.
    rewrite (two_masks cells x angles (fun y => r_lt y (0.5 * 2)) (fun y => r_lt (0.5 * 2) y) (fun n => q1 (ax n)) (fun n => q2 (ax n))) by assumption. reflexivity.
  - intros x mu Hx. exists (-4 * exp mu * x + 8), (0.3 / 2 * (-2 * x ^ 2 * (exp 1 - exp (-1)) + 4 * 2 ^ 2 * x)). split; [|split].
    + apply (derivable_near (f1 mu) _ _ _ (1 - x)); [lra| |].
      * intros y Hy. rewrite PL; [reflexivity|]. apply Rabs_def2 in Hy. lra.
      * unfold f1. eassert (D : derivable_pt_lim (fun y => -2 * exp mu * y ^ 2 + 2 * 2 ^ 2 * y) x _) by dauto. by_derivative D. ring.
    + right. eexists. split; [|reflexivity]. apply (integral_of _ (fun m => -2 * exp m * x ^ 2 + 2 * 2 ^ 2 * x * m)); [| |ring].
      * intros m. rewrite PL by lra. unfold f1. eassert (D : derivable_pt_lim (fun y => -2 * exp y * x ^ 2 + 2 * 2 ^ 2 * x * y) m _) by dauto. by_derivative D. ring.
      * apply (dl_continuity _ (fun m => -2 * exp m * x ^ 2)). intros m.
        apply (derivable_near (fun m => f1 m x) _ _ _ 1); [lra|intros y _; now rewrite PL by lra|].
        unfold f1. eassert (D : derivable_pt_lim (fun y => -2 * exp y * x ^ 2 + 2 * 2 ^ 2 * x) m _) by dauto. by_derivative D. ring.
    + rewrite PL by lra. unfold q. rewrite r_lt_false, r_lt_true by lra. unfold q1, f1. ring.
  - intros x mu Hx. exists (2 * exp mu), (0.9 / 2 * (2 * 2 ^ 3 + (exp 1 - exp (-1)) * (x * 2 - 2 ^ 2))). split; [|split].
    + apply (derivable_near (f2 mu) _ _ _ (x - 1)); [lra| |].
      * intros y Hy. rewrite PR; [reflexivity|]. apply Rabs_def2 in Hy. lra.
      * unfold f2. eassert (D : derivable_pt_lim (fun y => 2 * exp mu * y + 2 ^ 2 * (2 - exp mu)) x _) by dauto. by_derivative D. ring.
    + right. eexists. split; [|reflexivity]. apply (integral_of _ (fun m => 2 * exp m * x + 2 ^ 2 * (2 * m - exp m))); [| |ring].
      * intros m. rewrite PR by lra. unfold f2. eassert (D : derivable_pt_lim (fun y => 2 * exp y * x + 2 ^ 2 * (2 * y - exp y)) m _) by dauto. by_derivative D. ring.
      * apply (dl_continuity _ (fun m => 2 * exp m * x - 2 ^ 2 * exp m)). intros m.
        apply (derivable_near (fun m => f2 m x) _ _ _ 1); [lra|intros y _; now rewrite PR by lra|].
        unfold f2. eassert (D : derivable_pt_lim (fun y => 2 * exp y * x + 2 ^ 2 * (2 - exp y)) m _) by dauto. by_derivative D. ring.
    + rewrite PR by lra. unfold q. rewrite r_lt_true by lra. unfold q2, f2. ring.
  - intros mu. apply (glued (f1 mu) (f2 mu) 1).
    + apply (dl_continuity _ (fun x => -4 * exp mu * x + 8)). intros x. unfold f1.
      eassert (D : derivable_pt_lim (fun y => -2 * exp mu * y ^ 2 + 2 * 2 ^ 2 * y) x _) by dauto. by_derivative D. ring.
    + apply (dl_continuity _ (fun x => 2 * exp mu)). intros x. unfold f2.
      eassert (D : derivable_pt_lim (fun y => 2 * exp mu * y + 2 ^ 2 * (2 - exp mu)) x _) by dauto. by_derivative D. ring.
    + intros y Hy. now apply PL.
    + intros y Hy. now apply PR.
  - intros mu. rewrite PL, PR by lra. unfold boundary_ss_05, upd, zeros, f1, f2. cbn [Nat.eqb]. split; lra.
Qed.

(** *** Time-dependent problems, velocity one *)
Lemma td_01_solves : exists psi q, tabulates_td solution_td_01 psi /\ tabulates_td external_td_01 q /\
  (forall t x mu, balanced_td 1 1 psi q t x mu) /\ (forall t mu, psi t 0 mu = 2 /\ psi t 2 mu = 2).
Proof.
  pose (f := fun tt x (mu : R) => (- x) * (x - 2) * sin (x - 0.1 * tt) + 2).
  pose (q := fun tt x mu => 2 + x * (-0.2 - x * (-0.1 + mu) + 2 * mu) * cos (0.1 * tt - x)
    + ((-2 + x) * x + 2 * (x - 1) * mu) * sin (0.1 * tt - x)).
  exists f, q. split; [|split; [|split]].
  - intros cells x angles ax times ts k i n Hk Hi Hn. apply (fill_times_at cells x angles ax times ts f); assumption.
  - intros cells x angles ax times ts k i n Hk Hi Hn. apply (fill_times_at cells x angles ax times ts q); assumption.
  - intros t x mu. exists (0.1 * x * (x - 2) * cos (x - 0.1 * t)),
      ((-2 * x + 2) * sin (x - 0.1 * t) - x * (x - 2) * cos (x - 0.1 * t)). split; [|split].
    + unfold f. eassert (D : derivable_pt_lim (fun s => (- x) * (x - 2) * sin (x - 0.1 * s) + 2) t _) by dauto. by_derivative D. ring.
    + unfold f. eassert (D : derivable_pt_lim (fun y => (- y) * (y - 2) * sin (y - 0.1 * t) + 2) x _) by dauto. by_derivative D. ring.
    + unfold f, q. replace (0.1 * t - x) with (- (x - 0.1 * t)) by ring. rewrite cos_neg, sin_neg. replace (-0.2) with (- (2 / 10)) by lra. replace (-0.1) with (- (1 / 10)) by lra. replace 0.1 with (1 / 10) by lra. field.
  - intros t mu. unfold f. split; ring.
Qed.

Lemma boundary_td_02_at angles angle_x times edges_t k n : (k < times)%nat -> (n < angles)%nat ->
  boundary_td_02 angles angle_x times edges_t k 0%nat n = 1 + sin (0 - 0.5 * edges_t k) + cos (angle_x n) /\
  boundary_td_02 angles angle_x times edges_t k 1%nat n = 1 + sin (PI - 0.5 * edges_t k) + cos (angle_x n).
Proof.
  intros Hk Hn. unfold boundary_td_02.
  assert (G : forall cc (b : mat3) a, (a <= angles)%nat -> forall t s m,
     for_up a (fun nn b => fun t side n => if Nat.eqb t cc && Nat.eqb n nn then
        if Nat.eqb side 0 then 1 + sin (0 - 0.5 * edges_t cc) + cos (angle_x nn)
        else if Nat.eqb side 1 then 1 + sin (PI - 0.5 * edges_t cc) + cos (angle_x nn)
        else b t side n else b t side n) b t s m
     = if Nat.eqb t cc && Nat.ltb m a && Nat.ltb s 2 then
         if Nat.eqb s 0 then 1 + sin (0 - 0.5 * edges_t cc) + cos (angle_x m)
         else 1 + sin (PI - 0.5 * edges_t cc) + cos (angle_x m) else b t s m).
  { intros cc b a. induction a as [|a IH]; intros Ha t s m.
    - cbn [for_up]. now rewrite andb_false_r.
    - cbn [for_up]. rewrite IH by lia. destruct (Nat.eqb_spec t cc) as [-> |D]; cbn [andb]; [|reflexivity].
      destruct (Nat.eqb_spec m a) as [-> |D].
      + destruct (Nat.ltb_spec a (S a)); [|lia]. destruct (Nat.ltb_spec a a); [lia|]. cbn [andb].
        destruct s as [|[|s]]; reflexivity.
      + destruct (Nat.ltb_spec m a), (Nat.ltb_spec m (S a)); try lia; reflexivity. }
  cbv zeta. induction times as [|c IH]; [lia|]. cbn [for_up].
  destruct (Nat.eq_dec k c) as [-> |D].
  - rewrite !G by lia. rewrite Nat.eqb_refl. destruct (Nat.ltb_spec n angles); [|lia]. split; reflexivity.
  - rewrite !G by lia. destruct (Nat.eqb_spec k c); [lia|]. apply IH. lia.
Qed.

Lemma td_02_solves : exists psi q, tabulates_td solution_td_02 psi /\ tabulates_td external_td_02 q /\
  (forall t x mu, balanced_td 1 1 psi q t x mu) /\
  (forall angles angle_x times edges_t k n, (k < times)%nat -> (n < angles)%nat ->
    boundary_td_02 angles angle_x times edges_t k 0%nat n = psi (edges_t k) 0 (angle_x n) /\
    boundary_td_02 angles angle_x times edges_t k 1%nat n = psi (edges_t k) PI (angle_x n)).
Proof.
  pose (f := fun tt x mu => 1 + sin (x - 0.5 * tt) + cos mu).
  pose (q := fun tt x mu => 1 + (mu - 0.5) * cos (0.5 * tt - x) + cos mu - sin (0.5 * tt - x)).
  exists f, q. split; [|split; [|split]].
  - intros cells x angles ax times ts k i n Hk Hi Hn. apply (fill_times_at cells x angles ax times ts f); assumption.
  - intros cells x angles ax times ts k i n Hk Hi Hn. apply (fill_times_at cells x angles ax times ts q); assumption.
  - intros t x mu. exists (- 0.5 * cos (x - 0.5 * t)), (cos (x - 0.5 * t)). split; [|split].
    + unfold f. eassert (D : derivable_pt_lim (fun s => 1 + sin (x - 0.5 * s) + cos mu) t _) by dauto. by_derivative D. lra.
    + unfold f. eassert (D : derivable_pt_lim (fun y => 1 + sin (y - 0.5 * t) + cos mu) x _) by dauto. by_derivative D. ring.
    + unfold f, q. replace (0.5 * t - x) with (- (x - 0.5 * t)) by ring. rewrite cos_neg, sin_neg. lra.
  - intros angles ax times ts k n Hk Hn. apply boundary_td_02_at; assumption.
Qed.

(** the masks of the sources leave the interface itself unwritten *)
Lemma interface_source cells x angles angle_x i n : (i < cells)%nat -> (n < angles)%nat -> x i = 1 ->
  external_ss_04 cells x angles angle_x i n = 0 /\ external_ss_05 cells x angles angle_x i n = 0 /\
  solution_ss_04 cells x angles angle_x i n = 2 /\ solution_ss_05 cells x angles angle_x i n = 8 - 2 * exp (angle_x n).
Proof.
  intros Hi Hn E. unfold external_ss_04, external_ss_05, solution_ss_04, solution_ss_05. cbv zeta.
  repeat split.
  - 
    rewrite (two_masks cells x angles (fun y => r_lt y (0.5 * 2)) (fun y => r_lt (0.5 * 2) y)
      (fun n x => 2 * 2 * angle_x n - 4 * x * angle_x n - 2 * x ^ 2 + 2 * 2 * x - 0.3 * (-2 * x ^ 2 + 2 * 2 * x))
      (fun n x => 0.25 * (angle_x n + x) + (-0.125 * 2 + 0.5 * 2 ^ 2) - 0.9 * (0.25 * x + (-0.125 * 2 + 0.5 * 2 ^ 2)))) by assumption.
    rewrite E, !r_lt_false by lra. reflexivity.
  - rewrite (two_masks cells x angles (fun y => r_lt y (0.5 * 2)) (fun y => r_lt (0.5 * 2) y)
      (fun n x => angle_x n * (2 * 2 ^ 2 - 4 * exp (angle_x n) * x) - 2 * exp (angle_x n) * x ^ 2 + 2 * 2 ^ 2 * x - 0.3 / 2 * (-2 * x ^ 2 * (exp 1 - exp (-1)) + 4 * 2 ^ 2 * x))
      (fun n x => 2 * angle_x n * exp (angle_x n) + 2 * x * exp (angle_x n) + (2 ^ 3 - 2 ^ 2 * exp (angle_x n)) - 0.9 / 2 * (2 * 2 ^ 3 + (exp 1 - exp (-1)) * (x * 2 - 2 ^ 2)))) by assumption.
    rewrite E, !r_lt_false by lra. reflexivity.
  - rewrite (two_masks cells x angles (fun y => r_le y 1) (fun y => r_lt 1 y) (fun _ y => -2 * y ^ 2 + 2 * 2 * y) (fun _ y => 0.25 * y - 0.125 * 2 + 0.5 * 2 ^ 2)) by assumption.
    rewrite E, r_lt_false, r_le_true by lra. ring.
  - rewrite (two_masks cells x angles (fun y => r_le y 1) (fun y => r_lt 1 y) (fun n y => -2 * exp (angle_x n) * y ^ 2 + 2 * 2 ^ 2 * y)
      (fun n y => 2 * exp (angle_x n) * y + 2 ^ 2 * (2 - exp (angle_x n)))) by assumption.
    rewrite E, r_lt_false, r_le_true by lra. ring.
Qed.
