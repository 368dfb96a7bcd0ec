(** C96: the manufactured benchmarks converge at second order. *)
From Coq Require Import Lra Lia Reals.
From Verif Require Import Base BaseFacts SlabModel SlabSpec SlabFacts4 SlabFacts5 MgModel MgSpec MgFacts MgFacts2 MgFacts3
  ManModel ManSpec ManFacts ConvSpec ConvFacts.
Open Scope R_scope.

Lemma edges_inside P x a b : meshes P x a b -> (forall i, (i < cells P)%nat -> 0 < dx P i) ->
  forall k, (k <= cells P)%nat -> a <= x k <= b.
Proof.
  intros (Hx & Ha & Hb & _) Hdx.
  assert (L : forall k, (k <= cells P)%nat -> x 0%nat <= x k).
  { induction k as [|k IH]; intros H; [lra|]. rewrite Hx by lia. specialize (Hdx k ltac:(lia)). specialize (IH ltac:(lia)). lra. }
  assert (U : forall j k, (k = cells P - j)%nat -> (j <= cells P)%nat -> x k <= x (cells P)).
  { induction j as [|j IH]; intros k -> Hj; [rewrite Nat.sub_0_r; lra|]. specialize (IH _ eq_refl ltac:(lia)).
    replace (cells P - j)%nat with (S (cells P - S j)) in IH by lia. rewrite Hx in IH by lia. specialize (Hdx (cells P - S j)%nat ltac:(lia)). lra. }
  intros k Hk. specialize (L k Hk). specialize (U (cells P - k)%nat k ltac:(lia) ltac:(lia)). lra.
Qed.

Lemma width_total P x a b : meshes P x a b -> rsum (cells P) (dx P) = b - a.
Proof.
  intros (Hx & <- & <- & _). rewrite <- rsum_telescope. apply rsum_ext. intros i Hi. rewrite Hx by exact Hi. ring.
Qed.

Lemma absorber_exact P (external boundary : arr3) x h mu0 M2 M3 psi old flux :
  regular_mesh P h mu0 -> h <= 2 * mu0 -> meshes P x 0 1 -> (forall m, (m < angles P)%nat -> 0 <= wt P m) ->
  continuous_solution P 1 (fun _ _ => 1) (fun _ _ _ => 0) external boundary x M2 M3 (fun _ => psi) ->
  source_iteration_iso P 1 old (fun _ _ => 1) (fun _ _ _ => 0) external boundary 1 = Ok flux ->
  forall i, (i < cells P)%nat -> Rabs (flux i 0%nat - centre_flux P x psi i)
    <= rsum (angles P) (wt P) * centre_constant 1 1 mu0 M2 M3 * h ^ 2.
Proof.
  intros Hreg Hh Hm Hw Hc Hrun i Hi. pose proof Hreg as (Hn & Hmu0 & Hdx & Hmu & _).
  destruct (solver_converges P 1 (fun _ _ => 1) (fun _ _ _ => 0) external boundary x h mu0 1 M2 M3 0 (fun _ => psi) old flux Hreg) as (n & Hn1 & A & _); try assumption.
  - apply Hm.
  - intros g Hg m j Hm' Hj. destruct (Hdx j Hj). specialize (Hmu m Hm'). lra.
  - intros; lra.
  - lra.
  - lra.
  - intros g j Hg Hj. cbn [rsum]. rewrite Rabs_R0. lra.
  - rewrite (width_total P x 0 1 Hm) in A. replace (1 - 0) with 1 in A by ring.
    rewrite !Rmult_0_r in A. rewrite Rminus_0_r in A.
    destruct (max2 (cells P) 1 (fun i g => Rabs (old i g - centre_flux P x psi i))) as (d & D0 & D1 & _).
    specialize (A d D0 D1 i 0%nat Hi ltac:(lia)). rewrite pow_i in A by lia. cbv beta in A.
    rewrite Rmult_0_l, Rplus_0_r in A. unfold Rdiv in A. rewrite Rinv_1, Rmult_1_r in A. exact A.
Qed.

Lemma exp_below y : y <= 0 -> 0 < exp y <= 1.
Proof. intros H. split; [apply exp_pos|]. destruct H as [H| ->]; [apply exp_increasing in H; rewrite exp_0 in H; lra|rewrite exp_0; lra]. Qed.

(** Bounds for the derivatives of [amp * exp ((c - y) / mu)]. *)
Lemma decaying a b base amp c mu mu0 : 0 < mu0 -> mu0 <= Rabs mu -> Rabs amp <= 1 -> (forall y, a <= y <= b -> (c - y) / mu <= 0) ->
  smooth_cell a b (1 / mu0 ^ 2) (1 / mu0 ^ 3) (fun y => base + amp * exp ((c - y) / mu)).
Proof.
  intros H0 Hmu Hamp Hle. assert (Nz : mu <> 0) by (intros ->; rewrite Rabs_R0 in Hmu; lra).
  exists (fun y => - (amp * exp ((c - y) / mu) / mu)), (fun y => amp * exp ((c - y) / mu) / mu ^ 2), (fun y => - (amp * exp ((c - y) / mu) / mu ^ 3)).
  intros y Hy. specialize (Hle y Hy). destruct (exp_below _ Hle) as [P1 P2].
  assert (Pm : 0 < Rabs mu) by lra.
  assert (BD : forall k, Rabs (amp * exp ((c - y) / mu) / mu ^ k) <= 1 / mu0 ^ k).
  { intros k. unfold Rdiv. rewrite !Rabs_mult, Rabs_inv, <- RPow_abs. rewrite (Rabs_right (exp _)) by lra.
    assert (0 < / Rabs mu ^ k) by (apply Rinv_0_lt_compat, pow_lt, Pm).
    assert (/ Rabs mu ^ k <= / mu0 ^ k) by (apply Rinv_le_contravar; [now apply pow_lt|apply pow_incr; lra]).
    pose proof (Rabs_pos amp). apply Rmult_le_compat; [apply Rmult_le_pos; lra|lra| |assumption].
    rewrite <- (Rmult_1_l 1). apply Rmult_le_compat; lra. }
  repeat split.
  - eassert (D : derivable_pt_lim (fun y => base + amp * exp ((c - y) / mu)) y _) by dauto. by_derivative D. field. exact Nz.
  - eassert (D : derivable_pt_lim (fun y => - (amp * exp ((c - y) / mu) / mu)) y _) by dauto. by_derivative D. field. exact Nz.
  - eassert (D : derivable_pt_lim (fun y => amp * exp ((c - y) / mu) / mu ^ 2) y _) by dauto. by_derivative D. field. exact Nz.
  - apply BD.
  - rewrite Rabs_Ropp. apply BD.
Qed.
Lemma smooth_ext a b M2 M3 f g : (forall y, f y = g y) -> smooth_cell a b M2 M3 g -> smooth_cell a b M2 M3 f.
Proof.
  intros E (f1 & f2 & f3 & H). exists f1, f2, f3. intros y Hy. destruct (H y Hy) as (D1 & D2 & D3 & B). split; [|now split].
  intros eps He. destruct (D1 eps He) as [d Hd]. exists d. intros t Ht Hl. rewrite !E. now apply Hd.
Qed.
Lemma smooth_const a b v M2 M3 : 0 <= M2 -> 0 <= M3 -> smooth_cell a b M2 M3 (fun _ => v).
Proof.
  intros H2 H3. exists (fun _ => 0), (fun _ => 0), (fun _ => 0). intros y _. rewrite Rabs_R0.
  repeat split; try apply derivable_pt_lim_const; lra.
Qed.
Lemma dl_ext (f g : R -> R) y l : (forall y, f y = g y) -> derivable_pt_lim g y l -> derivable_pt_lim f y l.
Proof. intros E D eps He. destruct (D eps He) as [d Hd]. exists d. intros t Ht Hl. rewrite !E. now apply Hd. Qed.

Lemma absorber_solution P x h mu0 f M2 M3 q bl br :
  regular_mesh P h mu0 -> meshes P x 0 1 ->
  (forall m i, (m < angles P)%nat -> (i < cells P)%nat -> smooth_cell (x i) (x (S i)) M2 M3 (f m)) ->
  (forall m y, (m < angles P)%nat -> exists d, derivable_pt_lim (f m) y d /\ mu P m * d + f m y = q) ->
  (forall m, 0 < mu P m -> f m 0 = bl) -> (forall m, mu P m < 0 -> f m 1 = br) ->
  continuous_solution P 1 (fun _ _ => 1) (fun _ _ _ => 0) (mkArr3 1 1 (fun _ _ _ => q))
    (mkArr3 1 1 (fun s _ _ => if Nat.eqb s 0 then bl else br)) x M2 M3 (fun _ m _ => f m).
Proof.
  intros (Hn & Hmu0 & _ & Hmu & _) (_ & X0 & X1 & B0 & B1) Hs Hd Hl Hr g Hg. split; [|split; [|split]].
  - intros m i Hm Hi. now apply Hs.
  - reflexivity.
  - intros m i Hm Hi. destruct (Hd m (centre x i) Hm) as (d & D1 & D2). exists d. split; [exact D1|].
    unfold mg_source. cbn [rsum d3b d3c at3]. lra.
  - intros m Hm. cbv zeta. unfold enters_reflective. rewrite B0, B1. cbn [Nat.eqb]. specialize (Hmu m Hm).
    assert (E : (if if Rlt_dec 0 (mu P m) then false else false then edge_value P x (fun _ => f (angles P - m - 1)%nat) (inflow_edge (cells P) (mu P m)) else 0) = 0)
      by (destruct (Rlt_dec 0 (mu P m)); reflexivity).
    rewrite E, Rplus_0_r. unfold mg_boundary, inflow_edge, edge_value. cbn [d3b d3c at3 bidx Nat.eqb].
    destruct (Rlt_dec 0 (mu P m)) as [H|H]; cbn [Nat.eqb].
    + destruct (Nat.ltb_spec 0 (cells P)); [|lia]. rewrite X0. now apply Hl.
    + rewrite Nat.ltb_irrefl, X1. apply Hr. destruct (Req_dec (mu P m) 0) as [Z|]; [rewrite Z, Rabs_R0 in Hmu; lra|lra].
Qed.

Lemma quadrature_centre P x f (flux : mat2) i : (i < cells P)%nat ->
  (forall m, (m < angles P)%nat -> flux i m = f m (centre x i)) -> quadrature P flux i = centre_flux P x (fun m _ => f m) i.
Proof. intros Hi E. unfold quadrature, centre_flux. apply rsum_ext. intros m Hm. now rewrite E. Qed.

Lemma absorber_benchmark P x h mu0 (f : R -> R -> R) q bl br old flux (exact : nat -> vec -> nat -> vec -> mat2) :
  regular_mesh P h mu0 -> h <= 2 * mu0 -> meshes P x 0 1 -> (forall m, (m < angles P)%nat -> 0 <= wt P m) ->
  tabulates exact (fun y mu => f mu y) ->
  (forall mu a b, mu0 <= Rabs mu -> 0 <= a -> b <= 1 -> smooth_cell a b (1 / mu0 ^ 2) (1 / mu0 ^ 3) (f mu)) ->
  (forall mu y, mu <> 0 -> exists d, derivable_pt_lim (f mu) y d /\ mu * d + f mu y = q) ->
  (forall mu, 0 < mu -> f mu 0 = bl) -> (forall mu, mu < 0 -> f mu 1 = br) ->
  source_iteration_iso P 1 old (fun _ _ => 1) (fun _ _ _ => 0) (mkArr3 1 1 (fun _ _ _ => q))
    (mkArr3 1 1 (fun s _ _ => if Nat.eqb s 0 then bl else br)) 1 = Ok flux ->
  forall i, (i < cells P)%nat ->
    Rabs (flux i 0%nat - quadrature P (exact (cells P) (centre x) (angles P) (mu P)) i)
    <= rsum (angles P) (wt P) * (1 / (3 * mu0 ^ 3) + 1 / (8 * mu0 ^ 2)) * h ^ 2.
Proof.
  intros Hreg Hh Hm Hw Ht Hs Hd Hl Hr Hrun i Hi. pose proof Hreg as (Hn & Hmu0 & Hdx & Hmu & _).
  assert (C : continuous_solution P 1 (fun _ _ => 1) (fun _ _ _ => 0) (mkArr3 1 1 (fun _ _ _ => q))
    (mkArr3 1 1 (fun s _ _ => if Nat.eqb s 0 then bl else br)) x (1 / mu0 ^ 2) (1 / mu0 ^ 3) (fun _ m _ => f (mu P m))).
  { apply (absorber_solution P x h mu0 (fun m => f (mu P m))); try assumption.
    - intros m j Hm' Hj. assert (I : forall i, (i < cells P)%nat -> 0 < dx P i) by (intros k Hk; apply (Hdx k Hk)).
      pose proof (edges_inside P x 0 1 Hm I j ltac:(lia)). pose proof (edges_inside P x 0 1 Hm I (S j) ltac:(lia)).
      apply Hs; [now apply Hmu|lra|lra].
    - intros m y Hm'. apply Hd. intros Z. specialize (Hmu m Hm'). rewrite Z, Rabs_R0 in Hmu. lra.
    - intros m. apply Hl.
    - intros m. apply Hr. }
  pose proof (absorber_exact P _ _ x h mu0 (1 / mu0 ^ 2) (1 / mu0 ^ 3) (fun m _ => f (mu P m)) old flux Hreg Hh Hm Hw C Hrun i Hi) as E.
  rewrite (quadrature_centre P x (fun m => f (mu P m)) _ i Hi).
  - eapply Rle_trans; [exact E|]. right. f_equal. f_equal. unfold centre_constant, edge_constant. field. lra.
  - intros m Hm'. apply (Ht (cells P) (centre x) (angles P) (mu P)); assumption.
Qed.

Lemma benchmark_01 P x h mu0 old flux :
  regular_mesh P h mu0 -> h <= 2 * mu0 -> meshes P x 0 1 -> (forall m, (m < angles P)%nat -> 0 <= wt P m) ->
  source_iteration_iso P 1 old (fun _ _ => 1) (fun _ _ _ => 0) (mkArr3 1 1 (fun _ _ _ => 1))
    (mkArr3 1 1 (fun s _ _ => if Nat.eqb s 0 then 1 else 0)) 1 = Ok flux ->
  forall i, (i < cells P)%nat ->
    Rabs (flux i 0%nat - quadrature P (solution_ss_01 (cells P) (centre x) (angles P) (mu P)) i)
    <= rsum (angles P) (wt P) * (1 / (3 * mu0 ^ 3) + 1 / (8 * mu0 ^ 2)) * h ^ 2.
Proof.
  intros Hreg Hh Hm Hw Hrun. assert (Hmu0 : 0 < mu0) by apply Hreg.
  assert (P2 : 0 <= 1 / mu0 ^ 2) by (left; apply Rdiv_lt_0_compat; [lra|now apply pow_lt]).
  assert (P3 : 0 <= 1 / mu0 ^ 3) by (left; apply Rdiv_lt_0_compat; [lra|now apply pow_lt]).
  pose (f := fun mu y => if r_lt 0 mu then 1 else 1 - exp ((1 - y) / mu)).
  apply (absorber_benchmark P x h mu0 f 1 1 0 old flux solution_ss_01); try assumption.
  - intros cells y angles ax i n Hi Hn. apply (fill_columns_at cells y angles ax (fun x mu => f mu x)); assumption.
  - intros mu a b Ha H0 H1. unfold f. destruct (Rlt_or_le 0 mu) as [H|H].
    + apply (smooth_ext _ _ _ _ _ (fun _ => 1)); [intros y; now rewrite r_lt_true|]. now apply smooth_const.
    + rewrite Rabs_left1 in Ha by lra. apply (smooth_ext _ _ _ _ _ (fun y => 1 + -1 * exp ((1 - y) / mu))).
      * intros y. rewrite r_lt_false by lra. ring.
      * apply decaying; try assumption.
        -- rewrite Rabs_left1 by lra. lra.
        -- rewrite Rabs_left1; lra.
        -- intros y Hy. unfold Rdiv. replace ((1 - y) * / mu) with (- ((1 - y) * / - mu)) by (field; lra).
           assert (0 <= (1 - y) * / - mu) by (apply Rmult_le_pos; [lra|left; apply Rinv_0_lt_compat; lra]). lra.
  - intros mu y Nz. unfold f. destruct (Rlt_or_le 0 mu) as [H|H].
    + exists 0. split; [|rewrite r_lt_true by lra; ring]. apply (dl_ext _ (fun _ => 1)); [intros; now rewrite r_lt_true|apply derivable_pt_lim_const].
    + exists (exp ((1 - y) / mu) / mu). split; [|rewrite r_lt_false by lra; field; exact Nz].
      apply (dl_ext _ (fun y => 1 - exp ((1 - y) / mu))); [intros; now rewrite r_lt_false by lra|].
      eassert (D : derivable_pt_lim (fun y => 1 - exp ((1 - y) / mu)) y _) by dauto. by_derivative D. field. exact Nz.
  - intros mu H. unfold f. now rewrite r_lt_true by lra.
  - intros mu H. unfold f. rewrite r_lt_false by lra. replace ((1 - 1) / mu) with 0 by (field; lra). rewrite exp_0. ring.
Qed.

Lemma benchmark_02 P x h mu0 old flux :
  regular_mesh P h mu0 -> h <= 2 * mu0 -> meshes P x 0 1 -> (forall m, (m < angles P)%nat -> 0 <= wt P m) ->
  source_iteration_iso P 1 old (fun _ _ => 1) (fun _ _ _ => 0) (mkArr3 1 1 (fun _ _ _ => 1 / 2))
    (mkArr3 1 1 (fun s _ _ => if Nat.eqb s 0 then 1 else 0)) 1 = Ok flux ->
  forall i, (i < cells P)%nat ->
    Rabs (flux i 0%nat - quadrature P (solution_ss_02 (cells P) (centre x) (angles P) (mu P)) i)
    <= rsum (angles P) (wt P) * (1 / (3 * mu0 ^ 3) + 1 / (8 * mu0 ^ 2)) * h ^ 2.
Proof.
  intros Hreg Hh Hm Hw Hrun. assert (Hmu0 : 0 < mu0) by apply Hreg.
  pose (f := fun mu y => if r_lt 0 mu then 0.5 + 0.5 * exp (- y / mu) else 0.5 - 0.5 * exp ((1 - y) / mu)).
  apply (absorber_benchmark P x h mu0 f (1 / 2) 1 0 old flux solution_ss_02); try assumption.
  - intros cells y angles ax i n Hi Hn. apply (fill_columns_at cells y angles ax (fun x mu => f mu x)); assumption.
  - intros mu a b Ha H0 H1. unfold f. destruct (Rlt_or_le 0 mu) as [H|H].
    + rewrite Rabs_right in Ha by lra. apply (smooth_ext _ _ _ _ _ (fun y => 0.5 + 0.5 * exp ((0 - y) / mu))).
      * intros y. rewrite r_lt_true by lra. replace (0 - y) with (- y) by ring. reflexivity.
      * apply decaying; try assumption.
        -- rewrite Rabs_right by lra. lra.
        -- rewrite Rabs_right; lra.
        -- intros y Hy. unfold Rdiv. replace ((0 - y) * / mu) with (- (y * / mu)) by (field; lra).
           assert (0 <= y * / mu) by (apply Rmult_le_pos; [lra|left; apply Rinv_0_lt_compat; lra]). lra.
    + rewrite Rabs_left1 in Ha by lra. apply (smooth_ext _ _ _ _ _ (fun y => 0.5 + -0.5 * exp ((1 - y) / mu))).
      * intros y. rewrite r_lt_false by lra. lra.
      * apply decaying; try assumption.
        -- rewrite Rabs_left1 by lra. lra.
        -- rewrite Rabs_left1; lra.
        -- intros y Hy. unfold Rdiv. replace ((1 - y) * / mu) with (- ((1 - y) * / - mu)) by (field; lra).
           assert (0 <= (1 - y) * / - mu) by (apply Rmult_le_pos; [lra|left; apply Rinv_0_lt_compat; lra]). lra.
  - intros mu y Nz. unfold f. destruct (Rlt_or_le 0 mu) as [H|H].
    + exists (- (1 / 2 * exp (- y / mu) / mu)). split; [|rewrite r_lt_true by lra; replace 0.5 with (1 / 2) by lra; field; exact Nz].
      apply (dl_ext _ (fun y => 1 / 2 + 1 / 2 * exp (- y / mu))); [intros; rewrite r_lt_true by lra; lra|].
      eassert (D : derivable_pt_lim (fun y => 1 / 2 + 1 / 2 * exp (- y / mu)) y _) by dauto. by_derivative D. field. exact Nz.
    + exists (1 / 2 * exp ((1 - y) / mu) / mu). split; [|rewrite r_lt_false by lra; replace 0.5 with (1 / 2) by lra; field; exact Nz].
      apply (dl_ext _ (fun y => 1 / 2 - 1 / 2 * exp ((1 - y) / mu))); [intros; rewrite r_lt_false by lra; lra|].
      eassert (D : derivable_pt_lim (fun y => 1 / 2 - 1 / 2 * exp ((1 - y) / mu)) y _) by dauto. by_derivative D. field. exact Nz.
  - intros mu H. unfold f. rewrite r_lt_true by lra. replace (- 0 / mu) with 0 by (field; lra). rewrite exp_0. lra.
  - intros mu H. unfold f. rewrite r_lt_false by lra. replace ((1 - 1) / mu) with 0 by (field; lra). rewrite exp_0. lra.
Qed.

Lemma benchmark_04 P x h mu0 old flux :
  regular_mesh P h mu0 -> h <= 2 * mu0 -> meshes P x 0 2 -> interface P x 1 ->
  (forall m, (m < angles P)%nat -> 0 <= wt P m) -> rsum (angles P) (wt P) = 1 ->
  source_iteration_iso P 1 old (fun _ _ => 1) (fun mat _ _ => if Nat.eqb mat 0 then 0.3 else 0.9)
    (mkArr3 (angles P) 1 (fun i m _ => external_ss_04 (cells P) (centre x) (angles P) (mu P) i m))
    (mkArr3 1 1 (fun s _ _ => boundary_ss_04 s)) 1 = Ok flux ->
  let exact := quadrature P (solution_ss_04 (cells P) (centre x) (angles P) (mu P)) in
  let mesh := (20 / mu0 + 5) * h ^ 2 in
  exists n, (1 <= n <= 100)%nat /\
    (forall d, 0 <= d -> within (cells P) d (fun i => old i 0%nat) exact ->
       within (cells P) (mesh + 0.9 ^ n * (d + mesh)) (fun i => flux i 0%nat) exact) /\
    ((n < 100)%nat -> forall M, 0 <= M -> (forall i, (i < cells P)%nat -> Rabs (flux i 0%nat) <= M) ->
       within (cells P) (mesh + 9 * (change_gg * INR (cells P) * M)) (fun i => flux i 0%nat) exact).
Proof.
  intros Hreg Hh Hm Hint Hw HW Hrun exact mesh. pose proof Hreg as (Hn & Hmu0 & Hdx & Hmu & _).
  pose proof Hm as (Hx & X0 & X1 & B0 & B1).
  assert (Dp : forall i, (i < cells P)%nat -> 0 < dx P i) by (intros i Hi; apply (Hdx i Hi)).
  pose (f := fun (k : nat) y => if Nat.eqb k 0 then -2 * y ^ 2 + 4 * y else 1 / 4 * y - 1 / 4 + 2).
  pose (psi := fun (m i : nat) => f (medium P i)).
  assert (CI : forall i, (i < cells P)%nat -> x i < centre x i < x (S i)).
  { intros i Hi. unfold centre. rewrite (Hx i Hi). specialize (Dp i Hi). lra. }
  assert (EX : forall i m, (i < cells P)%nat -> (m < angles P)%nat -> solution_ss_04 (cells P) (centre x) (angles P) (mu P) i m = f (medium P i) (centre x i)).
  { intros i m Hi Hm'. unfold solution_ss_04. cbv zeta.
    rewrite (two_masks (cells P) (centre x) (angles P) (fun y => r_le y 1) (fun y => r_lt 1 y) (fun _ y => -2 * y ^ 2 + 2 * 2 * y) (fun _ y => 0.25 * y - 0.125 * 2 + 0.5 * 2 ^ 2)) by assumption.
    specialize (CI i Hi). destruct (Hint i Hi) as [[-> H]|[-> H]]; unfold f; cbn [Nat.eqb].
    - rewrite r_lt_false, r_le_true by lra. ring.
    - rewrite r_lt_true by lra. lra. }
  assert (FL : forall i, (i < cells P)%nat -> centre_flux P x psi i = f (medium P i) (centre x i)).
  { intros i Hi. unfold centre_flux, psi. rewrite rsum_scal_r, HW. ring. }
  assert (QE : forall i, (i < cells P)%nat -> exact i = centre_flux P x psi i).
  { intros i Hi. unfold exact, quadrature, centre_flux. apply rsum_ext. intros m Hm'. now rewrite EX. }
  assert (SRC : forall i m, (i < cells P)%nat -> (m < angles P)%nat ->
    external_ss_04 (cells P) (centre x) (angles P) (mu P) i m =
    let y := centre x i in if Nat.eqb (medium P i) 0 then mu P m * (-4 * y + 4) + 0.7 * f 0%nat y else mu P m * (1 / 4) + 0.1 * f 1%nat y).
  { intros i m Hi Hm'. unfold external_ss_04. cbv zeta.
    rewrite (two_masks (cells P) (centre x) (angles P) (fun y => r_lt y (0.5 * 2)) (fun y => r_lt (0.5 * 2) y)
      (fun n x => 2 * 2 * mu P n - 4 * x * mu P n - 2 * x ^ 2 + 2 * 2 * x - 0.3 * (-2 * x ^ 2 + 2 * 2 * x))
      (fun n x => 0.25 * (mu P n + x) + (-0.125 * 2 + 0.5 * 2 ^ 2) - 0.9 * (0.25 * x + (-0.125 * 2 + 0.5 * 2 ^ 2)))) by assumption.
    specialize (CI i Hi). destruct (Hint i Hi) as [[-> H]|[-> H]]; unfold f; cbn [Nat.eqb].
    - rewrite r_lt_false, r_lt_true by lra. lra.
    - rewrite r_lt_true by lra. lra. }
  assert (JOIN : forall i, (S i < cells P)%nat -> f (medium P i) (x (S i)) = f (medium P (S i)) (x (S i))).
  { intros i Hi. destruct (Hint i ltac:(lia)) as [[-> H]|[-> H]]; destruct (Hint (S i) Hi) as [[-> K]|[-> K]]; try reflexivity; unfold f; cbn [Nat.eqb].
    - assert (x (S i) = 1) as -> by lra. lra.
    - exfalso. pose proof (CI i ltac:(lia)). specialize (CI (S i) Hi). lra. }
  assert (CONT : continuous_solution P 1 (fun _ _ => 1) (fun mat _ _ => if Nat.eqb mat 0 then 0.3 else 0.9)
    (mkArr3 (angles P) 1 (fun i m _ => external_ss_04 (cells P) (centre x) (angles P) (mu P) i m))
    (mkArr3 1 1 (fun s _ _ => boundary_ss_04 s)) x 4 0 (fun _ => psi)).
  { intros g Hg. split; [|split; [|split]].
    - intros m i Hm' Hi. unfold psi, f. destruct (Nat.eqb (medium P i) 0).
      + exists (fun y => -4 * y + 4), (fun _ => -4), (fun _ => 0). intros y _. repeat split.
        * eassert (D : derivable_pt_lim (fun y => -2 * y ^ 2 + 4 * y) y _) by dauto. by_derivative D. ring.
        * eassert (D : derivable_pt_lim (fun y => -4 * y + 4) y _) by dauto. by_derivative D. ring.
        * apply derivable_pt_lim_const.
        * rewrite Rabs_left; lra.
        * rewrite Rabs_R0. lra.
      + exists (fun y => 1 / 4), (fun _ => 0), (fun _ => 0). intros y _. rewrite Rabs_R0. repeat split; try apply derivable_pt_lim_const; try lra.
        eassert (D : derivable_pt_lim (fun y => 1 / 4 * y - 1 / 4 + 2) y _) by dauto. by_derivative D. ring.
    - intros m i Hm' Hi. now apply JOIN.
    - intros m i Hm' Hi. unfold psi, mg_source. cbn [rsum d3b d3c at3]. rewrite FL by exact Hi.
      assert (BI : bidx (angles P) m = m) by (unfold bidx; destruct (Nat.eqb_spec (angles P) 1); lia). rewrite BI, SRC by assumption. cbv zeta.
      destruct (Hint i Hi) as [[E H]|[E H]]; rewrite E; cbn [Nat.eqb].
      + exists (-4 * centre x i + 4). split; [|lra]. unfold f. cbn [Nat.eqb].
        eassert (D : derivable_pt_lim (fun y => -2 * y ^ 2 + 4 * y) (centre x i) _) by dauto. by_derivative D. ring.
      + exists (1 / 4). split; [|lra]. unfold f. cbn [Nat.eqb].
        eassert (D : derivable_pt_lim (fun y => 1 / 4 * y - 1 / 4 + 2) (centre x i) _) by dauto. by_derivative D. ring.
    - intros m Hm'. cbv zeta. unfold enters_reflective. rewrite B0, B1. cbn [Nat.eqb].
      assert (E : (if if Rlt_dec 0 (mu P m) then false else false then edge_value P x (psi (angles P - m - 1)%nat) (inflow_edge (cells P) (mu P m)) else 0) = 0)
        by (destruct (Rlt_dec 0 (mu P m)); reflexivity).
      rewrite E, Rplus_0_r. unfold mg_boundary, inflow_edge, edge_value. cbn [d3b d3c at3 bidx Nat.eqb].
      unfold boundary_ss_04, upd, zeros, psi. destruct (Rlt_dec 0 (mu P m)) as [H|H]; cbn [Nat.eqb].
      + destruct (Nat.ltb_spec 0 (cells P)); [|lia]. rewrite X0.
        destruct (Hint 0%nat Hn) as [[-> K]|[-> K]]; unfold f; cbn [Nat.eqb]; lra.
      + rewrite Nat.ltb_irrefl, X1. destruct (Hint (cells P - 1)%nat ltac:(lia)) as [[-> K]|[-> K]]; unfold f; cbn [Nat.eqb]; [|lra].
        exfalso. replace (S (cells P - 1)) with (cells P) in K by lia. lra. }
  destruct (solver_converges P 1 (fun _ _ => 1) (fun mat _ _ => if Nat.eqb mat 0 then 0.3 else 0.9)
    (mkArr3 (angles P) 1 (fun i m _ => external_ss_04 (cells P) (centre x) (angles P) (mu P) i m))
    (mkArr3 1 1 (fun s _ _ => boundary_ss_04 s)) x h mu0 1 4 0 0.9 (fun _ => psi) old flux Hreg) as (n & Hn1 & A & B); try assumption.
  - intros g Hg m j Hm' Hj. destruct (Hdx j Hj). specialize (Hmu m Hm'). lra.
  - intros; lra.
  - lra.
  - lra.
  - intros g j Hg Hj. cbn [rsum]. destruct (Nat.eqb _ 0); rewrite Rabs_right; lra.
  - rewrite (width_total P x 0 2 Hm), HW in A, B. 
    assert (EM : 1 * centre_constant (2 - 0) 1 mu0 4 0 * h ^ 2 / (1 - 1 * 0.9) = mesh).
    { replace (1 - 1 * 0.9) with (/ 10) by lra. unfold mesh, centre_constant, edge_constant. field. lra. }
    rewrite EM, Rmult_1_l in A, B. exists n. split; [exact Hn1|]. split.
    + intros d Hd Hold i Hi. rewrite (QE i Hi). apply (A d Hd); [|exact Hi|lia].
      intros j g Hj Hg. replace g with 0%nat by lia. specialize (Hold j Hj). rewrite QE in Hold by exact Hj. exact Hold.
    + intros Hlt M HM Hb i Hi. rewrite (QE i Hi). 
      replace (9 * (change_gg * INR (cells P) * M)) with (0.9 * (change_gg * INR (cells P) * M) / (1 - 0.9)) by (replace (1 - 0.9) with (/ 10) by lra; replace 0.9 with (9 / 10) by lra; field).
      apply (B Hlt M HM); [|exact Hi|lia]. intros j g Hj Hg. replace g with 0%nat by lia. now apply Hb.
Qed.
