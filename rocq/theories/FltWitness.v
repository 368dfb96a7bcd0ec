(** Concrete floating-point problems. *)
From Coq Require Import ZArith Lra Lia.
From Coq Require Import List. Import ListNotations.
From Verif Require Import Base BaseFacts SlabModel SlabSpec SlabFacts SlabFacts4 SlabWitness MgModel MgSpec MgWitness.
From Verif Require Import FixModel FixSpec FixWitness HybModel HybSpec HybFacts.
From Verif Require Import FltModel FltSpec FltFacts FltFacts2 FltFacts4 FltFacts5 FltFacts6.
From Flocq Require Import Core.
Open Scope R_scope.

(** rounding a number of known binary exponent *)
Lemma binary64_at x e m : (-1074 <= e)%Z -> bpow radix2 (e + 52) <= x < bpow radix2 (e + 53) ->
  Rabs (x * bpow radix2 (- e) - IZR m) < / 2 -> binary64 x = IZR m * bpow radix2 e.
Proof.
  intros He [H1 H2] Hm. assert (Hx : 0 < x) by (assert (P := bpow_gt_0 radix2 (e + 52)); lra).
  assert (M : (mag radix2 x : Z) = (e + 53)%Z).
  { apply mag_unique. rewrite Rabs_right by lra. replace (e + 53 - 1)%Z with (e + 52)%Z by lia. split; assumption. }
  unfold binary64, round, scaled_mantissa, cexp. rewrite M. unfold FLT_exp.
  replace (Z.max (e + 53 - 53) (-1074)) with e by lia.
  unfold F2R. cbn [Fnum Fexp]. rewrite (Znearest_imp _ _ m Hm). reflexivity.
Qed.

Lemma binary64_small x : x = 1 / 2 \/ x = 1 -> binary64 x = x.
Proof.
  intros [-> | ->].
  - rewrite (binary64_at (1 / 2) (-53) (2 ^ 52)); [cbn; lra|lia|cbn; lra|]. cbn. rewrite Rabs_pos_eq; lra.
  - rewrite (binary64_at 1 (-52) (2 ^ 52)); [cbn; lra|lia|cbn; lra|]. cbn. rewrite Rabs_pos_eq; lra.
Qed.

Lemma demo_no_underflow : no_underflow binary64 demo.
Proof.
  intros m i Hm Hi. assert (E : Rabs (mu demo m) / dx demo i = 1 / 2 \/ Rabs (mu demo m) / dx demo i = 1).
  { small m Hm; small i Hi; cbn; unfold Rabs; destruct (Rcase_abs _); lra. }
  rewrite binary64_small by exact E. lra.
Qed.

Lemma demo_scatter_nonneg i : (i < cells demo)%nat -> 0 <= demo_scatter (medium demo i).
Proof. intros Hi. small i Hi; cbn; lra. Qed.
Lemma demo_weights_nonneg m : (m < angles demo)%nat -> 0 <= wt demo m.
Proof. intros Hm. cbn. lra. Qed.
Lemma demo_data : nonneg_data demo zeros demo_ext demo_bnd.
Proof.
  split; [|split].
  - intros i m _ _. cbn. lra.
  - intros m Hm. unfold boundary_in, demo_bnd. cbn. destruct (Rlt_dec 0 _); cbn; lra.
  - intros i _. unfold zeros. lra.
Qed.
Lemma demo_larger : data_le demo zeros zeros demo_ext (mkArr2 1 (fun _ _ => 2)) demo_bnd demo_bnd.
Proof. split; [reflexivity|]. split; [reflexivity|]. repeat split; intros; cbn; unfold zeros; lra. Qed.

(** the driver's bound for [demo]: W = 1, c = 1/2, Q0 = 2, B = 5 *)
Lemma demo_growth : growth (11 * / 2 ^ 53) 11 <= / 100.
Proof.
  unfold growth. assert (K : 0 <= 11 * / 2 ^ 53 <= / 10000) by (cbn; lra).
  assert (X : (1 + 11 * / 2 ^ 53) ^ 11 <= (1 + / 10000) ^ 11) by (apply pow_incr; lra).
  assert (Y : (1 + / 10000) ^ 11 <= 1 + / 100) by (cbn [pow]; lra). lra.
Qed.
Lemma demo_error_data :
  rsum (angles demo) (wt demo) * (1 / 2) < 1 /\
  (forall i, (i < cells demo)%nat -> Rabs (demo_scatter (medium demo i)) <= 1 / 2 * demo_total (medium demo i)) /\
  (forall i m, (i < cells demo)%nat -> (m < angles demo)%nat ->
     Rabs (at2 demo_ext i (bidx (cols2 demo_ext) m)) + Rabs (zeros i) <= demo_total (medium demo i) * 2) /\
  (forall m, (m < angles demo)%nat -> Rabs (boundary_in demo_bnd (mu demo) m) <= 2) /\
  (forall m, (m < angles demo)%nat -> leaves_reflective (mu demo) (bc_left demo) (bc_right demo) (angles demo - m - 1) = true ->
     boundary_in demo_bnd (mu demo) m = 0) /\
  rsum (angles demo) (wt demo) * (1 / 2 * 5 + 2) * (1 + growth (11 * / 2 ^ 53) (2 * cells demo + angles demo + 5)) <= 5.
Proof.
  split; [cbn; lra|]. split; [|split; [|split; [|split]]].
  - intros i Hi. small i Hi; cbn; rewrite Rabs_right; lra.
  - intros i m Hi Hm. small i Hi; cbn; unfold zeros; rewrite Rabs_R0, Rabs_R1; lra.
  - intros m Hm. unfold boundary_in, demo_bnd. cbn. destruct (Rlt_dec 0 _); cbn; rewrite Rabs_right; lra.
  - intros m Hm. unfold leaves_reflective, boundary_in, demo_bnd. small m Hm; cbn;
      repeat match goal with |- context [Rlt_dec ?a ?b] => destruct (Rlt_dec a b) end; cbn; intros; try discriminate; lra.
  - assert (G := demo_growth). change (2 * cells demo + angles demo + 5)%nat with 11%nat.
    assert (W : rsum (angles demo) (wt demo) = 1) by (cbn; lra). rewrite W. lra.
Qed.

(** The two-group problem: scattering ratio 3/8, sources at most four times the total cross section, fluxes below 7. *)
Lemma duo_error_data :
  (forall i m g, (i < cells demo)%nat -> (m < angles demo)%nat -> (g < 2)%nat ->
     Rabs (at3 duo_ext i (bidx (d3b duo_ext) m) (bidx (d3c duo_ext) g)) <= duo_total (medium demo i) g * 4) /\
  (forall m g, (m < angles demo)%nat -> (g < 2)%nat -> Rabs (mg_boundary duo_bnd (mu demo) g m) <= 4) /\
  (forall m g, (m < angles demo)%nat -> (g < 2)%nat -> leaves_reflective (mu demo) (bc_left demo) (bc_right demo) (angles demo - m - 1) = true ->
     mg_boundary duo_bnd (mu demo) g m = 0) /\
  rsum (angles demo) (wt demo) * (3 / 8 * 7 * (1 + growth (11 * / 2 ^ 53) 2) + 4)
    * (1 + growth (11 * / 2 ^ 53) (2 * cells demo + angles demo + 5)) <= 7.
Proof.
  split; [|split; [|split]].
  - intros i m g Hi Hm Hg. unfold duo_total. small i Hi; small g Hg; cbn; rewrite Rabs_right; lra.
  - intros m g Hm Hg. unfold mg_boundary, duo_bnd. cbn. destruct (Rlt_dec 0 _); cbn; rewrite Rabs_right; lra.
  - intros m g Hm Hg. unfold leaves_reflective, mg_boundary, duo_bnd. small m Hm; cbn;
      repeat match goal with |- context [Rlt_dec ?a ?b] => destruct (Rlt_dec a b) end; cbn; intros; try discriminate; lra.
  - assert (G := demo_growth). change (2 * cells demo + angles demo + 5)%nat with 11%nat.
    assert (W : rsum (angles demo) (wt demo) = 1) by (cbn; lra). rewrite W.
    assert (G2 : 0 <= growth (11 * / 2 ^ 53) 2 <= / 1000).
    { unfold growth. assert (0 < / 2 ^ 53 <= / 1000000).
      { split; [apply Rinv_0_lt_compat, pow_lt; lra|]. apply Rinv_le_contravar; [lra|]. cbn [pow]. lra. }
      set (v := / 2 ^ 53) in *. cbn [pow]. nra. }
    set (z := growth _ 2) in *. set (e := growth _ 11) in *. nra.
Qed.

(** 54 fine groups into 31: 11 * 15/11 is computed below 15, so block 14 gets the extra group that block 15
    gets in exact arithmetic *)
Lemma step_15_11 : fdiv binary64 (INR 30) (INR 22) = IZR 6141272219141585 * bpow radix2 (-52).
Proof.
  unfold fdiv. replace (INR 30 / INR 22) with (15 / 11) by (rewrite !INR_IZR_INZ; cbn; lra).
  apply binary64_at; [lia|cbn; lra|]. cbn. apply Rabs_def1; lra.
Qed.
Lemma y_15_11 : fmul binary64 (INR 11) (fdiv binary64 (INR 30) (INR 22)) = IZR 8444249301319679 * bpow radix2 (-49).
Proof.
  rewrite step_15_11. unfold fmul. rewrite INR_IZR_INZ.
  apply binary64_at; [lia|cbn; lra|]. cbn. apply Rabs_def1; lra.
Qed.
Lemma moved_group idx idx' :
  flt_energy_coarse_index binary64 54 31 = Ok idx -> energy_coarse_index 54 31 = Ok idx' ->
  (idx 15 - idx 14 = 2)%nat /\ (idx' 15 - idx' 14 = 1)%nat.
Proof.
  intros E E'. split.
  - unfold flt_energy_coarse_index in E. cbn [Nat.eqb] in E.
    assert (HS := flt_sizes_sum 54 31 ltac:(lia) ltac:(cbn; lia) ltac:(cbn; lia)). rewrite HS, Nat.eqb_refl in E. injection E as <-.
    change (nsum 15 (flt_coarse_sizes binary64 54 31)) with (nsum 14 (flt_coarse_sizes binary64 54 31) + flt_coarse_sizes binary64 54 31 14)%nat.
    assert (X : flt_coarse_sizes binary64 54 31 14 = 2%nat); [|lia].
    unfold flt_coarse_sizes. rewrite flt_quotient by (lia || (cbn; lia)).
    assert (In14 : existsb (Nat.eqb 14) (flt_linspace_idx binary64 31 (54 mod 31)) = true).
    { apply existsb_exists. exists 14%nat. split; [|reflexivity]. change (54 mod 31)%nat with 23%nat. unfold flt_linspace_idx. cbn [Nat.eqb].
      apply in_map_iff. exists 11%nat. split; [|apply in_seq; lia]. change (11 =? 23 - 1)%nat with false. cbv iota zeta.
      change (31 - 1)%nat with 30%nat. change (23 - 1)%nat with 22%nat. rewrite y_15_11.
      rewrite (Zfloor_imp 14); [reflexivity|]. cbn. lra. }
    rewrite In14. reflexivity.
  - vm_compute in E'. injection E' as <-. reflexivity.
Qed.
