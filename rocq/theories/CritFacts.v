(** Facts about the fission kernels and the power-iteration loops. *)
From Coq Require Import Lra Lia ZArith FunctionalExtensionality.
From Verif Require Import Base BaseFacts SlabModel SlabSpec SlabFacts MgModel MgSpec MgFacts MgFacts2 MgFacts3 MgFacts4 MgFacts5 MgFacts6.
From Verif Require Import CritModel CritSpec.
Open Scope R_scope.

(** the skip test of a material never drops production *)
Definition skipped (groups : nat) (f : fission_data) (m : nat) : Prop :=
  match f with
  | FissionMatrix xs => matrix_total groups xs m = 0
  | FissionVector chi _ => row_total groups chi m = 0
  end.

Lemma skipped_zero cells groups medium f i o h : nonneg_fission cells groups medium f ->
  (i < cells)%nat -> (o < groups)%nat -> (h < groups)%nat -> skipped groups f (medium i) ->
  fission_entry f (medium i) o h = 0.
Proof.
  intros Hn Hi Ho Hh Hs. destruct f as [xs|chi nu]; cbn in *.
  - apply (mat_total_zero groups xs (medium i)); try assumption.
    intros o' i' Ho' Hi'. apply (Hn i o' i'); assumption.
  - rewrite (rsum_nonneg_zero groups (chi (medium i))); [ring| |exact Hs|exact Ho].
    intros o' Ho'. apply (Hn i o' h Hi Ho' Hh).
Qed.

Lemma fission_source_eq cells groups f medium source flux keff i g :
  fission_source cells groups f medium source flux keff i g
  = if andb (Nat.ltb i cells) (Nat.ltb g groups)
    then (if (match f with
              | FissionMatrix xs => if Req_EM_T (matrix_total groups xs (medium i)) 0 then true else false
              | FissionVector chi _ => if Req_EM_T (row_total groups chi (medium i)) 0 then true else false end)
          then 0 else emission groups f medium flux i g / keff)
    else 0.
Proof.
  destruct f as [xs|chi nu]; cbn [fission_source]; unfold fission_mat_prod, fission_vec_prod.
  - rewrite (own_loop2 cells _ (fun x _ => x)
      (fun x y r => if Nat.ltb y groups then (if Req_EM_T (matrix_total groups xs (medium x)) 0 then r
          else emission groups (FissionMatrix xs) medium flux x y / keff) else r)).
    + destruct (Nat.ltb i cells), (Nat.ltb g groups); cbn [andb]; rewrite ?Rmult_0_r; try reflexivity.
      destruct (Req_EM_T _ 0); [ring|reflexivity].
    + intros k t x y Hk. cbv zeta.
      destruct (Req_EM_T (matrix_total groups xs (medium k)) 0) as [E|E].
      * destruct (Nat.eqb_spec x k) as [-> |]; [|reflexivity].
        destruct (Nat.ltb y groups); [|reflexivity]. destruct (Req_EM_T _ 0); [reflexivity|contradiction].
      * rewrite (own_loop2 groups _ (fun _ y => y)
          (fun x y r => if Nat.eqb x k then emission groups (FissionMatrix xs) medium flux k y / keff else r)).
        -- destruct (Nat.eqb_spec x k) as [-> |]; [|destruct (Nat.ltb y groups); reflexivity].
           destruct (Nat.ltb y groups); [|reflexivity].
           destruct (Req_EM_T (matrix_total groups xs (medium k)) 0); [contradiction|reflexivity].
        -- intros k2 t2 x2 y2 Hk2. rewrite (acc_scalar groups (fun ig => flux k ig * xs (medium k) k2 ig)), Rplus_0_l.
           destruct (Nat.eqb_spec x2 k) as [-> |]; cbn [andb].
           ++ destruct (Nat.eqb_spec y2 k2) as [-> |]; [|reflexivity].
              unfold emission. cbn [fission_entry]. f_equal. apply rsum_ext; intros; ring.
           ++ destruct (Nat.eqb y2 k2); reflexivity.
  - rewrite (own_loop2 cells _ (fun x _ => x)
      (fun x y r => if Nat.ltb y groups then (if Req_EM_T (row_total groups chi (medium x)) 0 then r
          else emission groups (FissionVector chi nu) medium flux x y / keff) else r)).
    + destruct (Nat.ltb i cells), (Nat.ltb g groups); cbn [andb]; rewrite ?Rmult_0_r; try reflexivity.
      destruct (Req_EM_T _ 0); [ring|reflexivity].
    + intros k t x y Hk. cbv zeta.
      destruct (Req_EM_T (row_total groups chi (medium k)) 0) as [E|E].
      * destruct (Nat.eqb_spec x k) as [-> |]; [|reflexivity].
        destruct (Nat.ltb y groups); [|reflexivity]. destruct (Req_EM_T _ 0); [reflexivity|contradiction].
      * rewrite (own_loop2 groups _ (fun _ y => y)
          (fun x y r => if Nat.eqb x k then emission groups (FissionVector chi nu) medium flux k y / keff else r)).
        -- destruct (Nat.eqb_spec x k) as [-> |]; [|destruct (Nat.ltb y groups); reflexivity].
           destruct (Nat.ltb y groups); [|reflexivity].
           destruct (Req_EM_T (row_total groups chi (medium k)) 0); [contradiction|reflexivity].
        -- intros k2 t2 x2 y2 Hk2. rewrite (acc_scalar groups (fun ig => flux k ig * chi (medium k) k2 * nu (medium k) ig)), Rplus_0_l.
           destruct (Nat.eqb_spec x2 k) as [-> |]; cbn [andb].
           ++ destruct (Nat.eqb_spec y2 k2) as [-> |]; [|reflexivity].
              unfold emission. cbn [fission_entry]. f_equal. apply rsum_ext; intros; ring.
           ++ destruct (Nat.eqb y2 k2); reflexivity.
Qed.

(** C29/C30 source: emission / k in every cell and group, whatever the array held *)
Lemma fission_source_emission cells groups f medium source flux keff i g :
  nonneg_fission cells groups medium f -> (i < cells)%nat -> (g < groups)%nat ->
  fission_source cells groups f medium source flux keff i g = emission groups f medium flux i g / keff.
Proof.
  intros Hn Hi Hg. rewrite fission_source_eq.
  replace (Nat.ltb i cells) with true by (symmetry; apply Nat.ltb_lt; lia).
  replace (Nat.ltb g groups) with true by (symmetry; apply Nat.ltb_lt; lia). cbn [andb].
  assert (Z : skipped groups f (medium i) -> emission groups f medium flux i g = 0).
  { intros Hs. apply rsum_zero_ext. intros h Hh. rewrite (skipped_zero cells groups medium f i g h) by assumption. ring. }
  destruct f as [xs|chi nu]; destruct (Req_EM_T _ 0) as [E|E]; try reflexivity; rewrite Z by exact E; unfold Rdiv; ring.
Qed.

(** the two nested accumulation loops of the k update *)
Lemma pair_loop n (u v : vec) r :
  for_up n (fun k r => (fst r + u k, snd r + v k)) r = (fst r + rsum n u, snd r + rsum n v).
Proof.
  induction n as [|n IH]; cbn [for_up rsum].
  - destruct r. cbn. f_equal; ring.
  - rewrite IH. cbn. f_equal; ring.
Qed.

Lemma pair_loop_cells n (u v : vec) (skip : nat -> bool) r :
  for_up n (fun k r => if skip k then r else (fst r + u k, snd r + v k)) r
  = (fst r + rsum n (fun k => if skip k then 0 else u k), snd r + rsum n (fun k => if skip k then 0 else v k)).
Proof.
  induction n as [|n IH]; cbn [for_up rsum].
  - destruct r. cbn. f_equal; ring.
  - rewrite IH. destruct (skip n); cbn; f_equal; ring.
Qed.

(** C29: the updated k is the production ratio *)
Lemma update_keff_ratio cells groups f medium flux flux_old keff :
  nonneg_fission cells groups medium f ->
  update_keff cells groups f medium flux flux_old keff
  = keff * production cells groups f medium flux / production cells groups f medium flux_old.
Proof.
  intros Hn. unfold update_keff, production, emission.
  destruct f as [xs|chi nu].
  - unfold update_keff_mat. cbv zeta.
    rewrite (for_up_ext cells _ (fun ii r => if (if Req_EM_T (matrix_total groups xs (medium ii)) 0 then true else false) then r
        else (fst r + rsum groups (fun o => rsum groups (fun h => xs (medium ii) o h * flux ii h)),
              snd r + rsum groups (fun o => rsum groups (fun h => xs (medium ii) o h * flux_old ii h))))).
    + rewrite pair_loop_cells. cbn [fst snd]. rewrite !Rplus_0_l.
      assert (G : forall p : mat2, rsum cells (fun k => if (if Req_EM_T (matrix_total groups xs (medium k)) 0 then true else false) then 0
           else rsum groups (fun o => rsum groups (fun h => xs (medium k) o h * p k h)))
           = rsum cells (fun i => rsum groups (fun o => rsum groups (fun h => fission_entry (FissionMatrix xs) (medium i) o h * p i h)))).
      { intros p. apply rsum_ext. intros i Hi. cbn [fission_entry].
        destruct (Req_EM_T (matrix_total groups xs (medium i)) 0) as [E|E]; [|reflexivity].
        symmetry. apply rsum_zero_ext. intros o Ho. apply rsum_zero_ext. intros h Hh.
        assert (Z := skipped_zero cells groups medium (FissionMatrix xs) i o h Hn Hi Ho Hh E). cbn in Z. rewrite Z. ring. }
      rewrite !G. unfold Rdiv. ring.
    + intros ii r Hi. destruct (Req_EM_T _ 0); [reflexivity|].
      rewrite (for_up_ext groups _ (fun og r => (fst r + rsum groups (fun ig => flux ii ig * xs (medium ii) og ig),
                                           snd r + rsum groups (fun ig => flux_old ii ig * xs (medium ii) og ig)))).
      * rewrite pair_loop. f_equal; f_equal; apply rsum_ext; intros; apply rsum_ext; intros; ring.
      * intros og r' Ho. apply pair_loop.
  - unfold update_keff_vec. cbv zeta.
    rewrite (for_up_ext cells _ (fun ii r => if (if Req_EM_T (row_total groups chi (medium ii)) 0 then true else false) then r
        else (fst r + rsum groups (fun o => rsum groups (fun h => chi (medium ii) o * nu (medium ii) h * flux ii h)),
              snd r + rsum groups (fun o => rsum groups (fun h => chi (medium ii) o * nu (medium ii) h * flux_old ii h))))).
    + rewrite pair_loop_cells. cbn [fst snd]. rewrite !Rplus_0_l.
      assert (G : forall p : mat2, rsum cells (fun k => if (if Req_EM_T (row_total groups chi (medium k)) 0 then true else false) then 0
           else rsum groups (fun o => rsum groups (fun h => chi (medium k) o * nu (medium k) h * p k h)))
           = rsum cells (fun i => rsum groups (fun o => rsum groups (fun h => fission_entry (FissionVector chi nu) (medium i) o h * p i h)))).
      { intros p. apply rsum_ext. intros i Hi. cbn [fission_entry].
        destruct (Req_EM_T (row_total groups chi (medium i)) 0) as [E|E]; [|reflexivity].
        symmetry. apply rsum_zero_ext. intros o Ho. apply rsum_zero_ext. intros h Hh.
        assert (Z := skipped_zero cells groups medium (FissionVector chi nu) i o h Hn Hi Ho Hh E). cbn in Z. rewrite Z. ring. }
      rewrite !G. unfold Rdiv. ring.
    + intros ii r Hi. destruct (Req_EM_T _ 0); [reflexivity|].
      rewrite (for_up_ext groups _ (fun og r => (fst r + rsum groups (fun ig => flux ii ig * chi (medium ii) og * nu (medium ii) ig),
                                           snd r + rsum groups (fun ig => flux_old ii ig * chi (medium ii) og * nu (medium ii) ig)))).
      * rewrite pair_loop. f_equal; f_equal; apply rsum_ext; intros; apply rsum_ext; intros; ring.
      * intros og r' Ho. apply pair_loop.
Qed.

Lemma emission_scale groups f medium c phi i o :
  emission groups f medium (fun i h => c * phi i h) i o = c * emission groups f medium phi i o.
Proof. unfold emission. rewrite <- rsum_scal. apply rsum_ext; intros; ring. Qed.

Lemma production_scale cells groups f medium c phi :
  production cells groups f medium (fun i h => c * phi i h) = c * production cells groups f medium phi.
Proof.
  unfold production. rewrite <- rsum_scal. apply rsum_ext. intros i _. rewrite <- rsum_scal. apply rsum_ext. intros o _.
  apply emission_scale.
Qed.

Lemma production_ext cells groups f medium p q : agree2 cells groups p q ->
  production cells groups f medium p = production cells groups f medium q.
Proof.
  intros H. unfold production, emission. apply rsum_ext. intros i Hi. apply rsum_ext. intros o _.
  apply rsum_ext. intros h Hh. rewrite H by assumption. reflexivity.
Qed.

(** C29: consequences *)
Lemma keff_consequences cells groups f medium flux flux_old keff c :
  nonneg_fission cells groups medium f -> production cells groups f medium flux_old <> 0 ->
  (* the flux is c times the old one: k is multiplied by c *)
  update_keff cells groups f medium (fun i h => c * flux_old i h) flux_old keff = c * keff /\
  (* common scaling of both fluxes changes nothing *)
  (c <> 0 -> update_keff cells groups f medium (fun i h => c * flux i h) (fun i h => c * flux_old i h) keff
             = update_keff cells groups f medium flux flux_old keff).
Proof.
  intros Hn Hp. split.
  - rewrite update_keff_ratio, production_scale by exact Hn. field. exact Hp.
  - intros Hc. rewrite !update_keff_ratio, !production_scale by exact Hn. field. split; [exact Hp|exact Hc].
Qed.

(** C29: scaling all fission data by a positive factor leaves the update unchanged and scales the source *)
Lemma scale_nonneg c cells groups medium f : 0 <= c -> nonneg_fission cells groups medium f ->
  nonneg_fission cells groups medium (scale_fission c f).
Proof.
  intros Hc Hn i o h Hi Ho Hh. specialize (Hn i o h Hi Ho Hh). destruct f; cbn in *.
  - apply Rmult_le_pos; assumption.
  - destruct Hn. split; [assumption|apply Rmult_le_pos; assumption].
Qed.

Lemma scale_emission c groups f medium phi i o :
  emission groups (scale_fission c f) medium phi i o = c * emission groups f medium phi i o.
Proof.
  unfold emission. rewrite <- rsum_scal. apply rsum_ext. intros h _. destruct f; cbn; ring.
Qed.

Lemma keff_data_scaling cells groups f medium flux flux_old keff c source i g :
  0 < c -> nonneg_fission cells groups medium f -> production cells groups f medium flux_old <> 0 ->
  (i < cells)%nat -> (g < groups)%nat ->
  update_keff cells groups (scale_fission c f) medium flux flux_old keff
  = update_keff cells groups f medium flux flux_old keff /\
  fission_source cells groups (scale_fission c f) medium source flux (c * keff) i g
  = fission_source cells groups f medium source flux keff i g.
Proof.
  intros Hc Hn Hp Hi Hg. assert (Hn' := scale_nonneg c cells groups medium f (Rlt_le _ _ Hc) Hn).
  assert (E : forall p, production cells groups (scale_fission c f) medium p = c * production cells groups f medium p).
  { intros p. unfold production. rewrite <- rsum_scal. apply rsum_ext. intros x _. rewrite <- rsum_scal.
    apply rsum_ext. intros o _. apply scale_emission. }
  split.
  - rewrite !update_keff_ratio by assumption. rewrite !E. field. split; [exact Hp|lra].
  - rewrite !fission_source_emission by assumption. rewrite scale_emission. unfold Rdiv.
    rewrite Rinv_mult. set (e := emission groups f medium flux i g).
    transitivity ((c * / c) * (e * / keff)); [ring|]. rewrite Rinv_r by lra. ring.
Qed.

(** C30: vector data against the outer-product matrix *)
Lemma vector_matrix_source cells groups chi nusigf medium s1 s2 flux keff i g :
  nonneg_fission cells groups medium (FissionVector chi nusigf) -> (i < cells)%nat -> (g < groups)%nat ->
  fission_vec_prod cells groups flux chi nusigf s1 medium keff i g
  = fission_mat_prod cells groups flux (fun m o h => chi m o * nusigf m h) s2 medium keff i g.
Proof.
  intros Hn Hi Hg.
  assert (Hm : nonneg_fission cells groups medium (FissionMatrix (fun m o h => chi m o * nusigf m h))).
  { intros x o h Hx Ho Hh. destruct (Hn x o h Hx Ho Hh). apply Rmult_le_pos; assumption. }
  assert (A := fission_source_emission cells groups (FissionVector chi nusigf) medium s1 flux keff i g Hn Hi Hg).
  assert (B := fission_source_emission cells groups (FissionMatrix (fun m o h => chi m o * nusigf m h)) medium s2 flux keff i g Hm Hi Hg).
  cbn [fission_source] in A, B. rewrite A, B. reflexivity.
Qed.

Lemma vector_matrix_keff cells groups chi nusigf medium flux flux_old keff :
  nonneg_fission cells groups medium (FissionVector chi nusigf) ->
  update_keff_vec cells groups flux flux_old chi nusigf medium keff
  = update_keff_mat cells groups flux flux_old (fun m o h => chi m o * nusigf m h) medium keff.
Proof.
  intros Hn.
  assert (Hm : nonneg_fission cells groups medium (FissionMatrix (fun m o h => chi m o * nusigf m h))).
  { intros x o h Hx Ho Hh. destruct (Hn x o h Hx Ho Hh). apply Rmult_le_pos; assumption. }
  assert (A := update_keff_ratio cells groups (FissionVector chi nusigf) medium flux flux_old keff Hn).
  assert (B := update_keff_ratio cells groups (FissionMatrix (fun m o h => chi m o * nusigf m h)) medium flux flux_old keff Hm).
  cbn [update_keff] in A, B. rewrite A, B. reflexivity.
Qed.

(** norms *)
Lemma norm2_ext cells groups p q : agree2 cells groups p q -> norm2 cells groups p = norm2 cells groups q.
Proof.
  intros H. unfold norm2. f_equal. apply rsum_ext. intros i Hi. apply rsum_ext. intros g Hg.
  rewrite H by assumption. reflexivity.
Qed.

Lemma norm2_scale cells groups c p : norm2 cells groups (fun i g => p i g * c) = norm2 cells groups p * Rabs c.
Proof.
  unfold norm2. rewrite (rsum_ext cells _ (fun i => rsum groups (fun g => Rsqr (p i g)) * Rsqr c)).
  - rewrite rsum_scal_r. rewrite sqrt_mult; [|apply rsum_nonneg; intros; apply rsum_nonneg; intros; apply Rle_0_sqr|apply Rle_0_sqr].
    rewrite sqrt_Rsqr_abs. reflexivity.
  - intros i _. rewrite <- rsum_scal_r. apply rsum_ext. intros g _. apply Rsqr_mult.
Qed.

Lemma norm2_nonneg cells groups p : 0 <= norm2 cells groups p.
Proof. apply sqrt_pos. Qed.

Lemma norm2_zero cells groups p : norm2 cells groups p = 0 ->
  forall i g, (i < cells)%nat -> (g < groups)%nat -> p i g = 0.
Proof.
  intros H i g Hi Hg. unfold norm2 in H.
  apply sqrt_eq_0 in H; [|apply rsum_nonneg; intros; apply rsum_nonneg; intros; apply Rle_0_sqr].
  assert (Q := rsum_nonneg_zero cells _ (fun j _ => rsum_nonneg groups _ (fun k _ => Rle_0_sqr (p j k))) H i Hi).
  cbv beta in Q. assert (Q2 := rsum_nonneg_zero groups _ (fun k _ => Rle_0_sqr (p i k)) Q g Hg).
  apply Rsqr_0_uniq in Q2. exact Q2.
Qed.

Lemma normalized cells groups p : norm2 cells groups p <> 0 ->
  norm2 cells groups (fun i g => p i g / norm2 cells groups p) = 1.
Proof.
  intros H. unfold Rdiv. rewrite norm2_scale.
  assert (P := norm2_nonneg cells groups p). rewrite Rabs_inv, Rabs_right by lra. field. exact H.
Qed.
