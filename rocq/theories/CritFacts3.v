(** Fission prediction by models, and the infinite-medium (0D) solvers. *)
From Coq Require Import Lra Lia FunctionalExtensionality.
From Verif Require Import Base BaseFacts Contraction SlabModel SlabSpec SlabFacts MgModel MgSpec MgFacts MgFacts2 MgFacts4 MgFacts5 MgFacts6.
From Verif Require Import CritModel CritSpec CritFacts CritFacts2.
Open Scope R_scope.

(** What fission_prod_predict leaves in one cell. *)
Definition fission_predicted (cells groups : nat) (flux : mat2) (xs : mat3) (medium : nat -> nat)
    (keff : R) (models : list ml_model) (label : list R) (x y : nat) : R :=
  let nn := medium x in
  let idx := cells_of cells medium nn in
  let mat_flux : mat2 := fun k g => flux (nth k idx 0%nat) g in
  match nth nn models Placeholder with
  | Placeholder =>
      if Nat.ltb y groups then
        (if Req_EM_T (matrix_total groups xs nn) 0 then 0
         else emission groups (FissionMatrix xs) medium flux x y / keff)
      else 0
  | Model predict =>
      if Req_EM_T (rsum (length idx) (fun k => rsum groups (fun g => mat_flux k g))) 0 then 0
      else
        let out := predict (length idx) mat_flux label in
        out (rank_of medium nn x) y / keff *
        (rsum groups (fun g => flux x g * xs nn g 0%nat) / rsum groups (fun h => out (rank_of medium nn x) h))
  end.

Lemma fission_predict_eq cells groups flux xs medium keff models label x y :
  fission_prod_predict cells groups flux xs medium keff models label x y
  = if andb (Nat.ltb x cells) (Nat.ltb (medium x) (length models))
    then fission_predicted cells groups flux xs medium keff models label x y else 0.
Proof.
  unfold fission_prod_predict.
  rewrite (own_loop2 (length models) _ (fun x _ => if Nat.ltb x cells then medium x else length models)
     (fun x y r => match nth (medium x) models Placeholder with
          | Placeholder => if Nat.ltb y groups then
              (if Req_EM_T (matrix_total groups xs (medium x)) 0 then 0
               else emission groups (FissionMatrix xs) medium flux x y / keff) else 0
          | Model predict =>
              if Req_EM_T (rsum (length (cells_of cells medium (medium x))) (fun k => rsum groups (fun g => flux (nth k (cells_of cells medium (medium x)) 0%nat) g))) 0 then r
              else fission_predicted cells groups flux xs medium keff models label x y
          end)).
  - destruct (Nat.ltb_spec x cells) as [Hx|Hx]; cbn [andb].
    + destruct (Nat.ltb (medium x) (length models)); [|reflexivity].
      unfold fission_predicted, zeros2. destruct (nth (medium x) models Placeholder); [reflexivity|].
      cbv zeta. destruct (Req_EM_T _ 0); reflexivity.
    + rewrite Nat.ltb_irrefl. reflexivity.
  - clear x y. intros k t x y Hk. cbv zeta.
    assert (Hown : (if Nat.ltb x cells then medium x else length models) = k <-> (x < cells)%nat /\ medium x = k).
    { destruct (Nat.ltb_spec x cells); split; intros; lia. }
    destruct (Nat.eqb_spec (if Nat.ltb x cells then medium x else length models) k) as [Ho|Ho].
    + apply Hown in Ho. destruct Ho as [Hx Hm]. rewrite Hm.
      destruct (nth k models Placeholder) as [|predict] eqn:Em.
      * cbv beta. rewrite ?Hm. rewrite (proj2 (Nat.ltb_lt x cells)), Nat.eqb_refl by exact Hx. cbn [andb].
        match goal with |- fission_mat_prod ?c ?g ?fl ?xx ?so ?me ?kk ?a ?b = _ =>
          change (fission_source c g (FissionMatrix xx) me so fl kk a b = 
            if Nat.ltb y groups then
              (if Req_EM_T (matrix_total groups xs k) 0 then 0
               else emission groups (FissionMatrix xs) medium flux x y / keff) else 0) end.
        rewrite fission_source_eq.
        rewrite (proj2 (Nat.ltb_lt _ _) (rank_lt cells medium k x Hx Hm)). cbn [andb].
        unfold emission. rewrite !(nth_rank cells medium k x Hx Hm). rewrite Hm. 
        destruct (Nat.ltb y groups); [|reflexivity]. destruct (Req_EM_T _ 0); reflexivity.
      * destruct (Req_EM_T _ 0) as [Ez|Ez]; [reflexivity|].
        cbv beta. rewrite ?Hm. rewrite (proj2 (Nat.ltb_lt x cells)), Nat.eqb_refl by exact Hx. cbn [andb].
        unfold fission_predicted. rewrite Hm, Em. cbv zeta.
        destruct (Req_EM_T _ 0) as [Ez'|Ez']; [contradiction|].
        rewrite !(nth_rank cells medium k x Hx Hm). reflexivity.
    + assert (Hn : andb (Nat.ltb x cells) (Nat.eqb (medium x) k) = false).
      { destruct (Nat.ltb_spec x cells); [|reflexivity]. destruct (Nat.eqb_spec (medium x) k); [|reflexivity].
        exfalso. apply Ho, Hown. auto. }
      destruct (nth k models Placeholder) as [|predict]; [rewrite Hn; reflexivity|].
      destruct (Req_EM_T _ 0); [reflexivity|]. rewrite Hn. reflexivity.
Qed.

(** C35: with the cross sections prepared by update_cross_sections the predicted fission source
    emits as many neutrons per cell as the true matrix, over k. *)
Lemma fission_predict_rate cells groups flux xs modelled medium keff models label x predict :
  modelled (medium x) = true ->
  (x < cells)%nat -> (medium x < length models)%nat -> nth (medium x) models Placeholder = Model predict ->
  let idx := cells_of cells medium (medium x) in
  let out := predict (length idx) (fun k g => flux (nth k idx 0%nat) g) label in
  rsum (length idx) (fun k => rsum groups (fun g => flux (nth k idx 0%nat) g)) <> 0 ->
  rsum groups (fun g => out (rank_of medium (medium x) x) g) <> 0 ->
  rsum groups (fun g => fission_prod_predict cells groups flux (update_cross_sections groups xs modelled)
                          medium keff models label x g)
  = rsum groups (fun o => emission groups (FissionMatrix xs) medium flux x o) / keff.
Proof.
  intros Hmd Hx Hm Hmod idx out Hf Ho.
  set (S := rsum groups (fun g => flux x g * update_cross_sections groups xs modelled (medium x) g 0%nat)).
  rewrite (rsum_ext groups _ (fun g => out (rank_of medium (medium x) x) g *
    (S / keff / rsum groups (fun h => out (rank_of medium (medium x) x) h)))).
  - rewrite rsum_scal_r.
    transitivity (S / keff).
    + assert (Hcancel : forall a z : R, z <> 0 -> z * (a / z) = a) by (intros; field; assumption).
      exact (Hcancel (S / keff) _ Ho).
    + f_equal. unfold S, emission. rewrite rsum_swap. apply rsum_ext. intros g Hg. unfold update_cross_sections.
      rewrite Hmd, Nat.eqb_refl. cbn [fission_entry]. rewrite rsum_scal_r. ring.
  - intros g Hg. rewrite fission_predict_eq. rewrite !(proj2 (Nat.ltb_lt _ _)) by assumption. cbn [andb].
    unfold fission_predicted. rewrite Hmod. cbv zeta. destruct (Req_EM_T _ 0); [contradiction|].
    match goal with |- ?a / keff * (?s / ?z) = _ => transitivity (a * (s / keff / z)); [unfold Rdiv; ring|reflexivity] end.
Qed.

(** With placeholders everywhere it is the physics source. *)
Lemma fission_predict_placeholders cells groups flux xs medium keff models label :
  (forall i, (i < cells)%nat -> (medium i < length models)%nat /\ nth (medium i) models Placeholder = Placeholder) ->
  (forall i o h, (i < cells)%nat -> (o < groups)%nat -> (h < groups)%nat -> 0 <= xs (medium i) o h) ->
  forall i g, (i < cells)%nat -> (g < groups)%nat ->
    fission_prod_predict cells groups flux xs medium keff models label i g
    = emission groups (FissionMatrix xs) medium flux i g / keff.
Proof.
  intros Hm Hp i g Hi Hg. rewrite fission_predict_eq. destruct (Hm i Hi) as [Hlen Hpl].
  rewrite !(proj2 (Nat.ltb_lt _ _)) by assumption. cbn [andb].
  unfold fission_predicted. rewrite Hpl. cbv zeta. rewrite (proj2 (Nat.ltb_lt g groups)) by assumption.
  destruct (Req_EM_T _ 0) as [Ez|Ez]; [|reflexivity].
  unfold emission. rewrite rsum_zero_ext; [unfold Rdiv; ring|]. intros h Hh. cbn [fission_entry].
  rewrite (mat_total_zero groups xs (medium i) (fun o k Ho Hk => Hp i o k Hi Ho Hk) Ez) by assumption. ring.
Qed.

(** ** Infinite medium *)

Lemma pass_0d_eq angles wt sigt sigs off n ext x :
  pass_0d angles wt sigt sigs off n ext x
  = (rsum angles wt * sigs * x + (rsum angles wt * off + rsum angles (fun m => wt m * ext (bidx n m)))) / sigt.
Proof.
  unfold pass_0d. rewrite (acc_scalar angles (fun nn => (sigs * x + ext (bidx n nn) + off) * wt nn / sigt)).
  rewrite Rplus_0_l.
  rewrite (rsum_ext angles _ (fun nn => (sigs * x + off) / sigt * wt nn + (wt nn * ext (bidx n nn)) * / sigt))
    by (intros; unfold Rdiv; ring).
  rewrite rsum_plus, rsum_scal, rsum_scal_r. unfold Rdiv. ring.
Qed.

(** The inner passes are a geometric sequence around the balance value. *)
Lemma group_0d_trace angles wt sigt sigs off n ext x0 r :
  discrete_ordinates_0d angles wt sigt sigs off n ext x0 = Ok r ->
  exists m x, (1 <= m <= 100)%nat /\ x 0%nat = x0 /\ r = x m /\
    (forall k, (k < m)%nat -> x (S k) = pass_0d angles wt sigt sigs off n ext (x k)) /\
    ((m < 100)%nat -> x m <> 0 /\ Rabs ((x m - x (m - 1)%nat) / x m) < / 10 ^ 12).
Proof.
  intros E. destruct (iterate_spec _ _ _ _ _ _ _ _ E) as (m & x & H1 & H2 & H3 & H4 & H5 & H6 & H7).
  change count_nn with 100%nat in *. exists m, x. split; [lia|]. split; [exact H3|]. split; [exact H4|]. split.
  - intros k Hk. specialize (H5 k Hk). injection H5 as H5. symmetry. exact H5.
  - intros Hm. destruct H7 as [H7|H7]; [|lia]. apply below_true in H7. destruct H7 as (c & Hc & Hlt).
    unfold scalar_change in Hc. destruct (Req_EM_T (x m) 0); [discriminate|]. injection Hc as <-. split; [assumption|exact Hlt].
Qed.

Lemma group_0d_exact angles wt sigt sigs off n ext x0 r star :
  sigt <> 0 ->
  sigt * star = rsum angles (fun m => wt m * (sigs * star + off + ext (bidx n m))) ->
  discrete_ordinates_0d angles wt sigt sigs off n ext x0 = Ok r ->
  exists m, (1 <= m <= 100)%nat /\ r - star = (rsum angles wt * sigs / sigt) ^ m * (x0 - star).
Proof.
  intros Ht Hs E. destruct (group_0d_trace _ _ _ _ _ _ _ _ _ E) as (m & x & Hm & H0 & -> & Hst & _).
  assert (Hs' : star = pass_0d angles wt sigt sigs off n ext star).
  { rewrite pass_0d_eq.
    rewrite (rsum_ext angles _ (fun m => (sigs * star + off) * wt m + wt m * ext (bidx n m))) in Hs by (intros; ring).
    rewrite rsum_plus, rsum_scal in Hs. apply (Rmult_eq_reg_l sigt); [|exact Ht]. rewrite Hs. field. exact Ht. }
  exists m. split; [exact Hm|]. rewrite <- H0.
  assert (G : forall k, (k <= m)%nat -> x k - star = (rsum angles wt * sigs / sigt) ^ k * (x 0%nat - star)).
  { induction k as [|k IH]; intros Hk; [cbn; ring|]. rewrite Hst by lia.
    transitivity (rsum angles wt * sigs / sigt * (x k - star)).
    - rewrite Hs' at 1. rewrite !pass_0d_eq. field. exact Ht.
    - rewrite IH by lia. cbn [pow]. ring. }
  apply G. lia.
Qed.

(** off-group scattering: new fluxes below, old above *)
Lemma off_scatter_0d_eq groups new old xs gg : (gg < groups)%nat ->
  off_scatter_0d groups new old xs gg = gs_off0 groups new old xs gg.
Proof.
  intros Hg. unfold off_scatter_0d, gs_off0. cbv zeta.
  rewrite (acc_scalar (groups - (gg + 1)) (fun k => xs gg (gg + 1 + k)%nat * old (gg + 1 + k)%nat)).
  rewrite (acc_scalar gg (fun og => xs gg og * new og)), Rplus_0_l.
  replace (rsum groups) with (rsum (gg + 1 + (groups - (gg + 1)))) by (f_equal; lia).
  rewrite rsum_split, (rsum_split gg 1). cbn [rsum]. rewrite Nat.add_0_r, Nat.eqb_refl.
  rewrite !Rplus_0_l, Rplus_0_r. f_equal.
  - apply rsum_ext. intros h Hh. destruct (Nat.eqb_spec h gg); [lia|]. destruct (Nat.ltb_spec h gg); [reflexivity|lia].
  - apply rsum_ext. intros h Hh. destruct (Nat.eqb_spec (gg + 1 + h) gg); [lia|].
    destruct (Nat.ltb_spec (gg + 1 + h) gg); [lia|reflexivity].
Qed.

Lemma gs_off0_ext groups n1 n2 o1 o2 xs gg :
  (forall h, (h < gg)%nat -> n1 h = n2 h) -> (forall h, (gg < h < groups)%nat -> o1 h = o2 h) ->
  gs_off0 groups n1 o1 xs gg = gs_off0 groups n2 o2 xs gg.
Proof.
  intros Hn Ho. apply rsum_ext. intros h Hh. destruct (Nat.eqb_spec h gg); [reflexivity|].
  destruct (Nat.ltb_spec h gg); [rewrite Hn by lia|rewrite Ho by lia]; reflexivity.
Qed.

Lemma gs_off0_full groups phi xs gg : (gg < groups)%nat ->
  xs gg gg * phi gg + gs_off0 groups phi phi xs gg = rsum groups (fun h => xs gg h * phi h).
Proof.
  intros Hg. unfold gs_off0.
  assert (S := rsum_single groups (fun h => if Nat.eqb h gg then xs gg gg * phi gg else 0) gg Hg).
  cbv beta in S. rewrite Nat.eqb_refl in S. rewrite <- S.
  2:{ intros h Hh Hne. destruct (Nat.eqb_spec h gg); [lia|reflexivity]. }
  rewrite <- rsum_plus. apply rsum_ext. intros h Hh.
  destruct (Nat.eqb_spec h gg) as [-> |]; [ring|]. destruct (Nat.ltb h gg); ring.
Qed.

(** Gauss-Seidel loop over a vector *)
Lemma gs_loop0 groups (step : nat -> vec -> outcome R) flux :
  (forall g f1 f2, (g < groups)%nat -> (forall h, (h < g)%nat -> f1 h = f2 h) -> step g f1 = step g f2) ->
  for_up_err groups (fun g fl => bind (step g fl) (fun c => Ok (upd fl g c))) zeros = Ok flux ->
  forall g, (g < groups)%nat -> step g flux = Ok (flux g).
Proof.
  intros Hs. revert flux. assert (Hn : (groups <= groups)%nat) by lia. revert Hn.
  generalize groups at 1 3 4. intros n. induction n as [|n IH]; intros Hn flux E; cbn [for_up_err] in E; [lia|].
  destruct (for_up_err n _ zeros) as [fl|e] eqn:E1; cbn [bind] in E; [|discriminate].
  specialize (IH ltac:(lia) fl eq_refl).
  destruct (step n fl) as [c|e] eqn:E2; cbn [bind] in E; [|discriminate]. injection E as <-.
  intros g Hg. destruct (Nat.eq_dec g n) as [-> |Hne].
  - rewrite (Hs n _ fl) by (try lia; intros; rewrite upd_other by lia; reflexivity).
    rewrite E2, upd_same. reflexivity.
  - rewrite (Hs g _ fl) by (try lia; intros; rewrite upd_other by lia; reflexivity).
    rewrite IH by lia. rewrite upd_other by lia. reflexivity.
Qed.

Lemma sweep_0d_groups angles groups wt xs_total xs_scatter rows external old new :
  sweep_0d angles groups wt xs_total xs_scatter rows external old = Ok new ->
  forall g, (g < groups)%nat ->
    discrete_ordinates_0d angles wt (xs_total g) (xs_scatter g g) (gs_off0 groups new old xs_scatter g) rows
      (fun n => at2 external n (bidx (cols2 external) g)) (old g) = Ok (new g).
Proof.
  intros E. unfold sweep_0d in E.
  rewrite (for_up_err_ext groups _ (fun g fl => bind
     (discrete_ordinates_0d angles wt (xs_total g) (xs_scatter g g) (gs_off0 groups fl old xs_scatter g) rows
        (fun n => at2 external n (bidx (cols2 external) g)) (old g)) (fun c => Ok (upd fl g c)))) in E.
  2:{ intros g fl Hg. cbv zeta. rewrite off_scatter_0d_eq by exact Hg. reflexivity. }
  apply (gs_loop0 groups (fun g fl => discrete_ordinates_0d angles wt (xs_total g) (xs_scatter g g)
     (gs_off0 groups fl old xs_scatter g) rows (fun n => at2 external n (bidx (cols2 external) g)) (old g)) new); [|exact E].
  intros g f1 f2 Hg H. rewrite (gs_off0_ext groups f1 f2 old old) by (try exact H; reflexivity). reflexivity.
Qed.

Lemma group_0d_total angles wt sigt sigs off n ext x0 :
  exists r, discrete_ordinates_0d angles wt sigt sigs off n ext x0 = Ok r.
Proof. apply iterate_total; [eauto|unfold count_nn; lia]. Qed.

Lemma sweep_0d_total angles groups wt xs_total xs_scatter rows external old :
  exists new, sweep_0d angles groups wt xs_total xs_scatter rows external old = Ok new.
Proof.
  apply for_up_err_ok. intros g s Hg. cbv zeta.
  match goal with |- context [discrete_ordinates_0d ?a ?b ?c ?d ?e ?f ?h ?i] =>
    destruct (group_0d_total a b c d e f h i) as [r Er]; rewrite Er end. cbn [bind]. eauto.
Qed.

(** balance of one group, split as the solver does *)
Lemma balance_0d_split angles groups wt xs_total xs_scatter rows external phi g :
  (g < groups)%nat -> balance_0d angles groups wt xs_total xs_scatter rows external phi ->
  xs_total g * phi g = rsum angles (fun m => wt m * (xs_scatter g g * phi g + gs_off0 groups phi phi xs_scatter g
     + at2 external (bidx rows m) (bidx (cols2 external) g))).
Proof.
  intros Hg H. rewrite (H g Hg). apply rsum_ext. intros m Hm. rewrite <- gs_off0_full by exact Hg. reflexivity.
Qed.

(** C37: a solution of the balance is reproduced *)
Lemma balance_is_fixed angles groups wt xs_total xs_scatter rows external phi new :
  (forall g, (g < groups)%nat -> xs_total g <> 0) ->
  balance_0d angles groups wt xs_total xs_scatter rows external phi ->
  sweep_0d angles groups wt xs_total xs_scatter rows external phi = Ok new ->
  forall g, (g < groups)%nat -> new g = phi g.
Proof.
  intros Ht Hb E. assert (H := sweep_0d_groups _ _ _ _ _ _ _ _ _ E).
  assert (G : forall k, (k <= groups)%nat -> forall g, (g < k)%nat -> new g = phi g).
  { induction k as [|k IH]; intros Hk g Hg; [lia|]. destruct (Nat.eq_dec g k) as [-> |]; [|apply IH; lia].
    specialize (H k ltac:(lia)).
    assert (Hs := balance_0d_split _ _ _ _ _ _ _ _ k Hk Hb).
    rewrite (gs_off0_ext groups new phi phi phi) in H by (try reflexivity; intros h Hh; apply IH; lia).
    destruct (group_0d_exact _ _ _ _ _ rows (fun n => at2 external n (bidx (cols2 external) k)) _ _ (phi k) (Ht k ltac:(lia)) Hs H) as (m & _ & Em).
    rewrite Rminus_diag_eq with (r1 := phi k) (r2 := phi k) in Em by reflexivity. lra. }
  apply (G groups). lia.
Qed.

Lemma pow_one_base a m : 0 <= a < 1 -> (1 <= m)%nat -> a ^ m < 1.
Proof.
  intros Ha Hm. destruct m as [|m]; [lia|]. cbn [pow].
  assert (0 <= a ^ m <= 1).
  { clear Hm. induction m as [|m IH]; cbn [pow]; [lra|]. nra. }
  nra.
Qed.

(** C37: a fixed point of the group sweep satisfies the balance *)
Lemma fixed_is_balance angles groups wt xs_total xs_scatter rows external phi new :
  (forall g, (g < groups)%nat -> 0 < xs_total g /\ 0 <= rsum angles wt * xs_scatter g g < xs_total g) ->
  sweep_0d angles groups wt xs_total xs_scatter rows external phi = Ok new ->
  (forall g, (g < groups)%nat -> new g = phi g) ->
  balance_0d angles groups wt xs_total xs_scatter rows external phi.
Proof.
  intros Ht E Hf g Hg. assert (H := sweep_0d_groups _ _ _ _ _ _ _ _ _ E g Hg).
  destruct (Ht g Hg) as [Htp Ha]. assert (Hnz : xs_total g <> 0) by lra.
  rewrite (gs_off0_ext groups new phi phi phi) in H by (try reflexivity; intros h Hh; apply Hf; lia).
  set (off := gs_off0 groups phi phi xs_scatter g) in *.
  set (ext := fun n => at2 external n (bidx (cols2 external) g)) in *.
  set (W := rsum angles wt) in *.
  set (star := (W * off + rsum angles (fun m => wt m * ext (bidx rows m))) / (xs_total g - W * xs_scatter g g)).
  assert (Hs : forall x, rsum angles (fun m => wt m * (xs_scatter g g * x + off + ext (bidx rows m)))
                         = W * (xs_scatter g g * x + off) + rsum angles (fun m => wt m * ext (bidx rows m))).
  { intros x. rewrite (rsum_ext angles _ (fun m => (xs_scatter g g * x + off) * wt m + wt m * ext (bidx rows m))) by (intros; ring).
    rewrite rsum_plus, rsum_scal. fold W. ring. }
  assert (Hstar : xs_total g * star = rsum angles (fun m => wt m * (xs_scatter g g * star + off + ext (bidx rows m)))).
  { rewrite Hs. unfold star. field. lra. }
  destruct (group_0d_exact _ _ _ _ _ rows ext _ _ star Hnz Hstar H) as (m & Hm & Em).
  rewrite Hf in Em by exact Hg. fold W in Em.
  assert (Hpow : (W * xs_scatter g g / xs_total g) ^ m < 1).
  { apply pow_one_base; [|lia]. split.
    - apply Rmult_le_pos; [lra|left; apply Rinv_0_lt_compat; lra].
    - apply (Rmult_lt_reg_r (xs_total g)); [lra|]. replace (W * xs_scatter g g / xs_total g * xs_total g) with (W * xs_scatter g g) by (field; lra). lra. }
  assert (Heq : phi g = star).
  { assert ((1 - (W * xs_scatter g g / xs_total g) ^ m) * (phi g - star) = 0) by lra.
    apply Rmult_integral in H0. destruct H0; lra. }
  rewrite <- Heq in Hstar. rewrite Hstar. apply rsum_ext. intros k Hk.
  rewrite <- (gs_off0_full groups phi xs_scatter g Hg). reflexivity.
Qed.

(** each sweep reduces the error *)
Lemma sweep_0d_contracts angles groups wt xs_total xs_scatter rows external c old new sol d :
  0 <= rsum angles wt -> 0 <= c < 1 -> ratio_0d angles groups wt xs_total xs_scatter c ->
  balance_0d angles groups wt xs_total xs_scatter rows external sol ->
  sweep_0d angles groups wt xs_total xs_scatter rows external old = Ok new ->
  0 <= d -> within1 groups d old sol -> within1 groups (c * d) new sol.
Proof.
  intros HW Hc Hr Hsol E Hd Hold. assert (H := sweep_0d_groups _ _ _ _ _ _ _ _ _ E).
  set (W := rsum angles wt) in *.
  assert (G : forall k, (k <= groups)%nat -> forall g, (g < k)%nat -> Rabs (new g - sol g) <= c * d).
  { induction k as [|k IH]; intros Hk g Hg; [lia|]. destruct (Nat.eq_dec g k) as [-> |]; [|apply IH; lia].
    destruct (Hr k ltac:(lia)) as [Htp Hrk]. specialize (H k ltac:(lia)).
    destruct (group_0d_trace _ _ _ _ _ _ _ _ _ H) as (m & x & Hm & H0 & Hxm & Hst & _).
    set (ext := fun n => at2 external n (bidx (cols2 external) k)) in *.
    assert (Hs := balance_0d_split _ _ _ _ _ _ _ _ k Hk Hsol).
    assert (Hs' : sol k = pass_0d angles wt (xs_total k) (xs_scatter k k) (gs_off0 groups sol sol xs_scatter k) rows ext (sol k)).
    { rewrite pass_0d_eq.
      rewrite (rsum_ext angles _ (fun m => (xs_scatter k k * sol k + gs_off0 groups sol sol xs_scatter k) * wt m + wt m * ext (bidx rows m))) in Hs by (intros; unfold ext; ring).
      rewrite rsum_plus, rsum_scal in Hs. apply (Rmult_eq_reg_l (xs_total k)); [|lra]. rewrite Hs. field. lra. }
    (* the off-group difference *)
    set (A := Rabs (xs_scatter k k)).
    set (B := rsum groups (fun h => if Nat.eqb h k then 0 else Rabs (xs_scatter k h))).
    assert (HAB : A + B = rsum groups (fun h => Rabs (xs_scatter k h))).
    { unfold A, B. assert (S := rsum_single groups (fun h => if Nat.eqb h k then Rabs (xs_scatter k k) else 0) k ltac:(lia)).
      cbv beta in S. rewrite Nat.eqb_refl in S. rewrite <- S.
      2:{ intros h Hh Hne. destruct (Nat.eqb_spec h k); [lia|reflexivity]. }
      rewrite <- rsum_plus. apply rsum_ext. intros h Hh. destruct (Nat.eqb_spec h k) as [-> |]; lra. }
    assert (Hoff : Rabs (gs_off0 groups new old xs_scatter k - gs_off0 groups sol sol xs_scatter k) <= B * d).
    { unfold gs_off0, B. rewrite <- rsum_minus, <- rsum_scal_r. apply rsum_abs_le. intros h Hh.
      destruct (Nat.eqb_spec h k) as [|Hne]; [rewrite Rminus_0_r, Rabs_R0; lra|].
      rewrite <- Rmult_minus_distr_l || idtac.
      destruct (Nat.ltb_spec h k).
      - replace (xs_scatter k h * new h - xs_scatter k h * sol h) with (xs_scatter k h * (new h - sol h)) by ring.
        rewrite Rabs_mult. apply Rmult_le_compat_l; [apply Rabs_pos|].
        eapply Rle_trans; [apply IH; lia|]. nra.
      - replace (xs_scatter k h * old h - xs_scatter k h * sol h) with (xs_scatter k h * (old h - sol h)) by ring.
        rewrite Rabs_mult. apply Rmult_le_compat_l; [apply Rabs_pos|]. apply Hold. exact Hh. }
    assert (Hpass : forall y, Rabs (y - sol k) <= d ->
      Rabs (pass_0d angles wt (xs_total k) (xs_scatter k k) (gs_off0 groups new old xs_scatter k) rows ext y - sol k) <= c * d).
    { intros y Hy. rewrite Hs' at 1. rewrite !pass_0d_eq. fold W.
      match goal with |- Rabs ?e <= _ => replace e with (W * (xs_scatter k k * (y - sol k)
        + (gs_off0 groups new old xs_scatter k - gs_off0 groups sol sol xs_scatter k)) / xs_total k) by (field; lra) end.
      unfold Rdiv. rewrite Rabs_mult, Rabs_mult, (Rabs_right W), (Rabs_right (/ xs_total k)); try lra.
      2:{ apply Rle_ge. left. apply Rinv_0_lt_compat. lra. }
      apply (Rmult_le_reg_r (xs_total k)); [lra|].
      rewrite Rmult_assoc, Rinv_l, Rmult_1_r by lra.
      assert (Rabs (xs_scatter k k * (y - sol k) + (gs_off0 groups new old xs_scatter k - gs_off0 groups sol sol xs_scatter k)) <= (A + B) * d).
      { eapply Rle_trans; [apply Rabs_triang|]. rewrite Rabs_mult. fold A.
        assert (0 <= A) by apply Rabs_pos. nra. }
      rewrite HAB in H1. fold W in Hrk. nra. }
    assert (Q : forall j, (j <= m)%nat -> Rabs (x j - sol k) <= d /\ ((1 <= j)%nat -> Rabs (x j - sol k) <= c * d)).
    { induction j as [|j IHj]; intros Hj.
      - rewrite H0. split; [apply Hold; lia|lia].
      - rewrite Hst by lia. assert (Z := Hpass (x j) (proj1 (IHj ltac:(lia)))). split; [nra|intros _; exact Z]. }
    rewrite Hxm. apply Q; lia. }
  intros g Hg. apply (G groups); lia.
Qed.

(** Uniqueness of the infinite-medium flux *)
Lemma balance_0d_unique angles groups wt xs_total xs_scatter rows external c p1 p2 :
  0 <= rsum angles wt -> 0 <= c < 1 -> ratio_0d angles groups wt xs_total xs_scatter c ->
  balance_0d angles groups wt xs_total xs_scatter rows external p1 ->
  balance_0d angles groups wt xs_total xs_scatter rows external p2 ->
  forall g, (g < groups)%nat -> p1 g = p2 g.
Proof.
  intros HW Hc Hr H1 H2.
  destruct (sweep_0d_total angles groups wt xs_total xs_scatter rows external p1) as [new En].
  assert (Hnz : forall g, (g < groups)%nat -> xs_total g <> 0) by (intros g Hg; destruct (Hr g Hg); lra).
  assert (Hfix := balance_is_fixed _ _ _ _ _ _ _ _ _ Hnz H1 En).
  destruct (near_exists groups p1 p2) as (d & Hd & Hn).
  assert (K : forall k, within1 groups (c ^ k * d) p1 p2).
  { induction k as [|k IH]; [intros h Hh; cbn; rewrite Rmult_1_l; apply Hn; exact Hh|].
    intros h Hh. rewrite <- Hfix by exact Hh. cbn [pow]. rewrite Rmult_assoc.
    eapply sweep_0d_contracts; try eassumption. apply Rmult_le_pos; [apply pow_le; lra|exact Hd]. }
  intros g Hg. destruct (Req_dec (p1 g) (p2 g)) as [|Hne]; [assumption|exfalso].
  assert (Hp : 0 < Rabs (p1 g - p2 g)) by (apply Rabs_pos_lt; lra).
  destruct (pow_lt_1_zero c ltac:(rewrite Rabs_right; lra) (Rabs (p1 g - p2 g) / (d + 1))
              ltac:(apply Rdiv_lt_0_compat; lra)) as [N HN].
  specialize (HN N ltac:(lia)). specialize (K N g Hg).
  rewrite Rabs_right in HN by (apply Rle_ge, pow_le; lra).
  apply (Rmult_lt_compat_r (d + 1)) in HN; [|lra].
  replace (Rabs (p1 g - p2 g) / (d + 1) * (d + 1)) with (Rabs (p1 g - p2 g)) in HN by (field; lra).
  assert (0 <= c ^ N) by (apply pow_le; lra). nra.
Qed.

Lemma vec_change_entry groups new old c g :
  vec_change groups new old = Some c -> (g < groups)%nat ->
  new g <> 0 /\ Rabs (new g - old g) <= c * Rabs (new g).
Proof.
  intros E Hg. unfold vec_change in E. destruct (has_zero groups new) eqn:Hz; [discriminate|]. injection E as E.
  assert (Hnz := proj1 (has_zero_false _ _) Hz g Hg). split; [exact Hnz|].
  assert (Ht : Rabs ((new g - old g) / new g) <= c).
  { rewrite <- E, <- sqrt_Rsqr_abs. apply sqrt_le_1_alt.
    apply (rsum_term_le groups (fun g => ((new g - old g) / new g)²) g); [intros; apply Rle_0_sqr|exact Hg]. }
  replace (new g - old g) with ((new g - old g) / new g * new g) by (field; exact Hnz).
  rewrite Rabs_mult. apply Rmult_le_compat_r; [apply Rabs_pos|exact Ht].
Qed.

(** C37: trace, error bound and convergence of the 0D group iteration *)
Lemma source_0d_result angles groups wt xs_total xs_scatter rows external c old flux sol :
  0 <= rsum angles wt -> 0 <= c < 1 -> ratio_0d angles groups wt xs_total xs_scatter c ->
  balance_0d angles groups wt xs_total xs_scatter rows external sol ->
  source_iteration_0d angles groups wt xs_total xs_scatter rows external old = Ok flux ->
  exists n, (1 <= n <= 100)%nat /\
    (forall d, 0 <= d -> within1 groups d old sol -> within1 groups (c ^ n * d) flux sol) /\
    ((n < 100)%nat -> forall M, 0 <= M -> (forall g, (g < groups)%nat -> Rabs (flux g) <= M) ->
       within1 groups (c * (/ 10 ^ 8 * M) / (1 - c)) flux sol).
Proof.
  intros HW Hc Hr Hsol E.
  destruct (iterate_spec _ _ _ _ _ _ _ _ E) as (n & x & H1 & H2 & H3 & H4 & H5 & H6 & H7).
  change count_gg with 100%nat in *. subst flux.
  assert (HT : forall k d, (k < n)%nat -> 0 <= d -> within1 groups d (x k) sol -> within1 groups (c * d) (x (S k)) sol).
  { intros k d Hk Hd H. eapply sweep_0d_contracts; try eassumption. apply H5; exact Hk. }
  exists n. split; [lia|]. split.
  - intros d Hd Hw.
    assert (G : forall k, (k <= n)%nat -> within1 groups (c ^ k * d) (x k) sol).
    { induction k as [|k IH]; intros Hk; [cbn; rewrite H3, Rmult_1_l; exact Hw|].
      cbn [pow]. rewrite Rmult_assoc. apply HT; [lia| |apply IH; lia]. apply Rmult_le_pos; [apply pow_le; lra|exact Hd]. }
    apply G. lia.
  - intros Hn M HM Hb. destruct H7 as [H7|H7]; [|lia]. apply below_true in H7. destruct H7 as (cc & Hcc & Hlt).
    assert (Hstep : forall g, (g < groups)%nat -> Rabs (x n g - x (n - 1)%nat g) <= / 10 ^ 8 * M).
    { intros g Hg. destruct (vec_change_entry _ _ _ _ g Hcc Hg) as [_ Hle].
      eapply Rle_trans; [exact Hle|]. assert (Z := Rabs_pos (x n g)). specialize (Hb g Hg). unfold change_gg in Hlt.
      assert (0 < / 10 ^ 8) by (apply Rinv_0_lt_compat, pow_lt; lra).
      apply Rle_trans with (/ 10 ^ 8 * Rabs (x n g)); [apply Rmult_le_compat_r; lra|apply Rmult_le_compat_l; lra]. }
    set (e := / 10 ^ 8 * M) in *.
    assert (He : 0 <= e) by (apply Rmult_le_pos; [left; apply Rinv_0_lt_compat, pow_lt; lra|exact HM]).
    (* posterior estimate *)
    assert (Hbnd : within1 groups (e / (1 - c)) (x (n - 1)%nat) sol).
    { destruct (near_exists groups (x (n - 1)%nat) sol) as (d0 & Hd0 & Hn0).
      assert (Hit : forall k, within1 groups (e / (1 - c) + c ^ k * d0) (x (n - 1)%nat) sol).
      { induction k as [|k IH].
        - intros g Hg. cbn [pow]. rewrite Rmult_1_l. assert (Q := Hn0 g Hg).
          assert (0 <= e / (1 - c)) by (apply Rmult_le_pos; [exact He|left; apply Rinv_0_lt_compat; lra]). lra.
        - intros g Hg. assert (Q : within1 groups (c * (e / (1 - c) + c ^ k * d0)) (x n) sol).
          { replace n with (S (n - 1)) at 1 by lia. apply HT; [lia| |exact IH].
            apply Rplus_le_le_0_compat; [apply Rmult_le_pos; [exact He|left; apply Rinv_0_lt_compat; lra]|].
            apply Rmult_le_pos; [apply pow_le; lra|exact Hd0]. }
          specialize (Q g Hg). specialize (Hstep g Hg).
          replace (x (n - 1)%nat g - sol g) with ((x n g - sol g) - (x n g - x (n - 1)%nat g)) by ring.
          assert (T := Rabs_triang (x n g - sol g) (- (x n g - x (n - 1)%nat g))). rewrite Rabs_Ropp in T.
          replace (x n g - sol g + - (x n g - x (n - 1)%nat g)) with (x n g - sol g - (x n g - x (n - 1)%nat g)) in T by ring.
          eapply Rle_trans; [exact T|]. cbn [pow].
          replace (e / (1 - c) + c * c ^ k * d0) with (c * (e / (1 - c) + c ^ k * d0) + e) by (field; lra). lra. }
      intros g Hg. destruct (Rle_or_lt (Rabs (x (n - 1)%nat g - sol g)) (e / (1 - c))) as [|Hgt]; [assumption|exfalso].
      set (gap := Rabs (x (n - 1)%nat g - sol g) - e / (1 - c)). assert (Hgap : 0 < gap) by (unfold gap; lra).
      destruct (pow_lt_1_zero c ltac:(rewrite Rabs_right; lra) (gap / (d0 + 1))
                ltac:(apply Rdiv_lt_0_compat; lra)) as [N HN].
      specialize (HN N ltac:(lia)). specialize (Hit N g Hg).
      rewrite Rabs_right in HN by (apply Rle_ge, pow_le; lra).
      apply (Rmult_lt_compat_r (d0 + 1)) in HN; [|lra].
      replace (gap / (d0 + 1) * (d0 + 1)) with gap in HN by (field; lra).
      assert (0 <= c ^ N) by (apply pow_le; lra). unfold gap in *. nra. }
    replace (c * e / (1 - c)) with (c * (e / (1 - c))) by (unfold Rdiv; ring).
    replace n with (S (n - 1)) at 1 by lia. apply HT; [lia| |exact Hbnd].
    apply Rmult_le_pos; [exact He|left; apply Rinv_0_lt_compat; lra].
Qed.

Lemma source_0d_total angles groups wt xs_total xs_scatter rows external old :
  exists flux, source_iteration_0d angles groups wt xs_total xs_scatter rows external old = Ok flux.
Proof. apply iterate_total; [apply sweep_0d_total|unfold count_gg; lia]. Qed.

(** nonnegative data give nonnegative fluxes *)
Lemma source_0d_nonneg angles groups wt xs_total xs_scatter rows external old flux :
  (forall m, (m < angles)%nat -> 0 <= wt m) ->
  (forall g, (g < groups)%nat -> 0 < xs_total g) ->
  (forall g h, (g < groups)%nat -> (h < groups)%nat -> 0 <= xs_scatter g h) ->
  (forall m g, (m < angles)%nat -> (g < groups)%nat -> 0 <= at2 external (bidx rows m) (bidx (cols2 external) g)) ->
  (forall g, (g < groups)%nat -> 0 <= old g) ->
  source_iteration_0d angles groups wt xs_total xs_scatter rows external old = Ok flux ->
  forall g, (g < groups)%nat -> 0 <= flux g.
Proof.
  intros Hw Ht Hs He Ho E.
  destruct (iterate_spec _ _ _ _ _ _ _ _ E) as (n & x & H1 & H2 & H3 & H4 & H5 & _ & _). subst flux.
  assert (G : forall k, (k <= n)%nat -> forall g, (g < groups)%nat -> 0 <= x k g).
  { induction k as [|k IH]; intros Hk; [rewrite H3; exact Ho|].
    specialize (IH ltac:(lia)). assert (H := sweep_0d_groups _ _ _ _ _ _ _ _ _ (H5 k Hk)).
    assert (Q : forall j, (j <= groups)%nat -> forall g, (g < j)%nat -> 0 <= x (S k) g).
    { induction j as [|j IHj]; intros Hj g Hg; [lia|]. destruct (Nat.eq_dec g j) as [-> |]; [|apply IHj; lia].
      specialize (H j ltac:(lia)). destruct (group_0d_trace _ _ _ _ _ _ _ _ _ H) as (m & y & Hm & H0 & -> & Hst & _).
      assert (Hoff : 0 <= gs_off0 groups (x (S k)) (x k) xs_scatter j).
      { apply rsum_nonneg. intros h Hh. destruct (Nat.eqb h j); [lra|].
        apply Rmult_le_pos; [apply Hs; lia|]. destruct (Nat.ltb_spec h j); [apply IHj; lia|apply IH; lia]. }
      assert (Z : forall i, (i <= m)%nat -> 0 <= y i).
      { induction i as [|i IHi]; intros Hi; [rewrite H0; apply IH; lia|]. rewrite Hst by lia. rewrite pass_0d_eq.
        apply Rmult_le_pos; [|left; apply Rinv_0_lt_compat, Ht; lia].
        assert (0 <= rsum angles wt) by (apply rsum_nonneg; exact Hw).
        repeat apply Rplus_le_le_0_compat.
        - apply Rmult_le_pos; [apply Rmult_le_pos; [assumption|apply Hs; lia]|apply IHi; lia].
        - apply Rmult_le_pos; assumption.
        - apply rsum_nonneg. intros q Hq. apply Rmult_le_pos; [apply Hw; exact Hq|apply He; lia]. }
      apply Z. lia. }
    apply (Q groups). lia. }
  apply G. lia.
Qed.
