(** Infinite medium: existence of the flux, anisotropic scattering, fission and power iteration. *)
From Coq Require Import Lra Lia FunctionalExtensionality.
From Verif Require Import Base BaseFacts Contraction SlabModel SlabSpec SlabFacts MgModel MgSpec MgFacts MgFacts2 MgFacts4 MgFacts5 MgFacts6.
From Verif Require Import CritModel CritSpec CritFacts CritFacts2 CritFacts3.
Open Scope R_scope.

Lemma iterate_stop {St} (sweep : St -> outcome St) change tol cap fuel count old new :
  (0 < fuel)%nat -> sweep old = Ok new -> below (change new old) tol = true ->
  iterate fuel sweep change tol cap count old = Ok new.
Proof.
  intros Hf Hs Hb. destruct fuel as [|fuel]; [lia|]. cbn [iterate]. rewrite Hs. cbn [bind]. rewrite Hb. reflexivity.
Qed.

(** The infinite-medium flux exists. *)
Lemma balance_0d_exists angles groups wt xs_total xs_scatter rows external c :
  0 <= rsum angles wt -> 0 <= c < 1 -> ratio_0d angles groups wt xs_total xs_scatter c ->
  exists phi, balance_0d angles groups wt xs_total xs_scatter rows external phi.
Proof.
  intros HW Hc Hr.
  set (W := rsum angles wt) in *.
  set (ext := fun g => rsum angles (fun n => wt n * at2 external (bidx rows n) (bidx (cols2 external) g))).
  set (T := fun (v : vec) (g : nat) => (W * rsum groups (fun h => xs_scatter g h * v h) + ext g) / xs_total g).
  assert (HT : forall f g d, 0 <= d -> near groups d f g -> near groups (c * d) (T f) (T g)).
  { intros f g d Hd Hn k Hk. destruct (Hr k Hk) as [Ht Hb]. unfold T.
    match goal with |- Rabs ?e <= _ => replace e with (W * rsum groups (fun h => xs_scatter k h * (f h - g h)) / xs_total k) end.
    2:{ rewrite (rsum_ext groups _ (fun h => xs_scatter k h * f h - xs_scatter k h * g h)) by (intros; ring).
        rewrite rsum_minus. field. lra. }
    unfold Rdiv. rewrite Rabs_mult, Rabs_mult, (Rabs_right W), (Rabs_right (/ xs_total k)); try lra.
    2:{ apply Rle_ge. left. apply Rinv_0_lt_compat. lra. }
    apply (Rmult_le_reg_r (xs_total k)); [lra|]. rewrite Rmult_assoc, Rinv_l, Rmult_1_r by lra.
    assert (Q : Rabs (rsum groups (fun h => xs_scatter k h * (f h - g h))) <= rsum groups (fun h => Rabs (xs_scatter k h)) * d).
    { rewrite <- rsum_scal_r. apply rsum_abs_le. intros h Hh. rewrite Rabs_mult.
      apply Rmult_le_compat_l; [apply Rabs_pos|]. apply Hn. exact Hh. }
    fold W in Hb. nra. }
  destruct (banach_exists groups T c Hc HT zeros) as [phi Hphi].
  exists phi. intros g Hg. destruct (Hr g Hg) as [Ht _]. rewrite <- (Hphi g Hg) at 1. unfold T.
    rewrite (rsum_ext angles _ (fun n => rsum groups (fun h => xs_scatter g h * phi h) * wt n
        + wt n * at2 external (bidx rows n) (bidx (cols2 external) g))) by (intros; ring).
    rewrite rsum_plus, rsum_scal. fold W. fold (ext g). field. lra.
Qed.

(** One anisotropic pass *)
Lemma aniso_pass_0d_eq angles nm wt leg legw sigt sw off n ext (st : R * vec) :
  let psi := fun m => (rsum nm (fun l => sw l * snd st l * leg l m) + ext (bidx n m) + off) / sigt in
  aniso_pass_0d angles nm wt leg legw sigt sw off n ext st
  = (rsum angles (fun m => psi m * wt m), fun l => rsum angles (fun m => psi m * legw l m)).
Proof.
  intros psi. unfold aniso_pass_0d. cbv zeta.
  generalize angles at 1 2 3 as k. intros k.
  induction k as [|k IH]; [reflexivity|]. cbn [for_up]. rewrite IH. reflexivity.
Qed.

(** With a quadrature that integrates the higher polynomials to zero and an isotropic source, the
    higher scattering moments do not matter: the anisotropic solver is the isotropic one. *)
Lemma aniso_0d_is_iso angles nm wt leg legw sigt sw off n ext x0 :
  (0 < nm)%nat ->
  (forall m, (m < angles)%nat -> leg 0%nat m = 1 /\ legw 0%nat m = wt m) ->
  (forall l, (0 < l < nm)%nat -> rsum angles (legw l) = 0) ->
  (forall m, (m < angles)%nat -> ext (bidx n m) = ext 0%nat) ->
  discrete_ordinates_aniso_0d angles nm wt leg legw sigt sw off n ext x0
  = discrete_ordinates_0d angles wt sigt (sw 0%nat) off n ext x0.
Proof.
  intros Hnm H0 Hl He. unfold discrete_ordinates_aniso_0d, discrete_ordinates_0d.
  set (Rel := fun (a : R * vec) (b : R) => fst a = b /\ snd a 0%nat = b /\ forall l, (0 < l < nm)%nat -> snd a l = 0).
  assert (Hsrc : forall a b m, Rel a b -> (m < angles)%nat ->
     rsum nm (fun l => sw l * snd a l * leg l m) = sw 0%nat * b).
  { intros a b m (R1 & R2 & R3) Hm.
    assert (S := rsum_single nm (fun l => sw l * snd a l * leg l m) 0%nat Hnm). cbv beta in S. rewrite S.
    - rewrite R2, (proj1 (H0 m Hm)). ring.
    - intros l Hl1 Hl2. rewrite R3 by lia. ring. }
  destruct (iterate_sim Rel
    (fun st => Ok (aniso_pass_0d angles nm wt leg legw sigt sw off n ext st))
    (fun x => Ok (pass_0d angles wt sigt (sw 0%nat) off n ext x))
    (fun new old => scalar_change (fst new) (fst old)) scalar_change change_nn count_nn) with
    (fuel := count_nn) (count := 1%nat) (x := (x0, fun l : nat => if Nat.eqb l 0 then x0 else 0)) (y := x0)
    as [(x' & y' & E1 & E2 & Hr)|(e & E1 & E2)].
  - intros a b HR. left. do 2 eexists. split; [reflexivity|]. split; [reflexivity|].
    assert (A : Rel (aniso_pass_0d angles nm wt leg legw sigt sw off n ext a) (pass_0d angles wt sigt (sw 0%nat) off n ext b)).
    { rewrite aniso_pass_0d_eq. cbv zeta. unfold pass_0d.
      rewrite (acc_scalar angles (fun nn => (sw 0%nat * b + ext (bidx n nn) + off) * wt nn / sigt)), Rplus_0_l.
      split; [|split]; cbn [fst snd].
      - apply rsum_ext. intros m Hm. cbv beta; rewrite (Hsrc a b m HR Hm). unfold Rdiv. ring.
      - apply rsum_ext. intros m Hm. cbv beta; rewrite (Hsrc a b m HR Hm), (proj2 (H0 m Hm)). unfold Rdiv. ring.
      - intros l Hl1. rewrite (rsum_ext angles _ (fun m => (sw 0%nat * b + ext 0%nat + off) / sigt * legw l m)).
        + rewrite rsum_scal, Hl by exact Hl1. ring.
        + intros m Hm. cbv beta; rewrite (Hsrc a b m HR Hm), He by exact Hm. reflexivity. }
    split; [exact A|]. destruct A as (A & _ & _). destruct HR as (B & _ & _). rewrite A, B. reflexivity.
  - split; [reflexivity|]. split; [reflexivity|]. intros l Hl1. cbn. destruct (Nat.eqb_spec l 0); [lia|reflexivity].
  - rewrite E1, E2. cbn [bind]. destruct Hr as (-> & _). reflexivity.
  - rewrite E1, E2. reflexivity.
Qed.

Lemma aniso_source_0d_is_iso angles groups nm wt leg legw xs_total xs_scatter rows external old :
  (0 < nm)%nat ->
  (forall m, (m < angles)%nat -> leg 0%nat m = 1 /\ legw 0%nat m = wt m) ->
  (forall l, (0 < l < nm)%nat -> rsum angles (legw l) = 0) ->
  (forall m g, (m < angles)%nat -> at2 external (bidx rows m) g = at2 external 0%nat g) ->
  source_iteration_aniso_0d angles groups nm wt leg legw xs_total xs_scatter rows external old
  = source_iteration_0d angles groups wt xs_total (fun o i => xs_scatter o i 0%nat) rows external old.
Proof.
  intros Hnm H0 Hl He. unfold source_iteration_aniso_0d, source_iteration_0d. apply iterate_ext; [|reflexivity].
  intros x. unfold sweep_aniso_0d, sweep_0d. apply for_up_err_ext. intros g fl Hg. cbv zeta.
  rewrite aniso_0d_is_iso; try assumption.
  - replace (xs_scatter g g 0%nat * (2 * INR 0 + 1)) with (xs_scatter g g 0%nat) by (cbn [INR]; ring). reflexivity.
  - intros m Hm. apply He. exact Hm.
Qed.

(** Every group of an anisotropic sweep: passes over angular fluxes, the first from the isotropic
    moment only. *)
Lemma aniso_sweep_0d_trace angles groups nm wt leg legw xs_total xs_scatter rows external old new :
  sweep_aniso_0d angles groups nm wt leg legw xs_total xs_scatter rows external old = Ok new ->
  forall g, (g < groups)%nat -> xs_total g <> 0 ->
  exists n (psi : nat -> vec) (mom : nat -> vec), (1 <= n <= 100)%nat /\
    (forall l, mom 0%nat l = if Nat.eqb l 0 then old g else 0) /\
    (forall k, (k < n)%nat ->
       (forall l, mom (S k) l = rsum angles (fun m => psi (S k) m * legw l m)) /\
       forall m, (m < angles)%nat ->
         xs_total g * psi (S k) m
         = rsum nm (fun l => (2 * INR l + 1) * xs_scatter g g l * mom k l * leg l m)
           + at2 external (bidx rows m) (bidx (cols2 external) g)
           + gs_off0 groups new old (fun o i => xs_scatter o i 0%nat) g) /\
    new g = rsum angles (fun m => psi n m * wt m).
Proof.
  intros E g Hg Ht. unfold sweep_aniso_0d in E.
  set (inner := fun g (fl : vec) => discrete_ordinates_aniso_0d angles nm wt leg legw (xs_total g)
     (fun l => xs_scatter g g l * (2 * INR l + 1)) (gs_off0 groups fl old (fun o i => xs_scatter o i 0%nat) g) rows
        (fun n => at2 external n (bidx (cols2 external) g)) (old g)).
  rewrite (for_up_err_ext groups _ (fun g fl => bind (inner g fl) (fun c => Ok (upd fl g c)))) in E.
  2:{ intros g' fl Hg'. cbv zeta. rewrite off_scatter_0d_eq by exact Hg'. reflexivity. }
  apply (gs_loop0 groups inner new) with (g := g) in E; [|clear E|exact Hg].
  2:{ intros g' f1 f2 Hg' H. unfold inner. rewrite (gs_off0_ext groups f1 f2 old old) by (try exact H; reflexivity). reflexivity. }
  unfold inner, discrete_ordinates_aniso_0d in E.
  destruct (iterate _ _ _ _ _ _ _) as [st|] eqn:Ei; cbn [bind] in E; [|discriminate]. injection E as E.
  destruct (iterate_spec _ _ _ _ _ _ _ _ Ei) as (n & x & Hn1 & Hn2 & H0 & Hr & Hs & _).
  assert (Hn : (1 <= n <= 100)%nat) by (unfold count_nn in Hn2; lia).
  set (psi := fun k m => match k with O => 0 | S j =>
    (rsum nm (fun l => xs_scatter g g l * (2 * INR l + 1) * snd (x j) l * leg l m)
     + at2 external (bidx rows m) (bidx (cols2 external) g)
     + gs_off0 groups new old (fun o i => xs_scatter o i 0%nat) g) / xs_total g end).
  assert (Hstep : forall k, (k < n)%nat ->
    x (S k) = (rsum angles (fun m => psi (S k) m * wt m), fun l => rsum angles (fun m => psi (S k) m * legw l m))).
  { intros k Hk. specialize (Hs k Hk). cbv beta in Hs. injection Hs as Hs. rewrite <- Hs, aniso_pass_0d_eq. reflexivity. }
  exists n, psi, (fun k => snd (x k)). split; [exact Hn|]. split; [rewrite H0; reflexivity|]. split.
  - intros k Hk. split; [intros l; rewrite Hstep by exact Hk; reflexivity|].
    intros m Hm. unfold psi. 
    match goal with |- _ * (?a / _) = _ => replace (xs_total g * (a / xs_total g)) with a by (field; exact Ht) end.
    f_equal. f_equal. apply rsum_ext. intros l _. ring.
  - rewrite <- E, Hr. destruct n as [|n]; [lia|]. rewrite (Hstep n) by lia. reflexivity.
Qed.

(** ** Fission *)
Lemma fission_source_0d_eq groups f flux keff g : (g < groups)%nat ->
  fission_source_0d groups f flux keff g = emission_0d groups f flux g / keff.
Proof.
  intros Hg. unfold fission_source_0d, emission_0d.
  set (v := fun og => rsum groups (fun h => fission_entry_0d f og h * flux h) / keff).
  assert (G : forall k, (g < k)%nat -> for_up k (fun og source => upd source og
      (match f with
       | FissionMatrix0 xs => for_up groups (fun ig s => s + flux ig * xs og ig) 0
       | FissionVector0 chi nusigf => for_up groups (fun ig s => s + flux ig * chi og * nusigf ig) 0
       end / keff)) zeros g = v g).
  { induction k as [|k IH]; intros Hk; [lia|]. cbn [for_up]. destruct (Nat.eq_dec g k) as [-> |].
    - rewrite upd_same. unfold v. f_equal. destruct f as [xs|chi nu]; cbn [fission_entry_0d].
      + rewrite (acc_scalar groups (fun ig => flux ig * xs k ig)), Rplus_0_l. apply rsum_ext; intros; ring.
      + rewrite (acc_scalar groups (fun ig => flux ig * chi k * nu ig)), Rplus_0_l. apply rsum_ext; intros; ring.
    - rewrite upd_other by lia. apply IH. lia. }
  apply G. exact Hg.
Qed.

Lemma update_keff_0d_ratio groups f flux flux_old keff :
  update_keff_0d groups f flux flux_old keff
  = keff * production_0d groups f flux / production_0d groups f flux_old.
Proof.
  unfold update_keff_0d, production_0d, emission_0d. cbv zeta.
  rewrite (for_up_ext groups _ (fun og r =>
     (fst r + rsum groups (fun h => fission_entry_0d f og h * flux h),
      snd r + rsum groups (fun h => fission_entry_0d f og h * flux_old h)))).
  - rewrite (pair_loop groups (fun og => rsum groups (fun h => fission_entry_0d f og h * flux h))
       (fun og => rsum groups (fun h => fission_entry_0d f og h * flux_old h))). cbn [fst snd]. rewrite !Rplus_0_l.
    unfold Rdiv. rewrite (Rmult_comm keff). reflexivity.
  - intros og r Hog. rewrite (for_up_ext groups _ (fun ig r =>
      (fst r + fission_entry_0d f og ig * flux ig, snd r + fission_entry_0d f og ig * flux_old ig))).
    + apply (pair_loop groups (fun ig => fission_entry_0d f og ig * flux ig) (fun ig => fission_entry_0d f og ig * flux_old ig)).
    + intros ig r2 Hig. destruct f; cbn [fission_entry_0d]; f_equal; ring.
Qed.

Lemma vector_matrix_0d groups chi nusigf flux flux_old keff :
  (forall g, (g < groups)%nat ->
     fission_source_0d groups (FissionVector0 chi nusigf) flux keff g
     = fission_source_0d groups (FissionMatrix0 (fun o h => chi o * nusigf h)) flux keff g) /\
  update_keff_0d groups (FissionVector0 chi nusigf) flux flux_old keff
  = update_keff_0d groups (FissionMatrix0 (fun o h => chi o * nusigf h)) flux flux_old keff.
Proof.
  split; [intros g Hg; rewrite !fission_source_0d_eq by exact Hg; reflexivity|].
  rewrite !update_keff_0d_ratio. reflexivity.
Qed.

Lemma norm1_ext groups p q : (forall g, (g < groups)%nat -> p g = q g) -> norm1 groups p = norm1 groups q.
Proof. intros H. unfold norm1. f_equal. apply rsum_ext. intros g Hg. rewrite H by exact Hg. reflexivity. Qed.

Lemma norm1_scale groups c p : norm1 groups (fun g => p g * c) = norm1 groups p * Rabs c.
Proof.
  unfold norm1. rewrite (rsum_ext groups _ (fun g => Rsqr (p g) * Rsqr c)) by (intros; apply Rsqr_mult).
  rewrite rsum_scal_r, sqrt_mult; [|apply rsum_nonneg; intros; apply Rle_0_sqr|apply Rle_0_sqr].
  rewrite sqrt_Rsqr_abs. reflexivity.
Qed.

Lemma normalized1 groups p : norm1 groups p <> 0 -> norm1 groups (fun g => p g / norm1 groups p) = 1.
Proof.
  intros H. unfold Rdiv. rewrite norm1_scale.
  assert (P := sqrt_pos (rsum groups (fun g => Rsqr (p g)))). fold (norm1 groups p) in P.
  rewrite Rabs_inv, Rabs_right by lra. field. exact H.
Qed.

Lemma power_step_0d_spec angles groups wt xs_total xs_scatter f flux_old k_old flux k :
  power_step_0d angles groups wt xs_total xs_scatter f (flux_old, k_old) = Ok (flux, k) ->
  exists source raw,
    (forall g, (g < groups)%nat -> source g = emission_0d groups f flux_old g / k_old) /\
    source_iteration_0d angles groups wt xs_total xs_scatter 1 (mkArr2 groups (fun _ g => source g)) flux_old = Ok raw /\
    k = k_old * production_0d groups f raw / production_0d groups f flux_old /\
    (forall g, flux g = raw g / norm1 groups raw) /\
    (norm1 groups raw <> 0 -> norm1 groups flux = 1).
Proof.
  intros E. unfold power_step_0d in E. cbv zeta in E.
  set (source := fission_source_0d groups f flux_old k_old) in E.
  destruct (source_iteration_0d angles groups wt xs_total xs_scatter 1 (mkArr2 groups (fun _ g => source g)) flux_old)
    as [raw|e] eqn:Er; cbn [bind] in E; [|discriminate]. injection E as <- <-.
  exists source, raw. split; [intros g Hg; apply fission_source_0d_eq; exact Hg|]. split; [exact Er|].
  split; [apply update_keff_0d_ratio|]. split; [reflexivity|]. apply normalized1.
Qed.

Lemma below_settled0 n new old tol : below (vec_change n new old) tol = true <-> settled0 n new old tol.
Proof.
  rewrite below_true. unfold vec_change, settled0.
  rewrite (rsum_ext n (fun i => ((new i - old i) / new i) ^ 2) (fun i => Rsqr ((new i - old i) / new i)))
    by (intros; unfold Rsqr; ring).
  destruct (has_zero n new) eqn:Hz.
  - split; [intros (x & E & _); discriminate|]. intros [H _]. apply has_zero_false in H. congruence.
  - assert (Hn := proj1 (has_zero_false _ _) Hz). split; [intros (x & E & Hx); injection E as <-; split; assumption|].
    intros [_ H]. eauto.
Qed.
Lemma norms_are_euclidean cells groups (f : mat2) (v : vec) :
  norm2 cells groups f = sqrt (rsum cells (fun i => rsum groups (fun g => f i g ^ 2))) /\
  norm1 groups v = sqrt (rsum groups (fun g => v g ^ 2)).
Proof.
  split; unfold norm2, norm1; f_equal; repeat (apply rsum_ext; intros); unfold Rsqr; ring.
Qed.

(** C31, 0D: the counter starts at 0, so up to 101 passes are made. *)
Lemma power_0d_trace angles groups wt xs_total xs_scatter f guess r :
  power_iteration_0d angles groups wt xs_total xs_scatter f guess = Ok r ->
  exists n (x : nat -> vec * R),
    (1 <= n <= 101)%nat /\
    x 0%nat = (fun g => guess g / Rabs (norm1 groups guess), norm1 groups guess) /\ r = x n /\
    (forall k, (k < n)%nat -> power_step_0d angles groups wt xs_total xs_scatter f (x k) = Ok (x (S k))) /\
    (forall k, (0 < k < n)%nat -> ~ settled0 groups (fst (x k)) (fst (x (k - 1)%nat)) (/ 10 ^ 6)) /\
    ((n < 101)%nat -> settled0 groups (fst (x n)) (fst (x (n - 1)%nat)) (/ 10 ^ 6)).
Proof.
  intros E. destruct (iterate_spec _ _ _ _ _ _ _ _ E) as (n & x & H1 & H2 & H3 & H4 & H5 & H6 & H7).
  change count_kk with 100%nat in *. exists n, x. split; [lia|]. split; [exact H3|]. split; [exact H4|].
  split; [exact H5|]. split.
  - intros k Hk. rewrite <- below_settled0. apply not_true_iff_false. exact (H6 k Hk).
  - intros Hlt. destruct H7 as [H7|H7]; [|lia]. apply below_settled0, H7.
Qed.

Lemma power_0d_total angles groups wt xs_total xs_scatter f guess :
  exists r, power_iteration_0d angles groups wt xs_total xs_scatter f guess = Ok r.
Proof.
  apply iterate_total; [|unfold count_kk; lia]. intros [flux k]. unfold power_step_0d. cbv zeta.
  match goal with |- context [source_iteration_0d ?a ?b ?c ?d ?e ?f ?g ?h] =>
    destruct (source_0d_total a b c d e f g h) as [raw Er]; rewrite Er end. cbn [bind]. eauto.
Qed.

(** An exact infinite-medium solution is returned by the driver. *)
Lemma vec_change_same groups f g : (forall h, (h < groups)%nat -> f h = g h) ->
  (forall h, (h < groups)%nat -> g h <> 0) -> vec_change groups f g = Some 0.
Proof.
  intros H Hz. unfold vec_change.
  replace (has_zero groups f) with false.
  2:{ symmetry. apply has_zero_false. intros i Hi. rewrite H by exact Hi. apply Hz. exact Hi. }
  rewrite rsum_zero_ext; [rewrite sqrt_0; reflexivity|]. intros h Hh. rewrite H by exact Hh.
  replace (g h - g h) with 0 by lra. unfold Rdiv, Rsqr. ring.
Qed.

Lemma source_0d_solution angles groups wt xs_total xs_scatter rows external phi :
  (forall g, (g < groups)%nat -> xs_total g <> 0) ->
  balance_0d angles groups wt xs_total xs_scatter rows external phi ->
  (forall g, (g < groups)%nat -> phi g <> 0) ->
  exists flux, source_iteration_0d angles groups wt xs_total xs_scatter rows external phi = Ok flux /\
    forall g, (g < groups)%nat -> flux g = phi g.
Proof.
  intros Ht Hb Hz. destruct (sweep_0d_total angles groups wt xs_total xs_scatter rows external phi) as [new En].
  assert (Hf := balance_is_fixed _ _ _ _ _ _ _ _ _ Ht Hb En).
  exists new. split; [|exact Hf]. unfold source_iteration_0d. apply iterate_stop; [unfold count_gg; lia|exact En|].
  rewrite vec_change_same by assumption. cbn [below].
  destruct (Rlt_dec 0 change_gg) as [_|Hbad]; [reflexivity|exfalso; apply Hbad, change_gg_pos].
Qed.

(** C32, 0D *)
Lemma power_0d_eigenpair angles groups wt xs_total xs_scatter f phi k :
  (forall g, (g < groups)%nat -> xs_total g <> 0) ->
  balance_0d angles groups wt xs_total xs_scatter 1 (mkArr2 groups (fun _ g => emission_0d groups f phi g / k)) phi ->
  0 < k -> norm1 groups phi = 1 -> production_0d groups f phi <> 0 ->
  (forall g, (g < groups)%nat -> phi g <> 0) ->
  exists flux, power_iteration_0d angles groups wt xs_total xs_scatter f (fun g => k * phi g) = Ok (flux, k) /\
    forall g, (g < groups)%nat -> flux g = phi g.
Proof.
  intros Ht Hb Hk Hn Hp Hz. unfold power_iteration_0d.
  assert (En : norm1 groups (fun g => k * phi g) = k).
  { rewrite (norm1_ext groups _ (fun g => phi g * k)) by (intros; ring).
    rewrite norm1_scale, Hn, Rabs_right by lra. ring. }
  rewrite En. replace (fun g => k * phi g / Rabs k) with phi.
  2:{ extensionality g. rewrite Rabs_right by lra. field. lra. }
  set (source := fission_source_0d groups f phi k).
  assert (Hb' : balance_0d angles groups wt xs_total xs_scatter 1 (mkArr2 groups (fun _ g => source g)) phi).
  { intros g Hg. rewrite (Hb g Hg). apply rsum_ext. intros n Hn'. cbn [at2 cols2].
    unfold source. rewrite fission_source_0d_eq; [reflexivity|]. unfold bidx. destruct (Nat.eqb_spec groups 1); lia. }
  destruct (source_0d_solution _ _ _ _ _ _ _ _ Ht Hb' Hz) as (raw & Er & Hr).
  assert (Nr : norm1 groups raw = 1) by (rewrite (norm1_ext groups raw phi Hr); exact Hn).
  assert (Hpr : production_0d groups f raw = production_0d groups f phi).
  { apply rsum_ext. intros o Ho. apply rsum_ext. intros h Hh. rewrite Hr by exact Hh. reflexivity. }
  exists (fun g => raw g / 1). split.
  - apply iterate_stop; [lia| |].
    + unfold power_step_0d. cbv zeta. fold source. rewrite Er. cbn [bind]. rewrite Nr, update_keff_0d_ratio, Hpr.
      replace (k * production_0d groups f phi / production_0d groups f phi) with k by (field; exact Hp). reflexivity.
    + cbn [fst]. rewrite vec_change_same; [|intros h Hh; rewrite Hr by exact Hh; field|exact Hz].
      cbn [below]. unfold change_kk. destruct (Rlt_dec 0 (/ 10 ^ 6)) as [_|Hbad]; [reflexivity|exfalso; apply Hbad, Rinv_0_lt_compat, pow_lt; lra].
  - intros g Hg. cbv beta. rewrite Hr by exact Hg. field.
Qed.

(** k-infinity: at an infinite-medium eigenpair, k is production over absorption. *)
Lemma k_infinity angles groups wt xs_total xs_scatter f phi k :
  k <> 0 ->
  balance_0d angles groups wt xs_total xs_scatter 1 (mkArr2 groups (fun _ g => emission_0d groups f phi g / k)) phi ->
  k * rsum groups (fun g => (xs_total g - rsum angles wt * rsum groups (fun o => xs_scatter o g)) * phi g)
  = rsum angles wt * production_0d groups f phi.
Proof.
  intros Hk Hb. set (W := rsum angles wt).
  assert (S : forall g, (g < groups)%nat -> xs_total g * phi g =
     W * rsum groups (fun h => xs_scatter g h * phi h) + W * (emission_0d groups f phi g / k)).
  { intros g Hg. rewrite (Hb g Hg). cbn [at2 cols2].
    replace (bidx groups g) with g by (unfold bidx; destruct (Nat.eqb_spec groups 1); lia).
    rewrite rsum_scal_r. fold W. ring. }
  assert (A : rsum groups (fun g => xs_total g * phi g)
            = W * rsum groups (fun g => rsum groups (fun h => xs_scatter g h * phi h)) + W * (production_0d groups f phi / k)).
  { rewrite (rsum_ext groups _ _ S). rewrite rsum_plus, !rsum_scal. unfold production_0d. rewrite rsum_div. reflexivity. }
  rewrite rsum_swap in A.
  rewrite (rsum_ext groups (fun g => (xs_total g - W * rsum groups (fun o => xs_scatter o g)) * phi g)
     (fun g => xs_total g * phi g - W * rsum groups (fun o => xs_scatter o g * phi g))).
  2:{ intros g Hg. rewrite rsum_scal_r. ring. }
  rewrite rsum_minus, rsum_scal, A. generalize (production_0d groups f phi). intros p. field. exact Hk.
Qed.
