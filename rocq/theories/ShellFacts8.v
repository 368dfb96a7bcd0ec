(** Source iteration on spheres whose sweeps keep the sign of isotropic sources: one solution, geometric convergence. *)
From Coq Require Import Lra Lia Psatz FunctionalExtensionality.
From Verif Require Import Base BaseFacts Contraction SlabModel SlabSpec SlabFacts SlabFacts3 SphereModel SphereSpec SphereFacts SphereFacts2 MgModel MgSpec MgFacts MgFacts2 MgFacts3 MgFacts6 ShellSpec ShellFacts ShellFacts2 ShellFacts3 ShellFacts7.
Open Scope R_scope.

(** a uniform flux plus the difference of two sweeps is a sweep *)
Lemma ball_shift2 P sigt q1 q2 q01 q02 bd1 bd2 bd01 bd02 e a1 b1 c1 d1 o1 a2 b2 c2 d2 o2 :
  sound_sphere P ->
  sphere_transport (cells P) (angles P) (mu P) (wt P) (dx P) sigt q1 q01 bd1 bd01 a1 b1 c1 d1 o1 ->
  sphere_transport (cells P) (angles P) (mu P) (wt P) (dx P) sigt q2 q02 bd2 bd02 a2 b2 c2 d2 o2 ->
  sphere_transport (cells P) (angles P) (mu P) (wt P) (dx P) sigt (fun m i => sigt i * e + (q1 m i - q2 m i)) (fun i => sigt i * e + (q01 i - q02 i)) (fun m => e + (bd1 m - bd2 m)) (e + (bd01 - bd02))
    (fun k => e + (a1 k - a2 k)) (fun m k => e + (b1 m k - b2 m k)) (fun m i => e + (c1 m i - c2 m i)) (fun m i => e + (d1 m i - d2 m i))
    (fun i => rsum (angles P) (wt P) * e + (o1 i - o2 i)).
Proof.
  intros (Hnz & Hin & Hw & Hsum & Hdx & Htau) (B1 & E1 & H1 & O1 & I1 & W1 & Z1 & F1) (B2 & E2 & H2 & O2 & I2 & W2 & Z2 & F2).
  split; [|split; [|split; [|split; [|split; [|split; [|split]]]]]].
  - intros i Hi. rewrite <- (B1 i Hi), <- (B2 i Hi). specialize (Hdx i Hi). field. lra.
  - cbv beta. rewrite E1, E2. lra.
  - intros i Hi. cbv beta. rewrite (H1 i Hi), (H2 i Hi). lra.
  - intros m Hm i Hi. cbv zeta. destruct (O1 m Hm i Hi) as [C1 K1]. destruct (O2 m Hm i Hi) as [C2 K2]. cbv zeta in K1, K2. split; [lra|].
    pose proof (al_diff P m Hm Hsum) as D. unfold al in D. specialize (Hw m Hm).
    set (al0 := alpha_coef (angles P) (mu P) (wt P) m) in *. set (al1 := alpha_coef (angles P) (mu P) (wt P) (S m)) in *.
    set (ai := sphere_area (code_rin (dx P) i)) in *. set (ao := sphere_area (code_rout (dx P) i)) in *.
    set (v := ball_volume (code_rout (dx P) i) - ball_volume (code_rin (dx P) i)) in *.
    transitivity ((mu P m * (ao - ai) * e + (ao - ai) / wt P m * (- (al0 - al1) * e) + sigt i * v * e)
      + ((mu P m * (ao * b1 m (S i) - ai * b1 m i) + (ao - ai) / wt P m * (al1 * d1 m i - al0 * c1 m i) + sigt i * v * ((b1 m i + b1 m (S i)) / 2))
         - (mu P m * (ao * b2 m (S i) - ai * b2 m i) + (ao - ai) / wt P m * (al1 * d2 m i - al0 * c2 m i) + sigt i * v * ((b2 m i + b2 m (S i)) / 2)))).
    { field. lra. }
    rewrite K1, K2, D. field. lra.
  - intros m Hm. destruct (I1 m Hm) as [P1 N1]. destruct (I2 m Hm) as [P2 N2]. split.
    + intros Hp. cbv beta. rewrite P1, P2 by exact Hp. reflexivity.
    + intros Hp. cbv beta. rewrite N1, N2 by exact Hp. lra.
  - intros m i Hm Hi. cbv beta. pose proof (W1 m i Hm Hi) as K1. pose proof (W2 m i Hm Hi) as K2. lra.
  - intros m Hm Hn. cbv beta. rewrite (Z1 m Hm Hn), (Z2 m Hm Hn). reflexivity.
  - intros i Hi. cbv beta. rewrite (F1 i Hi), (F2 i Hi). rewrite <- rsum_scal_r, <- rsum_minus, <- rsum_plus. apply rsum_ext. intros m Hm. lra.
Qed.

Lemma ball_shift P sigt q1 q2 q01 q02 bnd bnd0 e a1 b1 c1 d1 o1 a2 b2 c2 d2 o2 :
  sound_sphere P ->
  sphere_transport (cells P) (angles P) (mu P) (wt P) (dx P) sigt q1 q01 bnd bnd0 a1 b1 c1 d1 o1 ->
  sphere_transport (cells P) (angles P) (mu P) (wt P) (dx P) sigt q2 q02 bnd bnd0 a2 b2 c2 d2 o2 ->
  sphere_transport (cells P) (angles P) (mu P) (wt P) (dx P) sigt (fun m i => sigt i * e + (q1 m i - q2 m i)) (fun i => sigt i * e + (q01 i - q02 i)) (fun _ => e) e
    (fun k => e + (a1 k - a2 k)) (fun m k => e + (b1 m k - b2 m k)) (fun m i => e + (c1 m i - c2 m i)) (fun m i => e + (d1 m i - d2 m i))
    (fun i => rsum (angles P) (wt P) * e + (o1 i - o2 i)).
Proof.
  intros Hsp T1 T2. pose proof (ball_shift2 P sigt _ _ _ _ _ _ _ _ e _ _ _ _ _ _ _ _ _ _ Hsp T1 T2) as U.
  replace (e + (bnd0 - bnd0)) with e in U by ring.
  replace (fun m : nat => e + (bnd m - bnd m)) with (fun _ : nat => e) in U by (apply functional_extensionality; intros m; ring). exact U.
Qed.

(** sources that differ isotropically by at most [sigma_t e] give fluxes that differ by at most [e] times the sum of the weights *)
Lemma ball_lipschitz P sigt q1 q2 q01 q02 bnd bnd0 e a1 b1 c1 d1 o1 a2 b2 c2 d2 o2 dq :
  sound_sphere P -> keeps_sign P sigt -> 0 <= e ->
  sphere_transport (cells P) (angles P) (mu P) (wt P) (dx P) sigt q1 q01 bnd bnd0 a1 b1 c1 d1 o1 ->
  sphere_transport (cells P) (angles P) (mu P) (wt P) (dx P) sigt q2 q02 bnd bnd0 a2 b2 c2 d2 o2 ->
  (forall m i, (m < angles P)%nat -> (i < cells P)%nat -> q1 m i - q2 m i = dq i) -> (forall i, (i < cells P)%nat -> q01 i - q02 i = dq i) ->
  (forall i, (i < cells P)%nat -> Rabs (dq i) <= sigt i * e) ->
  forall i, (i < cells P)%nat -> Rabs (o1 i - o2 i) <= rsum (angles P) (wt P) * e.
Proof.
  intros Hsp Hk He T1 T2 Q Q0 B i Hi.
  pose proof (ball_shift P sigt _ _ _ _ _ _ e _ _ _ _ _ _ _ _ _ _ Hsp T1 T2) as U1.
  pose proof (ball_shift P sigt _ _ _ _ _ _ e _ _ _ _ _ _ _ _ _ _ Hsp T2 T1) as U2.
  assert (V1 : 0 <= rsum (angles P) (wt P) * e + (o1 i - o2 i)).
  { refine (Hk (fun i => sigt i * e + dq i) e _ _ _ _ (fun i => rsum (angles P) (wt P) * e + (o1 i - o2 i)) (ball_ext _ _ _ _ _ _ _ _ _ _ _ _ _ _ _ _ _ _ _ _ _ U1) _ He i Hi).
    - intros m j Hm Hj. cbv beta. rewrite Q by assumption. reflexivity.
    - intros j Hj. cbv beta. rewrite Q0 by assumption. reflexivity.
    - reflexivity.
    - intros j Hj. specialize (B j Hj). cbv beta. pose proof (Rle_abs (- dq j)) as A. rewrite Rabs_Ropp in A. lra. }
  assert (V2 : 0 <= rsum (angles P) (wt P) * e + (o2 i - o1 i)).
  { refine (Hk (fun i => sigt i * e - dq i) e _ _ _ _ (fun i => rsum (angles P) (wt P) * e + (o2 i - o1 i)) (ball_ext _ _ _ _ _ _ _ _ _ _ _ _ _ _ _ _ _ _ _ _ _ U2) _ He i Hi).
    - intros m j Hm Hj. cbv beta. rewrite <- (Q m j) by assumption. lra.
    - intros j Hj. cbv beta. rewrite <- (Q0 j) by assumption. lra.
    - reflexivity.
    - intros j Hj. specialize (B j Hj). cbv beta. pose proof (Rle_abs (dq j)) as A. lra. }
  apply Rabs_le. lra.
Qed.

Section Converge.
Variables (P : sn) (groups : nat) (xs_total : mat2) (xs_scatter : mat3) (external boundary : arr3) (c : R).
Hypothesis Hsp : sound_sphere P.
Hypothesis Ht : forall i g, (i < cells P)%nat -> (g < groups)%nat -> 0 <= xs_total (medium P i) g.
Hypothesis Hk : forall g, (g < groups)%nat -> keeps_sign P (fun i => xs_total (medium P i) g).
Hypothesis Hc : 0 <= c.
Hypothesis Hrho : rsum (angles P) (wt P) * c < 1.
Hypothesis Hrat : mg_ratio P groups xs_total xs_scatter c.
Let rho : R := rsum (angles P) (wt P) * c.

Lemma conv_W : 0 <= rsum (angles P) (wt P).
Proof. apply rsum_nonneg. intros m Hm. left. apply Hsp. exact Hm. Qed.
Lemma conv_rho : 0 <= rho < 1.
Proof. split; [apply Rmult_le_pos; [apply conv_W|exact Hc]|exact Hrho]. Qed.

Lemma group_contracts g s1 s2 o1 o2 d : (g < groups)%nat -> 0 <= d -> within2 (cells P) groups d s1 s2 ->
  ball_group P groups xs_total xs_scatter external boundary g s1 o1 -> ball_group P groups xs_total xs_scatter external boundary g s2 o2 ->
  forall i, (i < cells P)%nat -> Rabs (o1 i - o2 i) <= rho * d.
Proof.
  intros Hg Hd Hw (a1 & b1 & c1 & d1 & T1) (a2 & b2 & c2 & d2 & T2) i Hi. unfold rho. rewrite Rmult_assoc.
  refine (ball_lipschitz P _ _ _ _ _ _ _ (c * d) _ _ _ _ _ _ _ _ _ _ (fun i => rsum groups (fun h => xs_scatter (medium P i) g h * (s1 i h - s2 i h))) Hsp (Hk g Hg) _ T1 T2 _ _ _ i Hi).
  - apply Rmult_le_pos; assumption.
  - intros m j Hm Hj. unfold mg_source. rewrite (rsum_ext groups (fun h => xs_scatter (medium P j) g h * (s1 j h - s2 j h)) (fun h => xs_scatter (medium P j) g h * s1 j h - xs_scatter (medium P j) g h * s2 j h)) by (intros; ring).
    rewrite rsum_minus. ring.
  - intros j Hj. unfold mg_source. rewrite (rsum_ext groups (fun h => xs_scatter (medium P j) g h * (s1 j h - s2 j h)) (fun h => xs_scatter (medium P j) g h * s1 j h - xs_scatter (medium P j) g h * s2 j h)) by (intros; ring).
    rewrite rsum_minus. ring.
  - intros j Hj. cbv beta. replace (xs_total (medium P j) g * (c * d)) with ((c * xs_total (medium P j) g) * d) by ring.
    eapply Rle_trans; [|apply Rmult_le_compat_r; [exact Hd|apply Hrat; assumption]].
    rewrite <- rsum_scal_r. apply rsum_abs_le. intros h Hh. rewrite Rabs_mult. apply Rmult_le_compat_l; [apply Rabs_pos|]. apply Hw; assumption.
Qed.

(** one step for all groups at once, on vectors indexed [i * groups + g] *)
Definition ball_jac (v : vec) : vec :=
  fun k => let g := (k mod groups)%nat in let i := (k / groups)%nat in let s := fun i h => v (i * groups + h)%nat in
    match sphere_iso_pass P (fun m => xs_total m g) (fun m => xs_scatter m g g) (gs_off (cells P) groups s s (medium P) xs_scatter g)
      (slice3 external (bidx (d3c external) g)) (slice3 boundary (bidx (d3c boundary) g)) 0 (fun i => s i g) with
    | Ok f => f i
    | Raise _ => 0
    end.
Lemma ball_jac_group v g : (g < groups)%nat -> exists f,
  ball_group P groups xs_total xs_scatter external boundary g (fun i h => v (i * groups + h)%nat) f /\
  forall i, (i < cells P)%nat -> ball_jac v (i * groups + g)%nat = f i.
Proof.
  intros Hg. set (s := fun i h => v (i * groups + h)%nat).
  set (r := sphere_iso_pass P (fun m => xs_total m g) (fun m => xs_scatter m g g) (gs_off (cells P) groups s s (medium P) xs_scatter g)
      (slice3 external (bidx (d3c external) g)) (slice3 boundary (bidx (d3c boundary) g)) 0 (fun i => s i g)).
  assert (R : exists f, r = Ok f) by (unfold r; rewrite sphere_iso_pass_ok by (try exact (proj1 Hsp); reflexivity); eexists; reflexivity).
  destruct R as [f Ef]. exists f. split.
  - pose proof (ball_pass P groups xs_total xs_scatter external boundary s s (fun i => s i g) g f Hsp Hg (fun i Hi => Ht i g Hi Hg) Ef) as G.
    replace s with (sweep_sees s s (fun i => s i g) g); [exact G|]. apply functional_extensionality. intros i. apply functional_extensionality. intros h.
    unfold sweep_sees. destruct (Nat.ltb h g); [reflexivity|]. destruct (Nat.eqb_spec h g) as [->|]; reflexivity.
  - intros i Hi. unfold ball_jac. cbv zeta. destruct (flat_index groups i g Hg) as [-> ->]. change (match r with Ok f => f i | Raise _ => 0 end = f i). rewrite Ef. reflexivity.
Qed.
Lemma ball_jac_contracts u v d : (0 < groups)%nat -> 0 <= d -> near (cells P * groups) d u v -> near (cells P * groups) (rho * d) (ball_jac u) (ball_jac v).
Proof.
  intros Hg Hd Huv k Hkk.
  assert (Hg1 : (k mod groups < groups)%nat) by (apply Nat.mod_upper_bound; lia).
  assert (Hi1 : (k / groups < cells P)%nat) by (apply Nat.div_lt_upper_bound; lia).
  assert (Ek : k = (k / groups * groups + k mod groups)%nat) by (rewrite (Nat.div_mod k groups) at 1 by lia; lia).
  set (g := (k mod groups)%nat) in *. set (i := (k / groups)%nat) in *. rewrite Ek.
  destruct (ball_jac_group u g Hg1) as (f1 & G1 & F1). destruct (ball_jac_group v g Hg1) as (f2 & G2 & F2). rewrite F1, F2 by exact Hi1.
  apply (group_contracts g (fun i h => u (i * groups + h)%nat) (fun i h => v (i * groups + h)%nat) f1 f2 d Hg1 Hd); [|exact G1|exact G2|exact Hi1]. intros j h Hj Hh. apply Huv. nia.
Qed.

Lemma ball_one_solution : exists sol, ball_solution P groups xs_total xs_scatter external boundary sol /\
  forall other, ball_solution P groups xs_total xs_scatter external boundary other -> agree2 (cells P) groups other sol.
Proof.
  destruct (Nat.eq_dec groups 0) as [E0|Hg0].
  { exists zeros2. rewrite E0. split; [intros g Hg; lia|intros other _ i g Hi Hg; lia]. }
  assert (Hg : (0 < groups)%nat) by lia.
  destruct (banach_exists (cells P * groups) ball_jac rho conv_rho (fun u v d Hd => ball_jac_contracts u v d Hg Hd) zeros) as [v Hv].
  exists (fun i h => v (i * groups + h)%nat). split.
  - intros g Hgg. destruct (ball_jac_group v g Hgg) as (f & (a & b & x & y & T) & F). exists a, b, x, y.
    eapply ball_ext; [reflexivity|reflexivity| |exact T]. intros i Hi. cbv beta. rewrite <- (F i Hi). rewrite (Hv (i * groups + g)%nat) by nia. reflexivity.
  - intros other Ho.
    assert (Hbound : exists e, 0 <= e /\ within2 (cells P) groups e other (fun i h => v (i * groups + h)%nat)).
    { exists (rsum (cells P) (fun i => rsum groups (fun g => Rabs (other i g - v (i * groups + g)%nat)))). split.
      - apply rsum_nonneg; intros; apply rsum_nonneg; intros; apply Rabs_pos.
      - intros i g Hi Hgg.
        eapply Rle_trans; [|apply (rsum_term_le (cells P) (fun i => rsum groups (fun g => Rabs (other i g - v (i * groups + g)%nat))) i);
          [intros; apply rsum_nonneg; intros; apply Rabs_pos|exact Hi]].
        apply (rsum_term_le groups (fun g => Rabs (other i g - v (i * groups + g)%nat)) g); [intros; apply Rabs_pos|exact Hgg]. }
    destruct Hbound as (e & He & Hen).
    assert (Hsol : ball_solution P groups xs_total xs_scatter external boundary (fun i h => v (i * groups + h)%nat)).
    { intros g Hgg. destruct (ball_jac_group v g Hgg) as (f & (a & b & x & y & T) & F). exists a, b, x, y.
      eapply ball_ext; [reflexivity|reflexivity| |exact T]. intros i Hi. cbv beta. rewrite <- (F i Hi). rewrite (Hv (i * groups + g)%nat) by nia. reflexivity. }
    assert (Gk : forall k, within2 (cells P) groups (rho ^ k * e) other (fun i h => v (i * groups + h)%nat)).
    { induction k as [|k IH]; [cbn [pow]; rewrite Rmult_1_l; exact Hen|].
      intros i g Hi Hgg. cbn [pow]. rewrite Rmult_assoc.
      apply (group_contracts g other (fun i h => v (i * groups + h)%nat) (fun i => other i g) (fun i => v (i * groups + g)%nat) (rho ^ k * e) Hgg); [|exact IH|apply Ho; exact Hgg|apply Hsol; exact Hgg|exact Hi].
      apply Rmult_le_pos; [apply pow_le; apply conv_rho|exact He]. }
    intros i g Hi Hgg. cbv beta.
    destruct (Req_dec (other i g) (v (i * groups + g)%nat)) as [E|N]; [exact E|exfalso].
    assert (Hgap : 0 < Rabs (other i g - v (i * groups + g)%nat)) by (apply Rabs_pos_lt; lra).
    set (gap := Rabs (other i g - v (i * groups + g)%nat)) in *. destruct conv_rho as [R0 R1].
    destruct (pow_lt_1_zero rho ltac:(rewrite Rabs_right; lra) (gap / (e + 1)) ltac:(apply Rdiv_lt_0_compat; lra)) as [M HM].
    specialize (HM M ltac:(lia)). specialize (Gk M i g Hi Hgg). cbv beta in Gk. fold gap in Gk.
    rewrite Rabs_right in HM by (apply Rle_ge, pow_le; lra).
    apply (Rmult_lt_compat_r (e + 1)) in HM; [|lra]. replace (gap / (e + 1) * (e + 1)) with gap in HM by (field; lra).
    assert (0 <= rho ^ M) by (apply pow_le; lra). nra.
Qed.

(** every outer iteration of a run *)
Lemma ball_run_contracts sol old given flux :
  ball_solution P groups xs_total xs_scatter external boundary sol ->
  source_iteration P groups old xs_total (Scatter3 xs_scatter) external boundary 2 given = Ok flux ->
  exists n, (1 <= n <= 100)%nat /\
    (forall d, 0 <= d -> within2 (cells P) groups d old sol -> within2 (cells P) groups (rho ^ n * d) flux sol) /\
    ((n < 100)%nat -> forall M, 0 <= M -> (forall i g, (i < cells P)%nat -> (g < groups)%nat -> Rabs (flux i g) <= M) ->
       within2 (cells P) groups (rho * (/ 10 ^ 8 * INR (cells P) * M) / (1 - rho)) flux sol).
Proof.
  intros Hsol E. destruct (ball_run P groups old xs_total xs_scatter external boundary given flux Hsp Ht E) as (n & x & Hn & X0 & -> & Xe & _ & Xs).
  destruct conv_rho as [R0 R1].
  assert (HT : forall k d, (k < n)%nat -> 0 <= d -> within2 (cells P) groups d (x k) sol -> within2 (cells P) groups (rho * d) (x (S k)) sol).
  { intros k d Hkn Hd H.
    assert (G : forall g, (g < groups)%nat -> forall i, (i < cells P)%nat -> Rabs (x (S k) i g - sol i g) <= rho * d).
    { intros g. induction g as [g IHg] using (well_founded_induction lt_wf). intros Hg.
      destruct (Xs k g ltac:(lia) Hg) as (p & y & Hp & Y0 & Y1 & _ & Ys).
      assert (Hdd : rho * d <= d) by nra.
      assert (Y : forall j, (j <= p)%nat -> forall i, (i < cells P)%nat -> Rabs (y j i - sol i g) <= d /\ ((0 < j)%nat -> Rabs (y j i - sol i g) <= rho * d)).
      { induction j as [|j IJ]; intros Hj i Hi.
        - split; [rewrite Y0; apply H; assumption|lia].
        - assert (Q : Rabs (y (S j) i - sol i g) <= rho * d).
          { apply (group_contracts g (sweep_sees (x (S k)) (x k) (y j) g) sol (y (S j)) (fun i => sol i g) d Hg Hd); [|apply Ys; lia|apply Hsol; exact Hg|exact Hi].
            intros l h Hl Hh. unfold sweep_sees. destruct (Nat.ltb_spec h g) as [L|L]; [eapply Rle_trans; [apply IHg; assumption|exact Hdd]|].
            destruct (Nat.eqb_spec h g) as [->|]; [apply IJ; [lia|exact Hl]|apply H; assumption]. }
          split; [lra|intros _; exact Q]. }
      intros i Hi. change (x (S k) i g) with ((fun i => x (S k) i g) i). rewrite Y1. apply Y; [lia|exact Hi|lia]. }
    intros i g Hi Hg. apply G; assumption. }
  exists n. split; [exact Hn|]. split.
  - intros d Hd Hdist.
    assert (G : forall k, (k <= n)%nat -> within2 (cells P) groups (rho ^ k * d) (x k) sol).
    { induction k as [|k IH]; intros Hkn; [rewrite X0; cbn [pow]; rewrite Rmult_1_l; exact Hdist|].
      cbn [pow]. rewrite Rmult_assoc. apply HT; [lia| |apply IH; lia]. apply Rmult_le_pos; [apply pow_le; lra|exact Hd]. }
    apply G. lia.
  - intros Hlt M HM Hb. specialize (Xe Hlt). set (dl := / 10 ^ 8 * INR (cells P) * M).
    assert (Hdl : 0 <= dl). { apply Rmult_le_pos; [apply Rmult_le_pos; [lra|apply pos_INR]|exact HM]. }
    assert (Hclose : within2 (cells P) groups dl (x n) (x (n - 1)%nat)).
    { apply (proj2 (below_settled2 _ _ _ _ _)) in Xe. unfold below in Xe. destruct (rel_change2 (cells P) groups (x n) (x (n - 1)%nat)) as [ch|] eqn:Hch; [|discriminate].
      destruct (Rlt_dec ch (/ 10 ^ 8)) as [Hsmall|]; [|discriminate].
      intros i g Hi Hg. destruct (rel_change2_entry _ _ _ _ _ i g Hch Hi Hg) as [_ Q].
      eapply Rle_trans; [exact Q|]. unfold dl. apply Rmult_le_compat.
      - apply Rmult_le_pos; [|apply pos_INR]. unfold rel_change2 in Hch. destruct (has_zero2 _ _ _); [discriminate|]. injection Hch as <-. apply sqrt_pos.
      - apply Rabs_pos.
      - apply Rmult_le_compat_r; [apply pos_INR|lra].
      - apply Hb; assumption. }
    assert (Hbound : exists e, 0 <= e /\ within2 (cells P) groups e (x n) sol).
    { exists (rsum (cells P) (fun i => rsum groups (fun g => Rabs (x n i g - sol i g)))). split.
      - apply rsum_nonneg; intros; apply rsum_nonneg; intros; apply Rabs_pos.
      - intros i g Hi Hg.
        eapply Rle_trans; [|apply (rsum_term_le (cells P) (fun i => rsum groups (fun g => Rabs (x n i g - sol i g))) i);
          [intros; apply rsum_nonneg; intros; apply Rabs_pos|exact Hi]].
        apply (rsum_term_le groups (fun g => Rabs (x n i g - sol i g)) g); [intros; apply Rabs_pos|exact Hg]. }
    destruct Hbound as (e & He & Hen).
    assert (Hstep2 : forall e, 0 <= e -> within2 (cells P) groups e (x n) sol -> within2 (cells P) groups (rho * (e + dl)) (x n) sol).
    { intros e' He' Hn'. assert (Q : within2 (cells P) groups (rho * (e' + dl)) (x (S (n - 1))) sol); [|replace (S (n - 1)) with n in Q by lia; exact Q].
      apply HT; [lia|lra|].
      intros i g Hi Hg. replace (x (n - 1)%nat i g - sol i g) with ((x n i g - sol i g) - (x n i g - x (n - 1)%nat i g)) by ring.
      eapply Rle_trans; [apply Rabs_triang|]. rewrite Rabs_Ropp. apply Rplus_le_compat; [apply Hn'|apply Hclose]; assumption. }
    set (L := rho * dl / (1 - rho)).
    assert (HL : 0 <= L). { unfold L. apply Rmult_le_pos; [apply Rmult_le_pos; lra|left; apply Rinv_0_lt_compat; lra]. }
    assert (Gk : forall k, within2 (cells P) groups (L + rho ^ k * e) (x n) sol).
    { induction k as [|k IH].
      - intros i g Hi Hg. eapply Rle_trans; [apply Hen; assumption|]. cbn [pow]. lra.
      - assert (Hp : 0 <= rho ^ k) by (apply pow_le; lra).
        intros i g Hi Hg. eapply Rle_trans; [apply (Hstep2 (L + rho ^ k * e)); [apply Rplus_le_le_0_compat; [exact HL|apply Rmult_le_pos; assumption]|exact IH|exact Hi|exact Hg]|].
        right. unfold L. cbn [pow]. field. lra. }
    intros i g Hi Hg. destruct (Rle_or_lt (Rabs (x n i g - sol i g)) L) as [Hle|Hgt]; [exact Hle|exfalso].
    set (gap := Rabs (x n i g - sol i g) - L).
    assert (Hgap : 0 < gap) by (unfold gap; lra).
    destruct (pow_lt_1_zero rho ltac:(rewrite Rabs_right; lra) (gap / (e + 1)) ltac:(apply Rdiv_lt_0_compat; lra)) as [N HN].
    specialize (HN N ltac:(lia)). specialize (Gk N i g Hi Hg).
    rewrite Rabs_right in HN by (apply Rle_ge, pow_le; lra).
    apply (Rmult_lt_compat_r (e + 1)) in HN; [|lra]. replace (gap / (e + 1) * (e + 1)) with gap in HN by (field; lra).
    assert (0 <= rho ^ N) by (apply pow_le; lra). unfold gap in *. nra.
Qed.
End Converge.

(** two symmetric ordinates and a small optical radius *)
Lemma two_keeps_sign P sigt a : angles P = 2%nat -> mu P 0%nat = - a -> mu P 1%nat = a -> 0 < a <= 14 / 15 -> wt P 0%nat = / 2 -> wt P 1%nat = / 2 ->
  (forall i, (i < cells P)%nat -> 0 < dx P i /\ 0 <= sigt i) -> rsum (cells P) (fun i => sigt i * dx P i) <= 2 / 3 * a -> keeps_sign P sigt.
Proof.
  intros HA M0 M1 Ha W0 W1 Hd Hr q e start psi hm hp phi T Hq He i Hi. rewrite HA in T.
  refine (two_nonneg (cells P) a (mu P) (wt P) (dx P) _ _ _ _ _ start psi hm hp phi Ha (conj M0 M1) (conj W0 W1) (fun i Hi => proj1 (Hd i Hi)) (fun i Hi => proj2 (Hd i Hi)) Hr _ _ _ T i Hi).
  - intros m j _ Hj. apply Hq. exact Hj.
  - reflexivity.
  - split; [reflexivity|exact He].
Qed.
Lemma two_sound P a : angles P = 2%nat -> mu P 0%nat = - a -> mu P 1%nat = a -> 0 < a < 1 -> wt P 0%nat = / 2 -> wt P 1%nat = / 2 ->
  (forall i, (i < cells P)%nat -> 0 < dx P i) -> sound_sphere P.
Proof.
  intros HA M0 M1 Ha W0 W1 Hd. unfold sound_sphere. rewrite HA. split; [|split; [|split; [|split; [|split]]]].
  - intros m Hm. destruct m as [|[|m]]; [| |lia]; lra.
  - intros m k Hm Hk. destruct m as [|[|m]]; [| |lia]; destruct k as [|[|k]]; try lia; lra.
  - intros m Hm. destruct m as [|[|m]]; [| |lia]; lra.
  - cbn [rsum]. rewrite M0, M1, W0, W1. lra.
  - exact Hd.
  - intros m Hm. destruct m as [|[|m]]; [| |lia]; unfold tau_coef; cbn [rsum]; rewrite ?M0, ?M1, ?W0, ?W1; lra.
Qed.

(** one cell, any quadrature, any optical size *)
Lemma ball_sigma n angles mu wt dx s1 s2 q q0 bnd bnd0 start psi hm hp phi : (forall i, (i < n)%nat -> s1 i = s2 i) ->
  sphere_transport n angles mu wt dx s1 q q0 bnd bnd0 start psi hm hp phi -> sphere_transport n angles mu wt dx s2 q q0 bnd bnd0 start psi hm hp phi.
Proof.
  intros Hs (B & E & H & O & I & W & Z & F). split; [|split; [exact E|split; [exact H|split; [|split; [exact I|split; [exact W|split; [exact Z|exact F]]]]]]].
  - intros i Hi. specialize (B i Hi). rewrite <- (Hs i Hi). exact B.
  - intros m Hm i Hi. specialize (O m Hm i Hi). cbv zeta in O |- *. rewrite <- (Hs i Hi). exact O.
Qed.
Lemma one_cell_keeps_sign P sigt : cells P = 1%nat -> sound_sphere P -> 0 <= sigt 0%nat -> keeps_sign P sigt.
Proof.
  intros HP Hsp Hs q e start psi hm hp phi T Hq He i Hi.
  assert (Ei : i = 0%nat) by lia. subst i.
  set (X := fun _ _ : nat => sigt 0%nat). set (Sc := fun _ _ _ : nat => 0). set (ext := mkArr3 1 1 (fun i _ _ => q i)). set (bnd := mkArr3 1 1 (fun _ _ _ => e)).
  destruct (ball_total P 1 (fun _ _ => 1) X Sc ext bnd None (proj1 Hsp)) as [flux E].
  assert (HX : forall i g, (i < cells P)%nat -> (g < 1)%nat -> 0 <= X (medium P i) g) by (intros; exact Hs).
  assert (Hn : 0 <= flux 0%nat 0%nat).
  { apply (one_cell_nonneg P 1 (fun _ _ => 1) X Sc ext bnd None flux HP Hsp); [|intros; split; [exact Hs|lra]|intros; unfold Sc; lra|exact E|lia].
    split; [intros; cbn [ext at3]; apply Hq; lia|intros; exact He]. }
  destruct (ball_run P 1 (fun _ _ => 1) X Sc ext bnd None flux Hsp HX E) as (n & x & Hn' & X0 & Xf & _ & _ & Xs).
  destruct (Xs (n - 1)%nat 0%nat ltac:(lia) ltac:(lia)) as (p & y & Hp & Y0 & Y1 & _ & Ys).
  specialize (Ys (p - 1)%nat ltac:(lia)). replace (S (p - 1)) with p in Ys by lia. rewrite <- Y1 in Ys. replace (S (n - 1)) with n in Ys by lia. rewrite <- Xf in Ys.
  assert (G : ball_group P 1 X Sc ext bnd 0%nat (sweep_sees flux (x (n - 1)%nat) (y (p - 1)%nat) 0%nat) phi).
  { exists start, psi, hm, hp. apply (ball_sigma _ _ _ _ _ sigt); [intros j Hj; replace j with 0%nat by lia; reflexivity|].
    eapply ball_ext; [| |reflexivity|exact T]; intros; unfold mg_source; cbn [rsum ext at3 Sc]; unfold Sc; ring. }
  rewrite (ball_group_unique P 1 X Sc ext bnd 0%nat _ _ _ _ Hsp (fun i Hi => HX i 0%nat Hi ltac:(lia)) (fun i h _ _ => eq_refl) G Ys 0%nat Hi). exact Hn.
Qed.

(** more source, more flux *)
Lemma ball_monotone P groups xs_total xs_scatter e1 e2 b1 b2 dq db c s1 s2 :
  sound_sphere P -> (forall g, (g < groups)%nat -> keeps_sign P (fun i => xs_total (medium P i) g)) ->
  0 <= c -> rsum (angles P) (wt P) * c < 1 -> mg_ratio P groups xs_total xs_scatter c ->
  (forall i g h, (i < cells P)%nat -> (g < groups)%nat -> (h < groups)%nat -> 0 <= xs_scatter (medium P i) g h) ->
  (forall i m g, (i < cells P)%nat -> (g < groups)%nat ->
     0 <= dq i g /\ at3 e2 i (bidx (d3b e2) m) (bidx (d3c e2) g) = at3 e1 i (bidx (d3b e1) m) (bidx (d3c e1) g) + dq i g) ->
  (forall m g, (g < groups)%nat ->
     0 <= db g /\ at3 b2 1%nat (bidx (d3b b2) m) (bidx (d3c b2) g) = at3 b1 1%nat (bidx (d3b b1) m) (bidx (d3c b1) g) + db g) ->
  ball_solution P groups xs_total xs_scatter e1 b1 s1 -> ball_solution P groups xs_total xs_scatter e2 b2 s2 ->
  forall i g, (i < cells P)%nat -> (g < groups)%nat -> s1 i g <= s2 i g.
Proof.
  intros Hsp Hk Hc Hrho Hrat Hsc Hq Hb S1 S2.
  set (W := rsum (angles P) (wt P)) in *.
  assert (HW : 0 <= W) by (apply rsum_nonneg; intros m Hm; left; apply Hsp; exact Hm).
  set (rho := W * c) in *. assert (R0 : 0 <= rho) by (apply Rmult_le_pos; assumption).
  assert (Z : forall n : nat, bidx n 0 = 0%nat) by (intros [|[|n]]; reflexivity).
  assert (St : forall d, 0 <= d -> (forall i g, (i < cells P)%nat -> (g < groups)%nat -> s1 i g - d <= s2 i g) ->
    forall i g, (i < cells P)%nat -> (g < groups)%nat -> s1 i g - rho * d <= s2 i g).
  { intros d Hd H i g Hi Hg. destruct (S1 g Hg) as (x1 & y1 & z1 & w1 & T1). destruct (S2 g Hg) as (x2 & y2 & z2 & w2 & T2).
    pose proof (ball_shift2 P _ _ _ _ _ _ _ _ _ (c * d) _ _ _ _ _ _ _ _ _ _ Hsp T2 T1) as U. fold W in U.
    assert (Q : 0 <= W * (c * d) + (s2 i g - s1 i g)); [|unfold rho; rewrite Rmult_assoc; lra].
    assert (Hin : 0 <= c * d) by (apply Rmult_le_pos; assumption).
    assert (HQ : forall m j, (j < cells P)%nat ->
      mg_source (medium P) groups xs_scatter e2 s2 g m j - mg_source (medium P) groups xs_scatter e1 s1 g m j
      = rsum groups (fun h => xs_scatter (medium P j) g h * (s2 j h - s1 j h)) + dq j g).
    { intros m j Hj. unfold mg_source. destruct (Hq j m g Hj Hg) as [_ ->].
      rewrite (rsum_ext groups (fun h => xs_scatter (medium P j) g h * (s2 j h - s1 j h)) (fun h => xs_scatter (medium P j) g h * s2 j h - xs_scatter (medium P j) g h * s1 j h)) by (intros; ring).
      rewrite rsum_minus. ring. }
    refine (Hk g Hg (fun j => xs_total (medium P j) g * (c * d) + (rsum groups (fun h => xs_scatter (medium P j) g h * (s2 j h - s1 j h)) + dq j g)) (c * d + db g) _ _ _ _
      (fun i => W * (c * d) + (s2 i g - s1 i g)) _ _ _ i Hi).
    - assert (B0 : c * d + (at3 b2 1%nat 0%nat (bidx (d3c b2) g) - at3 b1 1%nat 0%nat (bidx (d3c b1) g)) = c * d + db g).
      { destruct (Hb 0%nat g Hg) as [_ B]. rewrite !Z in B. rewrite B. ring. }
      rewrite B0 in U.
      replace (fun m : nat => c * d + (at3 b2 1%nat (bidx (d3b b2) m) (bidx (d3c b2) g) - at3 b1 1%nat (bidx (d3b b1) m) (bidx (d3c b1) g))) with (fun _ : nat => c * d + db g) in U
        by (apply functional_extensionality; intros m; destruct (Hb m g Hg) as [_ ->]; ring).
      refine (ball_ext _ _ _ _ _ _ _ _ _ _ _ _ _ _ _ _ _ _ _ _ _ U).
      + intros m j _ Hj. cbv beta. rewrite HQ by exact Hj. reflexivity.
      + intros j Hj. cbv beta. rewrite HQ by exact Hj. reflexivity.
      + reflexivity.
    - intros j Hj. cbv beta. destruct (Hq j 0%nat g Hj Hg) as [Hdq _].
      assert (L : - (c * xs_total (medium P j) g * d) <= rsum groups (fun h => xs_scatter (medium P j) g h * (s2 j h - s1 j h))); [|nra].
      apply Rle_trans with (- (rsum groups (fun h => Rabs (xs_scatter (medium P j) g h)) * d)).
      + apply Ropp_le_contravar. apply Rmult_le_compat_r; [exact Hd|]. apply Hrat; assumption.
      + rewrite <- rsum_scal_r. apply Ropp_le_cancel. rewrite Ropp_involutive. replace (- rsum groups (fun h => xs_scatter (medium P j) g h * (s2 j h - s1 j h))) with (rsum groups (fun h => - (xs_scatter (medium P j) g h * (s2 j h - s1 j h)))).
        * apply rsum_le. intros h Hh. specialize (H j h Hj Hh). specialize (Hsc j g h Hj Hg Hh). rewrite Rabs_right by lra. nra.
        * replace (- rsum groups (fun h => xs_scatter (medium P j) g h * (s2 j h - s1 j h))) with ((-1) * rsum groups (fun h => xs_scatter (medium P j) g h * (s2 j h - s1 j h))) by ring.
          rewrite <- rsum_scal. apply rsum_ext. intros; ring.
    - destruct (Hb 0%nat g Hg) as [B _]. lra. }
  set (e := rsum (cells P) (fun i => rsum groups (fun g => Rabs (s2 i g - s1 i g)))).
  assert (He : 0 <= e) by (apply rsum_nonneg; intros; apply rsum_nonneg; intros; apply Rabs_pos).
  assert (Gk : forall k i g, (i < cells P)%nat -> (g < groups)%nat -> s1 i g - rho ^ k * e <= s2 i g).
  { induction k as [|k IH]; intros i g Hi Hg.
    - cbn [pow]. rewrite Rmult_1_l.
      assert (A : Rabs (s2 i g - s1 i g) <= e).
      { unfold e. eapply Rle_trans; [|apply (rsum_term_le (cells P) (fun i => rsum groups (fun g => Rabs (s2 i g - s1 i g))) i);
          [intros; apply rsum_nonneg; intros; apply Rabs_pos|exact Hi]].
        apply (rsum_term_le groups (fun g => Rabs (s2 i g - s1 i g)) g); [intros; apply Rabs_pos|exact Hg]. }
      pose proof (Rle_abs (- (s2 i g - s1 i g))) as N. rewrite Rabs_Ropp in N. lra.
    - cbn [pow]. rewrite Rmult_assoc. apply St; [apply Rmult_le_pos; [apply pow_le; exact R0|exact He]|exact IH|exact Hi|exact Hg]. }
  intros i g Hi Hg. destruct (Rle_or_lt (s1 i g) (s2 i g)) as [L|L]; [exact L|exfalso].
  destruct (pow_lt_1_zero rho ltac:(rewrite Rabs_right; lra) ((s1 i g - s2 i g) / (e + 1)) ltac:(apply Rdiv_lt_0_compat; lra)) as [N HN].
  specialize (HN N ltac:(lia)). specialize (Gk N i g Hi Hg).
  rewrite Rabs_right in HN by (apply Rle_ge, pow_le; lra).
  apply (Rmult_lt_compat_r (e + 1)) in HN; [|lra]. replace ((s1 i g - s2 i g) / (e + 1) * (e + 1)) with (s1 i g - s2 i g) in HN by (field; lra).
  assert (0 <= rho ^ N) by (apply pow_le; lra). nra.
Qed.
