(** Multigroup spherical sweeps: what one outer iteration computes, totality, one-cell positivity, and the lit ball. *)
From Coq Require Import Lra Lia Psatz FunctionalExtensionality.
From Verif Require Import Base BaseFacts SlabModel SlabSpec SlabFacts SlabFacts3 SphereModel SphereSpec SphereFacts SphereFacts2 MgModel MgSpec MgFacts MgFacts2 MgFacts6 ShellSpec ShellFacts.
Open Scope R_scope.

Definition sphere_group (P : sn) (groups : nat) (xs_total : mat2) (xs_scatter : mat3) (external boundary : arr3) (old new : mat2) (gg : nat) : outcome vec :=
  sphere_isotropic_sn P (fun i => old i gg) (fun m => xs_total m gg) (fun m => xs_scatter m gg gg)
    (gs_off (cells P) groups new old (medium P) xs_scatter gg)
    (slice3 external (bidx (d3c external) gg)) (slice3 boundary (bidx (d3c boundary) gg)) 0.

Lemma ball_sweep_eq P groups xs_total xs_scatter external boundary old :
  one_sweep_iso P groups xs_total xs_scatter external boundary 2 old =
  for_up_err groups (fun gg flux =>
    bind (sphere_group P groups xs_total xs_scatter external boundary old flux gg)
      (fun c => Ok (set_col flux gg c))) zeros2.
Proof.
  unfold one_sweep_iso. apply for_up_err_ext. intros gg fl Hg. cbv zeta. cbn [Nat.eqb].
  rewrite off_scatter_eq by assumption. reflexivity.
Qed.
Lemma ball_sweep_groups P groups xs_total xs_scatter external boundary old new :
  one_sweep_iso P groups xs_total xs_scatter external boundary 2 old = Ok new ->
  (forall gg, (gg < groups)%nat ->
     sphere_group P groups xs_total xs_scatter external boundary old new gg = Ok (fun i => new i gg)) /\
  (forall i g, (groups <= g)%nat -> new i g = 0).
Proof.
  rewrite ball_sweep_eq. apply gs_loop.
  intros g f1 f2 Hg Hf. unfold sphere_group. f_equal. apply gs_off_ext; auto.
Qed.
Lemma ball_sweep_total P groups xs_total xs_scatter external boundary old : nonzero_ordinates (angles P) (mu P) ->
  exists new, one_sweep_iso P groups xs_total xs_scatter external boundary 2 old = Ok new.
Proof.
  intros Hm. rewrite ball_sweep_eq. apply for_up_err_ok. intros k t Hk. unfold sphere_group.
  destruct (sphere_driver_total P (fun i => old i k) (fun m => xs_total m k) (fun m => xs_scatter m k k)
    (gs_off (cells P) groups t old (medium P) xs_scatter k) (slice3 external (bidx (d3c external) k))
    (slice3 boundary (bidx (d3c boundary) k)) Hm) as [c Ec].
  rewrite Ec. cbn [bind]. eauto.
Qed.
Lemma ball_total P groups old xs_total xs_scatter external boundary given : nonzero_ordinates (angles P) (mu P) ->
  exists flux, source_iteration P groups old xs_total (Scatter3 xs_scatter) external boundary 2 given = Ok flux.
Proof.
  intros Hn. cbn [source_iteration]. apply iterate_total; [|unfold count_gg; lia].
  intros x. apply ball_sweep_total. exact Hn.
Qed.

(** ** one cell *)
Lemma one_cell_pass P xs_total xs_scatter off external boundary old flux :
  cells P = 1%nat -> sound_sphere P -> 0 <= xs_total (medium P 0%nat) -> 0 <= xs_scatter (medium P 0%nat) -> 0 <= off 0%nat -> 0 <= old 0%nat ->
  (forall m, 0 <= at2 external 0%nat m) -> (forall m, 0 <= at2 boundary 1%nat m) ->
  sphere_iso_pass P xs_total xs_scatter off external boundary 0 old = Ok flux -> 0 <= flux 0%nat.
Proof.
  intros Hc (Hnz & Hin & Hw & Hsum & Hdx & Htau) Ht Hsc Ho Hold He Hb E.
  assert (Hdx0 : 0 < dx P 0%nat) by (apply Hdx; lia).
  assert (D : sphere_divisors P xs_total).
  { apply sphere_divisors_positive; try assumption. intros i Hi. replace i with 0%nat by lia. split; assumption. }
  destruct (sphere_pass_transport P xs_total xs_scatter off external boundary 0 old flux Hnz D ltac:(lia)
    ltac:(intros i Hi; specialize (Hdx i Hi); lra) E) as (start & psi & hm & hp & B0 & S1 & H0 & B & In & _ & Core & Phi).
  rewrite Hc in *. rewrite (Phi 0%nat ltac:(lia)). destruct D as (_ & _ & D). rewrite Hc in D.
  set (s := xs_total (medium P 0%nat)) in *. set (dd := dx P 0%nat) in *.
  (* the starting direction *)
  set (q := xs_scatter (medium P 0%nat) * old 0%nat + at2 external 0%nat 0%nat + off 0%nat).
  assert (Hq : 0 <= q) by (unfold q; specialize (He 0%nat); assert (0 <= xs_scatter (medium P 0%nat) * old 0%nat) by (apply Rmult_le_pos; assumption); lra).
  assert (Hh : 0 <= hm 0%nat 0%nat).
  { specialize (B0 0%nat ltac:(lia)). cbv beta in B0. fold q s dd in B0. specialize (H0 0%nat ltac:(lia)). rewrite S1 in B0, H0. specialize (Hb 0%nat).
    assert (X : hm 0%nat 0%nat * (2 + s * dd) = dd * q + 2 * at2 boundary 1%nat 0%nat).
    { apply (Rmult_eq_reg_r (/ dd)); [|apply Rinv_neq_0_compat; lra].
      transitivity (-1 / dd * (at2 boundary 1%nat 0%nat - start 0%nat) + s * ((start 0%nat + at2 boundary 1%nat 0%nat) / 2) + 2 * at2 boundary 1%nat 0%nat / dd).
      - rewrite H0. field. lra.
      - rewrite B0. field. lra. }
    assert (0 <= dd * q) by (apply Rmult_le_pos; lra). assert (0 <= s * dd) by (apply Rmult_le_pos; lra). nra. }
  assert (Hall : forall m, (m <= angles P)%nat -> hm m 0%nat = hm 0%nat 0%nat).
  { induction m as [|m IH]; intros Hm; [reflexivity|]. rewrite Core by lia. apply IH. lia. }
  set (h := hm 0%nat 0%nat) in *.
  apply rsum_nonneg. intros m Hm. apply Rmult_le_pos; [specialize (Hw m Hm); lra|].
  destruct (B m Hm 0%nat ltac:(lia)) as [E1 E2]. cbv zeta in E1, E2. specialize (D m 0%nat Hm ltac:(lia)). cbv zeta in D. destruct (In m Hm) as [In1 In2].
  rewrite (Hall m) in E1, E2 by lia. rewrite Hall in In1 by lia.
  assert (A0 : sphere_area (code_rin (dx P) 0%nat) = 0) by (unfold sphere_area, code_rin; cbn [INR]; ring). rewrite A0 in E2, D.
  destruct (shell_positive 1 0 (dx P) ltac:(lia) Hdx0) as (A2p & _ & _ & Vp).
  set (A := sphere_area (code_rout (dx P) 0%nat)) in *. set (V := ball_volume (code_rout (dx P) 0%nat) - ball_volume (code_rin (dx P) 0%nat)) in *.
  destruct (alpha_nonneg (angles P) (mu P) (wt P) m Hnz Hin Hw Hsum ltac:(lia)) as [Am _].
  destruct (alpha_nonneg (angles P) (mu P) (wt P) (S m) Hnz Hin Hw Hsum ltac:(lia)) as [Ap _].
  set (am := alpha_coef (angles P) (mu P) (wt P) m) in *. set (ap := alpha_coef (angles P) (mu P) (wt P) (S m)) in *.
  set (qm := iso_source (medium P) xs_scatter off external old m 0%nat) in *.
  assert (Hqm : 0 <= qm).
  { unfold qm, iso_source. specialize (He (bidx (cols2 external) m)). assert (0 <= xs_scatter (medium P 0%nat) * old 0%nat) by (apply Rmult_le_pos; assumption). lra. }
  set (c := (psi m 0%nat + psi m 1%nat) / 2) in *. fold s in E2, D.
  assert (Ehp : hp m 0%nat = 2 * c - h) by lra. rewrite Ehp in E2.
  specialize (Hw m Hm). assert (Iw : 0 < / wt P m) by (apply Rinv_0_lt_compat; exact Hw).
  clearbody A V am ap qm.
  assert (K1 : 0 <= A / wt P m * (ap + am) * h) by (unfold Rdiv; repeat apply Rmult_le_pos; lra).
  assert (K2 : 0 <= V * qm) by (apply Rmult_le_pos; lra). assert (K3 : 0 <= s * V) by (apply Rmult_le_pos; lra).
  assert (K4 : 0 <= 2 / wt P m * (A - 0) * ap) by (unfold Rdiv; repeat apply Rmult_le_pos; lra).
  destruct (Rlt_dec 0 (mu P m)) as [Hp|Hp].
  - specialize (In1 Hp). assert (Ep : psi m 1%nat = 2 * c - h) by (unfold c; rewrite In1; field). rewrite Ep in E2.
    assert (X : c * (2 * mu P m * A + 2 / wt P m * (A - 0) * ap + s * V) = mu P m * A * h + A / wt P m * (ap + am) * h + V * qm).
    { rewrite <- E2. unfold Rdiv. ring. }
    assert (0 < 2 * mu P m * A) by (repeat apply Rmult_lt_0_compat; lra). assert (0 <= mu P m * A * h) by (repeat apply Rmult_le_pos; lra).
    destruct (Rle_dec 0 c) as [|N]; [assumption|]. exfalso.
    assert (0 < - c * (2 * mu P m * A + 2 / wt P m * (A - 0) * ap + s * V)) by (apply Rmult_lt_0_compat; lra). lra.
  - assert (Hn : mu P m < 0) by (specialize (Hnz m Hm); lra). specialize (In2 Hn). rewrite In2 in E2.
    specialize (Hb (bidx (cols2 boundary) m)). set (b := at2 boundary 1%nat (bidx (cols2 boundary) m)) in *.
    assert (X : c * (2 / wt P m * (A - 0) * ap + s * V) = - mu P m * A * b + A / wt P m * (ap + am) * h + V * qm).
    { rewrite <- E2. unfold Rdiv. ring. }
    assert (0 <= - mu P m * A * b) by (repeat apply Rmult_le_pos; lra).
    rewrite Rmult_0_r in D. 
    destruct (Rle_dec 0 c) as [|N]; [assumption|]. exfalso.
    assert (0 < 2 / wt P m * (A - 0) * ap + s * V) by (apply Rnot_le_lt; intros Z; apply D; lra).
    assert (0 < - c * (2 / wt P m * (A - 0) * ap + s * V)) by (apply Rmult_lt_0_compat; lra). lra.
Qed.

Lemma one_cell_nonneg P groups old xs_total xs_scatter external boundary given flux :
  cells P = 1%nat -> sound_sphere P -> nonneg_data P groups external boundary ->
  (forall g, (g < groups)%nat -> 0 <= xs_total (medium P 0%nat) g /\ 0 <= old 0%nat g) ->
  (forall g h, (g < groups)%nat -> (h < groups)%nat -> 0 <= xs_scatter (medium P 0%nat) g h) ->
  source_iteration P groups old xs_total (Scatter3 xs_scatter) external boundary 2 given = Ok flux ->
  forall g, (g < groups)%nat -> 0 <= flux 0%nat g.
Proof.
  intros Hc Hsp (He & Hb) Ht Hsc E. cbn [source_iteration] in E.
  assert (Hcap : (1 <= count_gg)%nat) by (unfold count_gg; lia).
  destruct (outer_trace _ _ _ _ _ _ _ Hcap E) as (n & x & Hn & X0 & -> & Hstep & _).
  assert (K : forall k, (k <= n)%nat -> forall g, (g < groups)%nat -> 0 <= x k 0%nat g).
  { induction k as [|k IH]; intros Hk; [intros g Hg; rewrite X0; apply Ht; exact Hg|].
    destruct (ball_sweep_groups _ _ _ _ _ _ _ _ (Hstep k ltac:(lia))) as [Hg _].
    intros g. induction g as [g IHg] using (well_founded_induction lt_wf). intros Hgg.
    specialize (Hg g Hgg). unfold sphere_group in Hg.
    destruct (sphere_driver_trace _ _ _ _ _ _ _ _ _ Hg) as (p & y & Hp & Y0 & Y1 & Ys & _).
    assert (Q : forall j, (j <= p)%nat -> 0 <= y j 0%nat).
    { induction j as [|j IHj]; intros Hj; [rewrite Y0; apply IH; lia|].
      refine (one_cell_pass P _ _ _ _ _ (y j) (y (S j)) Hc Hsp _ _ _ _ _ _ (Ys j ltac:(lia))).
      - apply Ht; exact Hgg.
      - apply Hsc; exact Hgg.
      - unfold gs_off. rewrite (proj2 (Nat.ltb_lt 0 (cells P))) by lia. apply rsum_nonneg. intros h Hh. destruct (Nat.eqb_spec h g); [lra|].
        apply Rmult_le_pos; [apply Hsc; assumption|]. destruct (Nat.ltb_spec h g); [apply IHg; assumption|apply IH; [lia|assumption]].
      - apply IHj. lia.
      - intros m. cbn [slice3 at2]. apply He; [lia|]. unfold bidx. destruct (Nat.eqb_spec (d3c external) 1); lia.
      - intros m. cbn [slice3 at2]. apply Hb. unfold bidx. destruct (Nat.eqb_spec (d3c boundary) 1); lia. }
    change (x (S k) 0%nat g) with ((fun i => x (S k) i g) 0%nat). rewrite Y1. apply Q. lia. }
  apply K. lia.
Qed.

(** ** the lit ball *)
Definition lit_ball (n : nat) (d : R) : sn := mkSn n (fun _ => 0%nat) (fun _ => d) 4 four_mu four_wt 0 0.
Definition lit_ext : arr3 := mkArr3 1 1 (fun _ _ _ => 0).
Definition lit_bnd : arr3 := mkArr3 4 1 (fun s m _ => if Nat.eqb s 1 then lamp m else 0).

Lemma lit_sound n d : 0 < d -> sound_sphere (lit_ball n d).
Proof.
  intros Hd. unfold sound_sphere, lit_ball. cbn [angles mu wt cells dx]. split; [|split; [|split; [|split; [|split]]]].
  - intros m Hm. destruct m as [|[|[|[|m]]]]; cbn [four_mu]; lra || lia.
  - intros m k Hm Hk. destruct m as [|[|[|[|m]]]], k as [|[|[|[|k]]]]; cbn [four_mu]; lra || lia || (intros; lra) || (intros; lia).
  - intros; unfold four_wt; lra.
  - cbn [rsum four_mu]. unfold four_wt. lra.
  - intros; exact Hd.
  - intros m Hm. rewrite four_tau by exact Hm. lra.
Qed.
Lemma lit_data n d : nonneg_data (lit_ball n d) 1 lit_ext lit_bnd.
Proof.
  split; [intros; cbn; lra|]. intros s m g _. cbn [lit_bnd at3]. destruct (Nat.eqb s 1); [|lra]. unfold lamp. destruct (Nat.eqb m 1); lra.
Qed.

Lemma lit_ball_signs n d sg old given flux : (2 <= n)%nat -> 0 < d -> 0 <= sg -> sg * d <= 1 / 30 ->
  source_iteration (lit_ball n d) 1 old (fun _ _ => sg) (Scatter3 (fun _ _ _ => 0)) lit_ext lit_bnd 2 given = Ok flux ->
  flux 0%nat 0%nat * flux 1%nat 0%nat < 0.
Proof.
  intros Hn Hd Hs Ht E. cbn [source_iteration] in E.
  assert (Hsd : 0 <= sg * d <= 1 / 30) by (split; [apply Rmult_le_pos; lra|exact Ht]).
  assert (Hcap : (1 <= count_gg)%nat) by (unfold count_gg; lia).
  destruct (outer_trace _ _ _ _ _ _ _ Hcap E) as (p & x & Hp & _ & -> & Hstep & _).
  destruct (ball_sweep_groups _ _ _ _ _ _ _ _ (Hstep (p - 1)%nat ltac:(lia))) as [Hg _]. replace (S (p - 1)) with p in Hg by lia.
  specialize (Hg 0%nat ltac:(lia)). unfold sphere_group in Hg.
  destruct (sphere_driver_trace _ _ _ _ _ _ _ _ _ Hg) as (k & y & Hk & _ & Y1 & Ys & _).
  specialize (Ys (k - 1)%nat ltac:(lia)). replace (S (k - 1)) with k in Ys by lia. rewrite <- Y1 in Ys.
  destruct (lit_sound n d Hd) as (Hnz & Hin & Hw & Hsum & Hdx & Htau).
  destruct (sphere_pass_transport _ _ _ _ _ _ 0 _ _ Hnz (sphere_divisors_positive _ (fun _ => sg) Hnz Hin Hw Hsum (fun i Hi => conj (Hdx i Hi) Hs) Htau)
    ltac:(lia) ltac:(intros i Hi; specialize (Hdx i Hi); lra) Ys) as (start & psi & hm & hp & T).
  assert (Off : forall i, gs_off (cells (lit_ball n d)) 1 (x p) (x (p - 1)%nat) (medium (lit_ball n d)) (fun _ _ _ => 0) 0 i = 0).
  { intros i. unfold gs_off. destruct (Nat.ltb _ _); [|reflexivity]. cbn [rsum Nat.eqb]. lra. }
  apply (lit_signs n d sg start psi hm hp (fun i => x p i 0%nat) Hn Hd Hsd).
  match type of T with sphere_transport _ _ _ _ _ _ ?q ?q0 ?b ?b0 _ _ _ _ _ =>
    assert (Q : q = (fun _ _ => 0)); [|assert (Q0 : q0 = (fun _ => 0)); [|assert (B : b = lamp)]] end.
  - extensionality m. extensionality i. unfold iso_source. rewrite Off. cbn [slice3 at2 lit_ext at3]. lra.
  - extensionality i. rewrite Off. cbn [slice3 at2 lit_ext at3]. lra.
  - extensionality m. reflexivity.
  - rewrite Q, Q0, B in T. exact T.
Qed.

Lemma lit_ball_negative n d sg old given flux : (2 <= n)%nat -> 0 < d -> 0 <= sg -> sg * d <= 1 / 30 ->
  source_iteration (lit_ball n d) 1 old (fun _ _ => sg) (Scatter3 (fun _ _ _ => 0)) lit_ext lit_bnd 2 given = Ok flux ->
  exists i, (i < n)%nat /\ flux i 0%nat < 0.
Proof.
  intros Hn Hd Hs Ht E. pose proof (lit_ball_signs n d sg old given flux Hn Hd Hs Ht E) as K.
  destruct (Rlt_dec (flux 0%nat 0%nat) 0) as [L|L]; [exists 0%nat; split; [lia|exact L]|].
  exists 1%nat. split; [lia|]. apply Rnot_le_lt. intros G. assert (0 <= flux 0%nat 0%nat * flux 1%nat 0%nat) by (apply Rmult_le_pos; lra). lra.
Qed.
