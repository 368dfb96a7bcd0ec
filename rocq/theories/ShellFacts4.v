(** Spheres with Legendre scattering within groups: what every pass solves. *)
From Coq Require Import Lra Lia Psatz FunctionalExtensionality.
From Verif Require Import Base BaseFacts SlabModel SlabSpec SlabFacts SlabFacts3 SlabFacts5 SphereModel SphereSpec SphereFacts SphereFacts2 MgModel MgSpec MgFacts MgFacts2 MgFacts6 InfSpec InfFacts5 AniSpec AniFacts6 ShellSpec ShellFacts ShellFacts2 ShellFacts3.
Open Scope R_scope.

(** the loop of ordinates, whatever the emission *)
Lemma ordinates_transport P xs_total (q : mat2) (q0 : vec) (bnd : vec) (b0 : R) :
  nonzero_ordinates (angles P) (mu P) -> sphere_divisors P xs_total -> (forall i, (i < cells P)%nat -> dx P i <> 0) ->
  let h0 := fun i => if Nat.ltb i (cells P) then start_half (cells P) q0 (dx P) (fun i => xs_total (medium P i)) b0 i else 0 in
  sphere_transport (cells P) (angles P) (mu P) (wt P) (dx P) (fun i => xs_total (medium P i)) q q0 bnd b0
    (start_edge (cells P) q0 (dx P) (fun i => xs_total (medium P i)) b0) (Es P xs_total q bnd h0) (Hs P xs_total q bnd h0)
    (fun m i => 2 * Cs P xs_total q bnd h0 m i - Hs P xs_total q bnd h0 m i) (Fs P xs_total q bnd h0 (angles P)).
Proof.
  intros Hnz Hd Hdx h0. pose proof Hd as (Hd1 & Hd2 & _).
  assert (Hdia : forall m i, (i < cells P)%nat ->
    (Es P xs_total q bnd h0 m i + Es P xs_total q bnd h0 m (S i)) / 2 = Cs P xs_total q bnd h0 m i)
    by (intros m i Hi; apply kE_diamond; exact Hi).
  split; [|split; [apply start_top|split; [|split; [|split; [|split; [|split]]]]]].
  - apply start_balance. intros i Hi. split; [apply Hdx|apply Hd1]; exact Hi.
  - intros i Hi. cbn [Hs]. unfold h0. destruct (Nat.ltb_spec i (cells P)); [|lia]. rewrite start_step by exact Hi. lra.
  - intros m Hm i Hi. cbv zeta. rewrite Hdia by exact Hi. split; [lra|].
    rewrite <- area1_spec, <- area2_spec, <- volume_spec.
    destruct (Hd2 m Hm) as [Hw _].
    pose proof (kc_balance P xs_total (q m) (mu P m) (wt P m) (al P (S m)) (al P m) (bnd m)
      (Hs P xs_total q bnd h0 m) i Hi Hw (kd_spec P xs_total m i Hm Hi (Hnz m Hm) Hd)) as HB.
    cbv zeta in HB. fold (Cs P xs_total q bnd h0 m) in HB. fold (Es P xs_total q bnd h0 m) in HB. exact HB.
  - intros m Hm. pose proof (kE_inflow P xs_total (q m) (mu P m) (wt P m) (al P (S m)) (al P m)
      (bnd m) (Hs P xs_total q bnd h0 m)) as HI. unfold Es.
    destruct (Rlt_dec 0 (mu P m)); split; intros; try lra; exact HI.
  - intros m i Hm Hi. rewrite Hdia by lia. cbn [Hs]. fold (Cs P xs_total q bnd h0 m).
    unfold shalf. destruct (Nat.eqb_spec i 0); [lia|]. destruct (Nat.ltb_spec i (cells P)); [|lia].
    cbn [negb andb Nat.leb]. unfold ta. destruct (Hd2 m Hm) as [_ Ht]. field. exact Ht.
  - intros m Hm H0. cbn [Hs]. unfold shalf. reflexivity.
  - intros i Hi. unfold Fs. destruct (Nat.ltb_spec i (cells P)); [|lia].
    apply rsum_ext. intros m Hm. rewrite Hdia by exact Hi. reflexivity.
Qed.

Lemma aniso_ball_pass P xs_total nm xs0 xs_w off external boundary leg legw old flux mom :
  nonzero_ordinates (angles P) (mu P) -> sphere_divisors P xs_total -> (forall i, (i < cells P)%nat -> dx P i <> 0) ->
  sphere_aniso_pass P nm xs_total xs0 xs_w off external boundary 0 leg legw old = Ok (flux, mom) ->
  exists start psi hm hp,
    sphere_transport (cells P) (angles P) (mu P) (wt P) (dx P) (fun i => xs_total (medium P i))
      (fun m i => at2 external i (bidx (cols2 external) m) + off i + rsum nm (fun l => xs_w i l * snd old i l * leg l m))
      (fun i => at2 external i 0%nat + off i + xs0 i 0%nat * fst old i)
      (fun m => at2 boundary 1%nat (bidx (cols2 boundary) m)) (at2 boundary 1%nat 0%nat) start psi hm hp flux /\
    (forall i l, (i < cells P)%nat -> mom i l = rsum (angles P) (fun m => legw l m * ((psi m i + psi m (S i)) / 2))).
Proof.
  intros Hnz Hd Hdx E. pose proof (sphere_aniso_pass_ok P nm xs_total xs0 xs_w off external boundary leg legw old Hnz) as K. cbv zeta in K.
  rewrite K in E. injection E as <- <-. clear K. unfold sphere_aniso_h0. rewrite half_angle_aniso_eq.
  pose proof (ordinates_transport P xs_total (sphere_aniso_q nm xs_w leg off external (snd old)) (fun i => at2 external i 0%nat + off i + xs0 i 0%nat * fst old i)
    (sphere_bnd boundary) (at2 boundary 1%nat 0%nat) Hnz Hd Hdx) as T. cbv zeta in T.
  do 4 eexists. split; [exact T|].
  intros i l Hi. apply rsum_ext. intros m Hm. unfold pcell. destruct (Nat.ltb_spec i (cells P)); [|lia].
  rewrite Rmult_comm. f_equal. symmetry. unfold Es, Cs. apply kE_diamond. exact Hi.
Qed.

Lemma aniso_ball_last P nm flux_old xs_total xs0 xs_w off external boundary edges leg legw flux :
  sphere_anisotropic_sn P flux_old nm xs_total xs0 xs_w off external boundary edges leg legw = Ok flux ->
  exists n x,
    (1 <= n <= 100)%nat /\
    x 0%nat = (flux_old, fun i l => if Nat.eqb l 0 then flux_old i else 0) /\ flux = fst (x n) /\
    (forall k, (k < n)%nat ->
       sphere_aniso_pass P nm xs_total xs0 xs_w off external boundary edges leg legw (x k) = Ok (x (S k))) /\
    (forall k, (0 < k < n)%nat -> ~ settled (cells P) (fst (x k)) (fst (x (k - 1)%nat)) (/ 10 ^ 12)) /\
    ((n < 100)%nat -> settled (cells P) (fst (x n)) (fst (x (n - 1)%nat)) (/ 10 ^ 12)).
Proof.
  intros E. unfold sphere_anisotropic_sn in E.
  destruct (iterate _ _ _ _ _ _ _) as [r|e] eqn:EI; [|discriminate]. cbn [bind] in E. injection E as <-.
  apply iterate_spec in EI. destruct EI as (m & x & H1 & H2 & H0 & Hr & Hs & Hnc & Hend). change count_nn with 100%nat in *.
  exists m, x. split; [lia|]. split; [exact H0|]. split; [rewrite Hr; reflexivity|].
  split; [exact Hs|]. split; [intros k Hk; apply below_unsettled, (Hnc k Hk)|].
  intros Hlt. destruct Hend as [Hb|Hcap]; [|lia].
  apply below_settled, Hb.
Qed.

Lemma aniso_ball_driver_total P nm flux_old xs_total xs0 xs_w off external boundary leg legw : nonzero_ordinates (angles P) (mu P) ->
  exists flux, sphere_anisotropic_sn P flux_old nm xs_total xs0 xs_w off external boundary 0 leg legw = Ok flux.
Proof.
  intros Hnz. unfold sphere_anisotropic_sn.
  destruct (always_returns (sphere_aniso_pass P nm xs_total xs0 xs_w off external boundary 0 leg legw) (fun new old => rel_change (cells P) (fst new) (fst old)) change_nn count_nn)
    with (fuel := count_nn) (count := 1%nat) (old := (flux_old, fun x l : nat => if Nat.eqb l 0 then flux_old x else 0)) as (r & E).
  - intros x. pose proof (sphere_aniso_pass_ok P nm xs_total xs0 xs_w off external boundary leg legw x Hnz) as K. cbv zeta in K. rewrite K. eauto.
  - unfold count_nn. lia.
  - rewrite E. cbn [bind]. eauto.
Qed.

Definition aniso_ball_group (P : sn) (groups nm : nat) (xs_total : mat2) (xs : mat4) (external boundary : arr3) (leg legw old flux : mat2) (gg : nat) : outcome vec :=
  sphere_anisotropic_sn P (fun i => old i gg) nm (fun m => xs_total m gg) (fun x l => xs (medium P x) gg gg l) (fun x l => xs (medium P x) gg gg l * (2 * INR l + 1))
    (gs_off (cells P) groups flux old (medium P) (fun m o i => xs m o i 0%nat) gg) (slice3 external (bidx (d3c external) gg)) (slice3 boundary (bidx (d3c boundary) gg)) 0 leg legw.

Lemma aniso_ball_groups P groups nm xs_total xs external boundary leg legw old new :
  one_sweep_aniso P groups nm xs_total xs external boundary 2 leg legw old = Ok new ->
  (forall gg, (gg < groups)%nat -> aniso_ball_group P groups nm xs_total xs external boundary leg legw old new gg = Ok (fun i => new i gg)) /\
  (forall i g, (groups <= g)%nat -> new i g = 0).
Proof.
  intros E. unfold one_sweep_aniso in E.
  rewrite (for_up_err_ext groups _ (fun g fl => bind (aniso_ball_group P groups nm xs_total xs external boundary leg legw old fl g) (fun c => Ok (set_col fl g c)))) in E.
  - revert E. apply gs_loop. intros g f1 f2 Hg Hf. unfold aniso_ball_group. f_equal. apply gs_off_ext; auto.
  - intros gg fl Hg. cbn [Nat.eqb]. rewrite off_scatter_eq by assumption. reflexivity.
Qed.

Lemma aniso_ball_total P groups nm old xs_total xs external boundary given : (0 < nm)%nat -> nonzero_ordinates (angles P) (mu P) ->
  exists flux, source_iteration P groups old xs_total (Scatter4 nm xs) external boundary 2 given = Ok flux.
Proof.
  intros Hn Hnz.
  assert (G : forall leg legw, exists flux, source_iteration_aniso P groups nm old xs_total xs external boundary 2 leg legw = Ok flux).
  { intros leg legw. apply always_returns; [|unfold count_gg; lia]. intros x. unfold one_sweep_aniso. apply for_up_err_ok. intros k t Hk. cbn [Nat.eqb].
    match goal with |- exists t', bind ?s _ = _ => destruct (fun H => H : exists c, s = Ok c) as (cc & ->); [apply aniso_ball_driver_total; exact Hnz|] end.
    cbn [bind]. eauto. }
  cbn [source_iteration]. destruct given as [[leg legw]|]; [apply G|].
  destruct (legendre_rows nm (mu P) Hn) as (leg & -> & _). cbn [bind]. apply G.
Qed.

(** ** a run *)
Lemma aniso_ball_run P groups nm old xs_total xs external boundary given flux :
  sound_sphere P -> (0 < nm)%nat -> usable_tables P nm given ->
  (forall i g, (i < cells P)%nat -> (g < groups)%nat -> 0 <= xs_total (medium P i) g) ->
  source_iteration P groups old xs_total (Scatter4 nm xs) external boundary 2 given = Ok flux ->
  exists n x, (1 <= n <= 100)%nat /\ x 0%nat = old /\ flux = x n /\
    ((n < 100)%nat -> settled2 (cells P) groups (x n) (x (n - 1)%nat) (/ 10 ^ 8)) /\
    (forall k, (0 < k < n)%nat -> ~ settled2 (cells P) groups (x k) (x (k - 1)%nat) (/ 10 ^ 8)) /\
    forall k g, (k < n)%nat -> (g < groups)%nat ->
      exists p (psi : nat -> mat2) y, (1 <= p <= 100)%nat /\ y 0%nat = (fun i => x k i g) /\ (fun i => x (S k) i g) = y p /\
        ((p < 100)%nat -> settled (cells P) (y p) (y (p - 1)%nat) (/ 10 ^ 12)) /\
        (forall j, (0 < j < p)%nat -> ~ settled (cells P) (y j) (y (j - 1)%nat) (/ 10 ^ 12)) /\
        forall j, (j < p)%nat ->
          ball_legendre P groups nm xs_total xs external boundary g (sweep_sees (x (S k)) (x k) (y j) g)
            (if Nat.eqb j 0 then only_scalar (fun i => x k i g) else edge_moment P (psi j)) (psi (S j)) (y (S j)).
Proof.
  intros Hsp Hn HT Ht E.
  assert (G : forall leg legw, legendre_tables P nm leg legw -> source_iteration_aniso P groups nm old xs_total xs external boundary 2 leg legw = Ok flux ->
    exists n x, (1 <= n <= 100)%nat /\ x 0%nat = old /\ flux = x n /\
    ((n < 100)%nat -> settled2 (cells P) groups (x n) (x (n - 1)%nat) (/ 10 ^ 8)) /\
    (forall k, (0 < k < n)%nat -> ~ settled2 (cells P) groups (x k) (x (k - 1)%nat) (/ 10 ^ 8)) /\
    forall k g, (k < n)%nat -> (g < groups)%nat ->
      exists p (psi : nat -> mat2) y, (1 <= p <= 100)%nat /\ y 0%nat = (fun i => x k i g) /\ (fun i => x (S k) i g) = y p /\
        ((p < 100)%nat -> settled (cells P) (y p) (y (p - 1)%nat) (/ 10 ^ 12)) /\
        (forall j, (0 < j < p)%nat -> ~ settled (cells P) (y j) (y (j - 1)%nat) (/ 10 ^ 12)) /\
        forall j, (j < p)%nat ->
          ball_legendre P groups nm xs_total xs external boundary g (sweep_sees (x (S k)) (x k) (y j) g)
            (if Nat.eqb j 0 then only_scalar (fun i => x k i g) else edge_moment P (psi j)) (psi (S j)) (y (S j))).
  { clear E. intros leg legw HL E.
    destruct (outer_exit_aniso _ _ _ _ _ _ _ _ _ _ _ _ E) as (n & x & Hr & X0 & X1 & Xs & Xu & Xe).
    exists n, x. split; [exact Hr|]. split; [exact X0|]. split; [exact X1|]. split; [exact Xe|]. split; [exact Xu|].
    intros k g Hk Hg. destruct (aniso_ball_groups _ _ _ _ _ _ _ _ _ _ _ (Xs k Hk)) as [Gg _]. specialize (Gg g Hg). unfold aniso_ball_group in Gg.
    destruct (aniso_ball_last _ _ _ _ _ _ _ _ _ _ _ _ _ Gg) as (p & s & Hp & S0 & S1 & Ss & Su & Se).
    destruct Hsp as (Hnz & Hin & Hw & Hsum & Hdx & Htau).
    pose proof (sphere_divisors_positive P (fun m => xs_total m g) Hnz Hin Hw Hsum (fun i Hi => conj (Hdx i Hi) (Ht i g Hi Hg)) Htau) as D.
    assert (Hdx' : forall i, (i < cells P)%nat -> dx P i <> 0) by (intros i Hi; specialize (Hdx i Hi); lra).
    (* the angular fluxes of the passes, read back from the computed values *)
    set (q := fun j => sphere_aniso_q nm (fun x l => xs (medium P x) g g l * (2 * INR l + 1)) leg (gs_off (cells P) groups (x (S k)) (x k) (medium P) (fun m o i => xs m o i 0%nat) g) (slice3 external (bidx (d3c external) g)) (snd (s j))).
    set (h := fun j => sphere_aniso_h0 P (fun m => xs_total m g) (fun x l => xs (medium P x) g g l) (gs_off (cells P) groups (x (S k)) (x k) (medium P) (fun m o i => xs m o i 0%nat) g) (slice3 external (bidx (d3c external) g)) (slice3 boundary (bidx (d3c boundary) g)) (fst (s j))).
    set (psi := fun j => match j with O => fun _ _ => 0 | S j => Es P (fun m => xs_total m g) (q j) (sphere_bnd (slice3 boundary (bidx (d3c boundary) g))) (h j) end).
    exists p, psi, (fun j => fst (s j)). split; [exact Hp|]. split; [rewrite S0; reflexivity|]. split; [exact S1|]. split; [exact Se|]. split; [exact Su|].
    assert (Step : forall j, (j < p)%nat ->
      (forall i l, (i < cells P)%nat -> (l < nm)%nat -> snd (s (S j)) i l = edge_moment P (psi (S j)) i l) /\ (forall i, (i < cells P)%nat -> fst (s (S j)) i = edge_moment P (psi (S j)) i 0)).
    { intros j Hj. pose proof (Ss j Hj) as Ej.
      pose proof (sphere_aniso_pass_ok P nm (fun m => xs_total m g) (fun x l => xs (medium P x) g g l) (fun x l => xs (medium P x) g g l * (2 * INR l + 1))
        (gs_off (cells P) groups (x (S k)) (x k) (medium P) (fun m o i => xs m o i 0%nat) g) (slice3 external (bidx (d3c external) g)) (slice3 boundary (bidx (d3c boundary) g)) leg legw (s j) Hnz) as K.
      cbv zeta in K. rewrite K in Ej. clear K. injection Ej as Ej. rewrite <- Ej. cbn [fst snd]. split.
      - intros i l Hi Hl. apply rsum_ext. intros m Hm. unfold pcell. destruct (Nat.ltb_spec i (cells P)); [|lia]. destruct (HL l m Hl Hm) as [_ ->].
        rewrite Rmult_comm. f_equal. symmetry. unfold psi, Es, Cs. apply kE_diamond. exact Hi.
      - intros i Hi. unfold Fs. destruct (Nat.ltb_spec i (cells P)); [|lia]. apply rsum_ext. intros m Hm. unfold legendre. cbn [legendre_pair fst]. rewrite Rmult_1_r.
        f_equal. symmetry. unfold psi, Es, Cs. apply kE_diamond. exact Hi. }
    assert (Own : forall j, (j <= p)%nat -> forall i l, (i < cells P)%nat -> (l < nm)%nat ->
      snd (s j) i l = (if Nat.eqb j 0 then only_scalar (fun i => x k i g) else edge_moment P (psi j)) i l /\ fst (s j) i = (if Nat.eqb j 0 then only_scalar (fun i => x k i g) else edge_moment P (psi j)) i 0%nat).
    { intros [|j] Hj i l Hi Hl; cbn [Nat.eqb].
      - rewrite S0. cbn [fst snd]. split; reflexivity.
      - destruct (Step j ltac:(lia)) as [A B]. split; [apply A; assumption|apply B; exact Hi]. }
    intros j Hj. unfold ball_legendre.
    pose proof (ordinates_transport P (fun m => xs_total m g) (q j)
      (fun i => at2 (slice3 external (bidx (d3c external) g)) i 0%nat + gs_off (cells P) groups (x (S k)) (x k) (medium P) (fun m o i => xs m o i 0%nat) g i + xs (medium P i) g g 0%nat * fst (s j) i)
      (sphere_bnd (slice3 boundary (bidx (d3c boundary) g))) (at2 (slice3 boundary (bidx (d3c boundary) g)) 1%nat 0%nat) Hnz D Hdx') as T. cbv zeta in T.
    assert (Hh : h j = fun i => if Nat.ltb i (cells P) then start_half (cells P) (fun i => at2 (slice3 external (bidx (d3c external) g)) i 0%nat + gs_off (cells P) groups (x (S k)) (x k) (medium P) (fun m o i => xs m o i 0%nat) g i + xs (medium P i) g g 0%nat * fst (s j) i)
      (dx P) (fun i => xs_total (medium P i) g) (at2 (slice3 boundary (bidx (d3c boundary) g)) 1%nat 0%nat) i else 0).
    { unfold h, sphere_aniso_h0. rewrite half_angle_aniso_eq. reflexivity. }
    cbv beta in T. rewrite <- Hh in T. pose proof (Ss j Hj) as Ej.
    pose proof (sphere_aniso_pass_ok P nm (fun m => xs_total m g) (fun x l => xs (medium P x) g g l) (fun x l => xs (medium P x) g g l * (2 * INR l + 1))
        (gs_off (cells P) groups (x (S k)) (x k) (medium P) (fun m o i => xs m o i 0%nat) g) (slice3 external (bidx (d3c external) g)) (slice3 boundary (bidx (d3c boundary) g)) leg legw (s j) Hnz) as K.
    cbv zeta in K. rewrite K in Ej. clear K. injection Ej as Ej. rewrite <- Ej. cbn [fst].
    do 3 eexists. eapply ball_ext; [| |reflexivity|exact T].
    - intros m i Hm Hi. unfold q, sphere_aniso_q, legendre_emission, aniso_source. cbn [slice3 at2 cols2].
      assert (O : gs_off (cells P) groups (x (S k)) (x k) (medium P) (fun m o i => xs m o i 0%nat) g i
        = rsum groups (fun h => if Nat.eqb h g then 0 else xs (medium P i) g h 0%nat * sweep_sees (x (S k)) (x k) (fst (s j)) g i h)).
      { unfold gs_off. rewrite (proj2 (Nat.ltb_lt i (cells P))) by lia. apply rsum_ext. intros h' Hh'. unfold sweep_sees. destruct (Nat.eqb_spec h' g); reflexivity. }
      rewrite O. match goal with |- ?a + ?b + ?c = ?b + ?d + ?a => assert (Z : c = d); [|rewrite Z; ring] end.
      apply rsum_ext. intros l Hl. destruct (Own j ltac:(lia) i l Hi Hl) as [-> _]. destruct (HL l m Hl Hm) as [-> _]. ring.
    - intros i Hi. unfold legendre_emission. cbn [slice3 at2 rsum INR].
      assert (O : gs_off (cells P) groups (x (S k)) (x k) (medium P) (fun m o i => xs m o i 0%nat) g i
        = rsum groups (fun h => if Nat.eqb h g then 0 else xs (medium P i) g h 0%nat * sweep_sees (x (S k)) (x k) (fst (s j)) g i h)).
      { unfold gs_off. rewrite (proj2 (Nat.ltb_lt i (cells P))) by lia. apply rsum_ext. intros h' Hh'. unfold sweep_sees. destruct (Nat.eqb_spec h' g); reflexivity. }
      rewrite O. destruct (Own j ltac:(lia) i 0%nat Hi Hn) as [_ ->]. unfold legendre. cbn [legendre_pair fst]. ring. }
  cbn [source_iteration] in E. destruct given as [[leg legw]|]; [exact (G _ _ HT E)|].
  destruct (legendre_rows nm (mu P) Hn) as (leg & El & HR). rewrite El in E. cbn [bind] in E.
  refine (G _ _ _ E). intros l n Hl Hn'. rewrite HR by exact Hl. split; reflexivity.
Qed.

(** ** the infinite medium: a quadrature that integrates the Legendre polynomials in use to zero sees no anisotropy in a flat flux *)
Lemma aniso_ball_flat P groups nm xs_total xs external boundary (c : vec) g :
  sound_sphere P -> (0 < nm)%nat -> (0 < angles P)%nat -> (g < groups)%nat -> let W := rsum (angles P) (wt P) in
  (forall l, (0 < l < nm)%nat -> rsum (angles P) (fun m => wt P m * legendre l (mu P m)) = 0) ->
  (forall m i, (m < angles P)%nat -> (i < cells P)%nat ->
     xs_total (medium P i) g * c g = rsum groups (fun h => xs (medium P i) g h 0%nat * (W * c h)) + at3 external i (bidx (d3b external) m) (bidx (d3c external) g)) ->
  (forall m, (m < angles P)%nat -> at3 boundary 1%nat (bidx (d3b boundary) m) (bidx (d3c boundary) g) = c g) ->
  let psi := fun _ _ => c g in
  ball_legendre P groups nm xs_total xs external boundary g (fun _ h => W * c h) (edge_moment P psi) psi (fun _ => W * c g).
Proof.
  intros (Hnz & Hin & Hw & Hsum & Hdx & Htau) Hn Ha Hg W HL Hq Hb psi.
  assert (M0 : forall i, edge_moment P psi i 0%nat = W * c g).
  { intros i. unfold edge_moment, psi. rewrite (rsum_ext (angles P) _ (fun m => wt P m * c g)) by (intros; unfold legendre; cbn [legendre_pair fst]; lra). apply rsum_scal_r. }
  assert (Ml : forall i l, (0 < l < nm)%nat -> edge_moment P psi i l = 0).
  { intros i l Hl. unfold edge_moment, psi. rewrite (rsum_ext (angles P) _ (fun m => wt P m * legendre l (mu P m) * c g)) by (intros; lra).
    rewrite rsum_scal_r, (HL l Hl). ring. }
  assert (S : forall k y m i, (0 < k <= nm)%nat -> (m < angles P)%nat -> (i < cells P)%nat ->
    legendre_emission P groups k xs external g (fun _ h => W * c h) (edge_moment P psi) y (bidx (d3b external) m) i = xs_total (medium P i) g * c g).
  { intros k y m i Hk Hm Hi. rewrite (Hq m i Hm Hi). unfold legendre_emission. f_equal.
    rewrite (rsum_single k _ 0%nat) by (try lia; intros l Hl L0; rewrite (Ml i l) by lia; ring).
    rewrite M0. change (legendre 0 y) with 1. cbn [INR].
    rewrite (rsum_ext groups (fun h => xs (medium P i) g h 0%nat * (W * c h))
      (fun h => (if Nat.eqb h g then 0 else xs (medium P i) g h 0%nat * (W * c h)) + (if Nat.eqb h g then xs (medium P i) g g 0%nat * (W * c g) else 0))).
    2:{ intros h Hh. destruct (Nat.eqb_spec h g) as [-> |]; ring. }
    rewrite rsum_plus. f_equal. rewrite (rsum_single groups _ g Hg) by (intros h _ H1; destruct (Nat.eqb_spec h g); [contradiction|reflexivity]).
    rewrite Nat.eqb_refl. ring. }
  exists (fun _ => c g), (fun _ _ => c g), (fun _ _ => c g).
  split; [|split; [|split; [|split; [|split; [|split; [|split]]]]]].
  - intros i Hi. pose proof (S 1%nat (-1) 0%nat i ltac:(lia) Ha Hi) as S0. rewrite bidx0 in S0. rewrite S0. specialize (Hdx i Hi). field. lra.
  - pose proof (Hb 0%nat Ha) as B. rewrite bidx0 in B. symmetry. exact B.
  - intros; lra.
  - intros m Hm i Hi. cbv zeta. unfold psi. split; [lra|]. rewrite (S nm) by (assumption || lia). pose proof (al_diff P m Hm Hsum) as D. unfold al in D. specialize (Hw m Hm).
    replace (alpha_coef (angles P) (mu P) (wt P) (Datatypes.S m) * c g - alpha_coef (angles P) (mu P) (wt P) m * c g)
      with (- (alpha_coef (angles P) (mu P) (wt P) m - alpha_coef (angles P) (mu P) (wt P) (Datatypes.S m)) * c g) by ring. rewrite D. field. lra.
  - intros m Hm. unfold psi. split; [reflexivity|]. intros _. symmetry. apply Hb; assumption.
  - unfold psi. intros; lra.
  - reflexivity.
  - intros i Hi. unfold psi. rewrite (rsum_ext (angles P) _ (fun m => wt P m * c g)) by (intros; lra). rewrite rsum_scal_r. reflexivity.
Qed.

Lemma ball_legendre_unique P groups nm xs_total xs external boundary g s1 s2 m1 m2 p1 p2 o1 o2 :
  sound_sphere P -> (0 < nm)%nat -> (forall i, (i < cells P)%nat -> 0 <= xs_total (medium P i) g) ->
  (forall i h, (i < cells P)%nat -> (h < groups)%nat -> h <> g -> s1 i h = s2 i h) ->
  (forall i l, (i < cells P)%nat -> (l < nm)%nat -> m1 i l = m2 i l) ->
  ball_legendre P groups nm xs_total xs external boundary g s1 m1 p1 o1 -> ball_legendre P groups nm xs_total xs external boundary g s2 m2 p2 o2 ->
  (forall i, (i < cells P)%nat -> o1 i = o2 i) /\ (forall m i, (m < angles P)%nat -> (i < cells P)%nat -> p1 m i = p2 m i /\ p1 m (S i) = p2 m (S i)).
Proof.
  intros (Hnz & Hin & Hw & Hsum & Hdx & Htau) Hn Ht Hs Hm (a1 & c1 & d1 & T1) (a2 & c2 & d2 & T2).
  assert (Q : forall k y n i, (k <= nm)%nat -> (i < cells P)%nat -> legendre_emission P groups k xs external g s1 m1 y n i = legendre_emission P groups k xs external g s2 m2 y n i).
  { intros k y n i Hk Hi. unfold legendre_emission. f_equal. f_equal.
    - apply rsum_ext. intros h Hh. destruct (Nat.eqb_spec h g); [reflexivity|]. rewrite Hs by assumption. reflexivity.
    - apply rsum_ext. intros l Hl. rewrite Hm by (assumption || lia). reflexivity. }
  pose proof (sphere_divisors_positive P (fun m => xs_total m g) Hnz Hin Hw Hsum (fun i Hi => conj (Hdx i Hi) (Ht i Hi)) Htau) as D.
  assert (Hdx' : forall i, (i < cells P)%nat -> dx P i <> 0) by (intros i Hi; specialize (Hdx i Hi); lra).
  eapply ball_ext in T1; [|intros m i _ Hi; apply Q; [lia|exact Hi]|intros i Hi; apply Q; [lia|exact Hi]|reflexivity].
  split; [exact (sphere_transport_unique P (fun m => xs_total m g) _ _ _ _ _ _ _ _ _ _ _ _ _ _ Hnz D Hdx' T1 T2)
         |intros m i Hm' Hi; split; apply (sphere_edges_unique P (fun m => xs_total m g) _ _ _ _ _ _ _ _ _ _ _ _ _ _ Hnz D Hdx' ltac:(lia) T1 T2); lia].
Qed.

(** the run started from the infinite-medium spectrum returns it *)
Lemma aniso_ball_flat_kept P groups nm xs_total xs external boundary (c : vec) given :
  sound_sphere P -> (0 < nm)%nat -> (0 < angles P)%nat -> usable_tables P nm given ->
  (forall i g, (i < cells P)%nat -> (g < groups)%nat -> 0 <= xs_total (medium P i) g) -> let W := rsum (angles P) (wt P) in
  (forall l, (0 < l < nm)%nat -> rsum (angles P) (fun m => wt P m * legendre l (mu P m)) = 0) ->
  (forall g m i, (g < groups)%nat -> (m < angles P)%nat -> (i < cells P)%nat ->
     xs_total (medium P i) g * c g = rsum groups (fun h => xs (medium P i) g h 0%nat * (W * c h)) + at3 external i (bidx (d3b external) m) (bidx (d3c external) g)) ->
  (forall g m, (g < groups)%nat -> (m < angles P)%nat -> at3 boundary 1%nat (bidx (d3b boundary) m) (bidx (d3c boundary) g) = c g) ->
  exists flux, source_iteration P groups (fun _ g => W * c g) xs_total (Scatter4 nm xs) external boundary 2 given = Ok flux /\
    agree2 (cells P) groups flux (fun _ g => W * c g).
Proof.
  intros Hsp Hn Ha HT Ht W HL Hq Hb.
  destruct (aniso_ball_total P groups nm (fun _ g => W * c g) xs_total xs external boundary given Hn (proj1 Hsp)) as [flux E]. exists flux. split; [exact E|].
  destruct (aniso_ball_run _ _ _ _ _ _ _ _ _ _ Hsp Hn HT Ht E) as (n & x & Hr & X0 & -> & _ & _ & R).
  assert (M0 : forall g i, edge_moment P (fun _ _ => c g) i 0%nat = W * c g).
  { intros g i. unfold edge_moment. rewrite (rsum_ext (angles P) _ (fun m => wt P m * c g)) by (intros; unfold legendre; cbn [legendre_pair fst]; lra). apply rsum_scal_r. }
  assert (Ml : forall g i l, (0 < l < nm)%nat -> edge_moment P (fun _ _ => c g) i l = 0).
  { intros g i l Hl. unfold edge_moment. rewrite (rsum_ext (angles P) _ (fun m => wt P m * legendre l (mu P m) * c g)) by (intros; lra).
    rewrite rsum_scal_r, (HL l Hl). ring. }
  assert (K : forall k, (k <= n)%nat -> agree2 (cells P) groups (x k) (fun _ g => W * c g)).
  { induction k as [|k IH]; intros Hk; [rewrite X0; intros i h _ _; reflexivity|].
    assert (G : forall g, (g < groups)%nat -> forall i, (i < cells P)%nat -> x (S k) i g = W * c g).
    { intros g. induction g as [g IHg] using (well_founded_induction lt_wf). intros Hg.
      destruct (R k g ltac:(lia) Hg) as (p & psi & y & Hp & Y0 & Y1 & _ & _ & Ys).
      assert (Q : forall j, (j <= p)%nat -> (forall i, (i < cells P)%nat -> y j i = W * c g) /\
        forall i l, (i < cells P)%nat -> (l < nm)%nat -> (if Nat.eqb j 0 then only_scalar (fun i => x k i g) else edge_moment P (psi j)) i l = edge_moment P (fun _ _ => c g) i l).
      { induction j as [|j IHj]; intros Hj.
        - split; [intros i Hi; rewrite Y0; exact (IH ltac:(lia) i g Hi Hg)|]. intros i l Hi Hl. cbn [Nat.eqb]. unfold only_scalar.
          destruct (Nat.eqb_spec l 0) as [-> |]; [rewrite M0; exact (IH ltac:(lia) i g Hi Hg)|]. rewrite Ml by lia. reflexivity.
        - destruct (IHj ltac:(lia)) as [Hy Hmom].
          destruct (ball_legendre_unique P groups nm xs_total xs external boundary g (sweep_sees (x (S k)) (x k) (y j) g) (fun _ h => W * c h)
            (if Nat.eqb j 0 then only_scalar (fun i => x k i g) else edge_moment P (psi j)) (edge_moment P (fun _ _ => c g)) (psi (S j)) (fun _ _ => c g) (y (S j)) (fun _ => W * c g)) as [U V].
          + exact Hsp.
          + exact Hn.
          + intros; apply Ht; assumption.
          + intros i h Hi Hh Hne. unfold sweep_sees. destruct (Nat.ltb_spec h g); [apply IHg; assumption|].
            destruct (Nat.eqb_spec h g); [contradiction|]. exact (IH ltac:(lia) i h Hi Hh).
          + exact Hmom.
          + apply Ys. lia.
          + apply (aniso_ball_flat P groups nm xs_total xs external boundary c g); try assumption; [intros; apply Hq; assumption|intros; apply Hb; assumption].
          + split; [exact U|]. intros i l Hi Hl. cbn [Nat.eqb]. unfold edge_moment. apply rsum_ext. intros m Hm. destruct (V m i Hm Hi) as [-> ->]. reflexivity. }
      intros i Hi. change (x (S k) i g) with ((fun i => x (S k) i g) i). rewrite Y1. apply Q; [lia|exact Hi]. }
    intros i h Hi Hh. apply G; assumption. }
  apply K. lia.
Qed.
