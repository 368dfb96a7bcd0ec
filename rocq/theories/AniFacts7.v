(** Legendre moments of the transfer between groups: never read; and a slab on which they matter. *)
From Coq Require Import Lra Lia FunctionalExtensionality.
From Verif Require Import Base BaseFacts SlabModel SlabSpec SlabFacts SlabFacts2 SlabFacts3 SlabFacts5 SlabWitness MgModel MgSpec MgFacts MgFacts2 EnSpec EnFacts4 InfSpec InfFacts5 AniSpec AniFacts3 AniFacts4 AniFacts5 AniFacts6 AniWitness.
Open Scope R_scope.

(** what the source iteration reads *)
Lemma transfer_ignored P groups nm old xs_total xs xs' external boundary geometry given :
  (forall m g h, xs m g h 0%nat = xs' m g h 0%nat) -> (forall m g l, xs m g g l = xs' m g g l) ->
  source_iteration P groups old xs_total (Scatter4 nm xs) external boundary geometry given
  = source_iteration P groups old xs_total (Scatter4 nm xs') external boundary geometry given.
Proof.
  intros H0 Hd. cbn [source_iteration].
  assert (G : forall leg legw, source_iteration_aniso P groups nm old xs_total xs external boundary geometry leg legw
    = source_iteration_aniso P groups nm old xs_total xs' external boundary geometry leg legw).
  { intros leg legw. assert (X : one_sweep_aniso P groups nm xs_total xs external boundary geometry leg legw = one_sweep_aniso P groups nm xs_total xs' external boundary geometry leg legw);
      [|unfold source_iteration_aniso; rewrite X; reflexivity]. extensionality x. unfold one_sweep_aniso. apply for_up_err_ext. intros gg fl _. cbv zeta.
    assert (E1 : (fun m o i => xs m o i 0%nat) = (fun m o i => xs' m o i 0%nat)) by (extensionality m; extensionality o; extensionality i; apply H0).
    assert (E2 : (fun x l => xs (medium P x) gg gg l) = (fun x l => xs' (medium P x) gg gg l)) by (extensionality m; extensionality o; apply Hd).
    assert (E3 : (fun x l => xs (medium P x) gg gg l * (2 * INR l + 1)) = (fun x l => xs' (medium P x) gg gg l * (2 * INR l + 1))) by (extensionality m; extensionality o; rewrite Hd; reflexivity).
    rewrite E1, E2, E3. reflexivity. }
  destruct given as [[leg legw]|]; [apply G|]. destruct (legendre_polynomials nm (mu P)); cbn [bind]; [apply G|reflexivity].
Qed.

(** without such moments the two sets of equations agree *)
Lemma full_is_aniso P groups nm xs_total xs external boundary psi phi : (0 < nm)%nat ->
  (forall i g h l, (i < cells P)%nat -> (g < groups)%nat -> (h < groups)%nat -> (0 < l < nm)%nat -> g <> h -> xs (medium P i) g h l = 0) ->
  (full_transport P groups nm xs_total xs external boundary psi phi <-> aniso_transport P groups nm xs_total xs external boundary psi phi).
Proof.
  intros Hn Hz.
  assert (E : forall g m i, (g < groups)%nat -> (i < cells P)%nat -> (forall h, (h < groups)%nat -> phi i h = edge_moment P (psi h) i 0) ->
    full_emission P groups nm xs external psi g m i = aniso_emission P groups nm xs external phi psi g m i).
  { intros g m i Hg Hi Hp. unfold full_emission, aniso_emission. f_equal.
    set (d := rsum nm (fun l => (2 * INR l + 1) * xs (medium P i) g g l * edge_moment P (psi g) i l * legendre l (mu P m))).
    transitivity (rsum groups (fun h => (if Nat.eqb h g then 0 else xs (medium P i) g h 0%nat * phi i h) + (if Nat.eqb h g then d else 0))).
    - apply rsum_ext. intros h Hh. destruct (Nat.eqb_spec h g) as [-> |Hne]; [unfold d; lra|].
      rewrite (rsum_single nm _ 0%nat Hn). { cbn [INR]. rewrite (Hp h Hh). unfold legendre. cbn [legendre_pair fst]. lra. }
      intros l Hl Hl0. rewrite Hz by (try assumption; lia). lra.
    - rewrite rsum_plus. f_equal. rewrite (rsum_single groups _ g Hg) by (intros h _ Hne; destruct (Nat.eqb_spec h g); [contradiction|reflexivity]). rewrite Nat.eqb_refl. reflexivity. }
  split; intros T g Hg.
  - eapply transport_ext; [| |apply (T g Hg)]; [|reflexivity]. intros m i Hm Hi. cbv beta. apply E; [exact Hg|exact Hi|].
    intros h Hh. symmetry. exact (moment_scalar P _ _ _ _ _ (T h Hh) i Hi).
  - eapply transport_ext; [| |apply (T g Hg)]; [|reflexivity]. intros m i Hm Hi. cbv beta. symmetry. apply E; [exact Hg|exact Hi|].
    intros h Hh. symmetry. exact (moment_scalar P _ _ _ _ _ (T h Hh) i Hi).
Qed.

(** ** a beam slowing down *)
Definition slow_total : mat2 := fun _ _ => 1.
Definition slow_scatter : mat4 := fun _ g h l => if andb (Nat.eqb g 1) (Nat.eqb h 0) then (if Nat.eqb l 0 then 1 / 2 else 1 / 4) else 0.
Definition slow_ext : arr3 := mkArr3 1 1 (fun _ _ _ => 0).
Definition slow_bnd : arr3 := mkArr3 1 2 (fun side _ g => if andb (Nat.eqb side 0) (Nat.eqb g 0) then 16 else 0).
Definition slow_psi : mat3 := fun g m k =>
  match g, m, k with O, O, O => 16 | 1%nat, O, 1%nat => 3 | 1%nat, 1%nat, O => 1 | _, _, _ => 0 end.
Definition slow_flux : mat2 := fun i g => match g, i with O, O => 4 | 1%nat, O => 1 | 1%nat, 1%nat => 3 / 4 | _, _ => 0 end.

Lemma slow_inflow g m : (g < 2)%nat -> (m < 2)%nat -> mg_boundary slow_bnd (mu forward) g m = if andb (Nat.eqb m 0) (Nat.eqb g 0) then 16 else 0.
Proof.
  intros Hg Hm. pose proof gauss_pos. unfold mg_boundary. cbn [at3 slow_bnd d3b d3c].
  small m Hm; small g Hg; cbn [mu forward Nat.eqb bidx andb]; [destruct (Rlt_dec 0 gauss)|destruct (Rlt_dec 0 gauss)|destruct (Rlt_dec 0 (- gauss))|destruct (Rlt_dec 0 (- gauss))]; try lra; reflexivity.
Qed.
Lemma slow_full g psi phi : (g < 2)%nat ->
  (slab_transport (cells forward) (angles forward) (mu forward) (wt forward) (dx forward) (fun i => slow_total (medium forward i) g)
      (full_emission forward 2 2 slow_scatter slow_ext psi g)
      (fun m => reflected_in (cells forward) (angles forward) (mu forward) (bc_left forward) (bc_right forward) (psi g) m + mg_boundary slow_bnd (mu forward) g m)
      (psi g) phi <->
  (psi g 0%nat 0%nat = (if Nat.eqb g 0 then 16 else 0) /\
   psi g 0%nat 1%nat = (if Nat.eqb g 0 then 0 else (psi 0%nat 0%nat 0%nat + psi 0%nat 0%nat 1%nat) / 8 + (psi 0%nat 1%nat 0%nat + psi 0%nat 1%nat 1%nat) / 8 + 1 / 4 * ((psi 0%nat 0%nat 0%nat + psi 0%nat 0%nat 1%nat) / 4 - (psi 0%nat 1%nat 0%nat + psi 0%nat 1%nat 1%nat) / 4)) /\
   psi g 0%nat 2%nat = (if Nat.eqb g 0 then 0 else (psi 0%nat 0%nat 1%nat + psi 0%nat 0%nat 2%nat) / 8 + (psi 0%nat 1%nat 1%nat + psi 0%nat 1%nat 2%nat) / 8 + 1 / 4 * ((psi 0%nat 0%nat 1%nat + psi 0%nat 0%nat 2%nat) / 4 - (psi 0%nat 1%nat 1%nat + psi 0%nat 1%nat 2%nat) / 4))) /\
  (psi g 1%nat 2%nat = 0 /\
   psi g 1%nat 1%nat = (if Nat.eqb g 0 then 0 else (psi 0%nat 0%nat 1%nat + psi 0%nat 0%nat 2%nat) / 8 + (psi 0%nat 1%nat 1%nat + psi 0%nat 1%nat 2%nat) / 8 - 1 / 4 * ((psi 0%nat 0%nat 1%nat + psi 0%nat 0%nat 2%nat) / 4 - (psi 0%nat 1%nat 1%nat + psi 0%nat 1%nat 2%nat) / 4)) /\
   psi g 1%nat 0%nat = (if Nat.eqb g 0 then 0 else (psi 0%nat 0%nat 0%nat + psi 0%nat 0%nat 1%nat) / 8 + (psi 0%nat 1%nat 0%nat + psi 0%nat 1%nat 1%nat) / 8 - 1 / 4 * ((psi 0%nat 0%nat 0%nat + psi 0%nat 0%nat 1%nat) / 4 - (psi 0%nat 1%nat 0%nat + psi 0%nat 1%nat 1%nat) / 4))) /\
  (forall i, (i < 2)%nat -> phi i = (psi g 0%nat i + psi g 0%nat (S i)) / 4 + (psi g 1%nat i + psi g 1%nat (S i)) / 4)).
Proof.
  intros Hg. pose proof gauss_sq as Q. cbn [cells angles forward]. change (fun i => slow_total (medium forward i) g) with (fun _ : nat => 1).
  assert (S : forall m i, (m < 2)%nat -> (i < 2)%nat -> full_emission forward 2 2 slow_scatter slow_ext psi g m i =
    if Nat.eqb g 0 then 0 else (psi 0%nat 0%nat i + psi 0%nat 0%nat (S i)) / 8 + (psi 0%nat 1%nat i + psi 0%nat 1%nat (S i)) / 8
      + (if Nat.eqb m 0 then 1 / 4 else - (1 / 4)) * ((psi 0%nat 0%nat i + psi 0%nat 0%nat (S i)) / 4 - (psi 0%nat 1%nat i + psi 0%nat 1%nat (S i)) / 4)).
  { intros m i Hm Hi. unfold full_emission. cbn [rsum]. destruct (beam_moments (psi 0%nat) i) as [-> ->]. rewrite !legendre_one.
    unfold legendre. cbn [legendre_pair fst INR slow_ext at3]. unfold slow_scatter.
    set (x := (psi 0%nat 0%nat i + psi 0%nat 0%nat (Datatypes.S i)) / 4). set (y := (psi 0%nat 1%nat i + psi 0%nat 1%nat (Datatypes.S i)) / 4).
    replace ((psi 0%nat 0%nat i + psi 0%nat 0%nat (Datatypes.S i)) / 8) with (x / 2) by (unfold x; field). replace ((psi 0%nat 1%nat i + psi 0%nat 1%nat (Datatypes.S i)) / 8) with (y / 2) by (unfold y; field).
    small g Hg; small m Hm; cbn [mu forward Nat.eqb andb].
    - ring.
    - ring.
    - replace ((2 * 1 + 1) * (1 / 4) * (gauss * (x - y)) * gauss) with (3 / 4 * (x - y) * (gauss * gauss)) by field. rewrite Q. field.
    - replace ((2 * 1 + 1) * (1 / 4) * (gauss * (x - y)) * - gauss) with (- (3 / 4 * (x - y) * (gauss * gauss))) by field. rewrite Q. field. }
  rewrite forward_transport. rewrite !S by lia. change (bc_left forward) with 0%nat. change (bc_right forward) with 0%nat. rewrite !forward_vacuum, !slow_inflow by lia. cbn [Nat.eqb andb].
  destruct (Nat.eqb g 0); split; intros ((A1 & A2 & A3) & (B1 & B2 & B3) & F); (split; [repeat split; lra|split; [repeat split; lra|exact F]]).
Qed.
Lemma slow_solves : full_transport forward 2 2 slow_total slow_scatter slow_ext slow_bnd slow_psi slow_flux.
Proof.
  intros g Hg. apply slow_full; [exact Hg|]. small g Hg; cbn [slow_psi Nat.eqb]; (split; [repeat split; lra|split; [repeat split; lra|]]); intros i Hi; small i Hi; cbn [slow_flux]; lra.
Qed.
Lemma slow_unique sol : full_solution forward 2 2 slow_total slow_scatter slow_ext slow_bnd sol -> sol 1%nat 1%nat = 3 / 4.
Proof.
  intros (psi & T). pose proof (T 0%nat ltac:(lia)) as T0. pose proof (T 1%nat ltac:(lia)) as T1. apply slow_full in T0; [|lia]. apply slow_full in T1; [|lia].
  cbn [Nat.eqb] in T0, T1. destruct T0 as ((A1 & A2 & A3) & (B1 & B2 & B3) & _). destruct T1 as ((C1 & C2 & C3) & (D1 & D2 & D3) & F). specialize (F 1%nat ltac:(lia)). cbv beta in F. lra.
Qed.

(** a within-group solve without scattering *)
Lemma slow_group g (off : vec) leg legw old flux : (g < 2)%nat ->
  slab_anisotropic_sn forward old 2 (fun m => slow_total m g) (fun x l => slow_scatter (medium forward x) g g l * (2 * INR l + 1)) off
    (slice3 slow_ext (bidx 1 g)) (slice3 slow_bnd (bidx 2 g)) 0 leg legw = Ok flux ->
  flux 0%nat = ((if Nat.eqb g 0 then 16 else 0) + off 0%nat) / 4 + (off 0%nat + off 1%nat) / 4 /\ flux 1%nat = (off 0%nat + off 1%nat) / 4 + off 1%nat / 4.
Proof.
  intros Hg E. destruct (aniso_driver_last _ _ _ _ _ _ _ _ _ _ _ _ E) as (n & s & Hr & _ & Hf & Hstep & _).
  specialize (Hstep (n - 1)%nat ltac:(lia)). replace (Datatypes.S (n - 1)) with n in Hstep by lia.
  destruct (s n) as [fl mo] eqn:Es. cbn [fst] in Hf. subst flux.
  destruct (aniso_pass_transport forward 2 _ _ off _ _ leg legw _ fl mo (sound_divisors forward 2 slow_total forward_sound (fun _ _ _ _ => Rle_0_1) g Hg) Hstep) as (psi & T & _).
  cbn [cells angles forward] in T. change (fun i => slow_total (medium forward i) g) with (fun _ : nat => 1) in T. apply forward_transport in T.
  change (bc_left forward) with 0%nat in T. change (bc_right forward) with 0%nat in T. rewrite !forward_vacuum in T by lia.
  change (boundary_in (slice3 slow_bnd (bidx 2 g)) (mu forward)) with (mg_boundary slow_bnd (mu forward) g) in T. rewrite !slow_inflow in T by lia.
  assert (Z : forall i m, rsum 2 (fun l => slow_scatter (medium forward i) g g l * (2 * INR l + 1) * snd (s (n - 1)%nat) i l * leg l m) = 0).
  { intros i m. apply rsum_zero_ext. intros l _. unfold slow_scatter. small g Hg; cbn [Nat.eqb andb]; ring. }
  cbv beta in T. rewrite !Z in T. cbn [slice3 at2 slow_ext at3 Nat.eqb andb] in T. destruct T as ((A0 & A1 & A2) & (B0 & B1 & B2) & F).
  rewrite (F 0%nat), (F 1%nat) by lia. destruct (Nat.eqb g 0); split; lra.
Qed.

Lemma slow_run old given flux :
  source_iteration forward 2 old slow_total (Scatter4 2 slow_scatter) slow_ext slow_bnd 1 given = Ok flux -> flux 1%nat 1%nat = 1 / 2.
Proof.
  intros E.
  assert (G : forall leg legw, source_iteration_aniso forward 2 2 old slow_total slow_scatter slow_ext slow_bnd 1 leg legw = Ok flux -> flux 1%nat 1%nat = 1 / 2).
  { clear E. intros leg legw E. unfold source_iteration_aniso in E. assert (Hcap : (1 <= count_gg)%nat) by (unfold count_gg; lia).
    destruct (outer_trace _ _ _ _ _ _ _ Hcap E) as (p & x & Hp & _ & -> & Hstep & _).
    destruct (aniso_sweep_groups _ _ _ _ _ _ _ _ _ _ _ (Hstep (p - 1)%nat ltac:(lia))) as [Hg _]. replace (Datatypes.S (p - 1)) with p in Hg by lia.
    pose proof (Hg 0%nat ltac:(lia)) as G0. pose proof (Hg 1%nat ltac:(lia)) as G1. unfold aniso_group in G0, G1.
    apply slow_group in G0; [|lia]. apply slow_group in G1; [|lia]. cbn [Nat.eqb] in G0, G1.
    assert (O0 : forall i, gs_off (cells forward) 2 (x p) (x (p - 1)%nat) (medium forward) (fun m o k => slow_scatter m o k 0%nat) 0 i = 0).
    { intros i. unfold gs_off. destruct (Nat.ltb _ _); [|reflexivity]. cbn [rsum Nat.eqb]. unfold slow_scatter. cbn [Nat.eqb andb]. ring. }
    assert (O1 : forall i, (i < 2)%nat -> gs_off (cells forward) 2 (x p) (x (p - 1)%nat) (medium forward) (fun m o k => slow_scatter m o k 0%nat) 1 i = 1 / 2 * x p i 0%nat).
    { intros i Hi. unfold gs_off. rewrite (proj2 (Nat.ltb_lt i (cells forward))) by (cbn; lia). cbn [rsum Nat.eqb]. unfold slow_scatter. cbn [Nat.eqb andb Nat.ltb Nat.leb]. ring. }
    rewrite !O0 in G0. rewrite !O1 in G1 by lia. destruct G0 as [G00 G01]. destruct G1 as [_ G11]. rewrite G00, G01 in G11. lra. }
  cbn [source_iteration] in E. destruct given as [[leg legw]|]; [exact (G _ _ E)|].
  destruct (legendre_polynomials 2 (mu forward)); cbn [bind] in E; [exact (G _ _ E)|discriminate].
Qed.
