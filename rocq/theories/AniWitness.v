(** Concrete problems with linearly anisotropic scattering: two groups on a two-cell slab with the two-point Gauss rule, and a
    one-group problem whose starting flux the first pass reproduces although it is not the solution. *)
From Coq Require Import Lra Lia.
From Verif Require Import Base BaseFacts SlabModel SlabSpec SlabFacts SlabFacts2 SlabFacts3 SlabFacts5 SlabWitness MgModel MgSpec MgFacts EnSpec EnFacts4 InfSpec InfFacts5 AniSpec AniFacts5.
Open Scope R_scope.

Definition gauss : R := sqrt (1 / 3).
Lemma gauss_pos : 0 < gauss.
Proof. apply sqrt_lt_R0. lra. Qed.
Lemma gauss_sq : gauss * gauss = 1 / 3.
Proof. apply sqrt_sqrt. lra. Qed.
(** two cells, one mean free path per cosine wide, Gauss rule of order two, vacuum on both sides *)
Definition forward : sn := mkSn 2 (fun i => i) (fun _ => 2 * gauss) 2 (fun m => if Nat.eqb m 0 then gauss else - gauss) (fun _ => 1 / 2) 0 0.

Lemma forward_sound : sound_slab forward.
Proof.
  pose proof gauss_pos. split; [intros; cbn; lra|]. split; [intros; cbn; lra|]. split; [intros m Hm; small m Hm; cbn; lra|]. left. split; cbn; lia.
Qed.
Lemma legendre_one x : legendre 1 x = x.
Proof. reflexivity. Qed.
Lemma legendre_two x : legendre 2 x = (3 * x * x - 1) / 2.
Proof. unfold legendre. cbn [legendre_pair fst INR]. field. Qed.
Lemma forward_exact : exact_products forward 2.
Proof.
  split; [cbn; lra|]. intros l Hl. pose proof gauss_sq as Q. assert (l = 1 \/ l = 2)%nat as [-> | ->] by lia; cbn [rsum angles forward wt mu Nat.eqb].
  - rewrite !legendre_one. lra.
  - rewrite !legendre_two. replace (3 * - gauss * - gauss) with (3 * (gauss * gauss)) by ring. replace (3 * gauss * gauss) with (3 * (gauss * gauss)) by ring. rewrite Q. lra.
Qed.

(** two groups *)
Definition peaked_total : mat2 := fun m g => if Nat.eqb m 0 then 1 else 4.
Definition peaked_scatter : mat4 := fun m g h l => peaked_total m g * (if Nat.eqb g h then (if Nat.eqb l 0 then 1 / 2 else 1 / 3) else 1 / 4).
Definition peaked_ext : arr3 := mkArr3 1 2 (fun _ _ g => 1 + INR g).
Definition peaked_bnd : arr3 := mkArr3 1 1 (fun side _ _ => if Nat.eqb side 0 then 2 else 0).
Lemma peaked_nonneg i h : (i < cells forward)%nat -> (h < 2)%nat -> 0 <= peaked_total (medium forward i) h.
Proof. intros Hi Hh. small i Hi; cbn; lra. Qed.
Lemma peaked_coupled : aniso_coupled forward 2 2 peaked_total peaked_scatter (3 / 4).
Proof.
  exists (fun g h => if Nat.eqb g h then 1 / 2 else 1 / 4). split; [intros; destruct (Nat.eqb g h); lra|]. split; [intros g Hg; small g Hg; cbn; lra|]. split.
  - intros i g h Hi Hg Hh. unfold peaked_scatter.
    replace (peaked_total (medium forward i) g * peaked_total (medium forward i) h) with (peaked_total (medium forward i) g * peaked_total (medium forward i) g) by reflexivity.
    rewrite sqrt_square by (apply peaked_nonneg; assumption). pose proof (peaked_nonneg i g Hi Hg). rewrite Rabs_mult, Rabs_right by (apply Rle_ge; exact H). rewrite Rmult_comm.
    apply Rmult_le_compat_r; [exact H|]. destruct (Nat.eqb g h); cbn [Nat.eqb]; rewrite Rabs_right; lra.
  - intros i g l Hi Hg Hl. unfold peaked_scatter. pose proof (peaked_nonneg i g Hi Hg). rewrite Rabs_mult, Rabs_right by (apply Rle_ge; exact H). rewrite Rmult_comm.
    apply Rmult_le_compat_r; [exact H|]. rewrite Nat.eqb_refl. destruct (Nat.eqb l 0); rewrite Rabs_right; lra.
Qed.

(** one group *)
Definition beam_total : mat2 := fun _ _ => 1.
Definition beam_scatter : mat4 := fun _ _ _ l => if Nat.eqb l 0 then 1 / 2 else 1 / 4.
Definition beam_ext : arr3 := mkArr3 1 1 (fun _ _ _ => 0).
Definition beam_bnd : arr3 := mkArr3 1 1 (fun side _ _ => if Nat.eqb side 0 then 35 else 0).
Definition beam_start : mat2 := fun i _ => if Nat.eqb i 0 then 12 else 2.
Lemma beam_coupled : aniso_coupled forward 1 2 beam_total beam_scatter (1 / 2).
Proof.
  exists (fun _ _ => 1 / 2). split; [intros; lra|]. split; [intros; cbn; lra|]. unfold beam_total, beam_scatter. split.
  - intros i g h _ _ _. cbn [Nat.eqb]. rewrite Rmult_1_l, sqrt_1, Rabs_right; lra.
  - intros i g l _ _ _. destruct (Nat.eqb l 0); rewrite Rabs_right; lra.
Qed.

(** the exact solution *)
Definition beam_flux : mat2 := fun i _ => if Nat.eqb i 0 then 5215 / 437 else 1225 / 437.
(** [phi/2 + u] and [phi/2 - u] of each cell, with [u = (psi+ - psi-)/8] *)
Definition beam_u (i : nat) : R := if Nat.eqb i 0 then 5 / 2 - 25 / 437 else 525 / 874.
Definition beam_psi : mat3 := fun _ m k =>
  if Nat.eqb m 0 then match k with O => 35 | S i => beam_flux i 0%nat / 2 + beam_u i end
  else if Nat.ltb k 2 then beam_flux k 0%nat / 2 - beam_u k else 0.

Lemma over a b : 0 < gauss -> gauss / (2 * gauss) * (b - a) = 1 / 2 * (b - a) /\ - gauss / (2 * gauss) * (b - a) = - (1 / 2) * (b - a).
Proof. intros H. split; field; lra. Qed.

Lemma forward_edges : inflow_edge 2 gauss = 0%nat /\ inflow_edge 2 (- gauss) = 2%nat.
Proof. pose proof gauss_pos. unfold inflow_edge. destruct (Rlt_dec 0 gauss), (Rlt_dec 0 (- gauss)); try lra; auto. Qed.
Lemma forward_vacuum psi m : (m < 2)%nat -> reflected_in 2 2 (mu forward) 0 0 psi m = 0.
Proof.
  intros Hm. unfold reflected_in, leaves_reflective. destruct (Rlt_dec 0 (mu forward (2 - m - 1)%nat)), (Rlt_dec (mu forward (2 - m - 1)%nat) 0); cbn [Nat.eqb]; rewrite Bool.andb_false_r; reflexivity.
Qed.
Lemma beam_inflow m : (m < 2)%nat -> mg_boundary beam_bnd (mu forward) 0 m = if Nat.eqb m 0 then 35 else 0.
Proof. intros Hm. pose proof gauss_pos. unfold mg_boundary. cbn [at3 beam_bnd d3b d3c]. small m Hm; cbn [mu forward Nat.eqb]; [destruct (Rlt_dec 0 gauss)|destruct (Rlt_dec 0 (- gauss))]; try lra; reflexivity. Qed.

(** the equations of the slab, spelled out *)
Lemma forward_transport (q : mat2) (b : vec) psi phi :
  slab_transport 2 2 (mu forward) (wt forward) (dx forward) (fun _ => 1) q b psi phi <->
  (psi 0%nat 0%nat = b 0%nat /\ psi 0%nat 1%nat = q 0%nat 0%nat /\ psi 0%nat 2%nat = q 0%nat 1%nat) /\
  (psi 1%nat 2%nat = b 1%nat /\ psi 1%nat 1%nat = q 1%nat 1%nat /\ psi 1%nat 0%nat = q 1%nat 0%nat) /\
  (forall i, (i < 2)%nat -> phi i = (psi 0%nat i + psi 0%nat (S i)) / 4 + (psi 1%nat i + psi 1%nat (S i)) / 4).
Proof.
  pose proof gauss_pos as G. destruct forward_edges as [I0 I1]. split.
  - intros (B & C & F).
    pose proof (B 0%nat ltac:(lia) 0%nat ltac:(lia)) as B00. pose proof (B 0%nat ltac:(lia) 1%nat ltac:(lia)) as B01.
    pose proof (B 1%nat ltac:(lia) 0%nat ltac:(lia)) as B10. pose proof (B 1%nat ltac:(lia) 1%nat ltac:(lia)) as B11.
    pose proof (C 0%nat ltac:(lia)) as C0. pose proof (C 1%nat ltac:(lia)) as C1. cbn [mu dx forward Nat.eqb] in *. rewrite I0 in C0. rewrite I1 in C1.
    rewrite (proj1 (over _ _ G)) in B00. rewrite (proj1 (over _ _ G)) in B01. rewrite (proj2 (over _ _ G)) in B10. rewrite (proj2 (over _ _ G)) in B11.
    split; [repeat split; lra|]. split; [repeat split; lra|]. intros i Hi. rewrite (F i Hi). cbn [rsum wt forward]. lra.
  - intros ((A0 & A1 & A2) & (B0 & B1 & B2) & F). split; [|split].
    + intros m Hm i Hi. small m Hm; small i Hi; cbn [mu dx forward Nat.eqb]; rewrite ?(proj1 (over _ _ G)), ?(proj2 (over _ _ G)); lra.
    + intros m Hm. small m Hm; cbn [mu forward Nat.eqb]; rewrite ?I0, ?I1; assumption.
    + intros i Hi. rewrite (F i Hi). cbn [rsum wt forward]. lra.
Qed.

Lemma beam_moments psi i : edge_moment forward psi i 0 = (psi 0%nat i + psi 0%nat (S i)) / 4 + (psi 1%nat i + psi 1%nat (S i)) / 4 /\
  edge_moment forward psi i 1 = gauss * ((psi 0%nat i + psi 0%nat (S i)) / 4 - (psi 1%nat i + psi 1%nat (S i)) / 4).
Proof. unfold edge_moment. cbn [rsum angles wt mu forward Nat.eqb]. rewrite !legendre_one. unfold legendre. cbn [legendre_pair fst]. split; lra. Qed.

Lemma beam_solves : aniso_transport forward 1 2 beam_total beam_scatter beam_ext beam_bnd beam_psi beam_flux.
Proof.
  intros g Hg. assert (g = 0)%nat as -> by lia. pose proof gauss_sq as Q. cbn [cells angles forward].
  change (fun i => beam_total (medium forward i) 0%nat) with (fun _ : nat => 1). apply forward_transport.
  assert (S : forall m i, (m < 2)%nat -> (i < 2)%nat -> aniso_emission forward 1 2 beam_scatter beam_ext beam_flux beam_psi 0 m i = if Nat.eqb m 0 then beam_flux i 0%nat / 2 + beam_u i else beam_flux i 0%nat / 2 - beam_u i).
  { intros m i Hm Hi. unfold aniso_emission. cbn [rsum Nat.eqb]. destruct (beam_moments (beam_psi 0%nat) i) as [-> ->]. rewrite !legendre_one.
    unfold legendre. cbn [legendre_pair fst INR beam_ext at3 beam_scatter Nat.eqb].
    small m Hm; cbn [mu forward Nat.eqb].
    - match goal with |- context [?k * (gauss * ?x) * gauss] => replace (k * (gauss * x) * gauss) with (k * x * (gauss * gauss)) by ring end. rewrite Q.
      small i Hi; unfold beam_psi, beam_flux, beam_u; cbn [Nat.eqb Nat.ltb Nat.leb]; lra.
    - match goal with |- context [?k * (gauss * ?x) * - gauss] => replace (k * (gauss * x) * - gauss) with (- (k * x * (gauss * gauss))) by ring end. rewrite Q.
      small i Hi; unfold beam_psi, beam_flux, beam_u; cbn [Nat.eqb Nat.ltb Nat.leb]; lra. }
  rewrite !S by lia. change (bc_left forward) with 0%nat. change (bc_right forward) with 0%nat. rewrite !forward_vacuum, !beam_inflow by lia. cbn [Nat.eqb].
  split; [unfold beam_psi; cbn [Nat.eqb]; repeat split; lra|]. split; [unfold beam_psi; cbn [Nat.eqb Nat.ltb Nat.leb]; repeat split; lra|].
  intros i Hi. small i Hi; unfold beam_psi, beam_flux, beam_u; cbn [Nat.eqb Nat.ltb Nat.leb]; lra.
Qed.

(** the first pass from [beam_start] gives [beam_start] *)
Lemma beam_pass old (off : vec) leg legw flux mom :
  legendre_tables forward 2 leg legw -> (forall i, (i < 2)%nat -> off i = 0) ->
  (forall i, (i < 2)%nat -> snd old i 0%nat = beam_start i 0%nat /\ snd old i 1%nat = 0) ->
  slab_aniso_pass forward 2 (fun m => beam_total m 0%nat) (fun i l => beam_scatter (medium forward i) 0%nat 0%nat l * (2 * INR l + 1)) off
    (slice3 beam_ext 0) (slice3 beam_bnd 0) 0 leg legw old = Ok (flux, mom) ->
  forall i, (i < 2)%nat -> flux i = beam_start i 0%nat.
Proof.
  destruct old as [f0 m0]. cbn [snd]. intros HL Ho Hm E i Hi.
  destruct (aniso_pass_transport forward 2 _ _ off _ _ leg legw (f0, m0) flux mom (sound_divisors forward 1 beam_total forward_sound (fun _ _ _ _ => Rle_0_1) 0%nat Nat.lt_0_1) E) as (psi & T & _).
  cbn [cells angles forward] in T. change (fun i => beam_total (medium forward i) 0%nat) with (fun _ : nat => 1) in T. apply forward_transport in T.
  change (bc_left forward) with 0%nat in T. change (bc_right forward) with 0%nat in T. rewrite !forward_vacuum in T by lia.
  change (boundary_in (slice3 beam_bnd 0) (mu forward)) with (mg_boundary beam_bnd (mu forward) 0) in T. rewrite !beam_inflow in T by lia.
  cbn [rsum snd] in T. rewrite !Ho in T by lia. destruct (Hm 0%nat ltac:(lia)) as [M00 M01]. destruct (Hm 1%nat ltac:(lia)) as [M10 M11]. rewrite M00, M01, M10, M11 in T.
  destruct (HL 0%nat 0%nat ltac:(lia) ltac:(cbn; lia)) as [L0 _]. destruct (HL 0%nat 1%nat ltac:(lia) ltac:(cbn; lia)) as [L1 _]. rewrite L0, L1 in T.
  unfold legendre in T. cbn [legendre_pair fst INR slice3 at2 beam_ext at3 beam_scatter Nat.eqb beam_start cols2] in T.
  destruct T as ((A0 & A1 & A2) & (B0 & B1 & B2) & F). rewrite (F i Hi). small i Hi; cbn [beam_start Nat.eqb]; lra.
Qed.

Lemma beam_driver (off : vec) leg legw :
  legendre_tables forward 2 leg legw -> (forall i, (i < 2)%nat -> off i = 0) ->
  exists flux, slab_anisotropic_sn forward (fun i => beam_start i 0%nat) 2 (fun m => beam_total m 0%nat) (fun i l => beam_scatter (medium forward i) 0%nat 0%nat l * (2 * INR l + 1)) off
    (slice3 beam_ext 0) (slice3 beam_bnd 0) 0 leg legw = Ok flux /\ forall i, (i < 2)%nat -> flux i = beam_start i 0%nat.
Proof.
  intros HL Ho. unfold slab_anisotropic_sn. change count_nn with (S 99). cbn [iterate].
  destruct (slab_aniso_pass _ _ _ _ _ _ _ _ _ _ _) as [[flux mom]|e] eqn:E.
  2:{ rewrite slab_aniso_pass_ok in E by apply forward_sound. discriminate. }
  assert (F : forall i, (i < 2)%nat -> flux i = beam_start i 0%nat).
  { eapply (beam_pass _ off leg legw flux mom HL Ho); [|exact E]. intros i Hi. split; reflexivity. }
  cbn [bind].
  assert (B : below (rel_change (cells forward) (fst (flux, mom)) (fst (fun i => beam_start i 0%nat, fun x l : nat => if Nat.eqb l 0 then beam_start x 0%nat else 0))) change_nn = true).
  { cbn [fst]. apply below_settled. split.
    - intros i Hi. rewrite F by exact Hi. small i Hi; cbn; lra.
    - match goal with |- ?a < _ => replace a with 0 end; [unfold change_nn; apply Rinv_0_lt_compat, pow_lt; lra|]. symmetry. rewrite <- sqrt_0. f_equal. apply rsum_zero_ext. intros i Hi. rewrite F by exact Hi. unfold Rdiv. ring. }
  match goal with |- context [below ?c change_nn] => change (below c change_nn) with (below (rel_change (cells forward) (fst (flux, mom)) (fst (fun i => beam_start i 0%nat, fun x l : nat => if Nat.eqb l 0 then beam_start x 0%nat else 0))) change_nn) end.
  rewrite B. cbn [orb bind fst]. exists flux. split; [reflexivity|exact F].
Qed.

Lemma beam_stops given : usable_tables forward 2 given ->
  exists flux, source_iteration forward 1 beam_start beam_total (Scatter4 2 beam_scatter) beam_ext beam_bnd 1 given = Ok flux /\ agree2 2 1 flux beam_start.
Proof.
  intros Hg.
  assert (G : forall leg legw, legendre_tables forward 2 leg legw -> exists flux, source_iteration_aniso forward 1 2 beam_start beam_total beam_scatter beam_ext beam_bnd 1 leg legw = Ok flux /\ agree2 2 1 flux beam_start).
  { intros leg legw HL. unfold source_iteration_aniso. change count_gg with (S 99). cbn [iterate].
    assert (exists new, one_sweep_aniso forward 1 2 beam_total beam_scatter beam_ext beam_bnd 1 leg legw beam_start = Ok new /\ agree2 2 1 new beam_start) as (new & -> & A).
    { unfold one_sweep_aniso. cbn [for_up_err Nat.eqb bind].
      match goal with |- context [slab_anisotropic_sn _ _ _ _ _ ?o _ _ _ _ _] => destruct (beam_driver o leg legw HL) as (flux & E & F) end.
      { intros i Hi. rewrite off_scatter_eq by lia. unfold gs_off. cbn [rsum Nat.eqb]. destruct (Nat.ltb _ _); ring. }
      change (bidx (d3c beam_ext) 0) with 0%nat. change (bidx (d3c beam_bnd) 0) with 0%nat. rewrite E. cbn [bind].
      exists (set_col zeros2 0 flux). split; [reflexivity|].
      intros i g Hi Hgg. assert (g = 0)%nat as -> by lia. unfold set_col. cbn [Nat.eqb]. rewrite F by exact Hi. reflexivity. }
    cbn [bind].
    assert (B : below (rel_change2 (cells forward) 1 new beam_start) change_gg = true).
    { apply below_settled2. split.
      - intros i g Hi Hgg. rewrite A by assumption. small i Hi; cbn; lra.
      - match goal with |- ?a < _ => replace a with 0 end; [unfold change_gg; apply Rinv_0_lt_compat, pow_lt; lra|]. symmetry. rewrite <- sqrt_0. f_equal. apply rsum_zero_ext. intros i Hi. apply rsum_zero_ext. intros g Hgg.
        rewrite A by assumption. unfold Rdiv. ring. }
    rewrite B. cbn [orb]. exists new. split; [reflexivity|exact A]. }
  cbn [source_iteration]. destruct given as [[leg legw]|]; [apply G; exact Hg|].
  destruct (legendre_rows 2 (mu forward) ltac:(lia)) as (leg & El & Hl). rewrite El. cbn [bind]. apply G. intros l n Hll _. rewrite Hl by exact Hll. split; reflexivity.
Qed.
