(** Concrete spherical problems: hypotheses are met, and counterexamples. *)
From Coq Require Import Lra Lia FunctionalExtensionality.
From Verif Require Import Base BaseFacts SlabModel SlabSpec SlabFacts SlabFacts3 SlabWitness
  SphereModel SphereSpec SphereFacts SphereFacts2.
Open Scope R_scope.

(** Two shells of width 1, two materials, ordinates -1/2 and 1/2. *)
Definition ball : sn :=
  mkSn 2 (fun i => i) (fun _ => 1) 2 (fun m => if Nat.eqb m 0 then - (1 / 2) else 1 / 2)
       (fun _ => 1 / 2) 1 0.

Lemma ball_nonzero : nonzero_ordinates (angles ball) (mu ball).
Proof. intros m Hm. small m Hm; cbn; lra. Qed.
Lemma ball_inward : inward_first (angles ball) (mu ball).
Proof. intros m k Hm Hk. small m Hm; small k Hk; cbn; try lra; intros; lia. Qed.
Lemma ball_weights k : (k < angles ball)%nat -> 0 < wt ball k.
Proof. intros _. cbn. lra. Qed.
Lemma ball_sum : rsum (angles ball) (fun k => mu ball k * wt ball k) = 0.
Proof. cbn. lra. Qed.
Lemma ball_tau m : (m < angles ball)%nat -> tau_coef (mu ball) (wt ball) m = 1 / 2.
Proof. intros Hm. small m Hm; unfold tau_coef; cbn; lra. Qed.
Lemma ball_cells i : (i < cells ball)%nat -> 0 < dx ball i /\ 0 <= demo_total (medium ball i).
Proof. intros Hi. small i Hi; cbn; lra. Qed.
Lemma ball_divisors : sphere_divisors ball demo_total.
Proof.
  apply sphere_divisors_positive.
  - exact ball_nonzero.
  - exact ball_inward.
  - exact ball_weights.
  - exact ball_sum.
  - exact ball_cells.
  - intros m Hm. rewrite ball_tau by exact Hm. lra.
Qed.

(** One shell of width 1, no material: used by the counterexamples. *)
Definition core : sn :=
  mkSn 1 (fun _ => 0%nat) (fun _ => 1) 2 (fun m => if Nat.eqb m 0 then - (1 / 2) else 1 / 2)
       (fun _ => 1 / 2) 1 0.
(** Two shells of different width, no material. *)
Definition uneven : sn :=
  mkSn 2 (fun _ => 0%nat) (fun i => if Nat.eqb i 0 then 1 else 2) 2
       (fun m => if Nat.eqb m 0 then - (1 / 2) else 1 / 2) (fun _ => 1 / 2) 1 0.
Definition one_src : arr2 := mkArr2 1 (fun _ _ => 1).
Definition no_src : arr2 := mkArr2 1 (fun _ _ => 0).

Lemma core_nonzero : nonzero_ordinates (angles core) (mu core).
Proof. intros m Hm. small m Hm; cbn; lra. Qed.
Lemma uneven_nonzero : nonzero_ordinates (angles uneven) (mu uneven).
Proof. intros m Hm. small m Hm; cbn; lra. Qed.
Lemma core_divisors : sphere_divisors core zeros.
Proof.
  apply sphere_divisors_positive.
  - exact core_nonzero.
  - exact ball_inward.
  - intros k _. cbn. lra.
  - cbn. lra.
  - intros i _. unfold zeros. cbn. lra.
  - intros m Hm. small m Hm; unfold tau_coef; cbn; lra.
Qed.
Lemma uneven_divisors : sphere_divisors uneven zeros.
Proof.
  apply sphere_divisors_positive.
  - exact uneven_nonzero.
  - exact ball_inward.
  - intros k _. cbn. lra.
  - cbn. lra.
  - intros i Hi. unfold zeros. small i Hi; cbn; lra.
  - intros m Hm. small m Hm; unfold tau_coef; cbn; lra.
Qed.

Lemma core_alpha : alpha_coef 2 (mu core) (wt core) 0 = 0 /\
  alpha_coef 2 (mu core) (wt core) 1 = 1 / 4 /\ alpha_coef 2 (mu core) (wt core) 2 = 0.
Proof. unfold alpha_coef. cbn. lra. Qed.

(** C18: a uniform source in a void ball: what leaks out is not what was emitted. *)
Lemma core_not_conserved start psi hm hp flux :
  sphere_transport (cells core) (angles core) (mu core) (wt core) (dx core) zeros
    (iso_source (medium core) zeros zeros one_src zeros)
    (fun i => zeros (medium core i) * zeros i + at2 one_src i 0%nat + zeros i)
    (fun m => at2 no_src 1%nat (bidx (cols2 no_src) m)) (at2 no_src 1%nat 0%nat)
    start psi hm hp flux ->
  shell_leakage (angles core) (mu core) (wt core) (code_rin (dx core)) (code_rout (dx core)) psi 0
  = 7 / 6 * PI /\
  (ball_volume (code_rout (dx core) 0%nat) - ball_volume (code_rin (dx core) 0%nat))
  * rsum (angles core) (fun m => wt core m * iso_source (medium core) zeros zeros one_src zeros m 0%nat)
  = 4 / 3 * PI.
Proof.
  destruct core_alpha as (A0 & A1 & A2). pose proof PI_RGT_0 as Hpi.
  intros (B & S1 & S0 & O & I & _ & Z & _). change (cells core) with 1%nat in *. change (angles core) with 2%nat in *.
  specialize (B 0%nat ltac:(lia)). specialize (S0 0%nat ltac:(lia)).
  destruct (O 0%nat ltac:(lia) 0%nat ltac:(lia)) as [C0 O0].
  destruct (O 1%nat ltac:(lia) 0%nat ltac:(lia)) as [C1 O1].
  destruct (I 0%nat ltac:(lia)) as [_ I0]. destruct (I 1%nat ltac:(lia)) as [I1 _].
  specialize (Z 0%nat ltac:(lia) ltac:(lia)).
  rewrite A0, A1 in O0. rewrite A1, A2 in O1. clear O I A0 A1 A2.
  unfold shell_leakage, sphere_area, ball_volume, code_rin, code_rout, iso_source, zeros in *.
  cbn in *.
  specialize (I0 ltac:(lra)). specialize (I1 ltac:(lra)).
  assert (Hs : start 0%nat = 1) by lra.
  assert (Hh : hm 0%nat 0%nat = 1 / 2) by lra.
  rewrite I0 in *. rewrite Hh in *.
  assert (Hp0 : PI * hp 0%nat 0%nat = PI * (2 / 3)) by lra.
  apply Rmult_eq_reg_l in Hp0; [|lra].
  rewrite Z in *. rewrite I1 in *.
  assert (Hp1 : PI * psi 1%nat 1%nat = PI * (7 / 6)) by lra.
  apply Rmult_eq_reg_l in Hp1; [|lra].
  rewrite Hp1. split; lra.
Qed.

(** C19: on a non-uniform mesh the balance with the true radii does not hold. *)
Lemma uneven_wrong_shells start psi hm hp flux :
  sphere_transport (cells uneven) (angles uneven) (mu uneven) (wt uneven) (dx uneven) zeros
    (iso_source (medium uneven) zeros zeros one_src zeros)
    (fun i => zeros (medium uneven i) * zeros i + at2 one_src i 0%nat + zeros i)
    (fun m => at2 no_src 1%nat (bidx (cols2 no_src) m)) (at2 no_src 1%nat 0%nat)
    start psi hm hp flux ->
  ~ shell_balance (cells uneven) (mesh_radius (dx uneven)) (fun i => mesh_radius (dx uneven) (S i))
      (mu uneven 0%nat) (wt uneven 0%nat)
      (alpha_coef (angles uneven) (mu uneven) (wt uneven) 0)
      (alpha_coef (angles uneven) (mu uneven) (wt uneven) 1)
      zeros (iso_source (medium uneven) zeros zeros one_src zeros 0%nat)
      (psi 0%nat) (hm 0%nat) (hp 0%nat).
Proof.
  destruct core_alpha as (A0 & A1 & A2). pose proof PI_RGT_0 as Hpi.
  intros (B & S1 & S0 & O & I & _ & Z & _) HB. change (cells uneven) with 2%nat in *. change (angles uneven) with 2%nat in *.
  change (alpha_coef 2 (mu uneven) (wt uneven)) with (alpha_coef 2 (mu core) (wt core)) in *.
  pose proof (B 1%nat ltac:(lia)) as B1. specialize (S0 1%nat ltac:(lia)).
  destruct (O 0%nat ltac:(lia) 1%nat ltac:(lia)) as [C0 O0].
  destruct (I 0%nat ltac:(lia)) as [_ I0].
  destruct (HB 1%nat ltac:(lia)) as [_ HB1].
  rewrite A0, A1 in O0, HB1. clear O I A0 A1 A2 HB B.
  unfold sphere_area, ball_volume, code_rin, code_rout, mesh_radius, iso_source, zeros in *.
  cbn in *. specialize (I0 ltac:(lra)).
  assert (Hs : start 1%nat = 2) by lra.
  assert (Hh : hm 0%nat 1%nat = 1) by lra.
  rewrite I0 in *. rewrite Hh in *.
  assert (E1 : psi 0%nat 1%nat = 1 + hp 0%nat 1%nat) by lra. rewrite E1 in *.
  assert (Hp0 : PI * hp 0%nat 1%nat = PI * (25 / 12)) by lra.
  assert (Hp1 : PI * hp 0%nat 1%nat = PI * (49 / 27)) by lra.
  lra.
Qed.

(** C13: the DJINN spherical sweep drops the surface source. *)
Lemma core_scatter_differs : exists f g,
  sphere_scatter_source_sn core zeros zeros no_src (mkArr2 1 (fun _ _ => 1)) = Ok f /\
  sphere_iso_pass core zeros zeros zeros no_src (mkArr2 1 (fun _ _ => 1)) 0 zeros = Ok g /\
  f 0%nat = 3 / 4 /\ g 0%nat = 1.
Proof.
  pose proof PI_RGT_0 as Hpi.
  unfold sphere_scatter_source_sn, sphere_iso_pass.
  cbn [angles core for_up_err bind mu wt Nat.eqb].
  destruct (Rlt_dec 0 (- (1 / 2))) as [H|_]; [exfalso; lra|].
  destruct (Rlt_dec (- (1 / 2)) 0) as [_|H]; [|exfalso; lra].
  destruct (Rlt_dec 0 (1 / 2)) as [_|H]; [|exfalso; lra].
  cbn. eexists. eexists. split; [reflexivity|]. split; [reflexivity|].
  unfold upd, zeros, angle_coef_corrector, area1, area2, volume. cbn.
  unfold zeros. split; field; lra.
Qed.
