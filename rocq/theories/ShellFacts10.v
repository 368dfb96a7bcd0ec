(** Spheres on which source iteration does not converge, the solution is not unique, or more incoming flux gives less flux. *)
From Coq Require Import Lra Lia Psatz.
From Verif Require Import Base BaseFacts SlabModel SlabSpec SlabFacts SlabFacts3 SphereModel SphereSpec SphereFacts SphereFacts2 MgModel MgSpec MgFacts MgFacts2 MgFacts3 MgFacts6 ShellSpec ShellFacts ShellFacts2 ShellFacts3 ShellFacts7 ShellFacts8.
Open Scope R_scope.
(** ** A void core in a scattering rim: the response to a unit emission of the rim *)
Definition rim_mu : vec := (fun i : nat => match i with O => (- (49 / 50)) | 1 => (- (9 / 20)) | 2 => (9 / 20) | _ => (49 / 50) end).
Definition rim_wt : vec := (fun i : nat => match i with O => (13 / 50) | 1 => (6 / 25) | 2 => (6 / 25) | _ => (13 / 50) end).
Definition rim_start : vec := (fun i : nat => match i with O => (4 / 3) | 1 => (4 / 3) | _ => 0 end).
Definition rim_psi : mat2 := (fun (m i : nat) => match m with O => (fun i : nat => match i with O => (4 / 3) | 1 => (121 / 92) | _ => 0 end) i | 1 => (fun i : nat => match i with O => (488683294 / 362418153) | 1 => (174734 / 133193) | _ => 0 end) i | 2 => (fun i : nat => match i with O => (4 / 3) | 1 => (4 / 3) | _ => (7326260530 / 2313961989) end) i | _ => (fun i : nat => match i with O => (4 / 3) | 1 => (4 / 3) | _ => (2118956808985 / 1703076023904) end) i end).
Definition rim_hm : mat2 := (fun (m i : nat) => match m with O => (fun i : nat => match i with O => (4 / 3) | _ => (2 / 3) end) i | 1 => (fun i : nat => match i with O => (4 / 3) | _ => (119 / 276) end) i | 2 => (fun i : nat => match i with O => (4 / 3) | _ => (2145843 / 532772) end) i | 3 => (fun i : nat => match i with O => (4 / 3) | _ => (19725976759 / 9255847956) end) i | _ => (fun i : nat => match i with O => (4 / 3) | _ => (10687368641497 / 8515380119520) end) i end).
Definition rim_hp : mat2 := (fun (m i : nat) => match m with O => (fun i : nat => match i with O => (121 / 92) | _ => (179 / 276) end) i | 1 => (fun i : nat => match i with O => (480910304 / 362418153) | _ => (1407679 / 1598316) end) i | 2 => (fun i : nat => match i with O => (4 / 3) | _ => (1455480763 / 3085282652) end) i | _ => (fun i : nat => match i with O => (4 / 3) | _ => (760145117201 / 1703076023904) end) i end).
Definition rim_phi : vec := (fun i : nat => match i with O => (12855813733 / 9664484080) | _ => (13663397612451 / 11353840159360) end).
Definition dip_mu : vec := (fun i : nat => match i with O => (- (1 / 2)) | _ => (1 / 2) end).
Definition dip_wt : vec := fun _ => / 2.
Definition dip_start : vec := (fun i : nat => match i with O => (4 / 9) | 1 => (- (2 / 3)) | _ => 1 end).
Definition dip_psi : mat2 := (fun (m i : nat) => match m with O => (fun i : nat => match i with O => (1883 / 3198) | 1 => (- (131 / 164)) | _ => 1 end) i | _ => (fun i : nat => match i with O => (- (1 / 9)) | 1 => (7 / 117) | _ => (- (70949 / 1573416)) end) i end).
Definition dip_hm : mat2 := (fun (m i : nat) => match m with O => (fun i : nat => match i with O => (- (1 / 9)) | _ => (1 / 6) end) i | 1 => (fun i : nat => match i with O => (- (1 / 9)) | _ => (17 / 492) end) i | _ => (fun i : nat => match i with O => (- (1 / 9)) | _ => (- (10393 / 524472)) end) i end).
Definition dip_hp : mat2 := (fun (m i : nat) => match m with O => (fun i : nat => match i with O => (- (1897 / 19188)) | _ => (17 / 492) end) i | _ => (fun i : nat => match i with O => (7 / 117) | _ => (- (10393 / 524472)) end) i end).
Definition dip_phi : vec := (fun i : nat => match i with O => (- (557 / 8528)) | _ => (113263 / 2097888) end).

Definition rim_sn : sn := mkSn 2 (fun i => i) (fun _ => 1) 4 rim_mu rim_wt 0 0.
Definition rim_total : mat2 := fun m _ => match m with O => 0 | _ => 4 end.
Definition rim_scatter (c : R) : mat3 := fun m _ _ => match m with O => 0 | _ => 4 * c end.
Definition no_source : arr3 := mkArr3 1 1 (fun _ _ _ => 0).
Lemma rim_sound : sound_sphere rim_sn.
Proof.
  unfold sound_sphere, rim_sn. cbn [angles mu wt cells dx]. split; [|split; [|split; [|split; [|split]]]].
  - intros m Hm. destruct m as [|[|[|[|m]]]]; cbn [rim_mu]; lra || lia.
  - intros m k Hm Hk. destruct m as [|[|[|[|m]]]], k as [|[|[|[|k]]]]; cbn [rim_mu]; lra || lia || (intros; lra) || (intros; lia).
  - intros k Hk. destruct k as [|[|[|[|k]]]]; cbn [rim_wt]; lra || lia.
  - cbn [rsum rim_mu rim_wt]. lra.
  - intros; lra.
  - intros m Hm. destruct m as [|[|[|[|m]]]]; [| | | |lia]; unfold tau_coef; cbn [rsum rim_mu rim_wt]; lra.
Qed.
Ltac cellcase i Hi := destruct i as [|[|i]]; [| |lia].
Lemma rim_response x : sphere_transport 2 4 rim_mu rim_wt (fun _ => 1) (fun i => rim_total i 0%nat)
  (fun _ i => match i with O => 0 | _ => 4 * x end) (fun i => match i with O => 0 | _ => 4 * x end) (fun _ => 0) 0
  (fun k => x * rim_start k) (fun m k => x * rim_psi m k) (fun m i => x * rim_hm m i) (fun m i => x * rim_hp m i) (fun i => x * rim_phi i).
Proof.
  unfold sphere_transport. repeat split.
  - intros i Hi. cellcase i Hi; cbn [rim_start rim_total]; lra.
  - cbn [rim_start]. lra.
  - intros i Hi. cellcase i Hi; cbn [rim_start rim_hm]; lra.
  - cellcase i H0; destruct m as [|[|[|[|m]]]]; [| | | |lia| | | | |lia]; cbn [rim_psi rim_hm rim_hp]; lra.
  - unfold sphere_area, ball_volume, code_rin, code_rout, alpha_coef.
    cellcase i H0; destruct m as [|[|[|[|m]]]]; [| | | |lia| | | | |lia]; cbn [rim_psi rim_hm rim_hp rsum rim_mu rim_wt INR Nat.ltb Nat.leb rim_total]; lra.
  - destruct m as [|[|[|[|m]]]]; [| | | |lia]; cbn [rim_psi rim_hm rim_mu]; lra.
  - destruct m as [|[|[|[|m]]]]; [| | | |lia]; cbn [rim_psi rim_hm rim_mu]; lra.
  - intros m i Hm Hi. assert (i = 1%nat) as -> by lia. unfold tau_coef.
    destruct m as [|[|[|[|m]]]]; [| | | |lia]; cbn [rim_psi rim_hm rim_mu rim_wt rsum]; lra.
  - intros m Hm _. destruct m as [|[|[|[|m]]]]; [| | | |lia]; cbn [rim_hm]; lra.
  - intros i Hi. cellcase i Hi; cbn [rsum rim_psi rim_wt rim_phi]; lra.
Qed.
Lemma rim_group c seen : ball_group rim_sn 1 rim_total (rim_scatter c) no_source no_source 0 seen (fun i => c * seen 1%nat 0%nat * rim_phi i).
Proof.
  set (x := c * seen 1%nat 0%nat). do 4 eexists.
  refine (ball_ext _ _ _ _ _ _ _ _ _ _ _ _ _ _ _ _ _ _ _ _ _ (rim_response x)); unfold mg_source; cbn [rsum rim_scatter rim_sn medium cells angles no_source at3].
  - intros m i _ Hi. change (i < 2)%nat in Hi. cellcase i Hi; cbn [rim_scatter]; subst x; lra.
  - intros i Hi. change (i < 2)%nat in Hi. cellcase i Hi; cbn [rim_scatter]; subst x; lra.
  - reflexivity.
Qed.
Lemma rim_group_is c seen out i : ball_group rim_sn 1 rim_total (rim_scatter c) no_source no_source 0 seen out -> (i < 2)%nat ->
  out i = c * seen 1%nat 0%nat * rim_phi i.
Proof.
  intros H Hi. refine (ball_group_unique rim_sn 1 rim_total (rim_scatter c) no_source no_source 0 seen seen out (fun i => c * seen 1%nat 0%nat * rim_phi i) rim_sound _ _ H (rim_group c seen) i Hi).
  - intros k Hk. cbn in Hk. cellcase k Hk; cbn; lra.
  - reflexivity.
Qed.
Lemma rim_totals i g : (i < cells rim_sn)%nat -> (g < 1)%nat -> 0 <= rim_total (medium rim_sn i) g.
Proof. intros Hi _. cbn in Hi. cellcase i Hi; cbn; lra. Qed.
Lemma rim_ratio c : 0 <= c -> mg_ratio rim_sn 1 rim_total (rim_scatter c) c.
Proof. intros Hc g i Hg Hi. cbn in Hi. cellcase i Hi; cbn [rsum rim_scatter rim_sn medium rim_total]; rewrite ?Rabs_R0; [lra|]. rewrite Rabs_right; lra. Qed.
Lemma rim_weights : rsum (angles rim_sn) (wt rim_sn) = 1.
Proof. cbn [rim_sn angles wt rsum rim_wt]. lra. Qed.
Lemma rim_many : let c := 11353840159360 / 13663397612451 in
  0 <= c < 1 /\ forall x, ball_solution rim_sn 1 rim_total (rim_scatter c) no_source no_source (fun i _ => x * c * rim_phi i).
Proof.
  intros c. split; [unfold c; lra|]. intros x g Hg. assert (g = 0%nat) as -> by lia.
  destruct (rim_group c (fun i _ => x * c * rim_phi i)) as (a & b & d & e & T). exists a, b, d, e.
  refine (ball_ext _ _ _ _ _ _ _ _ _ _ _ _ _ _ _ _ _ _ _ _ _ T); try reflexivity.
  intros i Hi. cbv beta. replace (c * (x * c * rim_phi 1%nat)) with (x * c); [reflexivity|]. unfold c. cbn [rim_phi]. lra.
Qed.
Definition rim_growth : R := 122970578512059 / 113538401593600.
Lemma rim_dark : ball_solution rim_sn 1 rim_total (rim_scatter (9 / 10)) no_source no_source (fun _ _ => 0).
Proof.
  intros g Hg. assert (g = 0%nat) as -> by lia. destruct (rim_group (9 / 10) (fun _ _ => 0)) as (a & b & d & e & T). exists a, b, d, e.
  refine (ball_ext _ _ _ _ _ _ _ _ _ _ _ _ _ _ _ _ _ _ _ _ _ T); try reflexivity. intros i Hi. cbv beta. ring.
Qed.
Lemma rim_zero other : ball_solution rim_sn 1 rim_total (rim_scatter (9 / 10)) no_source no_source other -> agree2 2 1 other (fun _ _ => 0).
Proof.
  intros H i g Hi Hg. assert (g = 0%nat) as -> by lia. specialize (H 0%nat ltac:(lia)).
  pose proof (rim_group_is _ _ _ 1%nat H ltac:(lia)) as E. cbv beta in E. change (rim_phi 1%nat) with (13663397612451 / 11353840159360) in E.
  assert (Z : other 1%nat 0%nat = 0) by lra.
  pose proof (rim_group_is _ _ _ i H Hi) as E2. cbv beta in E2. rewrite E2, Z. ring.
Qed.
Lemma rim_unsettled p (y : nat -> vec) n0 tol : (1 <= p)%nat -> y p 1%nat = rim_growth * y (p - 1)%nat 1%nat -> y (p - 1)%nat 1%nat <> 0 -> tol <= / 10 ^ 8 -> n0 = 2%nat -> ~ settled n0 (y p) (y (p - 1)%nat) tol.
Proof.
  intros Hp E Hn Ht -> [_ H]. apply (Rlt_irrefl (/ 10 ^ 8)). eapply Rle_lt_trans; [|eapply Rlt_le_trans; [exact H|exact Ht]].
  cbn [rsum]. eapply Rle_trans with (Rabs ((y p 1%nat - y (p - 1)%nat 1%nat) / y p 1%nat / INR 2)).
  - rewrite E. replace ((rim_growth * y (p - 1)%nat 1%nat - y (p - 1)%nat 1%nat) / (rim_growth * y (p - 1)%nat 1%nat) / INR 2) with ((1 - / rim_growth) / INR 2).
    + replace (/ rim_growth) with (113538401593600 / 122970578512059) by (unfold rim_growth; field). cbn [INR]. rewrite Rabs_right; lra.
    + cbn [INR]. field. repeat split; try exact Hn; unfold rim_growth; lra.
  - rewrite <- sqrt_Rsqr_abs. apply sqrt_le_1_alt. unfold Rsqr.
    pose proof (pow2_ge_0 ((y p 0%nat - y (p - 1)%nat 0%nat) / y p 0%nat / INR 2)). lra.
Qed.
Lemma rim_blows_up old given flux :
  source_iteration rim_sn 1 old rim_total (Scatter3 (rim_scatter (9 / 10))) no_source no_source 2 given = Ok flux ->
  flux 1%nat 0%nat = rim_growth ^ (100 * 100) * old 1%nat 0%nat.
Proof.
  intros E. destruct (ball_run _ _ _ _ _ _ _ _ _ rim_sound rim_totals E) as (n & x & Hn & X0 & -> & Xe & _ & Xs).
  assert (L : forall k, (k < n)%nat -> exists p, (1 <= p <= 100)%nat /\ x (S k) 1%nat 0%nat = rim_growth ^ p * x k 1%nat 0%nat /\ (x k 1%nat 0%nat <> 0 -> p = 100%nat)).
  { intros k Hk. destruct (Xs k 0%nat Hk ltac:(lia)) as (p & y & Hp & Y0 & Y1 & Ye & Ys). exists p. split; [exact Hp|].
    assert (Z : forall j, (j < p)%nat -> y (S j) 1%nat = rim_growth * y j 1%nat).
    { intros j Hj. rewrite (rim_group_is _ _ _ 1%nat (Ys j Hj)) by lia. unfold sweep_sees. cbn [Nat.ltb Nat.leb Nat.eqb].
      change (rim_phi 1%nat) with (13663397612451 / 11353840159360). unfold rim_growth. lra. }
    assert (Q : forall j, (j <= p)%nat -> y j 1%nat = rim_growth ^ j * x k 1%nat 0%nat).
    { induction j as [|j IJ]; intros Hj; [rewrite Y0; cbn [pow]; ring|]. rewrite Z by lia. rewrite IJ by lia. cbn [pow]. ring. }
    split; [change (x (S k) 1%nat 0%nat) with ((fun i => x (S k) i 0%nat) 1%nat); rewrite Y1; apply Q; lia|].
    intros Hx. destruct (Nat.eq_dec p 100) as [|Np]; [assumption|]. exfalso. specialize (Ye ltac:(lia)). revert Ye.
    apply rim_unsettled; [lia| | |lra|reflexivity].
    - replace p with (S (p - 1)) at 1 by lia. apply Z. lia.
    - rewrite Q by lia. apply Rmult_integral_contrapositive_currified; [apply pow_nonzero; unfold rim_growth; lra|exact Hx]. }
  subst old. destruct (Req_dec (x 0%nat 1%nat 0%nat) 0) as [Z|NZ].
  - assert (G : forall k, (k <= n)%nat -> x k 1%nat 0%nat = 0).
    { induction k as [|k IH]; intros Hk; [exact Z|]. destruct (L k ltac:(lia)) as (p & _ & -> & _). rewrite IH by lia. ring. }
    rewrite G, Z by lia. ring.
  - assert (G : forall k, (k <= n)%nat -> x k 1%nat 0%nat = rim_growth ^ (100 * k) * x 0%nat 1%nat 0%nat).
    { induction k as [|k IH]; intros Hk; [rewrite Nat.mul_0_r; cbn [pow]; ring|]. destruct (L k ltac:(lia)) as (p & _ & -> & Hp).
      rewrite IH in * by lia. rewrite Hp.
      - replace (100 * S k)%nat with (100 + 100 * k)%nat by lia. rewrite pow_add. ring.
      - apply Rmult_integral_contrapositive_currified; [apply pow_nonzero; unfold rim_growth; lra|exact NZ]. }
    destruct (Nat.eq_dec n 100) as [->|Nn]; [apply G; lia|]. exfalso. specialize (Xe ltac:(lia)).
    destruct (L (n - 1)%nat ltac:(lia)) as (p & Hp & E1 & H100). replace (S (n - 1)) with n in E1 by lia.
    assert (N1 : x (n - 1)%nat 1%nat 0%nat <> 0).
    { rewrite G by lia. apply Rmult_integral_contrapositive_currified; [apply pow_nonzero; unfold rim_growth; lra|exact NZ]. }
    rewrite (H100 N1) in E1. destruct Xe as [_ Xe]. cbn [cells rim_sn rsum] in Xe.
    pose (yy := fun j : nat => match j with O => fun _ : nat => x (n - 1)%nat 1%nat 0%nat | _ => fun _ : nat => x n 1%nat 0%nat end).
    apply (Rlt_irrefl (/ 10 ^ 8)). eapply Rle_lt_trans; [|exact Xe].
    eapply Rle_trans with (Rabs ((x n 1%nat 0%nat - x (n - 1)%nat 1%nat 0%nat) / x n 1%nat 0%nat / INR 2)).
    + rewrite E1. set (G100 := rim_growth ^ 100) in *.
      assert (B : 1 + 1 / 20 <= G100).
      { unfold G100. replace 100%nat with (1 + 99)%nat by reflexivity. rewrite pow_add, pow_1. apply Rle_trans with (rim_growth * 1); [unfold rim_growth; lra|].
        apply Rmult_le_compat_l; [unfold rim_growth; lra|apply pow_R1_Rle; unfold rim_growth; lra]. }
      replace ((G100 * x (n - 1)%nat 1%nat 0%nat - x (n - 1)%nat 1%nat 0%nat) / (G100 * x (n - 1)%nat 1%nat 0%nat) / INR 2) with ((1 - / G100) / INR 2).
      * assert (/ G100 <= / (1 + 1 / 20)) by (apply Rinv_le_contravar; lra). cbn [INR]. rewrite Rabs_right; lra.
      * cbn [INR]. field. split; [exact N1|lra].
    + rewrite <- sqrt_Rsqr_abs. apply sqrt_le_1_alt. unfold Rsqr.
      pose proof (pow2_ge_0 ((x n 0%nat 0%nat - x (n - 1)%nat 0%nat 0%nat) / x n 0%nat 0%nat / INR 2)). lra.
Qed.
(** ** An optically thick ball: more light from outside, less flux at the centre *)
Definition dip_sn : sn := mkSn 2 (fun _ => 0%nat) (fun _ => 1) 2 dip_mu dip_wt 0 0.
Lemma dip_sound : sound_sphere dip_sn.
Proof. apply (two_sound dip_sn (1 / 2)); try reflexivity; cbn [dip_sn mu dip_mu cells dx]; intros; lra. Qed.
Lemma dip_dark : ball_solution dip_sn 1 (fun _ _ => 10) (fun _ _ _ => 0) no_source no_source (fun _ _ => 0).
Proof.
  intros g Hg. exists (fun _ => 0), (fun _ _ => 0), (fun _ _ => 0), (fun _ _ => 0).
  unfold sphere_transport, dd_balance, shell_balance, mg_source. cbn [rsum no_source at3 dip_sn cells angles]. repeat split; intros; cbv zeta; try lra.
  all: unfold Rdiv; ring.
Qed.
Lemma dip_lit : ball_solution dip_sn 1 (fun _ _ => 10) (fun _ _ _ => 0) no_source (mkArr3 1 1 (fun _ _ _ => 1)) (fun i _ => dip_phi i).
Proof.
  intros g Hg. exists dip_start, dip_psi, dip_hm, dip_hp. unfold sphere_transport, mg_source. cbn [rsum no_source at3 dip_sn cells angles mu wt dx medium].
  repeat split.
  - intros i Hi. cellcase i Hi; cbn [dip_start]; lra.
  - intros i Hi. cellcase i Hi; cbn [dip_start dip_hm]; lra.
  - cellcase i H0; destruct m as [|[|m]]; [| |lia| | |lia]; cbn [dip_psi dip_hm dip_hp]; lra.
  - unfold sphere_area, ball_volume, code_rin, code_rout, alpha_coef.
    cellcase i H0; destruct m as [|[|m]]; [| |lia| | |lia]; cbn [dip_psi dip_hm dip_hp rsum dip_mu dip_wt INR Nat.ltb Nat.leb]; unfold dip_wt; lra.
  - destruct m as [|[|m]]; [| |lia]; cbn [dip_psi dip_hm dip_mu]; lra.
  - destruct m as [|[|m]]; [| |lia]; cbn [dip_psi dip_hm dip_mu]; lra.
  - intros m i Hm Hi. assert (i = 1%nat) as -> by lia. unfold tau_coef, dip_wt.
    destruct m as [|[|m]]; [| |lia]; cbn [dip_psi dip_hm dip_mu rsum]; lra.
  - intros m Hm _. destruct m as [|[|m]]; [| |lia]; cbn [dip_hm]; lra.
  - intros i Hi. cellcase i Hi; cbn [rsum dip_psi dip_phi]; unfold dip_wt; lra.
Qed.
