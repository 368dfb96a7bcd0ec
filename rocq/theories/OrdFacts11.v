(** Hybrid BDF2 runs are of first order only. *)
From Coq Require Import Lra Lia Psatz.
From Verif Require Import Base BaseFacts SlabModel SlabSpec MgModel MgSpec MgFacts2 TimeModel TimeSpec TimeFacts TimeFacts2 TimeFacts4.
From Verif Require Import EnSpec EnFacts EnFacts2 EnFacts4 EnFacts6 OrdSpec TimeWitness.
Open Scope R_scope.
Local Ltac small i Hi := destruct i as [|[|i]]; cbn in Hi; try lia.

Lemma lone_sound : sound_slab lone.
Proof.
  split; [intros; cbn; lra|]. split; [intros; cbn; lra|]. split; [intros m Hm; small m Hm; cbn; lra|]. left. cbn. lia.
Qed.

Lemma lone_reflected psi m : reflected_in 1 2 (fun m => if Nat.eqb m 0 then 1 / 2 else - (1 / 2)) 0 0 psi m = 0.
Proof.
  unfold reflected_in, leaves_reflective. destruct (Nat.ltb _ m); [|reflexivity]. cbn [Nat.eqb andb].
  repeat (destruct (Rlt_dec _ _)); reflexivity.
Qed.

(** one group of one step, the inflow being [b] *)
Lemma lone_step (D e : R) b (E : nat -> R) m psi t : (m < 2)%nat ->
  psi = (E 0%nat + E 1%nat) / 2 ->
  D / unit_speed t + mu lone m / dx lone 0%nat * (E 1%nat - E 0%nat) + 1 * psi = e ->
  E (inflow_edge 1 (mu lone m)) = b ->
  D + 2 * psi = e + b.
Proof.
  intros Hm -> H1 H2. unfold unit_speed in H1. unfold inflow_edge in H2. small m Hm; cbn [mu dx lone Nat.eqb] in *.
  - destruct (Rlt_dec 0 (1 / 2)); [|lra]. lra.
  - destruct (Rlt_dec 0 (- (1 / 2))); [lra|]. lra.
Qed.

Lemma lone_equation (deriv : mat3) emit E psi bnd ext g m X :
  (g < 2)%nat -> (m < 2)%nat ->
  step_equation lone 2 unit_speed lone_total X ext bnd deriv emit E psi ->
  deriv 0%nat m g + 2 * psi 0%nat m g =
    rsum 2 (fun h => X 0%nat g h * emit 0%nat h) + at3 ext 0%nat (bidx (d3b ext) m) (bidx (d3c ext) g) + mg_boundary bnd (mu lone) g m.
Proof.
  intros Hg Hm H. destruct (H g m Hg Hm) as (H1 & H2). destruct (H1 0%nat ltac:(cbn; lia)) as (H3 & H4).
  cbn [cells angles bc_left bc_right mu] in H2. change (reflected_in (cells lone) _ _ _ _ _ m) with (reflected_in 1 2 (fun m => if Nat.eqb m 0 then 1 / 2 else - (1 / 2)) 0 0 (E g) m) in H2.
  rewrite lone_reflected in H2.
  eapply (lone_step _ _ _ (fun i => E g m i) m _ g Hm H3); [|etransitivity; [exact H2|apply Rplus_0_l]]. unfold lone_total in H4. cbn [medium lone] in H4. exact H4.
Qed.

Lemma lone_boundary k g m : mg_boundary (step_row lone_bnd k) (mu lone) g m = 1.
Proof. reflexivity. Qed.
Lemma lone_external k m g : (g < 2)%nat -> at3 (step_row lone_ext k) 0%nat (bidx (d3b (step_row lone_ext k)) m) (bidx (d3c (step_row lone_ext k)) g)
  = if Nat.eqb g 0 then 1 else 0.
Proof. intros Hg. small g Hg; reflexivity. Qed.

(** one step of either kind, from the fluxes [old] and [older] *)
Definition step_from (k : nat) (dt new old older : R) : R :=
  match k with O => (new - old) / dt | _ => (3 * new - 4 * old + older) / (2 * dt) end.

Lemma lone_derivative dt psi k m g new : run_derivative true dt psi k new 0%nat m g =
  step_from k dt (new 0%nat m g) (psi k 0%nat m g) (psi (k - 1)%nat 0%nat m g).
Proof. destruct k; cbn [run_derivative step_from]; [reflexivity|]. unfold bdf2_derivative. replace (S k - 1)%nat with k by lia. reflexivity. Qed.

Lemma step_flat k dt new old older : 0 < dt -> old = 1 -> older = 1 -> step_from k dt new old older + 2 * new = 2 -> new = 1.
Proof.
  intros Hdt -> -> H. assert (P : 0 < / dt) by (apply Rinv_0_lt_compat; lra). assert (Q : / (2 * dt) = / dt / 2) by (field; lra).
  destruct k; cbn [step_from] in H; unfold Rdiv in H.
  - assert (Z : (new - 1) * (/ dt + 2) = 0) by lra. apply Rmult_integral in Z. destruct Z; lra.
  - rewrite Q in H. assert (Z : (new - 1) * (3 / 2 * / dt + 2) = 0) by lra. apply Rmult_integral in Z. destruct Z; lra.
Qed.

Lemma step_known k dt new old older : 0 < dt -> old = 1 -> older = 1 ->
  step_from k dt new old older + 2 * new = 2 -> new = 1.
Proof. exact (step_flat k dt new old older). Qed.

(** group 0 stays flat *)
Lemma lone_group0 dt psi emit steps : 0 < dt -> (forall m, (m < 2)%nat -> psi 0%nat 0%nat m 0%nat = 1) ->
  time_history true lone 2 unit_speed dt lone_total (total_transfer lone_down no_fission) (step_row lone_ext) (step_row lone_bnd) steps psi emit ->
  forall k, (k <= steps)%nat -> forall m, (m < 2)%nat -> psi k 0%nat m 0%nat = 1.
Proof.
  intros Hdt H0 HH k. induction k as [k IH] using lt_wf_ind. intros Hk m Hm. destruct k as [|k]; [exact (H0 m Hm)|].
  destruct (HH k ltac:(lia)) as (E & HE). apply (lone_equation _ _ _ _ _ _ 0%nat m) in HE; [|lia|exact Hm].
  rewrite lone_external, lone_boundary, lone_derivative in HE by lia. cbn [rsum Nat.eqb] in HE.
  unfold total_transfer, lone_down, no_fission, fission_entry in HE. cbn [Nat.eqb andb] in HE.
  apply (step_flat k dt _ _ _ Hdt (IH k ltac:(lia) ltac:(lia) m Hm) (IH (k - 1)%nat ltac:(lia) ltac:(lia) m Hm)). lra.
Qed.

(** the uncollided flux of group 0 is the flat one as well *)
Lemma lone_uncollided dt psi k fu : 0 < dt ->
  (forall j, (j <= k)%nat -> forall m, (m < 2)%nat -> psi j 0%nat m 0%nat = 1) ->
  uncollided_flux true lone 2 unit_speed dt lone_total (step_row lone_ext k) (step_row lone_bnd k) psi k fu ->
  fu 0%nat 0%nat = 1.
Proof.
  intros Hdt Hpsi (E & p & HE & HA). rewrite (HA 0%nat 0%nat) by (cbn; lia). unfold scalar_flux. cbn [angles lone rsum wt].
  assert (G : forall m, (m < 2)%nat -> p 0%nat m 0%nat = 1).
  { intros m Hm. pose proof (lone_equation _ _ _ _ _ _ 0%nat m _ ltac:(lia) Hm HE) as Q.
    rewrite lone_external, lone_boundary, lone_derivative in Q by lia. cbn [rsum Nat.eqb] in Q.
    apply (step_flat k dt _ _ _ Hdt (Hpsi k ltac:(lia) m Hm) (Hpsi (k - 1)%nat ltac:(lia) m Hm)). lra. }
  rewrite !G by lia. lra.
Qed.

(** the collided flux is not negligible *)
Lemma lone_solution T X src sol : mg_solution lone 1 T X src no_inflow sol ->
  (forall m, (m < 2)%nat -> at3 src 0%nat (bidx (d3b src) m) (bidx (d3c src) 0%nat) = 1) ->
  (T 0%nat 0%nat + 1 - X 0%nat 0%nat 0%nat) * sol 0%nat 0%nat = 1.
Proof.
  intros (psi & H) Hq. destruct (H 0%nat ltac:(lia)) as (H1 & H2 & H3).
  pose proof (H1 0%nat ltac:(cbn; lia) 0%nat ltac:(cbn; lia)) as A0. pose proof (H1 1%nat ltac:(cbn; lia) 0%nat ltac:(cbn; lia)) as A1.
  pose proof (H2 0%nat ltac:(cbn; lia)) as B0. pose proof (H2 1%nat ltac:(cbn; lia)) as B1. specialize (H3 0%nat ltac:(cbn; lia)).
  cbn [cells angles bc_left bc_right] in B0, B1.
  change (reflected_in (cells lone) _ _ _ _ _ 0%nat) with (reflected_in 1 2 (fun m => if Nat.eqb m 0 then 1 / 2 else - (1 / 2)) 0 0 (psi 0%nat) 0%nat) in B0.
  change (reflected_in (cells lone) _ _ _ _ _ 1%nat) with (reflected_in 1 2 (fun m => if Nat.eqb m 0 then 1 / 2 else - (1 / 2)) 0 0 (psi 0%nat) 1%nat) in B1.
  rewrite lone_reflected in B0, B1. unfold mg_boundary, no_inflow, inflow_edge in B0, B1. unfold mg_source in A0, A1. rewrite Hq in A0 by lia. rewrite Hq in A1 by lia.
  cbn [at3 mu dx medium cells lone Nat.eqb rsum wt angles] in *.
  destruct (Rlt_dec 0 (1 / 2)); [|lra]. destruct (Rlt_dec 0 (- (1 / 2))); [lra|]. rewrite B0 in *. rewrite B1 in *. rewrite H3 in *.
  set (x := psi 0%nat 0%nat 1%nat) in *. set (y := psi 0%nat 1%nat 0%nat) in *. lra.
Qed.

Lemma lone_collided dt w T X src flux : 0 < dt <= 1 -> 1 <= w <= 3 / 2 -> (T 0%nat 0%nat = 1 + w / dt) -> X 0%nat 0%nat 0%nat = 1 / 2 ->
  (forall m, (m < 2)%nat -> at3 src 0%nat (bidx (d3b src) m) (bidx (d3c src) 0%nat) = 1) ->
  source_iteration_iso lone 1 zeros2 T X src no_inflow 1 = Ok flux ->
  dt / 8 <= flux 0%nat 0%nat.
Proof.
  intros Hdt Hw HT HX Hq HF. assert (P : 1 <= / dt) by (rewrite <- Rinv_1; apply Rinv_le_contravar; lra).
  assert (HTp : 2 <= T 0%nat 0%nat). { rewrite HT. unfold Rdiv. assert (1 * 1 <= w * / dt); [|lra]. apply Rmult_le_compat; lra. }
  assert (Z : forall i h, (i < cells lone)%nat -> (h < 1)%nat -> 0 <= T (medium lone i) h).
  { intros i h Hi Hh. replace h with 0%nat by lia. cbn [medium lone]. lra. }
  assert (HW : rsum (angles lone) (wt lone) = 1) by (cbn; lra).
  assert (HK : coupled_below lone 1 T X (1 / 4)).
  { exists (fun _ _ => 1 / 4). split; [intros; lra|]. split; [intros; cbn; lra|]. intros i g h Hi Hg Hh.
    replace g with 0%nat by lia. replace h with 0%nat by lia. cbn [medium lone]. rewrite sqrt_square, HX, Rabs_pos_eq by lra. lra. }
  destruct (coupled_exactly_one lone 1 T X src no_inflow (1 / 4) lone_sound Z ltac:(lra) ltac:(rewrite HW; lra) HK) as (sol & Hsol & _).
  pose proof (lone_solution T X src sol Hsol Hq) as HS. rewrite HX in HS.
  assert (S0 : 0 < sol 0%nat 0%nat).
  { apply Rmult_lt_reg_l with (T 0%nat 0%nat + 1 - 1 / 2); lra. }
  assert (S1 : dt / 3 <= sol 0%nat 0%nat).
  { apply Rmult_le_reg_l with (T 0%nat 0%nat + 1 - 1 / 2); [lra|]. rewrite HS, HT. 
    replace ((1 + w / dt + 1 - 1 / 2) * (dt / 3)) with ((3 / 2 * dt + w) / 3) by (field; lra). lra. }
  destruct (outer_energy lone 1 T X (1 / 4) lone_sound Z ltac:(lra) ltac:(rewrite HW; lra) HK src no_inflow zeros2 flux sol Hsol HF) as (n & Hn & HE & _).
  set (t := T 0%nat 0%nat) in *.
  assert (RN : forall f, reaction_norm lone (fun m => T m 0%nat) f = sqrt t * Rabs (f 0%nat)).
  { intros f. unfold reaction_norm. cbn [cells lone rsum dx medium]. fold t. rewrite <- sqrt_Rsqr_abs, <- sqrt_mult_alt by lra. apply f_equal. cbv beta. ring. }
  specialize (HE (sqrt t * Rabs (zeros2 0%nat 0%nat - sol 0%nat 0%nat)) ltac:(apply Rmult_le_pos; [apply sqrt_pos|apply Rabs_pos])).
  assert (A : near_energy lone 1 T (sqrt t * Rabs (zeros2 0%nat 0%nat - sol 0%nat 0%nat)) zeros2 sol).
  { intros h Hh. replace h with 0%nat by lia. rewrite RN. lra. }
  specialize (HE A 0%nat ltac:(lia)). rewrite RN in HE. rewrite HW in HE. change (zeros2 0%nat 0%nat) with 0 in HE.
  assert (Q : (1 * (1 / 4)) ^ n <= 1 / 4).
  { destruct n as [|n]; [lia|]. cbn [pow]. assert (QQ : (1 * (1 / 4)) ^ n <= 1 ^ n) by (apply pow_incr; lra). rewrite pow1 in QQ. lra. }
  assert (ST : 0 < sqrt t) by (apply sqrt_lt_R0; lra).
  assert (B : Rabs (0 - sol 0%nat 0%nat) = sol 0%nat 0%nat) by (rewrite Rabs_minus_sym, Rabs_pos_eq; lra). rewrite B in HE.
  assert (C : Rabs (flux 0%nat 0%nat - sol 0%nat 0%nat) <= 1 / 4 * sol 0%nat 0%nat).
  { apply Rmult_le_reg_l with (sqrt t); [exact ST|]. eapply Rle_trans; [exact HE|].
    replace (sqrt t * (1 / 4 * sol 0%nat 0%nat)) with (1 / 4 * (sqrt t * sol 0%nat 0%nat)) by ring.
    apply Rmult_le_compat_r; [apply Rmult_le_pos; lra|exact Q]. }
  assert (D : - (1 / 4 * sol 0%nat 0%nat) <= flux 0%nat 0%nat - sol 0%nat 0%nat) by (pose proof (Rabs_def2 (sol 0%nat 0%nat - flux 0%nat 0%nat)); unfold Rabs in *; destruct (Rcase_abs _); lra).
  lra.
Qed.

Lemma lone_total_run steps dt : exists ft, lone_run steps dt = Ok ft.
Proof.
  apply hybrid_total; [apply lone_sound|left; reflexivity|left; reflexivity|split; [left|right]; reflexivity].
Qed.

Lemma bounded_search n (f : nat -> R) c : (forall k, (k < n)%nat -> f k <= c) \/ exists k, (k < n)%nat /\ c < f k.
Proof.
  induction n as [|n IH]; [left; intros; lia|]. destruct IH as [IH|(k & Hk & H)]; [|right; exists k; split; [lia|exact H]].
  destruct (Rlt_dec c (f n)) as [H|H]; [right; exists n; split; [lia|exact H]|]. left. intros k Hk.
  destruct (Nat.eq_dec k n) as [->|Hn]; [lra|apply IH; lia].
Qed.

(** what each step adds to the error of group 1 *)
Lemma lone_error steps dt ft : 0 < dt <= 1 -> lone_run steps dt = Ok ft ->
  exists e : nat -> R, e 0%nat = 0 /\ (forall k, (k < steps)%nat -> ft k 0%nat 1%nat - 1 = e (S k)) /\
    forall k, (k < steps)%nat -> dt / 16 <= step_from k dt (e (S k)) (e k) (e (k - 1)%nat) + 2 * e (S k).
Proof.
  intros Hdt E.
  assert (Hnz : nonzero_ordinates (angles lone) (mu lone)) by apply lone_sound.
  assert (Hpos : forall k i g, (i < cells lone)%nat -> (g < 2)%nat -> 0 < effective_total (run_weight true k) lone_total unit_speed dt (medium lone i) g).
  { intros k i g _ _. unfold effective_total, lone_total, unit_speed. assert (P : 0 < run_weight true k) by (unfold run_weight; destruct k; lra).
    pose proof (Rdiv_lt_0_compat (run_weight true k) (1 * dt) P ltac:(lra)). lra. }
  unfold lone_run in E.
  destruct (hybrid_history_gen true lone lone 1 2 1 unit_flux lone_total lone_total lone_down lone_coarse
    (FissionMatrix (fun _ _ _ => 0)) (FissionMatrix (fun _ _ _ => 0)) unit_speed unit_speed lone_ext lone_bnd (fun _ => 0%nat) (fun _ => 1 / 2) steps dt
    ltac:(cbn; lia) Hnz ltac:(cbn; intros; lia) ltac:(intros; unfold unit_speed; lra) ltac:(lra) ft) as (Xc & psi & fu & fc & HXc & H0 & HH & HR);
    [|exact E|].
  { intros k Hk. apply (sound_divisors lone 2 _ lone_sound). intros i h Hi Hh. left. apply Hpos; assumption. }
  assert (F : forall k, (k <= steps)%nat -> forall m, (m < 2)%nat -> psi k 0%nat m 0%nat = 1).
  { apply (lone_group0 dt psi (fun k => recombined (fun _ => 0%nat) (fun _ => 1 / 2) (fu k) (fc k)) steps ltac:(lra)); [|exact HH].
    intros m Hm. rewrite H0. reflexivity. }
  exists (fun k => scalar_flux lone (psi k) 0%nat 1%nat - 1). split; [|split].
  - rewrite H0. unfold scalar_flux. cbn. unfold unit_flux. lra.
  - intros k Hk. destruct (HR k Hk) as (R1 & _). rewrite R1. reflexivity.
  - intros k Hk. destruct (HR k Hk) as (R1 & R2 & src & R3 & R4 & R5 & R6).
    assert (U : fu k 0%nat 0%nat = 1) by (apply (lone_uncollided dt psi k (fu k) ltac:(lra)); [intros; apply F; [lia|assumption]|exact R2]).
    assert (C : dt / 8 <= fc k 0%nat 0%nat).
    { apply (lone_collided dt (run_weight true k) _ Xc src (fc k) Hdt) in R6; [exact R6|unfold run_weight; destruct k; lra| | |].
      - unfold effective_total, lone_total, unit_speed. rewrite Rmult_1_l. reflexivity.
      - transitivity (total_transfer lone_coarse (FissionMatrix (fun _ _ _ => 0)) (medium lone 0) 0%nat 0%nat); [apply HXc; cbn; lia|].
        unfold total_transfer, lone_coarse, fission_entry. lra.
      - intros m Hm. rewrite R5 by (cbn; lia). unfold first_collisions, collected. cbn [at3 rsum Nat.eqb].
        unfold total_transfer, lone_down, fission_entry. cbn [Nat.eqb andb]. rewrite R4. cbn [bidx Nat.eqb]. rewrite U. ring. }
    destruct (HH k Hk) as (Ek & HE).
    assert (G : forall m, (m < 2)%nat -> step_from k dt (psi (S k) 0%nat m 1%nat) (psi k 0%nat m 1%nat) (psi (k - 1)%nat 0%nat m 1%nat)
              + 2 * psi (S k) 0%nat m 1%nat = 2 + fc k 0%nat 0%nat / 2).
    { intros m Hm. pose proof (lone_equation _ _ _ _ _ _ 1%nat m _ ltac:(lia) Hm HE) as Q.
      rewrite lone_external, lone_boundary, lone_derivative in Q by lia. cbn [rsum Nat.eqb] in Q.
      unfold total_transfer, lone_down, fission_entry, recombined in Q. cbn [Nat.eqb andb] in Q. rewrite U in Q. lra. }
    pose proof (G 0%nat ltac:(lia)) as G0. pose proof (G 1%nat ltac:(lia)) as G1.
    unfold scalar_flux. cbn [angles lone rsum wt].
    set (a0 := psi (S k) 0%nat 0%nat 1%nat) in *. set (a1 := psi (S k) 0%nat 1%nat 1%nat) in *.
    set (b0 := psi k 0%nat 0%nat 1%nat) in *. set (b1 := psi k 0%nat 1%nat 1%nat) in *.
    set (c0 := psi (k - 1)%nat 0%nat 0%nat 1%nat) in *. set (c1 := psi (k - 1)%nat 0%nat 1%nat 1%nat) in *.
    clearbody a0 a1 b0 b1 c0 c1.
    destruct k as [|k]; cbn [step_from] in *; unfold Rdiv in *; [generalize dependent (/ dt)|generalize dependent (/ (2 * dt))]; intros; lra.
Qed.

(** the largest error of a run up to time one is of the size of the step *)
Lemma lone_lower steps dt ft : (2 <= steps)%nat -> dt = 1 / INR steps -> lone_run steps dt = Ok ft ->
  exists k, (k < steps)%nat /\ dt / 224 < Rabs (ft k 0%nat 1%nat - 1).
Proof.
  intros Hs Hd E. assert (S2 : 2 <= INR steps) by (apply (le_INR 2 steps) in Hs; cbn [INR] in Hs; lra).
  assert (Hdt : 0 < dt <= / 2).
  { rewrite Hd. unfold Rdiv. rewrite Rmult_1_l. split; [apply Rinv_0_lt_compat; lra|apply Rinv_le_contravar; lra]. }
  destruct (lone_error steps dt ft ltac:(lra) E) as (e & E0 & E1 & E2).
  destruct (bounded_search steps (fun k => Rabs (ft k 0%nat 1%nat - 1)) (dt / 224)) as [B|B]; [exfalso|exact B].
  assert (A : forall k, (k <= steps)%nat -> - (dt / 224) <= e k <= dt / 224).
  { intros [|k] Hk; [rewrite E0; lra|]. specialize (B k ltac:(lia)). cbv beta in B. rewrite E1 in B by lia.
    split; unfold Rabs in B; destruct (Rcase_abs _); lra. }
  assert (D : forall k, (k < steps)%nat -> 3 * e 1%nat - e 0%nat + INR k * (dt * dt / 12) <= 3 * e (S k) - e k).
  { intros k. induction k as [|k IH]; intros Hk; [cbn [INR]; lra|]. specialize (IH ltac:(lia)). pose proof (E2 (S k) Hk) as Q.
    cbn [step_from] in Q. replace (S k - 1)%nat with k in Q by lia. pose proof (A (S (S k)) ltac:(lia)) as A2.
    assert (Q' : dt / 16 - 2 * (dt / 224) <= (3 * e (S (S k)) - 4 * e (S k) + e k) / (2 * dt)) by lra.
    apply (Rmult_le_compat_r (2 * dt)) in Q'; [|lra].
    replace ((3 * e (S (S k)) - 4 * e (S k) + e k) / (2 * dt) * (2 * dt)) with (3 * e (S (S k)) - 4 * e (S k) + e k) in Q' by (field; lra).
    assert (Q2 : dt * dt / 12 <= (dt / 16 - 2 * (dt / 224)) * (2 * dt)) by nra.
    rewrite S_INR. lra. }
  specialize (D (steps - 1)%nat ltac:(lia)). replace (S (steps - 1)) with steps in D by lia.
  pose proof (A steps ltac:(lia)) as A1. pose proof (A (steps - 1)%nat ltac:(lia)) as A2. pose proof (A 1%nat ltac:(lia)) as A3. rewrite E0 in D.
  rewrite minus_INR in D by lia. cbn [INR] in D.
  assert (Q : INR steps * dt = 1) by (rewrite Hd; field; lra).
  assert (Q2 : (INR steps - 1) * (dt * dt / 12) = (1 - dt) * dt / 12) by (replace ((INR steps - 1) * (dt * dt / 12)) with ((INR steps * dt - dt) * dt / 12) by field; rewrite Q; reflexivity).
  rewrite Q2 in D. assert (Q3 : dt / 24 <= (1 - dt) * dt / 12) by nra. lra.
Qed.

Lemma lone_not_second : ~ exists dt0 K, 0 < dt0 /\ 0 <= K /\
  forall steps dt ft, 0 < dt -> dt <= dt0 -> INR steps * dt <= 1 -> lone_run steps dt = Ok ft ->
  forall k, (k < steps)%nat -> Rabs (ft k 0%nat 1%nat - 1) <= K * dt ^ 2.
Proof.
  intros (dt0 & K & Hd & HK & H). assert (P : 0 < / dt0) by (apply Rinv_0_lt_compat; exact Hd). assert (P2 : 0 <= 224 * K) by lra.
  assert (HU : exists steps, 2 + / dt0 + 224 * K < INR steps).
  { pose proof (archimed (2 + / dt0 + 224 * K)) as (A & _). exists (Z.to_nat (up (2 + / dt0 + 224 * K))).
    rewrite INR_IZR_INZ, Z2Nat.id; [lra|]. apply le_IZR. lra. }
  destruct HU as (steps & Hs).
  assert (S2 : (2 <= steps)%nat) by (apply INR_le; cbn [INR]; lra).
  destruct (lone_total_run steps (1 / INR steps)) as (ft & E).
  destruct (lone_lower steps (1 / INR steps) ft S2 eq_refl E) as (k & Hk & L).
  assert (D : 0 < 1 / INR steps) by (apply Rdiv_lt_0_compat; lra).
  specialize (H steps (1 / INR steps) ft D).
  assert (L1 : 1 / INR steps <= dt0).
  { unfold Rdiv. rewrite Rmult_1_l. rewrite <- (Rinv_inv dt0). apply Rinv_le_contravar; lra. }
  specialize (H L1 ltac:(right; field; lra) E k Hk).
  set (d := 1 / INR steps) in *. assert (Q : d / 224 < K * d ^ 2) by lra. 
  assert (Q2 : INR steps * d = 1) by (unfold d; field; lra).
  assert (Q3 : d * (224 * K) < d * INR steps) by (apply Rmult_lt_compat_l; lra).
  assert (Q4 : d * (d * (224 * K)) < d * 1) by (apply Rmult_lt_compat_l; lra). cbn [pow] in Q. lra.
Qed.

(** one everywhere solves the problem, and every step of the unsplit scheme *)
Lemma lone_flat (t0 t1 : R) steps dt : 0 < dt ->
  let transfer := total_transfer lone_down (FissionMatrix (fun _ _ _ => 0)) in
  evolves lone 2 unit_speed lone_total transfer (fun _ => step_row lone_ext 0) (fun _ => step_row lone_bnd 0) t0 t1 (fun _ => unit_flux) (fun _ _ _ _ => 0) /\
  exact_history true lone 2 unit_speed dt lone_total transfer (step_row lone_ext) (step_row lone_bnd) steps (fun _ => unit_flux).
Proof.
  intros Hdt transfer. assert (H : forall k (deriv : mat3), (forall i m g, deriv i m g = 0) ->
    step_equation lone 2 unit_speed lone_total transfer (step_row lone_ext k) (step_row lone_bnd k) deriv (scalar_flux lone unit_flux) (fun _ _ _ => 1) unit_flux).
  { intros k deriv Hd g m Hg Hm. split.
    - intros i Hi. split; [unfold unit_flux; lra|]. rewrite Hd. replace i with 0%nat by (cbn in Hi; lia).
      assert (SF : forall h, scalar_flux lone unit_flux 0%nat h = 1) by (intros h; unfold scalar_flux, unit_flux; cbn; lra).
      cbn [rsum]. rewrite !SF. rewrite lone_external by lia. unfold transfer, total_transfer, lone_down, fission_entry, unit_speed, lone_total, unit_flux.
      small g Hg; cbn [Nat.eqb andb]; field; cbn; lra.
    - rewrite lone_boundary. change (1 = reflected_in 1 2 (fun m => if Nat.eqb m 0 then 1 / 2 else - (1 / 2)) 0 0 (fun _ _ => 1) m + 1).
      rewrite lone_reflected. ring. }
  split.
  - intros t _. exists (fun _ _ _ => 1). apply H. reflexivity.
  - intros k Hk. exists (fun _ _ _ => 1). apply H. intros i m g. destruct k; cbn [run_derivative]; unfold euler_derivative, bdf2_derivative, unit_flux; field; lra.
Qed.
Lemma lone_no_multiplication : no_multiplication lone 2 lone_total (total_transfer lone_down (FissionMatrix (fun _ _ _ => 0))).
Proof.
  intros i g Hi Hg. unfold total_transfer, lone_down, fission_entry, lone_total. cbn [angles lone rsum wt].
  small g Hg; cbn [rsum Nat.eqb andb]; rewrite ?Rplus_0_l, ?Rplus_0_r, ?Rabs_R0, ?Rabs_R1; lra.
Qed.
Lemma lone_unit i g : scalar_flux lone unit_flux i g = 1.
Proof. unfold scalar_flux, unit_flux. cbn. lra. Qed.
