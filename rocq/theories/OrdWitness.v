(** Concrete problems that meet the hypotheses of C136, C137 and C139: the thick slab [wide], two groups with scattering, one
    reflective side, and the fluxes t^2 and t^2 + y^2. *)
From Coq Require Import Lra Lia.
From Verif Require Import Base BaseFacts SlabModel SlabSpec SlabWitness MgModel MgSpec MgWitness TimeModel TimeSpec TimeFacts3 TimeWitness ManFacts ConvSpec.
From Verif Require Import TimeFacts4 EnSpec EnFacts7 EnWitness OrdSpec OrdFacts.
From Verif Require Import HybSpec MainModel MainSpec MainWitness TimeFacts6 OrdFacts18 OrdFacts20.
Open Scope R_scope.

Definition tick_transfer : mat3 := total_transfer tick_scatter no_fission.
(** source and inflow that make the flux t^2 a solution *)
Definition growing_source (t : R) : arr3 :=
  mkArr3 1 2 (fun i _ g => t + tick_total i g * t ^ 2 - rsum 2 (fun h => tick_transfer i g h * t ^ 2)).
Definition growing_inflow (t : R) : arr3 := mkArr3 1 1 (fun side _ _ => if Nat.eqb side 0 then t ^ 2 else 0).
Definition growing : R -> mat3 := fun t _ _ _ => t ^ 2.
Definition growing_slope : R -> mat3 := fun t _ _ _ => 2 * t.
Definition growing_ext (dt : R) : arr4 := mkArr4 3 1 2 (fun k => at3 (growing_source (time_at 0 dt (S k)))).
Definition growing_bnd (dt : R) : arr4 := mkArr4 3 1 1 (fun k => at3 (growing_inflow (time_at 0 dt (S k)))).

Lemma wide_flat E : reflected_in (cells wide) (angles wide) (mu wide) (bc_left wide) (bc_right wide) (fun _ _ => E) 0%nat = 0 /\
  reflected_in (cells wide) (angles wide) (mu wide) (bc_left wide) (bc_right wide) (fun _ _ => E) 1%nat = E.
Proof.
  unfold reflected_in, leaves_reflective, enters_reflective. cbn. destruct (Rlt_dec 0 (1 / 2)); [|lra]. destruct (Rlt_dec 0 (- (1 / 2))); [lra|]. cbn. split; reflexivity.
Qed.

Lemma growing_evolves t1 : evolves wide 2 tick_speed tick_total tick_transfer growing_source growing_inflow 0 t1 growing growing_slope.
Proof.
  intros t Ht. exists (fun _ _ _ => t ^ 2). intros g m Hg Hm. split.
  - intros i Hi. split; [unfold growing; field|].
    unfold growing, growing_slope, growing_source, scalar_flux, tick_speed. cbn [at3 d3b d3c]. generalize tick_transfer tick_total. intros X T.
    small i Hi; small g Hg; small m Hm; cbn; field.
  - destruct (wide_flat (t ^ 2)) as (A & B). unfold mg_boundary, growing_inflow. cbn [at3 d3b d3c]. small m Hm; cbv beta; rewrite ?A, ?B; cbn [mu wide Nat.eqb].
    + destruct (Rlt_dec 0 (1 / 2)); [cbn [Nat.eqb]; lra|lra].
    + destruct (Rlt_dec 0 (- (1 / 2))); [lra|cbn [Nat.eqb]; lra].
Qed.

Lemma growing_smooth two t1 : smooth_in_time two wide 2 0 t1 2 0 growing growing_slope.
Proof.
  intros i m g _ _ _. unfold growing, growing_slope.
  assert (D1 : forall t, derivable_pt_lim (fun t => t ^ 2) t (2 * t)).
  { intros t. eassert (D : derivable_pt_lim (fun t => t ^ 2) t _) by dauto. by_derivative D. ring. }
  assert (D2 : forall t, derivable_pt_lim (fun t => 2 * t) t 2).
  { intros t. eassert (D : derivable_pt_lim (fun t => 2 * t) t _) by dauto. by_derivative D. ring. }
  destruct two.
  - exists (fun _ => 2), (fun _ => 0). intros t _. split; [apply D1|]. split; [apply D2|]. split; [apply derivable_pt_lim_const|]. rewrite Rabs_R0, Rabs_pos_eq by lra. lra.
  - exists (fun _ => 2). intros t _. split; [apply D1|]. split; [apply D2|]. rewrite Rabs_pos_eq; lra.
Qed.

Lemma growing_rows dt : source_rows wide 2 0 dt 3 (step_row (growing_ext dt)) growing_source /\ inflow_rows wide 2 0 dt 3 (step_row (growing_bnd dt)) growing_inflow.
Proof. split; intros k; intros; reflexivity. Qed.

Lemma growing_runs two dt : exists ft,
  timed_run two wide 2 2 (growing 0) tick_total (Scatter3 tick_scatter) no_fission tick_speed (growing_ext dt) (growing_bnd dt) 3 dt 1 = Ok ft.
Proof.
  apply timed_total; [apply wide_sound|right; apply Nat.le_refl|right; apply Nat.le_refl|split; [left|right]; reflexivity].
Qed.

(** the same slab with the flux t^2 + y^2 *)
Definition wide_edges : vec := fun i => match i with O => 0 | 1%nat => 40 | _ => 60 end.
Definition curved : nat -> nat -> nat -> R -> R -> R := fun _ _ _ y t => t ^ 2 + y ^ 2.
Definition curved_slope : nat -> nat -> nat -> R -> R -> R := fun _ _ _ _ t => 2 * t.
Definition curved_source (t : R) : arr3 :=
  mkArr3 2 2 (fun i m g => let y := centre wide_edges i in
    t + mu wide m * (2 * y) + tick_total i g * (t ^ 2 + y ^ 2) - rsum 2 (fun h => tick_transfer i g h * (t ^ 2 + y ^ 2))).
Definition curved_inflow (t : R) : arr3 := mkArr3 1 1 (fun side _ _ => if Nat.eqb side 0 then t ^ 2 else 0).

Lemma curved_solves two t1 : transport_solution two wide 2 tick_speed tick_total tick_transfer curved_source curved_inflow wide_edges 0 t1 2 0 0 2 0 curved curved_slope.
Proof.
  assert (D2 : forall t, derivable_pt_lim (fun t => 2 * t) t 2).
  { intros t. eassert (D : derivable_pt_lim (fun t => 2 * t) t _) by dauto. by_derivative D. ring. }
  assert (DY : forall t y, derivable_pt_lim (fun y => t ^ 2 + y ^ 2) y (2 * y)).
  { intros t y. eassert (D : derivable_pt_lim (fun y => t ^ 2 + y ^ 2) y _) by dauto. by_derivative D. ring. }
  assert (DT : forall t y, derivable_pt_lim (fun t => t ^ 2 + y ^ 2) t (2 * t)).
  { intros t y. eassert (D : derivable_pt_lim (fun t => t ^ 2 + y ^ 2) t _) by dauto. by_derivative D. ring. }
  unfold curved, curved_slope. split; [|split; [|split; [|split]]].
  - intros g m i t Hg Hm Hi Ht. split.
    + exists (fun y => 2 * y), (fun _ => 2), (fun _ => 0). intros y Hy. split; [apply DY|]. split; [apply D2|]. split; [apply derivable_pt_lim_const|].
      rewrite Rabs_R0, Rabs_pos_eq by lra. lra.
    + exists (fun _ => 0), (fun _ => 0). intros y Hy. split; [apply derivable_pt_lim_const|]. split; [apply derivable_pt_lim_const|]. rewrite Rabs_R0; lra.
  - reflexivity.
  - intros g m i y Hg Hm Hi Hy. destruct two.
    + exists (fun _ => 2), (fun _ => 0). intros t _. split; [apply DT|]. split; [apply D2|]. split; [apply derivable_pt_lim_const|]. rewrite Rabs_R0, Rabs_pos_eq by lra. lra.
    + exists (fun _ => 2). intros t _. split; [apply DT|]. split; [apply D2|]. rewrite Rabs_pos_eq; lra.
  - intros g m i t Hg Hm Hi Ht. exists (2 * centre wide_edges i). split; [apply DY|].
    unfold curved_source, tick_speed. cbn [at3 d3b d3c]. generalize tick_transfer tick_total. intros X T. generalize (centre wide_edges). intros c.
    small i Hi; small g Hg; small m Hm; cbn; field.
  - intros g m t Hg Hm Ht. cbv zeta. unfold mg_boundary, curved_inflow, edge_value, inflow_edge, enters_reflective. cbn [at3 d3b d3c].
    small m Hm; cbn [mu wide Nat.eqb cells bc_left bc_right angles].
    + destruct (Rlt_dec 0 (1 / 2)); [|lra]. cbn. ring.
    + destruct (Rlt_dec 0 (- (1 / 2))); [lra|]. cbn. ring.
Qed.

Lemma wide_mesh : cell_edges wide wide_edges /\ (forall i, (i < cells wide)%nat -> dx wide i <= 40) /\
  ordered_for (angles wide) (mu wide) (bc_left wide) (bc_right wide).
Proof.
  split; [intros i Hi; small i Hi; cbn; lra|]. split; [intros i Hi; small i Hi; cbn; lra|].
  intros m Hm. small m Hm; unfold enters_reflective; cbn; [|intros; lia]. destruct (Rlt_dec 0 (1 / 2)); [discriminate|lra].
Qed.

(** A mesh of the manufactured problems: ten cells on (0, L), four ordinates. *)
Definition ten (L : R) : sn :=
  mkSn 10 (fun _ => 0%nat) (fun _ => L / 10) 4
       (fun m => match m with 0%nat => 9 / 10 | 1%nat => 1 / 3 | 2%nat => - (1 / 3) | _ => - (9 / 10) end)
       (fun m => match m with 0%nat | 3%nat => 1 / 5 | _ => 3 / 10 end) 0 0.
Definition ten_edges (L : R) : vec := fun i => INR i * (L / 10).
Ltac four i Hi := destruct i as [|[|[|[|i]]]]; cbn in Hi; try lia.
Lemma ten_case L : 0 < L -> sound_slab (ten L) /\ meshes (ten L) (ten_edges L) 0 L /\ angles (ten L) <> 1%nat /\
  (forall i, (i < cells (ten L))%nat -> (medium (ten L) i < 1)%nat) /\
  (forall m, (m < angles (ten L))%nat -> Rabs (mu (ten L) m) <= 1) /\ (forall i, (i < cells (ten L))%nat -> dx (ten L) i <= L / 10).
Proof.
  intros HL. split; [|split; [|split; [|split; [|split]]]].
  - split; [intros; cbn; lra|]. split; [intros m Hm; four m Hm; cbn; lra|]. split; [intros m Hm; four m Hm; cbn; lra|]. left. cbn. lia.
  - split; [intros i Hi; unfold ten_edges; rewrite S_INR; cbn [dx ten]; ring|]. split; [unfold ten_edges; cbn [INR]; ring|].
    split; [unfold ten_edges; cbn [cells ten]; rewrite INR_IZR_INZ; cbn [Z.of_nat Pos.of_succ_nat Pos.succ]; field|]. split; reflexivity.
  - cbn. lia.
  - intros; cbn; lia.
  - intros m Hm. apply Rabs_le. four m Hm; cbn; lra.
  - intros; cbn; lra.
Qed.

(** the coupling of the tick problem, at every step *)
Lemma tick_coupled two k dt : 0 < dt -> coupled_below wide 2 (effective_total (run_weight two k) tick_total tick_speed dt) tick_transfer (3 / 8).
Proof.
  intros Hdt. destruct wide_coupled as (c & C0 & C1 & C2). exists c. split; [exact C0|]. split; [exact C1|].
  intros i g h Hi Hg Hh. specialize (C2 i g h Hi Hg Hh). specialize (C0 g h Hg Hh).
  assert (PT : forall g, (g < 2)%nat -> 0 <= duo_total (medium wide i) g) by (intros g' Hg'; unfold duo_total; small i Hi; small g' Hg'; cbn; lra).
  assert (PE : forall g, (g < 2)%nat -> duo_total (medium wide i) g / 2 <= effective_total (run_weight two k) tick_total tick_speed dt (medium wide i) g).
  { intros g' Hg'. unfold effective_total, tick_total, tick_speed. assert (0 <= run_weight two k / (2 * dt)); [|lra].
    apply Rmult_le_pos; [unfold run_weight; destruct two; [destruct k|]; lra|]. left. apply Rinv_0_lt_compat. lra. }
  pose proof (PT g Hg). pose proof (PT h Hh). pose proof (PE g Hg). pose proof (PE h Hh).
  unfold tick_transfer, total_transfer, tick_scatter, no_fission, fission_entry. rewrite Rplus_0_r. unfold Rdiv. rewrite Rabs_mult, (Rabs_pos_eq (/ 2)) by lra.
  eapply Rle_trans; [apply Rmult_le_compat_r; [lra|exact C2]|]. rewrite Rmult_assoc. apply Rmult_le_compat_l; [exact C0|].
  replace (/ 2) with (sqrt (/ 2 * / 2)) by (apply sqrt_square; lra). rewrite <- sqrt_mult_alt by (apply Rmult_le_pos; assumption). apply sqrt_le_1_alt.
  replace (duo_total (medium wide i) g * duo_total (medium wide i) h * (/ 2 * / 2)) with (duo_total (medium wide i) g / 2 * (duo_total (medium wide i) h / 2)) by field.
  apply Rmult_le_compat; lra.
Qed.
Lemma tick_speeds i g : (i < cells wide)%nat -> (g < 2)%nat -> tick_speed g * tick_total (medium wide i) g <= 3.
Proof. intros Hi Hg. unfold tick_speed, tick_total, duo_total. small i Hi; small g Hg; cbn; lra. Qed.

(** the same slab for a hybrid run: one coarse group, another quadrature *)
Definition blunt : sn :=
  mkSn 2 (fun i => i) (fun i => if Nat.eqb i 0 then 40 else 20) 2
       (fun m => if Nat.eqb m 0 then 1 / 3 else - (1 / 3)) (fun _ => 1 / 2) 0 1.
Definition blunt_total : mat2 := fun m _ => (tick_total m 0%nat + tick_total m 1%nat) / 2.
Definition blunt_scatter : mat3 := fun m _ _ =>
  (tick_scatter m 0%nat 0%nat + tick_scatter m 0%nat 1%nat + tick_scatter m 1%nat 0%nat + tick_scatter m 1%nat 1%nat) / 2.

Lemma blunt_sound : sound_slab blunt.
Proof.
  split; [intros i Hi; small i Hi; cbn; lra|]. split; [intros; cbn; lra|]. split; [intros m Hm; small m Hm; cbn; lra|].
  right. split; intros m Hm; small m Hm; cbn; lra.
Qed.

Lemma growing_bounded dt : 0 < dt -> exists B, 0 <= B /\ forall t, 0 <= t <= time_at 0 dt 3 -> density_norm wide 2 tick_speed (growing t) <= B.
Proof.
  intros Hdt. exists (density_norm wide 2 tick_speed (growing (time_at 0 dt 3))). split; [apply sqrt_pos|]. intros t (H1 & H2).
  apply (density_le wide 2 tick_speed wide_sound); [intros; unfold tick_speed; lra|]. intros i m g _ _ _. unfold growing.
  rewrite Rabs_pos_eq by (apply pow_le; lra). apply pow_incr. lra.
Qed.

Lemma blunt_case two dt : 0 < dt ->
  sound_slab wide /\ sound_slab blunt /\ angles wide <> 1%nat /\ (forall i, (i < cells wide)%nat -> (medium wide i < 2)%nat) /\
  (cells blunt = cells wide /\ medium blunt = medium wide) /\ (forall i, (i < cells wide)%nat -> dx blunt i = dx wide i) /\
  (forall g, (g < 2)%nat -> ((fun _ => 0) g < 1)%nat) /\
  no_multiplication wide 2 tick_total (total_transfer tick_scatter no_fission) /\
  (forall i g, (i < cells wide)%nat -> (g < 1)%nat -> 0 <= blunt_total (medium wide i) g) /\
  (forall g, (g < 2)%nat -> 0 < tick_speed g) /\
  (exists ft, hybrid_run two wide blunt 2 2 1 (growing 0) tick_total blunt_total (Scatter3 tick_scatter) (Scatter3 blunt_scatter)
     no_fission no_fission tick_speed tick_speed (growing_ext dt) (growing_bnd dt) (fun _ => 0%nat) (fun _ => 1 / 2) 3 dt 1 = Ok ft) /\
  source_rows wide 2 0 dt 3 (step_row (growing_ext dt)) growing_source /\ inflow_rows wide 2 0 dt 3 (step_row (growing_bnd dt)) growing_inflow /\
  smooth_in_time two wide 2 0 (time_at 0 dt 3) 2 0 growing growing_slope /\
  evolves wide 2 tick_speed tick_total (total_transfer tick_scatter no_fission) growing_source growing_inflow 0 (time_at 0 dt 3) growing growing_slope /\
  exists B, 0 <= B /\ forall t, 0 <= t <= time_at 0 dt 3 -> density_norm wide 2 tick_speed (growing t) <= B.
Proof.
  intros Hdt. split; [exact wide_sound|]. split; [exact blunt_sound|]. split; [cbn; lia|]. split; [intros i Hi; cbn in *; lia|].
  split; [split; reflexivity|]. split; [reflexivity|]. split; [intros; lia|]. split; [exact tick_no_multiplication|].
  split; [intros i g Hi Hg; unfold blunt_total, tick_total, duo_total; small i Hi; cbn; lra|]. split; [intros; unfold tick_speed; lra|].
  split; [apply hybrid_total; [apply blunt_sound|right; apply Nat.le_refl|right; apply Nat.le_refl|split; [left|right]; reflexivity]|].
  split; [apply growing_rows|]. split; [apply growing_rows|]. split; [apply growing_smooth|]. split; [apply growing_evolves|]. apply growing_bounded; exact Hdt.
Qed.

Lemma blunt_closed_case two dt : 0 < dt ->
  (forall k m g, (k < 3)%nat -> (m < angles wide)%nat -> (g < 2)%nat -> mg_boundary (step_row closed_bnd k) (mu wide) g m = 0) /\
  (exists ft, hybrid_run two wide blunt 2 2 1 tick_start tick_total blunt_total (Scatter3 tick_scatter) (Scatter3 blunt_scatter)
     no_fission no_fission tick_speed tick_speed tick_ext closed_bnd (fun _ => 0%nat) (fun _ => 1 / 2) 3 dt 1 = Ok ft) /\
  exists exact : nat -> mat3, exact 0%nat = tick_start /\
    exact_history two wide 2 tick_speed dt tick_total (total_transfer tick_scatter no_fission) (step_row tick_ext) (step_row closed_bnd) 3 exact.
Proof.
  intros Hdt. split; [intros; unfold mg_boundary; reflexivity|].
  split; [apply hybrid_total; [apply blunt_sound|left; reflexivity|left; reflexivity|split; [left|right]; reflexivity]|].
  apply exact_history_exists; [exact wide_sound|exact tick_no_multiplication|intros; unfold tick_speed; lra|exact Hdt].
Qed.

Lemma kept_case two dt : 0 < dt ->
  sound_slab wide /\ sound_slab blunt /\ angles wide <> 1%nat /\ (forall i, (i < cells wide)%nat -> (medium wide i < 2)%nat) /\
  (cells blunt = cells wide /\ medium blunt = medium wide) /\ (forall i, (i < cells wide)%nat -> dx blunt i = dx wide i) /\
  rsum (angles blunt) (wt blunt) = rsum (angles wide) (wt wide) /\
  (forall g, (g < 2)%nat -> (fun g : nat => g) g = g /\ (fun _ : nat => 1) g = 1 /\ tick_speed g = tick_speed g) /\
  no_multiplication wide 2 tick_total (total_transfer tick_scatter no_fission) /\
  (forall i g, (i < cells wide)%nat -> (g < 2)%nat -> 0 <= tick_total (medium wide i) g) /\
  (forall g, (g < 2)%nat -> 0 < tick_speed g) /\
  (exists ft, hybrid_run two wide blunt 2 2 2 (growing 0) tick_total tick_total (Scatter3 tick_scatter) (Scatter3 blunt_scatter)
     no_fission no_fission tick_speed tick_speed (growing_ext dt) (growing_bnd dt) (fun g => g) (fun _ => 1) 3 dt 1 = Ok ft) /\
  source_rows wide 2 0 dt 3 (step_row (growing_ext dt)) growing_source /\ inflow_rows wide 2 0 dt 3 (step_row (growing_bnd dt)) growing_inflow /\
  smooth_in_time two wide 2 0 (time_at 0 dt 3) 2 0 growing growing_slope /\
  evolves wide 2 tick_speed tick_total (total_transfer tick_scatter no_fission) growing_source growing_inflow 0 (time_at 0 dt 3) growing growing_slope /\
  exists B, 0 <= B /\ forall t, 0 <= t <= time_at 0 dt 3 -> density_norm wide 2 tick_speed (growing t) <= B.
Proof.
  intros Hdt. split; [exact wide_sound|]. split; [exact blunt_sound|]. split; [cbn; lia|]. split; [intros i Hi; cbn in *; lia|].
  split; [split; reflexivity|]. split; [reflexivity|]. split; [cbn; lra|]. split; [intros; repeat split; reflexivity|].
  split; [exact tick_no_multiplication|].
  split; [intros i g Hi Hg; unfold tick_total, duo_total; small i Hi; small g Hg; cbn; lra|]. split; [intros; unfold tick_speed; lra|].
  split; [apply hybrid_total; [apply blunt_sound|right; apply Nat.le_refl|right; apply Nat.le_refl|split; [left|right]; reflexivity]|].
  split; [apply growing_rows|]. split; [apply growing_rows|]. split; [apply growing_smooth|]. split; [apply growing_evolves|]. apply growing_bounded; exact Hdt.
Qed.

(** Hybrid runs whose coarse grid has one group at the first step and two afterwards, on the two-point Gauss rule. *)
Definition shifting : per_step := Each 3 (fun k => if Nat.eqb k 0 then 1%nat else 2%nat).
Lemma shifting_setting :
  (forall k gc, count_at shifting k gc -> (1 <= gc <= 2)%nat /\ (forall idx, no_table 87 gc = Some idx -> partition 2 gc idx)) /\
  (forall k ac, count_at (Const 2) k ac -> exists h, (ac = 2 * h)%nat /\ (0 < h)%nat /\ gauss_pairs ac (fst (two_point ac)) (snd (two_point ac))) /\
  (bc_left wide + bc_right wide <= 1)%nat /\ monotone_edges 2 (snd (uneven87 87)).
Proof.
  split; [|split; [|split]].
  - cbn [shifting count_at]. intros k gc (_ & ->). split; [destruct (Nat.eqb k 0); lia|discriminate].
  - cbn [count_at]. intros k ac ->. exists 1%nat. split; [reflexivity|]. split; [lia|]. apply two_point_gauss.
  - cbn. lia.
  - left. intros [|[|g]] Hg; [| |lia]; cbn; lra.
Qed.
Lemma shifting_runs two flux ext bnd dt : rows_for ext 3 -> rows_for bnd 3 -> broadcasts wide 2 ext ->
  exists ft, vhybrid_run two wide two_point uneven87 no_table 87 2 shifting (Const 2) flux tick_total tick_scatter (fun _ _ _ => 0)
    tick_speed ext bnd 3 dt 1 = Ok ft.
Proof.
  intros R1 R2 R3. destruct shifting_setting as (_ & _ & Hb & _).
  apply (vhybrid_total two wide two_point uneven87 no_table 87 87 (snd (uneven87 87)) 2); try assumption; try reflexivity; try lia.
  - intros k Hk. exists (if Nat.eqb k 0 then 1%nat else 2%nat). split; [split; [exact Hk|reflexivity]|]. destruct (Nat.eqb k 0); lia.
  - intros k Hk. exists 1%nat. split; [reflexivity|]. split; [lia|]. exact two_point_gauss.
Qed.
Lemma shifting_case two dt : 0 < dt ->
  sound_slab wide /\ angles wide <> 1%nat /\ no_multiplication wide 2 tick_total (fun m o i => tick_scatter m o i + 0) /\
  (forall g, (g < 2)%nat -> 0 < tick_speed g) /\ monotone_edges 2 (snd (uneven87 87)) /\
  (forall k gc ci fac idx e, count_at shifting k gc -> energy_grid_change uneven87 no_table 87 2 gc = Ok (ci, fac, idx, e) -> partition 2 gc idx) /\
  (forall k ac xw, count_at (Const 2) k ac -> angular_x two_point ac [bc_left wide; bc_right wide] = Ok xw ->
     sound_slab (with_angles wide ac (fst xw) (snd xw))) /\
  (exists ft, vhybrid_run two wide two_point uneven87 no_table 87 2 shifting (Const 2) (growing 0) tick_total tick_scatter (fun _ _ _ => 0)
    tick_speed (growing_ext dt) (growing_bnd dt) 3 dt 1 = Ok ft) /\
  source_rows wide 2 0 dt 3 (step_row (growing_ext dt)) growing_source /\ inflow_rows wide 2 0 dt 3 (step_row (growing_bnd dt)) growing_inflow /\
  smooth_in_time two wide 2 0 (time_at 0 dt 3) 2 0 growing growing_slope /\
  evolves wide 2 tick_speed tick_total (fun m o i => tick_scatter m o i + 0) growing_source growing_inflow 0 (time_at 0 dt 3) growing growing_slope /\
  exists B, 0 <= B /\ forall t, 0 <= t <= time_at 0 dt 3 -> density_norm wide 2 tick_speed (growing t) <= B.
Proof.
  intros Hdt. destruct shifting_setting as (H1 & H2 & Hb & He).
  split; [exact wide_sound|]. split; [cbn; lia|]. split; [exact tick_no_multiplication|]. split; [intros; unfold tick_speed; lra|]. split; [exact He|].
  split; [apply grids_partition; exact H1|]. split; [apply quads_sound; [exact wide_sound|exact Hb|exact H2]|].
  split; [apply shifting_runs; [right; apply Nat.le_refl|right; apply Nat.le_refl|split; [left|right]; reflexivity]|].
  split; [apply growing_rows|]. split; [apply growing_rows|]. split; [apply growing_smooth|]. split; [apply growing_evolves|]. apply growing_bounded; exact Hdt.
Qed.
Lemma shifting_closed_case two dt : 0 < dt ->
  (forall k m g, (k < 3)%nat -> (m < angles wide)%nat -> (g < 2)%nat -> mg_boundary (step_row closed_bnd k) (mu wide) g m = 0) /\
  (exists ft, vhybrid_run two wide two_point uneven87 no_table 87 2 shifting (Const 2) tick_start tick_total tick_scatter (fun _ _ _ => 0)
    tick_speed tick_ext closed_bnd 3 dt 1 = Ok ft) /\
  exists exact : nat -> mat3, exact 0%nat = tick_start /\
    exact_history two wide 2 tick_speed dt tick_total (fun m o i => tick_scatter m o i + 0) (step_row tick_ext) (step_row closed_bnd) 3 exact.
Proof.
  intros Hdt. split; [intros; unfold mg_boundary; reflexivity|].
  split; [apply shifting_runs; [left; reflexivity|left; reflexivity|split; [left|right]; reflexivity]|].
  apply exact_history_exists; [exact wide_sound|exact tick_no_multiplication|intros; unfold tick_speed; lra|exact Hdt].
Qed.

(** The same run with both groups kept at every step. *)
Lemma keeping_case two dt : 0 < dt ->
  sound_slab wide /\ angles wide <> 1%nat /\ no_multiplication wide 2 tick_total (fun m o i => tick_scatter m o i + 0) /\
  (forall g, (g < 2)%nat -> 0 < tick_speed g) /\ monotone_edges (fst (uneven87 87)) (snd (uneven87 87)) /\
  (forall k gc, count_at (Const 2) k gc -> gc = 2%nat) /\
  (forall ci fac idx e, energy_grid_change uneven87 no_table 87 2 2 = Ok (ci, fac, idx, e) -> partition 2 2 idx) /\
  (forall ed fine coarse, energy_grid uneven87 no_table 87 2 (Some 2%nat) true = Ok (ed, fine, coarse) -> partition (fst (uneven87 87)) 2 fine) /\
  (forall k ac xw, count_at (Const 2) k ac -> angular_x two_point ac [bc_left wide; bc_right wide] = Ok xw ->
     sound_slab (with_angles wide ac (fst xw) (snd xw)) /\ rsum ac (snd xw) = rsum (angles wide) (wt wide)) /\
  (exists ft, vhybrid_run two wide two_point uneven87 no_table 87 2 (Const 2) (Const 2) (growing 0) tick_total tick_scatter (fun _ _ _ => 0)
    tick_speed (growing_ext dt) (growing_bnd dt) 3 dt 1 = Ok ft) /\
  source_rows wide 2 0 dt 3 (step_row (growing_ext dt)) growing_source /\ inflow_rows wide 2 0 dt 3 (step_row (growing_bnd dt)) growing_inflow /\
  smooth_in_time two wide 2 0 (time_at 0 dt 3) 2 0 growing growing_slope /\
  evolves wide 2 tick_speed tick_total (fun m o i => tick_scatter m o i + 0) growing_source growing_inflow 0 (time_at 0 dt 3) growing growing_slope /\
  exists B, 0 <= B /\ forall t, 0 <= t <= time_at 0 dt 3 -> density_norm wide 2 tick_speed (growing t) <= B.
Proof.
  intros Hdt. destruct shifting_setting as (H1 & H2 & Hb & _).
  split; [exact wide_sound|]. split; [cbn; lia|]. split; [exact tick_no_multiplication|]. split; [intros; unfold tick_speed; lra|].
  split.
  { left. intros g Hg. cbn [fst snd uneven87] in *.
    destruct (Nat.leb_spec g 29) as [L|L]; destruct (Nat.leb_spec (g + 1) 29) as [L'|L']; try lia.
    - rewrite plus_INR. change (INR 1) with 1. lra.
    - assert (g = 29%nat) as -> by lia. rewrite plus_INR. change (INR 1) with 1. replace (INR 29) with 29 by (rewrite INR_IZR_INZ; reflexivity). lra.
    - rewrite plus_INR. change (INR 1) with 1. lra. }
  split; [intros k gc Hk; exact Hk|].
  destruct (kept_partition uneven87 no_table 87 2 ltac:(cbn [uneven87 fst]; lia) ltac:(discriminate)) as (K1 & K2).
  split; [exact K1|]. split; [exact K2|]. split; [apply quads_weight; [exact wide_sound|cbn; lra|exact Hb|exact H2]|].
  split.
  { apply (vhybrid_total two wide two_point uneven87 no_table 87 87 (snd (uneven87 87)) 2); try assumption; try reflexivity; try lia.
    - intros k Hk. exists 2%nat. split; [reflexivity|]. lia.
    - intros k Hk. exists 1%nat. split; [reflexivity|]. split; [lia|]. exact two_point_gauss.
    - right. apply Nat.le_refl.
    - right. apply Nat.le_refl.
    - split; [left|right]; reflexivity. }
  split; [apply growing_rows|]. split; [apply growing_rows|]. split; [apply growing_smooth|]. split; [apply growing_evolves|]. apply growing_bounded; exact Hdt.
Qed.
