(** A slab with cells far too thick for positivity, meeting the hypotheses of the energy estimates. *)
From Coq Require Import Lra Lia.
From Verif Require Import Base BaseFacts SlabModel SlabSpec SlabWitness MgModel MgSpec MgWitness TimeModel TimeSpec TimeFacts TimeFacts2 TimeFacts3 TimeWitness.
From Verif Require Import EnSpec EnFacts EnFacts4 EnFacts5.
Open Scope R_scope.

(** [demo] with cells forty times as wide; the right side reflects. *)
Definition wide : sn :=
  mkSn 2 (fun i => i) (fun i => if Nat.eqb i 0 then 40 else 20) 2
       (fun m => if Nat.eqb m 0 then 1 / 2 else - (1 / 2)) (fun _ => 1 / 2) 0 1.

Lemma wide_sound : sound_slab wide.
Proof.
  split; [intros i Hi; small i Hi; cbn; lra|]. split; [intros; cbn; lra|]. split; [intros m Hm; small m Hm; cbn; lra|].
  right. split; intros m Hm; small m Hm; cbn; lra.
Qed.
Lemma wide_thick : ~ mg_thin wide 2 duo_total.
Proof.
  intros H. destruct (H 0%nat ltac:(lia) 0%nat 0%nat ltac:(cbn; lia) ltac:(cbn; lia)) as (_ & _ & A). unfold duo_total in A. cbn in A.
  unfold Rabs in A. destruct (Rcase_abs _) in A; lra.
Qed.
Lemma wide_absorbing : absorbing wide 2 duo_total duo_scatter.
Proof.
  intros i g Hi Hg. unfold duo_scatter, duo_total. small i Hi; small g Hg; cbn; rewrite !Rabs_right by lra; lra.
Qed.
Lemma tick_no_multiplication : no_multiplication wide 2 tick_total (total_transfer tick_scatter no_fission).
Proof.
  intros i g Hi Hg. unfold total_transfer, tick_total, tick_scatter, no_fission, fission_entry, duo_scatter, duo_total.
  small i Hi; small g Hg; cbn; rewrite !Rabs_right by lra; lra.
Qed.
Lemma half_mean t u : 0 <= t -> t / 2 <= u -> t / 2 <= sqrt (t * u).
Proof.
  intros Ht Hu. rewrite <- (sqrt_square (t / 2)) by lra. apply sqrt_le_1_alt. nra.
Qed.
Lemma wide_coupled : coupled_below wide 2 duo_total duo_scatter (3 / 8).
Proof.
  exists (fun g h => if Nat.eqb g h then 1 / 4 else 1 / 8). split; [intros; destruct (Nat.eqb g h); lra|].
  split; [intros g Hg; small g Hg; cbn; lra|].
  intros i g h Hi Hg Hh. unfold duo_scatter.
  assert (T : duo_total (medium wide i) 0%nat = 2 * duo_total (medium wide i) 1%nat /\ 0 < duo_total (medium wide i) 1%nat).
  { unfold duo_total. small i Hi; cbn; lra. }
  destruct T as (T0 & T1).
  assert (Tg : 0 < duo_total (medium wide i) g) by (small g Hg; rewrite ?T0; lra).
  destruct (Nat.eqb_spec g h) as [-> |Hne].
  - rewrite sqrt_square by lra. rewrite Rabs_right by nra. lra.
  - assert (M : duo_total (medium wide i) 1%nat <= sqrt (duo_total (medium wide i) g * duo_total (medium wide i) h)).
    { assert (E : duo_total (medium wide i) g * duo_total (medium wide i) h = 2 * duo_total (medium wide i) 1%nat * duo_total (medium wide i) 1%nat)
        by (small g Hg; small h Hh; try (exfalso; apply Hne; reflexivity); rewrite T0; ring).
      rewrite E. pose proof (half_mean (2 * duo_total (medium wide i) 1%nat) (duo_total (medium wide i) 1%nat) ltac:(lra) ltac:(lra)). lra. }
    revert M; set (q := sqrt _); clearbody q; intros M.
    small g Hg; small h Hh; try (exfalso; apply Hne; reflexivity); cbn [Nat.ltb Nat.leb]; rewrite Rabs_right by nra; rewrite ?T0; lra.
Qed.
Lemma wide_runs two ext : rows_for ext 3 -> broadcasts wide 2 ext -> exists ft,
  timed_run two wide 2 2 tick_start tick_total (Scatter3 tick_scatter) no_fission tick_speed ext tick_bnd 3 4 1 = Ok ft.
Proof.
  intros R B. apply (timed_total two wide 2 2 tick_start tick_total tick_scatter no_fission); [apply wide_sound|exact R|apply tick_rows|exact B].
Qed.
(** A second run: other start, other source. *)
Definition other_start : mat3 := fun i m g => INR m + 2.
Definition other_ext : arr4 := mkArr4 1 1 1 (fun _ _ _ _ => 3).
Lemma wide_runs_other two : exists ft,
  timed_run two wide 2 2 other_start tick_total (Scatter3 tick_scatter) no_fission tick_speed other_ext tick_bnd 3 4 1 = Ok ft.
Proof.
  apply (timed_total two wide 2 2 other_start tick_total tick_scatter no_fission); [apply wide_sound|left; reflexivity|apply tick_rows|split; left; reflexivity].
Qed.
Definition closed_bnd : arr4 := mkArr4 1 1 1 (fun _ _ _ _ => 0).
Lemma wide_runs_closed two : exists ft,
  timed_run two wide 2 2 tick_start tick_total (Scatter3 tick_scatter) no_fission tick_speed tick_ext closed_bnd 3 4 1 = Ok ft.
Proof.
  apply (timed_total two wide 2 2 tick_start tick_total tick_scatter no_fission); [apply wide_sound|left; reflexivity|left; reflexivity|split; [left|right]; reflexivity].
Qed.
