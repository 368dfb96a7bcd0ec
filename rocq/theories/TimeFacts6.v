(** Totality of the variable-grid drivers and the widths used for their coarse data. *)
From Coq Require Import Lra Lia FunctionalExtensionality.
From Verif Require Import Base BaseFacts SlabModel SlabSpec SlabFacts SlabFacts2 SlabFacts3 SphereModel MgModel MgSpec.
From Verif Require Import MgFacts MgFacts2 MgFacts3 MgFacts4 MgFacts5 MgFacts6 HybModel HybSpec HybFacts HybFacts2 MainModel MainSpec MainFacts MainFacts2.
From Verif Require Import TimeModel TimeSpec TimeFacts TimeFacts2 TimeFacts3 TimeFacts4 TimeFacts5.
Open Scope R_scope.

Lemma grid_index_ok t optimize n c : (1 <= c <= n)%nat -> exists idx, grid_index t optimize n c = Ok idx.
Proof.
  intros Hc. unfold grid_index. destruct (coarse_index_partition n c Hc) as (idx & E & _).
  destruct t as [i|], optimize; eauto.
Qed.

Lemma energy_grid_change_ok stock table grid n edges groups gc : known_grid grid = true ->
  stock grid = (n, edges) -> (1 <= gc <= groups)%nat -> (groups <= n)%nat ->
  exists r, energy_grid_change stock table grid groups gc = Ok r.
Proof.
  intros Hk Hs Hc Hn. unfold energy_grid_change, energy_grid. rewrite Hk, Hs.
  destruct (grid_index_ok (table grid groups) true n groups ltac:(lia)) as [fi ->]. cbn [bind].
  destruct (grid_index_ok (table grid gc) true groups gc Hc) as [co ->]. cbn [bind]. eauto.
Qed.

(** Every step has a coarse group count between 1 and the fine one and an even number of ordinates. *)
Lemma vhybrid_total two P leggauss stock table grid n edges groups groups_c angles_c flux_last T s f v external boundary
    steps dt :
  known_grid grid = true -> stock grid = (n, edges) -> (groups <= n)%nat -> (0 < steps)%nat ->
  (forall k, (k < steps)%nat -> exists gc, count_at groups_c k gc /\ (1 <= gc <= groups)%nat) ->
  (forall k, (k < steps)%nat -> exists h, count_at angles_c k (2 * h) /\ (0 < h)%nat /\
     gauss_pairs (2 * h) (fst (leggauss (2 * h)%nat)) (snd (leggauss (2 * h)%nat))) ->
  (bc_left P + bc_right P <= 1)%nat ->
  rows_for external steps -> rows_for boundary steps -> broadcasts P groups external ->
  exists ft, vhybrid_run two P leggauss stock table grid groups groups_c angles_c flux_last T s f v external boundary
    steps dt 1 = Ok ft.
Proof.
  intros Hk Hs Hn Hst HG HA Hbc He Hb Hx. rewrite vhybrid_run_eq. unfold vhybrid_drive.
  assert (Pre : vhybrid_precheck stock table grid groups groups_c = Ok tt).
  { unfold vhybrid_precheck. destruct (HG 0%nat Hst) as (gc & Eg & Hgc). apply at_step_count in Eg. destruct groups_c as [m|m h|]; try reflexivity.
    injection Eg as ->. destruct (energy_grid_change_ok stock table grid n edges groups gc Hk Hs Hgc Hn) as [r ->]. reflexivity. }
  rewrite Pre. cbn [bind].
  match goal with |- context [for_up_err steps ?B ?s0] => assert (K : exists r, for_up_err steps B s0 = Ok r) end.
  { apply for_up_err_ok. intros k st Hk'. unfold vhybrid_body. cbv zeta.
    destruct (HG k Hk') as (gc & Eg & Hgc). destruct (HA k Hk') as (h & Ea & Hh & Hgp).
    apply at_step_count in Eg. apply at_step_count in Ea.
    destruct (energy_grid_change_ok stock table grid n edges groups gc Hk Hs Hgc Hn) as [[[[ci fac] idx] e] Er].
    assert (E1 : match groups_c with
        | OtherType => Ok None
        | _ => bind (at_step groups_c k) (fun gc =>
               bind (energy_grid_change stock table grid groups gc) (fun r => Ok (Some (gc, r))))
        end = Ok (Some (gc, (ci, fac, idx, e)))).
    { destruct groups_c as [m|m g|]; [| |discriminate Eg]; rewrite Eg; cbn [bind]; rewrite Er; reflexivity. }
    assert (E2 : match angles_c with OtherType => Ok None | _ => bind (at_step angles_c k) (fun a => Ok (Some a)) end
                 = Ok (Some (2 * h)%nat)).
    { destruct angles_c as [m|m g|]; [| |discriminate Ea]; rewrite Ea; reflexivity. }
    rewrite E1. cbn [bind]. rewrite E2. cbn [bind]. rewrite (row4_total _ _ _ He Hk'). cbn [bind].
    match goal with |- context [add_external _ _ _ ?b] =>
      destruct (add_external_total P groups external k b Hx) as [q ->] end.
    cbn [bind]. rewrite (row4_total _ _ _ Hb Hk'). cbn [bind]. unfold variable_hybrid_method.
    match goal with |- context [known_source_scalar ?p ?g ?t ?q ?b 1 0] =>
      destruct (known_total p g t q b 0) as [[phi ->] _] end. cbn [bind].
    destruct (angular_solver_order leggauss h (bc_left P) (bc_right P) Hh Hgp Hbc) as (x & w & -> & _ & Hnz & _).
    cbn [bind fst snd]. cbv zeta. rewrite variable_is_coarse.
    match goal with |- context [source_iteration_iso ?p ?g ?o ?t ?x ?e ?b 1] =>
      destruct (outer_total p g o t x e b Hnz) as [fl ->] end. cbn [bind].
    match goal with |- context [known_source_angular ?p ?g ?t ?q ?b 1 0] =>
      destruct (known_total p g t q b 0) as [_ [psi ->]] end. cbn [bind]. eauto. }
  destruct K as [r ->]. cbn [bind]. eauto.
Qed.

(** The returned edges belong to the stock grid; when the fine groups are the stock groups the coarse
    total cross section is the average of the fine one with the fine widths. *)
Lemma vhybrid_widths stock table grid groups gc ci fac idx e fine coarse T m c n :
  energy_grid_change stock table grid groups gc = Ok (ci, fac, idx, e) ->
  energy_grid stock table grid groups (Some gc) true = Ok (snd (stock grid), fine, Some coarse) ->
  partition n gc coarse -> (forall g, (g <= n)%nat -> fine g = g) -> monotone_edges n (fun j => snd (stock grid) (fine j)) ->
  (c < gc)%nat ->
  let fe := fun j => snd (stock grid) (fine j) in
  block_width fe idx c * xs_vector_coarsen T e idx m c = group_sum idx c (fun g => width fe g * T m g).
Proof.
  intros E Eg HP Hid Hmono Hc fe. unfold energy_grid_change in E. rewrite Eg in E. cbn [bind] in E. injection E as _ _ <- <-.
  assert (Mono : monotone_edges n (snd (stock grid))).
  { destruct Hmono as [H|H]; [left|right]; intros g Hg; specialize (H g Hg); unfold fe in H;
      rewrite !Hid in H by lia; exact H. }
  assert (Lo : forall j, (j <= gc)%nat -> (coarse j <= n)%nat).
  { intros j Hj. replace n with (coarse gc) by apply HP. apply (partition_mono n gc coarse j gc HP); lia. }
  assert (BW : block_width fe coarse c = block_width (snd (stock grid)) coarse c).
  { unfold block_width, fe. rewrite !Hid by (apply Lo; lia). reflexivity. }
  rewrite BW. destruct (vector_facts n gc coarse (snd (stock grid)) T m HP Mono c Hc) as [A _]. rewrite A.
  apply group_sum_ext. intros g Hg. f_equal. unfold width, fe. unfold in_group in Hg.
  pose proof (Lo (c + 1)%nat ltac:(lia)). rewrite !Hid by lia. reflexivity.
Qed.

(** Particle balance of every step of a run: what is stored, leaks and collides is what is emitted. *)
Lemma timed_balance two P materials groups flux_last xs_total s f velocity external boundary steps dt ft :
  angles P <> 1%nat -> nonzero_ordinates (angles P) (mu P) ->
  (forall i, (i < cells P)%nat -> (medium P i < materials)%nat /\ dx P i <> 0) ->
  (forall g, (g < groups)%nat -> velocity g <> 0) -> dt <> 0 ->
  (forall k, (k < steps)%nat -> mg_divisors P groups (effective_total (run_weight two k) xs_total velocity dt)) ->
  timed_run two P materials groups flux_last xs_total (Scatter3 s) f velocity external boundary steps dt 1 = Ok ft ->
  exists psi : nat -> mat3, psi 0%nat = flux_last /\
    forall k, (k < steps)%nat -> exists E : mat3,
      let change := run_derivative two dt psi k (psi (S k)) in
      let ext := step_row external k in
      step_equation P groups velocity xs_total (total_transfer s f) ext (step_row boundary k) change (ft k) E (psi (S k)) /\
      rsum groups (fun g =>
        rsum (cells P) (fun i => dx P i * scalar_flux P change i g / velocity g)
        + total_leakage (cells P) (angles P) (mu P) (wt P) (E g)
        + rsum (cells P) (fun i => dx P i * xs_total (medium P i) g * scalar_flux P (psi (S k)) i g)) =
      rsum groups (fun g => rsum (cells P) (fun i => dx P i *
        (rsum (angles P) (wt P) * rsum groups (fun h => total_transfer s f (medium P i) g h * ft k i h)
         + rsum (angles P) (fun m => wt P m * at3 ext i (bidx (d3b ext) m) (bidx (d3c ext) g))))).
Proof.
  intros Ha Hnz Hm Hv Hdt Hd E.
  destruct (timed_history two P materials groups flux_last xs_total s f velocity external boundary steps dt
     Ha Hnz (fun i Hi => proj1 (Hm i Hi)) Hv Hdt ft Hd E) as (psi & H0 & H).
  exists psi. split; [exact H0|]. intros k Hk. destruct (H k Hk) as [E1 H1]. exists E1. cbv zeta. split; [exact H1|].
  exact (step_balance P groups velocity xs_total (total_transfer s f) (step_row external k) (step_row boundary k)
    (run_derivative two dt psi k (psi (S k))) (ft k) E1 (psi (S k)) (fun i Hi => proj2 (Hm i Hi)) H1).
Qed.

(** The two schemes spelled out. *)
Lemma backward_euler_history P materials groups flux_last xs_total s f velocity external boundary steps dt ft :
  angles P <> 1%nat -> nonzero_ordinates (angles P) (mu P) ->
  (forall i, (i < cells P)%nat -> (medium P i < materials)%nat) ->
  (forall g, (g < groups)%nat -> velocity g <> 0) -> dt <> 0 ->
  mg_divisors P groups (effective_total 1 xs_total velocity dt) ->
  timed_backward_euler P materials groups flux_last xs_total (Scatter3 s) f velocity external boundary steps dt 1 = Ok ft ->
  exists psi : nat -> mat3, psi 0%nat = flux_last /\
    forall k, (k < steps)%nat -> exists E,
      step_equation P groups velocity xs_total (total_transfer s f) (step_row external k) (step_row boundary k)
        (euler_derivative dt (psi (S k)) (psi k)) (ft k) E (psi (S k)).
Proof.
  intros Ha Hnz Hm Hv Hdt Hd E. rewrite <- timed_run_be in E.
  exact (timed_history false P materials groups flux_last xs_total s f velocity external boundary steps dt
     Ha Hnz Hm Hv Hdt ft (fun _ _ => Hd) E).
Qed.

Lemma bdf2_history P materials groups flux_last xs_total s f velocity external boundary steps dt ft :
  angles P <> 1%nat -> nonzero_ordinates (angles P) (mu P) ->
  (forall i, (i < cells P)%nat -> (medium P i < materials)%nat) ->
  (forall g, (g < groups)%nat -> velocity g <> 0) -> dt <> 0 ->
  mg_divisors P groups (effective_total 1 xs_total velocity dt) ->
  mg_divisors P groups (effective_total (3 / 2) xs_total velocity dt) ->
  timed_bdf2 P materials groups flux_last xs_total (Scatter3 s) f velocity external boundary steps dt 1 = Ok ft ->
  exists psi : nat -> mat3, psi 0%nat = flux_last /\
    forall k, (k < steps)%nat -> exists E,
      step_equation P groups velocity xs_total (total_transfer s f) (step_row external k) (step_row boundary k)
        (if Nat.eqb k 0 then euler_derivative dt (psi 1%nat) (psi 0%nat)
         else bdf2_derivative dt (psi (k + 1)%nat) (psi k) (psi (k - 1)%nat))
        (ft k) E (psi (k + 1)%nat).
Proof.
  intros Ha Hnz Hm Hv Hdt Hd1 Hd2 E. rewrite <- timed_run_bdf2 in E.
  destruct (timed_history true P materials groups flux_last xs_total s f velocity external boundary steps dt
     Ha Hnz Hm Hv Hdt ft) as (psi & H0 & H); [|exact E|].
  - intros [|k] _; assumption.
  - exists psi. split; [exact H0|]. intros k Hk. destruct (H k Hk) as [E1 H1]. exists E1.
    replace (k + 1)%nat with (S k) by lia. destruct k as [|j]; cbn [Nat.eqb]; [exact H1|].
    replace (S j - 1)%nat with j by lia. exact H1.
Qed.
