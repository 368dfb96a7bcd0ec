(** The source iteration with Legendre scattering. *)
From Coq Require Import Lra Lia Psatz.
From Verif Require Import Base BaseFacts SlabModel SlabSpec SlabFacts SlabFacts2 SlabFacts3 SlabFacts4 SlabFacts5 MgModel MgSpec MgFacts MgFacts2 MgFacts3 MgFacts7
  TimeModel TimeSpec EnSpec EnFacts EnFacts2 EnFacts4 EnFacts6 InfSpec InfFacts5 AniSpec AniFacts AniFacts2 AniFacts3 AniFacts4 AniFacts5.
Open Scope R_scope.

Lemma aniso_iteration P groups nm xs_total xs external boundary c given old flux psi sol :
  sound_slab P -> (0 < nm)%nat -> exact_products P nm ->
  (forall i h, (i < cells P)%nat -> (h < groups)%nat -> 0 <= xs_total (medium P i) h) ->
  0 <= c < 1 -> aniso_coupled P groups nm xs_total xs c -> usable_tables P nm given ->
  aniso_transport P groups nm xs_total xs external boundary psi sol ->
  source_iteration P groups old xs_total (Scatter4 nm xs) external boundary 1 given = Ok flux ->
  exists n, (1 <= n <= 100)%nat /\
    forall d H, 0 <= d -> 0 <= H -> near_energy P groups xs_total d old sol ->
      (forall g, (g < groups)%nat -> moment_norm P nm (fun m => xs_total m g) (fun i l => if Nat.eqb l 0 then 0 else edge_moment P (psi g) i l) <= H) ->
      near_energy P groups xs_total (c ^ n * d + c * H / (1 - c)) flux sol.
Proof.
  intros HP Hn HX Ht Hc HK Hg Hsol E.
  assert (exists leg legw, legendre_tables P nm leg legw /\ source_iteration_aniso P groups nm old xs_total xs external boundary 1 leg legw = Ok flux) as (leg & legw & HL & E').
  { cbn [source_iteration] in E. destruct given as [[leg legw]|]; [exists leg, legw; split; [exact Hg|exact E]|].
    destruct (legendre_rows nm (mu P) Hn) as (leg & El & Hl). rewrite El in E. cbn [bind] in E.
    exists leg, (fun l n => wt P n * leg l n). split; [|exact E]. intros l n Hll _. rewrite Hl by exact Hll. split; reflexivity. }
  assert (Hcap : (1 <= count_gg)%nat) by (unfold count_gg; lia).
  destruct (outer_trace _ _ _ _ _ _ _ Hcap E') as (n & x & Hr & H0 & -> & Hstep & _). change count_gg with 100%nat in *.
  exists n. split; [exact Hr|]. intros d H Hd HH Hold Hhi.
  assert (G : forall k, (k <= n)%nat -> near_energy P groups xs_total (c ^ k * d + c * H / (1 - c)) (x k) sol).
  { assert (Q : 0 <= c * H / (1 - c)) by (apply Rmult_le_pos; [apply Rmult_le_pos; lra|left; apply Rinv_0_lt_compat; lra]).
    induction k as [|k IH]; intros Hk.
    - rewrite H0. intros h Hh. specialize (Hold h Hh). cbn [pow]. lra.
    - assert (P0 : 0 <= c ^ k * d + c * H / (1 - c)) by (apply Rplus_le_le_0_compat; [apply Rmult_le_pos; [apply pow_le; lra|exact Hd]|exact Q]).
      pose proof (aniso_sweep P groups nm xs_total xs c HP Hn HX Ht Hc HK external boundary leg legw HL (x k) (x (S k)) psi sol _ H Hsol (Hstep k ltac:(lia)) P0 HH (IH ltac:(lia)) Hhi) as S.
      intros h Hh. specialize (S h Hh). eapply Rle_trans; [exact S|]. right. cbn [pow]. field. lra. }
  apply G. lia.
Qed.

Lemma always_returns {St} (sweep : St -> outcome St) change tol cap : (forall x, exists y, sweep x = Ok y) ->
  forall fuel count old, (cap - count < fuel)%nat -> exists r, iterate fuel sweep change tol cap count old = Ok r.
Proof.
  intros Hs. induction fuel as [|fuel IH]; intros count old Hf; [lia|]. cbn [iterate]. destruct (Hs old) as (y & ->). cbn [bind].
  destruct (below _ _); cbn [orb]; [eauto|]. destruct (Nat.leb_spec cap count); [eauto|]. apply IH. lia.
Qed.

Lemma aniso_driver_total P nm flux_old xs_total xs_w off external boundary leg legw : nonzero_ordinates (angles P) (mu P) ->
  exists flux, slab_anisotropic_sn P flux_old nm xs_total xs_w off external boundary 0 leg legw = Ok flux.
Proof.
  intros Hnz. unfold slab_anisotropic_sn.
  destruct (always_returns (slab_aniso_pass P nm xs_total xs_w off external boundary 0 leg legw) (fun new old => rel_change (cells P) (fst new) (fst old)) change_nn count_nn)
    with (fuel := count_nn) (count := 1%nat) (old := (flux_old, fun x l : nat => if Nat.eqb l 0 then flux_old x else 0)) as (r & E).
  - intros x. rewrite slab_aniso_pass_ok by exact Hnz. cbv zeta. eauto.
  - unfold count_nn. lia.
  - rewrite E. cbn [bind]. eauto.
Qed.

Lemma aniso_total P groups nm old xs_total xs external boundary given : (0 < nm)%nat -> nonzero_ordinates (angles P) (mu P) ->
  exists flux, source_iteration P groups old xs_total (Scatter4 nm xs) external boundary 1 given = Ok flux.
Proof.
  intros Hn Hnz.
  assert (G : forall leg legw, exists flux, source_iteration_aniso P groups nm old xs_total xs external boundary 1 leg legw = Ok flux).
  { intros leg legw. apply always_returns; [|unfold count_gg; lia]. intros x. unfold one_sweep_aniso. apply for_up_err_ok. intros k t Hk. cbn [Nat.eqb].
    match goal with |- exists t', bind ?s _ = _ => destruct (fun H => H : exists c, s = Ok c) as (cc & ->); [apply aniso_driver_total; exact Hnz|] end.
    cbn [bind]. eauto. }
  cbn [source_iteration]. destruct given as [[leg legw]|]; [apply G|].
  destruct (legendre_rows nm (mu P) Hn) as (leg & -> & _). cbn [bind]. apply G.
Qed.
