(** Where every collision yields less than one neutron there is a damped positive flux. *)
From Coq Require Import Lra Lia Psatz.
From Verif Require Import Base BaseFacts Contraction SlabModel SlabSpec SlabFacts SlabFacts2 SlabFacts3 SlabFacts4.
From Verif Require Import MgModel MgSpec MgFacts MgFacts2 MgFacts3 MgFacts7 SupSpec SupFacts SupFacts2.
Open Scope R_scope.

Lemma no_positive_terms n f : (forall i, (i < n)%nat -> 0 <= f i) -> rsum n f <= 0 -> forall i, (i < n)%nat -> f i = 0.
Proof. intros H S i Hi. pose proof (rsum_term_le n f i H Hi). specialize (H i Hi). lra. Qed.

Lemma edge_current n (m : R) (E : vec) : m <> 0 -> m * (E n - E 0%nat) = Rabs m * (E (outflow_edge n m) - E (inflow_edge n m)).
Proof.
  intros N. unfold outflow_edge, inflow_edge. destruct (Rlt_dec 0 m) as [H|H].
  - rewrite Rabs_right by lra. reflexivity.
  - rewrite Rabs_left by lra. ring.
Qed.
(** Nonnegative angular fluxes fed only by reflection leak outwards, at least what leaves through sides that
    do not reflect. *)
Lemma current_out P (E : mat2) : sound_slab P ->
  (forall m k, (m < angles P)%nat -> (k <= cells P)%nat -> 0 <= E m k) ->
  (forall m, (m < angles P)%nat -> E m (inflow_edge (cells P) (mu P m)) = reflected_in (cells P) (angles P) (mu P) (bc_left P) (bc_right P) E m) ->
  rsum (angles P) (fun m => if leaves_reflective (mu P) (bc_left P) (bc_right P) m then 0 else wt P m * (Rabs (mu P m) * E m (outflow_edge (cells P) (mu P m))))
  <= total_leakage (cells P) (angles P) (mu P) (wt P) E.
Proof.
  intros (_ & Hw & Hn & Hr) HE0 HE. unfold total_leakage.
  set (out := fun m => wt P m * (Rabs (mu P m) * E m (outflow_edge (cells P) (mu P m)))).
  set (back := fun m => if leaves_reflective (mu P) (bc_left P) (bc_right P) m then out m else 0).
  assert (Ho : forall m, (m < angles P)%nat -> 0 <= out m).
  { intros m Hm. unfold out. apply Rmult_le_pos; [apply Hw, Hm|]. apply Rmult_le_pos; [apply Rabs_pos|]. apply HE0; [exact Hm|].
    unfold outflow_edge. destruct (Rlt_dec _ _); lia. }
  assert (I : forall m, (m < angles P)%nat -> wt P m * (Rabs (mu P m) * E m (inflow_edge (cells P) (mu P m))) <= back (angles P - 1 - m)%nat).
  { intros m Hm. rewrite (HE m Hm). unfold reflected_in. set (m' := (angles P - m - 1)%nat). replace (angles P - 1 - m)%nat with m' by (unfold m'; lia).
    assert (Hm' : (m' < angles P)%nat) by (unfold m'; lia).
    destruct (Nat.ltb m' m && leaves_reflective (mu P) (bc_left P) (bc_right P) m')%bool eqn:B.
    - apply Bool.andb_true_iff in B. destruct B as (_ & B). unfold back. rewrite B. destruct Hr as [(L & R)|(Sm & Sw)].
      + exfalso. unfold leaves_reflective in B.
        destruct (Rlt_dec 0 (mu P m')); [apply Nat.eqb_eq in B; contradiction|]. destruct (Rlt_dec (mu P m') 0); [apply Nat.eqb_eq in B; contradiction|discriminate].
      + unfold out. replace (wt P m') with (wt P m) by (symmetry; apply Sw, Hm). replace (Rabs (mu P m')) with (Rabs (mu P m)); [lra|].
        unfold m'. rewrite (Sm m Hm), Rabs_Ropp. reflexivity.
    - unfold back. specialize (Ho m' Hm'). destruct (leaves_reflective _ _ _ _); lra. }
  apply rsum_le in I. rewrite (rsum_rev (angles P) back) in I.
  rewrite (rsum_ext _ (fun m => if leaves_reflective _ _ _ m then 0 else _) (fun m => out m + - back m)).
  2:{ intros m Hm. unfold back, out. destruct (leaves_reflective _ _ _ _); ring. }
  rewrite (rsum_ext _ (fun m => wt P m * mu P m * _) (fun m => out m + - (wt P m * (Rabs (mu P m) * E m (inflow_edge (cells P) (mu P m)))))).
  2:{ intros m Hm. rewrite Rmult_assoc, (edge_current (cells P) (mu P m) (E m)) by (apply Hn, Hm). unfold out. ring. }
  rewrite !rsum_plus, !rsum_opp. lra.
Qed.
Lemma current_nonneg P (E : mat2) : sound_slab P ->
  (forall m k, (m < angles P)%nat -> (k <= cells P)%nat -> 0 <= E m k) ->
  (forall m, (m < angles P)%nat -> E m (inflow_edge (cells P) (mu P m)) = reflected_in (cells P) (angles P) (mu P) (bc_left P) (bc_right P) E m) ->
  0 <= total_leakage (cells P) (angles P) (mu P) (wt P) E.
Proof.
  intros HS HE0 HE. eapply Rle_trans; [|apply current_out; assumption]. apply rsum_nonneg. intros m Hm.
  destruct (leaves_reflective _ _ _ _); [lra|]. apply Rmult_le_pos; [apply (proj1 (proj2 HS)), Hm|]. apply Rmult_le_pos; [apply Rabs_pos|].
  apply HE0; [exact Hm|]. unfold outflow_edge. destruct (Rlt_dec _ _); lia.
Qed.
(** A direction in which nothing comes out carries no source, if every cell transmits. *)
Lemma dark_exit n mu dx sigt q psi : mu <> 0 -> (forall i, (i < n)%nat -> 0 < dx i /\ dx i * sigt i < 2 * Rabs mu) ->
  (forall k, (k <= n)%nat -> 0 <= psi k) -> (forall i, (i < n)%nat -> 0 <= q i) ->
  dd_balance n mu dx sigt q psi -> psi (outflow_edge n mu) = 0 -> forall i, (i < n)%nat -> q i = 0.
Proof.
  intros Hmu Hd Hp Hq HB HZ. unfold outflow_edge in HZ.
  assert (Hl : forall i, (i < n)%nat -> 0 < Rabs mu / dx i - sigt i / 2).
  { intros i Hi. destruct (Hd i Hi) as (A & B). apply (Rmult_lt_reg_r (2 * dx i)); [lra|].
    replace ((Rabs mu / dx i - sigt i / 2) * (2 * dx i)) with (2 * Rabs mu - dx i * sigt i) by (field; lra). lra. }
  destruct (Rlt_dec 0 mu) as [Hm|Hm].
  - assert (K : forall k, (k <= n)%nat -> psi (n - k)%nat = 0).
    { induction k as [|k IH]; intros Hk; [rewrite Nat.sub_0_r; exact HZ|].
      specialize (IH ltac:(lia)). specialize (HB (n - S k)%nat ltac:(lia)). specialize (Hl (n - S k)%nat ltac:(lia)).
      replace (S (n - S k)) with (n - k)%nat in HB by lia. rewrite IH in HB. specialize (Hq (n - S k)%nat ltac:(lia)). specialize (Hp (n - S k)%nat ltac:(lia)).
      rewrite Rabs_right in Hl by lra. destruct (Rle_lt_or_eq_dec _ _ Hp) as [Q|Q]; [|symmetry; exact Q]. exfalso.
      assert (0 < (mu / dx (n - S k)%nat - sigt (n - S k)%nat / 2) * psi (n - S k)%nat) by (apply Rmult_lt_0_compat; assumption). lra. }
    assert (K' : forall k, (k <= n)%nat -> psi k = 0) by (intros k Hk; replace k with (n - (n - k))%nat by lia; apply K; lia).
    intros i Hi. rewrite <- (HB i Hi), !K' by lia. lra.
  - assert (K : forall k, (k <= n)%nat -> psi k = 0).
    { induction k as [|k IH]; intros Hk; [exact HZ|].
      specialize (IH ltac:(lia)). specialize (HB k ltac:(lia)). specialize (Hl k ltac:(lia)). rewrite IH in HB. specialize (Hq k ltac:(lia)). specialize (Hp (S k) Hk).
      rewrite Rabs_left in Hl by lra. destruct (Rle_lt_or_eq_dec _ _ Hp) as [Q|Q]; [|symmetry; exact Q]. exfalso.
      assert (0 < (- mu / dx k - sigt k / 2) * psi (S k)) by (apply Rmult_lt_0_compat; assumption). unfold Rdiv in *. lra. }
    intros i Hi. rewrite <- (HB i Hi), !K by lia. lra.
Qed.

Section Lossy.
Variables (P : sn) (G : nat) (T : mat2).
Hypothesis HP : positive_sweeps P G T.
Hypothesis HS : sound_slab P.
Hypothesis HW : 0 < rsum (angles P) (wt P).

Let psi g q := Psi P (fun _ j => q j) (half_sig P (fun m => T m g)) (fun _ => 0).
Lemma psi_nonneg g q m k : (g < G)%nat -> (forall j, (j < cells P)%nat -> 0 <= q j) -> (m < angles P)%nat -> (k <= cells P)%nat -> 0 <= psi g q m k.
Proof.
  intros Hg Hq Hm Hk. unfold psi. apply Psi_nonneg; try assumption; [apply (proj1 HP)| |intros; lra].
  intros m' j Hm' Hj. split; [apply Hq; exact Hj|]. apply thin_half; [apply (proj1 (proj2 HP)); exact Hg| |]; assumption.
Qed.
Lemma psi_transport g q : (g < G)%nat -> slab_transport (cells P) (angles P) (mu P) (wt P) (dx P) (fun i => T (medium P i) g) (fun _ i => q i)
    (fun m => reflected_in (cells P) (angles P) (mu P) (bc_left P) (bc_right P) (psi g q) m) (psi g q) (tau P T g q).
Proof.
  intros Hg. split; [|split].
  - intros m Hm. apply Psi_balance; [reflexivity|exact (proj1 HP m Hm)|exact (ps_divisors P G T HP g Hg m Hm)].
  - intros m Hm. unfold psi. rewrite Psi_inflow, inflow_at_spec by exact Hm. ring.
  - intros i Hi. apply pass_flux_center. exact Hi.
Qed.
Lemma T_nonneg i g : (i < cells P)%nat -> (g < G)%nat -> 0 <= T (medium P i) g.
Proof.
  intros Hi Hg. destruct (Nat.eq_dec (angles P) 0) as [Z|Z]; [rewrite Z in HW; cbn in HW; lra|].
  destruct (proj1 (proj2 HP) g Hg 0%nat i ltac:(lia) Hi) as (_ & H & _). exact H.
Qed.
Lemma tau_balance g q : (g < G)%nat ->
  total_leakage (cells P) (angles P) (mu P) (wt P) (psi g q) + rsum (cells P) (fun i => dx P i * T (medium P i) g * tau P T g q i)
  = rsum (angles P) (wt P) * rsum (cells P) (fun i => dx P i * q i).
Proof.
  intros Hg. pose proof (psi_transport g q Hg) as H.
  pose proof (transport_conservation _ _ _ _ _ _ _ _ _ _ (fun i Hi => Rgt_not_eq _ _ (proj1 HS i Hi)) H) as C. cbv beta in C.
  rewrite C, <- rsum_scal. apply rsum_ext. intros i Hi. rewrite rsum_scal_r. ring.
Qed.
Lemma psi_out g q : (g < G)%nat -> (forall j, (j < cells P)%nat -> 0 <= q j) ->
  rsum (angles P) (fun m => if leaves_reflective (mu P) (bc_left P) (bc_right P) m then 0 else wt P m * (Rabs (mu P m) * psi g q m (outflow_edge (cells P) (mu P m))))
  <= total_leakage (cells P) (angles P) (mu P) (wt P) (psi g q).
Proof.
  intros Hg Hq. apply current_out; [exact HS| |apply (proj1 (proj2 (psi_transport g q Hg)))]. intros; apply psi_nonneg; assumption.
Qed.
Lemma psi_leak g q : (g < G)%nat -> (forall j, (j < cells P)%nat -> 0 <= q j) -> 0 <= total_leakage (cells P) (angles P) (mu P) (wt P) (psi g q).
Proof.
  intros Hg Hq. apply current_nonneg; [exact HS| |apply (proj1 (proj2 (psi_transport g q Hg)))]. intros; apply psi_nonneg; assumption.
Qed.
Lemma tau_one_pos g i : (g < G)%nat -> (i < cells P)%nat -> 0 < tau P T g (fun _ => 1) i.
Proof.
  intros Hg Hi. pose proof (psi_transport g (fun _ => 1) Hg) as (B & _ & F). rewrite F by exact Hi.
  assert (N : forall m, (m < angles P)%nat -> 0 < (psi g (fun _ => 1) m i + psi g (fun _ => 1) m (S i)) / 2).
  { intros m Hm. pose proof (psi_nonneg g (fun _ => 1) m i Hg ltac:(intros; lra) Hm ltac:(lia)) as A1.
    pose proof (psi_nonneg g (fun _ => 1) m (S i) Hg ltac:(intros; lra) Hm ltac:(lia)) as A2.
    specialize (B m Hm i Hi). cbv beta in B.
    destruct (Rle_lt_or_eq_dec _ _ A1) as [Q|Q]; [lra|]. destruct (Rle_lt_or_eq_dec _ _ A2) as [Q'|Q']; [lra|].
    rewrite <- Q, <- Q' in B. exfalso. lra. }
  destruct (Rle_or_lt (rsum (angles P) (fun m => wt P m * ((psi g (fun _ => 1) m i + psi g (fun _ => 1) m (S i)) / 2))) 0) as [Z|Z]; [exfalso|exact Z].
  assert (Z' := no_positive_terms (angles P) _ (fun m Hm => Rmult_le_pos _ _ (proj2 (proj2 HP) m Hm) (Rlt_le _ _ (N m Hm))) Z).
  assert (rsum (angles P) (wt P) = 0); [|lra]. apply rsum_zero_ext. intros m Hm. specialize (Z' m Hm). cbv beta in Z'. specialize (N m Hm).
  apply Rmult_integral in Z'. destruct Z' as [Z'|Z']; [exact Z'|lra].
Qed.

Section Transfer.
Variable X : mat3.
Let Q (v : mat2) g j := rsum G (fun h => Rabs (X (medium P j) g h) * v j h).
Let N (v : mat2) := rsum (cells P) (fun i => rsum G (fun g => dx P i * T (medium P i) g * v i g)).
(** No flux feeds itself: no nonnegative flux other than zero is below the flux of its own collisions. *)
Definition no_self_fed : Prop := forall v, below2 (cells P) G (fun _ _ => 0) v ->
  below2 (cells P) G v (fun i g => tau P T g (fun j => rsum G (fun h => Rabs (X (medium P j) g h) * v j h)) i) ->
  agree2 (cells P) G v (fun _ _ => 0).

Lemma Q_nonneg v g j : below2 (cells P) G (fun _ _ => 0) v -> (j < cells P)%nat -> 0 <= Q v g j.
Proof. intros Hv Hj. apply rsum_nonneg. intros h Hh. apply Rmult_le_pos; [apply Rabs_pos|apply Hv; assumption]. Qed.
Lemma N_nonneg v : below2 (cells P) G (fun _ _ => 0) v -> 0 <= N v.
Proof.
  intros Hv. apply rsum_nonneg; intros i Hi; apply rsum_nonneg; intros g Hg. apply Rmult_le_pos; [apply Rmult_le_pos; [left; apply (proj1 HS i Hi)|apply T_nonneg; assumption]|apply Hv; assumption].
Qed.
Lemma N_mono v w : below2 (cells P) G v w -> N v <= N w.
Proof.
  intros H. apply rsum_le. intros i Hi. apply rsum_le. intros g Hg. apply Rmult_le_compat_l; [|apply H; assumption].
  apply Rmult_le_pos; [left; apply (proj1 HS i Hi)|apply T_nonneg; assumption].
Qed.
Lemma yield_balance v c : yields_below P G T X c -> below2 (cells P) G (fun _ _ => 0) v ->
  rsum G (fun g => total_leakage (cells P) (angles P) (mu P) (wt P) (psi g (Q v g))) + N (fun i g => tau P T g (Q v g) i) <= c * N v.
Proof.
  intros HY Hv. unfold N at 1. rewrite rsum_swap, <- rsum_plus.
  rewrite (rsum_ext G _ (fun g => rsum (angles P) (wt P) * rsum (cells P) (fun i => dx P i * Q v g i))) by (intros g Hg; apply tau_balance; exact Hg).
  rewrite rsum_scal, rsum_swap. unfold N. rewrite <- !rsum_scal. apply rsum_le. intros i Hi.
  rewrite <- !rsum_scal.
  rewrite (rsum_ext G (fun g => rsum (angles P) (wt P) * (dx P i * Q v g i))
     (fun g => rsum G (fun h => rsum (angles P) (wt P) * (dx P i * (Rabs (X (medium P i) g h) * v i h))))).
  2:{ intros g Hg. unfold Q. rewrite <- !rsum_scal. apply rsum_ext. intros; ring. }
  rewrite rsum_swap. apply rsum_le. intros h Hh.
  rewrite (rsum_ext G _ (fun g => dx P i * v i h * rsum (angles P) (wt P) * Rabs (X (medium P i) g h))) by (intros; ring).
  rewrite rsum_scal. specialize (HY i h Hi Hh). specialize (Hv i h Hi Hh). cbv beta in Hv. pose proof (proj1 HS i Hi) as Hdx.
  assert (0 <= dx P i * v i h) by (apply Rmult_le_pos; lra).
  replace (dx P i * v i h * rsum (angles P) (wt P) * rsum G (fun g => Rabs (X (medium P i) g h)))
    with (dx P i * v i h * (rsum (angles P) (wt P) * rsum G (fun g => Rabs (X (medium P i) g h)))) by ring.
  replace (c * (dx P i * T (medium P i) h * v i h)) with (dx P i * v i h * (c * T (medium P i) h)) by ring.
  apply Rmult_le_compat_l; assumption.
Qed.
Lemma fed_nothing v : (forall g j, (g < G)%nat -> (j < cells P)%nat -> Q v g j = 0) -> below2 (cells P) G (fun _ _ => 0) v ->
  below2 (cells P) G v (fun i g => tau P T g (Q v g) i) -> agree2 (cells P) G v (fun _ _ => 0).
Proof.
  intros QZ Hv H i g Hi Hg. apply Rle_antisym; [|apply Hv; assumption]. eapply Rle_trans; [apply H; assumption|]. cbv beta. right.
  rewrite (tau_at P T g (Q v g) (fun _ => 0 * 0 + 0 * 0) i Hi); [rewrite tau_lin by exact Hi; ring|]. intros j Hj. rewrite QZ by assumption. ring.
Qed.
Lemma yield_no_self_fed c : 0 <= c < 1 -> yields_below P G T X c -> no_self_fed.
Proof.
  intros Hc HY v Hv H. fold (Q v) in H.
  assert (NN : N v <= 0).
  { assert (NM : N v <= N (fun i g => tau P T g (Q v g) i)) by (apply N_mono; exact H). pose proof (yield_balance v c HY Hv). pose proof (N_nonneg v Hv).
    assert (0 <= rsum G (fun g => total_leakage (cells P) (angles P) (mu P) (wt P) (psi g (Q v g)))).
    { apply rsum_nonneg. intros g Hg. apply psi_leak; [exact Hg|]. intros; apply Q_nonneg; assumption. }
    revert NM H0 H1 H2. generalize (N (fun i g => tau P T g (Q v g) i)) (N v) (rsum G (fun g => total_leakage (cells P) (angles P) (mu P) (wt P) (psi g (Q v g)))). intros; nra. }
  assert (Z : forall i g, (i < cells P)%nat -> (g < G)%nat -> dx P i * T (medium P i) g * v i g = 0).
  { intros i g Hi Hg.
    assert (P1 : forall i, (i < cells P)%nat -> forall g, (g < G)%nat -> 0 <= dx P i * T (medium P i) g * v i g).
    { intros i' Hi' g' Hg'. apply Rmult_le_pos; [apply Rmult_le_pos; [left; apply (proj1 HS i' Hi')|apply T_nonneg; assumption]|apply Hv; assumption]. }
    assert (Z1 := no_positive_terms (cells P) _ (fun i Hi => rsum_nonneg G _ (P1 i Hi)) NN i Hi). cbv beta in Z1.
    apply (no_positive_terms G _ (P1 i Hi) (Req_le _ _ Z1) g Hg). }
  apply fed_nothing; try assumption.
  intros g j Hg Hj. apply rsum_zero_ext. intros h Hh. specialize (Z j h Hj Hh). pose proof (proj1 HS j Hj) as Hdx.
  apply Rmult_integral in Z. destruct Z as [Z|Z]; [|rewrite Z; ring].
  apply Rmult_integral in Z. destruct Z as [Z|Z]; [lra|]. specialize (HY j h Hj Hh). rewrite Z in HY.
  assert (S0 : rsum G (fun g => Rabs (X (medium P j) g h)) <= 0) by (apply (Rmult_le_reg_l (rsum (angles P) (wt P))); [exact HW|]; rewrite Rmult_0_r in HY |- *; exact HY).
  rewrite (no_positive_terms G (fun g => Rabs (X (medium P j) g h)) (fun g _ => Rabs_pos _) S0 g Hg). ring.
Qed.
(** With a yield of at most one, leakage is enough. *)
Lemma leak_no_self_fed : yields_below P G T X 1 -> transmitting P G T -> leaky P -> no_self_fed.
Proof.
  intros HY HT (m0 & Hm0 & Hw0 & Hl0) v Hv H. fold (Q v) in H.
  assert (HQ : forall g j, (j < cells P)%nat -> 0 <= Q v g j) by (intros; apply Q_nonneg; assumption).
  assert (LZ : rsum G (fun g => total_leakage (cells P) (angles P) (mu P) (wt P) (psi g (Q v g))) <= 0).
  { assert (NM : N v <= N (fun i g => tau P T g (Q v g) i)) by (apply N_mono; exact H). pose proof (yield_balance v 1 HY Hv).
    revert NM H0. generalize (N (fun i g => tau P T g (Q v g) i)) (N v) (rsum G (fun g => total_leakage (cells P) (angles P) (mu P) (wt P) (psi g (Q v g)))). intros; lra. }
  apply fed_nothing; try assumption. intros g j Hg Hj.
  assert (L0 := no_positive_terms G _ (fun g Hg => psi_leak g (Q v g) Hg (HQ g)) LZ g Hg). cbv beta in L0.
  assert (O := psi_out g (Q v g) Hg (HQ g)). rewrite L0 in O.
  set (o := fun m => if leaves_reflective (mu P) (bc_left P) (bc_right P) m then 0 else wt P m * (Rabs (mu P m) * psi g (Q v g) m (outflow_edge (cells P) (mu P m)))) in O.
  assert (On : forall m, (m < angles P)%nat -> 0 <= o m).
  { intros m Hm. unfold o. destruct (leaves_reflective (mu P) (bc_left P) (bc_right P) m); [apply Rle_refl|].
    apply Rmult_le_pos; [apply (proj1 (proj2 HS)), Hm|]; apply Rmult_le_pos; [apply Rabs_pos|].
    apply psi_nonneg; [exact Hg|apply HQ|exact Hm|unfold outflow_edge; destruct (Rlt_dec _ _); lia]. }
  assert (O0 := no_positive_terms (angles P) o On O m0 Hm0). unfold o in O0.
  cbv beta in O0. rewrite Hl0 in O0.
  assert (Hmu := proj1 HP m0 Hm0). assert (0 < Rabs (mu P m0)) by (apply Rabs_pos_lt, Hmu).
  apply Rmult_integral in O0. destruct O0 as [O0|O0]; [lra|]. apply Rmult_integral in O0. destruct O0 as [O0|O0]; [lra|].
  apply (dark_exit (cells P) (mu P m0) (dx P) (fun i => T (medium P i) g) (Q v g) (psi g (Q v g) m0) Hmu); try assumption.
  - intros i Hi. split; [apply (proj1 HS i Hi)|]. apply HT; assumption.
  - intros k Hk. apply psi_nonneg; try assumption. apply HQ.
  - intros; apply HQ; assumption.
  - apply (proj1 (psi_transport g (Q v g) Hg) m0 Hm0).
Qed.

Section Free.
Hypothesis SF : no_self_fed.
(** The flux of a unit source in every cell and group, with scattering [|X|]. *)
Lemma unit_flux : exists p, positive2 (cells P) G p /\ forall i g, (i < cells P)%nat -> (g < G)%nat ->
  p i g = tau P T g (Q p g) i + tau P T g (fun _ => 1) i.
Proof.
  set (one := mkArr3 1 1 (fun _ _ _ => 1)).
  assert (U : exists p, mg_solution P G T (fun m g h => Rabs (X m g h)) one silent p).
  { apply fredholm; [apply (proj1 HP)|apply ps_mg_divisors; exact HP|].
    intros phi H.
    assert (A : agree2 (cells P) G (fun i g => Rabs (phi i g)) (fun _ _ => 0)).
    { apply SF; [intros i g _ _; apply Rabs_pos|]. intros i g Hi Hg. cbv beta.
      rewrite (solution_pass P G T _ HP _ _ phi H g i Hg Hi) at 1.
      assert (D := pass_dominated P G T HP g (mg_source (medium P) G (fun m g h => Rabs (X m g h)) silent phi g) (fun _ _ => 0) (mg_boundary silent (mu P) g)
        (Q (fun i g => Rabs (phi i g)) g) 1 i Hg Hi).
      rewrite Rmult_1_l in D.
      replace (pass_flux P (fun _ _ => 0) (half_sig P (fun m => T m g)) (mg_boundary silent (mu P) g) 0 (angles P) i) with 0 in D.
      - rewrite Rminus_0_r in D. apply D. intros m j Hm Hj. unfold mg_source, silent; cbn [at3]. rewrite Rminus_0_r, Rplus_0_r, Rmult_1_l.
        apply rsum_abs_le. intros h Hh. rewrite Rabs_mult, Rabs_Rabsolu. lra.
      - symmetry. rewrite (pass_flux_at P _ (fun m j => 0 * 0 + 0 * 0) _ _ (fun m => 0 * 0 + 0 * 0) i Hi).
        + rewrite (pass_flux_linear P (fun _ _ => 0) (fun _ _ => 0) _ (fun _ => 0) (fun _ => 0)) by exact Hi. ring.
        + intros; ring.
        + intros; unfold mg_boundary, silent; cbn [at3]; ring. }
    intros i g Hi Hg. specialize (A i g Hi Hg). cbv beta in A. destruct (Req_dec (phi i g) 0) as [Z|Z]; [exact Z|]. pose proof (Rabs_pos_lt _ Z). lra. }
  destruct U as (p & Hp).
  assert (E : forall i g, (i < cells P)%nat -> (g < G)%nat -> p i g = tau P T g (Q p g) i + tau P T g (fun _ => 1) i).
  { intros i g Hi Hg. rewrite (solution_pass P G T _ HP _ _ p Hp g i Hg Hi).
    rewrite <- (Rmult_1_l (tau P T g (Q p g) i)), <- (Rmult_1_l (tau P T g (fun _ => 1) i)), <- tau_lin by exact Hi.
    unfold tau. apply pass_flux_at; [exact Hi| |].
    - intros m j Hm Hj. unfold mg_source, one, Q; cbn [at3]. ring.
    - intros m Hm. unfold mg_boundary, silent; cbn [at3]. reflexivity. }
  assert (NN : below2 (cells P) G (fun _ _ => 0) p).
  { set (v := fun i g => Rmax (- p i g) 0).
    assert (Hv : below2 (cells P) G (fun _ _ => 0) v) by (intros i g _ _; apply Rmax_r).
    assert (A : agree2 (cells P) G v (fun _ _ => 0)).
    { apply SF; [exact Hv|]. intros i g Hi Hg. unfold v at 1. apply Rmax_lub.
      - rewrite (E i g Hi Hg). pose proof (Rlt_le _ _ (tau_one_pos g i Hg Hi)).
        assert (0 <= tau P T g (fun j => 1 * Q p g j + 1 * Q v g j) i).
        { apply (tau_nonneg P G T HP); try assumption. intros j Hj. unfold Q. rewrite !Rmult_1_l, <- rsum_plus. apply rsum_nonneg. intros h Hh.
          rewrite <- Rmult_plus_distr_l. apply Rmult_le_pos; [apply Rabs_pos|]. unfold v. pose proof (Rmax_l (- p j h) 0). lra. }
        rewrite tau_lin in H0 by exact Hi. change (- (tau P T g (Q p g) i + tau P T g (fun _ => 1) i) <= tau P T g (Q v g) i). lra.
      - apply (tau_nonneg P G T HP); try assumption. intros; apply Q_nonneg; assumption. }
    intros i g Hi Hg. specialize (A i g Hi Hg). unfold v in A. pose proof (Rmax_l (- p i g) 0). lra. }
  exists p. split; [|exact E]. intros i g Hi Hg. rewrite (E i g Hi Hg).
  pose proof (tau_one_pos g i Hg Hi). assert (0 <= tau P T g (Q p g) i); [|lra].
  apply (tau_nonneg P G T HP); try assumption. intros; apply Q_nonneg; assumption.
Qed.
(** Then some positive flux is damped. *)
Theorem free_damping : exists c p, 0 <= c < 1 /\ damping P G T X c p.
Proof.
  destruct unit_flux as (p & Hp & E).
  set (ratio := fun i g => if Rlt_dec 0 (tau P T g (fun _ => 1) i) then p i g / tau P T g (fun _ => 1) i else 0).
  assert (R0 : forall i g, (i < cells P)%nat -> (g < G)%nat -> 0 <= ratio i g).
  { intros i g Hi Hg. unfold ratio. destruct (Rlt_dec _ _); [|lra]. apply Rmult_le_pos; [left; apply Hp; assumption|left; apply Rinv_0_lt_compat; assumption]. }
  set (M := 1 + rsum (cells P) (fun i => rsum G (ratio i))).
  assert (HM : 1 <= M) by (unfold M; assert (0 <= rsum (cells P) (fun i => rsum G (ratio i))); [apply rsum_nonneg; intros; apply rsum_nonneg; intros; apply R0; assumption|lra]).
  assert (B : forall i g, (i < cells P)%nat -> (g < G)%nat -> p i g <= M * tau P T g (fun _ => 1) i).
  { intros i g Hi Hg. pose proof (tau_one_pos g i Hg Hi) as H1.
    assert (ratio i g <= M).
    { assert (ratio i g <= rsum (cells P) (fun i => rsum G (ratio i))); [|unfold M; lra].
      eapply Rle_trans; [|apply (rsum_term_le (cells P) (fun i => rsum G (ratio i)) i); [intros; apply rsum_nonneg; intros; apply R0; assumption|exact Hi]].
      apply (rsum_term_le G (ratio i) g); [intros; apply R0; assumption|exact Hg]. }
    unfold ratio in H. destruct (Rlt_dec _ _); [|lra].
    apply (Rmult_le_compat_r (tau P T g (fun _ => 1) i)) in H; [|lra]. unfold Rdiv in H. rewrite Rmult_assoc, Rinv_l, Rmult_1_r in H by lra. exact H. }
  assert (HI : 0 < / M <= 1) by (split; [apply Rinv_0_lt_compat; lra|rewrite <- Rinv_1; apply Rinv_le_contravar; lra]).
  exists (1 - / M), p. split; [lra|]. split; [exact Hp|]. intros g Hg.
  exists (tau P T g (fun i => rsum G (fun h => Rabs (X (medium P i) g h) * p i h))). split.
  - apply tau_flux_of; [apply (proj1 HP)|apply (ps_divisors P G T HP g Hg)].
  - intros i Hi. specialize (E i g Hi Hg). unfold Q in E. specialize (B i g Hi Hg).
    apply (Rmult_le_compat_l (/ M)) in B; [|lra]. rewrite <- Rmult_assoc, Rinv_l, Rmult_1_l in B by lra. lra.
Qed.
End Free.
End Transfer.

Theorem yield_damping X c r : 0 <= c -> c < r -> yields_below P G T X c -> exists p, damping P G T X r p.
Proof.
  intros Hc Hr HY.
  assert (HY' : yields_below P G T (fun m g h => X m g h / r) (c / r)).
  { intros i h Hi Hh. specialize (HY i h Hi Hh).
    rewrite (rsum_ext G _ (fun g => / r * Rabs (X (medium P i) g h))).
    - rewrite rsum_scal. replace (c / r * T (medium P i) h) with (/ r * (c * T (medium P i) h)) by (field; lra).
      replace (rsum (angles P) (wt P) * (/ r * rsum G (fun g => Rabs (X (medium P i) g h)))) with (/ r * (rsum (angles P) (wt P) * rsum G (fun g => Rabs (X (medium P i) g h)))) by ring.
      apply Rmult_le_compat_l; [left; apply Rinv_0_lt_compat; lra|exact HY].
    - intros g Hg. unfold Rdiv. rewrite Rabs_mult, (Rabs_right (/ r)); [ring|]. left. apply Rinv_0_lt_compat. lra. }
  destruct (unit_flux (fun m g h => X m g h / r)) as (p & Hp & E); [apply (yield_no_self_fed _ (c / r))|].
  - split; [apply Rmult_le_pos; [exact Hc|left; apply Rinv_0_lt_compat; lra]|]. apply (Rmult_lt_reg_r r); [lra|]. unfold Rdiv. rewrite Rmult_assoc, Rinv_l by lra. lra.
  - exact HY'.
  - exists p. split; [exact Hp|]. intros g Hg. exists (tau P T g (fun i => rsum G (fun h => Rabs (X (medium P i) g h) * p i h))). split.
    + apply tau_flux_of; [apply (proj1 HP)|apply (ps_divisors P G T HP g Hg)].
    + intros i Hi.
      rewrite (tau_at P T g _ (fun j => r * rsum G (fun h => Rabs (X (medium P j) g h / r) * p j h) + 0 * 0) i Hi).
      * rewrite tau_lin by exact Hi. pose proof (tau_one_pos g i Hg Hi). specialize (E i g Hi Hg). cbv beta in E.
        rewrite Rmult_0_l, Rplus_0_r. apply Rmult_le_compat_l; lra.
      * intros j Hj. rewrite Rmult_0_l, Rplus_0_r, <- rsum_scal. apply rsum_ext. intros h Hh. unfold Rdiv. rewrite Rabs_mult, (Rabs_right (/ r)); [field; lra|].
        left. apply Rinv_0_lt_compat. lra.
Qed.
End Lossy.

(** Row sums: the uniform flux is damped. *)
Theorem ratio_damping P G T X c : positive_sweeps P G T -> 0 <= c -> mg_ratio P G T X c ->
  damping P G T X (rsum (angles P) (wt P) * c) (fun _ _ => 1).
Proof.
  intros HP Hc HR. split; [intros i g _ _; lra|]. intros g Hg.
  exists (tau P T g (fun i => rsum G (fun h => Rabs (X (medium P i) g h) * 1))). split.
  - apply tau_flux_of; [apply (proj1 HP)|apply (ps_divisors P G T HP g Hg)].
  - intros i Hi. rewrite Rmult_1_r.
    assert (D := pass_flux_perturb P (fun _ j => rsum G (fun h => Rabs (X (medium P j) g h) * 1)) (fun _ _ => 0) (half_sig P (fun m => T m g)) (fun _ => 0) c
      (proj1 HP) Hc (proj2 (proj2 HP))).
    assert (Z : tau P T g (fun _ => 0) i = 0).
    { rewrite (tau_at P T g (fun _ => 0) (fun _ => 0 * 0 + 0 * 0) i Hi) by (intros; ring). rewrite (tau_lin P T g (fun _ => 0) (fun _ => 0)) by exact Hi. ring. }
    unfold tau in Z. specialize (D ltac:(
      intros m j Hm Hj; split; [|apply thin_half; [apply (proj1 (proj2 HP)); exact Hg| |]; assumption];
      rewrite Rminus_0_r, Rabs_right by (apply Rle_ge, rsum_nonneg; intros; apply Rmult_le_pos; [apply Rabs_pos|lra]);
      unfold half_sig; replace (2 * (0.5 * T (medium P j) g) * c) with (c * T (medium P j) g) by lra;
      rewrite (rsum_ext G _ (fun h => Rabs (X (medium P j) g h))) by (intros; ring); apply HR; assumption) i Hi).
    rewrite Z, Rminus_0_r in D. apply abs_bounds in D. apply D.
Qed.
