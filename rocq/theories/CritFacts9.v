(** Scope of the eigenvalue theory, and fixed-source problems with fission: solvable exactly below criticality. *)
From Coq Require Import Lra Lia Psatz.
From Verif Require Import Base BaseFacts Contraction SlabModel SlabSpec SlabFacts SlabFacts2 SlabFacts3 SlabFacts4.
From Verif Require Import MgModel MgSpec MgFacts MgFacts2 MgFacts3 MgFacts5 MgFacts6 MgFacts7 SupSpec SupFacts SupFacts2 SupFacts3 SupFacts4.
From Verif Require Import CritModel CritSpec CritFacts CritFacts2 CritFacts5 CritFacts6 CritFacts7.
Open Scope R_scope.

(** *** three ways to know that scattering dies out *)
Theorem ratio_transport P G T X c : positive_sweeps P G T ->
  (forall i g h, (i < cells P)%nat -> (g < G)%nat -> (h < G)%nat -> 0 <= X (medium P i) g h) ->
  0 <= c -> rsum (angles P) (wt P) * c < 1 -> mg_ratio P G T X c -> damped_transport P G T X.
Proof.
  intros HP HX Hc H1 HR. destruct HP as (A & B & C). split; [exact A|]. split; [exact B|]. split; [exact C|]. split; [exact HX|].
  exists (rsum (angles P) (wt P) * c), (fun _ _ => 1). split.
  - split; [|exact H1]. apply Rmult_le_pos; [apply rsum_nonneg; exact C|exact Hc].
  - apply ratio_damping; [exact (conj A (conj B C))|exact Hc|exact HR].
Qed.
Theorem yield_transport P G T X c : positive_sweeps P G T -> sound_slab P -> 0 < rsum (angles P) (wt P) ->
  (forall i g h, (i < cells P)%nat -> (g < G)%nat -> (h < G)%nat -> 0 <= X (medium P i) g h) ->
  0 <= c < 1 -> yields_below P G T X c -> damped_transport P G T X.
Proof.
  intros HP HS HW HX Hc HY. destruct (yield_damping P G T HP HS HW X c ((1 + c) / 2)) as (p & Hp); [lra|lra|exact HY|].
  destruct HP as (A & B & C). split; [exact A|]. split; [exact B|]. split; [exact C|]. split; [exact HX|].
  exists ((1 + c) / 2), p. split; [lra|exact Hp].
Qed.
Theorem leak_transport P G T X : positive_sweeps P G T -> sound_slab P -> 0 < rsum (angles P) (wt P) ->
  (forall i g h, (i < cells P)%nat -> (g < G)%nat -> (h < G)%nat -> 0 <= X (medium P i) g h) ->
  yields_below P G T X 1 -> transmitting P G T -> leaky P -> damped_transport P G T X.
Proof.
  intros HP HS HW HX HY HT HL. destruct (free_damping P G T HP HW X) as (c & p & Hc & Hp).
  { apply leak_no_self_fed; assumption. }
  destruct HP as (A & B & C). split; [exact A|]. split; [exact B|]. split; [exact C|]. split; [exact HX|].
  exists c, p. split; [exact Hc|exact Hp].
Qed.

Section Multiplying.
Variables (P : sn) (G : nat) (T : mat2) (X : mat3) (f : fission_data).
Hypothesis HD : damped_transport P G T X.
Hypothesis Hn : (0 < cells P)%nat.
Hypothesis HG : (0 < G)%nat.
Hypothesis Hf : nonneg_fission (cells P) G (medium P) f.

Lemma dt_sweeps : positive_sweeps P G T.
Proof. destruct HD as (A & B & C & _). exact (conj A (conj B C)). Qed.
Lemma dt_scatter i g h : (i < cells P)%nat -> (g < G)%nat -> (h < G)%nat -> 0 <= X (medium P i) g h.
Proof. apply (proj1 (proj2 (proj2 (proj2 HD)))). Qed.
Lemma transfer_nonneg i g h : (i < cells P)%nat -> (g < G)%nat -> (h < G)%nat -> 0 <= total_transfer X f (medium P i) g h.
Proof.
  intros Hi Hg Hh. unfold total_transfer. pose proof (dt_scatter i g h Hi Hg Hh). pose proof (emission_entry _ _ _ _ _ _ _ Hf Hi Hg Hh). lra.
Qed.
(** collisions of [v] sending neutrons to group [g], split into scattering and fission *)
Lemma transfer_split v g i : (g < G)%nat -> (i < cells P)%nat ->
  tau P T g (fun j => rsum G (fun h => Rabs (total_transfer X f (medium P j) g h) * v j h)) i
  = tau P T g (fun j => rsum G (fun h => Rabs (X (medium P j) g h) * v j h)) i + tau P T g (fun j => emission G f (medium P) v j g) i.
Proof.
  intros Hg Hi. rewrite <- (Rmult_1_l (tau P T g (fun j => rsum G (fun h => Rabs (X (medium P j) g h) * v j h)) i)), <- (Rmult_1_l (tau P T g (fun j => emission G f (medium P) v j g) i)).
  rewrite <- tau_lin by exact Hi. apply tau_at; [exact Hi|]. intros j Hj. unfold emission. rewrite !Rmult_1_l, <- rsum_plus. apply rsum_ext. intros h Hh.
  pose proof (dt_scatter j g h Hj Hg Hh). pose proof (transfer_nonneg j g h Hj Hg Hh). rewrite !Rabs_right by lra. unfold total_transfer. ring.
Qed.
Lemma pair_split phi k : k <> 0 -> eigenpair P G T X f phi k -> forall i g, (i < cells P)%nat -> (g < G)%nat ->
  phi i g = tau P T g (fun j => rsum G (fun h => Rabs (X (medium P j) g h) * phi j h)) i + / k * tau P T g (fun j => emission G f (medium P) phi j g) i.
Proof.
  intros Hk He i g Hi Hg. change (mg_solution P G T X (iso3 G (fun i g => emission G f (medium P) phi i g / k)) dark phi) in He.
  rewrite (solution_pass P G T X dt_sweeps _ _ phi He g i Hg Hi).
  rewrite <- (Rmult_1_l (tau P T g (fun j => rsum G (fun h => Rabs (X (medium P j) g h) * phi j h)) i)), <- tau_lin by exact Hi.
  unfold tau. apply pass_flux_at; [exact Hi| |].
  - intros m j Hm Hj. unfold mg_source. rewrite (iso3_at G (fun i g => emission G f (medium P) phi i g / k) j m g Hg). unfold Rdiv. rewrite Rmult_1_l.
    rewrite (rsum_ext G (fun h => Rabs (X (medium P j) g h) * phi j h) (fun h => X (medium P j) g h * phi j h)).
    + ring.
    + intros h Hh. pose proof (dt_scatter j g h Hj Hg Hh). rewrite Rabs_right by lra. reflexivity.
  - intros m Hm. reflexivity.
Qed.
Lemma emission_tau_mono v w g i : (g < G)%nat -> (i < cells P)%nat -> below2 (cells P) G v w ->
  tau P T g (fun j => emission G f (medium P) v j g) i <= tau P T g (fun j => emission G f (medium P) w j g) i.
Proof.
  intros Hg Hi H. apply (tau_mono P G T dt_sweeps g _ _ i Hg Hi). intros j Hj. apply (emission_mono (cells P) G (medium P) f v w Hf H); assumption.
Qed.
Lemma emission_tau_nonneg v g i : (g < G)%nat -> (i < cells P)%nat -> below2 (cells P) G (fun _ _ => 0) v ->
  0 <= tau P T g (fun j => emission G f (medium P) v j g) i.
Proof.
  intros Hg Hi H. apply (tau_nonneg P G T dt_sweeps g _ i Hg Hi). intros j Hj. unfold emission. apply rsum_nonneg. intros h Hh.
  apply Rmult_le_pos; [eapply emission_entry; eassumption|apply H; assumption].
Qed.
Lemma emission_tau_lin v w a b g i : (i < cells P)%nat ->
  tau P T g (fun j => emission G f (medium P) (fun i g => a * v i g + b * w i g) j g) i
  = a * tau P T g (fun j => emission G f (medium P) v j g) i + b * tau P T g (fun j => emission G f (medium P) w j g) i.
Proof. intros Hi. rewrite <- tau_lin by exact Hi. apply tau_at; [exact Hi|]. intros j Hj. apply emission_lin. Qed.
Lemma scatter_tau_lin v w a b g i : (i < cells P)%nat ->
  tau P T g (fun j => rsum G (fun h => Rabs (X (medium P j) g h) * (a * v j h + b * w j h))) i
  = a * tau P T g (fun j => rsum G (fun h => Rabs (X (medium P j) g h) * v j h)) i + b * tau P T g (fun j => rsum G (fun h => Rabs (X (medium P j) g h) * w j h)) i.
Proof.
  intros Hi. rewrite <- tau_lin by exact Hi. apply tau_at; [exact Hi|]. intros j Hj. rewrite <- !rsum_scal, <- rsum_plus. apply rsum_ext. intros; ring.
Qed.

Section Pair.
Variables (phi : mat2) (k : R).
Hypothesis Hk : 0 < k.
Hypothesis Hphi : positive2 (cells P) G phi.
Hypothesis He : eigenpair P G T X f phi k.

Lemma subcritical_damped : k < 1 -> exists c p, 0 <= c < 1 /\ damping P G T (total_transfer X f) c p.
Proof.
  intros H1. destruct HD as (_ & _ & _ & _ & c0 & p0 & Hc0 & Hp0).
  assert (Pp : positive2 (cells P) G p0) by exact (proj1 Hp0).
  destruct (ratio_max (cells P) G p0 phi Hn HG Hphi) as (L & i1 & g1 & Hi1 & Hg1 & EL & HL).
  destruct (ratio_max (cells P) G phi p0 Hn HG Pp) as (L' & i2 & g2 & Hi2 & Hg2 & EL' & HL').
  assert (L0 : 0 < L) by (pose proof (Pp i1 g1 Hi1 Hg1); pose proof (Hphi i1 g1 Hi1 Hg1); nra).
  assert (L1 : 0 < L') by (pose proof (Pp i2 g2 Hi2 Hg2); pose proof (Hphi i2 g2 Hi2 Hg2); nra).
  assert (Hik : 1 < / k) by (rewrite <- Rinv_1; apply Rinv_lt_contravar; lra).
  set (eps := (/ k - 1) / L). assert (E0 : 0 < eps) by (apply Rdiv_lt_0_compat; lra).
  assert (EL2 : eps * L = / k - 1) by (unfold eps; field; lra).
  set (c := 1 - eps * (1 - c0) / (L' + eps)).
  assert (Hq : 0 < eps * (1 - c0) / (L' + eps) <= 1).
  { split; [apply Rdiv_lt_0_compat; nra|]. apply (Rmult_le_reg_r (L' + eps)); [lra|]. unfold Rdiv. rewrite Rmult_assoc, Rinv_l by lra. nra. }
  exists c, (fun i g => 1 * phi i g + eps * p0 i g). split; [unfold c; lra|]. split.
  { intros i g Hi Hg. pose proof (Pp i g Hi Hg). pose proof (Hphi i g Hi Hg). cbv beta. nra. }
  intros g Hg. eexists. split; [apply tau_flux_of; [apply (proj1 dt_sweeps)|apply (ps_divisors P G T dt_sweeps g Hg)]|].
  intros i Hi. rewrite transfer_split by assumption. rewrite scatter_tau_lin, emission_tau_lin by exact Hi.
  pose proof (pair_split phi k ltac:(lra) He i g Hi Hg) as E1.
  pose proof (damping_tau P G T X c0 p0 dt_sweeps Hp0 g i Hg Hi) as E2.
  assert (E3 : tau P T g (fun j => emission G f (medium P) p0 j g) i <= L * tau P T g (fun j => emission G f (medium P) phi j g) i).
  { replace (L * tau P T g (fun j => emission G f (medium P) phi j g) i)
      with (L * tau P T g (fun j => emission G f (medium P) phi j g) i + 0 * tau P T g (fun j => emission G f (medium P) phi j g) i) by ring.
    rewrite <- emission_tau_lin by exact Hi. apply emission_tau_mono; try assumption. intros j h Hj Hh. specialize (HL j h Hj Hh). cbv beta. lra. }
  pose proof (HL' i g Hi Hg) as E4. pose proof (Pp i g Hi Hg) as E5.
  revert E1 E2 E3. generalize (tau P T g (fun j => emission G f (medium P) p0 j g) i) (tau P T g (fun j => emission G f (medium P) phi j g) i)
    (tau P T g (fun j => rsum G (fun h => Rabs (X (medium P j) g h) * phi j h)) i) (tau P T g (fun j => rsum G (fun h => Rabs (X (medium P j) g h) * p0 j h)) i).
  intros f0 f1 s1 s0 E1 E2 E3.
  assert (A : 1 * s1 + eps * s0 + (1 * f1 + eps * f0) <= phi i g + eps * (c0 * p0 i g)).
  { apply (Rmult_le_compat_l eps) in E3; [|lra]. rewrite <- Rmult_assoc, EL2 in E3. apply (Rmult_le_compat_l eps) in E2; [|lra]. lra. }
  eapply Rle_trans; [exact A|]. unfold c.
  assert (B : eps * (1 - c0) / (L' + eps) * (1 * phi i g + eps * p0 i g) <= eps * (1 - c0) * p0 i g).
  { replace (eps * (1 - c0) * p0 i g) with (eps * (1 - c0) / (L' + eps) * ((L' + eps) * p0 i g)) by (field; lra).
    apply Rmult_le_compat_l; lra. }
  lra.
Qed.
Lemma damped_subcritical c p : 0 <= c < 1 -> damping P G T (total_transfer X f) c p -> k < 1.
Proof.
  intros Hc Hp. destruct (Rlt_or_le k 1) as [L|L]; [exact L|exfalso].
  assert (Pp : positive2 (cells P) G p) by exact (proj1 Hp).
  destruct (ratio_max (cells P) G phi p Hn HG Pp) as (a & i & g & Hi & Hg & Ea & Ha).
  pose proof (Pp i g Hi Hg) as Hpi. pose proof (Hphi i g Hi Hg) as Hph. assert (A0 : 0 < a) by nra.
  pose proof (pair_split phi k ltac:(lra) He i g Hi Hg) as E1.
  pose proof (damping_tau P G T (total_transfer X f) c p dt_sweeps Hp g i Hg Hi) as E2.
  assert (E3 : tau P T g (fun j => rsum G (fun h => Rabs (total_transfer X f (medium P j) g h) * phi j h)) i
    <= a * tau P T g (fun j => rsum G (fun h => Rabs (total_transfer X f (medium P j) g h) * p j h)) i).
  { replace (a * tau P T g (fun j => rsum G (fun h => Rabs (total_transfer X f (medium P j) g h) * p j h)) i)
      with (a * tau P T g (fun j => rsum G (fun h => Rabs (total_transfer X f (medium P j) g h) * p j h)) i
          + 0 * tau P T g (fun j => rsum G (fun h => Rabs (total_transfer X f (medium P j) g h) * p j h)) i) by ring.
    rewrite <- tau_lin by exact Hi. apply (tau_mono P G T dt_sweeps g _ _ i Hg Hi). intros j Hj. rewrite Rmult_0_l, Rplus_0_r, <- rsum_scal. apply rsum_le. intros h Hh.
    specialize (Ha j h Hj Hh). pose proof (Rabs_pos (total_transfer X f (medium P j) g h)). nra. }
  rewrite transfer_split in E3 by assumption.
  assert (E4 : 0 <= tau P T g (fun j => emission G f (medium P) phi j g) i).
  { apply emission_tau_nonneg; try assumption. intros j h Hj Hh. left. apply Hphi; assumption. }
  assert (Hik : / k <= 1) by (rewrite <- Rinv_1; apply Rinv_le_contravar; lra).
  assert (/ k * tau P T g (fun j => emission G f (medium P) phi j g) i <= 1 * tau P T g (fun j => emission G f (medium P) phi j g) i) by (apply Rmult_le_compat_r; assumption).
  assert (phi i g <= a * (c * p i g)).
  { apply (Rmult_le_compat_l a) in E2; [|lra]. lra. }
  nra.
Qed.

(** *** source problems with fission *)
Lemma fission_part external boundary psi w :
  mg_solution P G T (total_transfer X f) external boundary psi -> mg_solution P G T X external boundary w ->
  next_generation P G T X f psi (fun i g => psi i g - w i g).
Proof.
  intros (p1 & H1) (p2 & H2). change (mg_solution P G T X (iso3 G (fun i g => emission G f (medium P) psi i g)) dark (fun i g => psi i g - w i g)).
  exists (fun g m e => p1 g m e - p2 g m e). intros g Hg.
  destruct (H1 g Hg) as (A1 & B1 & C1). destruct (H2 g Hg) as (A2 & B2 & C2). split; [|split].
  - intros m Hm i Hi. specialize (A1 m Hm i Hi). specialize (A2 m Hm i Hi). cbv beta in *.
    unfold mg_source in *. rewrite (iso3_at G (fun i g => emission G f (medium P) psi i g) i m g Hg). unfold emission.
    rewrite (rsum_ext G (fun h => X (medium P i) g h * (psi i h - w i h)) (fun h => X (medium P i) g h * psi i h - X (medium P i) g h * w i h)) by (intros; ring).
    rewrite rsum_minus.
    rewrite (rsum_ext G (fun h => total_transfer X f (medium P i) g h * psi i h) (fun h => X (medium P i) g h * psi i h + fission_entry f (medium P i) g h * psi i h)) in A1
      by (intros; unfold total_transfer; ring).
    rewrite rsum_plus in A1. unfold Rdiv in *. lra.
  - intros m Hm. rewrite (B1 m Hm), (B2 m Hm). unfold reflected_in. rewrite dark_boundary. destruct (_ && _)%bool; ring.
  - intros i Hi. rewrite (C1 i Hi), (C2 i Hi), <- rsum_minus. apply rsum_ext. intros. unfold Rdiv. ring.
Qed.
Theorem supercritical_unsolvable external boundary w : 1 <= k ->
  mg_solution P G T X external boundary w -> positive2 (cells P) G w ->
  ~ exists psi, below2 (cells P) G (fun _ _ => 0) psi /\ mg_solution P G T (total_transfer X f) external boundary psi.
Proof.
  intros H1 Hw Pw (psi & Hpsi & Hs). pose proof (fission_part external boundary psi w Hs Hw) as Hgen.
  assert (G0 : below2 (cells P) G (fun _ _ => 0) (fun i g => psi i g - w i g)).
  { intros i g Hi Hg.
    assert (Q : below2 (cells P) G (fun i g => 0 * (psi i g - w i g)) (fun i g => psi i g - w i g)).
    { apply (generation_mono P G T X HD f (fun i g => 0 * psi i g) psi); try assumption.
      - intros j h Hj Hh. specialize (Hpsi j h Hj Hh). cbv beta in *. lra.
      - apply (generation_scale P G T X f psi _ 0 Hgen). }
    specialize (Q i g Hi Hg). cbv beta in *. lra. }
  destruct (ratio_max (cells P) G (fun i g => - psi i g) phi Hn HG Hphi) as (a & i & g & Hi & Hg & Ea & Ha). cbv beta in *.
  pose proof (Hphi i g Hi Hg) as Hph. pose proof (Pw i g Hi Hg) as Hwi. pose proof (G0 i g Hi Hg) as G1. cbv beta in G1.
  assert (A0 : a < 0) by nra.
  assert (Q : (- a) * (k * phi i g) <= psi i g - w i g).
  { apply (generation_mono P G T X HD f (fun i g => (- a) * phi i g) psi (fun i g => (- a) * (k * phi i g)) (fun i g => psi i g - w i g)); try assumption.
    - intros j h Hj Hh. specialize (Ha j h Hj Hh). lra.
    - apply (generation_scale P G T X f phi (fun i g => k * phi i g)). apply eigenpair_generation; [lra|exact He]. }
  nra.
Qed.
Theorem source_multiplication external boundary w psi a b : k < 1 ->
  mg_solution P G T X external boundary w -> mg_solution P G T (total_transfer X f) external boundary psi ->
  (forall i g, (i < cells P)%nat -> (g < G)%nat -> a * phi i g <= w i g <= b * phi i g) ->
  forall i g, (i < cells P)%nat -> (g < G)%nat -> a / (1 - k) * phi i g <= psi i g <= b / (1 - k) * phi i g.
Proof.
  intros H1 Hw Hs Hab. pose proof (fission_part external boundary psi w Hs Hw) as Hgen.
  pose proof (eigenpair_generation P G T X f phi k ltac:(lra) He) as Gp.
  assert (U : exists b', (forall i g, (i < cells P)%nat -> (g < G)%nat -> psi i g <= b' * phi i g) /\ b' <= b / (1 - k)).
  { destruct (ratio_max (cells P) G psi phi Hn HG Hphi) as (b' & i & g & Hi & Hg & Eb & Hb). exists b'. split; [exact Hb|].
    assert (Q : psi i g - w i g <= b' * (k * phi i g)).
    { apply (generation_mono P G T X HD f psi (fun i g => b' * phi i g) (fun i g => psi i g - w i g) (fun i g => b' * (k * phi i g))); try assumption.
      apply (generation_scale P G T X f phi _ b' Gp). }
    specialize (Hab i g Hi Hg). pose proof (Hphi i g Hi Hg). apply (Rmult_le_reg_r (1 - k)); [lra|]. unfold Rdiv. rewrite Rmult_assoc, Rinv_l, Rmult_1_r by lra.
    apply (Rmult_le_reg_r (phi i g)); [assumption|]. lra. }
  assert (Lo : exists a', (forall i g, (i < cells P)%nat -> (g < G)%nat -> a' * phi i g <= psi i g) /\ a / (1 - k) <= a').
  { destruct (ratio_max (cells P) G (fun i g => - psi i g) phi Hn HG Hphi) as (a' & i & g & Hi & Hg & Eb & Hb). cbv beta in *. exists (- a').
    assert (Hb' : forall i g, (i < cells P)%nat -> (g < G)%nat -> - a' * phi i g <= psi i g) by (intros j h Hj Hh; specialize (Hb j h Hj Hh); lra).
    split; [exact Hb'|].
    assert (Q : - a' * (k * phi i g) <= psi i g - w i g).
    { apply (generation_mono P G T X HD f (fun i g => - a' * phi i g) psi (fun i g => - a' * (k * phi i g)) (fun i g => psi i g - w i g)); try assumption.
      apply (generation_scale P G T X f phi _ (- a') Gp). }
    specialize (Hab i g Hi Hg). pose proof (Hphi i g Hi Hg). apply (Rmult_le_reg_r (1 - k)); [lra|]. unfold Rdiv. rewrite Rmult_assoc, Rinv_l, Rmult_1_r by lra.
    apply (Rmult_le_reg_r (phi i g)); [assumption|]. lra. }
  destruct U as (b' & Ub & Eb). destruct Lo as (a' & La & Ea). intros i g Hi Hg. pose proof (Hphi i g Hi Hg).
  specialize (Ub i g Hi Hg). specialize (La i g Hi Hg). split; [eapply Rle_trans; [|exact La]|eapply Rle_trans; [exact Ub|]]; apply Rmult_le_compat_r; lra.
Qed.
(** Below criticality: one solution, nonnegative, and source iteration converges to it. *)
Theorem subcritical_solvable : k < 1 ->
  (forall external boundary, exists sol, mg_solution P G T (total_transfer X f) external boundary sol /\
    (forall other, mg_solution P G T (total_transfer X f) external boundary other -> agree2 (cells P) G other sol) /\
    ((forall m i g, (m < angles P)%nat -> (i < cells P)%nat -> (g < G)%nat -> 0 <= at3 external i (bidx (d3b external) m) (bidx (d3c external) g)) ->
     (forall m g, (m < angles P)%nat -> (g < G)%nat -> 0 <= mg_boundary boundary (mu P) g m) ->
     below2 (cells P) G (fun _ _ => 0) sol)) /\
  exists c K, 0 <= c < 1 /\ 1 <= K /\ forall external boundary old sol, mg_solution P G T (total_transfer X f) external boundary sol ->
    exists flux, source_iteration P G old T (Scatter3 (total_transfer X f)) external boundary 1 None = Ok flux /\
    exists n, (1 <= n <= 100)%nat /\
      (forall d, 0 <= d -> within2 (cells P) G d old sol -> within2 (cells P) G (K * c ^ n * d) flux sol) /\
      ((n < 100)%nat -> forall M, 0 <= M ->
         (forall i g, (i < cells P)%nat -> (g < G)%nat -> Rabs (flux i g) <= M) ->
         within2 (cells P) G (K * (c * (change_gg * INR (cells P) * M) / (1 - c))) flux sol).
Proof.
  intros H1. destruct (subcritical_damped H1) as (c & p & Hc & Hp). split.
  - intros external boundary. destruct (damped_well_posed P G T (total_transfer X f) c p dt_sweeps Hc Hp external boundary) as (sol & Hs & Hu & H0).
    exists sol. split; [exact Hs|]. split; [exact Hu|]. apply H0. exact transfer_nonneg.
  - destruct (damped_converges P G T (total_transfer X f) c p dt_sweeps Hc Hp) as (K & HK & H). exists c, K. split; [exact Hc|]. split; [exact HK|exact H].
Qed.
Theorem critical_split : k < 1 <-> exists c p, 0 <= c < 1 /\ damping P G T (total_transfer X f) c p.
Proof. split; [exact subcritical_damped|]. intros (c & p & Hc & Hp). exact (damped_subcritical c p Hc Hp). Qed.
End Pair.
End Multiplying.
(** k is the exact threshold: with all fission data divided by [lam], neutrons are lost on the whole iff [k < lam]. *)
Theorem critical_threshold P G T X f phi k lam : damped_transport P G T X -> (0 < cells P)%nat -> (0 < G)%nat ->
  nonneg_fission (cells P) G (medium P) f -> 0 < k -> positive2 (cells P) G phi -> eigenpair P G T X f phi k -> 0 < lam ->
  (k < lam <-> exists c p, 0 <= c < 1 /\ damping P G T (total_transfer X (scale_fission (/ lam) f)) c p).
Proof.
  intros HD Hn HG Hf Hk Hphi He Hl. assert (Hil : 0 < / lam) by (apply Rinv_0_lt_compat; exact Hl).
  assert (Hk' : 0 < k / lam) by (apply Rdiv_lt_0_compat; assumption).
  assert (He' : eigenpair P G T X (scale_fission (/ lam) f) phi (k / lam)).
  { unfold eigenpair. apply (solution_ext P G T X (fun i g => emission G f (medium P) phi i g / k) _ dark phi phi); [|intros ? ? _ _; reflexivity|exact He].
    intros i g _ _. rewrite scale_emission. field. lra. }
  rewrite <- (critical_split P G T X (scale_fission (/ lam) f) HD Hn HG (scale_nonneg _ _ _ _ _ (Rlt_le _ _ Hil) Hf) phi (k / lam) Hk' Hphi He').
  split; intros H.
  - apply (Rmult_lt_reg_r lam); [exact Hl|]. unfold Rdiv. rewrite Rmult_assoc, Rinv_l by lra. lra.
  - apply (Rmult_lt_compat_r lam) in H; [|exact Hl]. unfold Rdiv in H. rewrite Rmult_assoc, Rinv_l in H by lra. lra.
Qed.
