(** Infinite media with a fission matrix: the critical state, brackets and the critical threshold. *)
From Coq Require Import Lra Lia Psatz FunctionalExtensionality.
From Verif Require Import Base BaseFacts SlabModel SlabSpec MgModel MgSpec SupSpec SupFacts CritModel CritSpec CritFacts5 CritFacts6 CritFacts7 CritFacts8 CritFacts9 CritFacts10 CritFacts11 InfSpec InfFacts.
Open Scope R_scope.

Section Medium.
Variables (angles groups : nat) (wt T : vec) (X : mat2).
Hypothesis HD : damped_0d angles groups wt T X.
Hypothesis HG : (0 < groups)%nat.
Let W := rsum angles wt.

Lemma inf_total g : (g < groups)%nat -> 0 < T g.
Proof. intros Hg. destruct HD as (_ & _ & c & p & _ & H). apply (H g Hg). Qed.
Lemma inf_weight : 0 < W.
Proof. exact (proj1 HD). Qed.
Lemma inf_transport : damped_transport (shade W) groups shade_total (shade_matrix T X).
Proof. apply shade_transport; [exact inf_total|exact HD]. Qed.
Lemma inf_cells : (0 < cells (shade W))%nat.
Proof. cbn. lia. Qed.
Lemma positive_lift v : positive1 groups v -> positive2 (cells (shade W)) groups (fun _ => v).
Proof. intros H i g _ Hg. apply H. exact Hg. Qed.

Variable f : fission_0d.
Hypothesis Hf : nonneg_fission_0d groups f.
Lemma inf_nonneg : nonneg_fission (cells (shade W)) groups (medium (shade W)) (shade_fission T f).
Proof. apply shade_nonneg; [exact inf_total|exact Hf]. Qed.
Lemma inf_pair phi k : eigenpair_0d angles groups wt T X f phi k -> eigenpair (shade W) groups shade_total (shade_matrix T X) (shade_fission T f) (fun _ => phi) k.
Proof. intros H. apply shade_eigenpair; [exact inf_total|exact H]. Qed.
Lemma inf_gen v w : next_generation_0d angles groups wt T X f v w -> next_generation (shade W) groups shade_total (shade_matrix T X) (shade_fission T f) (fun _ => v) (fun _ => w).
Proof. intros H. apply shade_generation; [exact inf_total|exact H]. Qed.

Theorem inf_even : well_fed_0d groups X f -> exists d, even_generation_0d angles groups wt T X f d.
Proof.
  intros H. destruct (generation_even _ _ _ _ inf_transport (shade_fission T f) inf_cells HG inf_nonneg (shade_two_way W inf_weight) (shade_transmitting W groups)) as (d & Hd).
  - apply shade_fed; [exact inf_total|exact H].
  - exists d. apply (shade_even angles groups wt T inf_total). exact Hd.
Qed.
Theorem inf_one_mode : well_fed_0d groups X f -> fissile_0d groups f ->
  exists phi k, 0 < k /\ positive1 groups phi /\ eigenpair_0d angles groups wt T X f phi k /\
    forall phi' k', 0 < k' -> positive1 groups phi' -> eigenpair_0d angles groups wt T X f phi' k' ->
      k' = k /\ exists c, 0 < c /\ forall g, (g < groups)%nat -> phi' g = c * phi g.
Proof.
  intros H Hs. destruct (one_mode _ _ _ _ _ inf_transport inf_cells HG inf_nonneg (shade_two_way W inf_weight) (shade_transmitting W groups)
    (shade_fed angles groups wt T inf_total X f H) (shade_fissile angles groups wt T inf_total f Hs)) as (phi & k & Hk & Hp & He & Hu).
  exists (phi 0%nat), k. split; [exact Hk|]. split; [intros g Hg; apply Hp; [exact inf_cells|exact Hg]|]. split; [apply (shade_eigenpair angles groups wt T inf_total); exact He|].
  intros phi' k' Hk' Hp' He'. destruct (Hu (fun _ => phi') k' Hk' (positive_lift phi' Hp') (inf_pair phi' k' He')) as (E & c & Hc & Hphi).
  split; [exact E|]. exists c. split; [exact Hc|]. intros g Hg. apply (Hphi 0%nat g inf_cells Hg).
Qed.

Variables (phi : vec) (k : R).
Hypothesis Hk : 0 < k.
Hypothesis Hphi : positive1 groups phi.
Hypothesis He : eigenpair_0d angles groups wt T X f phi k.

Theorem inf_dominant psi l : l <> 0 -> eigenpair_0d angles groups wt T X f psi l -> (exists g, (g < groups)%nat /\ psi g <> 0) -> Rabs l <= k.
Proof.
  intros Hl Hp (g & Hg & Hne). apply (mode_dominant _ _ _ _ inf_transport _ (fun _ => phi) k (fun _ => psi) l inf_cells HG inf_nonneg Hk (positive_lift phi Hphi) (inf_pair phi k He) Hl (inf_pair psi l Hp)).
  exists 0%nat, g. split; [exact inf_cells|]. split; assumption.
Qed.
Theorem inf_bracket v w a b : positive1 groups v -> next_generation_0d angles groups wt T X f v w ->
  (below1 groups (fun g => a * v g) w -> a <= k) /\ (below1 groups w (fun g => b * v g) -> k <= b).
Proof.
  intros Hv Hw. destruct (mode_bracket _ _ _ _ inf_transport _ (fun _ => phi) k (fun _ => v) (fun _ => w) a b inf_cells HG inf_nonneg Hk (positive_lift phi Hphi) (inf_pair phi k He) (positive_lift v Hv) (inf_gen v w Hw)) as (A & B).
  split; intros H; [apply A|apply B]; intros i g _ Hg; apply H; exact Hg.
Qed.
Lemma shade_transfer : total_transfer (shade_matrix T X) (shade_fission T f) = shade_matrix T (transfer_0d X f).
Proof. extensionality i. extensionality g. extensionality h. unfold total_transfer, shade_matrix, transfer_0d. cbn. unfold Rdiv. ring. Qed.
Lemma shade_damping_back Y c p : damping (shade W) groups shade_total (shade_matrix T Y) c p -> damping_0d angles groups wt T Y c (p 0%nat).
Proof.
  intros (Hp & H) g Hg. pose proof (inf_total g Hg) as HT. split; [exact HT|]. split; [apply Hp; [exact inf_cells|exact Hg]|].
  destruct (H g Hg) as (u & (psi & Hu) & Hle). specialize (Hle 0%nat inf_cells).
  assert (E := shade_group W (fun i => rsum groups (fun h => Rabs (shade_matrix T Y 0%nat g h) * p i h)) _ psi u (fun m Hm => shade_inflow W psi m Hm) Hu).
  cbv beta in E. replace (rsum groups (fun h => Rabs (shade_matrix T Y 0%nat g h) * p 0%nat h)) with (3 / T g * rsum groups (fun h => Rabs (Y g h) * p 0%nat h)) in E.
  - rewrite E in Hle. apply (Rmult_le_compat_l (T g)) in Hle; [|lra]. fold W.
    replace (T g * (W * (3 / T g * rsum groups (fun h => Rabs (Y g h) * p 0%nat h)) / 3)) with (W * rsum groups (fun h => Rabs (Y g h) * p 0%nat h)) in Hle by (field; lra). lra.
  - rewrite <- rsum_scal. apply rsum_ext. intros h Hh. unfold shade_matrix, Rdiv. rewrite !Rabs_mult, (Rabs_right 3), (Rabs_right (/ T g)); [ring| |lra].
    apply Rle_ge. left. apply Rinv_0_lt_compat. exact HT.
Qed.
Theorem inf_split : k < 1 <-> exists c p, 0 <= c < 1 /\ damping_0d angles groups wt T (transfer_0d X f) c p.
Proof.
  rewrite (critical_split _ _ _ _ _ inf_transport inf_cells HG inf_nonneg (fun _ => phi) k Hk (positive_lift phi Hphi) (inf_pair phi k He)). rewrite shade_transfer. split.
  - intros (c & p & Hc & H). exists c, (p 0%nat). split; [exact Hc|]. apply shade_damping_back. exact H.
  - intros (c & p & Hc & H). exists c, (fun _ => p). split; [exact Hc|]. apply (shade_damping angles groups wt T (transfer_0d X f)); [|exact H]. left. exact inf_weight.
Qed.
End Medium.
