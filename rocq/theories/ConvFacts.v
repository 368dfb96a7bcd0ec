(** C95: second-order mesh convergence of the diamond-difference sweeps. *)
From Coq Require Import Lra Lia Reals.
From Verif Require Import Base BaseFacts SlabModel SlabSpec SlabFacts4 SlabFacts5 MgModel MgSpec MgFacts MgFacts2 MgFacts3 ManFacts ConvSpec.
Open Scope R_scope.

(** *** Taylor bounds *)
Lemma grow (g g' : R -> R) K n h : 0 <= h -> 0 <= K -> g 0 = 0 ->
  (forall t, 0 <= t <= h -> derivable_pt_lim g t (g' t) /\ Rabs (g' t) <= K * t ^ n) ->
  Rabs (g h) <= K * h ^ (S n) / INR (S n).
Proof.
  intros Hh HK H0 H. destruct (Req_dec h 0) as [-> |Nh].
  { rewrite H0, Rabs_R0. unfold Rdiv. apply Rmult_le_pos; [apply Rmult_le_pos; [exact HK|apply pow_le; lra]|].
    left. apply Rinv_0_lt_compat, lt_0_INR. lia. }
  assert (PN : INR (S n) <> 0) by (apply not_0_INR; lia).
  assert (D : forall s t, 0 <= t <= h -> derivable_pt_lim (fun t => K * t ^ (S n) / INR (S n) + s * g t) t (K * t ^ n + s * g' t)).
  { intros s t Ht. eapply dl_eq; [apply dl_plus; [apply dl_div, dl_mult; [apply dl_const|apply derivable_pt_lim_pow]|apply dl_mult; [apply dl_const|apply H; exact Ht]]|].
    cbn [pred]. field. exact PN. }
  assert (G : forall s, (s = 1 \/ s = -1) -> 0 <= K * h ^ (S n) / INR (S n) + s * g h).
  { intros s Hs. destruct (MVT_cor2 (fun t => K * t ^ (S n) / INR (S n) + s * g t) (fun t => K * t ^ n + s * g' t) 0 h ltac:(lra) (fun t Ht => D s t Ht)) as (z & E & Hz).
    rewrite H0 in E. rewrite pow_i in E by lia. 
    assert (P : 0 <= K * z ^ n + s * g' z).
    { destruct (H z ltac:(lra)) as [_ B]. apply abs_bounds in B. destruct Hs as [-> | ->]; lra. }
    assert (0 <= (K * z ^ n + s * g' z) * (h - 0)) by (apply Rmult_le_pos; lra).
    replace (K * 0 / INR (S n) + s * 0) with 0 in E by (field; exact PN). lra. }
  pose proof (G 1 (or_introl eq_refl)). pose proof (G (-1) (or_intror eq_refl)). apply Rabs_le. lra.
Qed.

Lemma dl_up f c t l : derivable_pt_lim f (c + t) l -> derivable_pt_lim (fun t => f (c + t)) t l.
Proof.
  intros H. eapply dl_eq; [apply (derivable_pt_lim_comp (fun t => c + t) f); [apply dl_plus; [apply dl_const|apply dl_id]|exact H]|]. ring.
Qed.
Lemma dl_down f c t l : derivable_pt_lim f (c - t) l -> derivable_pt_lim (fun t => f (c - t)) t (- l).
Proof.
  intros H. eapply dl_eq; [apply (derivable_pt_lim_comp (fun t => c - t) f); [apply dl_minus; [apply dl_const|apply dl_id]|exact H]|]. ring.
Qed.

Lemma taylor a b M2 M3 f : a <= b -> smooth_cell a b M2 M3 f -> exists d, derivable_pt_lim f ((a + b) / 2) d /\
  Rabs (f b - f a - (b - a) * d) <= M3 * (b - a) ^ 3 / 24 /\
  Rabs ((f a + f b) / 2 - f ((a + b) / 2)) <= M2 * (b - a) ^ 2 / 8.
Proof.
  intros Hab (f1 & f2 & f3 & H). set (c := (a + b) / 2). set (h := (b - a) / 2).
  assert (Ea : c - h = a) by (unfold c, h; field). assert (Eb : c + h = b) by (unfold c, h; field).
  assert (Hh : 0 <= h) by (unfold h; lra).
  assert (Hc : a <= c <= b) by (unfold c; lra).
  assert (I1 : forall t, 0 <= t <= h -> a <= c + t <= b) by (intros; lra). assert (I2 : forall t, 0 <= t <= h -> a <= c - t <= b) by (intros; lra).
  assert (PM2 : 0 <= M2). { destruct (H c Hc) as (_ & _ & _ & B & _). pose proof (Rabs_pos (f2 c)). lra. }
  assert (PM3 : 0 <= M3). { destruct (H c Hc) as (_ & _ & _ & _ & B). pose proof (Rabs_pos (f3 c)). lra. }
  exists (f1 c). split; [apply H; exact Hc|]. split.
  - assert (B2 : forall t, 0 <= t <= h -> Rabs (f2 (c + t) - f2 (c - t)) <= 2 * M3 * t ^ 1).
    { intros t Ht. replace (2 * M3 * t ^ 1) with ((2 * M3) * t ^ 1 / 1) by field.
      pose proof (grow (fun t => f2 (c + t) - f2 (c - t)) (fun t => f3 (c + t) - - f3 (c - t)) (2 * M3) 0 t ltac:(lra) ltac:(lra)) as G.
      cbn [INR] in G. apply G.
      - rewrite Rplus_0_r, Rminus_0_r. ring.
      - intros s Hs. destruct (H _ (I1 s ltac:(lra))) as (_ & _ & D1 & _ & B1). destruct (H _ (I2 s ltac:(lra))) as (_ & _ & D2 & _ & B2). split.
        + apply dl_minus; [now apply dl_up|now apply dl_down].
        + rewrite pow_O. apply abs_bounds in B1, B2. apply Rabs_le. lra. }
    assert (B1 : forall t, 0 <= t <= h -> Rabs (f1 (c + t) + f1 (c - t) - 2 * f1 c) <= M3 * t ^ 2).
    { intros t Ht. replace (M3 * t ^ 2) with ((2 * M3) * t ^ 2 / 2) by field.
      pose proof (grow (fun t => f1 (c + t) + f1 (c - t) - 2 * f1 c) (fun t => f2 (c + t) + - f2 (c - t) - 0) (2 * M3) 1 t ltac:(lra) ltac:(lra)) as G.
      cbn [INR] in G. replace (1 + 1) with 2 in G by ring. apply G.
      - rewrite Rplus_0_r, Rminus_0_r. ring.
      - intros s Hs. destruct (H _ (I1 s ltac:(lra))) as (_ & D1 & _). destruct (H _ (I2 s ltac:(lra))) as (_ & D2 & _). split.
        + apply dl_minus; [apply dl_plus; [now apply dl_up|now apply dl_down]|apply dl_const].
        + replace (f2 (c + s) + - f2 (c - s) - 0) with (f2 (c + s) - f2 (c - s)) by ring. apply B2. lra. }
    pose proof (grow (fun t => f (c + t) - f (c - t) - 2 * t * f1 c) (fun t => f1 (c + t) - - f1 (c - t) - 2 * f1 c) M3 2 h Hh PM3) as G.
    cbn [INR] in G. replace (1 + 1 + 1) with 3 in G by ring. rewrite Ea, Eb in G.
    replace (f b - f a - (b - a) * f1 c) with (f b - f a - 2 * h * f1 c) by (unfold h; field).
    replace (M3 * (b - a) ^ 3 / 24) with (M3 * h ^ 3 / 3) by (unfold h; field). apply G.
    + rewrite Rplus_0_r, Rminus_0_r. ring.
    + intros s Hs. destruct (H _ (I1 s Hs)) as (D1 & _). destruct (H _ (I2 s Hs)) as (D2 & _). split.
      * apply dl_minus; [apply dl_minus; [now apply dl_up|now apply dl_down]|]. 
        eapply dl_eq; [apply dl_mult; [apply dl_mult; [apply dl_const|apply dl_id]|apply dl_const]|]. cbv beta. ring.
      * replace (f1 (c + s) - - f1 (c - s) - 2 * f1 c) with (f1 (c + s) + f1 (c - s) - 2 * f1 c) by ring. apply B1. exact Hs.
  - assert (B1 : forall t, 0 <= t <= h -> Rabs (f1 (c + t) - f1 (c - t)) <= 2 * M2 * t ^ 1).
    { intros t Ht. replace (2 * M2 * t ^ 1) with ((2 * M2) * t ^ 1 / 1) by field.
      pose proof (grow (fun t => f1 (c + t) - f1 (c - t)) (fun t => f2 (c + t) - - f2 (c - t)) (2 * M2) 0 t ltac:(lra) ltac:(lra)) as G.
      cbn [INR] in G. apply G.
      - rewrite Rplus_0_r, Rminus_0_r. ring.
      - intros s Hs. destruct (H _ (I1 s ltac:(lra))) as (_ & D1 & _ & Q1 & _). destruct (H _ (I2 s ltac:(lra))) as (_ & D2 & _ & Q2 & _). split.
        + apply dl_minus; [now apply dl_up|now apply dl_down].
        + rewrite pow_O. apply abs_bounds in Q1, Q2. apply Rabs_le. lra. }
    pose proof (grow (fun t => f (c + t) + f (c - t) - 2 * f c) (fun t => f1 (c + t) + - f1 (c - t) - 0) (2 * M2) 1 h Hh ltac:(lra)) as G.
    cbn [INR] in G. replace (1 + 1) with 2 in G by ring. rewrite Ea, Eb in G.
    assert (K : Rabs (f b + f a - 2 * f c) <= 2 * M2 * h ^ 2 / 2).
    { apply G.
      - rewrite Rplus_0_r, Rminus_0_r. ring.
      - intros s Hs. destruct (H _ (I1 s Hs)) as (D1 & _). destruct (H _ (I2 s Hs)) as (D2 & _). split.
        + apply dl_minus; [apply dl_plus; [now apply dl_up|now apply dl_down]|apply dl_const].
        + replace (f1 (c + s) + - f1 (c - s) - 0) with (f1 (c + s) - f1 (c - s)) by ring. apply B1. exact Hs. }
    replace ((f a + f b) / 2 - f c) with ((f b + f a - 2 * f c) * / 2) by field. rewrite Rabs_mult, (Rabs_right (/ 2)) by lra.
    replace (M2 * (b - a) ^ 2 / 8) with (2 * M2 * h ^ 2 / 2 * / 2) by (unfold h; field). lra.
Qed.

(** *** marching the error along one ordinate *)
Lemma march n mu dx sig q e kappa b0 t : 0 < mu -> 0 <= kappa -> 0 <= b0 ->
  (forall i, (i < n)%nat -> 0 < dx i /\ 0 <= sig i /\ (kappa = 0 \/ dx i * sig i <= 2 * mu) /\ 0 <= t i /\ Rabs (q i) <= kappa * sig i + t i) ->
  dd_balance n mu dx sig q e -> Rabs (e 0%nat) <= kappa + b0 ->
  forall k, (k <= n)%nat -> Rabs (e k) <= kappa + b0 + rsum k (fun j => t j * dx j) / mu.
Proof.
  intros Hmu Hk Hb H B H0. induction k as [|k IH]; intros Hkn.
  { cbn [rsum]. unfold Rdiv. rewrite Rmult_0_l, Rplus_0_r. exact H0. }
  specialize (IH ltac:(lia)). destruct (H k ltac:(lia)) as (Pd & Ps & Th & Pt & Q). specialize (B k ltac:(lia)).
  cbn [rsum]. set (S := rsum k (fun j => t j * dx j)) in *. set (E := kappa + b0 + S / mu) in *.
  set (a := mu / dx k). set (s := sig k / 2).
  assert (Pa : 0 < a) by (apply Rdiv_lt_0_compat; assumption). assert (Ps' : 0 <= s) by (unfold s; lra).
  assert (PS : 0 <= S) by (apply rsum_nonneg; intros j Hj; destruct (H j ltac:(lia)) as (? & _ & _ & ? & _); apply Rmult_le_pos; lra).
  assert (PE : kappa <= E). { unfold E. assert (0 <= S / mu) by (apply Rmult_le_pos; [exact PS|left; now apply Rinv_0_lt_compat]). lra. }
  assert (R1 : e (Datatypes.S k) * (a + s) = (a - s) * e k + q k) by (unfold a, s in *; lra).
  assert (R2 : Rabs (e (Datatypes.S k)) * (a + s) <= (a + s) * E + t k).
  { replace (Rabs (e (Datatypes.S k)) * (a + s)) with (Rabs (e (Datatypes.S k) * (a + s))) by (rewrite Rabs_mult, (Rabs_right (a + s)) by lra; reflexivity).
    rewrite R1. eapply Rle_trans; [apply Rabs_triang|]. rewrite Rabs_mult.
    destruct Th as [Z|Z].
    - subst kappa. assert (Rabs (a - s) <= a + s) by (apply Rabs_le; lra).
      assert (Rabs (a - s) * Rabs (e k) <= (a + s) * E) by (apply Rmult_le_compat; try apply Rabs_pos; assumption). lra.
    - assert (T : s <= a). { unfold s, a. apply (Rmult_le_reg_r (dx k)); [exact Pd|]. replace (mu / dx k * dx k) with mu by (field; lra). lra. }
      rewrite (Rabs_right (a - s)) by lra. assert ((a - s) * Rabs (e k) <= (a - s) * E) by (apply Rmult_le_compat_l; lra).
      assert (kappa * sig k <= 2 * s * E). { unfold s. replace (2 * (sig k / 2) * E) with (E * sig k) by field. apply Rmult_le_compat_r; assumption. }
      lra. }
  apply (Rmult_le_reg_r (a + s)); [lra|]. eapply Rle_trans; [exact R2|].
  replace (kappa + b0 + (S + t k * dx k) / mu) with (E + t k / a) by (unfold E, a; field; lra).
  rewrite Rmult_plus_distr_r. assert (t k <= t k / a * (a + s)).
  { replace (t k / a * (a + s)) with (t k + t k / a * s) by (field; lra). assert (0 <= t k / a) by (apply Rmult_le_pos; [exact Pt|left; now apply Rinv_0_lt_compat]). assert (0 <= t k / a * s) by (apply Rmult_le_pos; assumption). lra. }
  lra.
Qed.

Lemma rsum_mono_n k n f : (k <= n)%nat -> (forall i, (i < n)%nat -> 0 <= f i) -> rsum k f <= rsum n f.
Proof.
  intros Hk Hf. replace n with (k + (n - k))%nat by lia. rewrite rsum_split.
  assert (0 <= rsum (n - k) (fun i => f (k + i)%nat)) by (apply rsum_nonneg; intros; apply Hf; lia). lra.
Qed.

Lemma march_any n mu dx sig q e kappa b0 t : mu <> 0 -> 0 <= kappa -> 0 <= b0 ->
  (forall i, (i < n)%nat -> 0 < dx i /\ 0 <= sig i /\ (kappa = 0 \/ dx i * sig i <= 2 * Rabs mu) /\ 0 <= t i /\ Rabs (q i) <= kappa * sig i + t i) ->
  dd_balance n mu dx sig q e -> Rabs (e (inflow_edge n mu)) <= kappa + b0 ->
  forall k, (k <= n)%nat -> Rabs (e k) <= kappa + b0 + rsum n (fun j => t j * dx j) / Rabs mu.
Proof.
  intros Hmu Hk Hb H B H0 k Hkn.
  assert (NN : forall i, (i < n)%nat -> 0 <= t i * dx i) by (intros i Hi; destruct (H i Hi) as (? & _ & _ & ? & _); apply Rmult_le_pos; lra).
  assert (PI : 0 < / Rabs mu) by (apply Rinv_0_lt_compat, Rabs_pos_lt; exact Hmu).
  unfold inflow_edge in H0. destruct (Rlt_dec 0 mu) as [P|P].
  - rewrite (Rabs_right mu) in * by lra. eapply Rle_trans; [apply (march n mu dx sig q e kappa b0 t); assumption|].
    apply Rplus_le_compat_l, Rmult_le_compat_r; [lra|]. apply rsum_mono_n; assumption.
  - rewrite (Rabs_left mu) in * by lra.
    pose proof (march n (- mu) (fun i => dx (n - 1 - i)%nat) (fun i => sig (n - 1 - i)%nat) (fun i => q (n - 1 - i)%nat) (fun k => e (n - k)%nat)
      kappa b0 (fun i => t (n - 1 - i)%nat) ltac:(lra) Hk Hb) as M.
    assert (A : Rabs (e (n - (n - k))%nat) <= kappa + b0 + rsum (n - k) (fun j => t (n - 1 - j)%nat * dx (n - 1 - j)%nat) / - mu).
    { apply M; [| | |lia].
      - intros i Hi. apply H. lia.
      - intros i Hi. specialize (B (n - 1 - i)%nat ltac:(lia)). replace (S (n - 1 - i)) with (n - i)%nat in B by lia.
        replace (n - S i)%nat with (n - 1 - i)%nat by lia. rewrite <- B. destruct (H (n - 1 - i)%nat ltac:(lia)) as (Pd & _). field. lra.
      - rewrite Nat.sub_0_r. exact H0. }
    replace (n - (n - k))%nat with k in A by lia. eapply Rle_trans; [exact A|].
    apply Rplus_le_compat_l, Rmult_le_compat_r; [lra|].
    rewrite <- (rsum_rev n (fun j => t j * dx j)). apply (rsum_mono_n (n - k) n (fun j => t (n - 1 - j)%nat * dx (n - 1 - j)%nat)); [lia|].
    intros i Hi. apply NN. lia.
Qed.

(** *** one group: computed flux against a continuous flux *)
Lemma edge_left P x f i : (i < cells P)%nat -> edge_value P x f i = f i (x i).
Proof. intros H. unfold edge_value. destruct (Nat.ltb_spec i (cells P)); [reflexivity|lia]. Qed.
Lemma edge_right P x f i : (i < cells P)%nat -> ((S i < cells P)%nat -> f i (x (S i)) = f (S i) (x (S i))) ->
  edge_value P x f (S i) = f i (x (S i)).
Proof.
  intros H C. unfold edge_value. destruct (Nat.ltb_spec (S i) (cells P)); [symmetry; now apply C|].
  assert (S i = cells P) by lia. replace (cells P - 1)%nat with i by lia. congruence.
Qed.

Lemma group_error P sigma qs qe inflow x M2 M3 psi ex h mu0 sigmax kappa :
  regular_mesh P h mu0 -> cell_edges P x -> 0 <= kappa ->
  (forall i, (i < cells P)%nat -> 0 <= sigma i <= sigmax) ->
  (kappa = 0 \/ forall m i, (m < angles P)%nat -> (i < cells P)%nat -> dx P i * sigma i <= 2 * Rabs (mu P m)) ->
  (forall m i, (m < angles P)%nat -> (i < cells P)%nat -> Rabs (qs m i - qe m i) <= kappa * sigma i) ->
  continuous_flux P sigma qe inflow x M2 M3 ex ->
  (forall m, (m < angles P)%nat -> dd_balance (cells P) (mu P m) (dx P) sigma (qs m) (psi m)) ->
  (forall m, (m < angles P)%nat -> psi m (inflow_edge (cells P) (mu P m)) =
     reflected_in (cells P) (angles P) (mu P) (bc_left P) (bc_right P) psi m + inflow m) ->
  forall m, (m < angles P)%nat ->
    (forall k, (k <= cells P)%nat -> Rabs (psi m k - edge_value P x (ex m) k) <= kappa + edge_constant (rsum (cells P) (dx P)) sigmax mu0 M2 M3 * h ^ 2) /\
    (forall i, (i < cells P)%nat -> Rabs ((psi m i + psi m (S i)) / 2 - ex m i (centre x i))
       <= kappa + centre_constant (rsum (cells P) (dx P)) sigmax mu0 M2 M3 * h ^ 2).
Proof.
  intros (Hn & Hmu0 & Hdx & Hmu & Hsym & Hord) Hx Hk Hsig Hthin Hq (Hsm & Hcont & Htr & Hin) Hbal Hpin.
  set (n := cells P) in *. set (L := rsum n (dx P)).
  assert (Hnz : nonzero_ordinates (angles P) (mu P)).
  { intros m Hm Z. specialize (Hmu m Hm). rewrite Z, Rabs_R0 in Hmu. lra. }
  assert (Hh : 0 < h) by (destruct (Hdx 0%nat Hn); lra).
  assert (Hsx : 0 <= sigmax) by (destruct (Hsig 0%nat Hn); lra).
  pose (err := fun m k => psi m k - edge_value P x (ex m) k).
  pose (t := fun m i => dx P i ^ 2 * (Rabs (mu P m) * M3 / 24 + sigma i * M2 / 8)).
  assert (PM : (0 < angles P)%nat -> 0 <= M2 /\ 0 <= M3).
  { intros Ha. destruct (Hsm 0%nat 0%nat Ha Hn) as (f1 & f2 & f3 & H). destruct (H (x 0%nat)) as (_ & _ & _ & B1 & B2).
    - rewrite (Hx 0%nat Hn). destruct (Hdx 0%nat Hn). lra.
    - pose proof (Rabs_pos (f2 (x 0%nat))). pose proof (Rabs_pos (f3 (x 0%nat))). lra. }
  (* truncation error *)
  assert (TR : forall m i, (m < angles P)%nat -> (i < n)%nat ->
    Rabs (mu P m / dx P i * (edge_value P x (ex m) (S i) - edge_value P x (ex m) i)
          + sigma i * ((edge_value P x (ex m) i + edge_value P x (ex m) (S i)) / 2) - qe m i) <= t m i /\
    Rabs ((edge_value P x (ex m) i + edge_value P x (ex m) (S i)) / 2 - ex m i (centre x i)) <= M2 * h ^ 2 / 8).
  { intros m i Hm Hi. destruct (PM ltac:(lia)) as [P2 P3]. destruct (Hdx i Hi) as [Pd Hd]. destruct (Hsig i Hi) as [Ps _].
    rewrite (edge_left P x (ex m) i Hi). rewrite (edge_right P x (ex m) i Hi) by (intros; now apply Hcont).
    destruct (taylor (x i) (x (S i)) M2 M3 (ex m i) ltac:(rewrite (Hx i Hi); lra) (Hsm m i Hm Hi)) as (d & Dd & T3 & T2).
    destruct (Htr m i Hm Hi) as (d' & Dd' & E). fold (centre x i) in Dd, T2.
    pose proof (uniqueness_limite _ _ _ _ Dd Dd') as Ed. subst d'.
    assert (W : x (S i) - x i = dx P i) by (rewrite (Hx i Hi); ring). rewrite W in *.
    split.
    - rewrite <- E.
      replace (mu P m / dx P i * (ex m i (x (S i)) - ex m i (x i)) + sigma i * ((ex m i (x i) + ex m i (x (S i))) / 2) - (mu P m * d + sigma i * ex m i (centre x i)))
        with (mu P m / dx P i * (ex m i (x (S i)) - ex m i (x i) - dx P i * d) + sigma i * ((ex m i (x i) + ex m i (x (S i))) / 2 - ex m i (centre x i))) by (field; lra).
      eapply Rle_trans; [apply Rabs_triang|]. rewrite !Rabs_mult. rewrite (Rabs_right (sigma i)) by lra.
      unfold Rdiv at 1. rewrite Rabs_mult, Rabs_inv, (Rabs_right (dx P i)) by lra.
      unfold t. replace (dx P i ^ 2 * (Rabs (mu P m) * M3 / 24 + sigma i * M2 / 8))
        with (Rabs (mu P m) * / dx P i * (M3 * dx P i ^ 3 / 24) + sigma i * (M2 * dx P i ^ 2 / 8)) by (field; lra).
      apply Rplus_le_compat; apply Rmult_le_compat_l; try assumption.
      apply Rmult_le_pos; [apply Rabs_pos|left; now apply Rinv_0_lt_compat].
    - eapply Rle_trans; [exact T2|]. unfold Rdiv. apply Rmult_le_compat_r; [lra|]. apply Rmult_le_compat_l; [exact P2|].
      apply pow_incr. lra. }
  assert (EB : forall m, (m < angles P)%nat -> dd_balance n (mu P m) (dx P) sigma
     (fun i => mu P m / dx P i * (err m (S i) - err m i) + sigma i * ((err m i + err m (S i)) / 2)) (err m)).
  { intros m Hm i Hi. reflexivity. }
  assert (QB : forall m i, (m < angles P)%nat -> (i < n)%nat ->
     Rabs (mu P m / dx P i * (err m (S i) - err m i) + sigma i * ((err m i + err m (S i)) / 2)) <= kappa * sigma i + t m i).
  { intros m i Hm Hi. destruct (TR m i Hm Hi) as [T _]. specialize (Hbal m Hm i Hi).
    replace (mu P m / dx P i * (err m (S i) - err m i) + sigma i * ((err m i + err m (S i)) / 2))
      with ((qs m i - qe m i) - (mu P m / dx P i * (edge_value P x (ex m) (S i) - edge_value P x (ex m) i)
          + sigma i * ((edge_value P x (ex m) i + edge_value P x (ex m) (S i)) / 2) - qe m i)) by (unfold err; lra).
    unfold Rminus at 1. eapply Rle_trans; [apply Rabs_triang|]. rewrite Rabs_Ropp. apply Rplus_le_compat; [now apply Hq|exact T]. }
  pose (K := edge_constant L sigmax mu0 M2 M3 / 2 * h ^ 2).
  assert (TS : forall m, (m < angles P)%nat -> rsum n (fun j => t m j * dx P j) / Rabs (mu P m) <= K).
  { intros m Hm. destruct (PM ltac:(lia)) as [P2 P3]. specialize (Hmu m Hm). assert (Pmu : 0 < Rabs (mu P m)) by lra.
    unfold Rdiv at 1. rewrite <- rsum_scal_r. unfold K, edge_constant.
    replace (2 * L * (M3 / 24 + sigmax * M2 / (8 * mu0)) / 2 * h ^ 2) with (L * ((M3 / 24 + sigmax * M2 / (8 * mu0)) * h ^ 2)) by (field; lra).
    unfold L. rewrite <- rsum_scal_r. apply rsum_le. intros j Hj. destruct (Hdx j Hj) as [Pd Hd]. destruct (Hsig j Hj) as [Ps Hs].
    unfold t. replace (dx P j ^ 2 * (Rabs (mu P m) * M3 / 24 + sigma j * M2 / 8) * dx P j * / Rabs (mu P m))
      with (dx P j * ((M3 / 24 + sigma j * M2 / 8 * / Rabs (mu P m)) * dx P j ^ 2)) by (field; lra).
    apply Rmult_le_compat_l; [lra|]. assert (I : / Rabs (mu P m) <= / mu0) by (apply Rinv_le_contravar; lra).
    assert (0 < / Rabs (mu P m)) by (now apply Rinv_0_lt_compat).
    assert (A : sigma j * M2 / 8 * / Rabs (mu P m) <= sigmax * M2 / (8 * mu0)).
    { replace (sigmax * M2 / (8 * mu0)) with (sigmax * M2 / 8 * / mu0) by (field; lra). apply Rmult_le_compat; try lra.
      - unfold Rdiv. apply Rmult_le_pos; [apply Rmult_le_pos; assumption|lra].
      - unfold Rdiv. apply Rmult_le_compat_r; [lra|]. apply Rmult_le_compat_r; assumption. }
    assert (0 <= sigma j * M2 / 8 * / Rabs (mu P m)).
    { unfold Rdiv. repeat apply Rmult_le_pos; lra. }
    apply Rmult_le_compat; [lra|apply pow_le; lra|lra|apply pow_incr; lra]. }
  assert (GO : forall m b0, (m < angles P)%nat -> 0 <= b0 -> Rabs (err m (inflow_edge n (mu P m))) <= kappa + b0 ->
     forall k, (k <= n)%nat -> Rabs (err m k) <= kappa + b0 + K).
  { intros m b0 Hm Hb H0 k Hkn. destruct (PM ltac:(lia)) as [P2 P3]. eapply Rle_trans.
    - refine (march_any n (mu P m) (dx P) sigma _ (err m) kappa b0 (t m) (Hnz m Hm) Hk Hb _ (EB m Hm) H0 k Hkn).
      intros i Hi. destruct (Hdx i Hi) as [Pd _]. destruct (Hsig i Hi) as [Ps _]. split; [exact Pd|]. split; [exact Ps|]. split.
      + destruct Hthin as [Z|T]; [now left|right; now apply T].
      + split; [|now apply QB]. unfold t. apply Rmult_le_pos; [apply pow_le; lra|].
        pose proof (Rabs_pos (mu P m)). unfold Rdiv. apply Rplus_le_le_0_compat; apply Rmult_le_pos; try lra; apply Rmult_le_pos; lra.
    - specialize (TS m Hm). lra. }
  assert (PK : (0 < angles P)%nat -> 0 <= K).
  { intros Ha. destruct (PM Ha) as [P2 P3]. unfold K, edge_constant.
    assert (0 <= L) by (apply rsum_nonneg; intros i Hi; destruct (Hdx i Hi); lra).
    assert (0 <= M3 / 24) by (unfold Rdiv; apply Rmult_le_pos; lra).
    assert (0 <= sigmax * M2 / (8 * mu0)).
    { unfold Rdiv. apply Rmult_le_pos; [apply Rmult_le_pos; assumption|]. left. apply Rinv_0_lt_compat. lra. }
    assert (0 <= h ^ 2) by (apply pow_le; lra).
    unfold Rdiv at 1. repeat apply Rmult_le_pos; lra. }
  assert (IN : forall m, (m < angles P)%nat -> err m (inflow_edge n (mu P m)) =
     if enters_reflective (mu P) (bc_left P) (bc_right P) m then err (angles P - m - 1)%nat (inflow_edge n (mu P m)) else 0).
  { intros m Hm. unfold err at 1. rewrite Hpin, Hin by exact Hm. unfold n. rewrite reflected_in_spec by assumption. fold n.
    destruct (enters_reflective _ _ _ m); [unfold err|]; ring. }
  assert (ALL : forall m, (m < angles P)%nat -> forall k, (k <= n)%nat -> Rabs (err m k) <= kappa + 2 * K).
  { intros m Hm k Hkn. pose proof (PK ltac:(lia)) as PK'.
    assert (IE : forall m, (inflow_edge n (mu P m) <= n)%nat) by (intros m0; unfold inflow_edge; destruct (Rlt_dec _ _); lia).
    specialize (IN m Hm) as I. destruct (enters_reflective (mu P) (bc_left P) (bc_right P) m) eqn:Er.
    - set (m' := (angles P - m - 1)%nat) in *. assert (Hm' : (m' < angles P)%nat) by (unfold m'; lia).
      specialize (IN m' Hm') as I'. destruct (enters_reflective (mu P) (bc_left P) (bc_right P) m') eqn:Er'.
      + specialize (Hord m Hm Er) as O1. specialize (Hord m' Hm' Er') as O2. unfold m' in *. lia.
      + assert (B1 : forall k, (k <= n)%nat -> Rabs (err m' k) <= kappa + 0 + K).
        { apply GO; [exact Hm'|lra|]. rewrite I', Rabs_R0. lra. }
        eapply Rle_trans; [apply (GO m K Hm PK'); [|exact Hkn]|lra]. rewrite I. specialize (B1 _ (IE m)). lra.
    - eapply Rle_trans; [apply (GO m 0 Hm ltac:(lra)); [|exact Hkn]|lra]. rewrite I, Rabs_R0. lra. }
  assert (K2 : 2 * K = edge_constant L sigmax mu0 M2 M3 * h ^ 2) by (unfold K; field).
  intros m Hm. split.
  - intros k Hkn. rewrite <- K2. now apply ALL.
  - intros i Hi. destruct (TR m i Hm Hi) as [_ T].
    pose proof (ALL m Hm i ltac:(lia)) as A. pose proof (ALL m Hm (S i) ltac:(lia)) as B. unfold centre_constant.
    replace ((psi m i + psi m (S i)) / 2 - ex m i (centre x i))
      with ((err m i + err m (S i)) / 2 + ((edge_value P x (ex m) i + edge_value P x (ex m) (S i)) / 2 - ex m i (centre x i))) by (unfold err; field).
    eapply Rle_trans; [apply Rabs_triang|]. rewrite Rmult_plus_distr_r, <- K2.
    assert (Rabs ((err m i + err m (S i)) / 2) <= kappa + 2 * K).
    { apply abs_bounds in A, B. apply Rabs_le. lra. }
    lra.
Qed.

(** *** C95 *)
Lemma regular_divisors P (xs_total : vec) h mu0 : regular_mesh P h mu0 ->
  (forall i, (i < cells P)%nat -> 0 <= xs_total (medium P i)) -> good_divisors P xs_total.
Proof.
  intros (Hn & Hmu0 & Hdx & Hmu & _) Hs m Hm i Hi. destruct (Hdx i Hi) as [Pd _]. specialize (Hs i Hi). specialize (Hmu m Hm).
  assert (0 < Rabs (mu P m) / dx P i) by (apply Rdiv_lt_0_compat; lra).
  split; [lra|]. lra.
Qed.

Lemma known_source_converges P xs_total source boundary x h mu0 sigmax M2 M3 psi :
  angles P <> 1%nat -> regular_mesh P h mu0 -> cell_edges P x ->
  (forall i, (i < cells P)%nat -> 0 <= xs_total (medium P i) <= sigmax) ->
  continuous_flux P (fun i => xs_total (medium P i)) (fun m i => at2 source i (bidx (cols2 source) m))
    (boundary_in boundary (mu P)) x M2 M3 psi ->
  let L := rsum (cells P) (dx P) in
  forall m, (m < angles P)%nat ->
    (forall k, (k <= cells P)%nat ->
       Rabs (slab_known_source_sn P zeros2 (angles P) xs_total source boundary 1 k m - edge_value P x (psi m) k)
       <= edge_constant L sigmax mu0 M2 M3 * h ^ 2) /\
    (forall i, (i < cells P)%nat ->
       Rabs (slab_known_source_sn P zeros2 (angles P) xs_total source boundary 0 i m - psi m i (centre x i))
       <= centre_constant L sigmax mu0 M2 M3 * h ^ 2).
Proof.
  intros Ha Hreg Hx Hsig Hc L m Hm.
  assert (Hnz : nonzero_ordinates (angles P) (mu P)).
  { intros m' Hm' Z. destruct Hreg as (_ & Hmu0 & _ & Hmu & _). specialize (Hmu m' Hm'). rewrite Z, Rabs_R0 in Hmu. lra. }
  destruct (known_transport P xs_total source boundary Ha Hnz (regular_divisors P xs_total h mu0 Hreg ltac:(intros; now apply Hsig)))
    as (sol & (B & I & _) & E1 & E0).
  pose (qs := fun m i => at2 source i (bidx (cols2 source) m)).
  destruct (group_error P (fun i => xs_total (medium P i)) qs qs (boundary_in boundary (mu P)) x M2 M3 sol psi h mu0 sigmax 0 Hreg Hx (Rle_refl 0)
    Hsig (or_introl eq_refl)
    ltac:(intros m' i Hm' Hi; rewrite Rminus_diag_eq by reflexivity; rewrite Rabs_R0, Rmult_0_l; lra) Hc B I m Hm) as [G1 G2].
  split.
    + intros k Hk. rewrite E1 by assumption. rewrite <- (Rplus_0_l (edge_constant _ _ _ _ _ * _)). now apply G1.
    + intros i Hi. rewrite E0 by assumption. rewrite <- (Rplus_0_l (centre_constant _ _ _ _ _ * _)). now apply G2.
Qed.

Lemma max1 n (f : nat -> R) : exists e, 0 <= e /\ (forall i, (i < n)%nat -> f i <= e) /\ (e = 0 \/ exists i, (i < n)%nat /\ f i = e).
Proof.
  induction n as [|n (e & E0 & E1 & E2)].
  - exists 0. split; [lra|]. split; [intros; lia|now left].
  - destruct (Rle_dec (f n) e) as [L|L].
    + exists e. split; [exact E0|]. split.
      * intros i Hi. destruct (Nat.eq_dec i n) as [-> |]; [exact L|apply E1; lia].
      * destruct E2 as [|(i & Hi & E)]; [now left|right; exists i; split; [lia|exact E]].
    + exists (f n). split; [lra|]. split.
      * intros i Hi. destruct (Nat.eq_dec i n) as [-> |]; [lra|]. specialize (E1 i ltac:(lia)). lra.
      * right. exists n. split; [lia|reflexivity].
Qed.

Lemma max2 n k (f : nat -> nat -> R) : exists e, 0 <= e /\ (forall i j, (i < n)%nat -> (j < k)%nat -> f i j <= e) /\
  (e = 0 \/ exists i j, (i < n)%nat /\ (j < k)%nat /\ f i j = e).
Proof.
  induction k as [|k (e & E0 & E1 & E2)].
  - exists 0. split; [lra|]. split; [intros; lia|now left].
  - destruct (max1 n (fun i => f i k)) as (d & D0 & D1 & D2). exists (Rmax e d). pose proof (Rmax_l e d). pose proof (Rmax_r e d).
    split; [lra|]. split.
    + intros i j Hi Hj. destruct (Nat.eq_dec j k) as [-> |].
      * specialize (D1 i Hi). cbv beta in D1. lra.
      * specialize (E1 i j Hi ltac:(lia)). lra.
    + unfold Rmax in *. destruct (Rle_dec e d).
      * destruct D2 as [|(i & Hi & E)]; [now left|right; exists i, k; repeat split; [exact Hi|lia|exact E]].
      * destruct E2 as [|(i & j & Hi & Hj & E)]; [now left|right; exists i, j; repeat split; [exact Hi|lia|exact E]].
Qed.

Lemma solution_converges P groups xs_total xs_scatter external boundary x h mu0 sigmax M2 M3 c psi sol :
  regular_mesh P h mu0 -> cell_edges P x -> mg_thin P groups xs_total ->
  (forall i g, (i < cells P)%nat -> (g < groups)%nat -> xs_total (medium P i) g <= sigmax) ->
  (forall m, (m < angles P)%nat -> 0 <= wt P m) -> 0 <= c ->
  rsum (angles P) (wt P) * c < 1 -> mg_ratio P groups xs_total xs_scatter c ->
  continuous_solution P groups xs_total xs_scatter external boundary x M2 M3 psi ->
  mg_solution P groups xs_total xs_scatter external boundary sol ->
  let W := rsum (angles P) (wt P) in let L := rsum (cells P) (dx P) in
  within2 (cells P) groups (W * centre_constant L sigmax mu0 M2 M3 * h ^ 2 / (1 - W * c)) sol
    (fun i g => centre_flux P x (psi g) i).
Proof.
  intros Hreg Hx Hthin Hsig Hw Hc Hrho Hrat Hcont (ang & Hsol) W L.
  destruct (max2 (cells P) groups (fun i g => Rabs (sol i g - centre_flux P x (psi g) i))) as (e & E0 & E1 & E2).
  set (C := centre_constant L sigmax mu0 M2 M3 * h ^ 2) in *.
  assert (STEP : forall i g, (i < cells P)%nat -> (g < groups)%nat -> Rabs (sol i g - centre_flux P x (psi g) i) <= W * (c * e + C)).
  { intros i g Hi Hg. destruct (Hsol g Hg) as (B & I & F). rewrite F by exact Hi. unfold centre_flux. rewrite <- rsum_minus.
    eapply Rle_trans; [apply rsum_abs_le; intros; apply Rle_refl|]. unfold W. rewrite <- rsum_scal_r. apply rsum_le. intros m Hm.
    rewrite <- Rmult_minus_distr_l, Rabs_mult, (Rabs_right (wt P m)) by (apply Rle_ge, Hw, Hm).
    apply Rmult_le_compat_l; [now apply Hw|].
    refine (proj2 (group_error P (fun i => xs_total (medium P i) g) (mg_source (medium P) groups xs_scatter external sol g)
      (mg_source (medium P) groups xs_scatter external (fun i h => centre_flux P x (psi h) i) g) (fun m => mg_boundary boundary (mu P) g m)
      x M2 M3 (ang g) (psi g) h mu0 sigmax (c * e) Hreg Hx _ _ _ _ (Hcont g Hg) B I m Hm) i Hi).
    - apply Rmult_le_pos; assumption.
    - intros j Hj. split; [|now apply Hsig]. apply (Hthin g Hg m j Hm Hj).
    - right. intros m' j Hm' Hj. apply (Hthin g Hg m' j Hm' Hj).
    - intros m' j Hm' Hj. unfold mg_source.
      match goal with |- Rabs (?a + ?b - (?d + ?b)) <= _ => replace (a + b - (d + b)) with (a - d) by ring end.
      rewrite <- rsum_minus. eapply Rle_trans; [apply rsum_abs_le; intros; apply Rle_refl|].
      eapply Rle_trans; [|replace (c * e * xs_total (medium P j) g) with (c * xs_total (medium P j) g * e) by ring; apply Rmult_le_compat_r; [exact E0|apply (Hrat g j Hg Hj)]].
      rewrite <- rsum_scal_r. apply rsum_le. intros k Hk. rewrite <- Rmult_minus_distr_l, Rabs_mult. apply Rmult_le_compat_l; [apply Rabs_pos|].
      now apply E1.
    }
  assert (EB : e <= W * (c * e + C) \/ e = 0).
  { destruct E2 as [|(i & g & Hi & Hg & E)]; [now right|left]. rewrite <- E at 1. now apply STEP. }
  intros i g Hi Hg. fold W in Hrho. destruct EB as [EB|EB].
  - eapply Rle_trans; [now apply E1|]. apply (Rmult_le_reg_r (1 - W * c)); [lra|].
    replace (W * centre_constant L sigmax mu0 M2 M3 * h ^ 2 / (1 - W * c) * (1 - W * c)) with (W * C) by (unfold C; field; lra). lra.
  - subst e. specialize (STEP i g Hi Hg). specialize (E1 i g Hi Hg). cbv beta in E1.
    assert (Z : Rabs (sol i g - centre_flux P x (psi g) i) <= W * C) by lra.
    assert (0 <= W * C) by (pose proof (Rabs_pos (sol i g - centre_flux P x (psi g) i)); lra).
    eapply Rle_trans; [exact E1|]. replace (W * centre_constant L sigmax mu0 M2 M3 * h ^ 2) with (W * C) by (unfold C; ring).
    apply Rmult_le_pos; [assumption|left; apply Rinv_0_lt_compat; lra].
Qed.

Lemma solver_converges P groups xs_total xs_scatter external boundary x h mu0 sigmax M2 M3 c psi old flux :
  regular_mesh P h mu0 -> cell_edges P x -> mg_thin P groups xs_total ->
  (forall i g, (i < cells P)%nat -> (g < groups)%nat -> xs_total (medium P i) g <= sigmax) ->
  (forall m, (m < angles P)%nat -> 0 <= wt P m) -> 0 <= c ->
  rsum (angles P) (wt P) * c < 1 -> mg_ratio P groups xs_total xs_scatter c ->
  continuous_solution P groups xs_total xs_scatter external boundary x M2 M3 psi ->
  source_iteration_iso P groups old xs_total xs_scatter external boundary 1 = Ok flux ->
  let W := rsum (angles P) (wt P) in let L := rsum (cells P) (dx P) in let rho := W * c in
  let mesh := W * centre_constant L sigmax mu0 M2 M3 * h ^ 2 / (1 - rho) in
  exists n, (1 <= n <= 100)%nat /\
    (forall d, 0 <= d -> within2 (cells P) groups d old (fun i g => centre_flux P x (psi g) i) ->
       within2 (cells P) groups (mesh + rho ^ n * (d + mesh)) flux (fun i g => centre_flux P x (psi g) i)) /\
    ((n < 100)%nat -> forall M, 0 <= M ->
       (forall i g, (i < cells P)%nat -> (g < groups)%nat -> Rabs (flux i g) <= M) ->
       within2 (cells P) groups (mesh + rho * (change_gg * INR (cells P) * M) / (1 - rho)) flux
         (fun i g => centre_flux P x (psi g) i)).
Proof.
  intros Hreg Hx Hthin Hsig Hw Hc Hrho Hrat Hcont Hrun W L rho mesh.
  assert (Hnz : nonzero_ordinates (angles P) (mu P)).
  { intros m' Hm' Z. destruct Hreg as (_ & Hmu0 & _ & Hmu & _). specialize (Hmu m' Hm'). rewrite Z, Rabs_R0 in Hmu. lra. }
  destruct (mg_unique_solution P groups xs_total xs_scatter external boundary c Hnz Hthin Hw Hc Hrho Hrat) as (sol & Hsol & _).
  pose proof (solution_converges P groups xs_total xs_scatter external boundary x h mu0 sigmax M2 M3 c psi sol
    Hreg Hx Hthin Hsig Hw Hc Hrho Hrat Hcont Hsol) as HM. cbv zeta in HM. fold W L rho mesh in HM.
  destruct (outer_error P groups xs_total xs_scatter external boundary c old flux sol Hthin Hw Hc Hrho Hrat Hsol Hrun) as (n & Hn & A & B).
  fold W rho in A, B.
  assert (T : forall d a b f, Rabs (a - b) <= d -> Rabs (b - f) <= mesh -> Rabs (a - f) <= mesh + d).
  { intros d a b f H1 H2. replace (a - f) with ((b - f) + (a - b)) by ring. eapply Rle_trans; [apply Rabs_triang|]. lra. }
  exists n. split; [exact Hn|]. split.
  - intros d Hd Hold i g Hi Hg. pose proof (HM i g Hi Hg) as M0. cbv beta in M0.
    assert (0 <= mesh) by (pose proof (Rabs_pos (sol i g - centre_flux P x (psi g) i)); lra).
    apply (T _ _ (sol i g)); [|exact M0]. apply A; [lra| |exact Hi|exact Hg].
    intros i' g' Hi' Hg'. specialize (Hold i' g' Hi' Hg'). specialize (HM i' g' Hi' Hg'). cbv beta in Hold, HM.
    replace (old i' g' - sol i' g') with ((old i' g' - centre_flux P x (psi g') i') - (sol i' g' - centre_flux P x (psi g') i')) by ring.
    apply abs_bounds in Hold, HM. apply Rabs_le. lra.
  - intros Hlt M HMp HMb i g Hi Hg. apply (T _ _ (sol i g)); [|now apply HM]. now apply B.
Qed.
