(** Proofs about normalization (C69), metrics (C70). *)
From Coq Require Import Reals Lra Lia List Bool.
From Verif Require Import Base BaseFacts MlmModel MlmSpec ManFacts2.
Local Open Scope R_scope.

(** *** rows *)
Lemma row_max_ge k f j : (j <= k)%nat -> f j <= row_max k f.
Proof.
  induction k as [|k IH]; intros H; cbn [row_max]; [replace j with 0%nat by lia; lra|].
  destruct (Nat.eq_dec j (S k)) as [-> |]; [apply Rmax_r|]. eapply Rle_trans; [apply IH; lia|apply Rmax_l].
Qed.
Lemma row_max_in k f : exists j, (j <= k)%nat /\ row_max k f = f j.
Proof.
  induction k as [|k (j & Hj & E)]; cbn [row_max]; [exists 0%nat; auto|]. unfold Rmax. destruct Rle_dec; [exists (S k)|exists j]; split; auto; lia.
Qed.
Lemma row_min_le k f j : (j <= k)%nat -> row_min k f <= f j.
Proof.
  induction k as [|k IH]; intros H; cbn [row_min]; [replace j with 0%nat by lia; lra|].
  destruct (Nat.eq_dec j (S k)) as [-> |]; [apply Rmin_r|]. eapply Rle_trans; [apply Rmin_l|apply IH; lia].
Qed.
Lemma row_min_in k f : exists j, (j <= k)%nat /\ row_min k f = f j.
Proof.
  induction k as [|k (j & Hj & E)]; cbn [row_min]; [exists 0%nat; auto|]. unfold Rmin. destruct Rle_dec; [exists j|exists (S k)]; split; auto; lia.
Qed.

(** C69: what the normalized array looks like, row by row. *)
Lemma normalize_rows (cols : nat) (data : nat -> nat -> fnum) : cols <> 0%nat -> exists r, min_max_normalization cols data = Ok r /\
  forall i,
    (forall j, (j < cols)%nat -> low r i <= nan_to_num (data i j) <= high r i) /\
    (exists j, (j < cols)%nat /\ low r i = nan_to_num (data i j)) /\ (exists j, (j < cols)%nat /\ high r i = nan_to_num (data i j)) /\
    (forall j, (j < cols)%nat -> 0 <= ndata r i j <= 1) /\
    (forall j, (j < cols)%nat -> low r i + ndata r i j * (high r i - low r i) = nan_to_num (data i j)) /\
    (low r i < high r i -> (exists j, (j < cols)%nat /\ ndata r i j = 0) /\ (exists j, (j < cols)%nat /\ ndata r i j = 1)) /\
    (low r i = high r i -> forall j, (j < cols)%nat -> ndata r i j = 0).
Proof.
  intros Hc. destruct cols as [|k]; [lia|]. cbn [min_max_normalization]. eexists. split; [reflexivity|]. intros i. cbn [ndata high low].
  set (clean := fun j => nan_to_num (data i j)). change (fun j => nan_to_num (data i j)) with clean.
  assert (Hge : forall j, (j < S k)%nat -> clean j <= row_max k clean) by (intros; apply row_max_ge; lia).
  assert (Hle : forall j, (j < S k)%nat -> row_min k clean <= clean j) by (intros; apply row_min_le; lia).
  destruct (row_max_in k clean) as (jm & Hjm & Em). destruct (row_min_in k clean) as (jn & Hjn & En).
  assert (Hv : forall j, nan_to_num (fdiv (nan_to_num (data i j) - row_min k clean) (row_max k clean - row_min k clean)) =
     if Req_EM_T (row_max k clean - row_min k clean) 0 then 0 else (clean j - row_min k clean) / (row_max k clean - row_min k clean)).
  { intros j. unfold fdiv. destruct (Req_EM_T (row_max k clean - row_min k clean) 0); [|reflexivity]. destruct Req_EM_T; [reflexivity|]. destruct Rlt_dec; reflexivity. }
  split; [|split; [|split; [|split; [|split; [|split]]]]].
  - intros j Hj. split; [apply Hle|apply Hge]; assumption.
  - exists jn. split; [lia|exact En].
  - exists jm. split; [lia|exact Em].
  - intros j Hj. rewrite (Hv j). specialize (Hge j Hj). specialize (Hle j Hj). destruct Req_EM_T; [lra|]. split.
    + apply Rmult_le_pos; [lra|]. apply Rlt_le, Rinv_0_lt_compat. lra.
    + apply (Rmult_le_reg_r (row_max k clean - row_min k clean)); [lra|]. unfold Rdiv. rewrite Rmult_assoc, Rinv_l by assumption. lra.
  - intros j Hj. rewrite (Hv j). change (nan_to_num (data i j)) with (clean j). specialize (Hge j Hj). specialize (Hle j Hj). destruct Req_EM_T; [lra|]. field. assumption.
  - intros Hlt. split; [exists jn|exists jm]; (split; [lia|]); rewrite Hv; destruct Req_EM_T; try lra; [rewrite En|rewrite Em]; field_simplify; try lra.
  - intros Heq j Hj. rewrite (Hv j). destruct Req_EM_T; [reflexivity|]. exfalso. lra.
Qed.
Lemma normalize_empty (data : nat -> nat -> fnum) : min_max_normalization 0 data = Raise ValueError.
Proof. reflexivity. Qed.
(** The scaling is not per feature: a column of the result need not use the whole interval. *)
Lemma normalize_not_by_feature : exists (data : nat -> nat -> fnum) r, min_max_normalization 2 data = Ok r /\
  nan_to_num (data 0%nat 0%nat) < nan_to_num (data 1%nat 0%nat) /\ ndata r 0%nat 0%nat = 0 /\ ndata r 1%nat 0%nat = 0.
Proof.
  exists (fun i j => Num (10 * INR i + INR j)). eexists. split; [reflexivity|]. cbn [ndata nan_to_num].
  assert (M : forall a, row_max 1 (fun j => a + INR j) = a + 1 /\ row_min 1 (fun j => a + INR j) = a).
  { intros a. cbn [row_max row_min INR]. unfold Rmax, Rmin. repeat destruct Rle_dec; lra. }
  split; [cbn [INR]; lra|]. split.
  - destruct (M (10 * INR 0)) as (-> & ->). unfold fdiv. destruct Req_EM_T; [lra|]. cbn [nan_to_num INR]. field.
  - destruct (M (10 * INR 1)) as (-> & ->). unfold fdiv. destruct Req_EM_T; [lra|]. cbn [nan_to_num INR]. field.
Qed.
(** Scaling preserves the order inside a row. *)
Lemma normalize_monotone (cols : nat) (data : nat -> nat -> fnum) r i j j' : min_max_normalization cols data = Ok r -> (j < cols)%nat -> (j' < cols)%nat ->
  nan_to_num (data i j) <= nan_to_num (data i j') -> ndata r i j <= ndata r i j'.
Proof.
  intros E Hj Hj' H. assert (Hc : cols <> 0%nat) by lia. destruct (normalize_rows cols data Hc) as (r' & E' & Hr). rewrite E in E'. injection E' as <-.
  destruct (Hr i) as (A & _ & _ & _ & B & _ & C). destruct (Rtotal_order (low r i) (high r i)) as [Hl | [Hl | Hl]].
  - rewrite <- (B j Hj), <- (B j' Hj') in H. apply (Rmult_le_reg_r (high r i - low r i)); lra.
  - rewrite (C Hl j Hj), (C Hl j' Hj'). lra.
  - specialize (A j Hj). lra.
Qed.

(** *** root_normalization *)
Lemma root_inverse (x root : R) : 0 <= x -> 0 < root -> exists y, np_power x root = Num y /\ 0 <= y /\ np_power y (1 / root) = Num x.
Proof.
  intros Hx Hr. unfold np_power at 1. destruct (Rlt_dec 0 x) as [Hp|Hn].
  - exists (Rpower x root). assert (P : 0 < Rpower x root) by apply exp_pos. split; [reflexivity|]. split; [lra|]. unfold np_power. destruct Rlt_dec; [|contradiction].
    rewrite Rpower_mult. replace (root * (1 / root)) with 1 by (field; lra). now rewrite Rpower_1.
  - assert (x = 0) by lra. subst x. destruct Req_EM_T; [|lra]. destruct (Rlt_dec 0 root); [|lra]. exists 0. split; [reflexivity|]. split; [lra|].
    unfold np_power. destruct Rlt_dec; [lra|]. destruct Req_EM_T; [|lra]. destruct (Rlt_dec 0 (1 / root)) as [|N]; [reflexivity|]. exfalso. apply N. apply Rdiv_lt_0_compat; lra.
Qed.
Lemma root_monotone (x y root : R) : 0 <= x < y -> 0 < root -> exists a b, np_power x root = Num a /\ np_power y root = Num b /\ a < b.
Proof.
  intros Hx Hr. unfold np_power. destruct (Rlt_dec 0 y) as [Hy|]; [|lra]. destruct (Rlt_dec 0 x) as [Hp|].
  - exists (Rpower x root), (Rpower y root). repeat split. unfold Rpower. apply exp_increasing. apply Rmult_lt_compat_l; [lra|]. apply ln_increasing; lra.
  - destruct Req_EM_T; [|lra]. destruct (Rlt_dec 0 root); [|lra]. exists 0, (Rpower y root). repeat split. apply exp_pos.
Qed.
(** For a whole number it is the power; for its reciprocal the root. *)
Lemma root_power (x : R) (k : nat) : 0 <= x -> k <> 0%nat ->
  np_power x (INR k) = Num (x ^ k) /\ exists y, np_power x (1 / INR k) = Num y /\ 0 <= y /\ y ^ k = x.
Proof.
  intros Hx Hk. assert (Kp : 0 < INR k) by (apply lt_0_INR; lia).
  assert (G : forall z, 0 <= z -> np_power z (INR k) = Num (z ^ k)).
  { intros z Hz. unfold np_power. destruct Rlt_dec; [now rewrite Rpower_pow|]. destruct Req_EM_T; [|lra]. destruct (Rlt_dec 0 (INR k)); [|lra]. subst z. rewrite pow_i by lia. reflexivity. }
  split; [now apply G|]. destruct (root_inverse x (1 / INR k) Hx) as (y & E & Hy & E'); [apply Rdiv_lt_0_compat; lra|]. exists y. split; [exact E|]. split; [exact Hy|].
  replace (1 / (1 / INR k)) with (INR k) in E' by (field; lra). rewrite G in E' by exact Hy. congruence.
Qed.
(** A cube root written data ** (1/3) loses every negative value. *)
Lemma root_zero (x root : R) : np_power x 0 = Num 1 /\ (root < 0 -> np_power 0 root = PosInf).
Proof.
  split.
  - unfold np_power. destruct (Rlt_dec 0 x); [now rewrite Rpower_O by assumption|].
    destruct (Req_EM_T x 0); [destruct (Rlt_dec 0 0); [lra|]; destruct (Req_EM_T 0 0); [reflexivity|lra]|].
    assert (I : Int_part 0 = 0%Z). { pose proof (base_Int_part 0) as (A & B). assert (C : (Int_part 0 <= 0)%Z) by (apply le_IZR; lra). assert (D : (-1 < Int_part 0)%Z) by (apply lt_IZR; lra). lia. }
    rewrite I. destruct (Req_EM_T 0 (IZR 0)) as [|N]; [reflexivity|]. exfalso. apply N. reflexivity.
  - intros Hr. unfold np_power. destruct (Rlt_dec 0 0); [lra|]. destruct (Req_EM_T 0 0); [|lra]. destruct (Rlt_dec 0 root); [lra|]. destruct (Req_EM_T root 0); [lra|reflexivity].
Qed.
Lemma root_negative (x : R) : x < 0 -> np_power x (1 / 3) = NaN.
Proof.
  intros Hx. unfold np_power. destruct Rlt_dec; [lra|]. destruct (Req_EM_T x 0); [lra|]. destruct Req_EM_T as [E|]; [|reflexivity]. exfalso.
  assert (0 < IZR (Int_part (1 / 3)) < 1) by lra. destruct H as (H1 & H2). apply lt_IZR in H1. apply lt_IZR in H2. lia.
Qed.

(** *** metrics *)
Section Metrics.
Variables (n : nat) (y_true y_pred : vec).
Hypothesis Hn : n <> 0%nat.
Notation e := (fun i => y_true i - y_pred i).
Let N0 : INR n <> 0. Proof. now apply not_0_INR. Qed.
Let Np : 0 < INR n. Proof. apply lt_0_INR. lia. Qed.

Lemma mean_nonneg f : (forall i, (i < n)%nat -> 0 <= f i) -> 0 <= mean n f.
Proof. intros H. unfold mean. apply Rmult_le_pos; [now apply rsum_nonneg|]. now apply Rlt_le, Rinv_0_lt_compat. Qed.
Lemma mean_zero f : (forall i, (i < n)%nat -> 0 <= f i) -> (mean n f = 0 <-> forall i, (i < n)%nat -> f i = 0).
Proof.
  intros H. unfold mean. split.
  - intros E. apply rsum_nonneg_zero; [exact H|]. apply (Rmult_eq_reg_r (/ INR n)); [|now apply Rinv_neq_0_compat]. unfold Rdiv in E. lra.
  - intros E. rewrite rsum_zero_ext by exact E. unfold Rdiv. ring.
Qed.

Lemma mae_spec : 0 <= mean_absolute_error n y_true y_pred /\ (mean_absolute_error n y_true y_pred = 0 <-> forall i, (i < n)%nat -> y_pred i = y_true i).
Proof.
  unfold mean_absolute_error. split; [apply mean_nonneg; intros; apply Rabs_pos|].
  rewrite mean_zero by (intros; apply Rabs_pos). split; intros H i Hi; specialize (H i Hi).
  - destruct (Req_dec (y_true i - y_pred i) 0); [lra|]. now apply Rabs_no_R0 in H0.
  - rewrite H. rewrite Rminus_diag_eq by reflexivity. apply Rabs_R0.
Qed.
Lemma mse_spec : 0 <= mean_squared_error n y_true y_pred /\ (mean_squared_error n y_true y_pred = 0 <-> forall i, (i < n)%nat -> y_pred i = y_true i).
Proof.
  unfold mean_squared_error. split; [apply mean_nonneg; intros; apply Rle_0_sqr|].
  rewrite mean_zero by (intros; apply Rle_0_sqr). split; intros H i Hi; specialize (H i Hi).
  - apply Rsqr_0_uniq in H. lra.
  - rewrite H. rewrite Rminus_diag_eq by reflexivity. apply Rsqr_0.
Qed.
Lemma mae_le_rmse : mean_absolute_error n y_true y_pred <= root_mean_squared_error n y_true y_pred /\
  (root_mean_squared_error n y_true y_pred)² = mean_squared_error n y_true y_pred.
Proof.
  destruct mae_spec as (A & _). destruct mse_spec as (B & _). unfold root_mean_squared_error. split; [|now apply Rsqr_sqrt].
  apply Rsqr_incr_0_var; [|apply sqrt_pos]. rewrite Rsqr_sqrt by exact B. unfold mean_absolute_error, mean_squared_error, mean.
  pose proof (rsum_cauchy n (fun i => Rabs (y_true i - y_pred i)) (fun _ => 1)) as C. cbn beta in C.
  rewrite (rsum_ext n (fun k => Rabs (y_true k - y_pred k) * 1) (fun k => Rabs (y_true k - y_pred k))) in C by (intros; ring).
  rewrite (rsum_ext n (fun k => Rsqr (Rabs (y_true k - y_pred k))) (fun k => Rsqr (y_true k - y_pred k))) in C by (intros; symmetry; apply Rsqr_abs).
  rewrite (rsum_const n (Rsqr 1)), Rsqr_1 in C. unfold Rdiv. rewrite Rsqr_mult. set (a := rsum n (fun k => Rabs (y_true k - y_pred k))) in *. set (b := rsum n (fun k => Rsqr (y_true k - y_pred k))) in *.
  replace (b * / INR n) with (b * (INR n * 1) * (/ INR n)²) by (unfold Rsqr; field; exact N0). apply Rmult_le_compat_r; [apply Rle_0_sqr|exact C].
Qed.

Lemma variance_value f : variance n f = rsum n (fun i => (f i - mean n f)²) / INR n.
Proof. reflexivity. Qed.
Lemma variance_steiner f c : rsum n (fun i => (f i - c)²) = rsum n (fun i => (f i - mean n f)²) + INR n * (mean n f - c)².
Proof.
  set (m := mean n f). assert (Em : rsum n f = INR n * m) by (unfold m, mean; field; exact N0).
  rewrite (rsum_ext n (fun i => (f i - c)²) (fun i => ((f i - m)² + 2 * (m - c) * (f i - m)) + (m - c)²)) by (intros; unfold Rsqr; ring).
  rewrite !rsum_plus, rsum_const, rsum_scal, rsum_minus, rsum_const, Em. ring.
Qed.
Notation spread := (rsum n (fun i => (y_true i - mean n y_true)²)).
Lemma spread_pos : (exists i j, (i < n)%nat /\ (j < n)%nat /\ y_true i <> y_true j) -> 0 < spread.
Proof.
  intros (i & j & Hi & Hj & H). assert (P : 0 <= spread) by (apply rsum_nonneg; intros; apply Rle_0_sqr). destruct P as [P|P]; [exact P|]. exfalso. apply H.
  assert (Z := rsum_nonneg_zero n (fun i => (y_true i - mean n y_true)²) (fun i _ => Rle_0_sqr _) (eq_sym P)).
  pose proof (Z i Hi) as Zi. pose proof (Z j Hj) as Zj. apply Rsqr_0_uniq in Zi. apply Rsqr_0_uniq in Zj. lra.
Qed.
Lemma spread_zero : (forall i, (i < n)%nat -> y_true i = y_true 0%nat) -> spread = 0.
Proof.
  intros H. apply rsum_zero_ext. intros i Hi. assert (M : mean n y_true = y_true 0%nat). { unfold mean. rewrite (rsum_ext n y_true (fun _ => y_true 0%nat)) by exact H. rewrite rsum_const. field. exact N0. }
  rewrite M, (H i Hi). rewrite Rminus_diag_eq by reflexivity. apply Rsqr_0.
Qed.
Lemma r2_value : spread <> 0 -> r2_score n y_true y_pred = 1 - rsum n (fun i => (y_true i - y_pred i)²) / spread.
Proof. intros H. unfold r2_score, fdiv. destruct Req_EM_T; [contradiction|]. reflexivity. Qed.
Lemma evs_value : spread <> 0 -> explained_variance_score n y_true y_pred = 1 - rsum n (fun i => (y_true i - y_pred i - mean n e)²) / spread.
Proof.
  intros H. unfold explained_variance_score, fdiv. rewrite !variance_value. destruct Req_EM_T as [E|E].
  - exfalso. apply H. apply (Rmult_eq_reg_r (/ INR n)); [|now apply Rinv_neq_0_compat]. unfold Rdiv in E. lra.
  - cbn [one_minus nan_to_num]. f_equal. field. split; [exact H|exact N0].
Qed.
Lemma scores_degenerate : spread = 0 -> r2_score n y_true y_pred = 0 /\ explained_variance_score n y_true y_pred = 0.
Proof.
  intros H. split.
  - unfold r2_score, fdiv. rewrite H. destruct (Req_EM_T 0 0); [|lra]. destruct Req_EM_T; [reflexivity|]. destruct Rlt_dec; reflexivity.
  - unfold explained_variance_score, fdiv. rewrite !variance_value, H. replace (0 / INR n) with 0 by (field; exact N0).
    destruct (Req_EM_T 0 0); [|lra]. destruct Req_EM_T; [reflexivity|]. destruct Rlt_dec; reflexivity.
Qed.
End Metrics.

(** C70, for a row with two different true values. *)
Lemma scores_spec (n : nat) (y_true y_pred : vec) : (exists i j, (i < n)%nat /\ (j < n)%nat /\ y_true i <> y_true j) ->
  r2_score n y_true y_pred = 1 - rsum n (fun i => (y_true i - y_pred i)²) / rsum n (fun i => (y_true i - mean n y_true)²) /\
  r2_score n y_true y_pred <= explained_variance_score n y_true y_pred <= 1 /\
  (r2_score n y_true y_pred = 1 <-> forall i, (i < n)%nat -> y_pred i = y_true i) /\
  (explained_variance_score n y_true y_pred = 1 <-> forall i, (i < n)%nat -> y_true i - y_pred i = mean n (fun k => y_true k - y_pred k)) /\
  (r2_score n y_true y_pred = explained_variance_score n y_true y_pred <-> mean n (fun k => y_true k - y_pred k) = 0).
Proof.
  intros Hne. assert (Hn : n <> 0%nat) by (destruct Hne as (i & _ & Hi & _); lia). pose proof (spread_pos n y_true Hn Hne) as P.
  assert (P' : rsum n (fun i => (y_true i - mean n y_true)²) <> 0) by lra. assert (Np : 0 < INR n) by (apply lt_0_INR; lia).
  rewrite (r2_value n y_true y_pred P'). rewrite (evs_value n y_true y_pred Hn P'). set (S := rsum n (fun i => (y_true i - mean n y_true)²)) in *.
  set (m := mean n (fun k => y_true k - y_pred k)).
  pose proof (variance_steiner n Hn (fun i => y_true i - y_pred i) 0) as V. cbn beta in V. fold m in V.
  rewrite (rsum_ext n (fun i => (y_true i - y_pred i - 0)²) (fun i => (y_true i - y_pred i)²)) in V by (intros; rewrite Rminus_0_r; reflexivity).
  set (E2 := rsum n (fun i => (y_true i - y_pred i)²)) in *. set (Ev := rsum n (fun i => (y_true i - y_pred i - m)²)) in *.
  assert (Ev0 : 0 <= Ev) by (apply rsum_nonneg; intros; apply Rle_0_sqr). assert (Pi : 0 < / S) by now apply Rinv_0_lt_compat.
  assert (M0 : 0 <= INR n * (m - 0)²) by (apply Rmult_le_pos; [lra|apply Rle_0_sqr]).
  assert (Q : forall a b, a / S = b / S <-> a = b). { intros a b. split; [|intros ->; reflexivity]. intros H. apply (Rmult_eq_reg_r (/ S)); [exact H|lra]. }
  assert (Qle : forall a b, a <= b -> a / S <= b / S) by (intros; apply Rmult_le_compat_r; lra).
  assert (Z0 : 0 / S = 0) by (unfold Rdiv; ring).
  split; [reflexivity|]. split; [split|split; [|split]].
  - assert (Ev / S <= E2 / S) by (apply Qle; lra). lra.
  - assert (0 / S <= Ev / S) by (apply Qle; lra). lra.
  - split.
    + intros H. assert (Z : E2 = 0) by (apply (proj1 (Q E2 0)); lra). intros i Hi.
      pose proof (rsum_nonneg_zero n (fun i => (y_true i - y_pred i)²) (fun i _ => Rle_0_sqr _) Z i Hi) as Y. apply Rsqr_0_uniq in Y. lra.
    + intros H. replace E2 with 0; [lra|]. symmetry. apply rsum_zero_ext. intros i Hi. rewrite (H i Hi), Rminus_diag_eq by reflexivity. apply Rsqr_0.
  - split.
    + intros H. assert (Z : Ev = 0) by (apply (proj1 (Q Ev 0)); lra). intros i Hi.
      pose proof (rsum_nonneg_zero n (fun i => (y_true i - y_pred i - m)²) (fun i _ => Rle_0_sqr _) Z i Hi) as Y. apply Rsqr_0_uniq in Y. lra.
    + intros H. replace Ev with 0; [lra|]. symmetry. apply rsum_zero_ext. intros i Hi. rewrite (H i Hi), Rminus_diag_eq by reflexivity. apply Rsqr_0.
  - split.
    + intros H. assert (Z : E2 = Ev) by (apply (proj1 (Q E2 Ev)); lra). rewrite Rminus_0_r in *. assert (Y : INR n * m² = 0) by lra. apply Rmult_integral in Y. destruct Y; [lra|]. now apply Rsqr_0_uniq.
    + intros H. rewrite V, H, Rminus_0_r, Rsqr_0. do 2 f_equal. ring.
Qed.
(** Predicting the mean scores zero. *)
Lemma r2_of_mean (n : nat) (y_true : vec) : (exists i j, (i < n)%nat /\ (j < n)%nat /\ y_true i <> y_true j) -> r2_score n y_true (fun _ => mean n y_true) = 0.
Proof. intros H. assert (Hn : n <> 0%nat) by (destruct H as (i & _ & Hi & _); lia). pose proof (spread_pos n y_true Hn H). rewrite r2_value by (try exact Hn; lra). field. lra. Qed.
(** Constant truth: both scores are 0, also for exact predictions. *)
Lemma scores_constant (n : nat) (y_true y_pred : vec) : n <> 0%nat -> (forall i, (i < n)%nat -> y_true i = y_true 0%nat) ->
  r2_score n y_true y_pred = 0 /\ explained_variance_score n y_true y_pred = 0.
Proof. intros Hn H. apply scores_degenerate; [exact Hn|]. now apply spread_zero. Qed.
