(** Linear algebra behind DMD: the solver, the kept modes. *)
From Coq Require Import Lra Lia.
From Verif Require Import Base BaseFacts SlabModel SphereModel MgModel DmdModel DmdSpec.
Open Scope R_scope.

(** ** np.linalg.solve *)
Lemma pivot_max n M : (0 < n)%nat ->
  (pivot_row n M < n)%nat /\ forall i, (i < n)%nat -> Rabs (M i 0%nat) <= Rabs (M (pivot_row n M) 0%nat).
Proof.
  intros Hn.
  assert (K : forall k, (pivot_row k M < k)%nat \/ pivot_row k M = 0%nat).
  { induction k as [|k IH]; [right; reflexivity|]. unfold pivot_row in *. cbn [for_up].
    destruct (Rlt_dec _ _); [left; lia|]. destruct IH; [left; lia|right; assumption]. }
  split; [destruct (K n); lia|]. clear K Hn. induction n as [|n IH]; intros i Hi; [lia|].
  unfold pivot_row in *. cbn [for_up]. set (b := for_up n _ 0%nat) in *.
  destruct (Rlt_dec (Rabs (M b 0%nat)) (Rabs (M n 0%nat))) as [L|L].
  - destruct (Nat.eq_dec i n) as [->|]; [lra|]. specialize (IH i ltac:(lia)). lra.
  - destruct (Nat.eq_dec i n) as [->|]; [lra|]. apply IH. lia.
Qed.

Lemma swap_rows_rows n p (M : mat2) (b : vec) x : (p < n)%nat ->
  ((forall i, (i < n)%nat -> rsum n (fun j => swap_rows p M i j * x j) = swap_rows p b i) <->
   (forall i, (i < n)%nat -> rsum n (fun j => M i j * x j) = b i)).
Proof.
  intros Hp. unfold swap_rows. split; intros H i Hi.
  - destruct (Nat.eq_dec i p) as [->|Hne]; [exact (H 0%nat ltac:(lia))|].
    destruct (Nat.eq_dec i 0) as [->|H0].
    + specialize (H p Hp). cbv beta in H. destruct (Nat.eqb_spec p 0); [lia|]. rewrite Nat.eqb_refl in H. exact H.
    + specialize (H i Hi). cbv beta in H. destruct (Nat.eqb_spec i 0); [lia|]. destruct (Nat.eqb_spec i p); [lia|]. exact H.
  - destruct (Nat.eqb_spec i 0); [apply H; exact Hp|]. destruct (Nat.eqb_spec i p); [apply H; lia|apply H; exact Hi].
Qed.

Section Elimination.
  Variables (k : nat) (M : mat2) (b : vec).
  Hypothesis Hpiv : M 0%nat 0%nat <> 0.
  Let M' : mat2 := fun i j => M (i + 1)%nat (j + 1)%nat - M (i + 1)%nat 0%nat / M 0%nat 0%nat * M 0%nat (j + 1)%nat.
  Let b' : vec := fun i => b (i + 1)%nat - M (i + 1)%nat 0%nat / M 0%nat 0%nat * b 0%nat.

  Lemma row_split (x : vec) i : rsum (S k) (fun j => M i j * x j)
    = M i 0%nat * x 0%nat + rsum k (fun j => M i (j + 1)%nat * x (j + 1)%nat).
  Proof. rewrite rsum_head. f_equal. apply rsum_ext. intros j _. replace (S j) with (j + 1)%nat by lia. reflexivity. Qed.

  Lemma elim_iff (x : vec) :
    (forall i, (i < S k)%nat -> rsum (S k) (fun j => M i j * x j) = b i) <->
    (M 0%nat 0%nat * x 0%nat + rsum k (fun j => M 0%nat (j + 1)%nat * x (j + 1)%nat) = b 0%nat /\
     forall i, (i < k)%nat -> rsum k (fun j => M' i j * x (j + 1)%nat) = b' i).
  Proof.
    assert (E : forall i, rsum k (fun j => M' i j * x (j + 1)%nat)
      = rsum k (fun j => M (i + 1)%nat (j + 1)%nat * x (j + 1)%nat)
        - M (i + 1)%nat 0%nat / M 0%nat 0%nat * rsum k (fun j => M 0%nat (j + 1)%nat * x (j + 1)%nat)).
    { intros i. rewrite <- rsum_scal, <- rsum_minus. apply rsum_ext. intros j _. unfold M'. ring. }
    split.
    - intros H. assert (H0 := H 0%nat ltac:(lia)). rewrite row_split in H0. split; [exact H0|].
      intros i Hi. assert (H1 := H (i + 1)%nat ltac:(lia)). rewrite row_split in H1. rewrite E. unfold b'.
      rewrite <- H0, <- H1. field. exact Hpiv.
    - intros [H0 H] i Hi. rewrite row_split. destruct i as [|i]; [exact H0|].
      specialize (H i ltac:(lia)). rewrite E in H. unfold b' in H. replace (S i) with (i + 1)%nat by lia.
      assert (A : M (i + 1)%nat 0%nat * x 0%nat
        = M (i + 1)%nat 0%nat / M 0%nat 0%nat * (b 0%nat - rsum k (fun j => M 0%nat (j + 1)%nat * x (j + 1)%nat))).
      { rewrite <- H0. field. exact Hpiv. }
      lra.
  Qed.
End Elimination.

Lemma solve_step k (M : mat2) (b : vec) : let p := pivot_row (S k) M in M p 0%nat <> 0 ->
  swap_rows p M 0%nat 0%nat <> 0 /\ (p < S k)%nat.
Proof. intros p Hp. split; [exact Hp|]. apply pivot_max. lia. Qed.

Lemma solve_sound n : forall M b x, linalg_solve n M b = Ok x ->
  (forall i, (i < n)%nat -> rsum n (fun j => M i j * x j) = b i) /\
  (forall z, (forall i, (i < n)%nat -> rsum n (fun j => M i j * z j) = 0) -> forall j, (j < n)%nat -> z j = 0).
Proof.
  induction n as [|k IH]; intros M b x E; [split; [intros; lia|intros z _ j Hj; lia]|].
  cbn [linalg_solve] in E. set (p := pivot_row (S k) M) in *.
  destruct (Req_EM_T (M p 0%nat) 0) as [Z|Z]; [discriminate|]. cbn zeta in E.
  destruct (solve_step k M b Z) as [HM Hp]. fold p in HM, Hp.
  set (M1 := swap_rows p M) in *. set (b1 := swap_rows p b) in *.
  destruct (linalg_solve k _ _) as [y|e] eqn:Ey; cbn [bind] in E; [|discriminate]. injection E as <-.
  destruct (IH _ _ _ Ey) as [Hy Hi]. split.
  - set (xx := fun j : nat => if Nat.eqb j 0 then (b1 0%nat - rsum k (fun j => M1 0%nat (j + 1)%nat * y j)) / M1 0%nat 0%nat else y (j - 1)%nat).
    change (forall i : nat, (i < S k)%nat -> rsum (S k) (fun j => M i j * xx j) = b i).
    assert (Ex : forall j, xx (j + 1)%nat = y j).
    { intros j. unfold xx. destruct (Nat.eqb_spec (j + 1) 0); [lia|]. replace (j + 1 - 1)%nat with j by lia. reflexivity. }
    apply (proj1 (swap_rows_rows (S k) p M b xx Hp)). fold M1 b1. apply (elim_iff k M1 b1 HM xx). split.
    + rewrite (rsum_ext k (fun j => M1 0%nat (j + 1)%nat * xx (j + 1)%nat) (fun j => M1 0%nat (j + 1)%nat * y j))
        by (intros j _; rewrite Ex; reflexivity).
      unfold xx at 1. rewrite Nat.eqb_refl. field. exact HM.
    + intros i Hi'. rewrite <- (Hy i Hi'). apply rsum_ext. intros j _. rewrite Ex. reflexivity.
  - intros z Hz. assert (Hz1 : forall i, (i < S k)%nat -> rsum (S k) (fun j => M1 i j * z j) = 0).
    { intros i Hi'. transitivity (swap_rows p (fun _ => 0) i); [exact (proj2 (swap_rows_rows (S k) p M (fun _ => 0) z Hp) Hz i Hi')|]. unfold swap_rows.
      destruct (Nat.eqb i 0); [reflexivity|]. destruct (Nat.eqb i p); reflexivity. }
    destruct (proj1 (elim_iff k M1 (fun _ => 0) HM z) Hz1) as [H0 H1].
    assert (Hzz : forall j, (j < k)%nat -> z (j + 1)%nat = 0).
    { apply (Hi (fun j => z (j + 1)%nat)). intros i Hi'. rewrite H1 by exact Hi'. ring. }
    intros j Hj. destruct j as [|j].
    + rewrite rsum_zero_ext in H0 by (intros j Hj'; rewrite Hzz by exact Hj'; ring).
      rewrite Rplus_0_r in H0. apply Rmult_integral in H0. destruct H0; [contradiction|assumption].
    + replace (S j) with (j + 1)%nat by lia. apply Hzz. lia.
Qed.

Lemma solve_singular n : forall M b e, linalg_solve n M b = Raise e ->
  e = LinAlgError /\ exists z : vec, (exists j, (j < n)%nat /\ z j <> 0) /\
    forall i, (i < n)%nat -> rsum n (fun j => M i j * z j) = 0.
Proof.
  induction n as [|k IH]; intros M b e E; [discriminate|].
  cbn [linalg_solve] in E. set (p := pivot_row (S k) M) in *.
  destruct (Req_EM_T (M p 0%nat) 0) as [Z|Z].
  - injection E as <-. split; [reflexivity|]. exists (fun j => if Nat.eqb j 0 then 1 else 0). split.
    + exists 0%nat. split; [lia|]. rewrite Nat.eqb_refl. lra.
    + intros i Hi. apply rsum_zero_ext. intros j Hj. destruct (Nat.eqb_spec j 0) as [->|]; [|ring].
      destruct (pivot_max (S k) M ltac:(lia)) as [_ Hmax]. specialize (Hmax i Hi). fold p in Hmax.
      rewrite Z, Rabs_R0 in Hmax. assert (H := Rabs_pos (M i 0%nat)).
      assert (H0 : Rabs (M i 0%nat) = 0) by lra. destruct (Req_dec (M i 0%nat) 0) as [->|Hn]; [ring|].
      apply Rabs_no_R0 in Hn. contradiction.
  - cbn zeta in E. destruct (solve_step k M b Z) as [HM Hp]. fold p in HM, Hp.
    set (M1 := swap_rows p M) in *. set (b1 := swap_rows p b) in *.
    destruct (linalg_solve k _ _) as [y|e'] eqn:Ey; cbn [bind] in E; [discriminate|]. injection E as <-.
    destruct (IH _ _ _ Ey) as (He & y & (j0 & Hj0 & Hy0) & Hy). split; [exact He|].
    set (z := fun j => if Nat.eqb j 0 then - rsum k (fun j => M1 0%nat (j + 1)%nat * y j) / M1 0%nat 0%nat else y (j - 1)%nat).
    assert (Ez : forall j, z (j + 1)%nat = y j).
    { intros j. unfold z. destruct (Nat.eqb_spec (j + 1) 0); [lia|]. replace (j + 1 - 1)%nat with j by lia. reflexivity. }
    exists z. split.
    + exists (j0 + 1)%nat. split; [lia|]. rewrite Ez. exact Hy0.
    + apply (proj1 (swap_rows_rows (S k) p M (fun _ => 0) z Hp)).
      intros i Hi. transitivity 0; [apply (proj2 (elim_iff k M1 (fun _ => 0) HM z)); [|exact Hi]|].
      2: { unfold swap_rows. destruct (Nat.eqb i 0); [reflexivity|]. destruct (Nat.eqb i p); reflexivity. }
      split.
        -- rewrite (rsum_ext k _ (fun j => M1 0%nat (j + 1)%nat * y j)) by (intros j _; rewrite Ez; reflexivity).
           unfold z at 1. rewrite Nat.eqb_refl. field. exact HM.
        -- intros i' Hi'. rewrite (rsum_ext k _ (fun j => (M1 (i' + 1)%nat (j + 1)%nat - M1 (i' + 1)%nat 0%nat / M1 0%nat 0%nat * M1 0%nat (j + 1)%nat) * y j))
             by (intros j _; rewrite Ez; reflexivity).
           rewrite Hy by exact Hi'. ring.
Qed.

(** ** the kept modes *)
Lemma tail_nonneg q sv k : 0 <= tail q sv k.
Proof. apply rsum_nonneg. intros. apply pow2_ge_0. Qed.

Lemma tail_step q sv k : (k < q)%nat -> tail q sv k = sv k ^ 2 + tail q sv (k + 1).
Proof.
  intros Hk. unfold tail. replace (q - k)%nat with (S (q - (k + 1))) by lia. rewrite rsum_head.
  replace (k + 0)%nat with k by lia. f_equal. apply rsum_ext. intros j _. f_equal. f_equal. lia.
Qed.

Lemma tail_end q sv k : (q <= k)%nat -> tail q sv k = 0.
Proof. intros H. unfold tail. replace (q - k)%nat with 0%nat by lia. reflexivity. Qed.

Lemma tail_decr q sv : forall j k, (k <= j)%nat -> tail q sv j <= tail q sv k.
Proof.
  intros j k H. induction H as [|j H IH]; [lra|].
  destruct (Nat.lt_ge_cases j q) as [L|L].
  - rewrite (tail_step q sv j L) in IH. replace (S j) with (j + 1)%nat by lia. assert (0 <= sv j ^ 2) by apply pow2_ge_0. lra.
  - rewrite (tail_end q sv (S j)) by lia. apply tail_nonneg.
Qed.

Lemma head_tail q sv k : (k <= q)%nat -> rsum k (fun j => sv j ^ 2) + tail q sv k = tail q sv 0.
Proof.
  intros H. unfold tail. replace (q - 0)%nat with (k + (q - k))%nat by lia. rewrite rsum_split. reflexivity.
Qed.

Lemma filter_prefix (f : nat -> bool) q :
  (forall i j, (i <= j)%nat -> (j < q)%nat -> f j = true -> f i = true) ->
  exists r, (r <= q)%nat /\ filter f (seq 0 q) = seq 0 r /\ forall j, (j < q)%nat -> ((j < r)%nat <-> f j = true).
Proof.
  induction q as [|q IH]; intros H.
  - exists 0%nat. split; [lia|]. split; [reflexivity|]. intros; lia.
  - destruct IH as (r & Hr & E & Hj); [intros i j Hij Hjq; apply H; lia|].
    rewrite seq_S, filter_app, E. cbn [filter Nat.add]. destruct (f q) eqn:F.
    + assert (r = q).
      { destruct (Nat.eq_dec r q) as [|Hne]; [assumption|]. assert (f r = true) by (apply (H r q); [lia|lia|exact F]).
        apply Hj in H0; lia. }
      subst r. exists (S q). split; [lia|]. split; [rewrite seq_S; reflexivity|].
      intros j Hlt. split; intros _; [apply (H j q); [lia|lia|exact F]|lia].
    + exists r. split; [lia|]. split; [rewrite app_nil_r; reflexivity|].
      intros j Hlt. destruct (Nat.eq_dec j q) as [->|]; [split; [lia|congruence]|apply Hj; lia].
Qed.

Lemma nth_map_seq (sv : vec) r j : (j < r)%nat -> nth j (map sv (seq 0 r)) 0 = sv j.
Proof.
  intros H. rewrite (nth_indep _ 0 (sv 0%nat)) by (rewrite map_length, seq_length; exact H).
  rewrite map_nth, seq_nth by exact H. reflexivity.
Qed.

Lemma keeps_unique q sv r1 r2 : keeps q sv r1 -> keeps q sv r2 -> r1 = r2.
Proof.
  intros (H1 & A1) (H2 & A2).
  assert (E : forall j, (j < q)%nat -> ((j < r1)%nat <-> (j < r2)%nat)).
  { intros j Hj. destruct A1 as [[(k & Hk & Sk) B1]|[N1 B1]], A2 as [[(k' & Hk' & Sk') B2]|[N2 B2]].
    - rewrite B1, B2 by exact Hj. reflexivity.
    - exfalso. exact (N2 k Hk Sk).
    - exfalso. exact (N1 k' Hk' Sk').
    - rewrite B1, B2 by exact Hj. reflexivity. }
  destruct (Nat.lt_trichotomy r1 r2) as [L|[L|L]]; [|exact L|].
  - destruct (E r1 ltac:(lia)) as [_ B]. specialize (B L). lia.
  - destruct (E r2 ltac:(lia)) as [B _]. specialize (B L). lia.
Qed.

Lemma kept_modes svd n m A K U sv Vt : svd n m A = (U, sv, Vt) -> is_svd n m A (U, sv, Vt) -> (m <= K)%nat ->
  exists r s_inv, svd_dmd svd n m A K = (r, U, s_inv, Vt) /\ keeps (Nat.min n m) sv r /\
    (forall j, (j < r)%nat -> s_inv j = 1 / sv j /\ 0 < sv j).
Proof.
  intros E (_ & _ & _ & Hpos & Hdesc) HK. unfold svd_dmd. rewrite E. set (q := Nat.min n m) in *. cbn zeta.
  set (mask := fun j => if Req_EM_T (rsum q (fun j => sv j ^ 2)) 0 then false
    else if Rlt_dec residual (1 - rsum (j + 1) (fun i => sv i ^ 2) / rsum q (fun j => sv j ^ 2)) then true else false).
  assert (T0 : tail q sv 0 = rsum q (fun j => sv j ^ 2)) by (unfold tail; rewrite Nat.sub_0_r; reflexivity).
  assert (HM : forall j, (j < q)%nat -> (mask j = true <-> significant q sv j)).
  { intros j Hj. unfold mask, significant. rewrite <- T0. assert (Hn := tail_nonneg q sv 0).
    assert (Hh := head_tail q sv (j + 1) ltac:(lia)).
    destruct (Req_EM_T (tail q sv 0) 0) as [Z|Z].
    - rewrite Z. assert (Hd := tail_decr q sv (j + 1) 0 ltac:(lia)). split; [discriminate|]. intros. lra.
    - replace (1 - rsum (j + 1) (fun i => sv i ^ 2) / tail q sv 0) with (tail q sv (j + 1) / tail q sv 0)
        by (replace (rsum (j + 1) (fun i => sv i ^ 2)) with (tail q sv 0 - tail q sv (j + 1)) by lra; field; exact Z).
      assert (Hp : 0 < tail q sv 0) by lra. fold residual.
      assert (EE : tail q sv (j + 1) = tail q sv (j + 1) / tail q sv 0 * tail q sv 0) by (field; exact Z).
      destruct (Rlt_dec _ _) as [L|L]; split; try discriminate; try reflexivity; intros H.
      + rewrite EE. apply Rmult_lt_compat_r; assumption.
      + exfalso. apply L. rewrite EE in H. apply Rmult_lt_reg_r in H; assumption. }
  assert (SD : forall i j, (i <= j)%nat -> significant q sv j -> significant q sv i).
  { intros i j Hij. unfold significant. intros H. assert (Hd := tail_decr q sv (j + 1) (i + 1) ltac:(lia)). lra. }
  fold mask. destruct (existsb mask (seq 0 q)) eqn:EX.
  - destruct (filter_prefix mask q) as (r & Hr & EF & Hj).
    { intros i j Hij Hjq F. apply HM; [lia|]. apply (SD i j Hij). apply HM; assumption. }
    rewrite EF. rewrite map_length, seq_length. rewrite Nat.min_r by lia.
    exists r, (fun j => 1 / nth j (map sv (seq 0 r)) 0). split; [reflexivity|]. split.
    + split; [exact Hr|]. left. apply existsb_exists in EX. destruct EX as (j & Hin & F). apply in_seq in Hin. split.
      * exists j. split; [lia|]. apply HM; [lia|exact F].
      * intros k Hk. rewrite Hj by exact Hk. apply HM. exact Hk.
    + intros j Hlt. rewrite nth_map_seq by exact Hlt. split; [reflexivity|].
      destruct (Rle_lt_or_eq_dec 0 (sv j) (Hpos j ltac:(lia))) as [L|L]; [exact L|exfalso].
      assert (SJ : significant q sv j) by (apply HM; [lia|]; apply Hj; [lia|exact Hlt]).
      assert (Z : tail q sv (j + 1) = 0).
      { apply rsum_zero_ext. intros k Hk. assert (H1 := Hdesc j (j + 1 + k)%nat ltac:(lia) ltac:(lia)).
        assert (H2 := Hpos (j + 1 + k)%nat ltac:(lia)). replace (sv (j + 1 + k)%nat) with 0 by lra. ring. }
      unfold significant in SJ. rewrite Z in SJ. assert (Hn := tail_nonneg q sv 0).
      assert (0 < / 10 ^ 9) by (apply Rinv_0_lt_compat; lra). nra.
  - set (pos := fun j => if Rlt_dec 0 (sv j) then true else false).
    assert (HPos : forall j, pos j = true <-> 0 < sv j) by (intros j; unfold pos; destruct (Rlt_dec 0 (sv j)); split; congruence).
    destruct (filter_prefix pos q) as (r & Hr & EF & Hj).
    { intros i j Hij Hjq F. apply HPos. apply HPos in F. specialize (Hdesc i j Hij Hjq). lra. }
    fold pos. rewrite EF. rewrite map_length, seq_length. rewrite Nat.min_r by lia.
    exists r, (fun j => 1 / nth j (map sv (seq 0 r)) 0). split; [reflexivity|]. split.
    + split; [exact Hr|]. right. split.
      * intros j Hjq SJ. apply HM in SJ; [|exact Hjq].
        assert (existsb mask (seq 0 q) = true) by (apply existsb_exists; exists j; split; [apply in_seq; lia|exact SJ]). congruence.
      * intros j Hjq. rewrite Hj by exact Hjq. apply HPos.
    + intros j Hlt. rewrite nth_map_seq by exact Hlt. split; [reflexivity|]. apply HPos. apply Hj; [lia|exact Hlt].
Qed.
