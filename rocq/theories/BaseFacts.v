(** Lemmas about the shared vocabulary. *)
From Coq Require Import Lra Lia FunctionalExtensionality.
From Verif Require Import Base.
Open Scope R_scope.

Lemma rsum_ext n f g : (forall i, (i < n)%nat -> f i = g i) -> rsum n f = rsum n g.
Proof. induction n as [|n IH]; intros H; simpl; [reflexivity|]. rewrite IH by (intros; apply H; lia). rewrite H by lia. reflexivity. Qed.

Lemma rsum_plus n f g : rsum n (fun i => f i + g i) = rsum n f + rsum n g.
Proof. induction n as [|n IH]; simpl; [lra|]. rewrite IH; lra. Qed.

Lemma rsum_minus n f g : rsum n (fun i => f i - g i) = rsum n f - rsum n g.
Proof. induction n as [|n IH]; simpl; [lra|]. rewrite IH; lra. Qed.

Lemma rsum_scal n c f : rsum n (fun i => c * f i) = c * rsum n f.
Proof. induction n as [|n IH]; simpl; [lra|]. rewrite IH; lra. Qed.

Lemma rsum_scal_r n c f : rsum n (fun i => f i * c) = rsum n f * c.
Proof. induction n as [|n IH]; simpl; [lra|]. rewrite IH; lra. Qed.

Lemma rsum_div n c f : rsum n (fun i => f i / c) = rsum n f / c.
Proof. induction n as [|n IH]; simpl; [unfold Rdiv; lra|]. rewrite IH; unfold Rdiv; lra. Qed.

Lemma rsum_opp n f : rsum n (fun i => - f i) = - rsum n f.
Proof. induction n as [|n IH]; simpl; [lra|]. rewrite IH; lra. Qed.

Lemma rsum_zero n : rsum n (fun _ => 0) = 0.
Proof. induction n as [|n IH]; simpl; [lra|]. rewrite IH; lra. Qed.

Lemma rsum_zero_ext n f : (forall i, (i < n)%nat -> f i = 0) -> rsum n f = 0.
Proof. intros H. rewrite (rsum_ext n f (fun _ => 0)) by exact H. apply rsum_zero. Qed.

Lemma rsum_const n c : rsum n (fun _ => c) = INR n * c.
Proof. induction n as [|n IH]; [simpl; lra|]. rewrite S_INR. simpl rsum. rewrite IH; lra. Qed.

Lemma rsum_nonneg n f : (forall i, (i < n)%nat -> 0 <= f i) -> 0 <= rsum n f.
Proof. induction n as [|n IH]; intros H; simpl; [lra|]. assert (0 <= rsum n f) by (apply IH; intros; apply H; lia). assert (0 <= f n) by (apply H; lia). lra. Qed.

Lemma rsum_pos n f : (0 < n)%nat -> (forall i, (i < n)%nat -> 0 < f i) -> 0 < rsum n f.
Proof.
  intros Hn H. destruct n as [|n]; [lia|]. simpl.
  assert (0 <= rsum n f) by (apply rsum_nonneg; intros; apply Rlt_le, H; lia).
  assert (0 < f n) by (apply H; lia). lra.
Qed.

Lemma rsum_le n f g : (forall i, (i < n)%nat -> f i <= g i) -> rsum n f <= rsum n g.
Proof. induction n as [|n IH]; intros H; simpl; [lra|]. assert (rsum n f <= rsum n g) by (apply IH; intros; apply H; lia). assert (f n <= g n) by (apply H; lia). lra. Qed.

Lemma rsum_telescope n f : rsum n (fun i => f (S i) - f i) = f n - f 0%nat.
Proof. induction n as [|n IH]; simpl; [lra|]. rewrite IH; lra. Qed.

Lemma rsum_swap n m f : rsum n (fun i => rsum m (fun j => f i j)) = rsum m (fun j => rsum n (fun i => f i j)).
Proof.
  induction n as [|n IH]; simpl.
  - symmetry; apply rsum_zero.
  - rewrite IH, rsum_plus. reflexivity.
Qed.

Lemma rsum_split n m f : rsum (n + m) f = rsum n f + rsum m (fun i => f (n + i)%nat).
Proof.
  induction m as [|m IH]; [rewrite Nat.add_0_r; simpl; lra|].
  rewrite Nat.add_succ_r; simpl. rewrite IH; lra.
Qed.

Lemma rsum_head n f : rsum (S n) f = f 0%nat + rsum n (fun i => f (S i)).
Proof. change (S n) with (1 + n)%nat. rewrite rsum_split. simpl. lra. Qed.

Lemma rsum_rev n f : rsum n (fun i => f (n - 1 - i)%nat) = rsum n f.
Proof.
  induction n as [|n IH]; [reflexivity|].
  rewrite rsum_head.
  rewrite (rsum_ext n _ (fun i => f (n - 1 - i)%nat)) by (intros i Hi; f_equal; lia).
  rewrite IH. replace (S n - 1 - 0)%nat with n by lia. simpl. lra.
Qed.

Lemma rsum_single n f k : (k < n)%nat -> (forall i, (i < n)%nat -> i <> k -> f i = 0) -> rsum n f = f k.
Proof.
  induction n as [|n IH]; intros Hk H; [lia|]. simpl.
  destruct (Nat.eq_dec k n) as [->|Hne].
  - rewrite rsum_zero_ext by (intros; apply H; lia). lra.
  - rewrite IH by (try lia; intros; apply H; lia). rewrite (H n) by lia. lra.
Qed.

Lemma rsum_nonneg_zero n f : (forall i, (i < n)%nat -> 0 <= f i) -> rsum n f = 0 ->
  forall i, (i < n)%nat -> f i = 0.
Proof.
  induction n as [|n IH]; intros Hp Hs i Hi; [lia|]. simpl in Hs.
  assert (H1 : 0 <= rsum n f) by (apply rsum_nonneg; intros; apply Hp; lia).
  assert (H2 : 0 <= f n) by (apply Hp; lia).
  destruct (Nat.eq_dec i n) as [->|Hne]; [lra|].
  apply IH; try lia; try lra. intros; apply Hp; lia.
Qed.

Lemma rsum_term_le n f k : (forall i, (i < n)%nat -> 0 <= f i) -> (k < n)%nat -> f k <= rsum n f.
Proof.
  induction n as [|n IH]; intros Hp Hk; [lia|]. simpl.
  assert (H1 : 0 <= rsum n f) by (apply rsum_nonneg; intros; apply Hp; lia).
  assert (H2 : 0 <= f n) by (apply Hp; lia).
  destruct (Nat.eq_dec k n) as [->|Hne]; [lra|].
  assert (f k <= rsum n f) by (apply IH; try lia; intros; apply Hp; lia). lra.
Qed.

Lemma upd_same a i v : upd a i v i = v.
Proof. unfold upd. rewrite Nat.eqb_refl. reflexivity. Qed.

Lemma upd_other a i v j : j <> i -> upd a i v j = a j.
Proof. intros H. unfold upd. apply Nat.eqb_neq in H. rewrite H. reflexivity. Qed.

Lemma set_col_same a g c i : set_col a g c i g = c i.
Proof. unfold set_col. rewrite Nat.eqb_refl. reflexivity. Qed.

Lemma set_col_other a g c i h : h <> g -> set_col a g c i h = a i h.
Proof. intros H. unfold set_col. apply Nat.eqb_neq in H. rewrite H. reflexivity. Qed.

(** Loops *)
Lemma for_up_inv {St} (Inv : nat -> St -> Prop) n body s :
  Inv 0%nat s -> (forall k t, (k < n)%nat -> Inv k t -> Inv (S k) (body k t)) ->
  Inv n (for_up n body s).
Proof.
  intros H0 HS. induction n as [|n IH]; simpl; [exact H0|].
  apply HS; [lia|]. apply IH. intros k t Hk; apply HS; lia.
Qed.

Lemma for_down_inv {St} (Inv : nat -> St -> Prop) n body s :
  Inv n s -> (forall k t, (k < n)%nat -> Inv (S k) t -> Inv k (body k t)) ->
  Inv 0%nat (for_down n body s).
Proof.
  revert s. induction n as [|n IH]; intros s H0 HS; simpl; [exact H0|].
  apply IH; [apply HS; [lia|exact H0]|]. intros k t Hk; apply HS; lia.
Qed.

Lemma for_up_ext {St} n (b1 b2 : nat -> St -> St) s :
  (forall k t, (k < n)%nat -> b1 k t = b2 k t) -> for_up n b1 s = for_up n b2 s.
Proof.
  induction n as [|n IH]; intros H; simpl; [reflexivity|].
  rewrite IH by (intros; apply H; lia). apply H; lia.
Qed.

Lemma for_down_ext {St} n (b1 b2 : nat -> St -> St) s :
  (forall k t, (k < n)%nat -> b1 k t = b2 k t) -> for_down n b1 s = for_down n b2 s.
Proof.
  revert s. induction n as [|n IH]; intros s H; simpl; [reflexivity|].
  rewrite H by lia. apply IH. intros; apply H; lia.
Qed.

Lemma for_up_err_inv {St} (Inv : nat -> St -> Prop) n body s r :
  Inv 0%nat s ->
  (forall k t t', (k < n)%nat -> Inv k t -> body k t = Ok t' -> Inv (S k) t') ->
  for_up_err n body s = Ok r -> Inv n r.
Proof.
  intros H0. revert r. induction n as [|n IH]; intros r HS E; simpl in E.
  - injection E as <-. exact H0.
  - destruct (for_up_err n body s) as [t|e] eqn:Et; simpl in E; [|discriminate].
    apply (HS n t); [lia| |exact E]. apply IH; [|reflexivity]. intros; eapply HS; eauto.
Qed.

Lemma for_up_err_ext {St} n (b1 b2 : nat -> St -> outcome St) s :
  (forall k t, (k < n)%nat -> b1 k t = b2 k t) -> for_up_err n b1 s = for_up_err n b2 s.
Proof.
  induction n as [|n IH]; intros H; simpl; [reflexivity|].
  rewrite IH by (intros; apply H; lia).
  destruct (for_up_err n b2 s); simpl; [apply H; lia|reflexivity].
Qed.

Lemma for_up_err_ok {St} n (body : nat -> St -> outcome St) s :
  (forall k t, (k < n)%nat -> exists t', body k t = Ok t') ->
  exists r, for_up_err n body s = Ok r.
Proof.
  induction n as [|n IH]; intros H; simpl; [eauto|].
  destruct IH as [t Et]; [intros; apply H; lia|]. rewrite Et. simpl. apply H; lia.
Qed.

(** A loop whose body raises [e] at some index (whatever the state), and only ever
    raises [e], raises [e]. *)
Lemma for_up_err_raise {St} n (body : nat -> St -> outcome St) s k e :
  (k < n)%nat -> (forall t, body k t = Raise e) ->
  (forall j t e', (j < n)%nat -> body j t = Raise e' -> e' = e) ->
  for_up_err n body s = Raise e.
Proof.
  induction n as [|n IH]; intros Hk Hr Ho; [lia|]. simpl.
  destruct (Nat.eq_dec k n) as [->|Hne].
  - destruct (for_up_err n body s) as [t|e'] eqn:E; simpl; [apply Hr|].
    f_equal. revert E. clear Hr IH Hk. revert e'.
    assert (Hg : forall m, (m <= n)%nat -> forall e', for_up_err m body s = Raise e' -> e' = e).
    { induction m as [|m IHm]; intros Hm e' E; simpl in E; [discriminate|].
      destruct (for_up_err m body s) as [t|e''] eqn:Et; simpl in E.
      - eapply Ho; [|exact E]. lia.
      - injection E as <-. apply IHm; [lia|reflexivity]. }
    intros e' E. apply (Hg n); [lia|exact E].
  - rewrite IH; [reflexivity|lia|exact Hr|]. intros j t e' Hj; apply Ho; lia.
Qed.

(** Convergence test *)
Lemma has_zero_spec n f : has_zero n f = true <-> exists i, (i < n)%nat /\ f i = 0.
Proof.
  induction n as [|n IH]; simpl.
  - split; [discriminate|intros [i [Hi _]]; lia].
  - destruct (Req_EM_T (f n) 0) as [E|E].
    + split; [intros _; exists n; split; [lia|exact E]|reflexivity].
    + rewrite IH. split; intros [i [Hi Ei]].
      * exists i; split; [lia|exact Ei].
      * exists i; split; [|exact Ei]. destruct (Nat.eq_dec i n) as [->|]; [contradiction|lia].
Qed.

Lemma has_zero_false n f : has_zero n f = false <-> forall i, (i < n)%nat -> f i <> 0.
Proof.
  rewrite <- not_true_iff_false, has_zero_spec. split; [intros H i Hi E; apply H; eauto|].
  intros H [i [Hi E]]; exact (H i Hi E).
Qed.

Lemma has_zero2_spec n m f :
  has_zero2 n m f = true <-> exists i j, (i < n)%nat /\ (j < m)%nat /\ f i j = 0.
Proof.
  induction n as [|n IH]; simpl.
  - split; [discriminate|intros (i & j & Hi & _); lia].
  - rewrite orb_true_iff, has_zero_spec, IH. split.
    + intros [(j & Hj & E)|(i & j & Hi & Hj & E)]; [exists n, j|exists i, j]; repeat split; auto with arith.
    + intros (i & j & Hi & Hj & E). destruct (Nat.eq_dec i n) as [->|]; [left; eauto|right].
      exists i, j; repeat split; auto; lia.
Qed.

Lemma has_zero2_false n m f :
  has_zero2 n m f = false <-> forall i j, (i < n)%nat -> (j < m)%nat -> f i j <> 0.
Proof.
  rewrite <- not_true_iff_false, has_zero2_spec. split.
  - intros H i j Hi Hj E; apply H; eauto.
  - intros H (i & j & Hi & Hj & E); exact (H i j Hi Hj E).
Qed.

Lemma below_true c tol : below c tol = true <-> exists x, c = Some x /\ x < tol.
Proof.
  destruct c as [x|]; simpl.
  - destruct (Rlt_dec x tol) as [H|H]; split; try discriminate; eauto.
    intros (y & E & Hy). injection E as <-. contradiction.
  - split; [discriminate|intros (x & E & _); discriminate].
Qed.

Lemma rel_change_same cells f :
  (forall i, (i < cells)%nat -> f i <> 0) -> rel_change cells f f = Some 0.
Proof.
  intros H. unfold rel_change. apply has_zero_false in H. rewrite H.
  rewrite rsum_zero_ext; [rewrite sqrt_0; reflexivity|].
  intros i Hi. replace (f i - f i) with 0 by lra. unfold Rdiv, Rsqr. ring.
Qed.

Lemma rel_change2_same cells groups f :
  (forall i g, (i < cells)%nat -> (g < groups)%nat -> f i g <> 0) -> rel_change2 cells groups f f = Some 0.
Proof.
  intros H. unfold rel_change2. apply has_zero2_false in H. rewrite H.
  rewrite rsum_zero_ext; [rewrite sqrt_0; reflexivity|].
  intros i Hi. apply rsum_zero_ext. intros g Hg.
  replace (f i g - f i g) with 0 by lra. unfold Rdiv, Rsqr. ring.
Qed.

(** The iteration pattern *)
Lemma iterate_spec {St} (sweep : St -> outcome St) change tol cap :
  forall fuel count old r,
  iterate fuel sweep change tol cap count old = Ok r ->
  exists m x,
    (1 <= m)%nat /\ (m <= Nat.max 1 (cap - count + 1))%nat /\ x 0%nat = old /\ r = x m /\
    (forall k, (k < m)%nat -> sweep (x k) = Ok (x (S k))) /\
    (forall k, (0 < k < m)%nat -> below (change (x k) (x (k - 1)%nat)) tol = false) /\
    (below (change (x m) (x (m - 1)%nat)) tol = true \/ (cap <= count + m - 1)%nat).
Proof.
  induction fuel as [|fuel IH]; intros count old r E; simpl in E; [discriminate|].
  destruct (sweep old) as [new|e] eqn:Es; simpl in E; [|discriminate].
  destruct (below (change new old) tol) eqn:Eb; simpl in E.
  - injection E as <-. exists 1%nat, (fun k => if Nat.eqb k 0 then old else new).
    repeat split; try lia.
    + intros k Hk. assert (k = 0)%nat as -> by lia. simpl. exact Es.
    + left. exact Eb.
  - destruct (Nat.leb_spec cap count) as [Hc|Hc].
    + injection E as <-. exists 1%nat, (fun k => if Nat.eqb k 0 then old else new).
      repeat split; try lia; try (intros k Hk; assert (k = 0)%nat as -> by lia; simpl; exact Es).
    + destruct (IH _ _ _ E) as (m & x & Hm1 & Hm2 & Hx0 & Hr & Hstep & Hnb & Hend).
      exists (S m), (fun k => match k with O => old | S k' => x k' end).
      repeat split; try lia; try assumption.
      * intros k Hk. destruct k as [|k].
        -- rewrite Hx0. exact Es.
        -- apply Hstep. lia.
      * intros k Hk. destruct k as [|[|k]]; [lia| |].
        -- simpl. rewrite Hx0. exact Eb.
        -- specialize (Hnb (S k) ltac:(lia)). simpl in *. rewrite Nat.sub_0_r in Hnb. exact Hnb.
      * destruct Hend as [He|He].
        -- left. destruct m as [|m]; [lia|]. simpl in *. rewrite Nat.sub_0_r in He. exact He.
        -- right. lia.
Qed.

Lemma iterate_no_fuel {St} (sweep : St -> outcome St) change tol cap :
  (forall x, sweep x <> Raise OutOfFuel) ->
  forall fuel count old, (cap - count < fuel)%nat ->
  iterate fuel sweep change tol cap count old <> Raise OutOfFuel.
Proof.
  intros Hs. induction fuel as [|fuel IH]; intros count old Hf; [lia|]. simpl.
  destruct (sweep old) as [new|e] eqn:Es; simpl; [|rewrite <- Es; apply Hs].
  destruct (below (change new old) tol); simpl; [discriminate|].
  destruct (Nat.leb_spec cap count) as [Hc|Hc]; [discriminate|].
  apply IH. lia.
Qed.

Lemma iterate_fixed {St} (sweep : St -> outcome St) change tol cap fuel count x :
  sweep x = Ok x -> change x x = Some 0 -> 0 < tol ->
  iterate (S fuel) sweep change tol cap count x = Ok x.
Proof.
  intros Hs Hc Ht. simpl. rewrite Hs. simpl. rewrite Hc. simpl.
  destruct (Rlt_dec 0 tol); [reflexivity|contradiction].
Qed.

Lemma iterate_ext {St} (s1 s2 : St -> outcome St) c1 c2 tol cap :
  (forall x, s1 x = s2 x) -> (forall x y, c1 x y = c2 x y) ->
  forall fuel count old, iterate fuel s1 c1 tol cap count old = iterate fuel s2 c2 tol cap count old.
Proof.
  intros Hs Hc. induction fuel as [|fuel IH]; intros count old; simpl; [reflexivity|].
  rewrite Hs. destruct (s2 old) as [new|e]; simpl; [|reflexivity].
  rewrite Hc. destruct (orb _ _); [reflexivity|apply IH].
Qed.

(** Two iterations related step by step give related results. *)
Lemma iterate_sim {A B} (Rel : A -> B -> Prop) (s1 : A -> outcome A) (s2 : B -> outcome B)
    c1 c2 tol cap :
  (forall x y, Rel x y ->
     (exists x' y', s1 x = Ok x' /\ s2 y = Ok y' /\ Rel x' y' /\ c1 x' x = c2 y' y) \/
     (exists e, s1 x = Raise e /\ s2 y = Raise e)) ->
  forall fuel count x y, Rel x y ->
  (exists x' y', iterate fuel s1 c1 tol cap count x = Ok x' /\
                 iterate fuel s2 c2 tol cap count y = Ok y' /\ Rel x' y') \/
  (exists e, iterate fuel s1 c1 tol cap count x = Raise e /\
             iterate fuel s2 c2 tol cap count y = Raise e).
Proof.
  intros H. induction fuel as [|fuel IH]; intros count x y Hxy; simpl.
  - right; eauto.
  - destruct (H x y Hxy) as [(x' & y' & E1 & E2 & Hr & Hc)|(e & E1 & E2)].
    + rewrite E1, E2. simpl. rewrite Hc.
      destruct (orb _ _); [left; exists x', y'; auto|]. apply IH. exact Hr.
    + rewrite E1, E2. right; exists e; split; reflexivity.
Qed.
