(** The fundamental mode exists and power iteration converges to it. *)
From Coq Require Import Lra Lia Psatz.
From Verif Require Import Base BaseFacts Contraction SlabModel SlabSpec SlabFacts SlabFacts2 SlabFacts3 SlabFacts4.
From Verif Require Import MgModel MgSpec MgFacts MgFacts2 MgFacts3 MgFacts5 MgFacts6 SupSpec SupFacts SupFacts2 SupFacts3 CritModel CritSpec CritFacts CritFacts2 CritFacts5 CritFacts6.
Open Scope R_scope.

(** *** streaming spreads a source *)
Lemma balance_right n mu dx sigt q psi : 0 < mu ->
  (forall i, (i < n)%nat -> 0 < dx i /\ 0 <= sigt i /\ dx i * sigt i < 2 * mu /\ 0 <= q i) ->
  dd_balance n mu dx sigt q psi -> 0 <= psi 0%nat ->
  (forall k, (k <= n)%nat -> 0 <= psi k) /\
  (forall j, (j < n)%nat -> 0 < q j -> forall k, (j < k <= n)%nat -> 0 < psi k).
Proof.
  intros Hmu H B H0.
  assert (Step : forall i, (i < n)%nat -> 0 <= psi i -> 0 <= psi (S i) /\ (0 < psi i \/ 0 < q i -> 0 < psi (S i))).
  { intros i Hi Hp. destruct (H i Hi) as (Hdx & Hs & Ht & Hq). specialize (B i Hi).
    assert (E : (2 * mu + dx i * sigt i) * psi (S i) = (2 * mu - dx i * sigt i) * psi i + 2 * dx i * q i).
    { rewrite <- B. field. lra. }
    assert (0 <= dx i * sigt i) by (apply Rmult_le_pos; lra). assert (0 <= dx i * q i) by (apply Rmult_le_pos; lra).
    split.
    - destruct (Rle_dec 0 (psi (S i))) as [L|L]; [exact L|nra].
    - intros [P|P]; [nra|]. assert (0 < dx i * q i) by (apply Rmult_lt_0_compat; lra). nra. }
  assert (A : forall k, (k <= n)%nat -> 0 <= psi k).
  { induction k as [|k IH]; intros Hk; [exact H0|]. apply Step; [lia|apply IH; lia]. }
  split; [exact A|]. intros j Hj Hq k Hk.
  induction k as [|k IH]; [lia|]. apply Step; [lia|apply A; lia|].
  destruct (Nat.eq_dec k j) as [-> |]; [right; exact Hq|left; apply IH; lia].
Qed.
Lemma balance_left n mu dx sigt q psi : mu < 0 ->
  (forall i, (i < n)%nat -> 0 < dx i /\ 0 <= sigt i /\ dx i * sigt i < 2 * - mu /\ 0 <= q i) ->
  dd_balance n mu dx sigt q psi -> 0 <= psi n ->
  (forall k, (k <= n)%nat -> 0 <= psi k) /\
  (forall j, (j < n)%nat -> 0 < q j -> forall k, (k <= j)%nat -> 0 < psi k).
Proof.
  intros Hmu H B H0.
  assert (Step : forall i, (i < n)%nat -> 0 <= psi (S i) -> 0 <= psi i /\ (0 < psi (S i) \/ 0 < q i -> 0 < psi i)).
  { intros i Hi Hp. destruct (H i Hi) as (Hdx & Hs & Ht & Hq). specialize (B i Hi).
    assert (E : (2 * - mu + dx i * sigt i) * psi i = (2 * - mu - dx i * sigt i) * psi (S i) + 2 * dx i * q i).
    { rewrite <- B. field. lra. }
    assert (0 <= dx i * sigt i) by (apply Rmult_le_pos; lra). assert (0 <= dx i * q i) by (apply Rmult_le_pos; lra).
    split.
    - destruct (Rle_dec 0 (psi i)) as [L|L]; [exact L|nra].
    - intros [P|P]; [nra|]. assert (0 < dx i * q i) by (apply Rmult_lt_0_compat; lra). nra. }
  assert (A : forall c k, (k + c = n)%nat -> 0 <= psi k).
  { induction c as [|c IH]; intros k Hk; [rewrite Nat.add_0_r in Hk; subst; exact H0|].
    apply Step; [lia|apply IH; lia]. }
  assert (A' : forall k, (k <= n)%nat -> 0 <= psi k) by (intros k Hk; apply (A (n - k)%nat); lia).
  split; [exact A'|]. intros j Hj Hq.
  assert (C : forall c k, (k + c = j)%nat -> 0 < psi k).
  { induction c as [|c IH]; intros k Hk; apply Step; try lia; try (apply A'; lia).
    - right. replace k with j by lia. exact Hq.
    - left. apply IH. lia. }
  intros k Hk. apply (C (j - k)%nat). lia.
Qed.

Lemma transport_spreads P sigt q bound psi phi :
  nonzero_ordinates (angles P) (mu P) -> two_way P ->
  (forall m, (m < angles P)%nat -> 0 <= wt P m) ->
  (forall m i, (m < angles P)%nat -> (i < cells P)%nat -> 0 < dx P i /\ 0 <= sigt i /\ dx P i * sigt i < 2 * Rabs (mu P m) /\ 0 <= q m i) ->
  (forall m, (m < angles P)%nat -> 0 <= bound m) ->
  slab_transport (cells P) (angles P) (mu P) (wt P) (dx P) sigt q
    (fun m => reflected_in (cells P) (angles P) (mu P) (bc_left P) (bc_right P) psi m + bound m) psi phi ->
  forall j, (j < cells P)%nat -> (forall m, (m < angles P)%nat -> 0 < q m j) -> forall i, (i < cells P)%nat -> 0 < phi i.
Proof.
  intros Hnz (mr & ml & Hmr & Hml & [Hl Hr] & Wr & Wl) Hw H Hb (B & I & F) j Hj Hq.
  assert (Dir : forall m, (m < angles P)%nat -> 0 <= psi m (inflow_edge (cells P) (mu P m)) ->
    (forall k, (k <= cells P)%nat -> 0 <= psi m k) /\
    (0 < mu P m -> forall k, (j < k <= cells P)%nat -> 0 < psi m k) /\ (mu P m < 0 -> forall k, (k <= j)%nat -> 0 < psi m k)).
  { intros m Hm Hin. unfold inflow_edge in Hin. destruct (Rlt_dec 0 (mu P m)) as [Pm|Pm].
    - assert (H' : forall i, (i < cells P)%nat -> 0 < dx P i /\ 0 <= sigt i /\ dx P i * sigt i < 2 * mu P m /\ 0 <= q m i).
      { intros i Hi. specialize (H m i Hm Hi). rewrite Rabs_right in H by lra. exact H. }
      destruct (balance_right _ _ _ _ _ _ Pm H' (B m Hm) Hin) as [A1 A2].
      split; [exact A1|]. split; [intros _; apply A2; [exact Hj|apply Hq; exact Hm]|lra].
    - assert (Nm : mu P m < 0) by (specialize (Hnz m Hm); lra).
      assert (H' : forall i, (i < cells P)%nat -> 0 < dx P i /\ 0 <= sigt i /\ dx P i * sigt i < 2 * - mu P m /\ 0 <= q m i).
      { intros i Hi. specialize (H m i Hm Hi). rewrite Rabs_left in H by lra. exact H. }
      destruct (balance_left _ _ _ _ _ _ Nm H' (B m Hm) Hin) as [A1 A2].
      split; [exact A1|]. split; [lra|intros _; apply A2; [exact Hj|apply Hq; exact Hm]]. }
  assert (In : forall m, (m < angles P)%nat -> 0 <= psi m (inflow_edge (cells P) (mu P m))).
  { intros m. induction m as [m IH] using (well_founded_induction lt_wf). intros Hm. rewrite (I m Hm). specialize (Hb m Hm).
    unfold reflected_in. destruct (Nat.ltb_spec (angles P - m - 1) m) as [L|L]; cbn [andb]; [|lra].
    destruct (leaves_reflective _ _ _ _); [|lra].
    destruct (Dir (angles P - m - 1)%nat ltac:(lia) (IH _ L ltac:(lia))) as [A _].
    specialize (A (outflow_edge (cells P) (mu P (angles P - m - 1)%nat)) ltac:(unfold outflow_edge; destruct (Rlt_dec _ _); lia)). lra. }
  intros i Hi. rewrite (F i Hi).
  assert (NN : forall m, (m < angles P)%nat -> 0 <= wt P m * ((psi m i + psi m (S i)) / 2)).
  { intros m Hm. destruct (Dir m Hm (In m Hm)) as [A _]. apply Rmult_le_pos; [apply Hw; exact Hm|].
    pose proof (A i ltac:(lia)). pose proof (A (S i) ltac:(lia)). lra. }
  destruct (le_lt_dec j i) as [L|L].
  - eapply Rlt_le_trans; [|apply (rsum_term_le (angles P) (fun m => wt P m * ((psi m i + psi m (S i)) / 2)) mr NN Hmr)].
    destruct (Dir mr Hmr (In mr Hmr)) as (A & Bp & _). pose proof (A i ltac:(lia)). pose proof (Bp Hr (S i) ltac:(lia)).
    apply Rmult_lt_0_compat; lra.
  - eapply Rlt_le_trans; [|apply (rsum_term_le (angles P) (fun m => wt P m * ((psi m i + psi m (S i)) / 2)) ml NN Hml)].
    destruct (Dir ml Hml (In ml Hml)) as (A & _ & Bn). pose proof (A (S i) ltac:(lia)). pose proof (Bn Hl i ltac:(lia)).
    apply Rmult_lt_0_compat; lra.
Qed.

Section Mode.
Variables (P : sn) (G : nat) (T : mat2) (X : mat3).
Hypothesis HD : damped_transport P G T X.
Let n := cells P.

Lemma group_lit s w g : two_way P -> transmitting P G T -> below2 n G (fun _ _ => 0) s ->
  mg_solution P G T X (iso3 G s) dark w -> (g < G)%nat ->
  (exists j, (j < n)%nat /\ 0 < rsum G (fun h => X (medium P j) g h * w j h) + s j g) ->
  forall i, (i < n)%nat -> 0 < w i g.
Proof.
  intros H2 Ht Hs Hsol Hg (j & Hj & Hpos).
  assert (Nw : forall i h, (i < n)%nat -> (h < G)%nat -> 0 <= w i h).
  { apply (solution_nonneg P G T X (iso3 G s) dark w HD); [|intros; rewrite dark_boundary; lra|exact Hsol].
    intros m i h Hm Hi Hh. rewrite iso3_at by exact Hh. apply Hs; assumption. }
  destruct HD as (Hnz & Hth & Hw & HX & _). destruct Hsol as [psi Hpsi]. specialize (Hpsi g Hg).
  assert (Q : forall i, (i < n)%nat -> 0 <= rsum G (fun h => X (medium P i) g h * w i h)).
  { intros i Hi. apply rsum_nonneg. intros h Hh. apply Rmult_le_pos; [apply HX; assumption|apply Nw; assumption]. }
  eapply (transport_spreads P); [exact Hnz|exact H2|exact Hw| | |exact Hpsi|exact Hj|].
  - intros m i Hm Hi. destruct (Hth g Hg m i Hm Hi) as (A & B & _). split; [exact A|]. split; [exact B|]. split; [apply Ht; assumption|].
    unfold mg_source. rewrite iso3_at by exact Hg. specialize (Q i Hi). specialize (Hs i g Hi Hg). lra.
  - intros m Hm. rewrite dark_boundary. lra.
  - intros m Hm. unfold mg_source. rewrite iso3_at by exact Hg. exact Hpos.
Qed.

Lemma fed_positive s w : two_way P -> transmitting P G T -> below2 n G (fun _ _ => 0) s ->
  mg_solution P G T X (iso3 G s) dark w ->
  (forall g, (g < G)%nat -> exists o j, (o < G)%nat /\ (j < n)%nat /\ 0 < s j o /\ feeds P G X o g) ->
  positive2 n G w.
Proof.
  intros H2 Ht Hs Hsol Hf i g Hi Hg. destruct (Hf g Hg) as (o & j & Ho & Hj & Hsj & Hfeed). clear Hf.
  assert (Nw : forall i h, (i < n)%nat -> (h < G)%nat -> 0 <= w i h).
  { apply (solution_nonneg P G T X (iso3 G s) dark w HD); [|intros; rewrite dark_boundary; lra|exact Hsol].
    intros m i' h Hm Hi' Hh. rewrite iso3_at by exact Hh. apply Hs; assumption. }
  assert (HX : forall i g h, (i < n)%nat -> (g < G)%nat -> (h < G)%nat -> 0 <= X (medium P i) g h) by (destruct HD as (_ & _ & _ & HX & _); exact HX).
  revert i Hi. induction Hfeed as [|h g Hfeed IH Hh (j' & Hj' & HXj)]; intros i Hi.
  - apply (group_lit s w o H2 Ht Hs Hsol Ho); [|exact Hi]. exists j. split; [exact Hj|].
    assert (0 <= rsum G (fun h => X (medium P j) o h * w j h)).
    { apply rsum_nonneg. intros h Hh. apply Rmult_le_pos; [apply HX; assumption|apply Nw; assumption]. } lra.
  - specialize (IH Hh). apply (group_lit s w g H2 Ht Hs Hsol Hg); [|exact Hi]. exists j'. split; [exact Hj'|].
    assert (0 < rsum G (fun h => X (medium P j') g h * w j' h)).
    { eapply Rlt_le_trans; [|apply (rsum_term_le G (fun h => X (medium P j') g h * w j' h) h); [|exact Hh]].
      - apply Rmult_lt_0_compat; [exact HXj|apply IH; exact Hj'].
      - intros h' Hh'. apply Rmult_le_pos; [apply HX; assumption|apply Nw; assumption]. }
    specialize (Hs j' g Hj' Hg). cbv beta in Hs. lra.
Qed.

(** *** one generation as a matrix *)
Lemma zero_solution : mg_solution P G T X (iso3 G (fun _ _ => 0)) dark (fun _ _ => 0).
Proof.
  destruct (generation_exists P G T X HD (FissionMatrix (fun _ _ _ => 0)) (fun _ _ => 0)) as [w Hw]. unfold next_generation in Hw.
  pose proof (solution_lin P G T X _ _ _ _ 0 0 Hw Hw) as H. cbv beta in H.
  apply (solution_ext P G T X _ _ _ _ _) with (3 := H); intros i g _ _; ring.
Qed.
Lemma solution_rsum N (c : vec) (s f : nat -> mat2) :
  (forall q, (q < N)%nat -> mg_solution P G T X (iso3 G (s q)) dark (f q)) ->
  mg_solution P G T X (iso3 G (fun i g => rsum N (fun q => c q * s q i g))) dark (fun i g => rsum N (fun q => c q * f q i g)).
Proof.
  induction N as [|N IH]; intros H; [exact zero_solution|].
  pose proof (solution_lin P G T X _ _ _ _ 1 (c N) (IH ltac:(intros; apply H; lia)) (H N ltac:(lia))) as H'. cbv beta in H'.
  apply (solution_ext P G T X _ _ _ _ _) with (3 := H'); intros i g _ _; cbn [rsum]; ring.
Qed.
Lemma finite_choice {A} (a0 : A) N (Q : nat -> A -> Prop) : (forall j, (j < N)%nat -> exists y, Q j y) ->
  exists F, forall j, (j < N)%nat -> Q j (F j).
Proof.
  induction N as [|N IH]; intros H; [exists (fun _ => a0); lia|].
  destruct (IH ltac:(intros; apply H; lia)) as [F HF]. destruct (H N ltac:(lia)) as [y Hy].
  exists (fun j => if Nat.eqb j N then y else F j). intros j Hj. destruct (Nat.eqb_spec j N) as [-> |]; [exact Hy|apply HF; lia].
Qed.

Definition delta (j h : nat) : mat2 := fun i g => if andb (Nat.eqb i j) (Nat.eqb g h) then 1 else 0.

Lemma rsum_delta N j (x : vec) : (j < N)%nat -> rsum N (fun i => if Nat.eqb i j then x i else 0) = x j.
Proof.
  induction N as [|N IH]; intros Hj; [lia|]. cbn [rsum]. destruct (Nat.eqb_spec N j) as [-> |].
  - rewrite (rsum_zero_ext j); [lra|]. intros i Hi. destruct (Nat.eqb_spec i j); [lia|reflexivity].
  - rewrite IH by lia. lra.
Qed.
Lemma delta_sum (v : mat2) i g : (i < n)%nat -> (g < G)%nat -> rsum n (fun j => rsum G (fun h => v j h * delta j h i g)) = v i g.
Proof.
  intros Hi Hg. rewrite (rsum_ext n _ (fun j => if Nat.eqb j i then v j g else 0)).
  - rewrite rsum_delta by exact Hi. reflexivity.
  - intros j Hj. destruct (Nat.eqb_spec j i) as [-> |Hne].
    + rewrite (rsum_ext G _ (fun h => if Nat.eqb h g then v i h else 0)); [rewrite rsum_delta by exact Hg; reflexivity|].
      intros h Hh. unfold delta. rewrite Nat.eqb_refl. cbn [andb]. rewrite (Nat.eqb_sym g h). destruct (Nat.eqb h g); ring.
    + apply rsum_zero_ext. intros h Hh. unfold delta. destruct (Nat.eqb_spec i j); [lia|]. cbn [andb]. ring.
Qed.

Lemma generation_unique f v w1 w2 : next_generation P G T X f v w1 -> next_generation P G T X f v w2 -> agree2 n G w1 w2.
Proof.
  intros H1 H2 i g Hi Hg. apply Rle_antisym.
  - apply (generation_compare P G T X HD f f v v w1 w2); try assumption. intros ? ? _ _; lra.
  - apply (generation_compare P G T X HD f f v v w2 w1); try assumption. intros ? ? _ _; lra.
Qed.
Lemma emission_ext f v w : agree2 n G v w -> agree2 n G (emission G f (medium P) v) (emission G f (medium P) w).
Proof. intros H i g Hi Hg. apply rsum_ext. intros h Hh. rewrite (H i h Hi Hh). reflexivity. Qed.
Lemma generation_ext f v v' w w' : agree2 n G v v' -> agree2 n G w w' -> next_generation P G T X f v w -> next_generation P G T X f v' w'.
Proof. intros Hv Hw H. eapply solution_ext; [apply emission_ext; exact Hv|exact Hw|exact H]. Qed.

Lemma generation_matrix f : exists A : nat -> nat -> mat2,
  (forall j h, (j < n)%nat -> (h < G)%nat -> next_generation P G T X f (delta j h) (A j h)) /\
  forall v, next_generation P G T X f v (fun i g => rsum n (fun j => rsum G (fun h => v j h * A j h i g))).
Proof.
  destruct (finite_choice (fun _ => (fun _ _ => 0) : mat2) n
    (fun j (F : nat -> mat2) => forall h, (h < G)%nat -> next_generation P G T X f (delta j h) (F h))) as [A HA].
  { intros j Hj. apply (finite_choice ((fun _ _ => 0) : mat2) G (fun h (y : mat2) => next_generation P G T X f (delta j h) y)). intros h Hh. apply generation_exists. exact HD. }
  exists A. split; [intros j h Hj Hh; apply HA; assumption|]. intros v.
  assert (H1 : forall j, (j < n)%nat -> mg_solution P G T X (iso3 G (fun i g => rsum G (fun h => v j h * emission G f (medium P) (delta j h) i g))) dark
     (fun i g => rsum G (fun h => v j h * A j h i g))).
  { intros j Hj. apply (solution_rsum G (v j) (fun h => emission G f (medium P) (delta j h)) (A j)). intros h Hh. apply HA; assumption. }
  pose proof (solution_rsum n (fun _ => 1) (fun j i g => rsum G (fun h => v j h * emission G f (medium P) (delta j h) i g))
     (fun j i g => rsum G (fun h => v j h * A j h i g)) H1) as H.
  eapply solution_ext; [| |exact H].
  - intros i g Hi Hg. cbv beta.
    rewrite (rsum_ext n _ (fun j => rsum G (fun h => rsum G (fun o => fission_entry f (medium P i) g o * (v j h * delta j h i o))))).
    + rewrite (rsum_ext n _ (fun j => rsum G (fun o => rsum G (fun h => fission_entry f (medium P i) g o * (v j h * delta j h i o))))) by (intros; apply rsum_swap).
      rewrite rsum_swap. unfold emission. apply rsum_ext. intros o Ho.
      rewrite (rsum_ext n _ (fun j => fission_entry f (medium P i) g o * rsum G (fun h => v j h * delta j h i o))) by (intros; apply rsum_scal).
      rewrite rsum_scal, delta_sum by assumption. reflexivity.
    + intros j Hj. rewrite Rmult_1_l. apply rsum_ext. intros h Hh. unfold emission. rewrite <- rsum_scal. apply rsum_ext. intros; ring.
  - intros i g Hi Hg. apply rsum_ext. intros; ring.
Qed.

Lemma uniform_bound N (Q : nat -> R -> Prop) : (forall j x y, (j < N)%nat -> Q j x -> 0 < y <= x -> Q j y) ->
  (forall j, (j < N)%nat -> exists x, 0 < x <= 1 /\ Q j x) -> exists x, 0 < x <= 1 /\ forall j, (j < N)%nat -> Q j x.
Proof.
  induction N as [|N IH]; intros Hm H; [exists 1; split; [lra|intros; lia]|].
  destruct (IH ltac:(intros j x y Hj; apply Hm; lia) ltac:(intros; apply H; lia)) as (x & Hx & Q1). destruct (H N ltac:(lia)) as (y & Hy & Q2).
  exists (Rmin x y). assert (B : 0 < Rmin x y <= 1). { unfold Rmin. destruct (Rle_dec x y); lra. }
  split; [exact B|]. intros j Hj. destruct (Nat.eq_dec j N) as [-> |].
  - eapply Hm; [lia|exact Q2|]. split; [lra|apply Rmin_r].
  - eapply Hm; [lia|apply Q1; lia|]. split; [lra|apply Rmin_l].
Qed.

Lemma positive_even w : (0 < n)%nat -> (0 < G)%nat -> positive2 n G w -> exists x, 0 < x <= 1 /\
  forall i g j h, (i < n)%nat -> (g < G)%nat -> (j < n)%nat -> (h < G)%nat -> x * w j h <= w i g.
Proof.
  intros Hn HG Hw.
  destruct (ratio_max n G w (fun _ _ => 1) Hn HG ltac:(intros ? ? _ _; lra)) as (a & i1 & g1 & Hi1 & Hg1 & Ea & Ha).
  destruct (ratio_max n G (fun _ _ => 1) w Hn HG Hw) as (b & i2 & g2 & Hi2 & Hg2 & Eb & Hb).
  pose proof (Hw i1 g1 Hi1 Hg1). pose proof (Hw i2 g2 Hi2 Hg2) as P2. assert (0 < a) by lra. assert (Hb0 : 0 < b) by nra.
  assert (Hab : 1 <= a * b). { specialize (Ha i2 g2 Hi2 Hg2). cbv beta in *. nra. }
  exists (/ (a * b)). split.
  - split; [apply Rinv_0_lt_compat; lra|rewrite <- Rinv_1; apply Rinv_le_contravar; lra].
  - intros i g j h Hi Hg Hj Hh. specialize (Ha j h Hj Hh). specialize (Hb i g Hi Hg). cbv beta in *.
    apply (Rmult_le_reg_l (a * b)); [lra|]. rewrite <- Rmult_assoc, Rinv_r by lra. nra.
Qed.

Theorem generation_even f : (0 < n)%nat -> (0 < G)%nat -> nonneg_fission n G (medium P) f ->
  two_way P -> transmitting P G T -> well_fed P G X f -> exists d, even_generation P G T X f d.
Proof.
  intros Hn HG Hf H2 Ht Hfed. destruct (generation_matrix f) as (A & HA & HK).
  assert (Q : exists d, 0 < d <= 1 /\ forall j, (j < n)%nat -> forall h, (h < G)%nat ->
     forall i g i' g', (i < n)%nat -> (g < G)%nat -> (i' < n)%nat -> (g' < G)%nat -> d * A j h i' g' <= A j h i g).
  { assert (NA : forall j h i g, (j < n)%nat -> (h < G)%nat -> (i < n)%nat -> (g < G)%nat -> 0 <= A j h i g).
    { intros j h i g Hj Hh Hi Hg. apply (generation_compare P G T X HD (FissionMatrix (fun _ _ _ => 0)) f (fun _ _ => 0) (delta j h) (fun _ _ => 0) (A j h)); try assumption.
      - intros i' g' Hi' Hg'. unfold emission at 1. rewrite rsum_zero_ext by (intros; cbn; ring).
        apply rsum_nonneg. intros o Ho. apply Rmult_le_pos; [eapply emission_entry; eassumption|]. unfold delta. destruct (andb _ _); lra.
      - unfold next_generation. eapply solution_ext; [| |exact zero_solution]; intros i' g' _ _; [|reflexivity].
        unfold emission. rewrite rsum_zero_ext; [reflexivity|]. intros; cbn; ring.
      - apply HA; assumption. }
    apply (uniform_bound n (fun j x => forall h, (h < G)%nat -> forall i g i' g', (i < n)%nat -> (g < G)%nat -> (i' < n)%nat -> (g' < G)%nat -> x * A j h i' g' <= A j h i g)).
    { intros j x y Hj H Hy h Hh i g i' g' Hi Hg Hi' Hg'.
      eapply Rle_trans; [|apply (H h Hh i g i' g'); assumption]. apply Rmult_le_compat_r; [apply NA; assumption|lra]. }
    intros j Hj. apply (uniform_bound G (fun h x => forall i g i' g', (i < n)%nat -> (g < G)%nat -> (i' < n)%nat -> (g' < G)%nat -> x * A j h i' g' <= A j h i g)).
    { intros h x y Hh H Hy i g i' g' Hi Hg Hi' Hg'.
      eapply Rle_trans; [|apply (H i g i' g'); assumption]. apply Rmult_le_compat_r; [apply NA; assumption|lra]. }
    intros h Hh.
    assert (Dec : (exists o, (o < G)%nat /\ fission_entry f (medium P j) o h <> 0) \/ forall o, (o < G)%nat -> fission_entry f (medium P j) o h = 0).
    { clear. induction G as [|k IH]; [right; lia|]. destruct IH as [(o & Ho & H)|H]; [left; exists o; split; [lia|exact H]|].
      destruct (Req_dec (fission_entry f (medium P j) k h) 0) as [E|E]; [right|left; exists k; split; [lia|exact E]].
      intros o Ho. destruct (Nat.eq_dec o k) as [-> |]; [exact E|apply H; lia]. }
    destruct Dec as [(o & Ho & Hne)|Hz].
    - apply positive_even; try assumption.
      assert (HAj := HA j h Hj Hh). unfold next_generation in HAj.
      refine (fed_positive _ _ H2 Ht _ HAj _).
      + intros i g Hi Hg. apply rsum_nonneg. intros o' Ho'. apply Rmult_le_pos; [eapply emission_entry; eassumption|]. unfold delta. destruct (andb _ _); lra.
      + intros g Hg. destruct (Hfed j h o Hj Hh Ho Hne g Hg) as (o' & Ho' & Hne' & Hfe). exists o', j. split; [exact Ho'|]. split; [exact Hj|]. split; [|exact Hfe].
        assert (0 <= fission_entry f (medium P j) o' h) by (eapply emission_entry; eassumption).
        eapply Rlt_le_trans; [|apply (rsum_term_le G (fun x => fission_entry f (medium P j) o' x * delta j h j x) h); [|exact Hh]].
        * unfold delta. rewrite !Nat.eqb_refl. cbn [andb]. lra.
        * intros x Hx. apply Rmult_le_pos; [eapply emission_entry; eassumption|]. unfold delta. destruct (andb _ _); lra.
    - exists 1. split; [lra|]. intros i g i' g' Hi Hg Hi' Hg'.
      assert (Z : agree2 n G (A j h) (fun _ _ => 0)).
      { apply (generation_unique f (delta j h)); [apply HA; assumption|]. unfold next_generation. eapply solution_ext; [| |exact zero_solution]; [|intros ? ? _ _; reflexivity].
        intros i1 g1 Hi1 Hg1. unfold emission. rewrite rsum_zero_ext; [reflexivity|]. intros x Hx. unfold delta.
        destruct (Nat.eqb_spec i1 j) as [-> |]; cbn [andb]; [|ring]. destruct (Nat.eqb_spec x h) as [-> |]; [|ring]. rewrite Hz by exact Hg1. ring. }
      rewrite (Z i g), (Z i' g') by assumption. lra. }
  destruct Q as (d & Hd & Q). exists d. split; [exact Hd|]. intros v w Hv Hw i g j h Hi Hg Hj Hh.
  pose proof (generation_unique f v w _ Hw (HK v)) as E. rewrite (E i g), (E j h) by assumption.
  rewrite <- rsum_scal. apply rsum_le. intros x Hx. rewrite <- rsum_scal. apply rsum_le. intros y Hy.
  specialize (Q x Hx y Hy i g j h Hi Hg Hj Hh). specialize (Hv x y Hx Hy). cbv beta in Hv. nra.
Qed.

(** *** the mode *)
Section Even.
Variables (f : fission_data) (d : R).
Hypothesis Hn : (0 < n)%nat.
Hypothesis HG : (0 < G)%nat.
Hypothesis Hf : nonneg_fission n G (medium P) f.
Hypothesis Heven : even_generation P G T X f d.

Lemma generation_operator : exists K : mat2 -> mat2,
  (forall v, next_generation P G T X f v (K v)) /\
  (forall a b v w i g, (i < n)%nat -> (g < G)%nat -> K (fun i g => a * v i g + b * w i g) i g = a * K v i g + b * K w i g) /\
  (forall v w, below2 n G v w -> below2 n G (K v) (K w)) /\
  (forall v, below2 n G (fun _ _ => 0) v ->
     forall i g j h, (i < n)%nat -> (g < G)%nat -> (j < n)%nat -> (h < G)%nat -> d * K v j h <= K v i g).
Proof.
  destruct (generation_matrix f) as (A & HA & HK). exists (fun v i g => rsum n (fun j => rsum G (fun h => v j h * A j h i g))).
  split; [exact HK|]. split; [|split].
  - intros a b v w i g Hi Hg. rewrite <- !rsum_scal, <- rsum_plus. apply rsum_ext. intros j Hj. rewrite <- !rsum_scal, <- rsum_plus. apply rsum_ext. intros; ring.
  - intros v w H. apply (generation_mono P G T X HD f v w); [exact Hf|exact H|apply HK|apply HK].
  - intros v Hv. destruct Heven as [_ He]. apply (He v); [exact Hv|apply HK].
Qed.

Lemma eigenpair_of_generation phi k : 0 < k -> next_generation P G T X f phi (fun i g => k * phi i g) -> eigenpair P G T X f phi k.
Proof.
  intros Hk H. unfold next_generation in H.
  apply (solution_ext P G T X (fun i g => / k * emission G f (medium P) phi i g + 0 * emission G f (medium P) phi i g) _ dark (fun i g => / k * (k * phi i g) + 0 * (k * phi i g))).
  - intros i g _ _. unfold Rdiv. ring.
  - intros i g _ _. field. lra.
  - apply (solution_lin P G T X (emission G f (medium P) phi) (emission G f (medium P) phi)); exact H.
Qed.

Theorem mode_exists : fissile P G f -> two_way P -> transmitting P G T ->
  exists phi k, 0 < k /\ positive2 n G phi /\ eigenpair P G T X f phi k.
Proof.
  intros (j & h & o & Hj & Hh & Ho & Hne) H2 Ht. destruct generation_operator as (K & HK & K_lin & K_mono & Kh).
  destruct Heven as [Hd _].
  destruct (perron_exists n G K d Hn HG K_lin K_mono Hd Kh) as (phi & k & Hk & Hphi & E).
  { exists j, o. split; [exact Hj|]. split; [exact Ho|].
    specialize (HK (fun _ _ => 1)). unfold next_generation in HK.
    assert (Q : forall i g, (i < n)%nat -> (g < G)%nat -> 0 <= emission G f (medium P) (fun _ _ => 1) i g).
    { intros i g Hi Hg. apply rsum_nonneg. intros x Hx. apply Rmult_le_pos; [eapply emission_entry; eassumption|lra]. }
    apply (group_lit _ _ o H2 Ht Q HK Ho); [|exact Hj]. exists j. split; [exact Hj|].
    assert (NK : forall i g, (i < n)%nat -> (g < G)%nat -> 0 <= K (fun _ _ => 1) i g).
    { apply (solution_nonneg P G T X (iso3 G (emission G f (medium P) (fun _ _ => 1))) dark (K (fun _ _ => 1)) HD); [|intros; rewrite dark_boundary; lra|exact HK].
      intros m i g Hm Hi Hg. rewrite iso3_at by exact Hg. apply Q; assumption. }
    assert (0 <= rsum G (fun h => X (medium P j) o h * K (fun _ _ => 1) j h)).
    { apply rsum_nonneg. intros x Hx. apply Rmult_le_pos; [|apply NK; assumption]. destruct HD as (_ & _ & _ & HX & _). apply HX; assumption. }
    assert (0 < emission G f (medium P) (fun _ _ => 1) j o); [|lra].
    eapply Rlt_le_trans; [|apply (rsum_term_le G (fun x => fission_entry f (medium P j) o x * 1) h); [|exact Hh]].
    - pose proof (emission_entry n G (medium P) f j o h Hf Hj Ho Hh). lra.
    - intros x Hx. pose proof (emission_entry n G (medium P) f j o x Hf Hj Ho Hx). lra. }
  exists phi, k. split; [exact Hk|]. split; [exact Hphi|]. apply eigenpair_of_generation; [exact Hk|].
  eapply generation_ext; [| |apply (HK phi)]; [intros ? ? _ _; reflexivity|exact E].
Qed.
End Even.
End Mode.
