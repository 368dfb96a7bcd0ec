(** C61: bounds of the erfc schedule, its jumps, and the failures of time_dependence_decay_02. *)
From Coq Require Import ZArith Lra Lia Reals.
From Verif Require Import Base BaseFacts SrcModel SrcSpec SrcFacts2.
Open Scope R_scope.

Lemma ceil_spec x : x <= IZR (ceil x) < x + 1.
Proof.
  unfold ceil. rewrite opp_IZR. destruct (base_Int_part (- x)) as [A B]. lra.
Qed.
Lemma ceil_unique x k : IZR k - 1 < x <= IZR k -> ceil x = k.
Proof.
  intros H. pose proof (ceil_spec x) as C. 
  assert (A : IZR (ceil x) < IZR k + 1) by lra. assert (B : IZR k < IZR (ceil x) + 1) by lra.
  rewrite <- plus_IZR in A, B. apply lt_IZR in A, B. lia.
Qed.
Lemma half_pow_le p k : (p <= k)%nat -> 0 < 0.5 ^ k <= 0.5 ^ p.
Proof.
  intros H. split; [apply pow_lt; lra|]. induction H as [|k H IH]; [lra|]. cbn [pow]. pose proof (pow_lt 0.5 k ltac:(lra)). lra.
Qed.

Lemma decay_value_form t : 0.2 <= t -> exists k u, INR k - 1 < (t - 0.2) / 0.1 <= INR k /\ 0 < u <= 10 /\
  u = (t - 0.1 * (1 + INR k)) / 0.01 /\ decay_value t = 0.5 ^ k * (1 + 2 * (1 - erf u)).
Proof.
  intros H. unfold decay_value. pose proof (ceil_spec ((t - 0.2) / 0.1)) as [C1 C2]. set (z := ceil ((t - 0.2) / 0.1)) in *.
  assert (P : 0 <= (t - 0.2) / 0.1) by lra.
  assert (Z0 : (0 <= z)%Z) by (apply le_IZR; lra).
  exists (Z.to_nat z). rewrite (INR_IZR_INZ (Z.to_nat z)), Z2Nat.id by exact Z0.
  exists ((t - 0.1 * (1 + IZR z)) / 0.01). split; [lra|]. split; [lra|]. split; [reflexivity|reflexivity].
Qed.

(** Between 0.2 + 0.1 p microseconds and the end the value stays in [0, 3 / 2^p]. *)
Lemma decay_value_bounds t p : 0.2 <= t -> 0.2 + 0.1 * INR p <= t -> 0 <= decay_value t <= 3 * 0.5 ^ p.
Proof.
  intros H Hp. destruct (decay_value_form t H) as (k & u & K & U & _ & ->).
  destruct (erf_bounds u ltac:(lra)) as ((E0 & E1) & _).
  assert (L : (p <= k)%nat) by (apply INR_le; lra).
  destruct (half_pow_le p k L) as [P1 P2]. split.
  - apply Rmult_le_pos; lra.
  - apply Rle_trans with (0.5 ^ k * 3); [apply Rmult_le_compat_l; lra|lra].
Qed.

Lemma Int_part_IZR z : Int_part (IZR z) = z.
Proof.
  destruct (base_Int_part (IZR z)) as [A B]. assert (C : IZR z < IZR (Int_part (IZR z)) + 1) by lra.
  rewrite <- plus_IZR in C. apply le_IZR in A. apply lt_IZR in C. lia.
Qed.
Lemma rint_IZR z : rint (IZR z) = z.
Proof. unfold rint. rewrite Int_part_IZR. destruct (Rlt_dec (IZR z - IZR z) (1 / 2)); [reflexivity|lra]. Qed.
Lemma rint_near x : Rabs (IZR (rint x) - x) <= 1 / 2.
Proof.
  unfold rint. destruct (base_Int_part x) as [A B].
  destruct (Rlt_dec (x - IZR (Int_part x)) (1 / 2)); [|destruct (Rlt_dec (1 / 2) (x - IZR (Int_part x))); [|destruct (Z.even (Int_part x))]];
    try rewrite plus_IZR; unfold Rabs; destruct Rcase_abs; lra.
Qed.
Lemma round12_exact z : round12 (IZR z / 10 ^ 12) = IZR z / 10 ^ 12.
Proof.
  unfold round12. replace (IZR z / 10 ^ 12 * 10 ^ 12) with (IZR z) by (field; apply pow_nonzero; lra). now rewrite rint_IZR.
Qed.
Lemma round12_near x : Rabs (round12 x - x) <= 1 / 2 / 10 ^ 12.
Proof.
  unfold round12. pose proof (rint_near (x * 10 ^ 12)) as H. assert (P : 0 < 10 ^ 12) by (apply pow_lt; lra).
  replace (IZR (rint (x * 10 ^ 12)) / 10 ^ 12 - x) with ((IZR (rint (x * 10 ^ 12)) - x * 10 ^ 12) / 10 ^ 12) by (field; lra).
  unfold Rdiv at 1. rewrite Rabs_mult, (Rabs_right (/ 10 ^ 12)) by (left; now apply Rinv_0_lt_compat).
  apply Rmult_le_compat_r; [left; now apply Rinv_0_lt_compat|exact H].
Qed.

(** Non-zero entries of an array. *)
Lemma flat_map_none {A B} (f : A -> list B) l : (forall x, In x l -> f x = []) -> flat_map f l = [].
Proof. induction l as [|x l IH]; intros H; [reflexivity|]. cbn [flat_map]. rewrite (H x) by now left. apply IH. intros y Hy. apply H. now right. Qed.
Lemma flat_map_single {B} (f : nat -> list B) n i0 : (i0 < n)%nat -> (forall i, (i < n)%nat -> i <> i0 -> f i = []) ->
  flat_map f (seq 0 n) = f i0.
Proof.
  intros H N. replace n with (i0 + S (n - S i0))%nat by lia. rewrite seq_app, flat_map_app. cbn [seq flat_map].
  rewrite (flat_map_none f (seq 0 i0)), (flat_map_none f (seq _ (n - S i0))), app_nil_r; [reflexivity| |]; intros x Hx; apply in_seq in Hx; apply N; lia.
Qed.
Lemma nonzero_one S N G (a : mat3) s n g : (s < S)%nat -> (n < N)%nat -> (g < G)%nat -> a s n g <> 0 ->
  (forall s' n' g', (s' < S)%nat -> (n' < N)%nat -> (g' < G)%nat -> a s' n' g' <> 0 -> s' = s /\ n' = n /\ g' = g) ->
  nonzero_indices S N G a = [s; n; g].
Proof.
  intros Hs Hn Hg Ha U. unfold nonzero_indices.
  assert (Z : forall s' n' g', (s' < S)%nat -> (n' < N)%nat -> (g' < G)%nat -> (s', n', g') <> (s, n, g) ->
    (if Req_EM_T (a s' n' g') 0 then [] else [s'; n'; g']) = []).
  { intros s' n' g' A B C D. destruct (Req_EM_T (a s' n' g') 0) as [|E]; [reflexivity|]. destruct (U s' n' g' A B C E) as (-> & -> & ->). now destruct D. }
  rewrite (flat_map_single _ _ s Hs). 2:{ intros i Hi Hne. apply flat_map_none. intros n' Hn'. apply in_seq in Hn'. apply flat_map_none. intros g' Hg'. apply in_seq in Hg'. apply Z; try lia. congruence. }
  rewrite (flat_map_single _ _ n Hn). 2:{ intros i Hi Hne. apply flat_map_none. intros g' Hg'. apply in_seq in Hg'. apply Z; try lia. congruence. }
  rewrite (flat_map_single _ _ g Hg). 2:{ intros i Hi Hne. apply Z; try lia. congruence. }
  destruct (Req_EM_T (a s n g) 0); [contradiction|reflexivity].
Qed.
Lemma nonzero_none S N G (a : mat3) : (forall s n g, (s < S)%nat -> (n < N)%nat -> (g < G)%nat -> a s n g = 0) -> nonzero_indices S N G a = [].
Proof.
  intros Z. unfold nonzero_indices. apply flat_map_none; intros s H1; apply in_seq in H1. apply flat_map_none; intros n H2; apply in_seq in H2. apply flat_map_none; intros g H3; apply in_seq in H3.
  rewrite Z by lia. destruct (Req_EM_T 0 0); [reflexivity|contradiction].
Qed.
(** two different nonzero entries give a tuple longer than three *)
Lemma flat_map_length_ge {A B} (f : A -> list B) l x : In x l -> (length (f x) <= length (flat_map f l))%nat.
Proof. induction l as [|y l IH]; intros H; [destruct H|]. cbn [flat_map]. rewrite app_length. destruct H as [-> |H]; [lia|]. specialize (IH H). lia. Qed.
Lemma flat_map_length_two {B} (f : nat -> list B) n i j : (i < j)%nat -> (j < n)%nat -> (length (f i) + length (f j) <= length (flat_map f (seq 0 n)))%nat.
Proof.
  intros L H. replace n with (j + (n - j))%nat by lia. rewrite seq_app, flat_map_app, app_length.
  pose proof (flat_map_length_ge f (seq 0 j) i ltac:(apply in_seq; lia)). pose proof (flat_map_length_ge f (seq (0 + j) (n - j)) j ltac:(apply in_seq; lia)). lia.
Qed.
Lemma nonzero_two S N G (a : mat3) s n g s' n' g' : (s < S)%nat -> (n < N)%nat -> (g < G)%nat -> (s' < S)%nat -> (n' < N)%nat -> (g' < G)%nat ->
  a s n g <> 0 -> a s' n' g' <> 0 -> (s, n, g) <> (s', n', g') -> (6 <= length (nonzero_indices S N G a))%nat.
Proof.
  intros Hs Hn Hg Hs' Hn' Hg' A A' D. unfold nonzero_indices.
  set (e := fun s n g => if Req_EM_T (a s n g) 0 then [] else [s; n; g]).
  assert (E : length (e s n g) = 3%nat) by (unfold e; destruct (Req_EM_T (a s n g) 0); [contradiction|reflexivity]).
  assert (E' : length (e s' n' g') = 3%nat) by (unfold e; destruct (Req_EM_T (a s' n' g') 0); [contradiction|reflexivity]).
  assert (E1 : (3 <= length (flat_map (e s n) (seq 0 G)))%nat) by (rewrite <- E; apply flat_map_length_ge; apply in_seq; lia).
  assert (E1' : (3 <= length (flat_map (e s' n') (seq 0 G)))%nat) by (rewrite <- E'; apply flat_map_length_ge; apply in_seq; lia).
  set (e1 := fun s n => flat_map (e s n) (seq 0 G)) in *. change (3 <= length (e1 s n))%nat in E1. change (3 <= length (e1 s' n'))%nat in E1'.
  assert (E2 : (3 <= length (flat_map (e1 s) (seq 0 N)))%nat) by (eapply Nat.le_trans; [exact E1|]; apply flat_map_length_ge; apply in_seq; lia).
  assert (E2' : (3 <= length (flat_map (e1 s') (seq 0 N)))%nat) by (eapply Nat.le_trans; [exact E1'|]; apply flat_map_length_ge; apply in_seq; lia).
  set (e2 := fun s => flat_map (e1 s) (seq 0 N)) in *. change (3 <= length (e2 s))%nat in E2. change (3 <= length (e2 s'))%nat in E2'.
  change (6 <= length (flat_map e2 (seq 0 S)))%nat.
  destruct (lt_eq_lt_dec s s') as [[L|L]|L].
  - pose proof (flat_map_length_two e2 S s s' L Hs'). lia.
  - subst s'. assert (6 <= length (e2 s))%nat; [|pose proof (flat_map_length_ge e2 (seq 0 S) s ltac:(apply in_seq; lia)); lia].
    unfold e2. destruct (lt_eq_lt_dec n n') as [[L|L]|L].
    + pose proof (flat_map_length_two (e1 s) N n n' L Hn'). lia.
    + subst n'. assert (6 <= length (e1 s n))%nat; [|pose proof (flat_map_length_ge (e1 s) (seq 0 N) n ltac:(apply in_seq; lia)); lia].
      unfold e1. destruct (lt_eq_lt_dec g g') as [[L|L]|L].
      * pose proof (flat_map_length_two (e s n) G g g' L Hg'). lia.
      * subst g'. now destruct D.
      * pose proof (flat_map_length_two (e s n) G g' g L Hg). lia.
    + pose proof (flat_map_length_two (e1 s) N n' n L Hn). lia.
  - pose proof (flat_map_length_two e2 S s' s L Hs). lia.
Qed.

(** The whole schedule, for any index tuple that addresses something. *)
Lemma decay_02_run S N G a edges edges_t (v : R -> mat3) : (0 < edges)%nat ->
  (forall x, set_index a (nonzero_indices S N G a) x = Ok (v x)) ->
  exists out, time_dependence_decay_02 S N G a edges edges_t = Ok ((edges - 1)%nat, out) /\
    (forall k, (k < edges - 1)%nat -> round12 (edges_t (k + 1)%nat * 10 ^ 6) < 0.2 -> out k = a) /\
    (forall k, (k < edges - 1)%nat -> 0.2 <= round12 (edges_t (k + 1)%nat * 10 ^ 6) ->
       out k = v (decay_value (round12 (edges_t (k + 1)%nat * 10 ^ 6)))).
Proof.
  intros H V. unfold time_dependence_decay_02. destruct (Nat.eqb_spec edges 0); [lia|].
  match goal with |- context [for_up_err ?m ?b ?s] => set (body := b); set (init := s) end.
  set (final := fun k => if Rle_dec 0.2 (round12 (edges_t (k + 1)%nat * 10 ^ 6)) then v (decay_value (round12 (edges_t (k + 1)%nat * 10 ^ 6))) else a).
  assert (R : exists out, for_up_err (edges - 1) body init = Ok out /\ forall k, out k = if (k <? edges - 1)%nat then final k else a).
  { generalize (edges - 1)%nat. induction n0 as [|m IH].
    - exists init. split; [reflexivity|]. intros k. reflexivity.
    - destruct IH as (out & E & F). 
      assert (Q : for_up_err (Datatypes.S m) body init = bind (for_up_err m body init) (body m)) by reflexivity.
      rewrite Q, E. cbn [bind]. unfold body at 1. cbv zeta.
      destruct (Rle_dec 0.2 (round12 (edges_t (m + 1)%nat * 10 ^ 6))) as [L|L].
      + assert (Fm : out m = a). { rewrite F. destruct (Nat.ltb_spec m m); [lia|reflexivity]. }
        rewrite Fm, V. cbn [bind]. eexists. split; [reflexivity|]. intros k. cbv beta.
        destruct (Nat.eqb_spec k m) as [-> |K].
        * destruct (Nat.ltb_spec m (Datatypes.S m)); [|lia]. unfold final. destruct (Rle_dec 0.2 (round12 (edges_t (m + 1)%nat * 10 ^ 6))); [reflexivity|contradiction].
        * rewrite F. destruct (Nat.ltb_spec k m), (Nat.ltb_spec k (Datatypes.S m)); try lia; reflexivity.
      + exists out. split; [reflexivity|]. intros k. rewrite F. destruct (Nat.ltb_spec k m), (Nat.ltb_spec k (Datatypes.S m)); try lia; try reflexivity.
        replace k with m by lia. unfold final. destruct (Rle_dec 0.2 (round12 (edges_t (m + 1)%nat * 10 ^ 6))); [contradiction|reflexivity]. }
  destruct R as (out & E & F). rewrite E. cbn [bind]. exists out. split; [reflexivity|].
  split; intros k Hk L; rewrite F; destruct (Nat.ltb_spec k (edges - 1)); try lia; unfold final;
    destruct (Rle_dec 0.2 (round12 (edges_t (k + 1)%nat * 10 ^ 6))); try lra; reflexivity.
Qed.

Lemma decay_02_one S N G a edges edges_t s n g : (0 < edges)%nat -> (s < S)%nat -> (n < N)%nat -> (g < G)%nat -> a s n g <> 0 ->
  (forall s' n' g', (s' < S)%nat -> (n' < N)%nat -> (g' < G)%nat -> a s' n' g' <> 0 -> s' = s /\ n' = n /\ g' = g) ->
  exists out, time_dependence_decay_02 S N G a edges edges_t = Ok ((edges - 1)%nat, out) /\
    forall k, (k < edges - 1)%nat -> let t := round12 (edges_t (k + 1)%nat * 10 ^ 6) in
      (forall s' n' g', (s', n', g') <> (s, n, g) -> out k s' n' g' = a s' n' g') /\
      (t < 0.2 -> out k s n g = a s n g) /\
      (0.2 <= t -> exists m u, INR m - 1 < (t - 0.2) / 0.1 <= INR m /\ u = (t - 0.1 * (1 + INR m)) / 0.01 /\
         out k s n g = 0.5 ^ m * (1 + 2 * (1 - erf u))) /\
      (forall p, 0.2 + 0.1 * INR p <= t -> 0 <= out k s n g <= 3 * 0.5 ^ p).
Proof.
  intros H Hs Hn Hg Ha U. 
  destruct (decay_02_run S N G a edges edges_t (fun v s' n' g' => if Nat.eqb s' s && Nat.eqb n' n && Nat.eqb g' g then v else a s' n' g') H) as (out & E & A & B).
  { intros x. rewrite (nonzero_one S N G a s n g) by assumption. reflexivity. }
  exists out. split; [exact E|]. intros k Hk t. 
  assert (V : 0.2 <= t -> out k s n g = decay_value t).
  { intros L. rewrite (B k Hk L). rewrite !Nat.eqb_refl. reflexivity. }
  split; [|split; [|split]].
  - intros s' n' g' D. destruct (Rlt_dec t 0.2) as [L|L]; [now rewrite (A k Hk L)|]. rewrite (B k Hk ltac:(unfold t in L; lra)).
    destruct (Nat.eqb_spec s' s), (Nat.eqb_spec n' n), (Nat.eqb_spec g' g); cbn [andb]; try reflexivity. subst. now destruct D.
  - intros L. now rewrite (A k Hk L).
  - intros L. destruct (decay_value_form t L) as (m & u & K & _ & UU & F). exists m, u. rewrite <- F. auto.
  - intros p L. pose proof (pos_INR p). rewrite V by lra. apply decay_value_bounds; [lra|exact L].
Qed.

(** Nothing to decay: the whole boundary is overwritten. *)
Lemma decay_02_zero S N G a edges edges_t : (0 < edges)%nat ->
  (forall s n g, (s < S)%nat -> (n < N)%nat -> (g < G)%nat -> a s n g = 0) ->
  exists out, time_dependence_decay_02 S N G a edges edges_t = Ok ((edges - 1)%nat, out) /\
    forall k, (k < edges - 1)%nat -> let t := round12 (edges_t (k + 1)%nat * 10 ^ 6) in
      (0.2 <= t -> forall s n g, out k s n g = decay_value t) /\ (t < 0.2 -> forall s n g, out k s n g = a s n g).
Proof.
  intros H Z. destruct (decay_02_run S N G a edges edges_t (fun v _ _ _ => v) H) as (out & E & A & B).
  { intros x. rewrite nonzero_none by assumption. reflexivity. }
  exists out. split; [exact E|]. intros k Hk t. split; intros L s n g; [now rewrite (B k Hk L)|now rewrite (A k Hk L)].
Qed.

(** Two entries to decay and one late step: IndexError. *)
Lemma decay_02_two S N G a edges edges_t s n g s' n' g' k : (s < S)%nat -> (n < N)%nat -> (g < G)%nat -> (s' < S)%nat -> (n' < N)%nat -> (g' < G)%nat ->
  a s n g <> 0 -> a s' n' g' <> 0 -> (s, n, g) <> (s', n', g') -> (k + 1 < edges)%nat -> 0.2 <= round12 (edges_t (k + 1)%nat * 10 ^ 6) ->
  time_dependence_decay_02 S N G a edges edges_t = Raise IndexError.
Proof.
  intros Hs Hn Hg Hs' Hn' Hg' A A' D Hk L. pose proof (nonzero_two S N G a s n g s' n' g' Hs Hn Hg Hs' Hn' Hg' A A' D) as Len.
  unfold time_dependence_decay_02. destruct (Nat.eqb_spec edges 0); [lia|].
  assert (I : forall b v, set_index b (nonzero_indices S N G a) v = Raise IndexError).
  { intros b v. destruct (nonzero_indices S N G a) as [|? [|? [|? [|? ?]]]]; cbn [length] in Len; try lia. reflexivity. }
  match goal with |- context [for_up_err ?m ?b ?s] => set (body := b); set (init := s) end.
  assert (R : forall m, (k < m -> for_up_err m body init = Raise IndexError)%nat /\ (m <= k -> for_up_err m body init = Raise IndexError \/ exists o, for_up_err m body init = Ok o)%nat).
  { assert (Q : forall m, for_up_err (Datatypes.S m) body init = bind (for_up_err m body init) (body m)) by reflexivity.
    induction m as [|m [IH1 IH2]]; [split; [lia|]; intros _; right; eexists; reflexivity|].
    assert (Bm : forall o, (exists o', body m o = Ok o') \/ body m o = Raise IndexError).
    { intros o. unfold body. cbv zeta. rewrite I. destruct (Rle_dec 0.2 (round12 (edges_t (m + 1)%nat * 10 ^ 6))); [now right|left; eauto]. }
    rewrite Q. split; intros Hm.
    - destruct (Nat.eq_dec k m) as [<- |Ne].
      + destruct (IH2 (le_n k)) as [-> |[o ->]]; [reflexivity|]. cbn [bind]. unfold body. cbv zeta. rewrite I.
        destruct (Rle_dec 0.2 (round12 (edges_t (k + 1)%nat * 10 ^ 6))); [reflexivity|contradiction].
      + rewrite IH1 by lia. reflexivity.
    - destruct (IH2 ltac:(lia)) as [-> |[o ->]]; [now left|]. cbn [bind]. destruct (Bm o) as [[o' ->]| ->]; [right; eauto|now left]. }
  destruct (R (edges - 1)%nat) as [R1 _]. rewrite R1 by lia. reflexivity.
Qed.

(** The schedule is not a decay: the value rises at a step. *)
Lemma decay_02_rises : exists S N G a edges edges_t out, increasing edges edges_t /\
  time_dependence_decay_02 S N G a edges edges_t = Ok ((edges - 1)%nat, out) /\ 0 < a 0%nat 0%nat 0%nat /\
  out 0%nat 0%nat 0%nat 0%nat < out 1%nat 0%nat 0%nat 0%nat.
Proof.
  pose (a := fun s n g : nat => if Nat.eqb s 0 && Nat.eqb n 0 && Nat.eqb g 0 then 1 else 0).
  pose (et := fun k : nat => match k with O => 0 | 1%nat => 2 / 10 ^ 7 | _ => 2001 / 10 ^ 10 end).
  destruct (decay_02_one 2 1 2 a 3 et 0 0 0 ltac:(lia) ltac:(lia) ltac:(lia) ltac:(lia)) as (out & E & F).
  { unfold a. cbn. lra. }
  { intros s n g _ _ _. unfold a. destruct (Nat.eqb_spec s 0), (Nat.eqb_spec n 0), (Nat.eqb_spec g 0); cbn [andb]; try lra. auto. }
  exists 2%nat, 1%nat, 2%nat, a, 3%nat, et, out. split; [|split; [exact E|split]].
  - intros i j L H. destruct j as [|[|[|j]]]; try lia; destruct i as [|[|i]]; try lia; unfold et; lra.
  - unfold a. cbn. lra.
  - assert (T0 : round12 (et (0 + 1)%nat * 10 ^ 6) = 0.2).
    { replace (et (0 + 1)%nat * 10 ^ 6) with (IZR 200000000000 / 10 ^ 12) by (unfold et; cbn [Nat.add]; lra). rewrite round12_exact. lra. }
    assert (T1 : round12 (et (1 + 1)%nat * 10 ^ 6) = 0.2001).
    { replace (et (1 + 1)%nat * 10 ^ 6) with (IZR 200100000000 / 10 ^ 12) by (unfold et; cbn [Nat.add]; lra). rewrite round12_exact. lra. }
    destruct (F 0%nat ltac:(lia)) as (_ & _ & V0 & _). destruct (F 1%nat ltac:(lia)) as (_ & _ & V1 & _).
    rewrite T0 in V0. rewrite T1 in V1. destruct (V0 ltac:(lra)) as (m0 & u0 & M0 & U0 & ->). destruct (V1 ltac:(lra)) as (m1 & u1 & M1 & U1 & ->).
    assert (m0 = 0%nat) by (destruct m0; [reflexivity|rewrite S_INR in M0; pose proof (pos_INR m0); lra]). subst m0.
    assert (m1 = 1%nat) by (destruct m1 as [|[|m1]]; [cbn [INR] in M1; lra|reflexivity|rewrite !S_INR in M1; pose proof (pos_INR m1); lra]). subst m1.
    cbn [INR] in U0, U1. cbn [pow].
    destruct (erf_bounds u0 ltac:(lra)) as (_ & _ & E1). specialize (E1 ltac:(lra)). destruct (erf_bounds u1 ltac:(lra)) as (_ & E2 & _). lra.
Qed.
