(** Floating-point sweeps: a cell with a positive source gets a positive flux, and the power iteration completes. *)
From Coq Require Import ZArith Lra Lia FunctionalExtensionality.
From Verif Require Import Base BaseFacts SlabModel SlabSpec SlabFacts MgModel MgSpec FixSpec SupSpec CritModel CritSpec CritFacts.
From Verif Require Import FltModel FltCritModel FltSpec FltFacts FltFacts2 FltFacts3 FltCritFacts FltCritFacts2.
Open Scope R_scope.

Lemma iterate_all {St} (Inv : St -> Prop) (s1 : St -> outcome St) c tol cap :
  (forall x, Inv x -> exists y, s1 x = Ok y /\ Inv y) ->
  forall fuel count old, Inv old -> (cap - count < fuel)%nat -> exists y, iterate fuel s1 c tol cap count old = Ok y /\ Inv y.
Proof.
  intros Hs fuel count old H0 Hc.
  destruct (iterate_or Inv s1 c tol cap OutOfFuel (fun x Hx => or_intror (Hs x Hx)) fuel count old H0 Hc) as [E|H]; [|exact H].
  exfalso. revert E. generalize dependent old. revert count Hc. induction fuel as [|fuel IH]; intros count Hc old H0; [lia|]. cbn [iterate].
  destruct (Hs old H0) as (y & -> & Hy). cbn [bind]. destruct (orb (below (c y old) tol) (Nat.leb cap count)) eqn:E; [discriminate|].
  apply Bool.orb_false_iff in E. destruct E as [_ E]. apply Nat.leb_gt in E. apply IH; [lia|exact Hy].
Qed.

Section Positive.
Variables (u : R) (rnd : R -> R).
Hypothesis Hu : 0 <= u <= / 1000.
Hypothesis Hrel : relative_rounding u rnd.
Hypothesis Hr : correct_rounding rnd.

Lemma rnd_pos x : 0 < x -> 0 < rnd x.
Proof.
  intros H. assert (Q := Hrel x). rewrite (Rabs_right x) in Q by lra. apply abs_between in Q.
  assert (u * x <= / 1000 * x) by (apply Rmult_le_compat_r; lra). lra.
Qed.
Lemma rnd_nn x : 0 <= x -> 0 <= rnd x.
Proof. apply (pos_rnd rnd Hr). Qed.

Lemma edge2_sign s f ext off e a w T :
  0 <= s -> 0 <= f -> 0 <= ext -> 0 <= off -> 0 <= e ->
  0 <= fsub rnd (fdiv rnd a w) (fmul rnd 0.5 T) -> 0 < fadd rnd (fdiv rnd a w) (fmul rnd 0.5 T) ->
  0 <= flt_edge2 rnd s f ext off e a w T /\ (0 < ext -> 0 < flt_edge2 rnd s f ext off e a w T).
Proof.
  intros Hs Hf He Ho Hed Hc Hd. unfold flt_edge2.
  set (c := fsub rnd _ _) in *. set (d := fadd rnd (fdiv rnd a w) _) in *.
  assert (A : 0 <= fmul rnd s f) by (apply rnd_nn, Rmult_le_pos; assumption).
  assert (B : 0 <= fmul rnd e c) by (apply rnd_nn, Rmult_le_pos; assumption).
  split.
  - apply rnd_nn. apply Rle_mult_inv_pos; [|exact Hd]. apply rnd_nn. apply Rplus_le_le_0_compat; [|exact B]. apply rnd_nn.
    apply Rplus_le_le_0_compat; [|exact Ho]. apply rnd_nn. lra.
  - intros Hx. apply rnd_pos. apply Rdiv_lt_0_compat; [|exact Hd]. apply rnd_pos. apply Rplus_lt_le_0_compat; [|exact B]. apply rnd_pos.
    apply Rplus_lt_le_0_compat; [|exact Ho]. apply rnd_pos. lra.
Qed.

(** one cell update *)
Lemma cell_sign (fl : vec) k w e1 e2 i0 : (forall i, 0 <= fl i) -> 0 <= w -> 0 <= e1 -> 0 <= e2 ->
  let fl' := upd fl k (fadd rnd (fl k) (fmul rnd (fmul rnd 0.5 w) (fadd rnd e1 e2))) in
  (forall i, 0 <= fl' i) /\ (0 < fl i0 -> 0 < fl' i0) /\ (k = i0 -> 0 < w -> 0 < e2 -> 0 < fl' i0).
Proof.
  intros Hf Hw H1 H2 fl'. subst fl'.
  assert (A : 0 <= fmul rnd (fmul rnd 0.5 w) (fadd rnd e1 e2)) by (apply rnd_nn, Rmult_le_pos; apply rnd_nn; lra).
  split; [|split].
  - intros i. unfold upd. destruct (Nat.eqb i k); [|apply Hf]. apply rnd_nn. specialize (Hf k). lra.
  - intros H. unfold upd. destruct (Nat.eqb_spec i0 k) as [-> |]; [|exact H]. apply rnd_pos. lra.
  - intros -> Pw P2. unfold upd. rewrite Nat.eqb_refl. apply rnd_pos. apply Rplus_le_lt_0_compat; [apply Hf|].
    apply rnd_pos. apply Rmult_lt_0_compat; apply rnd_pos; lra.
Qed.

Section Pass.
Variables (P : sn) (T s off : vec) (ext bnd : arr2).
Hypothesis Hnz : nonzero_ordinates (angles P) (mu P).
Hypothesis Ht : thin_mesh P T.
Hypothesis Hun : no_underflow rnd P.
Hypothesis Hs : forall i, (i < cells P)%nat -> 0 <= s (medium P i).
Hypothesis Hw : forall m, (m < angles P)%nat -> 0 <= wt P m.
Hypothesis Hd : nonneg_data P off ext bnd.
Variables (i0 m0 : nat).
Hypothesis Hi0 : (i0 < cells P)%nat.
Hypothesis Hm0 : (m0 < angles P)%nat.
Hypothesis Hw0 : 0 < wt P m0.
Hypothesis He0 : 0 < at2 ext i0 (bidx (cols2 ext) m0).

Lemma flt_pass_positive_at (fo : vec) (Hf : forall i, (i < cells P)%nat -> 0 <= fo i) flux : flt_iso_pass rnd P T s off ext bnd 0 fo = Ok flux -> 0 < flux i0.
Proof.
  intros E. destruct Hd as (He & Hb & Ho). unfold flt_iso_pass in E. apply bind_ok in E. destruct E as ([fl r] & E & X). injection X as <-.
  cbn [fst].
  pose (Inv := fun (m : nat) (st : vec * vec) => (forall i, 0 <= fst st i) /\ (forall i, 0 <= snd st i) /\ ((m0 < m)%nat -> 0 < fst st i0)).
  assert (HI : Inv (angles P) (fl, r)); [|apply HI; exact Hm0].
  revert E. apply (for_up_err_inv Inv).
  { split; [intros; cbn; unfold zeros; lra|]. split; [intros; cbn; unfold zeros; lra|]. intros H; lia. }
  intros m [f0 r0] [f1 r1] Hm (F0 & R0 & P0) E. cbn [fst snd] in *.
  assert (HC := thin_coefficients rnd Hr P T s Ht Hun Hs m).
  assert (Hbm := Hb m Hm). unfold boundary_in in Hbm.
  assert (Corr : forall e, 0 <= e -> forall i, 0 <= reflector_corrector P r0 e m i).
  { intros e Pe i. unfold reflector_corrector. destruct (orb _ _); [|apply R0]. unfold upd. destruct (Nat.eqb i _); [exact Pe|apply R0]. }
  pose (J := fun (done : nat -> Prop) (st : R * vec) => 0 <= fst st /\ (forall i, 0 <= snd st i) /\
     ((0 < f0 i0 \/ (m = m0 /\ done i0)) -> 0 < snd st i0)).
  assert (Step : forall k a (done done' : nat -> Prop) st, (k < cells P)%nat -> a = Rabs (mu P m) ->
     (forall i, done' i -> done i \/ i = k) -> J done st ->
     J done' (let '(edge1, flux) := st in
       let e2 := flt_edge2 rnd (s (medium P k)) (fo k) (at2 ext k (bidx (cols2 ext) m)) (off k) edge1 a (dx P k) (T (medium P k)) in
       (e2, upd flux k (fadd rnd (flux k) (fmul rnd (fmul rnd 0.5 (wt P m)) (fadd rnd edge1 e2)))))).
  { intros k a done done' [e f] Hk -> Hdd (Je & Jf & Jp). cbn [fst snd] in *. destruct (HC k Hm Hk) as (C1 & C2 & C3).
    destruct (edge2_sign (s (medium P k)) (fo k) (at2 ext k (bidx (cols2 ext) m)) (off k) e (Rabs (mu P m)) (dx P k) (T (medium P k))
      C1 (Hf k Hk) (He k m Hk Hm) (Ho k Hk) Je C2 C3) as (S1 & S2).
    destruct (cell_sign f k (wt P m) e _ i0 Jf (Hw m Hm) Je S1) as (D1 & D2 & D3).
    split; [exact S1|]. split; [exact D1|]. intros [H|(-> & H)]; cbn [snd].
    - apply D2, Jp. left; exact H.
    - destruct (Hdd _ H) as [H'|H'].
      + apply D2, Jp. right. split; [reflexivity|exact H'].
      + subst k. apply D3; [reflexivity|exact Hw0|]. apply S2. exact He0. }
  destruct (Rlt_dec 0 (mu P m)) as [Hp|Hp]; [|destruct (Rlt_dec (mu P m) 0) as [Hn|Hn]; [|discriminate]].
  - unfold flt_forward_iso in E. cbn [Nat.eqb] in E.
    match type of E with context [for_up (cells P) ?b ?s0] => assert (HJ : J (fun i => (i < cells P)%nat) (for_up (cells P) b s0)) end.
    { apply (for_up_inv (fun k => J (fun i => (i < k)%nat))).
      - split; [cbn; apply rnd_nn; specialize (R0 m); lra|]. split; [exact F0|]. intros [H|(_ & H)]; [exact H|lia].
      - intros k [e f] Hk HJ. cbv zeta. apply (Step k (mu P m) (fun i => (i < k)%nat) (fun i => (i < S k)%nat) (e, f) Hk); [rewrite Rabs_right; lra|intros; lia|exact HJ]. }
    destruct (for_up (cells P) _ _) as [e f]. injection E as <- <-. destruct HJ as (J1 & J2 & J3). cbn [fst snd] in *.
    split; [exact J2|]. split; [apply Corr; exact J1|]. intros Hlt. apply J3.
    destruct (Nat.eq_dec m m0) as [->|Ne]; [right; split; [reflexivity|exact Hi0]|left; apply P0; lia].
  - unfold flt_backward_iso in E. cbn [Nat.eqb] in E.
    match type of E with context [for_down (cells P) ?b ?s0] => assert (HJ : J (fun i => (i < cells P)%nat) (for_down (cells P) b s0)) end.
    { assert (G : forall n st, (n <= cells P)%nat -> J (fun i => (n <= i < cells P)%nat) st ->
        J (fun i => (i < cells P)%nat) (for_down n (fun ii st => let '(edge1, flux) := st in
           let e2 := flt_edge2 rnd (s (medium P ii)) (fo ii) (at2 ext ii (bidx (cols2 ext) m)) (off ii) edge1 (- mu P m) (dx P ii) (T (medium P ii)) in
           (e2, upd flux ii (fadd rnd (flux ii) (fmul rnd (fmul rnd 0.5 (wt P m)) (fadd rnd edge1 e2))))) st)).
      { induction n as [|n IH]; intros st Hn' HJ; cbn [for_down].
        - destruct HJ as (J1 & J2 & J3). split; [exact J1|]. split; [exact J2|]. intros [H|(H1 & H2)]; apply J3; [left; exact H|right; split; [exact H1|lia]].
        - apply IH; [lia|]. apply (Step n (- mu P m) (fun i => (S n <= i < cells P)%nat) (fun i => (n <= i < cells P)%nat) st); [lia|rewrite Rabs_left; lra|intros; lia|exact HJ]. }
      apply (G (cells P)); [lia|]. split; [cbn; apply rnd_nn; specialize (R0 m); lra|]. split; [exact F0|]. intros [H|(_ & H)]; [exact H|lia]. }
    destruct (for_down (cells P) _ _) as [e f]. injection E as <- <-. destruct HJ as (J1 & J2 & J3). cbn [fst snd] in *.
    split; [exact J2|]. split; [apply Corr; exact J1|]. intros Hlt. apply J3.
    destruct (Nat.eq_dec m m0) as [->|Ne]; [right; split; [reflexivity|exact Hi0]|left; apply P0; lia].
Qed.

Lemma flt_driver_positive norm (fo : vec) (Hf : forall i, (i < cells P)%nat -> 0 <= fo i) flux : flt_isotropic_sn rnd norm P fo T s off ext bnd 0 = Ok flux -> 0 < flux i0.
Proof.
  intros E. unfold flt_isotropic_sn in E. apply iterate_spec in E. destruct E as (m & x & H1 & _ & X0 & -> & HS & _).
  assert (N : forall k, (k <= m)%nat -> forall i, (i < cells P)%nat -> 0 <= x k i).
  { induction k as [|k IH]; intros Hk; [rewrite X0; exact Hf|]. specialize (HS k ltac:(lia)).
    destruct (flt_pass_nonneg rnd P T s off ext bnd 0 (x k) Hr Hnz Ht Hun Hs Hw Hd (IH ltac:(lia))) as (f' & E' & Pf).
    rewrite HS in E'. injection E' as <-. intros i _. apply Pf. }
  destruct m as [|m]; [lia|]. specialize (HS m ltac:(lia)). revert HS. generalize (x (S m)). intros f' E'.
  clear X0 H1. specialize (N m ltac:(lia)). revert E'. generalize dependent (x m). intros g N E'.
  exact (flt_pass_positive_at g N f' E').
Qed.
End Pass.

Section Groups.
Variables (norm : vec -> R) (normq : mat2 -> R) (P : sn) (groups : nat) (T : mat2) (s : mat3) (ext bnd : arr3).
Hypothesis Hnz : nonzero_ordinates (angles P) (mu P).
Hypothesis Ht : mg_thin P groups T.
Hypothesis Hun : no_underflow rnd P.
Hypothesis Hp : nonneg_problem P groups s ext bnd.
Variables (i0 m0 b : nat).
Hypothesis Hi0 : (i0 < cells P)%nat.
Hypothesis Hm0 : (m0 < angles P)%nat.
Hypothesis Hb0 : (b < groups)%nat.
Hypothesis Hw0 : 0 < wt P m0.
Hypothesis He0 : 0 < at3 ext i0 (bidx (d3b ext) m0) (bidx (d3c ext) b).

Lemma flt_off_nonneg (new old : mat2) gg : (gg < groups)%nat ->
  (forall i g, (i < cells P)%nat -> (g < groups)%nat -> 0 <= new i g) ->
  (forall i g, (i < cells P)%nat -> (g < groups)%nat -> 0 <= old i g) ->
  forall i, 0 <= flt_off_scatter rnd (cells P) groups new old (medium P) s gg i.
Proof.
  intros Hg Hn Ho. destruct Hp as (_ & Hs & _). unfold flt_off_scatter. apply (for_up_inv (fun _ f => forall i, 0 <= f i)); [intros; unfold zeros; lra|].
  intros ii f Hi Hf. cbv zeta. apply (for_up_inv (fun _ f => forall i, 0 <= f i)).
  - apply (for_up_inv (fun _ f => forall i, 0 <= f i)); [exact Hf|]. intros og f' Hog Hf' i. unfold upd. destruct (Nat.eqb i ii); [|apply Hf'].
    apply (pos_add rnd Hr); [apply Hf'|]. apply (pos_mul rnd Hr); [apply Hs; lia|apply Hn; lia].
  - intros k f' Hk Hf' i. unfold upd. destruct (Nat.eqb i ii); [|apply Hf'].
    apply (pos_add rnd Hr); [apply Hf'|]. apply (pos_mul rnd Hr); [apply Hs; lia|apply Ho; lia].
Qed.

Lemma flt_sweep_positive (fo f : mat2) : (forall i g, (i < cells P)%nat -> (g < groups)%nat -> 0 <= fo i g) ->
  flt_one_sweep rnd norm P groups T s ext bnd fo = Ok f ->
  (forall i g, (i < cells P)%nat -> (g < groups)%nat -> 0 <= f i g) /\ 0 < f i0 b.
Proof.
  intros Hfo E.
  pose (Inv := fun gg (f : mat2) => (forall i g, (i < cells P)%nat -> (g < groups)%nat -> 0 <= f i g) /\ ((b < gg)%nat -> 0 < f i0 b)).
  assert (HI : Inv groups f); [|split; [apply HI|apply HI; exact Hb0]].
  revert E. unfold flt_one_sweep. apply (for_up_err_inv Inv).
  - split; [intros; unfold zeros2; lra|intros; lia].
  - intros gg f0 f1 Hg (N & Q) E. cbv zeta in E. apply bind_ok in E. destruct E as (c & E & X). injection X as <-.
    destruct Hp as (Hw & Hs & He & Hb).
    assert (Hd : nonneg_data P (flt_off_scatter rnd (cells P) groups f0 fo (medium P) s gg) (slice3 ext (bidx (d3c ext) gg)) (slice3 bnd (bidx (d3c bnd) gg))).
    { split; [|split].
      - intros i m Hi Hm. apply He; assumption.
      - intros m Hm. apply (Hb m gg Hm Hg).
      - intros i _. apply flt_off_nonneg; assumption. }
    assert (Hs' : forall i, (i < cells P)%nat -> 0 <= s (medium P i) gg gg) by (intros; apply Hs; assumption).
    destruct (flt_driver_nonneg rnd norm P (fun m => T m gg) (fun m => s m gg gg) _ _ _ (fun i => fo i gg) Hr Hnz (Ht gg Hg) Hun Hs' Hw Hd
      (fun i Hi => Hfo i gg Hi Hg)) as (c' & E' & Nc).
    rewrite E in E'. injection E' as <-. split.
    + intros i g Hi Hgg. unfold set_col. destruct (Nat.eqb g gg); [apply Nc; exact Hi|apply N; assumption].
    + intros Hlt. unfold set_col. destruct (Nat.eqb_spec b gg) as [Eb|Ne]; [|apply Q; lia]. subst gg.
      exact (flt_driver_positive P (fun m => T m b) (fun m => s m b b) _ _ _ Hnz (Ht b Hg) Hun Hs' Hw Hd i0 m0 Hi0 Hm0 Hw0 He0 norm (fun i => fo i b)
        (fun i Hi => Hfo i b Hi Hg) c E).
Qed.

Lemma flt_outer_positive (fo : mat2) : (forall i g, (i < cells P)%nat -> (g < groups)%nat -> 0 <= fo i g) ->
  exists f, flt_source_iteration rnd norm normq P groups fo T s ext bnd = Ok f /\ (forall i g, (i < cells P)%nat -> (g < groups)%nat -> 0 <= f i g) /\ 0 < f i0 b.
Proof.
  intros Hfo. destruct (flt_outer_total rnd norm normq P groups fo T s ext bnd Hnz) as [f E]. exists f. split; [exact E|].
  unfold flt_source_iteration in E. apply iterate_spec in E. destruct E as (m & x & H1 & _ & X0 & -> & HS & _).
  assert (N : forall k, (k <= m)%nat -> (forall i g, (i < cells P)%nat -> (g < groups)%nat -> 0 <= x k i g) /\ ((0 < k)%nat -> 0 < x k i0 b)).
  { induction k as [|k IH]; intros Hk; [rewrite X0; split; [exact Hfo|lia]|].
    destruct (flt_sweep_positive (x k) (x (S k)) (proj1 (IH ltac:(lia))) (HS k ltac:(lia))) as (A & B). split; [exact A|intros _; exact B]. }
  destruct (N m ltac:(lia)) as (A & B). split; [exact A|apply B; lia].
Qed.
End Groups.

Section Power.
Variables (norm : vec -> R) (normq normf : mat2 -> R) (normk : R -> R) (P : sn) (groups : nat) (T : mat2) (s : mat3) (f : fission_data).
Hypothesis Hnz : nonzero_ordinates (angles P) (mu P).
Hypothesis Ht : mg_thin P groups T.
Hypothesis Hun : no_underflow rnd P.
Hypothesis Hw : forall m, (m < angles P)%nat -> 0 <= wt P m.
Hypothesis Hs : forall i g h, (i < cells P)%nat -> (g < groups)%nat -> (h < groups)%nat -> 0 <= s (medium P i) g h.
Hypothesis Hf : nonneg_fission (cells P) groups (medium P) f.
Variables (i0 m0 b : nat).
Hypothesis Hi0 : (i0 < cells P)%nat.
Hypothesis Hm0 : (m0 < angles P)%nat.
Hypothesis Hb0 : (b < groups)%nat.
Hypothesis Hw0 : 0 < wt P m0.
Hypothesis Hfis : 0 < fission_entry f (medium P i0) b b.
Hypothesis Hnf : forall v, v i0 b <> 0 -> 0 < normf v.
Hypothesis Hnk : forall k, 0 < k -> 0 < normk k.

Let good (v : mat2) : Prop := (forall i g, (i < cells P)%nat -> (g < groups)%nat -> 0 <= v i g) /\ 0 < v i0 b.

Lemma entry_nonneg i o h : (i < cells P)%nat -> (o < groups)%nat -> (h < groups)%nat -> 0 <= fission_entry f (medium P i) o h.
Proof.
  intros Hi Ho Hh. assert (F := Hf i o h Hi Ho Hh). destruct f as [xs|chi nu]; cbn in *; [exact F|]. apply Rmult_le_pos; apply F.
Qed.
Lemma emission_pos v : good v -> 0 < emission groups f (medium P) v i0 b.
Proof.
  intros (N & Q). unfold emission. apply Rlt_le_trans with (fission_entry f (medium P i0) b b * v i0 b); [apply Rmult_lt_0_compat; assumption|].
  apply (rsum_term_le groups (fun h => fission_entry f (medium P i0) b h * v i0 h) b); [|exact Hb0].
  intros h Hh. apply Rmult_le_pos; [apply entry_nonneg; assumption|apply N; assumption].
Qed.
Lemma production_pos v : good v -> 0 < production (cells P) groups f (medium P) v.
Proof.
  intros G. assert (E := emission_pos v G). destruct G as (N & Q).
  assert (Em : forall i o, (i < cells P)%nat -> (o < groups)%nat -> 0 <= emission groups f (medium P) v i o).
  { intros i o Hi Ho. apply rsum_nonneg. intros h Hh. apply Rmult_le_pos; [apply entry_nonneg; assumption|apply N; assumption]. }
  unfold production. apply Rlt_le_trans with (rsum groups (fun o => emission groups f (medium P) v i0 o)).
  - eapply Rlt_le_trans; [exact E|]. apply (rsum_term_le groups (fun o => emission groups f (medium P) v i0 o) b); [|exact Hb0]. intros; apply Em; assumption.
  - apply (rsum_term_le (cells P) (fun i => rsum groups (fun o => emission groups f (medium P) v i o)) i0); [|exact Hi0].
    intros i Hi. apply rsum_nonneg. intros; apply Em; assumption.
Qed.

Lemma flt_step_completes v k : good v -> 0 < k -> exists v' k',
  flt_power_step rnd norm normq normf P groups T s f (v, k) = Ok (v', k') /\ good v' /\ 0 < k'.
Proof.
  intros G Hk. assert (Em := emission_pos v G). assert (Pv := production_pos v G). destruct G as (N & Q).
  unfold flt_power_step.
  assert (exists src, flt_fission_source rnd (cells P) groups f (medium P) v k = Ok src) as (src & E1).
  { unfold flt_fission_source. destruct (Req_EM_T k 0); [lra|eexists; reflexivity]. }
  rewrite E1. cbn [bind]. assert (Hsrc := flt_source_pos rnd Hr _ _ _ _ Hf v k src N (Rlt_le _ _ Hk) E1).
  assert (Near := flt_source_near u rnd Hu Hrel (cells P) groups (medium P) f Hf v k src i0 b N (Rlt_le _ _ Hk) E1 Hi0 Hb0).
  assert (Ps : 0 < src i0 b).
  { eapply Rlt_le_trans; [|apply Near]. apply Rmult_lt_0_compat; [apply (low_pos u Hu)|]. apply Rdiv_lt_0_compat; assumption. }
  assert (Hpr : nonneg_problem P groups s (as_source groups src) no_boundary).
  { split; [exact Hw|]. split; [exact Hs|]. split.
    - intros m i g _ _ _. unfold as_source. cbn [at3]. apply Hsrc.
    - intros m g _ _. unfold mg_boundary, no_boundary. cbn [at3]. apply Rle_refl. }
  assert (He0 : 0 < at3 (as_source groups src) i0 (bidx (d3b (as_source groups src)) m0) (bidx (d3c (as_source groups src)) b)).
  { unfold as_source. cbn [at3 d3b d3c]. replace (bidx groups b) with b; [exact Ps|]. unfold bidx. destruct (Nat.eqb_spec groups 1); lia. }
  destruct (flt_outer_positive norm normq P groups T s (as_source groups src) no_boundary Hnz Ht Hun Hpr i0 m0 b Hi0 Hm0 Hb0 Hw0 He0 v N) as (fl & E2 & Nf & Qf).
  rewrite E2. cbn [bind].
  assert (exists k', flt_update_keff rnd (cells P) groups f (medium P) fl v k = Ok k') as (k' & E3).
  { unfold flt_update_keff. cbv zeta. rewrite rates_split by exact Hf. cbn [fst snd].
    assert (B := rate_near u rnd Hu Hrel (cells P) groups (medium P) f Hf v N). destruct B as (_ & B & _).
    assert (L := Rmult_lt_0_compat _ _ (low_pos u Hu (2 + cells P * (groups * groups))) Pv).
    destruct (Req_EM_T _ 0) as [Z|Z]; [lra|eexists; reflexivity]. }
  rewrite E3. cbn [bind]. assert (Nn : 0 < normf fl) by (apply Hnf; lra). destruct (Req_EM_T (normf fl) 0); [lra|].
  eexists _, k'. split; [reflexivity|]. split; [split|].
  - intros i g Hi Hg. apply (pos_div rnd Hr); [apply Nf; assumption|exact Nn].
  - apply rnd_pos. apply Rdiv_lt_0_compat; assumption.
  - destruct (flt_keff_near u rnd Hu Hrel (cells P) groups (medium P) f Hf fl v k k' Nf N (Rlt_le _ _ Hk) E3) as (_ & B & _).
    eapply Rlt_le_trans; [|exact B]. apply Rmult_lt_0_compat.
    + apply Rdiv_lt_0_compat; [apply (low_pos u Hu)|apply pow_lt; lra].
    + apply Rdiv_lt_0_compat; [|exact Pv]. apply Rmult_lt_0_compat; [exact Hk|]. apply production_pos. split; assumption.
Qed.

Lemma flt_power_completes_at guess : (forall i g, (i < cells P)%nat -> (g < groups)%nat -> 0 <= guess i g) -> 0 < guess i0 b ->
  exists flux k, flt_power_iteration rnd norm normq normf normk P groups T s f guess = Ok (flux, k) /\ 0 < k /\
    0 < flux i0 b /\ forall i g, (i < cells P)%nat -> (g < groups)%nat -> 0 <= flux i g.
Proof.
  intros N Q. unfold flt_power_iteration, flt_power_start. cbv zeta.
  assert (K : 0 < normf guess) by (apply Hnf; lra). assert (K2 := Hnk _ K). destruct (Req_EM_T (normk (normf guess)) 0); [lra|]. cbn [bind].
  pose (Inv := fun st : mat2 * R => good (fst st) /\ 0 < snd st).
  destruct (iterate_all Inv (flt_power_step rnd norm normq normf P groups T s f)
    (fun new old => flt_change2 rnd normq (cells P) groups (fst new) (fst old)) change_kk count_kk) with (fuel := count_kk) (count := 1%nat)
    (old := (fun i g => fdiv rnd (guess i g) (normk (normf guess)), normf guess)) as ([fl k] & E & (Nf & Qf) & Hk).
  - intros [v k] (G & Hk). destruct (flt_step_completes v k G Hk) as (v' & k' & E & G' & Hk'). exists (v', k'). split; [exact E|split; assumption].
  - split; [split|]; cbn [fst snd]; [|apply rnd_pos, Rdiv_lt_0_compat; assumption|exact K].
    intros i g Hi Hg. apply (pos_div rnd Hr); [apply N; assumption|exact K2].
  - unfold count_kk. lia.
  - exists fl, k. split; [exact E|]. split; [exact Hk|]. split; [exact Qf|exact Nf].
Qed.
End Power.
End Positive.

Lemma flt_power_completes u rnd norm normq normf normk P groups T s f guess i0 b m0 :
  0 <= u <= / 1000 -> relative_rounding u rnd -> correct_rounding rnd ->
  nonzero_ordinates (angles P) (mu P) -> mg_thin P groups T ->
  (forall m, (m < angles P)%nat -> 0 <= wt P m) ->
  (forall i g h, (i < cells P)%nat -> (g < groups)%nat -> (h < groups)%nat -> 0 <= s (medium P i) g h) ->
  nonneg_fission (cells P) groups (medium P) f ->
  (i0 < cells P)%nat -> (b < groups)%nat -> (m0 < angles P)%nat -> 0 < wt P m0 ->
  0 < fission_entry f (medium P i0) b b ->
  (forall v, v i0 b <> 0 -> 0 < normf v) -> (forall k, 0 < k -> 0 < normk k) ->
  (forall i g, (i < cells P)%nat -> (g < groups)%nat -> 0 <= guess i g) -> 0 < guess i0 b ->
  exists flux k, flt_power_iteration rnd norm normq normf normk P groups T s f guess = Ok (flux, k) /\ 0 < k /\
    0 < flux i0 b /\ forall i g, (i < cells P)%nat -> (g < groups)%nat -> 0 <= flux i g.
Proof.
  intros Hu Hrel Hr Hnz Ht Hw Hs Hf Hi Hb Hm Hw0 Hfis Hnf Hnk N Q.
  assert (Hun : no_underflow rnd P).
  { intros m i Hmm Hii. apply (rnd_pos u rnd Hu Hrel). apply Rdiv_lt_0_compat; [apply Rabs_pos_lt, Hnz; exact Hmm|apply (Ht b Hb m i Hmm Hii)]. }
  exact (flt_power_completes_at u rnd Hu Hrel Hr norm normq normf normk P groups T s f Hnz Ht Hun Hw Hs Hf i0 m0 b Hi Hm Hb Hw0 Hfis Hnf Hnk guess N Q).
Qed.
