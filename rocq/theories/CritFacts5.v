(** The fundamental mode: comparison of generations, uniqueness and dominance of k. *)
From Coq Require Import Lra Lia Psatz.
From Verif Require Import Base BaseFacts Contraction SlabModel SlabSpec SlabFacts SlabFacts2 SlabFacts3 SlabFacts4.
From Verif Require Import MgModel MgSpec MgFacts MgFacts2 MgFacts3 MgFacts5 MgFacts6 SupSpec SupFacts SupFacts2 CritModel CritSpec CritFacts CritFacts2.
Open Scope R_scope.

Definition iso3 (groups : nat) (s : mat2) : arr3 := mkArr3 1 groups (fun i _ g => s i g).
Definition dark : arr3 := mkArr3 1 1 (fun _ _ _ => 0).

Lemma iso3_at G s i m g : (g < G)%nat -> at3 (iso3 G s) i (bidx (d3b (iso3 G s)) m) (bidx (d3c (iso3 G s)) g) = s i g.
Proof.
  intros Hg. cbn [iso3 at3 d3b d3c]. change (s i (bidx G g) = s i g). unfold bidx. destruct (Nat.eqb_spec G 1); [|reflexivity].
  replace g with 0%nat by lia. reflexivity.
Qed.
Lemma dark_boundary mu g m : mg_boundary dark mu g m = 0.
Proof. reflexivity. Qed.

(** *** linear combinations *)
Lemma solution_lin P G T X s1 s2 f1 f2 a b :
  mg_solution P G T X (iso3 G s1) dark f1 -> mg_solution P G T X (iso3 G s2) dark f2 ->
  mg_solution P G T X (iso3 G (fun i g => a * s1 i g + b * s2 i g)) dark (fun i g => a * f1 i g + b * f2 i g).
Proof.
  intros [p1 H1] [p2 H2]. exists (fun g m k => a * p1 g m k + b * p2 g m k). intros g Hg.
  destruct (H1 g Hg) as (A1 & B1 & C1). destruct (H2 g Hg) as (A2 & B2 & C2). split; [|split].
  - intros m Hm i Hi. specialize (A1 m Hm i Hi). specialize (A2 m Hm i Hi). cbv beta in *.
    unfold mg_source in *. rewrite iso3_at in * by exact Hg.
    rewrite (rsum_ext G (fun h => X (medium P i) g h * (a * f1 i h + b * f2 i h))
      (fun h => a * (X (medium P i) g h * f1 i h) + b * (X (medium P i) g h * f2 i h))) by (intros; ring).
    rewrite rsum_plus, !rsum_scal. apply (f_equal (Rmult a)) in A1. apply (f_equal (Rmult b)) in A2.
    unfold Rdiv in *. lra.
  - intros m Hm. rewrite (B1 m Hm), (B2 m Hm), !dark_boundary. unfold reflected_in. destruct (_ && _)%bool; ring.
  - intros i Hi. rewrite (C1 i Hi), (C2 i Hi), <- !rsum_scal, <- rsum_plus. apply rsum_ext. intros. unfold Rdiv. ring.
Qed.

Lemma solution_ext P G T X s1 s2 b f1 f2 :
  (forall i g, (i < cells P)%nat -> (g < G)%nat -> s1 i g = s2 i g) -> agree2 (cells P) G f1 f2 ->
  mg_solution P G T X (iso3 G s1) b f1 -> mg_solution P G T X (iso3 G s2) b f2.
Proof.
  intros Hs Hf [psi H]. exists psi. intros g Hg. specialize (H g Hg).
  eapply transport_phi_ext; [intros i Hi; apply Hf; assumption|].
  eapply transport_ext; [| |exact H]; [|reflexivity].
  intros m i Hm Hi. unfold mg_source. rewrite !iso3_at, Hs by assumption. f_equal.
  apply rsum_ext. intros h Hh. rewrite (Hf i h Hi Hh). reflexivity.
Qed.

(** *** nonnegative sources have nonnegative solutions *)
Lemma sweep_keeps_nonneg P groups xs_total xs_scatter external boundary old new :
  nonzero_ordinates (angles P) (mu P) ->
  mg_thin P groups xs_total ->
  (forall m, (m < angles P)%nat -> 0 <= wt P m) ->
  (forall i g h, (i < cells P)%nat -> (g < groups)%nat -> (h < groups)%nat -> 0 <= xs_scatter (medium P i) g h) ->
  (forall m i g, (m < angles P)%nat -> (i < cells P)%nat -> (g < groups)%nat ->
      0 <= at3 external i (bidx (d3b external) m) (bidx (d3c external) g)) ->
  (forall m g, (m < angles P)%nat -> (g < groups)%nat -> 0 <= mg_boundary boundary (mu P) g m) ->
  (forall i g, (i < cells P)%nat -> (g < groups)%nat -> 0 <= old i g) ->
  one_sweep_iso P groups xs_total xs_scatter external boundary 1 old = Ok new ->
  forall i g, (i < cells P)%nat -> (g < groups)%nat -> 0 <= new i g.
Proof.
  intros Hnz Hthin Hw Hs He Hb Ho E.
  destruct (one_sweep_groups _ _ _ _ _ _ _ _ E) as [Hg _].
  assert (G : forall g, (g < groups)%nat -> forall i, (i < cells P)%nat -> 0 <= new i g).
  { intros g. induction g as [g IHg] using (well_founded_induction lt_wf). intros Hgg.
    specialize (Hg g Hgg). unfold slab_group in Hg.
    destruct (Nat.eq_dec (angles P) 0) as [Ha|Ha].
    - destruct (driver_last_pass _ _ _ _ _ _ _ _ _ Hg) as [prev Ep].
      rewrite slab_iso_pass_ok in Ep by assumption. injection Ep as Ep. intros i Hi.
      apply (f_equal (fun f => f i)) in Ep. rewrite Ha in Ep. cbn in Ep. rewrite <- Ep. lra.
    - eapply (driver_nonneg P (fun m => xs_total m g) (fun m => xs_scatter m g g)); [exact Hnz|exact Hw| | | |exact Hg].
      + intros i Hi. destruct (Hthin g Hgg 0%nat i ltac:(lia) Hi) as (A & B & _).
        repeat split; [exact A|exact B|apply Hs; assumption| |apply Ho; assumption].
        unfold gs_off. rewrite (proj2 (Nat.ltb_lt i (cells P))) by lia.
        apply rsum_nonneg. intros h Hh. destruct (Nat.eqb_spec h g); [lra|].
        apply Rmult_le_pos; [apply Hs; assumption|].
        destruct (Nat.ltb_spec h g); [apply IHg; assumption|apply Ho; assumption].
      + intros m i Hm Hi. destruct (Hthin g Hgg m i Hm Hi) as (_ & _ & C). split; [exact C|].
        apply He; assumption.
      + intros m Hm. apply (Hb m g Hm Hgg). }
  intros i g Hi Hgg. apply G; assumption.
Qed.

Lemma solution_nonneg P G T X external boundary sol :
  damped_transport P G T X ->
  (forall m i g, (m < angles P)%nat -> (i < cells P)%nat -> (g < G)%nat ->
      0 <= at3 external i (bidx (d3b external) m) (bidx (d3c external) g)) ->
  (forall m g, (m < angles P)%nat -> (g < G)%nat -> 0 <= mg_boundary boundary (mu P) g m) ->
  mg_solution P G T X external boundary sol ->
  forall i g, (i < cells P)%nat -> (g < G)%nat -> 0 <= sol i g.
Proof.
  intros (Hnz & Ht & Hw & Hs & c & p & Hc & HD) He Hb Hsol i g Hi Hg.
  exact (damped_nonneg P G T X c p (conj Hnz (conj Ht Hw)) Hc HD external boundary sol Hs He Hb Hsol i g Hi Hg).
Qed.

(** *** comparison *)
Lemma solution_compare P G T X s1 s2 f1 f2 : damped_transport P G T X ->
  below2 (cells P) G s1 s2 ->
  mg_solution P G T X (iso3 G s1) dark f1 -> mg_solution P G T X (iso3 G s2) dark f2 -> below2 (cells P) G f1 f2.
Proof.
  intros HD Hs H1 H2 i g Hi Hg.
  pose proof (solution_lin P G T X s2 s1 f2 f1 1 (-1) H2 H1) as H.
  assert (0 <= 1 * f2 i g + -1 * f1 i g); [|lra].
  revert i g Hi Hg. apply (solution_nonneg P G T X _ _ _ HD) with (3 := H).
  - intros m i g Hm Hi Hg. rewrite iso3_at by exact Hg. specialize (Hs i g Hi Hg). lra.
  - intros m g Hm Hg. rewrite dark_boundary. lra.
Qed.

Lemma emission_lin G f med v1 v2 a b i g :
  emission G f med (fun i g => a * v1 i g + b * v2 i g) i g = a * emission G f med v1 i g + b * emission G f med v2 i g.
Proof. unfold emission. rewrite <- !rsum_scal, <- rsum_plus. apply rsum_ext. intros; ring. Qed.
Lemma emission_entry cells G med f i o h : nonneg_fission cells G med f -> (i < cells)%nat -> (o < G)%nat -> (h < G)%nat ->
  0 <= fission_entry f (med i) o h.
Proof.
  intros Hn Hi Ho Hh. specialize (Hn i o h Hi Ho Hh). destruct f; [exact Hn|]. destruct Hn. apply Rmult_le_pos; assumption.
Qed.
Lemma emission_mono cells G med f v w : nonneg_fission cells G med f -> below2 cells G v w ->
  below2 cells G (emission G f med v) (emission G f med w).
Proof.
  intros Hn H i g Hi Hg. apply rsum_le. intros h Hh. apply Rmult_le_compat_l; [|apply H; assumption].
  eapply emission_entry; eassumption.
Qed.

(** the largest ratio u / v, attained *)
Lemma ratio_max n G (u v : mat2) : (0 < n)%nat -> (0 < G)%nat -> positive2 n G v ->
  exists c i0 g0, (i0 < n)%nat /\ (g0 < G)%nat /\ u i0 g0 = c * v i0 g0 /\ forall i g, (i < n)%nat -> (g < G)%nat -> u i g <= c * v i g.
Proof.
  intros Hn HG Hv.
  assert (M : forall k, (0 < k)%nat -> forall r : nat -> R, exists i, (i < k)%nat /\ forall j, (j < k)%nat -> r j <= r i).
  { induction k as [|k IH]; intros Hk r; [lia|]. destruct (Nat.eq_dec k 0) as [-> |Hk0].
    - exists 0%nat. split; [lia|]. intros j Hj. replace j with 0%nat by lia. lra.
    - destruct (IH ltac:(lia) r) as (i & Hi & Hm). destruct (Rle_dec (r k) (r i)) as [L|L].
      + exists i. split; [lia|]. intros j Hj. destruct (Nat.eq_dec j k) as [-> |]; [exact L|apply Hm; lia].
      + exists k. split; [lia|]. intros j Hj. destruct (Nat.eq_dec j k) as [-> |]; [lra|]. specialize (Hm j ltac:(lia)). lra. }
  destruct (M (n * G)%nat ltac:(nia) (fun q => u (q / G)%nat (q mod G)%nat / v (q / G)%nat (q mod G)%nat)) as (q & Hq & Hm).
  assert (Hi0 : (q / G < n)%nat) by (apply Nat.div_lt_upper_bound; lia).
  assert (Hg0 : (q mod G < G)%nat) by (apply Nat.mod_upper_bound; lia).
  exists (u (q / G)%nat (q mod G)%nat / v (q / G)%nat (q mod G)%nat), (q / G)%nat, (q mod G)%nat. split; [exact Hi0|]. split; [exact Hg0|].
  pose proof (Hv _ _ Hi0 Hg0). split; [field; lra|]. intros i g Hi Hg.
  specialize (Hm (i * G + g)%nat ltac:(nia)). cbv beta in Hm.
  replace ((i * G + g) / G)%nat with i in Hm by (rewrite Nat.div_add_l, Nat.div_small; lia).
  replace ((i * G + g) mod G)%nat with g in Hm by (rewrite Nat.add_comm, Nat.mod_add, Nat.mod_small; lia).
  specialize (Hv i g Hi Hg). apply (Rmult_le_compat_r (v i g)) in Hm; [|lra].
  replace (u i g / v i g * v i g) with (u i g) in Hm by (field; lra). exact Hm.
Qed.

Section Modes.
Variables (P : sn) (G : nat) (T : mat2) (X : mat3).
Hypothesis HD : damped_transport P G T X.
Let gen := next_generation P G T X.
Let n := cells P.

Lemma generation_scale f v w c : gen f v w -> gen f (fun i g => c * v i g) (fun i g => c * w i g).
Proof.
  intros H. apply (solution_ext P G T X (fun i g => c * emission G f (medium P) v i g + 0 * emission G f (medium P) v i g) _ dark (fun i g => c * w i g + 0 * w i g)).
  - intros i g _ _. rewrite <- emission_lin. unfold emission. apply rsum_ext. intros; ring.
  - intros i g _ _. ring.
  - apply solution_lin; exact H.
Qed.
Lemma generation_compare f f' v v' w w' :
  below2 n G (emission G f (medium P) v) (emission G f' (medium P) v') -> gen f v w -> gen f' v' w' -> below2 n G w w'.
Proof. intros He H1 H2. exact (solution_compare P G T X _ _ _ _ HD He H1 H2). Qed.
Lemma generation_mono f v v' w w' : nonneg_fission n G (medium P) f ->
  below2 n G v v' -> gen f v w -> gen f v' w' -> below2 n G w w'.
Proof. intros Hn Hv. apply generation_compare. apply emission_mono; assumption. Qed.
Lemma generation_exists f v : exists w, gen f v w.
Proof.
  destruct HD as (Hnz & Ht & Hw & Hs & c & p & Hc & Hp).
  destruct (damped_unique P G T X c p (conj Hnz (conj Ht Hw)) Hc Hp (iso3 G (emission G f (medium P) v)) dark) as (w & H & _). eauto.
Qed.
Lemma eigenpair_generation f phi k : k <> 0 -> eigenpair P G T X f phi k -> gen f phi (fun i g => k * phi i g).
Proof.
  intros Hk H. apply (solution_ext P G T X (fun i g => k * (emission G f (medium P) phi i g / k) + 0 * (emission G f (medium P) phi i g / k)) _ dark (fun i g => k * phi i g + 0 * phi i g)).
  - intros i g _ _. field. exact Hk.
  - intros i g _ _. ring.
  - apply (solution_lin P G T X (fun i g => emission G f (medium P) phi i g / k) (fun i g => emission G f (medium P) phi i g / k)); exact H.
Qed.

(** *** brackets *)
Theorem mode_bracket f phi k v w a b : (0 < n)%nat -> (0 < G)%nat -> nonneg_fission n G (medium P) f ->
  0 < k -> positive2 n G phi -> eigenpair P G T X f phi k ->
  positive2 n G v -> gen f v w ->
  (below2 n G (fun i g => a * v i g) w -> a <= k) /\ (below2 n G w (fun i g => b * v i g) -> k <= b).
Proof.
  intros Hn HG Hf Hk Hphi He Hv Hw. apply eigenpair_generation in He; [|lra]. split; intros Hb.
  - destruct (ratio_max n G v phi Hn HG Hphi) as (c & i & g & Hi & Hg & Eq & Hc).
    pose proof (Hv i g Hi Hg). pose proof (Hphi i g Hi Hg). assert (0 < c) by nra.
    pose proof (generation_mono f v (fun i g => c * phi i g) w (fun i g => c * (k * phi i g)) Hf Hc Hw (generation_scale _ _ _ c He) i g Hi Hg) as L.
    specialize (Hb i g Hi Hg). cbv beta in L, Hb. apply (Rmult_le_reg_r (v i g)); [assumption|].
    replace (k * v i g) with (c * (k * phi i g)) by (rewrite Eq; ring). lra.
  - destruct (ratio_max n G phi v Hn HG Hv) as (c & i & g & Hi & Hg & Eq & Hc).
    pose proof (Hv i g Hi Hg). pose proof (Hphi i g Hi Hg). assert (0 < c) by nra.
    pose proof (generation_mono f phi (fun i g => c * v i g) _ (fun i g => c * w i g) Hf Hc He (generation_scale _ _ _ c Hw) i g Hi Hg) as L.
    specialize (Hb i g Hi Hg). cbv beta in L, Hb. apply (Rmult_le_reg_r (phi i g)); [assumption|].
    eapply Rle_trans; [exact L|]. replace (b * phi i g) with (c * (b * v i g)) by (rewrite Eq; ring).
    apply Rmult_le_compat_l; lra.
Qed.
Theorem mode_unique f phi k phi' k' : (0 < n)%nat -> (0 < G)%nat -> nonneg_fission n G (medium P) f ->
  0 < k -> positive2 n G phi -> eigenpair P G T X f phi k ->
  0 < k' -> positive2 n G phi' -> eigenpair P G T X f phi' k' -> k = k'.
Proof.
  intros Hn HG Hf Hk Hphi He Hk' Hphi' He'.
  destruct (mode_bracket f phi k phi' (fun i g => k' * phi' i g) k' k' Hn HG Hf Hk Hphi He Hphi' (eigenpair_generation f phi' k' ltac:(lra) He')) as [A B].
  apply Rle_antisym; [apply B|apply A]; intros i g _ _; lra.
Qed.
Theorem mode_dominant f phi k psi l : (0 < n)%nat -> (0 < G)%nat -> nonneg_fission n G (medium P) f ->
  0 < k -> positive2 n G phi -> eigenpair P G T X f phi k ->
  l <> 0 -> eigenpair P G T X f psi l -> (exists i g, (i < n)%nat /\ (g < G)%nat /\ psi i g <> 0) ->
  Rabs l <= k.
Proof.
  intros Hn HG Hf Hk Hphi He Hl Hp (i1 & g1 & Hi1 & Hg1 & Hne).
  apply eigenpair_generation in He; [|lra]. apply eigenpair_generation in Hp; [|exact Hl].
  destruct (ratio_max n G (fun i g => Rabs (psi i g)) phi Hn HG Hphi) as (c & i & g & Hi & Hg & Eq & Hc). cbv beta in Eq.
  pose proof (Hphi i g Hi Hg) as Hpos.
  assert (Hc0 : 0 < c).
  { specialize (Hc i1 g1 Hi1 Hg1). cbv beta in Hc. apply Rabs_pos_lt in Hne. specialize (Hphi i1 g1 Hi1 Hg1). nra. }
  assert (B1 : below2 n G psi (fun i g => c * phi i g)).
  { intros i' g' Hi' Hg'. eapply Rle_trans; [apply Rle_abs|apply Hc; assumption]. }
  assert (B2 : below2 n G (fun i g => -1 * psi i g) (fun i g => c * phi i g)).
  { intros i' g' Hi' Hg'. replace (-1 * psi i' g') with (- psi i' g') by ring. eapply Rle_trans; [apply Rle_abs|]. rewrite Rabs_Ropp. apply Hc; assumption. }
  pose proof (generation_mono f _ _ _ _ Hf B1 Hp (generation_scale _ _ _ c He) i g Hi Hg) as L1.
  pose proof (generation_mono f _ _ _ _ Hf B2 (generation_scale _ _ _ (-1) Hp) (generation_scale _ _ _ c He) i g Hi Hg) as L2.
  cbv beta in L1, L2. assert (L : Rabs (l * psi i g) <= c * (k * phi i g)) by (unfold Rabs; destruct (Rcase_abs _); lra).
  rewrite Rabs_mult, Eq in L. apply (Rmult_le_reg_r (c * phi i g)); [nra|]. lra.
Qed.
Theorem mode_monotone f f' phi k phi' k' : (0 < n)%nat -> (0 < G)%nat ->
  nonneg_fission n G (medium P) f ->
  (forall i o h, (i < n)%nat -> (o < G)%nat -> (h < G)%nat -> fission_entry f (medium P i) o h <= fission_entry f' (medium P i) o h) ->
  0 < k -> positive2 n G phi -> eigenpair P G T X f phi k ->
  0 < k' -> positive2 n G phi' -> eigenpair P G T X f' phi' k' -> k <= k'.
Proof.
  intros Hn HG Hf Hff Hk Hphi He Hk' Hphi' He'.
  apply eigenpair_generation in He; [|lra]. apply eigenpair_generation in He'; [|lra].
  destruct (ratio_max n G phi phi' Hn HG Hphi') as (c & i & g & Hi & Hg & Eq & Hc).
  pose proof (Hphi i g Hi Hg). pose proof (Hphi' i g Hi Hg). assert (Hc0 : 0 < c) by nra.
  assert (B : below2 n G (emission G f (medium P) phi) (emission G f' (medium P) (fun i g => c * phi' i g))).
  { intros i' g' Hi' Hg'. eapply Rle_trans; [apply (emission_mono n G (medium P) f phi (fun i g => c * phi' i g) Hf Hc); assumption|].
    apply rsum_le. intros h Hh. apply Rmult_le_compat_r; [|apply Hff; assumption]. specialize (Hphi' i' h Hi' Hh). nra. }
  pose proof (generation_compare f f' _ _ _ _ B He (generation_scale _ _ _ c He') i g Hi Hg) as L. cbv beta in L.
  apply (Rmult_le_reg_r (phi i g)); [assumption|]. eapply Rle_trans; [exact L|]. right. rewrite Eq. ring.
Qed.
(** brackets of successive generations are nested *)
Theorem bracket_nested f v w u a b : nonneg_fission n G (medium P) f -> gen f v w -> gen f w u ->
  (below2 n G (fun i g => a * v i g) w -> below2 n G (fun i g => a * w i g) u) /\
  (below2 n G w (fun i g => b * v i g) -> below2 n G u (fun i g => b * w i g)).
Proof.
  intros Hf H1 H2. split; intros Hb.
  - exact (generation_mono f _ _ _ _ Hf Hb (generation_scale _ _ _ a H1) H2).
  - exact (generation_mono f _ _ _ _ Hf Hb H2 (generation_scale _ _ _ b H1)).
Qed.
End Modes.
