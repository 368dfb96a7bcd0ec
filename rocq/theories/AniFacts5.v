(** The anisotropic drivers approach the exact solution. *)
From Coq Require Import Lra Lia Psatz.
From Verif Require Import Base BaseFacts SlabModel SlabSpec SlabFacts SlabFacts2 SlabFacts3 SlabFacts4 SlabFacts5 MgModel MgSpec MgFacts MgFacts3 MgFacts7
  TimeModel TimeSpec EnSpec EnFacts EnFacts2 EnFacts4 EnFacts6 InfSpec AniSpec AniFacts AniFacts2 AniFacts3 AniFacts4.
Open Scope R_scope.

Lemma within_energy P nm sigma (x e : mat2) psi phi c :
  sound_slab P -> exact_products P nm -> (forall i, (i < cells P)%nat -> 0 <= sigma (medium P i)) -> 0 <= c ->
  (forall i l, (i < cells P)%nat -> (l < nm)%nat -> Rabs (x i l) <= c * sigma (medium P i)) ->
  slab_transport (cells P) (angles P) (mu P) (wt P) (dx P) (fun i => sigma (medium P i))
    (fun m i => rsum nm (fun l => ((2 * INR l + 1) * x i l * e i l) * legendre l (mu P m)))
    (fun m => reflected_in (cells P) (angles P) (mu P) (bc_left P) (bc_right P) psi m) psi phi ->
  moment_norm P nm sigma (edge_moment P psi) <= c * moment_norm P nm sigma e.
Proof.
  intros HP HX Hs Hc Hx T. pose proof HP as (Hdx & _).
  pose proof (moment_energy P sigma nm (fun i l => (2 * INR l + 1) * x i l * e i l) psi phi HP HX Hs T) as E.
  apply step_root1; [apply sqrt_pos|apply Rmult_le_pos; [exact Hc|apply sqrt_pos]|].
  rewrite (moment_sq P nm sigma Hdx Hs). eapply Rle_trans; [exact E|].
  rewrite Rmult_assoc.
  set (k := fun i l => dx P i * sigma (medium P i) * (2 * INR l + 1)).
  assert (K0 : forall i l, (i < cells P)%nat -> (l < nm)%nat -> 0 <= k i l) by (intros i l Hi Hl; apply (moment_weight P sigma Hdx Hs i l Hi)).
  pose proof (double_cauchy (cells P) nm k (fun i l => Rabs (e i l)) (fun i l => Rabs (edge_moment P psi i l)) K0) as C. cbv beta in C.
  assert (F : forall f : mat2, rsum (cells P) (fun i => rsum nm (fun l => k i l * Rsqr (Rabs (f i l)))) = rsum (cells P) (fun i => rsum nm (fun l => k i l * Rsqr (f i l)))).
  { intros f. apply rsum_ext; intros i Hi. apply rsum_ext; intros l Hl. rewrite <- Rsqr_abs. reflexivity. }
  rewrite (F e), (F (edge_moment P psi)) in C.
  eapply Rle_trans; [|apply Rmult_le_compat_l; [exact Hc|exact C]].
  rewrite <- rsum_scal. apply rsum_le; intros i Hi. rewrite <- rsum_scal. apply rsum_le; intros l Hl.
  specialize (Hx i l Hi Hl). specialize (Hdx i Hi). pose proof (pos_INR l) as Pl. unfold k.
  replace (c * (dx P i * sigma (medium P i) * (2 * INR l + 1) * (Rabs (e i l) * Rabs (edge_moment P psi i l))))
    with (dx P i * ((2 * INR l + 1) * ((c * sigma (medium P i)) * (Rabs (e i l) * Rabs (edge_moment P psi i l))))) by ring.
  apply Rmult_le_compat_l; [lra|]. rewrite !Rmult_assoc. apply Rmult_le_compat_l; [lra|].
  eapply Rle_trans; [apply Rle_abs|]. rewrite !Rabs_mult.
  apply Rle_trans with (c * sigma (medium P i) * (Rabs (e i l) * Rabs (edge_moment P psi i l))); [|right; ring].
  apply Rmult_le_compat_r; [apply Rmult_le_pos; apply Rabs_pos|exact Hx].
Qed.

(** one pass of the driver *)
Lemma aniso_pass_step P nm xs_total (x : mat2) off external boundary leg legw old flux mom c psi sol :
  sound_slab P -> (0 < nm)%nat -> exact_products P nm -> (forall i, (i < cells P)%nat -> 0 <= xs_total (medium P i)) -> 0 <= c ->
  (forall i l, (i < cells P)%nat -> (l < nm)%nat -> Rabs (x i l) <= c * xs_total (medium P i)) ->
  legendre_tables P nm leg legw ->
  slab_transport (cells P) (angles P) (mu P) (wt P) (dx P) (fun i => xs_total (medium P i))
    (fun m i => rsum nm (fun l => (2 * INR l + 1) * x i l * edge_moment P psi i l * legendre l (mu P m))
       + at2 external i (bidx (cols2 external) m) + off i)
    (fun m => reflected_in (cells P) (angles P) (mu P) (bc_left P) (bc_right P) psi m + boundary_in boundary (mu P) m) psi sol ->
  slab_aniso_pass P nm xs_total (fun i l => x i l * (2 * INR l + 1)) off external boundary 0 leg legw old = Ok (flux, mom) ->
  moment_norm P nm xs_total (fun i l => mom i l - edge_moment P psi i l) <= c * moment_norm P nm xs_total (fun i l => snd old i l - edge_moment P psi i l)
  /\ (forall i, (i < cells P)%nat -> flux i = mom i 0%nat).
Proof.
  intros HP Hn HX Ht Hc Hx HL Hsol E. 
  assert (Hd : good_divisors P xs_total) by exact (sound_divisors P 1 (fun m _ => xs_total m) HP (fun i _ Hi _ => Ht i Hi) 0%nat Nat.lt_0_1).
  destruct (aniso_pass_transport P nm xs_total _ off external boundary leg legw old flux mom Hd E) as (p & T & M).
  assert (Mm : forall i l, (i < cells P)%nat -> (l < nm)%nat -> mom i l = edge_moment P p i l).
  { intros i l Hi Hl. rewrite M by exact Hi. apply rsum_ext. intros m Hm. destruct (HL l m Hl Hm) as [_ ->]. reflexivity. }
  split.
  - rewrite (moment_ext P nm xs_total _ (edge_moment P (fun m k => p m k - psi m k))) by (intros i l Hi Hl; rewrite edge_moment_minus, Mm by assumption; reflexivity).
    eapply (within_energy P nm xs_total x _ _ (fun i => flux i - sol i) c HP HX Ht Hc Hx).
    pose proof (transport_minus P (fun i => xs_total (medium P i)) _ _ (boundary_in boundary (mu P)) p psi flux sol T Hsol) as D.
    eapply transport_ext; [| |exact D]; [|reflexivity]. intros m i Hm Hi. cbv beta.
    symmetry. match goal with |- ?a = _ => transitivity (rsum nm (fun l => x i l * (2 * INR l + 1) * snd old i l * leg l m) - rsum nm (fun l => (2 * INR l + 1) * x i l * edge_moment P psi i l * legendre l (mu P m))) end; [|ring].
    rewrite <- rsum_minus. apply rsum_ext. intros l Hl. destruct (HL l m Hl Hm) as [-> _]. ring.
  - intros i Hi. rewrite Mm by assumption. symmetry. eapply moment_scalar; [exact T|exact Hi].
Qed.

Lemma within_group P nm flux_old xs_total (x : mat2) off external boundary leg legw flux c psi sol :
  sound_slab P -> (0 < nm)%nat -> exact_products P nm -> (forall i, (i < cells P)%nat -> 0 <= xs_total (medium P i)) -> 0 <= c ->
  (forall i l, (i < cells P)%nat -> (l < nm)%nat -> Rabs (x i l) <= c * xs_total (medium P i)) ->
  legendre_tables P nm leg legw ->
  slab_transport (cells P) (angles P) (mu P) (wt P) (dx P) (fun i => xs_total (medium P i))
    (fun m i => rsum nm (fun l => (2 * INR l + 1) * x i l * edge_moment P psi i l * legendre l (mu P m))
       + at2 external i (bidx (cols2 external) m) + off i)
    (fun m => reflected_in (cells P) (angles P) (mu P) (bc_left P) (bc_right P) psi m + boundary_in boundary (mu P) m) psi sol ->
  slab_anisotropic_sn P flux_old nm xs_total (fun i l => x i l * (2 * INR l + 1)) off external boundary 0 leg legw = Ok flux ->
  exists n, (1 <= n <= 100)%nat /\
    reaction_norm P xs_total (fun i => flux i - sol i)
      <= c ^ n * moment_norm P nm xs_total (fun i l => only_scalar flux_old i l - edge_moment P psi i l).
Proof.
  intros HP Hn HX Ht Hc Hx HL Hsol E. pose proof HP as (Hdx & _).
  destruct (aniso_driver_last _ _ _ _ _ _ _ _ _ _ _ _ E) as (n & s & Hr & H0 & Hf & Hstep & _). exists n. split; [exact Hr|].
  assert (S1 : forall k, (k < n)%nat -> moment_norm P nm xs_total (fun i l => snd (s (S k)) i l - edge_moment P psi i l) <= c * moment_norm P nm xs_total (fun i l => snd (s k) i l - edge_moment P psi i l)
     /\ (forall i, (i < cells P)%nat -> fst (s (S k)) i = snd (s (S k)) i 0%nat)).
  { intros k Hk. specialize (Hstep k Hk). destruct (s (S k)) as [f m] eqn:Es. cbn [fst snd].
    eapply aniso_pass_step; eassumption. }
  assert (G : forall k, (k <= n)%nat -> moment_norm P nm xs_total (fun i l => snd (s k) i l - edge_moment P psi i l) <= c ^ k * moment_norm P nm xs_total (fun i l => only_scalar flux_old i l - edge_moment P psi i l)).
  { induction k as [|k IH]; intros Hk.
    - rewrite H0. cbn [snd pow]. rewrite Rmult_1_l. right. reflexivity.
    - destruct (S1 k ltac:(lia)) as [A _]. eapply Rle_trans; [exact A|]. cbn [pow]. rewrite Rmult_assoc. apply Rmult_le_compat_l; [exact Hc|apply IH; lia]. }
  eapply Rle_trans; [|apply (G n (le_n n))].
  rewrite <- (reaction_ext P xs_total (fun i => (fun i l => snd (s n) i l - edge_moment P psi i l) i 0%nat)).
  - apply (scalar_below_moment P nm xs_total Hdx Ht (fun i l => snd (s n) i l - edge_moment P psi i l) Hn).
  - intros i Hi. cbv beta. rewrite (moment_scalar P _ _ _ _ _ Hsol i Hi), Hf. destruct n; [lia|]. destruct (S1 n ltac:(lia)) as [_ B]. rewrite B by exact Hi. reflexivity.
Qed.

(** *** one sweep over the groups *)
Definition aniso_group (P : sn) (groups nm : nat) (xs_total : mat2) (xs : mat4) (external boundary : arr3) (leg legw old flux : mat2) (gg : nat) : outcome vec :=
  slab_anisotropic_sn P (fun i => old i gg) nm (fun m => xs_total m gg) (fun x l => xs (medium P x) gg gg l * (2 * INR l + 1))
    (gs_off (cells P) groups flux old (medium P) (fun m o i => xs m o i 0%nat) gg) (slice3 external (bidx (d3c external) gg)) (slice3 boundary (bidx (d3c boundary) gg)) 0 leg legw.

Lemma aniso_sweep_groups P groups nm xs_total xs external boundary leg legw old new :
  one_sweep_aniso P groups nm xs_total xs external boundary 1 leg legw old = Ok new ->
  (forall gg, (gg < groups)%nat -> aniso_group P groups nm xs_total xs external boundary leg legw old new gg = Ok (fun i => new i gg)) /\
  (forall i g, (groups <= g)%nat -> new i g = 0).
Proof.
  intros E. unfold one_sweep_aniso in E.
  rewrite (for_up_err_ext groups _ (fun g fl => bind (aniso_group P groups nm xs_total xs external boundary leg legw old fl g) (fun c => Ok (set_col fl g c)))) in E.
  - revert E. apply gs_loop. intros g f1 f2 Hg Hf. unfold aniso_group. f_equal. apply gs_off_ext; auto.
  - intros gg fl Hg. cbn [Nat.eqb]. rewrite off_scatter_eq by assumption. reflexivity.
Qed.

Section Sweep.
Variables (P : sn) (groups nm : nat) (xs_total : mat2) (xs : mat4) (c : R).
Hypothesis HP : sound_slab P.
Hypothesis Hn : (0 < nm)%nat.
Hypothesis HX : exact_products P nm.
Hypothesis Ht : forall i h, (i < cells P)%nat -> (h < groups)%nat -> 0 <= xs_total (medium P i) h.
Hypothesis Hc : 0 <= c < 1.
Hypothesis HK : aniso_coupled P groups nm xs_total xs c.
Variables (external boundary : arr3) (leg legw : mat2).
Hypothesis HL : legendre_tables P nm leg legw.
Let N h f := moment_norm P nm (fun m => xs_total m h) f.

Lemma aniso_sweep old new psi sol d H :
  aniso_transport P groups nm xs_total xs external boundary psi sol ->
  one_sweep_aniso P groups nm xs_total xs external boundary 1 leg legw old = Ok new ->
  0 <= d -> 0 <= H -> near_energy P groups xs_total d old sol ->
  (forall g, (g < groups)%nat -> N g (fun i l => if Nat.eqb l 0 then 0 else edge_moment P (psi g) i l) <= H) ->
  near_energy P groups xs_total (c * (d + H)) new sol.
Proof.
  intros Hsol E Hd HH Hold Hhi. set (D := d + H). pose proof HP as (Hdx & _).
  assert (Htg : forall h, (h < groups)%nat -> forall i, (i < cells P)%nat -> 0 <= xs_total (medium P i) h) by (intros; apply Ht; assumption).
  destruct (aniso_sweep_groups _ _ _ _ _ _ _ _ _ _ _ E) as [Hg _].
  assert (G : forall g, (g < groups)%nat -> reaction_norm P (fun m => xs_total m g) (fun i => new i g - sol i g) <= c * D); [|exact G].
  intros g. induction g as [g IH] using (well_founded_induction lt_wf). intros Hgg.
  specialize (Hg g Hgg). unfold aniso_group in Hg.
  destruct (aniso_driver_last _ _ _ _ _ _ _ _ _ _ _ _ Hg) as (n & s & Hr & H0 & Hf & Hstep & _).
  assert (Sc : forall f : vec, N g (only_scalar f) = reaction_norm P (fun m => xs_total m g) f) by (intros f; apply (moment_of_scalar P nm (fun m => xs_total m g) f Hn)).
  assert (Init : N g (fun i l => only_scalar (fun i => old i g) i l - edge_moment P (psi g) i l) <= D).
  { unfold N. rewrite (moment_ext P nm _ _ (fun i l => only_scalar (fun i => old i g - sol i g) i l + - (if Nat.eqb l 0 then 0 else edge_moment P (psi g) i l))).
    - eapply Rle_trans; [apply (moment_triangle P nm (fun m => xs_total m g) Hdx (Htg g Hgg) (only_scalar (fun i => old i g - sol i g)) (fun i l => - (if Nat.eqb l 0 then 0 else edge_moment P (psi g) i l)))|].
      fold (N g (only_scalar (fun i => old i g - sol i g))). rewrite Sc. apply Rplus_le_compat; [apply Hold; exact Hgg|].
      eapply Rle_trans; [|apply (Hhi g Hgg)]. right. unfold N, moment_norm. f_equal. apply rsum_ext; intros i Hi. apply rsum_ext; intros l Hl. unfold Rsqr. ring.
    - intros i l Hi Hl. unfold only_scalar. destruct (Nat.eqb_spec l 0) as [-> |Hne]; [|ring]. rewrite (moment_scalar P _ _ _ _ _ (Hsol g Hgg) i Hi). ring. }
  assert (K : forall k, (k <= n)%nat -> N g (fun i l => snd (s k) i l - edge_moment P (psi g) i l) <= (if Nat.eqb k 0 then D else c * D)
     /\ (k <> 0%nat -> forall i, (i < cells P)%nat -> fst (s k) i = snd (s k) i 0%nat)).
  { induction k as [|k IHk]; intros Hk.
    - rewrite H0. cbn [snd Nat.eqb]. split; [exact Init|intros []; reflexivity].
    - cbn [Nat.eqb]. specialize (Hstep k ltac:(lia)). destruct (IHk ltac:(lia)) as [IHk1 _]. clear IHk. destruct (s (S k)) as [f mo] eqn:Es. cbn [fst snd].
      destruct (aniso_pass_transport P nm (fun m => xs_total m g) _ _ _ _ leg legw (s k) f mo (sound_divisors P groups xs_total HP Ht g Hgg) Hstep) as (p & T & M).
      assert (Mm : forall i l, (i < cells P)%nat -> (l < nm)%nat -> mo i l = edge_moment P p i l).
      { intros i l Hi Hl. rewrite M by exact Hi. apply rsum_ext. intros m Hm. destruct (HL l m Hl Hm) as [_ ->]. reflexivity. }
      split; [|intros _ i Hi; rewrite Mm by assumption; symmetry; eapply moment_scalar; [exact T|exact Hi]].
      unfold N. rewrite (moment_ext P nm (fun m => xs_total m g) _ (edge_moment P (fun m k => p m k - psi g m k))) by (intros i l Hi Hl; rewrite edge_moment_minus, Mm by assumption; reflexivity).
      set (e := fun i h l => if Nat.eqb h g then snd (s k) i l - edge_moment P (psi g) i l else only_scalar (fun i => if Nat.ltb h g then new i h - sol i h else old i h - sol i h) i l).
      refine (aniso_contracts P groups nm xs_total xs c HP HX Ht HK g e (fun m k0 => p m k0 - psi g m k0) (fun i => f i - sol i g) D Hgg _ _ _); [unfold D; lra| |].
      + intros h Hh. unfold e. destruct (Nat.eqb_spec h g) as [-> |Hne].
        * fold (N g (fun i l => snd (s k) i l - edge_moment P (psi g) i l)). destruct (Nat.eqb k 0); [exact IHk1|]. assert (0 <= D) by (unfold D; lra). nra.
        * change (fun i l => only_scalar (fun i0 => if Nat.ltb h g then new i0 h - sol i0 h else old i0 h - sol i0 h) i l) with (only_scalar (fun i0 => if Nat.ltb h g then new i0 h - sol i0 h else old i0 h - sol i0 h)).
          rewrite (moment_of_scalar P nm (fun m => xs_total m h) _ Hn).
          destruct (Nat.ltb_spec h g) as [Hlt|Hge]; [specialize (IH h Hlt Hh); assert (0 <= D) by (unfold D; lra); nra|specialize (Hold h Hh); unfold D; lra].
      + pose proof (transport_minus P (fun i => xs_total (medium P i) g) _ _ (mg_boundary boundary (mu P) g) p (psi g) f (fun i => sol i g) T (Hsol g Hgg)) as Df.
        eapply transport_ext; [| |exact Df]; [|reflexivity]. intros m i Hm Hi. cbv beta. rewrite src_emission by assumption.
        unfold aniso_emission, gs_off. rewrite (proj2 (Nat.ltb_lt i (cells P)) Hi). cbn [cols2 at2 slice3 d3b].
        assert (O : rsum groups (fun h => if Nat.eqb h g then 0 else xs (medium P i) g h 0%nat * e i h 0%nat)
          = rsum groups (fun h => if Nat.eqb h g then 0 else xs (medium P i) g h 0%nat * (if Nat.ltb h g then new i h else old i h))
            - rsum groups (fun h => if Nat.eqb h g then 0 else xs (medium P i) g h 0%nat * sol i h)).
        { rewrite <- rsum_minus. apply rsum_ext. intros h Hh. unfold e, only_scalar. cbn [Nat.eqb]. destruct (Nat.eqb h g); [ring|]. destruct (Nat.ltb h g); ring. }
        assert (I : rsum nm (fun l => (2 * INR l + 1) * xs (medium P i) g g l * e i g l * legendre l (mu P m))
          = rsum nm (fun l => xs (medium P i) g g l * (2 * INR l + 1) * snd (s k) i l * leg l m)
            - rsum nm (fun l => (2 * INR l + 1) * xs (medium P i) g g l * edge_moment P (psi g) i l * legendre l (mu P m))).
        { rewrite <- rsum_minus. apply rsum_ext. intros l Hl. unfold e. rewrite Nat.eqb_refl. destruct (HL l m Hl Hm) as [-> _]. ring. }
        rewrite O, I. match goal with |- ?A + _ + _ - _ = _ - _ + (?A' - _) => change A with A' end. ring. }
  destruct (K n (le_n n)) as [A B]. destruct (Nat.eqb_spec n 0) as [-> |Hn0]; [lia|].
  eapply Rle_trans; [|exact A]. unfold N.
  rewrite <- (reaction_ext P (fun m => xs_total m g) (fun i => (fun i l => snd (s n) i l - edge_moment P (psi g) i l) i 0%nat)).
  - apply (scalar_below_moment P nm (fun m => xs_total m g) Hdx (Htg g Hgg) (fun i l => snd (s n) i l - edge_moment P (psi g) i l) Hn).
  - intros i Hi. cbv beta. rewrite (moment_scalar P _ _ _ _ _ (Hsol g Hgg) i Hi). rewrite <- B by assumption.
    change (new i g) with ((fun i => new i g) i). rewrite Hf. reflexivity.
Qed.
End Sweep.
