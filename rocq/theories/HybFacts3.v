(** Recombination, broadcast sources and the fission variants of the hybrid kernels. *)
From Coq Require Import Lia Lra Psatz FunctionalExtensionality.
From Verif Require Import Base BaseFacts SlabModel MgModel MgFacts4 CritModel CritSpec CritFacts.
From Verif Require Import HybModel HybSpec HybFacts HybFacts2.
Open Scope R_scope.

(** ** C46: a one-column (broadcast) source is returned as it is. *)
Lemma external_one_column coarse idx e q weight :
  coarsen_external 1 q e coarse idx weight = (1%nat, q).
Proof. reflexivity. Qed.

(** A source given as one column stands for the same value in every group.  Its total over [fine]
    groups is [fine * q]; over [coarse] groups it is [coarse * q]. *)
Lemma external_broadcast_refuted fine coarse idx e (q : R) : (1 < coarse)%nat -> (coarse < fine)%nat ->
  partition fine coarse idx -> q <> 0 ->
  let full := coarsen_external fine (fun _ => q) e coarse idx false in
  let column := coarsen_external 1 (fun _ => q) e coarse idx false in
  rsum coarse (snd full) = INR fine * q /\
  rsum coarse (fun _ => snd column 0%nat) = INR coarse * q /\
  rsum coarse (snd full) <> rsum coarse (fun _ => snd column 0%nat).
Proof.
  intros Hc Hf HP Hq full column.
  destruct (external_totals fine coarse idx e (fun _ => q) HP ltac:(lia)) as (_ & _ & T).
  fold full in T. rewrite rsum_const in T. unfold column. rewrite external_one_column. cbn [snd].
  rewrite T, rsum_const. split; [reflexivity|split; [reflexivity|]].
  intros E. apply Hq. assert (INR coarse < INR fine) by (apply lt_INR; exact Hf). nra.
Qed.

(** ** C48 *)
Lemma recombined_conserves cells angles fine coarse idx e fu fc xs q medium :
  partition fine coarse idx -> monotone_edges fine e ->
  let ci := collided_index coarse idx in
  let factor := hybrid_factor (ediff e) (coarse_diff e idx) coarse idx in
  let r := hybrid_source_total cells angles fine fu fc xs q medium ci factor in
  forall i, (i < cells)%nat ->
    (forall g, (g < fine)%nat -> fst r i g = fu i g + spread e idx ci (fc i) g) /\
    (forall c, (c < coarse)%nat -> group_sum idx c (fst r i) = group_sum idx c (fu i) + fc i c) /\
    rsum fine (fst r i) = rsum fine (fu i) + rsum coarse (fc i) /\
    (forall n g, (n < angles)%nat -> (g < fine)%nat ->
       snd r i n g = q i n g + rsum fine (fun h => xs (medium i) g h * fst r i h)).
Proof.
  intros HP He ci factor r i Hi.
  destruct (hybrid_total_eq cells angles fine fu fc xs q medium ci factor) as [T1 T2].
  cbn zeta in T1, T2. fold r in T1, T2.
  assert (F : forall g, (g < fine)%nat -> factor g = width e g / block_width e idx (ci g)).
  { intros g Hg. destruct (collided_index_eq _ _ _ HP g Hg) as [A B]. apply (hybrid_factor_eq fine); assumption. }
  assert (A : forall g, (g < fine)%nat -> fst r i g = fu i g + spread e idx ci (fc i) g).
  { intros g Hg. rewrite T1 by assumption. unfold spread. rewrite F by exact Hg. reflexivity. }
  assert (B : forall c, (c < coarse)%nat -> group_sum idx c (fst r i) = group_sum idx c (fu i) + fc i c).
  { intros c Hc. destruct (widths_positive _ _ _ _ HP He c Hc) as (_ & _ & Hsum).
    rewrite (group_sum_ext _ _ _ (fun g => fu i g + fc i c * (width e g / block_width e idx c))).
    - rewrite group_sum_plus, group_sum_scal, Hsum. ring.
    - intros g Hg. assert (Hf : (g < fine)%nat) by (eapply in_group_fine; eauto). rewrite A by exact Hf.
      unfold spread. assert (E : ci g = c) by (apply (collided_iff _ _ _ HP); assumption). rewrite E. reflexivity. }
  split; [exact A|split; [exact B|split]].
  - rewrite <- !(group_sums fine coarse idx) by exact HP. rewrite <- rsum_plus. apply rsum_ext. exact B.
  - intros n g Hn Hg. rewrite T2 by assumption. f_equal. apply rsum_ext. intros h Hh. rewrite T1 by assumption. reflexivity.
Qed.

(** The anisotropic kernel with [P_0 = 1] is the isotropic kernel of the order-0 data. *)
Lemma hybrid_total_aniso_eq cells angles groups nm fu fc xs q medium ci fac leg :
  (forall n, (n < angles)%nat -> leg 0%nat n = 1) ->
  hybrid_source_total_aniso cells angles groups (S nm) fu fc xs q medium ci fac leg
  = hybrid_source_total cells angles groups fu fc (fun m o i => xs m o i 0%nat) q medium ci fac.
Proof.
  intros HL. unfold hybrid_source_total_aniso, hybrid_source_total. apply for_up_ext. intros ii st _.
  cbn zeta. f_equal. apply for_up_ext. intros og t _. apply for_up_ext. intros nn t' Hn.
  match goal with |- upd3 _ _ _ _ (_ + ?x) = upd3 _ _ _ _ (_ + ?y) => cut (x = y); [intros ->; reflexivity|] end.
  match goal with |- for_up _ ?B 0 = ?y => set (body := B); set (gs := y) end.
  assert (K : forall k, for_up k body 0 = match k with O => 0 | S _ => gs end).
  { induction k as [|k IH]; [reflexivity|]. cbn [for_up]. rewrite IH. unfold body. destruct k as [|k]; cbn [Nat.eqb]; [|reflexivity].
    cbn [INR]. rewrite HL by exact Hn. fold gs. ring. }
  exact (K (S nm)).
Qed.

(** The collided source of the anisotropic kernel is that of its order-0 slice, so it conserves too. *)
Lemma collided_source_conserves_aniso cells fine coarse idx flux xs src medium : partition fine coarse idx ->
  let s := hybrid_source_collided_aniso cells fine flux xs src medium (collided_index coarse idx) in
  forall i, (i < cells)%nat ->
    rsum coarse (s i) = rsum fine (fun o => rsum fine (fun h => xs (medium i) o h 0%nat * flux i h)).
Proof.
  intros HP s i Hi. unfold s, hybrid_source_collided_aniso.
  apply (collided_source_conserves cells fine coarse idx flux (fun m o h => xs m o h 0%nat) src medium HP i Hi).
Qed.

(** What [_hybrid_combine_fluxes] leaves behind: the uncollided flux is lost. *)
Lemma combine_fluxes_eq cells groups fu fc ci fac i g : (i < cells)%nat -> (g < groups)%nat ->
  hybrid_combine_fluxes cells groups fu fc ci fac i g = fc i (ci g) * fac g.
Proof.
  intros Hi Hg. unfold hybrid_combine_fluxes.
  rewrite (own_loop2 cells _ (fun x _ => x) (fun x y r => if Nat.ltb y groups then fc x (ci y) * fac y else r)).
  - apply Nat.ltb_lt in Hi, Hg. rewrite Hi, Hg. reflexivity.
  - intros k t x y _.
    rewrite (own_loop2 groups _ (fun _ y => y) (fun x y r => if Nat.eqb x k then fc x (ci y) * fac y else r)).
    + destruct (Nat.eqb x k), (Nat.ltb y groups); reflexivity.
    + intros k' t' x' y' _. destruct (Nat.eqb_spec x' k) as [-> |]; cbn [andb].
      * destruct (Nat.eqb_spec y' k') as [-> |]; reflexivity.
      * destruct (Nat.eqb y' k'); reflexivity.
Qed.

Lemma combine_fluxes_refuted cells fine coarse idx e fu fc i c :
  partition fine coarse idx -> monotone_edges fine e -> (i < cells)%nat -> (c < coarse)%nat ->
  group_sum idx c (fu i) <> 0 ->
  let r := hybrid_combine_fluxes cells fine fu fc (collided_index coarse idx)
             (hybrid_factor (ediff e) (coarse_diff e idx) coarse idx) in
  group_sum idx c (r i) = fc i c /\ group_sum idx c (r i) <> group_sum idx c (fu i) + fc i c.
Proof.
  intros HP He Hi Hc Hn r.
  assert (E : group_sum idx c (r i) = fc i c).
  { destruct (factor_widths _ _ _ _ HP He c Hc) as [_ Hsum].
    rewrite (group_sum_ext _ _ _ (fun g => fc i c * hybrid_factor (ediff e) (coarse_diff e idx) coarse idx g)).
    - rewrite group_sum_scal, Hsum. ring.
    - intros g Hg. assert (Hf : (g < fine)%nat) by (eapply in_group_fine; eauto). unfold r.
      rewrite combine_fluxes_eq by assumption.
      assert (Eg : collided_index coarse idx g = c) by (apply (collided_iff _ _ _ HP); assumption). rewrite Eg. reflexivity. }
  split; [exact E|]. rewrite E. lra.
Qed.

(** fission variant *)
Lemma hybrid_fission_conserves cells fine coarse idx flux xs src medium keff : partition fine coarse idx ->
  nonneg_fission cells fine medium (FissionMatrix xs) ->
  let s := hybrid_fission_source cells fine flux xs src medium keff (collided_index coarse idx) in
  forall i, (i < cells)%nat ->
    (forall c, (c < coarse)%nat ->
       s i c = group_sum idx c (fun o => rsum fine (fun h => xs (medium i) o h * flux i h)) / keff) /\
    rsum coarse (s i) = rsum fine (fun o => rsum fine (fun h => xs (medium i) o h * flux i h)) / keff.
Proof.
  intros HP Hnn s i Hi.
  set (ci := collided_index coarse idx) in *.
  assert (C : forall c, s i c = rsum fine (fun og => if Nat.eqb c (ci og)
       then rsum fine (fun h => xs (medium i) og h * flux i h) else 0) / keff).
  { intros c. unfold s, hybrid_fission_source. cbn zeta. f_equal.
    rewrite (add_loop2 cells _ (fun ii x y => if Nat.eqb x ii then
       (if Req_EM_T (rsum fine (fun o => rsum fine (fun i => xs (medium ii) o i))) 0 then 0 else
       rsum fine (fun og => if Nat.eqb y (ci og) then rsum fine (fun ig => xs (medium ii) og ig * flux ii ig) else 0)) else 0)).
    - rewrite (rsum_single _ _ i Hi) by (intros k Hk Hne; destruct (Nat.eqb_spec i k); [lia|reflexivity]).
      rewrite Nat.eqb_refl. destruct (Req_EM_T _ 0) as [Z|Z]; [|ring].
      rewrite rsum_zero_ext; [ring|]. intros og Hog. destruct (Nat.eqb c (ci og)); [|reflexivity].
      apply rsum_zero_ext. intros h Hh.
      rewrite (rsum_nonneg_zero fine (xs (medium i) og)); [ring| | |exact Hh].
      { intros k Hk. exact (Hnn i og k Hi Hog Hk). }
      apply (rsum_nonneg_zero fine (fun o => rsum fine (fun k => xs (medium i) o k))); [|exact Z|exact Hog].
      intros o Ho. apply rsum_nonneg. intros k Hk. exact (Hnn i o k Hi Ho Hk).
    - intros ii t x y Hii. destruct (Req_EM_T _ 0) as [Z|Z]; [destruct (Nat.eqb x ii); ring|].
      rewrite (add_loop2 fine _ (fun og x y => if andb (Nat.eqb x ii) (Nat.eqb y (ci og))
         then rsum fine (fun ig => xs (medium ii) og ig * flux ii ig) else 0)).
      + destruct (Nat.eqb x ii); cbn [andb]; [reflexivity|]. rewrite rsum_zero. reflexivity.
      + intros og t' x' y' _. destruct (andb _ _); [|ring]. rewrite acc_scalar. rewrite Rplus_0_l. f_equal.
        apply rsum_ext. intros. ring. }
  assert (A : forall c, (c < coarse)%nat ->
       s i c = group_sum idx c (fun o => rsum fine (fun h => xs (medium i) o h * flux i h)) / keff).
  { intros c Hc. rewrite C. unfold ci. rewrite owner_sum by assumption. reflexivity. }
  split; [exact A|]. rewrite (rsum_ext _ _ _ A), rsum_div. f_equal. apply group_sums. exact HP.
Qed.

(** ** reaction_rates *)
Lemma reaction_rates_value cells groups flux xs medium i o : (i < cells)%nat ->
  reaction_rates cells groups flux xs medium i o = rsum groups (fun g => xs (medium i) o g * flux i g).
Proof.
  intros Hi. unfold reaction_rates.
  apply (for_up_inv (fun k (rate : mat2) => (i < k)%nat -> rate i o = rsum groups (fun g => xs (medium i) o g * flux i g))
    cells); [lia| |exact Hi].
  intros k rate Hk IH Hik. cbn zeta. destruct (Nat.eqb_spec i k) as [->|Hne].
  - apply rsum_ext. intros. ring.
  - apply IH. lia.
Qed.

Lemma reaction_rates_collapse cells fine coarse idx e F M C medium :
  partition fine coarse idx -> monotone_edges fine e ->
  xs_matrix_coarsen (Some M) e idx = Some C ->
  forall i a, (i < cells)%nat -> (a < coarse)%nat ->
    group_sum idx a (reaction_rates cells fine (fun i => spread e idx (collided_index coarse idx) (F i)) M medium i)
    = reaction_rates cells coarse F C medium i a.
Proof.
  intros HP He HC i a Hi Ha.
  rewrite reaction_rates_value by exact Hi.
  rewrite (group_sum_ext _ _ _ (fun r => rsum fine (fun g => M (medium i) r g * spread e idx (collided_index coarse idx) (F i) g)))
    by (intros; apply reaction_rates_value; exact Hi).
  apply (proj2 (spread_rates fine coarse idx e (collided_index coarse idx) (F i) HP He (collided_index_eq fine coarse idx HP)) M C HC (medium i) a Ha).
Qed.
