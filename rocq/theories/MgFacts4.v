(** Multigroup: snapshots, transfer matrix, total source, known source, coarse collapse, ML sources. *)
From Coq Require Import Lra Lia FunctionalExtensionality.
From Verif Require Import Base BaseFacts Contraction SlabModel SlabSpec SlabFacts SlabFacts2
  SlabFacts3 SlabFacts4 SlabFacts5 SphereModel MgModel MgSpec MgFacts MgFacts2 MgFacts3.
Open Scope R_scope.

(** A loop whose k-th step rewrites exactly the entries owned by k. *)
Lemma own_loop n (body : nat -> mat3 -> mat3) (own : nat -> nat -> nat -> nat)
    (new : nat -> nat -> nat -> R -> R) a :
  (forall k t x y z, (k < n)%nat ->
     body k t x y z = if Nat.eqb (own x y z) k then new x y z (t x y z) else t x y z) ->
  forall x y z, for_up n body a x y z = if Nat.ltb (own x y z) n then new x y z (a x y z) else a x y z.
Proof.
  induction n as [|n IH]; intros Hb x y z; cbn [for_up].
  - reflexivity.
  - rewrite Hb by lia. rewrite !IH by (intros; apply Hb; lia).
    destruct (Nat.eqb_spec (own x y z) n) as [E|E].
    + rewrite E. rewrite Nat.ltb_irrefl. rewrite (proj2 (Nat.ltb_lt n (S n))) by lia. reflexivity.
    + destruct (Nat.ltb_spec (own x y z) n), (Nat.ltb_spec (own x y z) (S n)); try lia; reflexivity.
Qed.

Lemma own_loop2 n (body : nat -> mat2 -> mat2) (own : nat -> nat -> nat)
    (new : nat -> nat -> R -> R) a :
  (forall k t x y, (k < n)%nat ->
     body k t x y = if Nat.eqb (own x y) k then new x y (t x y) else t x y) ->
  forall x y, for_up n body a x y = if Nat.ltb (own x y) n then new x y (a x y) else a x y.
Proof.
  induction n as [|n IH]; intros Hb x y; cbn [for_up].
  - reflexivity.
  - rewrite Hb by lia. rewrite !IH by (intros; apply Hb; lia).
    destruct (Nat.eqb_spec (own x y) n) as [E|E].
    + rewrite E. rewrite Nat.ltb_irrefl. rewrite (proj2 (Nat.ltb_lt n (S n))) by lia. reflexivity.
    + destruct (Nat.ltb_spec (own x y) n), (Nat.ltb_spec (own x y) (S n)); try lia; reflexivity.
Qed.

Lemma acc_scalar n (f : vec) s : for_up n (fun k s => s + f k) s = s + rsum n f.
Proof. induction n as [|n IH]; cbn [for_up rsum]; [ring|rewrite IH; ring]. Qed.

(** source_iteration_collect *)
Lemma collect_loop_spec (sweep : mat2 -> outcome mat2) change :
  forall fuel count old tracked, (1 <= count)%nat -> (count <= count_gg)%nat -> (count_gg - count < fuel)%nat ->
  match iterate fuel sweep change change_gg count_gg count old with
  | Ok flux => exists l,
      collect_loop fuel sweep change count old tracked = Ok (flux, map tracked (seq 0 (count - 1)) ++ l) /\
      (1 <= length l)%nat /\ (count - 1 + length l <= count_gg)%nat /\
      nth (length l - 1) l zeros2 = flux /\
      (forall k, (k < length l)%nat -> sweep (nth k (old :: l) zeros2) = Ok (nth k l zeros2))
  | Raise e => collect_loop fuel sweep change count old tracked = Raise e
  end.
Proof.
  induction fuel as [|fuel IH]; intros count old tracked Hc Hcap Hfuel; [lia|].
  cbn [iterate collect_loop]. destruct (sweep old) as [flux|e] eqn:Es; cbn [bind]; [|reflexivity].
  rewrite (proj2 (Nat.ltb_lt (S count - 2) count_gg)) by lia.
  set (tr := fun k => if Nat.eqb k (S count - 2) then flux else tracked k).
  assert (Htr : map tr (seq 0 (S count - 1)) = map tracked (seq 0 (count - 1)) ++ [flux]).
  { replace (S count - 1)%nat with (S (count - 1)) by lia. rewrite seq_S, map_app. f_equal.
    - apply map_ext_in. intros k Hk. apply in_seq in Hk. unfold tr. destruct (Nat.eqb_spec k (S count - 2)); [lia|reflexivity].
    - cbn. unfold tr. destruct (Nat.eqb_spec (count - 1) (S count - 2)); [reflexivity|lia]. }
  destruct (below (change flux old) change_gg || Nat.leb count_gg count)%bool eqn:Ec.
  - exists [flux]. rewrite Htr. split; [reflexivity|]. cbn [length]. split; [lia|]. split; [lia|]. split; [reflexivity|].
    intros k Hk. assert (k = 0)%nat as -> by lia. cbn. exact Es.
  - apply orb_false_iff in Ec. destruct Ec as [_ Ec]. apply Nat.leb_gt in Ec.
    specialize (IH (S count) flux tr ltac:(lia) ltac:(lia) ltac:(lia)).
    destruct (iterate fuel sweep change change_gg count_gg (S count) flux) as [r|e]; [|exact IH].
    destruct IH as (l & E & Hl & Hb & Hlast & Hch).
    exists (flux :: l). rewrite E, Htr, <- app_assoc. split; [reflexivity|].
    cbn [length]. split; [lia|]. split; [lia|]. split.
    + replace (S (length l) - 1)%nat with (S (length l - 1)) by lia. cbn [nth]. exact Hlast.
    + intros k Hk. destruct k as [|k]; [cbn; exact Es|]. cbn [nth]. apply Hch. lia.
Qed.

Lemma collect_returns P groups old xs_total xs_scatter external boundary geometry :
  match source_iteration_iso P groups old xs_total xs_scatter external boundary geometry with
  | Ok flux => exists saved,
      source_iteration_collect P groups old xs_total xs_scatter external boundary geometry = Ok (flux, saved) /\
      (1 <= length saved <= 100)%nat /\ nth (length saved - 1) saved zeros2 = flux /\
      (forall k, (k < length saved)%nat ->
         one_sweep_iso P groups xs_total xs_scatter external boundary geometry
           (nth k (old :: saved) zeros2) = Ok (nth k saved zeros2))
  | Raise e => source_iteration_collect P groups old xs_total xs_scatter external boundary geometry = Raise e
  end.
Proof.
  unfold source_iteration_iso, source_iteration_collect.
  assert (H := collect_loop_spec (one_sweep_iso P groups xs_total xs_scatter external boundary geometry)
    (rel_change2 (cells P) groups) count_gg 1 old (fun _ => zeros2)
    ltac:(lia) ltac:(unfold count_gg; lia) ltac:(unfold count_gg; lia)).
  destruct (iterate count_gg _ _ _ _ _ _) as [flux|e]; [|exact H].
  destruct H as (l & E & Hl & Hb & Hlast & Hch). exists l. split; [exact E|].
  unfold count_gg in Hb. repeat split; try assumption; lia.
Qed.

(** transfer matrix *)
Lemma transfer_kernel_eq materials groups out xs chi nusigf m o i :
  transfer_matrix_kernel materials groups out xs chi nusigf m o i
  = if andb (Nat.ltb m materials) (andb (Nat.ltb o groups) (Nat.ltb i groups))
    then xs m o i + chi m o * nusigf m i else out m o i.
Proof.
  unfold transfer_matrix_kernel.
  rewrite (own_loop materials _ (fun x _ _ => x)
    (fun x y z r => if andb (Nat.ltb y groups) (Nat.ltb z groups) then xs x y z + chi x y * nusigf x z else r)).
  - destruct (Nat.ltb m materials); reflexivity.
  - intros k t x y z Hk.
    rewrite (own_loop groups _ (fun _ y _ => y)
      (fun x y z r => if Nat.eqb x k then (if Nat.ltb z groups then xs x y z + chi x y * nusigf x z else r) else r)).
    + destruct (Nat.eqb x k), (Nat.ltb y groups); reflexivity.
    + intros k2 t2 x2 y2 z2 Hk2.
      rewrite (own_loop groups _ (fun _ _ z => z)
        (fun x y z r => if Nat.eqb x k then if Nat.eqb y k2 then xs x y z + chi x y * nusigf x z else r else r)).
      * destruct (Nat.eqb x2 k), (Nat.eqb y2 k2), (Nat.ltb z2 groups); reflexivity.
      * intros k3 t3 x3 y3 z3 Hk3. unfold upd3.
        destruct (Nat.eqb_spec x3 k) as [-> |]; cbn [andb]; [|destruct (Nat.eqb z3 k3); reflexivity].
        destruct (Nat.eqb_spec y3 k2) as [-> |]; cbn [andb]; [|destruct (Nat.eqb z3 k3); reflexivity].
        destruct (Nat.eqb_spec z3 k3) as [-> |]; reflexivity.
Qed.


Lemma transfer_entries materials groups s f m o i l :
  (m < materials)%nat -> (o < groups)%nat -> (i < groups)%nat ->
  same_rank s (transfer_matrix materials groups s f) /\
  entry (transfer_matrix materials groups s f) m o i 0 = entry s m o i 0 + fission_entry f m o i /\
  (forall nm xs, s = Scatter4 nm xs -> (0 < l)%nat ->
     entry (transfer_matrix materials groups s f) m o i l = entry s m o i l).
Proof.
  intros Hm Ho Hi.
  assert (B : andb (Nat.ltb m materials) (andb (Nat.ltb o groups) (Nat.ltb i groups)) = true).
  { rewrite !(proj2 (Nat.ltb_lt _ _)) by assumption. reflexivity. }
  destruct s as [xs|nm xs], f as [fm|chi nu]; cbn [transfer_matrix entry fission_entry same_rank Nat.eqb];
    rewrite ?transfer_kernel_eq, ?B; repeat split; try discriminate;
    intros nm' xs' _ Hl; destruct (Nat.eqb_spec l 0); try lia; reflexivity.
Qed.

Lemma transfer_operator materials groups s f m o (phi : vec) :
  (m < materials)%nat -> (o < groups)%nat ->
  rsum groups (fun i => entry (transfer_matrix materials groups s f) m o i 0 * phi i)
  = rsum groups (fun i => entry s m o i 0 * phi i) + rsum groups (fun i => fission_entry f m o i * phi i).
Proof.
  intros Hm Ho. rewrite <- rsum_plus. apply rsum_ext. intros i Hi.
  destruct (transfer_entries materials groups s f m o i 0 Hm Ho Hi) as (_ & -> & _). ring.
Qed.

(** total source *)
Lemma source_total_eq cells angles groups source flux xs medium external i n g :
  (i < cells)%nat -> (n < angles)%nat -> (g < groups)%nat ->
  source_total cells angles groups source flux xs medium external i n g
  = rsum groups (fun h => xs (medium i) g h * flux i h)
    + at3 external i (bidx (d3b external) n) (bidx (d3c external) g).
Proof.
  intros Hi Hn Hg. unfold source_total.
  set (val := fun x y z => rsum groups (fun h => xs (medium x) z h * flux x h)
    + at3 external x (bidx (d3b external) y) (bidx (d3c external) z)).
  rewrite (own_loop cells _ (fun x _ _ => x)
    (fun x y z r => if andb (Nat.ltb z groups) (Nat.ltb y angles) then val x y z else r)).
  - rewrite !(proj2 (Nat.ltb_lt _ _)) by assumption. reflexivity.
  - intros k t x y z Hk. cbv zeta.
    rewrite (own_loop groups _ (fun _ _ z => z)
      (fun x y z r => if Nat.eqb x k then (if Nat.ltb y angles then val x y z else r) else r)).
    + destruct (Nat.eqb x k), (Nat.ltb z groups); reflexivity.
    + intros k2 t2 x2 y2 z2 Hk2.
      rewrite (own_loop angles _ (fun _ y _ => y)
        (fun x y z r => if Nat.eqb x k then if Nat.eqb z k2 then val x y z else r else r)).
      * destruct (Nat.eqb x2 k), (Nat.eqb z2 k2), (Nat.ltb y2 angles); reflexivity.
      * intros k3 t3 x3 y3 z3 Hk3. unfold upd3.
        destruct (Nat.eqb_spec x3 k) as [-> |]; cbn [andb]; [|destruct (Nat.eqb y3 k3); reflexivity].
        destruct (Nat.eqb_spec z3 k2) as [-> |]; rewrite ?andb_false_r; [|destruct (Nat.eqb y3 k3); reflexivity].
        rewrite andb_true_r. destruct (Nat.eqb_spec y3 k3) as [-> |]; [|reflexivity].
        rewrite (acc_scalar groups (fun ig => flux k ig * xs (medium k) k2 ig)). unfold val. rewrite Rplus_0_l.
        f_equal. apply rsum_ext. intros; ring.
Qed.

Lemma source_total_aniso_eq cells angles groups nm source flux xs medium external leg i n g :
  (1 <= nm)%nat -> (i < cells)%nat -> (n < angles)%nat -> (g < groups)%nat -> leg 0%nat n = 1 ->
  source_total_aniso cells angles groups nm source flux xs medium external leg i n g
  = rsum groups (fun h => xs (medium i) g h 0%nat * flux i h)
    + at3 external i (bidx (d3b external) n) (bidx (d3c external) g).
Proof.
  intros Hnm Hi Hn Hg Hleg. unfold source_total_aniso.
  set (val := fun x y z => rsum groups (fun h => xs (medium x) z h 0%nat * flux x h) * leg 0%nat y
    + at3 external x (bidx (d3b external) y) (bidx (d3c external) z)).
  rewrite (own_loop cells _ (fun x _ _ => x)
    (fun x y z r => if andb (Nat.ltb z groups) (Nat.ltb y angles) then val x y z else r)).
  - rewrite !(proj2 (Nat.ltb_lt _ _)) by assumption. cbn [andb]. unfold val. rewrite Hleg. ring.
  - intros k t x y z Hk. cbv zeta.
    rewrite (own_loop groups _ (fun _ _ z => z)
      (fun x y z r => if Nat.eqb x k then (if Nat.ltb y angles then val x y z else r) else r)).
    + destruct (Nat.eqb x k), (Nat.ltb z groups); reflexivity.
    + intros k2 t2 x2 y2 z2 Hk2.
      rewrite (own_loop angles _ (fun _ y _ => y)
        (fun x y z r => if Nat.eqb x k then if Nat.eqb z k2 then val x y z else r else r)).
      * destruct (Nat.eqb x2 k), (Nat.eqb z2 k2), (Nat.ltb y2 angles); reflexivity.
      * intros k3 t3 x3 y3 z3 Hk3. unfold upd3.
        destruct (Nat.eqb_spec x3 k) as [-> |]; cbn [andb]; [|destruct (Nat.eqb y3 k3); reflexivity].
        destruct (Nat.eqb_spec z3 k2) as [-> |]; rewrite ?andb_false_r; [|destruct (Nat.eqb y3 k3); reflexivity].
        rewrite andb_true_r. destruct (Nat.eqb_spec y3 k3) as [-> |]; [|reflexivity].
        unfold val. f_equal.
        rewrite (for_up_ext nm _ (fun ll s => s + (if Nat.eqb ll 0 then
           rsum groups (fun h => xs (medium k) k2 h 0%nat * flux k h) * leg 0%nat k3 else 0))).
        -- rewrite acc_scalar. rewrite (rsum_single nm _ 0%nat); [cbn [Nat.eqb]; ring|lia|].
           intros l Hl Hne. destruct (Nat.eqb_spec l 0); [lia|reflexivity].
        -- intros ll s Hl. destruct (Nat.eqb_spec ll 0) as [-> |Hne].
           ++ rewrite (acc_scalar groups (fun ig => xs (medium k) k2 ig 0%nat * flux k ig)). cbn [INR]. ring.
           ++ replace (for_up groups (fun (ig : nat) (t0 : R) => t0) 0) with 0; [ring|].
              clear. induction groups as [|q IHq]; [reflexivity|cbn; exact IHq].
Qed.

Lemma time_right_side_eq cells angles groups q_star flux xs medium i n g :
  (i < cells)%nat -> (n < angles)%nat -> (g < groups)%nat ->
  time_right_side cells angles groups q_star flux xs medium i n g
  = q_star i n g + rsum groups (fun h => xs (medium i) g h * flux i h).
Proof.
  intros Hi Hn Hg. unfold time_right_side.
  set (val := fun x (y : nat) z => rsum groups (fun h => xs (medium x) z h * flux x h)).
  rewrite (own_loop cells _ (fun x _ _ => x)
    (fun x y z r => if andb (Nat.ltb z groups) (Nat.ltb y angles) then r + val x y z else r)).
  - rewrite !(proj2 (Nat.ltb_lt _ _)) by assumption. reflexivity.
  - intros k t x y z Hk. cbv zeta.
    rewrite (own_loop groups _ (fun _ _ z => z)
      (fun x y z r => if Nat.eqb x k then (if Nat.ltb y angles then r + val x y z else r) else r)).
    + destruct (Nat.eqb x k), (Nat.ltb z groups); reflexivity.
    + intros k2 t2 x2 y2 z2 Hk2.
      rewrite (own_loop angles _ (fun _ y _ => y)
        (fun x y z r => if Nat.eqb x k then if Nat.eqb z k2 then r + val x y z else r else r)).
      * destruct (Nat.eqb x2 k), (Nat.eqb z2 k2), (Nat.ltb y2 angles); reflexivity.
      * intros k3 t3 x3 y3 z3 Hk3. unfold upd3.
        destruct (Nat.eqb_spec x3 k) as [-> |]; cbn [andb]; [|destruct (Nat.eqb y3 k3); reflexivity].
        destruct (Nat.eqb_spec z3 k2) as [-> |]; rewrite ?andb_false_r; [|destruct (Nat.eqb y3 k3); reflexivity].
        rewrite andb_true_r. destruct (Nat.eqb_spec y3 k3) as [-> |]; [|reflexivity].
        rewrite (acc_scalar groups (fun ig => flux k ig * xs (medium k) k2 ig)). unfold val. rewrite Rplus_0_l.
        f_equal. apply rsum_ext. intros; ring.
Qed.

(** known source *)
Lemma col_loop2 groups (f : nat -> vec) phi :
  for_up_err groups (fun gg phi => Ok (set_col phi gg (f gg))) zeros2 = Ok phi ->
  forall i g, (g < groups)%nat -> phi i g = f g i.
Proof.
  intros E. assert (H := gs_loop groups (fun g _ => Ok (f g)) phi).
  cbn [bind] in H. destruct (H ltac:(reflexivity) E) as [H1 _].
  intros i g Hg. specialize (H1 g Hg). injection H1 as H1. rewrite H1. reflexivity.
Qed.

Lemma known_scalar_columns P groups xs_total source boundary edges phi :
  known_source_scalar P groups xs_total source boundary 1 edges = Ok phi ->
  forall i g, (g < groups)%nat ->
    phi i g = slab_known_source_sn P zeros2 1 (fun m => xs_total m g)
      (slice3 source (bidx (d3c source) g)) (slice3 boundary (bidx (d3c boundary) g)) edges i 0%nat.
Proof.
  unfold known_source_scalar. intros E.
  assert (Inv : forall n r, (n <= groups)%nat ->
    for_up_err n (fun gg phi => match known_source_sn P (fun i _ => phi i gg) 1 (fun m => xs_total m gg)
            (slice3 source (bidx (d3c source) gg)) (slice3 boundary (bidx (d3c boundary) gg)) 1 edges with
    | None => Ok phi | Some r => bind r (fun a => Ok (set_col phi gg (fun i => a i 0%nat))) end) zeros2 = Ok r ->
    (forall i g, (g < n)%nat -> r i g = slab_known_source_sn P zeros2 1 (fun m => xs_total m g)
      (slice3 source (bidx (d3c source) g)) (slice3 boundary (bidx (d3c boundary) g)) edges i 0%nat) /\
    (forall i g, (n <= g)%nat -> r i g = 0)).
  { induction n as [|n IH]; intros r Hn Er; cbn [for_up_err] in Er.
    - injection Er as <-. split; [lia|reflexivity].
    - match type of Er with bind ?x _ = _ => destruct x as [f|e] eqn:Ef end; cbn [bind] in Er; [|discriminate].
      destruct (IH f ltac:(lia) eq_refl) as [A B].
      unfold known_source_sn in Er. rewrite Nat.eqb_refl in Er. cbn [bind] in Er. injection Er as <-.
      replace (fun i (_ : nat) => f i n) with zeros2
        by (extensionality i; extensionality z; unfold zeros2; rewrite B by lia; reflexivity).
      split; intros i g Hg.
      + destruct (Nat.eq_dec g n) as [-> |Hne]; [rewrite set_col_same; reflexivity|].
        rewrite set_col_other by exact Hne. apply A. lia.
      + rewrite set_col_other by lia. apply B. lia. }
  apply (Inv groups phi); [lia|exact E].
Qed.

Lemma known_angular_columns P groups xs_total source boundary edges psi :
  known_source_angular P groups xs_total source boundary 1 edges = Ok psi ->
  forall i n g, (g < groups)%nat ->
    psi i n g = slab_known_source_sn P zeros2 (d3b source) (fun m => xs_total m g)
      (slice3 source (bidx (d3c source) g)) (slice3 boundary (bidx (d3c boundary) g)) edges i n.
Proof.
  unfold known_source_angular. intros E.
  assert (Inv : forall k r, (k <= groups)%nat ->
    for_up_err k (fun gg psi => match known_source_sn P (fun i n => psi i n gg) (d3b source) (fun m => xs_total m gg)
            (slice3 source (bidx (d3c source) gg)) (slice3 boundary (bidx (d3c boundary) gg)) 1 edges with
    | None => Ok psi | Some r => bind r (fun a => Ok (fun i n g => if Nat.eqb g gg then a i n else psi i n g)) end) (fun _ _ _ => 0) = Ok r ->
    (forall i n g, (g < k)%nat -> r i n g = slab_known_source_sn P zeros2 (d3b source) (fun m => xs_total m g)
      (slice3 source (bidx (d3c source) g)) (slice3 boundary (bidx (d3c boundary) g)) edges i n) /\
    (forall i n g, (k <= g)%nat -> r i n g = 0)).
  { induction k as [|k IH]; intros r Hn Er; cbn [for_up_err] in Er.
    - injection Er as <-. split; [lia|reflexivity].
    - match type of Er with bind ?x _ = _ => destruct x as [f|e] eqn:Ef end; cbn [bind] in Er; [|discriminate].
      destruct (IH f ltac:(lia) eq_refl) as [A B].
      unfold known_source_sn in Er. rewrite Nat.eqb_refl in Er. cbn [bind] in Er. injection Er as <-.
      replace (fun i n => f i n k) with zeros2
        by (extensionality i; extensionality z; unfold zeros2; rewrite B by lia; reflexivity).
      split; intros i n g Hg.
      + destruct (Nat.eqb_spec g k) as [-> |Hne]; [reflexivity|]. apply A. lia.
      + destruct (Nat.eqb_spec g k); [lia|]. apply B. lia. }
  apply (Inv groups psi); [lia|exact E].
Qed.

(** Multigroup scalar flux is the quadrature sum of the multigroup angular flux. *)
Lemma mg_scalar_is_sum P groups xs_total source boundary edges phi psi :
  d3b source = angles P -> angles P <> 1%nat ->
  known_source_scalar P groups xs_total source boundary 1 edges = Ok phi ->
  known_source_angular P groups xs_total source boundary 1 edges = Ok psi ->
  forall i g, (g < groups)%nat -> phi i g = rsum (angles P) (fun m => wt P m * psi i m g).
Proof.
  intros Hd Ha Es Ea i g Hg.
  rewrite (known_scalar_columns _ _ _ _ _ _ _ Es) by exact Hg.
  rewrite known_scalar_angular by exact Ha. apply rsum_ext. intros m Hm.
  rewrite (known_angular_columns _ _ _ _ _ _ _ Ea) by exact Hg. rewrite Hd. reflexivity.
Qed.

(** With a source of one angular column the "angular" flux has a single column: the scalar flux. *)
Lemma mg_angular_broadcast P groups xs_total source boundary edges phi psi :
  d3b source = 1%nat ->
  known_source_scalar P groups xs_total source boundary 1 edges = Ok phi ->
  known_source_angular P groups xs_total source boundary 1 edges = Ok psi ->
  forall i g, (g < groups)%nat -> psi i 0%nat g = phi i g.
Proof.
  intros Hd Es Ea i g Hg.
  rewrite (known_scalar_columns _ _ _ _ _ _ _ Es) by exact Hg.
  rewrite (known_angular_columns _ _ _ _ _ _ _ Ea) by exact Hg. rewrite Hd. reflexivity.
Qed.

Lemma known_total P groups xs_total source boundary edges :
  (exists phi, known_source_scalar P groups xs_total source boundary 1 edges = Ok phi) /\
  (exists psi, known_source_angular P groups xs_total source boundary 1 edges = Ok psi).
Proof.
  split; apply for_up_err_ok; intros k t Hk; unfold known_source_sn; rewrite Nat.eqb_refl; cbn [bind]; eauto.
Qed.

(** Known source: the source _source_total of a multigroup solution gives the solution back. *)
Lemma known_reproduces_solution P groups xs_total xs_scatter external boundary phi flux source0 psi' :
  angles P <> 1%nat -> nonzero_ordinates (angles P) (mu P) -> mg_divisors P groups xs_total ->
  (1 < groups)%nat -> (1 < angles P)%nat ->
  mg_solution P groups xs_total xs_scatter external boundary phi ->
  let src := mkArr3 (angles P) groups
     (source_total (cells P) (angles P) groups source0 phi xs_scatter (medium P) external) in
  known_source_scalar P groups xs_total src boundary 1 0 = Ok flux ->
  known_source_angular P groups xs_total src boundary 1 1 = Ok psi' ->
  agree2 (cells P) groups flux phi /\
  mg_transport P groups xs_total xs_scatter external boundary (fun g m k => psi' k m g) phi.
Proof.
  intros Ha1 Hnz Hd HG Ha [psi Hs] src Es Ea.
  assert (Hq : forall g m i, (g < groups)%nat -> (m < angles P)%nat -> (i < cells P)%nat ->
    at2 (slice3 src (bidx (d3c src) g)) i (bidx (cols2 (slice3 src (bidx (d3c src) g))) m)
    = mg_source (medium P) groups xs_scatter external phi g m i).
  { intros g m i Hg Hm Hi. cbn [src slice3 at2 cols2 d3c d3b at3]. unfold bidx.
    destruct (Nat.eqb_spec groups 1); [lia|]. destruct (Nat.eqb_spec (angles P) 1); [lia|].
    rewrite source_total_eq by assumption. reflexivity. }
  assert (K : forall g, (g < groups)%nat -> 
    (forall m k, (m < angles P)%nat -> (k <= cells P)%nat -> psi' k m g = psi g m k) /\
    (forall i, (i < cells P)%nat -> flux i g = phi i g)).
  { intros g Hg.
    destruct (known_transport P (fun m => xs_total m g) (slice3 src (bidx (d3c src) g))
      (slice3 boundary (bidx (d3c boundary) g)) Ha1 Hnz (Hd g Hg)) as (p & T & Hp & _).
    (* both psi g and p solve the same triangular system *)
    specialize (Hs g Hg). destruct T as (T1 & T2 & T3). destruct Hs as (S1 & S2 & S3).
    assert (U : forall m, (m < angles P)%nat -> forall k, (k <= cells P)%nat -> p m k = psi g m k).
    { intros m. induction m as [m IH] using (well_founded_induction lt_wf). intros Hm.
      assert (Ein : p m (inflow_edge (cells P) (mu P m)) = psi g m (inflow_edge (cells P) (mu P m))).
      { rewrite T2, S2 by assumption. f_equal.
        unfold reflected_in. destruct (Nat.ltb_spec (angles P - m - 1) m) as [Hl|Hl]; cbn [andb]; [|reflexivity].
        destruct (leaves_reflective _ _ _ _); [|reflexivity].
        apply IH; [exact Hl|lia|]. unfold outflow_edge. destruct (Rlt_dec _ _); lia. }
      assert (B1 : dd_balance (cells P) (mu P m) (dx P) (fun i => xs_total (medium P i) g)
                (mg_source (medium P) groups xs_scatter external phi g m) (p m)).
      { intros i Hi. rewrite <- Hq by assumption. apply (T1 m Hm i Hi). }
      unfold inflow_edge in Ein. destruct (Rlt_dec 0 (mu P m)) as [Hp0|Hp0].
      - eapply dd_unique_fwd; [apply divisors_fwd; [exact Hp0|exact (Hd g Hg m Hm)]|exact B1|apply S1; exact Hm|exact Ein].
      - assert (Hneg : mu P m < 0) by (specialize (Hnz m Hm); lra).
        eapply dd_unique_bwd; [apply divisors_bwd; [exact Hneg|exact (Hd g Hg m Hm)]|exact B1|apply S1; exact Hm|exact Ein]. }
    split.
    - intros m k Hm Hk. rewrite (known_angular_columns _ _ _ _ _ _ _ Ea) by exact Hg.
      cbn [src d3b]. rewrite Hp by assumption. apply U; assumption.
    - intros i Hi. rewrite (known_scalar_columns _ _ _ _ _ _ _ Es) by exact Hg.
      rewrite T3, S3 by assumption. apply rsum_ext. intros m Hm. rewrite !U by lia. reflexivity. }
  split.
  - intros i g Hi Hg. apply K; assumption.
  - intros g Hg. destruct (K g Hg) as [K1 _]. specialize (Hs g Hg). destruct Hs as (S1 & S2 & S3). repeat split.
    + intros m Hm i Hi. rewrite !K1 by lia. apply S1; assumption.
    + intros m Hm. rewrite K1 by (try assumption; unfold inflow_edge; destruct (Rlt_dec _ _); lia).
      rewrite S2 by exact Hm. f_equal. unfold reflected_in.
      destruct (Nat.ltb_spec (angles P - m - 1) m); cbn [andb]; [|reflexivity].
      destruct (leaves_reflective _ _ _ _); [|reflexivity].
      rewrite K1 by (try lia; unfold outflow_edge; destruct (Rlt_dec _ _); lia). reflexivity.
    + intros i Hi. rewrite S3 by exact Hi. apply rsum_ext. intros m Hm. rewrite !K1 by lia. reflexivity.
Qed.
