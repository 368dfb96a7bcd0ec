(** Multigroup spheres: the equations each sweep solves, and the solutions it keeps. *)
From Coq Require Import Lra Lia Psatz FunctionalExtensionality.
From Verif Require Import Base BaseFacts SlabModel SlabSpec SlabFacts SlabFacts3 SphereModel SphereSpec SphereFacts SphereFacts2 MgModel MgSpec MgFacts MgFacts2 MgFacts6 ShellSpec ShellFacts ShellFacts2.
Open Scope R_scope.

Lemma bidx0 d : bidx d 0 = 0%nat.
Proof. unfold bidx. destruct (Nat.eqb d 1); reflexivity. Qed.

Lemma ball_ext n angles mu wt dx sigt q1 q2 q01 q02 bnd bnd0 start psi hm hp phi1 phi2 :
  (forall m i, (m < angles)%nat -> (i < n)%nat -> q1 m i = q2 m i) -> (forall i, (i < n)%nat -> q01 i = q02 i) -> (forall i, (i < n)%nat -> phi1 i = phi2 i) ->
  sphere_transport n angles mu wt dx sigt q1 q01 bnd bnd0 start psi hm hp phi1 ->
  sphere_transport n angles mu wt dx sigt q2 q02 bnd bnd0 start psi hm hp phi2.
Proof.
  intros Hq H0 Hp (B & E & H & O & I & W & Z & F). split; [|split; [exact E|split; [exact H|split; [|split; [exact I|split; [exact W|split; [exact Z|]]]]]]].
  - intros i Hi. rewrite <- (H0 i Hi). apply B. exact Hi.
  - intros m Hm i Hi. specialize (O m Hm i Hi). cbv zeta in O |- *. rewrite <- Hq by assumption. exact O.
  - intros i Hi. rewrite <- Hp by exact Hi. apply F. exact Hi.
Qed.

(** the emission seen by a within-group solve *)
Lemma seen_source P groups xs_scatter external new old own g m i : (g < groups)%nat -> (i < cells P)%nat ->
  mg_source (medium P) groups xs_scatter external (sweep_sees new old own g) g m i
  = iso_source (medium P) (fun k => xs_scatter k g g) (gs_off (cells P) groups new old (medium P) xs_scatter g)
      (slice3 external (bidx (d3c external) g)) own m i.
Proof.
  intros Hg Hi. unfold mg_source, iso_source. cbn [slice3 at2 cols2].
  assert (E : rsum groups (fun h => xs_scatter (medium P i) g h * sweep_sees new old own g i h)
    = xs_scatter (medium P i) g g * own i + gs_off (cells P) groups new old (medium P) xs_scatter g i).
  { unfold gs_off. rewrite (proj2 (Nat.ltb_lt i (cells P))) by lia.
    transitivity (rsum groups (fun h => if Nat.eqb h g then xs_scatter (medium P i) g g * own i else 0)
      + rsum groups (fun h => if Nat.eqb h g then 0 else xs_scatter (medium P i) g h * (if Nat.ltb h g then new i h else old i h))).
    - rewrite <- rsum_plus. apply rsum_ext. intros h Hh. unfold sweep_sees.
      destruct (Nat.eqb_spec h g) as [-> |]; [rewrite Nat.ltb_irrefl; lra|destruct (Nat.ltb h g); lra].
    - rewrite (rsum_single groups _ g Hg) by (intros h _ Hne; destruct (Nat.eqb_spec h g); [contradiction|reflexivity]). rewrite Nat.eqb_refl. reflexivity. }
  rewrite E. lra.
Qed.

Lemma ball_pass P groups xs_total xs_scatter external boundary new old own g flux :
  sound_sphere P -> (g < groups)%nat -> (forall i, (i < cells P)%nat -> 0 <= xs_total (medium P i) g) ->
  sphere_iso_pass P (fun m => xs_total m g) (fun m => xs_scatter m g g) (gs_off (cells P) groups new old (medium P) xs_scatter g)
    (slice3 external (bidx (d3c external) g)) (slice3 boundary (bidx (d3c boundary) g)) 0 own = Ok flux ->
  ball_group P groups xs_total xs_scatter external boundary g (sweep_sees new old own g) flux.
Proof.
  intros (Hnz & Hin & Hw & Hsum & Hdx & Htau) Hg Ht E.
  destruct (sphere_pass_transport _ _ _ _ _ _ 0 _ _ Hnz
    (sphere_divisors_positive _ (fun m => xs_total m g) Hnz Hin Hw Hsum (fun i Hi => conj (Hdx i Hi) (Ht i Hi)) Htau)
    ltac:(lia) ltac:(intros i Hi; specialize (Hdx i Hi); lra) E) as (start & psi & hm & hp & T).
  exists start, psi, hm, hp. eapply ball_ext; [| |reflexivity|exact T].
  - intros m i Hm Hi. rewrite seen_source by assumption. reflexivity.
  - intros i Hi. cbv beta. rewrite seen_source by assumption. unfold iso_source. rewrite bidx0. lra.
Qed.

(** one within-group solution per seen flux *)
Lemma ball_group_unique P groups xs_total xs_scatter external boundary g s1 s2 o1 o2 :
  sound_sphere P -> (forall i, (i < cells P)%nat -> 0 <= xs_total (medium P i) g) ->
  (forall i h, (i < cells P)%nat -> (h < groups)%nat -> s1 i h = s2 i h) ->
  ball_group P groups xs_total xs_scatter external boundary g s1 o1 -> ball_group P groups xs_total xs_scatter external boundary g s2 o2 ->
  forall i, (i < cells P)%nat -> o1 i = o2 i.
Proof.
  intros (Hnz & Hin & Hw & Hsum & Hdx & Htau) Ht Hs (a1 & b1 & c1 & d1 & T1) (a2 & b2 & c2 & d2 & T2).
  assert (Q : forall m i, (i < cells P)%nat -> mg_source (medium P) groups xs_scatter external s1 g m i = mg_source (medium P) groups xs_scatter external s2 g m i).
  { intros m i Hi. unfold mg_source. f_equal. apply rsum_ext. intros h Hh. rewrite Hs by assumption. reflexivity. }
  eapply (sphere_transport_unique P (fun m => xs_total m g)); [exact Hnz| | | |exact T2].
  - apply sphere_divisors_positive; try assumption. intros i Hi. split; [apply Hdx|apply Ht]; exact Hi.
  - intros i Hi. specialize (Hdx i Hi). lra.
  - eapply ball_ext; [| |reflexivity|exact T1]; intros; apply Q; assumption.
Qed.

(** ** what a run did *)
Lemma ball_run P groups old xs_total xs_scatter external boundary given flux :
  sound_sphere P -> (forall i g, (i < cells P)%nat -> (g < groups)%nat -> 0 <= xs_total (medium P i) g) ->
  source_iteration P groups old xs_total (Scatter3 xs_scatter) external boundary 2 given = Ok flux ->
  exists n x, (1 <= n <= 100)%nat /\ x 0%nat = old /\ flux = x n /\
    ((n < 100)%nat -> settled2 (cells P) groups (x n) (x (n - 1)%nat) (/ 10 ^ 8)) /\
    (forall k, (0 < k < n)%nat -> ~ settled2 (cells P) groups (x k) (x (k - 1)%nat) (/ 10 ^ 8)) /\
    forall k g, (k < n)%nat -> (g < groups)%nat ->
      exists p y, (1 <= p <= 100)%nat /\ y 0%nat = (fun i => x k i g) /\ (fun i => x (S k) i g) = y p /\
        ((p < 100)%nat -> settled (cells P) (y p) (y (p - 1)%nat) (/ 10 ^ 12)) /\
        forall j, (j < p)%nat -> ball_group P groups xs_total xs_scatter external boundary g (sweep_sees (x (S k)) (x k) (y j) g) (y (S j)).
Proof.
  intros Hsp Ht E. cbn [source_iteration] in E.
  destruct (outer_exit_iso _ _ _ _ _ _ _ _ _ E) as (n & x & Hn & X0 & X1 & Xs & Xu & Xe).
  exists n, x. split; [exact Hn|]. split; [exact X0|]. split; [exact X1|]. split; [exact Xe|]. split; [exact Xu|].
  intros k g Hk Hg. destruct (ball_sweep_groups _ _ _ _ _ _ _ _ (Xs k Hk)) as [G _]. specialize (G g Hg). unfold sphere_group in G.
  destruct (sphere_driver_trace _ _ _ _ _ _ _ _ _ G) as (p & y & Hp & Y0 & Y1 & Ys & _ & Ye).
  exists p, y. split; [exact Hp|]. split; [exact Y0|]. split; [exact Y1|]. split; [exact Ye|].
  intros j Hj. apply ball_pass; [exact Hsp|exact Hg|intros i Hi; apply Ht; assumption|]. apply Ys. exact Hj.
Qed.

(** ** solutions are kept *)
Lemma ball_kept P groups xs_total xs_scatter external boundary phi given :
  sound_sphere P -> (forall i g, (i < cells P)%nat -> (g < groups)%nat -> 0 <= xs_total (medium P i) g) ->
  ball_solution P groups xs_total xs_scatter external boundary phi ->
  exists flux, source_iteration P groups phi xs_total (Scatter3 xs_scatter) external boundary 2 given = Ok flux /\ agree2 (cells P) groups flux phi.
Proof.
  intros Hsp Ht Hsol. destruct (ball_total P groups phi xs_total xs_scatter external boundary given (proj1 Hsp)) as [flux E]. exists flux. split; [exact E|].
  destruct (ball_run _ _ _ _ _ _ _ _ _ Hsp Ht E) as (n & x & Hn & X0 & -> & _ & _ & R).
  assert (K : forall k, (k <= n)%nat -> agree2 (cells P) groups (x k) phi).
  { induction k as [|k IH]; intros Hk; [rewrite X0; intros i h _ _; reflexivity|].
    assert (G : forall g, (g < groups)%nat -> forall i, (i < cells P)%nat -> x (S k) i g = phi i g).
    { intros g. induction g as [g IHg] using (well_founded_induction lt_wf). intros Hg.
      destruct (R k g ltac:(lia) Hg) as (p & y & Hp & Y0 & Y1 & _ & Ys).
      assert (Q : forall j, (j <= p)%nat -> forall i, (i < cells P)%nat -> y j i = phi i g).
      { induction j as [|j IHj]; intros Hj; [intros i Hi; rewrite Y0; apply IH; [lia|exact Hi|exact Hg]|].
        apply (ball_group_unique P groups xs_total xs_scatter external boundary g (sweep_sees (x (S k)) (x k) (y j) g) phi); [exact Hsp|intros; apply Ht; assumption| |apply Ys; lia|apply Hsol; exact Hg].
        intros i h Hi Hh. unfold sweep_sees. destruct (Nat.ltb_spec h g); [apply IHg; assumption|].
        destruct (Nat.eqb_spec h g) as [-> |]; [apply IHj; [lia|exact Hi]|apply IH; [lia|exact Hi|exact Hh]]. }
      intros i Hi. change (x (S k) i g) with ((fun i => x (S k) i g) i). rewrite Y1. apply Q; [lia|exact Hi]. }
    intros i h Hi Hh. apply G; assumption. }
  apply K. lia.
Qed.

(** ** the infinite medium *)
Lemma ball_flat P groups xs_total xs_scatter external boundary (c : vec) :
  sound_sphere P -> let W := rsum (angles P) (wt P) in
  (forall g m i, (g < groups)%nat -> (m < angles P)%nat -> (i < cells P)%nat ->
     xs_total (medium P i) g * c g = rsum groups (fun h => xs_scatter (medium P i) g h * (W * c h)) + at3 external i (bidx (d3b external) m) (bidx (d3c external) g)) ->
  (forall g m, (g < groups)%nat -> (m < angles P)%nat -> at3 boundary 1%nat (bidx (d3b boundary) m) (bidx (d3c boundary) g) = c g) ->
  (0 < angles P)%nat ->
  ball_solution P groups xs_total xs_scatter external boundary (fun _ g => W * c g).
Proof.
  intros (Hnz & Hin & Hw & Hsum & Hdx & Htau) W Hq Hb Ha g Hg.
  assert (S : forall m i, (m < angles P)%nat -> (i < cells P)%nat -> mg_source (medium P) groups xs_scatter external (fun _ h => W * c h) g m i = xs_total (medium P i) g * c g).
  { intros m i Hm Hi. unfold mg_source. rewrite (Hq g m i Hg Hm Hi). reflexivity. }
  exists (fun _ => c g), (fun _ _ => c g), (fun _ _ => c g), (fun _ _ => c g).
  split; [|split; [|split; [|split; [|split; [|split; [|split]]]]]].
  - intros i Hi. rewrite (S 0%nat i Ha Hi). specialize (Hdx i Hi). field. lra.
  - pose proof (Hb g 0%nat Hg Ha) as B. rewrite bidx0 in B. symmetry. exact B.
  - intros; lra.
  - intros m Hm i Hi. cbv zeta. split; [lra|]. rewrite S by assumption. pose proof (al_diff P m Hm Hsum) as D. unfold al in D. specialize (Hw m Hm).
    replace (alpha_coef (angles P) (mu P) (wt P) (Datatypes.S m) * c g - alpha_coef (angles P) (mu P) (wt P) m * c g)
      with (- (alpha_coef (angles P) (mu P) (wt P) m - alpha_coef (angles P) (mu P) (wt P) (Datatypes.S m)) * c g) by ring. rewrite D. field. lra.
  - intros m Hm. split; [reflexivity|]. intros _. symmetry. apply Hb; assumption.
  - intros; lra.
  - reflexivity.
  - intros i Hi. rewrite (rsum_ext (angles P) _ (fun m => wt P m * c g)) by (intros; lra). rewrite rsum_scal_r. reflexivity.
Qed.
