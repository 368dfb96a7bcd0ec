(** Critical spheres: power iteration, and what k is. *)
From Coq Require Import Lra Lia Psatz FunctionalExtensionality.
From Verif Require Import Base BaseFacts SlabModel SlabSpec SlabFacts SlabFacts3 SphereModel SphereSpec SphereFacts SphereFacts2 MgModel MgSpec MgFacts MgFacts2 MgFacts6 CritModel CritSpec CritFacts CritFacts2 InfSpec InfFacts5 AniSpec AniFacts6 ShellSpec ShellFacts ShellFacts2 ShellFacts3 ShellFacts4 ShellFacts5.
Open Scope R_scope.

Lemma ball_power_total P groups xs_total xs_scatter f guess : nonzero_ordinates (angles P) (mu P) ->
  match xs_scatter with Scatter3 _ => True | Scatter4 nm _ => (0 < nm)%nat end ->
  exists r, power_iteration P groups xs_total xs_scatter f 2 guess = Ok r.
Proof.
  intros Hz Hs. apply iterate_total; [|unfold count_kk; lia].
  intros [flux k]. unfold power_step. destruct xs_scatter as [xs|nm xs].
  - match goal with |- context [source_iteration ?P ?g ?o ?t (Scatter3 ?s) ?e ?b 2 None] => destruct (ball_total P g o t s e b None Hz) as [raw Er]; rewrite Er end.
    cbn [bind]. eauto.
  - match goal with |- context [source_iteration ?P ?g ?o ?t (Scatter4 ?n ?s) ?e ?b 2 None] => destruct (aniso_ball_total P g n o t s e b None Hs Hz) as [raw Er]; rewrite Er end.
    cbn [bind]. eauto.
Qed.

Lemma ball_external_ext P groups xs_total xs_scatter e1 e2 boundary phi :
  d3b e1 = d3b e2 -> d3c e1 = d3c e2 ->
  (forall i m g, (i < cells P)%nat -> (g < groups)%nat -> at3 e1 i m (bidx (d3c e1) g) = at3 e2 i m (bidx (d3c e2) g)) ->
  ball_solution P groups xs_total xs_scatter e1 boundary phi -> ball_solution P groups xs_total xs_scatter e2 boundary phi.
Proof.
  intros Hb Hc He H g Hg. destruct (H g Hg) as (s & p & h & k & T). exists s, p, h, k.
  eapply ball_ext; [| |reflexivity|exact T]; intros; unfold mg_source; rewrite He by assumption; try rewrite Hb; reflexivity.
Qed.

Lemma ball_power_eigenpair P groups xs_total xs_scatter f phi k :
  sound_sphere P -> (forall i g, (i < cells P)%nat -> (g < groups)%nat -> 0 <= xs_total (medium P i) g) ->
  nonneg_fission (cells P) groups (medium P) f ->
  ball_eigenpair P groups xs_total xs_scatter f phi k ->
  0 < k -> norm2 (cells P) groups phi = 1 ->
  production (cells P) groups f (medium P) phi <> 0 ->
  (forall i g, (i < cells P)%nat -> (g < groups)%nat -> phi i g <> 0) ->
  exists flux,
    power_iteration P groups xs_total (Scatter3 xs_scatter) f 2 (fun i g => k * phi i g) = Ok (flux, k) /\
    agree2 (cells P) groups flux phi.
Proof.
  intros Hz Hd Hn Hsol Hk Hnorm Hp Hnz.
  assert (Hstart : power_start (cells P) groups (fun i g => k * phi i g) = (phi, k)).
  { unfold power_start.
    assert (E : norm2 (cells P) groups (fun i g => k * phi i g) = k).
    { rewrite (norm2_ext _ _ (fun i g => k * phi i g) (fun i g => phi i g * k)) by (intros i g _ _; ring).
      rewrite norm2_scale, Hnorm, Rabs_right by lra. ring. }
    rewrite E. f_equal. extensionality i. extensionality g. rewrite Rabs_right by lra. field. lra. }
  unfold power_iteration. rewrite Hstart. unfold count_kk at 1. cbn [iterate].
  set (source := fission_source (cells P) groups f (medium P) zeros2 phi k).
  assert (Hs : ball_solution P groups xs_total xs_scatter (as_source groups source) no_boundary phi).
  { eapply ball_external_ext; [| | |exact Hsol]; try reflexivity.
    intros i m g Hi Hg. cbn [at3 d3b d3c as_source]. symmetry.
    unfold source. apply fission_source_emission; [exact Hn|exact Hi|].
    unfold bidx. destruct (Nat.eqb_spec groups 1); lia. }
  destruct (ball_kept P groups xs_total xs_scatter (as_source groups source) no_boundary phi None Hz Hd Hs) as (flux & E & Ha).
  unfold power_step at 1. fold source. rewrite E. cbn [bind].
  assert (Hnf : norm2 (cells P) groups flux = 1) by (rewrite (norm2_ext _ _ _ _ Ha); exact Hnorm).
  rewrite Hnf.
  assert (Hkk : update_keff (cells P) groups f (medium P) flux phi k = k).
  { rewrite update_keff_ratio by exact Hn. rewrite (production_ext _ _ _ _ _ _ Ha). field. exact Hp. }
  rewrite Hkk.
  assert (Hc : flux_change (cells P) groups (fun i g => flux i g / 1, k) (phi, k) = Some 0).
  { unfold flux_change. cbn [fst]. rewrite (rel_change2_ext _ _ _ phi phi phi).
    - apply rel_change2_same. exact Hnz.
    - intros i g Hi Hg. rewrite Ha by assumption. field.
    - intros i g _ _. reflexivity. }
  rewrite Hc. cbn [below]. unfold change_kk.
  destruct (Rlt_dec 0 (/ 10 ^ 6)) as [_|Hbad]; [|exfalso; apply Hbad; apply Rinv_0_lt_compat, pow_lt; lra].
  cbn [orb]. eexists. split; [reflexivity|]. intros i g Hi Hg. rewrite Ha by assumption. field.
Qed.

(** the balance of one group at an eigenpair, with what the angular differencing adds *)
Lemma ball_eigen_balance P groups xs_total xs_scatter f phi k g :
  sound_sphere P -> k <> 0 -> ball_eigenpair P groups xs_total xs_scatter f phi k -> (g < groups)%nat ->
  exists start psi hm hp,
    sphere_transport (cells P) (angles P) (mu P) (wt P) (dx P) (fun i => xs_total (medium P i) g)
      (fun _ i => rsum groups (fun h => xs_scatter (medium P i) g h * phi i h) + emission groups f (medium P) phi i g / k)
      (fun i => rsum groups (fun h => xs_scatter (medium P i) g h * phi i h) + emission groups f (medium P) phi i g / k)
      (fun _ => 0) 0 start psi hm hp (fun i => phi i g) /\
    k * (rsum (cells P) (fun i => shell_leakage (angles P) (mu P) (wt P) (code_rin (dx P)) (code_rout (dx P)) psi i
           + shell_volume P i * (xs_total (medium P i) g * phi i g - rsum (angles P) (wt P) * rsum groups (fun h => xs_scatter (medium P i) g h * phi i h)))
         + rsum (cells P) (fun i => (sphere_area (code_rout (dx P) i) - sphere_area (code_rin (dx P) i))
             * rsum (angles P) (fun m => alpha_coef (angles P) (mu P) (wt P) (S m) * hp m i - alpha_coef (angles P) (mu P) (wt P) m * hm m i)))
    = rsum (angles P) (wt P) * rsum (cells P) (fun i => shell_volume P i * emission groups f (medium P) phi i g).
Proof.
  intros Hsp Hk Hsol Hg. destruct (Hsol g Hg) as (s & p & h & l & T). exists s, p, h, l.
  assert (B : forall G (i : nat), (G < groups)%nat -> emission groups f (medium P) phi i (bidx groups G) = emission groups f (medium P) phi i G).
  { intros G i HG. unfold bidx. destruct (Nat.eqb_spec groups 1); [replace G with 0%nat by lia; reflexivity|reflexivity]. }
  assert (T' : sphere_transport (cells P) (angles P) (mu P) (wt P) (dx P) (fun i => xs_total (medium P i) g)
      (fun _ i => rsum groups (fun h => xs_scatter (medium P i) g h * phi i h) + emission groups f (medium P) phi i g / k)
      (fun i => rsum groups (fun h => xs_scatter (medium P i) g h * phi i h) + emission groups f (medium P) phi i g / k)
      (fun _ => 0) 0 s p h l (fun i => phi i g)).
  { eapply ball_ext; [| |reflexivity|exact T]; intros; unfold mg_source; cbn [at3 d3c]; rewrite B by exact Hg; reflexivity. }
  split; [exact T'|].
  destruct Hsp as (_ & _ & Hw & _).
  assert (Hw' : forall m, (m < angles P)%nat -> wt P m <> 0) by (intros m Hm; specialize (Hw m Hm); lra).
  rewrite <- rsum_plus, <- !rsum_scal. apply rsum_ext. intros i Hi.
  pose proof (sphere_cell_balance _ _ _ _ _ _ _ _ _ _ _ _ _ _ _ i T' Hw' Hi) as C. cbv beta in C. rewrite rsum_scal_r in C. fold (shell_volume P i) in C.
  set (L := shell_leakage _ _ _ _ _ _ _) in *. set (D := (_ - _) * rsum _ _) in *. set (V := shell_volume P i) in *. set (W := rsum (angles P) (wt P)) in *.
  set (Sc := rsum groups _) in *. set (E := emission groups f (medium P) phi i g) in *.
  replace (L + V * (xs_total (medium P i) g * phi i g - W * Sc) + D) with (L + xs_total (medium P i) g * V * phi i g - V * (W * Sc) + D) by ring.
  rewrite C. field. exact Hk.
Qed.

(** ** a fissile core *)
Definition core_fission (nu : R) : fission_data := FissionMatrix (fun m _ _ => if Nat.eqb m 0 then nu else 0).

Lemma core_emission n d a nu (phi : mat2) i : emission 1 (core_fission nu) (medium (pair_ball n d a)) phi i 0%nat = spark_q (nu * phi 0%nat 0%nat) i.
Proof. unfold emission, core_fission, spark_q. cbn [rsum fission_entry pair_ball medium]. destruct (Nat.eqb_spec i 0) as [-> |]; cbn [Nat.eqb]; ring. Qed.
Lemma core_production n d a nu phi : (1 <= n)%nat -> production n 1 (core_fission nu) (medium (pair_ball n d a)) phi = nu * phi 0%nat 0%nat.
Proof.
  intros Hn. unfold production. rewrite (rsum_ext n _ (spark_q (nu * phi 0%nat 0%nat))).
  - rewrite (rsum_single n _ 0%nat ltac:(lia)) by (intros i _ Hi; unfold spark_q; destruct (Nat.eqb_spec i 0); [contradiction|reflexivity]). reflexivity.
  - intros i Hi. cbn [rsum]. rewrite core_emission. ring.
Qed.
Lemma core_nonneg n d a nu : 0 <= nu -> nonneg_fission n 1 (medium (pair_ball n d a)) (core_fission nu).
Proof. intros H i o h _ _ _. cbn [core_fission]. destruct (Nat.eqb _ 0); lra. Qed.

Lemma spark_solve n d a sg c old source raw : (1 <= n)%nat -> 0 < d -> 0 <= sg -> 0 < a < 1 ->
  (forall i, (i < n)%nat -> source i 0%nat = spark_q c i) ->
  source_iteration (pair_ball n d a) 1 old (fun _ _ => sg) (Scatter3 (fun _ _ _ => 0)) (mkArr3 1 1 (fun i _ g => source i g)) dark 2 None = Ok raw ->
  exists start psi hm hp,
    sphere_transport n 2 (pair_mu a) (fun _ => 1 / 2) (fun _ => d) (fun _ => sg) (fun _ => spark_q c) (spark_q c) (fun _ => 0) 0 start psi hm hp (fun i => raw i 0%nat).
Proof.
  intros Hn Hd Hs Ha Hq E.
  destruct (ball_run _ _ _ _ _ _ _ _ _ (pair_sound n d a Hd Ha) ltac:(intros; exact Hs) E) as (N & x & HN & _ & -> & _ & _ & R).
  destruct (R (N - 1)%nat 0%nat ltac:(lia) ltac:(lia)) as (p & y & Hp & _ & Y1 & _ & Ys). replace (S (N - 1)) with N in * by lia.
  destruct (Ys (p - 1)%nat ltac:(lia)) as (s & psi & hm & hp & T). replace (S (p - 1)) with p in T by lia. rewrite <- Y1 in T.
  exists s, psi, hm, hp. eapply ball_ext; [| |reflexivity|exact T]; intros; unfold mg_source; cbn [rsum at3 d3c bidx Nat.eqb]; rewrite Hq by assumption; ring.
Qed.

Definition core_gain (d a sg : R) : R := d * (4 + 2 * (sg * d) + 9 * a) / (2 * (2 + sg * d) * (6 * a + sg * d)).
Lemma core_gain_pos d a sg : 0 < d -> 0 < a -> 0 <= sg -> 0 < core_gain d a sg.
Proof.
  intros Hd Ha Hs. assert (0 <= sg * d) by (apply Rmult_le_pos; lra). unfold core_gain. apply Rdiv_lt_0_compat; repeat apply Rmult_lt_0_compat; lra.
Qed.

Lemma core_pass n d a sg nu old k_old flux k : (1 <= n)%nat -> 0 < d -> 0 <= sg -> 0 < a < 1 -> 0 < nu -> 0 < k_old -> 0 < old 0%nat 0%nat ->
  power_step (pair_ball n d a) 1 (fun _ _ => sg) (Scatter3 (fun _ _ _ => 0)) (core_fission nu) 2 (old, k_old) = Ok (flux, k) ->
  k = nu * core_gain d a sg /\ 0 < flux 0%nat 0%nat /\
  exists start psi hm hp,
    sphere_transport n 2 (pair_mu a) (fun _ => 1 / 2) (fun _ => d) (fun _ => sg) (fun _ => spark_q (nu * flux 0%nat 0%nat / k)) (spark_q (nu * flux 0%nat 0%nat / k)) (fun _ => 0) 0 start psi hm hp (fun i => flux i 0%nat).
Proof.
  intros Hn Hd Hs Ha Hnu Hk Ho E. pose proof (core_gain_pos d a sg Hd (proj1 Ha) Hs) as Hg.
  destruct (power_step_spec (pair_ball n d a) _ _ _ _ _ _ _ _ _ (core_nonneg n d a nu ltac:(lra)) E) as (source & raw & Hq & Er & Ek & Ef & Nn).
  cbn [pair_ball cells] in *. set (c := nu * old 0%nat 0%nat / k_old).
  assert (Hc : 0 < c) by (unfold c; apply Rdiv_lt_0_compat; [apply Rmult_lt_0_compat; lra|lra]).
  destruct (spark_solve n d a sg c old source raw Hn Hd Hs Ha) as (s & psi & hm & hp & T); [|exact Er|].
  { intros i Hi. rewrite Hq by lia. change (fun i => if Nat.eqb i 0 then 0%nat else 1%nat) with (medium (pair_ball n d a)). rewrite core_emission. unfold spark_q, c. destruct (Nat.eqb i 0); [reflexivity|unfold Rdiv; ring]. }
  destruct (spark_balance n d a sg c s psi hm hp _ Hn Hd Hs Ha T) as [_ V]. fold (core_gain d a sg) in V. cbv beta in V.
  assert (Hr : 0 < raw 0%nat 0%nat) by (rewrite V; apply Rmult_lt_0_compat; lra).
  change (fun i => if Nat.eqb i 0 then 0%nat else 1%nat) with (medium (pair_ball n d a)) in Ek. rewrite !core_production in Ek by exact Hn.
  assert (Ek' : k = nu * core_gain d a sg) by (rewrite Ek, V; unfold c; field; split; lra).
  assert (Hnn : 0 < norm2 n 1 raw).
  { destruct (Rle_lt_or_eq_dec 0 _ (norm2_nonneg n 1 raw)) as [|Z]; [assumption|]. symmetry in Z. rewrite (norm2_zero _ _ _ Z 0%nat 0%nat) in Hr by lia. lra. }
  split; [exact Ek'|]. split; [rewrite Ef; apply Rdiv_lt_0_compat; assumption|].
  set (N := norm2 n 1 raw) in *.
  exists (fun j => s j / N), (fun m j => psi m j / N), (fun m j => hm m j / N), (fun m j => hp m j / N).
  assert (Ec : nu * flux 0%nat 0%nat / k = c / N) by (rewrite Ef, V, Ek'; fold N; field; repeat split; lra).
  rewrite Ec. destruct T as (B & E0 & H & O & I & W & Z & F).
  assert (Sq : forall i, spark_q (c / N) i = spark_q c i / N) by (intros i; unfold spark_q; destruct (Nat.eqb i 0); [reflexivity|unfold Rdiv; ring]).
  split; [|split; [|split; [|split; [|split; [|split; [|split]]]]]].
  - intros i Hi. rewrite Sq, <- (B i Hi). field. lra.
  - rewrite E0. unfold Rdiv; ring.
  - intros i Hi. rewrite H by exact Hi. field. lra.
  - intros m Hm i Hi. destruct (O m Hm i Hi) as [O1 O2]. cbv zeta in *. split; [transitivity ((psi m i + psi m (S i)) / 2 / N); [field; lra|rewrite O1; field; lra]|].
    rewrite Sq. set (v := ball_volume _ - ball_volume _) in *. replace (v * (spark_q c i / N)) with (v * spark_q c i / N) by (unfold Rdiv; ring). rewrite <- O2. field. lra.
  - intros m Hm. destruct (I m Hm) as [I1 I2]. split; intros X; [rewrite (I1 X); reflexivity|rewrite (I2 X); unfold Rdiv; ring].
  - intros m i Hm Hi. transitivity ((psi m i + psi m (S i)) / 2 / N); [field; lra|]. rewrite (W m i Hm Hi). field. lra.
  - intros m Hm H0. rewrite (Z m Hm H0). reflexivity.
  - intros i Hi. rewrite Ef. fold N. rewrite (F i Hi). unfold Rdiv at 1. rewrite <- rsum_scal_r. apply rsum_ext. intros; field; lra.
Qed.

Lemma core_run n d a sg nu guess flux k : (1 <= n)%nat -> 0 < d -> 0 <= sg -> 0 < a < 1 -> 0 < nu -> 0 < guess 0%nat 0%nat ->
  power_iteration (pair_ball n d a) 1 (fun _ _ => sg) (Scatter3 (fun _ _ _ => 0)) (core_fission nu) 2 guess = Ok (flux, k) ->
  k = nu * core_gain d a sg /\ 0 < flux 0%nat 0%nat /\
  exists start psi hm hp,
    sphere_transport n 2 (pair_mu a) (fun _ => 1 / 2) (fun _ => d) (fun _ => sg) (fun _ => spark_q (nu * flux 0%nat 0%nat / k)) (spark_q (nu * flux 0%nat 0%nat / k)) (fun _ => 0) 0 start psi hm hp (fun i => flux i 0%nat).
Proof.
  intros Hn Hd Hs Ha Hnu Hgu E. pose proof (core_gain_pos d a sg Hd (proj1 Ha) Hs) as Hg.
  destruct (power_trace _ _ _ _ _ _ _ _ E) as (N & x & HN & X0 & Xn & Xs & _).
  assert (Hk0 : 0 < nu * core_gain d a sg) by (apply Rmult_lt_0_compat; lra).
  assert (K : forall j, (j <= N)%nat -> 0 < snd (x j) /\ 0 < fst (x j) 0%nat 0%nat).
  { induction j as [|j IH]; intros Hj.
    - rewrite X0. unfold power_start. cbn [fst snd pair_ball cells]. 
      assert (Hnn : 0 < norm2 n 1 guess).
      { destruct (Rle_lt_or_eq_dec 0 _ (norm2_nonneg n 1 guess)) as [|Z]; [assumption|]. symmetry in Z. rewrite (norm2_zero _ _ _ Z 0%nat 0%nat) in Hgu by lia. lra. }
      split; [exact Hnn|]. rewrite Rabs_right by lra. apply Rdiv_lt_0_compat; assumption.
    - destruct (IH ltac:(lia)) as [I1 I2]. pose proof (Xs j ltac:(lia)) as Sj. destruct (x j) as [o ko], (x (S j)) as [o' ko']. cbn [fst snd] in *.
      destruct (core_pass n d a sg nu o ko o' ko' Hn Hd Hs Ha Hnu I1 I2 Sj) as (A & B & _). rewrite A. split; assumption. }
  destruct (K (N - 1)%nat ltac:(lia)) as [I1 I2]. pose proof (Xs (N - 1)%nat ltac:(lia)) as Sj. replace (S (N - 1)) with N in Sj by lia. rewrite <- Xn in Sj.
  destruct (x (N - 1)%nat) as [o ko]. cbn [fst snd] in *. exact (core_pass n d a sg nu o ko flux k Hn Hd Hs Ha Hnu I1 I2 Sj).
Qed.
