(** Power iteration with inexact transport solves converges to the fundamental mode. *)
From Coq Require Import Lra Lia Psatz.
From Verif Require Import Base BaseFacts Contraction SlabModel SlabSpec SlabFacts SlabFacts2 SlabFacts3 SlabFacts4.
From Verif Require Import MgModel MgSpec MgFacts MgFacts2 MgFacts3 MgFacts5 MgFacts6 SupSpec SupFacts SupFacts2 SupFacts3 CritModel CritSpec CritFacts CritFacts2 CritFacts5 CritFacts6 CritFacts7.
Open Scope R_scope.

Section Run.
Variables (P : sn) (G : nat) (T : mat2) (X : mat3) (f : fission_data) (d : R).
Hypothesis HD : damped_transport P G T X.
Let n := cells P.
Hypothesis Hn : (0 < n)%nat.
Hypothesis HG : (0 < G)%nat.
Hypothesis Hf : nonneg_fission n G (medium P) f.
Hypothesis Heven : even_generation P G T X f d.

Lemma emission_scaled v c i g : emission G f (medium P) (fun i g => c * v i g) i g = c * emission G f (medium P) v i g.
Proof. unfold emission. rewrite <- rsum_scal. apply rsum_ext. intros; ring. Qed.

(** the exact solution of a pass is one generation divided by k *)
Lemma pass_exact v kap source w u : kap <> 0 ->
  (forall i g, (i < n)%nat -> (g < G)%nat -> source i g = emission G f (medium P) v i g / kap) ->
  next_generation P G T X f v w ->
  agree2 n G u (fun i g => w i g / kap) ->
  mg_solution P G T X (mkArr3 1 G (fun i _ g => source i g)) (mkArr3 1 1 (fun _ _ _ => 0)) u.
Proof.
  intros Hk Hs Hw Hu. apply (generation_scale P G T X f v w (/ kap)) in Hw. unfold next_generation in Hw.
  apply (solution_ext P G T X (emission G f (medium P) (fun i g => / kap * v i g)) source dark (fun i g => / kap * w i g) u); [| |exact Hw].
  - intros i g Hi Hg. rewrite emission_scaled, Hs by assumption. unfold Rdiv. ring.
  - intros i g Hi Hg. rewrite Hu by assumption. unfold Rdiv. ring.
Qed.

Lemma production_mono v w : below2 n G v w -> production n G f (medium P) v <= production n G f (medium P) w.
Proof. intros H. apply rsum_le. intros i Hi. apply rsum_le. intros g Hg. apply (emission_mono n G (medium P) f v w Hf H i g Hi Hg). Qed.

Section WithMode.
Variables (K : mat2 -> mat2) (phi : mat2) (k eta : R).
Hypothesis HK : forall v, next_generation P G T X f v (K v).
Hypothesis K_lin : forall a b v w i g, (i < n)%nat -> (g < G)%nat -> K (fun i g => a * v i g + b * w i g) i g = a * K v i g + b * K w i g.
Hypothesis K_mono : forall v w, below2 n G v w -> below2 n G (K v) (K w).
Hypothesis Kh : forall v, below2 n G (fun _ _ => 0) v ->
     forall i g j h, (i < n)%nat -> (g < G)%nat -> (j < n)%nat -> (h < G)%nat -> d * K v j h <= K v i g.
Hypothesis Hk : 0 < k.
Hypothesis Hphi : positive2 n G phi.
Hypothesis Heig : forall i g, (i < n)%nat -> (g < G)%nat -> K phi i g = k * phi i g.
Hypothesis Heta : 0 <= eta < 1.

Lemma production_positive v : positive2 n G v -> 0 < production n G f (medium P) v.
Proof.
  intros Hv. assert (NE : forall i g, (i < n)%nat -> (g < G)%nat -> 0 <= emission G f (medium P) v i g).
  { intros i g Hi Hg. apply rsum_nonneg. intros h Hh. apply Rmult_le_pos; [eapply emission_entry; eassumption|left; apply Hv; assumption]. }
  destruct (Rle_dec (production n G f (medium P) v) 0) as [L|L]; [exfalso|lra].
  assert (Z : forall i g, (i < n)%nat -> (g < G)%nat -> emission G f (medium P) v i g = 0).
  { intros i g Hi Hg. apply Rle_antisym; [|apply NE; assumption]. eapply Rle_trans; [|exact L].
    eapply Rle_trans; [|apply (rsum_term_le n (fun i => rsum G (fun g => emission G f (medium P) v i g)) i); [intros; apply rsum_nonneg; intros; apply NE; assumption|exact Hi]].
    apply (rsum_term_le G (fun g => emission G f (medium P) v i g) g); [intros; apply NE; assumption|exact Hg]. }
  assert (Pk := gen_positive n G K Hn HG K_lin K_mono phi k Hk Hphi Heig v Hv 0%nat 0%nat Hn HG).
  assert (E : K v 0%nat 0%nat = 0).
  { pose proof (HK v) as H. unfold next_generation in H.
    apply (generation_unique P G T X HD f v (K v) (fun _ _ => 0) (HK v)); [|exact Hn|exact HG].
    unfold next_generation. apply (solution_ext P G T X (fun _ _ => 0) _ dark (fun _ _ => 0)); [|intros ? ? _ _; reflexivity|apply zero_solution; exact HD].
    intros i g Hi Hg. symmetry. apply Z; assumption. }
  lra.
Qed.

Lemma one_pass v kap v' kap' : positive2 n G v -> 0 < kap ->
  power_step P G T (Scatter3 X) f 1 (v, kap) = Ok (v', kap') -> accurate_solve P G T X f eta (v, kap) ->
  close n G K eta v v' /\ 0 < kap' /\
  forall a b, 0 <= a -> between n G a b v (K v) -> (1 - eta) * a <= kap' <= (1 + eta) * b.
Proof.
  intros Hv Hkap E Acc. destruct (power_step_spec P G T (Scatter3 X) f 1 v kap v' kap' Hf E) as (source & raw & Hs & Er & Ek & Ev & _).
  set (w := fun i g => K v i g / kap).
  assert (Hw : mg_solution P G T X (mkArr3 1 G (fun i _ g => source i g)) (mkArr3 1 1 (fun _ _ _ => 0)) w).
  { apply (pass_exact v kap source (K v) w); [lra|exact Hs|apply HK|intros i g _ _; reflexivity]. }
  specialize (Acc source raw w Hs Er Hw). fold n in Acc.
  pose proof (gen_positive n G K Hn HG K_lin K_mono phi k Hk Hphi Heig v Hv) as PK.
  assert (Wp : forall i g, (i < n)%nat -> (g < G)%nat -> 0 < w i g) by (intros i g Hi Hg; apply Rdiv_lt_0_compat; [apply PK; assumption|exact Hkap]).
  assert (Rw : forall i g, (i < n)%nat -> (g < G)%nat -> (1 - eta) * w i g <= raw i g <= (1 + eta) * w i g).
  { intros i g Hi Hg. specialize (Acc i g Hi Hg). unfold Rabs in Acc. destruct (Rcase_abs _) in Acc; lra. }
  assert (Rp : forall i g, (i < n)%nat -> (g < G)%nat -> 0 < raw i g).
  { intros i g Hi Hg. specialize (Rw i g Hi Hg). specialize (Wp i g Hi Hg). nra. }
  assert (Np : 0 < norm2 (cells P) G raw).
  { destruct (Rle_lt_or_eq_dec 0 _ (norm2_nonneg (cells P) G raw)) as [L|L]; [exact L|exfalso].
    symmetry in L. pose proof (norm2_zero _ _ _ L 0%nat 0%nat Hn HG). pose proof (Rp 0%nat 0%nat Hn HG). lra. }
  pose proof (production_positive v Hv) as Pv. pose proof (production_positive raw Rp) as Pr.
  split; [|split].
  - exists (/ (kap * norm2 (cells P) G raw)). split; [apply Rinv_0_lt_compat, Rmult_lt_0_compat; assumption|].
    intros i g Hi Hg. rewrite Ev. specialize (Rw i g Hi Hg). unfold w in Rw.
    assert (IN : 0 < / norm2 (cells P) G raw) by (apply Rinv_0_lt_compat; exact Np).
    replace (/ (kap * norm2 (cells P) G raw) * K v i g) with (K v i g / kap * / norm2 (cells P) G raw) by (field; lra).
    unfold Rdiv at 2 3. split; nra.
  - rewrite Ek. apply Rdiv_lt_0_compat; [apply Rmult_lt_0_compat; assumption|exact Pv].
  - intros a b Ha Hb.
    assert (B1 : production n G f (medium P) (fun i g => (1 - eta) * a * v i g) <= production n G f (medium P) (fun i g => kap * raw i g)).
    { apply production_mono. intros i g Hi Hg. destruct (Rw i g Hi Hg) as [R1 _]. destruct (Hb i g Hi Hg) as [C1 _].
      apply Rle_trans with (kap * ((1 - eta) * w i g)); [|apply Rmult_le_compat_l; lra].
      unfold w. replace (kap * ((1 - eta) * (K v i g / kap))) with ((1 - eta) * K v i g) by (field; lra). rewrite Rmult_assoc. apply Rmult_le_compat_l; lra. }
    assert (B2 : production n G f (medium P) (fun i g => kap * raw i g) <= production n G f (medium P) (fun i g => (1 + eta) * b * v i g)).
    { apply production_mono. intros i g Hi Hg. destruct (Rw i g Hi Hg) as [_ R1]. destruct (Hb i g Hi Hg) as [_ C1].
      apply Rle_trans with (kap * ((1 + eta) * w i g)); [apply Rmult_le_compat_l; lra|].
      unfold w. replace (kap * ((1 + eta) * (K v i g / kap))) with ((1 + eta) * K v i g) by (field; lra). rewrite Rmult_assoc. apply Rmult_le_compat_l; lra. }
    rewrite !production_scale in B1, B2. rewrite Ek. fold n.
    split; apply (Rmult_le_reg_r (production n G f (medium P) v)); try exact Pv.
    + replace (kap * production n G f (medium P) raw / production n G f (medium P) v * production n G f (medium P) v) with (kap * production n G f (medium P) raw) by (field; lra). lra.
    + replace (kap * production n G f (medium P) raw / production n G f (medium P) v * production n G f (medium P) v) with (kap * production n G f (medium P) raw) by (field; lra). lra.
Qed.

Lemma run_closes N (x : nat -> mat2 * R) : positive2 n G (fst (x 0%nat)) -> 0 < snd (x 0%nat) ->
  (forall m, (m < N)%nat -> power_step P G T (Scatter3 X) f 1 (x m) = Ok (x (S m)) /\ accurate_solve P G T X f eta (x m)) ->
  forall m, (m <= N)%nat -> positive2 n G (fst (x m)) /\ 0 < snd (x m) /\ ((m < N)%nat -> close n G K eta (fst (x m)) (fst (x (S m))) /\
    forall a b, 0 <= a -> between n G a b (fst (x m)) (K (fst (x m))) -> (1 - eta) * a <= snd (x (S m)) <= (1 + eta) * b).
Proof.
  intros H0 K0 Hx. induction m as [|m IH]; intros Hm.
  - split; [exact H0|]. split; [exact K0|]. intros HN. destruct (Hx 0%nat HN) as [E A].
    destruct (x 0%nat) as [v kap] eqn:E0. destruct (x 1%nat) as [v' kap'] eqn:E1. cbn [fst snd] in *.
    destruct (one_pass v kap v' kap' H0 K0 E A) as (C & _ & B). split; [exact C|exact B].
  - destruct (IH ltac:(lia)) as (Pm & Km & Cm). destruct (Hx m ltac:(lia)) as [E A].
    assert (P' : positive2 n G (fst (x (S m))) /\ 0 < snd (x (S m))).
    { destruct (x m) as [v kap] eqn:E0. destruct (x (S m)) as [v' kap'] eqn:E1. cbn [fst snd] in *.
      destruct (one_pass v kap v' kap' Pm Km E A) as (C & Kp & _). split; [|exact Kp].
      exact (close_positive n G K Hn HG K_lin K_mono phi k Hk Hphi Heig eta Heta v v' Pm C). }
    destruct P' as [Pm' Km']. split; [exact Pm'|]. split; [exact Km'|]. intros HN. destruct (Hx (S m) HN) as [E' A'].
    destruct (x (S m)) as [v kap] eqn:E0. destruct (x (S (S m))) as [v' kap'] eqn:E1. cbn [fst snd] in *.
    destruct (one_pass v kap v' kap' Pm' Km' E' A') as (C & _ & B). split; [exact C|exact B].
Qed.
End WithMode.

Theorem power_converges phi k eta N (x : nat -> mat2 * R) :
  0 < k -> positive2 n G phi -> eigenpair P G T X f phi k -> 0 <= eta < 1 ->
  positive2 n G (fst (x 0%nat)) -> 0 < snd (x 0%nat) ->
  (forall m, (m < N)%nat -> power_step P G T (Scatter3 X) f 1 (x m) = Ok (x (S m)) /\ accurate_solve P G T X f eta (x m)) ->
  let kap := (1 + eta) / (1 - eta) in
  let width m := (1 - d ^ 2) ^ m + (kap - / kap) / d ^ 2 in
  (forall m, (S (S m) <= N)%nat -> Rabs (snd (x (S (S m))) - k) <= (width m + eta) * (kap * k / d ^ 2)) /\
  (forall m, (S m <= N)%nat -> exists c, 0 < c /\ forall i g, (i < n)%nat -> (g < G)%nat ->
     c * phi i g <= fst (x (S m)) i g <= c * (1 + width m * kap ^ 2 / d ^ 6) * phi i g).
Proof.
  intros Hk Hphi Hpair Heta H0 K0 Hx kap width.
  destruct (generation_operator P G T X HD f d Hf Heven) as (K & HK & K_lin & K_mono & Kh).
  destruct Heven as [Hd _].
  assert (Heig : forall i g, (i < n)%nat -> (g < G)%nat -> K phi i g = k * phi i g).
  { intros i g Hi Hg. apply (generation_unique P G T X HD f phi (K phi) (fun i g => k * phi i g) (HK phi)); [|exact Hi|exact Hg]. apply eigenpair_generation; [lra|exact Hpair]. }
  pose proof (run_closes K phi k eta HK K_lin K_mono Hk Hphi Heig Heta N x H0 K0 Hx) as Run.
  pose proof (tight_run n G K d Hn HG K_lin K_mono Hd Kh phi k Hk Hphi Heig eta Heta (fun m => fst (x m)) N H0
    ltac:(intros m Hm; apply (Run m ltac:(lia)); exact Hm)) as Tr.
  pose proof (kap_pos eta Heta) as KP. pose proof (d'_pos d Hd eta Heta) as DP. fold kap in KP, Tr, DP.
  assert (EL : k / (d * (d / kap)) = kap * k / d ^ 2) by (field; split; lra).
  pose proof (L_pos d Hd k Hk eta Heta) as LP. fold kap in LP. rewrite EL in LP.
  split.
  - intros m Hm. destruct (Tr m ltac:(lia)) as (Pm & a & b & A & Kab & BL & W & Bt). fold kap in A, BL, W. rewrite EL in BL, W. fold (width m) in W.
    destruct (Run (S m) ltac:(lia)) as (_ & _ & C). destruct (C ltac:(lia)) as [_ C'].
    assert (Ha : 0 <= a). { eapply Rle_trans; [|exact A]. left. apply Rmult_lt_0_compat; [apply Rmult_lt_0_compat|]; lra. }
    specialize (C' a b Ha Bt). destruct C' as [C1 C2].
    assert (eta * a <= eta * (kap * k / d ^ 2)) by (apply Rmult_le_compat_l; lra).
    assert (eta * b <= eta * (kap * k / d ^ 2)) by (apply Rmult_le_compat_l; lra).
    rewrite Rmult_plus_distr_r. unfold Rabs. destruct (Rcase_abs _); lra.
  - intros m Hm. destruct (Tr m ltac:(lia)) as (Pm & a & b & A & Kab & BL & W & Bt). fold kap in A, BL, W. rewrite EL in BL, W. fold (width m) in W.
    assert (A0 : 0 < k * d * (d / kap)) by (apply Rmult_lt_0_compat; [apply Rmult_lt_0_compat|]; lra).
    assert (Ha : 0 < a) by lra.
    destruct (bracket_flux n G K d Hn HG K_lin K_mono Hd Kh phi k Hk Hphi Heig _ a b Pm Ha Bt) as (c & Hc & Fx).
    exists c. split; [exact Hc|]. intros i g Hi Hg. destruct (Fx i g Hi Hg) as [F1 F2]. split; [exact F1|].
    eapply Rle_trans; [exact F2|]. apply Rmult_le_compat_r; [left; apply Hphi; assumption|]. apply Rmult_le_compat_l; [lra|]. apply Rplus_le_compat_l.
    assert (Hd2 : 0 < d ^ 2) by (apply pow_lt; lra).
    apply (Rmult_le_reg_r (a * d ^ 2)); [apply Rmult_lt_0_compat; lra|].
    replace ((b - a) / (a * d ^ 2) * (a * d ^ 2)) with (b - a) by (field; split; lra).
    eapply Rle_trans; [exact W|].
    assert (Wn : 0 <= width m). { apply (Rmult_le_reg_r (kap * k / d ^ 2)); [exact LP|]. lra. }
    replace (width m * (kap * k / d ^ 2)) with (width m * kap ^ 2 / d ^ 6 * (k * d * (d / kap) * d ^ 2)) by (field; split; lra).
    apply Rmult_le_compat_l; [|apply Rmult_le_compat_r; lra].
    apply Rmult_le_pos; [apply Rmult_le_pos; [exact Wn|apply pow2_ge_0]|left; apply Rinv_0_lt_compat, pow_lt; lra].
Qed.

Theorem bracket_shrinks v w u a b :
  below2 n G (fun _ _ => 0) v -> positive2 n G w ->
  next_generation P G T X f v w -> next_generation P G T X f w u ->
  below2 n G (fun i g => a * v i g) w -> below2 n G w (fun i g => b * v i g) ->
  exists a' b', a <= a' /\ b' <= b /\ b' - a' <= (1 - d ^ 2) * (b - a) /\
    below2 n G (fun i g => a' * w i g) u /\ below2 n G u (fun i g => b' * w i g).
Proof.
  intros Hv Hw H1 H2 Ha Hb.
  destruct (generation_operator P G T X HD f d Hf Heven) as (K & HK & K_lin & K_mono & Kh). pose proof (proj1 Heven) as Hd.
  pose proof (generation_unique P G T X HD f v w (K v) H1 (HK v)) as E1.
  pose proof (generation_unique P G T X HD f w u (K w) H2 (HK w)) as E2.
  assert (E3 : agree2 n G (K w) (K (K v))) by (apply (K_ext n G K K_mono); exact E1).
  destruct (K_contract n G K d Hn HG K_lin K_mono Hd Kh v a b Hv) as (a' & b' & A & B & W & Bt).
  - intros i g Hi Hg. rewrite <- E1 by assumption. apply Hw; assumption.
  - intros i g Hi Hg. rewrite <- E1 by assumption. split; [apply Ha; assumption|apply Hb; assumption].
  - exists a', b'. split; [exact A|]. split; [exact B|]. split; [exact W|].
    split; intros i g Hi Hg; destruct (Bt i g Hi Hg) as [L U]; rewrite (E2 i g Hi Hg), (E3 i g Hi Hg), (E1 i g Hi Hg); assumption.
Qed.

Theorem mode_shape phi k phi' k' :
  0 < k -> positive2 n G phi -> eigenpair P G T X f phi k ->
  0 < k' -> positive2 n G phi' -> eigenpair P G T X f phi' k' ->
  exists c, 0 < c /\ forall i g, (i < n)%nat -> (g < G)%nat -> phi' i g = c * phi i g.
Proof.
  intros Hk Hphi He Hk' Hphi' He'.
  destruct (generation_operator P G T X HD f d Hf Heven) as (K & HK & K_lin & K_mono & Kh). pose proof (proj1 Heven) as Hd.
  assert (Eig : forall ph kk, 0 < kk -> eigenpair P G T X f ph kk -> forall i g, (i < n)%nat -> (g < G)%nat -> K ph i g = kk * ph i g).
  { intros ph kk Hkk Hp i g Hi Hg. apply (generation_unique P G T X HD f ph (K ph) (fun i g => kk * ph i g) (HK ph)); [|exact Hi|exact Hg]. apply eigenpair_generation; [lra|exact Hp]. }
  assert (B : between n G k' k' phi' (K phi')).
  { intros i g Hi Hg. rewrite (Eig phi' k' Hk' He' i g Hi Hg). lra. }
  destruct (bracket_flux n G K d Hn HG K_lin K_mono Hd Kh phi k Hk Hphi (Eig phi k Hk He) phi' k' k' Hphi' Hk' B) as (c & Hc & F).
  exists c. split; [exact Hc|]. intros i g Hi Hg. destruct (F i g Hi Hg) as [F1 F2].
  replace (c * (1 + (k' - k') / (k' * d ^ 2)) * phi i g) with (c * phi i g) in F2 by (field; split; lra). lra.
Qed.

(** *** accuracy of the solves that stop by their own test *)
Theorem settled_accurate c p s st : 0 <= c < 1 -> damping P G T X c p ->
  (forall i g j h, (i < n)%nat -> (g < G)%nat -> (j < n)%nat -> (h < G)%nat -> p i g <= s * p j h) ->
  below2 n G (fun _ _ => 0) (fst st) -> 0 < snd st ->
  let r := c * (/ 10 ^ 8 * INR n) / (1 - c) in
  r < 1 -> settled_solve P G T X f st -> accurate_solve P G T X f (r * s / ((1 - r) * d)) st.
Proof.
  intros Hc Hp Hs0 Hv Hkap r Hr Hset source raw exact Hs Er Hex i g Hi Hg. fold n in Hi.
  destruct (Hset source raw Hs Er) as (y & Hy & Ey). clear Hset Er.
  assert (HPS : positive_sweeps P G T) by (destruct HD as (Hnz & Hth & Hw & _); exact (conj Hnz (conj Hth Hw))).
  assert (HIn : 0 < INR n) by (apply lt_0_INR; exact Hn).
  assert (Htol : 0 < / 10 ^ 8) by (apply Rinv_0_lt_compat, pow_lt; lra).
  set (tol := / 10 ^ 8 * INR n) in *. assert (Ht : 0 < tol) by (apply Rmult_lt_0_compat; assumption).
  assert (One : positive2 n G p) by (apply (proj1 Hp)).
  destruct (ratio_max n G (fun i g => Rabs (raw i g)) p Hn HG One) as (M & i2 & g2 & Hi2 & Hg2 & EM & HM). cbv beta in *.
  pose proof (One i2 g2 Hi2 Hg2) as Hp2. pose proof (One i g Hi Hg) as Hp1.
  assert (HM0 : 0 <= M) by (pose proof (Rabs_pos (raw i2 g2)); destruct (Rle_or_lt 0 M) as [L|L]; [exact L|exfalso; nra]).
  assert (Con : within_of (cells P) G p (r * M) raw exact).
  { replace (r * M) with (c * (tol * M) / (1 - c)) by (unfold r; field; lra).
    apply (posterior_of P G T X c p HPS Hc Hp _ _ y raw exact (tol * M) Hex Ey); [apply Rmult_le_pos; lra|].
    intros j h Hj Hh. eapply Rle_trans; [apply (settled2_close P G raw y (/ 10 ^ 8)); [lra|exact Hy|exact Hj|exact Hh]|].
    change (tol * Rabs (raw j h) <= tol * M * p j h). rewrite (Rmult_assoc tol M). apply Rmult_le_compat_l; [lra|]. apply HM; assumption. }
  assert (Rn : 0 <= r). { unfold r. apply Rmult_le_pos; [apply Rmult_le_pos; lra|left; apply Rinv_0_lt_compat; lra]. }
  (* the exact solution is a generation *)
  assert (Gen : next_generation P G T X f (fun i g => / snd st * fst st i g) exact).
  { unfold next_generation. apply (solution_ext P G T X source _ dark exact); [|intros ? ? _ _; reflexivity|exact Hex].
    intros j h Hj Hh. rewrite emission_scaled, Hs by assumption. unfold Rdiv. ring. }
  destruct Heven as [Hd Hh].
  assert (Hu : below2 n G (fun _ _ => 0) (fun i g => / snd st * fst st i g)).
  { intros j h Hj Hh'. apply Rmult_le_pos; [left; apply Rinv_0_lt_compat; exact Hkap|apply Hv; assumption]. }
  specialize (Hh _ _ Hu Gen i g i2 g2 Hi Hg Hi2 Hg2).
  assert (Ex2 : 0 <= exact i2 g2).
  { apply (solution_nonneg P G T X (iso3 G (emission G f (medium P) (fun i g => / snd st * fst st i g))) dark exact HD); [|intros; rewrite dark_boundary; lra|exact Gen|exact Hi2|exact Hg2].
    intros m j h Hm Hj Hh'. rewrite iso3_at by exact Hh'. apply rsum_nonneg. intros o Ho. apply Rmult_le_pos; [eapply emission_entry; eassumption|apply Hu; assumption]. }
  assert (E3 : (1 - r) * (M * p i2 g2) <= exact i2 g2).
  { pose proof (Con i2 g2 Hi2 Hg2) as Q. assert (Rabs (raw i2 g2) <= exact i2 g2 + r * M * p i2 g2).
    { replace (raw i2 g2) with (exact i2 g2 + (raw i2 g2 - exact i2 g2)) by ring. eapply Rle_trans; [apply Rabs_triang|].
      rewrite (Rabs_right (exact i2 g2)) by lra. lra. }
    lra. }
  eapply Rle_trans; [apply Con; assumption|].
  apply (Rmult_le_reg_r ((1 - r) * d)); [apply Rmult_lt_0_compat; lra|].
  replace (r * s / ((1 - r) * d) * exact i g * ((1 - r) * d)) with (r * (s * exact i g)) by (field; lra).
  replace (r * M * p i g * ((1 - r) * d)) with (r * (d * ((1 - r) * M * p i g))) by ring.
  apply Rmult_le_compat_l; [exact Rn|].
  assert (S0 : 0 <= s) by (specialize (Hs0 i g i g Hi Hg Hi Hg); destruct (Rle_or_lt 0 s) as [L|L]; [exact L|exfalso; nra]).
  apply Rle_trans with (d * (s * exact i2 g2)); [|replace (d * (s * exact i2 g2)) with (s * (d * exact i2 g2)) by ring; apply Rmult_le_compat_l; assumption].
  apply Rmult_le_compat_l; [lra|]. apply Rle_trans with (s * ((1 - r) * (M * p i2 g2))); [|apply Rmult_le_compat_l; assumption].
  replace (s * ((1 - r) * (M * p i2 g2))) with ((1 - r) * M * (s * p i2 g2)) by ring. apply Rmult_le_compat_l; [apply Rmult_le_pos; lra|].
  apply Hs0; assumption.
Qed.

(** *** the whole loop *)
Theorem power_iteration_converges phi k c p s guess flux keff :
  0 < k -> positive2 n G phi -> eigenpair P G T X f phi k ->
  0 <= c < 1 -> damping P G T X c p ->
  (forall i g j h, (i < n)%nat -> (g < G)%nat -> (j < n)%nat -> (h < G)%nat -> p i g <= s * p j h) ->
  positive2 n G guess ->
  power_iteration P G T (Scatter3 X) f 1 guess = Ok (flux, keff) ->
  let r := c * (/ 10 ^ 8 * INR n) / (1 - c) in
  let eta := r * s / ((1 - r) * d) in
  let kap := (1 + eta) / (1 - eta) in
  let width m := (1 - d ^ 2) ^ m + (kap - / kap) / d ^ 2 in
  r < 1 -> eta < 1 ->
  exists N x, (1 <= N <= 100)%nat /\ x 0%nat = power_start n G guess /\ x N = (flux, keff) /\
    (forall m, (m < N)%nat -> power_step P G T (Scatter3 X) f 1 (x m) = Ok (x (S m))) /\
    ((forall m, (m < N)%nat -> settled_solve P G T X f (x m)) ->
       ((2 <= N)%nat -> Rabs (keff - k) <= (width (N - 2)%nat + eta) * (kap * k / d ^ 2)) /\
       exists s, 0 < s /\ forall i g, (i < n)%nat -> (g < G)%nat ->
         s * phi i g <= flux i g <= s * (1 + width (N - 1)%nat * kap ^ 2 / d ^ 6) * phi i g).
Proof.
  intros Hk Hphi Hpair Hc Hdmp Hs0 Hg0 E r eta kap width Hr Heta.
  destruct (power_trace _ _ _ _ _ _ _ _ E) as (N & x & HN & H0 & Hl & Hst & _). exists N, x.
  split; [exact HN|]. split; [exact H0|]. split; [symmetry; exact Hl|]. split; [exact Hst|]. intros Hset.
  assert (Ng : 0 < norm2 n G guess).
  { destruct (Rle_lt_or_eq_dec 0 _ (norm2_nonneg n G guess)) as [L|L]; [exact L|exfalso].
    symmetry in L. pose proof (norm2_zero _ _ _ L 0%nat 0%nat Hn HG). pose proof (Hg0 0%nat 0%nat Hn HG). lra. }
  assert (P0 : positive2 n G (fst (x 0%nat)) /\ 0 < snd (x 0%nat)).
  { rewrite H0. cbn [power_start fst snd]. split; [|exact Ng]. intros i g Hi Hg. rewrite Rabs_right by (apply Rle_ge; left; exact Ng). apply Rdiv_lt_0_compat; [apply Hg0; assumption|exact Ng]. }
  destruct P0 as [P0 K0].
  assert (Rn : 0 <= r).
  { unfold r. apply Rmult_le_pos; [apply Rmult_le_pos; [lra|apply Rmult_le_pos; [left; apply Rinv_0_lt_compat, pow_lt; lra|apply pos_INR]]|left; apply Rinv_0_lt_compat; lra]. }
  pose proof (proj1 Heven) as Hd.
  assert (S0 : 0 <= s).
  { pose proof (proj1 Hdmp 0%nat 0%nat Hn HG). specialize (Hs0 0%nat 0%nat 0%nat 0%nat Hn HG Hn HG). destruct (Rle_or_lt 0 s) as [L|L]; [exact L|exfalso; nra]. }
  assert (En : 0 <= eta) by (unfold eta; apply Rmult_le_pos; [apply Rmult_le_pos; assumption|left; apply Rinv_0_lt_compat; apply Rmult_lt_0_compat; [clear - Hr; unfold r in *; lra|clear - Hd; lra]]).
  (* positivity along the run, by strong induction on prefixes *)
  destruct (generation_operator P G T X HD f d Hf Heven) as (K & HK & K_lin & K_mono & Kh).
  assert (Heig : forall i g, (i < n)%nat -> (g < G)%nat -> K phi i g = k * phi i g).
  { intros i g Hi Hg. apply (generation_unique P G T X HD f phi (K phi) (fun i g => k * phi i g) (HK phi)); [|exact Hi|exact Hg]. apply eigenpair_generation; [lra|exact Hpair]. }
  assert (Acc : forall m, (m <= N)%nat -> (positive2 n G (fst (x m)) /\ 0 < snd (x m)) /\ forall j, (j < m)%nat -> accurate_solve P G T X f eta (x j)).
  { induction m as [|m IH]; intros Hm; [split; [split; assumption|intros; lia]|].
    destruct (IH ltac:(lia)) as [[Pm Km] Am].
    assert (A' : accurate_solve P G T X f eta (x m)).
    { apply (settled_accurate c p s (x m) Hc Hdmp Hs0); [intros i g Hi Hg; left; apply Pm; assumption|exact Km|exact Hr|apply Hset; lia]. }
    assert (A2 : forall j, (j < S m)%nat -> accurate_solve P G T X f eta (x j)).
    { intros j Hj. destruct (Nat.eq_dec j m) as [-> |]; [exact A'|apply Am; lia]. }
    split; [|exact A2].
    destruct (run_closes K phi k eta HK K_lin K_mono Hk Hphi Heig (conj En Heta) (S m) x P0 K0) with (m := S m) as (Q1 & Q2 & _); [|lia|split; assumption].
    intros j Hj. split; [apply Hst; lia|apply A2; exact Hj]. }
  destruct (power_converges phi k eta N x Hk Hphi Hpair (conj En Heta) P0 K0) as [C1 C2].
  { intros m Hm. split; [apply Hst; exact Hm|]. apply (Acc N (le_n N)). exact Hm. }
  assert (Hf1 : flux = fst (x N)) by (rewrite <- Hl; reflexivity). assert (Hk1 : keff = snd (x N)) by (rewrite <- Hl; reflexivity).
  rewrite Hf1, Hk1. split.
  - intros H2. specialize (C1 (N - 2)%nat ltac:(lia)). replace (S (S (N - 2))) with N in C1 by lia. exact C1.
  - specialize (C2 (N - 1)%nat ltac:(lia)). replace (S (N - 1)) with N in C2 by lia. exact C2.
Qed.
End Run.

(** *** a certificate from one pass *)
Theorem keff_certificate P G T X f phi k eta v kap v' kap' :
  damped_transport P G T X -> (0 < cells P)%nat -> (0 < G)%nat -> nonneg_fission (cells P) G (medium P) f ->
  0 < k -> positive2 (cells P) G phi -> eigenpair P G T X f phi k -> 0 <= eta < 1 ->
  positive2 (cells P) G v -> 0 < kap -> 0 < production (cells P) G f (medium P) v ->
  power_step P G T (Scatter3 X) f 1 (v, kap) = Ok (v', kap') -> accurate_solve P G T X f eta (v, kap) ->
  exists source raw,
    (forall i g, (i < cells P)%nat -> (g < G)%nat -> source i g = emission G f (medium P) v i g / kap) /\
    source_iteration P G v T (Scatter3 X) (mkArr3 1 G (fun i _ g => source i g)) (mkArr3 1 1 (fun _ _ _ => 0)) 1 None = Ok raw /\
    (forall i g, v' i g = raw i g / norm2 (cells P) G raw) /\
    forall a b, (forall i g, (i < cells P)%nat -> (g < G)%nat -> a * v i g <= kap * raw i g <= b * v i g) ->
      a <= (1 + eta) * k /\ (1 - eta) * k <= b /\ a <= kap' <= b.
Proof.
  intros HD Hn HG Hf Hk Hphi He Heta Hv Hkap Pv E Acc.
  destruct (power_step_spec P G T (Scatter3 X) f 1 v kap v' kap' Hf E) as (source & raw & Hs & Er & Ek & Ev & _).
  exists source, raw. split; [exact Hs|]. split; [exact Er|]. split; [exact Ev|]. intros a b Hb.
  destruct (generation_exists P G T X HD f v) as [w Hw].
  assert (Hx : mg_solution P G T X (mkArr3 1 G (fun i _ g => source i g)) (mkArr3 1 1 (fun _ _ _ => 0)) (fun i g => w i g / kap)).
  { apply (pass_exact P G T X f v kap source w); [lra|exact Hs|exact Hw|intros i g _ _; reflexivity]. }
  specialize (Acc source raw _ Hs Er Hx). cbv beta in Acc.
  assert (Rw : forall i g, (i < cells P)%nat -> (g < G)%nat -> (1 - eta) * w i g <= kap * raw i g <= (1 + eta) * w i g).
  { intros i g Hi Hg. specialize (Acc i g Hi Hg).
    assert (Q : Rabs (kap * raw i g - w i g) <= eta * w i g).
    { replace (kap * raw i g - w i g) with (kap * (raw i g - w i g / kap)) by (field; lra). rewrite Rabs_mult, (Rabs_right kap) by lra.
      replace (eta * w i g) with (kap * (eta * (w i g / kap))) by (field; lra). apply Rmult_le_compat_l; lra. }
    unfold Rabs in Q. destruct (Rcase_abs _) in Q; lra. }
  split; [|split].
  - assert (H : a / (1 + eta) <= k).
    { destruct (mode_bracket P G T X HD f phi k v w (a / (1 + eta)) 0 Hn HG Hf Hk Hphi He Hv Hw) as [A _]. apply A. intros i g Hi Hg.
      specialize (Rw i g Hi Hg). specialize (Hb i g Hi Hg). apply (Rmult_le_reg_l (1 + eta)); [lra|].
      replace ((1 + eta) * (a / (1 + eta) * v i g)) with (a * v i g) by (field; lra). lra. }
    apply (Rmult_le_compat_l (1 + eta)) in H; [|lra]. replace ((1 + eta) * (a / (1 + eta))) with a in H by (field; lra). exact H.
  - assert (H : k <= b / (1 - eta)).
    { destruct (mode_bracket P G T X HD f phi k v w 0 (b / (1 - eta)) Hn HG Hf Hk Hphi He Hv Hw) as [_ A]. apply A. intros i g Hi Hg.
      specialize (Rw i g Hi Hg). specialize (Hb i g Hi Hg). apply (Rmult_le_reg_l (1 - eta)); [lra|].
      replace ((1 - eta) * (b / (1 - eta) * v i g)) with (b * v i g) by (field; lra). lra. }
    apply (Rmult_le_compat_l (1 - eta)) in H; [|lra]. replace ((1 - eta) * (b / (1 - eta))) with b in H by (field; lra). exact H.
  - assert (B1 : production (cells P) G f (medium P) (fun i g => a * v i g) <= production (cells P) G f (medium P) (fun i g => kap * raw i g)).
    { apply production_mono; [exact Hf|]. intros i g Hi Hg. apply Hb; assumption. }
    assert (B2 : production (cells P) G f (medium P) (fun i g => kap * raw i g) <= production (cells P) G f (medium P) (fun i g => b * v i g)).
    { apply production_mono; [exact Hf|]. intros i g Hi Hg. apply Hb; assumption. }
    rewrite !production_scale in B1, B2. rewrite Ek.
    split; apply (Rmult_le_reg_r (production (cells P) G f (medium P) v)); try exact Pv;
    replace (kap * production (cells P) G f (medium P) raw / production (cells P) G f (medium P) v * production (cells P) G f (medium P) v) with (kap * production (cells P) G f (medium P) raw) by (field; lra); lra.
Qed.

Theorem one_mode P G T X f : damped_transport P G T X -> (0 < cells P)%nat -> (0 < G)%nat ->
  nonneg_fission (cells P) G (medium P) f -> two_way P -> transmitting P G T -> well_fed P G X f -> fissile P G f ->
  exists phi k, 0 < k /\ positive2 (cells P) G phi /\ eigenpair P G T X f phi k /\
    forall phi' k', 0 < k' -> positive2 (cells P) G phi' -> eigenpair P G T X f phi' k' ->
      k' = k /\ exists c, 0 < c /\ forall i g, (i < cells P)%nat -> (g < G)%nat -> phi' i g = c * phi i g.
Proof.
  intros HD Hn HG Hf H2 Ht Hfed Hfis. destruct (generation_even P G T X HD f Hn HG Hf H2 Ht Hfed) as [d Hd].
  destruct (mode_exists P G T X HD f d Hn HG Hf Hd Hfis H2 Ht) as (phi & k & Hk & Hphi & He).
  exists phi, k. split; [exact Hk|]. split; [exact Hphi|]. split; [exact He|]. intros phi' k' Hk' Hphi' He'. split.
  - exact (mode_unique P G T X HD f phi' k' phi k Hn HG Hf Hk' Hphi' He' Hk Hphi He).
  - exact (mode_shape P G T X f d HD Hn HG Hf Hd phi k phi' k' Hk Hphi He Hk' Hphi' He').
Qed.
