(** Spherical sweeps: closed forms of the kernels and of a whole pass. *)
From Coq Require Import Lra Lia FunctionalExtensionality.
From Verif Require Import Base BaseFacts SlabModel SlabSpec SlabFacts SlabFacts3 SphereModel SphereSpec.
Open Scope R_scope.

Lemma pair3 {A B C} (a a' : A) (b b' : B) (c c' : C) :
  a = a' -> b = b' -> c = c' -> (a, b, c) = (a', b', c').
Proof. intros -> -> ->; reflexivity. Qed.

Ltac eqb2 := repeat (match goal with
  | |- context [Nat.eqb ?a ?b] => destruct (Nat.eqb_spec a b)
  | |- context [Nat.ltb ?a ?b] => destruct (Nat.ltb_spec a b)
  | |- context [Nat.leb ?a ?b] => destruct (Nat.leb_spec a b)
  end; cbn [negb andb]; try lia; subst); try lia.

(** Generic cell update: centre [(a e + b h + s)/d], next edge [2c - e]. *)
Fixpoint sfw (a b s d h : vec) (e0 : R) (k : nat) : R :=
  match k with
  | O => e0
  | S i => 2 * ((a i * sfw a b s d h e0 i + b i * h i + s i) / d i) - sfw a b s d h e0 i
  end.

Fixpoint sbw_aux (n : nat) (a b s d h : vec) (e0 : R) (j : nat) : R :=
  match j with
  | O => e0
  | S j' => let i := (n - S j')%nat in
            2 * ((a i * sbw_aux n a b s d h e0 j' + b i * h i + s i) / d i)
            - sbw_aux n a b s d h e0 j'
  end.
Definition sbw (n : nat) (a b s d h : vec) (e0 : R) (k : nat) : R := sbw_aux n a b s d h e0 (n - k).

Lemma sbw_top n a b s d h e0 : sbw n a b s d h e0 n = e0.
Proof. unfold sbw. rewrite Nat.sub_diag. reflexivity. Qed.

Lemma sbw_step n a b s d h e0 i : (i < n)%nat ->
  sbw n a b s d h e0 i
  = 2 * ((a i * sbw n a b s d h e0 (S i) + b i * h i + s i) / d i) - sbw n a b s d h e0 (S i).
Proof.
  intros Hi. unfold sbw. replace (n - i)%nat with (S (n - S i)) by lia. cbn [sbw_aux].
  replace (n - S (n - S i))%nat with i by lia. reflexivity.
Qed.

Definition sbody (a b s d : vec) (weight tau : R) (edges : nat) (ii : nat)
    (st : R * vec * vec) : R * vec * vec :=
  let '(edge1, flux, half_angle) := st in
  let center := (a ii * edge1 + b ii * half_angle ii + s ii) / d ii in
  let flux :=
    if Nat.eqb edges 1
    then upd flux (ii + 1) (flux (ii + 1)%nat + weight * (2 * center - edge1))
    else upd flux ii (flux ii + weight * center) in
  let half_angle :=
    if negb (Nat.eqb ii 0)
    then upd half_angle ii (1 / tau * (center - (1 - tau) * half_angle ii))
    else half_angle in
  (2 * center - edge1, flux, half_angle).

Definition sflux (lo hi : nat) (w : R) (c fl : vec) : vec :=
  fun i => if andb (Nat.leb lo i) (Nat.ltb i hi) then fl i + w * c i else fl i.
Definition shalf (lo hi : nat) (tau : R) (c h : vec) : vec :=
  fun i => if andb (negb (Nat.eqb i 0)) (andb (Nat.leb lo i) (Nat.ltb i hi))
           then 1 / tau * (c i - (1 - tau) * h i) else h i.

Lemma sfw_loop n a b s d w tau edges e0 fl h : Nat.eqb edges 1 = false ->
  let E := sfw a b s d h e0 in
  let c := fun i => (a i * E i + b i * h i + s i) / d i in
  for_up n (sbody a b s d w tau edges) (e0, fl, h) = (E n, sflux 0 n w c fl, shalf 0 n tau c h).
Proof.
  intros He E c. induction n as [|n IH].
  - simpl. apply pair3; [reflexivity| |]; extensionality i; unfold sflux, shalf; eqb2; reflexivity.
  - cbn [for_up]. rewrite IH. unfold sbody. rewrite He.
    assert (Hn : shalf 0 n tau c h n = h n) by (unfold shalf; eqb2; reflexivity).
    rewrite Hn. fold (c n). apply pair3; [reflexivity| |].
    + extensionality i. unfold sflux, upd. eqb2; reflexivity.
    + extensionality i. unfold shalf, upd. eqb2; reflexivity.
Qed.

Lemma sbw_loop_gen n a b s d w tau edges e0 fl h : Nat.eqb edges 1 = false ->
  let E := sbw n a b s d h e0 in
  let c := fun i => (a i * E (S i) + b i * h i + s i) / d i in
  forall k, (k <= n)%nat ->
  for_down k (sbody a b s d w tau edges) (E k, sflux k n w c fl, shalf k n tau c h)
  = (E 0%nat, sflux 0 n w c fl, shalf 0 n tau c h).
Proof.
  intros He E c. induction k as [|k IH]; intros Hk; [reflexivity|].
  cbn [for_down]. rewrite <- IH by lia. f_equal. unfold sbody. rewrite He.
  assert (Hn : shalf (S k) n tau c h k = h k) by (unfold shalf; eqb2; reflexivity).
  rewrite Hn. fold (c k). apply pair3.
  - unfold E. rewrite (sbw_step n a b s d h e0 k) by lia. reflexivity.
  - extensionality i. unfold sflux, upd. eqb2; reflexivity.
  - extensionality i. unfold shalf, upd. eqb2; reflexivity.
Qed.

Lemma sbw_loop n a b s d w tau edges e0 fl h : Nat.eqb edges 1 = false ->
  let E := sbw n a b s d h e0 in
  let c := fun i => (a i * E (S i) + b i * h i + s i) / d i in
  for_down n (sbody a b s d w tau edges) (e0, fl, h)
  = (E 0%nat, sflux 0 n w c fl, shalf 0 n tau c h).
Proof.
  intros He E c.
  etransitivity; [|exact (sbw_loop_gen n a b s d w tau edges e0 fl h He n (Nat.le_refl n))]. f_equal.
  apply pair3; [symmetry; apply sbw_top| |].
  - extensionality i. unfold sflux. eqb2; reflexivity.
  - extensionality i. unfold shalf. eqb2; reflexivity.
Qed.

(** * Ordinate data *)
Section Ordinate.
  Variable P : sn.
  Variables (xs_total q : vec) (m w ap am : R).

  Definition ka : vec :=
    fun i => if Rlt_dec 0 m then m * (area2 P i + area1 P i) else - m * (area2 P i + area1 P i).
  Definition kb : vec := fun i => 1 / w * (area2 P i - area1 P i) * (ap + am).
  Definition ks : vec := fun i => volume P i * q i.
  Definition kd : vec := fun i =>
    if Rlt_dec 0 m
    then 2 * m * area2 P i + 2 / w * (area2 P i - area1 P i) * ap + xs_total (medium P i) * volume P i
    else 2 * - m * area1 P i + 2 / w * (area2 P i - area1 P i) * ap + xs_total (medium P i) * volume P i.

  (** Edge fluxes and centres of the ordinate, given the half angles [h] and the surface
      value [bnd]. *)
  Definition kE (bnd : R) (h : vec) : vec :=
    if Rlt_dec 0 m then sfw ka kb ks kd h (h 0%nat) else sbw (cells P) ka kb ks kd h bnd.
  Definition kc (bnd : R) (h : vec) : vec := fun i =>
    (ka i * (if Rlt_dec 0 m then kE bnd h i else kE bnd h (S i)) + kb i * h i + ks i) / kd i.

  Lemma kE_diamond bnd h i : (i < cells P)%nat ->
    (kE bnd h i + kE bnd h (S i)) / 2 = kc bnd h i.
  Proof.
    intros Hi. unfold kc, kE. destruct (Rlt_dec 0 m) as [Hm|Hm].
    - cbn [sfw]. lra.
    - rewrite (sbw_step (cells P) ka kb ks kd h bnd i Hi). lra.
  Qed.

  Lemma kE_inflow bnd h : kE bnd h (if Rlt_dec 0 m then 0%nat else cells P)
                          = if Rlt_dec 0 m then h 0%nat else bnd.
  Proof. unfold kE. destruct (Rlt_dec 0 m); [reflexivity|apply sbw_top]. Qed.

  Lemma kc_balance bnd h i : (i < cells P)%nat -> w <> 0 -> kd i <> 0 ->
    let c := kc bnd h i in
    m * (area2 P i * kE bnd h (S i) - area1 P i * kE bnd h i)
    + (area2 P i - area1 P i) / w * (ap * (2 * c - h i) - am * h i)
    + xs_total (medium P i) * volume P i * c = volume P i * q i.
  Proof.
    intros Hi Hw Hd c. pose proof (kE_diamond bnd h i Hi) as HE. fold c in HE.
    assert (Hc : c * kd i = ka i * (if Rlt_dec 0 m then kE bnd h i else kE bnd h (S i)) + kb i * h i + ks i)
      by (unfold c, kc; field; exact Hd).
    revert Hc HE. unfold kd, ka, kb, ks.
    set (E0 := kE bnd h i). set (E1 := kE bnd h (S i)).
    set (A2 := area2 P i). set (A1 := area1 P i). set (V := volume P i).
    destruct (Rlt_dec 0 m); intros Hc HE.
    - replace E1 with (2 * c - E0) by lra.
      replace ((A2 - A1) / w) with (1 / w * (A2 - A1)) by (field; exact Hw).
      replace (2 / w * (A2 - A1) * ap) with (2 * (1 / w * (A2 - A1)) * ap) in Hc by (field; exact Hw).
      set (K := 1 / w * (A2 - A1)) in *. lra.
    - replace E0 with (2 * c - E1) by lra.
      replace ((A2 - A1) / w) with (1 / w * (A2 - A1)) by (field; exact Hw).
      replace (2 / w * (A2 - A1) * ap) with (2 * (1 / w * (A2 - A1)) * ap) in Hc by (field; exact Hw).
      set (K := 1 / w * (A2 - A1)) in *. lra.
  Qed.
End Ordinate.

Definition iso_emit (P : sn) (flux_old xs_scatter off ext : vec) : vec :=
  fun i => ext i + off i + flux_old i * xs_scatter (medium P i).

Lemma sphere_forward_iso_eq P flux flux_old h xs_total xs_scatter off ext m w wgt tau ap am edges :
  0 < m -> Nat.eqb edges 1 = false ->
  let c := kc P xs_total (iso_emit P flux_old xs_scatter off ext) m w ap am 0 h in
  sphere_forward_iso P flux flux_old h xs_total xs_scatter off ext m w wgt tau ap am edges
  = (sflux 0 (cells P) wgt c flux, shalf 0 (cells P) tau c h).
Proof.
  intros Hm He c. unfold sphere_forward_iso. rewrite He.
  set (q := iso_emit P flux_old xs_scatter off ext) in *.
  match goal with |- context [for_up _ ?f _] => set (body := f) end.
  assert (Hb : body = sbody (ka P m) (kb P w ap am) (ks P q) (kd P xs_total m w ap) wgt tau edges).
  { unfold body, sbody, ka, kb, ks, kd. extensionality ii. extensionality st.
    destruct st as [[e f] hh]. destruct (Rlt_dec 0 m); [|lra]. rewrite He. reflexivity. }
  rewrite Hb, (sfw_loop _ _ _ _ _ _ _ _ _ _ _ He). unfold c, kc, kE.
  destruct (Rlt_dec 0 m); [|lra]. reflexivity.
Qed.

Lemma sphere_backward_iso_eq P flux flux_old h xs_total xs_scatter off ext bnd m w wgt tau ap am edges :
  m < 0 -> Nat.eqb edges 1 = false ->
  let c := kc P xs_total (iso_emit P flux_old xs_scatter off ext) m w ap am bnd h in
  sphere_backward_iso P flux flux_old h xs_total xs_scatter off ext bnd m w wgt tau ap am edges
  = (sflux 0 (cells P) wgt c flux, shalf 0 (cells P) tau c h).
Proof.
  intros Hm He c. unfold sphere_backward_iso. rewrite He.
  set (q := iso_emit P flux_old xs_scatter off ext) in *.
  match goal with |- context [for_down _ ?f _] => set (body := f) end.
  assert (Hb : body = sbody (ka P m) (kb P w ap am) (ks P q) (kd P xs_total m w ap) wgt tau edges).
  { unfold body, sbody, ka, kb, ks, kd. extensionality ii. extensionality st.
    destruct st as [[e f] hh]. destruct (Rlt_dec 0 m); [lra|]. rewrite He. reflexivity. }
  rewrite Hb, (sbw_loop _ _ _ _ _ _ _ _ _ _ _ He). unfold c, kc, kE.
  destruct (Rlt_dec 0 m); [lra|]. reflexivity.
Qed.

(** ** The starting direction *)
Fixpoint start_aux (n : nat) (q dx sigt : vec) (e0 : R) (j : nat) : R :=
  match j with
  | O => e0
  | S j' => let i := (n - S j')%nat in
            2 * ((2 * start_aux n q dx sigt e0 j' + dx i * q i) / (2 + sigt i * dx i))
            - start_aux n q dx sigt e0 j'
  end.
Definition start_edge (n : nat) (q dx sigt : vec) (e0 : R) (k : nat) : R :=
  start_aux n q dx sigt e0 (n - k).

Lemma start_top n q dx sigt e0 : start_edge n q dx sigt e0 n = e0.
Proof. unfold start_edge. rewrite Nat.sub_diag. reflexivity. Qed.

Definition start_half (n : nat) (q dx sigt : vec) (e0 : R) : vec := fun i =>
  (2 * start_edge n q dx sigt e0 (S i) + dx i * q i) / (2 + sigt i * dx i).

Lemma start_step n q dx sigt e0 i : (i < n)%nat ->
  start_edge n q dx sigt e0 i
  = 2 * start_half n q dx sigt e0 i - start_edge n q dx sigt e0 (S i).
Proof.
  intros Hi. unfold start_half, start_edge. replace (n - i)%nat with (S (n - S i)) by lia.
  cbn [start_aux]. replace (n - S (n - S i))%nat with i by lia. reflexivity.
Qed.

Lemma start_balance n q dx sigt e0 :
  (forall i, (i < n)%nat -> dx i <> 0 /\ 2 + sigt i * dx i <> 0) ->
  dd_balance n (-1) dx sigt q (start_edge n q dx sigt e0).
Proof.
  intros Hd i Hi. destruct (Hd i Hi) as [H1 H2]. rewrite (start_step n q dx sigt e0 i Hi).
  set (e := start_edge n q dx sigt e0 (S i)).
  assert (Hh : start_half n q dx sigt e0 i * (2 + sigt i * dx i) = 2 * e + dx i * q i)
    by (unfold start_half; fold e; field; exact H2).
  set (hh := start_half n q dx sigt e0 i) in *.
  apply (Rmult_eq_reg_l (dx i)); [|exact H1].
  replace (dx i * (-1 / dx i * (e - (2 * hh - e)) + sigt i * ((2 * hh - e + e) / 2)))
    with (2 * hh - 2 * e + dx i * sigt i * hh) by (field; exact H1). lra.
Qed.

Definition hbody (q dx sigt : vec) (ii : nat) (st : R * vec) : R * vec :=
  let '(angle_plus, half_angle) := st in
  let h := (2 * angle_plus + dx ii * q ii) / (2 + sigt ii * dx ii) in
  (2 * h - angle_plus, upd half_angle ii h).

Lemma hbody_loop n q dx sigt e0 :
  for_down n (hbody q dx sigt) (e0, zeros)
  = (start_edge n q dx sigt e0 0%nat,
     fun i => if Nat.ltb i n then start_half n q dx sigt e0 i else 0).
Proof.
  assert (G : forall k, (k <= n)%nat ->
    for_down k (hbody q dx sigt)
      (start_edge n q dx sigt e0 k,
       fun i => if andb (Nat.leb k i) (Nat.ltb i n) then start_half n q dx sigt e0 i else 0)
    = (start_edge n q dx sigt e0 0%nat,
       fun i => if andb (Nat.leb 0 i) (Nat.ltb i n) then start_half n q dx sigt e0 i else 0)).
  { induction k as [|k IH]; intros Hk; [reflexivity|].
    cbn [for_down]. rewrite <- IH by lia. f_equal. unfold hbody.
    fold (start_half n q dx sigt e0 k). f_equal.
    - symmetry. apply start_step. lia.
    - extensionality i. unfold upd. eqb2; reflexivity. }
  specialize (G n ltac:(lia)). rewrite start_top in G.
  replace (fun i => if andb (Nat.leb n i) (Nat.ltb i n) then start_half n q dx sigt e0 i else 0)
    with zeros in G by (extensionality i; unfold zeros; eqb2; reflexivity).
  exact G.
Qed.

Lemma half_angle_iso_eq P flux xs_total xs_scatter off ext e0 :
  half_angle_iso P flux xs_total xs_scatter off ext e0
  = fun i => if Nat.ltb i (cells P)
             then start_half (cells P) (fun i => ext i + off i + xs_scatter (medium P i) * flux i) (dx P)
                    (fun i => xs_total (medium P i)) e0 i else 0.
Proof.
  unfold half_angle_iso.
  rewrite (for_down_ext _ _ (hbody (fun i => ext i + off i + xs_scatter (medium P i) * flux i) (dx P)
             (fun i => xs_total (medium P i)))) by (intros k [e hh] _; reflexivity).
  rewrite hbody_loop. reflexivity.
Qed.

Lemma half_angle_aniso_eq P flux xs_total xs_l0 off ext e0 :
  half_angle_aniso P flux xs_total xs_l0 off ext e0
  = fun i => if Nat.ltb i (cells P)
             then start_half (cells P) (fun i => ext i + off i + xs_l0 i * flux i) (dx P)
                    (fun i => xs_total (medium P i)) e0 i else 0.
Proof.
  unfold half_angle_aniso.
  rewrite (for_down_ext _ _ (hbody (fun i => ext i + off i + xs_l0 i * flux i) (dx P)
             (fun i => xs_total (medium P i)))) by (intros k [e hh] _; reflexivity).
  rewrite hbody_loop. reflexivity.
Qed.

Lemma half_angle_scatter_eq P xs_total sc ext e0 :
  half_angle_scatter P xs_total sc ext e0
  = fun i => if Nat.ltb i (cells P)
             then start_half (cells P) (fun i => ext i + sc i) (dx P)
                    (fun i => xs_total (medium P i)) e0 i else 0.
Proof.
  unfold half_angle_scatter.
  rewrite (for_down_ext _ _ (hbody (fun i => ext i + sc i) (dx P)
             (fun i => xs_total (medium P i)))) by (intros k [e hh] _; reflexivity).
  rewrite hbody_loop. reflexivity.
Qed.

(** * A whole pass *)
Section Pass.
  Variable P : sn.
  Variables (xs_total : vec) (q : mat2) (bnd h0 : vec).
  Let N := angles P.
  Definition al (k : nat) : R := alpha_coef (angles P) (mu P) (wt P) k.
  Definition ta (k : nat) : R := tau_coef (mu P) (wt P) k.

  Fixpoint Hs (k : nat) : vec :=
    match k with
    | O => h0
    | S m => shalf 0 (cells P) (ta m)
               (kc P xs_total (q m) (mu P m) (wt P m) (al (S m)) (al m) (bnd m) (Hs m)) (Hs m)
    end.
  Definition Cs (m : nat) : vec :=
    kc P xs_total (q m) (mu P m) (wt P m) (al (S m)) (al m) (bnd m) (Hs m).
  Definition Es (m : nat) : vec :=
    kE P xs_total (q m) (mu P m) (wt P m) (al (S m)) (al m) (bnd m) (Hs m).
  Definition Fs (k : nat) : vec :=
    fun i => if Nat.ltb i (cells P) then rsum k (fun m => wt P m * Cs m i) else 0.
End Pass.

Lemma al_step P k : (k < angles P)%nat ->
  angle_coef_corrector (al P k) (mu P k) (wt P k) k (angles P) = al P (S k).
Proof.
  intros Hk. unfold angle_coef_corrector, al, alpha_coef.
  destruct (Nat.eqb_spec k (angles P - 1)) as [E|E]; cbn [negb].
  - destruct (Nat.ltb_spec (S k) (angles P)); [lia|reflexivity].
  - destruct (Nat.ltb_spec (S k) (angles P)); [|lia].
    destruct (Nat.ltb_spec k (angles P)); [|lia]. cbn [rsum]. lra.
Qed.

Lemma ta_step P k :
  (mu P k - (-1 + 2 * rsum k (wt P))) / (-1 + 2 * rsum k (wt P) + 2 * wt P k - (-1 + 2 * rsum k (wt P)))
  = ta P k.
Proof.
  unfold ta, tau_coef. f_equal. ring.
Qed.

Definition sphere_bnd (boundary : arr2) (m : nat) : R := at2 boundary 1%nat (bidx (cols2 boundary) m).
Definition sphere_q (P : sn) (xs_scatter off : vec) (external : arr2) (flux_old : vec) : mat2 :=
  fun m => iso_emit P flux_old xs_scatter off (fun i => at2 external i (bidx (cols2 external) m)).
Definition sphere_h0 (P : sn) (xs_total xs_scatter off : vec) (external boundary : arr2) (flux_old : vec) : vec :=
  half_angle_iso P flux_old xs_total xs_scatter off (fun i => at2 external i 0%nat)
    (at2 boundary 1%nat 0%nat).

Lemma Fs_step P xs_total q bnd h0 k :
  sflux 0 (cells P) (wt P k) (Cs P xs_total q bnd h0 k) (Fs P xs_total q bnd h0 k)
  = Fs P xs_total q bnd h0 (S k).
Proof. extensionality i. unfold sflux, Fs. cbn [rsum]. eqb2; lra. Qed.

Lemma kc_fwd_bnd P xs_total q m w ap am b1 b2 h : 0 < m ->
  kc P xs_total q m w ap am b1 h = kc P xs_total q m w ap am b2 h.
Proof. intros Hm. unfold kc, kE. destruct (Rlt_dec 0 m); [reflexivity|lra]. Qed.

Lemma sphere_iso_pass_ok P xs_total xs_scatter off external boundary edges flux_old :
  nonzero_ordinates (angles P) (mu P) -> Nat.eqb edges 1 = false ->
  sphere_iso_pass P xs_total xs_scatter off external boundary edges flux_old
  = Ok (Fs P xs_total (sphere_q P xs_scatter off external flux_old) (sphere_bnd boundary)
          (sphere_h0 P xs_total xs_scatter off external boundary flux_old) (angles P)).
Proof.
  intros Hnz He. unfold sphere_iso_pass.
  fold (sphere_h0 P xs_total xs_scatter off external boundary flux_old).
  set (h0 := sphere_h0 _ _ _ _ _ _ _). set (q := sphere_q P xs_scatter off external flux_old).
  match goal with |- context [for_up_err _ ?f _] => set (body := f) end.
  assert (G : forall k, (k <= angles P)%nat ->
    for_up_err k body (zeros, h0, -1, 0)
    = Ok (Fs P xs_total q (sphere_bnd boundary) h0 k, Hs P xs_total q (sphere_bnd boundary) h0 k,
          -1 + 2 * rsum k (wt P), al P k)).
  { induction k as [|k IH]; intros Hk.
    - cbn [for_up_err Hs]. f_equal. f_equal; [f_equal; [f_equal|]|].
      + extensionality i. unfold Fs, zeros. simpl. destruct (Nat.ltb i (cells P)); reflexivity.
      + simpl. lra.
      + unfold al, alpha_coef. destruct (Nat.ltb 0 (angles P)); simpl; lra.
    - cbn [for_up_err]. rewrite IH by lia. cbn [bind]. unfold body.
      rewrite ta_step, al_step by lia.
      assert (Hz := Hnz k ltac:(lia)).
      destruct (Rlt_dec 0 (mu P k)) as [Hp|Hp].
      + rewrite (sphere_forward_iso_eq P _ _ _ _ _ _ _ _ _ _ _ _ _ _ Hp He).
        rewrite (kc_fwd_bnd P xs_total _ _ _ _ _ 0 (sphere_bnd boundary k)) by exact Hp.
        fold (sphere_q P xs_scatter off external flux_old k). fold q.
        fold (Cs P xs_total q (sphere_bnd boundary) h0 k).
        rewrite Fs_step. f_equal. f_equal. f_equal. cbn [rsum]. lra.
      + destruct (Rlt_dec (mu P k) 0) as [Hn|Hn]; [|lra].
        rewrite (sphere_backward_iso_eq P _ _ _ _ _ _ _ _ _ _ _ _ _ _ _ Hn He).
        fold (sphere_bnd boundary k). fold (sphere_q P xs_scatter off external flux_old k). fold q.
        fold (Cs P xs_total q (sphere_bnd boundary) h0 k).
        rewrite Fs_step. f_equal. f_equal. f_equal. cbn [rsum]. lra. }
  rewrite G by lia. reflexivity.
Qed.

(** ** Geometry of the code against the specification *)
Lemma area1_spec P i : area1 P i = sphere_area (code_rin (dx P) i).
Proof. reflexivity. Qed.
Lemma area2_spec P i : area2 P i = sphere_area (code_rout (dx P) i).
Proof. unfold area2, sphere_area, code_rout. rewrite Nat.add_1_r. reflexivity. Qed.
Lemma volume_spec P i :
  volume P i = ball_volume (code_rout (dx P) i) - ball_volume (code_rin (dx P) i).
Proof. unfold volume, ball_volume, code_rout, code_rin. rewrite Nat.add_1_r. ring. Qed.

Lemma kd_spec P xs_total m i : (m < angles P)%nat -> (i < cells P)%nat -> mu P m <> 0 ->
  sphere_divisors P xs_total -> kd P xs_total (mu P m) (wt P m) (al P (S m)) i <> 0.
Proof.
  intros Hm Hi Hz (_ & _ & H). specialize (H m i Hm Hi). cbv zeta in H.
  rewrite <- area1_spec, <- area2_spec, <- volume_spec in H.
  unfold kd. fold (al P (S m)) in H.
  destruct (Rlt_dec 0 (mu P m)).
  - rewrite Rabs_right in H by lra. exact H.
  - rewrite Rabs_left in H by lra. exact H.
Qed.

(** * The pass solves the spherical equations *)
Lemma sphere_pass_transport P xs_total xs_scatter off external boundary edges flux_old flux :
  nonzero_ordinates (angles P) (mu P) -> sphere_divisors P xs_total -> edges <> 1%nat ->
  (forall i, (i < cells P)%nat -> dx P i <> 0) ->
  sphere_iso_pass P xs_total xs_scatter off external boundary edges flux_old = Ok flux ->
  exists start psi hm hp,
    sphere_transport (cells P) (angles P) (mu P) (wt P) (dx P) (fun i => xs_total (medium P i))
      (iso_source (medium P) xs_scatter off external flux_old)
      (fun i => xs_scatter (medium P i) * flux_old i + at2 external i 0%nat + off i)
      (fun m => at2 boundary 1%nat (bidx (cols2 boundary) m)) (at2 boundary 1%nat 0%nat)
      start psi hm hp flux.
Proof.
  intros Hnz Hd He Hdx E. apply Nat.eqb_neq in He.
  rewrite sphere_iso_pass_ok in E by assumption. injection E as <-.
  set (q := sphere_q P xs_scatter off external flux_old).
  set (bnd := sphere_bnd boundary).
  set (h0 := sphere_h0 P xs_total xs_scatter off external boundary flux_old).
  pose proof Hd as (Hd1 & Hd2 & _).
  exists (start_edge (cells P)
            (fun i => xs_scatter (medium P i) * flux_old i + at2 external i 0%nat + off i)
            (dx P) (fun i => xs_total (medium P i)) (at2 boundary 1%nat 0%nat)),
    (Es P xs_total q bnd h0), (Hs P xs_total q bnd h0),
    (fun m i => 2 * Cs P xs_total q bnd h0 m i - Hs P xs_total q bnd h0 m i).
  assert (Hdia : forall m i, (i < cells P)%nat ->
    (Es P xs_total q bnd h0 m i + Es P xs_total q bnd h0 m (S i)) / 2 = Cs P xs_total q bnd h0 m i)
    by (intros m i Hi; apply kE_diamond; exact Hi).
  split; [|split; [apply start_top|split; [|split; [|split; [|split; [|split]]]]]].
  - apply start_balance. intros i Hi. split; [apply Hdx|apply Hd1]; exact Hi.
  - intros i Hi. cbn [Hs]. unfold h0, sphere_h0. rewrite half_angle_iso_eq.
    destruct (Nat.ltb_spec i (cells P)); [|lia].
    rewrite start_step by exact Hi.
    replace (fun i => at2 external i 0%nat + off i + xs_scatter (medium P i) * flux_old i)
      with (fun i => xs_scatter (medium P i) * flux_old i + at2 external i 0%nat + off i)
      by (extensionality j; ring). lra.
  - intros m Hm i Hi. cbv zeta. rewrite Hdia by exact Hi. split; [lra|].
    rewrite <- area1_spec, <- area2_spec, <- volume_spec.
    destruct (Hd2 m Hm) as [Hw _].
    pose proof (kc_balance P xs_total (q m) (mu P m) (wt P m) (al P (S m)) (al P m) (bnd m)
      (Hs P xs_total q bnd h0 m) i Hi Hw (kd_spec P xs_total m i Hm Hi (Hnz m Hm) Hd)) as HB.
    cbv zeta in HB. fold (Cs P xs_total q bnd h0 m) in HB. fold (Es P xs_total q bnd h0 m) in HB.
    replace (iso_source (medium P) xs_scatter off external flux_old m i) with (q m i)
      by (unfold q, sphere_q, iso_emit, iso_source; ring).
    exact HB.
  - intros m Hm. pose proof (kE_inflow P xs_total (q m) (mu P m) (wt P m) (al P (S m)) (al P m)
      (bnd m) (Hs P xs_total q bnd h0 m)) as HI. unfold Es.
    destruct (Rlt_dec 0 (mu P m)); split; intros; try lra; exact HI.
  - intros m i Hm Hi. rewrite Hdia by lia. cbn [Hs]. fold (Cs P xs_total q bnd h0 m).
    unfold shalf. destruct (Nat.eqb_spec i 0); [lia|]. destruct (Nat.ltb_spec i (cells P)); [|lia].
    cbn [negb andb Nat.leb]. unfold ta. destruct (Hd2 m Hm) as [_ Ht]. field. exact Ht.
  - intros m Hm H0. cbn [Hs]. unfold shalf. reflexivity.
  - intros i Hi. unfold Fs. destruct (Nat.ltb_spec i (cells P)); [|lia].
    apply rsum_ext. intros m Hm. rewrite Hdia by exact Hi. reflexivity.
Qed.

(** * C18: balance of one cell with the angular redistribution left over *)
Lemma sphere_cell_balance n angles mu wt dx sigt q q0 bnd bnd0 start psi hm hp phi i :
  sphere_transport n angles mu wt dx sigt q q0 bnd bnd0 start psi hm hp phi ->
  (forall m, (m < angles)%nat -> wt m <> 0) -> (i < n)%nat ->
  shell_leakage angles mu wt (code_rin dx) (code_rout dx) psi i
  + sigt i * (ball_volume (code_rout dx i) - ball_volume (code_rin dx i)) * phi i
  = (ball_volume (code_rout dx i) - ball_volume (code_rin dx i))
    * rsum angles (fun m => wt m * q m i)
    - (sphere_area (code_rout dx i) - sphere_area (code_rin dx i))
      * rsum angles (fun m => alpha_coef angles mu wt (S m) * hp m i
                              - alpha_coef angles mu wt m * hm m i).
Proof.
  intros (_ & _ & _ & HB & _ & _ & _ & Hphi) Hw Hi.
  rewrite Hphi by exact Hi. unfold shell_leakage.
  rewrite <- rsum_scal, <- rsum_scal, <- rsum_scal, <- rsum_plus, <- rsum_minus.
  apply rsum_ext. intros m Hm. destruct (HB m Hm i Hi) as [_ E]. cbv zeta in E.
  specialize (Hw m Hm).
  set (V := ball_volume (code_rout dx i) - ball_volume (code_rin dx i)) in *.
  set (A2 := sphere_area (code_rout dx i)) in *. set (A1 := sphere_area (code_rin dx i)) in *.
  apply (f_equal (fun x => wt m * x)) in E.
  replace (wt m * (mu m * (A2 * psi m (S i) - A1 * psi m i) +
      (A2 - A1) / wt m * (alpha_coef angles mu wt (S m) * hp m i - alpha_coef angles mu wt m * hm m i) +
      sigt i * V * ((psi m i + psi m (S i)) / 2)))
    with (wt m * mu m * (A2 * psi m (S i) - A1 * psi m i)
       + (A2 - A1) * (alpha_coef angles mu wt (S m) * hp m i - alpha_coef angles mu wt m * hm m i)
       + sigt i * V * (wt m * ((psi m i + psi m (S i)) / 2))) in E by (field; exact Hw).
  lra.
Qed.

Lemma alpha_first angles mu wt : alpha_coef angles mu wt 0 = 0.
Proof. unfold alpha_coef. destruct (Nat.ltb 0 angles); simpl; lra. Qed.
Lemma alpha_last angles mu wt : alpha_coef angles mu wt angles = 0.
Proof. unfold alpha_coef. rewrite Nat.ltb_irrefl. reflexivity. Qed.

Lemma sphere_cell_conservation n angles mu wt dx sigt q q0 bnd bnd0 start psi hm hp phi i :
  sphere_transport n angles mu wt dx sigt q q0 bnd bnd0 start psi hm hp phi ->
  (forall m, (m < angles)%nat -> wt m <> 0) ->
  (forall m, (S m < angles)%nat -> tau_coef mu wt m = 1 / 2) -> (0 < i < n)%nat ->
  shell_leakage angles mu wt (code_rin dx) (code_rout dx) psi i
  + sigt i * (ball_volume (code_rout dx i) - ball_volume (code_rin dx i)) * phi i
  = (ball_volume (code_rout dx i) - ball_volume (code_rin dx i))
    * rsum angles (fun m => wt m * q m i).
Proof.
  intros HT Hw Ht Hi.
  rewrite (sphere_cell_balance n angles mu wt dx sigt q q0 bnd bnd0 start psi hm hp phi i HT Hw (proj2 Hi)).
  destruct HT as (_ & _ & _ & HB & _ & HD & _ & _).
  rewrite (rsum_ext angles (fun m => alpha_coef angles mu wt (S m) * hp m i - alpha_coef angles mu wt m * hm m i)
             (fun m => (fun k => alpha_coef angles mu wt k * hm k i) (S m)
                       - (fun k => alpha_coef angles mu wt k * hm k i) m)).
  - pose proof (rsum_telescope angles (fun k => alpha_coef angles mu wt k * hm k i)) as HTe.
    cbv beta in HTe |- *. rewrite HTe, alpha_first, alpha_last. ring.
  - intros m Hm. cbv beta. f_equal.
    destruct (Nat.eq_dec (S m) angles) as [->|Hne]; [rewrite alpha_last; ring|].
    f_equal. destruct (HB m Hm i (proj2 Hi)) as [Ec _].
    pose proof (HD m i Hm Hi) as Ed. rewrite Ht in Ed by lia. cbv zeta in Ec. lra.
Qed.
