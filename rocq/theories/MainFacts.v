(** Material maps (C50), relativistic speeds (C52). *)
From Coq Require Import Lia Lra Psatz String Ascii Permutation.
From Verif Require Import Base BaseFacts SlabModel MgModel HybModel MainModel MainSpec.
Open Scope R_scope.

(** ** text *)
Lemma split_plain c p : ~ occurs c p -> split_on c p = [p].
Proof.
  induction p as [|a p IH]; intros H; cbn; [reflexivity|].
  destruct (Ascii.eqb_spec a c) as [E|E]; [exfalso; apply H; left; exact E|].
  rewrite IH; [reflexivity|]. intros O. apply H. right. exact O.
Qed.

Lemma split_app c p r : ~ occurs c p -> split_on c (p ++ String c r) = p :: split_on c r.
Proof.
  induction p as [|a p IH]; intros H; cbn.
  - destruct (Ascii.eqb_spec c c); [reflexivity|contradiction].
  - destruct (Ascii.eqb_spec a c) as [E|E]; [exfalso; apply H; left; exact E|].
    rewrite IH; [reflexivity|]. intros O. apply H. right. exact O.
Qed.

Lemma split_unique c pieces : pieces <> [] -> (forall p, In p pieces -> ~ occurs c p) ->
  split_on c (joined c pieces) = pieces.
Proof.
  induction pieces as [|p ps IH]; intros Hn Ho; [contradiction|].
  destruct ps as [|q ps]; cbn [joined].
  - apply split_plain. apply Ho. left. reflexivity.
  - rewrite split_app by (apply Ho; left; reflexivity). f_equal. apply IH; [discriminate|].
    intros r Hr. apply Ho. right. exact Hr.
Qed.

Lemma split_pieces c s : pieces_of c s (split_on c s).
Proof.
  induction s as [|a s IH]; cbn.
  - split; [discriminate|split; [reflexivity|]]. intros p [<-|[]] H; exact H.
  - destruct IH as (Hn & Hj & Ho). destruct (split_on c s) as [|p ps] eqn:E; [contradiction|].
    destruct (Ascii.eqb_spec a c) as [-> |Hne].
    + split; [discriminate|split].
      * cbn [joined] in *. rewrite Hj. reflexivity.
      * intros q [<-|Hq]; [intros H; exact H|apply Ho; exact Hq].
    + split; [discriminate|split].
      * destruct ps as [|q ps]; cbn [joined] in *; rewrite <- Hj; reflexivity.
      * intros q [<-|Hq]; [|apply Ho; right; exact Hq].
        intros [H|H]; [contradiction|]. apply (Ho p); [left; reflexivity|exact H].
Qed.

Lemma pieces_split c s pieces : pieces_of c s pieces <-> split_on c s = pieces.
Proof.
  split.
  - intros (Hn & <- & Ho). apply split_unique; assumption.
  - intros <-. apply split_pieces.
Qed.

(** ** nearest edge *)
Lemma nearest_is n edges x : nearest_edge n edges x (nearest n edges x).
Proof.
  unfold nearest. induction n as [|n (I1 & I2)]; cbn [for_up].
  - split; [lia|]. intros j Hj. replace j with 0%nat by lia. split; [lra|lia].
  - set (b := for_up n _ 0%nat) in *. clearbody b. replace (n + 1)%nat with (S n) by lia.
    destruct (Rlt_dec _ _) as [L|L].
    + split; [lia|]. intros j Hj. destruct (Nat.eq_dec j (S n)) as [-> |Hne]; [split; [lra|lia]|].
      destruct (I2 j ltac:(lia)) as [A _]. split; [lra|intros _; lra].
    + split; [lia|]. intros j Hj. destruct (Nat.eq_dec j (S n)) as [-> |Hne]; [split; [lra|lia]|].
      apply I2. lia.
Qed.

Lemma nearest_unique n edges x a b : nearest_edge n edges x a -> nearest_edge n edges x b -> a = b.
Proof.
  intros [Ha A] [Hb B]. destruct (Nat.lt_trichotomy a b) as [L|[L|L]]; [|exact L|].
  - destruct (A b Hb) as [A1 _]. destruct (B a Ha) as [_ B2]. specialize (B2 L). lra.
  - destruct (B a Ha) as [B1 _]. destruct (A b Hb) as [_ A2]. specialize (A2 L). lra.
Qed.

Lemma covers_iff n edges a b i :
  covers n edges a b i <-> (nearest n edges a <= i < nearest n edges b)%nat.
Proof.
  split.
  - intros (p & q & Hp & Hq & Hi).
    rewrite (nearest_unique _ _ _ _ _ (nearest_is n edges a) Hp).
    rewrite (nearest_unique _ _ _ _ _ (nearest_is n edges b) Hq). exact Hi.
  - intros Hi. exists (nearest n edges a), (nearest n edges b).
    split; [apply nearest_is|split; [apply nearest_is|exact Hi]].
Qed.

(** Region endpoints that are cell edges of a strictly increasing mesh cover exactly the cells
    between them. *)
Lemma edges_mono n (edges : vec) : (forall i, (i < n)%nat -> edges i < edges (i + 1)%nat) ->
  forall a b, (a < b)%nat -> (b <= n)%nat -> edges a < edges b.
Proof.
  intros H a b Hab. induction Hab as [|b Hab IH]; intros Hb.
  - specialize (H a ltac:(lia)). replace (S a) with (a + 1)%nat by lia. exact H.
  - specialize (IH ltac:(lia)). specialize (H b ltac:(lia)). replace (S b) with (b + 1)%nat by lia. lra.
Qed.

Lemma nearest_exact n edges k : (forall i, (i < n)%nat -> edges i < edges (i + 1)%nat) -> (k <= n)%nat ->
  nearest_edge n edges (edges k) k.
Proof.
  intros H Hk. split; [exact Hk|]. intros j Hj. rewrite Rminus_eq_0, Rabs_R0. split; [apply Rabs_pos|].
  intros L. apply Rabs_pos_lt. pose proof (edges_mono n edges H j k L Hk). lra.
Qed.

Lemma covers_edges n edges : (forall i, (i < n)%nat -> edges i < edges (i + 1)%nat) ->
  forall a b, (a <= n)%nat -> (b <= n)%nat -> forall i, (i < n)%nat ->
    (covers n edges (edges a) (edges b) i <-> edges a <= edges i /\ edges (i + 1)%nat <= edges b).
Proof.
  intros H a b Ha Hb i Hi.
  assert (E : covers n edges (edges a) (edges b) i <-> (a <= i < b)%nat).
  { rewrite covers_iff.
    rewrite (nearest_unique _ _ _ _ _ (nearest_is n edges (edges a)) (nearest_exact n edges a H Ha)).
    rewrite (nearest_unique _ _ _ _ _ (nearest_is n edges (edges b)) (nearest_exact n edges b H Hb)).
    reflexivity. }
  rewrite E. split.
  - intros [A B]. split.
    + destruct (Nat.eq_dec a i) as [-> |]; [lra|]. left. apply (edges_mono n); [exact H|lia|lia].
    + destruct (Nat.eq_dec (i + 1) b) as [<- |]; [lra|]. left. apply (edges_mono n); [exact H|lia|lia].
  - intros [A B]. split.
    + destruct (le_lt_dec a i) as [L|L]; [exact L|]. pose proof (edges_mono n edges H i a L Ha). lra.
    + destruct (lt_dec i b) as [L|L]; [exact L|]. pose proof (edges_mono n edges H b (i + 1) ltac:(lia) ltac:(lia)). lra.
Qed.

(** ** spatial1d *)
Definition apply_fill (n : nat) (edges : vec) (f : fill) (m : vec) : vec :=
  fun i => if andb (Nat.leb (nearest n edges (snd (fst f))) i) (Nat.ltb i (nearest n edges (snd f)))
           then fst (fst f) else m i.

Lemma fill_region_ok fo n edges idx region m a b : region_text fo region a b ->
  fill_region fo n edges idx region m = Ok (apply_fill n edges (idx, a, b) m).
Proof.
  intros (s & t & Hp & Ha & Hb). apply pieces_split in Hp. unfold fill_region. rewrite Hp, Ha, Hb. reflexivity.
Qed.

Lemma fill_region_cases fo n edges idx region m :
  (exists a b, region_text fo region a b) \/
  ((forall a b, ~ region_text fo region a b) /\ fill_region fo n edges idx region m = Raise ValueError).
Proof.
  unfold fill_region.
  destruct (split_on "-" region) as [|p [|q [|r l]]] eqn:E.
  1,2,4: right; split; [intros a b (s & t & Hp & _); apply pieces_split in Hp; rewrite Hp in E; discriminate|reflexivity].
  destruct (fo p) as [a|] eqn:Ea; destruct (fo q) as [b|] eqn:Eb.
  - left. exists a, b, p, q. split; [apply pieces_split; exact E|split; assumption].
  - right. split; [|reflexivity]. intros a' b' (s & t & Hp & H1 & H2). apply pieces_split in Hp. rewrite Hp in E.
    injection E as -> ->. congruence.
  - right. split; [|reflexivity]. intros a' b' (s & t & Hp & H1 & H2). apply pieces_split in Hp. rewrite Hp in E.
    injection E as -> ->. congruence.
  - right. split; [|reflexivity]. intros a' b' (s & t & Hp & H1 & H2). apply pieces_split in Hp. rewrite Hp in E.
    injection E as -> ->. congruence.
Qed.

Lemma regions_cases fo n edges idx regions : forall m,
  (exists spans, Forall2 (fun region span => region_text fo region (fst span) (snd span)) regions spans /\
     fold_err (fill_region fo n edges idx) regions m
     = Ok (fold_left (fun m f => apply_fill n edges f m) (map (fun span => (idx, fst span, snd span)) spans) m)) \/
  (fold_err (fill_region fo n edges idx) regions m = Raise ValueError /\
   forall spans, ~ Forall2 (fun region span => region_text fo region (fst span) (snd span)) regions spans).
Proof.
  induction regions as [|r rs IH]; intros m; cbn [fold_err].
  - left. exists []. split; [constructor|reflexivity].
  - destruct (fill_region_cases fo n edges idx r m) as [(a & b & H)|[H E]].
    + rewrite (fill_region_ok _ _ _ _ _ _ _ _ H). cbn [bind].
      destruct (IH (apply_fill n edges (idx, a, b) m)) as [(spans & F & E)|[E F]].
      * left. exists ((a, b) :: spans). split; [constructor; assumption|]. rewrite E. reflexivity.
      * right. split; [exact E|]. intros spans S. inversion S; subst. eapply F; eassumption.
    + right. rewrite E. split; [reflexivity|]. intros spans S. inversion S; subst. eapply H; eassumption.
Qed.

Lemma layers_cases fo n edges layers : forall m,
  (exists fills, reads fo (texts layers) fills /\
     fold_err (fun l m => fold_err (fill_region fo n edges (layer_index l)) (split_on "," (layer_width l)) m) layers m
     = Ok (fold_left (fun m f => apply_fill n edges f m) fills m)) \/
  (fold_err (fun l m => fold_err (fill_region fo n edges (layer_index l)) (split_on "," (layer_width l)) m) layers m
   = Raise ValueError /\ forall fills, ~ reads fo (texts layers) fills).
Proof.
  induction layers as [|l ls IH]; intros m; cbn [fold_err texts map].
  - left. exists []. split; [constructor|reflexivity].
  - destruct (regions_cases fo n edges (layer_index l) (split_on "," (layer_width l)) m) as [(spans & F & E)|[E F]]; rewrite E; cbn [bind].
    + match goal with |- context [fold_err _ ls ?m'] => destruct (IH m') as [(fills & Rd & E')|[E' Rd]] end; rewrite E'.
      * left. eexists. split; [econstructor; [apply split_pieces|exact F|exact Rd]|]. rewrite fold_left_app. reflexivity.
      * right. split; [reflexivity|]. intros fills S. inversion S; subst. eapply Rd; eassumption.
    + right. split; [reflexivity|]. intros fills S. inversion S; subst.
      match goal with H : pieces_of _ _ _ |- _ => apply pieces_split in H; rewrite H in F end. eapply F; eassumption.
Qed.

Lemma fold_material n edges fills : forall i,
  material_of n edges fills i (fold_left (fun m f => apply_fill n edges f m) fills (fun _ => -1) i).
Proof.
  intros i. induction fills as [|[[idx a] b] fills IH] using rev_ind; cbn.
  - right. split; [intros ? ? ? []|reflexivity].
  - rewrite fold_left_app. cbn [fold_left].
    match goal with |- context [apply_fill n edges _ ?m'] => set (m := m') in * end. unfold apply_fill. cbn [fst snd].
    pose proof (covers_iff n edges a b i) as CI.
    destruct (andb (Nat.leb (nearest n edges a) i) (Nat.ltb i (nearest n edges b))) eqn:E.
    + left. exists fills, idx, a, b, []. split; [reflexivity|split; [|split; [intros ? ? ? []|reflexivity]]].
      apply andb_prop in E. destruct E as [E1 E2]. apply Nat.leb_le in E1. apply Nat.ltb_lt in E2. apply CI. lia.
    + assert (NC : ~ covers n edges a b i).
      { intros C. apply CI in C. rewrite (proj2 (Nat.leb_le _ _)), (proj2 (Nat.ltb_lt _ _)) in E by lia. discriminate. }
      destruct IH as [(before & idx' & a' & b' & after & Hf & C & Hn & Hv)|[Hn Hv]].
      * left. exists before, idx', a', b', (after ++ [(idx, a, b)]). split; [rewrite Hf, <- app_assoc; reflexivity|].
        split; [exact C|split; [|exact Hv]]. intros j p q Hin. apply in_app_or in Hin. destruct Hin as [Hin|[Hin|[]]].
        { eapply Hn; exact Hin. } { injection Hin as <- <- <-. exact NC. }
      * right. split; [|exact Hv]. intros j p q Hin. apply in_app_or in Hin. destruct Hin as [Hin|[Hin|[]]].
        { eapply Hn; exact Hin. } { injection Hin as <- <- <-. exact NC. }
Qed.

Lemma has_zero_iff n f : has_zero n f = true <-> exists i, (i < n)%nat /\ f i = 0.
Proof.
  induction n as [|n IH]; cbn [has_zero].
  - split; [discriminate|intros (i & Hi & _); lia].
  - destruct (Req_EM_T (f n) 0) as [E|E].
    + split; [intros _; exists n; split; [lia|exact E]|reflexivity].
    + rewrite IH. split; intros (i & Hi & Hz).
      * exists i. split; [lia|exact Hz].
      * exists i. split; [|exact Hz]. destruct (Nat.eq_dec i n) as [-> |]; [contradiction|lia].
Qed.

(** ** C50 *)
Lemma spatial_map fo layers n edges check :
  match spatial1d fo layers n edges check with
  | Ok m => exists fills, reads fo (texts layers) fills /\
      forall i, (i < n)%nat -> material_of n edges fills i (m i) /\ (check = true -> m i <> -1)
  | Raise e => (e = ValueError /\ forall fills, ~ reads fo (texts layers) fills) \/
      (e = AssertionError /\ check = true /\ exists fills i, reads fo (texts layers) fills /\
         (i < n)%nat /\ material_of n edges fills i (-1))
  end.
Proof.
  unfold spatial1d.
  destruct (layers_cases fo n edges layers (fun _ => -1)) as [(fills & Rd & E)|[E Rd]]; rewrite E; cbn [bind].
  - set (m := fold_left _ fills _). pose proof (fold_material n edges fills : forall i, material_of n edges fills i (m i)) as HM.
    destruct (andb check (has_zero n (fun i => m i + 1))) eqn:C.
    + right. apply andb_prop in C. destruct C as [C1 C2]. apply has_zero_iff in C2. destruct C2 as (i & Hi & Hz).
      split; [reflexivity|split; [exact C1|]]. exists fills, i. split; [exact Rd|split; [exact Hi|]].
      replace (-1) with (m i) by lra. apply HM.
    + exists fills. split; [exact Rd|]. intros i Hi. split; [apply HM|]. intros -> Hz. cbn [andb] in C.
      assert (T : has_zero n (fun i => m i + 1) = true) by (apply has_zero_iff; exists i; split; [exact Hi|lra]).
      congruence.
  - left. split; [reflexivity|exact Rd].
Qed.

(** The reading of the layer texts is unique. *)
Lemma region_unique fo r a b a' b' : region_text fo r a b -> region_text fo r a' b' -> a = a' /\ b = b'.
Proof.
  intros (s & t & Hp & H1 & H2) (s' & t' & Hp' & H1' & H2'). apply pieces_split in Hp, Hp'. rewrite Hp in Hp'.
  injection Hp' as <- <-. split; congruence.
Qed.

Lemma reads_unique fo l fills : reads fo l fills -> forall fills', reads fo l fills' -> fills = fills'.
Proof.
  induction 1 as [|idx width rest regions spans fills Hp HF Hr IH]; intros fills' H'; inversion H' as [|? ? ? regions' spans' ? Hp' HF' Hr']; subst.
  - reflexivity.
  - apply pieces_split in Hp, Hp'. rewrite Hp in Hp'. subst regions'. rewrite (IH _ Hr'). f_equal. f_equal.
    clear - HF HF'. revert spans' HF'. induction HF as [|r [a b] rs ss H HF IH]; intros spans' HF'; inversion HF' as [|? [a' b'] ? ? H' HF'']; subst.
    + reflexivity.
    + cbn in *. destruct (region_unique _ _ _ _ _ _ H H') as [-> ->]. f_equal. apply IH. exact HF''.
Qed.

(** Uncovered cells are rejected, complete maps are accepted. *)
Lemma spatial_gap fo layers n edges fills : reads fo (texts layers) fills ->
  (forall idx a b, In (idx, a, b) fills -> idx <> -1) ->
  ((exists i, (i < n)%nat /\ forall idx a b, In (idx, a, b) fills -> ~ covers n edges a b i) ->
     spatial1d fo layers n edges true = Raise AssertionError) /\
  ((forall i, (i < n)%nat -> exists idx a b, In (idx, a, b) fills /\ covers n edges a b i) ->
     exists m, spatial1d fo layers n edges true = Ok m).
Proof.
  intros Rd Hi. pose proof (spatial_map fo layers n edges true) as HS.
  destruct (spatial1d fo layers n edges true) as [m|e].
  - destruct HS as (fills' & Rd' & HM). rewrite <- (reads_unique _ _ _ Rd _ Rd') in HM. split.
    + intros (i & Hin & Hg). exfalso. destruct (HM i Hin) as [[(b & idx & p & q & a & Hf & C & _ & _)|[_ Hv]] Hne].
      * apply (Hg idx p q); [rewrite Hf; apply in_or_app; right; left; reflexivity|exact C].
      * apply Hne; [reflexivity|exact Hv].
    + intros _. exists m. reflexivity.
  - destruct HS as [[_ Hno]|(-> & _ & fills' & i & Rd' & Hin & HM)]; [exfalso; eapply Hno; exact Rd|].
    rewrite <- (reads_unique _ _ _ Rd _ Rd') in HM. split; [reflexivity|]. intros Hc. exfalso.
    destruct HM as [(b & idx & p & q & a & Hf & _ & _ & Hv)|[Hg _]].
    + apply (Hi idx p q); [rewrite Hf; apply in_or_app; right; left; reflexivity|symmetry; exact Hv].
    + destruct (Hc i Hin) as (idx & p & q & H1 & H2). exact (Hg idx p q H1 H2).
Qed.

(** ** C52 *)
Lemma rest_energy_pos : 0 < mass_neutron * light_speed ^ 2.
Proof. unfold mass_neutron, light_speed. apply Rmult_lt_0_compat; [|nra]. apply Rdiv_lt_0_compat; [lra|apply pow_lt; lra]. Qed.
Lemma ev_pos : 0 < ev_to_joules.
Proof. unfold ev_to_joules. apply Rdiv_lt_0_compat; [lra|apply pow_lt; lra]. Qed.

Definition lorentz (c : R) : R := ev_to_joules * c / (mass_neutron * light_speed ^ 2) + 1.

Lemma lorentz_gt c : 0 < c -> 1 < lorentz c.
Proof.
  intros H. unfold lorentz. assert (0 < ev_to_joules * c / (mass_neutron * light_speed ^ 2)); [|lra].
  apply Rdiv_lt_0_compat; [apply Rmult_lt_0_compat; [exact ev_pos|exact H]|exact rest_energy_pos].
Qed.
Lemma lorentz_mono c d : c < d -> lorentz c < lorentz d.
Proof.
  intros H. unfold lorentz. apply Rplus_lt_compat_r. unfold Rdiv. apply Rmult_lt_compat_r.
  - apply Rinv_0_lt_compat. exact rest_energy_pos.
  - apply Rmult_lt_compat_l; [exact ev_pos|exact H].
Qed.

Lemma speed_beta (e : vec) g : 0 < e g + e (g + 1)%nat ->
  let gam := lorentz (0.5 * (e (g + 1)%nat + e g)) in
  1 < gam /\ energy_velocity (Some e) g = 100 * light_speed * sqrt (1 - / gam ^ 2).
Proof.
  intros H gam. assert (G : 1 < gam) by (apply lorentz_gt; lra). split; [exact G|].
  cbn [energy_velocity]. fold (lorentz (0.5 * (e (g + 1)%nat + e g))). fold gam.
  replace (1 - / gam ^ 2) with ((gam ^ 2 - 1) / (gam ^ 2)) by (field; lra).
  assert (0 <= gam ^ 2 - 1) by nra. rewrite sqrt_div_alt by nra.
  rewrite sqrt_pow2 by lra. field. lra.
Qed.

Lemma speeds (e : vec) g : 0 < e g + e (g + 1)%nat ->
  let v := energy_velocity (Some e) g in
  0 < v < 100 * 299792460 /\
  kinetic_energy (167493 / 10 ^ 32) 299792460 (v / 100) = 160218 / 10 ^ 24 * ((e g + e (g + 1)%nat) / 2) /\
  forall h, e g + e (g + 1)%nat < e h + e (h + 1)%nat -> v < energy_velocity (Some e) h.
Proof.
  change 299792460 with light_speed. change (167493 / 10 ^ 32) with mass_neutron. change (160218 / 10 ^ 24) with ev_to_joules.
  intros H v. destruct (speed_beta e g H) as [G E]. fold v in E. set (gam := lorentz _) in *.
  assert (I : 0 < / gam ^ 2 < 1).
  { split; [apply Rinv_0_lt_compat; nra|]. rewrite <- Rinv_1. apply Rinv_lt_contravar; nra. }
  assert (S1 : 0 < sqrt (1 - / gam ^ 2) < 1).
  { split; [apply sqrt_lt_R0; lra|]. apply (Rlt_le_trans _ (sqrt 1)); [apply sqrt_lt_1; lra|rewrite sqrt_1; lra]. }
  assert (L : 0 < light_speed) by (unfold light_speed; lra).
  split; [rewrite E; nra|]. split.
  - unfold kinetic_energy. rewrite E.
    replace (100 * light_speed * sqrt (1 - / gam ^ 2) / 100 / light_speed) with (sqrt (1 - / gam ^ 2)) by (field; lra).
    rewrite pow2_sqrt by lra. replace (1 - (1 - / gam ^ 2)) with ((/ gam) ^ 2) by (rewrite pow_inv; ring).
    rewrite sqrt_pow2 by (left; apply Rinv_0_lt_compat; lra).
    replace (1 / / gam) with gam by (field; lra). unfold gam, lorentz.
    pose proof rest_energy_pos as K0. set (K := mass_neutron * light_speed ^ 2) in *. clearbody K.
    replace 0.5 with (1 / 2) by lra. field. lra.
  - intros h Hh. destruct (speed_beta e h ltac:(lra)) as [G' E']. rewrite E, E'. set (gam' := lorentz (0.5 * (e (h + 1)%nat + e h))) in *.
    assert (gam < gam') by (apply lorentz_mono; lra).
    apply Rmult_lt_compat_l; [nra|]. assert (/ gam' ^ 2 < / gam ^ 2).
    { apply Rinv_lt_contravar; [apply Rmult_lt_0_compat; apply pow_lt; lra|]. cbn [pow]. rewrite !Rmult_1_r.
      apply Rmult_le_0_lt_compat; lra. }
    assert (0 < / gam' ^ 2) by (apply Rinv_0_lt_compat, pow_lt; lra).
    apply sqrt_lt_1; lra.
Qed.

(** an energy in eV up to 20 MeV and its speed in cm/s *)
Lemma speed_magnitude (e : vec) g : let E := (e g + e (g + 1)%nat) / 2 in 0 <= E <= 20000000 ->
  1354000 * sqrt E <= energy_velocity (Some e) g <= 1383200 * sqrt E.
Proof.
  intros E HE. unfold energy_velocity. cbv zeta. replace (0.5 * (e (g + 1)%nat + e g)) with E by (unfold E; lra).
  pose proof rest_energy_pos as K0. set (a := ev_to_joules / (mass_neutron * light_speed ^ 2)).
  assert (A : 1.06430e-9 <= a <= 1.06433e-9).
  { unfold a. split; [apply (Rmult_le_reg_r (mass_neutron * light_speed ^ 2))|apply (Rmult_le_reg_r (mass_neutron * light_speed ^ 2))]; try exact K0;
      (unfold Rdiv; rewrite ?Rmult_assoc, ?Rinv_l, ?Rmult_1_r by lra; unfold ev_to_joules, mass_neutron, light_speed; lra). }
  replace (ev_to_joules * E / (mass_neutron * light_speed ^ 2)) with (a * E) by (unfold a, Rdiv; ring).
  set (x := a * E). assert (X : 0 <= x <= 0.0213). { unfold x. split; [apply Rmult_le_pos; lra|]. apply Rle_trans with (1.06433e-9 * 20000000); [apply Rmult_le_compat; lra|lra]. }
  replace ((x + 1) ^ 2 - 1) with (x * (2 + x)) by ring.
  assert (S : sqrt (x * (2 + x)) = sqrt E * sqrt (a * (2 + x))). { rewrite <- sqrt_mult by nra. f_equal. unfold x. ring. }
  rewrite S. pose proof (sqrt_pos E) as SE.
  assert (LO : 4.6136e-5 <= sqrt (a * (2 + x))).
  { rewrite <- (sqrt_square 4.6136e-5) by lra. apply sqrt_le_1_alt. apply Rle_trans with (1.06430e-9 * 2); [lra|apply Rmult_le_compat; lra]. }
  assert (HI : sqrt (a * (2 + x)) <= 4.6138e-5 * (1 + x)).
  { rewrite <- (sqrt_square (4.6138e-5 * (1 + x))) by nra. apply sqrt_le_1_alt. apply Rle_trans with (1.06433e-9 * (2 + x)); [apply Rmult_le_compat_r; lra|]. replace (4.6138e-5 * (1 + x) * (4.6138e-5 * (1 + x))) with (4.6138e-5 * 4.6138e-5 * ((1 + x) * (1 + x))) by ring. assert (0 <= x * x) by nra. lra. }
  set (r := sqrt (a * (2 + x))) in *. unfold light_speed.
  replace (299792460 / (x + 1) * (sqrt E * r) * 100) with (sqrt E * (29979246000 * r / (x + 1))) by (field; lra).
  rewrite !(Rmult_comm _ (sqrt E)). split; apply Rmult_le_compat_l; try exact SE.
  - apply (Rmult_le_reg_r (x + 1)); [lra|]. unfold Rdiv. rewrite (Rmult_assoc _ (/ (x + 1))), Rinv_l by lra. lra.
  - apply (Rmult_le_reg_r (x + 1)); [lra|]. unfold Rdiv. rewrite (Rmult_assoc _ (/ (x + 1))), Rinv_l by lra. lra.
Qed.

Lemma no_edges_speed g : energy_velocity None g = 1.
Proof. reflexivity. Qed.
