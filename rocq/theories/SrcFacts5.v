(** C63, C99: materials. *)
From Coq Require Import ZArith Lra Lia Reals String Ascii List.
From Verif Require Import Base BaseFacts SrcModel SrcSpec.
Open Scope R_scope.

Lemma contains_app ch s t : contains ch (s ++ t) = (contains ch s || contains ch t)%bool.
Proof. induction s as [|c s IH]; [reflexivity|]. cbn. rewrite IH. now rewrite orb_assoc. Qed.

Lemma split_plain x : contains dash x = false -> py_split dash percent x = [x].
Proof.
  induction x as [|c x IH]; intros H; [reflexivity|]. cbn [contains] in H. apply orb_false_iff in H as [H1 H2].
  cbn [py_split]. rewrite H1, (IH H2). reflexivity.
Qed.
Lemma list_of_app s t : list_ascii_of_string (s ++ t) = (list_ascii_of_string s ++ list_ascii_of_string t)%list.
Proof. induction s as [|c s IH]; [reflexivity|]. cbn. now rewrite IH. Qed.
Lemma drop_none ch s : contains ch s = false -> drop_leading ch (list_ascii_of_string s) = list_ascii_of_string s.
Proof. destruct s as [|c s]; [reflexivity|]. cbn [contains list_ascii_of_string drop_leading]. intros H. apply orb_false_iff in H as [-> _]. reflexivity. Qed.
Lemma contains_in ch s : contains ch s = true <-> In ch (list_ascii_of_string s).
Proof.
  induction s as [|c s IH]; [split; [discriminate|intros []]|]. cbn [contains list_ascii_of_string In]. rewrite orb_true_iff, IH.
  split; intros [H|H]; auto; [left; now apply Ascii.eqb_eq|left; subst; apply Ascii.eqb_refl].
Qed.
Lemma drop_none_rev ch s : contains ch s = false -> drop_leading ch (rev (list_ascii_of_string s)) = rev (list_ascii_of_string s).
Proof.
  intros H. destruct (rev (list_ascii_of_string s)) as [|c l] eqn:E; [reflexivity|]. cbn [drop_leading]. destruct (Ascii.eqb_spec c ch) as [-> |N]; [|reflexivity].
  assert (contains ch s = true); [|congruence]. apply contains_in. apply in_rev. rewrite E. now left.
Qed.
Lemma strip_plain ch x : contains ch x = false -> strip ch x = x.
Proof. intros H. unfold strip. rewrite drop_none by exact H. rewrite drop_none_rev, rev_involutive by exact H. apply string_of_list_ascii_of_string. Qed.
Lemma strip_suffix x : contains percent x = false -> strip percent (x ++ "%") = x.
Proof.
  intros H. unfold strip. destruct x as [|c x]; [reflexivity|].
  assert (E : drop_leading percent (list_ascii_of_string (String c x ++ "%")) = (list_ascii_of_string (String c x) ++ ["%"%char])%list).
  { rewrite list_of_app. cbn [contains] in H. apply orb_false_iff in H as [H1 _]. cbn [list_ascii_of_string app drop_leading]. now rewrite H1. }
  rewrite E, rev_app_distr. change (rev ["%"%char]) with ["%"%char]. cbn [app drop_leading]. change (Ascii.eqb "%" percent) with true. cbv iota.
  rewrite drop_none_rev, rev_involutive by exact H. apply string_of_list_ascii_of_string.
Qed.

Lemma mix_combination e a b : xs_groups a = xs_groups b -> exists z, mix e a (1 - e) b = Ok z /\ combination e a (1 - e) b z.
Proof.
  intros G. unfold mix. rewrite G, Nat.eqb_refl. eexists. split; [reflexivity|]. split; [cbn; congruence|]. cbn [xs_t xs_s xs_f]. repeat split; intros; ring.
Qed.
Lemma convex_between e x y : 0 <= e <= 1 -> Rmin x y <= e * x + (1 - e) * y <= Rmax x y.
Proof.
  intros H. unfold Rmin, Rmax. destruct (Rle_dec x y); split.
  - replace x with (e * x + (1 - e) * x) at 1 by ring. apply Rplus_le_compat_l. apply Rmult_le_compat_l; lra.
  - replace y with (e * y + (1 - e) * y) at 2 by ring. apply Rplus_le_compat_r. apply Rmult_le_compat_l; lra.
  - replace y with (e * y + (1 - e) * y) at 1 by ring. apply Rplus_le_compat_r. apply Rmult_le_compat_l; lra.
  - replace x with (e * x + (1 - e) * x) at 2 by ring. apply Rplus_le_compat_l. apply Rmult_le_compat_l; lra.
Qed.
Lemma combination_between e a b z : 0 <= e <= 1 -> combination e a (1 - e) b z -> between a b z.
Proof. intros H (_ & A & B & C). repeat split; intros; rewrite ?A, ?B, ?C; now apply convex_between. Qed.

Lemma materials_single load float_of groups name : mem (hd EmptyString (py_split dash percent name)) known_materials = true ->
  materials load float_of groups [name] = bind (generate_cross_section load float_of groups name) (fun x => Ok ([x], [(0%nat, name)])).
Proof.
  intros H. unfold materials. cbn [fold_left bind]. rewrite H. destruct (generate_cross_section load float_of groups name); reflexivity.
Qed.

(** The text before the enrichment, split off. *)
Lemma split_name name x : name = "uranium"%string \/ name = "plutonium"%string \/ name = "uranium-hydride"%string -> contains dash x = false ->
  py_split dash percent (name ++ "-%" ++ x) = [name; x].
Proof.
  intros H D. pose proof (split_plain x D) as E. destruct H as [-> |[-> | ->]]; cbn [append]; 
  cbn; fold py_split; rewrite E; reflexivity.
Qed.
Lemma enriched_text name text x float_of (p : R) : name = "uranium"%string \/ name = "plutonium"%string \/ name = "uranium-hydride"%string ->
  plain text -> x = text \/ x = (text ++ "%")%string -> float_of text = Some p ->
  contains percent (name ++ "-%" ++ x) = true /\ py_split dash percent (name ++ "-%" ++ x) = [name; x] /\ float_of (strip percent x) = Some p.
Proof.
  intros Hn [P1 P2] Hx F. split; [|split].
  - rewrite contains_app. apply orb_true_iff. right. reflexivity.
  - apply split_name; [exact Hn|]. destruct Hx as [-> | ->]; [exact P2|]. rewrite contains_app, P2. reflexivity.
  - destruct Hx as [-> | ->]; [now rewrite strip_plain|now rewrite strip_suffix].
Qed.

Lemma enriched_mixture load float_of groups name heavy light text x p a b :
  (name, heavy, light) = ("uranium", "uranium-235", "uranium-238")%string \/
  (name, heavy, light) = ("plutonium", "plutonium-239", "plutonium-240")%string ->
  plain text -> x = text \/ x = (text ++ "%")%string -> float_of text = Some p ->
  load heavy = Ok a -> load light = Ok b -> xs_groups a = xs_groups b ->
  exists z, materials load float_of groups [(name ++ "-%" ++ x)%string] = Ok ([z], [(0%nat, (name ++ "-%" ++ x)%string)]) /\
    combination (p / 100) a (1 - p / 100) b z /\ (0 <= p <= 100 -> between a b z).
Proof.
  intros Hn P Hx F La Lb G.
  assert (Hn' : name = "uranium"%string \/ name = "plutonium"%string \/ name = "uranium-hydride"%string) by (destruct Hn as [Q|Q]; injection Q as -> _ _; auto).
  destruct (enriched_text name text x float_of p Hn' P Hx F) as (T1 & T2 & T3).
  destruct (mix_combination (p * 0.01) a b G) as (z & Ez & Cz).
  exists z. split; [|].
  - rewrite materials_single.
    + unfold generate_cross_section. rewrite T1, T2, T3. cbn [bind].
      assert (Q : (if String.eqb name "vacuum" then Ok (mkXs groups zeros zeros2 zeros2)
        else if mem name nonenrichment_materials then load name
        else if String.eqb name "uranium" then enriched load "uranium-235" "uranium-238" (Some (p * 0.01))
        else if String.eqb name "plutonium" then enriched load "plutonium-239" "plutonium-240" (Some (p * 0.01))
        else if String.eqb name "uranium-hydride" then
          match Some (p * 0.01) with Some e => uranium_hydride load e | None => Raise UnboundLocalError end
        else Raise KeyError) = mix (p * 0.01) a (1 - p * 0.01) b).
      { destruct Hn as [Q|Q]; injection Q as -> -> ->; cbn [String.eqb Ascii.eqb Bool.eqb mem nonenrichment_materials existsb orb]; unfold enriched; now rewrite La, Lb. }
      rewrite Q, Ez. reflexivity.
    + rewrite T2. cbn [hd]. destruct Hn as [Q|Q]; injection Q as -> _ _; reflexivity.
  - replace (p * 0.01) with (p / 100) in Cz by lra. split; [exact Cz|]. intros H. eapply combination_between; [|exact Cz]. lra.
Qed.

(** A single material without data on file. *)
Lemma vacuum_material load float_of groups : exists z, materials load float_of groups ["vacuum"%string] = Ok ([z], [(0%nat, "vacuum"%string)]) /\
  xs_groups z = groups /\ (forall g, xs_t z g = 0) /\ (forall g h, xs_s z g h = 0) /\ (forall g h, xs_f z g h = 0).
Proof. eexists. split; [reflexivity|]. repeat split. Qed.
Lemma enrichment_missing load float_of groups a b :
  materials load float_of groups ["uranium-hydride"%string] = Raise UnboundLocalError /\
  (load "uranium-235"%string = Ok a -> load "uranium-238"%string = Ok b -> materials load float_of groups ["uranium"%string] = Raise UnboundLocalError) /\
  (load "plutonium-239"%string = Ok a -> load "plutonium-240"%string = Ok b -> materials load float_of groups ["plutonium"%string] = Raise UnboundLocalError).
Proof.
  split; [reflexivity|]. split; intros A B; rewrite materials_single by reflexivity; unfold generate_cross_section; cbn [contains percent Ascii.eqb Bool.eqb orb bind String.eqb mem nonenrichment_materials existsb];
    unfold enriched; rewrite A, B; reflexivity.
Qed.
(** The documented spelling name-X% is rejected. *)
Lemma mem_known_percent s : contains percent s = true -> mem s known_materials = false.
Proof.
  intros H. destruct (mem s known_materials) eqn:E; [|reflexivity]. unfold mem in E. apply existsb_exists in E as (k & I & Q). apply String.eqb_eq in Q. subst k.
  assert (F : forallb (fun k => negb (contains percent k)) known_materials = true) by reflexivity.
  rewrite forallb_forall in F. specialize (F s I). rewrite H in F. discriminate.
Qed.
Lemma split_dash_plain name c x : name = "uranium"%string \/ name = "plutonium"%string \/ name = "uranium-hydride"%string ->
  plain (String c x) -> py_split dash percent (name ++ "-" ++ String c x ++ "%") = [(name ++ "-" ++ String c x ++ "%")%string].
Proof.
  intros H [P1 P2]. 
  assert (E : py_split dash percent (String c x ++ "%") = [(String c x ++ "%")%string]) by (apply split_plain; rewrite contains_app, P2; reflexivity).
  assert (E2 : py_split dash percent ("-" ++ String c x ++ "%") = [("-" ++ String c x ++ "%")%string]).
  { cbn [contains] in P1. apply orb_false_iff in P1 as [P1 _]. change ("-" ++ String c x ++ "%")%string with (String "-" (String c (x ++ "%"))).
    change (String c x ++ "%")%string with (String c (x ++ "%")) in E.
    cbn [py_split]. cbn [py_split] in E. rewrite E. change (Ascii.eqb "-" dash) with true. cbv iota. rewrite P1. reflexivity. }
  revert E2. generalize ("-" ++ String c x ++ "%")%string. intros rest E2.
  destruct H as [-> |[-> | ->]]; cbn [append]; unfold dash, percent in *; cbn; fold py_split; rewrite E2; reflexivity.
Qed.
Lemma documented_spelling_rejected load float_of groups name c x : name = "uranium"%string \/ name = "plutonium"%string \/ name = "uranium-hydride"%string ->
  plain (String c x) -> materials load float_of groups [(name ++ "-" ++ String c x ++ "%")%string] = Raise AssertionError.
Proof.
  intros H P. unfold materials. cbn [fold_left bind]. rewrite (split_dash_plain name c x H P). cbn [hd].
  rewrite mem_known_percent; [reflexivity|]. rewrite !contains_app. rewrite !orb_true_iff. right. right. right. reflexivity.
Qed.

(** The order of several materials. *)
Lemma materials_loop load float_of groups names idx data keys r :
  fold_left (fun acc material => bind acc (fun done =>
          let '(idx, data, keys) := done in
          if mem (hd EmptyString (py_split dash percent material)) known_materials then
            bind (generate_cross_section load float_of groups material) (fun x =>
              Ok (S idx, data ++ [x], keys ++ [(idx, material)])%list)
          else Raise AssertionError)) names (Ok (idx, data, keys)) = Ok r ->
  exists more, length more = length names /\ r = ((idx + length names)%nat, (data ++ more)%list, (keys ++ combine (seq idx (length names)) names)%list) /\
    (forall k m, nth_error names k = Some m -> mem (hd EmptyString (py_split dash percent m)) known_materials = true /\
       exists x, nth_error more k = Some x /\ generate_cross_section load float_of groups m = Ok x).
Proof.
  revert idx data keys. induction names as [|m names IH]; intros idx data keys E; cbn [fold_left] in E.
  - injection E as <-. exists []. cbn [length combine seq]. rewrite !app_nil_r, Nat.add_0_r. split; [reflexivity|]. split; [reflexivity|]. intros [|k] m Q; discriminate.
  - cbn [bind] in E. 
    assert (STUCK : forall e, fold_left (fun acc material => bind acc (fun done =>
          let '(idx, data, keys) := done in
          if mem (hd EmptyString (py_split dash percent material)) known_materials then
            bind (generate_cross_section load float_of groups material) (fun x =>
              Ok (S idx, data ++ [x], keys ++ [(idx, material)])%list)
          else Raise AssertionError)) names (Raise e) = Raise e).
    { intros e. clear. induction names as [|? names IH]; [reflexivity|]. cbn [fold_left bind]. exact IH. }
    destruct (mem (hd EmptyString (py_split dash percent m)) known_materials) eqn:M; [|rewrite STUCK in E; discriminate].
    destruct (generate_cross_section load float_of groups m) as [x|e] eqn:G; cbn [bind] in E; [|rewrite STUCK in E; discriminate].
    destruct (IH _ _ _ E) as (more & L & -> & A). exists (x :: more). cbn [length seq combine]. split; [now rewrite L|]. split.
    + rewrite <- !app_assoc. cbn [app]. do 2 f_equal. lia.
    + intros [|k] m' Q; cbn [nth_error] in Q |- *; [injection Q as <-; split; [exact M|exists x; auto]|apply A; exact Q].
Qed.
Lemma materials_in_order load float_of groups names data keys : materials load float_of groups names = Ok (data, keys) ->
  length data = length names /\ keys = combine (seq 0 (length names)) names /\
  (forall k m, nth_error names k = Some m -> exists x, nth_error data k = Some x /\ 
     materials load float_of groups [m] = Ok ([x], [(0%nat, m)]) /\ (forall j y, nth_error data j = Some y -> xs_groups y = xs_groups x)).
Proof.
  intros E. unfold materials in E at 1.
  match type of E with bind ?f _ = _ => destruct f as [r|] eqn:F; [|discriminate] end. cbn [bind] in E.
  destruct (materials_loop _ _ _ _ _ _ _ _ F) as (more & L & -> & A). cbn [app] in E.
  assert (Q : data = more /\ keys = combine (seq 0 (length names)) names /\ (forall i j x y, nth_error more i = Some x -> nth_error more j = Some y -> xs_groups y = xs_groups x)).
  { destruct more as [|x0 rest]; [injection E as <- <-; repeat split; intros [|i] j x y H; discriminate|].
    destruct (forallb (fun y => Nat.eqb (xs_groups y) (xs_groups x0)) rest) eqn:FB; [|discriminate]. injection E as <- <-. repeat split.
    rewrite forallb_forall in FB. assert (B : forall i x, nth_error (x0 :: rest) i = Some x -> xs_groups x = xs_groups x0).
    { intros i x H. apply nth_error_In in H. destruct H as [-> |H]; [reflexivity|]. apply Nat.eqb_eq. now apply FB. }
    intros i j x y Hx Hy. now rewrite (B j y Hy), (B i x Hx). }
  destruct Q as (-> & -> & U). split; [exact L|]. split; [reflexivity|].
  intros k m Hk. destruct (A k m Hk) as (M & x & X & G). exists x. split; [exact X|]. split.
  - rewrite materials_single by exact M. now rewrite G.
  - intros j y Hy. apply (U k j); assumption.
Qed.

(** With the packaged data nothing but vacuum can be made. *)
Lemma packaged_only_vacuum float_of groups names r : materials packaged_load float_of groups names = Ok r ->
  forall m, In m names -> hd EmptyString (py_split dash percent m) = "vacuum"%string.
Proof.
  intros E m Hm. destruct r as [data keys]. destruct (materials_in_order _ _ _ _ _ _ E) as (_ & _ & A).
  destruct (In_nth_error names m Hm) as [k Hk]. destruct (A k m Hk) as (x & _ & G & _).
  destruct (mem (hd EmptyString (py_split dash percent m)) known_materials) eqn:M; [|unfold materials in G; cbn [fold_left bind] in G; rewrite M in G; discriminate].
  rewrite materials_single in G by exact M.
  assert (X : exists y, generate_cross_section packaged_load float_of groups m = Ok y) by (destruct (generate_cross_section packaged_load float_of groups m); [eauto|discriminate]).
  clear G. destruct X as [y G]. unfold generate_cross_section in G.
  assert (K : forall name e, (if String.eqb name "vacuum" then Ok (mkXs groups zeros zeros2 zeros2)
        else if mem name nonenrichment_materials then packaged_load name
        else if String.eqb name "uranium" then enriched packaged_load "uranium-235" "uranium-238" e
        else if String.eqb name "plutonium" then enriched packaged_load "plutonium-239" "plutonium-240" e
        else if String.eqb name "uranium-hydride" then
          match e with Some e => uranium_hydride packaged_load e | None => Raise UnboundLocalError end
        else Raise KeyError) = Ok y -> name = "vacuum"%string).
  { intros name e Q. destruct (String.eqb_spec name "vacuum") as [-> |]; [reflexivity|].
    destruct (mem name nonenrichment_materials); [discriminate|]. destruct (String.eqb name "uranium"); [discriminate|]. destruct (String.eqb name "plutonium"); [discriminate|].
    destruct (String.eqb name "uranium-hydride"); [|discriminate]. destruct e; discriminate. }
  destruct (contains percent m) eqn:C.
  - destruct (py_split dash percent m) as [|name [|text [|? ?]]]; try discriminate. destruct (float_of (strip percent text)) as [p|]; [|discriminate].
    cbn [bind] in G. cbn [hd]. exact (K name (Some (p * 0.01)) G).
  - cbn [bind] in G. apply (K m None) in G. subst m. reflexivity.
Qed.

(** *** uranium hydride *)
Lemma hydride_material load float_of groups text x p u235 u238 h1 :
  plain text -> x = text \/ x = (text ++ "%")%string -> float_of text = Some p -> 0 <= p <= 100 ->
  load "uranium-235"%string = Ok u235 -> load "uranium-238"%string = Ok u238 -> load "hydrogen"%string = Ok h1 ->
  xs_groups u235 = xs_groups u238 -> xs_groups u235 = xs_groups h1 ->
  let e := p / 100 in
  let molar := e * URANIUM_235_MM + (1 - e) * URANIUM_238_MM in
  let metal := URANIUM_RHO * AVAGADRO / molar in
  exists z hydride w235 w238 wh,
    materials load float_of groups [("uranium-hydride-%" ++ x)%string] = Ok ([z], [(0%nat, ("uranium-hydride-%" ++ x)%string)]) /\
    xs_groups z = xs_groups u235 /\
    (forall g, xs_t z g = w235 * xs_t u235 g + w238 * xs_t u238 g + wh * xs_t h1 g) /\
    (forall g h, xs_s z g h = w235 * xs_s u235 g h + w238 * xs_s u238 g h + wh * xs_s h1 g h) /\
    (forall g h, xs_f z g h = w235 * xs_f u235 g h + w238 * xs_f u238 g h + wh * xs_f h1 g h) /\
    0 < hydride /\ hydride * (molar + 3 * HYDROGEN_MM) / AVAGADRO = URANIUM_HYDRIDE_RHO /\
    w235 * metal = e * hydride /\ w238 * metal = (1 - e) * hydride /\ wh = 3 * hydride * CM_TO_BARNS.
Proof.
  intros P Hx F Hp L1 L2 L3 G1 G2 e molar metal.
  destruct (enriched_text "uranium-hydride" text x float_of p ltac:(auto) P Hx F) as (T1 & T2 & T3).
  change ("uranium-hydride" ++ "-%" ++ x)%string with ("uranium-hydride-%" ++ x)%string in *.
  assert (He : 0 <= e <= 1) by (unfold e; lra).
  assert (Hm : 0 < molar).
  { unfold molar, URANIUM_235_MM, URANIUM_238_MM. lra. }
  assert (Hmh : 0 < molar + 3 * HYDROGEN_MM) by (unfold HYDROGEN_MM; lra).
  assert (HA : 0 < AVAGADRO) by (unfold AVAGADRO; lra).
  assert (HR : 0 < URANIUM_RHO) by (unfold URANIUM_RHO; lra).
  assert (HH : 0 < URANIUM_HYDRIDE_RHO) by (unfold URANIUM_HYDRIDE_RHO; lra).
  set (w := hydride_weights e). destruct w as [[w235 w238] wh] eqn:W. unfold w, hydride_weights in W. fold molar in W. injection W as W1 W2 W3.
  eexists _, (URANIUM_HYDRIDE_RHO * AVAGADRO / (molar + 3 * HYDROGEN_MM)), w235, w238, wh.
  split; [|].
  - rewrite materials_single by (rewrite T2; reflexivity). unfold generate_cross_section. rewrite T1, T2, T3. cbn [bind].
    cbn [String.eqb Ascii.eqb Bool.eqb mem nonenrichment_materials existsb orb].
    replace (p * 0.01) with e by (unfold e; lra). unfold uranium_hydride, hydride_weights. fold molar. rewrite W1, W2, W3, L1, L2, L3. cbn [bind].
    rewrite <- G1, <- G2, Nat.eqb_refl. cbn [andb bind]. reflexivity.
  - cbn [xs_groups xs_t xs_s xs_f]. split; [reflexivity|]. split; [reflexivity|]. split; [reflexivity|]. split; [reflexivity|].
    split; [apply Rdiv_lt_0_compat; [now apply Rmult_lt_0_compat|exact Hmh]|].
    unfold metal. rewrite <- W1, <- W2, <- W3. repeat split; try (field; repeat split; lra).
Qed.

(** The same with the constants written out: molar masses 235.04393, 238.0289 and 1.00784 g/mol, densities
    19.1 (metal) and 10.95 g/cm^3 (hydride), Avogadro's number 6.022e23 and 1e-24 cm^2 per barn. *)
Lemma hydride_material_numbers load float_of groups text x p u235 u238 h1 :
  plain text -> x = text \/ x = (text ++ "%")%string -> float_of text = Some p -> 0 <= p <= 100 ->
  load "uranium-235"%string = Ok u235 -> load "uranium-238"%string = Ok u238 -> load "hydrogen"%string = Ok h1 ->
  xs_groups u235 = xs_groups u238 -> xs_groups u235 = xs_groups h1 ->
  let e := p / 100 in
  let molar := e * 235.04393 + (1 - e) * 238.0289 in
  let metal := 19.1 * (6022 * 10 ^ 20) / molar in
  exists z hydride w235 w238 wh,
    materials load float_of groups [("uranium-hydride-%" ++ x)%string] = Ok ([z], [(0%nat, ("uranium-hydride-%" ++ x)%string)]) /\
    xs_groups z = xs_groups u235 /\
    (forall g, xs_t z g = w235 * xs_t u235 g + w238 * xs_t u238 g + wh * xs_t h1 g) /\
    (forall g h, xs_s z g h = w235 * xs_s u235 g h + w238 * xs_s u238 g h + wh * xs_s h1 g h) /\
    (forall g h, xs_f z g h = w235 * xs_f u235 g h + w238 * xs_f u238 g h + wh * xs_f h1 g h) /\
    0 < hydride /\ hydride * (molar + 3 * 1.00784) / (6022 * 10 ^ 20) = 10.95 /\
    w235 * metal = e * hydride /\ w238 * metal = (1 - e) * hydride /\ wh = 3 * hydride / 10 ^ 24.
Proof.
  intros P Hx F Hp L1 L2 L3 G1 G2 e molar metal.
  destruct (hydride_material load float_of groups text x p u235 u238 h1 P Hx F Hp L1 L2 L3 G1 G2) as (z & hy & a & b & c & A1 & A2 & A3 & A4 & A5 & A6 & A7 & A8 & A9 & A10).
  assert (EA : AVAGADRO = 6022 * 10 ^ 20) by (unfold AVAGADRO; lra).
  assert (EC : CM_TO_BARNS = / 10 ^ 24) by (unfold CM_TO_BARNS; lra).
  rewrite EA in A7, A8, A9. rewrite EC in A10.
  exists z, hy, a, b, c. do 6 (split; [assumption|]). split; [exact A7|]. split; [exact A8|]. split; [exact A9|exact A10].
Qed.
Lemma hydride_group_mismatch load float_of groups text x p u235 u238 h1 :
  plain text -> x = text \/ x = (text ++ "%")%string -> float_of text = Some p ->
  load "uranium-235"%string = Ok u235 -> load "uranium-238"%string = Ok u238 -> load "hydrogen"%string = Ok h1 ->
  xs_groups u235 <> xs_groups u238 \/ xs_groups u235 <> xs_groups h1 ->
  materials load float_of groups [("uranium-hydride-%" ++ x)%string] = Raise ValueError.
Proof.
  intros P Hx F L1 L2 L3 G.
  destruct (enriched_text "uranium-hydride" text x float_of p ltac:(auto) P Hx F) as (T1 & T2 & T3).
  change ("uranium-hydride" ++ "-%" ++ x)%string with ("uranium-hydride-%" ++ x)%string in *.
  rewrite materials_single by (rewrite T2; reflexivity). unfold generate_cross_section. rewrite T1, T2, T3. cbn [bind].
  cbn [String.eqb Ascii.eqb Bool.eqb mem nonenrichment_materials existsb orb].
  unfold uranium_hydride. destruct (hydride_weights _) as [[w1 w2] w3]. rewrite L1, L2, L3. cbn [bind].
  destruct (Nat.eqb_spec (xs_groups u235) (xs_groups u238)) as [E1|E1]; destruct (Nat.eqb_spec (xs_groups u235) (xs_groups h1)) as [E2|E2]; cbn [andb bind]; try reflexivity.
  exfalso; tauto.
Qed.
