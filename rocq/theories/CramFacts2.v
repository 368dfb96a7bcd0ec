(** Accuracy of the two rational functions on the negative half line. *)
From Coq Require Import ZArith Lra Lia.
From Verif Require Import Base BaseFacts CramModel CramSpec CramFacts CramPoly.
Open Scope R_scope.

(** The tables in units of 10^-16. *)
Definition unit16 : Z := (10 ^ 16)%Z.
Definition zpoles16 : list ((Z * Z) * (Z * Z)) :=
[ ((35091036084149180, 84361989858843740), (54649305768702100000, -379798357530835600000))
; ((59481522689511770, 35874573620183220), (904511247690754800, -11155375224302610000))
; ((-52649713434426470, 162202214731679300), (2344818070467641000, -4228020157070496000))
; ((14193758971856660, 109253634844967200), (945330406735831200, -2951294291446048000))
; ((64161776990994350, 11941223933701390), (7283792954673409000, -1205646080220011000000))
; ((49931747377179970, 59968817136039420), (364822905959485100, -1155509621409682000))
; ((-14139284624888860, 134977256988927500), (254732163015681900, -263950028302150200))
; ((-108439170786969900, 192774461671816500), (239453833873470900, -56505229717781560)) ]%Z.
Definition zpoles48 : list ((Z * Z) * (Z * Z)) :=
[ ((-446573193416570200, 623322519069543700), (6387380733878774000, -6743912502859256000))
; ((-52846162415689640, 405749938131105900), (1909896179065730000, -3973203432721332000))
; ((-88677156676244580, 432551575416672400), (4236195226571914000, -20412337689186710000))
; ((34930131242792150, 328161545317358500), (4645770595258726000, -16529172872996830000))
; ((156410250885863400, 155806161637223700), (7765163276752433000, -178361763990732800000))
; ((174209759738589300, 107662930571442000), (19071151367685220000, -588706859514228400000))
; ((-283446675518065400, 549284102464872400), (29098926856032560000, -99532553455145600000))
; ((166156936793954400, 131699493002468800), (1944772206620450000, -14271312260684490000))
; ((80118361679747210, 278023211130941000), (1382799786972332000000, -32568851972149380000000))
; ((-20562675419982290, 379482478891435400), (56284420796024330000, -292428451588430900000))
; ((144920817044183900, 179998821005180900), (2151681283794220000, -11217740111882240000))
; ((185380717690791600, 59743325631005390), (13247202405144200000, -637008844314097300000))
; ((99325627045051820, 253282340997296200), (161754847634334700000, -10087984131565420000000))
; ((-224422387176718700, 517963360031216200), (1112729040439685000, -883710973168041800))
; ((8590014121680897, 353645619429435000), (1074624783191125000, -1457246116408180000))
; ((-128619292574447900, 460030490283365200), (883572776515819100, -638828618841936000))
; ((116459690954205500, 228715330414021700), (935407813605417900, -2195424319460237000))
; ((180607668478308900, 83682005800998210), (941814282353157300, -6719055740098035000))
; ((58706721546592490, 302970015904012100), (1040012390717851000, -1693747595553868000))
; ((-354293881965974700, 583438170180001300), (686188262434323500, -117759852343049300))
; ((190132348906025000, 11942820582714080), (876665449128372200, -45964649993639020000))
; ((188550833155257700, 35834285644278790), (1056007619389650000, -17382945855240670000))
; ((-173468970817498200, 488394110110820700), (773898756903941900, -431171538622898400))
; ((131628423712519000, 204295187482775900), (1041366366475571000, -2777743732451969000)) ]%Z.

Definition to_pole (p : (Z * Z) * (Z * Z)) : (R * R) * (R * R) :=
  let '((a, b), (c, d)) := p in
  ((IZR a / IZR unit16, IZR b / IZR unit16), (IZR c / IZR unit16, IZR d / IZR unit16)).

Lemma poles16_exact : poles16 = map to_pole zpoles16.
Proof. unfold poles16, zpoles16. cbn [map to_pole]. repeat (f_equal; try (unfold unit16; lra)). Qed.
Lemma poles48_exact : poles48 = map to_pole zpoles48.
Proof. unfold poles48, zpoles48. cbn [map to_pole]. repeat (f_equal; try (unfold unit16; lra)). Qed.
Lemma alpha0_16_exact : alpha0_16 = IZR 2124853710495224 / IZR (10 ^ 31).
Proof. unfold alpha0_16. lra. Qed.
Lemma alpha0_48_exact : alpha0_48 = IZR 2258038182743983 / IZR (10 ^ 62).
Proof. unfold alpha0_48. lra. Qed.

(** numerator and denominator of 1 + 2 Re (alpha / (-t - theta)), times 10^32 *)
Definition den_quad (p : (Z * Z) * (Z * Z)) : quad :=
  let '((a, b), (c, d)) := p in (a * a + b * b, 2 * a * unit16, unit16 * unit16)%Z.
Definition num_quad (p : (Z * Z) * (Z * Z)) : quad :=
  let '((a, b), (c, d)) := p in
  (a * a + b * b - 2 * (c * a + d * b), 2 * a * unit16 - 2 * c * unit16, unit16 * unit16)%Z.
Definition zoff (ps : list ((Z * Z) * (Z * Z))) : bool := forallb (fun p => negb (Z.eqb (snd (fst p)) 0)) ps.
Fixpoint heads (qs : list quad) : Z := match qs with [] => 1%Z | q :: r => (qhead q * heads r)%Z end.

Lemma den_value a b c d t : b <> 0%Z ->
  qev (den_quad ((a, b), (c, d))) t = IZR unit16 ^ 2 * ((- t - IZR a / IZR unit16) ^ 2 + (IZR b / IZR unit16) ^ 2) /\
  0 < qev (den_quad ((a, b), (c, d))) t.
Proof.
  intros Hb. assert (U : IZR unit16 <> 0) by (apply not_0_IZR; discriminate).
  assert (E : qev (den_quad ((a, b), (c, d))) t = IZR unit16 ^ 2 * ((- t - IZR a / IZR unit16) ^ 2 + (IZR b / IZR unit16) ^ 2)).
  { unfold den_quad, qev. rewrite plus_IZR, !mult_IZR. field. exact U. }
  split; [exact E|]. unfold den_quad, qev. rewrite plus_IZR, !mult_IZR.
  assert (B : 0 < IZR b * IZR b). { assert (IZR b <> 0) by (apply not_0_IZR; exact Hb). fold (Rsqr (IZR b)). apply Rsqr_pos_lt; assumption. }
  replace (IZR a * IZR a + IZR b * IZR b + t * (2 * IZR a * IZR unit16 + t * (IZR unit16 * IZR unit16)))
    with ((IZR a + t * IZR unit16) * (IZR a + t * IZR unit16) + IZR b * IZR b) by ring.
  pose proof (Rle_0_sqr (IZR a + t * IZR unit16)) as Q. unfold Rsqr in Q. lra.
Qed.

Lemma den_head a b c d : b <> 0%Z -> (0 < qhead (den_quad ((a, b), (c, d))))%Z.
Proof. intros Hb. unfold den_quad, qhead. nia. Qed.

Lemma rational_quotients ps alpha0 t : zoff ps = true ->
  forallb (fun q => negb (Z.eqb (qhead q) 0)) (map num_quad ps) = true ->
  0 < quotients (map den_quad ps) t /\ (0 < heads (map den_quad ps))%Z /\
  rational (map to_pole ps) alpha0 (- t)
  = alpha0 * (IZR (heads (map num_quad ps)) / IZR (heads (map den_quad ps)))
    * (quotients (map num_quad ps) t / quotients (map den_quad ps) t).
Proof.
  intros Ho Hn. induction ps as [|[[a b] [c d]] r IH]; cbn [map rational to_pole quotients heads].
  - split; [lra|]. split; [lia|]. field.
  - cbn [zoff forallb] in Ho. apply andb_true_iff in Ho. destruct Ho as [Hb Ho]. cbn [fst snd] in Hb.
    apply negb_true_iff, Z.eqb_neq in Hb. cbn [map forallb] in Hn. apply andb_true_iff in Hn. destruct Hn as [Hn0 Hn].
    apply negb_true_iff, Z.eqb_neq in Hn0. destruct (IH Ho Hn) as (P & HP & E). rewrite E.
    destruct (den_value a b c d t Hb) as [Ed Pd]. pose proof (den_head a b c d Hb) as Hh. pose proof (IZR_lt _ _ Hh) as Hhr.
    assert (U : IZR unit16 <> 0) by (apply not_0_IZR; discriminate).
    assert (D : (- t - IZR a / IZR unit16) ^ 2 + (IZR b / IZR unit16) ^ 2 <> 0).
    { apply den_off. unfold Rdiv. apply Rmult_integral_contrapositive_currified; [apply not_0_IZR; exact Hb|apply Rinv_neq_0_compat, U]. }
    assert (En : qev (num_quad ((a, b), (c, d))) t
      = qev (den_quad ((a, b), (c, d))) t
        + IZR unit16 ^ 2 * (2 * (IZR c / IZR unit16 * (- t - IZR a / IZR unit16) - IZR d / IZR unit16 * (IZR b / IZR unit16)))).
    { unfold num_quad, den_quad, qev.
      repeat (rewrite ?plus_IZR, ?minus_IZR, ?mult_IZR). field. exact U. }
    split; [|split; [lia|]].
    + apply Rmult_lt_0_compat; [|exact P]. unfold Rdiv. apply Rmult_lt_0_compat; [exact Pd|apply Rinv_0_lt_compat, Hhr].
    + rewrite !mult_IZR, En, Ed. set (hn := IZR (qhead (num_quad ((a, b), (c, d))))) in *.
      set (hd := IZR (qhead (den_quad ((a, b), (c, d))))) in *.
      assert (Hnr : hn <> 0) by (apply not_0_IZR; exact Hn0). pose proof (IZR_lt _ _ HP) as HPr.
      set (DD := (- t - IZR a / IZR unit16) ^ 2 + (IZR b / IZR unit16) ^ 2) in *.
      set (M := IZR c / IZR unit16 * (- t - IZR a / IZR unit16) - IZR d / IZR unit16 * (IZR b / IZR unit16)).
      field. repeat split; try assumption; lra.
Qed.

Lemma quotients_0 qs : forallb (fun q => negb (Z.eqb (qhead q) 0)) qs = true -> quotients qs 0 = 1.
Proof.
  induction qs as [|[[a b] d] r IH]; intros H; cbn [quotients]; [reflexivity|].
  cbn [forallb qhead] in H. apply andb_true_iff in H. destruct H as [Ha Hr]. apply negb_true_iff, Z.eqb_neq in Ha.
  rewrite (IH Hr). unfold qev, qhead. field. apply not_0_IZR. exact Ha.
Qed.

Lemma rational_accuracy ps am e k fuel c D E :
  zoff ps = true -> (0 < e)%Z -> (0 <= k)%Z -> (0 < c)%Z -> (0 < D)%Z -> (0 < E)%Z ->
  forallb (fun q => negb (Z.eqb (qhead q) 0)) (map num_quad ps) = true ->
  certificate k fuel c D (map num_quad ps) (map den_quad ps) = true ->
  (E * Z.abs (am * heads (map num_quad ps) - e * heads (map den_quad ps)) <=? e * heads (map den_quad ps))%Z = true ->
  Rabs (rational (map to_pole ps) (IZR am / IZR e) 0 - 1) <= / IZR E /\
  forall x, x <= 0 -> Rabs (rational (map to_pole ps) (IZR am / IZR e) x - exp x) <= / IZR E + (1 + / IZR E) * / IZR D.
Proof.
  intros Ho He Hk Hc HD HE Hn Cert Head.
  assert (Hd : forallb (fun q => negb (Z.eqb (qhead q) 0)) (map den_quad ps) = true).
  { clear -Ho. induction ps as [|[[a b] [c d]] r IH]; [reflexivity|]. cbn [zoff forallb] in Ho. apply andb_true_iff in Ho.
    destruct Ho as [Hb Ho]. cbn [fst snd] in Hb. apply negb_true_iff, Z.eqb_neq in Hb. cbn [map forallb]. rewrite (IH Ho).
    pose proof (den_head a b c d Hb) as H. destruct (Z.eqb_spec (qhead (den_quad ((a, b), (c, d)))) 0) as [E0|]; [lia|reflexivity]. }
  set (nums := map num_quad ps) in *. set (dens := map den_quad ps) in *.
  set (g0 := IZR am / IZR e * (IZR (heads nums) / IZR (heads dens))).
  assert (HQ : forall t, 0 < quotients dens t) by (intros t; exact (proj1 (rational_quotients ps 1 t Ho Hn))).
  assert (Hh : (0 < heads dens)%Z) by exact (proj1 (proj2 (rational_quotients ps 1 0 Ho Hn))).
  assert (HR : forall t, rational (map to_pole ps) (IZR am / IZR e) (- t) = g0 * (quotients nums t / quotients dens t))
    by (intros t; exact (proj2 (proj2 (rational_quotients ps (IZR am / IZR e) t Ho Hn)))).
  pose proof (IZR_lt _ _ He) as Her. pose proof (IZR_lt _ _ HE) as HEr. pose proof (IZR_lt _ _ Hh) as Hhr.
  pose proof (IZR_lt _ _ HD) as HDr. pose proof (IZR_lt _ _ Hc) as Hcr.
  assert (G0 : Rabs (g0 - 1) <= / IZR E).
  { apply Z.leb_le, IZR_le in Head. rewrite mult_IZR, abs_IZR, minus_IZR, !mult_IZR in Head. unfold g0.
    set (N := IZR am * IZR (heads nums)) in *. set (Q := IZR e * IZR (heads dens)) in *.
    assert (Q0 : 0 < Q) by (unfold Q; apply Rmult_lt_0_compat; assumption).
    replace (IZR am / IZR e * (IZR (heads nums) / IZR (heads dens)) - 1) with ((N - Q) * / Q) by (unfold N, Q; field; lra).
    rewrite Rabs_mult, Rabs_inv, (Rabs_pos_eq Q) by lra.
    apply (Rmult_le_reg_l (IZR E * Q)); [apply Rmult_lt_0_compat; assumption|].
    replace (IZR E * Q * (Rabs (N - Q) * / Q)) with (IZR E * Rabs (N - Q)) by (field; lra).
    replace (IZR E * Q * / IZR E) with Q by (field; lra). exact Head. }
  assert (R0 : rational (map to_pole ps) (IZR am / IZR e) 0 = g0).
  { replace 0 with (- 0) at 1 by ring. rewrite HR, !quotients_0 by assumption. field. }
  split; [rewrite R0; exact G0|]. intros x Hx.
  destruct (certificate_sound k fuel c D nums dens Hk Hc HD Hn Hd Cert) as (P & Q & EP & EQ & W).
  assert (P2 : 0 < IZR (2 ^ k)) by (apply IZR_lt, Z.pow_pos_nonneg; lia).
  assert (QP : forall s, 0 < pev Q s) by (intros s; rewrite EQ; apply Rmult_lt_0_compat; [exact P2|apply HQ]).
  pose (g := fun t => g0 * (pev P (/ IZR c * t) / pev Q (/ IZR c * t))).
  pose (dg := fun t => g0 * ((pev (rder P) (/ IZR c * t) * pev Q (/ IZR c * t) - pev (rder Q) (/ IZR c * t) * pev P (/ IZR c * t))
                            / (pev Q (/ IZR c * t))² * (/ IZR c * 1))).
  assert (Eg : forall t, g t = rational (map to_pole ps) (IZR am / IZR e) (- t)).
  { intros t. rewrite HR. unfold g. rewrite EP, EQ. replace (IZR c * (/ IZR c * t)) with t by (field; lra).
    pose proof (HQ t). field. lra. }
  assert (K := defect_exponential g dg ((1 + / IZR E) * / IZR D) (- x)). rewrite Ropp_involutive in K.
  replace (rational (map to_pole ps) (IZR am / IZR e) x) with (g (- x)) by (rewrite Eg, Ropp_involutive; reflexivity).
  replace (Rabs (g 0 - 1)) with (Rabs (g0 - 1)) in K by (rewrite Eg, Ropp_0, R0; reflexivity).
  eapply Rle_trans; [apply K|apply Rplus_le_compat_r; exact G0]; [| |lra].
  - intros u Hu. unfold g, dg.
    apply (derivable_pt_lim_scal (fun t => pev P (/ IZR c * t) / pev Q (/ IZR c * t)) g0).
    apply (derivable_pt_lim_comp (fun t => / IZR c * t) (fun s => pev P s / pev Q s)).
    + apply (derivable_pt_lim_scal (fun t => t) (/ IZR c)). apply derivable_pt_lim_id.
    + apply (derivable_pt_lim_div (pev P) (pev Q)); [apply pev_der|apply pev_der|]. pose proof (QP (/ IZR c * u)). lra.
  - intros u Hu. unfold dg, g, Rsqr. set (s := / IZR c * u).
    assert (Hs : 0 <= s) by (unfold s; apply Rmult_le_pos; [apply Rlt_le, Rinv_0_lt_compat, Hcr|exact Hu]).
    specialize (W s Hs). specialize (QP s).
    set (a := pev P s) in *. set (b := pev Q s) in *. set (a' := pev (rder P) s) in *. set (b' := pev (rder Q) s) in *.
    replace (g0 * ((a' * b - b' * a) / (b * b) * (/ IZR c * 1)) + g0 * (a / b))
      with (g0 * ((a' * b - a * b' + IZR c * (a * b)) * / (IZR c * (b * b)))) by (field; lra).
    assert (B : 0 < IZR c * (b * b)) by (repeat apply Rmult_lt_0_compat; assumption).
    rewrite !Rabs_mult, (Rabs_pos_eq (/ (IZR c * (b * b)))) by (apply Rlt_le, Rinv_0_lt_compat; exact B).
    apply Rmult_le_compat; [apply Rabs_pos|apply Rmult_le_pos; [apply Rabs_pos|apply Rlt_le, Rinv_0_lt_compat; exact B]| |].
    + replace g0 with ((g0 - 1) + 1) by ring. eapply Rle_trans; [apply Rabs_triang|]. rewrite Rabs_R1. lra.
    + apply (Rmult_le_reg_r (IZR c * (b * b))); [exact B|]. rewrite Rmult_assoc, Rinv_l, Rmult_1_r by lra.
      eapply Rle_trans; [exact W|]. unfold Rdiv. right. ring.
Qed.

Lemma certificate16 : certificate 55 20 8 33000000000000 (map num_quad zpoles16) (map den_quad zpoles16) = true.
Proof. vm_cast_no_check (eq_refl true). Qed.

Lemma accuracy16 : Rabs (rational poles16 alpha0_16 0 - 1) <= 5e-17 /\
  forall x, x <= 0 -> Rabs (rational poles16 alpha0_16 x - exp x) <= 3.1e-14.
Proof.
  rewrite poles16_exact, alpha0_16_exact.
  destruct (rational_accuracy zpoles16 2124853710495224 (10 ^ 31) 55 20 8 33000000000000 20000000000000000 eq_refl eq_refl ltac:(lia) eq_refl eq_refl eq_refl
    eq_refl certificate16) as [H0 H]; [vm_cast_no_check (eq_refl true)|].
  split; [lra|]. intros x Hx. eapply Rle_trans; [apply H; exact Hx|]. lra.
Qed.

Lemma certificate48 : certificate 65 20 32 10000000000000000 (map num_quad zpoles48) (map den_quad zpoles48) = true.
Proof. vm_cast_no_check (eq_refl true). Qed.

Lemma accuracy48 : Rabs (rational poles48 alpha0_48 0 - 1) <= 5e-16 /\
  forall x, x <= 0 -> Rabs (rational poles48 alpha0_48 x - exp x) <= 6.1e-16.
Proof.
  rewrite poles48_exact, alpha0_48_exact.
  destruct (rational_accuracy zpoles48 2258038182743983 (10 ^ 62) 65 20 32 10000000000000000 2000000000000000 eq_refl eq_refl ltac:(lia) eq_refl eq_refl eq_refl
    eq_refl certificate48) as [H0 H]; [vm_cast_no_check (eq_refl true)|].
  split; [lra|]. intros x Hx. eapply Rle_trans; [apply H; exact Hx|]. lra.
Qed.
