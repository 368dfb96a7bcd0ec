(** Coarse collapse on the fly, ML-predicted sources. *)
From Coq Require Import Lra Lia FunctionalExtensionality.
From Verif Require Import Base BaseFacts Contraction SlabModel SlabSpec SlabFacts SlabFacts2
  SlabFacts3 SlabFacts4 SlabFacts5 SphereModel MgModel MgSpec MgFacts MgFacts2 MgFacts3 MgFacts4.
Open Scope R_scope.


Lemma variable_off_eq cells groups rows flux flux_old medium xs gg edges i :
  variable_off_scatter cells groups rows flux flux_old medium xs gg edges i
  = if Nat.ltb i cells then rsum groups (fun og =>
      if Nat.eqb og gg then 0 else
      rsum rows (fun r => range_sum (edges og) (edges (og + 1)%nat) (fun c => xs (medium i) r c))
      * (if Nat.ltb og gg then flux i og else flux_old i og)) else 0.
Proof.
  unfold variable_off_scatter.
  set (body := fun (og : nat) (off : vec) => _).
  assert (H : forall n, for_up n body zeros = fun i => if Nat.ltb i cells then rsum n (fun og =>
      if Nat.eqb og gg then 0 else
      rsum rows (fun r => range_sum (edges og) (edges (og + 1)%nat) (fun c => xs (medium i) r c))
      * (if Nat.ltb og gg then flux i og else flux_old i og)) else 0).
  { induction n as [|n IH].
    - cbn [for_up rsum]. extensionality j. unfold zeros. destruct (Nat.ltb j cells); reflexivity.
    - change (for_up (S n) body zeros) with (body n (for_up n body zeros)). rewrite IH. unfold body. cbv zeta.
      destruct (Nat.ltb_spec n gg).
      + rewrite (fill_loop cells (fun ii => rsum rows (fun r => range_sum (edges n) (edges (n + 1)%nat) (fun c => xs (medium ii) r c)) * flux ii n)).
        extensionality j. destruct (Nat.ltb j cells); [|reflexivity]. cbn [rsum].
        destruct (Nat.eqb_spec n gg); [lia|]. destruct (Nat.ltb_spec n gg); [reflexivity|lia].
      + destruct (Nat.ltb_spec gg n).
        * rewrite (fill_loop cells (fun ii => rsum rows (fun r => range_sum (edges n) (edges (n + 1)%nat) (fun c => xs (medium ii) r c)) * flux_old ii n)).
          extensionality j. destruct (Nat.ltb j cells); [|reflexivity]. cbn [rsum].
          destruct (Nat.eqb_spec n gg); [lia|]. destruct (Nat.ltb_spec n gg); [lia|reflexivity].
        * assert (n = gg) as -> by lia. extensionality j. destruct (Nat.ltb j cells); [|reflexivity]. cbn [rsum].
          rewrite Nat.eqb_refl. ring. }
  rewrite H. reflexivity.
Qed.

Lemma variable_off_gs cells groups flux old medium xs df dc gg edges :
  variable_off_scatter cells groups (edges (gg + 1)%nat - edges gg)
    (fun i g => flux i g / dc g) (fun i g => old i g / dc g) medium
    (fun m r c => xs m (edges gg + r)%nat c * df c) gg edges
  = gs_off cells groups flux old medium (coarse_scatter xs df dc edges) gg.
Proof.
  extensionality i. rewrite variable_off_eq. unfold gs_off. destruct (Nat.ltb i cells); [|reflexivity].
  apply rsum_ext. intros h Hh. destruct (Nat.eqb h gg); [reflexivity|].
  unfold coarse_scatter, range_sum, Rdiv. destruct (Nat.ltb h gg); ring.
Qed.

Lemma variable_is_coarse P groups flux_old xs_total star xs_scatter external boundary dc df edges geometry :
  variable_source_iteration_iso P groups flux_old xs_total star xs_scatter external boundary dc df edges geometry
  = source_iteration_iso P groups flux_old (coarse_total xs_total df dc star edges)
      (coarse_scatter xs_scatter df dc edges) external boundary geometry.
Proof.
  unfold variable_source_iteration_iso, source_iteration_iso. apply iterate_ext; [|reflexivity].
  intros x. unfold variable_sweep_iso, one_sweep_iso. apply for_up_err_ext. intros gg fl Hg. cbv zeta.
  rewrite variable_off_gs, off_scatter_eq by exact Hg. reflexivity.
Qed.

Lemma variable_is_coarse_aniso P groups nm flux_old xs_total star xs_scatter external boundary dc df edges geometry leg legw :
  variable_source_iteration_aniso P groups nm flux_old xs_total star xs_scatter external boundary dc df edges geometry leg legw
  = source_iteration_aniso P groups nm flux_old (coarse_total xs_total df dc star edges)
      (fun m o i l => coarse_scatter (fun m o i => xs_scatter m o i l) df dc edges m o i) external boundary geometry leg legw.
Proof.
  unfold variable_source_iteration_aniso, source_iteration_aniso. apply iterate_ext; [|reflexivity].
  intros x. unfold variable_sweep_aniso, one_sweep_aniso. apply for_up_err_ext. intros gg fl Hg. cbv zeta.
  rewrite (variable_off_gs _ _ _ _ _ (fun m o i => xs_scatter m o i 0%nat)), off_scatter_eq by exact Hg. reflexivity.
Qed.


Lemma scatter_prod_eq cells groups flux xs source medium i g :
  scatter_prod cells groups flux xs source medium i g
  = if andb (Nat.ltb i cells) (Nat.ltb g groups)
    then (if Req_EM_T (mat_total groups xs (medium i)) 0 then source i g
          else rsum groups (fun h => xs (medium i) g h * flux i h))
    else source i g.
Proof.
  unfold scatter_prod.
  rewrite (own_loop2 cells _ (fun x _ => x)
    (fun x y r => if Nat.ltb y groups then (if Req_EM_T (mat_total groups xs (medium x)) 0 then r
          else rsum groups (fun h => xs (medium x) y h * flux x h)) else r)).
  - destruct (Nat.ltb i cells), (Nat.ltb g groups); reflexivity.
  - intros k t x y Hk. cbv zeta. fold (mat_total groups xs (medium k)).
    destruct (Req_EM_T (mat_total groups xs (medium k)) 0) as [E|E].
    + destruct (Nat.eqb_spec x k) as [-> |]; [|reflexivity].
      destruct (Nat.ltb y groups); [|reflexivity]. destruct (Req_EM_T (mat_total groups xs (medium k)) 0); [reflexivity|contradiction].
    + rewrite (own_loop2 groups _ (fun _ y => y)
        (fun x y r => if Nat.eqb x k then rsum groups (fun h => xs (medium k) y h * flux k h) else r)).
      * destruct (Nat.eqb_spec x k) as [-> |]; [|destruct (Nat.ltb y groups); reflexivity].
        destruct (Nat.ltb y groups); [|reflexivity].
        destruct (Req_EM_T (mat_total groups xs (medium k)) 0); [contradiction|reflexivity].
      * intros k2 t2 x2 y2 Hk2. rewrite (acc_scalar groups (fun ig => flux k ig * xs (medium k) k2 ig)), Rplus_0_l.
        destruct (Nat.eqb_spec x2 k) as [-> |]; cbn [andb].
        -- destruct (Nat.eqb_spec y2 k2) as [-> |]; [|reflexivity]. apply rsum_ext; intros; ring.
        -- destruct (Nat.eqb y2 k2); reflexivity.
Qed.

(** For non-negative data and a zeroed output array it is the scattering source. *)
Lemma mat_total_zero groups xs m :
  (forall o i, (o < groups)%nat -> (i < groups)%nat -> 0 <= xs m o i) ->
  mat_total groups xs m = 0 -> forall o i, (o < groups)%nat -> (i < groups)%nat -> xs m o i = 0.
Proof.
  intros Hp E o i Ho Hi. unfold mat_total in E.
  assert (A := rsum_nonneg_zero groups _ (fun o Ho => rsum_nonneg groups _ (fun i Hi => Hp o i Ho Hi)) E o Ho).
  cbv beta in A. exact (rsum_nonneg_zero groups _ (fun i Hi => Hp o i Ho Hi) A i Hi).
Qed.

Lemma scatter_prod_zeroed cells groups flux xs source medium i g :
  (i < cells)%nat -> (g < groups)%nat ->
  (forall o h, (o < groups)%nat -> (h < groups)%nat -> 0 <= xs (medium i) o h) -> source i g = 0 ->
  scatter_prod cells groups flux xs source medium i g = rsum groups (fun h => xs (medium i) g h * flux i h).
Proof.
  intros Hi Hg Hp Hz. rewrite scatter_prod_eq. rewrite !(proj2 (Nat.ltb_lt _ _)) by assumption. cbn [andb].
  destruct (Req_EM_T _ _) as [E|E]; [|reflexivity]. rewrite Hz. symmetry. apply rsum_zero_ext.
  intros h Hh. rewrite (mat_total_zero groups xs (medium i) Hp E) by assumption. ring.
Qed.

Lemma scatter_prod_nonzero cells groups flux xs source medium i g :
  (i < cells)%nat -> (g < groups)%nat -> mat_total groups xs (medium i) <> 0 ->
  scatter_prod cells groups flux xs source medium i g = rsum groups (fun h => xs (medium i) g h * flux i h).
Proof.
  intros Hi Hg Hne. rewrite scatter_prod_eq. rewrite !(proj2 (Nat.ltb_lt _ _)) by assumption. cbn [andb].
  destruct (Req_EM_T _ _) as [E|E]; [contradiction|reflexivity].
Qed.

(** ranks *)
Lemma nth_rank cells medium nn i : (i < cells)%nat -> medium i = nn ->
  nth (rank_of medium nn i) (cells_of cells medium nn) 0%nat = i.
Proof.
  intros Hi Hm. unfold rank_of, cells_of.
  replace cells with (i + S (cells - i - 1))%nat by lia. rewrite seq_app, filter_app.
  rewrite app_nth2 by lia. rewrite Nat.sub_diag. cbn [seq filter Nat.add].
  rewrite Hm, Nat.eqb_refl. reflexivity.
Qed.

Lemma rank_lt cells medium nn i : (i < cells)%nat -> medium i = nn ->
  (rank_of medium nn i < length (cells_of cells medium nn))%nat.
Proof.
  intros Hi Hm. unfold rank_of, cells_of.
  replace cells with (i + S (cells - i - 1))%nat by lia. rewrite seq_app, filter_app, app_length.
  cbn [seq filter Nat.add]. rewrite Hm, Nat.eqb_refl. cbn [length]. lia.
Qed.


(** What scatter_prod_predict leaves in one cell. *)
Definition predicted (cells groups : nat) (flux : mat2) (xs : mat3) (medium : nat -> nat)
    (models : list ml_model) (label : ml_label) (x y : nat) : R :=
  let nn := medium x in
  let idx := cells_of cells medium nn in
  let mat_flux : mat2 := fun k g => flux (nth k idx 0%nat) g in
  match nth nn models Placeholder with
  | Placeholder =>
      if Nat.ltb y groups then
        (if Req_EM_T (mat_total groups xs nn) 0 then 0 else rsum groups (fun h => xs nn y h * flux x h))
      else 0
  | Model predict =>
      if Req_EM_T (rsum (length idx) (fun k => rsum groups (fun g => mat_flux k g))) 0 then 0
      else
        let out := predict (length idx) mat_flux (label_for label nn) in
        out (rank_of medium nn x) y *
        (rsum groups (fun g => flux x g * xs nn g 0%nat) / rsum groups (fun h => out (rank_of medium nn x) h))
  end.

Lemma predict_eq cells groups flux xs medium models label source :
  scatter_prod_predict cells groups flux xs medium models label = Ok source ->
  label <> NoLabel /\
  forall x y, source x y = if andb (Nat.ltb x cells) (Nat.ltb (medium x) (length models))
                           then predicted cells groups flux xs medium models label x y else 0.
Proof.
  intros E. assert (Hl : label <> NoLabel) by (intros ->; discriminate). split; [exact Hl|].
  unfold scatter_prod_predict in E.
  assert (E' : forall body, (match label with NoLabel => Raise TypeError | _ => Ok body end = @Ok mat2 source) -> source = body).
  { intros body. destruct label; [contradiction| |]; intros Q; injection Q as <-; reflexivity. }
  match type of E with match label with NoLabel => _ | OneLabel _ => Ok ?b | LabelPerModel _ => _ end = _ => 
    assert (Es : exists bd, source = for_up (length models) bd zeros2 /\
      (forall k t x y, (k < length models)%nat -> bd k t x y =
        if Nat.eqb (if Nat.ltb x cells then medium x else length models) k then
          match nth (medium x) models Placeholder with
          | Placeholder => if Nat.ltb y groups then
              (if Req_EM_T (mat_total groups xs (medium x)) 0 then t x y else rsum groups (fun h => xs (medium x) y h * flux x h))
              else t x y
          | Model predict =>
              if Req_EM_T (rsum (length (cells_of cells medium (medium x))) (fun k => rsum groups (fun g => flux (nth k (cells_of cells medium (medium x)) 0%nat) g))) 0 then t x y
              else predicted cells groups flux xs medium models label x y
          end else t x y)) end.
  { match type of E with context [for_up (length models) ?b zeros2] => exists b end. split.
    - destruct label; [contradiction| |]; injection E as <-; reflexivity.
    - intros k t x y Hk. cbv zeta.
      assert (Hown : (if Nat.ltb x cells then medium x else length models) = k <-> (x < cells)%nat /\ medium x = k).
      { destruct (Nat.ltb_spec x cells); split; intros; lia. }
      destruct (Nat.eqb_spec (if Nat.ltb x cells then medium x else length models) k) as [Ho|Ho].
      + apply Hown in Ho. destruct Ho as [Hx Hm]. rewrite Hm.
        destruct (nth k models Placeholder) as [|predict] eqn:Em.
        * cbv beta. rewrite ?Hm. rewrite (proj2 (Nat.ltb_lt x cells)), Nat.eqb_refl by exact Hx. cbn [andb].
          rewrite scatter_prod_eq. rewrite (proj2 (Nat.ltb_lt _ _) (rank_lt cells medium k x Hx Hm)). cbn [andb].
          rewrite !(nth_rank cells medium k x Hx Hm). rewrite Hm. reflexivity.
        * destruct (Req_EM_T _ 0) as [Ez|Ez]; [reflexivity|].
          cbv beta. rewrite ?Hm. rewrite (proj2 (Nat.ltb_lt x cells)), Nat.eqb_refl by exact Hx. cbn [andb].
          unfold predicted. rewrite Hm, Em. cbv zeta.
          destruct (Req_EM_T _ 0) as [Ez'|Ez']; [contradiction|].
          rewrite !(nth_rank cells medium k x Hx Hm). reflexivity.
      + assert (Hn : andb (Nat.ltb x cells) (Nat.eqb (medium x) k) = false).
        { destruct (Nat.ltb_spec x cells); [|reflexivity]. destruct (Nat.eqb_spec (medium x) k); [|reflexivity].
          exfalso. apply Ho, Hown. auto. }
        destruct (nth k models Placeholder) as [|predict]; [rewrite Hn; reflexivity|].
        destruct (Req_EM_T _ 0); [reflexivity|]. rewrite Hn. reflexivity. }
  destruct Es as (bd & -> & Hb). intros x y.
  rewrite (own_loop2 (length models) bd (fun x _ => if Nat.ltb x cells then medium x else length models)
     (fun x y r => match nth (medium x) models Placeholder with
          | Placeholder => if Nat.ltb y groups then
              (if Req_EM_T (mat_total groups xs (medium x)) 0 then r else rsum groups (fun h => xs (medium x) y h * flux x h))
              else r
          | Model predict =>
              if Req_EM_T (rsum (length (cells_of cells medium (medium x))) (fun k => rsum groups (fun g => flux (nth k (cells_of cells medium (medium x)) 0%nat) g))) 0 then r
              else predicted cells groups flux xs medium models label x y
          end)); [|exact Hb].
  destruct (Nat.ltb_spec x cells) as [Hx|Hx]; cbn [andb].
  - destruct (Nat.ltb (medium x) (length models)); [|reflexivity].
    unfold predicted, zeros2. destruct (nth (medium x) models Placeholder); [reflexivity|].
    cbv zeta. destruct (Req_EM_T _ 0); reflexivity.
  - rewrite Nat.ltb_irrefl. reflexivity.
Qed.

(** The prediction is rescaled to the rate computed with column 0 of the matrix. *)
Lemma predict_rate cells groups flux xs medium models label source x predict :
  scatter_prod_predict cells groups flux xs medium models label = Ok source ->
  (x < cells)%nat -> (medium x < length models)%nat -> nth (medium x) models Placeholder = Model predict ->
  let idx := cells_of cells medium (medium x) in
  let out := predict (length idx) (fun k g => flux (nth k idx 0%nat) g) (label_for label (medium x)) in
  rsum (length idx) (fun k => rsum groups (fun g => flux (nth k idx 0%nat) g)) <> 0 ->
  rsum groups (fun g => out (rank_of medium (medium x) x) g) <> 0 ->
  rsum groups (fun g => source x g) = rsum groups (fun g => flux x g * xs (medium x) g 0%nat).
Proof.
  intros E Hx Hm Hmod idx out Hf Ho. destruct (predict_eq _ _ _ _ _ _ _ _ E) as [_ H].
  rewrite (rsum_ext groups _ (fun g => out (rank_of medium (medium x) x) g *
    (rsum groups (fun g => flux x g * xs (medium x) g 0%nat) / rsum groups (fun h => out (rank_of medium (medium x) x) h)))).
  - rewrite rsum_scal_r.
    match goal with |- ?a * (?b / ?c) = ?d => change a with c; change d with b; generalize dependent c; intros z; intros; field; assumption end.
  - intros g Hg. rewrite H. rewrite !(proj2 (Nat.ltb_lt _ _)) by assumption. cbn [andb].
    unfold predicted. rewrite Hmod. cbv zeta. destruct (Req_EM_T _ 0); [contradiction|]. reflexivity.
Qed.

(** With the cross sections prepared by update_cross_sections this is the true scattering rate. *)
Lemma predict_rate_updated cells groups flux xs modelled medium models label source x predict :
  scatter_prod_predict cells groups flux (update_cross_sections groups xs modelled) medium models label = Ok source ->
  modelled (medium x) = true ->
  (x < cells)%nat -> (medium x < length models)%nat -> nth (medium x) models Placeholder = Model predict ->
  let idx := cells_of cells medium (medium x) in
  let out := predict (length idx) (fun k g => flux (nth k idx 0%nat) g) (label_for label (medium x)) in
  rsum (length idx) (fun k => rsum groups (fun g => flux (nth k idx 0%nat) g)) <> 0 ->
  rsum groups (fun g => out (rank_of medium (medium x) x) g) <> 0 ->
  rsum groups (fun g => source x g)
  = rsum groups (fun o => rsum groups (fun g => xs (medium x) o g * flux x g)).
Proof.
  intros E Hmd Hx Hm Hmod idx out Hf Ho.
  rewrite (predict_rate _ _ _ _ _ _ _ _ _ _ E Hx Hm Hmod Hf Ho).
  rewrite rsum_swap. apply rsum_ext. intros g Hg. unfold update_cross_sections. rewrite Hmd, Nat.eqb_refl.
  rewrite rsum_scal_r. ring.
Qed.

(** With placeholders for every material the predicted source is the scattering source. *)
Lemma placeholder_source cells groups flux xs medium models label :
  label <> NoLabel ->
  (forall i, (i < cells)%nat -> (medium i < length models)%nat /\ nth (medium i) models Placeholder = Placeholder) ->
  (forall i o h, (i < cells)%nat -> (o < groups)%nat -> (h < groups)%nat -> 0 <= xs (medium i) o h) ->
  exists source, scatter_prod_predict cells groups flux xs medium models label = Ok source /\
    forall i g, (i < cells)%nat -> (g < groups)%nat ->
      source i g = rsum groups (fun h => xs (medium i) g h * flux i h).
Proof.
  intros Hl Hm Hp.
  assert (Hex : exists source, scatter_prod_predict cells groups flux xs medium models label = Ok source).
  { unfold scatter_prod_predict. destruct label; [contradiction|eauto|eauto]. }
  destruct Hex as [source E]. exists source. split; [exact E|].
  destruct (predict_eq _ _ _ _ _ _ _ _ E) as [_ H]. intros i g Hi Hg. rewrite H.
  destruct (Hm i Hi) as [Hlen Hpl]. rewrite !(proj2 (Nat.ltb_lt _ _)) by assumption. cbn [andb].
  unfold predicted. rewrite Hpl. cbv zeta. rewrite (proj2 (Nat.ltb_lt g groups)) by assumption.
  destruct (Req_EM_T _ 0) as [Ez|Ez]; [|reflexivity]. symmetry. apply rsum_zero_ext. intros h Hh.
  rewrite (mat_total_zero groups xs (medium i) (fun o k Ho Hk => Hp i o k Hi Ho Hk) Ez) by assumption. ring.
Qed.

(** A material without an entry in the list gets no scattering at all. *)
Lemma missing_model_no_scatter cells groups flux xs medium models label source i g :
  scatter_prod_predict cells groups flux xs medium models label = Ok source ->
  (length models <= medium i)%nat -> source i g = 0.
Proof.
  intros E Hm. destruct (predict_eq _ _ _ _ _ _ _ _ E) as [_ H]. rewrite H.
  destruct (Nat.ltb_spec (medium i) (length models)); [lia|]. rewrite andb_false_r. reflexivity.
Qed.

Lemma ml_no_label P groups old xs_total xs_scatter external boundary geometry models :
  ml_source_iteration P groups old xs_total xs_scatter external boundary geometry models NoLabel = Raise TypeError.
Proof. reflexivity. Qed.


(** Physics-only ML sweep: one Jacobi step. *)
Lemma ml_sweep_groups P groups xs_total xs_scatter external boundary models label old new :
  matching_columns P external boundary -> nonzero_ordinates (angles P) (mu P) ->
  (forall i, (i < cells P)%nat -> (medium P i < length models)%nat /\ nth (medium P i) models Placeholder = Placeholder) ->
  (forall i o h, (i < cells P)%nat -> (o < groups)%nat -> (h < groups)%nat -> 0 <= xs_scatter (medium P i) o h) ->
  ml_sweep P groups xs_total xs_scatter external boundary 1 models label old = Ok new ->
  forall g, (g < groups)%nat -> forall i, new i g =
    pass_flux P (mg_source (medium P) groups xs_scatter external old g) (half_sig P (fun m => xs_total m g))
      (mg_boundary boundary (mu P) g) 0 (angles P) i.
Proof.
  intros [Hc1 Hc2] Hnz Hm Hp E. unfold ml_sweep in E.
  assert (Hl : label <> NoLabel) by (intros ->; discriminate).
  destruct (placeholder_source (cells P) groups old xs_scatter (medium P) models label Hl Hm Hp) as (source & Es & Hs).
  rewrite Es in E. cbn [bind] in E.
  set (step := fun (g : nat) (_ : mat2) => slab_scatter_source_sn P (fun m => xs_total m g) (fun i => source i g)
     (slice3 external (bidx (d3c external) g)) (slice3 boundary (bidx (d3c boundary) g))).
  assert (E2 : for_up_err groups (fun g fl => bind (step g fl) (fun c => Ok (set_col fl g c))) zeros2 = Ok new).
  { rewrite <- E. apply for_up_err_ext. intros k t Hk. reflexivity. }
  destruct (gs_loop groups step new ltac:(reflexivity) E2) as [H _].
  intros g Hg i. specialize (H g Hg). unfold step in H.
  rewrite (scatter_equals_pass P _ zeros (fun i => source i g) _ _ zeros) in H; [|exact Hc1|exact Hc2|].
  - rewrite slab_iso_pass_ok in H by exact Hnz. injection H as H.
    apply (f_equal (fun f => f i)) in H. cbv beta in H. rewrite <- H.
    match goal with |- ?a i = ?b i => replace a with b; [reflexivity|] end.
    apply pass_flux_ext; [|intros; reflexivity].
    intros m j Hma Hj. unfold mg_source, iso_q, iso_source, zeros. rewrite Hs by assumption. cbn. ring.
  - intros j Hj. unfold zeros. ring.
Qed.

Lemma ml_fixed_iff_solution P groups xs_total xs_scatter external boundary models label phi new :
  matching_columns P external boundary -> nonzero_ordinates (angles P) (mu P) ->
  mg_divisors P groups xs_total ->
  (forall i, (i < cells P)%nat -> (medium P i < length models)%nat /\ nth (medium P i) models Placeholder = Placeholder) ->
  (forall i o h, (i < cells P)%nat -> (o < groups)%nat -> (h < groups)%nat -> 0 <= xs_scatter (medium P i) o h) ->
  ml_sweep P groups xs_total xs_scatter external boundary 1 models label phi = Ok new ->
  (agree2 (cells P) groups new phi <-> mg_solution P groups xs_total xs_scatter external boundary phi).
Proof.
  intros Hc Hnz Hd Hm Hp E.
  assert (H := ml_sweep_groups P groups xs_total xs_scatter external boundary models label phi new Hc Hnz Hm Hp E).
  destruct (Nat.eq_dec groups 0) as [-> |Hg0].
  { split; [intros _; exists (fun _ _ _ => 0); intros g Hg; lia|intros _ i g Hi Hg; lia]. }
  assert (Hg0' : (0 < groups)%nat) by lia.
  set (v := fun k => phi (k / groups)%nat (k mod groups)%nat).
  assert (Hv : forall g m i, (g < groups)%nat -> mg_source (medium P) groups xs_scatter external (fun i h => v (i * groups + h)%nat) g m i
       = mg_source (medium P) groups xs_scatter external phi g m i).
  { intros g m i Hg. unfold mg_source. f_equal. apply rsum_ext. intros h Hh. unfold v.
    destruct (flat_index groups i h Hh) as [-> ->]. reflexivity. }
  assert (HJ : forall i g, (i < cells P)%nat -> (g < groups)%nat ->
      jac P groups xs_total xs_scatter external boundary v (i * groups + g)%nat = new i g).
  { intros i g Hi Hg. rewrite H by exact Hg. unfold jac. destruct (flat_index groups i g Hg) as [-> ->].
    match goal with |- ?a i = ?b i => replace a with b; [reflexivity|] end.
    apply pass_flux_ext; [|intros; reflexivity]. intros m j Hma Hj. symmetry. apply Hv. exact Hg. }
  split.
  - intros Hfix.
    assert (S := jac_fixed_solution P groups xs_total xs_scatter external boundary v Hg0' Hnz Hd).
    destruct S as [psi Hpsi].
    { intros k Hk. assert (Ek : (k = k / groups * groups + k mod groups)%nat) by (rewrite Nat.mul_comm; apply Nat.div_mod; lia).
      assert (Hk1 : (k mod groups < groups)%nat) by (apply Nat.mod_upper_bound; lia).
      assert (Hk2 : (k / groups < cells P)%nat) by (apply Nat.div_lt_upper_bound; lia).
      rewrite Ek at 1. rewrite HJ by assumption. rewrite Hfix by assumption. reflexivity. }
    exists psi. intros g Hg. specialize (Hpsi g Hg).
    eapply transport_phi_ext; [|eapply transport_ext; [| |exact Hpsi]]; [| |reflexivity].
    + intros i Hi. unfold v. destruct (flat_index groups i g Hg) as [-> ->]. reflexivity.
    + intros m i Hma Hi. apply Hv. exact Hg.
  - intros Hsol i g Hi Hg. rewrite <- HJ by assumption.
    unfold v. rewrite (solution_jac P groups xs_total xs_scatter external boundary phi Hg0' Hnz Hd Hsol) by nia.
    destruct (flat_index groups i g Hg) as [-> ->]. reflexivity.
Qed.

(** ... and each such sweep contracts towards the solution. *)
Lemma ml_sweep_contracts P groups xs_total xs_scatter external boundary models label c old new sol d :
  matching_columns P external boundary -> nonzero_ordinates (angles P) (mu P) ->
  mg_thin P groups xs_total ->
  (forall m, (m < angles P)%nat -> 0 <= wt P m) -> 0 <= c ->
  mg_ratio P groups xs_total xs_scatter c ->
  (forall i, (i < cells P)%nat -> (medium P i < length models)%nat /\ nth (medium P i) models Placeholder = Placeholder) ->
  (forall i o h, (i < cells P)%nat -> (o < groups)%nat -> (h < groups)%nat -> 0 <= xs_scatter (medium P i) o h) ->
  mg_solution P groups xs_total xs_scatter external boundary sol ->
  ml_sweep P groups xs_total xs_scatter external boundary 1 models label old = Ok new ->
  0 <= d -> within2 (cells P) groups d old sol ->
  within2 (cells P) groups (rsum (angles P) (wt P) * c * d) new sol.
Proof.
  intros Hc Hnz Hthin Hw Hcc Hrat Hm Hp Hsol E Hd Hold i g Hi Hg.
  assert (Hg0 : (0 < groups)%nat) by lia.
  assert (Hdiv : mg_divisors P groups xs_total) by (intros h Hh; apply thin_divisors; [exact Hnz|apply Hthin; exact Hh]).
  assert (Hs := solution_jac P groups xs_total xs_scatter external boundary sol Hg0 Hnz Hdiv Hsol (i * groups + g)%nat ltac:(nia)).
  cbv zeta in Hs.
  destruct (flat_index groups i g Hg) as [E1 E2].
  assert (Hsg : sol i g = jac P groups xs_total xs_scatter external boundary
      (fun k => sol (k / groups)%nat (k mod groups)%nat) (i * groups + g)%nat) by (rewrite Hs, E1, E2; reflexivity).
  assert (Hng : new i g = jac P groups xs_total xs_scatter external boundary
      (fun k => old (k / groups)%nat (k mod groups)%nat) (i * groups + g)%nat).
  { rewrite (ml_sweep_groups P groups xs_total xs_scatter external boundary models label old new Hc Hnz Hm Hp E) by exact Hg.
    unfold jac. rewrite E1, E2. match goal with |- ?a i = ?b i => replace a with b; [reflexivity|] end.
    apply pass_flux_ext; [|intros; reflexivity]. intros m j Hma Hj. unfold mg_source. f_equal. apply rsum_ext.
    intros h Hh. destruct (flat_index groups j h Hh) as [-> ->]. reflexivity. }
  rewrite Hsg, Hng. apply (jac_contracts P groups xs_total xs_scatter external boundary c); try assumption; [|nia].
  intros k Hk. apply Hold; [apply Nat.div_lt_upper_bound; lia|apply Nat.mod_upper_bound; lia].
Qed.
