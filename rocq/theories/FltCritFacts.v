(** Floating-point power iteration: exactness, signs, and the rounding errors of source and multiplication factor. *)
From Coq Require Import ZArith Lra Lia FunctionalExtensionality.
From Verif Require Import Base BaseFacts SlabModel SlabSpec MgModel MgSpec FixSpec CritModel CritSpec CritFacts.
From Verif Require Import FltModel FltCritModel FltSpec FltFacts FltFacts2 FltFacts3.
Open Scope R_scope.

(** *** Without rounding it is the program of CritModel *)
Lemma for_up_rsum n (x : vec) s : for_up n (fun k s => s + x k) s = s + rsum n x.
Proof. induction n as [|n IH]; cbn [for_up rsum]; [ring|]. rewrite IH. ring. Qed.
Lemma exact_matrix_total groups xs m : flt_matrix_total (fun x => x) groups xs m = matrix_total groups xs m.
Proof.
  unfold flt_matrix_total, matrix_total, fadd. rewrite (for_up_ext groups _ (fun o s => s + rsum groups (fun i => xs m o i))).
  - rewrite for_up_rsum. ring.
  - intros o s _. apply for_up_rsum.
Qed.
Lemma exact_row_total groups xs m : flt_row_total (fun x => x) groups xs m = row_total groups xs m.
Proof. unfold flt_row_total, row_total, fadd. rewrite for_up_rsum. ring. Qed.

Lemma exact_fission cells groups f med flux keff s :
  flt_fission_source (fun x => x) cells groups f med flux keff = Ok s -> fission_source cells groups f med zeros2 flux keff = s.
Proof.
  unfold flt_fission_source. destruct (Req_EM_T keff 0); [discriminate|]. intros [= <-].
  assert (Z : (fun i g => zeros2 i g * 0) = zeros2) by (extensionality i; extensionality g; unfold zeros2; ring).
  destruct f as [xs|chi nu]; cbn [fission_source].
  - unfold fission_mat_prod, flt_fission_mat_prod. rewrite Z. apply for_up_ext. intros ii t _. cbv zeta. rewrite exact_matrix_total. reflexivity.
  - unfold fission_vec_prod, flt_fission_vec_prod. rewrite Z. apply for_up_ext. intros ii t _. cbv zeta. rewrite exact_row_total. reflexivity.
Qed.
Lemma exact_keff cells groups f med flux old keff k :
  flt_update_keff (fun x => x) cells groups f med flux old keff = Ok k -> update_keff cells groups f med flux old keff = k.
Proof.
  unfold flt_update_keff. cbv zeta. destruct (Req_EM_T _ 0); [discriminate|]. intros [= <-].
  destruct f as [xs|chi nu]; cbn [update_keff].
  - unfold update_keff_mat, fdiv, fmul. cbv zeta.
    assert (E : flt_rates_mat (fun x => x) cells groups flux old xs med = for_up cells (fun ii r =>
      if Req_EM_T (matrix_total groups xs (med ii)) 0 then r
      else for_up groups (fun og r => for_up groups (fun ig r =>
           (fst r + flux ii ig * xs (med ii) og ig, snd r + old ii ig * xs (med ii) og ig)) r) r) (0, 0)).
    { apply for_up_ext. intros ii r _. cbv zeta. rewrite exact_matrix_total. reflexivity. }
    rewrite E. reflexivity.
  - unfold update_keff_vec, fdiv, fmul. cbv zeta.
    assert (E : flt_rates_vec (fun x => x) cells groups flux old chi nu med = for_up cells (fun ii r =>
      if Req_EM_T (row_total groups chi (med ii)) 0 then r
      else for_up groups (fun og r => for_up groups (fun ig r =>
           (fst r + flux ii ig * chi (med ii) og * nu (med ii) ig, snd r + old ii ig * chi (med ii) og * nu (med ii) ig)) r) r) (0, 0)).
    { apply for_up_ext. intros ii r _. cbv zeta. rewrite exact_row_total. reflexivity. }
    rewrite E. reflexivity.
Qed.

Lemma bind_ok {A B} (m : outcome A) (f : A -> outcome B) b : bind m f = Ok b -> exists a, m = Ok a /\ f a = Ok b.
Proof. destruct m as [a|e]; cbn; [eauto|discriminate]. Qed.

Lemma iterate_imp {St} (s1 s2 : St -> outcome St) c1 c2 tol cap :
  (forall x y, s1 x = Ok y -> s2 x = Ok y) -> (forall x y, c1 x y = c2 x y) ->
  forall fuel count old r, iterate fuel s1 c1 tol cap count old = Ok r -> iterate fuel s2 c2 tol cap count old = Ok r.
Proof.
  intros Hs Hc. induction fuel as [|fuel IH]; intros count old r H; [discriminate|]. cbn [iterate] in *.
  apply bind_ok in H. destruct H as (new & E & H). rewrite (Hs _ _ E). cbn [bind]. rewrite <- Hc. destruct (orb _ _); [exact H|apply IH; exact H].
Qed.

Lemma flt_power_exact P groups T s f guess r :
  flt_power_iteration (fun x => x) (fun v => sqrt (rsum (cells P) (fun i => Rsqr (v i))))
    (fun v => sqrt (rsum (cells P) (fun i => rsum groups (fun h => Rsqr (v i h)))))
    (norm2 (cells P) groups) Rabs P groups T s f guess = Ok r ->
  power_iteration P groups T (Scatter3 s) f 1 guess = Ok r.
Proof.
  intros H. apply bind_ok in H. destruct H as (st & E & H). unfold flt_power_start in E. cbv zeta in E.
  destruct (Req_EM_T _ 0); [discriminate|]. injection E as <-. unfold power_iteration, power_start. cbv zeta.
  revert H. apply iterate_imp.
  - intros [fo k] y H. unfold flt_power_step in H. apply bind_ok in H. destruct H as (src & E1 & H). apply bind_ok in H. destruct H as (fl & E2 & H).
    apply bind_ok in H. destruct H as (k' & E3 & H). destruct (Req_EM_T (norm2 (cells P) groups fl) 0); [discriminate|].
    unfold power_step. rewrite (exact_fission _ _ _ _ _ _ _ E1). cbn [source_iteration]. rewrite exact_outer in E2. rewrite E2. cbn [bind].
    cbv zeta. rewrite (exact_keff _ _ _ _ _ _ _ _ E3). exact H.
  - intros x y. apply exact_change2.
Qed.

(** *** Signs *)
Section Signs.
Variable rnd : R -> R.
Hypothesis Hr : correct_rounding rnd.

Lemma pos_rnd x : 0 <= x -> 0 <= rnd x.
Proof. intros H. destruct Hr as (M & Z & _). rewrite <- Z. apply M. exact H. Qed.
Lemma pos_mul x y : 0 <= x -> 0 <= y -> 0 <= fmul rnd x y.
Proof. intros. apply pos_rnd. apply Rmult_le_pos; assumption. Qed.
Lemma pos_add x y : 0 <= x -> 0 <= y -> 0 <= fadd rnd x y.
Proof. intros. apply pos_rnd. lra. Qed.
Lemma pos_div x y : 0 <= x -> 0 < y -> 0 <= fdiv rnd x y.
Proof. intros. apply pos_rnd. apply Rle_mult_inv_pos; assumption. Qed.

Variables (cells groups : nat) (med : nat -> nat) (f : fission_data).
Hypothesis Hf : nonneg_fission cells groups med f.

Lemma flt_source_pos flux keff s : (forall i g, (i < cells)%nat -> (g < groups)%nat -> 0 <= flux i g) -> 0 <= keff ->
  flt_fission_source rnd cells groups f med flux keff = Ok s -> forall i g, 0 <= s i g.
Proof.
  intros Hx Hk. unfold flt_fission_source. destruct (Req_EM_T keff 0) as [|Nk]; [discriminate|]. intros [= <-].
  assert (0 < keff) by lra. destruct f as [xs|chi nu].
  - unfold flt_fission_mat_prod. apply (for_up_inv (fun _ t => forall i g, 0 <= t i g)); [intros; unfold zeros2; lra|].
    intros ii t Hi Ht. cbv zeta. destruct (Req_EM_T _ 0); [exact Ht|].
    apply (for_up_inv (fun _ t => forall i g, 0 <= t i g)); [exact Ht|]. intros og t' Ho Ht' i g. destruct (andb _ _); [|apply Ht'].
    apply pos_div; [|assumption]. apply (for_up_inv (fun _ v => 0 <= v)); [lra|]. intros ig v Hg Hv. apply pos_add; [exact Hv|].
    apply pos_mul; [apply Hx; assumption|exact (Hf ii og ig Hi Ho Hg)].
  - unfold flt_fission_vec_prod. apply (for_up_inv (fun _ t => forall i g, 0 <= t i g)); [intros; unfold zeros2; lra|].
    intros ii t Hi Ht. cbv zeta. destruct (Req_EM_T _ 0); [exact Ht|].
    apply (for_up_inv (fun _ t => forall i g, 0 <= t i g)); [exact Ht|]. intros og t' Ho Ht' i g. destruct (andb _ _); [|apply Ht'].
    apply pos_div; [|assumption]. apply (for_up_inv (fun _ v => 0 <= v)); [lra|]. intros ig v Hg Hv. apply pos_add; [exact Hv|].
    destruct (Hf ii og ig Hi Ho Hg). apply pos_mul; [apply pos_mul; [apply Hx; assumption|assumption]|assumption].
Qed.

Lemma flt_keff_pos flux old keff k : (forall i g, (i < cells)%nat -> (g < groups)%nat -> 0 <= flux i g) ->
  (forall i g, (i < cells)%nat -> (g < groups)%nat -> 0 <= old i g) -> 0 <= keff ->
  flt_update_keff rnd cells groups f med flux old keff = Ok k -> 0 <= k.
Proof.
  intros Hx Hy Hk. unfold flt_update_keff. cbv zeta.
  assert (G : forall r : R * R, 0 <= fst r /\ 0 <= snd r -> (if Req_EM_T (snd r) 0 then Raise ZeroDivisionError else Ok (fdiv rnd (fmul rnd (fst r) keff) (snd r))) = Ok k -> 0 <= k).
  { intros r (A & B). destruct (Req_EM_T (snd r) 0); [discriminate|]. intros [= <-]. apply pos_div; [apply pos_mul; assumption|lra]. }
  apply G. destruct f as [xs|chi nu].
  - unfold flt_rates_mat. apply (for_up_inv (fun _ r => 0 <= fst r /\ 0 <= snd r)); [cbn; lra|].
    intros ii r Hi Ht. cbv zeta. destruct (Req_EM_T _ 0); [exact Ht|].
    apply (for_up_inv (fun _ r => 0 <= fst r /\ 0 <= snd r)); [exact Ht|]. intros og r1 Ho Ht1.
    apply (for_up_inv (fun _ r => 0 <= fst r /\ 0 <= snd r)); [exact Ht1|]. intros ig r2 Hg (A & B). cbn [fst snd].
    assert (F := Hf ii og ig Hi Ho Hg). cbn in F. split; apply pos_add; try assumption; apply pos_mul; auto.
  - unfold flt_rates_vec. apply (for_up_inv (fun _ r => 0 <= fst r /\ 0 <= snd r)); [cbn; lra|].
    intros ii r Hi Ht. cbv zeta. destruct (Req_EM_T _ 0); [exact Ht|].
    apply (for_up_inv (fun _ r => 0 <= fst r /\ 0 <= snd r)); [exact Ht|]. intros og r1 Ho Ht1.
    apply (for_up_inv (fun _ r => 0 <= fst r /\ 0 <= snd r)); [exact Ht1|]. intros ig r2 Hg (A & B). cbn [fst snd].
    destruct (Hf ii og ig Hi Ho Hg). split; apply pos_add; try assumption; apply pos_mul; auto; apply pos_mul; auto.
Qed.
End Signs.

Lemma iterate_or {St} (Inv : St -> Prop) (s1 : St -> outcome St) c tol cap e :
  (forall x, Inv x -> s1 x = Raise e \/ exists y, s1 x = Ok y /\ Inv y) ->
  forall fuel count old, Inv old -> (cap - count < fuel)%nat ->
  iterate fuel s1 c tol cap count old = Raise e \/ exists y, iterate fuel s1 c tol cap count old = Ok y /\ Inv y.
Proof.
  intros Hs. induction fuel as [|fuel IH]; intros count old H0 Hc; [lia|]. cbn [iterate].
  destruct (Hs old H0) as [->|(y & -> & Hy)]; [left; reflexivity|]. cbn [bind].
  destruct (orb (below (c y old) tol) (Nat.leb cap count)) eqn:E; [right; eauto|].
  apply IH; [exact Hy|]. apply Bool.orb_false_iff in E. destruct E as [_ E]. apply Nat.leb_gt in E. lia.
Qed.

Lemma flt_power_nonneg rnd norm normq normf normk P groups T s f guess :
  correct_rounding rnd -> nonzero_ordinates (angles P) (mu P) -> mg_thin P groups T -> no_underflow rnd P ->
  (forall m, (m < angles P)%nat -> 0 <= wt P m) ->
  (forall i g h, (i < cells P)%nat -> (g < groups)%nat -> (h < groups)%nat -> 0 <= s (medium P i) g h) ->
  nonneg_fission (cells P) groups (medium P) f ->
  (forall v, 0 <= normf v) -> (forall k, 0 <= normk k) ->
  (forall i g, (i < cells P)%nat -> (g < groups)%nat -> 0 <= guess i g) ->
  flt_power_iteration rnd norm normq normf normk P groups T s f guess = Raise ZeroDivisionError \/
  exists flux k, flt_power_iteration rnd norm normq normf normk P groups T s f guess = Ok (flux, k) /\
    0 <= k /\ forall i g, (i < cells P)%nat -> (g < groups)%nat -> 0 <= flux i g.
Proof.
  intros Hr Hnz Ht Hu Hw Hs Hf Hnf Hnk Hg.
  pose (Inv := fun st : mat2 * R => 0 <= snd st /\ forall i g, (i < cells P)%nat -> (g < groups)%nat -> 0 <= fst st i g).
  assert (S : forall st, Inv st -> flt_power_step rnd norm normq normf P groups T s f st = Raise ZeroDivisionError \/
     exists y, flt_power_step rnd norm normq normf P groups T s f st = Ok y /\ Inv y).
  { intros [fo k] (Hk & Hfo). cbn [fst snd] in *. unfold flt_power_step.
    destruct (flt_fission_source rnd (cells P) groups f (medium P) fo k) as [src|e] eqn:E1.
    2:{ left. unfold flt_fission_source in E1. destruct (Req_EM_T k 0); [|discriminate]. injection E1 as <-. reflexivity. }
    cbn [bind]. assert (Hsrc := flt_source_pos rnd Hr _ _ _ _ Hf fo k src Hfo Hk E1).
    destruct (flt_outer_nonneg rnd norm normq P groups T s (as_source groups src) no_boundary fo Hr Hnz Ht Hu) as (fl & E2 & Hfl).
    { split; [exact Hw|]. split; [exact Hs|]. split.
      - intros m i g _ _ _. unfold as_source. cbn [at3]. apply Hsrc.
      - intros m g _ _. unfold mg_boundary, no_boundary. cbn [at3]. repeat match goal with |- context [Rlt_dec ?a ?b] => destruct (Rlt_dec a b) end; apply Rle_refl. }
    { exact Hfo. }
    rewrite E2. cbn [bind].
    destruct (flt_update_keff rnd (cells P) groups f (medium P) fl fo k) as [k'|e] eqn:E3.
    2:{ left. unfold flt_update_keff in E3. cbv zeta in E3. destruct (Req_EM_T _ 0) in E3; [|discriminate]. injection E3 as <-. reflexivity. }
    cbn [bind]. destruct (Req_EM_T (normf fl) 0) as [|Nf]; [left; reflexivity|]. right. eexists. split; [reflexivity|]. split; cbn [fst snd].
    - exact (flt_keff_pos rnd Hr _ _ _ _ Hf fl fo k k' Hfl Hfo Hk E3).
    - intros i g Hi Hgg. apply pos_div; [exact Hr|apply Hfl; assumption|specialize (Hnf fl); lra]. }
  unfold flt_power_iteration, flt_power_start. cbv zeta.
  destruct (Req_EM_T (normk (normf guess)) 0) as [|N0]; [left; reflexivity|]. cbn [bind].
  destruct (iterate_or Inv _ (fun new old => flt_change2 rnd normq (cells P) groups (fst new) (fst old)) change_kk count_kk _ S count_kk 1
    (fun i g => fdiv rnd (guess i g) (normk (normf guess)), normf guess)) as [->|([fl k] & -> & Hk & Hfl)].
  - split; cbn [fst snd]; [apply Hnf|]. intros i g Hi Hgg. apply pos_div; [exact Hr|apply Hg; assumption|specialize (Hnk (normf guess)); lra].
  - unfold count_kk. lia.
  - left. reflexivity.
  - right. exists fl, k. split; [reflexivity|]. split; [exact Hk|exact Hfl].
Qed.
