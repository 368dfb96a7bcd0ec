(** Floating-point power iteration: what rounding does to the fission source and to the multiplication factor. *)
From Coq Require Import ZArith Lra Lia FunctionalExtensionality.
From Verif Require Import Base BaseFacts SlabModel SlabSpec SlabFacts MgModel MgSpec MgFacts MgFacts2 MgFacts3 MgFacts4 MgFacts5 MgFacts6 SupSpec CritModel CritSpec CritFacts CritFacts2.
From Verif Require Import FltModel FltCritModel FltSpec FltFacts FltFacts2 FltCritFacts.
Open Scope R_scope.

Lemma abs_between x y : Rabs x <= y -> - y <= x <= y.
Proof. unfold Rabs. destruct (Rcase_abs x); lra. Qed.

Section Rates.
Variables (u : R) (rnd : R -> R).
Hypothesis Hu : 0 <= u <= / 1000.
Hypothesis Hr : relative_rounding u rnd.

(** [y] is the nonnegative [x] after at most [p] roundings *)
Definition btw (p : nat) (x y : R) : Prop := 0 <= x /\ (1 - u) ^ p * x <= y <= (1 + u) ^ p * x.

Lemma low_pos p : 0 < (1 - u) ^ p.
Proof. apply pow_lt. lra. Qed.
Lemma btw_pos p x y : btw p x y -> 0 <= y.
Proof. intros (A & B & _). assert (0 <= (1 - u) ^ p * x) by (apply Rmult_le_pos; [apply Rlt_le, low_pos|exact A]). lra. Qed.
Lemma btw_weaken p q x y : (p <= q)%nat -> btw p x y -> btw q x y.
Proof.
  intros Hpq (A & B & C). split; [exact A|]. induction Hpq as [|q Hpq IH]; [tauto|]. destruct IH as (D & E). cbn [pow].
  assert (0 <= (1 - u) ^ q * x) by (apply Rmult_le_pos; [apply Rlt_le, low_pos|exact A]).
  assert (0 <= (1 + u) ^ q * x) by (apply Rmult_le_pos; [apply pow_le; lra|exact A]).
  assert (0 <= u * ((1 - u) ^ q * x)) by (apply Rmult_le_pos; [apply Hu|assumption]).
  assert (0 <= u * ((1 + u) ^ q * x)) by (apply Rmult_le_pos; [apply Hu|assumption]). split; lra.
Qed.
Lemma btw_rnd p x y : btw p x y -> btw (S p) x (rnd y).
Proof.
  intros H. assert (Py := btw_pos p x y H). destruct H as (A & B & C). split; [exact A|]. specialize (Hr y).
  rewrite (Rabs_right y) in Hr by lra. apply abs_between in Hr. cbn [pow].
  assert ((1 - u) * ((1 - u) ^ p * x) <= (1 - u) * y) by (apply Rmult_le_compat_l; lra).
  assert ((1 + u) * y <= (1 + u) * ((1 + u) ^ p * x)) by (apply Rmult_le_compat_l; lra). split; lra.
Qed.
Lemma btw_self x : 0 <= x -> btw 0 x x.
Proof. intros H. split; [exact H|]. cbn. lra. Qed.
Lemma btw_add p x y x' y' : btw p x y -> btw p x' y' -> btw p (x + x') (y + y').
Proof. intros (A & B & C) (A' & B' & C'). split; [lra|]. lra. Qed.
Lemma btw_mul p x y c : 0 <= c -> btw p x y -> btw p (x * c) (y * c).
Proof.
  intros Hc (A & B & C). split; [apply Rmult_le_pos; assumption|].
  apply (Rmult_le_compat_r c) in B; [|exact Hc]. apply (Rmult_le_compat_r c) in C; [|exact Hc]. lra.
Qed.
Lemma btw_div p x y d : 0 < d -> btw p x y -> btw p (x / d) (y / d).
Proof. intros Hd H. apply btw_mul; [apply Rlt_le, Rinv_0_lt_compat; exact Hd|exact H]. Qed.

Lemma acc_loop n c a (x : vec) (body : nat -> R -> R) :
  (forall k r X p, (k < n)%nat -> (a <= p)%nat -> btw p X r -> btw (p + c) (X + x k) (body k r)) ->
  forall r X p, (a <= p)%nat -> btw p X r -> btw (p + n * c) (X + rsum n x) (for_up n body r).
Proof.
  intros Hb r X p Hp H. induction n as [|n IH]; cbn [for_up rsum].
  - rewrite Rplus_0_r. apply (btw_weaken p); [lia|exact H].
  - replace (p + S n * c)%nat with (p + n * c + c)%nat by lia. rewrite <- Rplus_assoc. apply Hb; [lia|lia|]. apply IH. intros; apply Hb; auto.
Qed.
(** one rounded term *)
Lemma acc_term a p X r x t : (a <= p)%nat -> btw p X r -> btw a x t -> btw (p + 1) (X + x) (fadd rnd r t).
Proof.
  intros Hp H Ht. rewrite Nat.add_1_r. unfold fadd. apply btw_rnd. apply btw_add; [exact H|apply (btw_weaken a); assumption].
Qed.

Lemma for_up_fst {A B} n (b : nat -> A * B -> A * B) (b1 : nat -> A -> A) r :
  (forall k t, (k < n)%nat -> fst (b k t) = b1 k (fst t)) -> fst (for_up n b r) = for_up n b1 (fst r).
Proof. induction n as [|n IH]; intros H; cbn [for_up]; [reflexivity|]. rewrite H by lia. rewrite IH; [reflexivity|]. intros; apply H; lia. Qed.
Lemma for_up_snd {A B} n (b : nat -> A * B -> A * B) (b1 : nat -> B -> B) r :
  (forall k t, (k < n)%nat -> snd (b k t) = b1 k (snd t)) -> snd (for_up n b r) = for_up n b1 (snd r).
Proof. induction n as [|n IH]; intros H; cbn [for_up]; [reflexivity|]. rewrite H by lia. rewrite IH; [reflexivity|]. intros; apply H; lia. Qed.

Variables (cells groups : nat) (med : nat -> nat) (f : fission_data).
Hypothesis Hf : nonneg_fission cells groups med f.

(** the test that skips a material, and a term of the sums *)
Definition flt_total (m : nat) : R :=
  match f with FissionMatrix xs => flt_matrix_total rnd groups xs m | FissionVector chi _ => flt_row_total rnd groups chi m end.
Definition flt_term (flux : mat2) (ii og ig : nat) : R :=
  match f with
  | FissionMatrix xs => fmul rnd (flux ii ig) (xs (med ii) og ig)
  | FissionVector chi nu => fmul rnd (fmul rnd (flux ii ig) (chi (med ii) og)) (nu (med ii) ig)
  end.
Definition flt_rate (flux : mat2) : R :=
  for_up cells (fun ii r => if Req_EM_T (flt_total (med ii)) 0 then r
    else for_up groups (fun og r => for_up groups (fun ig r => fadd rnd r (flt_term flux ii og ig)) r) r) 0.

Lemma rates_split (flux old : mat2) :
  match f with
  | FissionMatrix xs => flt_rates_mat rnd cells groups flux old xs med
  | FissionVector chi nu => flt_rates_vec rnd cells groups flux old chi nu med
  end = (flt_rate flux, flt_rate old).
Proof.
  unfold flt_rate, flt_total, flt_term. destruct f as [xs|chi nu].
  - unfold flt_rates_mat. apply injective_projections; cbn [fst snd].
    + apply (for_up_fst cells _ (fun ii r => if Req_EM_T (flt_matrix_total rnd groups xs (med ii)) 0 then r
        else for_up groups (fun og r => for_up groups (fun ig r => fadd rnd r (fmul rnd (flux ii ig) (xs (med ii) og ig))) r) r)).
      intros ii t _. cbv zeta. destruct (Req_EM_T _ 0); [reflexivity|].
      apply (for_up_fst groups _ (fun og r => for_up groups (fun ig r => fadd rnd r (fmul rnd (flux ii ig) (xs (med ii) og ig))) r)). intros og t' _.
      apply (for_up_fst groups _ (fun ig r => fadd rnd r (fmul rnd (flux ii ig) (xs (med ii) og ig)))). reflexivity.
    + apply (for_up_snd cells _ (fun ii r => if Req_EM_T (flt_matrix_total rnd groups xs (med ii)) 0 then r
        else for_up groups (fun og r => for_up groups (fun ig r => fadd rnd r (fmul rnd (old ii ig) (xs (med ii) og ig))) r) r)).
      intros ii t _. cbv zeta. destruct (Req_EM_T _ 0); [reflexivity|].
      apply (for_up_snd groups _ (fun og r => for_up groups (fun ig r => fadd rnd r (fmul rnd (old ii ig) (xs (med ii) og ig))) r)). intros og t' _.
      apply (for_up_snd groups _ (fun ig r => fadd rnd r (fmul rnd (old ii ig) (xs (med ii) og ig)))). reflexivity.
  - unfold flt_rates_vec. apply injective_projections; cbn [fst snd].
    + apply (for_up_fst cells _ (fun ii r => if Req_EM_T (flt_row_total rnd groups chi (med ii)) 0 then r
        else for_up groups (fun og r => for_up groups (fun ig r => fadd rnd r (fmul rnd (fmul rnd (flux ii ig) (chi (med ii) og)) (nu (med ii) ig))) r) r)).
      intros ii t _. cbv zeta. destruct (Req_EM_T _ 0); [reflexivity|].
      apply (for_up_fst groups _ (fun og r => for_up groups (fun ig r => fadd rnd r (fmul rnd (fmul rnd (flux ii ig) (chi (med ii) og)) (nu (med ii) ig))) r)). intros og t' _.
      apply (for_up_fst groups _ (fun ig r => fadd rnd r (fmul rnd (fmul rnd (flux ii ig) (chi (med ii) og)) (nu (med ii) ig)))). reflexivity.
    + apply (for_up_snd cells _ (fun ii r => if Req_EM_T (flt_row_total rnd groups chi (med ii)) 0 then r
        else for_up groups (fun og r => for_up groups (fun ig r => fadd rnd r (fmul rnd (fmul rnd (old ii ig) (chi (med ii) og)) (nu (med ii) ig))) r) r)).
      intros ii t _. cbv zeta. destruct (Req_EM_T _ 0); [reflexivity|].
      apply (for_up_snd groups _ (fun og r => for_up groups (fun ig r => fadd rnd r (fmul rnd (fmul rnd (old ii ig) (chi (med ii) og)) (nu (med ii) ig))) r)). intros og t' _.
      apply (for_up_snd groups _ (fun ig r => fadd rnd r (fmul rnd (fmul rnd (old ii ig) (chi (med ii) og)) (nu (med ii) ig)))). reflexivity.
Qed.

Lemma total_skipped ii : (ii < cells)%nat -> flt_total (med ii) = 0 -> skipped groups f (med ii).
Proof.
  intros Hi. unfold flt_total, skipped. assert (Hfi : forall o h, (o < groups)%nat -> (h < groups)%nat -> _) by (exact (fun o h => Hf ii o h Hi)).
  destruct f as [xs|chi nu]; cbn in Hfi.
  - intros E.
    assert (B : btw (0 + groups * groups) (0 + matrix_total groups xs (med ii)) (flt_matrix_total rnd groups xs (med ii))).
    { unfold flt_matrix_total, matrix_total. apply acc_loop with (a := 0%nat); [|lia|apply btw_self; lra].
      intros o r X p Ho _ H. replace (p + groups)%nat with (p + groups * 1)%nat by lia. apply acc_loop with (a := 0%nat); [|lia|exact H].
      intros i r' X' p' Hii _ H'. apply (acc_term 0); [lia|exact H'|apply btw_self, Hfi; assumption]. }
    rewrite E in B. destruct B as (A & B & _). assert (L := low_pos (0 + groups * groups)). nra.
  - intros E. destruct (Nat.eq_dec groups 0) as [->|G0]; [reflexivity|].
    assert (B : btw (0 + groups * 1) (0 + row_total groups chi (med ii)) (flt_row_total rnd groups chi (med ii))).
    { unfold flt_row_total, row_total. apply acc_loop with (a := 0%nat); [|lia|apply btw_self; lra].
      intros i r' X' p' Hii _ H'. apply (acc_term 0); [lia|exact H'|apply btw_self, (Hfi i 0%nat); lia]. }
    rewrite E in B. destruct B as (A & B & _). assert (L := low_pos (0 + groups * 1)). nra.
Qed.

Lemma term_near flux ii og ig : (ii < cells)%nat -> (og < groups)%nat -> (ig < groups)%nat -> 0 <= flux ii ig ->
  btw 2 (fission_entry f (med ii) og ig * flux ii ig) (flt_term flux ii og ig).
Proof.
  intros Hi Ho Hg Hx. assert (F := Hf ii og ig Hi Ho Hg). unfold flt_term, fission_entry. destruct f as [xs|chi nu].
  - rewrite Rmult_comm. apply (btw_weaken 1); [lia|]. apply btw_rnd. apply btw_mul; [exact F|apply btw_self; exact Hx].
  - destruct F as (F1 & F2). replace (chi (med ii) og * nu (med ii) ig * flux ii ig) with (flux ii ig * chi (med ii) og * nu (med ii) ig) by ring.
    apply btw_rnd. apply btw_mul; [exact F2|]. apply btw_rnd. apply btw_mul; [exact F1|apply btw_self; exact Hx].
Qed.

Lemma rate_near flux : (forall i g, (i < cells)%nat -> (g < groups)%nat -> 0 <= flux i g) ->
  btw (2 + cells * (groups * groups)) (production cells groups f med flux) (flt_rate flux).
Proof.
  intros Hx. unfold flt_rate, production, emission. rewrite <- (Rplus_0_l (rsum cells _)).
  apply acc_loop with (a := 2%nat); [|lia|apply (btw_weaken 0); [lia|apply btw_self; lra]].
  intros ii r X p Hi Hp H. destruct (Req_EM_T (flt_total (med ii)) 0) as [E|E].
  - assert (Z : rsum groups (fun o => rsum groups (fun h => fission_entry f (med ii) o h * flux ii h)) = 0).
    { apply rsum_zero_ext. intros o Ho. apply rsum_zero_ext. intros h Hh.
      rewrite (skipped_zero cells groups med f ii o h Hf Hi Ho Hh (total_skipped ii Hi E)). ring. }
    rewrite Z, Rplus_0_r. apply (btw_weaken p); [lia|exact H].
  - apply acc_loop with (a := 2%nat); [|exact Hp|exact H]. intros og r' X' p' Ho Hp' H'.
    replace (p' + groups)%nat with (p' + groups * 1)%nat by lia. apply acc_loop with (a := 2%nat); [|exact Hp'|exact H'].
    intros ig r'' X'' p'' Hg Hp'' H''. apply (acc_term 2); [exact Hp''|exact H''|]. apply term_near; auto.
Qed.

Lemma flt_keff_near flux old keff k :
  (forall i g, (i < cells)%nat -> (g < groups)%nat -> 0 <= flux i g) ->
  (forall i g, (i < cells)%nat -> (g < groups)%nat -> 0 <= old i g) -> 0 <= keff ->
  flt_update_keff rnd cells groups f med flux old keff = Ok k ->
  0 < production cells groups f med old /\
  let N := (2 + cells * (groups * groups))%nat in
  let ideal := keff * production cells groups f med flux / production cells groups f med old in
  (1 - u) ^ (N + 2) / (1 + u) ^ N * ideal <= k <= (1 + u) ^ (N + 2) / (1 - u) ^ N * ideal.
Proof.
  intros Hx Hy Hk. unfold flt_update_keff. cbv zeta. rewrite rates_split. cbn [fst snd].
  destruct (Req_EM_T (flt_rate old) 0) as [|Nz]; [discriminate|]. intros [= <-].
  assert (A := rate_near flux Hx). assert (B := rate_near old Hy). set (N := (2 + cells * (groups * groups))%nat) in *. clearbody N.
  assert (Pb := btw_pos _ _ _ B). destruct B as (B0 & B1 & B2).
  set (a := production cells groups f med flux) in *. set (b := production cells groups f med old) in *. clearbody a b.
  assert (Lo := low_pos N). assert (Hi : 0 < (1 + u) ^ N) by (apply pow_lt; lra).
  assert (b <> 0). { intros ->. rewrite !Rmult_0_r in *. lra. }
  split; [lra|]. assert (P : 0 < b) by lra.
  assert (C : btw (S N) (a * keff) (fmul rnd (flt_rate flux) keff)) by (apply btw_rnd, btw_mul; assumption).
  destruct C as (C0 & C1 & C2). set (y := fmul rnd (flt_rate flux) keff) in *. clearbody y.
  set (z := flt_rate old) in *. clearbody z. assert (Pz : 0 < z) by lra.
  assert (Py : 0 <= y) by (assert (0 <= (1 - u) ^ S N * (a * keff)) by (apply Rmult_le_pos; [apply Rlt_le, low_pos|exact C0]); lra).
  assert (Pq : 0 <= y / z) by (apply Rle_mult_inv_pos; assumption).
  assert (Q := Hr (y / z)). rewrite (Rabs_right (y / z)) in Q by lra. apply abs_between in Q. unfold fdiv.
  assert (L : (1 - u) ^ S N / (1 + u) ^ N * (keff * a / b) <= y / z).
  { apply Rle_trans with ((1 - u) ^ S N * (a * keff) / ((1 + u) ^ N * b)).
    - right. field. lra.
    - unfold Rdiv. apply Rmult_le_compat; [apply Rmult_le_pos; [apply Rlt_le, low_pos|exact C0]| |exact C1|].
      + apply Rlt_le, Rinv_0_lt_compat, Rmult_lt_0_compat; assumption.
      + apply Rinv_le_contravar; assumption. }
  assert (U : y / z <= (1 + u) ^ S N / (1 - u) ^ N * (keff * a / b)).
  { apply Rle_trans with ((1 + u) ^ S N * (a * keff) / ((1 - u) ^ N * b)).
    - unfold Rdiv. apply Rmult_le_compat; [exact Py|apply Rlt_le, Rinv_0_lt_compat; exact Pz|exact C2|].
      apply Rinv_le_contravar; [apply Rmult_lt_0_compat; assumption|exact B1].
    - right. field. lra. }
  replace (N + 2)%nat with (S (S N)) by lia. split.
  - apply Rle_trans with ((1 - u) * (y / z)); [|lra].
    replace ((1 - u) ^ S (S N) / (1 + u) ^ N * (keff * a / b)) with ((1 - u) * ((1 - u) ^ S N / (1 + u) ^ N * (keff * a / b))) by (cbn [pow]; field; lra).
    apply Rmult_le_compat_l; [lra|exact L].
  - apply Rle_trans with ((1 + u) * (y / z)); [lra|].
    replace ((1 + u) ^ S (S N) / (1 - u) ^ N * (keff * a / b)) with ((1 + u) * ((1 + u) ^ S N / (1 - u) ^ N * (keff * a / b))) by (cbn [pow]; field; lra).
    apply Rmult_le_compat_l; [lra|exact U].
Qed.
End Rates.

(** the source kernel *)
Section Source.
Variables (u : R) (rnd : R -> R).
Hypothesis Hu : 0 <= u <= / 1000.
Hypothesis Hr : relative_rounding u rnd.
Variables (cells groups : nat) (med : nat -> nat) (f : fission_data).
Hypothesis Hf : nonneg_fission cells groups med f.
Variables (flux : mat2) (keff : R).

Definition flt_group (i g : nat) : R := for_up groups (fun ig s => fadd rnd s (flt_term rnd med f flux i g ig)) 0.

Lemma flt_source_eq s i g : flt_fission_source rnd cells groups f med flux keff = Ok s ->
  s i g = if andb (Nat.ltb i cells) (Nat.ltb g groups)
          then (if Req_EM_T (flt_total rnd groups f (med i)) 0 then 0 else fdiv rnd (flt_group i g) keff) else 0.
Proof.
  unfold flt_fission_source. destruct (Req_EM_T keff 0); [discriminate|]. intros [= <-].
  assert (E : match f with
              | FissionMatrix xs => flt_fission_mat_prod rnd cells groups flux xs med keff
              | FissionVector chi nu => flt_fission_vec_prod rnd cells groups flux chi nu med keff
              end = for_up cells (fun ii source => if Req_EM_T (flt_total rnd groups f (med ii)) 0 then source
                      else for_up groups (fun og source i g => if andb (Nat.eqb i ii) (Nat.eqb g og) then fdiv rnd (flt_group ii og) keff else source i g) source) zeros2).
  { unfold flt_group. destruct f as [xs|chi nu]; reflexivity. }
  rewrite E. clear E.
  rewrite (own_loop2 cells _ (fun x _ => x)
      (fun x y r => if Nat.ltb y groups then (if Req_EM_T (flt_total rnd groups f (med x)) 0 then r else fdiv rnd (flt_group x y) keff) else r)).
  - unfold zeros2. destruct (Nat.ltb i cells), (Nat.ltb g groups); reflexivity.
  - intros k t x y Hk. destruct (Req_EM_T (flt_total rnd groups f (med k)) 0) as [E|E].
    + destruct (Nat.eqb_spec x k) as [-> |]; [|reflexivity]. destruct (Nat.ltb y groups); [|reflexivity]. destruct (Req_EM_T _ 0); [reflexivity|contradiction].
    + rewrite (own_loop2 groups _ (fun _ y => y) (fun x y r => if Nat.eqb x k then fdiv rnd (flt_group k y) keff else r)).
      * destruct (Nat.eqb_spec x k) as [-> |]; [|destruct (Nat.ltb y groups); reflexivity].
        destruct (Nat.ltb y groups); [|reflexivity]. destruct (Req_EM_T _ 0); [contradiction|reflexivity].
      * intros k2 t2 x2 y2 Hk2. destruct (Nat.eqb_spec x2 k) as [-> |]; cbn [andb].
        -- destruct (Nat.eqb_spec y2 k2) as [-> |]; reflexivity.
        -- destruct (Nat.eqb y2 k2); reflexivity.
Qed.

Lemma flt_source_near s i g : (forall i g, (i < cells)%nat -> (g < groups)%nat -> 0 <= flux i g) -> 0 <= keff ->
  flt_fission_source rnd cells groups f med flux keff = Ok s -> (i < cells)%nat -> (g < groups)%nat ->
  (1 - u) ^ (groups + 3) * (emission groups f med flux i g / keff) <= s i g
    <= (1 + u) ^ (groups + 3) * (emission groups f med flux i g / keff).
Proof.
  intros Hx Hk E Hi Hg. rewrite (flt_source_eq s i g E).
  assert (0 < keff) by (unfold flt_fission_source in E; destruct (Req_EM_T keff 0); [discriminate|lra]).
  replace (Nat.ltb i cells) with true by (symmetry; apply Nat.ltb_lt; lia).
  replace (Nat.ltb g groups) with true by (symmetry; apply Nat.ltb_lt; lia). cbn [andb].
  destruct (Req_EM_T (flt_total rnd groups f (med i)) 0) as [Z|Z].
  - assert (X : emission groups f med flux i g = 0).
    { apply rsum_zero_ext. intros h Hh.
      rewrite (skipped_zero cells groups med f i g h Hf Hi Hg Hh (total_skipped u rnd Hu Hr cells groups med f Hf i Hi Z)). ring. }
    rewrite X. unfold Rdiv. rewrite !Rmult_0_l, !Rmult_0_r. lra.
  - assert (B : btw u (2 + groups * 1) (0 + emission groups f med flux i g) (flt_group i g)).
    { unfold flt_group, emission. apply (acc_loop u Hu) with (a := 2%nat);
        [|lia|apply (btw_weaken u Hu 0); [lia|apply btw_self; lra]].
      intros h r X p Hh Hp H'. apply (acc_term u rnd Hu Hr 2); [exact Hp|exact H'|]. apply (term_near u rnd Hu Hr cells groups); auto. }
    rewrite Rplus_0_l in B. apply (btw_div u _ _ _ keff) in B; [|assumption]. apply (btw_rnd u rnd Hu Hr) in B.
    replace (S (2 + groups * 1)) with (groups + 3)%nat in B by lia. apply B.
Qed.
End Source.

(** One pass: what it hands to the transport solve and what it makes of the result *)
Lemma flt_power_pass u rnd norm normq normf P groups T s f old keff new k :
  0 <= u <= / 1000 -> relative_rounding u rnd -> nonneg_fission (cells P) groups (medium P) f ->
  (forall i g, (i < cells P)%nat -> (g < groups)%nat -> 0 <= old i g) -> 0 <= keff ->
  flt_power_step rnd norm normq normf P groups T s f (old, keff) = Ok (new, k) ->
  exists source flux,
    (forall i g, (i < cells P)%nat -> (g < groups)%nat ->
       (1 - u) ^ (groups + 3) * (emission groups f (medium P) old i g / keff) <= source i g
         <= (1 + u) ^ (groups + 3) * (emission groups f (medium P) old i g / keff)) /\
    flt_source_iteration rnd norm normq P groups old T s (mkArr3 1 groups (fun i _ g => source i g)) (mkArr3 1 1 (fun _ _ _ => 0)) = Ok flux /\
    normf flux <> 0 /\
    (forall i g, Rabs (new i g - flux i g / normf flux) <= u * Rabs (flux i g / normf flux)) /\
    ((forall i g, (i < cells P)%nat -> (g < groups)%nat -> 0 <= flux i g) ->
     0 < production (cells P) groups f (medium P) old /\
     let N := (2 + cells P * (groups * groups))%nat in
     let ideal := keff * production (cells P) groups f (medium P) flux / production (cells P) groups f (medium P) old in
     (1 - u) ^ (N + 2) / (1 + u) ^ N * ideal <= k <= (1 + u) ^ (N + 2) / (1 - u) ^ N * ideal).
Proof.
  intros Hu Hr Hf Ho Hk H. unfold flt_power_step in H. apply bind_ok in H. destruct H as (src & E1 & H).
  apply bind_ok in H. destruct H as (fl & E2 & H). apply bind_ok in H. destruct H as (k' & E3 & H).
  destruct (Req_EM_T (normf fl) 0) as [|Nf]; [discriminate|]. injection H as <- <-. exists src, fl. split; [|split; [|split; [|split]]].
  - intros i g Hi Hg. exact (flt_source_near u rnd Hu Hr (cells P) groups (medium P) f Hf old keff src i g Ho Hk E1 Hi Hg).
  - exact E2.
  - exact Nf.
  - intros i g. apply Hr.
  - intros Hx. exact (flt_keff_near u rnd Hu Hr (cells P) groups (medium P) f Hf fl old keff k' Hx Ho Hk E3).
Qed.

Lemma iterate_one {St} (sweep : St -> outcome St) change tol cap count fuel x y :
  sweep x = Ok y -> below (change y x) tol = true -> iterate (S fuel) sweep change tol cap count x = Ok y.
Proof. intros E B. cbn [iterate]. rewrite E. cbn [bind]. rewrite B. reflexivity. Qed.
(** Exact arithmetic at an eigenpair: the run ends with it *)
Lemma flt_power_eigenpair P groups T s f phi k :
  nonzero_ordinates (angles P) (mu P) -> mg_divisors P groups T ->
  nonneg_fission (cells P) groups (medium P) f -> eigenpair P groups T s f phi k ->
  0 < k -> norm2 (cells P) groups phi = 1 -> production (cells P) groups f (medium P) phi <> 0 ->
  (forall i g, (i < cells P)%nat -> (g < groups)%nat -> 0 < phi i g) ->
  exists flux, flt_power_iteration (fun x => x) (fun v => sqrt (rsum (cells P) (fun i => Rsqr (v i))))
    (fun v => sqrt (rsum (cells P) (fun i => rsum groups (fun h => Rsqr (v i h)))))
    (norm2 (cells P) groups) Rabs P groups T s f (fun i g => k * phi i g) = Ok (flux, k).
Proof.
  intros Hz Hd Hn Hsol Hk Hnorm Hp Hpos.
  assert (En : norm2 (cells P) groups (fun i g => k * phi i g) = k).
  { rewrite (norm2_ext _ _ (fun i g => k * phi i g) (fun i g => phi i g * k)) by (intros i g _ _; ring).
    rewrite norm2_scale, Hnorm, Rabs_right by lra. ring. }
  unfold flt_power_iteration, flt_power_start. cbv zeta. rewrite En. rewrite (Rabs_right k) by lra.
  destruct (Req_EM_T k 0) as [|_]; [lra|]. cbn [bind].
  assert (Es : (fun i g => fdiv (fun x => x) (k * phi i g) k) = phi) by (extensionality i; extensionality g; unfold fdiv; field; lra).
  rewrite Es.
  assert (X : exists flux, flt_power_step (fun x => x) (fun v => sqrt (rsum (cells P) (fun i => Rsqr (v i))))
    (fun v => sqrt (rsum (cells P) (fun i => rsum groups (fun h => Rsqr (v i h))))) (norm2 (cells P) groups) P groups T s f (phi, k)
    = Ok (fun i g => fdiv (fun x => x) (flux i g) 1, k) /\ agree2 (cells P) groups flux phi).
  { unfold flt_power_step.
  assert (exists src, flt_fission_source (fun x => x) (cells P) groups f (medium P) phi k = Ok src) as (src & E1).
  { unfold flt_fission_source. destruct (Req_EM_T k 0); [lra|eauto]. }
  rewrite E1. cbn [bind]. rewrite exact_outer.
  assert (Esrc := exact_fission _ _ _ _ _ _ _ E1).
  assert (Hs : mg_solution P groups T s (as_source groups src) no_boundary phi).
  { eapply solution_external_ext; [| | |exact Hsol]; try reflexivity.
    intros i m g Hi Hg. cbn [at3 d3b d3c as_source]. symmetry. rewrite <- Esrc. apply fission_source_emission; [exact Hn|exact Hi|].
    unfold bidx. destruct (Nat.eqb_spec groups 1); lia. }
  destruct (solution_driver P groups T s (as_source groups src) no_boundary phi Hz Hd Hs) as (flux & E & Ha). rewrite E. cbn [bind].
  assert (R0 : relative_rounding 0 (fun x => x)) by (intros x; replace (x - x) with 0 by ring; rewrite Rabs_R0; lra).
  assert (exists k', flt_update_keff (fun x => x) (cells P) groups f (medium P) flux phi k = Ok k') as (k' & E3).
  { unfold flt_update_keff. cbv zeta. rewrite rates_split by exact Hn. cbn [fst snd].
    assert (B := rate_near 0 (fun x => x) ltac:(lra) R0 (cells P) groups (medium P) f Hn phi (fun i g Hi Hg => Rlt_le _ _ (Hpos i g Hi Hg))).
    destruct B as (B0 & B1 & _). replace (1 - 0) with 1 in B1 by ring. rewrite pow1 in B1. destruct (Req_EM_T _ 0) as [Z|Z]; [lra|eexists; reflexivity]. }
  rewrite E3. cbn [bind]. rewrite <- (exact_keff _ _ _ _ _ _ _ _ E3).
  assert (Hnf : norm2 (cells P) groups flux = 1) by (rewrite (norm2_ext _ _ _ _ Ha); exact Hnorm). rewrite Hnf.
  destruct (Req_EM_T 1 0); [lra|].
  assert (Hkk : update_keff (cells P) groups f (medium P) flux phi k = k).
  { rewrite update_keff_ratio by exact Hn. rewrite (production_ext _ _ _ _ _ _ Ha). field. exact Hp. }
  rewrite Hkk. exists flux. split; [reflexivity|exact Ha]. }
  destruct X as (flux & E & Ha).
  assert (Hc : flt_change2 (fun x => x) (fun v => sqrt (rsum (cells P) (fun i => rsum groups (fun h => Rsqr (v i h)))))
     (cells P) groups (fun i g => fdiv (fun x => x) (flux i g) 1) phi = Some 0).
  { rewrite exact_change2. rewrite (rel_change2_ext _ _ _ phi phi phi).
    - apply rel_change2_same. intros i g Hi Hg. specialize (Hpos i g Hi Hg). lra.
    - intros i g Hi Hg. rewrite Ha by assumption. unfold fdiv. field.
    - intros i g _ _. reflexivity. }
  exists (fun i g => fdiv (fun x => x) (flux i g) 1).
  change count_kk with (S 99) at 1. apply iterate_one; [exact E|]. cbn [fst]. rewrite Hc. cbn [below]. unfold change_kk.
  destruct (Rlt_dec 0 (/ 10 ^ 6)) as [_|Hbad]; [reflexivity|exfalso; apply Hbad; apply Rinv_0_lt_compat, pow_lt; lra].
Qed.
