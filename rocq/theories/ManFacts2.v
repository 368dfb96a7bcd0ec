(** C59, C60, C94: observed order, Wynn's epsilon algorithm, the error norm. *)
From Coq Require Import Lra Lia Reals ZArith.
From Verif Require Import Base BaseFacts ManModel ManSpec.
Open Scope R_scope.

(** *** order_accuracy *)
Lemma order_exact C p h ratio : C <> 0 -> 0 < h -> 0 < ratio -> ratio <> 1 ->
  order_accuracy (C * Rpower h p) (C * Rpower (h / ratio) p) ratio = p.
Proof.
  intros HC Hh Hr H1. unfold order_accuracy.
  assert (Hq : 0 < h / ratio) by (apply Rdiv_lt_0_compat; lra).
  assert (E : C * Rpower h p / (C * Rpower (h / ratio) p) = Rpower ratio p).
  { unfold Rpower. unfold Rdiv at 2. rewrite ln_mult, ln_Rinv by (try apply Rinv_0_lt_compat; assumption).
    replace (p * ln h) with (p * ln ratio + p * (ln h + - ln ratio)) by ring. rewrite exp_plus.
    field. split; [|exact HC]. pose proof (exp_pos (p * (ln h + - ln ratio))). lra. }
  rewrite E. unfold Rpower. rewrite ln_exp. field. intros K. apply H1. apply ln_inv; [assumption|lra|]. now rewrite ln_1.
Qed.

Lemma order_explains e1 e2 ratio : 0 < e1 -> 0 < e2 -> 0 < ratio -> ratio <> 1 ->
  e1 = e2 * Rpower ratio (order_accuracy e1 e2 ratio).
Proof.
  intros H1 H2 Hr D. unfold order_accuracy, Rpower.
  assert (L : ln ratio <> 0). { intros K. apply D. apply ln_inv; [assumption|lra|]. now rewrite ln_1. }
  replace (ln (e1 / e2) / ln ratio * ln ratio) with (ln (e1 / e2)) by (field; exact L).
  rewrite exp_ln by (apply Rdiv_lt_0_compat; assumption). field. lra.
Qed.

(** *** the table of wynn_epsilon *)
Section Wynn.
Variable s : nat -> R.
Fixpoint wt (c : nat) : nat -> R :=
  match c with
  | O => fun _ => 0
  | S c1 => match c1 with
            | O => s
            | S c2 => fun k => let d := wt c1 (k + 1)%nat - wt c1 k in
                if Req_EM_T d 0 then wt c2 (k + 1)%nat else wt c2 (k + 1)%nat + 1 / d
            end
  end.
Lemma wt_step c k : wt (S (S c)) k = let d := wt (S c) (k + 1)%nat - wt (S c) k in
  if Req_EM_T d 0 then wt c (k + 1)%nat else wt c (k + 1)%nat + 1 / d.
Proof. reflexivity. Qed.
End Wynn.

Lemma set_cell_same e r c v : set_cell e r c v r c = v.
Proof. unfold set_cell. now rewrite !Nat.eqb_refl. Qed.
Lemma set_cell_other e r c v i j : (i <> r \/ j <> c) -> set_cell e r c v i j = e i j.
Proof. intros H. unfold set_cell. destruct (Nat.eqb_spec i r), (Nat.eqb_spec j c); try reflexivity. lia. Qed.

Lemma wynn_table_spec N lst : (1 <= N)%nat -> (N <= length lst)%nat ->
  wynn_table N lst N N = wt (fun k => nth k lst 0) N 0.
Proof.
  intros H1 HN. unfold wynn_table. set (s := fun k => nth k lst 0).
  set (first := for_up N (fun k e => set_cell e (k + 1) 1 (nth k lst 0)) zeros2).
  assert (F : forall a, (a <= N)%nat -> let e := for_up a (fun k e => set_cell e (k + 1) 1 (nth k lst 0)) zeros2 in
    (forall r, e r 0%nat = 0) /\ (forall r, (1 <= r <= a)%nat -> e r 1%nat = s (r - 1)%nat)).
  { induction a as [|a IH]; intros Ha; cbn [for_up]; [split; [reflexivity|intros; lia]|].
    destruct (IH ltac:(lia)) as [I1 I2]. split.
    - intros r. rewrite set_cell_other by lia. apply I1.
    - intros r Hr. destruct (Nat.eq_dec r (a + 1)) as [-> |D].
      + rewrite set_cell_same. unfold s. f_equal. lia.
      + rewrite set_cell_other by lia. apply I2. lia. }
  pose proof (F N (le_n _)) as F0. change (for_up N (fun k e => set_cell e (k + 1) 1 (nth k lst 0)) zeros2) with first in F0.
  destruct F0 as [F1 F2].
  pose (Inv := fun a (e : mat2) => (forall r, e r 0%nat = 0) /\ (forall r, (1 <= r <= N)%nat -> e r 1%nat = s (r - 1)%nat) /\
     (forall r c, (c <= r)%nat -> (1 <= r <= a + 1)%nat -> e r c = wt s c (r - c))).
  assert (G : forall a, (a <= N - 1)%nat -> Inv a (for_up a (fun a e =>
    let ii := (a + 3)%nat in
    for_up (ii - 2) (fun b e => let jj := (b + 3)%nat in
      set_cell e (ii - 1) (jj - 1) (wynn_cell e ii jj)) e) first)).
  { induction a as [|a IH]; intros Ha.
    - split; [exact F1|]. split; [exact F2|]. intros r c Hc Hr. assert (r = 1%nat) by lia. subst r.
      destruct c as [|[|c]]; [apply F1| |lia]. rewrite F2 by lia. reflexivity.
    - cbn [for_up]. specialize (IH ltac:(lia)).
      set (e0 := for_up a _ first) in *. destruct IH as (I1 & I2 & I3). cbv zeta.
      assert (K : forall b, (b <= a + 1)%nat ->
        let e := for_up b (fun b e => set_cell e (a + 3 - 1) (b + 3 - 1) (wynn_cell e (a + 3) (b + 3))) e0 in
        (forall r, e r 0%nat = 0) /\ (forall r, (1 <= r <= N)%nat -> e r 1%nat = s (r - 1)%nat) /\
        (forall r c, (c <= r)%nat -> (1 <= r <= a + 1)%nat -> e r c = wt s c (r - c)) /\
        (forall c, (c <= b + 1)%nat -> e (a + 2)%nat c = wt s c (a + 2 - c))).
      { induction b as [|b IHb]; intros Hb; cbn [for_up].
        - repeat split; try assumption. intros c Hc. destruct c as [|[|c]]; [apply I1| |lia].
          rewrite I2 by lia. reflexivity.
        - destruct (IHb ltac:(lia)) as (J1 & J2 & J3 & J4). clear IHb. set (e := for_up b _ e0) in *.
          split; [intros r; rewrite set_cell_other by lia; apply J1|].
          split; [intros r Hr; rewrite set_cell_other by lia; apply J2; exact Hr|].
          split; [intros r c Hc Hr; rewrite set_cell_other by lia; apply J3; assumption|].
          intros c Hc. destruct (Nat.eq_dec c (b + 2)) as [-> |D].
          + replace (a + 3 - 1)%nat with (a + 2)%nat by lia. replace (b + 3 - 1)%nat with (b + 2)%nat by lia.
            rewrite set_cell_same. unfold wynn_cell.
            replace (a + 3 - 1)%nat with (a + 2)%nat by lia. replace (b + 3 - 2)%nat with (b + 1)%nat by lia.
            replace (a + 3 - 2)%nat with (a + 1)%nat by lia. replace (b + 3 - 3)%nat with b by lia.
            rewrite (J4 (b + 1)%nat) by lia. rewrite (J3 (a + 1)%nat (b + 1)%nat) by lia. rewrite (J3 (a + 1)%nat b) by lia.
            replace (b + 2)%nat with (S (S b)) by lia. rewrite wt_step. replace (b + 1)%nat with (S b) by lia. cbv zeta.
            replace (a + 2 - S b)%nat with (a + 2 - S (S b) + 1)%nat by lia.
            replace (a + 1 - S b)%nat with (a + 2 - S (S b))%nat by lia.
            replace (a + 1 - b)%nat with (a + 2 - S (S b) + 1)%nat by lia. reflexivity.
          + rewrite set_cell_other by lia. apply J4. lia. }
      replace (a + 3 - 2)%nat with (a + 1)%nat by lia.
      destruct (K (a + 1)%nat (le_n _)) as (K1 & K2 & K3 & K4). split; [exact K1|]. split; [exact K2|].
      intros r c Hc Hr. destruct (Nat.eq_dec r (a + 2)) as [-> |D]; [apply K4; lia|apply K3; lia]. }
  destruct (G (N - 1)%nat (le_n _)) as (_ & _ & G3). rewrite G3 by lia. f_equal. lia.
Qed.

Lemma wynn_run lst rank : (0 <= rank)%Z -> (2 * Z.to_nat rank + 1 <= length lst)%nat ->
  wynn_epsilon lst rank = Ok (Rabs (wt (fun k => nth k lst 0) (2 * Z.to_nat rank + 1) 0)).
Proof.
  intros Hr HL. unfold wynn_epsilon. destruct (Z.ltb_spec (2 * rank + 2) 0); [lia|].
  assert (E : (Z.to_nat (2 * rank + 2) - 1 = 2 * Z.to_nat rank + 1)%nat) by lia. rewrite E.
  destruct (Nat.ltb_spec (length lst) (2 * Z.to_nat rank + 1)); [lia|].
  destruct (Z.eqb_spec (2 * rank + 2) 0); [lia|]. rewrite wynn_table_spec by lia. reflexivity.
Qed.

Lemma wynn_errors lst rank :
  ((rank <= -2)%Z -> wynn_epsilon lst rank = Raise ValueError) /\
  (rank = (-1)%Z -> wynn_epsilon lst rank = Raise IndexError) /\
  ((0 <= rank)%Z -> (Z.of_nat (length lst) < 2 * rank + 1)%Z -> wynn_epsilon lst rank = Raise IndexError).
Proof.
  split; [|split].
  - intros H. unfold wynn_epsilon. destruct (Z.ltb_spec (2 * rank + 2) 0); [reflexivity|lia].
  - intros ->. unfold wynn_epsilon. cbn [Z.ltb Z.mul Z.add Pos.add]. cbn. destruct (length lst); reflexivity.
  - intros H L. unfold wynn_epsilon. destruct (Z.ltb_spec (2 * rank + 2) 0); [lia|].
    destruct (Nat.ltb_spec (length lst) (Z.to_nat (2 * rank + 2) - 1)); [reflexivity|lia].
Qed.

(** only the entries used count *)
Lemma wt_ext s1 s2 c : forall k m, (forall j, (j < m)%nat -> s1 j = s2 j) -> (k + c <= m)%nat -> (1 <= c)%nat -> wt s1 c k = wt s2 c k.
Proof.
  induction c as [c IH] using (well_founded_induction lt_wf). intros k m E H H1.
  destruct c as [|[|c]]; [lia|apply E; lia|]. rewrite !wt_step. cbv zeta.
  rewrite (IH (S c) ltac:(lia) (k + 1)%nat m E) by lia. rewrite (IH (S c) ltac:(lia) k m E) by lia.
  destruct c as [|c]; [reflexivity|]. rewrite (IH (S c) ltac:(lia) (k + 1)%nat m E) by lia. reflexivity.
Qed.

(** affine maps: odd columns are mapped, even columns are divided by the slope *)
Lemma wt_affine s a b : b <> 0 -> forall c k,
  (Nat.even c = true -> wt (fun j => a + b * s j) c k = wt s c k / b) /\
  (Nat.even c = false -> wt (fun j => a + b * s j) c k = a + b * wt s c k).
Proof.
  intros Hb. induction c as [c IH] using (well_founded_induction lt_wf). intros k.
  destruct c as [|[|c]].
  - split; [|discriminate]. intros _. cbn [wt]. field. exact Hb.
  - split; [discriminate|]. reflexivity.
  - rewrite !wt_step. cbv zeta. change (Nat.even (S (S c))) with (Nat.even c).
    destruct (IH (S c) ltac:(lia) (k + 1)%nat) as [P1 Q1]. destruct (IH (S c) ltac:(lia) k) as [P2 Q2].
    destruct (IH c ltac:(lia) (k + 1)%nat) as [P3 Q3]. rewrite Nat.even_succ, <- Nat.negb_even in P1, Q1, P2, Q2.
    split; intros E; rewrite E in *; cbn [negb] in *.
    + rewrite Q1, Q2, P3 by reflexivity. set (u := wt s (S c) (k + 1)%nat). set (v := wt s (S c) k).
      destruct (Req_EM_T (a + b * u - (a + b * v)) 0) as [Z|Z]; destruct (Req_EM_T (u - v) 0) as [Y|Y].
      * reflexivity.
      * exfalso. apply Y. apply (Rmult_eq_reg_l b); [lra|exact Hb].
      * exfalso. apply Z. replace (a + b * u - (a + b * v)) with (b * (u - v)) by ring. rewrite Y. ring.
      * replace (a + b * u - (a + b * v)) with (b * (u - v)) by ring. field. now split.
    + rewrite P1, P2, Q3 by reflexivity. set (u := wt s (S c) (k + 1)%nat). set (v := wt s (S c) k).
      destruct (Req_EM_T (u / b - v / b) 0) as [Z|Z]; destruct (Req_EM_T (u - v) 0) as [Y|Y].
      * reflexivity.
      * exfalso. apply Y. replace (u - v) with (b * (u / b - v / b)) by (field; exact Hb). rewrite Z. ring.
      * exfalso. apply Z. replace (u / b - v / b) with ((u - v) / b) by (field; exact Hb). rewrite Y. field. exact Hb.
      * field. split; [exact Y|exact Hb].
Qed.

(** *** exactness *)
Lemma wt_constant v c : forall k, wt (fun _ => v) c k = if Nat.even c then 0 else v.
Proof.
  induction c as [c IH] using (well_founded_induction lt_wf). intros k. destruct c as [|[|c]]; [reflexivity|reflexivity|].
  rewrite wt_step. cbv zeta. rewrite !(IH (S c)) by lia. rewrite (IH c) by lia. change (Nat.even (S (S c))) with (Nat.even c).
  match goal with |- context [Req_EM_T ?d 0] => destruct (Req_EM_T d 0) as [Z|Z]; [reflexivity|exfalso; apply Z; ring] end.
Qed.

Lemma wynn_constant v lst rank : (0 <= rank)%Z -> (2 * rank + 1 <= Z.of_nat (length lst))%Z -> (forall x, In x lst -> x = v) ->
  wynn_epsilon lst rank = Ok (Rabs v).
Proof.
  intros Hr HL A. rewrite wynn_run by lia. rewrite (wt_ext _ (fun _ => v) _ 0 (length lst)); [| |lia|lia].
  - rewrite wt_constant. rewrite Nat.add_1_r, Nat.even_succ, <- Nat.negb_even, Nat.even_mul. reflexivity.
  - intros j Hj. apply A. apply nth_In. exact Hj.
Qed.

(** a signed limit estimate that commutes with affine maps *)
Lemma wynn_equivariant lst rank : (0 <= rank)%Z -> (2 * rank + 1 <= Z.of_nat (length lst))%Z ->
  exists t, wynn_epsilon lst rank = Ok (Rabs t) /\
    forall a b, b <> 0 -> wynn_epsilon (map (fun x => a + b * x) lst) rank = Ok (Rabs (a + b * t)).
Proof.
  intros Hr HL. exists (wt (fun k => nth k lst 0) (2 * Z.to_nat rank + 1) 0). split; [apply wynn_run; lia|].
  intros a b Hb. rewrite wynn_run by (try rewrite map_length; lia).
  rewrite (wt_ext _ (fun k => a + b * nth k lst 0) _ 0 (length lst)); [| |lia|lia].
  - destruct (wt_affine (fun k => nth k lst 0) a b Hb (2 * Z.to_nat rank + 1)%nat 0%nat) as [_ Q].
    rewrite Q; [reflexivity|]. rewrite Nat.add_1_r, Nat.even_succ, <- Nat.negb_even, Nat.even_mul. reflexivity.
  - intros j Hj. rewrite (nth_indep _ 0 (a + b * 0)) by (rewrite map_length; exact Hj).
    rewrite (map_nth (fun x => a + b * x)). reflexivity.
Qed.

(** the trailing entries of a longer list are ignored *)
Lemma wynn_prefix lst rest rank : (0 <= rank)%Z -> (2 * rank + 1 <= Z.of_nat (length lst))%Z ->
  wynn_epsilon (lst ++ rest) rank = wynn_epsilon lst rank.
Proof.
  intros Hr HL. rewrite !wynn_run by (try rewrite app_length; lia). do 2 f_equal. apply wt_ext with (m := length lst); [|lia|lia].
  intros j Hj. now rewrite app_nth1.
Qed.

Lemma wt_geometric s a r k : a <> 0 -> r <> 0 -> r <> 1 ->
  wt (fun n => s + a * r ^ n) 2 k = 1 / (a * r ^ k * (r - 1)) /\
  wt (fun n => s + a * r ^ n) 3 k = s.
Proof.
  intros Ha H0 H1.
  assert (P : forall k, r ^ k <> 0) by (intros; now apply pow_nonzero).
  assert (R1 : r - 1 <> 0) by lra.
  assert (T : forall k, wt (fun n => s + a * r ^ n) 2 k = 1 / (a * r ^ k * (r - 1))).
  { intros j. rewrite wt_step. cbv zeta. cbn [wt].
    assert (D : s + a * r ^ (j + 1) - (s + a * r ^ j) = a * r ^ j * (r - 1)) by (rewrite pow_add; ring). rewrite D.
    destruct (Req_EM_T (a * r ^ j * (r - 1)) 0) as [Z|Z].
    - exfalso. apply Rmult_integral in Z. destruct Z as [Z|Z]; [|lra]. apply Rmult_integral in Z. destruct Z; [lra|now apply (P j)].
    - ring. }
  split; [apply T|]. rewrite wt_step. cbv zeta. rewrite !T. cbn [wt].
  assert (D : 1 / (a * r ^ (k + 1) * (r - 1)) - 1 / (a * r ^ k * (r - 1)) = - 1 / (a * r ^ (k + 1))).
  { rewrite pow_add, pow_1. field. repeat split; auto. }
  rewrite D. destruct (Req_EM_T (- 1 / (a * r ^ (k + 1))) 0) as [Z|Z].
  - exfalso. assert (a * r ^ (k + 1) <> 0) by (apply Rmult_integral_contrapositive; split; auto).
    unfold Rdiv in Z. apply Rmult_integral in Z. destruct Z as [Z|Z]; [lra|]. now apply Rinv_neq_0_compat in Z.
  - field. split; [apply P|exact Ha].
Qed.

Lemma nth_sum s terms n k : (k < n)%nat -> nth k (exponential_sum s terms n) 0 = fold_left (fun acc t => acc + fst t * snd t ^ k) terms s.
Proof.
  intros H. unfold exponential_sum. rewrite (nth_indep _ 0 (fold_left (fun acc t => acc + fst t * snd t ^ 0) terms s)) by (now rewrite map_length, seq_length).
  rewrite (map_nth (fun k => fold_left (fun acc t => acc + fst t * snd t ^ k) terms s)). rewrite seq_nth by exact H. reflexivity.
Qed.

Lemma wynn_sum s terms rank : (0 <= rank)%Z ->
  wynn_epsilon (exponential_sum s terms (2 * Z.to_nat rank + 1)) rank
  = Ok (Rabs (wt (fun k => fold_left (fun acc t => acc + fst t * snd t ^ k) terms s) (2 * Z.to_nat rank + 1) 0)).
Proof.
  intros H. assert (L : length (exponential_sum s terms (2 * Z.to_nat rank + 1)) = (2 * Z.to_nat rank + 1)%nat) by (unfold exponential_sum; now rewrite map_length, seq_length).
  rewrite wynn_run by lia. do 2 f_equal. apply wt_ext with (m := (2 * Z.to_nat rank + 1)%nat); [|lia|lia].
  intros j Hj. now apply nth_sum.
Qed.

Lemma wynn_rank_one s a r : r <> 0 -> r <> 1 -> wynn_epsilon (exponential_sum s [(a, r)] 3) 1 = Ok (Rabs s).
Proof.
  intros H0 H1. pose proof (wynn_sum s [(a, r)] 1 ltac:(lia)) as E. change (2 * Z.to_nat 1 + 1)%nat with 3%nat in E.
  rewrite E. cbn [fold_left fst snd]. do 2 f_equal.
  destruct (Req_dec a 0) as [-> |Ha]; [|now apply wt_geometric].
  rewrite (wt_ext _ (fun _ => s) 3 0 3); [apply (wt_constant s 3)| |lia|lia]. intros; ring.
Qed.

(** a sequence that settles after its first term *)
Lemma wynn_settled s a : a <> 0 -> wynn_epsilon [s + a; s; s] 1 = Ok (Rabs (s + a)).
Proof.
  intros Ha. rewrite wynn_run by (cbn; lia). do 2 f_equal. change (2 * Z.to_nat 1 + 1)%nat with 3%nat.
  rewrite !wt_step. cbv zeta. cbn [wt Nat.add nth]. replace (s - s) with 0 by ring.
  replace (s - (s + a)) with (- a) by ring. destruct (Req_EM_T 0 0); [|lra].
  destruct (Req_EM_T (- a) 0); [lra|]. replace (0 - (0 + 1 / - a)) with (1 / a) by (field; exact Ha).
  destruct (Req_EM_T (1 / a) 0) as [Z|Z].
  - exfalso. unfold Rdiv in Z. rewrite Rmult_1_l in Z. now apply Rinv_neq_0_compat in Z.
  - field. exact Ha.
Qed.

(** more terms than the sequence needs *)
Lemma wynn_rank_two s a r : a <> 0 -> r <> 0 -> r <> 1 ->
  wynn_epsilon (exponential_sum s [(a, r)] 5) 2 = Ok (Rabs (s - a * r ^ 2)).
Proof.
  intros Ha H0 H1. pose proof (wynn_sum s [(a, r)] 2 ltac:(lia)) as E. change (2 * Z.to_nat 2 + 1)%nat with 5%nat in E.
  rewrite E. cbn [fold_left fst snd]. do 2 f_equal. set (q := fun k => s + a * r ^ k).
  assert (G : forall k, wt q 2 k = 1 / (a * r ^ k * (r - 1)) /\ wt q 3 k = s) by (intros; now apply wt_geometric).
  assert (F : forall k, wt q 4 k = wt q 2 (k + 1)%nat).
  { intros k. rewrite wt_step. cbv zeta. rewrite !(proj2 (G _)). destruct (Req_EM_T (s - s) 0) as [Z|Z]; [reflexivity|exfalso; apply Z; ring]. }
  rewrite wt_step. cbv zeta. rewrite !F, !(proj1 (G _)), (proj2 (G _)). cbn [Nat.add].
  assert (r - 1 <> 0) by lra.
  assert (D : 1 / (a * r ^ 2 * (r - 1)) - 1 / (a * r ^ 1 * (r - 1)) = - 1 / (a * r ^ 2)) by (field; repeat split; auto).
  rewrite D. assert (N : a * r ^ 2 <> 0) by (apply Rmult_integral_contrapositive; split; [exact Ha|now apply pow_nonzero]).
  destruct (Req_EM_T (- 1 / (a * r ^ 2)) 0) as [Z|Z].
  - exfalso. unfold Rdiv in Z. apply Rmult_integral in Z. destruct Z as [Z|Z]; [lra|]. now apply Rinv_neq_0_compat in Z.
  - field. split; assumption.
Qed.

(** *** two positive geometric terms *)
Lemma wynn_two_terms s a r b q : 0 < r < q -> q < 1 -> 0 < a -> 0 < b ->
  wynn_epsilon (exponential_sum s [(a, r); (b, q)] 5) 2 = Ok (Rabs s).
Proof.
  intros Hr Hq Ha Hb. pose proof (wynn_sum s [(a, r); (b, q)] 2 ltac:(lia)) as E. change (2 * Z.to_nat 2 + 1)%nat with 5%nat in E.
  rewrite E. cbn [fold_left fst snd]. do 2 f_equal. set (f := fun k => s + a * r ^ k + b * q ^ k).
  assert (Pr : forall k, 0 < r ^ k) by (intros; apply pow_lt; lra). assert (Pq : forall k, 0 < q ^ k) by (intros; apply pow_lt; lra).
  pose (u := fun k => a * (1 - r) * r ^ k + b * (1 - q) * q ^ k).
  pose (w := fun k => a * (1 - r) ^ 2 * r ^ k + b * (1 - q) ^ 2 * q ^ k).
  assert (Pu : forall k, 0 < u k).
  { intros k. unfold u. apply Rplus_lt_0_compat; apply Rmult_lt_0_compat; try apply Pr; try apply Pq; apply Rmult_lt_0_compat; lra. }
  assert (Pw : forall k, 0 < w k).
  { intros k. unfold w. apply Rplus_lt_0_compat; apply Rmult_lt_0_compat; try apply Pr; try apply Pq; apply Rmult_lt_0_compat; try lra; apply pow_lt; lra. }
  assert (W2 : forall k, wt f 2 k = - 1 / u k).
  { intros k. rewrite wt_step. cbv zeta. cbn [wt]. assert (D : f (k + 1)%nat - f k = - u k) by (unfold f, u; rewrite !pow_add; ring).
    rewrite D. destruct (Req_EM_T (- u k) 0) as [Z|Z]; [pose proof (Pu k); lra|]. field. pose proof (Pu k); lra. }
  pose (K := a * b * (1 - r) * (1 - q) * (q - r) ^ 2).
  assert (PK : 0 < K). { unfold K. repeat apply Rmult_lt_0_compat; try lra; apply pow_lt; lra. }
  assert (W3 : forall k, wt f 3 k = s + a * b * (q - r) ^ 2 * r ^ k * q ^ k / w k).
  { intros k. rewrite wt_step. cbv zeta. rewrite !W2. cbn [wt].
    assert (S1 : u (k + 1)%nat = u k - w k) by (unfold u, w; rewrite !pow_add; ring).
    assert (D : - 1 / u (k + 1)%nat - - 1 / u k = - w k / (u (k + 1)%nat * u k)).
    { pose proof (Pu k). pose proof (Pu (k + 1)%nat). rewrite S1 in *. field. lra. }
    rewrite D. pose proof (Pu k) as A1. pose proof (Pu (k + 1)%nat) as A2. pose proof (Pw k) as A3.
    destruct (Req_EM_T (- w k / (u (k + 1)%nat * u k)) 0) as [Z|Z].
    - exfalso. unfold Rdiv in Z. apply Rmult_integral in Z. destruct Z as [Z|Z]; [lra|].
      apply Rinv_neq_0_compat in Z; [exact Z|]. apply Rmult_integral_contrapositive; split; lra.
    - replace (1 / (- w k / (u (k + 1)%nat * u k))) with (- (u (k + 1)%nat * u k) / w k) by (field; lra).
      apply (Rmult_eq_reg_r (w k)); [|lra]. replace ((f (k + 1)%nat + - (u (k + 1)%nat * u k) / w k) * w k) with (f (k + 1)%nat * w k - u (k + 1)%nat * u k) by (field; lra).
      replace ((s + a * b * (q - r) ^ 2 * r ^ k * q ^ k / w k) * w k) with (s * w k + a * b * (q - r) ^ 2 * r ^ k * q ^ k) by (field; lra).
      unfold f, w, u. rewrite !pow_add. ring. }
  pose (L := a * b * (q - r) ^ 2). pose (c := (1 - r) * (1 - q)).
  assert (PL : 0 < L). { unfold L. repeat apply Rmult_lt_0_compat; try lra; apply pow_lt; lra. }
  assert (Pc : 0 < c) by (apply Rmult_lt_0_compat; lra).
  assert (W4 : forall k, wt f 4 k = - 1 / u (k + 1)%nat - w k * w (k + 1)%nat / (L * r ^ k * q ^ k * c * u (k + 1)%nat)).
  { intros k. rewrite wt_step. cbv zeta. rewrite W2, !W3. fold L.
    pose proof (Pu (k + 1)%nat) as A1. pose proof (Pw k) as A2. pose proof (Pw (k + 1)%nat) as A3. pose proof (Pr k) as A4. pose proof (Pq k) as A5.
    assert (D : s + L * r ^ (k + 1) * q ^ (k + 1) / w (k + 1)%nat - (s + L * r ^ k * q ^ k / w k)
      = - (L * r ^ k * q ^ k * c * u (k + 1)%nat) / (w k * w (k + 1)%nat)).
    { apply (Rmult_eq_reg_r (w k * w (k + 1)%nat)); [|apply Rmult_integral_contrapositive; split; lra].
      replace (- (L * r ^ k * q ^ k * c * u (k + 1)%nat) / (w k * w (k + 1)%nat) * (w k * w (k + 1)%nat)) with (- (L * r ^ k * q ^ k * c * u (k + 1)%nat)) by (field; lra).
      replace ((s + L * r ^ (k + 1) * q ^ (k + 1) / w (k + 1)%nat - (s + L * r ^ k * q ^ k / w k)) * (w k * w (k + 1)%nat))
        with (L * r ^ (k + 1) * q ^ (k + 1) * w k - L * r ^ k * q ^ k * w (k + 1)%nat) by (field; lra).
      unfold w, u, c. rewrite !pow_add. ring. }
    rewrite D. destruct (Req_EM_T (- (L * r ^ k * q ^ k * c * u (k + 1)%nat) / (w k * w (k + 1)%nat)) 0) as [Z|Z].
    - exfalso. unfold Rdiv in Z. apply Rmult_integral in Z. destruct Z as [Z|Z].
      + assert (0 < L * r ^ k * q ^ k * c * u (k + 1)%nat) by (clearbody L c; repeat apply Rmult_lt_0_compat; assumption). lra.
      + apply Rinv_neq_0_compat in Z; [exact Z|]. apply Rmult_integral_contrapositive; split; lra.
    - field. repeat split; lra. }
  rewrite wt_step. cbv zeta. rewrite !W4, W3. cbn [Nat.add]. fold L.
  pose proof (Pu 1%nat) as A1. pose proof (Pu 2%nat) as A2. pose proof (Pw 1%nat) as A3.
  assert (Prq : 0 < r * q) by (apply Rmult_lt_0_compat; lra).
  assert (D : - 1 / u 2%nat - w 1%nat * w 2%nat / (L * r ^ 1 * q ^ 1 * c * u 2%nat)
    - (- 1 / u 1%nat - w 0%nat * w 1%nat / (L * r ^ 0 * q ^ 0 * c * u 1%nat)) = - w 1%nat / (L * (r * q))).
  { rewrite !pow_1, !pow_O, !Rmult_1_r.
    apply (Rmult_eq_reg_r (u 1%nat * u 2%nat * (L * c * (r * q)))); [|repeat apply Rmult_integral_contrapositive_currified; lra].
    replace (- w 1%nat / (L * (r * q)) * (u 1%nat * u 2%nat * (L * c * (r * q)))) with (- w 1%nat * u 1%nat * u 2%nat * c) by (field; lra).
    replace ((- 1 / u 2%nat - w 1%nat * w 2%nat / (L * r * q * c * u 2%nat) - (- 1 / u 1%nat - w 0%nat * w 1%nat / (L * c * u 1%nat))) * (u 1%nat * u 2%nat * (L * c * (r * q))))
      with (- u 1%nat * (L * c * (r * q) + w 1%nat * w 2%nat) + u 2%nat * (L * c * (r * q) + r * q * w 0%nat * w 1%nat)) by (field; repeat split; lra).
    unfold L, c, u, w. ring. }
  rewrite D. destruct (Req_EM_T (- w 1%nat / (L * (r * q))) 0) as [Z|Z].
  - exfalso. unfold Rdiv in Z. apply Rmult_integral in Z. destruct Z as [Z|Z]; [lra|].
    apply Rinv_neq_0_compat in Z; [exact Z|]. apply Rmult_integral_contrapositive_currified; lra.
  - rewrite !pow_1. field. repeat split; lra.
Qed.

(** *** spatial_error *)
Lemma rsum_cauchy n f g : Rsqr (rsum n (fun k => f k * g k)) <= rsum n (fun k => Rsqr (f k)) * rsum n (fun k => Rsqr (g k)).
Proof.
  induction n as [|n IH]; cbn [rsum]; [unfold Rsqr; lra|].
  set (A := rsum n (fun k => Rsqr (f k))) in *. set (B := rsum n (fun k => Rsqr (g k))) in *. set (C := rsum n (fun k => f k * g k)) in *.
  assert (PA : 0 <= A) by (apply rsum_nonneg; intros; apply Rle_0_sqr). assert (PB : 0 <= B) by (apply rsum_nonneg; intros; apply Rle_0_sqr).
  set (x := f n). set (y := g n).
  assert (Q : 2 * C * x * y <= A * y * y + B * x * x).
  { assert (H : 0 <= A * y * y) by (rewrite Rmult_assoc; apply Rmult_le_pos; [exact PA|apply Rle_0_sqr]).
    assert (H' : 0 <= B * x * x) by (rewrite Rmult_assoc; apply Rmult_le_pos; [exact PB|apply Rle_0_sqr]).
    destruct (Rle_or_lt (2 * C * x * y) 0) as [N|N]; [lra|].
    apply Rsqr_incr_0_var; [|lra].
    assert (E : Rsqr (A * y * y + B * x * x) = Rsqr (A * y * y - B * x * x) + 4 * (A * B) * Rsqr (x * y)) by (unfold Rsqr; ring).
    rewrite E. replace (Rsqr (2 * C * x * y)) with (4 * Rsqr C * Rsqr (x * y)) by (unfold Rsqr; ring).
    pose proof (Rle_0_sqr (A * y * y - B * x * x)). pose proof (Rle_0_sqr (x * y)).
    assert (4 * Rsqr C * Rsqr (x * y) <= 4 * (A * B) * Rsqr (x * y)) by (apply Rmult_le_compat_r; lra). lra. }
  unfold Rsqr in *. nra.
Qed.

Lemma norm_triangle n f g : sqrt (rsum n (fun k => Rsqr (f k + g k))) <= sqrt (rsum n (fun k => Rsqr (f k))) + sqrt (rsum n (fun k => Rsqr (g k))).
Proof.
  set (A := rsum n (fun k => Rsqr (f k))). set (B := rsum n (fun k => Rsqr (g k))).
  assert (PA : 0 <= A) by (apply rsum_nonneg; intros; apply Rle_0_sqr). assert (PB : 0 <= B) by (apply rsum_nonneg; intros; apply Rle_0_sqr).
  pose proof (sqrt_pos A) as SA. pose proof (sqrt_pos B) as SB.
  assert (E : rsum n (fun k => Rsqr (f k + g k)) = A + B + 2 * rsum n (fun k => f k * g k)).
  { unfold A, B. rewrite <- rsum_scal, <- !rsum_plus. apply rsum_ext. intros. unfold Rsqr. ring. }
  rewrite E. rewrite <- (sqrt_Rsqr (sqrt A + sqrt B)) by lra. apply sqrt_le_1_alt.
  replace (Rsqr (sqrt A + sqrt B)) with (sqrt A * sqrt A + sqrt B * sqrt B + 2 * (sqrt A * sqrt B)) by (unfold Rsqr; ring).
  rewrite !sqrt_sqrt by assumption. rewrite <- sqrt_mult by assumption.
  assert (rsum n (fun k => f k * g k) <= sqrt (A * B)).
  { eapply Rle_trans; [apply Rle_abs|]. rewrite <- sqrt_Rsqr_abs. apply sqrt_le_1_alt. apply rsum_cauchy. }
  lra.
Qed.

Lemma spatial_error_run ds ndims m : counts_cells ds ndims m -> (0 < m)%nat -> forall a b,
  spatial_error ds ds a b ndims = Ok (/ sqrt (INR m) * sqrt (rsum (size_of ds) (fun k => Rsqr (a k - b k)))).
Proof.
  intros E H a b. unfold spatial_error, eqb_shape. destruct (list_eq_dec Nat.eq_dec ds ds) as [_|D]; [|now destruct D]. cbn [negb].
  destruct E as [d rest|d e rest]; cbn [Z.eqb Pos.eqb]; unfold root_inverse.
  - destruct (Nat.eqb_spec d 0); [lia|]. reflexivity.
  - destruct (Nat.eqb_spec (d * e) 0); [lia|]. reflexivity.
Qed.

Lemma spatial_error_distance ds ndims m : counts_cells ds ndims m -> (0 < m)%nat ->
  exists dist, (forall a b, spatial_error ds ds a b ndims = Ok (dist a b)) /\
    (forall a b, 0 <= dist a b /\ dist a b = dist b a) /\
    (forall a b, dist a b = 0 <-> forall k, (k < size_of ds)%nat -> a k = b k) /\
    (forall a b c, dist a c <= dist a b + dist b c) /\
    (forall a b e, 0 <= e -> size_of ds = m -> (forall k, (k < m)%nat -> Rabs (a k - b k) <= e) -> dist a b <= e) /\
    (forall a b e, size_of ds = m -> (forall k, (k < m)%nat -> Rabs (a k - b k) = e) -> dist a b = e).
Proof.
  intros E H. exists (fun a b => / sqrt (INR m) * sqrt (rsum (size_of ds) (fun k => Rsqr (a k - b k)))).
  assert (Pm : 0 < INR m) by (apply lt_0_INR; exact H).
  assert (Ps : 0 < sqrt (INR m)) by (now apply sqrt_lt_R0). assert (Pi : 0 < / sqrt (INR m)) by (now apply Rinv_0_lt_compat).
  split; [intros; now apply spatial_error_run|]. split; [|split; [|split; [|split]]].
  - intros a b. split; [apply Rmult_le_pos; [lra|apply sqrt_pos]|]. do 2 f_equal. apply rsum_ext. intros. unfold Rsqr. ring.
  - intros a b. assert (NN : 0 <= rsum (size_of ds) (fun k => Rsqr (a k - b k))) by (apply rsum_nonneg; intros; apply Rle_0_sqr). split.
    + intros Z k Hk. apply Rmult_integral in Z. destruct Z as [Z|Z]; [lra|]. apply sqrt_eq_0 in Z; [|exact NN].
      apply (rsum_nonneg_zero (size_of ds) (fun k => Rsqr (a k - b k))) with (i := k) in Z; [|intros; apply Rle_0_sqr|exact Hk].
      apply Rsqr_eq_0 in Z. lra.
    + intros A. rewrite rsum_zero_ext; [rewrite sqrt_0; ring|]. intros k Hk. rewrite A by exact Hk. unfold Rsqr. ring.
  - intros a b c. rewrite <- Rmult_plus_distr_l. apply Rmult_le_compat_l; [lra|].
    eapply Rle_trans; [|apply norm_triangle]. apply Req_le. f_equal. apply rsum_ext. intros. f_equal. ring.
  - intros a b e He Em A. rewrite Em.
    apply Rle_trans with (/ sqrt (INR m) * sqrt (INR m * Rsqr e)).
    + apply Rmult_le_compat_l; [lra|]. apply sqrt_le_1_alt. rewrite <- rsum_const. apply rsum_le. intros k Hk.
      apply Rsqr_le_abs_1. rewrite (Rabs_right e) by lra. now apply A.
    + rewrite sqrt_mult by (try apply Rle_0_sqr; lra). rewrite sqrt_Rsqr by exact He. right. field. lra.
  - intros a b e Em A. rewrite Em. rewrite (rsum_ext m _ (fun _ => Rsqr e)).
    + rewrite rsum_const. assert (He : 0 <= e) by (rewrite <- (A 0%nat H); apply Rabs_pos).
      rewrite sqrt_mult by (try apply Rle_0_sqr; lra). rewrite sqrt_Rsqr by exact He. field. lra.
    + intros k Hk. rewrite <- (A k Hk). apply Rsqr_abs.
Qed.

Lemma spatial_error_errors ds dr a b ndims :
  (ds <> dr -> spatial_error ds dr a b ndims = Raise AssertionError) /\
  (ds = dr -> counts_cells ds ndims 0 -> spatial_error ds dr a b ndims = Raise ZeroDivisionError) /\
  (ds = dr -> ndims <> 1%Z -> ndims <> 2%Z -> spatial_error ds dr a b ndims = Raise UnboundLocalError).
Proof.
  unfold spatial_error, eqb_shape. split; [|split].
  - intros D. destruct (list_eq_dec Nat.eq_dec ds dr); [contradiction|reflexivity].
  - intros -> C. destruct (list_eq_dec Nat.eq_dec dr dr) as [_|D]; [|now destruct D]. cbn [negb].
    remember 0%nat as z eqn:Ez. destruct C as [d rest|d e rest]; cbn [Z.eqb Pos.eqb]; unfold root_inverse; rewrite Ez; reflexivity.
  - intros -> N1 N2. destruct (list_eq_dec Nat.eq_dec dr dr) as [_|D]; [|now destruct D]. cbn [negb].
    destruct (Z.eqb_spec ndims 1); [contradiction|]. destruct (Z.eqb_spec ndims 2); [contradiction|]. reflexivity.
Qed.

(** The same with the number of entries written as the product of the axis lengths. *)
Lemma size_of_product ds : size_of ds = fold_right Nat.mul 1%nat ds.
Proof. induction ds as [|d ds IH]; [reflexivity|]. cbn [size_of fold_right]. now rewrite IH. Qed.
Lemma spatial_error_distance_shape ds ndims m : counts_cells ds ndims m -> (0 < m)%nat ->
  exists dist, (forall a b, spatial_error ds ds a b ndims = Ok (dist a b)) /\
    (forall a b, 0 <= dist a b /\ dist a b = dist b a) /\
    (forall a b, dist a b = 0 <-> forall k, (k < fold_right Nat.mul 1%nat ds)%nat -> a k = b k) /\
    (forall a b c, dist a c <= dist a b + dist b c) /\
    (forall a b e, 0 <= e -> fold_right Nat.mul 1%nat ds = m -> (forall k, (k < m)%nat -> Rabs (a k - b k) <= e) -> dist a b <= e) /\
    (forall a b e, fold_right Nat.mul 1%nat ds = m -> (forall k, (k < m)%nat -> Rabs (a k - b k) = e) -> dist a b = e).
Proof. intros C Hm. rewrite <- size_of_product. now apply spatial_error_distance. Qed.
Lemma spatial_error_axes ds dr a b ndims : ds = dr -> (ndims = 1%Z /\ ds = []) \/ (ndims = 2%Z /\ (length ds < 2)%nat) ->
  spatial_error ds dr a b ndims = Raise IndexError.
Proof.
  intros -> H. unfold spatial_error, eqb_shape. destruct (list_eq_dec Nat.eq_dec dr dr) as [_|D]; [|now destruct D]. cbn [negb].
  destruct H as [[-> ->]|[-> H]]; [reflexivity|]. destruct dr as [|d [|e dr]]; [reflexivity|reflexivity|cbn in H; lia].
Qed.
