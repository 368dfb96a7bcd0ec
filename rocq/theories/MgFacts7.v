(** A linear problem with at most one solution has one. *)
From Coq Require Import Lra Lia Psatz.
From Verif Require Import Base BaseFacts Contraction SlabModel SlabSpec SlabFacts SlabFacts2 SlabFacts3 SlabFacts4.
From Verif Require Import MgModel MgSpec MgFacts MgFacts2 MgFacts3.
Open Scope R_scope.

Definition rows (n : nat) (A : mat2) (x : vec) (i : nat) : R := rsum n (fun j => A i j * x j).
Lemma column_pivot n (A : mat2) k : (exists r, (r < k)%nat /\ A r n <> 0) \/ (forall i, (i < k)%nat -> A i n = 0).
Proof.
  induction k as [|k IH]; [right; intros; lia|]. destruct IH as [(r & Hr & H)|H]; [left; exists r; split; [lia|exact H]|].
  destruct (Req_dec (A k n) 0) as [Z|Z]; [right|left; exists k; split; [lia|exact Z]].
  intros i Hi. destruct (Nat.eq_dec i k) as [-> |]; [exact Z|apply H; lia].
Qed.
Lemma injective_surjective n : forall A : mat2,
  (forall x, (forall i, (i < n)%nat -> rows n A x i = 0) -> forall i, (i < n)%nat -> x i = 0) ->
  forall b, exists x, forall i, (i < n)%nat -> rows n A x i = b i.
Proof.
  induction n as [|n IH]; intros A Inj b; [exists (fun _ => 0); intros; lia|].
  destruct (column_pivot n A (S n)) as [(r & Hr & Hp)|Z].
  2:{ exfalso. enough (1 = 0) by lra.
      specialize (Inj (fun j => if Nat.eqb j n then 1 else 0)). cbv beta in Inj. specialize (Inj ltac:(
        intros i Hi; unfold rows; apply rsum_zero_ext; intros j Hj; destruct (Nat.eqb_spec j n) as [-> |]; [rewrite Z by exact Hi|]; ring) n ltac:(lia)).
      rewrite Nat.eqb_refl in Inj. exact Inj. }
  set (sg := fun i => if Nat.eqb i r then n else i).
  set (B := fun i j => A (sg i) j - A (sg i) n / A r n * A r j).
  assert (Hsg : forall i, (i < n)%nat -> (sg i < S n)%nat) by (intros i Hi; unfold sg; destruct (Nat.eqb i r); lia).
  assert (Cov : forall i, (i < S n)%nat -> i <> r -> exists j, (j < n)%nat /\ sg j = i).
  { intros i Hi Hne. destruct (Nat.eq_dec i n) as [-> |].
    - exists r. split; [lia|]. unfold sg. rewrite Nat.eqb_refl. reflexivity.
    - exists i. split; [lia|]. unfold sg. destruct (Nat.eqb_spec i r); [lia|reflexivity]. }
  (* extending a vector so that row r gives [v] *)
  set (ext := fun (v : R) (y : vec) j => if Nat.eqb j n then (v - rsum n (fun k => A r k * y k)) / A r n else y j).
  assert (Hlow : forall v y i, rsum n (fun j => A i j * ext v y j) = rsum n (fun j => A i j * y j)).
  { intros v y i. apply rsum_ext. intros j Hj. unfold ext. destruct (Nat.eqb_spec j n); [lia|reflexivity]. }
  assert (Htop : forall v y, ext v y n = (v - rsum n (fun k => A r k * y k)) / A r n) by (intros; unfold ext; rewrite Nat.eqb_refl; reflexivity).
  assert (Hr0 : forall v y, rows (S n) A (ext v y) r = v).
  { intros v y. unfold rows. cbn [rsum]. rewrite Hlow, Htop. field. exact Hp. }
  assert (HB : forall v y i, (i < n)%nat -> rows (S n) A (ext v y) (sg i) = rows n B y i + A (sg i) n / A r n * v).
  { intros v y i Hi. unfold rows. cbn [rsum]. rewrite Hlow, Htop. unfold B.
    rewrite (rsum_ext n (fun j => (A (sg i) j - A (sg i) n / A r n * A r j) * y j) (fun j => A (sg i) j * y j - A (sg i) n / A r n * (A r j * y j))) by (intros; ring).
    rewrite rsum_minus, rsum_scal. field. exact Hp. }
  destruct (IH B) with (b := fun i => b (sg i) - A (sg i) n / A r n * b r) as (y & Hy).
  - intros y Hy i Hi.
    assert (K : forall j, (j < S n)%nat -> ext 0 y j = 0).
    { apply Inj. intros j Hj. destruct (Nat.eq_dec j r) as [-> |Hne]; [apply Hr0|].
      destruct (Cov j Hj Hne) as (k & Hk & <-). rewrite HB, Hy by exact Hk. ring. }
    specialize (K i ltac:(lia)). unfold ext in K. destruct (Nat.eqb_spec i n); [lia|exact K].
  - exists (ext (b r) y). intros i Hi. destruct (Nat.eq_dec i r) as [-> |Hne]; [apply Hr0|].
    destruct (Cov i Hi Hne) as (k & Hk & <-). rewrite HB, Hy by exact Hk. ring.
Qed.

(** A linear operator on the first [n] entries, given as a function. *)
Section Operator.
Variables (n : nat) (L : vec -> vec).
Hypothesis Lext : forall x y, (forall i, (i < n)%nat -> x i = y i) -> forall i, (i < n)%nat -> L x i = L y i.
Hypothesis Llin : forall a b x y i, (i < n)%nat -> L (fun k => a * x k + b * y k) i = a * L x i + b * L y i.
Lemma operator_matrix x k : (k <= n)%nat -> forall i, (i < n)%nat ->
  L (fun j => if Nat.ltb j k then x j else 0) i = rsum k (fun j => L (fun l => if Nat.eqb l j then 1 else 0) i * x j).
Proof.
  induction k as [|k IH]; intros Hk i Hi.
  - cbn [rsum]. rewrite (Lext _ (fun k => 0 * x k + 0 * x k)) by (try exact Hi; intros; cbn; ring). rewrite Llin by exact Hi. ring.
  - cbn [rsum]. rewrite <- IH by (lia || assumption).
    rewrite (Lext _ (fun l => 1 * (if Nat.ltb l k then x l else 0) + x k * (if Nat.eqb l k then 1 else 0))); [rewrite Llin by exact Hi; ring| |exact Hi].
    intros j Hj. destruct (Nat.ltb_spec j (S k)), (Nat.ltb_spec j k), (Nat.eqb_spec j k); try lia; subst; ring.
Qed.
Lemma operator_surjective :
  (forall x, (forall i, (i < n)%nat -> L x i = 0) -> forall i, (i < n)%nat -> x i = 0) ->
  forall b, exists x, forall i, (i < n)%nat -> L x i = b i.
Proof.
  intros Inj b.
  assert (M : forall x i, (i < n)%nat -> L x i = rows n (fun i j => L (fun l => if Nat.eqb l j then 1 else 0) i) x i).
  { intros x i Hi. unfold rows. rewrite <- (operator_matrix x n (le_n n) i Hi). apply Lext; [|exact Hi].
    intros j Hj. rewrite (proj2 (Nat.ltb_lt j n) Hj). reflexivity. }
  destruct (injective_surjective n (fun i j => L (fun l => if Nat.eqb l j then 1 else 0) i)) with (b := b) as (x & Hx).
  - intros x H. apply Inj. intros i Hi. rewrite M by exact Hi. apply H; exact Hi.
  - exists x. intros i Hi. rewrite M by exact Hi. apply Hx; exact Hi.
Qed.
End Operator.

(** *** the multigroup problem *)
Lemma pass_flux_linear P q1 q2 s b1 b2 c d i : (i < cells P)%nat ->
  pass_flux P (fun m i => c * q1 m i + d * q2 m i) s (fun m => c * b1 m + d * b2 m) 0 (angles P) i
  = c * pass_flux P q1 s b1 0 (angles P) i + d * pass_flux P q2 s b2 0 (angles P) i.
Proof.
  intros Hi. rewrite !pass_flux_center by exact Hi. rewrite <- !rsum_scal, <- rsum_plus. apply rsum_ext. intros m Hm.
  rewrite !Psi_linear. lra.
Qed.
Lemma pass_flux_at P q q' s b b' i : (i < cells P)%nat ->
  (forall m j, (m < angles P)%nat -> (j < cells P)%nat -> q m j = q' m j) -> (forall m, (m < angles P)%nat -> b m = b' m) ->
  pass_flux P q s b 0 (angles P) i = pass_flux P q' s b' 0 (angles P) i.
Proof. intros Hi H Hb. rewrite (pass_flux_ext P q q' s b b' 0 H Hb). reflexivity. Qed.

Definition silent : arr3 := mkArr3 1 1 (fun _ _ _ => 0).
Lemma jac_affine P groups xs_total xs_scatter external boundary : (0 < groups)%nat ->
  forall v k, (k < cells P * groups)%nat ->
  jac P groups xs_total xs_scatter external boundary v k
  = jac P groups xs_total xs_scatter external boundary (fun _ => 0) k + jac P groups xs_total xs_scatter silent silent v k.
Proof.
  intros Hg v k Hk. unfold jac.
  assert (Hg1 : (k mod groups < groups)%nat) by (apply Nat.mod_upper_bound; lia).
  assert (Hi1 : (k / groups < cells P)%nat) by (apply Nat.div_lt_upper_bound; lia).
  set (g := (k mod groups)%nat) in *. set (i := (k / groups)%nat) in *.
  rewrite <- (Rmult_1_l (pass_flux P (mg_source _ _ _ external (fun _ _ => 0) g) _ _ _ _ _)), <- (Rmult_1_l (pass_flux P (mg_source _ _ _ silent _ g) _ _ _ _ _)).
  rewrite <- pass_flux_linear by exact Hi1. apply pass_flux_at; [exact Hi1| |].
  - intros m j Hm Hj. unfold mg_source, silent; cbn [at3]. rewrite (rsum_zero_ext groups (fun h => xs_scatter (medium P j) g h * 0)) by (intros; ring). ring.
  - intros m Hm. unfold mg_boundary, silent; cbn [at3]. ring.
Qed.
Lemma jac_linear P groups xs_total xs_scatter : (0 < groups)%nat ->
  forall a b v w k, (k < cells P * groups)%nat ->
  jac P groups xs_total xs_scatter silent silent (fun j => a * v j + b * w j) k
  = a * jac P groups xs_total xs_scatter silent silent v k + b * jac P groups xs_total xs_scatter silent silent w k.
Proof.
  intros Hg a b v w k Hk. unfold jac.
  assert (Hi1 : (k / groups < cells P)%nat) by (apply Nat.div_lt_upper_bound; lia).
  rewrite <- pass_flux_linear by exact Hi1. apply pass_flux_at; [exact Hi1| |].
  - intros m j Hm Hj. unfold mg_source, silent; cbn [at3]. rewrite !Rplus_0_r, <- !rsum_scal, <- rsum_plus. apply rsum_ext; intros; ring.
  - intros m Hm. unfold mg_boundary, silent; cbn [at3]. ring.
Qed.
Lemma jac_ext P groups xs_total xs_scatter external boundary : (0 < groups)%nat ->
  forall v w, (forall k, (k < cells P * groups)%nat -> v k = w k) -> forall k, (k < cells P * groups)%nat ->
  jac P groups xs_total xs_scatter external boundary v k = jac P groups xs_total xs_scatter external boundary w k.
Proof.
  intros Hg v w H k Hk. unfold jac.
  assert (Hi1 : (k / groups < cells P)%nat) by (apply Nat.div_lt_upper_bound; lia).
  apply pass_flux_at; [exact Hi1| |reflexivity].
  intros m j Hm Hj. unfold mg_source. f_equal. apply rsum_ext. intros h Hh. rewrite H; [reflexivity|]. nia.
Qed.

Lemma fredholm P groups xs_total xs_scatter : nonzero_ordinates (angles P) (mu P) -> mg_divisors P groups xs_total ->
  (forall phi, mg_solution P groups xs_total xs_scatter silent silent phi -> agree2 (cells P) groups phi (fun _ _ => 0)) ->
  forall external boundary, exists sol, mg_solution P groups xs_total xs_scatter external boundary sol.
Proof.
  intros Hnz Hd Inj external boundary.
  destruct (Nat.eq_dec groups 0) as [-> |Hg0]; [exists zeros2, (fun _ _ _ => 0); intros g Hg; lia|].
  assert (Hg : (0 < groups)%nat) by lia.
  destruct (operator_surjective (cells P * groups) (fun v k => v k - jac P groups xs_total xs_scatter silent silent v k)) with
    (b := jac P groups xs_total xs_scatter external boundary (fun _ => 0)) as (v & Hv).
  - intros x y H k Hk. rewrite (H k Hk). f_equal. apply jac_ext; assumption.
  - intros a b x y k Hk. rewrite jac_linear by assumption. ring.
  - intros x H. assert (S : mg_solution P groups xs_total xs_scatter silent silent (fun i h => x (i * groups + h)%nat)).
    { apply jac_fixed_solution; try assumption. intros k Hk. specialize (H k Hk). lra. }
    intros k Hk. specialize (Inj _ S (k / groups)%nat (k mod groups)%nat ltac:(apply Nat.div_lt_upper_bound; lia) ltac:(apply Nat.mod_upper_bound; lia)).
    cbv beta in Inj. rewrite <- Inj. f_equal. rewrite Nat.mul_comm. apply Nat.div_mod. lia.
  - exists (fun i h => v (i * groups + h)%nat). apply jac_fixed_solution; try assumption.
    intros k Hk. rewrite jac_affine by assumption. specialize (Hv k Hk). lra.
Qed.

(** the silent problem *)
Lemma reflected_zero n A mu bl br m : reflected_in n A mu bl br (fun _ _ => 0) m = 0.
Proof. unfold reflected_in. destruct (_ && _)%bool; reflexivity. Qed.
Lemma zero_solution P G xs_total xs_scatter : mg_solution P G xs_total xs_scatter silent silent (fun _ _ => 0).
Proof.
  exists (fun _ _ _ => 0). intros g Hg. split; [|split].
  - intros m Hm i Hi. unfold mg_source, silent; cbn [at3]. rewrite (rsum_zero_ext G) by (intros; ring). unfold Rdiv. ring.
  - intros m Hm. rewrite reflected_zero. unfold mg_boundary, silent; cbn [at3]. ring.
  - intros i Hi. symmetry. apply rsum_zero_ext. intros. lra.
Qed.
