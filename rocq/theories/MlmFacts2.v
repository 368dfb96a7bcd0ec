(** Proofs about data preparation (C71, C72), splits, names (C104, C105) and the prediction wrappers (C106). *)
From Coq Require Import Reals Lra Lia List Bool String Permutation.
From Verif Require Import Base BaseFacts MlfModel MlfFacts MlfFacts2 MltModel MltSpec MltFacts2 MlmModel MlmSpec.
Local Open Scope R_scope.

(** *** C71 *)
Lemma one_sample_in iterations cells groups flux xs_matrix medium_map labels s :
  In s (all_samples iterations cells groups flux xs_matrix medium_map labels) <->
  exists cc ii, (cc < iterations)%nat /\ (ii < cells)%nat /\ s = one_sample groups flux xs_matrix medium_map labels cc ii.
Proof.
  unfold all_samples. rewrite in_flat_map. split.
  - intros (cc & Hc & Hs). apply in_map_iff in Hs. destruct Hs as (ii & <- & Hi). apply in_seq in Hc. apply in_seq in Hi. exists cc, ii. repeat split; lia.
  - intros (cc & ii & Hc & Hi & ->). exists cc. split; [apply in_seq; lia|]. apply in_map. apply in_seq. lia.
Qed.
(** Every kept sample carries its cell's label, its flux and the reaction rates of that flux. *)
Lemma combine_rows (iterations cells groups : nat) (flux xs_matrix : mat3) (medium_map : nat -> nat) (labels : vec) (s : sample) :
  In s (combine_flux_reaction iterations cells groups flux xs_matrix medium_map labels) ->
  exists cc ii, (cc < iterations)%nat /\ (ii < cells)%nat /\ label s = labels ii /\ (forall g, inputs s g = flux cc ii g) /\
    forall g, targets s g = rsum groups (fun h => flux cc ii h * xs_matrix (medium_map ii) g h).
Proof.
  intros H. apply filter_In in H. destruct H as (H & _). apply one_sample_in in H. destruct H as (cc & ii & Hc & Hi & ->). exists cc, ii. cbn [label inputs targets one_sample]. auto.
Qed.
(** Samples without flux never survive. *)
Lemma empty_dropped (iterations cells groups : nat) (flux xs_matrix : mat3) (medium_map : nat -> nat) (labels : vec) (s : sample) :
  In s (combine_flux_reaction iterations cells groups flux xs_matrix medium_map labels) -> ~ no_flux groups s.
Proof.
  intros H Hz. pose proof H as H0. apply filter_In in H0. destruct H0 as (_ & K). destruct (combine_rows _ _ _ _ _ _ _ _ H) as (cc & ii & _ & _ & _ & Hin & Ht).
  unfold keeps in K. destruct Req_EM_T as [|N]; [discriminate|]. apply N. rewrite rsum_zero_ext by exact Hz. rewrite rsum_zero_ext; [lra|]. intros g Hg. rewrite Ht. apply rsum_zero_ext. intros h Hh.
  rewrite <- Hin, (Hz h Hh). ring.
Qed.
(** With non-negative fluxes and cross sections nothing else is dropped, and the order is kept. *)
Lemma combine_exact (iterations cells groups : nat) (flux xs_matrix : mat3) (medium_map : nat -> nat) (labels : vec) :
  (forall cc ii g, 0 <= flux cc ii g) -> (forall m g h, 0 <= xs_matrix m g h) ->
  forall cc ii, (cc < iterations)%nat -> (ii < cells)%nat ->
    let s := one_sample groups flux xs_matrix medium_map labels cc ii in
    no_flux groups s \/ In s (combine_flux_reaction iterations cells groups flux xs_matrix medium_map labels).
Proof.
  intros Hf Hx cc ii Hc Hi s. destruct (keeps groups s) eqn:K.
  - right. apply filter_In. split; [|exact K]. apply one_sample_in. exists cc, ii. auto.
  - left. unfold keeps in K. destruct Req_EM_T as [E|]; [|discriminate]. intros g Hg.
    assert (A : 0 <= rsum groups (inputs s)) by (apply rsum_nonneg; intros; apply Hf).
    assert (B : 0 <= rsum groups (targets s)). { apply rsum_nonneg. intros. apply rsum_nonneg. intros. apply Rmult_le_pos; [apply Hf|apply Hx]. }
    apply (rsum_nonneg_zero groups (inputs s)); [intros; apply Hf|lra|exact Hg].
Qed.
Lemma combine_order (iterations cells groups : nat) (flux xs_matrix : mat3) (medium_map : nat -> nat) (labels : vec) :
  combine_flux_reaction iterations cells groups flux xs_matrix medium_map labels =
  filter (keeps groups) (map (fun k => one_sample groups flux xs_matrix medium_map labels (k / cells) (k mod cells)) (seq 0 (iterations * cells))).
Proof.
  unfold combine_flux_reaction. f_equal. unfold all_samples. destruct (Nat.eq_dec cells 0) as [-> |Hc].
  { rewrite Nat.mul_0_r. cbn. induction (seq 0 iterations); cbn; auto. }
  induction iterations as [|it IH]; [reflexivity|]. rewrite seq_S, flat_map_app, IH. cbn [flat_map]. rewrite app_nil_r. cbn [Nat.mul]. rewrite (Nat.add_comm cells), seq_app, map_app. f_equal.
  cbn [Nat.add]. rewrite <- (Nat.add_0_r (it * cells)) at 1. rewrite (Nat.add_0_r (it * cells)). clear IH.
  assert (G : forall s m, (s + m <= cells)%nat -> map (one_sample groups flux xs_matrix medium_map labels it) (seq s m) =
     map (fun k => one_sample groups flux xs_matrix medium_map labels (k / cells) (k mod cells)) (seq (it * cells + s) m)).
  { intros s m. revert s. induction m as [|m IHm]; intros s Hs; [reflexivity|]. cbn [seq map]. replace (S (it * cells + s)) with (it * cells + S s)%nat by lia. rewrite <- IHm by lia. f_equal.
    rewrite (Nat.add_comm (it * cells)), Nat.div_add, Nat.mod_add by exact Hc. rewrite Nat.div_small, Nat.mod_small by lia. reflexivity. }
  rewrite (G 0%nat cells) by lia. now rewrite Nat.add_0_r.
Qed.
(** Signed data: a sample with flux is dropped because its entries cancel. *)
Lemma signed_dropped : exists (flux xs_matrix : mat3) (medium_map : nat -> nat) (labels : vec),
  combine_flux_reaction 1 1 2 flux xs_matrix medium_map labels = [] /\ ~ no_flux 2 (one_sample 2 flux xs_matrix medium_map labels 0 0).
Proof.
  exists (fun _ _ g => match g with 0%nat => 1 | _ => -1 end), (fun _ _ _ => 0), (fun _ => 0%nat), (fun _ => 0). split.
  - unfold combine_flux_reaction, all_samples. cbn [seq flat_map map app filter]. unfold keeps. destruct Req_EM_T as [|N]; [reflexivity|]. exfalso. apply N. cbn [rsum inputs targets one_sample]. lra.
  - intros H. specialize (H 0%nat ltac:(lia)). cbn in H. lra.
Qed.

(** *** C72 *)
Lemma isin_spec x l : isin x l = true <-> In x l.
Proof.
  unfold isin. rewrite existsb_exists. split.
  - intros (y & Hy & E). destruct Req_EM_T; [subst; exact Hy|discriminate].
  - intros H. exists x. split; [exact H|]. destruct Req_EM_T; congruence.
Qed.
Section Split.
Context {A : Type} (label_of : A -> R).
Notation part rows s := (filter (fun a => isin (label_of a) (snd s)) rows).
Lemma filter_or_permutation (p q : A -> bool) l : (forall a, p a = true -> q a = true -> False) ->
  Permutation (filter (fun a => p a || q a) l) (filter p l ++ filter q l).
Proof.
  intros H. induction l as [|a l IH]; [constructor|]. cbn [filter]. destruct (p a) eqn:P, (q a) eqn:Q; cbn [orb app].
  - exfalso. eauto.
  - now constructor.
  - apply Permutation_cons_app. exact IH.
  - exact IH.
Qed.
Lemma parts_permutation splits rows : disjoint_labels splits ->
  Permutation (flat_map (fun s => part rows s) splits) (filter (fun a => existsb (fun s => isin (label_of a) (snd s)) splits) rows).
Proof.
  induction 1 as [|s splits Hs _ IH]; cbn [flat_map existsb].
  - induction rows as [|a rows IHr]; [constructor|exact IHr].
  - rewrite IH. symmetry. apply filter_or_permutation. intros a H1 H2. apply isin_spec in H1. apply existsb_exists in H2. destruct H2 as (t & Ht & H2). apply isin_spec in H2.
    rewrite Forall_forall in Hs. exact (Hs t Ht _ H1 H2).
Qed.
Lemma split_loop_spec rows splits : forall counts files, split_loop label_of rows splits counts files =
  ((counts + List.length (flat_map (fun s => part rows s) splits))%nat,
   rev (flat_map (fun s => match part rows s with [] => [] | l => [(fst s, l)] end) splits) ++ files)%list.
Proof.
  induction splits as [|[name labels] splits IH]; intros counts files; cbn [split_loop flat_map]; [cbn [List.length rev app]; rewrite Nat.add_0_r; reflexivity|].
  cbn [fst snd]. destruct (filter (fun a => isin (label_of a) labels) rows) as [|a l] eqn:E; rewrite IH.
  - reflexivity.
  - rewrite app_length. cbn [app rev]. rewrite <- app_assoc. cbn [app]. f_equal. lia.
Qed.
Lemma filter_full (p : A -> bool) l : List.length (filter p l) = List.length l <-> forall a, In a l -> p a = true.
Proof.
  induction l as [|a l IH]; cbn [filter List.length In]; [split; [intros _ ? []|reflexivity]|]. destruct (p a) eqn:P; cbn [List.length].
  - split.
    + intros H b [<- |Hb]; [exact P|]. apply IH; [lia|exact Hb].
    + intros H. f_equal. apply IH. auto.
  - split.
    + intros H. exfalso. assert (L : (List.length (filter p l) <= List.length l)%nat). { clear. induction l as [|a l IH]; cbn; [lia|]. destruct (p a); cbn; lia. } lia.
    + intros H. rewrite H in P; [discriminate|auto].
Qed.
Definition wrote (rows : list A) (splits : list (string * list R)) := flat_map (fun s => match part rows s with [] => [] | l => [(fst s, l)] end) splits.
Lemma wrote_names rows splits name : In name (map fst (wrote rows splits)) -> In name (map fst splits).
Proof.
  unfold wrote. rewrite !in_map_iff. intros (f & E & H). apply in_flat_map in H. destruct H as (s & Hs & H). exists s. split; [|exact Hs]. destruct (part rows s); [destruct H|]. destruct H as [<- |[]]. exact E.
Qed.
Lemma wrote_nodup rows splits : distinct_names splits -> NoDup (map fst (wrote rows splits)).
Proof.
  unfold distinct_names. induction splits as [|s splits IH]; [constructor|]. cbn [map]. intros H. inversion H as [|? ? Hs Hr]; subst. unfold wrote. cbn [flat_map].
  destruct (part rows s); [apply IH; exact Hr|]. cbn [app map fst]. constructor; [|apply IH; exact Hr]. intros C. apply Hs. eapply wrote_names. exact C.
Qed.
Lemma contents_unique (files : list (string * list A)) name l : NoDup (map fst files) -> In (name, l) files -> contents files name = Some l.
Proof.
  unfold contents. induction files as [|f files IH]; [intros _ []|]. cbn [map find]. intros H Hi. inversion H as [|? ? Hf Hr]; subst. destruct Hi as [-> |Hi].
  - cbn [fst]. rewrite String.eqb_refl. reflexivity.
  - destruct (String.eqb_spec (fst f) name) as [E|_]; [|now apply IH]. exfalso. apply Hf. rewrite E. apply in_map_iff. exists (name, l). auto.
Qed.
Lemma contents_none (files : list (string * list A)) name : ~ In name (map fst files) -> contents files name = None.
Proof.
  unfold contents. induction files as [|f files IH]; [reflexivity|]. cbn [map find]. intros H. destruct (String.eqb_spec (fst f) name) as [E|_]; [exfalso; apply H; left; exact E|]. apply IH. intros C. apply H. now right.
Qed.
End Split.

(** With disjoint labels and distinct names: every file holds exactly the rows of its labels, in order; the call
    succeeds exactly when every row has a split; then the files together hold every row exactly once. *)
Lemma material_split_exact (A : Type) (label_of : A -> R) (rows : list A) (splits : list (string * list R)) :
  disjoint_labels splits -> distinct_names splits ->
  let (files, outcome) := split_by_material label_of rows splits in
  (forall s, In s splits -> contents files (fst s) =
     match filter (fun a => isin (label_of a) (snd s)) rows with [] => None | l => Some l end) /\
  (outcome = Ok tt <-> forall a, In a rows -> covered splits (label_of a)) /\
  (outcome = Ok tt -> Permutation (flat_map snd files) rows /\ NoDup (map fst files)).
Proof.
  intros Hd Hn. unfold split_by_material. rewrite split_loop_spec. rewrite app_nil_r. cbn [Nat.add]. fold (wrote label_of rows splits).
  pose proof (parts_permutation label_of splits rows Hd) as P. pose proof (Permutation_length P) as PL.
  assert (Hnd : NoDup (map fst (rev (wrote label_of rows splits)))) by (rewrite map_rev; apply NoDup_rev; now apply wrote_nodup).
  assert (Hout : (if Nat.eqb (List.length (flat_map (fun s => filter (fun a => isin (label_of a) (snd s)) rows) splits)) (List.length rows) then Ok tt else Raise AssertionError) = Ok tt <-> forall a, In a rows -> covered splits (label_of a)).
  { assert (E : List.length (flat_map (fun s => filter (fun a => isin (label_of a) (snd s)) rows) splits) = List.length rows <-> forall a, In a rows -> covered splits (label_of a)).
    { rewrite PL, filter_full. split; intros H a Ha; specialize (H a Ha).
      - apply existsb_exists in H. destruct H as (s & Hs & H). apply isin_spec in H. exists s. auto.
      - destruct H as (s & Hs & H). apply existsb_exists. exists s. split; [exact Hs|]. now apply isin_spec. }
    destruct (Nat.eqb_spec (List.length (flat_map (fun s => filter (fun a => isin (label_of a) (snd s)) rows) splits)) (List.length rows)) as [e|ne]; [split; [intros _; apply E; exact e|reflexivity]|split; [discriminate|intros H; exfalso; apply ne; apply E; exact H]]. }
  split; [|split; [exact Hout|]].
  - intros s Hs. destruct (filter (fun a => isin (label_of a) (snd s)) rows) as [|a l] eqn:E.
    + apply contents_none. intros C. rewrite map_rev in C. apply in_rev in C. apply in_map_iff in C. destruct C as (f & Ef & Hf). apply in_flat_map in Hf. destruct Hf as (t & Ht & Hf).
      assert (t = s); [|subst t; rewrite E in Hf; destruct Hf]. assert (Hst : fst t = fst s). { destruct (filter (fun a => isin (label_of a) (snd t)) rows); [destruct Hf|]. destruct Hf as [<- |[]]. exact Ef. }
      clear - Hn Hs Ht Hst. unfold distinct_names in Hn. revert Hs Ht. induction splits as [|u splits IH]; [intros []|]. cbn [map] in Hn. inversion Hn as [|? ? Hu Hr]; subst. intros [-> |Hs] [-> |Ht]; auto; exfalso; apply Hu; [rewrite <- Hst|rewrite Hst]; now apply in_map.
    + apply contents_unique; [exact Hnd|]. rewrite <- in_rev. apply in_flat_map. exists s. split; [exact Hs|]. rewrite E. now left.
  - intros Ho. split; [|exact Hnd]. pose proof (proj1 Hout Ho) as Hc. clear Ho. rename Hc into Ho.
    assert (Eq : Permutation (flat_map snd (rev (wrote label_of rows splits))) (flat_map (fun s => filter (fun a => isin (label_of a) (snd s)) rows) splits)).
    { assert (Er : flat_map snd (wrote label_of rows splits) = flat_map (fun s => filter (fun a => isin (label_of a) (snd s)) rows) splits).
      { unfold wrote. clear. induction splits as [|s splits IH]; [reflexivity|]. cbn [flat_map]. rewrite flat_map_app, IH. f_equal. destruct (filter _ rows); [reflexivity|]. cbn. now rewrite app_nil_r. }
      rewrite <- Er. apply Permutation_flat_map. symmetry. apply Permutation_rev. }
    rewrite Eq, P. rewrite <- filter_ext_in with (f := fun _ => true).
    + assert (G : filter (fun _ : A => true) rows = rows) by (clear; induction rows as [|x l IH]; cbn; [reflexivity|]; now rewrite IH). rewrite G. reflexivity.
    + intros a Ha. symmetry. destruct (Ho a Ha) as (s & Hs & H). apply existsb_exists. exists s. split; [exact Hs|]. now apply isin_spec.
Qed.
(** A label in two splits hides a lost row; two splits of one name lose one. *)
Lemma split_overlap : exists (splits : list (string * list R)), distinct_names splits /\ 
  let (files, outcome) := split_by_material (fun x : R => x) [1; 2] splits in outcome = Ok tt /\ forall f, In f files -> ~ In 2 (snd f).
Proof.
  exists [("a"%string, [1]); ("b"%string, [1])]. split.
  - unfold distinct_names. cbn. repeat constructor; cbn; intuition discriminate.
  - unfold split_by_material. cbn [split_loop filter isin existsb]. destruct (Req_EM_T 1 1); [|lra]. destruct (Req_EM_T 2 1); [lra|]. cbn. split; [reflexivity|].
    intros f [<- |[<- |[]]]; cbn; intros [H|[]]; lra.
Qed.
Lemma split_same_name : exists (splits : list (string * list R)), disjoint_labels splits /\
  let (files, outcome) := split_by_material (fun x : R => x) [1; 2] splits in outcome = Ok tt /\ contents files "a" = Some [2] /\ forall name, name <> "a"%string -> contents files name = None.
Proof.
  exists [("a"%string, [1]); ("a"%string, [2])]. split.
  - repeat constructor. cbn. intros x [<- |[]] [H|[]]. lra.
  - unfold split_by_material. cbn [split_loop filter isin existsb]. destruct (Req_EM_T 1 1); [|lra]. destruct (Req_EM_T 2 1); [lra|]. destruct (Req_EM_T 1 2); [lra|]. destruct (Req_EM_T 2 2); [|lra]. cbn. split; [reflexivity|]. split; [reflexivity|].
    intros name H. unfold contents. cbn [find fst]. destruct (String.eqb_spec "a" name); [congruence|reflexivity].
Qed.

(** *** C104 process_data *)
Lemma process_data_spec (A : Type) (split : R -> list A -> list A * list A) (data : list A) :
  (forall q l, Permutation (fst (split q l) ++ snd (split q l)) l) -> (forall q l, 0 < q < 1 -> rounded_up (q * INR (List.length l)) (List.length (snd (split q l)))) ->
  let '(train, val, test) := process_data split data in
  Permutation (train ++ val ++ test) data /\
  (let n := INR (List.length data) in
   2 / 10 * n <= INR (List.length test) < 2 / 10 * n + 1 /\ 2 / 10 * n - 1 / 4 < INR (List.length val) < 2 / 10 * n + 1 /\
   6 / 10 * n - 2 < INR (List.length train) < 6 / 10 * n + 1 / 4).
Proof.
  intros Hp Hs. unfold process_data. pose proof (Hp (2 / 10) data) as P1. pose proof (Hs (2 / 10) data ltac:(lra)) as S1. destruct (split (2 / 10) data) as [rest test]. cbn [fst snd] in *.
  pose proof (Hp (1 / 4) rest) as P2. pose proof (Hs (1 / 4) rest ltac:(lra)) as S2. destruct (split (1 / 4) rest) as [train val]. cbn [fst snd] in *. split.
  - rewrite app_assoc, P2. exact P1.
  - pose proof (Permutation_length P1) as L1. pose proof (Permutation_length P2) as L2. rewrite app_length in *. apply (f_equal INR) in L1. apply (f_equal INR) in L2. rewrite plus_INR in *. unfold rounded_up in *. cbv zeta. lra.
Qed.
(** *** C105 djinn_regression *)
Lemma djinn_fails (trees depth : list nat) : djinn_regression trees depth = Raise TypeError.
Proof. reflexivity. Qed.
Lemma str_nat_small k : (k < 1000)%nat -> String.length (zfill 3 (str_nat k)) = 3%nat.
Proof.
  intros H. assert (C : forallb (fun j => Nat.eqb (String.length (zfill 3 (str_nat j))) 3) (seq 0 1000) = true) by (vm_compute; reflexivity).
  rewrite forallb_forall in C. apply Nat.eqb_eq. apply C. apply in_seq. lia.
Qed.
Lemma sapp_split : forall a b c d, String.length a = String.length b -> (a ++ c = b ++ d)%string -> a = b /\ c = d.
Proof.
  induction a as [|x a IH]; intros [|y b] c d L H; cbn in *; try discriminate; [auto|]. injection L as L. injection H as -> H. destruct (IH b c d L H) as (-> & ->). auto.
Qed.
Lemma zfill_inj fill i j : zfill fill (str_nat i) = zfill fill (str_nat j) -> i = j.
Proof.
  intros H. unfold zfill in H. pose proof (number_parse (fill - String.length (str_nat i)) i) as A. rewrite H, number_parse in A. congruence.
Qed.
(** Below 1000 trees and depth 1000 no model overwrites another. *)
Lemma grid_names (trees depth : list nat) : NoDup trees -> NoDup depth -> (forall t, In t trees -> (t < 1000)%nat) -> (forall d, In d depth -> (d < 1000)%nat) ->
  NoDup (map fst (grid_models trees depth)) /\ forall t d, In t trees -> In d depth -> In (model_name t d, (t, d)) (grid_models trees depth).
Proof.
  intros Nt Nd Ht Hd. split.
  - unfold grid_models. rewrite map_map. cbn [fst].
    assert (NP : NoDup (list_prod trees depth)).
    { clear Ht Hd. induction Nt as [|t trees Hn _ IH]; [constructor|]. cbn [list_prod]. apply nodup_app; [|exact IH|].
      - clear - Nd. induction Nd as [|d depth Hn _ IH]; [constructor|]. cbn [map]. constructor; [|exact IH]. intros C. apply in_map_iff in C. destruct C as (d' & E & Hd). injection E as ->. contradiction.
      - intros [a b] H1 H2. apply in_map_iff in H1. destruct H1 as (d & E & _). injection E as <- <-. apply in_prod_iff in H2. tauto. }
    assert (Hin : forall p, In p (list_prod trees depth) -> (fst p < 1000)%nat /\ (snd p < 1000)%nat). { intros [a b] H. apply in_prod_iff in H. cbn. split; [apply Ht|apply Hd]; tauto. }
    induction NP as [|p l Hp _ IH]; [constructor|]. cbn [map]. constructor; [|apply IH; intros; apply Hin; now right].
    intros C. apply in_map_iff in C. destruct C as (q & E & Hq). apply Hp. destruct (Hin p (or_introl eq_refl)) as (A1 & A2). destruct (Hin q (or_intror Hq)) as (B1 & B2).
    unfold model_name in E. apply sapp_cancel_l in E. apply sapp_split in E; [|now rewrite !str_nat_small]. destruct E as (E1 & E2). apply zfill_inj in E1. apply zfill_inj in E2.
    destruct p, q. cbn in *. subst. exact Hq.
  - intros t d A B. unfold grid_models. apply in_map_iff. exists (t, d). split; [reflexivity|]. now apply in_prod.
Qed.
(** Larger numbers collide. *)
Lemma grid_collision : model_name 100 1001 = model_name 1001 1.
Proof. vm_compute. reflexivity. Qed.

(** *** C106 the prediction wrappers *)
Lemma hstack_tile l x : hstack (tile l (List.length x)) x = Ok (map (fun r => l ++ r)%list x).
Proof.
  unfold hstack, tile. rewrite repeat_length, Nat.eqb_refl. f_equal. induction x as [|r x IH]; cbn; [reflexivity|]. now rewrite IH.
Qed.
Lemma djinn_rows (model : rows -> rows) (m t d : list R -> list R) (transformer detransformer : transform) (flux : rows) (label : option (list R)) :
  row_wise model m -> by_rows transformer t -> by_rows detransformer d ->
  djinn_predict model (Some transformer) (Some detransformer) flux label =
    (Ok (map (fun r => d (m (match label with Some l => l ++ t r | None => t r end))) flux), flux) /\
  djinn_predict model None None flux label = (Ok (map (fun r => m (match label with Some l => l ++ r | None => r end)) flux), flux).
Proof.
  intros Hm Ht Hd. unfold djinn_predict. rewrite Ht. destruct label as [l|]; cbn [bind].
  - rewrite !hstack_tile. cbn [bind]. rewrite !Hm, Hd, !map_map. auto.
  - rewrite !Hm, Hd, !map_map. auto.
Qed.
Lemma auto_rows (encode model decode : rows -> rows) (e m dec t d : list R -> list R) (transformer detransformer : transform) (flux : rows) (label : option (list R)) :
  row_wise encode e -> row_wise model m -> row_wise decode dec -> by_rows transformer t -> by_rows detransformer d ->
  auto_predict encode model decode transformer detransformer flux label =
    (Ok (map (fun r => d (dec (m (match label with Some l => l ++ e (l ++ t r) | None => e (t r) end)))) flux), flux).
Proof.
  intros He Hm Hdec Ht Hd. unfold auto_predict. rewrite Ht. destruct label as [l|]; cbn [bind].
  - cbv zeta. rewrite hstack_tile. cbn [bind]. rewrite He. rewrite <- (map_length (fun r => (l ++ r)%list) (map t flux)) at 1. rewrite <- (map_length e (map _ (map t flux))) at 1. rewrite hstack_tile. cbn [bind].
    rewrite Hm, Hdec, Hd, !map_map. reflexivity.
  - rewrite He, Hm, Hdec, Hd, !map_map. reflexivity.
Qed.
Lemma combine_tile (B : Type) (f : list R -> B) (l : list R) (flux : rows) (t : list R -> list R) (g : list R * list R -> B) :
  map g (combine (map t flux) (tile l (List.length flux))) = map (fun r => g (t r, l)) flux.
Proof. unfold tile. induction flux as [|r flux IH]; cbn; [reflexivity|]. now rewrite IH. Qed.
Lemma deeponet_rows (network : list (list R * list R) -> rows) (net : list R * list R -> list R) (t d : list R -> list R) (transformer detransformer : transform) (flux : rows) (label : list R) :
  row_wise network net -> by_rows transformer t -> by_rows detransformer d -> leaves_argument transformer -> flux <> [] ->
  deeponet_predict network transformer detransformer flux label = (Ok (map (fun r => d (net (t r, label))) flux), flux).
Proof.
  intros Hn Ht Hd Hl Hf. unfold deeponet_predict. specialize (Ht flux). specialize (Hl flux). destruct (transformer flux) as [scaled flux']. cbn [fst snd] in *. subst scaled flux'.
  unfold tile. rewrite map_length, repeat_length, Nat.eqb_refl. fold (tile label (List.length flux)).
  rewrite (predict_rows _ _ network net); [|exact Hn|destruct flux; [congruence|discriminate]|].
  - cbn [bind]. rewrite Hd. rewrite (combine_tile _ (fun r => r)). now rewrite map_map.
  - unfold tile. destruct flux; [congruence|discriminate].
Qed.
(** DJINN and AutoDJINN work on a copy; DeepONet hands the caller's array to the transformer. *)
Lemma wrappers_keep_flux (model encode decode : rows -> rows) (transformer detransformer : transform) (flux : rows) (label : option (list R)) :
  snd (djinn_predict model (Some transformer) (Some detransformer) flux label) = flux /\ snd (auto_predict encode model decode transformer detransformer flux label) = flux.
Proof. split; reflexivity. Qed.
Lemma deeponet_changes_flux : exists (transformer : transform) (t : list R -> list R), by_rows transformer t /\
  forall network detransformer label, snd (deeponet_predict network transformer detransformer [[1]] label) = [[2]].
Proof.
  exists (fun r => (map (map (fun x => 2 * x)) r, map (map (fun x => 2 * x)) r)), (map (fun x => 2 * x)). split; [intros r; reflexivity|].
  intros. unfold deeponet_predict. cbn [map snd]. repeat f_equal. lra.
Qed.
Lemma deeponet_no_rows (network : list (list R * list R) -> rows) (transformer detransformer : transform) (t : list R -> list R) (label : list R) :
  by_rows transformer t -> fst (deeponet_predict network transformer detransformer [] label) = Raise ValueError.
Proof.
  intros Ht. specialize (Ht []). unfold deeponet_predict. destruct (transformer []) as [scaled flux']. cbn [fst] in Ht. subst scaled. reflexivity.
Qed.
Lemma load_positions (M : Type) (load : string -> M) (paths : list model_path) : List.length (load_djinn_models load paths) = List.length paths /\
  forall i, nth_error (load_djinn_models load paths) i = match nth_error paths i with None => None | Some Zero => Some None | Some (Path s) => Some (Some (load s)) end.
Proof.
  unfold load_djinn_models. split; [apply map_length|]. intros i. rewrite nth_error_map. destruct (nth_error paths i) as [[|s]|]; reflexivity.
Qed.
