(** C66: file names. *)
From Coq Require Import Reals ZArith Lia String Ascii DecimalString DecimalNat List FinFun.
From Verif Require Import Base MlfModel MlfSpec.
Local Open Scope string_scope.
Local Open Scope nat_scope.

Lemma sapp_assoc a b c : (a ++ b) ++ c = a ++ (b ++ c).
Proof. induction a as [|x a IH]; cbn; [reflexivity|now rewrite IH]. Qed.
Lemma sapp_nil a : a ++ "" = a.
Proof. induction a as [|x a IH]; cbn; [reflexivity|now rewrite IH]. Qed.
Lemma slength_app a b : String.length (a ++ b) = String.length a + String.length b.
Proof. induction a as [|x a IH]; cbn; [reflexivity|now rewrite IH]. Qed.
Lemma sapp_cancel_l a b c : a ++ b = a ++ c -> b = c.
Proof. induction a as [|x a IH]; cbn; [auto|intros E; injection E as E; auto]. Qed.
Lemma sapp_cancel_r : forall a b c, a ++ c = b ++ c -> a = b.
Proof.
  induction a as [|x a IH]; intros b c E.
  - destruct b as [|y b]; [reflexivity|]. apply (f_equal String.length) in E. cbn in E. rewrite slength_app in E. lia.
  - destruct b as [|y b]; [apply (f_equal String.length) in E; cbn in E; rewrite slength_app in E; lia|].
    cbn in E. injection E as -> E. f_equal. eauto.
Qed.

(** *** the search *)
Section Search.
Context {St : Type} (next : St -> outcome (string * St)) (path_exists : string -> bool) (file_name fmt : string).
Variables (st : nat -> St) (lab : nat -> string) (K : nat).
Hypothesis STEP : forall k, k < K -> next (st k) = Ok (lab (S k), st (S k)).

Lemma search_from : forall d k fuel, d <= fuel -> k + d <= K ->
  (forall i, k <= i < k + d -> path_exists (versioned file_name (lab i) fmt) = true) ->
  search fuel next path_exists file_name fmt (st k) (file_name ++ lab k) =
  search (fuel - d) next path_exists file_name fmt (st (k + d)) (file_name ++ lab (k + d)).
Proof.
  induction d as [|d IH]; intros k fuel F L H.
  - now rewrite Nat.sub_0_r, Nat.add_0_r.
  - destruct fuel as [|fuel]; [lia|]. cbn [search].
    assert (E : path_exists ((file_name ++ lab k) ++ "." ++ fmt) = true). { rewrite sapp_assoc. apply (H k). lia. }
    rewrite E, STEP by lia. cbn [bind fst snd]. rewrite IH by (try lia; intros i Hi; apply H; lia).
    replace (S fuel - S d) with (fuel - d) by lia. replace (S k + d) with (k + S d) by lia. reflexivity.
Qed.
Lemma search_found k fuel : k <= fuel -> k <= K -> (forall i, i < k -> path_exists (versioned file_name (lab i) fmt) = true) ->
  path_exists (versioned file_name (lab k) fmt) = false ->
  search fuel next path_exists file_name fmt (st 0) (file_name ++ lab 0) = Ok (versioned file_name (lab k) fmt).
Proof.
  intros F L H N. rewrite (search_from k 0 fuel F) by (try lia; intros i Hi; apply H; lia). cbn [Nat.add].
  unfold versioned in *. destruct (fuel - k); cbn [search]; rewrite sapp_assoc, N; reflexivity.
Qed.
Lemma search_exhausted fuel e : K < fuel -> (forall i, i <= K -> path_exists (versioned file_name (lab i) fmt) = true) -> next (st K) = Raise e ->
  search fuel next path_exists file_name fmt (st 0) (file_name ++ lab 0) = Raise e.
Proof.
  intros F H N. rewrite (search_from K 0 fuel) by (try lia; intros i Hi; apply H; lia). cbn [Nat.add].
  destruct (fuel - K) as [|m] eqn:Q; [lia|]. cbn [search]. rewrite sapp_assoc. pose proof (H K (le_n K)) as HK. unfold versioned in HK. rewrite HK, N. reflexivity.
Qed.
End Search.

(** *** letters *)
Definition letters_at (k : nat) : letters_state :=
  match k with
  | O => letters_start
  | S j => mkLetters (S (j mod 26)) (S (S (j mod 26))) (if Nat.ltb j 26 then "" else nth_letter (j / 26 - 1)) (j / 26)
  end.
Definition same_letters (a b : letters_state) : bool :=
  Nat.eqb (idx1 a) (idx1 b) && Nat.eqb (idx2 a) (idx2 b) && String.eqb (tmp a) (tmp b) && Nat.eqb (letter a) (letter b).
Definition step_right (k : nat) : bool :=
  match letters_next (letters_at k) with Ok (s, st) => String.eqb s (letter_version (S k)) && same_letters st (letters_at (S k)) | _ => false end.
Lemma letters_check : forallb step_right (seq 0 702) = true.
Proof. vm_compute. reflexivity. Qed.
Lemma letters_step k : k < 702 -> letters_next (letters_at k) = Ok (letter_version (S k), letters_at (S k)).
Proof.
  intros H. pose proof letters_check as C. rewrite forallb_forall in C. specialize (C k ltac:(apply in_seq; lia)). unfold step_right in C.
  destruct (letters_next (letters_at k)) as [[s st]|e]; [|discriminate]. apply andb_prop in C. destruct C as (C1 & C2). apply String.eqb_eq in C1. subst s.
  unfold same_letters in C2. repeat rewrite andb_true_iff in C2. destruct C2 as (((C2 & C3) & C4) & C5). apply Nat.eqb_eq in C2, C3, C5. apply String.eqb_eq in C4.
  destruct st, (letters_at (S k)). cbn in *. congruence.
Qed.
Lemma letters_end : letters_next (letters_at 702) = Raise IndexError.
Proof. vm_compute. reflexivity. Qed.

Lemma first_free (P : nat -> bool) : forall n, (exists k, k <= n /\ P k = false) -> exists k, k <= n /\ P k = false /\ forall i, i < k -> P i = true.
Proof.
  induction n as [|n IH]; intros (k & L & E).
  - exists 0. replace k with 0 in E by lia. split; [lia|]. split; [exact E|]. lia.
  - destruct (existsb (fun i => negb (P i)) (seq 0 (S n))) eqn:X.
    + rewrite existsb_exists in X. destruct X as (i & Hi & X). apply in_seq in Hi. apply negb_true_iff in X. destruct IH as (j & J1 & J2 & J3); [exists i; split; [lia|exact X]|]. exists j. split; [lia|]. split; assumption.
    + exists k. split; [exact L|]. split; [exact E|]. intros i Hi. destruct (P i) eqn:Pi; [reflexivity|]. assert (X' : existsb (fun i => negb (P i)) (seq 0 (S n)) = true); [|congruence].
      apply existsb_exists. exists i. split; [apply in_seq; lia|]. now rewrite Pi.
Qed.

Lemma update_letters fuel path_exists file_name fmt fill : 702 < fuel ->
  (exists k, k <= 702 /\ path_exists (versioned file_name (letter_version k) fmt) = false /\ (forall i, i < k -> path_exists (versioned file_name (letter_version i) fmt) = true) /\
    update_file_name fuel path_exists file_name fmt "alphabet" fill = Ok (Some (versioned file_name (letter_version k) fmt))) \/
  ((forall i, i <= 702 -> path_exists (versioned file_name (letter_version i) fmt) = true) /\
    update_file_name fuel path_exists file_name fmt "alphabet" fill = Raise IndexError).
Proof.
  intros F. unfold update_file_name. rewrite String.eqb_refl.
  destruct (forallb (fun i => path_exists (versioned file_name (letter_version i) fmt)) (seq 0 703)) eqn:A.
  - right. rewrite forallb_forall in A. assert (H : forall i, i <= 702 -> path_exists (versioned file_name (letter_version i) fmt) = true) by (intros i Hi; apply A, in_seq; lia).
    split; [exact H|]. rewrite <- (sapp_nil file_name) at 2.
    pose proof (search_exhausted letters_next path_exists file_name fmt letters_at letter_version 702 letters_step fuel IndexError F H letters_end) as Q.
    cbn [letter_version letters_at] in Q. rewrite Q. reflexivity.
  - left. destruct (first_free (fun i => path_exists (versioned file_name (letter_version i) fmt)) 702) as (k & L & E & M).
    { destruct (existsb (fun i => negb (path_exists (versioned file_name (letter_version i) fmt))) (seq 0 703)) eqn:X.
      - rewrite existsb_exists in X. destruct X as (i & Hi & X). apply in_seq in Hi. exists i. split; [lia|now apply negb_true_iff].
      - exfalso. assert (Y : forallb (fun i => path_exists (versioned file_name (letter_version i) fmt)) (seq 0 703) = true); [|congruence].
        apply forallb_forall. intros i Hi. destruct (path_exists (versioned file_name (letter_version i) fmt)) eqn:Z; [reflexivity|].
        assert (W : existsb (fun i => negb (path_exists (versioned file_name (letter_version i) fmt))) (seq 0 703) = true); [|congruence].
        apply existsb_exists. exists i. split; [exact Hi|]. now rewrite Z. }
    exists k. split; [exact L|]. split; [exact E|]. split; [exact M|]. rewrite <- (sapp_nil file_name) at 2.
    pose proof (search_found letters_next path_exists file_name fmt letters_at letter_version 702 letters_step k fuel ltac:(lia) L M E) as Q.
    cbn [letter_version letters_at] in Q. rewrite Q. reflexivity.
Qed.

(** *** numbers *)
Lemma zeros_parse z s : NilEmpty.uint_of_string (zero_chars z ++ s) = option_map (Nat.iter z Decimal.D0) (NilEmpty.uint_of_string s).
Proof.
  induction z as [|z IH]; cbn [zero_chars append].
  - cbn. now destruct (NilEmpty.uint_of_string s).
  - cbn. rewrite IH. now destruct (NilEmpty.uint_of_string s).
Qed.
Lemma of_uint_zeros z d : Nat.of_uint (Nat.iter z Decimal.D0 d) = Nat.of_uint d.
Proof. induction z as [|z IH]; [reflexivity|]. rewrite <- IH. reflexivity. Qed.
Lemma number_parse z k : option_map Nat.of_uint (NilEmpty.uint_of_string (zero_chars z ++ str_nat k)) = Some k.
Proof.
  rewrite zeros_parse. unfold str_nat. rewrite NilEmpty.usu. cbn [option_map]. now rewrite of_uint_zeros, Unsigned.of_to.
Qed.
Lemma str_nat_nonempty k : str_nat k <> "".
Proof. intros E. pose proof (number_parse 0 k) as P. cbn [zero_chars append] in P. rewrite E in P. cbn in P. injection P as P. subst k. discriminate E. Qed.
Lemma zero_chars_length z : String.length (zero_chars z) = z.
Proof. induction z; cbn; congruence. Qed.
Lemma zfill_version fill k : k <> 0 -> is_number_version fill k (zfill fill (str_nat k)).
Proof.
  intros H. destruct k as [|k]; [contradiction|]. unfold is_number_version. exists (fill - String.length (str_nat (S k))). split; [reflexivity|]. unfold zfill. rewrite slength_app, zero_chars_length. lia.
Qed.
Definition number_label (fill k : nat) : string := match k with O => "" | _ => zfill fill (str_nat k) end.
Lemma number_label_version fill k : is_number_version fill k (number_label fill k).
Proof. destruct k; [reflexivity|]. apply zfill_version. discriminate. Qed.
Lemma number_version_unique fill k s s' : is_number_version fill k s -> is_number_version fill k s' -> s = s'.
Proof.
  destruct k; cbn [is_number_version]; [congruence|]. intros (z & -> & L) (z' & -> & L'). rewrite !slength_app, !zero_chars_length in *. now replace z with z' by lia.
Qed.
Lemma number_label_inj fill i j : number_label fill i = number_label fill j -> i = j.
Proof.
  assert (NE : forall k, zfill fill (str_nat k) <> "").
  { intros k E. apply (f_equal String.length) in E. unfold zfill in E. rewrite slength_app in E. pose proof (str_nat_nonempty k) as N. destruct (str_nat k); [contradiction|cbn in E; lia]. }
  destruct i as [|i], j as [|j]; cbn [number_label]; intros E; [reflexivity|symmetry in E; now apply NE in E|now apply NE in E|].
  unfold zfill in E. pose proof (number_parse (fill - String.length (str_nat (S i))) (S i)) as P. rewrite E, number_parse in P. congruence.
Qed.
Lemma versioned_inj file_name fmt a b : versioned file_name a fmt = versioned file_name b fmt -> a = b.
Proof. unfold versioned. intros E. apply sapp_cancel_l in E. now apply sapp_cancel_r in E. Qed.

Lemma update_numbers path_exists files file_name fmt fill fuel : finitely_many path_exists files -> length files <= fuel ->
  exists k v, is_number_version fill k v /\ path_exists (versioned file_name v fmt) = false /\
    (forall i u, i < k -> is_number_version fill i u -> path_exists (versioned file_name u fmt) = true) /\
    update_file_name fuel path_exists file_name fmt "number" fill = Ok (Some (versioned file_name v fmt)).
Proof.
  intros FIN F. destruct (first_free (fun i => path_exists (versioned file_name (number_label fill i) fmt)) (length files)) as (k & L & E & M).
  { destruct (existsb (fun i => negb (path_exists (versioned file_name (number_label fill i) fmt))) (seq 0 (S (length files)))) eqn:X.
    - rewrite existsb_exists in X. destruct X as (i & Hi & X). apply in_seq in Hi. exists i. split; [lia|now apply negb_true_iff].
    - exfalso. assert (A : forall i, i < S (length files) -> path_exists (versioned file_name (number_label fill i) fmt) = true).
      { intros i Hi. destruct (path_exists (versioned file_name (number_label fill i) fmt)) eqn:Z; [reflexivity|].
        assert (W : existsb (fun i => negb (path_exists (versioned file_name (number_label fill i) fmt))) (seq 0 (S (length files))) = true); [|congruence].
        apply existsb_exists. exists i. split; [apply in_seq; lia|]. now rewrite Z. }
      assert (ND : NoDup (map (fun i => versioned file_name (number_label fill i) fmt) (seq 0 (S (length files))))).
      { apply FinFun.Injective_map_NoDup; [|apply seq_NoDup]. intros i j Q. apply versioned_inj in Q. now apply number_label_inj in Q. }
      assert (I : incl (map (fun i => versioned file_name (number_label fill i) fmt) (seq 0 (S (length files)))) files).
      { intros s Hs. apply in_map_iff in Hs. destruct Hs as (i & <- & Hi). apply in_seq in Hi. apply FIN, A. lia. }
      apply NoDup_incl_length in I; [|exact ND]. rewrite map_length, seq_length in I. lia. }
  exists k, (number_label fill k). split; [apply number_label_version|]. split; [exact E|]. split.
  { intros i u Hi Hu. rewrite (number_version_unique fill i u (number_label fill i) Hu (number_label_version fill i)). apply M, Hi. }
  unfold update_file_name. change (String.eqb "number" "alphabet") with false. cbv iota. rewrite String.eqb_refl. rewrite <- (sapp_nil file_name) at 2.
  pose proof (search_found (number_next fill) path_exists file_name fmt S (number_label fill) fuel) as Q.
  specialize (Q ltac:(reflexivity) k fuel ltac:(lia) ltac:(lia) M E). cbn [number_label] in Q. rewrite Q. reflexivity.
Qed.

Lemma update_other_label fuel path_exists file_name fmt label fill : label <> "alphabet" -> label <> "number" ->
  update_file_name fuel path_exists file_name fmt label fill = Ok None.
Proof. intros A B. unfold update_file_name. apply String.eqb_neq in A, B. now rewrite A, B. Qed.

(** All 703 names taken. *)
Definition all_taken (file_name fmt : string) : list string := map (fun k => versioned file_name (letter_version k) fmt) (seq 0 703).
Lemma letters_run_out file_name fmt : exists files, length files = 703 /\
  forall fuel fill, 702 < fuel -> update_file_name fuel (fun s => existsb (String.eqb s) files) file_name fmt "alphabet" fill = Raise IndexError.
Proof.
  exists (all_taken file_name fmt). split; [unfold all_taken; now rewrite map_length, seq_length|]. intros fuel fill F.
  destruct (update_letters fuel (fun s => existsb (String.eqb s) (all_taken file_name fmt)) file_name fmt fill F) as [(k & L & E & _)|(_ & E)]; [|exact E].
  exfalso. assert (X : existsb (String.eqb (versioned file_name (letter_version k) fmt)) (all_taken file_name fmt) = true); [|congruence].
  apply existsb_exists. exists (versioned file_name (letter_version k) fmt). split; [|apply String.eqb_refl]. unfold all_taken. apply in_map_iff. exists k. split; [reflexivity|apply in_seq; lia].
Qed.
