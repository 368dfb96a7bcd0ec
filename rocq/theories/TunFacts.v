(** Facts about file names, memmap files, saved models, backends and keyword arguments. *)
From Coq Require Import Reals ZArith Lia Lra List Bool String Ascii.
From Verif Require Import Base MlfModel MlfFacts MlfFacts2 MltModel TunModel TunSpec.
Local Open Scope string_scope.
Local Open Scope nat_scope.

(** *** replacing "memmap" by "pickle" *)
Lemma prefix_split w s : prefix w s = true -> exists b, s = w ++ b.
Proof.
  revert s; induction w as [|c w IH]; intros s H; [exists s; reflexivity|]. destruct s as [|d s]; [discriminate|]. cbn in H.
  destruct (ascii_dec c d) as [E|E]; [|discriminate]. subst. destruct (IH s H) as (b & ->). exists b. reflexivity.
Qed.
Lemma prefix_app w b : prefix w (w ++ b) = true.
Proof. induction w as [|c w IH]; [destruct b; reflexivity|]. cbn. destruct (ascii_dec c c); [exact IH|congruence]. Qed.
Lemma skip_word old new : forall u b, replace_from (String.length u) old new (u ++ b) = replace_from 0 old new b.
Proof. induction u as [|c u IH]; intros b; [reflexivity|]. cbn. apply IH. Qed.
Lemma pickle_word b : pickle_file ("memmap" ++ b) = "pickle" ++ pickle_file b.
Proof.
  unfold pickle_file. change ("memmap" ++ b) with (String "m" ("emmap" ++ b)). cbn [replace_from].
  replace (prefix "memmap" (String "m" ("emmap" ++ b))) with true by (symmetry; exact (prefix_app "memmap" b)).
  reflexivity.
Qed.
Lemma pickle_char c r : (forall b, String c r <> "memmap" ++ b) -> pickle_file (String c r) = String c (pickle_file r).
Proof.
  intros H. unfold pickle_file. cbn [replace_from]. destruct (prefix "memmap" (String c r)) eqn:E; [|reflexivity].
  destruct (prefix_split _ _ E) as (b & Eb). exfalso. exact (H b Eb).
Qed.
Lemma pickle_name_sound : forall f p, metadata_name f p -> pickle_file f = p.
Proof.
  induction 1 as [|r r' H IH|c r r' Hn H IH]; [reflexivity| |].
  - rewrite pickle_word, IH. reflexivity.
  - rewrite pickle_char, IH by exact Hn. reflexivity.
Qed.
Lemma pickle_name_complete_len : forall n f, String.length f <= n -> metadata_name f (pickle_file f).
Proof.
  induction n as [|n IH]; intros f Hl.
  - destruct f; [constructor|cbn in Hl; lia].
  - destruct f as [|c r]; [constructor|]. cbn [String.length] in Hl.
    destruct (prefix "memmap" (String c r)) eqn:E.
    + destruct (prefix_split _ _ E) as (b & Eb). rewrite Eb, pickle_word. constructor. apply IH.
      assert (L : String.length (String c r) = 6 + String.length b) by (rewrite Eb; rewrite slength_app; reflexivity). cbn in L. lia.
    + assert (Hn : forall b, String c r <> "memmap" ++ b).
      { intros b Eb. rewrite Eb, prefix_app in E. discriminate. }
      rewrite pickle_char by exact Hn. constructor; [exact Hn|]. apply IH. lia.
Qed.
Lemma pickle_name f : metadata_name f (pickle_file f).
Proof. exact (pickle_name_complete_len _ f (le_n _)). Qed.
Lemma pickle_name_iff f p : metadata_name f p <-> pickle_file f = p.
Proof. split; [apply pickle_name_sound|]. intros <-. apply pickle_name. Qed.
Lemma name_without_word : forall f, ~ occurs "memmap" f -> pickle_file f = f.
Proof.
  induction f as [|c r IH]; intros H; [reflexivity|]. rewrite pickle_char.
  - f_equal. apply IH. intros (a & b & E). apply H. exists (String c a), b. rewrite E. reflexivity.
  - intros b E. apply H. exists "", b. exact E.
Qed.
Lemma name_with_word : forall f, occurs "memmap" f -> pickle_file f <> f.
Proof.
  induction f as [|c r IH]; intros (a & b & E).
  - destruct a; discriminate.
  - destruct (prefix "memmap" (String c r)) eqn:Ep.
    + destruct (prefix_split _ _ Ep) as (b' & Eb). rewrite Eb, pickle_word. cbn. congruence.
    + assert (Hn : forall b, String c r <> "memmap" ++ b).
      { intros b' Eb. rewrite Eb, prefix_app in Ep. discriminate. }
      rewrite pickle_char by exact Hn. destruct a as [|c' a]; [exfalso; exact (Hn b E)|].
      injection E as -> E'. intros Q. injection Q as Q. revert Q. apply IH. exists a, b. exact E'.
Qed.
(** The usual names: a stem without "memmap", then ".memmap". *)
Lemma usual_name : forall s, ~ occurs "memmap" (s ++ ".memma") -> pickle_file (s ++ ".memmap") = s ++ ".pickle".
Proof.
  induction s as [|c s IH]; intros H.
  - vm_compute. reflexivity.
  - change (String c s ++ ".memmap") with (String c (s ++ ".memmap")). rewrite pickle_char.
    + cbn [append]. f_equal. apply IH. intros (a & b & E). apply H. exists (String c a), b. cbn. rewrite E. reflexivity.
    + intros b E. destruct b as [|x b].
      * (* the word is exactly the rest: impossible by its last letters *)
        assert (L : String.length (String c (s ++ ".memmap")) = 6) by (rewrite E; reflexivity). cbn in L. rewrite slength_app in L. cbn in L. lia.
      * apply H. 
        assert (Q : exists b', String x b = b' ++ "p").
        { assert (E2 : (String c s ++ ".memma") ++ "p" = ("memmap" ++ String x b)) by (rewrite sapp_assoc; exact E).
          clear -E2. revert E2. generalize (String c s ++ ".memma"). intros u. generalize "memmap" as m. intros m; revert u. induction m as [|y m IHm]; intros u E2.
          - exists u. symmetry. exact E2.
          - destruct u as [|z u]; [cbn in E2; injection E2 as _ E2; destruct m; discriminate|]. cbn in E2. injection E2 as _ E2. exact (IHm u E2). }
        destruct Q as (b' & Eb'). exists "", b'. cbn [append]. 
        assert (E2 : (String c s ++ ".memma") ++ "p" = ("memmap" ++ b') ++ "p") by (rewrite !sapp_assoc, <- Eb'; exact E).
        apply sapp_cancel_r in E2. exact E2.
Qed.

(** *** the files of a data set *)
Lemma write_same fs n c : write_file fs n c n = Some c.
Proof. unfold write_file. rewrite String.eqb_refl. reflexivity. Qed.
Lemma write_other fs n c m : m <> n -> write_file fs n c m = fs m.
Proof. intros H. unfold write_file. apply String.eqb_neq in H. rewrite H. reflexivity. Qed.
Lemma sizes_eqb_refl s : sizes_eqb s s = true.
Proof. destruct s as (((a, b), c), d). cbn. rewrite !Nat.eqb_refl. reflexivity. Qed.

Lemma index_slash : forall s, index 0 "/" s = None <-> ~ occurs "/" s.
Proof.
  induction s as [|c s IH].
  - cbn. split; [|reflexivity]. intros _ (a & b & H). destruct a; discriminate.
  - cbn [index]. destruct (prefix "/" (String c s)) eqn:E.
    + split; [discriminate|]. intros H. exfalso. apply H. destruct (prefix_split _ _ E) as (b & ->). exists "", b. reflexivity.
    + destruct (index 0 "/" s) eqn:I.
      * split; [discriminate|]. intros H. exfalso. apply H. assert (O : occurs "/" s).
        { clear -I. revert n I. induction s as [|d s IH]; intros n; [discriminate|].
          cbn [index]. destruct (prefix "/" (String d s)) eqn:E.
          - intros _. destruct (prefix_split _ _ E) as (b & ->). exists "", b. reflexivity.
          - destruct (index 0 "/" s) eqn:I; [|discriminate]. intros _. destruct (IH n0 eq_refl) as (a & b & ->). exists (String d a), b. reflexivity. }
        destruct O as (a & b & ->). exists (String c a), b. reflexivity.
      * split; [|reflexivity]. intros _ (a & b & H). destruct a as [|x a].
        { pose proof (prefix_app "/" b) as Q. cbn [append] in H. change ("/" ++ b) with (String "/" b) in Q. rewrite <- H in Q. congruence. }
        injection H as <- ->. apply (proj1 IH eq_refl). exists a, b. reflexivity.
Qed.
Lemma dirname_split : forall d b, ~ occurs "/" b -> dirname (d ++ "/" ++ b) = d.
Proof.
  induction d as [|c d IH]; intros b N.
  - cbn [append dirname]. apply index_slash in N. cbn [append]. rewrite N. reflexivity.
  - change ((String c d ++ "/" ++ b)%string) with (String c (d ++ "/" ++ b)). cbn [dirname]. destruct (index 0 "/" (d ++ "/" ++ b)) eqn:I.
    + f_equal. apply IH, N.
    + exfalso. apply (proj1 (index_slash _) I). exists d, b. reflexivity.
Qed.
Lemma dirname_none : forall b, ~ occurs "/" b -> dirname b = "".
Proof.
  intros [|c b] N; [reflexivity|]. cbn [dirname]. destruct (index 0 "/" b) eqn:I; [|reflexivity].
  exfalso. apply N. destruct (index 0 "/" (String c b)) eqn:J.
  - assert (K : ~ ~ occurs "/" (String c b)) by (intros K; apply index_slash in K; congruence). exfalso. exact (K N).
  - apply index_slash in N. cbn [index] in N. rewrite I in N. destruct (prefix "/" (String c b)); discriminate.
Qed.

Section Files.
Variables (dirs : string -> bool) (split : R -> list nat -> list nat * list nat) (single : list R -> list R).
Let stored d := Records (sizes_of d) (written_rows (written_order split (samples d)) (fun i => single (flux_rows d i)) (fun i => single (labels_rows d i)) (fun i => single (y_rows d i))).
Lemma call_frame f g d fs : separate f g ->
  snd (deeponet_memmap dirs split single g d fs) f = fs f /\ snd (deeponet_memmap dirs split single g d fs) (pickle_file f) = fs (pickle_file f).
Proof.
  intros S. destruct (S _ _ (pickle_name f) (pickle_name g)) as (A & B & C & D). unfold deeponet_memmap.
  destruct (dirs (dirname g)); cbn [negb snd]; [|auto].
  destruct (dirs (dirname (pickle_file g))); cbn [negb snd]; split; rewrite ?write_other by congruence; reflexivity.
Qed.
Lemma history_frame f : forall calls fs, (forall g d, In (g, d) calls -> separate f g) ->
  write_all dirs split single calls fs f = fs f /\ write_all dirs split single calls fs (pickle_file f) = fs (pickle_file f).
Proof.
  induction calls as [|(g, d) rest IH]; intros fs H; [auto|]. cbn [write_all].
  destruct (IH (snd (deeponet_memmap dirs split single g d fs))) as (A & B); [intros; eapply H; right; eauto|].
  destruct (call_frame f g d fs) as (A' & B'); [eapply H; left; eauto|]. rewrite A, B, A', B'. auto.
Qed.
Lemma written f d fs : occurs "memmap" f -> dirs (dirname f) = true -> dirs (dirname (pickle_file f)) = true ->
  fst (deeponet_memmap dirs split single f d fs) = Ok tt /\
  snd (deeponet_memmap dirs split single f d fs) f = Some (stored d) /\
  snd (deeponet_memmap dirs split single f d fs) (pickle_file f) = Some (Metadata (sizes_of d)).
Proof.
  intros O D1 D2. unfold deeponet_memmap. rewrite D1, D2. cbn [negb fst snd]. split; [reflexivity|].
  pose proof (name_with_word f O). split; [rewrite write_other by congruence; apply write_same|apply write_same].
Qed.
Lemma read_back f d calls fs : occurs "memmap" f -> dirs (dirname f) = true -> (forall p, metadata_name f p -> dirs (dirname p) = true) ->
  (forall g d', In (g, d') calls -> separate f g) ->
  fst (deeponet_memmap dirs split single f d fs) = Ok tt /\
  load_metadata f (write_all dirs split single ((f, d) :: calls) fs) = Ok (samples d, flux_shape d, labels_shape d, y_shape d) /\
  open_data f (write_all dirs split single ((f, d) :: calls) fs) =
    Ok ((samples d, flux_shape d, labels_shape d, y_shape d),
        map (fun i => (single (flux_rows d i), single (labels_rows d i), single (y_rows d i))) (written_order split (samples d))).
Proof.
  intros O D1 D2 H. specialize (D2 _ (pickle_name f)). destruct (written f d fs O D1 D2) as (A & B & C). split; [exact A|].
  cbn [write_all]. destruct (history_frame f calls (snd (deeponet_memmap dirs split single f d fs)) H) as (E1 & E2).
  assert (L : load_metadata f (write_all dirs split single calls (snd (deeponet_memmap dirs split single f d fs))) = Ok (sizes_of d)) by (unfold load_metadata; rewrite E2, C; reflexivity).
  split; [exact L|]. unfold open_data. rewrite L. cbn [bind]. rewrite E1, B. cbv beta iota delta [stored]. rewrite sizes_eqb_refl. reflexivity.
Qed.
Lemma no_word_loses f d fs : ~ occurs "memmap" f -> dirs (dirname f) = true ->
  fst (deeponet_memmap dirs split single f d fs) = Ok tt /\
  snd (deeponet_memmap dirs split single f d fs) f = Some (Metadata (samples d, flux_shape d, labels_shape d, y_shape d)) /\
  open_data f (snd (deeponet_memmap dirs split single f d fs)) = Raise ValueError.
Proof.
  intros O D1. pose proof (name_without_word f O) as E. unfold deeponet_memmap. rewrite E, D1. cbn [negb fst snd].
  split; [reflexivity|]. rewrite write_same. split; [reflexivity|]. unfold open_data, load_metadata. rewrite E, write_same. cbn [bind]. reflexivity.
Qed.
Lemma wrong_directory f d fs : occurs "memmap" f -> dirs (dirname f) = true -> (forall p, metadata_name f p -> dirs (dirname p) = false) ->
  fs (pickle_file f) = None ->
  fst (deeponet_memmap dirs split single f d fs) = Raise FileNotFound /\
  snd (deeponet_memmap dirs split single f d fs) f <> None /\
  open_data f (snd (deeponet_memmap dirs split single f d fs)) = Raise FileNotFound.
Proof.
  intros O D1 D2 Hn. specialize (D2 _ (pickle_name f)). unfold deeponet_memmap. rewrite D1, D2. cbn [negb fst snd].
  split; [reflexivity|]. split; [rewrite write_same; discriminate|]. unfold open_data, load_metadata.
  rewrite write_other by (apply name_with_word; exact O). rewrite Hn. reflexivity.
Qed.
Lemma missing_directory f d fs : dirs (dirname f) = false -> deeponet_memmap dirs split single f d fs = (Raise FileNotFound, fs).
Proof. intros H. unfold deeponet_memmap. rewrite H. reflexivity. Qed.
End Files.

(** Two names that share their metadata file. *)
Lemma names_collide : "pickle_memmap" <> "memmap_pickle" /\ occurs "memmap" "pickle_memmap" /\ occurs "memmap" "memmap_pickle" /\
  pickle_file "pickle_memmap" = pickle_file "memmap_pickle".
Proof. split; [discriminate|]. split; [exists "pickle_", ""; reflexivity|]. split; [exists "", "_pickle"; reflexivity|vm_compute; reflexivity]. Qed.
Lemma collision_overwrites split single d d' fs : (samples d, flux_shape d, labels_shape d, y_shape d) <> (samples d', flux_shape d', labels_shape d', y_shape d') ->
  let fs' := write_all (fun _ => true) split single [("pickle_memmap", d); ("memmap_pickle", d')] fs in
  load_metadata "pickle_memmap" fs' = Ok (samples d', flux_shape d', labels_shape d', y_shape d') /\ open_data "pickle_memmap" fs' = Raise ValueError.
Proof.
  intros H fs'. assert (A : load_metadata "pickle_memmap" fs' = Ok (sizes_of d')) by (vm_compute; reflexivity).
  split; [exact A|]. unfold open_data. rewrite A. cbn [bind].
  assert (B : exists rows, fs' "pickle_memmap" = Some (Records (sizes_of d) rows)) by (eexists; vm_compute; reflexivity).
  destruct B as (rows & ->). destruct (sizes_eqb (sizes_of d') (sizes_of d)) eqn:E; [|reflexivity]. exfalso. apply H.
  unfold sizes_of in E. cbn in E. apply andb_prop in E as (E & E4). apply andb_prop in E as (E & E3). apply andb_prop in E as (E1 & E2).
  apply Nat.eqb_eq in E1, E2, E3, E4. congruence.
Qed.
(** Distinct stems. *)
Lemma usual_names_separate s s' : ~ occurs "memmap" (s ++ ".memma") -> ~ occurs "memmap" (s' ++ ".memma") -> s <> s' -> separate (s ++ ".memmap") (s' ++ ".memmap").
Proof.
  intros H H' N pf pg M M'. apply pickle_name_sound in M, M'. rewrite usual_name in M, M' by assumption. subst.
  assert (X : forall u v : string, u ++ ".memmap" = v ++ ".pickle" -> False).
  { intros u v E. assert (Z : forall a b : string, forall x y, a ++ String x "" = b ++ String y "" -> x = y).
    { induction a as [|p a IHa]; intros [|q b] x y Q; cbn in Q.
      - congruence.
      - injection Q as _ Q. destruct b; discriminate.
      - injection Q as _ Q. destruct a; discriminate.
      - injection Q as _ Q. exact (IHa _ _ _ Q). }
    assert (E1 : (u ++ ".memma") ++ "p" = (v ++ ".pickl") ++ "e") by (rewrite !sapp_assoc; exact E). apply Z in E1. discriminate. }
  repeat split.
  - intros E. apply sapp_cancel_r in E. congruence.
  - intros E. exact (X _ _ E).
  - intros E. symmetry in E. exact (X _ _ E).
  - intros E. apply sapp_cancel_r in E. congruence.
Qed.

(** *** saved models *)
Lemma last_char : forall a b x y, a ++ String x "" = b ++ String y "" -> x = y.
Proof.
  induction a as [|p a IHa]; intros [|q b] x y Q; cbn in Q.
  - congruence.
  - injection Q as _ Q. destruct b; discriminate.
  - injection Q as _ Q. destruct a; discriminate.
  - injection Q as _ Q. exact (IHa _ _ _ Q).
Qed.
Lemma pt_not_npz a b : a ++ ".pt" <> b ++ "-loss-metrics.npz".
Proof.
  intros E. assert (E1 : (a ++ ".p") ++ "t" = (b ++ "-loss-metrics.np") ++ "z") by (rewrite !sapp_assoc; exact E).
  apply last_char in E1. discriminate.
Qed.
Section Saving.
Context {W : Type}.
Lemma save_other n w m (d : disk W) name : n <> name -> snd (save_model n w m d) (name ++ ".pt") = d (name ++ ".pt").
Proof.
  intros H. assert (E : String.eqb (name ++ ".pt") (n ++ ".pt") = false) by (apply String.eqb_neq; intros E; apply sapp_cancel_r in E; congruence).
  assert (E2 : String.eqb (name ++ ".pt") (n ++ "-loss-metrics.npz") = false) by (apply String.eqb_neq; apply pt_not_npz).
  unfold save_model, put. destruct m; cbn [snd]; rewrite ?E, ?E2; reflexivity.
Qed.
Lemma save_same n w m (d : disk W) : snd (save_model n w m d) (n ++ ".pt") = Some (Weights w).
Proof.
  assert (E2 : String.eqb (n ++ ".pt") (n ++ "-loss-metrics.npz") = false) by (apply String.eqb_neq; apply pt_not_npz).
  unfold save_model, put. destruct m; cbn [snd]; rewrite ?E2, ?String.eqb_refl; reflexivity.
Qed.
Lemma save_all_app : forall a b (d : disk W), save_all (a ++ b) d = save_all b (save_all a d).
Proof. induction a as [|((n, w), m) a IH]; intros b d; [reflexivity|]. cbn. apply IH. Qed.
Lemma save_all_other name : forall calls (d : disk W), (forall n w m, In (n, w, m) calls -> n <> name) -> save_all calls d (name ++ ".pt") = d (name ++ ".pt").
Proof.
  induction calls as [|((n, w), m) a IH]; intros d H; [reflexivity|]. cbn [save_all]. rewrite IH by (intros; eapply H; right; eauto).
  apply save_other. eapply H. left; eauto.
Qed.
Lemma model_round_trip calls (d : disk W) name w : last_saved calls name w -> load_model name (save_all calls d) = Ok w.
Proof.
  intros (b & m & a & -> & H). rewrite save_all_app. cbn [save_all]. unfold load_model. rewrite (save_all_other name a) by exact H. rewrite save_same. reflexivity.
Qed.
Lemma metrics_file name w m (d : disk W) :
  fst (save_model name w (Some m) d) = Ok tt /\ snd (save_model name w (Some m) d) (name ++ "-loss-metrics.npz") = Some (Losses m).
Proof. split; [reflexivity|]. unfold save_model, put. cbn [snd]. rewrite String.eqb_refl. reflexivity. Qed.
Lemma metrics_documented name w m (d : disk W) : snd (save_model name w m d) (name ++ "_loss_metrics.npz") = d (name ++ "_loss_metrics.npz").
Proof.
  assert (E1 : String.eqb (name ++ "_loss_metrics.npz") (name ++ ".pt") = false).
  { apply String.eqb_neq. intros E. apply sapp_cancel_l in E. discriminate. }
  assert (E2 : String.eqb (name ++ "_loss_metrics.npz") (name ++ "-loss-metrics.npz") = false).
  { apply String.eqb_neq. intros E. apply sapp_cancel_l in E. discriminate. }
  unfold save_model, put. destruct m; cbn [snd]; rewrite ?E1, ?E2; reflexivity.
Qed.
Lemma untrained_save name w (d : disk W) : fst (save_model name w None d) = Raise AttributeError /\ load_model name (snd (save_model name w None d)) = Ok w.
Proof. split; [reflexivity|]. unfold load_model. rewrite save_same. reflexivity. Qed.
End Saving.

(** *** backends *)
Lemma lower_spelled : forall s, spelled s (lower s).
Proof.
  induction s as [|c s IH]; [constructor|]. cbn [lower]. constructor; [|exact IH]. unfold same_letter, lower_char.
  destruct (Nat.leb 65 (nat_of_ascii c) && Nat.leb (nat_of_ascii c) 90)%bool eqn:E; [|left; reflexivity].
  apply andb_prop in E as (A & B). apply Nat.leb_le in A, B. right. split; [lia|]. apply nat_ascii_embedding. lia.
Qed.
Definition is_lower (c : ascii) : bool := negb (Nat.leb 65 (nat_of_ascii c) && Nat.leb (nat_of_ascii c) 90).
Fixpoint all_lower (s : string) : bool := match s with EmptyString => true | String c r => is_lower c && all_lower r end.
Lemma spelled_lower s t : spelled s t -> all_lower t = true -> lower s = t.
Proof.
  induction 1 as [|c d s t L H IH]; [reflexivity|]. cbn [all_lower lower]. intros E. apply andb_prop in E as (E1 & E2). rewrite IH by exact E2. f_equal.
  destruct L as [<- |((L1 & L2) & L3)].
  - unfold lower_char. unfold is_lower in E1. apply negb_true_iff in E1. rewrite E1. reflexivity.
  - unfold lower_char. replace (Nat.leb 65 (nat_of_ascii c) && Nat.leb (nat_of_ascii c) 90)%bool with true.
    + rewrite <- L3. apply ascii_nat_embedding.
    + symmetry. apply andb_true_intro. split; apply Nat.leb_le; lia.
Qed.
Lemma lower_iff s t : all_lower t = true -> (lower s = t <-> spelled s t).
Proof. intros H. split; [intros <-; apply lower_spelled|intros; apply spelled_lower; assumption]. Qed.

Lemma backend_chosen {M} (libs : libraries M) fe fm fd backend :
  (spelled backend "torch" -> forall load enc mid dec, torch_load libs = Some load -> load fe = Ok enc -> load fd = Ok dec -> djinn_load libs fm = Ok mid ->
     auto_init libs fe fm fd backend = Ok ("torch", enc, mid, dec)) /\
  (spelled backend "tensorflow" -> forall load enc mid dec, keras libs = Some load -> load fe = Ok enc -> load fd = Ok dec -> djinn_load libs fm = Ok mid ->
     auto_init libs fe fm fd backend = Ok ("tensorflow", enc, mid, dec)) /\
  (~ spelled backend "torch" -> ~ spelled backend "tensorflow" -> auto_init libs fe fm fd backend = Raise ValueError) /\
  (spelled backend "torch" -> torch_load libs = None -> auto_init libs fe fm fd backend = Raise RuntimeError) /\
  (spelled backend "tensorflow" -> keras libs = None -> auto_init libs fe fm fd backend = Raise RuntimeError).
Proof.
  unfold auto_init. repeat split.
  - intros S load enc mid dec L E1 E2 E3. apply spelled_lower in S; [|reflexivity]. rewrite S. cbn [String.eqb Ascii.eqb Bool.eqb orb negb]. rewrite L. cbn [bind]. rewrite E1. cbn [bind]. rewrite E2. cbn [bind]. rewrite E3. reflexivity.
  - intros S load enc mid dec L E1 E2 E3. apply spelled_lower in S; [|reflexivity]. rewrite S. cbn [String.eqb Ascii.eqb Bool.eqb orb negb]. rewrite L. cbn [bind]. rewrite E1. cbn [bind]. rewrite E2. cbn [bind]. rewrite E3. reflexivity.
  - intros N1 N2. assert (A : lower backend <> "torch") by (intros E; apply N1; apply lower_iff; [reflexivity|exact E]).
    assert (B : lower backend <> "tensorflow") by (intros E; apply N2; apply lower_iff; [reflexivity|exact E]).
    apply String.eqb_neq in A, B. rewrite A, B. reflexivity.
  - intros S L. apply spelled_lower in S; [|reflexivity]. rewrite S. cbn [String.eqb Ascii.eqb Bool.eqb orb negb]. rewrite L. reflexivity.
  - intros S L. apply spelled_lower in S; [|reflexivity]. rewrite S. cbn [String.eqb Ascii.eqb Bool.eqb orb negb]. rewrite L. reflexivity.
Qed.

(** *** keyword arguments *)
Lemma existsb_in k l : existsb (String.eqb k) l = true <-> In k l.
Proof.
  rewrite existsb_exists. split; [intros (x & H & E); apply String.eqb_eq in E; subst; exact H|].
  intros H. exists k. split; [exact H|apply String.eqb_refl].
Qed.
Lemma warned valid given k : In k (unexpected valid given) <-> In k given /\ ~ In k valid.
Proof.
  unfold unexpected. rewrite filter_In. rewrite negb_true_iff. split; intros (A & B); split; try exact A.
  - intros C. apply existsb_in in C. congruence.
  - destruct (existsb (String.eqb k) valid) eqn:E; [|reflexivity]. apply existsb_in in E. contradiction.
Qed.
Lemma warned_once valid given : NoDup given -> NoDup (unexpected valid given).
Proof. apply NoDup_filter. Qed.
Lemma run_ignores {A} (defaults : string -> A) kwargs name v : ~ In name run_kwargs ->
  run_options defaults ((name, v) :: kwargs) = run_options defaults kwargs /\ snd (run_options defaults ((name, v) :: kwargs)) = [].
Proof.
  intros H. split; [|reflexivity]. unfold run_options. f_equal. apply map_ext_in. intros k Hk. unfold kwargs_get. cbn [find fst].
  destruct (String.eqb name k) eqn:E; [|reflexivity]. apply String.eqb_eq in E. subst. contradiction.
Qed.

(** *** the tuner's fractions *)
Lemma tuner_needs_data fs ts vs : tuner_init None None ts vs fs = Raise ValueError.
Proof. reflexivity. Qed.
