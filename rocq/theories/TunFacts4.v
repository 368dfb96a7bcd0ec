(** Facts about the search space: every trial of a study can draw its configuration. *)
From Coq Require Import Reals ZArith Lia Lra List Bool String Ascii.
From Verif Require Import Base MlfModel MlfFacts MltModel MltSpec MltFacts2 TunModel TunSpec TunFacts.
Local Open Scope string_scope.
Local Open Scope nat_scope.

Lemma value_eqb_refl v : value_eqb v v = true.
Proof. destruct v; cbn; [reflexivity|apply String.eqb_refl|apply Nat.eqb_refl|]. destruct (Req_EM_T x x); congruence. Qed.
Lemma values_eqb_refl l : values_eqb l l = true.
Proof. induction l as [|v l IH]; [reflexivity|]. cbn. rewrite value_eqb_refl. exact IH. Qed.
Lemma compatible_refl d : compatible d d = true.
Proof. destruct d; cbn; auto. apply values_eqb_refl. Qed.

(** The distribution that belongs to a name. *)
Fixpoint final_char (s : string) : ascii := match s with EmptyString => " "%char | String c r => match r with EmptyString => c | _ => final_char r end end.
Lemma final_app a b : b <> "" -> final_char (a ++ b) = final_char b.
Proof.
  intros H. induction a as [|c a IH]; [reflexivity|]. cbn [append final_char]. destruct (a ++ b) eqn:E; [|exact IH].
  destruct a; [destruct b; [congruence|discriminate]|discriminate].
Qed.
Section Space.
Variables (t : torch_names) (sp : search_space) (on : bool) (req : list string).
Definition layer_like (name : string) : bool :=
  match name with String c (String d _) => (Ascii.eqb c "b" || Ascii.eqb c "t") && Ascii.eqb d "_" | _ => false end.
Definition the_distribution (name : string) : distribution :=
  if layer_like name then
    (if Ascii.eqb (final_char name) "s" then Categorical (map VInt (nodes sp))
     else if Ascii.eqb (final_char name) "n" then Categorical (map VText (TunModel.activations sp))
     else Categorical (map VReal (dropout sp)))
  else if String.eqb name "num_b_layers" then Ints 1 (max_b_layers sp)
  else if String.eqb name "num_t_layers" then Ints 1 (max_t_layers sp)
  else if String.eqb name "onet_latent_features" then Categorical (map VInt (nodes sp))
  else if String.eqb name "optimizer" then Categorical (map VText (optimizers sp))
  else if String.eqb name "learning_rate" then Categorical (map VReal (learning_rate sp))
  else if String.eqb name "weight_decay" then Categorical (map VReal (weight_decay sp))
  else if String.eqb name "sched_mode" then Categorical (map text_option (sched_mode sp))
  else if String.eqb name "sched_factor" then (if on then Floats (fst (sched_factor sp)) (snd (sched_factor sp)) else Categorical [VNone])
  else if String.eqb name "sched_patience" then (if on then Ints (fst (sched_patience sp)) (snd (sched_patience sp)) else Categorical [VNone])
  else if String.eqb name "sched_cooldown" then (if on then Ints (fst (sched_cooldown sp)) (snd (sched_cooldown sp)) else Categorical [VNone])
  else if String.eqb name "loss_function" then Categorical (map VText (loss_functions sp))
  else if String.eqb name "n_epochs" then Categorical (map VInt (n_epochs sp))
  else Categorical (map VInt (batch_sizes sp)).
(** ... and [req] are names that were registered. *)
Definition tidy (s : seen) : Prop := (forall name d, lookup name s = Some d -> d = the_distribution name) /\ forall n, In n req -> lookup n s <> None.
Lemma lookup_app n (s : seen) e : lookup n (s ++ [e])%list = match lookup n s with Some d => Some d | None => if String.eqb (fst e) n then Some (snd e) else None end.
Proof.
  unfold lookup. induction s as [|x s IH]; cbn [app find].
  - destruct (String.eqb (fst e) n); destruct e; reflexivity.
  - destruct (String.eqb (fst x) n); [destruct x; reflexivity|exact IH].
Qed.
Lemma register_tidy name s : tidy s -> exists s', register name (the_distribution name) s = (Ok tt, s') /\ tidy s'.
Proof.
  intros (T & Q). unfold register. destruct (lookup name s) as [d|] eqn:E.
  - exists s. rewrite (T name d E), compatible_refl. split; [reflexivity|split; assumption].
  - eexists. split; [reflexivity|]. split.
    + intros n d H. rewrite lookup_app in H. destruct (lookup n s) as [d'|] eqn:F; [apply T; congruence|]. cbn [fst snd] in H.
      destruct (String.eqb name n) eqn:En; [|discriminate]. apply String.eqb_eq in En. subst. congruence.
    + intros n H. rewrite lookup_app. specialize (Q n H). destruct (lookup n s); [discriminate|congruence].
Qed.
Lemma categorical_ok {A} (inj : A -> value) o name (choices : list A) s : tidy s -> choices <> [] -> the_distribution name = Categorical (map inj choices) ->
  exists a s', suggest_categorical inj o name choices s = (Ok a, s') /\ In a choices /\ tidy s'.
Proof.
  intros T N E. destruct choices as [|x l]; [congruence|]. unfold suggest_categorical, sbind. rewrite <- E.
  destruct (register_tidy name s T) as (s' & R & T'). rewrite R. eexists _, _. split; [reflexivity|]. split; [|exact T'].
  apply nth_In. apply Nat.mod_upper_bound. discriminate.
Qed.
Lemma int_ok o name low high s : tidy s -> low <= high -> the_distribution name = Ints low high ->
  exists a s', suggest_int o name low high s = (Ok a, s') /\ low <= a <= high /\ tidy s'.
Proof.
  intros T N E. unfold suggest_int. destruct (Nat.ltb_spec high low); [lia|]. unfold sbind. rewrite <- E.
  destruct (register_tidy name s T) as (s' & R & T'). rewrite R. eexists _, _. split; [reflexivity|]. split; [|exact T'].
  pose proof (Nat.mod_upper_bound (picks o name) (S (high - low)) ltac:(discriminate)). lia.
Qed.
Lemma float_ok o name low high s : tidy s -> (low <= high)%R -> the_distribution name = Floats low high ->
  exists a s', suggest_float o name low high s = (Ok a, s') /\ (low <= a <= high)%R /\ tidy s'.
Proof.
  intros T N E. unfold suggest_float. destruct (Rlt_dec high low); [lra|]. unfold sbind. rewrite <- E.
  destruct (register_tidy name s T) as (s' & R & T'). rewrite R. eexists _, _. split; [reflexivity|]. split; [|exact T'].
  set (u := Rmin 1 (Rmax 0 (fraction o name))). assert (0 <= u <= 1)%R.
  { subst u. split; [apply Rmin_glb; [lra|apply Rmax_l]|apply Rmin_l]. }
  assert (0 <= u * (high - low) <= 1 * (high - low))%R; [|lra]. split; [apply Rmult_le_pos; lra|apply Rmult_le_compat_r; lra].
Qed.

Lemma layer_distribution label i : label = "b" \/ label = "t" ->
  the_distribution (layer_name label i "nodes") = Categorical (map VInt (nodes sp)) /\
  the_distribution (layer_name label i "activation") = Categorical (map VText (TunModel.activations sp)) /\
  the_distribution (layer_name label i "dropout") = Categorical (map VReal (dropout sp)).
Proof.
  intros H.
  assert (F : forall what, what <> "" -> final_char (layer_name label i what) = final_char what).
  { intros what W. unfold layer_name. rewrite final_app by discriminate. rewrite final_app by (destruct (str_nat (i + 1)); discriminate).
    rewrite final_app by discriminate. rewrite final_app by exact W. reflexivity. }
  assert (L : forall what, layer_like (layer_name label i what) = true).
  { intros what. unfold layer_name. destruct H as [-> | ->]; reflexivity. }
  unfold the_distribution. rewrite !L, !F by discriminate. cbn. auto.
Qed.

(** The loop over the layers, with any way of finding the widths. *)
Lemma layer_loop_ok o label (good : nat -> nat -> Prop) (out_dim_of : nat -> sm nat) :
  label = "b" \/ label = "t" -> TunModel.activations sp <> [] -> dropout sp <> [] ->
  (forall a, In a (TunModel.activations sp) -> in_nn t a = true) -> (forall p, In p (dropout sp) -> (p <= 1)%R) ->
  forall left i in_dim s, tidy s ->
  (forall k s, i <= k < i + left -> tidy s -> exists n s', out_dim_of k s = (Ok n, s') /\ good k n /\ tidy s') ->
  exists layers final s', layer_loop t o sp label out_dim_of left i in_dim s = (Ok (layers, final), s') /\ tidy s' /\
    (forall out, chain in_dim out (layers ++ [Linear final out])) /\ MltSpec.activations layers = left /\
    List.length (linear_outputs layers) = left /\ (forall k, k < left -> good (i + k) (nth k (linear_outputs layers) 0)).
Proof.
  intros Lb Na Nd Ha Hd. induction left as [|left IH]; intros i in_dim s T W.
  - exists [], in_dim, s. cbn. split; [reflexivity|]. split; [exact T|]. repeat split; lia.
  - cbn [layer_loop]. unfold sbind at 1. destruct (W i s ltac:(lia) T) as (n & s1 & E1 & G1 & T1). rewrite E1.
    destruct (layer_distribution label i Lb) as (D1 & D2 & D3).
    unfold sbind at 1. destruct (categorical_ok VText o (layer_name label i "activation") (TunModel.activations sp) s1 T1 Na D2) as (a & s2 & E2 & I2 & T2). rewrite E2.
    unfold sbind at 1, getattr. rewrite (Ha a I2). unfold sret at 1.
    unfold sbind at 1. destruct (categorical_ok VReal o (layer_name label i "dropout") (dropout sp) s2 T2 Nd D3) as (p & s3 & E3 & I3 & T3). rewrite E3.
    specialize (Hd p I3).
    destruct (IH (S i) n s3 T3) as (layers & final & s4 & E4 & T4 & C4 & A4 & L4 & G4); [intros k s' Hk; apply W; lia|].
    assert (X : exists drop, (if Rlt_dec 0 p then if Rlt_dec 1 p then sraise ValueError else sret [Dropout] else sret []) s3 = (Ok drop, s3) /\ (drop = [] \/ drop = [Dropout])).
    { destruct (Rlt_dec 0 p); [destruct (Rlt_dec 1 p); [lra|]|]; eexists; split; try reflexivity; auto. }
    destruct X as (drop & E5 & Dr). unfold sbind at 1. rewrite E5. unfold sbind at 1. rewrite E4. unfold sret.
    exists (Linear in_dim n :: Activation :: drop ++ layers)%list, final, s4. cbn [fst snd]. split; [reflexivity|]. split; [exact T4|].
    repeat split.
    + destruct Dr as [-> | ->]; cbn [app chain]; apply C4.
    + destruct Dr as [-> | ->]; cbn; unfold MltSpec.activations in A4; rewrite A4; reflexivity.
    + destruct Dr as [-> | ->]; cbn; unfold linear_outputs in L4; rewrite L4; reflexivity.
    + intros k Hk. assert (X : linear_outputs (Linear in_dim n :: Activation :: drop ++ layers) = n :: linear_outputs layers) by (destruct Dr as [-> | ->]; reflexivity).
      rewrite X. destruct k as [|k]; [cbn [nth]; rewrite Nat.add_0_r; exact G1|]. cbn [nth]. rewrite <- plus_n_Sm. apply (G4 k). lia.
Qed.

Lemma layers_last layers final out : linear_outputs (layers ++ [Linear final out]) = (linear_outputs layers ++ [out])%list.
Proof. unfold linear_outputs. rewrite flat_map_app. reflexivity. Qed.
Lemma layers_acts layers final out : MltSpec.activations (layers ++ [Linear final out]) = MltSpec.activations layers.
Proof. unfold MltSpec.activations. rewrite filter_app, app_length. cbn. lia. Qed.

Definition net_ok (a latent most : nat) (net : list layer) : Prop :=
  chain a latent net /\ 1 <= MltSpec.activations net <= most /\ forall n, In n (removelast (linear_outputs net)) -> In n (nodes sp).
Lemma nn_model_ok o label a out most s : usable t sp -> tidy s -> 1 <= most -> (label = "b" /\ most = max_b_layers sp \/ label = "t" /\ most = max_t_layers sp) ->
  exists net s', init_nn_model t o sp a out label most s = (Ok net, s') /\ tidy s' /\ net_ok a out most net.
Proof.
  intros (U1 & U2 & U3 & U4 & U5 & _ & _ & _ & _ & _ & _ & _ & U13 & U14 & _) T M Lb. unfold init_nn_model, sbind at 1.
  assert (D0 : the_distribution ("num_" ++ label ++ "_layers") = Ints 1 most) by (destruct Lb as [(-> & ->)|(-> & ->)]; reflexivity).
  destruct (int_ok o _ 1 most s T M D0) as (n & s1 & E1 & I1 & T1). rewrite E1. unfold sbind at 1.
  assert (Lb' : label = "b" \/ label = "t") by tauto.
  destruct (layer_loop_ok o label (fun _ n => In n (nodes sp)) (fun i => suggest_categorical VInt o (layer_name label i "nodes") (nodes sp)) Lb' U4 U5 U13 U14 n 0 a s1 T1)
    as (layers & final & s2 & E2 & T2 & C2 & A2 & L2 & G2).
  { intros k s' _ T'. destruct (layer_distribution label k Lb') as (D1 & _). exact (categorical_ok VInt o _ (nodes sp) s' T' U3 D1). }
  rewrite E2. unfold sret. cbn [fst snd]. eexists _, _. split; [reflexivity|]. split; [exact T2|]. split; [apply C2|]. split.
  - rewrite layers_acts, A2. exact I1.
  - intros x Hx. rewrite layers_last, removelast_last in Hx. apply In_nth with (d := 0) in Hx. destruct Hx as (k & Hk & <-). apply (G2 k). lia.
Qed.

Lemma optimizer_ok o s : usable t sp -> tidy s -> exists n lr wd s', init_optimizer t o sp s = (Ok (n, lr, wd), s') /\ tidy s' /\ In n (optimizers sp) /\ In lr (learning_rate sp) /\ In wd (weight_decay sp).
Proof.
  intros (_ & _ & _ & _ & _ & _ & _ & U8 & U9 & U10 & _ & _ & _ & _ & U15 & U16 & U17 & _) T. unfold init_optimizer, sbind at 1.
  destruct (categorical_ok VText o "optimizer" (optimizers sp) s T U8 eq_refl) as (n & s1 & E1 & I1 & T1). rewrite E1. unfold sbind at 1.
  destruct (categorical_ok VReal o "learning_rate" (learning_rate sp) s1 T1 U9 eq_refl) as (lr & s2 & E2 & I2 & T2). rewrite E2. unfold sbind at 1.
  destruct (categorical_ok VReal o "weight_decay" (weight_decay sp) s2 T2 U10 eq_refl) as (wd & s3 & E3 & I3 & T3). rewrite E3. unfold sbind at 1, getattr.
  rewrite (U15 n I1). unfold sret at 1. specialize (U16 lr I2). specialize (U17 wd I3). destruct (Rlt_dec lr 0); [lra|]. destruct (Rlt_dec wd 0); [lra|].
  exists n, lr, wd, s3. repeat split; auto; apply T3.
Qed.
Definition sched_ok (q : option plateau) : Prop :=
  match q with
  | None => In None (sched_mode sp)
  | Some q => In (Some (mode q)) (sched_mode sp) /\ (fst (sched_factor sp) <= factor q <= snd (sched_factor sp))%R /\
              fst (sched_patience sp) <= patience q <= snd (sched_patience sp) /\ fst (sched_cooldown sp) <= cooldown q <= snd (sched_cooldown sp)
  end.
Lemma scheduler_ok o s : usable t sp -> tidy s -> (if on then scheduler_on sp else scheduler_off sp) -> exists q s', init_scheduler o sp s = (Ok q, s') /\ tidy s' /\ sched_ok q.
Proof.
  intros (_ & _ & _ & _ & _ & _ & _ & _ & _ & _ & U11 & _) T Hon. unfold init_scheduler, sbind at 1.
  destruct (categorical_ok text_option o "sched_mode" (sched_mode sp) s T U11 eq_refl) as (m & s1 & E1 & I1 & T1). rewrite E1.
  destruct m as [m|].
  - assert (on = true). { destruct on; [reflexivity|]. exfalso. specialize (Hon _ I1). discriminate. }
    destruct on eqn:Eon; [|discriminate]. destruct Hon as (H1 & (H2 & H3) & H4 & H5). unfold sbind at 1.
    destruct (float_ok o "sched_factor" (fst (sched_factor sp)) (snd (sched_factor sp)) s1 T1 H2) as (f & s2 & E2 & I2 & T2); [unfold the_distribution; cbn; rewrite Eon; reflexivity|]. rewrite E2. unfold sbind at 1.
    destruct (int_ok o "sched_patience" (fst (sched_patience sp)) (snd (sched_patience sp)) s2 T2 H4) as (p & s3 & E3 & I3 & T3); [unfold the_distribution; cbn; rewrite Eon; reflexivity|]. rewrite E3. unfold sbind at 1.
    destruct (int_ok o "sched_cooldown" (fst (sched_cooldown sp)) (snd (sched_cooldown sp)) s3 T3 H5) as (c & s4 & E4 & I4 & T4); [unfold the_distribution; cbn; rewrite Eon; reflexivity|]. rewrite E4.
    destruct (Rlt_dec f 1); [|lra]. exists (Some (mkPlateau m f p c)), s4.
    destruct (H1 _ I1) as [X|X]; injection X as ->; cbn [String.eqb Ascii.eqb Bool.eqb orb]; (split; [reflexivity|]); (split; [exact T4|]); cbn [sched_ok mode factor patience cooldown]; auto.
  - assert (Eon : on = false). { destruct on; [|reflexivity]. exfalso. destruct Hon as (H1 & _). destruct (H1 _ I1); discriminate. }
    unfold sbind at 1.
    destruct (categorical_ok text_option o "sched_factor" [None] s1 T1) as (x1 & s2 & E2 & _ & T2); [discriminate|unfold the_distribution; cbn; rewrite Eon; reflexivity|]. rewrite E2. unfold sbind at 1.
    destruct (categorical_ok text_option o "sched_patience" [None] s2 T2) as (x2 & s3 & E3 & _ & T3); [discriminate|unfold the_distribution; cbn; rewrite Eon; reflexivity|]. rewrite E3. unfold sbind at 1.
    destruct (categorical_ok text_option o "sched_cooldown" [None] s3 T3) as (x3 & s4 & E4 & _ & T4); [discriminate|unfold the_distribution; cbn; rewrite Eon; reflexivity|]. rewrite E4.
    exists None, s4. split; [reflexivity|]. split; [exact T4|exact I1].
Qed.
End Space.
