(** Facts about the search space: whole trials and studies. *)
From Coq Require Import Reals ZArith Lia Lra List Bool String Ascii.
From Verif Require Import Base MlfModel MlfFacts MltModel MltSpec MltFacts2 TunModel TunSpec TunFacts TunFacts4.
Local Open Scope string_scope.
Local Open Scope nat_scope.

Section Trials.
Variables (t : torch_names) (sp : search_space) (on : bool) (req : list string).
Notation tidy := (tidy sp on req).
Lemma onet_ok o fs ls s : usable t sp -> tidy s -> exists b tr out s', init_onet t o sp None fs ls s = (Ok (b, tr, out), s') /\ tidy s' /\
  net_ok sp fs out (max_b_layers sp) b /\ net_ok sp ls out (max_t_layers sp) tr /\ In out (nodes sp).
Proof.
  intros U T. pose proof U as (U1 & U2 & U3 & _). unfold init_onet, sbind at 1.
  destruct (categorical_ok sp on req VInt o "onet_latent_features" (nodes sp) s T U3 eq_refl) as (out & s1 & E1 & I1 & T1). rewrite E1. unfold sbind at 1.
  destruct (nn_model_ok t sp on req o "b" fs out (max_b_layers sp) s1 U T1 U1) as (b & s2 & E2 & T2 & N2); [auto|]. rewrite E2. unfold sbind at 1.
  destruct (nn_model_ok t sp on req o "t" ls out (max_t_layers sp) s2 U T2 U2) as (tr & s3 & E3 & T3 & N3); [auto|]. rewrite E3.
  exists b, tr, out, s3. split; [reflexivity|]. split; [exact T3|]. auto.
Qed.
(** What follows the networks. *)
Lemma rest_ok o pre fs ls s nets s1 : usable t sp -> init_onet t o sp pre fs ls s = (Ok nets, s1) -> tidy s1 -> (if on then scheduler_on sp else scheduler_off sp) ->
  exists c s', draw_config t sp pre fs ls o s = (Ok c, s') /\ tidy s' /\ (branch_net c, trunk_net c, latent c) = nets /\
    In (optimizer_name c) (optimizers sp) /\ In (rate c) (learning_rate sp) /\ In (decay c) (weight_decay sp) /\
    In (loss_name c) (loss_functions sp) /\ In (epochs c) (n_epochs sp) /\ In (batch c) (batch_sizes sp) /\ sched_ok sp (scheduler c).
Proof.
  intros U E0 T1 Hon. pose proof U as (_ & _ & _ & _ & _ & U6 & U7 & _ & _ & _ & _ & U12 & _ & _ & _ & _ & _ & U18).
  unfold draw_config, sbind at 1. rewrite E0. unfold sbind at 1.
  destruct (optimizer_ok t sp on req o s1 U T1) as (n & lr & wd & s2 & E2 & T2 & I2 & I3 & I4). rewrite E2. unfold sbind at 1.
  destruct (scheduler_ok t sp on req o s2 U T2 Hon) as (q & s3 & E3 & T3 & Q). rewrite E3. unfold sbind at 1.
  destruct (categorical_ok sp on req VText o "loss_function" (loss_functions sp) s3 T3 U12 eq_refl) as (lf & s4 & E4 & I5 & T4). rewrite E4. unfold sbind at 1, getattr.
  rewrite (U18 lf I5). unfold sret at 1. unfold sbind at 1.
  destruct (categorical_ok sp on req VInt o "n_epochs" (n_epochs sp) s4 T4 U6 eq_refl) as (ne & s5 & E5 & I6 & T5). rewrite E5. unfold sbind at 1.
  destruct (categorical_ok sp on req VInt o "batch_size" (batch_sizes sp) s5 T5 U7 eq_refl) as (bs & s6 & E6 & I7 & T6). rewrite E6.
  destruct nets as ((b, tr), out). eexists _, s6. split; [reflexivity|]. cbn. repeat split; try apply T6; assumption.
Qed.
Lemma trial_ok o fs ls s : usable t sp -> tidy s -> (if on then scheduler_on sp else scheduler_off sp) ->
  exists c s', draw_config t sp None fs ls o s = (Ok c, s') /\ tidy s' /\ from_space sp fs ls c.
Proof.
  intros U T Hon. destruct (onet_ok o fs ls s U T) as (b & tr & out & s1 & E1 & T1 & (N1 & N2 & N3) & (M1 & M2 & M3) & I1).
  destruct (rest_ok o None fs ls s _ s1 U E1 T1 Hon) as (c & s' & E & T' & Q & J1 & J2 & J3 & J4 & J5 & J6 & J7).
  exists c, s'. split; [exact E|]. split; [exact T'|]. injection Q as <- <- <-. unfold from_space. repeat (split; [assumption|]).
  split; [intros n H; apply in_app_or in H; destruct H as [H|H]; auto|]. repeat (split; [assumption|]). exact J7.
Qed.
(** Prebuilt widths. *)
Lemma prebuilt_net_ok o label a out n widths s : label = "b" \/ label = "t" -> usable t sp -> tidy s -> n <= List.length widths ->
  exists net s', init_prebuilt_nn_model t o sp a out label n widths s = (Ok net, s') /\ tidy s' /\ chain a out net /\ linear_outputs net = (firstn n widths ++ [out])%list /\ MltSpec.activations net = n.
Proof.
  intros Lb (_ & _ & _ & U4 & U5 & _ & _ & _ & _ & _ & _ & _ & U13 & U14 & _) T L. unfold init_prebuilt_nn_model, sbind at 1.
  destruct (layer_loop_ok t sp on req o label (fun k n => n = nth k widths 0) (fun i => match nth_error widths i with Some n => sret n | None => sraise IndexError end) Lb U4 U5 U13 U14 n 0 a s T)
    as (layers & final & s2 & E2 & T2 & C2 & A2 & L2 & G2).
  { intros k s' Hk T'. rewrite (nth_error_nth' widths 0) by lia. eexists _, _. split; [reflexivity|]. auto. }
  rewrite E2. unfold sret. cbn [fst snd]. eexists _, _. split; [reflexivity|]. split; [exact T2|]. split; [apply C2|]. split; [|rewrite layers_acts; exact A2].
  rewrite layers_last. f_equal. apply (nth_ext _ _ 0 0); [rewrite firstn_length; lia|]. rewrite L2. intros k Hk. rewrite (G2 k Hk).
  rewrite <- (firstn_skipn n widths) at 1. rewrite app_nth1 by (rewrite firstn_length; lia). reflexivity.
Qed.
Lemma prebuilt_trial_ok o pre fs ls s : usable t sp -> tidy s -> (if on then scheduler_on sp else scheduler_off sp) ->
  pre_b_layers pre <= List.length (pre_b_nodes pre) -> pre_t_layers pre <= List.length (pre_t_nodes pre) ->
  exists c s', draw_config t sp (Some pre) fs ls o s = (Ok c, s') /\ tidy s' /\ latent c = pre_out_dim pre /\
    chain fs (pre_out_dim pre) (branch_net c) /\ linear_outputs (branch_net c) = (firstn (pre_b_layers pre) (pre_b_nodes pre) ++ [pre_out_dim pre])%list /\
    chain ls (pre_out_dim pre) (trunk_net c) /\ linear_outputs (trunk_net c) = (firstn (pre_t_layers pre) (pre_t_nodes pre) ++ [pre_out_dim pre])%list.
Proof.
  intros U T Hon L1 L2.
  assert (X : exists b tr s1, init_onet t o sp (Some pre) fs ls s = (Ok (b, tr, pre_out_dim pre), s1) /\ tidy s1 /\
    chain fs (pre_out_dim pre) b /\ linear_outputs b = (firstn (pre_b_layers pre) (pre_b_nodes pre) ++ [pre_out_dim pre])%list /\
    chain ls (pre_out_dim pre) tr /\ linear_outputs tr = (firstn (pre_t_layers pre) (pre_t_nodes pre) ++ [pre_out_dim pre])%list).
  { unfold init_onet, sbind at 1. destruct (prebuilt_net_ok o "b" fs (pre_out_dim pre) _ _ s (or_introl eq_refl) U T L1) as (b & s1 & E1 & T1 & C1 & N1 & _). rewrite E1. unfold sbind at 1.
    destruct (prebuilt_net_ok o "t" ls (pre_out_dim pre) _ _ s1 (or_intror eq_refl) U T1 L2) as (tr & s2 & E2 & T2 & C2 & N2 & _). rewrite E2. exists b, tr, s2. repeat split; auto; apply T2. }
  destruct X as (b & tr & s1 & E1 & T1 & X1 & X2 & X3 & X4). destruct (rest_ok o (Some pre) fs ls s _ s1 U E1 T1 Hon) as (c & s' & E & T' & Q & _).
  exists c, s'. injection Q as -> -> ->. repeat split; auto; apply T'.
Qed.
End Trials.

(** All trials of a study. *)
Lemma study_ok t sp fs ls : usable t sp -> scheduler_off sp \/ scheduler_on sp -> forall os,
  List.length (fst (draw_trials t sp None fs ls os [])) = List.length os /\
  forall r, In r (fst (draw_trials t sp None fs ls os [])) -> exists c, r = Ok c /\ from_space sp fs ls c.
Proof.
  intros U H. assert (X : exists on, if on : bool then scheduler_on sp else scheduler_off sp) by (destruct H; [exists false|exists true]; assumption).
  destruct X as (on & Hon). intros os. assert (T0 : tidy sp on [] []) by (split; [intros n d Q; discriminate|intros n []]).
  revert T0. generalize (@nil (string * distribution)) as s. induction os as [|o os IH]; intros s T; [split; [reflexivity|intros r []]|].
  cbn [draw_trials]. destruct (trial_ok t sp on [] o fs ls s U T Hon) as (c & s1 & E & T1 & F). rewrite E. specialize (IH s1 T1).
  destruct (draw_trials t sp None fs ls os s1) as (rs, s2). cbn [fst] in *. destruct IH as (IH1 & IH2). split; [cbn; lia|].
  intros r [<- |Hr]; [exists c; auto|apply IH2; exact Hr].
Qed.
Lemma prebuilt_study_ok t sp pre fs ls : usable t sp -> scheduler_off sp \/ scheduler_on sp ->
  pre_b_layers pre <= List.length (pre_b_nodes pre) -> pre_t_layers pre <= List.length (pre_t_nodes pre) -> forall os,
  List.length (fst (draw_trials t sp (Some pre) fs ls os [])) = List.length os /\
  forall r, In r (fst (draw_trials t sp (Some pre) fs ls os [])) -> exists c, r = Ok c /\ latent c = pre_out_dim pre /\
    chain fs (latent c) (branch_net c) /\ linear_outputs (branch_net c) = (firstn (pre_b_layers pre) (pre_b_nodes pre) ++ [pre_out_dim pre])%list /\
    chain ls (latent c) (trunk_net c) /\ linear_outputs (trunk_net c) = (firstn (pre_t_layers pre) (pre_t_nodes pre) ++ [pre_out_dim pre])%list.
Proof.
  intros U H L1 L2. assert (X : exists on, if on : bool then scheduler_on sp else scheduler_off sp) by (destruct H; [exists false|exists true]; assumption).
  destruct X as (on & Hon). intros os. assert (T0 : tidy sp on [] []) by (split; [intros n d Q; discriminate|intros n []]).
  revert T0. generalize (@nil (string * distribution)) as s. induction os as [|o os IH]; intros s T; [split; [reflexivity|intros r []]|].
  cbn [draw_trials]. destruct (prebuilt_trial_ok t sp on [] o pre fs ls s U T Hon L1 L2) as (c & s1 & E & T1 & F1 & F2 & F3 & F4 & F5). rewrite E. specialize (IH s1 T1).
  destruct (draw_trials t sp (Some pre) fs ls os s1) as (rs, s2). cbn [fst] in *. destruct IH as (IH1 & IH2). split; [cbn; lia|].
  intros r [<- |Hr]; [exists c; rewrite F1; repeat split; auto|apply IH2; exact Hr].
Qed.
(** Too few widths. *)
Lemma prebuilt_short t sp on o pre fs ls : usable t sp -> (if on : bool then scheduler_on sp else scheduler_off sp) -> List.length (pre_b_nodes pre) < pre_b_layers pre ->
  fst (draw_config t sp (Some pre) fs ls o []) = Raise IndexError.
Proof.
  intros U Hon L.
  assert (X : forall left i a s, tidy sp on [] s -> List.length (pre_b_nodes pre) - i < left -> i <= List.length (pre_b_nodes pre) ->
    fst (layer_loop t o sp "b" (fun i => match nth_error (pre_b_nodes pre) i with Some n => sret n | None => sraise IndexError end) left i a s) = Raise IndexError).
  { pose proof U as (_ & _ & _ & U4 & U5 & _ & _ & _ & _ & _ & _ & _ & U13 & U14 & _).
    induction left as [|left IH]; intros i a s T B1 B2; [lia|]. cbn [layer_loop]. unfold sbind at 1.
    destruct (nth_error (pre_b_nodes pre) i) as [n|] eqn:E; [|reflexivity]. unfold sret at 1.
    assert (i < List.length (pre_b_nodes pre)) by (apply nth_error_Some; congruence).
    destruct (layer_distribution sp on "b" i (or_introl eq_refl)) as (D1 & D2 & D3).
    unfold sbind at 1. destruct (categorical_ok sp on [] VText o (layer_name "b" i "activation") (TunModel.activations sp) s T U4 D2) as (x & s2 & E2 & I2 & T2). rewrite E2.
    unfold sbind at 1, getattr. rewrite (U13 x I2). unfold sret at 1.
    unfold sbind at 1. destruct (categorical_ok sp on [] VReal o (layer_name "b" i "dropout") (dropout sp) s2 T2 U5 D3) as (p & s3 & E3 & I3 & T3). rewrite E3.
    specialize (U14 p I3).
    assert (X : exists drop, (if Rlt_dec 0 p then if Rlt_dec 1 p then sraise ValueError else sret [Dropout] else sret []) s3 = (Ok drop, s3)).
    { destruct (Rlt_dec 0 p); [destruct (Rlt_dec 1 p); [lra|]|]; eexists; reflexivity. }
    destruct X as (drop & E5). unfold sbind at 1. rewrite E5. unfold sbind at 1.
    specialize (IH (S i) n s3 T3 ltac:(lia) ltac:(lia)). destruct (layer_loop t o sp "b" _ left (S i) n s3) as (r, s4). cbn [fst] in IH. rewrite IH. reflexivity. }
  unfold draw_config, init_onet, init_prebuilt_nn_model, sbind.
  assert (T0 : tidy sp on [] []) by (split; [intros n d Q; discriminate|intros n []]).
  specialize (X (pre_b_layers pre) 0 fs [] T0 ltac:(lia) ltac:(lia)). destruct (layer_loop t o sp "b" _ (pre_b_layers pre) 0 fs []) as (r, s4). cbn [fst] in X. rewrite X. reflexivity.
Qed.

(** *** the scheduler's traps *)
Lemma pick_mode (modes : list (option string)) m : In m modes -> exists k, k < List.length modes /\ forall d, nth (k mod List.length modes) modes d = m.
Proof.
  intros H. apply In_nth with (d := None) in H. destruct H as (k & Hk & E). exists k. split; [exact Hk|]. intros d. rewrite Nat.mod_small by exact Hk.
  rewrite <- E. apply nth_indep. exact Hk.
Qed.
Definition draw_at (k : nat) (u : R) : sampler := mkSampler (fun n => if String.eqb n "sched_mode" then k else 0) (fun _ => u).
Lemma mode_drawn sp on req k u m s : tidy sp on req s -> sched_mode sp <> [] -> (forall d, nth (k mod List.length (sched_mode sp)) (sched_mode sp) d = m) ->
  exists s', suggest_categorical text_option (draw_at k u) "sched_mode" (sched_mode sp) s = (Ok m, s') /\ tidy sp on req s'.
Proof.
  intros T N H. destruct (categorical_ok sp on req text_option (draw_at k u) "sched_mode" (sched_mode sp) s T N eq_refl) as (a & s' & E & _ & T').
  exists s'. split; [|exact T']. rewrite E. f_equal. f_equal. unfold suggest_categorical, sbind in E. destruct (sched_mode sp) as [|x l] eqn:Q; [congruence|].
  destruct (register _ _ s) as ([[]|e], s1); [|discriminate]. unfold sret in E. injection E as E _. rewrite <- E. cbn [picks draw_at]. cbn [String.eqb Ascii.eqb Bool.eqb]. apply H.
Qed.
Lemma tidy_more sp on req n s : tidy sp on req s -> lookup n s <> None -> tidy sp on (n :: req) s.
Proof. intros (T & Q) H. split; [exact T|]. intros m [<- |I]; [exact H|exact (Q m I)]. Qed.
Lemma tidy_less sp on req s : tidy sp on req s -> tidy sp on [] s.
Proof. intros (T & _). split; [exact T|intros n []]. Qed.
Lemma registered_now {A} (inj : A -> value) o name choices s a s' : suggest_categorical inj o name choices s = (Ok a, s') -> lookup name s' <> None.
Proof.
  unfold suggest_categorical. destruct choices as [|x l]; [discriminate|]. unfold sbind, register. destruct (lookup name s) as [d|] eqn:E.
  - destruct (compatible d _); [|discriminate]. intros H. injection H as _ <-. congruence.
  - intros H. injection H as _ <-. rewrite lookup_app, E. cbn [fst snd]. rewrite String.eqb_refl. discriminate.
Qed.
(** A trial without scheduler. *)
Lemma off_trial t sp fs ls k u s : usable t sp -> tidy sp false [] s -> (forall d, nth (k mod List.length (sched_mode sp)) (sched_mode sp) d = None) ->
  exists c s', draw_config t sp None fs ls (draw_at k u) s = (Ok c, s') /\ tidy sp false ["sched_factor"] s'.
Proof.
  intros U T H. pose proof U as (_ & _ & _ & _ & _ & U6 & U7 & _ & _ & _ & U11 & U12 & _ & _ & _ & _ & _ & U18). set (o := draw_at k u).
  destruct (onet_ok t sp false [] o fs ls s U T) as (b & tr & out & s1 & E1 & T1 & _). unfold draw_config, sbind at 1. rewrite E1. unfold sbind at 1.
  destruct (optimizer_ok t sp false [] o s1 U T1) as (n & lr & wd & s2 & E2 & T2 & _). rewrite E2. unfold sbind at 1.
  assert (S : exists s3, init_scheduler o sp s2 = (Ok None, s3) /\ tidy sp false ["sched_factor"] s3).
  { unfold init_scheduler, sbind at 1. destruct (mode_drawn sp false [] k u None s2 T2 U11 H) as (s3 & E3 & T3). fold o in E3. rewrite E3. unfold sbind at 1.
    destruct (categorical_ok sp false [] text_option o "sched_factor" [None] s3 T3) as (x1 & s4 & E4 & _ & T4); [discriminate|reflexivity|]. rewrite E4.
    apply registered_now in E4. apply (tidy_more sp false [] "sched_factor") in T4; [|exact E4]. unfold sbind at 1.
    destruct (categorical_ok sp false ["sched_factor"] text_option o "sched_patience" [None] s4 T4) as (x2 & s5 & E5 & _ & T5); [discriminate|reflexivity|]. rewrite E5. unfold sbind at 1.
    destruct (categorical_ok sp false ["sched_factor"] text_option o "sched_cooldown" [None] s5 T5) as (x3 & s6 & E6 & _ & T6); [discriminate|reflexivity|]. rewrite E6. exists s6. auto. }
  destruct S as (s3 & E3 & T3). rewrite E3. unfold sbind at 1.
  destruct (categorical_ok sp false ["sched_factor"] VText o "loss_function" (loss_functions sp) s3 T3 U12 eq_refl) as (lf & s4 & E4 & I5 & T4). rewrite E4. unfold sbind at 1, getattr.
  rewrite (U18 lf I5). unfold sret at 1. unfold sbind at 1.
  destruct (categorical_ok sp false ["sched_factor"] VInt o "n_epochs" (n_epochs sp) s4 T4 U6 eq_refl) as (ne & s5 & E5 & I6 & T5). rewrite E5. unfold sbind at 1.
  destruct (categorical_ok sp false ["sched_factor"] VInt o "batch_size" (batch_sizes sp) s5 T5 U7 eq_refl) as (bs & s6 & E6 & I7 & T6). rewrite E6.
  eexists _, s6. split; [reflexivity|exact T6].
Qed.
(** ... then one with. *)
Lemma on_after_off t sp fs ls k u m s : usable t sp -> tidy sp false ["sched_factor"] s -> (forall d, nth (k mod List.length (sched_mode sp)) (sched_mode sp) d = Some m) ->
  fst (draw_config t sp None fs ls (draw_at k u) s) = Raise ValueError.
Proof.
  intros U T H. pose proof U as (_ & _ & _ & _ & _ & U6 & U7 & _ & _ & _ & U11 & U12 & _). set (o := draw_at k u).
  destruct (onet_ok t sp false ["sched_factor"] o fs ls s U T) as (b & tr & out & s1 & E1 & T1 & _). unfold draw_config, sbind at 1. rewrite E1. unfold sbind at 1.
  destruct (optimizer_ok t sp false ["sched_factor"] o s1 U T1) as (n & lr & wd & s2 & E2 & T2 & _). rewrite E2. unfold sbind at 1.
  assert (S : exists s3, init_scheduler o sp s2 = (Raise ValueError, s3)).
  { unfold init_scheduler, sbind at 1. destruct (mode_drawn sp false ["sched_factor"] k u (Some m) s2 T2 U11 H) as (s3 & E3 & T3). fold o in E3. rewrite E3. unfold sbind at 1, suggest_float.
    destruct (Rlt_dec (snd (sched_factor sp)) (fst (sched_factor sp))); [eexists; reflexivity|]. unfold sbind at 1, register.
    destruct T3 as (T3 & Q3). specialize (Q3 "sched_factor" (or_introl eq_refl)). destruct (lookup "sched_factor" s3) as [d|] eqn:L; [|congruence].
    rewrite (T3 _ _ L). eexists. reflexivity. }
  destruct S as (s3 & E3). rewrite E3. reflexivity.
Qed.
Lemma mixed_modes t sp fs ls m : usable t sp -> In None (sched_mode sp) -> In (Some m) (sched_mode sp) ->
  exists o1 o2 c, fst (draw_trials t sp None fs ls [o1; o2] []) = [Ok c; Raise ValueError].
Proof.
  intros U I1 I2. destruct (pick_mode _ _ I1) as (k1 & _ & P1). destruct (pick_mode _ _ I2) as (k2 & _ & P2).
  exists (draw_at k1 0), (draw_at k2 0). assert (T0 : tidy sp false [] []) by (split; [intros n d Q; discriminate|intros n []]).
  destruct (off_trial t sp fs ls k1 0 [] U T0 P1) as (c & s1 & E1 & T1). exists c. cbn [draw_trials]. rewrite E1.
  pose proof (on_after_off t sp fs ls k2 0 m s1 U T1 P2) as E2. destruct (draw_config t sp None fs ls (draw_at k2 0) s1) as (r, s2). cbn [fst] in *. rewrite E2. reflexivity.
Qed.
(** The largest factor of the default range. *)
Lemma factor_one t sp fs ls : usable t sp -> (forall m, In m (sched_mode sp) -> m = Some "min" \/ m = Some "max") -> (fst (sched_factor sp) <= snd (sched_factor sp))%R -> (1 <= snd (sched_factor sp))%R ->
  fst (sched_patience sp) <= snd (sched_patience sp) -> fst (sched_cooldown sp) <= snd (sched_cooldown sp) ->
  exists o, fst (draw_config t sp None fs ls o []) = Raise ValueError.
Proof.
  intros U Hm H2 H1 H4 H5. pose proof U as (_ & _ & _ & _ & _ & _ & _ & _ & _ & _ & U11 & _). set (o := draw_at 0 1). exists o.
  assert (T0 : tidy sp true [] []) by (split; [intros n d Q; discriminate|intros n []]).
  destruct (onet_ok t sp true [] o fs ls [] U T0) as (b & tr & out & s1 & E1 & T1 & _). unfold draw_config, sbind at 1. rewrite E1. unfold sbind at 1.
  destruct (optimizer_ok t sp true [] o s1 U T1) as (n & lr & wd & s2 & E2 & T2 & _). rewrite E2. unfold sbind at 1.
  assert (S : exists s3, init_scheduler o sp s2 = (Raise ValueError, s3)).
  { unfold init_scheduler, sbind at 1. destruct (categorical_ok sp true [] text_option o "sched_mode" (sched_mode sp) s2 T2 U11 eq_refl) as (m & s3 & E3 & I3 & T3). rewrite E3.
    destruct m as [m|]; [|destruct (Hm _ I3); discriminate]. unfold sbind at 1.
    destruct (float_ok sp true [] o "sched_factor" (fst (sched_factor sp)) (snd (sched_factor sp)) s3 T3 H2 eq_refl) as (f & s4 & E4 & I4 & T4). rewrite E4.
    assert (F : f = snd (sched_factor sp)).
    { unfold suggest_float in E4. destruct (Rlt_dec _ _) in E4; [discriminate|]. unfold sbind in E4. destruct (register _ _ s3) as ([[]|e], s5); [|discriminate].
      unfold sret in E4. injection E4 as <- _. subst o. cbn [fraction draw_at]. rewrite Rmax_right by lra. rewrite Rmin_left by lra. lra. }
    unfold sbind at 1.
    destruct (int_ok sp true [] o "sched_patience" (fst (sched_patience sp)) (snd (sched_patience sp)) s4 T4 H4 eq_refl) as (p & s5 & E5 & _ & T5). rewrite E5. unfold sbind at 1.
    destruct (int_ok sp true [] o "sched_cooldown" (fst (sched_cooldown sp)) (snd (sched_cooldown sp)) s5 T5 H5 eq_refl) as (c & s6 & E6 & _ & T6). rewrite E6.
    destruct (Rlt_dec f 1); [lra|]. eexists. reflexivity. }
  destruct S as (s3 & E3). rewrite E3. reflexivity.
Qed.

(** The defaults. *)
Lemma defaults_usable t : (forall a, In a ["ReLU"; "GELU"; "Tanh"; "MSELoss"; "L1Loss"; "SmoothL1Loss"] -> in_nn t a = true) -> (forall a, In a ["Adam"; "SGD"] -> in_optim t a = true) ->
  usable t default_space /\ scheduler_off default_space.
Proof.
  intros H1 H2. split; [|intros m [<- |[]]; reflexivity].
  unfold usable, default_space; cbn [max_b_layers max_t_layers nodes TunModel.activations dropout n_epochs batch_sizes optimizers learning_rate weight_decay sched_mode loss_functions].
  do 2 (split; [lia|]). do 10 (split; [discriminate|]).
  split; [intros a H; apply H1; cbn in *; tauto|]. split; [intros p H; cbn in H; destruct H as [<- |[<- |[<- |[]]]]; lra|].
  split; [exact H2|]. split; [intros p H; cbn in H; destruct H as [<- |[<- |[<- |[]]]]; lra|]. split; [intros p H; cbn in H; destruct H as [<- |[<- |[<- |[]]]]; lra|].
  intros a H; apply H1; cbn in *; tauto.
Qed.
Lemma default_factor t fs ls modes : (forall a, In a ["ReLU"; "GELU"; "Tanh"; "MSELoss"; "L1Loss"; "SmoothL1Loss"] -> in_nn t a = true) -> (forall a, In a ["Adam"; "SGD"] -> in_optim t a = true) ->
  modes <> [] -> (forall m, In m modes -> m = Some "min" \/ m = Some "max") ->
  exists o, fst (draw_config t (with_modes default_space modes) None fs ls o []) = Raise ValueError.
Proof.
  intros H1 H2 N Hm. apply factor_one; auto.
  - destruct (defaults_usable t H1 H2) as ((U1 & U2 & U3 & U4 & U5 & U6 & U7 & U8 & U9 & U10 & _ & U) & _).
    unfold usable, with_modes; cbn [max_b_layers max_t_layers nodes TunModel.activations dropout n_epochs batch_sizes optimizers learning_rate weight_decay sched_mode loss_functions].
    do 10 (split; [assumption|]). split; [exact N|exact U].
  - cbn. lra.
  - cbn. lra.
  - cbn. lia.
  - cbn. lia.
Qed.
