(** C126-C128: the fundamental mode, brackets of k, and convergence of power iteration. *)
From Coq Require Import Lra Lia.
From Verif Require Import Base BaseFacts SlabModel SlabSpec MgModel MgSpec SupSpec CritModel CritSpec CritFacts CritFacts2 CritFacts5 CritFacts6 CritFacts7 CritFacts8 CritFacts9 CritWitness2.
Open Scope R_scope.

(** ** C126 A fissile slab has exactly one critical state *)
Theorem C126_generation_even :
  forall (P : sn) (G : nat) (T : mat2) (X : mat3),
    damped_transport P G T X ->
    forall f : fission_data,
    (0 < cells P)%nat ->
    (0 < G)%nat ->
    nonneg_fission (cells P) G (medium P) f ->
    two_way P -> transmitting P G T -> well_fed P G X f -> exists d : R, even_generation P G T X f d.
Proof. exact @generation_even. Qed.
Print Assumptions C126_generation_even.
Theorem C126_damped_by_ratio :
  forall P G T X c,
  positive_sweeps P G T ->
  (forall i g h, (i < cells P)%nat -> (g < G)%nat -> (h < G)%nat -> 0 <= X (medium P i) g h) ->
  0 <= c -> rsum (angles P) (wt P) * c < 1 -> mg_ratio P G T X c -> damped_transport P G T X.
Proof. exact ratio_transport. Qed.
Print Assumptions C126_damped_by_ratio.
Theorem C126_damped_by_yield :
  forall P G T X c,
  positive_sweeps P G T -> sound_slab P -> 0 < rsum (angles P) (wt P) ->
  (forall i g h, (i < cells P)%nat -> (g < G)%nat -> (h < G)%nat -> 0 <= X (medium P i) g h) ->
  0 <= c < 1 -> yields_below P G T X c -> damped_transport P G T X.
Proof. exact yield_transport. Qed.
Print Assumptions C126_damped_by_yield.
Theorem C126_damped_by_leakage :
  forall P G T X,
  positive_sweeps P G T -> sound_slab P -> 0 < rsum (angles P) (wt P) ->
  (forall i g h, (i < cells P)%nat -> (g < G)%nat -> (h < G)%nat -> 0 <= X (medium P i) g h) ->
  yields_below P G T X 1 -> transmitting P G T -> leaky P -> damped_transport P G T X.
Proof. exact leak_transport. Qed.
Print Assumptions C126_damped_by_leakage.
Theorem C126_one_critical_state :
  forall P G T X f,
  damped_transport P G T X -> (0 < cells P)%nat -> (0 < G)%nat ->
  nonneg_fission (cells P) G (medium P) f -> two_way P -> transmitting P G T -> well_fed P G X f -> fissile P G f ->
  exists phi k, 0 < k /\ positive2 (cells P) G phi /\ eigenpair P G T X f phi k /\
    forall phi' k', 0 < k' -> positive2 (cells P) G phi' -> eigenpair P G T X f phi' k' ->
      k' = k /\ exists c, 0 < c /\ forall i g, (i < cells P)%nat -> (g < G)%nat -> phi' i g = c * phi i g.
Proof. exact one_mode. Qed.
Print Assumptions C126_one_critical_state.
Theorem C126_mode_exists :
  forall (P : sn) (G : nat) (T : mat2) (X : mat3),
    damped_transport P G T X ->
    forall (f : fission_data) (d : R),
    (0 < cells P)%nat ->
    (0 < G)%nat ->
    nonneg_fission (cells P) G (medium P) f ->
    even_generation P G T X f d ->
    fissile P G f ->
    two_way P ->
    transmitting P G T ->
    exists (phi : mat2) (k : R), 0 < k /\ positive2 (cells P) G phi /\ eigenpair P G T X f phi k.
Proof. exact @mode_exists. Qed.
Print Assumptions C126_mode_exists.
Theorem C126_k_unique :
  forall (P : sn) (G : nat) (T : mat2) (X : mat3),
    damped_transport P G T X ->
    forall (f : fission_data) (phi : mat2) (k : R) (phi' : mat2) (k' : R),
    (0 < cells P)%nat ->
    (0 < G)%nat ->
    nonneg_fission (cells P) G (medium P) f ->
    0 < k ->
    positive2 (cells P) G phi ->
    eigenpair P G T X f phi k ->
    0 < k' -> positive2 (cells P) G phi' -> eigenpair P G T X f phi' k' -> k = k'.
Proof. exact @mode_unique. Qed.
Print Assumptions C126_k_unique.
Theorem C126_shape_unique :
  forall (P : sn) (G : nat) (T : mat2) (X : mat3) (f : fission_data) (d : R),
    damped_transport P G T X ->
    (0 < cells P)%nat ->
    (0 < G)%nat ->
    nonneg_fission (cells P) G (medium P) f ->
    even_generation P G T X f d ->
    forall (phi : mat2) (k : R) (phi' : mat2) (k' : R),
    0 < k ->
    positive2 (cells P) G phi ->
    eigenpair P G T X f phi k ->
    0 < k' ->
    positive2 (cells P) G phi' ->
    eigenpair P G T X f phi' k' ->
    exists c : R, 0 < c /\ (forall i g : nat, (i < cells P)%nat -> (g < G)%nat -> phi' i g = c * phi i g).
Proof. exact @mode_shape. Qed.
Print Assumptions C126_shape_unique.
Theorem C126_dominant :
  forall (P : sn) (G : nat) (T : mat2) (X : mat3),
    damped_transport P G T X ->
    forall (f : fission_data) (phi : mat2) (k : R) (psi : mat2) (l : R),
    (0 < cells P)%nat ->
    (0 < G)%nat ->
    nonneg_fission (cells P) G (medium P) f ->
    0 < k ->
    positive2 (cells P) G phi ->
    eigenpair P G T X f phi k ->
    l <> 0 ->
    eigenpair P G T X f psi l ->
    (exists i g : nat, (i < cells P)%nat /\ (g < G)%nat /\ psi i g <> 0) -> Rabs l <= k.
Proof. exact @mode_dominant. Qed.
Print Assumptions C126_dominant.
Theorem C126_monotone_in_fission :
  forall (P : sn) (G : nat) (T : mat2) (X : mat3),
    damped_transport P G T X ->
    forall (f f' : fission_data) (phi : mat2) (k : R) (phi' : mat2) (k' : R),
    (0 < cells P)%nat ->
    (0 < G)%nat ->
    nonneg_fission (cells P) G (medium P) f ->
    (forall i o h : nat,
     (i < cells P)%nat ->
     (o < G)%nat -> (h < G)%nat -> fission_entry f (medium P i) o h <= fission_entry f' (medium P i) o h) ->
    0 < k ->
    positive2 (cells P) G phi ->
    eigenpair P G T X f phi k ->
    0 < k' -> positive2 (cells P) G phi' -> eigenpair P G T X f' phi' k' -> k <= k'.
Proof. exact @mode_monotone. Qed.
Print Assumptions C126_monotone_in_fission.
Example C126_case :
  damped_transport bar 2 bar_total bar_scatter /\ nonneg_fission (cells bar) 2 (medium bar) bar_fission /\
  two_way bar /\ transmitting bar 2 bar_total /\ well_fed bar 2 bar_scatter bar_fission /\ fissile bar 2 bar_fission /\
  (exists d, even_generation bar 2 bar_total bar_scatter bar_fission d) /\
  positive2 (cells bar) 2 bar_phi /\ eigenpair bar 2 bar_total bar_scatter bar_fission bar_phi 2.
Proof.
  split; [exact bar_damped|]. split; [exact bar_nonneg|]. split; [exact bar_two_way|]. split; [exact bar_transmitting|].
  split; [exact bar_fed|]. split; [exact bar_fissile|]. split; [|split; [exact bar_positive|exact bar_eigenpair]].
  apply (generation_even bar 2 bar_total bar_scatter bar_damped); cbn; try lia;
    [exact bar_nonneg|exact bar_two_way|exact bar_transmitting|exact bar_fed].
Qed.

(** ** C127 The growth of the flux over one generation brackets k *)
Theorem C127_bracket :
  forall (P : sn) (G : nat) (T : mat2) (X : mat3),
    damped_transport P G T X ->
    forall (f : fission_data) (phi : mat2) (k : R) (v w : mat2) (a b : R),
    (0 < cells P)%nat ->
    (0 < G)%nat ->
    nonneg_fission (cells P) G (medium P) f ->
    0 < k ->
    positive2 (cells P) G phi ->
    eigenpair P G T X f phi k ->
    positive2 (cells P) G v ->
    next_generation P G T X f v w ->
    (below2 (cells P) G (fun i g : nat => a * v i g) w -> a <= k) /\
    (below2 (cells P) G w (fun i g : nat => b * v i g) -> k <= b).
Proof. exact @mode_bracket. Qed.
Print Assumptions C127_bracket.
Theorem C127_nested :
  forall (P : sn) (G : nat) (T : mat2) (X : mat3),
    damped_transport P G T X ->
    forall (f : fission_data) (v w u : mat2) (a b : R),
    nonneg_fission (cells P) G (medium P) f ->
    next_generation P G T X f v w ->
    next_generation P G T X f w u ->
    (below2 (cells P) G (fun i g : nat => a * v i g) w -> below2 (cells P) G (fun i g : nat => a * w i g) u) /\
    (below2 (cells P) G w (fun i g : nat => b * v i g) -> below2 (cells P) G u (fun i g : nat => b * w i g)).
Proof. exact @bracket_nested. Qed.
Print Assumptions C127_nested.
Theorem C127_shrinks :
  forall (P : sn) (G : nat) (T : mat2) (X : mat3) (f : fission_data) (d : R),
    damped_transport P G T X ->
    (0 < cells P)%nat ->
    (0 < G)%nat ->
    nonneg_fission (cells P) G (medium P) f ->
    even_generation P G T X f d ->
    forall (v w u : mat2) (a b : R),
    below2 (cells P) G (fun _ _ : nat => 0) v ->
    positive2 (cells P) G w ->
    next_generation P G T X f v w ->
    next_generation P G T X f w u ->
    below2 (cells P) G (fun i g : nat => a * v i g) w ->
    below2 (cells P) G w (fun i g : nat => b * v i g) ->
    exists a' b' : R,
      a <= a' /\
      b' <= b /\
      b' - a' <= (1 - d ^ 2) * (b - a) /\
      below2 (cells P) G (fun i g : nat => a' * w i g) u /\
      below2 (cells P) G u (fun i g : nat => b' * w i g).
Proof. exact @bracket_shrinks. Qed.
Print Assumptions C127_shrinks.
Theorem C127_certificate :
  forall P G T X f phi k eta v kap v' kap',
  damped_transport P G T X -> (0 < cells P)%nat -> (0 < G)%nat -> nonneg_fission (cells P) G (medium P) f ->
  0 < k -> positive2 (cells P) G phi -> eigenpair P G T X f phi k -> 0 <= eta < 1 ->
  positive2 (cells P) G v -> 0 < kap -> 0 < production (cells P) G f (medium P) v ->
  power_step P G T (Scatter3 X) f 1 (v, kap) = Ok (v', kap') -> accurate_solve P G T X f eta (v, kap) ->
  exists source raw,
    (forall i g, (i < cells P)%nat -> (g < G)%nat -> source i g = emission G f (medium P) v i g / kap) /\
    source_iteration P G v T (Scatter3 X) (mkArr3 1 G (fun i _ g => source i g)) (mkArr3 1 1 (fun _ _ _ => 0)) 1 None = Ok raw /\
    (forall i g, v' i g = raw i g / norm2 (cells P) G raw) /\
    forall a b, (forall i g, (i < cells P)%nat -> (g < G)%nat -> a * v i g <= kap * raw i g <= b * v i g) ->
      a <= (1 + eta) * k /\ (1 - eta) * k <= b /\ a <= kap' <= b.
Proof. exact keff_certificate. Qed.
Print Assumptions C127_certificate.
Example C127_case :
  damped_transport bar 2 bar_total bar_scatter /\
  next_generation bar 2 bar_total bar_scatter bar_fission bar_phi (fun i g => 2 * bar_phi i g) /\
  0 < production (cells bar) 2 bar_fission (medium bar) bar_phi /\
  exists eta v' k', 0 <= eta < 1 /\ accurate_solve bar 2 bar_total bar_scatter bar_fission eta (bar_phi, 2) /\
    power_step bar 2 bar_total (Scatter3 bar_scatter) bar_fission 1 (bar_phi, 2) = Ok (v', k').
Proof.
  split; [exact bar_damped|]. split; [apply eigenpair_generation; [lra|exact bar_eigenpair]|].
  split; [cbn; unfold emission, bar_phi; cbn; lra|]. exact bar_accurate.
Qed.

(** ** C128 Power iteration converges to the fundamental mode *)
Theorem C128_converges :
  forall (P : sn) (G : nat) (T : mat2) (X : mat3) (f : fission_data) (d : R),
    damped_transport P G T X ->
    (0 < cells P)%nat ->
    (0 < G)%nat ->
    nonneg_fission (cells P) G (medium P) f ->
    even_generation P G T X f d ->
    forall (phi : mat2) (k eta : R) (N : nat) (x : nat -> mat2 * R),
    0 < k ->
    positive2 (cells P) G phi ->
    eigenpair P G T X f phi k ->
    0 <= eta < 1 ->
    positive2 (cells P) G (fst (x 0%nat)) ->
    0 < snd (x 0%nat) ->
    (forall m : nat,
     (m < N)%nat ->
     power_step P G T (Scatter3 X) f 1 (x m) = Ok (x (S m)) /\ accurate_solve P G T X f eta (x m)) ->
    let kap := (1 + eta) / (1 - eta) in
    let width := fun m : nat => (1 - d ^ 2) ^ m + (kap - / kap) / d ^ 2 in
    (forall m : nat,
     (S (S m) <= N)%nat -> Rabs (snd (x (S (S m))) - k) <= (width m + eta) * (kap * k / d ^ 2)) /\
    (forall m : nat,
     (S m <= N)%nat ->
     exists c : R,
       0 < c /\
       (forall i g : nat,
        (i < cells P)%nat ->
        (g < G)%nat -> c * phi i g <= fst (x (S m)) i g <= c * (1 + width m * kap ^ 2 / d ^ 6) * phi i g)).
Proof. exact @power_converges. Qed.
Print Assumptions C128_converges.
Theorem C128_accuracy_of_a_settled_solve :
  forall (P : sn) (G : nat) (T : mat2) (X : mat3) (f : fission_data) (d : R),
    damped_transport P G T X ->
    (0 < cells P)%nat ->
    (0 < G)%nat ->
    nonneg_fission (cells P) G (medium P) f ->
    even_generation P G T X f d ->
    forall (c : R) (p : mat2) (s : R) (st : mat2 * R),
    0 <= c < 1 ->
    damping P G T X c p ->
    (forall i g j h : nat,
     (i < cells P)%nat -> (g < G)%nat -> (j < cells P)%nat -> (h < G)%nat -> p i g <= s * p j h) ->
    below2 (cells P) G (fun _ _ : nat => 0) (fst st) ->
    0 < snd st ->
    let r := c * (/ 10 ^ 8 * INR (cells P)) / (1 - c) in
    r < 1 -> settled_solve P G T X f st -> accurate_solve P G T X f (r * s / ((1 - r) * d)) st.
Proof. exact @settled_accurate. Qed.
Print Assumptions C128_accuracy_of_a_settled_solve.
Theorem C128_power_iteration :
  forall (P : sn) (G : nat) (T : mat2) (X : mat3) (f : fission_data) (d : R),
    damped_transport P G T X ->
    (0 < cells P)%nat ->
    (0 < G)%nat ->
    nonneg_fission (cells P) G (medium P) f ->
    even_generation P G T X f d ->
    forall (phi : mat2) (k c : R) (p : mat2) (s : R) (guess flux : mat2) (keff : R),
    0 < k ->
    positive2 (cells P) G phi ->
    eigenpair P G T X f phi k ->
    0 <= c < 1 ->
    damping P G T X c p ->
    (forall i g j h : nat,
     (i < cells P)%nat -> (g < G)%nat -> (j < cells P)%nat -> (h < G)%nat -> p i g <= s * p j h) ->
    positive2 (cells P) G guess ->
    power_iteration P G T (Scatter3 X) f 1 guess = Ok (flux, keff) ->
    let r := c * (/ 10 ^ 8 * INR (cells P)) / (1 - c) in
    let eta := r * s / ((1 - r) * d) in
    let kap := (1 + eta) / (1 - eta) in
    let width := fun m : nat => (1 - d ^ 2) ^ m + (kap - / kap) / d ^ 2 in
    r < 1 ->
    eta < 1 ->
    exists (N : nat) (x : nat -> mat2 * R),
      (1 <= N <= 100)%nat /\
      x 0%nat = power_start (cells P) G guess /\
      x N = (flux, keff) /\
      (forall m : nat, (m < N)%nat -> power_step P G T (Scatter3 X) f 1 (x m) = Ok (x (S m))) /\
      ((forall m : nat, (m < N)%nat -> settled_solve P G T X f (x m)) ->
       ((2 <= N)%nat -> Rabs (keff - k) <= (width (N - 2)%nat + eta) * (kap * k / d ^ 2)) /\
       (exists s0 : R,
          0 < s0 /\
          (forall i g : nat,
           (i < cells P)%nat ->
           (g < G)%nat ->
           s0 * phi i g <= flux i g <= s0 * (1 + width (N - 1)%nat * kap ^ 2 / d ^ 6) * phi i g))).
Proof. exact @power_iteration_converges. Qed.
Print Assumptions C128_power_iteration.
Example C128_case :
  damping bar 2 bar_total bar_scatter (3 / 4) (fun _ _ => 1) /\
  (forall i g j h, (i < cells bar)%nat -> (g < 2)%nat -> (j < cells bar)%nat -> (h < 2)%nat -> (fun _ _ : nat => 1) i g <= 1 * (fun _ _ : nat => 1) j h) /\
  positive2 (cells bar) 2 bar_phi /\ eigenpair bar 2 bar_total bar_scatter bar_fission bar_phi 2 /\
  (exists r, power_iteration bar 2 bar_total (Scatter3 bar_scatter) bar_fission 1 bar_phi = Ok r) /\
  settled_solve bar 2 bar_total bar_scatter bar_fission (bar_phi, 2) /\
  exists d, even_generation bar 2 bar_total bar_scatter bar_fission d.
Proof.
  split; [exact bar_damping|]. split; [intros; lra|]. split; [exact bar_positive|]. split; [exact bar_eigenpair|].
  split; [apply power_total; exact (proj1 bar_damped)|]. split; [exact bar_settles|]. apply C126_case.
Qed.
