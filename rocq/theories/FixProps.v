(** Property theorems of the fixed-source drivers (C107, C108).  Vocabulary: SlabSpec.v, MgSpec.v, FixSpec.v. *)
From Coq Require Import Lra Lia.
From Verif Require Import Base BaseFacts SlabModel SlabSpec SlabFacts SlabWitness SphereModel SphereWitness.
From Verif Require Import MgModel MgSpec MgFacts MgWitness DmdModel DmdSpec DmdWitness.
From Verif Require Import FixModel FixSpec FixFacts FixFacts2 FixFacts3 FixWitness.
Open Scope R_scope.

(** ** C107 The four output modes of the fixed-source drivers describe one solution *)
Theorem C107_outputs :
  forall P materials groups xs_total s f external boundary,
  let run a e := fixed_source_iteration P materials groups xs_total (Scatter3 s) f external boundary 1 a e in
  angles P <> 1%nat -> nonzero_ordinates (angles P) (mu P) -> mg_divisors P groups xs_total ->
  (forall i, (i < cells P)%nat -> (medium P i < materials)%nat) ->
  exists F,
    run FlagFalse 0%nat = Ok (ScalarOut (scalar_c F)) /\ run FlagFalse 1%nat = Ok (ScalarOut (scalar_e F)) /\
    (forall a, a <> FlagFalse -> run a 0%nat = Ok (AngularOut (angular_c F)) /\ run a 1%nat = Ok (AngularOut (angular_e F))) /\
    carried_by P groups xs_total (mixed s f) external boundary (scalar_c F) (angular_e F) /\
    centres (cells P) (angles P) groups (angular_e F) (angular_c F) /\
    direction_sums (S (cells P)) (angles P) groups (wt P) (angular_e F) (scalar_e F) /\
    exists xs, (forall m o i, (m < materials)%nat -> (o < groups)%nat -> (i < groups)%nat -> xs m o i = mixed s f m o i) /\
      documented_exit (one_sweep_iso P groups xs_total xs external boundary 1) (cells P) groups 100 (/ 10 ^ 8)
        (fun _ _ => 0) (scalar_c F).
Proof. exact fixed_outputs. Qed.
Print Assumptions C107_outputs.
Theorem C107_accuracy :
  forall P materials groups xs_total s f external boundary c,
  let run a e := fixed_source_iteration P materials groups xs_total (Scatter3 s) f external boundary 1 a e in
  angles P <> 1%nat -> nonzero_ordinates (angles P) (mu P) -> mg_thin P groups xs_total ->
  (forall i, (i < cells P)%nat -> (medium P i < materials)%nat) ->
  (forall m, (m < angles P)%nat -> 0 <= wt P m) -> 0 <= c ->
  rsum (angles P) (wt P) * c < 1 -> mg_ratio P groups xs_total (mixed s f) c ->
  exists sol psi, mg_transport P groups xs_total (mixed s f) external boundary psi sol /\
    (forall other, mg_solution P groups xs_total (mixed s f) external boundary other -> agree2 (cells P) groups other sol) /\
    forall phi phi_e psi_c psi_e,
      run FlagFalse 0%nat = Ok (ScalarOut phi) -> run FlagFalse 1%nat = Ok (ScalarOut phi_e) ->
      run FlagTrue 0%nat = Ok (AngularOut psi_c) -> run FlagTrue 1%nat = Ok (AngularOut psi_e) ->
      (exists n, (1 <= n <= 100)%nat /\ forall M, 0 <= M ->
         (forall i g, (i < cells P)%nat -> (g < groups)%nat -> Rabs (sol i g) <= M) ->
         within2 (cells P) groups ((rsum (angles P) (wt P) * c) ^ n * M) phi sol) /\
      forall d, 0 <= d -> within2 (cells P) groups d phi sol ->
        (forall k m g, (k <= cells P)%nat -> (m < angles P)%nat -> (g < groups)%nat ->
           Rabs (psi_e k m g - psi g m k) <= c * d) /\
        within2 (S (cells P)) groups (rsum (angles P) (wt P) * (c * d)) phi_e
          (over_directions (angles P) (wt P) (fun k m g => psi g m k)) /\
        within2 (cells P) groups (rsum (angles P) (wt P) * (c * d)) (over_directions (angles P) (wt P) psi_c) sol.
Proof. exact fixed_accuracy. Qed.
Print Assumptions C107_accuracy.
Theorem C107_nonnegative :
  forall P materials groups xs_total s f external boundary,
  let run a e := fixed_source_iteration P materials groups xs_total (Scatter3 s) f external boundary 1 a e in
  angles P <> 1%nat -> nonzero_ordinates (angles P) (mu P) -> mg_thin P groups xs_total ->
  (forall i, (i < cells P)%nat -> (medium P i < materials)%nat) ->
  nonneg_problem P groups (mixed s f) external boundary ->
  (forall a e phi, (e <= 1)%nat -> run a e = Ok (ScalarOut phi) ->
     forall k g, (k < cells P + e)%nat -> (g < groups)%nat -> 0 <= phi k g) /\
  (forall a e psi, (e <= 1)%nat -> run a e = Ok (AngularOut psi) ->
     forall k m g, (k < cells P + e)%nat -> (m < angles P)%nat -> (g < groups)%nat -> 0 <= psi k m g).
Proof. exact fixed_nonneg. Qed.
Print Assumptions C107_nonnegative.
Theorem C107_balance :
  forall P materials groups xs_total s f external boundary phi psi_c psi_e,
  let run a e := fixed_source_iteration P materials groups xs_total (Scatter3 s) f external boundary 1 a e in
  angles P <> 1%nat -> nonzero_ordinates (angles P) (mu P) -> mg_divisors P groups xs_total ->
  (forall i, (i < cells P)%nat -> (medium P i < materials)%nat) -> (forall i, (i < cells P)%nat -> dx P i <> 0) ->
  run FlagFalse 0%nat = Ok (ScalarOut phi) -> run FlagTrue 0%nat = Ok (AngularOut psi_c) -> run FlagTrue 1%nat = Ok (AngularOut psi_e) ->
  leakage P groups psi_e
  + rsum (cells P) (fun i => dx P i * rsum groups (fun g =>
      xs_total (medium P i) g * over_directions (angles P) (wt P) psi_c i g))
  = rsum (cells P) (fun i => dx P i * rsum groups (fun g =>
      rsum (angles P) (wt P) * rsum groups (fun o => mixed s f (medium P i) o g) * phi i g))
    + rsum (cells P) (fun i => dx P i * rsum groups (fun g =>
        rsum (angles P) (fun m => wt P m * at3 external i (bidx (d3b external) m) (bidx (d3c external) g)))).
Proof. exact fixed_balance. Qed.
Print Assumptions C107_balance.
Theorem C107_accelerated_outputs :
  forall svd P materials groups xs_total s f external boundary warm K,
  angles P <> 1%nat -> nonzero_ordinates (angles P) (mu P) -> mg_divisors P groups xs_total ->
  (forall i, (i < cells P)%nat -> (medium P i < materials)%nat) ->
  let run a e := fixed_dynamic_mode_decomp svd P materials groups xs_total (Scatter3 s) f external boundary 1 a e warm K in
  (exists F xs,
    run FlagFalse 0%nat = Ok (ScalarOut (scalar_c F)) /\ run FlagFalse 1%nat = Ok (ScalarOut (scalar_e F)) /\
    (forall a, a <> FlagFalse -> run a 0%nat = Ok (AngularOut (angular_c F)) /\ run a 1%nat = Ok (AngularOut (angular_e F))) /\
    carried_by P groups xs_total (mixed s f) external boundary (scalar_c F) (angular_e F) /\
    centres (cells P) (angles P) groups (angular_e F) (angular_c F) /\
    direction_sums (S (cells P)) (angles P) groups (wt P) (angular_e F) (scalar_e F) /\
    (forall m o i, (m < materials)%nat -> (o < groups)%nat -> (i < groups)%nat -> xs m o i = mixed s f m o i) /\
    accelerated_run svd (one_sweep_iso P groups xs_total xs external boundary 1) (cells P) groups (fun _ _ => 0) warm K (scalar_c F)) \/
  (exists e, forall a ed, run a ed = Raise e).
Proof. exact fixed_dmd_outputs. Qed.
Print Assumptions C107_accelerated_outputs.
Example C107_case : angles demo <> 1%nat /\ nonzero_ordinates (angles demo) (mu demo) /\ mg_thin demo 2 duo_total /\
  mg_divisors demo 2 duo_total /\ (forall i, (i < cells demo)%nat -> (medium demo i < 2)%nat) /\
  (forall m, (m < angles demo)%nat -> 0 <= wt demo m) /\ rsum (angles demo) (wt demo) * (7 / 16) < 1 /\
  mg_ratio demo 2 duo_total (mixed duo_scatter duo_fission) (7 / 16) /\
  nonneg_problem demo 2 (mixed duo_scatter duo_fission) duo_ext duo_bnd /\
  exists phi phi_e psi_c psi_e,
  fixed_source_iteration demo 2 2 duo_total (Scatter3 duo_scatter) duo_fission duo_ext duo_bnd 1 FlagFalse 0 = Ok (ScalarOut phi) /\
  fixed_source_iteration demo 2 2 duo_total (Scatter3 duo_scatter) duo_fission duo_ext duo_bnd 1 FlagFalse 1 = Ok (ScalarOut phi_e) /\
  fixed_source_iteration demo 2 2 duo_total (Scatter3 duo_scatter) duo_fission duo_ext duo_bnd 1 FlagTrue 0 = Ok (AngularOut psi_c) /\
  fixed_source_iteration demo 2 2 duo_total (Scatter3 duo_scatter) duo_fission duo_ext duo_bnd 1 FlagTrue 1 = Ok (AngularOut psi_e).
Proof.
  split; [cbn; lia|]. split; [exact demo_nonzero|]. split; [exact duo_thin|]. split; [exact duo_divisors|].
  split; [exact duo_media|]. split; [exact (proj1 duo_weights)|]. split; [exact duo_mixed_weights|].
  split; [exact duo_mixed_ratio|]. split; [exact duo_nonneg|]. exact duo_runs.
Qed.

(** ** C108 Every documented geometry and option is served.  Refuted: the spherical solve has only the
    scalar flux at cell centres; a Legendre expansion of the scattering likewise; any other geometry number
    (the documentation calls 3 "spherical") returns a zero flux whatever the sources are. *)
Theorem C108_sphere_outputs_refuted :
  forall svd P materials groups T xs f ext bnd a e warm K,
  (exists m, (m < angles P)%nat /\ mu P m <> 0) -> (0 < groups)%nat -> a <> FlagFalse \/ e <> 0%nat ->
  (exists x, fixed_source_iteration P materials groups T xs f ext bnd 2 a e = Raise x) /\
  (exists x, fixed_dynamic_mode_decomp svd P materials groups T xs f ext bnd 2 a e warm K = Raise x).
Proof. exact fixed_sphere_modes. Qed.
Print Assumptions C108_sphere_outputs_refuted.
Theorem C108_moments_outputs_refuted :
  forall svd P materials groups T nm xs f ext bnd geometry a e warm K,
  a <> FlagFalse \/ e <> 0%nat ->
  fixed_source_iteration P materials groups T (Scatter4 nm xs) f ext bnd geometry a e
    = bind (fixed_source_iteration P materials groups T (Scatter4 nm xs) f ext bnd geometry FlagFalse 0) (fun _ => Raise TypeError) /\
  fixed_dynamic_mode_decomp svd P materials groups T (Scatter4 nm xs) f ext bnd geometry a e warm K
    = bind (fixed_dynamic_mode_decomp svd P materials groups T (Scatter4 nm xs) f ext bnd geometry FlagFalse 0 warm K) (fun _ => Raise TypeError).
Proof. exact fixed_moments_modes. Qed.
Print Assumptions C108_moments_outputs_refuted.
Theorem C108_other_geometry_refuted :
  forall P materials groups T s f ext bnd geometry a e,
  geometry <> 1%nat -> geometry <> 2%nat ->
  (a = FlagFalse -> (e <= 1)%nat ->
     fixed_source_iteration P materials groups T (Scatter3 s) f ext bnd geometry a e = Ok (ScalarOut (fun _ _ => 0))) /\
  (a <> FlagFalse -> fixed_source_iteration P materials groups T (Scatter3 s) f ext bnd geometry a e
     = Ok (AngularOut (fun _ _ _ => 0))).
Proof. exact fixed_other_geometry. Qed.
Print Assumptions C108_other_geometry_refuted.
Theorem C108_flag_identity :
  forall svd P materials groups T xs f ext bnd geometry e warm K,
  fixed_source_iteration P materials groups T xs f ext bnd geometry FlagOther e
    = fixed_source_iteration P materials groups T xs f ext bnd geometry FlagTrue e /\
  fixed_dynamic_mode_decomp svd P materials groups T xs f ext bnd geometry FlagOther e warm K
    = fixed_dynamic_mode_decomp svd P materials groups T xs f ext bnd geometry FlagTrue e warm K.
Proof. exact fixed_flag_identity. Qed.
Print Assumptions C108_flag_identity.
Example C108_case : (exists m, (m < angles ball)%nat /\ mu ball m <> 0) /\ (0 < 2)%nat /\
  (FlagFalse <> FlagFalse \/ 1%nat <> 0%nat) /\ 3%nat <> 1%nat /\ 3%nat <> 2%nat /\
  at3 duo_ext 0%nat 0%nat 1%nat <> 0 /\ at3 duo_bnd 0%nat 0%nat 0%nat <> 0.
Proof.
  split. { exists 0%nat. split; [cbn; lia|]. apply ball_nonzero. cbn; lia. }
  split; [lia|]. split; [right; lia|]. split; [lia|]. split; [lia|]. cbn. split; lra.
Qed.
