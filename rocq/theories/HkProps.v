(** Property theorems of the hybrid k-eigenvalue driver (C91).
    Vocabulary: HkSpec.v, TimeSpec.v (collision splitting), CritSpec.v, MgSpec.v, HybSpec.v. *)
From Coq Require Import Lra Lia.
From Verif Require Import Base BaseFacts SlabModel SlabSpec SlabWitness SphereModel MgModel MgSpec MgFacts4 MgFacts5 MgFacts6 MgFacts2 MgFacts3 MgWitness CritModel CritSpec.
From Verif Require Import HybModel HybSpec HybWitness MainModel MainSpec MainWitness TimeModel TimeSpec HkModel HkSpec HkFacts.
Open Scope R_scope.

(** ** C91 Hybrid power iteration *)
Theorem C91_exit :
  forall P leggauss groups angles_c groups_c T X F edges_g idx_u idx_c geometry guess r,
  hk_power_iteration P leggauss groups angles_c groups_c T X F edges_g idx_u idx_c geometry guess = Ok r ->
  exists ci fac PC Tc Xc n (x : nat -> hk_state),
    indexing edges_g idx_u groups_c idx_c = (uncollided_index groups_c idx_c, ci, fac) /\
    hk_collided_terms P leggauss groups angles_c groups_c T X edges_g idx_u idx_c = Ok (PC, Tc, Xc) /\
    (1 <= n <= 100)%nat /\ x 0%nat = (power_start (cells P) groups guess, zeros2) /\ r = fst (x n) /\
    (forall k, (k < n)%nat -> hk_step P PC groups groups_c T X F Tc Xc ci fac geometry (x k) = Ok (x (S k))) /\
    (forall k, (0 < k < n)%nat -> ~ settled2 (cells P) groups (fst (fst (x k))) (fst (fst (x (k - 1)%nat))) (/ 10 ^ 6)) /\
    ((n < 100)%nat -> settled2 (cells P) groups (fst (fst (x n))) (fst (fst (x (n - 1)%nat))) (/ 10 ^ 6)).
Proof. exact hk_trace. Qed.
Print Assumptions C91_exit.
Theorem C91_pass :
  forall P PC groups groups_c T X F Tc Xc ci fac old k_old c_old new k c_new,
  angles P <> 1%nat -> nonzero_ordinates (angles P) (mu P) -> mg_divisors P groups T ->
  cells PC = cells P -> medium PC = medium P ->
  nonneg_fission (cells P) groups (medium P) (FissionMatrix F) ->
  hk_step P PC groups groups_c T X F Tc Xc ci fac 1 (old, k_old, c_old) = Ok (new, k, c_new) ->
  exists fu,
    mg_solution P groups T (fun _ _ _ => 0) (hk_source P groups F old k_old) no_inflow fu /\
    (forall c sol, mg_thin PC groups_c Tc -> (forall m, (m < angles PC)%nat -> 0 <= wt PC m) ->
       0 <= c -> rsum (angles PC) (wt PC) * c < 1 -> mg_ratio PC groups_c Tc Xc c ->
       mg_solution PC groups_c Tc Xc (first_collisions P groups groups_c X ci fu) no_inflow sol ->
       exists n, (1 <= n <= 100)%nat /\
         forall d, 0 <= d -> within2 (cells P) groups_c d c_old sol ->
           within2 (cells P) groups_c ((rsum (angles PC) (wt PC) * c) ^ n * d) c_new sol) /\
    k = k_old * production (cells P) groups (FissionMatrix F) (medium P) (recombined ci fac fu c_new)
        / production (cells P) groups (FissionMatrix F) (medium P) old /\
    (forall i g, new i g = recombined ci fac fu c_new i g / norm2 (cells P) groups (recombined ci fac fu c_new)) /\
    (norm2 (cells P) groups new = 1 \/
     forall i g, (i < cells P)%nat -> (g < groups)%nat -> recombined ci fac fu c_new i g = 0).
Proof. exact hk_pass. Qed.
Print Assumptions C91_pass.
Theorem C91_one_grid :
  forall P groups T X F ci fac old k_old c_old new k c_new c full,
  angles P <> 1%nat -> nonzero_ordinates (angles P) (mu P) -> mg_thin P groups T ->
  (forall m, (m < angles P)%nat -> 0 <= wt P m) -> 0 <= c -> rsum (angles P) (wt P) * c < 1 -> mg_ratio P groups T X c ->
  nonneg_fission (cells P) groups (medium P) (FissionMatrix F) ->
  (forall g, (g < groups)%nat -> ci g = g /\ fac g = 1) ->
  hk_step P P groups groups T X F T X ci fac 1 (old, k_old, c_old) = Ok (new, k, c_new) ->
  mg_solution P groups T X (hk_source P groups F old k_old) no_inflow full ->
  exists fu raw n,
    mg_solution P groups T (fun _ _ _ => 0) (hk_source P groups F old k_old) no_inflow fu /\
    (1 <= n <= 100)%nat /\
    (forall d, 0 <= d -> within2 (cells P) groups d (fun i g => fu i g + c_old i g) full ->
       within2 (cells P) groups ((rsum (angles P) (wt P) * c) ^ n * d) raw full) /\
    k = k_old * production (cells P) groups (FissionMatrix F) (medium P) raw
        / production (cells P) groups (FissionMatrix F) (medium P) old /\
    (forall i g, new i g = raw i g / norm2 (cells P) groups raw).
Proof. exact hk_one_grid. Qed.
Print Assumptions C91_one_grid.
Theorem C91_coarse_data :
  forall P leggauss groups angles_c groups_c T X n edges_g idx_u idx_c PC Tc Xc,
  partition n groups idx_u -> monotone_edges n edges_g -> partition groups groups_c idx_c ->
  hk_collided_terms P leggauss groups angles_c groups_c T X edges_g idx_u idx_c = Ok (PC, Tc, Xc) ->
  let e := fun g => edges_g (idx_u g) in
  (groups_c = groups -> Tc = T /\ Xc = X) /\
  (groups_c <> groups -> forall m c, (c < groups_c)%nat ->
     block_width e idx_c c * Tc m c = group_sum idx_c c (fun g => width e g * T m g) /\
     forall o, (o < groups_c)%nat ->
       block_width e idx_c c * Xc m o c
       = group_sum idx_c o (fun og => group_sum idx_c c (fun g => width e g * X m og g))).
Proof. exact hk_coarse_data. Qed.
Print Assumptions C91_coarse_data.
Theorem C91_completes :
  forall P leggauss groups angles_c groups_c T X F edges_g idx_u idx_c guess,
  nonzero_ordinates (angles P) (mu P) ->
  (angles_c = angles P \/ exists h, angles_c = (2 * h)%nat /\ (0 < h)%nat /\
     gauss_pairs (2 * h) (fst (leggauss (2 * h)%nat)) (snd (leggauss (2 * h)%nat)) /\ (bc_left P + bc_right P <= 1)%nat) ->
  exists r, hk_power_iteration P leggauss groups angles_c groups_c T X F edges_g idx_u idx_c 1 guess = Ok r.
Proof. exact hk_total. Qed.
Print Assumptions C91_completes.
Theorem C91_two_mirrors :
  forall P leggauss groups angles_c groups_c T X F edges_g idx_u idx_c geometry guess,
  bc_left P = 1%nat -> bc_right P = 1%nat -> angles_c <> angles P -> angles_c <> 0%nat ->
  hk_power_iteration P leggauss groups angles_c groups_c T X F edges_g idx_u idx_c geometry guess = Raise UnboundLocalError.
Proof. exact hk_two_mirrors. Qed.
Print Assumptions C91_two_mirrors.

Definition hk_fission : mat3 := fun m o h => if Nat.eqb o 0 then 1 / 4 + INR h / 8 else 0.
Example C91_case : angles demo <> 1%nat /\ nonzero_ordinates (angles demo) (mu demo) /\ mg_thin demo 2 duo_total /\
  mg_ratio demo 2 duo_total duo_scatter (3 / 8) /\ nonneg_fission (cells demo) 2 (medium demo) (FissionMatrix hk_fission) /\
  partition 5 2 five_two /\ monotone_edges 5 squares /\
  (exists st, hk_step demo demo 2 2 duo_total duo_scatter hk_fission duo_total duo_scatter (fun g => g) (fun _ => 1) 1
                (fun _ _ => 1, 1, zeros2) = Ok st) /\
  (exists full, mg_solution demo 2 duo_total duo_scatter (hk_source demo 2 hk_fission (fun _ _ => 1) 1) no_inflow full) /\
  exists r, hk_power_iteration demo two_point 5 2 2 (fun m g => 1) (fun _ _ _ => 1 / 8) hk_fission squares (fun c => c) five_two 1
    (fun _ _ => 1) = Ok r.
Proof.
  split; [cbn; lia|]. split; [exact demo_nonzero|]. split; [exact duo_thin|]. split; [exact duo_ratio|].
  split. { intros i o h _ _ _. unfold hk_fission. pose proof (pos_INR h). destruct (Nat.eqb o 0); lra. }
  split; [exact five_two_partition|]. split; [exact squares_monotone|]. split; [|split].
  - unfold hk_step.
    match goal with |- context [known_source_scalar ?p ?g ?t ?q ?b 1 0] => destruct (known_total p g t q b 0) as [[phi ->] _] end.
    cbn [bind source_iteration].
    match goal with |- context [source_iteration_iso ?P ?g ?o ?t ?s ?e ?b 1] =>
      destruct (outer_total P g o t s e b demo_nonzero) as [raw Er]; rewrite Er end. cbn [bind]. eauto.
  - destruct (mg_unique_solution demo 2 duo_total duo_scatter (hk_source demo 2 hk_fission (fun _ _ => 1) 1) no_inflow (3 / 8))
      as (sol & H & _); [exact demo_nonzero|exact duo_thin|exact (proj1 duo_weights)|lra|exact (proj2 duo_weights)|exact duo_ratio|].
    exists sol. exact H.
  - apply hk_total; [exact demo_nonzero|]. left. reflexivity.
Qed.
