(** C95, C96: mesh convergence of the diamond-difference sweeps and of the manufactured benchmarks. *)
From Coq Require Import Lra Lia Reals.
From Verif Require Import Base BaseFacts SlabModel SlabSpec SlabWitness MgModel MgSpec MgFacts MgFacts2 MgFacts6 MgWitness ManModel ManSpec ConvSpec ConvFacts ConvFacts2 ConvWitness.
Open Scope R_scope.

(** ** C95 Second-order convergence in the mesh width *)
Theorem C95_known_source :
  forall P xs_total source boundary x h mu0 sigmax M2 M3 psi,
  angles P <> 1%nat -> regular_mesh P h mu0 -> cell_edges P x ->
  (forall i, (i < cells P)%nat -> 0 <= xs_total (medium P i) <= sigmax) ->
  continuous_flux P (fun i => xs_total (medium P i)) (fun m i => at2 source i (bidx (cols2 source) m))
    (boundary_in boundary (mu P)) x M2 M3 psi ->
  let L := rsum (cells P) (dx P) in
  forall m, (m < angles P)%nat ->
    (forall k, (k <= cells P)%nat ->
       Rabs (slab_known_source_sn P zeros2 (angles P) xs_total source boundary 1 k m - edge_value P x (psi m) k)
       <= edge_constant L sigmax mu0 M2 M3 * h ^ 2) /\
    (forall i, (i < cells P)%nat ->
       Rabs (slab_known_source_sn P zeros2 (angles P) xs_total source boundary 0 i m - psi m i (centre x i))
       <= centre_constant L sigmax mu0 M2 M3 * h ^ 2).
Proof. exact known_source_converges. Qed.
Print Assumptions C95_known_source.
Theorem C95_solution :
  forall P groups xs_total xs_scatter external boundary x h mu0 sigmax M2 M3 c psi sol,
  regular_mesh P h mu0 -> cell_edges P x -> mg_thin P groups xs_total ->
  (forall i g, (i < cells P)%nat -> (g < groups)%nat -> xs_total (medium P i) g <= sigmax) ->
  (forall m, (m < angles P)%nat -> 0 <= wt P m) -> 0 <= c ->
  rsum (angles P) (wt P) * c < 1 -> mg_ratio P groups xs_total xs_scatter c ->
  continuous_solution P groups xs_total xs_scatter external boundary x M2 M3 psi ->
  mg_solution P groups xs_total xs_scatter external boundary sol ->
  let W := rsum (angles P) (wt P) in let L := rsum (cells P) (dx P) in
  within2 (cells P) groups (W * centre_constant L sigmax mu0 M2 M3 * h ^ 2 / (1 - W * c)) sol
    (fun i g => centre_flux P x (psi g) i).
Proof. exact solution_converges. Qed.
Print Assumptions C95_solution.
Theorem C95_solver :
  forall P groups xs_total xs_scatter external boundary x h mu0 sigmax M2 M3 c psi old flux,
  regular_mesh P h mu0 -> cell_edges P x -> mg_thin P groups xs_total ->
  (forall i g, (i < cells P)%nat -> (g < groups)%nat -> xs_total (medium P i) g <= sigmax) ->
  (forall m, (m < angles P)%nat -> 0 <= wt P m) -> 0 <= c ->
  rsum (angles P) (wt P) * c < 1 -> mg_ratio P groups xs_total xs_scatter c ->
  continuous_solution P groups xs_total xs_scatter external boundary x M2 M3 psi ->
  source_iteration_iso P groups old xs_total xs_scatter external boundary 1 = Ok flux ->
  let W := rsum (angles P) (wt P) in let L := rsum (cells P) (dx P) in let rho := W * c in
  let mesh := W * centre_constant L sigmax mu0 M2 M3 * h ^ 2 / (1 - rho) in
  exists n, (1 <= n <= 100)%nat /\
    (forall d, 0 <= d -> within2 (cells P) groups d old (fun i g => centre_flux P x (psi g) i) ->
       within2 (cells P) groups (mesh + rho ^ n * (d + mesh)) flux (fun i g => centre_flux P x (psi g) i)) /\
    ((n < 100)%nat -> forall M, 0 <= M ->
       (forall i g, (i < cells P)%nat -> (g < groups)%nat -> Rabs (flux i g) <= M) ->
       within2 (cells P) groups (mesh + rho * (/ 10 ^ 8 * INR (cells P) * M) / (1 - rho)) flux
         (fun i g => centre_flux P x (psi g) i)).
Proof. exact solver_converges. Qed.
Print Assumptions C95_solver.
Example C95_case_known : forall k, (k <= 2)%nat ->
  Rabs (slab_known_source_sn demo zeros2 2%nat demo_total square_source (mkArr2 1 (fun _ _ => 0)) 1%nat k 1%nat - edge_value demo demo_x (square_psi 1) k) <= 3.
Proof.
  destruct demo_mesh as [M1 M2]. intros k Hk.
  destruct (known_source_converges demo demo_total square_source (mkArr2 1 (fun _ _ => 0)) demo_x 1 (1 / 2) 2 2 0 square_psi ltac:(cbn; lia)
    M1 M2 ltac:(intros i Hi; small i Hi; cbn; lra) square_flux 1%nat ltac:(cbn; lia)) as [E _].
  eapply Rle_trans; [exact (E k Hk)|]. unfold edge_constant. cbn. lra.
Qed.
Example C95_case_solution : forall per, (0 < per)%nat -> let P := grid per (1 * per) in
  exists psi sol, continuous_solution P 1 (fun _ _ => 1) (fun _ _ _ => 1 / 2) (mkArr3 2 1 (fun i m _ => mu P m + 1 / 2 * centre (grid_x per) i))
    (mkArr3 1 1 (fun s _ _ => if Nat.eqb s 0 then 0 else 1)) (grid_x per) 0 0 psi /\
  mg_solution P 1 (fun _ _ => 1) (fun _ _ _ => 1 / 2) (mkArr3 2 1 (fun i m _ => mu P m + 1 / 2 * centre (grid_x per) i))
    (mkArr3 1 1 (fun s _ _ => if Nat.eqb s 0 then 0 else 1)) sol /\
  within2 (cells P) 1 0 sol (fun i g => centre (grid_x per) i).
Proof.
  intros per Hp P. pose proof (grid_meshes per 1 Hp ltac:(lia)) as MS. change (INR 1) with 1 in MS.
  pose proof (grid_regular per (1 * per) Hp ltac:(lia)) as RG. pose proof (grid_thin per Hp) as TH. fold P in MS, RG.
  pose (psi := fun (g m i : nat) (y : R) => y).
  assert (FL : forall i, centre_flux P (grid_x per) (psi 0%nat) i = centre (grid_x per) i) by (intros; unfold centre_flux, psi; cbn; field).
  assert (C : continuous_solution P 1 (fun _ _ => 1) (fun _ _ _ => 1 / 2) (mkArr3 2 1 (fun i m _ => mu P m + 1 / 2 * centre (grid_x per) i))
    (mkArr3 1 1 (fun s _ _ => if Nat.eqb s 0 then 0 else 1)) (grid_x per) 0 0 psi).
  { intros g Hg. split; [|split; [|split]].
    - intros m i Hm Hi. exists (fun _ => 1), (fun _ => 0), (fun _ => 0). intros y _. rewrite Rabs_R0.
      repeat split; try apply derivable_pt_lim_const; try apply derivable_pt_lim_id; lra.
    - reflexivity.
    - intros m i Hm Hi. exists 1. split; [apply derivable_pt_lim_id|]. unfold mg_source. cbn [rsum d3b d3c at3]. rewrite FL. unfold psi.
      change (bidx 2 m) with m. lra.
    - intros m Hm. cbv zeta. destruct MS as (_ & X0 & X1 & _). unfold enters_reflective. cbn [P grid bc_left bc_right Nat.eqb].
      unfold mg_boundary, inflow_edge, edge_value, psi. cbn [d3b d3c at3].
      destruct (Rlt_dec 0 (mu P m)) as [H|H]; cbn [P grid mu cells] in *.
      + destruct (Nat.ltb_spec 0 (1 * per)); [|lia]. rewrite X0. cbn [Nat.eqb]. lra.
      + rewrite Nat.ltb_irrefl, X1. cbn [Nat.eqb]. lra. }
  destruct (grid_weights per (1 * per)) as [W1 W2]. fold P in W1, W2.
  assert (TN : mg_thin P 1 (fun _ _ => 1)).
  { intros g Hg m j Hm Hj. destruct RG as (_ & _ & Hd & Hmu & _). destruct (Hd j Hj). specialize (Hmu m Hm). lra. }
  assert (RT : mg_ratio P 1 (fun _ _ => 1) (fun _ _ _ => 1 / 2) (1 / 2)) by (intros g j Hg Hj; cbn [rsum]; rewrite Rabs_right; lra).
  destruct (MgFacts3.mg_unique_solution P 1 (fun _ _ => 1) (fun _ _ _ => 1 / 2) (mkArr3 2 1 (fun i m _ => mu P m + 1 / 2 * centre (grid_x per) i))
    (mkArr3 1 1 (fun s _ _ => if Nat.eqb s 0 then 0 else 1)) (1 / 2) (grid_nonzero per (1 * per)) TN W1 ltac:(lra) ltac:(rewrite W2; lra) RT) as (sol & Hs & _).
  exists psi, sol. split; [exact C|]. split; [exact Hs|]. intros i g Hi Hg.
  pose proof (solution_converges P 1 (fun _ _ => 1) (fun _ _ _ => 1 / 2) _ _ (grid_x per) (/ INR per) (1 / 2) 1 0 0 (1 / 2) psi sol RG (proj1 MS) TN
    ltac:(intros; lra) W1 ltac:(lra) ltac:(rewrite W2; lra) RT C Hs i g Hi Hg) as E.
  replace g with 0%nat in * by lia. cbv beta in E. rewrite FL in E. eapply Rle_trans; [exact E|]. right.
  rewrite W2. unfold centre_constant, edge_constant. field. apply not_0_INR. lia.
Qed.

(** ** C96 The library's manufactured benchmarks, at every mesh *)
Theorem C96_absorber :
  forall P x h mu0 old flux,
  regular_mesh P h mu0 -> h <= 2 * mu0 -> meshes P x 0 1 -> (forall m, (m < angles P)%nat -> 0 <= wt P m) ->
  source_iteration_iso P 1 old (fun _ _ => 1) (fun _ _ _ => 0) (mkArr3 1 1 (fun _ _ _ => 1))
    (mkArr3 1 1 (fun s _ _ => if Nat.eqb s 0 then 1 else 0)) 1 = Ok flux ->
  forall i, (i < cells P)%nat ->
    Rabs (flux i 0%nat - quadrature P (solution_ss_01 (cells P) (centre x) (angles P) (mu P)) i)
    <= rsum (angles P) (wt P) * (1 / (3 * mu0 ^ 3) + 1 / (8 * mu0 ^ 2)) * h ^ 2.
Proof. exact benchmark_01. Qed.
Print Assumptions C96_absorber.
Theorem C96_absorber_half :
  forall P x h mu0 old flux,
  regular_mesh P h mu0 -> h <= 2 * mu0 -> meshes P x 0 1 -> (forall m, (m < angles P)%nat -> 0 <= wt P m) ->
  source_iteration_iso P 1 old (fun _ _ => 1) (fun _ _ _ => 0) (mkArr3 1 1 (fun _ _ _ => 1 / 2))
    (mkArr3 1 1 (fun s _ _ => if Nat.eqb s 0 then 1 else 0)) 1 = Ok flux ->
  forall i, (i < cells P)%nat ->
    Rabs (flux i 0%nat - quadrature P (solution_ss_02 (cells P) (centre x) (angles P) (mu P)) i)
    <= rsum (angles P) (wt P) * (1 / (3 * mu0 ^ 3) + 1 / (8 * mu0 ^ 2)) * h ^ 2.
Proof. exact benchmark_02. Qed.
Print Assumptions C96_absorber_half.
Theorem C96_two_materials :
  forall P x h mu0 old flux,
  regular_mesh P h mu0 -> h <= 2 * mu0 -> meshes P x 0 2 -> interface P x 1 ->
  (forall m, (m < angles P)%nat -> 0 <= wt P m) -> rsum (angles P) (wt P) = 1 ->
  source_iteration_iso P 1 old (fun _ _ => 1) (fun mat _ _ => if Nat.eqb mat 0 then 0.3 else 0.9)
    (mkArr3 (angles P) 1 (fun i m _ => external_ss_04 (cells P) (centre x) (angles P) (mu P) i m))
    (mkArr3 1 1 (fun s _ _ => boundary_ss_04 s)) 1 = Ok flux ->
  let exact := quadrature P (solution_ss_04 (cells P) (centre x) (angles P) (mu P)) in
  let mesh := (20 / mu0 + 5) * h ^ 2 in
  exists n, (1 <= n <= 100)%nat /\
    (forall d, 0 <= d -> within (cells P) d (fun i => old i 0%nat) exact ->
       within (cells P) (mesh + 0.9 ^ n * (d + mesh)) (fun i => flux i 0%nat) exact) /\
    ((n < 100)%nat -> forall M, 0 <= M -> (forall i, (i < cells P)%nat -> Rabs (flux i 0%nat) <= M) ->
       within (cells P) (mesh + 9 * (/ 10 ^ 8 * INR (cells P) * M)) (fun i => flux i 0%nat) exact).
Proof. exact benchmark_04. Qed.
Print Assumptions C96_two_materials.
Example C96_case_absorber : forall per, (0 < per)%nat -> exists flux,
  source_iteration_iso (grid per (1 * per)) 1 zeros2 (fun _ _ => 1) (fun _ _ _ => 0) (mkArr3 1 1 (fun _ _ _ => 1))
    (mkArr3 1 1 (fun s _ _ => if Nat.eqb s 0 then 1 else 0)) 1 = Ok flux /\
  forall i, (i < 1 * per)%nat ->
    Rabs (flux i 0%nat - quadrature (grid per (1 * per)) (solution_ss_01 (1 * per) (centre (grid_x per)) 2 (mu (grid per (1 * per)))) i)
    <= 1 * (1 / (3 * (1 / 2) ^ 3) + 1 / (8 * (1 / 2) ^ 2)) * (/ INR per) ^ 2.
Proof.
  intros per Hp. destruct (outer_total (grid per (1 * per)) 1 zeros2 (fun _ _ => 1) (fun _ _ _ => 0) (mkArr3 1 1 (fun _ _ _ => 1))
    (mkArr3 1 1 (fun s _ _ => if Nat.eqb s 0 then 1 else 0)) (grid_nonzero _ _)) as [flux E]. exists flux. split; [exact E|].
  destruct (grid_weights per (1 * per)) as [W1 W2].
  pose proof (benchmark_01 (grid per (1 * per)) (grid_x per) (/ INR per) (1 / 2) zeros2 flux (grid_regular per (1 * per) Hp ltac:(lia)) (grid_thin per Hp)
    (grid_meshes per 1 Hp ltac:(lia)) W1 E) as B. rewrite W2 in B. exact B.
Qed.
Example C96_case_two_materials : forall per, (0 < per)%nat -> exists flux n, let P := grid per (2 * per) in
  let exact := quadrature P (solution_ss_04 (2 * per) (centre (grid_x per)) 2 (mu P)) in
  source_iteration_iso P 1 zeros2 (fun _ _ => 1) (fun mat _ _ => if Nat.eqb mat 0 then 0.3 else 0.9)
    (mkArr3 2 1 (fun i m _ => external_ss_04 (2 * per) (centre (grid_x per)) 2 (mu P) i m))
    (mkArr3 1 1 (fun s _ _ => boundary_ss_04 s)) 1 = Ok flux /\ (1 <= n <= 100)%nat /\
  forall d, 0 <= d -> within (cells P) d (fun i => zeros2 i 0%nat) exact ->
    within (cells P) ((20 / (1 / 2) + 5) * (/ INR per) ^ 2 + 0.9 ^ n * (d + (20 / (1 / 2) + 5) * (/ INR per) ^ 2)) (fun i => flux i 0%nat) exact.
Proof.
  intros per Hp. cbv zeta. destruct (outer_total (grid per (2 * per)) 1 zeros2 (fun _ _ => 1) (fun mat _ _ => if Nat.eqb mat 0 then 0.3 else 0.9)
    (mkArr3 2 1 (fun i m _ => external_ss_04 (2 * per) (centre (grid_x per)) 2 (mu (grid per (2 * per))) i m))
    (mkArr3 1 1 (fun s _ _ => boundary_ss_04 s)) (grid_nonzero _ _)) as [flux E].
  destruct (grid_weights per (2 * per)) as [W1 W2].
  destruct (benchmark_04 (grid per (2 * per)) (grid_x per) (/ INR per) (1 / 2) zeros2 flux (grid_regular per (2 * per) Hp ltac:(lia)) (grid_thin per Hp)
    (grid_meshes per 2 Hp ltac:(lia)) (grid_interface per Hp) W1 W2 E) as (n & Hn & A & _).
  exists flux, n. split; [exact E|]. split; [exact Hn|]. exact A.
Qed.
