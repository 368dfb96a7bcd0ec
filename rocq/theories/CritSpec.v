(** Specification vocabulary for k-eigenvalue problems, independent of the kernels' code. *)
From Verif Require Import Base SlabModel SlabSpec MgModel MgSpec SupSpec CritModel.
Open Scope R_scope.

(** Neutrons emitted by fission into group [o] per unit volume of cell [i], before division by k. *)
Definition emission (groups : nat) (f : fission_data) (medium : nat -> nat) (phi : mat2) (i o : nat) : R :=
  rsum groups (fun h => fission_entry f (medium i) o h * phi i h).

(** Sum of the emission densities over groups and cells (cells are not weighted by their width). *)
Definition production (cells groups : nat) (f : fission_data) (medium : nat -> nat) (phi : mat2) : R :=
  rsum cells (fun i => rsum groups (fun o => emission groups f medium phi i o)).

(** Cross sections and spectra are nonnegative in the materials that occur. *)
Definition nonneg_fission (cells groups : nat) (medium : nat -> nat) (f : fission_data) : Prop :=
  forall i o h, (i < cells)%nat -> (o < groups)%nat -> (h < groups)%nat ->
  match f with
  | FissionMatrix xs => 0 <= xs (medium i) o h
  | FissionVector chi nusigf => 0 <= chi (medium i) o /\ 0 <= nusigf (medium i) h
  end.

(** [(phi, k)] solves the discrete k-eigenvalue problem: transport with scattering, source
    emission / k, and nothing entering from outside. *)
Definition eigenpair (P : sn) (groups : nat) (xs_total : mat2) (xs_scatter : mat3) (f : fission_data)
    (phi : mat2) (k : R) : Prop :=
  mg_solution P groups xs_total xs_scatter
    (mkArr3 1 groups (fun i _ g => emission groups f (medium P) phi i g / k))
    (mkArr3 1 1 (fun _ _ _ => 0)) phi.

(** Infinite medium (0D): the balance of every group, with the isotropic emission weighted by the
    quadrature. *)
Definition balance_0d (angles groups : nat) (wt xs_total : vec) (xs_scatter : mat2) (ext_rows : nat)
    (external : arr2) (phi : vec) : Prop :=
  forall g, (g < groups)%nat ->
    xs_total g * phi g = rsum angles (fun n => wt n *
      (rsum groups (fun h => xs_scatter g h * phi h)
       + at2 external (bidx ext_rows n) (bidx (cols2 external) g))).

Definition fission_entry_0d (f : fission_0d) (o h : nat) : R :=
  match f with FissionMatrix0 xs => xs o h | FissionVector0 chi nusigf => chi o * nusigf h end.
Definition emission_0d (groups : nat) (f : fission_0d) (phi : vec) (o : nat) : R :=
  rsum groups (fun h => fission_entry_0d f o h * phi h).
Definition production_0d (groups : nat) (f : fission_0d) (phi : vec) : R :=
  rsum groups (emission_0d groups f phi).

Definition within1 (n : nat) (d : R) (f g : vec) : Prop :=
  forall h, (h < n)%nat -> Rabs (f h - g h) <= d.

(** All fission data multiplied by [c]. *)
Definition scale_fission (c : R) (f : fission_data) : fission_data :=
  match f with
  | FissionMatrix xs => FissionMatrix (fun m o h => c * xs m o h)
  | FissionVector chi nusigf => FissionVector chi (fun m h => c * nusigf m h)
  end.

(** A run of a power loop from [start] to [last]: at most [cap] passes, the change is not below
    [tol] before the last pass, and below it at the last pass unless the cap was reached. *)
Definition power_exit (step : mat2 * R -> outcome (mat2 * R)) (cells groups cap : nat) (tol : R)
    (start last : mat2 * R) : Prop :=
  exists n x,
    (1 <= n <= cap)%nat /\ x 0%nat = start /\ last = x n /\
    (forall k, (k < n)%nat -> step (x k) = Ok (x (S k))) /\
    (forall k, (0 < k < n)%nat -> ~ settled2 cells groups (fst (x k)) (fst (x (k - 1)%nat)) tol) /\
    ((n < cap)%nat -> settled2 cells groups (fst (x n)) (fst (x (n - 1)%nat)) tol).

(** In-scatter of group [gg] from the other groups: new fluxes of the groups already swept, old
    fluxes of the others. *)
Definition gs_off0 (groups : nat) (new old : vec) (xs : mat2) (gg : nat) : R :=
  rsum groups (fun h => if Nat.eqb h gg then 0 else xs gg h * (if Nat.ltb h gg then new h else old h)).

(** In-scatter into every group, weighted by the quadrature, is at most [c] times its total cross section. *)
Definition ratio_0d (angles groups : nat) (wt xs_total : vec) (xs_scatter : mat2) (c : R) : Prop :=
  forall g, (g < groups)%nat -> 0 < xs_total g /\
    rsum angles wt * rsum groups (fun h => Rabs (xs_scatter g h)) <= c * xs_total g.

(** Stopping test of the infinite-medium loops: as [settled], without division by a number of cells. *)
Definition settled0 (n : nat) (new old : vec) (tol : R) : Prop :=
  (forall g, (g < n)%nat -> new g <> 0) /\ sqrt (rsum n (fun g => ((new g - old g) / new g) ^ 2)) < tol.

(** [c] is the float [norm((new - old) / new / cells)]: a number if no entry of [new] is zero, NaN if
    some entry is 0/0, infinite otherwise. *)
Definition change_of (cells groups : nat) (new old : mat2) (c : float_change) : Prop :=
  match c with
  | Fin d => (forall i g, (i < cells)%nat -> (g < groups)%nat -> new i g <> 0) /\
      d = sqrt (rsum cells (fun i => rsum groups (fun g => ((new i g - old i g) / new i g / INR cells) ^ 2)))
  | Inf => (exists i g, (i < cells)%nat /\ (g < groups)%nat /\ new i g = 0) /\
      (forall i g, (i < cells)%nat -> (g < groups)%nat -> new i g = 0 -> old i g <> 0)
  | Nan => exists i g, (i < cells)%nat /\ (g < groups)%nat /\ new i g = 0 /\ old i g = 0
  end.
(** The change grew (a comparison with NaN, or of two infinities, is false). *)
Definition grew (c previous : float_change) : Prop :=
  exists y, previous = Fin y /\ (c = Inf \/ exists x, c = Fin x /\ y < x).
Definition small (c : float_change) (tol : R) : Prop := exists x, c = Fin x /\ x < tol.

(** Transport problems with nonnegative data on a mesh thin enough for positivity, in which scattering alone dies
    out: one flight and collision reduces some positive flux. *)
Definition damped_transport (P : sn) (groups : nat) (xs_total : mat2) (xs_scatter : mat3) : Prop :=
  nonzero_ordinates (angles P) (mu P) /\ mg_thin P groups xs_total /\
  (forall m, (m < angles P)%nat -> 0 <= wt P m) /\
  (forall i g h, (i < cells P)%nat -> (g < groups)%nat -> (h < groups)%nat -> 0 <= xs_scatter (medium P i) g h) /\
  exists c p, 0 <= c < 1 /\ damping P groups xs_total xs_scatter c p.

(** [w] is the flux of the neutrons emitted by the fissions of [v]: one generation. *)
Definition next_generation (P : sn) (groups : nat) (xs_total : mat2) (xs_scatter : mat3) (f : fission_data)
    (v w : mat2) : Prop :=
  mg_solution P groups xs_total xs_scatter
    (mkArr3 1 groups (fun i _ g => emission groups f (medium P) v i g)) (mkArr3 1 1 (fun _ _ _ => 0)) w.

(** One generation spreads evenly: from any nonnegative flux, no entry of the next generation is below
    [d] times another. *)
Definition even_generation (P : sn) (groups : nat) (xs_total : mat2) (xs_scatter : mat3) (f : fission_data) (d : R) : Prop :=
  0 < d <= 1 /\ forall v w, below2 (cells P) groups (fun _ _ => 0) v ->
    next_generation P groups xs_total xs_scatter f v w ->
    forall i g j h, (i < cells P)%nat -> (g < groups)%nat -> (j < cells P)%nat -> (h < groups)%nat -> d * w j h <= w i g.

(** Neutrons stream both ways. *)
Definition two_way (P : sn) : Prop :=
  exists m m', (m < angles P)%nat /\ (m' < angles P)%nat /\ mu P m' < 0 < mu P m /\ 0 < wt P m /\ 0 < wt P m'.
(** Scattering somewhere in the slab takes neutrons from group [o] to group [g], in any number of steps. *)
Inductive feeds (P : sn) (groups : nat) (xs_scatter : mat3) (o : nat) : nat -> Prop :=
| feeds_here : feeds P groups xs_scatter o o
| feeds_step h g : feeds P groups xs_scatter o h -> (h < groups)%nat ->
    (exists j, (j < cells P)%nat /\ 0 < xs_scatter (medium P j) g h) -> feeds P groups xs_scatter o g.
(** A group that causes fission in a cell emits neutrons from which every group is fed. *)
Definition well_fed (P : sn) (groups : nat) (xs_scatter : mat3) (f : fission_data) : Prop :=
  forall j h o, (j < cells P)%nat -> (h < groups)%nat -> (o < groups)%nat -> fission_entry f (medium P j) o h <> 0 ->
  forall g, (g < groups)%nat -> exists o', (o' < groups)%nat /\ fission_entry f (medium P j) o' h <> 0 /\ feeds P groups xs_scatter o' g.
Definition fissile (P : sn) (groups : nat) (f : fission_data) : Prop :=
  exists j h o, (j < cells P)%nat /\ (h < groups)%nat /\ (o < groups)%nat /\ fission_entry f (medium P j) o h <> 0.

(** The transport solve of a pass from [st] has relative error at most [eta]. *)
Definition accurate_solve (P : sn) (groups : nat) (xs_total : mat2) (xs_scatter : mat3) (f : fission_data) (eta : R)
    (st : mat2 * R) : Prop :=
  forall source raw exact,
    (forall i g, (i < cells P)%nat -> (g < groups)%nat -> source i g = emission groups f (medium P) (fst st) i g / snd st) ->
    source_iteration P groups (fst st) xs_total (Scatter3 xs_scatter) (mkArr3 1 groups (fun i _ g => source i g))
      (mkArr3 1 1 (fun _ _ _ => 0)) 1 None = Ok raw ->
    mg_solution P groups xs_total xs_scatter (mkArr3 1 groups (fun i _ g => source i g)) (mkArr3 1 1 (fun _ _ _ => 0)) exact ->
    forall i g, (i < cells P)%nat -> (g < groups)%nat -> Rabs (raw i g - exact i g) <= eta * exact i g.
(** The solve of a pass from [st] ended because its last sweep changed the flux by less than 1e-8. *)
Definition settled_solve (P : sn) (groups : nat) (xs_total : mat2) (xs_scatter : mat3) (f : fission_data) (st : mat2 * R) : Prop :=
  forall source raw,
    (forall i g, (i < cells P)%nat -> (g < groups)%nat -> source i g = emission groups f (medium P) (fst st) i g / snd st) ->
    source_iteration P groups (fst st) xs_total (Scatter3 xs_scatter) (mkArr3 1 groups (fun i _ g => source i g))
      (mkArr3 1 1 (fun _ _ _ => 0)) 1 None = Ok raw ->
    exists before, settled2 (cells P) groups raw before (/ 10 ^ 8) /\
      one_sweep_iso P groups xs_total xs_scatter (mkArr3 1 groups (fun i _ g => source i g)) (mkArr3 1 1 (fun _ _ _ => 0)) 1 before = Ok raw.

(** Infinite medium: [(phi, k)] sustains itself. *)
Definition eigenpair_0d (angles groups : nat) (wt xs_total : vec) (xs_scatter : mat2) (f : fission_0d) (phi : vec) (k : R) : Prop :=
  balance_0d angles groups wt xs_total xs_scatter 1 (mkArr2 groups (fun _ g => emission_0d groups f phi g / k)) phi.
(** Every collision in group [h] sends out at most [c] neutrons on average, counted over all groups. *)
Definition yields_0d (angles groups : nat) (wt xs_total : vec) (xs_scatter : mat2) (c : R) : Prop :=
  forall h, (h < groups)%nat -> 0 < xs_total h /\
    rsum angles wt * rsum groups (fun g => Rabs (xs_scatter g h)) <= c * xs_total h.
(** [p] is a positive flux of which one collision leaves at most [c p]. *)
Definition damping_0d (angles groups : nat) (wt xs_total : vec) (xs_scatter : mat2) (c : R) (p : vec) : Prop :=
  forall g, (g < groups)%nat -> 0 < xs_total g /\ 0 < p g /\
    rsum angles wt * rsum groups (fun h => Rabs (xs_scatter g h) * p h) <= c * (xs_total g * p g).
(** The solve of a pass from [st] ended because its last sweep changed the flux by less than 1e-8. *)
Definition settled_solve_0d (angles groups : nat) (wt xs_total : vec) (xs_scatter : mat2) (f : fission_0d) (st : vec * R) : Prop :=
  forall source raw,
    (forall g, (g < groups)%nat -> source g = emission_0d groups f (fst st) g / snd st) ->
    source_iteration_0d angles groups wt xs_total xs_scatter 1 (mkArr2 groups (fun _ g => source g)) (fst st) = Ok raw ->
    exists before, settled0 groups raw before (/ 10 ^ 8) /\
      sweep_0d angles groups wt xs_total xs_scatter 1 (mkArr2 groups (fun _ g => source g)) before = Ok raw.
(** Neutrons emitted by fission, for one emission spectrum. *)
Definition fission_rate_0d (groups : nat) (nusigf phi : vec) : R := rsum groups (fun h => nusigf h * phi h).
(** [v] is the multiple of [u] that the pair [(v, k)] asks for, up to [eta], in units of [U p]. *)
Definition near_mode_0d (groups : nat) (nusigf u p : vec) (U eta : R) (v : vec) (k : R) : Prop :=
  forall g, (g < groups)%nat ->
    Rabs (v g - fission_rate_0d groups nusigf v / k * u g) <= eta * (Rabs (fission_rate_0d groups nusigf v / k) * U * p g).
(** Accuracy left by one infinite-medium solve of contraction [c]: from its tolerance 1e-8, or from its cap of 100 sweeps. *)
Definition solve_accuracy_0d (c : R) (sweeps : nat) (start : R) : R := Rmax (c * / 10 ^ 8 / (1 - c - c * / 10 ^ 8)) (c ^ sweeps * start).
