(** Infinite media with any fission data: one generation, positivity, connectedness.  Definitions only. *)
From Verif Require Import Base SlabModel MgModel CritModel CritSpec InfModel.
Open Scope R_scope.

Definition positive1 (n : nat) (v : vec) : Prop := forall g, (g < n)%nat -> 0 < v g.
Definition below1 (n : nat) (v w : vec) : Prop := forall g, (g < n)%nat -> v g <= w g.

(** Infinite media in which scattering alone dies out: some positive flux is reduced by every collision. *)
Definition damped_0d (angles groups : nat) (wt xs_total : vec) (xs_scatter : mat2) : Prop :=
  0 < rsum angles wt /\
  (forall g h, (g < groups)%nat -> (h < groups)%nat -> 0 <= xs_scatter g h) /\
  exists c p, 0 <= c < 1 /\ damping_0d angles groups wt xs_total xs_scatter c p.
Definition nonneg_fission_0d (groups : nat) (f : fission_0d) : Prop :=
  forall o h, (o < groups)%nat -> (h < groups)%nat -> 0 <= fission_entry_0d f o h.

(** [w] is the flux of the neutrons emitted by the fissions of [v]. *)
Definition next_generation_0d (angles groups : nat) (wt xs_total : vec) (xs_scatter : mat2) (f : fission_0d) (v w : vec) : Prop :=
  balance_0d angles groups wt xs_total xs_scatter 1 (mkArr2 groups (fun _ g => emission_0d groups f v g)) w.
(** From any nonnegative flux, no group of the next generation is below [d] times another. *)
Definition even_generation_0d (angles groups : nat) (wt xs_total : vec) (xs_scatter : mat2) (f : fission_0d) (d : R) : Prop :=
  0 < d <= 1 /\ forall v w, below1 groups (fun _ => 0) v -> next_generation_0d angles groups wt xs_total xs_scatter f v w ->
    forall g h, (g < groups)%nat -> (h < groups)%nat -> d * w h <= w g.

(** Scattering takes neutrons from group [o] to the group, in any number of steps. *)
Inductive feeds_0d (groups : nat) (xs_scatter : mat2) (o : nat) : nat -> Prop :=
| feeds0_here : feeds_0d groups xs_scatter o o
| feeds0_step h g : feeds_0d groups xs_scatter o h -> (h < groups)%nat -> 0 < xs_scatter g h -> feeds_0d groups xs_scatter o g.
(** A group that causes fission emits neutrons from which every group is fed. *)
Definition well_fed_0d (groups : nat) (xs_scatter : mat2) (f : fission_0d) : Prop :=
  forall h o, (h < groups)%nat -> (o < groups)%nat -> fission_entry_0d f o h <> 0 ->
  forall g, (g < groups)%nat -> exists o', (o' < groups)%nat /\ fission_entry_0d f o' h <> 0 /\ feeds_0d groups xs_scatter o' g.
Definition fissile_0d (groups : nat) (f : fission_0d) : Prop :=
  exists h o, (h < groups)%nat /\ (o < groups)%nat /\ fission_entry_0d f o h <> 0.

(** Scattering and fission together. *)
Definition transfer_0d (xs_scatter : mat2) (f : fission_0d) : mat2 := fun g h => xs_scatter g h + fission_entry_0d f g h.

(** The solve of a pass from [st] has relative error at most [eta]. *)
Definition accurate_solve_0d (angles groups : nat) (wt xs_total : vec) (xs_scatter : mat2) (f : fission_0d) (eta : R) (st : vec * R) : Prop :=
  forall source raw exact,
    (forall g, (g < groups)%nat -> source g = emission_0d groups f (fst st) g / snd st) ->
    source_iteration_0d angles groups wt xs_total xs_scatter 1 (mkArr2 groups (fun _ g => source g)) (fst st) = Ok raw ->
    balance_0d angles groups wt xs_total xs_scatter 1 (mkArr2 groups (fun _ g => source g)) exact ->
    forall g, (g < groups)%nat -> Rabs (raw g - exact g) <= eta * exact g.

(** Legendre polynomials, by the three-term recurrence. *)
Fixpoint legendre_pair (l : nat) (x : R) : R * R :=
  match l with
  | O => (1, x)
  | S l' => let '(p, q) := legendre_pair l' x in (q, ((2 * INR l' + 3) * x * q - (INR l' + 1) * p) / (INR l' + 2))
  end.
Definition legendre (l : nat) (x : R) : R := fst (legendre_pair l x).
(** The quadrature integrates the Legendre moments 1, ..., nm - 1 exactly (to zero). *)
Definition exact_moments (angles nm : nat) (angle_x wt : vec) : Prop :=
  forall l, (0 < l < nm)%nat -> rsum angles (fun n => wt n * legendre l (angle_x n)) = 0.
(** Usable scattering data of either rank: at least one moment, and a quadrature exact for the moments present. *)
Definition usable_scatter (angles : nat) (angle_x wt : vec) (s : scatter_0d) : Prop :=
  match s with Scatter0Iso _ => True | Scatter0Aniso nm _ => (0 < nm)%nat /\ exact_moments angles nm angle_x wt end.
(** The group-to-group transfer, whatever the rank. *)
Definition isotropic_part (s : scatter_0d) : mat2 :=
  match s with Scatter0Iso xs => xs | Scatter0Aniso _ xs => fun o i => xs o i 0%nat end.
(** Precomputed tables are absent or hold P_l(mu_n) and w_n P_l(mu_n). *)
Definition right_tables (angles : nat) (angle_x wt : vec) (s : scatter_0d) (given : option (mat2 * mat2)) : Prop :=
  match s, given with
  | Scatter0Aniso nm _, Some (leg, legw) => forall l n, (l < nm)%nat -> (n < angles)%nat ->
      leg l n = legendre l (angle_x n) /\ legw l n = wt n * legendre l (angle_x n)
  | _, _ => True
  end.
