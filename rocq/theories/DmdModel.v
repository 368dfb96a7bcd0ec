(** Model of the DMD-accelerated source iteration: discrete1/multi_group.py dynamic_mode_decomp and
    discrete1/tools.py dmd, _svd_dmd.  Definitions only. *)
From Verif Require Import Base SlabModel SphereModel MgModel.
Open Scope R_scope.

(** [a.ravel()] and [v.reshape((cells, groups))], row-major *)
Definition flat (groups : nat) (a : mat2) : vec := fun s => a (s / groups)%nat (s mod groups)%nat.
Definition unflat (groups : nat) (v : vec) : mat2 := fun i g => v (i * groups + g)%nat.

(** [np.linalg.solve]: Gaussian elimination with partial pivoting; a zero pivot column raises
    LinAlgError. *)
Definition pivot_row (n : nat) (M : mat2) : nat :=
  for_up n (fun k best => if Rlt_dec (Rabs (M best 0%nat)) (Rabs (M k 0%nat)) then k else best) 0%nat.

Definition swap_rows {A : Type} (p : nat) (f : nat -> A) : nat -> A :=
  fun i => if Nat.eqb i 0 then f p else if Nat.eqb i p then f 0%nat else f i.

Fixpoint linalg_solve (n : nat) (M : mat2) (b : vec) : outcome vec :=
  match n with
  | O => Ok zeros
  | S k =>
      let p := pivot_row (S k) M in
      if Req_EM_T (M p 0%nat) 0 then Raise LinAlgError
      else
        let M := swap_rows p M in
        let b := swap_rows p b in
        bind (linalg_solve k
                (fun i j => M (i + 1)%nat (j + 1)%nat - M (i + 1)%nat 0%nat / M 0%nat 0%nat * M 0%nat (j + 1)%nat)
                (fun i => b (i + 1)%nat - M (i + 1)%nat 0%nat / M 0%nat 0%nat * b 0%nat))
          (fun y =>
            Ok (fun j => if Nat.eqb j 0
                         then (b 0%nat - rsum k (fun j => M 0%nat (j + 1)%nat * y j)) / M 0%nat 0%nat
                         else y (j - 1)%nat))
  end.

(** tools.py:593-630 _svd_dmd for a snapshot matrix of shape (n, m).  [svd] is np.linalg.svd with
    full_matrices=False: (U, S, Vt) with min(n, m) singular values.  A zero matrix makes [energy]
    nan, and every comparison with nan is false.  Returns (rank kept, U, diagonal of S_inv, Vt). *)
Definition residual : R := / 10 ^ 9.

Definition svd_dmd (svd : nat -> nat -> mat2 -> mat2 * vec * mat2) (n m : nat) (A : mat2) (K : nat)
  : nat * mat2 * vec * mat2 :=
  let '(U, sv, Vt) := svd n m A in
  let q := Nat.min n m in
  let total := rsum q (fun j => sv j ^ 2) in
  let energy j := rsum (j + 1) (fun i => sv i ^ 2) / total in
  let mask j := if Req_EM_T total 0 then false
                else if Rlt_dec residual (1 - energy j) then true else false in
  let spos := if existsb mask (seq 0 q) then map sv (filter mask (seq 0 q))
              else map sv (filter (fun j => if Rlt_dec 0 (sv j) then true else false) (seq 0 q)) in
  let mat_size := Nat.min K (length spos) in
  (mat_size, U, fun j => 1 / nth j spos 0, Vt).

(** tools.py:633-671 dmd; the snapshot matrices have shape (cells * groups, K - 1).
    [y_plus[:, -1]] raises IndexError when there is no column. *)
Definition dmd (svd : nat -> nat -> mat2 -> mat2 * vec * mat2) (cells groups : nat) (flux_old : mat2)
    (y_minus y_plus : mat2) (K : nat) : outcome mat2 :=
  let n := (cells * groups)%nat in
  let m := (K - 1)%nat in
  let '(size, U, s_inv, Vt) := svd_dmd svd n m y_minus K in
  let atilde a b := rsum m (fun k => rsum n (fun s => U s a * y_plus s k) * Vt b k) * s_inv b in
  if Nat.eqb m 0 then Raise IndexError
  else
    let rhs a := rsum n (fun s => U s a * y_plus s (m - 1)%nat) in
    bind (linalg_solve size (fun a b => (if Nat.eqb a b then 1 else 0) - atilde a b) rhs)
      (fun delta_y =>
        Ok (unflat groups (fun s =>
              flat groups flux_old s - y_plus s (K - 2)%nat + rsum size (fun j => U s j * delta_y j)))).

(** multi_group.py:801-869 _dmd_warmup: [flux] and [flux_old] are two buffers, exchanged after every
    sweep; a sweep fills [flux] from [flux_old] (it zeroes [flux] first).  [None] in the second place
    signals early convergence. *)
Fixpoint dmd_warmup (sweep : mat2 -> outcome mat2) (change : mat2 -> mat2 -> option R) (warm : nat)
    (flux flux_old : mat2) : outcome (mat2 * option mat2) :=
  match warm with
  | O => Ok (flux, Some flux_old)
  | S r =>
      bind (sweep flux_old) (fun flux =>
        if below (change flux flux_old) change_gg then Ok (flux, None)
        else dmd_warmup sweep change r flux_old flux)
  end.

(** multi_group.py:872-950 _dmd_collect, [todo] of the [K] sweeps left *)
Fixpoint dmd_collect_loop (sweep : mat2 -> outcome mat2) (change : mat2 -> mat2 -> option R)
    (groups K : nat) (todo kk : nat) (flux flux_old y_minus y_plus : mat2)
  : outcome (mat2 * option (mat2 * mat2)) :=
  match todo with
  | O => Ok (flux_old, Some (y_minus, y_plus))
  | S t =>
      bind (sweep flux_old) (fun flux =>
        if below (change flux flux_old) change_gg then Ok (flux, None)
        else
          let diff := flat groups (fun i g => flux i g - flux_old i g) in
          let y_minus := if Nat.ltb kk (K - 1) then set_col y_minus kk diff else y_minus in
          let y_plus := if Nat.ltb 0 kk then set_col y_plus (kk - 1) diff else y_plus in
          dmd_collect_loop sweep change groups K t (S kk) flux_old flux y_minus y_plus)
  end.

(** [np.zeros((n_state, K - 1))] raises ValueError for [K = 0]. *)
Definition dmd_collect (sweep : mat2 -> outcome mat2) (change : mat2 -> mat2 -> option R)
    (groups K : nat) (flux flux_old : mat2) : outcome (mat2 * option (mat2 * mat2)) :=
  if Nat.eqb K 0 then Raise ValueError
  else dmd_collect_loop sweep change groups K K 0 flux flux_old zeros2 zeros2.

(** multi_group.py:1029-1087, after the choice of the sweep *)
Definition dmd_driver (svd : nat -> nat -> mat2 -> mat2 * vec * mat2) (sweep : mat2 -> outcome mat2)
    (cells groups : nat) (flux_old : mat2) (warm K : nat) : outcome mat2 :=
  bind (dmd_warmup sweep (rel_change2 cells groups) warm zeros2 flux_old) (fun r =>
    match r with
    | (flux, None) => Ok flux
    | (flux, Some flux_old) =>
        bind (dmd_collect sweep (rel_change2 cells groups) groups K flux flux_old) (fun c =>
          match c with
          | (flux_old, None) => Ok flux_old
          | (flux_old, Some (y_minus, y_plus)) => dmd svd cells groups flux_old y_minus y_plus K
          end)
    end).

(** multi_group.py:953-1087 dynamic_mode_decomp *)
Definition dynamic_mode_decomp (svd : nat -> nat -> mat2 -> mat2 * vec * mat2) (P : sn) (groups : nat)
    (flux_old xs_total : mat2) (xs_scatter : scatter_data) (external boundary : arr3) (geometry : nat)
    (warm K : nat) (leg_legw : option (mat2 * mat2)) : outcome mat2 :=
  match xs_scatter with
  | Scatter3 xs =>
      dmd_driver svd (one_sweep_iso P groups xs_total xs external boundary geometry) (cells P) groups
        flux_old warm K
  | Scatter4 nm xs =>
      bind (match leg_legw with
            | Some l => Ok l
            | None => bind (legendre_polynomials nm (mu P)) (fun leg =>
                      Ok (leg, fun l n => wt P n * leg l n))
            end) (fun l =>
      dmd_driver svd
        (one_sweep_aniso P groups nm xs_total xs external boundary geometry (fst l) (snd l))
        (cells P) groups flux_old warm K)
  end.
