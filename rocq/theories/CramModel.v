(** Model of discrete1/cram.py: the matrix exponential of depletion chains.  Definitions only. *)
From Coq Require Import ZArith.
From Verif Require Import Base SlabModel SphereModel MgModel DmdModel.
Open Scope R_scope.

(** cram.py:46-81 and 83-146, 148-151: the tables _THETA, _ALPHA (paired pole by pole, as zip pairs
    them) and _ALPHA0.  The decimals of the source are taken as exact numbers; in the program they
    are rounded to float64. *)
Definition poles16 : list ((R * R) * (R * R)) :=
[ ((3.509103608414918, 8.436198985884374), (5.464930576870210e3, -3.797983575308356e4))
; ((5.948152268951177, 3.587457362018322), (9.045112476907548e1, -1.115537522430261e3))
; ((-5.264971343442647, 16.22022147316793), (2.344818070467641e2, -4.228020157070496e2))
; ((1.419375897185666, 10.92536348449672), (9.453304067358312e1, -2.951294291446048e2))
; ((6.416177699099435, 1.194122393370139), (7.283792954673409e2, -1.205646080220011e5))
; ((4.993174737717997, 5.996881713603942), (3.648229059594851e1, -1.155509621409682e2))
; ((-1.413928462488886, 13.49772569889275), (2.547321630156819e1, -2.639500283021502e1))
; ((-10.84391707869699, 19.27744616718165), (2.394538338734709e1, -5.650522971778156e0)) ].
Definition alpha0_16 : R := 2.124853710495224e-16.

Definition poles48 : list ((R * R) * (R * R)) :=
[ ((-4.465731934165702e1, 6.233225190695437e1), (6.387380733878774e2, -6.743912502859256e2))
; ((-5.284616241568964e0, 4.057499381311059e1), (1.909896179065730e2, -3.973203432721332e2))
; ((-8.867715667624458e0, 4.325515754166724e1), (4.236195226571914e2, -2.041233768918671e3))
; ((3.493013124279215e0, 3.281615453173585e1), (4.645770595258726e2, -1.652917287299683e3))
; ((1.564102508858634e1, 1.558061616372237e1), (7.765163276752433e2, -1.783617639907328e4))
; ((1.742097597385893e1, 1.076629305714420e1), (1.907115136768522e3, -5.887068595142284e4))
; ((-2.834466755180654e1, 5.492841024648724e1), (2.909892685603256e3, -9.953255345514560e3))
; ((1.661569367939544e1, 1.316994930024688e1), (1.944772206620450e2, -1.427131226068449e3))
; ((8.011836167974721e0, 2.780232111309410e1), (1.382799786972332e5, -3.256885197214938e6))
; ((-2.056267541998229e0, 3.794824788914354e1), (5.628442079602433e3, -2.924284515884309e4))
; ((1.449208170441839e1, 1.799988210051809e1), (2.151681283794220e2, -1.121774011188224e3))
; ((1.853807176907916e1, 5.974332563100539e0), (1.324720240514420e3, -6.370088443140973e4))
; ((9.932562704505182e0, 2.532823409972962e1), (1.617548476343347e4, -1.008798413156542e6))
; ((-2.244223871767187e1, 5.179633600312162e1), (1.112729040439685e2, -8.837109731680418e1))
; ((8.590014121680897e-1, 3.536456194294350e1), (1.074624783191125e2, -1.457246116408180e2))
; ((-1.286192925744479e1, 4.600304902833652e1), (8.835727765158191e1, -6.388286188419360e1))
; ((1.164596909542055e1, 2.287153304140217e1), (9.354078136054179e1, -2.195424319460237e2))
; ((1.806076684783089e1, 8.368200580099821e0), (9.418142823531573e1, -6.719055740098035e2))
; ((5.870672154659249e0, 3.029700159040121e1), (1.040012390717851e2, -1.693747595553868e2))
; ((-3.542938819659747e1, 5.834381701800013e1), (6.861882624343235e1, -1.177598523430493e1))
; ((1.901323489060250e1, 1.194282058271408e0), (8.766654491283722e1, -4.596464999363902e3))
; ((1.885508331552577e1, 3.583428564427879e0), (1.056007619389650e2, -1.738294585524067e3))
; ((-1.734689708174982e1, 4.883941101108207e1), (7.738987569039419e1, -4.311715386228984e1))
; ((1.316284237125190e1, 2.042951874827759e1), (1.041366366475571e2, -2.777743732451969e2)) ].
Definition alpha0_48 : R := 2.258038182743983e-47.

(** [_COEFFS[order]] *)
Definition coefficients (order : Z) : option (list ((R * R) * (R * R)) * R) :=
  if Z.eqb order 16 then Some (poles16, alpha0_16)
  else if Z.eqb order 48 then Some (poles48, alpha0_48)
  else None.

(** cram.py:194 [A - theta_k * identity] for the complex matrix acting on (real parts, imaginary
    parts): a real matrix of twice the size. *)
Definition shifted (n : nat) (A : mat2) (theta : R * R) : mat2 := fun i j =>
  let delta a b := if Nat.eqb a b then 1 else 0 in
  if Nat.ltb i n
  then if Nat.ltb j n then A i j - fst theta * delta i j else snd theta * delta i (j - n)%nat
  else if Nat.ltb j n then - (snd theta * delta (i - n)%nat j)
       else A (i - n)%nat (j - n)%nat - fst theta * delta (i - n)%nat (j - n)%nat.

(** cram.py:194 [spla.splu(...).solve] for a real right-hand side; real and imaginary part of the
    solution.  An exactly singular factor raises RuntimeError. *)
Definition pole_solve (n : nat) (A : mat2) (theta : R * R) (b : vec) : outcome (vec * vec) :=
  match linalg_solve (2 * n) (shifted n A theta) (fun i => if Nat.ltb i n then b i else 0) with
  | Ok z => Ok (z, fun i => z (n + i)%nat)
  | Raise _ => Raise RuntimeError
  end.

(** cram.py:194, all the factorisations, before any solve *)
Fixpoint factorize (n : nat) (A : mat2) (poles : list ((R * R) * (R * R))) : outcome unit :=
  match poles with
  | [] => Ok tt
  | (theta, _) :: rest => bind (pole_solve n A theta zeros) (fun _ => factorize n A rest)
  end.

(** cram.py:198-199 *)
Fixpoint apply_poles (n : nat) (A : mat2) (poles : list ((R * R) * (R * R))) (y : vec) : outcome vec :=
  match poles with
  | [] => Ok y
  | (theta, alpha) :: rest =>
      bind (pole_solve n A theta y) (fun z =>
        apply_poles n A rest
          (fun i => y i + 2 * (fst alpha * fst z i - snd alpha * snd z i)))
  end.

(** cram.py:154-201 cram_expm.  [matrix] has shape (rows, cols) and [n0] has length [len].  A
    non-square matrix cannot be combined with the identity, and a vector of another length cannot be
    solved for (ValueError in both cases). *)
Definition cram_expm (rows cols : nat) (matrix : mat2) (len : nat) (n0 : vec) (dt : R) (order substeps : Z)
  : outcome vec :=
  match coefficients order with
  | None => Raise ValueError
  | Some (poles, alpha0) =>
      if Z.ltb substeps 1 then Raise ValueError
      else
        let step_dt := dt / IZR substeps in
        let A : mat2 := fun i j => matrix i j * step_dt in
        if negb (Nat.eqb rows cols) then Raise ValueError
        else
          bind (factorize rows A poles) (fun _ =>
            if negb (Nat.eqb len rows) then Raise ValueError
            else for_up_err (Z.to_nat substeps)
                   (fun _ y => bind (apply_poles rows A poles y) (fun y => Ok (fun i => alpha0 * y i))) n0)
  end.
