(* Specification vocabulary: information matrices as quadratic forms. *)
From Coq Require Import List Arith Reals.
From Verif Require Import Num NumR Py Arr MLayout MAssign MSparse MFactor MGraph MCov MNoise MLie MPose SpecLie SpecGraph SpecPose SpecSparse SpecNoise SpecCov.
Import ListNotations.
Local Open Scope R_scope.

(* x^T h x *)
Definition quad (n : nat) (h : nat -> nat -> R) (x : list R) : R :=
  sumn n (fun i => sumn n (fun j => nth i x 0 * h i j * nth j x 0)).

(* S is the sparse covariance of the graph at these values, and CHOLMOD's factor was one of
   A^T A itself, without a permutation (C48) *)
Definition recovered (chol : list (list R) -> csc R) (E : env R) (g : graph R) (a : assign R) (S : scov R) : Prop :=
  scov_make chol E g a = Ok S /\
  exists r A, compute_whitened_residual_vector E g a = Ok r /\ compute_whitened_residual_jacobian E g a r = Ok A /\
    is_factor_of (snd (m_shape A)) (gram A) (fun i => i) (sc_L S).

(* a Gaussian or DiagonalGaussian noise model of dimension k made from the covariance sigma;
   chol and inv are jnp.linalg.cholesky and jnp.linalg.inv *)
Inductive noise_of_covariance (chol inv : list (list R) -> list (list R)) (k : nat) : (nat -> nat -> R) -> noise R -> Prop :=
| nc_full cov n : shaped k k cov -> is_cholesky k cov (chol cov) -> is_inverse k (chol cov) (inv (chol cov)) ->
    gaussian_from_covariance chol inv cov = Ok n -> noise_of_covariance chol inv k (ent cov) n
| nc_diag c : length c = k -> Forall (fun x => 0 < x) c ->
    noise_of_covariance chol inv k (fun i j => if Nat.eqb i j then nth i c 0 else 0) (diag_from_covariance c).

(* PriorFactors on one variable, with some mean and the given covariances *)
Definition prior_on (groups : vty -> lie_ops R (list R)) (chol inv : list (list R) -> list (list R)) (v : var)
    (sigma : nat -> nat -> R) (f : factor R) : Prop :=
  exists mu n, f = prior_make v mu n /\ pose_value groups (v_ty v) mu /\
    noise_of_covariance chol inv (lg_dim (groups (v_ty v))) sigma n.

(* entrywise sum of matrices *)
Definition msum (l : list (nat -> nat -> R)) (i j : nat) : R := vsum (map (fun m => m i j) l).
