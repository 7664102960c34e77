(* Theorems C21-C25, C55-C57: sparse matrices and linear solvers. *)
From Coq Require Import List Arith Bool ZArith Reals.
From Verif Require Import Num NumR NumF32 Py Arr MSparse MLinear SpecSparse PExSparse.
Import ListNotations.
Local Open Scope R_scope.

Theorem C21_transpose_adjoint :
  forall A : coo R, coo_ok A ->
  coo_ok (transpose A) /\ transpose (transpose A) = A /\ (forall i j, entry (transpose A) i j = entry A j i) /\
  (forall x, length x = snd (m_shape A) -> exists y, matmul A x = Ok y /\ length y = fst (m_shape A) /\
     (forall i, (i < fst (m_shape A))%nat -> nth i y 0 = mat_times (snd (m_shape A)) (entry A) x i)) /\
  (forall x, length x <> snd (m_shape A) -> matmul A x = Err AssertionError) /\
  (forall x y Ax ATy, matmul A x = Ok Ax -> matmul (transpose A) y = Ok ATy -> vdot Ax y = vdot x ATy) /\
  (forall a b k Aa Ab, matmul A a = Ok Aa -> matmul A b = Ok Ab ->
     matmul A (vadd a b) = Ok (vadd Aa Ab) /\ matmul A (vscale k a) = Ok (vscale k Aa)) /\
  (forall x z Ax Az ATAx ATAz, matmul A x = Ok Ax -> matmul (transpose A) Ax = Ok ATAx ->
     matmul A z = Ok Az -> matmul (transpose A) Az = Ok ATAz ->
     vdot x ATAz = vdot z ATAx /\ 0 <= vdot x ATAx).
Proof. exact transpose_adjoint. Qed.
Print Assumptions C21_transpose_adjoint.

Example C21_example : coo_ok ex_A /\ exists y, matmul ex_A [1; 1; 1] = Ok y /\ length y = 2%nat.
Proof. exact (conj (proj1 ex_A_ok) (ex_intro _ _ (conj eq_refl eq_refl))). Qed.

Theorem C22_as_dense :
  forall A : coo R, coo_ok A -> distinct A ->
  length (as_dense A) = fst (m_shape A) /\ Forall (fun row => length row = snd (m_shape A)) (as_dense A) /\
  (forall i j v, In (i, j, v) (triples A) -> nth j (nth i (as_dense A) []) 0 = v) /\
  (forall i j, (i < fst (m_shape A))%nat -> (j < snd (m_shape A))%nat -> ~ In (i, j) (map fst (triples A)) ->
     nth j (nth i (as_dense A) []) 0 = 0) /\
  (forall x, length x = snd (m_shape A) -> matmul A x = Ok (mvec (as_dense A) x)).
Proof. exact dense_same. Qed.
Print Assumptions C22_as_dense.

Theorem C22_repeated_coordinates_refuted :
  exists (A : coo R) x, coo_ok A /\ length x = snd (m_shape A) /\ matmul A x <> Ok (mvec (as_dense A) x).
Proof. exact dense_differs_exists. Qed.
Print Assumptions C22_repeated_coordinates_refuted.

Example C22_example : coo_ok ex_A /\ distinct ex_A.
Proof. exact ex_A_ok. Qed.

Theorem C23_scipy_round_trip :
  forall (T : Type) (A : coo T) (S : scipy_coo T), from_scipy (as_scipy A) = A /\ as_scipy (from_scipy S) = S.
Proof. exact @PSparse.scipy_round_trip. Qed.
Print Assumptions C23_scipy_round_trip.

Theorem C24_cg_operator :
  forall (A : coo R) lambd, coo_ok A -> distinct A ->
  let n := snd (m_shape A) in
  (forall x, length x = n -> exists y, ata_function A lambd n x = Ok y /\ length y = n /\
     forall i, (i < n)%nat -> nth i y 0 = mat_times n (gram A) x i + lambd * gram A i i * nth i x 0) /\
  (forall x z fx fz, length x = n -> length z = n -> ata_function A lambd n x = Ok fx -> ata_function A lambd n z = Ok fz ->
     vdot x fz = vdot z fx /\ (0 <= lambd -> 0 <= vdot x fx)).
Proof. exact cg_operator. Qed.
Print Assumptions C24_cg_operator.

Theorem C24_scale_invariance :
  forall (A A' : coo R) lambd b d x, coo_ok A -> distinct A -> coo_ok A' -> distinct A' -> m_shape A' = m_shape A ->
  length d = snd (m_shape A) -> Forall (fun c => c <> 0) d -> (forall i j, entry A' i j = entry A i j * nth j d 0) ->
  length b = fst (m_shape A) -> length x = snd (m_shape A) ->
  (ata_function A' lambd (snd (m_shape A)) x = matmul (transpose A') b <->
   ata_function A lambd (snd (m_shape A)) (vmul d x) = matmul (transpose A) b).
Proof. exact cg_scale. Qed.
Print Assumptions C24_scale_invariance.

Theorem C24_repeated_coordinates_refuted :
  exists (A : coo R) (x : list R), coo_ok A /\ length x = snd (m_shape A) /\ forall lambd, 0 < lambd ->
  exists y, ata_function A lambd (snd (m_shape A)) x = Ok y /\
    nth 0 y 0 <> mat_times (snd (m_shape A)) (gram A) x 0 + lambd * gram A 0 0 * nth 0 x 0.
Proof. exact damping_differs. Qed.
Print Assumptions C24_repeated_coordinates_refuted.

Example C24_example : (coo_ok ex_A /\ distinct ex_A) /\ coo_ok ex_A2 /\ distinct ex_A2 /\ m_shape ex_A2 = m_shape ex_A /\
  Forall (fun c => c <> 0) [5; 7; -1] /\ (forall i j, entry ex_A2 i j = entry ex_A i j * nth j [5; 7; -1] 0).
Proof. exact (conj ex_A_ok ex_A2_scaled). Qed.

Theorem C25_cholmod_subproblem :
  forall (A : coo R) rhs lambd it, coo_ok A -> 0 <= lambd -> length rhs = fst (m_shape A) ->
  exists c x Ax, matmul (transpose A) rhs = Ok c /\ cholmod_solve A c lambd it = Ok x /\ matmul A x = Ok Ax /\
    ridge_solution A (lambd + 1 / 100000) c x /\ (forall x', ridge_solution A (lambd + 1 / 100000) c x' -> x' = x) /\
    (x = vzero (snd (m_shape A)) <-> c = vzero (snd (m_shape A))) /\
    (c <> vzero (snd (m_shape A)) -> 0 < vdot x c) /\ sumsq (vsub Ax rhs) <= sumsq rhs.
Proof. exact cholmod_subproblem. Qed.
Print Assumptions C25_cholmod_subproblem.

(* rank deficient: the first two columns are proportional *)
Example C25_example : coo_ok ex_A /\ exists c, matmul (transpose ex_A) [1; 0] = Ok c /\ length c = 3%nat.
Proof. exact (conj (proj1 ex_A_ok) (ex_intro _ _ (conj eq_refl eq_refl))). Qed.

Theorem C55_cg_quality :
  forall (A : coo R) c lambd it (tol : nat -> R), coo_ok A -> length c = snd (m_shape A) ->
  exists x y unused, cg_run tol A c lambd it = Ok (x, unused) /\ cg_solve tol A c lambd it = Ok x /\
    length x = snd (m_shape A) /\ (unused <= snd (m_shape A))%nat /\ ata_function A lambd (snd (m_shape A)) x = Ok y /\
    ((0 < unused)%nat -> sumsq (vsub c y) <= tol it * tol it * sumsq c).
Proof. exact cg_quality. Qed.
Print Assumptions C55_cg_quality.

Theorem C55_inexact_tolerance :
  forall eta i, 0 < eta -> 0 < inexact_tolerance eta i /\ inexact_tolerance eta (S i) < inexact_tolerance eta i.
Proof. exact PCg.inexact_tol. Qed.
Print Assumptions C55_inexact_tolerance.

Theorem C55_solver_classes :
  forall (A : coo R) rhs lambd it, coo_ok A -> 0 <= lambd -> length rhs = fst (m_shape A) ->
  (forall j, (j < snd (m_shape A))%nat -> exists r v, In (r, j, v) (triples A) /\ v <> 0) ->
  exists c, matmul (transpose A) rhs = Ok c /\
  (forall t, exists x y, conjugate_gradient_solver t A c lambd it = Ok x /\ ata_function A lambd (snd (m_shape A)) x = Ok y /\
     sumsq (vsub c y) <= t * t * sumsq c) /\
  (forall eta, exists x y, inexact_cg_solver eta A c lambd it = Ok x /\ ata_function A lambd (snd (m_shape A)) x = Ok y /\
     sumsq (vsub c y) <= (eta / (INR it + 1)) * (eta / (INR it + 1)) * sumsq c).
Proof. exact cg_classes. Qed.
Print Assumptions C55_solver_classes.

Theorem C56_cg_converges :
  forall (A : coo R) rhs lambd it (tol : nat -> R), coo_ok A -> 0 <= lambd -> length rhs = fst (m_shape A) ->
  (forall j, (j < snd (m_shape A))%nat -> exists r v, In (r, j, v) (triples A) /\ v <> 0) ->
  exists c x y, matmul (transpose A) rhs = Ok c /\
    cg_solve (N := NumXR) (fun i => Fin (tol i)) (finite_coo A) (finite c) (Fin lambd) it = Ok (finite x) /\
    cg_solve tol A c lambd it = Ok x /\
    ata_function A lambd (snd (m_shape A)) x = Ok y /\ sumsq (vsub c y) <= tol it * tol it * sumsq c /\ (tol it = 0 -> y = c).
Proof. exact cg_finite. Qed.
Print Assumptions C56_cg_converges.

Example C56_example : coo_ok ex_A /\ (forall j, (j < snd (m_shape ex_A))%nat -> exists r v, In (r, j, v) (triples ex_A) /\ v <> 0).
Proof. exact (conj (proj1 ex_A_ok) ex_A_columns). Qed.

Theorem C57_cg_zero_column_nan :
  forall (A : coo R) rhs lambd it (tol : nat -> R) j, coo_ok A -> length rhs = fst (m_shape A) ->
  (j < snd (m_shape A))%nat -> (forall r v, In (r, j, v) (triples A) -> v = 0) ->
  exists c, matmul (transpose A) rhs = Ok c /\
   (c <> vzero (snd (m_shape A)) -> Rabs (tol it) < 1 ->
    cg_solve (N := NumXR) (fun i => Fin (tol i)) (finite_coo A) (finite c) (Fin lambd) it = Ok (repeat NaN (snd (m_shape A)))).
Proof. exact cg_nan. Qed.
Print Assumptions C57_cg_zero_column_nan.

Example C57_example : coo_ok ex_B /\ (forall r v, In (r, 1%nat, v) (triples ex_B) -> v = 0) /\
  exists c, matmul (transpose ex_B) [1] = Ok c /\ c <> vzero 2.
Proof. exact ex_B_ok. Qed.
Example C57_example_float32 :
  conjugate_gradient_solver (N := NumF32) (nlit (Num := NumF32) 1 100000) f32_B [f_of_Z 1; f_of_Z 0] (f_of_Z 0) 0%nat
    = Ok [SpecFloat.S754_nan; SpecFloat.S754_nan].
Proof. exact ex_B_float. Qed.
