(* Model of jaxfg/sparse/_linear_solve.py *)
From Coq Require Import List Arith Bool ZArith.
From Verif Require Import Num Py Arr MSparse.
Import ListNotations.

Section Model.
Context {T : Type} {N : Num T}.

(* :16-27 LinearSubproblemSolverBase.solve_subproblem(A, ATb, lambd, iteration) *)
Definition linear_solver := coo T -> list T -> T -> nat -> result (list T).

(* ---- CholmodSolver, :39-88 ---- *)

(* CHOLMOD itself is a library.  [elim n M b] stands for "factorise the symmetric
   positive definite M and solve": symmetric elimination without pivoting, the exact
   arithmetic meaning of an LDL^T / LL^T solve (no fill-reducing permutation: it does
   not change the exact solution). *)
Fixpoint elim (n : nat) (M : list (list T)) (b : list T) : list T :=
  match n with
  | O => []
  | S n' =>
      match M, b with
      | (a :: v) :: M', b0 :: b' =>
          let S := map (fun row => vsub (tl row) (vscale (ndiv (hd n0 row) a) v)) M' in
          let b'' := zipw (fun row bi => nsub bi (nmul (ndiv (hd n0 row) a) b0)) M' b' in
          let y := elim n' S b'' in
          ndiv (nsub b0 (vdot v y)) a :: y
      | _, _ => []
      end
  end.

(* A A^T + beta I for a dense A (rows), as cholesky_AAt(A, beta) *)
Definition gram_beta (M : list (list T)) (beta : T) : list (list T) :=
  map (fun ij => map (fun kj => if Nat.eqb (fst ij) (fst kj)
                                then nadd (vdot (snd ij) (snd kj)) beta
                                else vdot (snd ij) (snd kj))
                     (combine (seq 0 (length M)) M))
      (combine (seq 0 (length M)) M).

(* :59-88 solve_subproblem / _solve.  The symbolic-analysis cache (:77-80) does not
   influence the exact solution when patterns agree; it is modelled in MMisc.v. *)
Definition cholmod_solve : linear_solver := fun A ATb lambd _ =>
  let AT := scipy_dense (as_scipy (transpose A)) in
  let beta := nadd lambd (nlit 1 100000) in
  if Nat.eqb (length ATb) (length AT)
  then Ok (elim (length AT) (gram_beta AT beta) ATb) else Err ValueError.

(* ---- _ConjugateGradientSolver, :91-136 ---- *)

(* :109 *)
Definition ata_diagonals (A : coo T) (n : nat) : list T :=
  scatter_add (vzero n) (c_cols (m_coords A)) (vsq (m_vals A)).

(* :112-117 *)
Definition ata_function (A : coo T) (lambd : T) (n : nat) (x : list T) : result (list T) :=
  Ax <- matmul A x ;;
  ATAx <- matmul (transpose A) Ax ;;
  Ok (vadd ATAx (vmul (vscale lambd (ata_diagonals A n)) x)).

(* :122-123 *)
Definition jacobi (A : coo T) (n : nat) (x : list T) : list T := zipw ndiv x (ata_diagonals A n).

(* jax.scipy.sparse.linalg.cg (library, jax/_src/scipy/sparse/linalg.py, _cg_solve),
   with a preconditioner: loop while |r|^2 > atol2 and k < maxiter.  [k] counts down;
   the second component of the result is the number of iterations left. *)
Fixpoint cg_loop (k : nat) (op : list T -> result (list T)) (M : list T -> list T) (atol2 : T)
    (x r : list T) (gamma : T) (p : list T) : result (list T * nat) :=
  match k with
  | O => Ok (x, O)
  | S k' =>
      if nltb atol2 (vdot r r) then
        Ap <- op p ;;
        let alpha := ndiv gamma (vdot p Ap) in
        let x' := vadd x (vscale alpha p) in
        let r' := vsub r (vscale alpha Ap) in
        let z' := M r' in
        let gamma' := vdot r' z' in
        let beta := ndiv gamma' gamma in
        cg_loop k' op M atol2 x' r' gamma' (vadd z' (vscale beta p))
      else Ok (x, S k')
  end.

(* the solution and the number of iterations not used *)
Definition cg (op : list T -> result (list T)) (b x0 : list T) (maxiter : nat) (tol : T)
    (M : list T -> list T) : result (list T * nat) :=
  let atol2 := nmax (nmul (nmul tol tol) (vdot b b)) (nmul n0 n0) in
  Ax0 <- op x0 ;;
  let r0 := vsub b Ax0 in
  let z0 := M r0 in
  cg_loop maxiter op M atol2 x0 r0 (vdot r0 z0) z0.

(* :95-136 solve_subproblem, the tolerance being a function of the iteration *)
Definition cg_run (tol : nat -> T) (A : coo T) (ATb : list T) (lambd : T) (iteration : nat) : result (list T * nat) :=
  let n := length ATb in
  cg (ata_function A lambd n) ATb (vzero n) n (tol iteration) (jacobi A n).
Definition cg_solve (tol : nat -> T) : linear_solver := fun A ATb lambd iteration =>
  r <- cg_run tol A ATb lambd iteration ;; Ok (fst r).

(* :139-146 *)
Definition conjugate_gradient_solver (tolerance : T) : linear_solver := cg_solve (fun _ => tolerance).
(* :149-160 *)
Definition inexact_tolerance (eta : T) (iteration : nat) : T :=
  ndiv eta (nlit (Z.of_nat (iteration + 1)) 1).
Definition inexact_cg_solver (eta : T) : linear_solver := cg_solve (inexact_tolerance eta).
End Model.
