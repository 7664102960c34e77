(* Specification vocabulary for the sparse covariance. *)
From Coq Require Import List Arith Bool Reals.
From Verif Require Import Num NumR Py Arr MLayout MSparse MCov SpecSparse SpecNoise.
Import ListNotations.

(* every stored entry of column j lies on or below the diagonal and inside the matrix *)
Definition lower {T} (L : csc T) : Prop :=
  forall j col, nth_error L j = Some col -> Forall (fun rv => j <= fst rv < length L) col.

(* the value caches an object can hold: empty at first, then changed by queries only *)
Inductive history {T} {N : Num T} (S : scov T) : cache (T := T) -> Prop :=
| h_new : history S []
| h_query fuel i j ch x ch' : history S ch -> i < length (sc_L S) -> j < length (sc_L S) ->
    cov_get S fuel i j ch = Some (x, ch') -> history S ch'.

(* the factor of a chain of n scalars: column j holds rows j and j + 1 *)
Definition chain {T} {N : Num T} (n : nat) : csc T :=
  map (fun j => if Nat.ltb (j + 1) n then [(j, n1); (j + 1, n1)] else [(j, n1)]) (seq 0 n).

Local Open Scope R_scope.
(* the mathematical entry (i, j) of a csc matrix: repeated entries add up *)
Definition centry (L : csc R) (i j : nat) : R :=
  vsum (map snd (filter (fun rv => Nat.eqb (fst rv) i) (nth j L []))).
(* products and inverses of n x n matrices given by their entries *)
Definition mprod (n : nat) (a b : nat -> nat -> R) (i j : nat) : R := sumn n (fun k => a i k * b k j).
Definition mtr (a : nat -> nat -> R) (i j : nat) : R := a j i.
Definition meye (i j : nat) : R := if Nat.eqb i j then 1 else 0.
Definition meq (n : nat) (a b : nat -> nat -> R) : Prop := forall i j, (i < n)%nat -> (j < n)%nat -> a i j = b i j.
(* s is the inverse of a: a s = s a = 1 *)
Definition minverse (n : nat) (a s : nat -> nat -> R) : Prop := meq n (mprod n a s) meye /\ meq n (mprod n s a) meye.
(* a factor with its inverse diagonal, as SparseCovariance.make stores it *)
Definition factor_stored (S : scov R) : Prop := lower (sc_L S) /\
  forall i, (i < length (sc_L S))%nat -> centry (sc_L S) i i <> 0 /\ nth i (sc_diag_inv S) 0 = 1 / centry (sc_L S) i i.
(* L L^T *)
Definition llt (L : csc R) : nat -> nat -> R := mprod (length L) (centry L) (mtr (centry L)).

(* what CHOLMOD promises for cholesky_AAt(M): a lower-triangular factor with a positive
   diagonal of P M M^T P^T, p being the fill-reducing permutation it chose *)
Definition is_perm (n : nat) (p : nat -> nat) : Prop :=
  (forall i, (i < n)%nat -> (p i < n)%nat) /\ (forall i j, (i < n)%nat -> (j < n)%nat -> p i = p j -> i = j).
Definition is_factor_of (n : nat) (h : nat -> nat -> R) (p : nat -> nat) (L : csc R) : Prop :=
  length L = n /\ lower L /\ (forall i, (i < n)%nat -> 0 < centry L i i) /\ is_perm n p /\
  forall i j, (i < n)%nat -> (j < n)%nat -> llt L i j = h (p i) (p j).
(* the rows of M M^T *)
Definition aat (M : list (list R)) (i j : nat) : R := sumn (length (nth i M [])) (fun k => ent M i k * ent M j k).
