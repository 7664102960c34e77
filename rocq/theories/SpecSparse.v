(* Specification vocabulary for sparse matrices. *)
From Coq Require Import List Arith Bool Reals.
From Verif Require Import Num NumR MSparse.
Import ListNotations.

Section Spec.
Context {T : Type}.
(* the stored (row, column, value) triplets *)
Definition triples (A : coo T) : list (nat * nat * T) :=
  combine (combine (c_rows (m_coords A)) (c_cols (m_coords A))) (m_vals A).
(* consistent lengths, coordinates inside the shape *)
Definition coo_ok (A : coo T) : Prop :=
  length (c_rows (m_coords A)) = length (m_vals A) /\ length (c_cols (m_coords A)) = length (m_vals A) /\
  Forall (fun r => r < fst (m_shape A)) (c_rows (m_coords A)) /\
  Forall (fun c => c < snd (m_shape A)) (c_cols (m_coords A)).
(* no coordinate pair is stored twice *)
Definition distinct (A : coo T) : Prop := NoDup (combine (c_rows (m_coords A)) (c_cols (m_coords A))).
End Spec.

(* the mathematical entry (i, j): repeated triplets add up *)
Definition entry (A : coo R) (i j : nat) : R :=
  vsum (map snd (filter (fun t => Nat.eqb (fst (fst t)) i && Nat.eqb (snd (fst t)) j) (triples A))).

(* ordinary matrix-vector product of a matrix with n columns, row i *)
Definition mat_times (n : nat) (a : nat -> nat -> R) (x : list R) (i : nat) : R :=
  vsum (map (fun j => (a i j * nth j x 0)%R) (seq 0 n)).
(* the entries of A^T A *)
Definition gram (A : coo R) (i j : nat) : R :=
  vsum (map (fun k => (entry A k i * entry A k j)%R) (seq 0 (fst (m_shape A)))).
(* the matrix itself and the embedding into the extended reals *)
Definition finite (l : list R) : list xr := map Fin l.
Definition finite_coo (A : coo R) : coo xr := mkCoo (finite (m_vals A)) (m_coords A) (m_shape A).
(* (A^T A + beta I) x = c, entry by entry *)
Definition ridge_solution (A : coo R) (beta : R) (c x : list R) : Prop :=
  length x = snd (m_shape A) /\
  forall i, (i < snd (m_shape A))%nat -> (mat_times (snd (m_shape A)) (gram A) x i + beta * nth i x 0 = nth i c 0)%R.
