(* Specification vocabulary for the noise models. *)
From Coq Require Import List Arith Bool Reals.
From Verif Require Import Num NumR Py Arr MNoise MFactor SpecSparse.
Import ListNotations.
Local Open Scope R_scope.

(* entry (i, j) of a matrix given as a list of rows, and its shape *)
Definition ent (M : list (list R)) (i j : nat) : R := nth j (nth i M []) 0.
Definition shaped (m n : nat) (M : list (list R)) : Prop := length M = m /\ Forall (fun row => length row = n) M.
(* sum over 0 <= i < n *)
Definition sumn (n : nat) (f : nat -> R) : R := vsum (map f (seq 0 n)).

(* L L^T = C, and W is the two-sided inverse of L (what the library calls return) *)
Definition is_cholesky (k : nat) (C L : list (list R)) : Prop := shaped k k L /\
  forall i j, (i < k)%nat -> (j < k)%nat -> sumn k (fun l => ent L i l * ent L j l) = ent C i j.
Definition is_inverse (k : nat) (L W : list (list R)) : Prop := shaped k k W /\
  forall i j, (i < k)%nat -> (j < k)%nat ->
    sumn k (fun l => ent W i l * ent L l j) = (if Nat.eqb i j then 1 else 0) /\
    sumn k (fun l => ent L i l * ent W l j) = (if Nat.eqb i j then 1 else 0).

(* what HuberWrapper's whitened squared norm is, and the Huber loss (twice the textbook
   value, as the costs here carry no 1/2) *)
Definition huber_weighted (delta n : R) : R := if Rlt_dec n delta then n * n else delta * n.
Definition huber_loss (delta n : R) : R := if Rlt_dec n delta then n * n else 2 * delta * n - delta * delta.

(* J^T r, one entry per column *)
Definition gradient (cols : nat) (J : list (list R)) (r : list R) : list R :=
  map (fun j => sumn (length J) (fun i => ent J i j * nth i r 0)) (seq 0 cols).

(* the normalising term of one factor, by its own noise model; none for Huber *)
Definition log_normaliser (ln : R -> R) (det : list (list R) -> R) (n : noise R) : option R :=
  match n with
  | Gaussian W => Some (-2 * ln (Rabs (det (chunks (hd 0%nat (a_shape W)) (last (a_shape W) 0%nat) (a_data W)))))
  | DiagGaussian d => Some (-2 * ln (Rabs (fold_right Rmult 1 (a_data d))))
  | Huber _ _ => None
  end.

(* a scalar array *)
Definition scal (x : R) : arr R := mkArr [] [x].
