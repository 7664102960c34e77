(* Model of jaxfg/experimental/_sparse_covariance.py *)
From Coq Require Import List Arith Bool.
From Verif Require Import Num Py Arr MLayout MAssign MSparse MFactor MGraph.
Import ListNotations.

Definition pair_eqb (a b : nat * nat) : bool := Nat.eqb (fst a) (fst b) && Nat.eqb (snd a) (snd b).
Lemma pair_eqb_ok a b : pair_eqb a b = true <-> a = b.
Proof.
  destruct a, b; unfold pair_eqb; simpl. rewrite andb_true_iff, !Nat.eqb_eq.
  split; [intros [-> ->]; reflexivity | intros [= -> ->]; auto].
Qed.
#[export] Instance Eqb_pair : Eqb (nat * nat) := {| eqb := pair_eqb; eqb_ok := pair_eqb_ok |}.

Section Model.
Context {T : Type} {N : Num T}.

(* a scipy csc matrix: for each column the stored (row, value) pairs (column.indices,
   column.data of getcol) *)
Definition csc := list (list (nat * T)).

(* :11-24; the value cache is threaded explicitly.  Entries of L_diag_inv are read with
   in-range indices only. *)
Record scov := mkScov { sc_L : csc; sc_diag_inv : list T; sc_layout : layout }.
Definition cache := dict (nat * nat) T.

(* :112-119, the loop of _sum_over_col over the stored entries of column [col] *)
Fixpoint sum_entries (get : nat -> nat -> cache -> option (T * cache)) (col col_l : nat)
    (es : list (nat * T)) (total : T) (ch : cache) : option (T * cache) :=
  match es with
  | [] => Some (total, ch)
  | (row, val) :: r =>
      if Nat.eqb col row then sum_entries get col col_l r total ch
      else match get row col_l ch with
           | None => None
           | Some (x, ch') => sum_entries get col col_l r (nadd total (nmul val x)) ch'
           end
  end.

(* :86-109 __getitem__ and :111-121 _sum_over_col; [fuel] bounds the Python recursion
   depth, None = RecursionError *)
Fixpoint cov_get (S : scov) (fuel : nat) (i j : nat) (ch : cache) : option (T * cache) :=
  match fuel with
  | O => None
  | S fuel' =>
      let row := Nat.min i j in
      let col := Nat.max i j in
      match dict_get ch (row, col) with
      | Some x => Some (x, ch)
      | None =>
          let sum := fun c cl ch => sum_entries (cov_get S fuel') c cl (nth c (sc_L S) []) n0 ch in
          let r :=
            if Nat.eqb row col
            then match sum col col ch with
                 | None => None
                 | Some (s, ch') =>
                     let d := nth col (sc_diag_inv S) n0 in
                     Some (nmul d (nsub d s), ch')
                 end
            else match sum row col ch with
                 | None => None
                 | Some (s, ch') => Some (nmul (nneg (nth row (sc_diag_inv S) n0)) s, ch')
                 end in
          match r with
          | None => None
          | Some (v, ch') => Some (v, dict_set ch' (row, col) v)
          end
      end
  end.

(* :73-84 _compute_marginal: row-major loop, the cache persists *)
Fixpoint cov_row (S : scov) (fuel : nat) (i : nat) (js : list nat) (ch : cache) : option (list T * cache) :=
  match js with
  | [] => Some ([], ch)
  | j :: r => match cov_get S fuel i j ch with
              | None => None
              | Some (x, ch') => match cov_row S fuel i r ch' with
                                 | None => None
                                 | Some (xs, ch'') => Some (x :: xs, ch'')
                                 end
              end
  end.
Fixpoint cov_rows (S : scov) (fuel : nat) (is js : list nat) (ch : cache) : option (list (list T) * cache) :=
  match is with
  | [] => Some ([], ch)
  | i :: r => match cov_row S fuel i js ch with
              | None => None
              | Some (x, ch') => match cov_rows S fuel r js ch' with
                                 | None => None
                                 | Some (xs, ch'') => Some (x :: xs, ch'')
                                 end
              end
  end.
Definition marginal_of_indices (S : scov) (fuel : nat) (idx : list nat) (ch : cache) :=
  cov_rows S fuel idx idx ch.

(* :65-70 the index list of compute_marginal *)
Definition marginal_indices (C : cenv (T := T)) (L : layout) (vs : list var) : result (list nat) :=
  foldM (fun acc v => i <- dict_getE (l_index L) v ;; Ok (acc ++ arange i (vldim C v))) vs [].

(* :60-71 compute_marginal *)
Definition compute_marginal (C : cenv (T := T)) (S : scov) (fuel : nat) (vs : list var) (ch : cache)
    : result (option (list (list T) * cache)) :=
  idx <- marginal_indices C (sc_layout S) vs ;;
  Ok (marginal_of_indices S fuel idx ch).

(* :51-58 as_dense; [inv] is onp.linalg.inv on the dense view of L, given as rows *)
Definition csc_dense (n : nat) (L : csc) : list (list T) :=
  map (fun i => map (fun j => fold_right (fun rv acc => if Nat.eqb (fst rv) i then nadd (snd rv) acc else acc)
                                         n0 (nth j L [])) (seq 0 n)) (seq 0 n).
Definition cov_dense_inverse (inv : list (list T) -> list (list T)) (S : scov) : list (list T) :=
  let n := length (sc_L S) in
  let Li := inv (csc_dense n (sc_L S)) in
  map (fun i => map (fun j => vdot (mcol i Li) (mcol j Li)) (seq 0 n)) (seq 0 n).
Definition cov_dense_recursive (S : scov) (fuel : nat) (ch : cache) :=
  marginal_of_indices S fuel (seq 0 (l_dim (sc_layout S))) ch.

(* :26-49 make.  [chol M] stands for sksparse.cholmod.cholesky_AAt(A).L(): given the dense
   A^T (rows), the sparse lower-triangular factor CHOLMOD returns. *)
Definition scov_make (chol : list (list T) -> csc) (E : env T) (g : graph T) (a : assign T) : result scov :=
  r <- compute_whitened_residual_vector E g a ;;
  A <- compute_whitened_residual_jacobian E g a r ;;
  let L := chol (scipy_dense (as_scipy (transpose A))) in
  let diag := map (fun i => fold_right (fun rv acc => if Nat.eqb (fst rv) i then nadd (snd rv) acc else acc)
                                        n0 (nth i L [])) (seq 0 (length L)) in
  Ok (mkScov L (map (fun d => ndiv n1 d) diag) (g_local_layout g)).
End Model.
Arguments csc : clear implicits.
Arguments scov : clear implicits.
