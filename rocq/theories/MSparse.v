(* Model of jaxfg/sparse/_sparse_matrix.py *)
From Coq Require Import List Arith Bool.
From Verif Require Import Num Py Arr.
Import ListNotations.

(* :10-15 *)
Record coords := mkCoords { c_rows : list nat; c_cols : list nat }.

Section Model.
Context {T : Type} {N : Num T}.

(* :22-31 *)
Record coo := mkCoo { m_vals : list T; m_coords : coords; m_shape : nat * nat }.

(* l.at[i].set / .add on one position; out-of-range updates are dropped (XLA scatter) *)
Fixpoint upd {A} (f : A -> A) (i : nat) (l : list A) : list A :=
  match l, i with
  | [], _ => []
  | x :: r, O => f x :: r
  | x :: r, S i' => x :: upd f i' r
  end.

(* zeros.at[rows].add(vals), updates applied in order *)
Definition scatter_add (acc : list T) (rows : list nat) (vals : list T) : list T :=
  fold_left (fun acc rv => upd (fun x => nadd x (snd rv)) (fst rv) acc) (combine rows vals) acc.

(* :39-48 __matmul__; the elementwise product and the scatter raise when the three
   arrays have different lengths *)
Definition matmul (A : coo) (x : list T) : result (list T) :=
  _ <- assert_ (Nat.eqb (length x) (snd (m_shape A))) ;;
  if Nat.eqb (length (m_vals A)) (length (c_cols (m_coords A)))
     && Nat.eqb (length (m_vals A)) (length (c_rows (m_coords A)))
  then Ok (scatter_add (vzero (fst (m_shape A))) (c_rows (m_coords A))
                       (vmul (m_vals A) (gather n0 x (c_cols (m_coords A)))))
  else Err TypeError.

(* :50-57 as_dense: zeros(shape).at[rows, cols].set(values); repeated positions: the
   updates are applied in order (XLA leaves the order unspecified) *)
Definition as_dense (A : coo) : list (list T) :=
  fold_left (fun acc rcv => upd (upd (fun _ => snd rcv) (snd (fst rcv))) (fst (fst rcv)) acc)
            (combine (combine (c_rows (m_coords A)) (c_cols (m_coords A))) (m_vals A))
            (repeat (vzero (snd (m_shape A))) (fst (m_shape A))).

(* :77-87 T *)
Definition transpose (A : coo) : coo :=
  mkCoo (m_vals A) (mkCoords (c_cols (m_coords A)) (c_rows (m_coords A)))
        (snd (m_shape A), fst (m_shape A)).

(* scipy.sparse.coo_matrix((data, (row, col)), shape): keeps the triplets as given *)
Record scipy_coo := mkScipy { sp_data : list T; sp_row : list nat; sp_col : list nat; sp_shape : nat * nat }.

(* :71-75 as_scipy_coo_matrix *)
Definition as_scipy (A : coo) : scipy_coo :=
  mkScipy (m_vals A) (c_rows (m_coords A)) (c_cols (m_coords A)) (m_shape A).

(* :59-69 from_scipy_coo_matrix *)
Definition from_scipy (S : scipy_coo) : coo :=
  mkCoo (sp_data S) (mkCoords (sp_row S) (sp_col S)) (sp_shape S).

(* A_T.as_scipy_coo_matrix().tocsc(): scipy sums repeated positions; the dense view of
   that matrix, used to model CHOLMOD *)
Definition scipy_dense (S : scipy_coo) : list (list T) :=
  fold_left (fun acc rcv => upd (upd (fun x => nadd x (snd rcv)) (snd (fst rcv))) (fst (fst rcv)) acc)
            (combine (combine (sp_row S) (sp_col S)) (sp_data S))
            (repeat (vzero (snd (sp_shape S))) (fst (sp_shape S))).
End Model.
Arguments coo : clear implicits.
Arguments scipy_coo : clear implicits.
