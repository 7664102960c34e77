(* Specification vocabulary: problems that fall apart into independent parts. *)
From Coq Require Import List Reals.
From Verif Require Import Num NumR Py Arr MLayout MAssign MSparse MFactor MGraph SpecLayout SpecGraph.
Import ListNotations.

(* the two lists of factors have no variable in common *)
Definition independent (part rest : list (factor R)) : Prop :=
  forall v, In v (mentioned part) -> In v (mentioned rest) -> False.

(* a run on the whole problem fs and a run on its part: both still running, the same exception,
   or results in which every variable of the part has the same value *)
Definition part_outcome (E : env R) (fs part : list (factor R)) (o o' : option (result (assign R))) : Prop :=
  match o, o' with
  | None, None => True
  | Some (Err e), Some (Err e') => e = e'
  | Some (Ok a), Some (Ok a') => exists val, assigns E fs a val /\ assigns E part a' val
  | _, _ => False
  end.

(* the Jacobian, wherever it is evaluated, sends no direction to zero *)
Definition determined (E : env R) (fs : list (factor R)) (g : graph R) : Prop :=
  forall a val r A, assigns E fs a val -> length r = total residual_dim fs -> compute_whitened_residual_jacobian E g a r = Ok A ->
  forall x, length x = snd (m_shape A) -> matmul A x = Ok (vzero (fst (m_shape A))) -> x = vzero (snd (m_shape A)).
