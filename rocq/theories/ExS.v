(* Concrete nonlinear problems used by the solver examples and counterexamples. *)
From Coq Require Import List Arith Bool ZArith.
From Verif Require Import Num Py Arr MLayout MAssign MNoise MSparse MFactor MGraph MLinear MSolver Ex ExG.
Import ListNotations.

Section Ex.
Context {T : Type} {N : Num T}.
(* class 20: x^2 - z; class 21: x - z; both for one scalar variable *)
Definition exSE : env T := mkEnv exC
  (fun fd vals => match fd_cls fd, vals with
     | 20, [x] => vsub (vmul (ravel x) (ravel x)) (par fd)
     | 21, [x] => vsub (ravel x) (par fd)
     | _, _ => []
     end)
  (fun fd vals => match fd_cls fd, vals with
     | 20, [x] => [[vscale (lit 2) (ravel x)]]
     | 21, _ => [[[n1]]]
     | _, _ => []
     end).
Definition vx : var := mkVar 0 2.
Definition vy : var := mkVar 1 2.
Definition dg1 : noise T := DiagGaussian (mkArr [1] [n1]).
Definition square (v : var) (z : Z) : factor T := mkFactor 20 [v] dg1 [leaf1 [lit z]].
Definition anchor (v : var) (z : Z) : factor T := mkFactor 21 [v] dg1 [leaf1 [lit z]].

Definition graph_of (fs : list (factor T)) : graph T :=
  match graph_make exSE fs with Ok g => g | Err _ => mkGraph [] (mkCoords [] []) (make_layout exC [] false) (make_layout exC [] true) 0 end.
Definition scalars (vs : list var) (xs : list T) : assign T := mkAssign xs (make_layout exC vs false).

(* the default settings of the code *)
Definition term_default (max_it : Z) : term_cfg T :=
  mkTerm max_it (nlit 1 100000) (nlit 1 1000000000) 10 (nlit 1 10000000).
Definition lm_default (max_it : Z) : lm_cfg T :=
  mkLm (term_default max_it) (nlit 5 10000) (lit 2) (nlit 1 100000) (lit 10000000000) (nlit 1 1000).
Definition dl_default (max_it : Z) : dl_cfg T := mkDl (term_default max_it) n1 (nlit 1 1000).

Definition start (g : graph T) (a : assign T) (extra : T) : sstate T :=
  match compute_cost exSE g a with Ok (c, r) => mkState 0 a c r false extra | Err _ => mkState 0 a n0 [] true extra end.
End Ex.
