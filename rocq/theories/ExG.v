(* Concrete factors and graphs used by the examples and counterexamples. *)
From Coq Require Import List Arith Bool ZArith.
From Verif Require Import Num Py Arr MLayout MAssign MNoise MSparse MFactor MGraph Ex.
Import ListNotations.

Section Ex.
Context {T : Type} {N : Num T}.
Definition eye (n : nat) : list (list T) := map (fun i => map (fun j => if Nat.eqb i j then n1 else n0) (seq 0 n)) (seq 0 n).
Definition neye (n : nat) : list (list T) := map vneg (eye n).
Definition par (fd : fdata T) : list T := match fd_params fd with p :: _ => ravel p | [] => [] end.

(* class 10: b - a - z for 2-vectors; class 11: the first three parameters of a pose minus z;
   class 12: the product-free sum a + b - z of two 2-vectors *)
Definition exE : env T := mkEnv exC
  (fun fd vals => match fd_cls fd, vals with
     | 10, [a; b] => vsub (vsub (ravel b) (ravel a)) (par fd)
     | 11, [a] => vsub (firstn 3 (ravel a)) (par fd)
     | 12, [a; b] => vsub (vadd (ravel a) (ravel b)) (par fd)
     | _, _ => []
     end)
  (fun fd vals => match fd_cls fd with
     | 10 => [neye 2; eye 2]
     | 11 => [eye 3]
     | 12 => [eye 2; eye 2]
     | _ => []
     end).

Definition between (c : nat) (a b : var) (n : noise T) (z : list T) : factor T := mkFactor c [a; b] n [leaf1 z].
Definition poseprior (a : var) (z : list T) (dl : Z) : factor T :=
  mkFactor 11 [a] (Huber (DiagGaussian (mkArr [3] [lit 1; lit 2; lit 1])) (mkArr [] [lit dl])) [leaf1 z].
Definition dg2 (a b : Z) : noise T := DiagGaussian (mkArr [2] [lit a; lit b]).
Definition gs2 (a b c d : Z) : noise T := Gaussian (mkArr [2; 2] [lit a; lit b; lit c; lit d]).

Definition ex_lin : list (factor T) :=
  [between 10 va vc (dg2 1 2) [lit 1; lit 1]; between 10 vc va (gs2 1 1 0 2) [lit 0; lit 3];
   between 10 vc va (dg2 3 1) [lit 2; lit 0]].
Definition ex_factors : list (factor T) := ex_lin ++ [poseprior vd [lit 1; lit 0; lit 5] 2; poseprior vb [lit 0; lit 0; lit 0] 100].
Definition ex_twice : factor T := between 12 va va (dg2 1 1) [lit 0; lit 0].
End Ex.
