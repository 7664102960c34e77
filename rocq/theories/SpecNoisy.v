(* Specification vocabulary: the same pose factors with measurements that are off by a little. *)
From Coq Require Import List Arith Reals.
From Verif Require Import Num NumR Py Arr MLayout MNoise MFactor MLie MPose.
Import ListNotations.
Local Open Scope R_scope.

Section Spec.
Variable groups : vty -> lie_ops R (list R).

(* the second factor is the first with its measurement moved, in the tangent space, by at most
   eps; variables and noise models are the same *)
Inductive off_by (eps : R) : factor R -> factor R -> Prop :=
| off_prior v mu n d : length d = lg_dim (groups (v_ty v)) -> vnorm d <= eps ->
    off_by eps (prior_make v mu n) (prior_make v (group_value (v_ty v) (lie_retract (groups (v_ty v)) (params mu) d)) n)
| off_between va vb Tab n d f f' : length d = lg_dim (groups (v_ty va)) -> vnorm d <= eps ->
    between_make va vb Tab n = Ok f -> between_make va vb (group_value (v_ty va) (lie_retract (groups (v_ty va)) (params Tab) d)) n = Ok f' ->
    off_by eps f f'.

(* the same for the factors of a graph, one by one *)
Definition noisy (eps : R) (fs fs' : list (factor R)) : Prop := Forall2 (off_by eps) fs fs'.
End Spec.
