(* Specification vocabulary: problems whose information is proportional. *)
From Coq Require Import List Arith Bool ZArith Reals.
From Verif Require Import Num NumR Py Arr MLayout MAssign MNoise MSparse MFactor MGraph MLinear MSolver SpecLayout SpecTree SpecAssign SpecGraph SpecSparse SpecNoise SpecDeriv SpecOrder SpecTwin.
Import ListNotations.
Local Open Scope R_scope.

(* as same_information, but the sums of the second list are k times those of the first *)
Definition proportional_information (k : R) (E : env R) (fs fs' : list (factor R)) : Prop :=
  (forall v, In v (mentioned fs) <-> In v (mentioned fs')) /\
  forall val old xi,
    (forall v, In v (mentioned fs) -> value_ok (e_cls E (v_ty v)) (val v)) ->
    (forall v, In v (mentioned fs) -> value_ok (e_cls E (v_ty v)) (old v)) ->
    (forall v, In v (mentioned fs) -> length (xi v) = vldim (e_cls E) v) ->
    vsum (map (model_at E val old xi) fs') = k * vsum (map (model_at E val old xi) fs).

(* noise models of dimension d, the second with c times the sqrt-precision (any square root of
   c^2 times the precision matrix) and c times the Huber thresholds of the first *)
Inductive scaled_weight (c : R) (d : nat) : noise R -> noise R -> Prop :=
| scw_linear n n' : linear_noise n -> linear_noise n' -> noise_dim n = d -> noise_dim n' = d ->
    (forall i j, (i < d)%nat -> (j < d)%nat -> precision n' i j = c * c * precision n i j) ->
    scaled_weight c d n n'
| scw_huber n n' delta delta' x : scaled_weight c d n n' -> scalar delta = Ok x -> scalar delta' = Ok (c * x) ->
    scaled_weight c d (Huber n delta) (Huber n' delta').
Definition scaled_factor (c : R) (E : env R) (f f' : factor R) : Prop :=
  same_function E f f' /\ scaled_weight c (residual_dim f) (f_noise f) (f_noise f').

(* solve() of the three convergence-controlled solvers with conjugate gradients (any tolerance
   schedule), the gradient test, which compares with an absolute tolerance, never being reached *)
Definition gradient_test_off (cfg : term_cfg R) : Prop := (max_iterations cfg - 1 <= gradient_start cfg)%Z.
Inductive cg_based_solver (E : env R) : (nat -> graph R -> assign R -> option (result (assign R))) -> Prop :=
| cgb_gn cfg tol : gradient_test_off cfg -> cg_based_solver E (fun fuel => gn_solve E fuel cfg (cg_solve tol))
| cgb_lm cfg tol : gradient_test_off (lm_term cfg) -> cg_based_solver E (fun fuel => lm_solve E fuel cfg (cg_solve tol))
| cgb_dl cfg tol : gradient_test_off (dl_term cfg) -> cg_based_solver E (fun fuel => dl_solve E fuel cfg (cg_solve tol)).
