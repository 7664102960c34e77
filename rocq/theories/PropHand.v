(* Evaluating factors by hand. *)
From Coq Require Import List Arith Bool Reals ZArith.
From Verif Require Import Num NumR NumF32 Py Arr MLayout MAssign MNoise MFactor MGraph MMisc MHand SpecLayout SpecTree SpecAssign SpecGraph SpecSparse SpecMisc SpecHand Ex ExG PExAssign PExGraph PExHand.
Import ListNotations.


Theorem C91_values : forall (T : Type) (N : Num T) (E : env T) isinstance hint_of vs a (f : factor T), classes_ok (e_cls E) -> wf_assign (e_cls E) vs false a ->
  (forall val, (forall v, In v vs -> get_value (e_cls E) a v = Ok (val v)) -> incl (f_vars f) vs ->
     (admits isinstance (hint_of (f_cls f)) (map val (f_vars f)) ->
        get_variable_values_from_assignments E isinstance hint_of f a = Ok (wrapped (hint_of (f_cls f)) (map val (f_vars f)))) /\
     (~ admits isinstance (hint_of (f_cls f)) (map val (f_vars f)) -> exists e, get_variable_values_from_assignments E isinstance hint_of f a = Err e)) /\
  (~ incl (f_vars f) vs -> get_variable_values_from_assignments E isinstance hint_of f a = Err KeyError) /\
  (forall v x a', In v vs -> ~ In v (f_vars f) -> value_ok (e_cls E (v_ty v)) x -> set_value (e_cls E) a v x = Ok a' ->
     get_variable_values_from_assignments E isinstance hint_of f a' = get_variable_values_from_assignments E isinstance hint_of f a).
Proof. exact hand_values. Qed.
Print Assumptions C91_values.

Theorem C91_graph : forall (T : Type) (N : Num T) (E : env T) isinstance hint_of fs g a val gs,
  (forall f, In f fs -> factor_ok f) -> graph_make E fs = Ok g -> groups_of fs gs ->
  assigns E fs a val -> (forall f, In f fs -> residual_shape_ok E val f) ->
  (forall f, In f fs -> admits isinstance (hint_of (f_cls f)) (map val (f_vars f))) ->
  exists ws, Forall2 (fun f w => whitened_by_hand E isinstance hint_of f a = Ok w) (concat gs) ws /\
    compute_whitened_residual_vector E g a = Ok (concat ws).
Proof. exact hand_graph. Qed.
Print Assumptions C91_graph.

Theorem C91_cost : forall (E : env R) isinstance hint_of fs g a val,
  (forall f, In f fs -> factor_ok f) -> graph_make E fs = Ok g -> assigns E fs a val -> (forall f, In f fs -> residual_shape_ok E val f) ->
  (forall f, In f fs -> admits isinstance (hint_of (f_cls f)) (map val (f_vars f))) ->
  exists r ws, compute_cost E g a = Ok (vsum (map sumsq ws), r) /\ Forall2 (fun f w => whitened_by_hand E isinstance hint_of f a = Ok w) fs ws.
Proof. exact hand_cost. Qed.
Print Assumptions C91_cost.

(* non-vacuity: factors with a NamedTuple hint and with a Tuple hint, and one whose variable has no value *)
#[local] Existing Instance NumF32.
Example C91_example : assigns exE ex_factors ex_assign ex_val /\ (forall f, In f ex_factors -> residual_shape_ok exE ex_val f) /\
  (forall f, In f ex_factors -> admits leaves_of (ex_hint (f_cls f)) (map ex_val (f_vars f))) /\
  (exists t w, get_variable_values_from_assignments exE leaves_of ex_hint (nth 0 ex_factors ex_twice) ex_assign = Ok (Named 4 t) /\ length t = 2 /\
     whitened_by_hand exE leaves_of ex_hint (nth 0 ex_factors ex_twice) ex_assign = Ok w /\ nth 0 w n0 <> n0) /\
  get_variable_values_from_assignments exE leaves_of ex_hint (poseprior (mkVar 77 1) [lit 0; lit 0; lit 0] 100) ex_assign = Err KeyError.
Proof. exact ex_hand. Qed.
