(* Evaluating factors by hand: bundled statements and a concrete case. *)
From Coq Require Import List Arith Bool ZArith Lia Reals Permutation.
From Verif Require Import Num NumR NumF32 Py Arr MLayout MAssign MNoise MFactor MGraph MMisc MHand SpecLayout SpecTree SpecAssign SpecGraph SpecSparse SpecMisc SpecHand.
From Verif Require Import PBase PLayout PAssign PAssign2 PGraph PGraph2 PExAssign PExGraph PMisc PHand Ex ExG.
Import ListNotations.

Lemma hand_values : forall (T : Type) (N : Num T) (E : env T) isinstance hint_of vs a (f : factor T), classes_ok (e_cls E) -> wf_assign (e_cls E) vs false a ->
  (forall val, (forall v, In v vs -> get_value (e_cls E) a v = Ok (val v)) -> incl (f_vars f) vs ->
     (admits isinstance (hint_of (f_cls f)) (map val (f_vars f)) ->
        get_variable_values_from_assignments E isinstance hint_of f a = Ok (wrapped (hint_of (f_cls f)) (map val (f_vars f)))) /\
     (~ admits isinstance (hint_of (f_cls f)) (map val (f_vars f)) -> exists e, get_variable_values_from_assignments E isinstance hint_of f a = Err e)) /\
  (~ incl (f_vars f) vs -> get_variable_values_from_assignments E isinstance hint_of f a = Err KeyError) /\
  (forall v x a', In v vs -> ~ In v (f_vars f) -> value_ok (e_cls E (v_ty v)) x -> set_value (e_cls E) a v x = Ok a' ->
     get_variable_values_from_assignments E isinstance hint_of f a' = get_variable_values_from_assignments E isinstance hint_of f a).
Proof.
  intros T N E isi hint_of vs a f CO Hwf. unfold get_variable_values_from_assignments. split; [|split].
  - intros val Hv Hi. rewrite (values_read E vs a (f_vars f) val Hwf Hi Hv). cbn [bind]. split; [apply build_admitted | apply build_refused].
  - intros Hn. rewrite (values_missing E vs a (f_vars f) Hwf CO Hn). auto.
  - intros v x a' Hin Hnot Hx Hs. destruct (lens_laws (e_cls E) CO vs a Hwf) as (Hl & _). destruct (Hl v x Hin Hx) as (a1 & Ha1 & _ & _ & _ & Hoth).
    rewrite Hs in Ha1. injection Ha1 as <-. rewrite (PGraph4.traverse_ext_in (get_value (e_cls E) a') (get_value (e_cls E) a)); auto.
    intros w Hw. apply Hoth. intros ->. auto.
Qed.

Section Graph.
Context {T : Type} {N : Num T}.
Variable E : env T.
Variable isinstance : pytree T -> nat -> bool.
Variable hint_of : nat -> hint.
Lemma hand_whitened fs a val f : assigns E fs a val -> In f fs -> admits isinstance (hint_of (f_cls f)) (map val (f_vars f)) ->
  whitened_by_hand E isinstance hint_of f a = whitened_at E val f.
Proof.
  intros (vs & Hwf & Hm & Hv) Hf Ha. unfold whitened_by_hand, get_variable_values_from_assignments.
  rewrite (values_read E vs a (f_vars f) val Hwf); auto.
  - cbn [bind]. rewrite build_admitted by auto. cbn [bind]. unfold whitened_at, residual_at. destruct (hint_of (f_cls f)); auto.
  - intros v Hin. apply Hm. apply firsts_in. apply in_flat_map. eauto.
Qed.
End Graph.

Lemma Forall2_in_l {A B} (P Q : A -> B -> Prop) l l' : Forall2 P l l' -> (forall x y, In x l -> P x y -> Q x y) -> Forall2 Q l l'.
Proof. induction 1; intros H1; constructor; [apply H1; [left; auto | auto] | apply IHForall2; intros; apply H1; [right; auto | auto]]. Qed.
Lemma split_in_fs {T} (f : factor T) fs ins outs : split_kind f fs ins outs -> forall g, In g ins \/ In g outs -> In g fs.
Proof. induction 1; intros h; cbn; [tauto | |]; intros [Hi|Hi]; auto; try (destruct Hi as [<-|Hi]; auto). Qed.
Lemma groups_in {T} (fs : list (factor T)) gs : groups_of fs gs -> forall f, In f (concat gs) -> In f fs.
Proof.
  induction 1 as [|f fs ins outs gs Hs Hg IH]; intros h; cbn [concat app In]; [tauto|]. intros [Hi|Hi]; [auto|].
  apply in_app_or in Hi. right. apply (split_in_fs _ _ _ _ Hs). destruct Hi as [Hi|Hi]; auto.
Qed.

Lemma hand_graph : forall (T : Type) (N : Num T) (E : env T) isinstance hint_of fs g a val gs,
  (forall f, In f fs -> factor_ok f) -> graph_make E fs = Ok g -> groups_of fs gs ->
  assigns E fs a val -> (forall f, In f fs -> residual_shape_ok E val f) ->
  (forall f, In f fs -> admits isinstance (hint_of (f_cls f)) (map val (f_vars f))) ->
  exists ws, Forall2 (fun f w => whitened_by_hand E isinstance hint_of f a = Ok w) (concat gs) ws /\
    compute_whitened_residual_vector E g a = Ok (concat ws).
Proof.
  intros T N E isi hint_of fs g a val gs Hok Hg Hgs Ha Hs Had. destruct (residuals_per_factor E fs g a val gs Hok Hg Hgs Ha Hs) as (ws & Hws & Hr).
  exists ws. split; auto. assert (Hin : forall f, In f (concat gs) -> In f fs) by (intros f; apply groups_in; auto).
  apply (Forall2_in_l _ _ _ _ Hws). intros f w Hf (Hw & _). rewrite (hand_whitened E isi hint_of fs a val f); auto.
Qed.
Lemma hand_cost : forall (E : env R) isinstance hint_of fs g a val,
  (forall f, In f fs -> factor_ok f) -> graph_make E fs = Ok g -> assigns E fs a val -> (forall f, In f fs -> residual_shape_ok E val f) ->
  (forall f, In f fs -> admits isinstance (hint_of (f_cls f)) (map val (f_vars f))) ->
  exists r ws, compute_cost E g a = Ok (vsum (map sumsq ws), r) /\ Forall2 (fun f w => whitened_by_hand E isinstance hint_of f a = Ok w) fs ws.
Proof.
  intros E isi hint_of fs g a val Hok Hg Ha Hs Had. destruct (cost_per_factor E fs g Hok Hg) as (H & _). destruct (H a val Ha Hs) as (r & ws & _ & Hc & Hws & He).
  exists r, ws. rewrite <- He. split; auto. apply (Forall2_in_l _ _ _ _ Hws). intros f w Hf Hw. rewrite (hand_whitened E isi hint_of fs a val f); auto.
Qed.

#[local] Existing Instance NumF32.
(* two hinted classes: class 10 takes a NamedTuple of two 2-vectors, class 11 one pose *)
Definition leaves_of (x : pytree f32) (t : nat) : bool := match x with Leaf _ => Nat.eqb t 0 | Node _ _ => Nat.eqb t 1 end.
Definition ex_hint (c : nat) : hint := match c with 10 => HNamed 4 [TyElt 0; TyElt 0] | _ => HTuple [TyElt 1; TyEllipsis] end.
Lemma ex_hand : assigns exE ex_factors ex_assign ex_val /\ (forall f, In f ex_factors -> residual_shape_ok exE ex_val f) /\
  (forall f, In f ex_factors -> admits leaves_of (ex_hint (f_cls f)) (map ex_val (f_vars f))) /\
  (exists t w, get_variable_values_from_assignments exE leaves_of ex_hint (nth 0 ex_factors ex_twice) ex_assign = Ok (Named 4 t) /\ length t = 2 /\
     whitened_by_hand exE leaves_of ex_hint (nth 0 ex_factors ex_twice) ex_assign = Ok w /\ nth 0 w n0 <> n0) /\
  get_variable_values_from_assignments exE leaves_of ex_hint (poseprior (mkVar 77 1) [lit 0; lit 0; lit 0] 100) ex_assign = Err KeyError.
Proof.
  split; [exact ex_assigns|]. split; [exact ex_residual_shapes|]. split.
  - intros f Hf. cbn in Hf. repeat (destruct Hf as [<-|Hf]); try contradiction; cbn [f_cls between poseprior ex_hint admits f_vars map].
    1-3: split; [reflexivity|]; right; split; [intros e He; discriminate|]; repeat constructor.
    1-2: left; exists (TyElt 1); split; [reflexivity|]; repeat constructor.
  - split; [|vm_compute; reflexivity]. do 2 eexists. split; [vm_compute; reflexivity|]. split; [vm_compute; reflexivity|]. split; [vm_compute; reflexivity|]. vm_compute. discriminate.
Qed.
