(* Concrete instances and counterexamples for problems carrying the same information. *)
From Coq Require Import List Arith Bool ZArith Lia Permutation Reals Lra.
From Verif Require Import Num NumR Py Arr MLayout MAssign MNoise MSparse MFactor MGraph MLinear MSolver SpecLayout SpecTree SpecAssign SpecGraph SpecSparse SpecNoise SpecDeriv SpecSolver SpecOrder SpecTwin.
From Verif Require Import PBase PLayout PTree PAssign PAssign2 PGraph PGraph2 PGraph4 PExAssign PExGraph PVec PSum PDescent PSolverR POrder POrder2 POrder3 PTwin PTwin2 Ex ExG ExS PExSolver PExOrder PExPart PExDescent.
Import ListNotations.
Local Open Scope R_scope.
Ltac comp := lazy -[Rlit Rplus Rmult Ropp IZR Rdiv Rminus Rmax Rmin sqrt Rabs Rleb Rltb Rinv].

Lemma info_closed (E : env R) :
  (forall fs, same_information E fs fs) /\
  (forall fs fs', same_information E fs fs' -> same_information E fs' fs) /\
  (forall fs1 fs2 fs3, same_information E fs1 fs2 -> same_information E fs2 fs3 -> same_information E fs1 fs3) /\
  (forall fs fs', Permutation fs fs' -> same_information E fs fs') /\
  (forall a a' b b', same_information E a a' -> same_information E b b' -> same_information E (a ++ b) (a' ++ b')).
Proof. split; [apply info_refl|]. split; [apply info_sym|]. split; [apply info_trans|]. split; [apply info_perm | apply info_app]. Qed.

(* ---- squares with other targets ---- *)
Definition tri : list (factor R) := [square vx 0; square vx 4; square vx 5].
Definition tri' : list (factor R) := [square vx 1; square vx 2; square vx 6].
Lemma one_legal (fs : list (factor R)) val : In vx (mentioned fs) -> (forall v, In v (mentioned fs) -> value_ok (e_cls (exSE (N := NumR)) (v_ty v)) (val v)) -> exists x, val vx = leaf1 [x].
Proof. intros Hv H. apply scalar_shape. apply (H vx). auto. Qed.
Lemma one_tangent (fs : list (factor R)) (xi : var -> list R) : In vx (mentioned fs) -> (forall v, In v (mentioned fs) -> length (xi v) = vldim (e_cls (exSE (N := NumR))) v) -> exists d, xi vx = [d].
Proof.
  intros Hv H. specialize (H vx Hv). change (length (xi vx) = 1%nat) in H. destruct (xi vx) as [|d [|? ?]]; try discriminate. eauto.
Qed.
Lemma square_model val old xi z x y d : val vx = leaf1 [x] -> old vx = leaf1 [y] -> xi vx = [d] ->
  model_at exSE val old xi (square vx z) = (2 * x * d + (y * y - IZR z)) * (2 * x * d + (y * y - IZR z)).
Proof.
  intros Hv Ho Hx. unfold model_at, whitened_at, whitened_jacobians_at, residual_at, jacobians_at, pushed. cbn [map f_vars square f_noise dg1]. rewrite Hv, Ho.
  cbn [traverse zipw fold_right]. comp. unfold vx in Hx. rewrite Hx. comp. unfold Rlit. lra.
Qed.
Lemma tri_info : same_information exSE tri tri'.
Proof.
  split; [intros v; simpl; tauto|]. intros val old xi A B D.
  destruct (one_legal tri val ltac:(simpl; auto) A) as (x & Ex). destruct (one_legal tri old ltac:(simpl; auto) B) as (y & Ey). destruct (one_tangent tri xi ltac:(simpl; auto) D) as (d & Ed).
  unfold tri, tri'. cbn [map]. rewrite !(square_model val old xi _ x y d) by auto. rewrite !vsum_cons, vsum_nil. simpl IZR. lra.
Qed.
Lemma one_two (fs : list (factor R)) : (forall f, In f fs -> exists z, f = square vx z) -> forall f, In f fs -> exists v z, In v [vx; vy] /\ (f = square v z \/ f = anchor v z).
Proof. intros H f Hf. destruct (H f Hf) as (z & ->). exists vx, z. simpl; auto. Qed.
Lemma tri_squares f : In f tri -> exists z, f = square vx z.
Proof. intros [<-|[<-|[<-|[]]]]; eauto. Qed.
Lemma tri_squares' f : In f tri' -> exists z, f = square vx z.
Proof. intros [<-|[<-|[<-|[]]]]; eauto. Qed.
Lemma twin_example : classes_ok (e_cls (exSE (N := NumR))) /\ (forall f, In f tri -> factor_ok f) /\ (forall f, In f tri' -> factor_ok f) /\
  no_repeats tri /\ no_repeats tri' /\ same_information exSE tri tri' /\ (forall f, In f tri -> ~ In f tri') /\
  graph_make exSE tri = Ok (graph_of tri) /\ graph_make exSE tri' = Ok (graph_of tri') /\
  total residual_dim tri = 3%nat /\ total residual_dim tri' = 3%nat /\ well_shaped exSE tri /\ well_shaped exSE tri' /\
  assigns exSE tri (scalars [vx] [2]) (const_of 2) /\
  library_solver exSE (fun fuel => dl_solve exSE fuel (dl_default 100) (inexact_cg_solver (1/10))).
Proof.
  split; [apply exS_classes|]. split; [apply ok_two, one_two, tri_squares|]. split; [apply ok_two, one_two, tri_squares'|].
  assert (Hn : forall fs : list (factor R), (forall f, In f fs -> exists z, f = square vx z) -> no_repeats fs).
  { intros fs H f Hf. destruct (H f Hf) as (z & ->). repeat constructor. simpl; tauto. }
  split; [apply Hn, tri_squares|]. split; [apply Hn, tri_squares'|]. split; [exact tri_info|]. split.
  { assert (Hz : forall z z' : Z, z <> z' -> square (T := R) vx z <> square vx z').
    { intros z z' H Hc. apply (f_equal f_params) in Hc. injection Hc as Hc. apply H. apply eq_IZR. unfold lit in Hc. cbn in Hc. unfold Rlit in Hc. lra. }
    intros f [<-|[<-|[<-|[]]]] [Hc|[Hc|[Hc|[]]]]; revert Hc; apply Hz; lia. }
  split; [reflexivity|]. split; [reflexivity|]. split; [reflexivity|]. split; [reflexivity|]. split; [apply shaped_two, one_two, tri_squares|]. split; [apply shaped_two, one_two, tri_squares'|].
  split; [|apply any_dl; apply lib_cg].
  exists [vx]. split; [split; [repeat constructor; simpl; tauto | split; reflexivity]|]. split; [intros v; simpl; tauto|]. intros v [<-|[]]. reflexivity.
Qed.

(* ---- another square root of the same precision, inside a Huber wrapper; and a precision
   written as a sum ---- *)
Definition huber2 (n : noise R) : noise R := Huber n (mkArr [] [lit 3]).
Lemma rotated_weight : same_weight 2 (huber2 (dg2 5 5)) (huber2 (gs2 3 4 (-4) 3)).
Proof.
  apply sw_huber. apply sw_linear; try reflexivity; try exact I. intros i j Hi Hj.
  destruct i as [|[|i]]; [| |lia]; (destruct j as [|[|j]]; [| |lia]); unfold precision, sumn, ent; comp; unfold Rlit; lra.
Qed.
Lemma noise_example : same_factor exE (between 10 va vc (huber2 (dg2 5 5)) [1; 2]) (between 10 va vc (huber2 (gs2 3 4 (-4) 3)) [1; 2]) /\
  factor_ok (between 10 va vc (huber2 (dg2 5 5)) [1; 2]) /\ factor_ok (between 10 va vc (huber2 (gs2 3 4 (-4) 3)) [1; 2]).
Proof.
  split; [split; [repeat split | exact rotated_weight]|]. split; (split; [|repeat constructor]); (split; [split; [reflexivity | exists 2%nat; reflexivity]|]); split; reflexivity.
Qed.
Definition weighted (c : R) : factor R := mkFactor 21 [vx] (DiagGaussian (mkArr [1%nat] [c])) [leaf1 [7]].
Lemma split_example : split_factor exSE (weighted 5) (weighted 3) (weighted 4) /\ split_factor exSE (weighted 5) (weighted 5) (weighted 0) /\ (forall c, factor_ok (weighted c)).
Proof.
  assert (H : forall a b c, c * c = a * a + b * b -> split_factor exSE (weighted c) (weighted a) (weighted b)).
  { intros a b c Hc. split; [repeat split|]. split; [repeat split|]. split; [exact I|]. split; [exact I|]. split; [exact I|].
    intros i j Hi Hj. change (residual_dim (weighted c)) with 1%nat in *. assert (i = 0%nat) by lia. assert (j = 0%nat) by lia. subst. cbn. exact Hc. }
  split; [apply H; lra|]. split; [apply H; lra|]. intros c. split; [split; [reflexivity | exists 1%nat; reflexivity] | repeat constructor].
Qed.

(* ---- equal costs are not enough ---- *)
(* (x^2 + 1)^2 and (x^2 - 1)^2 + (2 x)^2 *)
Definition whole : list (factor R) := [square vx (-1)].
Definition halves : list (factor R) := [square vx 1; mkFactor 21 [vx] (DiagGaussian (mkArr [1%nat] [2])) [leaf1 [0]]].
Lemma cost_only : exists (E : env R) fs fs' g g' init val a a' v,
  (forall w, In w (mentioned fs) <-> In w (mentioned fs')) /\ graph_make E fs = Ok g /\ graph_make E fs' = Ok g' /\ well_shaped E fs /\ well_shaped E fs' /\
  (forall b valb, assigns E fs b valb -> exists c r r', compute_cost E g b = Ok (c, r) /\ compute_cost E g' b = Ok (c, r')) /\
  assigns E fs init val /\
  gn_solve E 1 (term_default 1) cholmod_solve g init = Some (Ok a) /\ gn_solve E 1 (term_default 1) cholmod_solve g' init = Some (Ok a') /\
  get_value (e_cls E) a v <> get_value (e_cls E) a' v.
Proof.
  exists exSE, whole, halves, (graph_of whole), (graph_of halves), (scalars [vx] [1]), (const_of 1).
  do 2 eexists. exists vx. split; [intros v; simpl; tauto|]. split; [reflexivity|]. split; [reflexivity|].
  split. { apply shaped_two. intros f [<-|[]]. exists vx, (-1)%Z. simpl; auto. }
  assert (Hw : forall val, (forall v, In v (mentioned halves) -> value_ok (e_cls (exSE (N := NumR)) (v_ty v)) (val v)) -> exists x, val vx = leaf1 [x]) by (intros val; apply one_legal; simpl; auto).
  assert (Hok1 : forall f, In f whole -> factor_ok f) by (intros f [<-|[]]; (split; [split; [reflexivity | exists 1%nat; reflexivity] | repeat constructor])).
  assert (Hok2 : forall f, In f halves -> factor_ok f) by (intros f [<-|[<-|[]]]; (split; [split; [reflexivity | exists 1%nat; reflexivity] | repeat constructor])).
  split. { split.
    - intros val f Hv Hf. destruct (Hw val Hv) as (x & Ex). destruct Hf as [<-|[<-|[]]]; unfold residual_shape_ok, residual_at; simpl map; rewrite Ex; reflexivity.
    - intros val f Hv Hf. destruct (Hw val Hv) as (x & Ex). destruct Hf as [<-|[<-|[]]]; unfold jacobian_shape_ok, jacobians_at; simpl map; rewrite ?Ex; repeat constructor.
    - intros v x d [<-|[]] Hx' Hd; destruct (scalar_shape x Hx') as (r & ->); destruct d as [|e [|? ?]]; try discriminate Hd; eexists; (split; [reflexivity | split; repeat constructor]). }
  split. { intros b valb Hb. destruct (PHold.update_holds exSE exS_classes whole b valb Hb) as (b2 & _ & Hb2). pose proof (PHold.holds_legal exSE whole exS_classes b2 valb Hb2) as Hl. destruct (one_legal whole valb ltac:(simpl; auto) Hl) as (x & Ex).
    assert (Hb' : assigns exSE halves b valb) by (apply (assigns_vars exSE whole); auto; intros v; simpl; tauto).
    assert (G1 := is_graph_of exSE whole (graph_of whole) Hok1 eq_refl). assert (G2 := is_graph_of exSE halves (graph_of halves) Hok2 eq_refl).
    destruct (one_cost exSE whole (graph_of whole) Hok1 G1 b valb Hb) as (_ & C1); [|discriminate|].
    { intros f [<-|[]]; unfold residual_shape_ok, residual_at; simpl map; rewrite Ex; reflexivity. }
    destruct (one_cost exSE halves (graph_of halves) Hok2 G2 b valb Hb') as (_ & C2); [|discriminate|].
    { intros f [<-|[<-|[]]]; unfold residual_shape_ok, residual_at; simpl map; rewrite Ex; reflexivity. }
    do 3 eexists. split; [exact C1|]. rewrite C2. do 2 f_equal. 
    assert (R1 : rvec whole (fun f : factor R => PJac.unwrap [] (whitened_at exSE valb f)) = [1 * (x * x - lit (-1))]).
    { unfold rvec, whitened_at, residual_at. comp. unfold vx in Ex. rewrite Ex. reflexivity. }
    assert (R2 : rvec halves (fun f : factor R => PJac.unwrap [] (whitened_at exSE valb f)) = [1 * (x * x - lit 1); 2 * (x - 0)]).
    { unfold rvec, whitened_at, residual_at. comp. unfold vx in Ex. rewrite Ex. reflexivity. }
    rewrite R1, R2. unfold sumsq, vsum. cbn. unfold Rlit. lra. }
  split; [exists [vx]; split; [split; [repeat constructor; simpl; tauto | split; reflexivity]|]; split; [intros v; simpl; tauto|]; intros v [<-|[]]; reflexivity|].
  split; [comp; reflexivity|]. split; [comp; reflexivity|]. comp. intros H. match type of H with Ok (Leaf {| a_shape := _; a_data := [?a] |}) = Ok (Leaf {| a_shape := _; a_data := [?b] |}) => assert (Hab : a = b) by (injection H; auto) end.
  clear H. unfold Rlit in Hab.
  match type of Hab with 1 + ?p = 1 + ?q => assert (P : p = - (4 / (4 + 1 / 100000))) by (field; lra); assert (Q : q = - (4 / (8 + 1 / 100000))) by (field; lra); rewrite P, Q in Hab end.
  assert (4 / (8 + 1/100000) < 4 / (4 + 1/100000)); [|lra]. unfold Rdiv. apply Rmult_lt_compat_l; [lra|]. apply Rinv_lt_contravar; lra.
Qed.

