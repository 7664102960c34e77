(* Concrete instances and counterexamples for problems whose information is proportional. *)
From Coq Require Import List Arith Bool ZArith Lia Permutation Reals Lra.
From Verif Require Import Num NumR Py Arr MLayout MAssign MNoise MSparse MFactor MGraph MLinear MSolver SpecLayout SpecTree SpecAssign SpecGraph SpecSparse SpecNoise SpecDeriv SpecSolver SpecOrder SpecTwin SpecRatio.
From Verif Require Import PBase PLayout PTree PAssign PAssign2 PGraph PGraph2 PGraph4 PExAssign PExGraph PVec PSum PDescent PSolverR POrder POrder2 POrder3 PTwin PTwin2 PRatio2 Ex ExG ExS PExSolver PExOrder PExPart PExDescent PExTwin.
Import ListNotations.
Local Open Scope R_scope.

Lemma ratio_closed : forall (E : env R),
  (forall fs fs', same_information E fs fs' <-> proportional_information 1 E fs fs') /\
  (forall k l fs1 fs2 fs3, proportional_information k E fs1 fs2 -> proportional_information l E fs2 fs3 -> proportional_information (k * l) E fs1 fs3) /\
  (forall k a a' b b', proportional_information k E a a' -> proportional_information k E b b' -> proportional_information k E (a ++ b) (a' ++ b')) /\
  (forall m fs, proportional_information (INR (m + 1)) E fs (concat (repeat fs (m + 1)))).
Proof.
  intros E. split; [|split; [|split]].
  - intros fs fs'. split; [apply prop_same|]. intros (V & H). split; auto. intros. rewrite H by auto. ring.
  - apply prop_trans.
  - apply prop_app.
  - intros m fs. apply prop_repeat.
Qed.

(* ---- x^2 = 4 with weight w ---- *)
Definition sqw (w : R) : factor R := mkFactor 20 [vx] (DiagGaussian (mkArr [1%nat] [w])) [leaf1 [4]].
Lemma sqw_ok w f : In f [sqw w] -> factor_ok f.
Proof. intros [<-|[]]. split; [split; [reflexivity | exists 1%nat; reflexivity] | repeat constructor]. Qed.
Lemma sqw_shaped w : well_shaped exSE [sqw w].
Proof.
  assert (Hw : forall val, (forall v, In v (mentioned [sqw w]) -> value_ok (e_cls (exSE (N := NumR)) (v_ty v)) (val v)) -> exists x, val vx = leaf1 [x]) by (intros val; apply one_legal; simpl; auto).
  split.
  - intros val f Hv [<-|[]]. destruct (Hw val Hv) as (x & Ex). unfold residual_shape_ok, residual_at; simpl map; rewrite Ex; reflexivity.
  - intros val f Hv [<-|[]]. destruct (Hw val Hv) as (x & Ex). unfold jacobian_shape_ok, jacobians_at; simpl map; rewrite ?Ex; repeat constructor.
  - intros v x d [<-|[]] Hx' Hd; destruct (scalar_shape x Hx') as (r & ->); destruct d as [|e [|? ?]]; try discriminate Hd; eexists; (split; [reflexivity | split; repeat constructor]).
Qed.
Lemma sqw_scaled w c : scaled_factor c exSE (sqw w) (sqw (c * w)).
Proof.
  split; [repeat split|]. apply scw_linear; try reflexivity; try exact I. intros i j Hi Hj. change (residual_dim (sqw w)) with 1%nat in *.
  assert (i = 0%nat) by lia. assert (j = 0%nat) by lia. subst. cbn. ring.
Qed.
Lemma sqw_norep w : no_repeats [sqw w].
Proof. intros f [<-|[]]. repeat constructor. simpl; tauto. Qed.
Lemma sqw_init w x : assigns exSE [sqw w] (scalars [vx] [x]) (const_of x).
Proof. exists [vx]. split; [split; [repeat constructor; simpl; tauto | split; reflexivity]|]. split; [intros v; simpl; tauto|]. intros v [<-|[]]. reflexivity. Qed.

(* conjugate gradients on a 1 x 1 system are exact *)
Lemma cg_one a b it : a <> 0 -> b <> 0 -> cg_solve (fun _ => 0) (mkCoo [a] (mkCoords [0] [0])%nat (1, 1)%nat) [b] 0 it = Ok [b / (a * a)].
Proof.
  intros Ha Hb. comp. assert (H0 : Rltb (Rmax (0 * 0 * (b * b + 0)) (0 * 0)) ((b - (0 + a * (0 + a * 0) + 0 * (0 + a * a) * 0)) * (b - (0 + a * (0 + a * 0) + 0 * (0 + a * a) * 0)) + 0) = true).
  { unfold Rltb. destruct (Rlt_dec _ _) as [H|H]; auto. exfalso. apply H. rewrite Rmax_left by lra. assert (0 < b * b) by (destruct (Rtotal_order b 0) as [|[|]]; nra). nra. }
  rewrite H0. do 2 f_equal. field. split; auto.
Qed.
Definition tgrad : term_cfg R := mkTerm 2 0 1 0 0.
Lemma sqw_step w x it c : 0 < w -> x <> 0 -> x * x - 4 <> 0 -> 0 < c ->
  exists x1 c1 r1, x1 = x - (x * x - 4) / (2 * x) /\ c1 = w * (x1 * x1 - 4) * (w * (x1 * x1 - 4)) + 0 /\ r1 = w * (x1 * x1 - 4) /\
  gn_step exSE tgrad (cg_solve (fun _ => 0)) (graph_of [sqw w]) (mkState it (scalars [vx] [x]) c [w * (x * x - 4)] false 0) =
  Ok (mkState (it + 1) (scalars [vx] [x1]) c1 [r1] (Z.leb 1 (Z.of_nat it) || Rltb (2 * (w * w) * (x * (x * x - 4))) 1) 0).
Proof.
  intros Hw Hx Hz Hc. do 3 eexists. split; [reflexivity|]. split; [reflexivity|]. split; [reflexivity|]. set (x1 := x - (x * x - 4) / (2 * x)).
  unfold gn_step, gn_update. cbn [s_assign s_res s_iter s_extra].
  assert (EA : compute_whitened_residual_jacobian exSE (graph_of [sqw w]) (scalars [vx] [x]) [w * (x * x - 4)] = Ok (mkCoo [w * (2 * x)] (mkCoords [0] [0])%nat (1, 1)%nat)).
  { transitivity (Ok (mkCoo [w * (Rlit 2 1 * x)] (mkCoords [0] [0])%nat (1, 1)%nat)); [comp; reflexivity|]. do 2 f_equal. f_equal. unfold Rlit. field. }
  rewrite EA. cbn [bind].
  set (b := - (w * (2 * x) * (w * (x * x - 4)))).
  assert (EM : matmul (transpose (mkCoo [w * (2 * x)] (mkCoords [0] [0])%nat (1, 1)%nat)) [w * (x * x - 4)] = Ok [0 + w * (2 * x) * (w * (x * x - 4))]) by (comp; reflexivity).
  rewrite EM. cbn [bind]. assert (EN : vneg [0 + w * (2 * x) * (w * (x * x - 4))] = [b]) by (unfold vneg, b; cbn [map]; f_equal; rn; ring). rewrite EN.
  assert (Hb : b <> 0) by (unfold b; assert (w * (2 * x) <> 0) by (apply Rmult_integral_contrapositive; split; lra); assert (w * (x * x - 4) <> 0) by (apply Rmult_integral_contrapositive; split; lra); apply Ropp_neq_0_compat, Rmult_integral_contrapositive; auto).
  assert (Ha : w * (2 * x) <> 0) by (apply Rmult_integral_contrapositive; split; lra).
  change (@n0 R NumR) with 0. rewrite (cg_one (w * (2 * x)) b it Ha Hb). cbn [bind].
  assert (Hd : b / (w * (2 * x) * (w * (2 * x))) = x1 - x) by (unfold b, x1; field; lra). rewrite Hd.
  assert (ER : manifold_retract (e_cls exSE) (scalars [vx] [x]) (mkAssign [x1 - x] (g_local_layout (graph_of [sqw w]))) = Ok (scalars [vx] [x1])).
  { transitivity (Ok (scalars [vx] [x + (x1 - x)])); [comp; reflexivity|]. do 3 f_equal. ring. }
  rewrite ER. cbn [bind].
  assert (EC : compute_cost exSE (graph_of [sqw w]) (scalars [vx] [x1]) = Ok (w * (x1 * x1 - 4) * (w * (x1 * x1 - 4)) + 0, [w * (x1 * x1 - 4)])) by (clearbody x1; comp; reflexivity).
  rewrite EC. cbn [bind fst snd]. set (c1 := w * (x1 * x1 - 4) * (w * (x1 * x1 - 4)) + 0).
  assert (EV : check_convergence exSE tgrad (mkState it (scalars [vx] [x]) c [w * (x * x - 4)] false 0) c1 (mkAssign [x1 - x] (g_local_layout (graph_of [sqw w]))) [b] = Ok (Rltb (2 * (w * w) * (x * (x * x - 4))) 1)).
  { transitivity (Ok (if if Rltb (Rabs (c1 - c) / c) 0 then true else Z.leb 0 (Z.of_nat it) && Rltb (x - (x + b)) 1 then true
     else Rltb (sqrt (Rabs (x1 - x) * Rabs (x1 - x) + 0)) ((sqrt (x * x + 0) + 0) * 0))).
    - clearbody x1 c1 b. unfold check_convergence, converged_gradient, converged_cost, converged_parameters. cbn [s_assign s_iter s_cost as_layout as_storage].
      assert (E2 : manifold_retract (e_cls exSE) (scalars [vx] [x]) (mkAssign [b] (g_local_layout (graph_of [sqw w]))) = Ok (scalars [vx] [x + b])) by (comp; reflexivity).
      rewrite E2. reflexivity.
    - assert (H1 : Rltb (Rabs (c1 - c) / c) 0 = false) by (unfold Rltb; destruct (Rlt_dec _ _) as [H|H]; auto; exfalso; pose proof (Rabs_pos (c1 - c)); assert (0 <= Rabs (c1 - c) / c) by (apply Rmult_le_pos; [auto | left; apply Rinv_0_lt_compat; auto]); lra).
      assert (H2 : Rltb (sqrt (Rabs (x1 - x) * Rabs (x1 - x) + 0)) ((sqrt (x * x + 0) + 0) * 0) = false) by (unfold Rltb; destruct (Rlt_dec _ _) as [H|H]; auto; exfalso; pose proof (sqrt_pos (Rabs (x1 - x) * Rabs (x1 - x) + 0)); lra).
      rewrite H1, H2. assert (Hz0 : Z.leb 0 (Z.of_nat it) = true) by (apply Z.leb_le; lia). rewrite Hz0. cbn [andb].
      replace (x - (x + b)) with (2 * (w * w) * (x * (x * x - 4))) by (unfold b; ring). destruct (Rltb _ 1); auto. }
  rewrite EV. cbn [bind]. reflexivity.
Qed.

Lemma ltb_true a b : a < b -> Rltb a b = true.
Proof. intros H. unfold Rltb. destruct (Rlt_dec a b); auto. Qed.
Lemma ltb_false a b : b <= a -> Rltb a b = false.
Proof. intros H. unfold Rltb. destruct (Rlt_dec a b); auto. lra. Qed.
Definition loop2 (w : R) := while_loop 2 (fun s => negb (s_done s)) (gn_step exSE tgrad (cg_solve (fun _ => 0)) (graph_of [sqw w])) (mkState 0 (scalars [vx] [3]) (w * (3 * 3 - 4) * (w * (3 * 3 - 4)) + 0) [w * (3 * 3 - 4)] false 0).
Lemma sqw_solve w : gn_solve exSE 2 tgrad (cg_solve (fun _ => 0)) (graph_of [sqw w]) (scalars [vx] [3]) =
  match loop2 w with
  | None => None
  | Some (Err e) => Some (Err e)
  | Some (Ok s) => Some (update_storage_layout (e_cls exSE) (s_assign s) (make_layout exC [vx] false))
  end.
Proof.
  unfold gn_solve, solve_with.
  assert (E1 : update_storage_layout (e_cls exSE) (scalars [vx] [3]) (g_layout (graph_of [sqw w])) = Ok (scalars [vx] [3])) by (comp; reflexivity).
  rewrite E1. unfold init_state.
  assert (E2 : compute_cost exSE (graph_of [sqw w]) (scalars [vx] [3]) = Ok (w * (3 * 3 - 4) * (w * (3 * 3 - 4)) + 0, [w * (3 * 3 - 4)])) by (comp; reflexivity).
  rewrite E2. reflexivity.
Qed.
Lemma back x : update_storage_layout (e_cls exSE) (scalars [vx] [x]) (make_layout exC [vx] false) = Ok (scalars [vx] [x]).
Proof. comp. reflexivity. Qed.
Lemma get_vx x : get_value (e_cls (exSE (N := NumR))) (scalars [vx] [x]) vx = Ok (leaf1 [x]).
Proof. comp. reflexivity. Qed.

(* with the gradient test on, the weights decide when Gauss-Newton stops *)
Lemma gradient_scale : exists (E : env R) fs fs' g g' init val a a' v cfg tol,
  classes_ok (e_cls E) /\ (forall f, In f fs -> factor_ok f) /\ (forall f, In f fs' -> factor_ok f) /\ no_repeats fs /\ no_repeats fs' /\
  proportional_information (1 / 100) E fs fs' /\ graph_make E fs = Ok g /\ graph_make E fs' = Ok g' /\ well_shaped E fs /\ well_shaped E fs' /\
  assigns E fs init val /\ gn_solve E 2 cfg (cg_solve tol) g init = Some (Ok a) /\ gn_solve E 2 cfg (cg_solve tol) g' init = Some (Ok a') /\
  get_value (e_cls E) a v <> get_value (e_cls E) a' v.
Proof.
  exists exSE, [sqw 1], [sqw (1 / 10 * 1)], (graph_of [sqw 1]), (graph_of [sqw (1 / 10 * 1)]), (scalars [vx] [3]), (const_of 3).
  destruct (sqw_step 1 3 0 (1 * (3 * 3 - 4) * (1 * (3 * 3 - 4)) + 0)) as (x1 & c1 & r1 & Hx1 & Hc1 & Hr1 & S1); try lra.
  destruct (sqw_step (1 / 10 * 1) 3 0 (1 / 10 * 1 * (3 * 3 - 4) * (1 / 10 * 1 * (3 * 3 - 4)) + 0)) as (y1 & d1 & q1 & Hy1 & Hd1 & Hq1 & T1); try lra.
  assert (Hv : x1 = 13 / 6) by (rewrite Hx1; lra). assert (Hv' : y1 = 13 / 6) by (rewrite Hy1; lra).
  destruct (sqw_step 1 x1 1 c1) as (x2 & c2 & r2 & Hx2 & Hc2 & Hr2 & S2); try (rewrite Hv; lra); try lra; try (rewrite Hc1, Hv; lra).
  exists (scalars [vx] [x2]), (scalars [vx] [y1]), vx, tgrad, (fun _ => 0).
  split; [apply exS_classes|]. split; [apply sqw_ok|]. split; [apply sqw_ok|]. split; [apply sqw_norep|]. split; [apply sqw_norep|].
  split. { replace (1 / 100) with (1 / 10 * (1 / 10)) by lra. apply prop_factors; [lra | apply sqw_ok | apply sqw_ok | apply sqw_shaped|]. constructor; [apply sqw_scaled | constructor]. }
  split; [reflexivity|]. split; [reflexivity|]. split; [apply sqw_shaped|]. split; [apply sqw_shaped|]. split; [apply sqw_init|].
  split; [|split].
  - rewrite sqw_solve. unfold loop2. cbn [while_loop s_done negb]. rewrite S1. cbn [while_loop s_done negb Z.of_nat Z.leb Z.compare orb].
    rewrite ltb_false by lra. cbn [orb negb]. change (0 + 1)%nat with 1%nat. subst r1. rewrite S2. change (Z.leb 1 (Z.of_nat 1)) with true. cbn [while_loop s_done negb orb s_assign]. rewrite back. reflexivity.
  - rewrite sqw_solve. unfold loop2. cbn [while_loop s_done negb]. rewrite T1. cbn [while_loop s_done negb Z.of_nat Z.leb Z.compare orb].
    rewrite ltb_true by lra. cbn [orb negb s_assign]. rewrite back. reflexivity.
  - rewrite !get_vx. intros H. assert (x2 = y1) by (injection H; auto). rewrite Hv', Hx2, Hv in H0. lra.
Qed.

(* CHOLMOD adds an absolute 1e-5, so scaling the weights moves the result *)
Lemma cholmod_scale : exists (E : env R) fs fs' g g' init val a a' v,
  classes_ok (e_cls E) /\ (forall f, In f fs -> factor_ok f) /\ (forall f, In f fs' -> factor_ok f) /\ no_repeats fs /\ no_repeats fs' /\
  proportional_information 4 E fs fs' /\ graph_make E fs = Ok g /\ graph_make E fs' = Ok g' /\ well_shaped E fs /\ well_shaped E fs' /\
  assigns E fs init val /\ gradient_test_off (term_default 1) /\ gn_solve E 1 (term_default 1) cholmod_solve g init = Some (Ok a) /\ gn_solve E 1 (term_default 1) cholmod_solve g' init = Some (Ok a') /\
  get_value (e_cls E) a v <> get_value (e_cls E) a' v.
Proof.
  exists exSE, [sqw 1], [sqw (2 * 1)], (graph_of [sqw 1]), (graph_of [sqw (2 * 1)]), (scalars [vx] [1]), (const_of 1).
  do 2 eexists. exists vx. split; [apply exS_classes|]. split; [apply sqw_ok|]. split; [apply sqw_ok|]. split; [apply sqw_norep|]. split; [apply sqw_norep|].
  split. { replace 4 with (2 * 2) by lra. apply prop_factors; [lra | apply sqw_ok | apply sqw_ok | apply sqw_shaped|]. constructor; [apply sqw_scaled | constructor]. }
  split; [reflexivity|]. split; [reflexivity|]. split; [apply sqw_shaped|]. split; [apply sqw_shaped|]. split; [apply sqw_init|].
  split; [unfold gradient_test_off; simpl; lia|].
  split; [comp; reflexivity|]. split; [comp; reflexivity|]. comp. intros H. match type of H with Ok (Leaf {| a_shape := _; a_data := [?a] |}) = Ok (Leaf {| a_shape := _; a_data := [?b] |}) => assert (Hab : a = b) by (injection H; auto) end.
  clear H. unfold Rlit in Hab.
  match type of Hab with 1 + ?p = 1 + ?q => assert (P : p = 6 / (4 + 1 / 100000)) by (field; lra); assert (Q : q = 6 / (4 + 1 / 400000)) by (field; lra); rewrite P, Q in Hab end.
  assert (6 / (4 + 1/100000) < 6 / (4 + 1/400000)); [|lra]. unfold Rdiv. apply Rmult_lt_compat_l; [lra|]. apply Rinv_lt_contravar; lra.
Qed.

(* a Huber-wrapped two-dimensional factor, and the weighted square *)
Lemma ratio_example : classes_ok (e_cls (exSE (N := NumR))) /\ (forall f, In f [sqw 1] -> factor_ok f) /\ (forall f, In f [sqw 5] -> factor_ok f) /\
  no_repeats [sqw 1] /\ no_repeats [sqw 5] /\ proportional_information 25 exSE [sqw 1] [sqw 5] /\
  graph_make exSE [sqw 1] = Ok (graph_of [sqw 1]) /\ graph_make exSE [sqw 5] = Ok (graph_of [sqw 5]) /\
  total residual_dim [sqw 1] = 1%nat /\ total residual_dim [sqw 5] = 1%nat /\ well_shaped exSE [sqw 1] /\ well_shaped exSE [sqw 5] /\
  assigns exSE [sqw 1] (scalars [vx] [3]) (const_of 3) /\
  cg_based_solver exSE (fun fuel => lm_solve exSE fuel (lm_default 11) (inexact_cg_solver (1/10))).
Proof.
  split; [apply exS_classes|]. split; [apply sqw_ok|]. split; [apply sqw_ok|]. split; [apply sqw_norep|]. split; [apply sqw_norep|].
  split. { replace 25 with (5 * 5) by lra. apply prop_factors; [lra | apply sqw_ok | apply sqw_ok | apply sqw_shaped|]. constructor; [|constructor]. replace (sqw 5) with (sqw (5 * 1)) by (f_equal; lra). apply sqw_scaled. }
  split; [reflexivity|]. split; [reflexivity|]. split; [reflexivity|]. split; [reflexivity|]. split; [apply sqw_shaped|]. split; [apply sqw_shaped|]. split; [apply sqw_init|].
  apply cgb_lm. unfold gradient_test_off. simpl. lia.
Qed.
Definition huberd (n : noise R) (d : R) : noise R := Huber n (mkArr [] [d]).
Lemma scaled_example : scaled_factor 5 exE (between 10 va vc (huberd (dg2 1 1) 3) [1; 2]) (between 10 va vc (huberd (gs2 3 4 (-4) 3) (5 * 3)) [1; 2]) /\
  factor_ok (between 10 va vc (huberd (dg2 1 1) 3) [1; 2]) /\ factor_ok (between 10 va vc (huberd (gs2 3 4 (-4) 3) (5 * 3)) [1; 2]).
Proof.
  split; [split; [repeat split|]|].
  - apply (scw_huber 5 _ _ _ _ _ 3); [|reflexivity|reflexivity]. apply scw_linear; try reflexivity; try exact I. intros i j Hi Hj. change (residual_dim (between 10 va vc (huberd (dg2 1 1) 3) [1; 2])) with 2%nat in *.
    destruct i as [|[|i]]; [| |lia]; (destruct j as [|[|j]]; [| |lia]); unfold precision, sumn, ent; comp; unfold Rlit; lra.
  - split; (split; [|repeat constructor]); (split; [split; [reflexivity | exists 2%nat; reflexivity]|]); split; reflexivity.
Qed.
