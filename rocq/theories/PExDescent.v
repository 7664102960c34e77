(* Bundling lemmas and concrete instances for C75. *)
From Coq Require Import List Arith Bool ZArith Lia Permutation Reals Lra.
From Verif Require Import Num NumR Py Arr MLayout MAssign MNoise MSparse MFactor MGraph MLinear MSolver SpecLayout SpecTree SpecAssign SpecGraph SpecSparse SpecSolver SpecOrder SpecInv SpecDescent.
From Verif Require Import PBase PLayout PTree PAssign PAssign2 PGraph PGraph2 PGraph4 PVec PSparse PSolver PSolver2 PSolverR PHold PInv POrder3 PDescent PExGraph Ex ExG ExS PExSolver PExOrder PExPart.
Import ListNotations.
Local Open Scope R_scope.

Section Bundle.
Variable E : env R.
Variable fs : list (factor R).
Variable g : graph R.
Hypothesis CO : classes_ok (e_cls E).
Hypothesis Hok : forall f, In f fs -> factor_ok f.
Hypothesis Hm : graph_make E fs = Ok g.
Hypothesis Hws : well_shaped E fs.
Hypothesis Hrd : total residual_dim fs <> 0%nat.
Variable s : sstate R.
Variable val : var -> pytree R.
Hypothesis Ha : assigns E fs (s_assign s) val.
Hypothesis Hl : same_layout (as_layout (s_assign s)) (g_layout g).
Hypothesis Hc : current E g s.

Lemma starts_ready : ready E fs g s.
Proof.
  split; auto. assert (Hg := is_graph_of E fs g Hok Hm). exists val. split; auto. destruct Ha as (vs & Hwf & Hvs & Hv).
  exists vs. split; auto. split; [rewrite <- (ig_layout _ _ _ Hg); auto|]. intros v Hin. apply Hv, Hvs; auto.
Qed.

Lemma vsum_lower {A} (f : A -> R) b l : (forall x, In x l -> b <= f x) -> INR (length l) * b <= vsum (map f l).
Proof.
  induction l as [|x l IH]; intros H; [cbn; rewrite vsum_nil; lra|]. cbn [map]. rewrite vsum_cons. change (length (x :: l)) with (S (length l)). rewrite S_INR.
  assert (IHl := IH (fun y Hy => H y (or_intror Hy))). pose proof (H x (or_introl eq_refl)). lra.
Qed.
Lemma below_mean {A} (f : A -> R) l q B : l <> [] -> 0 < q -> q * vsum (map f l) <= B -> exists x, In x l /\ f x * (q * INR (length l)) <= B.
Proof.
  intros Hne Hq HB. destruct (Exists_dec (fun x => f x * (q * INR (length l)) <= B) l) as [H|H]; [intros x; apply Rle_dec | |].
  - apply Exists_exists in H. auto.
  - exfalso. assert (Hall : forall x, In x l -> B < f x * (q * INR (length l))).
    { intros x Hx. destruct (Rle_lt_dec (f x * (q * INR (length l))) B); auto. exfalso. apply H. apply Exists_exists. eauto. }
    assert (Hn : 0 < INR (length l)) by (destruct l; [contradiction|]; apply lt_0_INR; cbn; lia).
    assert (Hqn : 0 < q * INR (length l)) by (apply Rmult_lt_0_compat; auto).
    assert (Hx : exists x0, In x0 l /\ forall x, In x l -> f x0 <= f x).
    { clear - Hne. induction l as [|x l IH]; [contradiction|]. destruct l as [|y l]; [exists x; split; [left; auto|]; intros z [->|[]]; lra|].
      destruct IH as (x0 & Hi & Hx0); [discriminate|]. destruct (Rle_lt_dec (f x) (f x0)) as [Hc|Hc].
      - exists x. split; [left; auto|]. intros z [<-|Hz]; [lra|]. pose proof (Hx0 z Hz). lra.
      - exists x0. split; [right; auto|]. intros z [<-|Hz]; [lra | auto]. }
    destruct Hx as (x0 & Hi & Hmin). pose proof (vsum_lower f (f x0) l Hmin) as Hlow. pose proof (Hall x0 Hi) as Hbig.
    assert (q * (INR (length l) * f x0) <= q * vsum (map f l)) by (apply Rmult_le_compat_l; lra). lra.
Qed.

Lemma lm_damping cfg l s1 s2 : 0 < lm_quality_min cfg -> 1 <= lambda_factor cfg -> 0 < s_extra s1 ->
  accepted E g (lm_step E cfg cholmod_solve) (lm_quality_min cfg) l s1 s2 -> forall A ng x, In (A, ng, x) l -> 0 < x <= s_extra s1.
Proof.
  intros Hq Hf H0 Hacc. revert H0. induction Hacc as [|s1 s' s'' A d prop c r q ng l H Ht Hle Eng Hacc IH]; intros H0 A0 ng0 x Hin; [destruct Hin|].
  destruct Hin as [Ei|Hin]; [injection Ei as <- <- <-; lra|].
  destruct (lm_tr E _ _ _ _ _ H) as (A1 & ATb & d1 & prop1 & c1 & r1 & q1 & Ht1 & _ & _ & Ee & _).
  destruct (really_accepted E g _ _ _ _ _ _ _ _ _ _ _ _ _ _ _ Hq Ht Hle Ht1) as (_ & Hle1). rnin Ee. rewrite (proj2 (Rleb_ok _ _) Hle1) in Ee. cbn in Ee.
  assert (E1 : s_extra s' * lambda_factor cfg = s_extra s1) by (rewrite Ee; field; lra).
  assert (0 < s_extra s') by (rewrite Ee; apply Rdiv_lt_0_compat; lra).
  assert (s_extra s' * 1 <= s_extra s' * lambda_factor cfg) by (apply Rmult_le_compat_l; lra).
  specialize (IH H1 A0 ng0 x Hin). lra.
Qed.

Lemma lm_descent cfg F l s' : 0 < lm_quality_min cfg -> 1 <= lambda_factor cfg -> 0 <= F -> 0 < s_extra s ->
  accepted E g (lm_step E cfg cholmod_solve) (lm_quality_min cfg) l s s' -> (forall A ng x, In (A, ng, x) l -> norm_le F A) ->
  lm_quality_min cfg * vsum (map (fun v => sumsq (snd (fst v)) / (F + (snd v + Rlit 1 100000))) l) <= s_cost s - s_cost s' /\ 0 <= s_cost s' /\
  (l <> [] -> exists A ng x, In (A, ng, x) l /\ sumsq ng * (lm_quality_min cfg * INR (length l)) <= s_cost s * (F + (s_extra s + Rlit 1 100000))).
Proof.
  intros Hq Hf HF0 H0 Hacc HF.
  destruct (lm_total E fs g CO Hok Hm Hws Hrd cfg F l s s' Hq ltac:(lra) HF0 starts_ready H0 Hacc HF) as (G1 & G2). split; auto. split; auto.
  intros Hne. destruct (below_mean _ l _ (s_cost s) Hne Hq ltac:(eapply Rle_trans; [exact G1 | lra])) as (((A & ng) & x) & Hin & Hb). exists A, ng, x. split; auto. cbn [fst snd] in Hb.
  destruct (lm_damping cfg l s s' Hq Hf H0 Hacc A ng x Hin) as (Hx & Hxl).
  assert (Hp : 0 < Rlit 1 100000) by (unfold Rlit; lra). set (mu := Rlit 1 100000) in *.
  assert (Hd : 0 < F + (x + mu)) by lra. apply (Rmult_le_compat_r (F + (x + mu))) in Hb; [|lra].
  replace (sumsq ng / (F + (x + mu)) * (lm_quality_min cfg * INR (length l)) * (F + (x + mu))) with (sumsq ng * (lm_quality_min cfg * INR (length l))) in Hb by (field; lra).
  eapply Rle_trans; [exact Hb|]. apply Rmult_le_compat_l; [|lra]. apply (ready_cost E fs g s starts_ready).
Qed.
Lemma dl_descent cfg F l s' : 0 < dl_quality_min cfg -> 0 <= F -> 0 < s_extra s ->
  accepted E g (dl_step E cfg cholmod_solve) (dl_quality_min cfg) l s s' -> (forall A ng x, In (A, ng, x) l -> norm_le F A) ->
  dl_quality_min cfg * vsum (map (fun v => Rmin (snd v * vnorm (snd (fst v))) (sumsq (snd (fst v)) / (F + Rlit 1 100000))) l) <= s_cost s - s_cost s' /\ 0 <= s_cost s' /\
  (l <> [] -> exists A ng x, In (A, ng, x) l /\ Rmin (x * vnorm ng) (sumsq ng / (F + Rlit 1 100000)) * (dl_quality_min cfg * INR (length l)) <= s_cost s).
Proof.
  intros Hq HF0 H0 Hacc HF.
  destruct (dl_total E fs g CO Hok Hm Hws Hrd cfg F l s s' Hq HF0 starts_ready H0 Hacc HF) as (G1 & G2). split; auto. split; auto.
  intros Hne. destruct (below_mean _ l _ (s_cost s) Hne Hq ltac:(eapply Rle_trans; [exact G1 | lra])) as (((A & ng) & x) & Hin & Hb). exists A, ng, x. auto.
Qed.
Lemma lm_large_damping cfg K s' A ng : compute_whitened_residual_jacobian E g (s_assign s) (s_res s) = Ok A ->
  matmul (transpose A) (vneg (s_res s)) = Ok ng -> ng <> vzero (length ng) ->
  curvature_le E g (s_assign s) (s_res s) A K -> 0 <= K -> 0 < s_extra s + Rlit 1 100000 -> lm_quality_min cfg <= 1 ->
  2 * sqrt (s_cost s) * K + K * K * (s_cost s / (2 * (s_extra s + Rlit 1 100000))) <= 2 * (1 - lm_quality_min cfg) * (s_extra s + Rlit 1 100000) ->
  lm_step E cfg cholmod_solve g s = Ok s' ->
  exists d prop c r q, trust_step E g (lm_quality_min cfg) s s' A d prop c r q /\ lm_quality_min cfg <= q /\ s_assign s' = prop.
Proof. intros. eapply lm_accepts; eauto using starts_ready. Qed.
Lemma dl_small_radius cfg F K s' A ng : 0 <= F -> norm_le F A -> compute_whitened_residual_jacobian E g (s_assign s) (s_res s) = Ok A ->
  matmul (transpose A) (vneg (s_res s)) = Ok ng ->
  curvature_le E g (s_assign s) (s_res s) A K -> 0 <= K -> 0 < s_extra s -> dl_quality_min cfg <= 1 ->
  s_extra s * (F + Rlit 1 100000) <= vnorm ng ->
  2 * sqrt (s_cost s) * K * s_extra s + K * K * (s_extra s * s_extra s * s_extra s) <= (1 - dl_quality_min cfg) * vnorm ng ->
  dl_step E cfg cholmod_solve g s = Ok s' ->
  exists d prop c r q, trust_step E g (dl_quality_min cfg) s s' A d prop c r q /\ dl_quality_min cfg <= q /\ s_assign s' = prop.
Proof. intros. eapply (dl_accepts E fs g CO Hok Hm Hws Hrd cfg F K); eauto using starts_ready. Qed.
End Bundle.

(* ---- x^2 - 2 from x = 3 ---- *)
Definition parab : list (factor R) := [square vx 2].
Definition gparab : graph R := graph_of parab.
Definition parab_at (x l : R) : sstate R := start gparab (scalars [vx] [x]) l.
Definition jac_at (x : R) : coo R := mkCoo [2 * x] (mkCoords [0%nat] [0%nat]) (1%nat, 1%nat).
Definition const_of (x : R) (_ : var) : pytree R := leaf1 [x].

Lemma exS_classes : classes_ok (e_cls (exSE (N := NumR))).
Proof. apply ex_order. Qed.
Lemma parab_ok : (forall f, In f parab -> factor_ok f) /\ well_shaped exSE parab /\ graph_make exSE parab = Ok gparab /\ total residual_dim parab = 1%nat.
Proof.
  assert (Hf : forall f, In f parab -> exists v z, In v [vx; vy] /\ (f = square v z \/ f = anchor v z)) by (intros f [<-|[]]; exists vx, 2%Z; simpl; auto).
  split; [apply ok_two; auto|]. split; [apply shaped_two; auto|]. split; reflexivity.
Qed.
Lemma parab_start x l : assigns exSE parab (s_assign (parab_at x l)) (const_of x) /\ same_layout (as_layout (s_assign (parab_at x l))) (g_layout gparab) /\
  current exSE gparab (parab_at x l) /\ s_extra (parab_at x l) = l.
Proof.
  split; [|split; [repeat split | split; reflexivity]].
  exists [vx]. split; [split; [repeat constructor; simpl; tauto | split; reflexivity]|]. split; [intros v; simpl; tauto|]. intros v [<-|[]]. reflexivity.
Qed.
Ltac comp := lazy -[Rlit Rplus Rmult Ropp IZR Rdiv Rminus Rmax Rmin sqrt Rabs Rleb Rltb Rinv].
Ltac rat := unfold Rlit; rewrite <- ?Rminus_0_l; lra.

Lemma parab_jac x l : compute_whitened_residual_jacobian exSE gparab (s_assign (parab_at x l)) (s_res (parab_at x l)) = Ok (jac_at x).
Proof. comp. do 3 f_equal. unfold Rlit. field. Qed.
Lemma parab_norm x F : 4 * x * x <= F -> norm_le F (jac_at x).
Proof.
  intros HF v y H. destruct v as [|a [|b v]]; [discriminate H | | discriminate H]. revert H. comp. intros H. injection H as <-.
  change ((0 + 2 * x * a) * (0 + 2 * x * a) + 0 <= F * (a * a + 0)). pose proof (Rmult_le_compat_r (a * a) _ _ (Rle_0_sqr a) HF). lra.
Qed.
Lemma parab_curv x l : curvature_le exSE gparab (s_assign (parab_at x l)) (s_res (parab_at x l)) (jac_at x) 1.
Proof.
  intros d Ad prop c r' H1 H2 H3. destruct d as [|a [|b v]]; [discriminate H1 | | discriminate H1]. revert H1 H2. lazy -[Rlit Rplus Rmult Ropp IZR Rdiv Rminus Rmax Rmin sqrt Rabs Rleb Rltb Rinv Rle compute_cost gparab exSE]. 
  intros H1 H2. injection H1 as <-. injection H2 as <-. revert H3. lazy -[Rlit Rplus Rmult Ropp IZR Rdiv Rminus Rmax Rmin sqrt Rabs Rleb Rltb Rinv Rle]. intros H3. injection H3 as _ <-.
  replace ((1 * ((x + a) * (x + a) - Rlit 2 1) - (0 + 2 * x * a + 1 * (x * x - Rlit 2 1))) * (1 * ((x + a) * (x + a) - Rlit 2 1) - (0 + 2 * x * a + 1 * (x * x - Rlit 2 1))) + 0) with (Rsqr (a * a)) by (unfold Rsqr, Rlit; ring).
  rewrite sqrt_Rsqr; [lra|]. pose proof (Rle_0_sqr a). unfold Rsqr in *. lra.
Qed.
Lemma parab_grad x l : matmul (transpose (jac_at x)) (vneg (s_res (parab_at x l))) = Ok [2 * x * (2 - x * x)].
Proof. comp. do 2 f_equal. unfold Rlit. field. Qed.
Lemma parab_cost x l : s_cost (parab_at x l) = Rsqr (x * x - 2).
Proof. comp. unfold Rlit. field. Qed.

Lemma ex_lm_descent : let s := parab_at 3 10 in let cfg := lm_default (T := R) 100 in exists s' A ng,
  (forall f, In f parab -> factor_ok f) /\ graph_make exSE parab = Ok gparab /\ well_shaped exSE parab /\ total residual_dim parab <> 0%nat /\
  assigns exSE parab (s_assign s) (const_of 3) /\ same_layout (as_layout (s_assign s)) (g_layout gparab) /\ current exSE gparab s /\
  0 < lm_quality_min cfg /\ 1 <= lambda_factor cfg /\ lm_quality_min cfg <= 1 /\ 0 < s_extra s /\
  compute_whitened_residual_jacobian exSE gparab (s_assign s) (s_res s) = Ok A /\ matmul (transpose A) (vneg (s_res s)) = Ok ng /\ ng <> vzero (length ng) /\
  norm_le 36 A /\ curvature_le exSE gparab (s_assign s) (s_res s) A 1 /\
  2 * sqrt (s_cost s) * 1 + 1 * 1 * (s_cost s / (2 * (s_extra s + Rlit 1 100000))) <= 2 * (1 - lm_quality_min cfg) * (s_extra s + Rlit 1 100000) /\
  accepted exSE gparab (lm_step exSE cfg cholmod_solve) (lm_quality_min cfg) [(A, ng, s_extra s)] s s'.
Proof.
  intros s cfg. destruct parab_ok as (P1 & P2 & P3 & P4). destruct (parab_start 3 10) as (Q1 & Q2 & Q3 & Q4).
  assert (Hx : exists s', lm_step exSE cfg cholmod_solve gparab s = Ok s') by (eexists; comp; reflexivity). destruct Hx as (s' & Hs'). exists s', (jac_at 3), [2 * 3 * (2 - 3 * 3)].
  assert (Hq : 0 < lm_quality_min cfg <= 1) by (split; cbn; unfold Rlit; lra). assert (Hf : 1 <= lambda_factor cfg) by (cbn; unfold Rlit; lra).
  assert (Hc : 2 * sqrt (s_cost s) * 1 + 1 * 1 * (s_cost s / (2 * (s_extra s + Rlit 1 100000))) <= 2 * (1 - lm_quality_min cfg) * (s_extra s + Rlit 1 100000)).
  { unfold s. rewrite parab_cost, sqrt_Rsqr, Q4 by lra. cbn. unfold Rlit, Rsqr. lra. }
  assert (Hnz : [2 * 3 * (2 - 3 * 3)] <> vzero (length [2 * 3 * (2 - 3 * 3)])) by (cbn; intros H; injection H; lra).
  pose proof (parab_jac 3 10) as EA. pose proof (parab_grad 3 10) as Eg. pose proof (parab_curv 3 10) as HK.
  destruct (lm_large_damping exSE parab gparab exS_classes P1 P3 P2 ltac:(rewrite P4; discriminate) s (const_of 3) Q1 Q2 Q3 cfg 1 s' _ _ EA Eg Hnz HK ltac:(lra) ltac:(unfold s; rewrite Q4; unfold Rlit; lra) (proj2 Hq) Hc Hs')
    as (d & prop & c & r & q & Ht & Hle & _).
  do 3 (split; [assumption|]). split; [rewrite P4; discriminate|]. do 3 (split; [assumption|]). split; [apply Hq|]. split; [auto|]. split; [apply Hq|]. split; [unfold s; rewrite Q4; lra|].
  do 3 (split; [assumption|]). split; [apply parab_norm; lra|]. do 2 (split; [assumption|]).
  econstructor; [exact Hs' | exact Ht | exact Hle | exact Eg | constructor].
Qed.

Lemma ex_dl_descent : let s := parab_at 3 1 in let cfg := dl_default (T := R) 100 in exists s' A ng,
  (forall f, In f parab -> factor_ok f) /\ graph_make exSE parab = Ok gparab /\ well_shaped exSE parab /\ total residual_dim parab <> 0%nat /\
  assigns exSE parab (s_assign s) (const_of 3) /\ same_layout (as_layout (s_assign s)) (g_layout gparab) /\ current exSE gparab s /\
  0 < dl_quality_min cfg /\ dl_quality_min cfg <= 1 /\ 0 < s_extra s /\
  compute_whitened_residual_jacobian exSE gparab (s_assign s) (s_res s) = Ok A /\ matmul (transpose A) (vneg (s_res s)) = Ok ng /\
  norm_le 36 A /\ curvature_le exSE gparab (s_assign s) (s_res s) A 1 /\
  s_extra s * (36 + Rlit 1 100000) <= vnorm ng /\
  2 * sqrt (s_cost s) * 1 * s_extra s + 1 * 1 * (s_extra s * s_extra s * s_extra s) <= (1 - dl_quality_min cfg) * vnorm ng /\
  accepted exSE gparab (dl_step exSE cfg cholmod_solve) (dl_quality_min cfg) [(A, ng, s_extra s)] s s'.
Proof.
  intros s cfg. destruct parab_ok as (P1 & P2 & P3 & P4). destruct (parab_start 3 1) as (Q1 & Q2 & Q3 & Q4).
  assert (Hx : exists s', dl_step exSE cfg cholmod_solve gparab s = Ok s').
  { destruct (dl_step exSE cfg cholmod_solve gparab s) as [s'|e] eqn:H; [eauto|]. exfalso. revert H. comp.
    repeat match goal with |- context [Rleb ?a ?b] => destruct (Rleb a b); comp | |- context [Rltb ?a ?b] => destruct (Rltb a b); comp end; discriminate. }
  destruct Hx as (s' & Hs'). exists s', (jac_at 3), [2 * 3 * (2 - 3 * 3)].
  assert (Hq : 0 < dl_quality_min cfg <= 1) by (split; cbn; unfold Rlit; lra).
  assert (Hn : vnorm [2 * 3 * (2 - 3 * 3)] = 42) by (apply vnorm_eq; [lra|]; unfold sumsq, vsum; cbn; lra).
  assert (Hc1 : s_extra s * (36 + Rlit 1 100000) <= vnorm [2 * 3 * (2 - 3 * 3)]) by (unfold s; rewrite Hn, Q4; unfold Rlit; lra).
  assert (Hc : 2 * sqrt (s_cost s) * 1 * s_extra s + 1 * 1 * (s_extra s * s_extra s * s_extra s) <= (1 - dl_quality_min cfg) * vnorm [2 * 3 * (2 - 3 * 3)]).
  { unfold s. rewrite parab_cost, sqrt_Rsqr, Q4, Hn by lra. cbn. unfold Rlit, Rsqr. lra. }
  pose proof (parab_jac 3 1) as EA. pose proof (parab_grad 3 1) as Eg. pose proof (parab_curv 3 1) as HK. assert (HF : norm_le 36 (jac_at 3)) by (apply parab_norm; lra).
  destruct (dl_small_radius exSE parab gparab exS_classes P1 P3 P2 ltac:(rewrite P4; discriminate) s (const_of 3) Q1 Q2 Q3 cfg 36 1 s' _ _ ltac:(lra) HF EA Eg HK ltac:(lra) ltac:(unfold s; rewrite Q4; lra) (proj2 Hq) Hc1 Hc Hs')
    as (d & prop & c & r & q & Ht & Hle & _).
  do 3 (split; [assumption|]). split; [rewrite P4; discriminate|]. do 3 (split; [assumption|]). split; [apply Hq|]. split; [apply Hq|]. split; [unfold s; rewrite Q4; lra|].
  do 6 (split; [assumption|]).
  econstructor; [exact Hs' | exact Ht | exact Hle | exact Eg | constructor].
Qed.

(* ---- the first step from 1/100 is rejected, and the second is accepted although it multiplies
   the cost: the bound needs the residual kept by the state to be that of its assignment ---- *)
Definition far : sstate R := parab_at (1/100) (Rlit 5 10000).
Definition far_d : R := 3999800 / 91000.
Definition far_res : R := (1/100 + far_d) * (1/100 + far_d) - 2.
Definition far1 : sstate R := mkState 1%nat (s_assign far) (s_cost far) [far_res] false (Rlit 1 1000).
Lemma far_step : lm_step exSE (lm_default 100) cholmod_solve gparab far = Ok far1.
Proof.
  comp. match goal with |- context [Rleb (Rlit 1 1000) ?q] => assert (H : Rleb (Rlit 1 1000) q = false) end.
  { apply Rleb_no. rat. }
  rewrite H. clear H. comp. f_equal. f_equal; [f_equal; rat|].
  rewrite Rmin_left by rat. rewrite Rmax_right by rat. rat.
Qed.
Lemma far_jump : exists s2, lm_step exSE (lm_default 100) cholmod_solve gparab far1 = Ok s2 /\ s_cost far1 < s_cost s2.
Proof.
  eexists. split; [comp; reflexivity|]. cbn [s_cost]. 
  match goal with |- context [Rleb (Rlit 1 1000) ?q] => assert (H : Rleb (Rlit 1 1000) q = true) end.
  { apply Rleb_ok. rat. }
  rewrite H. clear H. comp. rat.
Qed.
Lemma after_rejection : exists (E : env R) fs g cfg s0 s1 s2 A ng,
  (forall f, In f fs -> factor_ok f) /\ graph_make E fs = Ok g /\ well_shaped E fs /\ 0 < lm_quality_min cfg /\ 1 <= lambda_factor cfg /\
  current E g s0 /\ 0 < s_extra s0 /\ s_done s0 = false /\ lm_step E cfg cholmod_solve g s0 = Ok s1 /\ norm_le 1 A /\
  accepted E g (lm_step E cfg cholmod_solve) (lm_quality_min cfg) [(A, ng, s_extra s1)] s1 s2 /\ s_cost s1 < s_cost s2.
Proof.
  destruct parab_ok as (P1 & P2 & P3 & P4). destruct (parab_start (1/100) (Rlit 5 10000)) as (Q1 & Q2 & Q3 & Q4). destruct far_jump as (s2 & H2 & Hlt).
  exists exSE, parab, gparab, (lm_default 100), far, far1, s2, (jac_at (1/100)), [0 + 2 * (1/100) * - far_res].
  do 3 (split; [assumption|]). split; [cbn; unfold Rlit; lra|]. split; [cbn; unfold Rlit; lra|]. split; [assumption|]. split; [unfold far; rewrite Q4; unfold Rlit; lra|].
  split; [reflexivity|]. split; [exact far_step|]. split; [apply parab_norm; lra|]. split; [|assumption].
  assert (EA : compute_whitened_residual_jacobian exSE gparab (s_assign far1) (s_res far1) = Ok (jac_at (1/100))) by (comp; do 3 f_equal; rat).
  assert (Eg : matmul (transpose (jac_at (1/100))) (vneg (s_res far1)) = Ok [0 + 2 * (1/100) * - far_res]) by reflexivity.
  destruct (lm_tr exSE _ _ _ _ _ H2) as (A1 & ATb & d & prop & c & r & q & Ht & _ & _ & _).
  pose proof (tr_A _ _ _ _ _ _ _ _ _ _ _ Ht) as EA1. assert (A1 = jac_at (1/100)) by congruence. subst A1.
  econstructor; [exact H2 | exact Ht | | exact Eg | constructor].
  destruct (Rle_lt_dec (lm_quality_min (lm_default (T := R) 100)) q) as [|Hn]; auto. exfalso. apply Rleb_no in Hn.
  destruct (tr_rej _ _ _ _ _ _ _ _ _ _ _ Ht Hn) as (_ & Hc). lra.
Qed.
