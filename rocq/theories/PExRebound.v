(* Bundling lemmas and concrete instances for C109. *)
From Coq Require Import List Arith Bool ZArith Lia Permutation Reals Lra Psatz.
From Verif Require Import Num NumR Py Arr MLayout MAssign MNoise MSparse MFactor MGraph MLinear MSolver SpecLayout SpecTree SpecAssign SpecGraph SpecSparse SpecSolver SpecOrder SpecInv SpecDescent SpecRecover.
From Verif Require Import PBase PLayout PTree PAssign PAssign2 PGraph PGraph2 PGraph4 PVec PSparse PLinear PSolver PSolver2 PSolverR PHold PInv POrder3 PDescent PExGraph Ex ExG ExS PExSolver PExOrder PExPart PExDescent PRecover PRecover2 PExRecover PRebound PRebound2.
Import ListNotations.
Local Open Scope R_scope.

Definition sc (j : R) : coo R := mkCoo [j] (mkCoords [0%nat] [0%nat]) (1%nat, 1%nat).

Lemma sc_ok j : coo_ok (sc j).
Proof. split; [reflexivity|]. split; [reflexivity|]. repeat constructor. Qed.
Lemma vnorm1 x : vnorm [x] = Rabs x.
Proof. apply vnorm_eq; [apply Rabs_pos|]. assert (E : sumsq [x] = x * x) by (comp; ring). rewrite E. pose proof (Rsqr_abs x) as H. unfold Rsqr in H. lra. Qed.
Lemma one_entry sd Asd gn rad : exists d, dogleg_step_of [sd] Asd [gn] rad = [d].
Proof. unfold dogleg_step_of. destruct (nleb _ _); [eauto|]. destruct (nleb _ _); eexists; reflexivity. Qed.

(* ---- a graph with one scalar variable and one scalar residual h, of derivative j ---- *)
Section Scalar.
Variable E : env R.
Variable g : graph R.
Variables h j : R -> R.
Hypothesis Hcost : forall x, compute_cost E g (scalars [vx] [x]) = Ok (h x * h x, [h x]).
Hypothesis Hjac : forall x r, compute_whitened_residual_jacobian E g (scalars [vx] [x]) [r] = Ok (sc (j x)).
Hypothesis Hret : forall x d, manifold_retract (e_cls E) (scalars [vx] [x]) (mkAssign [d] (g_local_layout g)) = Ok (scalars [vx] [x + d]).
Hypothesis Hconv : forall term i x c r b rad c' d u, exists conv, check_convergence E term (mkState i (scalars [vx] [x]) c [r] b rad) c' (mkAssign [d] (g_local_layout g)) [u] = Ok conv.

Lemma sc_grad u r : matmul (transpose (sc u)) (vneg [r]) = Ok [- (u * r)].
Proof. comp. do 2 f_equal. ring. Qed.
Lemma sc_app u r : matmul (sc u) [r] = Ok [u * r].
Proof. comp. do 2 f_equal. ring. Qed.
Lemma sc_solve (u r : R) i : cholmod_solve (sc u) [- (u * r)] n0 i = Ok [- (u * r) / (u * u + Rlit 1 100000)].
Proof. comp. do 2 f_equal. pose proof (Rle_0_sqr u) as H. unfold Rsqr in H. unfold Rlit. field. lra. Qed.

Lemma scalar_dl cfg i x c r b rad : exists s' d, dl_step E cfg cholmod_solve g (mkState i (scalars [vx] [x]) c [r] b rad) = Ok s' /\
  dogleg_step_of [- (j x * r)] [j x * - (j x * r)] [- (j x * r) / (j x * j x + Rlit 1 100000)] rad = [d] /\
  let y := h (x + d) in
  let q := (y * y - c) / ((j x * d + r) * (j x * d + r) - c) in
  s_res s' = [y] /\ s_extra s' = dogleg_radius rad q [d] /\
  (dl_quality_min cfg <= q -> s_assign s' = scalars [vx] [x + d] /\ s_cost s' = y * y) /\
  (q < dl_quality_min cfg -> s_assign s' = scalars [vx] [x] /\ s_cost s' = c /\ s_done s' = exceeded_max_iterations (dl_term cfg) (mkState i (scalars [vx] [x]) c [r] b rad)).
Proof.
  destruct (one_entry (- (j x * r)) [j x * - (j x * r)] (- (j x * r) / (j x * j x + Rlit 1 100000)) rad) as (d & Hd).
  assert (Hs : exists s', dl_step E cfg cholmod_solve g (mkState i (scalars [vx] [x]) c [r] b rad) = Ok s').
  { unfold dl_step. cbn [s_assign s_res s_iter s_extra]. rewrite Hjac. cbn [bind]. rewrite sc_grad. cbn [bind]. rewrite sc_solve. cbn [bind]. rewrite sc_app. cbn [bind]. cbv zeta. rewrite Hd, Hret. cbn [bind].
    rewrite Hcost. cbn [bind fst snd]. unfold step_quality. rewrite sc_app. cbn [bind].
    match goal with |- context [check_convergence E ?t ?s ?c' ?dd ?u] => destruct (Hconv (dl_term cfg) i x c r b rad c' d (- (j x * r))) as (conv & Hc) end. rewrite Hc. eexists. reflexivity. }
  destruct Hs as (s' & H). exists s', d. split; auto. split; auto.
  destruct (dl_tr E _ _ _ _ _ H) as (A & ATb & gn & Asd & step & prop & c1 & r1 & q1 & Ht & Eb & Eg & Easd & Ed & Ee & conv & _ & Edone).
  destruct Ht as [EA Hp Hc1 (Ad & EAd & Eq) Hacc Hrej Hres Hit]. cbn [s_assign s_res s_cost s_extra s_iter] in *.
  rewrite Hjac in EA. injection EA as <-. rewrite sc_grad in Eb. injection Eb as <-. rewrite sc_solve in Eg. injection Eg as <-. rewrite sc_app in Easd. injection Easd as <-.
  rewrite Hd in Ed. subst step. rewrite Hret in Hp. injection Hp as <-. rewrite Hcost in Hc1. injection Hc1 as <- <-. rewrite sc_app in EAd. injection EAd as <-.
  cbv zeta. rnin Eq. assert (Es : sumsq (vadd [j x * d] [r]) = (j x * d + r) * (j x * d + r)) by (comp; ring). rewrite Es in Eq. rewrite <- Eq.
  split; auto. split; auto. split.
  - intros Hle. rnin Hacc. apply Hacc. apply Rleb_ok. exact Hle.
  - intros Hlt. assert (Hb := proj2 (Rleb_no _ _) Hlt). rnin Hrej. destruct (Hrej Hb) as (H1 & H2). rnin Edone. rewrite Hb in Edone. cbn in Edone. rewrite orb_false_r in Edone. auto.
Qed.
End Scalar.

(* the proposal of unit slope when the radius is short of the minimiser *)
Lemma unit_step r rad : 0 < rad -> rad * (1 + Rlit 1 100000) < Rabs r ->
  dogleg_step_of [- (1 * r)] [1 * - (1 * r)] [- (1 * r) / (1 * 1 + Rlit 1 100000)] rad = [rad / Rabs r * - r].
Proof.
  intros Hr Hlt. assert (Hu : 0 < Rlit 1 100000) by (unfold Rlit; lra).
  assert (Esd : mapply (transpose (sc 1)) (vneg [r]) = [- (1 * r)]).
  { pose proof (sc_grad 1 r) as H. rewrite matmul_mapply in H; [congruence | apply transpose_ok, sc_ok | reflexivity]. }
  assert (Easd : mapply (sc 1) [- (1 * r)] = [1 * - (1 * r)]).
  { pose proof (sc_app 1 (- (1 * r))) as H. rewrite matmul_mapply in H; [congruence | apply sc_ok | reflexivity]. }
  assert (Hmu : 0 < n0 + Rlit 1 100000) by (unfold Rlit; rn; lra).
  destruct (cholmod_solve_ok (sc 1) [- (1 * r)] n0 0%nat (sc_ok 1) Hmu eq_refl) as (gn & Eg & Hn).
  rewrite sc_solve in Eg. injection Eg as <-. replace (n0 + Rlit 1 100000) with (Rlit 1 100000) in Hn by (rn; lra).
  assert (HF : forall x, length x = snd (m_shape (sc 1)) -> sumsq (mapply (sc 1) x) <= 1 * sumsq x) by (intros x Hx; apply norm_mapply; [apply sc_ok | exact line_norm | exact Hx]).
  assert (Evn : vnorm [- (1 * r)] = Rabs r) by (rewrite vnorm1; replace (- (1 * r)) with (- r) by ring; apply Rabs_Ropp).
  pose proof (cauchy_branch (sc 1) 1 [1] (sc_ok 1) ltac:(lra) HF eq_refl (Rlit 1 100000) Hu [r] [- (1 * r) / (1 * 1 + Rlit 1 100000)] rad eq_refl Hr) as H. cbv zeta in H.
  rewrite Esd, Easd, Evn in H. rewrite (H Hn Hlt). comp. f_equal. rn. field. intros Ez. apply Rabs_no_R0 in Ez; auto. intros ->. rewrite Rabs_R0 in Hlt. nra.
Qed.

(* ---- a residual that is 1 + x + (16 H - 12) x^2 from -1/4 on, and constant H below ---- *)
Definition kr (H x : R) : R := if Rleb (-1/4) x then 1 + x + (16 * H - 12) * (x * x) else H.
Definition kj (H x : R) : R := if Rleb (-1/4) x then 1 + 2 * (16 * H - 12) * x else 0.
Definition ledgeE : env R := mkEnv exC
  (fun fd vals => match fd_cls fd, vals with 22%nat, [x] => zipw kr (par fd) (ravel x) | _, _ => [] end)
  (fun fd vals => match fd_cls fd, vals with 22%nat, [x] => [[zipw kj (par fd) (ravel x)]] | _, _ => [] end).
Definition gledge (H : R) : graph R :=
  match graph_make ledgeE (cliff H) with Ok g => g | Err _ => mkGraph [] (mkCoords [] []) (make_layout exC [] false) (make_layout exC [] true) 0 end.
Ltac compk := lazy -[kr kj Rlit Rplus Rmult Ropp IZR Rdiv Rminus Rmax Rmin sqrt Rabs Rleb Rltb Rinv].

Lemma ledge_cost H x : compute_cost ledgeE (gledge H) (scalars [vx] [x]) = Ok (kr H x * kr H x, [kr H x]).
Proof. compk. do 2 f_equal; [|f_equal]; ring. Qed.
Lemma ledge_jac H x r : compute_whitened_residual_jacobian ledgeE (gledge H) (scalars [vx] [x]) [r] = Ok (sc (kj H x)).
Proof. compk. do 3 f_equal. ring. Qed.
Lemma ledge_retract H x d : manifold_retract (e_cls ledgeE) (scalars [vx] [x]) (mkAssign [d] (g_local_layout (gledge H))) = Ok (scalars [vx] [x + d]).
Proof. compk. reflexivity. Qed.
Lemma ledge_conv H term i x c r b rad c' d u : exists conv, check_convergence ledgeE term (mkState i (scalars [vx] [x]) c [r] b rad) c' (mkAssign [d] (g_local_layout (gledge H))) [u] = Ok conv.
Proof. destruct term. eexists. compk. reflexivity. Qed.
Lemma ledge_ok H : (forall f, In f (cliff H) -> factor_ok f) /\ well_shaped ledgeE (cliff H) /\ graph_make ledgeE (cliff H) = Ok (gledge H) /\
  assigns ledgeE (cliff H) (scalars [vx] [0]) (const_of 0).
Proof.
  assert (Hval : forall val, legal ledgeE (cliff H) val -> exists r, val vx = leaf1 [r]).
  { intros val Hv. apply scalar_shape. apply (Hv vx). apply firsts_in. left. auto. }
  split; [|split; [split | split]].
  - intros f [<-|[]]. split; [split; [reflexivity | exists 1%nat; reflexivity] | repeat constructor].
  - intros val f Hv [<-|[]]. destruct (Hval val Hv) as (r & Er). unfold residual_shape_ok, residual_at. simpl map. rewrite Er. reflexivity.
  - intros val f Hv [<-|[]]. destruct (Hval val Hv) as (r & Er). unfold jacobian_shape_ok, jacobians_at. simpl map. rewrite Er. repeat constructor.
  - intros v x d Hv Hx Hd. assert (v = vx) by (unfold mentioned in Hv; apply (proj1 (firsts_in _ _)) in Hv; destruct Hv as [<-|[]]; auto). subst v.
    destruct (scalar_shape x Hx) as (r & ->). destruct d as [|e [|? ?]]; try discriminate Hd; eexists; (split; [reflexivity | split; repeat constructor]).
  - compk. reflexivity.
  - exists [vx]. split; [split; [repeat constructor; simpl; tauto | split; reflexivity]|]. split; [intros v; simpl; tauto|]. intros v [<-|[]]. reflexivity.
Qed.

Section Ledge.
Variable H : R.
Hypothesis HH : 2 <= H.
Variable mx : Z.
Hypothesis Hmx : (2 <= mx)%Z.
Let cfg : dl_cfg R := dl_default mx.
Let step := dl_step ledgeE cfg cholmod_solve (gledge H).
Let s0 : sstate R := mkState 0%nat (scalars [vx] [0]) 1 [1] false 1.
Let turn := scalar_dl ledgeE (gledge H) (kr H) (kj H) (ledge_cost H) (ledge_jac H) (ledge_retract H) (ledge_conv H) cfg.

Lemma kr_in x : -1/4 <= x -> kr H x = 1 + x + (16 * H - 12) * (x * x).
Proof. intros Hx. unfold kr. rewrite (proj2 (Rleb_ok _ _) Hx). auto. Qed.
Lemma kr_out x : x < -1/4 -> kr H x = H.
Proof. intros Hx. unfold kr. rewrite (proj2 (Rleb_no _ _) Hx). auto. Qed.
Lemma kj_0 : kj H 0 = 1.
Proof. unfold kj. rewrite (proj2 (Rleb_ok (-1/4) 0)) by lra. ring. Qed.
Lemma kj_out x : x < -1/4 -> kj H x = 0.
Proof. intros Hx. unfold kj. rewrite (proj2 (Rleb_no _ _) Hx). auto. Qed.

Lemma full_step sd Asd gn rad : Rabs gn <= rad -> dogleg_step_of [sd] Asd [gn] rad = [gn].
Proof. intros Hg. unfold dogleg_step_of. rewrite vnorm1. rn. rewrite (proj2 (Rleb_ok _ _) Hg). auto. Qed.

Lemma ledge_total i x c r b rad : exists s', step (mkState i (scalars [vx] [x]) c [r] b rad) = Ok s'.
Proof. destruct (turn i x c r b rad) as (s' & d & Hs & _). eauto. Qed.

(* the first proposal lands on the plateau and is rejected *)
Lemma ledge_first s1 : step s0 = Ok s1 -> s1 = mkState (s_iter s1) (scalars [vx] [0]) 1 [H] false (1/2).
Proof.
  intros Hs. destruct (turn 0%nat 0 1 1 false 1) as (s' & d & Hs' & Hd & H1 & H2 & _ & H4). unfold s0, step in Hs. rewrite Hs in Hs'. injection Hs' as <-.
  rewrite kj_0 in *. rewrite full_step in Hd. 2: { rewrite Rabs_left; unfold Rlit; lra. } injection Hd as <-.
  set (d := - (1 * 1) / (1 * 1 + Rlit 1 100000)) in *. assert (Hd : -1 < d < -9/10) by (unfold d, Rlit; lra).
  rewrite Rplus_0_l in *. rewrite kr_out in * by lra.
  assert (Hden : (1 * d + 1) * (1 * d + 1) - 1 < 0) by nra. assert (0 < H * H - 1) by nra.
  assert (Hq : (H * H - 1) / ((1 * d + 1) * (1 * d + 1) - 1) < 0). { unfold Rdiv. pose proof (Rinv_lt_0_compat _ Hden). nra. }
  set (q := (H * H - 1) / ((1 * d + 1) * (1 * d + 1) - 1)) in *.
  destruct H4 as (A1 & A2 & A3); [cbn; unfold Rlit; lra|].
  assert (Ex : s_extra s1 = 1/2). { rewrite H2. unfold dogleg_radius. rn. rewrite (proj2 (Rltb_ok q (Rlit 1 4))) by (unfold Rlit; lra). unfold Rlit. lra. }
  assert (Edn : s_done s1 = false) by (rewrite A3; unfold exceeded_max_iterations; cbn; apply Z.leb_gt; lia).
  clear - H1 A1 A2 Ex Edn. destruct s1 as [i a c r b l]. cbn [s_res s_iter s_assign s_cost s_extra s_done] in *. subst. reflexivity.
Qed.

(* on the plateau *)
Definition shelf (s : sstate R) : Prop := exists i x b l, s = mkState i (scalars [vx] [x]) (H * H) [H] b l /\ x < -1/4 /\ 0 < l.

(* the second one does too, and is accepted *)
Lemma ledge_second i s2 : step (mkState i (scalars [vx] [0]) 1 [H] false (1/2)) = Ok s2 -> shelf s2.
Proof.
  intros Hs. destruct (turn i 0 1 H false (1/2)) as (s' & d & Hs' & Hd & H1 & H2 & H3 & _). unfold step in Hs. rewrite Hs in Hs'. injection Hs' as <-.
  rewrite kj_0 in *. rewrite unit_step in Hd by (try (rewrite Rabs_pos_eq); unfold Rlit; lra). injection Hd as Hd. rewrite Rabs_pos_eq in Hd by lra.
  assert (Ed : d = -1/2) by (rewrite <- Hd; field; lra). subst d. rewrite Rplus_0_l in *. rewrite Ed in *. rewrite kr_out in * by lra.
  assert (Hden : 0 < (1 * (-1/2) + H) * (1 * (-1/2) + H) - 1) by nra.
  set (q := (H * H - 1) / ((1 * (-1/2) + H) * (1 * (-1/2) + H) - 1)) in *.
  assert (Hq : 1 <= q). { apply (Rmult_le_reg_r ((1 * (-1/2) + H) * (1 * (-1/2) + H) - 1)); auto. unfold q.
    replace ((H * H - 1) / ((1 * (-1/2) + H) * (1 * (-1/2) + H) - 1) * ((1 * (-1/2) + H) * (1 * (-1/2) + H) - 1)) with (H * H - 1) by (field; lra). nra. }
  destruct H3 as (A1 & A2); [cbn; unfold Rlit; lra|].
  assert (Ex : 0 < s_extra s2).
  { rewrite H2. unfold dogleg_radius. rn. destruct (Rltb q (Rlit 1 4)) eqn:B1; [unfold Rlit; lra|]. destruct (Rltb (Rlit 3 4) q); [|lra]. eapply Rlt_le_trans; [|apply Rmax_l]. lra. }
  destruct s2 as [i' a c r b l]. cbn [s_res s_iter s_assign s_cost s_extra s_done] in *. subst a c r. do 4 eexists. split; [reflexivity|]. split; [lra | exact Ex].
Qed.
Lemma ledge_shelf s s' : shelf s -> step s = Ok s' -> shelf s'.
Proof.
  intros (i & x & b & l & -> & Hx & Hl) Hs. destruct (turn i x (H * H) H b l) as (s1 & d & Hs' & Hd & H1 & H2 & _ & H4). unfold step in Hs. rewrite Hs in Hs'. injection Hs' as <-.
  rewrite (kj_out x Hx) in *. assert (Eg : - (0 * H) / (0 * 0 + Rlit 1 100000) = 0) by (unfold Rlit; field). rewrite Eg, full_step in Hd by (rewrite Rabs_R0; lra). injection Hd as <-.
  rewrite Rplus_0_r in *. rewrite kr_out in * by auto. set (q := (H * H - H * H) / ((0 * 0 + H) * (0 * 0 + H) - H * H)) in *.
  assert (Eq : q = 0) by (unfold q; replace (H * H - H * H) with 0 by ring; unfold Rdiv; ring). rewrite Eq in *.
  destruct H4 as (A1 & A2 & _); [cbn; unfold Rlit; lra|].
  assert (Ex : 0 < s_extra s'). { rewrite H2. unfold dogleg_radius. rn. rewrite (proj2 (Rltb_ok 0 (Rlit 1 4))) by (unfold Rlit; lra). unfold Rlit. lra. }
  destruct s' as [i' a c r b' l']. cbn [s_res s_iter s_assign s_cost s_extra s_done] in *. subst a c r. do 4 eexists. split; [reflexivity|]. split; [exact Hx | exact Ex].
Qed.
Lemma shelf_runs k s s' : shelf s -> runs step k s s' -> shelf s'.
Proof. intros Hf Hr. revert Hf. induction Hr; intros Hf; auto. apply IHHr. eapply ledge_shelf; eauto. Qed.

Lemma ledge_result fuel : (iteration_cap mx <= fuel)%nat -> exists x, x < -1/4 /\
  dl_solve ledgeE fuel cfg cholmod_solve (gledge H) (scalars [vx] [0]) = Some (Ok (scalars [vx] [x])).
Proof.
  intros Hfuel. destruct (solvers_terminate ledgeE (gledge H) (scalars [vx] [0]) cholmod_solve fuel) as (_ & _ & Hdl).
  destruct (Hdl cfg Hfuel) as (r & Er & Hr). clear Hdl. rewrite Er.
  assert (Eu : forall x, update_storage_layout (e_cls ledgeE) (scalars [vx] [x]) (g_layout (gledge H)) = Ok (scalars [vx] [x])) by (intros; compk; reflexivity).
  assert (Ev : forall x y, update_storage_layout (e_cls ledgeE) (scalars [vx] [x]) (as_layout (scalars [vx] [y])) = Ok (scalars [vx] [x])) by (intros; compk; reflexivity).
  destruct Hr as [(e & H1 & _)|(a & Ha & Hr)]; [rewrite Eu in H1; discriminate|]. rewrite Eu in Ha. injection Ha as <-.
  assert (Ec : compute_cost ledgeE (gledge H) (scalars [vx] [0]) = Ok (1, [1])) by (rewrite ledge_cost, kr_in by lra; do 2 f_equal; [|f_equal]; ring).
  destruct Hr as [(e & H1 & _)|(c & res & run & H1 & Hs & ->)]; [rewrite Ec in H1; discriminate|]. rewrite Ec in H1. injection H1 as <- <-.
  change (radius_initial cfg) with 1 in Hs. fold step in Hs. fold s0 in Hs.
  assert (Hinv : forall k s', runs step k s0 s' -> (exists s'', step s' = Ok s'') /\ (s_done s' = true -> shelf s')).
  { intros k s' Hk. inversion Hk as [|k1 x1 s1 x2 D1 T1 R1]; subst; [split; [apply ledge_total | discriminate]|].
    pose proof (ledge_first s1 T1) as E1. rewrite E1 in R1.
    inversion R1 as [|k2 x3 s2 x4 D2 T2 R2]; subst; [split; [apply ledge_total | discriminate]|].
    pose proof (shelf_runs _ _ _ (ledge_second _ s2 T2) R2) as Hf. split; auto. destruct Hf as (i & x & b & l & -> & _). apply ledge_total. }
  destruct Hs as [(k & st & _ & Hk & Hd & ->)|(k & st & e & _ & Hk & _ & He & ->)].
  - destruct (Hinv k st Hk) as (_ & Hf). destruct (Hf Hd) as (i & x & b & l & -> & Hx & _). exists x. split; [exact Hx | reflexivity].
  - destruct (Hinv k st Hk) as ((s'' & Hs'') & _). congruence.
Qed.
End Ledge.

Lemma dl_result_worse : forall H, 2 <= H -> exists (E : env R) fs g init val r,
  classes_ok (e_cls E) /\ (forall f, In f fs -> factor_ok f) /\ well_shaped E fs /\ graph_make E fs = Ok g /\ assigns E fs init val /\
  compute_cost E g init = Ok (1, r) /\
  forall mx fuel, (2 <= mx)%Z -> (iteration_cap mx <= fuel)%nat -> exists a' r',
    dl_solve E fuel (dl_default mx) cholmod_solve g init = Some (Ok a') /\ compute_cost E g a' = Ok (H * H, r').
Proof.
  intros H HH. destruct (ledge_ok H) as (P1 & P2 & P3 & P4). exists ledgeE, (cliff H), (gledge H), (scalars [vx] [0]), (const_of 0), [1].
  split; [exact exS_classes|]. do 4 (split; [assumption|]). split; [rewrite ledge_cost, kr_in by lra; do 2 f_equal; [|f_equal]; ring|].
  intros mx fuel Hmx Hf. destruct (ledge_result H HH mx Hmx fuel Hf) as (x & Hx & Hr). exists (scalars [vx] [x]), [H]. split; auto. rewrite ledge_cost, kr_out by auto. auto.
Qed.

(* ---- the residual x, at x = 1 ---- *)
Lemma line_conv term i x c r b rad c' d u : exists conv, check_convergence exSE term (mkState i (scalars [vx] [x]) c [r] b rad) c' (mkAssign [d] (g_local_layout gline)) [u] = Ok conv.
Proof. destruct term. eexists. comp. reflexivity. Qed.
Lemma line_dl cfg i c r b rad : 0 < rad -> rad * (1 + Rlit 1 100000) < Rabs r -> let d := rad / Rabs r * - r in
  exists s', dl_step exSE cfg cholmod_solve gline (mkState i at1 c [r] b rad) = Ok s' /\
  let q := ((1 + d) * (1 + d) - c) / ((d + r) * (d + r) - c) in s_res s' = [1 + d] /\
  (q < dl_quality_min cfg -> stays (mkState i at1 c [r] b rad) s' /\ s_extra s' = dogleg_radius rad q [d]).
Proof.
  intros Hr Hlt d. destruct (scalar_dl exSE gline (fun x => x) (fun _ => 1) line_cost (fun x r => line_jac x [r] eq_refl) line_retract line_conv cfg i 1 c r b rad) as (s' & d' & Hs & Hd & H1 & H2 & _ & H4).
  rewrite unit_step in Hd by auto. injection Hd as <-. fold d in H1, H2, H4. cbv beta in *. rewrite Rmult_1_l in *. exists s'. split; [exact Hs|]. cbv zeta. split; auto.
  intros Hq. destruct (H4 Hq) as (A1 & A2 & _). split; auto. split; auto.
Qed.

(* with a threshold of 3/4 the same proposal is rejected for ever, however small the radius *)
Definition half_cfg (D : R) : dl_cfg R := mkDl (term_default 100) D (3/4).
Lemma dl_forever D : 0 < D <= 1/10 -> forall n i b, exists s', stuck 1 (dl_step exSE (half_cfg D) cholmod_solve gline) n (mkState i at1 1 [1 - D] b D) s'.
Proof.
  intros HD. induction n as [|n IH]; intros i b; [eexists; constructor|].
  assert (Habs : Rabs (1 - D) = 1 - D) by (apply Rabs_pos_eq; lra).
  destruct (line_dl (half_cfg D) i 1 (1 - D) b D ltac:(lra) ltac:(rewrite Habs; unfold Rlit; nra)) as (s1 & H1 & H2 & H3).
  rewrite Habs in *. assert (Ed : D / (1 - D) * - (1 - D) = - D) by (field; lra). rewrite Ed in *.
  assert (Eq : ((1 + - D) * (1 + - D) - 1) / ((- D + (1 - D)) * (- D + (1 - D)) - 1) = (2 - D) / (4 * (1 - D))).
  { field. split; [lra|]. replace ((- D + (1 - D)) * (- D + (1 - D)) - 1) with (- (4 * (D * (1 - D)))) by ring. assert (0 < D * (1 - D)) by (apply Rmult_lt_0_compat; lra). lra. }
  rewrite Eq in H3. set (q := (2 - D) / (4 * (1 - D))) in *. assert (Hq : q * (4 * (1 - D)) = 2 - D) by (unfold q; field; lra).
  assert (Hq1 : 1/4 < q < 3/4) by (split; nra).
  destruct H3 as (S1 & X1); [cbn; lra|]. unfold dogleg_radius in X1. rnin X1. rewrite (proj2 (Rltb_no q (Rlit 1 4))) in X1 by (unfold Rlit; lra). rewrite (proj2 (Rltb_no (Rlit 3 4) q)) in X1 by (unfold Rlit; lra).
  assert (E1 : s1 = mkState (s_iter s1) at1 1 [1 - D] (s_done s1) D).
  { destruct s1 as [i' a' c' r' b' l']. destruct S1 as (G1 & G2). cbn [s_res s_iter s_assign s_cost s_extra s_done] in *. subst. reflexivity. }
  destruct (IH (s_iter s1) (s_done s1)) as (s2 & Hs2). rewrite <- E1 in Hs2. exists s2. econstructor; [exact H1 | exact S1 | | exact Hs2].
  cbn [s_res]. assert (Esq : sumsq [1 - D] = (1 - D) * (1 - D)) by (comp; ring). rewrite Esq. nra.
Qed.

(* with the default threshold two rejections in a row do occur at any radius *)
Lemma dl_twice D : 0 < D <= 1/10 -> let s0 := mkState 0%nat at1 1 [-1] false D in exists s1 s2 s3,
  dl_step exSE (dl_default 100) cholmod_solve gline s0 = Ok s1 /\ stays s0 s1 /\ dl_step exSE (dl_default 100) cholmod_solve gline s1 = Ok s2 /\ stays s1 s2 /\
  dl_step exSE (dl_default 100) cholmod_solve gline s2 = Ok s3.
Proof.
  intros HD s0. assert (Hab : Rabs (-1) = 1) by (rewrite Rabs_left; lra).
  destruct (line_dl (dl_default 100) 0 1 (-1) false D ltac:(lra) ltac:(rewrite Hab; unfold Rlit; nra)) as (s1 & H1 & H2 & H3). rewrite Hab in *.
  assert (Ed : D / 1 * - -1 = D) by field. rewrite Ed in *. set (q := ((1 + D) * (1 + D) - 1) / ((D + -1) * (D + -1) - 1)) in *.
  assert (Hq : q < 0). { assert (Hden : (D + -1) * (D + -1) - 1 < 0) by nra. assert (0 < (1 + D) * (1 + D) - 1) by nra. pose proof (Rinv_lt_0_compat _ Hden). unfold q, Rdiv. nra. }
  destruct H3 as (S1 & X1); [cbn; unfold Rlit; lra|]. unfold dogleg_radius in X1. rnin X1. rewrite (proj2 (Rltb_ok q (Rlit 1 4))) in X1 by (unfold Rlit; lra).
  assert (X1' : s_extra s1 = D / 2) by (rewrite X1; unfold Rlit; lra). clear X1.
  assert (E1 : s1 = mkState (s_iter s1) at1 1 [1 + D] (s_done s1) (D / 2)).
  { destruct s1 as [i' a' c' r' b' l']. destruct S1 as (G1 & G2). cbn [s_res s_iter s_assign s_cost s_extra s_done] in *. subst. reflexivity. }
  assert (Hab2 : Rabs (1 + D) = 1 + D) by (apply Rabs_pos_eq; lra).
  destruct (line_dl (dl_default 100) (s_iter s1) 1 (1 + D) (s_done s1) (D / 2) ltac:(lra) ltac:(rewrite Hab2; unfold Rlit; nra)) as (s2 & H4 & H5 & H6). rewrite <- E1 in H4, H6. rewrite Hab2 in *.
  assert (Ed2 : D / 2 / (1 + D) * - (1 + D) = - (D / 2)) by (field; lra). rewrite Ed2 in *. set (q2 := ((1 + - (D / 2)) * (1 + - (D / 2)) - 1) / ((- (D / 2) + (1 + D)) * (- (D / 2) + (1 + D)) - 1)) in *.
  assert (Hq2 : q2 < 0). { assert (Hden : 0 < (- (D / 2) + (1 + D)) * (- (D / 2) + (1 + D)) - 1) by nra. assert ((1 + - (D / 2)) * (1 + - (D / 2)) - 1 < 0) by nra. pose proof (Rinv_0_lt_compat _ Hden). unfold q2, Rdiv. nra. }
  destruct H6 as (S2 & X2); [cbn; unfold Rlit; lra|].
  unfold dogleg_radius in X2. rnin X2. rewrite (proj2 (Rltb_ok q2 (Rlit 1 4))) in X2 by (unfold Rlit; lra).
  assert (X2' : s_extra s2 = D / 4) by (rewrite X2; unfold Rlit; lra). clear X2.
  assert (E2 : s2 = mkState (s_iter s2) at1 1 [1 + - (D / 2)] (s_done s2) (D / 4)).
  { destruct s2 as [i' a' c' r' b' l']. destruct S2 as (G1 & G2). rewrite E1 in G1, G2. cbn [s_res s_iter s_assign s_cost s_extra s_done] in *. subst. reflexivity. }
  assert (Hab3 : Rabs (1 + - (D / 2)) = 1 + - (D / 2)) by (apply Rabs_pos_eq; lra).
  destruct (line_dl (dl_default 100) (s_iter s2) 1 (1 + - (D / 2)) (s_done s2) (D / 4) ltac:(lra) ltac:(rewrite Hab3; unfold Rlit; nra)) as (s3 & H7 & _). rewrite <- E2 in H7.
  exists s1, s2, s3. auto.
Qed.

Lemma dl_recovered : forall E fs g a c0 r0 A ng F K q, slope E fs g a c0 r0 A ng F K -> 0 < q -> 3 * q < 1 ->
  exists delta, 0 < delta /\ forall cfg s0 s1 s2 s3, dl_quality_min cfg = q -> 0 < s_extra s0 <= delta ->
  s_assign s0 = a -> s_cost s0 = c0 -> length (s_res s0) = length r0 ->
  dl_step E cfg cholmod_solve g s0 = Ok s1 -> stays s0 s1 -> dl_step E cfg cholmod_solve g s1 = Ok s2 -> stays s1 s2 ->
  dl_step E cfg cholmod_solve g s2 = Ok s3 -> s_cost s3 < c0 /\ current E g s3.
Proof.
  intros E fs g a c0 r0 A ng F K q [H1 H2 H3 H4 H5 (val & H6) H7 H8 H9 H10 H11 H12 H13 H14 H15] Hq Hq3.
  destruct (rebounds E fs g H1 H2 H3 H4 H5 a val H6 H7 c0 r0 A ng F K H8 H9 H10 H11 H13 H12 H14 H15 q Hq Hq3) as (delta & Hd & HL).
  exists delta. split; auto. intros. eapply HL; eauto.
Qed.
Lemma dl_never_long : forall E fs g a c0 r0 A ng F K q rad, slope E fs g a c0 r0 A ng F K -> 0 < q <= 1/4 -> 0 < rad ->
  exists n, forall B cfg s s', dl_quality_min cfg = q -> 0 < s_extra s <= rad ->
  s_assign s = a -> s_cost s = c0 -> length (s_res s) = length r0 -> ~ stuck B (dl_step E cfg cholmod_solve g) n s s'.
Proof.
  intros E fs g a c0 r0 A ng F K q rad [H1 H2 H3 H4 H5 (val & H6) H7 H8 H9 H10 H11 H12 H13 H14 H15] Hq Hr.
  destruct (never_stuck_dl E fs g H1 H2 H3 H4 H5 a val H6 H7 c0 r0 A ng F K H8 H9 H10 H11 H13 H12 H14 H15 q ltac:(lra) ltac:(lra) rad ltac:(lra) Hr) as (n & Hn).
  exists n. intros. eapply Hn; eauto.
Qed.

Lemma ex_rebounds : slope exSE line gline at1 1 [1] unit_coo [-1] 1 0 /\ 3 * Rlit 1 1000 < 1 /\
  forall delta, 0 < delta -> exists cfg s0 s1 s2 s3, dl_quality_min cfg = Rlit 1 1000 /\ 0 < s_extra s0 <= delta /\
  s_assign s0 = at1 /\ s_cost s0 = 1 /\ length (s_res s0) = length [1] /\
  dl_step exSE cfg cholmod_solve gline s0 = Ok s1 /\ stays s0 s1 /\ dl_step exSE cfg cholmod_solve gline s1 = Ok s2 /\ stays s1 s2 /\ dl_step exSE cfg cholmod_solve gline s2 = Ok s3.
Proof.
  split; [exact line_slope|]. split; [unfold Rlit; lra|]. intros delta Hd.
  pose proof (Rmin_l (1/10) delta). pose proof (Rmin_r (1/10) delta). assert (0 < Rmin (1/10) delta) by (apply Rmin_glb_lt; lra). set (D := Rmin (1/10) delta) in *.
  destruct (dl_twice D ltac:(lra)) as (s1 & s2 & s3 & G1 & G2 & G3 & G4 & G5). exists (dl_default 100), (mkState 0%nat at1 1 [-1] false D), s1, s2, s3.
  split; [reflexivity|]. split; [cbn; lra|]. do 3 (split; [reflexivity|]). auto.
Qed.

Lemma dl_threshold_needed : exists E fs g a c0 r0 A ng, slope E fs g a c0 r0 A ng 1 0 /\
  forall delta, 0 < delta -> exists cfg s, dl_quality_min cfg = 3/4 /\ 0 < s_extra s <= delta /\
    s_assign s = a /\ s_cost s = c0 /\ length (s_res s) = length r0 /\ forall n, exists s', stuck 1 (dl_step E cfg cholmod_solve g) n s s'.
Proof.
  exists exSE, line, gline, at1, 1, [1], unit_coo, [-1]. split; [exact line_slope|]. intros delta Hd.
  pose proof (Rmin_l (1/10) delta). pose proof (Rmin_r (1/10) delta). assert (0 < Rmin (1/10) delta) by (apply Rmin_glb_lt; lra). set (D := Rmin (1/10) delta) in *.
  exists (half_cfg D), (mkState 0%nat at1 1 [1 - D] false D).
  split; [reflexivity|]. split; [cbn; lra|]. do 3 (split; [reflexivity|]). intros n. apply dl_forever. lra.
Qed.
