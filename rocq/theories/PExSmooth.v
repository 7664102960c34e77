(* Bundling lemmas and concrete instances for C100. *)
From Coq Require Import List Arith Bool ZArith Lia Reals Lra Psatz.
From Verif Require Import Num NumR Py Arr MLayout MAssign MNoise MSparse MFactor MGraph MLinear MSolver MAuto MDual SpecLayout SpecTree SpecAssign SpecGraph SpecSparse SpecDeriv SpecSolver SpecOrder SpecInv SpecAuto SpecDual SpecLin SpecCgLin SpecDescent SpecLocal SpecSmooth.
From Verif Require Import PBase PVec PGraph PSolverR PLin PExGraph PExInv PExLinDl PLocal PExLocal PExPart PExDual PSmooth3 Ex ExG ExS.
Import ListNotations.
Local Open Scope R_scope.

Lemma smooth_constants : forall C prog fs g z valz, let E := plain_programs C prog in
  program_problem C prog fs -> graph_make E fs = Ok g -> assigns E fs z valz -> same_layout (as_layout z) (g_layout g) ->
  exact_fit prog fs valz -> determined_at E g z ->
  exists rho m K f, 0 < rho /\ good_solution E fs g z valz rho m K 0 /\ 0 <= f /\ bounded_near E fs g z rho f.
Proof. intros C prog fs g z valz E PP Eg Hza Hzl Hfit Hdet. apply (fit_constants C prog fs PP g Eg z valz Hza Hzl Hfit Hdet). Qed.

Lemma smooth_solves : forall C prog fs g z valz, let E := plain_programs C prog in
  program_problem C prog fs -> graph_make E fs = Ok g -> assigns E fs z valz -> same_layout (as_layout z) (g_layout g) ->
  exact_fit prog fs valz -> determined_at E g z ->
  exists rho q, 0 < rho /\ 0 <= q < 1 /\ forall init val, assigns E fs init val -> distance fs val valz <= rho ->
  (forall cfg fuel a', gn_solve E fuel cfg cholmod_solve g init = Some (Ok a') -> exists val', assigns E fs a' val' /\ distance fs val' valz <= q * distance fs val valz) /\
  (forall fuel unroll it, same_layout (as_layout init) (g_layout g) -> (1 <= it)%Z -> (Z.to_nat it <= fuel)%nat ->
   exists a' val', fixed_solve E fuel unroll it cholmod_solve g init = Some (Ok a') /\ assigns E fs a' val' /\ distance fs val' valz <= q ^ Z.to_nat it * distance fs val valz).
Proof.
  intros C prog fs g z valz E PP Eg Hza Hzl Hfit Hdet. destruct (smooth_constants C prog fs g z valz PP Eg Hza Hzl Hfit Hdet) as (rho & m & K & f & Prho & GS & _).
  assert (D0 : distance fs valz valz <= rho).
  { unfold distance. replace (distance2 fs valz valz) with 0; [rewrite sqrt_0; lra|]. pose proof GS as (HP & WP & _). pose proof (lin_holds E fs g WP Eg z valz Hza Hzl) as Hh.
    rewrite <- (pl_distance E fs HP (wp_classes _ _ WP) z valz z valz Hh Hh). symmetry. apply PVec.sumsq_zero. apply (nth_ext' _ _ 0); [rewrite vsub_length, ?vzero_length; auto|].
    intros i _. rewrite nth_vsub by auto. rewrite PBasin6.nth_zero. ring. }
  exists rho, ((1 / 100000 + 0 + K * m * rho) / (m * m + 1 / 100000)). split; auto. split; [apply (near_solves E fs g z valz rho m K 0 GS z valz Hza D0)|].
  intros init val Ha Hd. destruct (near_solves E fs g z valz rho m K 0 GS init val Ha Hd) as (_ & H). exact H.
Qed.

Lemma smooth_cg : forall C prog fs g z valz, let E := plain_programs C prog in
  program_problem C prog fs -> graph_make E fs = Ok g -> assigns E fs z valz -> same_layout (as_layout z) (g_layout g) ->
  exact_fit prog fs valz -> determined_at E g z ->
  exists rho t q, 0 < rho /\ 0 < t /\ 0 <= q < 1 /\ forall tol step s val, (forall i, Rabs (tol i) <= t) -> gauss_newton_iteration E g (cg_solve tol) step ->
  at_values E fs g s val -> distance fs val valz <= rho ->
  forall k s', runs step k s s' -> exists val', at_values E fs g s' val' /\ distance fs val' valz <= q ^ k * distance fs val valz.
Proof.
  intros C prog fs g z valz E PP Eg Hza Hzl Hfit Hdet. destruct (smooth_constants C prog fs g z valz PP Eg Hza Hzl Hfit Hdet) as (rho & m & K & f & Prho & GS & Pf & Hb).
  pose proof GS as (_ & _ & _ & _ & _ & _ & Pm & PK & _ & Hr). rewrite Rplus_0_l in Hr. set (gap := m * m - K * m * rho). assert (Pg : 0 < gap) by (unfold gap; lra).
  assert (Pb : 0 <= f * f + f * K * rho) by (assert (0 <= f * f) by nra; assert (0 <= f * K * rho) by (repeat apply Rmult_le_pos; lra); lra). set (b := f * f + f * K * rho) in *.
  set (t := gap / (2 * (b + 1))). assert (Pt : 0 < t) by (apply Rdiv_lt_0_compat; lra).
  assert (Ht : t * b <= gap / 2). { assert (t * (2 * (b + 1)) = gap) by (unfold t; field; lra). lra. }
  assert (Pkm : 0 <= K * m * rho) by (repeat apply Rmult_le_pos; lra). assert (Pmm : 0 < m * m) by (apply Rmult_lt_0_compat; auto).
  exists rho, t, ((0 + K * m * rho + t * (f * f + f * K * rho + 0)) / (m * m)). rewrite Rplus_0_r. fold b. split; auto. split; auto. split.
  - assert (0 <= t * b) by (apply Rmult_le_pos; lra). split; [apply Rmult_le_pos; [lra | apply Rlt_le, Rinv_0_lt_compat; auto]|].
    apply (Rmult_lt_reg_r (m * m)); auto. unfold Rdiv. rewrite Rmult_assoc, Rinv_l by lra. unfold gap in *. lra.
  - intros tol step s val Htol Hst Ha Hd k s' Hrun. destruct (near_cg E fs g z valz rho m K 0 GS f tol step s val Pf Hb Hst Ha Hd) as (_ & H).
    destruct (H t Htol) with (k := k) (s' := s') as (val' & H1 & H2); auto; [rewrite Rplus_0_r; fold b; unfold gap in *; lra|]. exists val'. split; auto. rewrite Rplus_0_r in H2. exact H2.
Qed.

Lemma smooth_lm : forall C prog fs g z valz, let E := plain_programs C prog in
  program_problem C prog fs -> graph_make E fs = Ok g -> assigns E fs z valz -> same_layout (as_layout z) (g_layout g) ->
  exact_fit prog fs valz -> determined_at E g z ->
  exists rho, 0 < rho /\ forall lambda, 0 <= lambda -> exists q, 0 <= q < 1 /\
  forall cfg l s s' val, 0 < lm_quality_min cfg -> 1 <= lambda_factor cfg -> s_extra s = lambda -> at_values E fs g s val -> distance fs val valz <= rho ->
  accepted E g (lm_step E cfg cholmod_solve) (lm_quality_min cfg) l s s' ->
  exists val', at_values E fs g s' val' /\ distance fs val' valz <= q ^ length l * distance fs val valz.
Proof.
  intros C prog fs g z valz E PP Eg Hza Hzl Hfit Hdet. destruct (smooth_constants C prog fs g z valz PP Eg Hza Hzl Hfit Hdet) as (rho & m & K & f & Prho & GS & Pf & Hb).
  pose proof GS as (_ & _ & _ & _ & _ & _ & Pm & PK & _ & Hr). rewrite Rplus_0_l in Hr. assert (Pkm : 0 <= K * m * rho) by (repeat apply Rmult_le_pos; lra).
  exists rho. split; auto. intros lambda Pl. exists ((lambda + 1 / 100000 + 0 + K * m * rho) / (m * m + (lambda + 1 / 100000))). split.
  - assert (Pb : 0 < m * m + (lambda + 1 / 100000)) by nra. split; [apply Rmult_le_pos; [lra | apply Rlt_le, Rinv_0_lt_compat; auto]|].
    apply (Rmult_lt_reg_r (m * m + (lambda + 1 / 100000))); auto. unfold Rdiv at 1. rewrite Rmult_assoc, Rinv_l by lra. lra.
  - intros cfg l s s' val Hq Hf <- Ha Hd Hacc. exact (near_lm E fs g z valz rho m K 0 GS cfg l s s' val Hq Hf Pl Ha Hd Hacc).
Qed.

Lemma smooth_isolated : forall C prog fs g z valz, let E := plain_programs C prog in
  program_problem C prog fs -> graph_make E fs = Ok g -> assigns E fs z valz -> same_layout (as_layout z) (g_layout g) ->
  exact_fit prog fs valz -> determined_at E g z ->
  exists rho, 0 < rho /\ forall s val gr, at_values E fs g s val -> distance fs val valz <= rho -> half_gradient E g s gr -> sumsq gr = 0 -> distance fs val valz = 0.
Proof.
  intros C prog fs g z valz E PP Eg Hza Hzl Hfit Hdet. destruct (smooth_constants C prog fs g z valz PP Eg Hza Hzl Hfit Hdet) as (rho & m & K & f & Prho & GS & _).
  exists rho. split; auto. exact (near_stationary E fs g z valz rho m K 0 GS).
Qed.

(* ---- a point in the plane located by its distances to two known points ---- *)
Definition two_ranges : list (factor R) := [range_factor 0 0 5; range_factor 6 0 5].
Definition located (p : R * R) : var -> pytree R := fun _ => leaf1 [fst p; snd p].
Definition point_at (x y : R) : assign R := mkAssign [x; y] (make_layout plane [vp] false).
Definition g_ranges : graph R := match graph_make (plain_programs plane range_prog) two_ranges with Ok g => g | Err _ => mkGraph [] (mkCoords [] []) (make_layout (T := R) plane [] false) (make_layout (T := R) plane [] true) 0%nat end.
Lemma sqrt_25 a : a = 25 -> sqrt a = 5.
Proof. intros ->. replace 25 with (5 * 5) by lra. apply sqrt_square. lra. Qed.
Definition jac_ranges : coo R := mkCoo [3/5; 4/5; -3/5; 4/5] (mkCoords [0; 0; 1; 1]%nat [0; 1; 0; 1]%nat) (2, 2)%nat.
Lemma ranges_cost : exists c, compute_cost (plain_programs plane range_prog) g_ranges (point_at 3 4) = Ok (c, [0; 0]).
Proof.
  eexists. comp. rewrite !(sqrt_25 ((3 - _) * (3 - _) + _)) by (unfold Rlit; lra). do 2 f_equal. unfold Rlit. f_equal; [lra|]. f_equal. lra.
Qed.
Lemma ranges_jacobian r1 r2 : compute_whitened_residual_jacobian (plain_programs plane range_prog) g_ranges (point_at 3 4) [r1; r2] = Ok jac_ranges.
Proof. comp. rewrite !(sqrt_25 ((3 - _) * (3 - _) + _)) by (unfold Rlit; lra). unfold jac_ranges. do 2 f_equal. unfold Rlit. repeat (f_equal; try field). Qed.
Lemma ranges_example : exists g z valz, let E := plain_programs plane range_prog in program_problem plane range_prog two_ranges /\ graph_make E two_ranges = Ok g /\
  assigns E two_ranges z valz /\ same_layout (as_layout z) (g_layout g) /\ exact_fit range_prog two_ranges valz /\ determined_at E g z.
Proof.
  exists g_ranges, (point_at 3 4), (located (3, 4)). cbn zeta.
  assert (Hv : forall v, In v (mentioned two_ranges) -> v = vp) by (intros v Hv; apply mentioned_in in Hv; destruct Hv as (f & [<-|[<-|[]]] & [<-|[]]); auto).
  split; [|split; [reflexivity|split; [|split; [repeat split|split]]]].
  - constructor.
    + intros t; repeat constructor.
    + discriminate.
    + intros f Hf. assert (Hx : exists a b c, f = range_factor a b c) by (destruct Hf as [<-|[<-|[]]]; do 3 eexists; reflexivity). destruct Hx as (a & b & c & ->).
      split; [split; [split; [reflexivity | exists 1%nat; reflexivity] | repeat constructor]|]. split; [reflexivity|]. split; [cbn; lia|]. split; [discriminate | exact I].
    + intros v H. rewrite (Hv v H). split; [split; reflexivity | cbn; lia].
  - exists [vp]. split; [split; [repeat constructor; simpl; tauto | split; reflexivity]|]. split; [intros v; split; [intros [<-|[]]; left; auto | intros H; rewrite (Hv v H); left; auto]|]. intros v [<-|[]]. reflexivity.
  - intros f e Hf [<-|[]]. destruct Hf as [<-|[<-|[]]]; cbn; (split; [repeat split; auto; unfold Rlit; lra|]); rewrite sqrt_25 by (unfold Rlit; lra); unfold Rlit; lra.
  - intros c r A Ec EA x Ax Em H0. destruct ranges_cost as (c0 & E0). rewrite E0 in Ec. injection Ec as <- <-. rewrite ranges_jacobian in EA. injection EA as <-.
    destruct x as [|x1 [|x2 [|x3 x]]]; try discriminate. assert (EAx : Ax = [3/5 * x1 + 4/5 * x2; -3/5 * x1 + 4/5 * x2]).
    { revert Em. comp. intros Em. injection Em as <-. f_equal; [lra|]. f_equal. lra. }
    subst Ax. unfold sumsq, vsum in *. cbn in *. rn. nra.
Qed.

(* ---- a kink: max(x, 0) at 0 ---- *)
Definition line : cenv (T := R) := fun _ => mkVclass (leaf1 [0]) None None.
Definition kink_prog (c : nat) : list expr := [Max (Inp 0) (Lit 0 1)].
Definition kink_fs : list (factor R) := [mkFactor 0%nat [vp] dg1 []].
Definition on_line (x : R) : assign R := mkAssign [x] (make_layout line [vp] false).
Definition value_of (x : R) : var -> pytree R := fun _ => leaf1 [x].
Definition g_kink : graph R := match graph_make (plain_programs line kink_prog) kink_fs with Ok g => g | Err _ => g_ranges end.
Lemma kink_jacobian x r : compute_whitened_residual_jacobian (plain_programs line kink_prog) g_kink (on_line x) [r] = Ok (mkCoo [balanced x (Rmax x 0) 0] (mkCoords [0%nat] [0%nat]) (1, 1)%nat).
Proof.
  unfold balanced, nsame. comp. assert (Hz : Rlit 0 1 = 0) by (unfold Rlit; lra). rewrite !Hz. do 3 f_equal. set (q := _ / _). lra.
Qed.
Lemma kink_cost x : exists c, compute_cost (plain_programs line kink_prog) g_kink (on_line x) = Ok (c, [Rmax x 0]).
Proof. eexists. comp. assert (Hz : Rlit 0 1 = 0) by (unfold Rlit; lra). rewrite !Hz. do 2 f_equal. f_equal. lra. Qed.
Lemma kink_zero : balanced 0 (Rmax 0 0) 0 = 1 / 2.
Proof.
  rewrite Rmax_left by lra. unfold balanced, nsame. cbn. assert (H : Rleb 0 0 = true) by (apply Rleb_ok; lra). rewrite !H. cbn. unfold Rlit. field.
Qed.
Lemma kink_left x : x < 0 -> balanced x (Rmax x 0) 0 = 0.
Proof.
  intros Hx. rewrite Rmax_right by lra. unfold balanced, nsame. cbn. assert (H : Rleb 0 x = false) by (destruct (Rleb 0 x) eqn:H; auto; apply Rleb_ok in H; lra). rewrite H, andb_false_r. unfold Rdiv. apply Rmult_0_l.
Qed.
Lemma kink_stays x s s' : x < 0 -> s_assign s = on_line x -> s_res s = [0] -> went (plain_programs line kink_prog) g_kink cholmod_solve s s' -> s_assign s' = on_line x.
Proof.
  intros Hx Hs Hr (b & d & Hu & _). unfold gn_update in Hu. rewrite Hs, Hr, kink_jacobian, (kink_left x Hx) in Hu. destruct s as [it a c r dn ex]. cbn [s_assign s_res] in *. subst a r. revert Hu. comp.
  intros Hu. injection Hu as _ _ Hu. rewrite <- Hu. unfold on_line. comp. do 2 f_equal. match goal with |- x + ?q = x => assert (Hq : q = 0); [|rewrite Hq; lra] end. unfold Rlit. field.
Qed.
Lemma kink : exists C prog fs g z valz, let E := plain_programs C prog in program_problem C prog fs /\ graph_make E fs = Ok g /\ assigns E fs z valz /\ same_layout (as_layout z) (g_layout g) /\
  (forall f e, In f fs -> In e (prog (f_cls f)) -> denote (inputs valz f) (fields f) e = 0) /\ determined_at E g z /\
  forall rho, 0 < rho -> exists init val, assigns E fs init val /\ same_layout (as_layout init) (g_layout g) /\ 0 < distance fs val valz <= rho /\
  forall step s s', gauss_newton_iteration E g cholmod_solve step -> s_assign s = init -> at_values E fs g s val -> step s = Ok s' -> s_assign s' = init.
Proof.
  exists line, kink_prog, kink_fs, g_kink, (on_line 0), (value_of 0). cbn zeta.
  assert (Hv : forall v, In v (mentioned kink_fs) -> v = vp) by (intros v Hv; apply mentioned_in in Hv; destruct Hv as (f & [<-|[]] & [<-|[]]); auto).
  assert (Ha : forall x, assigns (plain_programs line kink_prog) kink_fs (on_line x) (value_of x)).
  { intros x. exists [vp]. split; [split; [repeat constructor; simpl; tauto | split; reflexivity]|]. split; [intros v; split; [intros [<-|[]]; left; auto | intros H; rewrite (Hv v H); left; auto]|]. intros v [<-|[]]. reflexivity. }
  split; [|split; [reflexivity|split; [apply Ha|split; [repeat split|split; [|split]]]]].
  - constructor.
    + intros t; repeat constructor.
    + discriminate.
    + intros f [<-|[]]. split; [split; [split; [reflexivity | exists 1%nat; reflexivity] | repeat constructor]|]. split; [reflexivity|]. split; [cbn; lia|]. split; [discriminate | exact I].
    + intros v H. rewrite (Hv v H). split; [split; reflexivity | cbn; lia].
  - intros f e [<-|[]] [<-|[]]. cbn. unfold Rlit. rewrite Rmax_left; lra.
  - intros c r A Ec EA x Ax Em H0. destruct (kink_cost 0) as (c0 & E0). rewrite E0 in Ec. injection Ec as <- <-. rewrite kink_jacobian, kink_zero in EA. injection EA as <-.
    destruct x as [|x1 [|x2 x]]; try discriminate. assert (EAx : Ax = [1/2 * x1]) by (revert Em; comp; intros Em; injection Em as <-; f_equal; lra). subst Ax. rewrite sq_norm1 in *. nra.
  - intros rho Hr. exists (on_line (- rho)), (value_of (- rho)). split; [apply Ha|]. split; [repeat split|]. split.
    + assert (D : distance kink_fs (value_of (- rho)) (value_of 0) = rho).
      { unfold distance, distance2. change (sqrt (vsum [sumsq [0 - - rho]]) = rho). rewrite vsum_cons, vsum_nil, sq_norm1. replace ((0 - - rho) * (0 - - rho) + 0) with (rho * rho) by ring. apply sqrt_square; lra. }
      rewrite D. lra.
    + intros step s s' Hst Hs (_ & _ & Hc) H. apply (kink_stays (- rho) s s'); auto; [lra | |destruct Hst as [(cfg & ->)|(it & ->)]; [eapply gn_went | eapply fixed_went]; eauto].
      rewrite Hs in Hc. destruct (kink_cost (- rho)) as (c0 & E0). rewrite E0 in Hc. injection Hc as _ <-. rewrite Rmax_right by lra. auto.
Qed.
