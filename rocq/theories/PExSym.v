(* Bundled statements and concrete instances for symmetries. *)
From Coq Require Import List Arith Bool ZArith Lia Permutation Reals Lra.
From Verif Require Import Num NumR Py Arr MLayout MAssign MNoise MSparse MFactor MGraph MLinear MSolver MLie MPose SpecLayout SpecTree SpecAssign SpecGraph SpecSparse SpecSolver SpecOrder SpecLie SpecInv SpecPose SpecSym SpecFrame.
From Verif Require Import PBase PLayout PTree PVec PAssign PAssign2 PGraph PGraph2 PGraph4 PHold PExAssign PExGraph PSolver PSolver2 PSolverR PInv PTotal PPose PSym PFrame Ex ExG ExS PExSolver PExOrder PExInv.
Import ListNotations.

Section Any.
Context {T : Type} {N : Num T}.
Variable E : env T.

Lemma moved_graph (fs : list (factor T)) mv S : symmetry E fs mv S -> well_posed E fs -> exists g g', graph_make E fs = Ok g /\ graph_make E (map mv fs) = Ok g'.
Proof.
  intros HS Hp. destruct (posed_graph E fs Hp) as (Hne & (g & Eg) & Hrd & Hpd). destruct Hp as [CO Hok Hws _ (v & Hv & _)].
  exists g. destruct (graph_make_ok E (map mv fs) (mv_ok E fs mv S HS Hok)) as (H1 & _). destruct H1 as (g' & Eg' & _); [|eauto].
  unfold mentioned in Hv. apply (firsts_in (flat_map f_vars fs)) in Hv. apply in_flat_map in Hv. destruct Hv as (h & Hh & Hv).
  exists (mv h). split; [apply in_map; auto|]. rewrite (sy_vars _ _ _ _ HS) by auto. intros Hn. rewrite Hn in Hv. destruct Hv.
Qed.

Lemma symmetric_solve (fs : list (factor T)) mv S lin g g' : symmetry E fs mv S -> well_posed E fs -> total_solver lin ->
  graph_make E fs = Ok g -> graph_make E (map mv fs) = Ok g' ->
  forall solve fuel init init' val val', value_free_solver E lin solve ->
  assigns E fs init val -> assigns E fs init' val' -> related_values E fs S val val' ->
  related_outcome E fs S (solve fuel g init) (solve fuel g' init').
Proof.
  intros HS Hp Hlin Eg Eg' solve fuel init init' val val' Hv Hi Hi' Hr. destruct (posed_graph E fs Hp) as (Hne & _ & Hrd & Hpd). destruct Hp as [CO Hok Hws _ _].
  destruct (made E fs g Hok Eg) as (Hg & _). destruct (made E _ g' (mv_ok E fs mv S HS Hok) Eg') as (Hg' & _).
  apply (solver_sym E fs mv S HS CO Hok Hne Hrd Hws g g' Hg Hg' lin Hlin Hpd solve solve init init' val val' fuel); auto.
  destruct Hv as [cfg H|cfg H|cfg H]; [left | right; left | right; right]; exists cfg; auto.
Qed.
Lemma symmetric_fixed (fs : list (factor T)) mv S lin g g' : symmetry E fs mv S -> well_posed E fs -> total_solver lin ->
  graph_make E fs = Ok g -> graph_make E (map mv fs) = Ok g' ->
  forall fuel unroll it init init' val val',
  assigns E fs init val -> assigns E fs init' val' -> related_values E fs S val val' ->
  same_layout (as_layout init) (g_layout g) -> same_layout (as_layout init') (g_layout g) ->
  related_outcome E fs S (fixed_solve E fuel unroll it lin g init) (fixed_solve E fuel unroll it lin g' init').
Proof.
  intros HS Hp Hlin Eg Eg' fuel unroll it init init' val val' Hi Hi' Hr Hs Hs'. destruct (posed_graph E fs Hp) as (Hne & _ & Hrd & Hpd). destruct Hp as [CO Hok Hws _ _].
  destruct (made E fs g Hok Eg) as (Hg & _). destruct (made E _ g' (mv_ok E fs mv S HS Hok) Eg') as (Hg' & _). rewrite (ig_layout _ _ _ Hg) in Hs, Hs'.
  assert (Hh : forall a w, assigns E fs a w -> same_layout (as_layout a) (graph_layout E fs false) -> holds E fs a w).
  { intros a w (vs & H1 & H2 & H3) Hl. exists vs. split; auto. split; auto. intros v Hin. apply H3, H2; auto. }
  apply (fixed_solve_sym E fs mv S HS CO Hok Hne Hrd Hws g g' Hg Hg' lin Hlin init init' val val' fuel unroll it); auto.
Qed.
End Any.

Local Open Scope R_scope.
Lemma zero_tolerance (cfg : term_cfg R) : (max_iterations cfg - 1 <= gradient_start cfg)%Z -> parameter_tolerance cfg = 0 -> value_free cfg.
Proof. intros H1 H2. split; auto. intros d x. rewrite H2. rn. apply Rltb_no. rewrite Rmult_0_r. apply sqrt_pos. Qed.

Lemma frame_invariance groups frame fs lin : unit_frame groups frame -> (forall f, In f fs -> pose_factor groups f) ->
  (forall v, In v (mentioned fs) -> planar (groups (v_ty v)) \/ spatial (groups (v_ty v))) -> fs <> [] -> total_solver lin ->
  exists g g', graph_make (pose_env groups) fs = Ok g /\ graph_make (pose_env groups) (map (move_factor groups frame) fs) = Ok g' /\
  forall init init' val, assigns (pose_env groups) fs init val -> assigns (pose_env groups) fs init' (fun v => move groups frame (v_ty v) (val v)) ->
  (forall solve fuel, value_free_solver (pose_env groups) lin solve ->
     related_outcome (pose_env groups) fs (moved groups frame) (solve fuel g init) (solve fuel g' init')) /\
  (forall fuel unroll it, same_layout (as_layout init) (g_layout g) -> same_layout (as_layout init') (g_layout g) ->
     related_outcome (pose_env groups) fs (moved groups frame) (fixed_solve (pose_env groups) fuel unroll it lin g init) (fixed_solve (pose_env groups) fuel unroll it lin g' init')).
Proof.
  intros Hu Hfs Hk Hne Hlin. pose proof (frame_symmetry groups frame Hu fs Hfs Hk) as HS. pose proof (pose_graphs groups fs Hfs Hk Hne) as Hp.
  destruct (moved_graph _ fs _ _ HS Hp) as (g & g' & Eg & Eg'). exists g, g'. split; auto. split; auto. intros init init' val Hi Hi'.
  assert (Hl : forall a w, assigns (pose_env groups) fs a w -> forall v, In v (mentioned fs) -> value_ok (lie_class groups (v_ty v)) (w v)).
  { intros a w (vs & Hwf & Hvs & Hval) v Hin. destruct (get_value_ok _ (pose_classes groups) vs a v Hwf) as (x & Ex & Hx & _); [apply Hvs; auto|].
    cbn in Hval. rewrite Hval in Ex by (apply Hvs; auto). injection Ex as ->. auto. }
  assert (Hr : related_values (pose_env groups) fs (moved groups frame) val (fun v => move groups frame (v_ty v) (val v))).
  { intros v Hin. split; [apply (Hl init val Hi); auto|]. split; [apply (Hl init' _ Hi' v Hin)|]. reflexivity. }
  split.
  - intros solve fuel Hs. eapply (symmetric_solve _ fs _ _ lin g g' HS Hp Hlin Eg Eg'); eauto.
  - intros fuel unroll it H1 H2. eapply (symmetric_fixed _ fs _ _ lin g g' HS Hp Hlin Eg Eg'); eauto.
Qed.

Lemma relative_unmoved groups frame (fs : list (factor R)) : (forall f, In f fs -> f_cls f = 1%nat) -> map (move_factor groups frame) fs = fs.
Proof. intros H. rewrite <- (map_id fs) at 2. apply map_ext_in. intros f Hf. unfold move_factor. rewrite (H f Hf). auto. Qed.
Lemma gauge_freedom groups frame fs lin g : unit_frame groups frame -> (forall f, In f fs -> pose_factor groups f /\ f_cls f = 1%nat) ->
  (forall v, In v (mentioned fs) -> planar (groups (v_ty v)) \/ spatial (groups (v_ty v))) -> fs <> [] -> total_solver lin ->
  graph_make (pose_env groups) fs = Ok g ->
  forall init init' val, assigns (pose_env groups) fs init val -> assigns (pose_env groups) fs init' (fun v => move groups frame (v_ty v) (val v)) ->
  forall solve fuel, value_free_solver (pose_env groups) lin solve ->
     related_outcome (pose_env groups) fs (moved groups frame) (solve fuel g init) (solve fuel g init').
Proof.
  intros Hu Hfs Hk Hne Hlin Eg init init' val Hi Hi' solve fuel Hs.
  destruct (frame_invariance groups frame fs lin Hu (fun f Hf => proj1 (Hfs f Hf)) Hk Hne Hlin) as (h & h' & Eh & Eh' & H).
  rewrite relative_unmoved in Eh' by (intros; apply Hfs; auto). rewrite Eg in Eh, Eh'. injection Eh as <-. injection Eh' as <-.
  apply (proj1 (H init init' val Hi Hi')); auto.
Qed.

(* ---- the default termination tests depend on the frame ---- *)
Ltac comp := lazy -[Rlit Rplus Rmult Ropp IZR Rdiv Rminus Rmax Rmin sqrt Rabs Rleb Rltb Rinv].
Lemma scal_sqrt x : sqrt (Rabs x * Rabs x + 0) = Rabs x.
Proof. rewrite Rplus_0_r. apply sqrt_square. apply Rabs_pos. Qed.
Lemma far_stop : gn_solve exSE 2 (term_default 2) cholmod_solve (graph_of [anchor (N:=NumR) vx 1000000001]) (scalars [vx] [1000000000]) =
   Some (Ok (scalars [vx] [1000000000 + 100000/100001])).
Proof.
  comp.
  match goal with |- context [if (if Rltb ?a ?b then true else false) then true else Rltb ?c ?d] => 
    assert (H : (if (if Rltb a b then true else false) then true else Rltb c d) = true); [|rewrite H; clear H] end.
  { destruct (Rltb _ _); auto. apply Rltb_ok. rewrite scal_sqrt. rewrite (Rplus_0_r (1000000000 * 1000000000)), sqrt_square by lra. rewrite Rabs_right; unfold Rlit; lra. }
  do 2 f_equal. unfold Rlit. f_equal. f_equal. field.
Qed.
Lemma near_stop : gn_solve exSE 2 (term_default 2) cholmod_solve (graph_of [anchor (N:=NumR) vx 1]) (scalars [vx] [0]) =
   Some (Ok (scalars [vx] [100000/100001 + 100000/100001 * (1/100001)])).
Proof.
  comp.
  match goal with |- context [if (if Rltb ?a ?b then true else false) then true else Rltb ?c ?d] => 
    assert (H1 : Rltb a b = false); [|rewrite H1; clear H1; assert (H2 : Rltb c d = false); [|rewrite H2; clear H2]] end.
  { apply Rltb_no. unfold Rlit. match goal with |- _ <= Rabs ?e / _ => replace e with (1/100001 * (1/100001) - 1) by field end.
    rewrite Rabs_left by lra. lra. }
  { apply Rltb_no. rewrite scal_sqrt. rewrite (Rplus_0_r (0 * 0)), sqrt_square by lra. rewrite Rabs_right; unfold Rlit; lra. }
  do 2 f_equal. unfold Rlit. f_equal. f_equal. field.
Qed.

Definition one_anchor : list (factor R) := [anchor vx 1].
Definition shift_factor (f : factor R) : factor R := anchor vx 1000000001.
Definition shifted (v : var) (x x' : pytree R) : Prop := exists r, x = leaf1 [r] /\ x' = leaf1 [1000000000 + r].
Lemma anchor_ok : forall f, In f one_anchor -> factor_ok f.
Proof. intros f [<-|[]]. split; [split; [reflexivity | exists 1%nat; reflexivity] | repeat constructor]. Qed.
Lemma shift_symmetry : symmetry exSE one_anchor shift_factor shifted.
Proof.
  split; try (intros f [<-|[]]; reflexivity).
  - intros f [<-|[]]. split; auto. split; repeat constructor.
  - intros f val val' [<-|[]] Hr. destruct (Hr vx (or_introl eq_refl)) as (_ & _ & r & H1 & H2). unfold residual_at. simpl map. rewrite H1, H2.
    cbn. unfold Rlit. f_equal. lra.
  - intros f val val' [<-|[]] Hr. destruct (Hr vx (or_introl eq_refl)) as (_ & _ & r & H1 & H2). unfold jacobians_at. simpl map. rewrite H1, H2. reflexivity.
  - intros v x x' d y y' [<-|[]] Hx Hx' (r & -> & ->) Hd H1 H2. destruct d as [|e [|? ?]]; try discriminate Hd.
    cbn in H1, H2. injection H1 as <-. injection H2 as <-. exists (r + e). split; auto. rewrite <- Rplus_assoc. reflexivity.
Qed.
Lemma anchor_posed : well_posed exSE one_anchor.
Proof.
  split.
  - intros [|[|t]]; repeat constructor.
  - exact anchor_ok.
  - split.
    + intros val f Hv [<-|[]]. destruct (scalar_shape _ (Hv vx (or_introl eq_refl))) as (x & Ex). unfold residual_shape_ok, residual_at. simpl map. rewrite Ex. reflexivity.
    + intros val f Hv [<-|[]]. destruct (scalar_shape _ (Hv vx (or_introl eq_refl))) as (x & Ex). unfold jacobian_shape_ok, jacobians_at. simpl map. rewrite Ex. repeat constructor.
    + intros v x d [<-|[]] Hx' Hd. destruct (scalar_shape x Hx') as (r & ->).
      destruct d as [|e [|? ?]]; try discriminate Hd; eexists; (split; [reflexivity | split; repeat constructor]).
  - exists (anchor vx 1). split; [left; auto | discriminate].
  - exists vx. split; [left; auto | discriminate].
Qed.
Lemma scalar_assigns x : assigns exSE one_anchor (scalars [vx] [x]) (fun _ => leaf1 [x]).
Proof.
  exists [vx]. split; [split; [repeat constructor; simpl; tauto | split; reflexivity]|]. split; [intros v; reflexivity|]. intros v [<-|[]]. reflexivity.
Qed.
Lemma default_tests_see_frame : exists (E : env R) fs mv S g g' init init' val val',
  symmetry E fs mv S /\ well_posed E fs /\ graph_make E fs = Ok g /\ graph_make E (map mv fs) = Ok g' /\
  assigns E fs init val /\ assigns E fs init' val' /\ related_values E fs S val val' /\
  ~ related_outcome E fs S (gn_solve E 2 (term_default 2) cholmod_solve g init) (gn_solve E 2 (term_default 2) cholmod_solve g' init').
Proof.
  exists exSE, one_anchor, shift_factor, shifted, (graph_of one_anchor), (graph_of [anchor vx 1000000001]), (scalars [vx] [0]), (scalars [vx] [1000000000]),
    (fun _ => leaf1 [0]), (fun _ => leaf1 [1000000000]).
  split; [exact shift_symmetry|]. split; [exact anchor_posed|]. split; [reflexivity|]. split; [reflexivity|].
  split; [apply scalar_assigns|]. split; [apply scalar_assigns|]. split.
  { intros v Hv. destruct Hv as [<-|[]]. split; [split; repeat constructor|]. split; [split; repeat constructor|].
    exists 0. split; auto. rewrite Rplus_0_r. reflexivity. }
  unfold one_anchor. rewrite far_stop, near_stop. intros (w & w' & (vs & Hwf & Hvs & Hw) & (vs' & Hwf' & Hvs' & Hw') & Hr).
  destruct (Hr vx (or_introl eq_refl)) as (_ & _ & r & H1 & H2). assert (Hin : In vx vs) by (apply Hvs; left; auto). assert (Hin' : In vx vs') by (apply Hvs'; left; auto).
  specialize (Hw vx Hin). specialize (Hw' vx Hin'). rewrite H1 in Hw. rewrite H2 in Hw'. cbn in Hw, Hw'. injection Hw as Hw. injection Hw' as Hw'. lra.
Qed.

(* ---- a pose graph seen from a rotated and translated frame ---- *)
Definition ex_frame (t : vty) : list R := match t with 0%nat => [3/5; 4/5; 10; -7] | 1%nat => [0; 1] | 2%nat => [0; 1; 0; 0; 5; 6; 7] | _ => [1/2; 1/2; 1/2; 1/2] end.
Definition ex_start' : assign R := mkAssign [3/5 * (3/5) - 4/5 * (4/5); 4/5 * (3/5) + 3/5 * (4/5); 3/5 * 1 - 4/5 * 2 + 10; 4/5 * 1 + 3/5 * 2 + -7;
  3/5 * 2 - 4/5 * 0; 4/5 * 2 + 3/5 * 0; 3/5 * 0 - 4/5 * 0 + 10; 4/5 * 0 + 3/5 * 0 + -7] (make_layout (lie_class ex_groups) [pa; pb] false).
Definition ex_val (v : var) : pytree R := if eqb v pa then group_value 0%nat [3/5; 4/5; 1; 2] else group_value 0%nat [2; 0; 0; 0].
Definition free_cfg : term_cfg R := mkTerm 10 (Rlit 1 100000) (Rlit 1 1000000000) 10 0.

Lemma planar_not_spatial raw : planar raw -> spatial raw -> False.
Proof.
  intros Hp Hs. set (e := [0; 0; 1; 0; 0; 0; 0]).
  assert (H1 : nth 0 (lg_mul raw e e) 0 = 0) by (destruct Hp; unfold e; cbn [lg_mul raw_so2 raw_se2]; unfold so2_mul, se2_mul; cbn [nth]; lra).
  assert (H2 : nth 0 (lg_mul raw e e) 0 = -1) by (destruct Hs; unfold e; cbn [lg_mul raw_so3 raw_se3]; unfold se3_mul, rot_part, quat_mul; cbn [nth app]; lra).
  lra.
Qed.
Lemma ex_frame_ok : unit_frame ex_groups ex_frame /\ (forall f, In f ex_poses -> pose_factor ex_groups f) /\
  (forall v, In v (mentioned ex_poses) -> planar (ex_groups (v_ty v)) \/ spatial (ex_groups (v_ty v))) /\
  assigns (pose_env ex_groups) ex_poses ex_start ex_val /\
  assigns (pose_env ex_groups) ex_poses ex_start' (fun v => move ex_groups ex_frame (v_ty v) (ex_val v)) /\
  map (move_factor ex_groups ex_frame) ex_poses <> ex_poses /\ value_free free_cfg /\
  exists g a, graph_make (pose_env ex_groups) ex_poses = Ok g /\ gn_solve (pose_env ex_groups) 10 free_cfg cholmod_solve g ex_start = Some (Ok a).
Proof.
  destruct ex_pose_ok as (H1 & H2 & H3 & H4). split; [|split; [|split; [|split; [|split; [|split; [|split]]]]]]; auto.
  - intros [|[|[|t]]]; split; intros H; try (exfalso; apply (planar_not_spatial _ (planar_so2) H) || apply (planar_not_spatial _ planar_se2 H) ||
      apply (planar_not_spatial _ H spatial_so3) || apply (planar_not_spatial _ H spatial_se3)); unfold norm2, norm4; cbn; lra.
  - exists [pa; pb]. split; [split; [repeat constructor; simpl; intuition discriminate | split; reflexivity]|]. split; [intros v; reflexivity|].
    intros v [<-|[<-|[]]]; reflexivity.
  - intros H. unfold ex_poses in H. cbn in H. injection H. intros. lra.
  - apply zero_tolerance; auto. cbn. lia.
  - destruct (never_raises (pose_env ex_groups) ex_poses) as (g & Eg & Hr). { apply pose_graphs; auto. discriminate. }
    destruct (Hr cholmod_solve _ _ _ cholmod_total (solver_gn _ _ free_cfg) ex_start _ H4) as (Hne & k & Hk).
    destruct (solvers_terminate (pose_env ex_groups) g ex_start cholmod_solve 10%nat) as (Ht & _).
    destruct (Ht free_cfg) as ([a'|e] & Ea & _); [cbv; lia| |exfalso; eapply Hne; eauto]. eauto.
Qed.
