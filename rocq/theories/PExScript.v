(* Bundled statements and concrete instances for the g2o script. *)
From Coq Require Import String List Arith Bool ZArith Lia Reals Lra.
From Verif Require Import Num NumR Py Arr MLayout MAssign MNoise MSparse MFactor MGraph MLinear MSolver MLie MPose SpecLayout SpecTree SpecAssign SpecGraph SpecSparse SpecSolver SpecOrder SpecInv SpecPose SpecNoise MScript SpecScript.
From Verif Require Import PBase PLayout PTree PAssign PAssign2 PExAssign PGraph PGraph2 PExGraph PSolver PSolver2 PInv PExInv PPose PNoise PScript PExG2o.
From Verif Require MG2o SpecG2o PG2o.
Import ListNotations.

Section Script.
Variable parse_int : string -> result Z.
Variable parse_float : string -> result R.
Variable cholesky : list (list R) -> result (list (list R)).
Variable limit : Z.
Variable text : string.
Variable delta : option R.
Variable fs : list gfac.
Variable ps : list (MG2o.pvar * list R).
Hypothesis Hparse : MG2o.parse_text parse_int parse_float se2_of se3_of se3_of_parts cholesky limit text = Ok (fs, ps).
Notation fs' := (script_factors delta fs).
Notation vs' := (map pose_var (map fst ps)).

Let SD : script_data delta fs ps := parsed_data _ _ _ _ _ _ _ _ Hparse.

Lemma script_builds :
  exists g init, graph_make GE fs' = Ok g /\ make_from_dict GC (script_poses ps) = Ok init /\ wf_assign GC vs' false init /\
    forall v p, In (v, p) ps -> get_value GC init (pose_var v) = Ok (group_value (kind_ty (MG2o.pv_kind v)) p).
Proof.
  destruct (posed_graph GE fs' (script_posed delta fs ps SD)) as (_ & (g & Eg) & _).
  destruct (script_init delta fs ps SD) as (init & Ei & H). exists g, init. auto.
Qed.

Lemma script_ok g init : graph_make GE fs' = Ok g -> make_from_dict GC (script_poses ps) = Ok init ->
  forall once full, script GE once full delta fs ps =
  then_ (match once with Some s => then_ (s g init) (fun _ => then_ (s g init) (fun _ => Some (Ok tt))) | None => Some (Ok tt) end) (fun _ => full g init).
Proof. intros Hg Hi once full. unfold script. rewrite Hg. cbn [then_]. cbn [e_cls pose_env]. rewrite Hi. reflexivity. Qed.

Notation kept := (solved_poses ps).

Lemma group_value_inj t (p q : list R) : group_value t p = group_value t q -> p = q.
Proof. unfold group_value. congruence. Qed.

Lemma solved_kept (a' init : assign R) : wf_assign GC vs' false init -> 
  (forall v p, In (v, p) ps -> get_value GC init (pose_var v) = Ok (group_value (kind_ty (MG2o.pv_kind v)) p)) ->
  (forall v, In v vs' -> exists x x', get_value GC init v = Ok x /\ get_value GC a' v = Ok x' /\ value_ok (GC (v_ty v)) x' /\
    (planar (script_groups (v_ty v)) -> norm2 (params x') = norm2 (params x)) /\
    (spatial (script_groups (v_ty v)) -> norm4 (params x') = norm4 (params x))) -> kept a'.
Proof.
  intros Hwf Hi H v p Hin. destruct (H (pose_var v)) as (x & x' & Ex & Ex' & Hok & H2 & H4); [apply in_map, (in_map fst _ _ Hin)|].
  rewrite (Hi _ _ Hin) in Ex. injection Ex as <-. apply pose_value_ok in Hok. destruct Hok as (q & -> & Hl). cbn [pose_var v_ty] in *.
  destruct (sd_values _ _ _ SD _ _ Hin) as (Hp & Hn). cbn [fst snd] in *. rewrite !params_value in *.
  exists q. split; auto. split; [rewrite Hl, kind_len, Hp; auto|]. split; intros Ek; rewrite Ek in *.
  - rewrite H2 by constructor. auto.
  - apply H4. constructor.
Qed.

Lemma script_succeeds : all_touched fs ps ->
  forall lin step1 extra1 once step extra full, total_solver lin -> sized lin ->
  nonlinear_solver GE lin step1 extra1 once -> nonlinear_solver GE lin step extra full ->
  (forall fuel e, script GE (Some (once fuel)) (full fuel) delta fs ps <> Some (Err e)) /\
  exists k, forall fuel, k <= fuel -> exists a', script GE (Some (once fuel)) (full fuel) delta fs ps = Some (Ok a') /\ kept a'.
Proof.
  intros Ht lin step1 extra1 once step extra full Hlin Hsz H1 H2. destruct script_builds as (g & init & Eg & Ei & Hwf & Hi).
  pose proof (script_posed delta fs ps SD) as Hp. destruct (never_raises GE fs' Hp) as (g' & Eg' & Hnr).
  rewrite Eg in Eg'. injection Eg' as <-.
  pose proof (proj1 (touched_iff delta fs ps SD) Ht) as Hvs.
  set (val := fun v => match get_value GC init v with Ok x => x | Err _ => Node 0 [] end).
  assert (Has : assigns GE fs' init val).
  { exists vs'. split; auto. split; auto. intros v Hv. destruct (get_value_ok _ (pose_classes script_groups) vs' init v Hwf Hv) as (x & Ex & _).
    unfold val. cbn [e_cls pose_env]. rewrite Ex. auto. }
  destruct (Hnr lin step1 extra1 once Hlin H1 init val Has) as (N1 & k1 & K1).
  destruct (Hnr lin step extra full Hlin H2 init val Has) as (N2 & k2 & K2).
  split.
  - intros fuel e He. rewrite (script_ok g init Eg Ei) in He. destruct (once fuel g init) as [[a1|e1]|] eqn:E1; cbn [then_] in He.
    + eapply N2; eauto.
    + eapply N1; eauto.
    + discriminate.
  - exists (max k1 k2). intros fuel Hf. destruct (K1 fuel) as (a1 & v1 & E1 & _); [lia|]. destruct (K2 fuel) as (a2 & v2 & E2 & (ws & Hws & Hwv & _)); [lia|].
    exists a2. rewrite (script_ok g init Eg Ei), E1. cbn [then_]. rewrite E2. split; auto.
    apply (solved_kept a2 init Hwf Hi). intros v Hv.
    assert (Hfin : forall v, In v (mentioned fs') -> known script_groups (v_ty v)).
    { intros u Hu. apply mentioned_script in Hu. destruct Hu as (f & w & _ & _ & ->). apply kind_known. }
    destruct (norms_frozen script_groups fs' g lin step extra full Hfin (wp_factors _ _ Hp) Eg Hsz H2 init vs' fuel a2 Hwf E2 v Hv) as (x & x' & Ex & Ex' & Hn).
    exists x, x'. split; auto. split; auto. split; auto.
    destruct (get_value_ok _ (pose_classes script_groups) ws a2 v Hws) as (y & Ey & Hy & _); [apply Hwv, Hvs; auto|].
    assert (y = x') by congruence. subst. auto.
Qed.

Lemma script_isolated : ~ all_touched fs ps ->
  forall lin step1 extra1 once step extra full, nonlinear_solver GE lin step1 extra1 once -> nonlinear_solver GE lin step extra full ->
  forall fuel, script GE (Some (once fuel)) (full fuel) delta fs ps = Some (Err AssertionError).
Proof.
  intros Ht lin step1 extra1 once step extra full H1 _ fuel. destruct script_builds as (g & init & Eg & Ei & Hwf & Hi).
  rewrite (script_ok g init Eg Ei).
  destruct (solvers_layout GE fs' g init vs' false lin step1 extra1 once fuel (pose_classes script_groups) (wp_factors _ _ (script_posed delta fs ps SD)) Eg Hwf H1) as (_ & H).
  rewrite H; auto. intros Hvs. apply Ht. apply (touched_iff delta fs ps SD). auto.
Qed.

(* the fixed-iteration solver, when the factors first name the poses in file order *)
Lemma script_fixed : mentioned fs' = vs' ->
  forall lin fuel unroll it, total_solver lin -> sized lin ->
  (forall e, script GE None (fixed_solve GE fuel unroll it lin) delta fs ps <> Some (Err e)) /\
  ((1 <= it)%Z -> Z.to_nat it <= fuel -> exists a', script GE None (fixed_solve GE fuel unroll it lin) delta fs ps = Some (Ok a') /\ kept a').
Proof.
  intros Hm lin fuel unroll it Hlin Hsz. destruct script_builds as (g & init & Eg & Ei & Hwf & Hi).
  pose proof (script_posed delta fs ps SD) as Hp.
  set (val := fun v => match get_value GC init v with Ok x => x | Err _ => Node 0 [] end).
  assert (Hx : forall v, In v vs' -> get_value GC init v = Ok (val v)).
  { intros v Hv. destruct (get_value_ok _ (pose_classes script_groups) vs' init v Hwf Hv) as (x & Ex & _). unfold val. rewrite Ex. auto. }
  assert (Has : assigns GE fs' init val) by (exists vs'; split; auto; split; [intros v; rewrite Hm; tauto|auto]).
  assert (Hsl : same_layout (as_layout init) (g_layout g)).
  { destruct (made GE fs' g (wp_factors _ _ Hp) Eg) as (Hg & _). rewrite (ig_layout _ _ _ Hg). unfold graph_layout. rewrite Hm.
    destruct Hwf as (_ & -> & _). repeat split. }
  destruct (fixed_never_raises GE fs' g lin init val Hp Eg Hlin Has Hsl) as (N1 & K1). split.
  - intros e He. rewrite (script_ok g init Eg Ei) in He. eapply N1; eauto.
  - intros Hit Hf. destruct (K1 fuel unroll it Hit Hf) as (a' & v' & E' & (ws & Hws & Hwv & _)). exists a'. rewrite (script_ok g init Eg Ei). cbn [then_]. split; auto.
    assert (Hfin : forall v, In v (mentioned fs') -> known script_groups (v_ty v)).
    { intros u Hu. apply mentioned_script in Hu. destruct Hu as (f & w & _ & _ & ->). apply kind_known. }
    apply (solved_kept a' init Hwf Hi). intros v Hv.
    destruct (fixed_invariant GE fs' g lin _ (pose_classes script_groups) (wp_factors _ _ Hp) Eg Hsz
      (norms_preserved script_groups fs' (fun v => norm2 (params (val v))) (fun v => norm4 (params (val v))) Hfin) init vs' fuel unroll it a' Hwf Hsl) 
      with (v := v) as (x' & Ex' & H2 & H4); auto.
    { intros u Hu. exists (val u). cbn [e_cls pose_env]. split; auto. }
    exists (val v), x'. split; auto. split; auto. split; auto.
    destruct (get_value_ok _ (pose_classes script_groups) ws a' v Hws) as (y & Ey & Hy & _); [apply Hwv; rewrite Hm; auto|].
    cbn [e_cls pose_env] in Ex'. assert (y = x') by congruence. subst. auto.
Qed.

(* the objective of the graph is the one the file stands for *)
Lemma whitened_edge val f : In f fs -> residual_shape_ok GE val (wrap_huber delta (to_factor f)) ->
  (forall d, delta = Some d -> (0 < d)%R) ->
  exists w, whitened_at GE val (wrap_huber delta (to_factor f)) = Ok w /\ sumsq w = edge_cost delta (fun v => params (val (pose_var v))) f.
Proof.
  intros Hin Hsh Hd. set (pose := fun v => params (val (pose_var v))).
  assert (H0 : whiten_residual (f_noise (to_factor f)) (residual_at GE val (to_factor f)) = Ok (edge_error pose f)).
  { assert (Hsh0 : residual_shape_ok GE val (to_factor f)) by (destruct delta; exact Hsh). clear Hsh.
    destruct f as [a b t w | v mu d]; unfold residual_shape_ok, residual_dim in Hsh0; cbn [to_factor prior_make f_noise noise_dim a_shape last] in *.
    - cbn [whiten_residual a_shape a_data]. rewrite Hsh0, Nat.eqb_refl, chunks_concat by (apply (sd_square _ _ _ SD _ _ _ _ Hin)).
      unfold edge_error. do 2 f_equal. unfold residual_at, anonymize, pose_env, pose_residual, prior_make.
      cbn [e_res fd_cls fd_types fd_params f_cls f_vars f_params map pose_var v_ty]. rewrite params_value. reflexivity.
    - cbn [whiten_residual a_shape a_data]. rewrite Hsh0. unfold shape_eqb, list_eqb. cbn [forallb combine andb length Nat.eqb]. rewrite Nat.eqb_refl. cbn [andb assert_ bind].
      unfold edge_error. do 2 f_equal. unfold residual_at, anonymize, pose_env, pose_residual, prior_make.
      cbn [e_res fd_cls fd_types fd_params f_cls f_vars f_params map pose_var v_ty]. rewrite params_value. reflexivity. }
  destruct delta as [d|] eqn:Ed.
  - destruct (huber_residual (f_noise (to_factor f)) d (residual_at GE val (to_factor f)) _ (Hd d eq_refl) H0) as (_ & _ & rw & E & Hs).
    exists rw. split; [exact E|exact Hs].
  - exists (edge_error pose f). split; auto.
Qed.

Lemma script_objective g a val : (forall d, delta = Some d -> (0 < d)%R) -> graph_make GE fs' = Ok g -> assigns GE fs' a val ->
  exists r, compute_cost GE g a = Ok (vsum (map (edge_cost delta (fun v => params (val (pose_var v)))) fs), r).
Proof.
  intros Hd Eg Ha. pose proof (script_posed delta fs ps SD) as Hp. destruct (wp_shaped _ _ Hp) as [Hres _ _].
  assert (Hsh : forall f, In f fs' -> residual_shape_ok GE val f).
  { intros f Hf. apply Hres; auto. destruct Ha as (vs & Hwf & Hvs & Hget). intros v Hin. apply Hvs in Hin.
    destruct (get_value_ok _ (pose_classes script_groups) vs a v Hwf Hin) as (x & Ex & Hx & _). cbn in Hget. rewrite (Hget v Hin) in Ex. injection Ex as <-. auto. }
  destruct (cost_per_factor GE fs' g (wp_factors _ _ Hp) Eg) as (Hc & _).
  destruct (Hc a val Ha Hsh) as (r & ws & _ & Ec & Hws & Hsum). exists r. rewrite Ec, Hsum. do 3 f_equal. clear Hc Ec Hsum.
  assert (Hall : forall l, incl l fs -> forall ws, Forall2 (fun f w => whitened_at GE val f = Ok w) (script_factors delta l) ws ->
    map sumsq ws = map (edge_cost delta (fun v => params (val (pose_var v)))) l).
  { clear ws Hws. induction l as [|f l IH]; intros Hi ws H; inversion H as [|? w ? ws' Hw Hws]; subst; auto. cbn [map]. f_equal.
    - destruct (whitened_edge val f) as (w' & Ew & E); auto; [apply Hi; left; auto|apply Hsh, (in_map (fun f => wrap_huber delta (to_factor f))), Hi; left; auto|].
      rewrite Hw in Ew. injection Ew as ->. exact E.
    - apply IH; auto. intros x Hx. apply Hi. right. auto. }
  apply Hall; auto. apply incl_refl.
Qed.
End Script.

(* ---- concrete files: one-digit numbers, the Cholesky factor of the identity ---- *)
Local Open Scope string_scope.
Definition exr_float (s : string) : result R := z <- ex_int s ;; Ok (IZR z).
Definition exr_parse (limit : Z) (text : string) := MG2o.parse_text ex_int exr_float se2_of se3_of se3_of_parts (fun m => Ok m) limit text.
Definition two_vertices : string := "VERTEX_SE2 0 0 0 0" ++ nl ++ "VERTEX_SE2 1 2 0 0" ++ nl.
Definition forward_file : string := two_vertices ++ "EDGE_SE2 0 1 1 0 0 1 0 0 1 0 1" ++ nl.
Definition backward_file : string := two_vertices ++ "EDGE_SE2 1 0 1 0 0 1 0 0 1 0 1" ++ nl.
(* a chain 0 - 2 - 1 *)
Definition detour_file : string := two_vertices ++ "VERTEX_SE2 2 1 0 0" ++ nl ++
  "EDGE_SE2 0 2 1 0 0 1 0 0 1 0 1" ++ nl ++ "EDGE_SE2 2 1 1 0 0 1 0 0 1 0 1" ++ nl.
Local Close Scope string_scope.

Ltac pcomp := lazy -[IZR cos sin Rmult Rplus Rinv Ropp Rdiv].

Lemma forward_reads : exists fs ps, exr_parse 9 forward_file = Ok (fs, ps) /\ all_touched fs ps /\
  mentioned (script_factors None fs) = map pose_var (map fst ps).
Proof.
  eexists _, _. split; [pcomp; reflexivity|]. split; [|reflexivity].
  intros v p [E|[E|[]]]; injection E as <- _; eexists; (split; [left; reflexivity|]); cbn; auto.
Qed.

(* what that file costs at its own poses: the edge measures 1 where the poses are 2 apart *)
Definition file_pose (v : MG2o.pvar) : list R := match MG2o.pv_id v with 0 => se2_of 0 0 0 | _ => se2_of 2 0 0 end.
Lemma log_shift x y : se2_log [1; 0; x; y]%R = [x; y; 0]%R.
Proof.
  assert (E : atan2 0 1 = 0%R).
  { unfold atan2. replace (1 * 1 + 0 * 0)%R with 1%R by ring. rewrite sqrt_1. destruct (Req_EM_T 1 0); auto.
    destruct (Rlt_dec 0 0); [exfalso; lra|]. replace (1 / 1)%R with 1%R by field. apply acos_1. }
  unfold se2_log. cbn [nth]. rewrite E. unfold SpecLie.v_a. destruct (Req_EM_T 0 0); [|congruence]. repeat f_equal; field.
Qed.
Lemma forward_cost : exists fs ps, exr_parse 9 forward_file = Ok (fs, ps) /\
  vsum (map (edge_cost None file_pose) fs) = 1%R /\ vsum (map (edge_cost (Some (/ 2)%R) file_pose) fs) = (/ 2)%R.
Proof.
  eexists _, _. split; [pcomp; reflexivity|].
  match goal with |- context [map _ [?f; ?g]] => set (F := f); set (G := g) end.
  assert (EF : edge_error file_pose F = [-1; 0; 0]%R).
  { cbn [edge_error F MG2o.pv_kind kind_ty script_groups lg_log lg_mul lg_inv raw_se2 file_pose MG2o.pv_id]. unfold se2_of. rewrite cos_0, sin_0.
    replace (se2_mul _ _) with [1; 0; -1; 0]%R by (unfold se2_mul, se2_inv; cbn [nth]; repeat f_equal; ring).
    rewrite log_shift. cbn. unfold vdot, vmul, vsum. cbn. repeat f_equal; ring. }
  assert (EG : edge_error file_pose G = [0; 0; 0]%R).
  { cbn [edge_error G MG2o.pv_kind kind_ty script_groups lg_log lg_mul lg_inv raw_se2 file_pose MG2o.pv_id]. unfold se2_of. rewrite cos_0, sin_0.
    replace (se2_mul _ _) with [1; 0; 0; 0]%R by (unfold se2_mul, se2_inv; cbn [nth]; repeat f_equal; ring).
    rewrite log_shift. cbn. unfold vmul. cbn. repeat f_equal; ring. }
  assert (S1 : sumsq [-1; 0; 0]%R = (1 * 1)%R) by (unfold sumsq, vdot, vsum; cbn; ring).
  assert (S0 : sumsq [0; 0; 0]%R = (0 * 0)%R) by (unfold sumsq, vdot, vsum; cbn; ring).
  unfold edge_cost. cbn [map]. rewrite EF, EG. unfold vnorm. rewrite S1, S0. cbn [nsqrt NumR]. rewrite !sqrt_square by lra. split.
  - unfold vsum. cbn. ring.
  - unfold huber_weighted. destruct (Rlt_dec 1 (/ 2)); [exfalso; lra|]. destruct (Rlt_dec 0 (/ 2)); [|exfalso; lra]. unfold vsum. cbn. ring.
Qed.

Lemma backward_reads : exists fs ps g init, exr_parse 9 backward_file = Ok (fs, ps) /\ all_touched fs ps /\
  graph_make GE (script_factors None fs) = Ok g /\ make_from_dict GC (script_poses ps) = Ok init /\
  ~ same_layout (as_layout init) (g_layout g).
Proof.
  assert (H : exists fs ps, exr_parse 9 backward_file = Ok (fs, ps) /\ all_touched fs ps /\
    map pose_var (map fst ps) = [mkVar 0 0; mkVar 1 0] /\ mentioned (script_factors None fs) = [mkVar 1 0; mkVar 0 0]).
  { eexists _, _. split; [pcomp; reflexivity|]. split; [|split; reflexivity].
    intros v p [E|[E|[]]]; injection E as <- _; eexists; (split; [left; reflexivity|]); cbn; auto. }
  destruct H as (fs & ps & E & Ht & Hv & Hm). destruct (script_builds _ _ _ _ _ None fs ps E) as (g & init & Eg & Ei & Hwf & _).
  exists fs, ps, g, init. do 4 (split; auto). intros Hs. destruct Hwf as (_ & HL & _).
  pose proof (wp_factors _ _ (script_posed None fs ps (parsed_data _ _ _ _ _ _ _ _ E))) as Hok.
  destruct (made GE _ g Hok Eg) as (Hg & _). rewrite HL, (ig_layout _ _ _ Hg) in Hs. unfold graph_layout in Hs. rewrite Hv, Hm in Hs.
  destruct Hs as (_ & _ & Hs & _). specialize (Hs (mkVar 0 0)). vm_compute in Hs. discriminate.
Qed.

Lemma detour_reads : (exists fs ps, exr_parse 9 detour_file = Ok (fs, ps) /\ all_touched fs ps) /\
  exists fs ps, exr_parse 1 detour_file = Ok (fs, ps) /\
  forall delta lin step1 extra1 once step extra full, nonlinear_solver GE lin step1 extra1 once -> nonlinear_solver GE lin step extra full ->
  forall fuel, script GE (Some (once fuel)) (full fuel) delta fs ps = Some (Err AssertionError).
Proof.
  split.
  - eexists _, _. split; [pcomp; reflexivity|]. intros v p [E|[E|[E|[]]]]; injection E as <- _.
    + eexists; (split; [left; reflexivity|]); cbn; auto.
    + eexists; (split; [right; left; reflexivity|]); cbn; auto.
    + eexists; (split; [left; reflexivity|]); cbn; auto.
  - assert (H : exists fs ps, exr_parse 1 detour_file = Ok (fs, ps) /\ ~ all_touched fs ps).
    { eexists _, _. split; [pcomp; reflexivity|]. intros Ht. destruct (Ht (MG2o.mkPvar 1 MG2o.SE2) _ (or_intror (or_introl eq_refl))) as (f & [<-|[]] & [Hf|[]]).
      discriminate. }
    destruct H as (fs & ps & E & Hn). exists fs, ps. split; auto. intros. eapply script_isolated; eauto.
Qed.
