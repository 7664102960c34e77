(* Bundled statements and concrete instances for invariants and totality of solve(). *)
From Coq Require Import List Arith Bool ZArith Lia Permutation Reals Lra.
From Verif Require Import Num NumR NumF32 Py Arr MLayout MAssign MNoise MSparse MFactor MGraph MLinear MSolver MLie MPose SpecLayout SpecTree SpecAssign SpecGraph SpecSparse SpecSolver SpecOrder SpecLie SpecInv SpecPose.
From Verif Require Import PBase PLayout PTree PAssign PAssign2 PGraph PGraph2 PGraph4 PHold PExGraph PSolver PSolver2 PInv PTotal PPose Ex ExG ExS.
Import ListNotations.

Section Any.
Context {T : Type} {N : Num T}.
Variable E : env T.

Lemma total_pos {A} (d : A -> nat) l x : In x l -> d x <> 0 -> total d l <> 0.
Proof. induction l as [|y l IH]; cbn; [intros []|]. intros [->|H] Hd; [lia|]. specialize (IH H Hd). unfold total in IH. lia. Qed.

Lemma posed_graph (fs : list (factor T)) : well_posed E fs -> fs <> [] /\ (exists g, graph_make E fs = Ok g) /\ total residual_dim fs <> 0 /\
  l_dim (graph_layout E fs false) <> 0.
Proof.
  intros [CO Hok Hws (f & Hf & Hd) (v & Hv & Hp)]. split; [intros ->; destruct Hf|]. split.
  - destruct (graph_make_ok E fs Hok) as (H1 & _). destruct H1 as (g & Eg & _); [|eauto].
    unfold mentioned in Hv. apply (firsts_in (flat_map f_vars fs)) in Hv. apply in_flat_map in Hv. destruct Hv as (h & Hh & Hv).
    exists h. split; auto. intros Hn. rewrite Hn in Hv. destruct Hv.
  - split; [eapply total_pos; eauto|]. unfold graph_layout. rewrite lay_dim by apply mentioned_nodup. eapply total_pos; eauto.
Qed.

Lemma never_raises (fs : list (factor T)) : well_posed E fs ->
  exists g, graph_make E fs = Ok g /\
  forall lin step extra solve, total_solver lin -> nonlinear_solver E lin step extra solve ->
  forall init val, assigns E fs init val ->
  (forall fuel e, solve fuel g init <> Some (Err e)) /\
  (exists k, forall fuel, k <= fuel -> exists a' val', solve fuel g init = Some (Ok a') /\ assigns E fs a' val').
Proof.
  intros Hp. destruct (posed_graph fs Hp) as (Hne & (g & Eg) & Hrd & Hpd). destruct Hp as [CO Hok Hws _ _].
  destruct (made E fs g Hok Eg) as (Hg & _). exists g. split; auto. intros lin step extra solve Hlin Hb init val Hi.
  assert (Ht : forall fuel, solve fuel g init = None \/ exists a' val', solve fuel g init = Some (Ok a') /\ assigns E fs a' val').
  { intros fuel. eapply (solve_total E CO fs g Hok Hg Hne Hrd Hpd Hws lin Hlin); eauto. }
  split.
  - intros fuel e He. destruct (Ht fuel) as [H|(a' & val' & H & _)]; congruence.
  - assert (Hk : exists k, forall fuel, k <= fuel -> exists r, solve fuel g init = Some r).
    { destruct Hb as [cfg|cfg|cfg]; [exists (iteration_cap (max_iterations cfg)) | exists (iteration_cap (max_iterations (lm_term cfg))) | exists (iteration_cap (max_iterations (dl_term cfg)))];
        intros fuel Hf; destruct (solvers_terminate E g init lin fuel) as (H1 & H2 & H3).
      - destruct (H1 cfg Hf) as (r & Hr & _). eauto.
      - destruct (H2 cfg Hf) as (r & Hr & _). eauto.
      - destruct (H3 cfg Hf) as (r & Hr & _). eauto. }
    destruct Hk as (k & Hk). exists k. intros fuel Hf. destruct (Hk fuel Hf) as (r & Hr).
    destruct (Ht fuel) as [H|H]; [congruence|auto].
Qed.

Lemma fixed_never_raises (fs : list (factor T)) g lin init val : well_posed E fs -> graph_make E fs = Ok g -> total_solver lin ->
  assigns E fs init val -> same_layout (as_layout init) (g_layout g) ->
  (forall fuel unroll it e, fixed_solve E fuel unroll it lin g init <> Some (Err e)) /\
  (forall fuel unroll it, (1 <= it)%Z -> Z.to_nat it <= fuel -> exists a' val', fixed_solve E fuel unroll it lin g init = Some (Ok a') /\ assigns E fs a' val').
Proof.
  intros Hp Eg Hlin (vs & Hwf & Hvs & Hval) Hs. destruct (posed_graph fs Hp) as (Hne & _ & Hrd & Hpd). destruct Hp as [CO Hok Hws _ _].
  destruct (made E fs g Hok Eg) as (Hg & _). rewrite (ig_layout _ _ _ Hg) in Hs.
  assert (Hh : holds E fs init val). { exists vs. split; auto. split; auto. intros v Hin. apply Hval, Hvs; auto. }
  assert (Ht := fun fuel unroll it => fixed_solve_total E CO fs g Hok Hg Hne Hrd Hws lin Hlin init val fuel unroll it Hh).
  split.
  - intros fuel unroll it e He. destruct (Ht fuel unroll it) as [(H & _)|(a' & val' & H & _)]; congruence.
  - intros fuel unroll it Hit Hf. destruct (Ht fuel unroll it) as [(H & _)|H]; auto.
    rewrite (fixed_solve_ok E fuel unroll it lin g init Hit Hf) in H. discriminate.
Qed.

Lemma linear_total : total_solver (cholmod_solve (T := T)) /\ (forall tol, total_solver (cg_solve (T := T) tol)) /\
  sized (cholmod_solve (T := T)) /\ (forall tol, sized (cg_solve (T := T) tol)).
Proof. split; [apply cholmod_total|]. split; [apply cg_total|]. split; [apply cholmod_sized | apply cg_sized]. Qed.
End Any.

(* ---- poses ---- *)
Local Open Scope R_scope.
Lemma pose_graphs groups fs : (forall f, In f fs -> pose_factor groups f) ->
  (forall v, In v (mentioned fs) -> planar (groups (v_ty v)) \/ spatial (groups (v_ty v))) -> fs <> [] ->
  well_posed (pose_env groups) fs.
Proof. intros H1 H2 H3. apply pose_posed; auto. Qed.

Lemma norms_frozen groups fs g lin step extra solve : 
  (forall v, In v (mentioned fs) -> planar (groups (v_ty v)) \/ spatial (groups (v_ty v))) ->
  (forall f, In f fs -> factor_ok f) -> graph_make (pose_env groups) fs = Ok g -> sized lin ->
  nonlinear_solver (pose_env groups) lin step extra solve ->
  forall init vs fuel a', wf_assign (lie_class groups) vs false init -> solve fuel g init = Some (Ok a') ->
  forall v, In v vs -> exists x x', get_value (lie_class groups) init v = Ok x /\ get_value (lie_class groups) a' v = Ok x' /\
    (planar (groups (v_ty v)) -> norm2 (params x') = norm2 (params x)) /\
    (spatial (groups (v_ty v)) -> norm4 (params x') = norm4 (params x)).
Proof.
  intros Hk Hok Eg Hs Hb init vs fuel a' Hwf H.
  set (x0 := fun v => match get_value (lie_class groups) init v with Ok x => x | Err _ => Node 0%nat [] end).
  assert (Hx : forall v, In v vs -> get_value (lie_class groups) init v = Ok (x0 v)).
  { intros v Hin. destruct (get_value_ok _ (pose_classes groups) vs init v Hwf Hin) as (x & Ex & _). unfold x0. rewrite Ex. auto. }
  destruct (solve_invariant (pose_env groups) fs g lin step extra solve _ (pose_classes groups) Hok Eg Hb Hs
    (norms_preserved groups fs (fun v => norm2 (params (x0 v))) (fun v => norm4 (params (x0 v))) Hk) init vs Hwf) as (Hr & _).
  { intros v Hin. exists (x0 v). split; [apply Hx; auto|]. auto. }
  intros v Hin. destruct (Hr fuel a' H v Hin) as (x' & Ex' & H2 & H4). exists (x0 v), x'. split; auto.
Qed.

(* two SE2 poses, a prior on the first and a relative measurement *)
Definition ex_groups : vty -> lie_ops R (list R) := fun t => match t with 0%nat => raw_se2 | 1%nat => raw_so2 | 2%nat => raw_se3 | _ => raw_so3 end.
Definition pa : var := mkVar 0%nat 0%nat.
Definition pb : var := mkVar 1%nat 0%nat.
Definition dg3 : noise R := DiagGaussian (mkArr [3%nat] [1; 1; 2]).
Definition ex_poses : list (factor R) :=
  [prior_make pa (group_value 0%nat [1; 0; 0; 0]) dg3; mkFactor 1%nat [pa; pb] dg3 [group_value 0%nat [0; 1; 1; 0]]].
Definition ex_start : assign R := mkAssign [3/5; 4/5; 1; 2; 2; 0; 0; 0] (make_layout (lie_class ex_groups) [pa; pb] false).

Lemma ex_pose_ok : (forall f, In f ex_poses -> pose_factor ex_groups f) /\ 
  (forall v, In v (mentioned ex_poses) -> planar (ex_groups (v_ty v)) \/ spatial (ex_groups (v_ty v))) /\
  wf_assign (lie_class ex_groups) [pa; pb] false ex_start /\
  assigns (pose_env ex_groups) ex_poses ex_start (fun v => if eqb v pa then group_value 0%nat [3/5; 4/5; 1; 2] else group_value 0%nat [2; 0; 0; 0]).
Proof.
  assert (Hn : noise_ok dg3) by (split; [reflexivity | exists 3%nat; reflexivity]).
  split; [|split; [|split]].
  - intros f [<-|[<-|[]]].
    + constructor; auto. exists [1; 0; 0; 0]. split; reflexivity.
    + eapply (pf_between ex_groups pa pb (group_value 0%nat [0; 1; 1; 0]) dg3); auto; try reflexivity. exists [0; 1; 1; 0]. split; reflexivity.
  - intros v [<-|[<-|[]]]; left; constructor.
  - split; [repeat constructor; simpl; intuition discriminate | split; reflexivity].
  - exists [pa; pb]. split; [split; [repeat constructor; simpl; intuition discriminate | split; reflexivity]|]. split; [intros v; reflexivity|].
    intros v [<-|[<-|[]]]; reflexivity.
Qed.

Lemma ex_frozen : exists g a' x, graph_make (pose_env ex_groups) ex_poses = Ok g /\
  lm_solve (pose_env ex_groups) 10%nat (lm_default 10%Z) cholmod_solve g ex_start = Some (Ok a') /\
  get_value (lie_class ex_groups) a' pa = Ok x /\ norm2 (params x) = 1.
Proof.
  destruct ex_pose_ok as (H1 & H2 & H3 & H4). destruct (never_raises (pose_env ex_groups) ex_poses) as (g & Eg & Hr).
  { apply pose_graphs; auto. discriminate. }
  destruct (Hr cholmod_solve _ _ _ cholmod_total (solver_lm _ _ (lm_default 10%Z)) ex_start _ H4) as (Hne & k & Hk).
  destruct (solvers_terminate (pose_env ex_groups) g ex_start cholmod_solve 10%nat) as (_ & Ht & _).
  destruct (Ht (lm_default 10%Z)) as ([a'|e] & Ea & _); [cbv; lia| |exfalso; eapply Hne; eauto].
  assert (Hf := norms_frozen ex_groups ex_poses g cholmod_solve _ _ _ H2 (fun f Hf => pose_factor_ok ex_groups f (H1 f Hf)) Eg cholmod_sized
    (solver_lm _ _ (lm_default 10%Z)) ex_start [pa; pb] 10%nat a' H3 Ea pa (or_introl eq_refl)).
  destruct Hf as (x & x' & Ex & Ex' & Hp & _). exists g, a', x'. repeat split; auto. rewrite Hp by constructor.
  assert (Hx : get_value (lie_class ex_groups) ex_start pa = Ok (group_value 0%nat [3/5; 4/5; 1; 2])) by reflexivity.
  rewrite Hx in Ex. injection Ex as <-. rewrite params_value. unfold norm2. cbn [nth]. field.
Qed.
Local Close Scope R_scope.

(* ---- without a parameter or without a residual entry ---- *)
Section Float.
#[local] Existing Instance NumF32.
Definition voidC : cenv (T := f32) := fun _ => mkVclass (Leaf (mkArr [0] [])) None None.
Definition voidE : env f32 := mkEnv voidC (fun fd _ => repeat n1 (noise_dim (fd_noise fd))) (fun fd _ => [repeat [] (noise_dim (fd_noise fd))]).
Definition void1 : factor f32 := mkFactor 0 [mkVar 0 0] (DiagGaussian (mkArr [1] [n1])) [].
Definition voidA : assign f32 := mkAssign [] (make_layout voidC [mkVar 0 0] false).
Definition emptyE : env f32 := mkEnv (fun _ => ex_scalar) (fun _ _ => []) (fun _ _ => [[]]).
Definition empty1 : factor f32 := mkFactor 0 [mkVar 0 0] (DiagGaussian (mkArr [0] [])) [].
Definition emptyA : assign f32 := mkAssign [n1] (make_layout (fun _ => ex_scalar) [mkVar 0 0] false).

Lemma void_shaped : well_shaped voidE [void1].
Proof.
  split.
  - intros val f Hv [<-|[]]. reflexivity.
  - intros val f Hv [<-|[]]. repeat constructor.
  - intros v x d [<-|[]] Hx Hd. destruct d; [|discriminate].
    destruct Hx as (H1 & H2 & H3). destruct x as [[sh dat]|tag l]; [|discriminate]. cbn in H3. injection H3 as ->.
    apply Forall_inv in H1. unfold arr_ok in H1. cbn in H1. destruct dat; [|discriminate].
    eexists. split; [reflexivity|]. split; [repeat constructor | split; reflexivity].
Qed.
Lemma empty_shaped : well_shaped emptyE [empty1].
Proof.
  split.
  - intros val f Hv [<-|[]]. reflexivity.
  - intros val f Hv [<-|[]]. repeat constructor.
  - intros v x d [<-|[]] Hx Hd. destruct d as [|e [|? ?]]; try discriminate.
    destruct Hx as (H1 & H2 & H3). destruct x as [[sh dat]|tag l]; [|discriminate]. cbn in H3. injection H3 as ->.
    apply Forall_inv in H1. unfold arr_ok in H1. cbn in H1. destruct dat as [|r [|? ?]]; try discriminate.
    eexists. split; [reflexivity|]. split; [repeat constructor | split; reflexivity].
Qed.
Lemma needs_parameter : exists (E : env f32) f g init val,
  classes_ok (e_cls E) /\ factor_ok f /\ well_shaped E [f] /\ residual_dim f = 1 /\ graph_make E [f] = Ok g /\ assigns E [f] init val /\
  gn_solve E 5 (term_default 5) (conjugate_gradient_solver n1) g init = Some (Err ValueError) /\
  exists a, fixed_solve E 5 true 5 (conjugate_gradient_solver n1) g init = Some (Ok a).
Proof.
  exists voidE, void1. eexists. exists voidA, (fun _ => Leaf (mkArr [0] [])).
  split; [intros t; repeat constructor|]. split; [split; [split; [reflexivity | exists 1; reflexivity] | constructor]|].
  split; [exact void_shaped|]. split; [reflexivity|]. split; [reflexivity|].
  split. { exists [mkVar 0 0]. split; [split; [repeat constructor; simpl; tauto | split; reflexivity]|]. split; [intros v; reflexivity|]. intros v [<-|[]]. reflexivity. }
  split; [vm_compute; reflexivity|]. eexists. vm_compute. reflexivity.
Qed.
Lemma needs_residual : exists (E : env f32) f g init val,
  classes_ok (e_cls E) /\ factor_ok f /\ well_shaped E [f] /\ vpdim (e_cls E) (mkVar 0 0) = 1 /\ graph_make E [f] = Ok g /\ assigns E [f] init val /\
  gn_solve E 5 (term_default 5) cholmod_solve g init = Some (Err AssertionError).
Proof.
  exists emptyE, empty1. eexists. exists emptyA, (fun _ => leaf1 [n1]).
  split; [intros t; repeat constructor|]. split; [split; [split; [reflexivity | exists 0; reflexivity] | constructor]|].
  split; [exact empty_shaped|]. split; [reflexivity|]. split; [reflexivity|].
  split. { exists [mkVar 0 0]. split; [split; [repeat constructor; simpl; tauto | split; reflexivity]|]. split; [intros v; reflexivity|]. intros v [<-|[]]. reflexivity. }
  vm_compute; reflexivity.
Qed.
End Float.
