(* Bundled statements and concrete instances: zero cost and consistency of pose graphs. *)
From Coq Require Import List Arith Bool Lia Reals Lra ZArith.
From Verif Require Import Num NumR Py Arr MLayout MAssign MNoise MSparse MFactor MGraph MLinear MSolver MLie MPose SpecNoise SpecLayout SpecTree SpecAssign SpecSparse SpecSolver SpecOrder SpecLie SpecGraph SpecDeriv SpecInv SpecPose SpecZero.
From Verif Require Import PBase PVec PAssign PGraph2 PExGraph PInv PTotal PPose PFrame PExInv PZero.
Import ListNotations.
Local Open Scope R_scope.

Section Graph.
Variable groups : vty -> lie_ops R (list R).
Variable fs : list (factor R).
Hypothesis Hfs : forall f, In f fs -> pose_factor groups f.
Hypothesis Hk : forall v, In v (mentioned fs) -> planar (groups (v_ty v)) \/ spatial (groups (v_ty v)).

Lemma residual_zero f val : In f fs -> unit_measurement groups f ->
  (forall v, In v (f_vars f) -> pose_value groups (v_ty v) (val v) /\ unit_pose (groups (v_ty v)) (params (val v))) ->
  residual_at (pose_env groups) val f = vzero (residual_dim f) <-> measured groups val f.
Proof.
  intros Hf Hu Hv. assert (Hp : forall t x, pose_value groups t x -> sized_pose (groups t) (params x)).
  { intros t x (p & -> & Hp). rewrite params_value. exact Hp. }
  unfold residual_at. destruct (Hfs f Hf) as [v mu n Hm Hn Hd|va vb Tab n h Hb Hm Hn Hd].
  - destruct (Hv v) as (Lv & Uv); [cbn; auto|]. unfold residual_dim. cbn [prior_make f_noise]. rewrite Hd.
    change (prior_residual (groups (v_ty v)) (params mu) (params (val v)) = vzero (lg_dim (groups (v_ty v))) <-> same_pose (groups (v_ty v)) (params (val v)) (params mu)).
    apply prior_zero; auto; [|apply (Hu v mu); cbn; auto]. apply Hk, (in_mentioned fs _ v Hf). cbn. auto.
  - pose proof (between_inv va vb Tab n h Hb) as (Ht & ->). destruct (Hv va) as (La & Ua); [cbn; auto|]. destruct (Hv vb) as (Lb & Ub); [cbn; auto|].
    unfold residual_dim. cbn [f_noise]. rewrite Hd. rewrite <- Ht in Lb, Ub.
    change (between_residual (groups (v_ty va)) (params Tab) (params (val va)) (params (val vb)) = vzero (lg_dim (groups (v_ty va))) <->
      same_pose (groups (v_ty va)) (lg_mul (groups (v_ty va)) (params (val va)) (params Tab)) (params (val vb))).
    apply between_zero; auto; [|apply (Hu va Tab); cbn; auto]. apply Hk, (in_mentioned fs _ va Hf). cbn. auto.
Qed.

Lemma sum_zero (l : list (list R)) : vsum (map sumsq l) = 0 <-> Forall (fun w => sumsq w = 0) l.
Proof.
  assert (Hn : forall l : list (list R), 0 <= vsum (map sumsq l)).
  { clear. induction l as [|w l IH]; [apply Rle_refl|]. pose proof (sumsq_nonneg w).
    change (vsum (map sumsq (w :: l))) with (sumsq w + vsum (map sumsq l)). lra. }
  induction l as [|w l IH]; [split; [constructor|reflexivity]|].
  change (vsum (map sumsq (w :: l))) with (sumsq w + vsum (map sumsq l)). specialize (Hn l). pose proof (sumsq_nonneg w). rewrite Forall_cons_iff, <- IH. lra.
Qed.

Lemma zero_cost g a val : graph_make (pose_env groups) fs = Ok g ->
  (forall f, In f fs -> informative (f_noise f) /\ unit_measurement groups f) ->
  assigns (pose_env groups) fs a val -> (forall v, In v (mentioned fs) -> unit_pose (groups (v_ty v)) (params (val v))) ->
  exists c r, compute_cost (pose_env groups) g a = Ok (c, r) /\ 0 <= c /\ (c = 0 <-> forall f, In f fs -> measured groups val f).
Proof.
  intros Eg Hi Ha Hu. assert (Hok : forall f, In f fs -> factor_ok f) by (intros f Hf; eapply pose_factor_ok; eauto).
  destruct (pose_shaped groups fs Hfs Hk) as [Hsh _ _].
  assert (Hv : forall v, In v (mentioned fs) -> pose_value groups (v_ty v) (val v)).
  { destruct Ha as (vs & Hwf & Hvs & Hget). intros v Hin. apply Hvs in Hin. apply pose_value_ok.
    destruct (get_value_ok _ (pose_classes groups) vs a v Hwf Hin) as (x & Ex & Hx & _). cbn in Hget. rewrite (Hget v Hin) in Ex. injection Ex as <-. auto. }
  assert (Hsh' : forall f, In f fs -> residual_shape_ok (pose_env groups) val f).
  { intros f Hf. apply Hsh; auto. intros v Hin. apply pose_value_ok. auto. }
  destruct (cost_per_factor (pose_env groups) fs g Hok Eg) as (Hc & _). destruct (Hc a val Ha Hsh') as (r & ws & _ & Ec & Hws & Hsum).
  exists (sumsq r), r. split; auto. split; [apply sumsq_nonneg|]. rewrite Hsum, sum_zero. clear Hc Ec Hsum.
  assert (Hone : forall f w, In f fs -> whitened_at (pose_env groups) val f = Ok w -> (sumsq w = 0 <-> measured groups val f)).
  { intros f w Hf Hw. destruct (Hi f Hf) as (Hn & Hm). destruct (whiten_zero (f_noise f) _ w (proj1 (Hok f Hf)) Hn (Hsh' f Hf) Hw) as (Hl & Hz).
    rewrite sumsq_zero, Hl, Hz. apply residual_zero; auto. intros v Hin. assert (In v (mentioned fs)) by (eapply in_mentioned; eauto). auto. }
  assert (Hall : Forall2 (fun f w => sumsq w = 0 <-> measured groups val f) fs ws).
  { clear -Hws Hone. induction Hws as [|f w fs' ws' Hw Hws IH]; constructor.
    - apply Hone; [left; auto|auto].
    - apply IH. intros f' w' Hf. apply Hone. right; auto. }
  rewrite <- Forall_forall. clear -Hall. induction Hall as [|f w l l' H Hall IH]; [split; auto|]. rewrite !Forall_cons_iff, H, IH. tauto.
Qed.
End Graph.

Lemma zero_result groups fs g lin step extra solve : (forall f, In f fs -> pose_factor groups f) ->
  (forall v, In v (mentioned fs) -> planar (groups (v_ty v)) \/ spatial (groups (v_ty v))) -> graph_make (pose_env groups) fs = Ok g ->
  (forall f, In f fs -> informative (f_noise f) /\ unit_measurement groups f) ->
  sized lin -> nonlinear_solver (pose_env groups) lin step extra solve ->
  forall init val fuel a' val', assigns (pose_env groups) fs init val -> (forall v, In v (mentioned fs) -> unit_pose (groups (v_ty v)) (params (val v))) ->
  solve fuel g init = Some (Ok a') -> assigns (pose_env groups) fs a' val' ->
  exists c r, compute_cost (pose_env groups) g a' = Ok (c, r) /\ (c = 0 <-> forall f, In f fs -> measured groups val' f).
Proof.
  intros Hfs Hk Eg Hi Hs Hb init val fuel a' val' Ha Hu H Ha'.
  destruct (zero_cost groups fs Hfs Hk g a' val' Eg Hi Ha') as (c & r & Ec & _ & Hc); [|eauto].
  destruct Ha as (vs & Hwf & Hvs & Hget). destruct Ha' as (vs' & Hwf' & Hvs' & Hget'). cbn in Hget, Hget'.
  intros v Hin. assert (Hok : forall f, In f fs -> factor_ok f) by (intros f Hf; eapply pose_factor_ok; eauto).
  destruct (norms_frozen groups fs g lin step extra solve Hk Hok Eg Hs Hb init vs fuel a' Hwf H v) as (x & x' & Ex & Ex' & H2 & H4); [apply Hvs; auto|].
  rewrite (Hget v) in Ex by (apply Hvs; auto). rewrite (Hget' v) in Ex' by (apply Hvs'; auto). injection Ex as <-. injection Ex' as <-.
  destruct (Hu v Hin) as (U2 & U4). split; intros Hp; [rewrite H2 by auto; auto | rewrite H4 by auto; auto].
Qed.

(* BetweenFactor.make accepts exactly two variables of one type and a measurement of it *)
Lemma between_made {T} (va vb : var) (Tab : pytree T) (n : noise T) :
  (forall cs, v_ty va = v_ty vb -> Tab = Node (v_ty va) cs -> between_make va vb Tab n = Ok (mkFactor 1 [va; vb] n [Tab])) /\
  (v_ty va <> v_ty vb \/ (forall cs, Tab <> Node (v_ty va) cs) -> between_make va vb Tab n = Err AssertionError).
Proof.
  unfold between_make. split.
  - intros cs E ->. rewrite E, !Nat.eqb_refl. reflexivity.
  - intros H. destruct (Nat.eqb (v_ty va) (v_ty vb)) eqn:E; [|reflexivity]. apply Nat.eqb_eq in E. destruct H as [H|H]; [contradiction|].
    cbn [assert_ bind]. destruct Tab as [x|tag cs]; [reflexivity|]. destruct (Nat.eqb (v_ty va) tag) eqn:Et; [|reflexivity].
    apply Nat.eqb_eq in Et. subst tag. exfalso. eapply H; eauto.
Qed.

(* ---- instances ---- *)
Definition ex_true (v : var) : pytree R := if eqb v pa then group_value 0%nat [1; 0; 0; 0] else group_value 0%nat [0; 1; 1; 0].
Definition ex_solved : assign R := mkAssign [1; 0; 0; 0; 0; 1; 1; 0] (make_layout (lie_class ex_groups) [pa; pb] false).

Lemma se2_unit t p : t = 0%nat -> norm2 p = 1 -> unit_pose (ex_groups t) p.
Proof. intros -> H. split; [auto|]. intros Hs. exfalso. eapply not_both; [apply planar_se2|exact Hs]. Qed.
Lemma ex_consistent : (forall f, In f ex_poses -> pose_factor ex_groups f /\ informative (f_noise f) /\ unit_measurement ex_groups f) /\
  (forall v, In v (mentioned ex_poses) -> planar (ex_groups (v_ty v)) \/ spatial (ex_groups (v_ty v))) /\
  assigns (pose_env ex_groups) ex_poses ex_solved ex_true /\
  (forall v, In v (mentioned ex_poses) -> unit_pose (ex_groups (v_ty v)) (params (ex_true v))) /\
  (forall f, In f ex_poses -> measured ex_groups ex_true f) /\
  exists g r, graph_make (pose_env ex_groups) ex_poses = Ok g /\ compute_cost (pose_env ex_groups) g ex_solved = Ok (0, r).
Proof.
  destruct ex_pose_ok as (Hf & Hk & _).
  assert (Hi : forall f, In f ex_poses -> informative (f_noise f) /\ unit_measurement ex_groups f).
  { intros f [<-|[<-|[]]]; (split; [repeat (constructor; [lra|]); constructor|]).
    - intros v x [<-|[]] [<-|[]]. apply se2_unit; [reflexivity|]. unfold norm2. cbn. ring.
    - intros v x [<-|[<-|[]]] [<-|[]]; (apply se2_unit; [reflexivity|]); unfold norm2; cbn; ring. }
  assert (Ha : assigns (pose_env ex_groups) ex_poses ex_solved ex_true).
  { exists [pa; pb]. split; [split; [repeat constructor; simpl; intuition discriminate | split; reflexivity]|]. split; [intros v; reflexivity|].
    intros v [<-|[<-|[]]]; reflexivity. }
  assert (Hu : forall v, In v (mentioned ex_poses) -> unit_pose (ex_groups (v_ty v)) (params (ex_true v))).
  { intros v [<-|[<-|[]]]; (apply se2_unit; [reflexivity|]); unfold norm2; cbn; ring. }
  assert (Hm : forall f, In f ex_poses -> measured ex_groups ex_true f).
  { intros f [<-|[<-|[]]]; left; [reflexivity|]. cbn. unfold se2_mul. cbn [nth]. lists; ring. }
  split; [auto|]. do 4 (split; [auto|]).
  destruct (graph_make (pose_env ex_groups) ex_poses) as [g|] eqn:Eg; [|discriminate].
  destruct (zero_cost ex_groups ex_poses Hf Hk g ex_solved ex_true Eg Hi Ha Hu) as (c & r & Ec & _ & Hc).
  exists g, r. split; auto. rewrite Ec. f_equal. f_equal. apply Hc. auto.
Qed.

(* one prior on a spatial rotation, at minus its mean: no cost *)
Definition qv : var := mkVar 0%nat 3%nat.
Definition ex_quat : list (factor R) := [prior_make qv (group_value 3%nat [1; 0; 0; 0]) (DiagGaussian (mkArr [3%nat] [1; 1; 1]))].
Lemma opposite_quaternion : exists fs g a val v mu n,
  fs = [prior_make v mu n] /\ pose_factor ex_groups (prior_make v mu n) /\ spatial (ex_groups (v_ty v)) /\ informative n /\
  graph_make (pose_env ex_groups) fs = Ok g /\ assigns (pose_env ex_groups) fs a val /\
  norm4 (params (val v)) = 1 /\ norm4 (params mu) = 1 /\
  (exists r, compute_cost (pose_env ex_groups) g a = Ok (0, r)) /\ params (val v) <> params mu.
Proof.
  set (val := fun _ : var => group_value 3%nat [- (1); 0; 0; 0] : pytree R).
  set (a := mkAssign [- (1); 0; 0; 0] (make_layout (lie_class ex_groups) [qv] false)).
  assert (Hf : forall f, In f ex_quat -> pose_factor ex_groups f).
  { intros f [<-|[]]. constructor; [exists [1; 0; 0; 0]; split; reflexivity| |reflexivity]. split; [reflexivity | exists 3%nat; reflexivity]. }
  assert (Hn : informative (DiagGaussian (mkArr [3%nat] [1; 1; 1]))) by (repeat (constructor; [lra|]); constructor).
  assert (Hk : forall v, In v (mentioned ex_quat) -> planar (ex_groups (v_ty v)) \/ spatial (ex_groups (v_ty v))).
  { intros v [<-|[]]; right; constructor. }
  assert (Ha : assigns (pose_env ex_groups) ex_quat a val).
  { exists [qv]. split; [split; [repeat constructor; simpl; intuition discriminate | split; reflexivity]|]. split; [intros v; reflexivity|].
    intros v [<-|[]]; reflexivity. }
  assert (Hu : forall p, norm4 p = 1 -> unit_pose raw_so3 p).
  { intros p Hp. split; [|auto]. intros H. exfalso. eapply not_both; [exact H|apply spatial_so3]. }
  destruct (graph_make (pose_env ex_groups) ex_quat) as [g|] eqn:Eg; [|discriminate].
  exists ex_quat, g, a, val, qv, (group_value 3%nat [1; 0; 0; 0]), (DiagGaussian (mkArr [3%nat] [1; 1; 1])).
  split; [reflexivity|]. split; [apply Hf; left; auto|]. split; [constructor|]. split; [auto|]. split; [auto|]. split; [auto|].
  split; [unfold norm4; cbn; ring|]. split; [unfold norm4; cbn; ring|]. split.
  - destruct (zero_cost ex_groups ex_quat Hf Hk g a val Eg) as (c & r & Ec & _ & Hc); auto.
    + intros f [<-|[]]. split; [auto|]. intros v x [<-|[]] [<-|[]]. apply Hu. unfold norm4; cbn; ring.
    + intros v [<-|[]]. apply Hu. unfold norm4; cbn; ring.
    + exists r. rewrite Ec. f_equal. f_equal. apply Hc. intros f [<-|[]]. right. split; [constructor|]. split; [|reflexivity].
      cbn. rewrite Ropp_0. auto.
  - cbn. intros H. injection H as H. lra.
Qed.

(* a rotation that is not normalised: no cost, and another rotation *)
Definition rv : var := mkVar 0%nat 1%nat.
Definition ex_rot : list (factor R) := [prior_make rv (group_value 1%nat [1; 0]) (DiagGaussian (mkArr [1%nat] [1]))].
Lemma needs_unit : exists fs g a val v mu n,
  fs = [prior_make v mu n] /\ pose_factor ex_groups (prior_make v mu n) /\ planar (ex_groups (v_ty v)) /\ informative n /\
  graph_make (pose_env ex_groups) fs = Ok g /\ assigns (pose_env ex_groups) fs a val /\ norm2 (params mu) = 1 /\
  (exists r, compute_cost (pose_env ex_groups) g a = Ok (0, r)) /\ ~ measured ex_groups val (prior_make v mu n).
Proof.
  set (val := fun _ : var => group_value 1%nat [2; 0] : pytree R).
  set (a := mkAssign [2; 0] (make_layout (lie_class ex_groups) [rv] false)).
  assert (Hf : forall f, In f ex_rot -> pose_factor ex_groups f).
  { intros f [<-|[]]. constructor; [exists [1; 0]; split; reflexivity| |reflexivity]. split; [reflexivity | exists 1%nat; reflexivity]. }
  assert (Hn : informative (DiagGaussian (mkArr [1%nat] [1]))) by (repeat (constructor; [lra|]); constructor).
  assert (Hk : forall v, In v (mentioned ex_rot) -> planar (ex_groups (v_ty v)) \/ spatial (ex_groups (v_ty v))).
  { intros v [<-|[]]; left; constructor. }
  assert (Ha : assigns (pose_env ex_groups) ex_rot a val).
  { exists [rv]. split; [split; [repeat constructor; simpl; intuition discriminate | split; reflexivity]|]. split; [intros v; reflexivity|].
    intros v [<-|[]]; reflexivity. }
  destruct (graph_make (pose_env ex_groups) ex_rot) as [g|] eqn:Eg; [|discriminate].
  exists ex_rot, g, a, val, rv, (group_value 1%nat [1; 0]), (DiagGaussian (mkArr [1%nat] [1])).
  split; [reflexivity|]. split; [apply Hf; left; auto|]. split; [constructor|]. split; [auto|]. split; [auto|]. split; [auto|].
  split; [unfold norm2; cbn; ring|]. split.
  - assert (Hok : forall f, In f ex_rot -> factor_ok f) by (intros f Hin; eapply pose_factor_ok; eauto).
    destruct (pose_shaped ex_groups ex_rot Hf Hk) as [Hsh _ _].
    destruct (cost_per_factor (pose_env ex_groups) ex_rot g Hok Eg) as (Hc & _). destruct (Hc a val Ha) as (r & ws & _ & Ec & Hws & Hsum).
    { intros f Hin. apply Hsh; auto. intros v Hv. assert (Ev : v = rv) by (destruct Hv as [<-|[]]; auto). subst v.
      apply pose_value_ok. exists [2; 0]. split; reflexivity. }
    exists r. rewrite Ec. f_equal. f_equal. rewrite Hsum. inversion Hws as [|f w l l' Hw Hnil]; subst. inversion Hnil; subst.
    assert (E : residual_at (pose_env ex_groups) val (prior_make rv (group_value 1%nat [1; 0]) (DiagGaussian (mkArr [1%nat] [1]))) = [0]).
    { change ([atan2 (- 0 * 1 + 2 * 0) (2 * 1 - - 0 * 0)] = [0]). f_equal. unfold atan2.
      replace ((2 * 1 - - 0 * 0) * (2 * 1 - - 0 * 0) + (- 0 * 1 + 2 * 0) * (- 0 * 1 + 2 * 0)) with (2 * 2) by ring. rewrite sqrt_square by lra.
      destruct (Req_EM_T 2 0); [auto|]. destruct (Rlt_dec (- 0 * 1 + 2 * 0) 0); [exfalso; lra|].
      replace ((2 * 1 - - 0 * 0) / 2) with 1 by field. apply acos_1. }
    unfold whitened_at in Hw. rewrite E in Hw. cbn in Hw. injection Hw as <-. cbn. rn. unfold sumsq, vsum. cbn. rn. ring.
  - intros [H|(Hs & _)]; [cbn in H; injection H as H; lra|]. eapply not_both; [apply planar_so2|exact Hs].
Qed.

Lemma ex_consistent_derivative : (forall f, In f ex_poses -> linear_noise (f_noise f) /\ unit_measurement ex_groups f /\ measured ex_groups ex_true f) /\
  (forall v, In v (mentioned ex_poses) -> planar (ex_groups (v_ty v))) /\
  wf_assign (lie_class ex_groups) [pa; pb] false ex_solved /\ (forall t, of_type t [pa; pb] = of_type t (mentioned ex_poses)) /\
  (forall v, In v [pa; pb] -> get_value (lie_class ex_groups) ex_solved v = Ok (ex_true v) /\ unit_pose (ex_groups (v_ty v)) (params (ex_true v))) /\
  total residual_dim ex_poses = 6%nat /\ exists g, graph_make (pose_env ex_groups) ex_poses = Ok g /\ l_dim (g_local_layout g) = 6%nat.
Proof.
  destruct ex_consistent as (Hf & _ & _ & Hu & Hm & _). split; [|split; [|split; [|split; [|split; [|split]]]]].
  - intros f Hin. split; [destruct Hin as [<-|[<-|[]]]; exact I|]. split; [apply Hf; auto | auto].
  - intros v [<-|[<-|[]]]; constructor.
  - split; [repeat constructor; simpl; intuition discriminate | split; reflexivity].
  - intros t. reflexivity.
  - intros v Hin. split; [destruct Hin as [<-|[<-|[]]]; reflexivity | apply Hu; exact Hin].
  - reflexivity.
  - eexists. split; reflexivity.
Qed.
