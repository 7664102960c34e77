(* Proofs about the g2o script: what the reader returns is a well-formed pose graph. *)
From Coq Require Import String List Arith Bool ZArith Lia Reals.
From Verif Require Import Num NumR Py Arr MLayout MAssign MNoise MSparse MFactor MGraph MLinear MSolver MLie MPose SpecLayout SpecTree SpecAssign SpecGraph SpecSparse SpecSolver SpecOrder SpecInv SpecPose MScript SpecScript.
From Verif Require Import PBase PLayout PTree PAssign PAssign2 PExAssign PGraph PGraph2 PSolver PSolver2 PInv PExInv PPose.
From Verif Require MG2o SpecG2o PG2o.
Import ListNotations.

Definition param_len (k : MG2o.pose_kind) : nat := match k with MG2o.SE2 => 4 | MG2o.SE3 => 7 end.
Notation vertex := (MG2o.pose_kind * list R)%type.
Notation gfac := (MG2o.gfactor (T := R) (P := list R)).

Definition vertex_fine (kp : vertex) : Prop :=
  List.length (snd kp) = param_len (fst kp) /\ (fst kp = MG2o.SE2 -> norm2 (snd kp) = 1%R).
Definition edge_fine (all : list vertex) (f : gfac) : Prop :=
  exists k i j p q t w, f = MG2o.GBetween (MG2o.mkPvar i k) (MG2o.mkPvar j k) t w /\ nth_error all i = Some (k, p) /\ nth_error all j = Some (k, q) /\
    SpecG2o.gshaped (MG2o.tangent_dim k) (MG2o.tangent_dim k) w /\ List.length t = param_len k.

Section Reader.
Variable parse_int : string -> result Z.
Variable parse_float : string -> result R.
Variable cholesky : list (list R) -> result (list (list R)).
Variable limit : Z.
Notation bl := (SpecG2o.builds parse_int parse_float se2_of se3_of se3_of_parts cholesky limit).
Notation rd := (SpecG2o.reads parse_int parse_float se2_of se3_of se3_of_parts cholesky limit).

Lemma reads_vertex n parts k i p : rd n parts (SpecG2o.Vertex k i p) -> vertex_fine (k, p).
Proof.
  intros H. inversion H; subst; (split; [reflexivity|]); intros E; cbn in E; try discriminate.
  unfold norm2, se2_of. cbn. rewrite Rplus_comm. apply sin2_cos2.
Qed.
Lemma reads_edge n parts k a b t w : rd n parts (SpecG2o.Edge k a b t w) ->
  SpecG2o.gshaped (MG2o.tangent_dim k) (MG2o.tangent_dim k) w /\ List.length t = param_len k.
Proof.
  intros H. inversion H; subst; (split; [|reflexivity]);
    match goal with H : SpecG2o.sqrt_info _ _ _ _ |- _ => destruct H as (? & ? & _ & _ & ? & _); assumption end.
Qed.

Lemma builds_fine vs0 lines vs fs : bl vs0 lines vs fs -> Forall vertex_fine vs /\ Forall (edge_fine (vs0 ++ vs)) fs.
Proof.
  induction 1 as [vs0 | vs0 parts lines k p vs fs Hr Hb (IH1 & IH2) | vs0 parts lines k a b t w va vb vs fs Hr Va Vb Hb (IH1 & IH2) | vs0 parts lines vs fs Hr Hb IH]; auto.
  - rewrite <- app_assoc in IH2. split; auto. constructor; auto. eapply reads_vertex; eauto.
  - split; auto. constructor; auto. destruct Va as (i & p & Hi & -> & _), Vb as (j & q & Hj & -> & _).
    destruct (reads_edge _ _ _ _ _ _ _ Hr) as (Hw & Ht). exists k, i, j, p, q, t, w. split; auto.
    split; [rewrite nth_error_app1; auto; apply nth_error_Some; congruence|].
    split; [rewrite nth_error_app1; auto; apply nth_error_Some; congruence|]. auto.
Qed.
End Reader.

(* ---- the graph ---- *)
Notation GE := (pose_env script_groups).
Notation GC := (lie_class script_groups).

Lemma kind_known k : known script_groups (kind_ty k).
Proof. destruct k; [left | right]; constructor. Qed.
Lemma kind_len k : List.length (lg_one (script_groups (kind_ty k))) = param_len k.
Proof. destruct k; reflexivity. Qed.
Lemma kind_dim k : lg_dim (script_groups (kind_ty k)) = MG2o.tangent_dim k.
Proof. destruct k; reflexivity. Qed.

Lemma fine_value k p : List.length p = param_len k -> pose_value script_groups (kind_ty k) (group_value (kind_ty k) p).
Proof. intros H. exists p. split; auto. rewrite kind_len. auto. Qed.

Lemma gshaped_concat n m (w : list (list R)) : SpecG2o.gshaped n m w -> List.length (concat w) = (n * m)%nat.
Proof.
  intros (<- & HF). induction HF as [|r w Hr _ IH]; cbn [List.length concat Nat.mul]; [reflexivity|].
  rewrite app_length, IH, Hr. reflexivity.
Qed.

Lemma wrap_noise delta (f : factor R) : (noise_ok (f_noise f) -> noise_ok (f_noise (wrap_huber delta f))) /\
  noise_dim (f_noise (wrap_huber delta f)) = noise_dim (f_noise f).
Proof. destruct delta as [d|]; cbn; auto. Qed.

Lemma wrap_vars delta (f : factor R) : f_vars (wrap_huber delta f) = f_vars f.
Proof. destruct delta; reflexivity. Qed.
Lemma to_vars (f : gfac) : f_vars (to_factor f) = map pose_var (ends f).
Proof. destruct f; reflexivity. Qed.

Lemma edge_factor delta all (f : gfac) : edge_fine all f -> pose_factor script_groups (wrap_huber delta (to_factor f)).
Proof.
  intros (k & i & j & p & q & t & w & -> & _ & _ & Hw & Ht).
  assert (Hn : noise_ok (Gaussian (mkArr [List.length w; List.length w] (concat w)))).
  { split; [|eexists; reflexivity]. unfold arr_ok. cbn [a_data a_shape]. apply Nat.eqb_eq.
    pose proof Hw as (Hl & _). rewrite (gshaped_concat _ _ _ Hw), Hl. cbn. lia. }
  pose proof Hw as (Hl & _).
  set (f := to_factor _). destruct (wrap_noise delta f) as (W1 & W2).
  apply (pf_between _ (pose_var (MG2o.mkPvar i k)) (pose_var (MG2o.mkPvar j k)) (group_value (kind_ty k) t) (f_noise (wrap_huber delta f))).
  - unfold between_make, pose_var. cbn [v_ty MG2o.pv_kind]. unfold group_value. rewrite Nat.eqb_refl. cbn [assert_ bind].
    f_equal. destruct delta; reflexivity.
  - apply fine_value. auto.
  - apply W1. exact Hn.
  - rewrite W2. cbn [pose_var v_ty MG2o.pv_kind]. rewrite kind_dim. cbn. auto.
Qed.

Lemma prior_factor delta i k p (d : list R) : List.length p = param_len k -> List.length d = MG2o.tangent_dim k ->
  pose_factor script_groups (wrap_huber delta (to_factor (MG2o.GPrior (MG2o.mkPvar i k) p d))).
Proof.
  intros Hp Hd. set (f := to_factor _). destruct (wrap_noise delta f) as (W1 & W2).
  replace (wrap_huber delta f) with (prior_make (pose_var (MG2o.mkPvar i k)) (group_value (kind_ty k) p) (f_noise (wrap_huber delta f)))
    by (destruct delta; reflexivity).
  constructor.
  - apply fine_value. auto.
  - apply W1. split; [|eexists; reflexivity]. unfold arr_ok. cbn. rewrite Nat.mul_1_r. apply Nat.eqb_refl.
  - rewrite W2. cbn [pose_var v_ty MG2o.pv_kind]. rewrite kind_dim. cbn. auto.
Qed.

Lemma pose_var_inj v w : pose_var v = pose_var w -> v = w.
Proof. destruct v as [i [|]], w as [j [|]]; unfold pose_var; cbn; congruence. Qed.

Lemma numbered_fst (vs : list vertex) : map (fun vp => MG2o.pv_id (fst vp)) (SpecG2o.numbered vs) = seq 0 (List.length vs).
Proof.
  unfold SpecG2o.numbered. rewrite map_map. cbn [fst MG2o.pv_id].
  assert (H : forall n, map (fun x : nat * vertex => fst x) (combine (seq n (List.length vs)) vs) = seq n (List.length vs)).
  { induction vs as [|v vs IH]; intros n; auto. cbn. rewrite IH. auto. }
  apply H.
Qed.
Lemma numbered_nodup (vs : list vertex) : NoDup (map pose_var (map fst (SpecG2o.numbered vs))).
Proof.
  apply (NoDup_map_inv (fun v : var => v_id v)). rewrite !map_map. cbn [pose_var v_id]. rewrite numbered_fst. apply seq_NoDup.
Qed.
Lemma numbered_fine (vs : list vertex) : Forall vertex_fine vs ->
  forall v p, In (v, p) (SpecG2o.numbered vs) -> vertex_fine (MG2o.pv_kind v, p).
Proof.
  intros HF v p Hin. apply In_nth_error in Hin. destruct Hin as (j & Hj). rewrite PG2o.numbered_nth in Hj.
  destruct (nth_error vs j) as [[k q]|] eqn:Ej; [|discriminate]. injection Hj as <- <-.
  apply nth_error_In in Ej. rewrite Forall_forall in HF. apply (HF _ Ej).
Qed.
Lemma numbered_in (vs : list vertex) i k p : nth_error vs i = Some (k, p) -> In (MG2o.mkPvar i k, p) (SpecG2o.numbered vs).
Proof. intros H. apply (nth_error_In _ i). rewrite PG2o.numbered_nth, H. reflexivity. Qed.

(* what a successful parse gives *)
Record script_data (delta : option R) (fs : list gfac) (ps : list (MG2o.pvar * list R)) : Prop := mkSD {
  sd_factors : forall f, In f (script_factors delta fs) -> pose_factor script_groups f;
  sd_nonempty : fs <> [];
  sd_ends : forall f v, In f fs -> In v (ends f) -> In v (map fst ps);
  sd_poses : ps <> [];
  sd_nodup : NoDup (map pose_var (map fst ps));
  sd_values : forall v p, In (v, p) ps -> vertex_fine (MG2o.pv_kind v, p);
  sd_square : forall a b t w, In (MG2o.GBetween a b t w) fs -> Forall (fun row => List.length row = List.length w) w }.

Lemma parsed_data parse_int parse_float cholesky limit delta text fs ps :
  MG2o.parse_text parse_int parse_float se2_of se3_of se3_of_parts cholesky limit text = Ok (fs, ps) -> script_data delta fs ps.
Proof.
  intros H. unfold MG2o.parse_text in H. apply PG2o.parse_iff in H. destruct H as (k & p & vs & es & Hb & -> & ->).
  destruct (builds_fine _ _ _ _ _ _ _ _ Hb) as (Hv & He). cbn [app] in He.
  assert (Hp : List.length p = param_len k) by (inversion Hv as [|? ? (? & _) _]; auto).
  constructor.
  - intros f Hin. unfold script_factors in Hin. rewrite map_app in Hin. apply in_app_or in Hin. destruct Hin as [Hin|[<-|[]]].
    + apply in_map_iff in Hin. destruct Hin as (e & <- & Hin). rewrite Forall_forall in He. eapply edge_factor; eauto.
    + apply prior_factor; auto. apply repeat_length.
  - destruct es; discriminate.
  - intros f v Hin Hv'. apply in_app_or in Hin. destruct Hin as [Hin|[<-|[]]].
    + rewrite Forall_forall in He. destruct (He _ Hin) as (k' & i & j & q & q' & t & w & -> & Hi & Hj & _).
      destruct Hv' as [<-|[<-|[]]].
      * apply (in_map fst _ _ (numbered_in _ _ _ _ Hi)).
      * apply (in_map fst _ _ (numbered_in _ _ _ _ Hj)).
    + destruct Hv' as [<-|[]]. apply (in_map fst _ (MG2o.mkPvar 0 k, p)). apply numbered_in. reflexivity.
  - intros E. apply (f_equal (@List.length _)) in E. rewrite PG2o.numbered_length in E. discriminate.
  - apply numbered_nodup.
  - apply numbered_fine. auto.
  - intros a b t w Hin. apply in_app_or in Hin. destruct Hin as [Hin|[E|[]]]; [|discriminate].
    rewrite Forall_forall in He. destruct (He _ Hin) as (k' & i & j & q & q' & t' & w' & E & _ & _ & (Hl & Hw) & _).
    injection E as -> -> -> ->. rewrite Hl. auto.
Qed.

Section Data.
Variable delta : option R.
Variable fs : list gfac.
Variable ps : list (MG2o.pvar * list R).
Hypothesis SD : script_data delta fs ps.
Notation fs' := (script_factors delta fs).
Notation vs' := (map pose_var (map fst ps)).

Lemma mentioned_script v : In v (mentioned fs') <-> exists f w, In f fs /\ In w (ends f) /\ v = pose_var w.
Proof.
  unfold mentioned. rewrite firsts_in, in_flat_map. unfold script_factors. split.
  - intros (f & Hf & Hv). apply in_map_iff in Hf. destruct Hf as (e & <- & He). rewrite wrap_vars, to_vars in Hv.
    apply in_map_iff in Hv. destruct Hv as (w & <- & Hw). eauto.
  - intros (e & w & He & Hw & ->). eexists. split; [apply in_map; eauto|]. rewrite wrap_vars, to_vars. apply in_map. auto.
Qed.

Lemma script_posed : well_posed GE fs'.
Proof.
  apply pose_graphs; [apply SD| |].
  - intros v Hv. apply mentioned_script in Hv. destruct Hv as (f & w & _ & _ & ->). apply kind_known.
  - pose proof (sd_nonempty _ _ _ SD). unfold script_factors. destruct fs; [congruence|discriminate].
Qed.

Lemma keys_script : map fst (script_poses ps) = vs'.
Proof. unfold script_poses. rewrite !map_map. reflexivity. Qed.

Lemma script_init : exists init, make_from_dict GC (script_poses ps) = Ok init /\ wf_assign GC vs' false init /\
  forall v p, In (v, p) ps -> get_value GC init (pose_var v) = Ok (group_value (kind_ty (MG2o.pv_kind v)) p).
Proof.
  destruct (construction_values GC (pose_classes script_groups)) as (H & _).
  destruct (H (script_poses ps)) as (a & Ea & Hwf & Hv & _).
  - rewrite keys_script. apply SD.
  - pose proof (sd_poses _ _ _ SD). unfold script_poses. destruct ps; [congruence|discriminate].
  - intros v x Hin. unfold script_poses in Hin. apply in_map_iff in Hin. destruct Hin as ([w p] & E & Hin). injection E as <- <-.
    cbn [fst snd]. apply pose_value_ok. apply fine_value. apply (sd_values _ _ _ SD _ _ Hin).
  - exists a. split; auto. rewrite keys_script in Hwf. split; auto. intros v p Hin. apply Hv.
    unfold script_poses. apply in_map_iff. exists (v, p). auto.
Qed.

Lemma touched_iff : all_touched fs ps <-> (forall v, In v vs' <-> In v (mentioned fs')).
Proof.
  split.
  - intros Ht v. rewrite mentioned_script. split.
    + intros Hin. apply in_map_iff in Hin. destruct Hin as (w & <- & Hin). apply in_map_iff in Hin. destruct Hin as ([w' p] & <- & Hin).
      destruct (Ht _ _ Hin) as (f & Hf & Hw). exists f, w'. auto.
    + intros (f & w & Hf & Hw & ->). apply in_map. eapply sd_ends; eauto.
  - intros H v p Hin. assert (Hv : In (pose_var v) (mentioned fs')) by (apply H, in_map, (in_map fst _ _ Hin)).
    apply mentioned_script in Hv. destruct Hv as (f & w & Hf & Hw & E). apply pose_var_inj in E. subst. eauto.
Qed.
End Data.
