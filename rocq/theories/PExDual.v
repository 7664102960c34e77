(* Bundled statements and concrete instances for forward-mode Jacobians. *)
From Coq Require Import List Arith Bool Lia ZArith Reals Lra SpecFloat.
From Verif Require Import Num NumR NumF32 Py Arr MLayout MAssign MNoise MSparse MFactor MGraph MLinear MSolver MAuto MDual SpecLayout SpecTree SpecAssign SpecGraph SpecDeriv SpecOrder SpecInv SpecAuto SpecDual.
From Verif Require Import PBase PTree PVec PSolverR PAuto PDeriv PAutoR PDual PDual2 PLayout PAssign PGraph PExGraph PExAuto Ex ExG ExS.
Import ListNotations.
Local Open Scope R_scope.

Lemma jvp_is_derivative : forall n x par e, smooth x par e ->
  (forall dx, fst (jvp real_funs x dx par e) = denote x par e) /\
  forall eps, 0 < eps -> exists d, 0 < d /\ forall y, (forall k, Rabs (y k - x k) < d) -> (forall k, (n <= k)%nat -> y k = x k) ->
    Rabs (denote y par e - denote x par e - vsum (map (fun k => jac_entry real_funs x par e k * (y k - x k)) (seq 0 n)))
    <= eps * vsum (map (fun k => Rabs (y k - x k)) (seq 0 n)).
Proof.
  intros n x par e Hs. split.
  - intros dx. unfold jvp. cbn [fst]. clear Hs. induction e; cbn; rewrite ?IHe, ?IHe1, ?IHe2; auto.
  - intros eps He. destruct (entry_diffable n x par e Hs eps He) as (d & Hd & Hy). exists d. split; auto. intros y H1 H2. apply Hy. split; auto.
Qed.

Section Posed.
Variable C : cenv (T := R).
Variable prog : nat -> list expr.
Variable rprog : vty -> list expr.
Notation E := (prog_env real_funs C prog rprog).
Notation AD := (forward real_funs C prog rprog).
Lemma program_auto_ok f vals : length (prog (f_cls f)) = residual_dim f -> (0 < residual_dim f)%nat ->
  Forall2 (fun v x => value_ok (C (v_ty v)) x /\ leaves x <> [] /\ (0 < local_dim (C (v_ty v)))%nat) (f_vars f) vals -> auto_ok E AD (anonymize f) vals.
Proof.
  intros Hl Hp Hv. split; auto. split.
  - cbn [fd_types anonymize]. induction Hv as [|v x vs vals (H1 & H2 & H3) Hv IH]; constructor; auto. split; auto. split; auto. split; auto. apply out_leaves_arrays.
  - cbn [ad_residual forward]. unfold prog_jacfwd. cbn [fd_cls anonymize fd_noise fd_params]. rewrite Hl. fold (residual_dim f).
    generalize (fun r i => jac_entry real_funs (scalar (concat (map ravel vals))) (scalar (concat (map ravel (f_params f)))) (nth r (prog (f_cls f)) (Lit 0 1)) i). intros D. generalize 0%nat as off.
    induction Hv as [|v x vs vals (H1 & H2 & H3) Hv IH]; intros off; cbn [spreads]; constructor; auto. apply spread_arrays. apply H1.
Qed.
End Posed.

Lemma program_posed : forall C prog rprog fs, classes_ok C -> fs <> [] -> (forall f, In f fs -> factor_ok f /\ length (prog (f_cls f)) = residual_dim f /\ (0 < residual_dim f)%nat /\ f_vars f <> []) ->
  (forall v, In v (mentioned fs) -> leaves (vc_default (C (v_ty v))) <> [] /\ (0 < param_dim (C (v_ty v)))%nat /\ (0 < local_dim (C (v_ty v)))%nat /\
     forall x d, value_ok (C (v_ty v)) x -> length d = local_dim (C (v_ty v)) -> exists y, retract (C (v_ty v)) x d = Ok y /\ value_ok (C (v_ty v)) y) ->
  well_posed (prog_env real_funs C prog rprog) fs.
Proof.
  intros C prog rprog fs CO Hne Hf Hv.
  assert (Hin : forall f v, In f fs -> In v (f_vars f) -> In v (mentioned fs)) by (intros f v H1 H2; apply mentioned_in; eauto).
  constructor; auto.
  - intros f Hin'. apply Hf; auto.
  - constructor.
    + intros val f Hl Hi. unfold residual_shape_ok. cbn. unfold residual_at. cbn. unfold prog_residual. rewrite map_length. cbn. apply Hf; auto.
    + intros val f Hl Hi. destruct (Hf f Hi) as (H1 & H2 & H3 & H4).
      assert (Ha : auto_ok (prog_env real_funs C prog rprog) (forward real_funs C prog rprog) (anonymize f) (map val (f_vars f))).
      { apply program_auto_ok; auto. assert (Hi' : forall v, In v (f_vars f) -> In v (mentioned fs)) by (intros; eapply Hin; eauto). clear - Hi' Hl Hv. induction (f_vars f) as [|v vs IH]; cbn; constructor.
        - pose proof (Hl v (Hi' v (or_introl eq_refl))) as Hx. destruct (Hv v (Hi' v (or_introl eq_refl))) as (D1 & D2 & D3 & _). split; auto. split; auto.
          intros Hz. apply D1. destruct Hx as (_ & _ & Hs). change (map a_shape (leaves (val v)) = map a_shape (leaves (vc_default (C (v_ty v))))) in Hs. rewrite Hz in Hs. destruct (leaves (vc_default (C (v_ty v)))); auto. discriminate.
        - apply IH. intros; apply Hi'; right; auto. }
      eapply default_shapes; [exact Ha|]. apply (auto_env_default C (prog_residual real_funs prog) (forward real_funs C prog rprog)). exact Ha.
    + intros v x d Hi Hx Hd. apply (Hv v Hi); auto.
  - destruct fs as [|f fs]; [congruence|]. exists f. split; [left; auto|]. destruct (Hf f (or_introl eq_refl)) as (_ & _ & H & _). lia.
  - destruct fs as [|f fs]; [congruence|]. destruct (Hf f (or_introl eq_refl)) as (_ & _ & _ & H). destruct (f_vars f) as [|v vs] eqn:Ev; [congruence|]. exists v.
    assert (Hi : In v (mentioned (f :: fs))) by (apply (Hin f); [left; auto | rewrite Ev; left; auto]). split; auto. destruct (Hv v Hi) as (_ & H2 & _). unfold vpdim. cbn. lia.
Qed.

Lemma forward_exact : forall C prog rprog fs g a vs r val x,
  let E := prog_env real_funs C prog rprog in
  classes_ok C -> (forall f, In f fs -> factor_ok f) -> graph_make E fs = Ok g ->
  wf_assign C vs false a -> (forall t, of_type t vs = of_type t (mentioned fs)) ->
  (forall v, In v vs -> get_value C a v = Ok (val v)) ->
  (forall f, In f fs -> linear_noise (f_noise f)) ->
  length r = total residual_dim fs -> length x = l_dim (g_local_layout g) ->
  (forall f, In f fs -> length (prog (f_cls f)) = residual_dim f /\ (0 < residual_dim f)%nat /\
     forall e, In e (prog (f_cls f)) -> smooth (fun k => nth k (flat (map val (f_vars f))) 0) (fun k => nth k (flat (f_params f)) 0) e) ->
  (forall v, In v vs -> leaves (val v) <> [] /\ (0 < local_dim (C (v_ty v)))%nat /\ retracts_by (C (v_ty v)) (rprog (v_ty v)) /\
     map (denote (fun _ => 0) (fun k => nth k (ravel (val v)) 0)) (rprog (v_ty v)) = ravel (val v) /\
     forall e, In e (rprog (v_ty v)) -> smooth (fun _ => 0) (fun k => nth k (ravel (val v)) 0) e) ->
  exists A y rt, compute_whitened_residual_jacobian E g a r = Ok A /\ matmul A x = Ok y /\
    (forall t, exists a', manifold_retract C a (mkAssign (vscale t x) (g_local_layout g)) = Ok a' /\
       compute_whitened_residual_vector E g a' = Ok (rt t)) /\
    vderiv rt y.
Proof.
  intros C prog rprog fs g a vs r val x E CO Hok Eg Hwf Hty Hval Hlin Hr Hx Hf Hv.
  destruct (made E fs g Hok Eg) as (Hg & Hne).
  assert (Hin : forall f v, In f fs -> In v (f_vars f) -> In v vs).
  { intros f v H1 H2. assert (Hm : In v (mentioned fs)) by (apply mentioned_in; eauto).
    assert (Hft : In v (of_type (v_ty v) (mentioned fs))) by (apply filter_In; split; auto; apply Nat.eqb_refl). rewrite <- Hty in Hft. apply filter_In in Hft. tauto. }
  assert (Hlegal : forall v, In v vs -> value_ok (C (v_ty v)) (val v)) by (intros v Hi; destruct (get_value_ok C CO vs a v Hwf Hi) as (y & Ey & Hy & _); rewrite Hval in Ey by auto; injection Ey as <-; auto).
  set (valt := fun t v => match retract (C (v_ty v)) (val v) (vscale t (block C (g_local_layout g) x v)) with Ok y => y | Err _ => val v end).
  refine (proj2 (not_overridden C (prog_residual real_funs prog) (forward real_funs C prog rprog) fs g a vs r val x valt CO Hok Eg Hwf Hty Hval Hlin Hr Hx _ _ _ _)).
  - destruct fs as [|f fs']; [congruence|]. destruct (Hf f (or_introl eq_refl)) as (_ & Hp & _). cbn. unfold total. cbn. lia.
  - intros f Hi. destruct (Hf f Hi) as (Hl & Hp & Hs). assert (Hi' : forall v, In v (f_vars f) -> In v vs) by (intros; eapply Hin; eauto). split.
    + apply program_auto_ok; auto. clear - Hi' Hlegal Hv. induction (f_vars f) as [|v l IH]; cbn; constructor.
      * destruct (Hv v (Hi' v (or_introl eq_refl))) as (D1 & D2 & _). split; auto. apply Hlegal. apply Hi'. left; auto.
      * apply IH. intros; apply Hi'; right; auto.
    + rewrite <- Hl. apply (prog_derivative C prog (anonymize f) (map val (f_vars f))).
      * cbn [fd_types anonymize]. clear - Hi' Hlegal. induction (f_vars f) as [|v l IH]; cbn; constructor; [apply Hlegal, Hi'; left; auto | apply IH; intros; apply Hi'; right; auto].
      * exact Hs.
  - intros v Hi. destruct (Hv v Hi) as (D1 & D2 & D3 & D4 & D5). apply prog_retract; auto.
  - intros t v Hi. destruct (Hv v Hi) as (D1 & D2 & (_ & D3) & _). assert (Hm : In v (mentioned fs)).
    { assert (Hft : In v (of_type (v_ty v) vs)) by (apply filter_In; split; auto; apply Nat.eqb_refl). rewrite Hty in Hft. apply filter_In in Hft. tauto. }
    destruct (D3 (val v) (vscale t (block C (g_local_layout g) x v)) (Hlegal v Hi)) as (y & Ey & Hy & _).
    { rewrite vscale_length. rewrite (ig_local _ _ _ Hg) in *. apply (PDeriv.block_length E fs x v); auto. }
    unfold valt. rewrite Ey. auto.
Qed.

(* plain classes add the delta *)
Lemma plain_retracts : forall c : vclass R, plain_class c -> tree_ok (vc_default c) -> retracts_by c (add_prog (param_dim c)) /\
  forall x, value_ok c x -> map (denote (fun _ => 0) (fun k => nth k (ravel x) 0)) (add_prog (param_dim c)) = ravel x /\
    forall e, In e (add_prog (param_dim c)) -> smooth (fun _ => 0) (fun k => nth k (ravel x) 0) e.
Proof.
  intros c Hc Ht.
  assert (Hm : forall l d : list R, length l = param_dim c -> length d = param_dim c -> map (denote (fun k => nth k d 0) (fun k => nth k l 0)) (add_prog (param_dim c)) = vadd l d).
  { intros l d H1 H2. apply (nth_ext' _ _ 0); [unfold add_prog; rewrite !map_length, seq_length, vadd_length; congruence|]. intros i Hi.
    unfold add_prog in *. rewrite !map_length, seq_length in Hi. rewrite map_map. rewrite (nth_map' _ _ i 0 0%nat) by (rewrite seq_length; auto). rewrite seq_nth by auto. cbn. rewrite nth_vadd by congruence. auto. }
  split.
  - split; [unfold add_prog; rewrite map_length, seq_length; auto|]. intros x d Hx Hd. destruct (plain_retract c Hc Ht x d Hx Hd) as (y & Ey & Hy & Hr). exists y. split; auto. split; auto.
    rewrite Hr. symmetry. apply Hm; [apply (flatten_length c Ht x Hx) | rewrite Hd; apply plain_dims; auto].
  - intros x Hx. split.
    + apply (nth_ext' _ _ 0); [unfold add_prog; rewrite !map_length, seq_length; symmetry; apply (flatten_length c Ht x Hx)|]. intros i Hi. unfold add_prog in *. rewrite !map_length, seq_length in Hi.
      rewrite map_map. rewrite (nth_map' _ _ i 0 0%nat) by (rewrite seq_length; auto). rewrite seq_nth by auto. cbn. ring.
    + intros e He. unfold add_prog in He. apply in_map_iff in He. destruct He as (k & <- & _). cbn. auto.
Qed.

Lemma plain_forward_exact : forall C prog fs g a vs r val x,
  let E := prog_env real_funs C prog (fun t => add_prog (param_dim (C t))) in
  classes_ok C -> (forall f, In f fs -> factor_ok f) -> graph_make E fs = Ok g ->
  wf_assign C vs false a -> (forall t, of_type t vs = of_type t (mentioned fs)) ->
  (forall v, In v vs -> get_value C a v = Ok (val v)) ->
  (forall f, In f fs -> linear_noise (f_noise f)) ->
  length r = total residual_dim fs -> length x = l_dim (g_local_layout g) ->
  (forall f, In f fs -> length (prog (f_cls f)) = residual_dim f /\ (0 < residual_dim f)%nat /\
     forall e, In e (prog (f_cls f)) -> smooth (fun k => nth k (flat (map val (f_vars f))) 0) (fun k => nth k (flat (f_params f)) 0) e) ->
  (forall v, In v vs -> plain_class (C (v_ty v)) /\ (0 < param_dim (C (v_ty v)))%nat) ->
  exists A y rt, compute_whitened_residual_jacobian E g a r = Ok A /\ matmul A x = Ok y /\
    (forall t, exists a', manifold_retract C a (mkAssign (vscale t x) (g_local_layout g)) = Ok a' /\
       compute_whitened_residual_vector E g a' = Ok (rt t)) /\
    vderiv rt y.
Proof.
  intros C prog fs g a vs r val x E CO Hok Eg Hwf Hty Hval Hlin Hr Hx Hf Hv.
  apply (forward_exact C prog (fun t => add_prog (param_dim (C t))) fs g a vs r val x CO Hok Eg Hwf Hty Hval Hlin Hr Hx Hf).
  intros v Hi. destruct (Hv v Hi) as (Hp & Hd). destruct (get_value_ok C CO vs a v Hwf Hi) as (y & Ey & Hy & _). rewrite Hval in Ey by auto. injection Ey as <-.
  destruct (plain_retracts (C (v_ty v)) Hp (CO _)) as (H1 & H2). destruct (H2 (val v) Hy) as (H3 & H4). split.
  - intros Hz. pose proof (flatten_length (C (v_ty v)) (CO _) (val v) Hy) as Hl. unfold flatten, ravel in Hl. rewrite Hz in Hl. cbn in Hl. lia.
  - split; [rewrite plain_dims; auto|]. auto.
Qed.

(* a range measurement of a point in the plane: |p - q| - z *)
Definition sq (e : expr) : expr := Mul e e.
Definition range : expr := Sub (Sqrt (Add (sq (Sub (Inp 0) (Par 0))) (sq (Sub (Inp 1) (Par 1))))) (Par 2).
Definition range_prog (c : nat) : list expr := [range].
Definition plane {T} {N : Num T} : cenv (T := T) := fun _ => mkVclass (leaf1 [n0; n0]) None None.
Definition vp : var := mkVar 0%nat 0%nat.
Definition range_factor {T} {N : Num T} (q1 q2 z : Z) : factor T := mkFactor 0%nat [vp] dg1 [leaf1 [lit q1; lit q2]; leaf1 [lit z]].
Definition at_point {T} {N : Num T} (x y : Z) : assign T := mkAssign [lit x; lit y] (make_layout plane [vp] false).
Lemma range_case : let E := prog_env real_funs plane range_prog (fun t => add_prog (param_dim (plane t))) in
  exists g val, classes_ok plane /\ (forall f, In f [range_factor 3 4 2] -> factor_ok f) /\ graph_make E [range_factor 3 4 2] = Ok g /\
  wf_assign plane [vp] false (at_point 0 0) /\ (forall t, of_type t [vp] = of_type t (mentioned [range_factor 3 4 2])) /\
  (forall v, In v [vp] -> get_value plane (at_point 0 0) v = Ok (val v)) /\
  (forall f, In f [range_factor 3 4 2] -> linear_noise (f_noise f)) /\ total residual_dim [range_factor 3 4 2] = 1%nat /\ l_dim (g_local_layout g) = 2%nat /\
  (forall f, In f [range_factor 3 4 2] -> length (range_prog (f_cls f)) = residual_dim f /\ (0 < residual_dim f)%nat /\
     forall e, In e (range_prog (f_cls f)) -> smooth (fun k => nth k (flat (map val (f_vars f))) 0) (fun k => nth k (flat (f_params f)) 0) e) /\
  (forall v, In v [vp] -> plain_class (plane (v_ty v)) /\ (0 < param_dim (plane (v_ty v)))%nat).
Proof.
  cbn zeta. eexists. exists (fun _ => leaf1 [IZR 0 / IZR 1; IZR 0 / IZR 1]). split; [intros t; repeat constructor|]. split; [intros f [<-|[]]; split; [split; [reflexivity | exists 1%nat; reflexivity] | repeat constructor]|]. split; [reflexivity|].
  split; [split; [repeat constructor; cbn; intuition | split; reflexivity]|]. split; [intros t; reflexivity|]. split; [intros v [<-|[]]; reflexivity|]. split; [intros f [<-|[]]; exact I|].
  split; [reflexivity|]. split; [reflexivity|]. split.
  - intros f [<-|[]]. split; [reflexivity|]. split; [cbn; lia|]. intros e [<-|[]]. cbn. repeat split; auto. unfold Rlit. lra.
  - intros v [<-|[]]. split; [split; reflexivity | cbn; lia].
Qed.

(* where a program is not smooth: a range measurement of a point from its own default value *)
Section Kinks.
#[local] Existing Instance NumF32.
Definition no_funs : funs f32 := mkFuns (fun x => x) (fun x => x) (fun x => x).
Definition range_f32 : env f32 := prog_env no_funs plane range_prog (fun t => add_prog (param_dim (plane t))).
Lemma range_at_origin : exists (E : env f32) fs g init a c,
  E = prog_env no_funs plane range_prog (fun t => add_prog (param_dim (plane t))) /\ graph_make E fs = Ok g /\
  make_from_defaults (e_cls E) [vp] = Ok init /\ compute_cost E g init = Ok (lit 4, [lit (-2)]) /\
  compute_whitened_residual_jacobian E g init [lit (-2)] = Ok (mkCoo [S754_nan; S754_nan] c (1, 2)%nat) /\
  gn_solve E 100 (term_default 100) cholmod_solve g init = Some (Ok a) /\ as_storage a = [S754_nan; S754_nan] /\
  lm_solve E 100 (lm_default 100) cholmod_solve g init = Some (Ok init) /\ dl_solve E 100 (dl_default 100) cholmod_solve g init = Some (Ok init).
Proof.
  exists range_f32, [range_factor 0 0 2]. do 4 eexists. split; [reflexivity|]. do 7 (split; [vm_compute; reflexivity|]). vm_compute. reflexivity.
Qed.
End Kinks.
Lemma kinks_have_slopes : forall par, jac_entry real_funs (fun _ => 0) par (Abs (Inp 0)) 0 = 0 /\
  jac_entry real_funs (fun _ => 0) par (Max (Inp 0) (Lit 0 1)) 0 = 1 / 2 /\
  ~ exists l, derivable_pt_lim (fun t => denote (fun _ => t) par (Abs (Inp 0))) 0 l.
Proof.
  intros par. split; [|split].
  - unfold jac_entry, jvp. cbn -[Rltb Rleb nsign]. unfold nsign, onehot. cbn -[Rltb Rleb]. rewrite (proj2 (Rltb_no 0 0)) by lra. ring.
  - unfold jac_entry, jvp. cbn -[Rltb Rleb balanced]. unfold balanced, nsame, onehot. cbn -[Rltb Rleb]. unfold Rlit. rewrite Rmax_left by lra. rewrite !(proj2 (Rleb_ok _ _)) by lra. cbn. field.
  - intros (l & Hl). cbn [denote] in Hl. destruct (Hl (1 / 2)) as ((d & Hd) & H); [lra|]. cbn in H.
    pose proof (H (d / 2) ltac:(lra) ltac:(rewrite Rabs_right; lra)) as H1. pose proof (H (- (d / 2)) ltac:(lra) ltac:(rewrite Rabs_Ropp, Rabs_right; lra)) as H2.
    rewrite !Rplus_0_l, Rabs_R0 in *. rewrite (Rabs_Ropp (d / 2)), (Rabs_right (d / 2)) in H2 by lra. rewrite (Rabs_right (d / 2)) in H1 by lra.
    replace ((d / 2 - 0) / (d / 2) - l) with (1 - l) in H1 by (field; lra). replace ((d / 2 - 0) / - (d / 2) - l) with (- 1 - l) in H2 by (field; lra).
    apply Rabs_def2 in H1. apply Rabs_def2 in H2. lra.
Qed.
