(* Independent subproblems: the normal equations of a problem split into those of its parts. *)
From Coq Require Import List Arith Bool Lia Permutation Reals Lra ZArith.
From Verif Require Import Num NumR Py Arr MLayout MAssign MNoise MSparse MFactor MGraph MLinear MSolver SpecLayout SpecTree SpecAssign SpecGraph SpecSparse SpecOrder SpecPart.
From Verif Require Import PBase PLayout PTree PAssign PAssign2 PAssign3 PStack PGraph PGraph2 PJac PVec PSparse PLinear PGraph3 PGraph4 PGraph5 PHold POrder POrder2 POrder3.
Import ListNotations.
Local Open Scope R_scope.

(* ---- vectors over a set of variables and over a subset ---- *)
Section Sub.
Variable C : cenv (T := R).
Variable local : bool.
Variables vs us : list var.
Hypothesis ND : NoDup vs.
Hypothesis ND' : NoDup us.
Hypothesis Hsub : forall v, In v us -> In v vs.
Let L := make_layout C vs local.
Let L' := make_layout C us local.

(* x' is x restricted to the variables us *)
Definition restr (x x' : list R) : Prop :=
  length x = l_dim L /\ length x' = l_dim L' /\ forall v, In v us -> block C L x v = block C L' x' v.
(* ... and x is zero elsewhere *)
Definition extend (x x' : list R) : Prop :=
  restr x x' /\ forall v, In v vs -> ~ In v us -> block C L x v = vzero (vdim C local v).

Lemma restr_to x : length x = l_dim L -> exists x', restr x x'.
Proof.
  intros Hx. destruct (vec_of_blocks C local us ND' (block C L x)) as (x' & Hl & Hb).
  - intros v Hv. apply (block_length C vs local ND); auto.
  - exists x'. repeat split; auto. intros v Hv. symmetry. apply Hb; auto.
Qed.
Definition inb (v : var) (l : list var) : bool := existsb (eqb v) l.
Lemma inb_in v l : inb v l = true <-> In v l.
Proof.
  unfold inb. rewrite existsb_exists. split; [intros (u & Hu & He); apply eqb_ok in He; subst; auto|]. intros H. exists v. split; auto. apply eqb_ok. auto.
Qed.
Lemma extend_to x' : length x' = l_dim L' -> exists x, extend x x'.
Proof.
  intros Hx. destruct (vec_of_blocks C local vs ND (fun v => if inb v us then block C L' x' v else vzero (vdim C local v))) as (x & Hl & Hb).
  - intros v Hv. destruct (inb v us) eqn:Ev; [|apply vzero_length]. apply inb_in in Ev. apply (block_length C us local ND'); auto.
  - exists x. split; [split; auto; split; auto|].
    + intros v Hv. rewrite Hb by auto. rewrite (proj2 (inb_in v us) Hv). auto.
    + intros v Hv Hn. rewrite Hb by auto. destruct (inb v us) eqn:Ev; auto. apply inb_in in Ev. contradiction.
Qed.
Lemma restr_map (f : R -> R) x x' : restr x x' -> restr (map f x) (map f x').
Proof. intros (H1 & H2 & H3). repeat split; rewrite ?map_length; auto. intros v Hv. rewrite !block_map, H3; auto. Qed.

Lemma order_split : Permutation (order vs) (order us ++ filter (fun v => negb (inb v us)) (order vs)).
Proof.
  apply NoDup_Permutation; [apply order_nodup; auto| |].
  - apply NoDup_app_disj; [apply order_nodup; auto | apply NoDup_filter, order_nodup; auto|].
    intros v Hv Hf. apply filter_In in Hf. destruct Hf as (_ & Hf). apply (order_in us) in Hv. rewrite (proj2 (inb_in v us) Hv) in Hf. discriminate.
  - intros v. rewrite in_app_iff, filter_In, !order_in. split.
    + intros Hv. destruct (inb v us) eqn:Ev; [left; apply inb_in; auto | right; split; auto].
    + intros [Hv|(Hv & _)]; auto.
Qed.
Lemma extend_dot y y' x x' : extend y y' -> restr x x' -> vdot y x = vdot y' x'.
Proof.
  intros ((H1 & H2 & H3) & H0) (H4 & H5 & H6). rewrite (vdot_blocks C local vs ND y x), (vdot_blocks C local us ND' y' x') by auto.
  fold L L'. rewrite (vsum_perm _ _ (Permutation_map _ order_split)), map_app, vsum_app.
  rewrite (vsum_map_ext _ (fun v => vdot (block C L' y' v) (block C L' x' v)) (order us)).
  - assert (E : forall l, (forall v, In v l -> In v vs /\ ~ In v us) -> vsum (map (fun v => vdot (block C L y v) (block C L x v)) l) = 0).
    { induction l as [|v l IH]; intros Hl; [reflexivity|]. cbn [map]. rewrite vsum_cons, IH by (intros; apply Hl; right; auto).
      destruct (Hl v (or_introl eq_refl)) as (Hv & Hn). rewrite H0, vdot_zero_l by auto. lra. }
    rewrite E; [lra|]. intros v Hv. apply filter_In in Hv. destruct Hv as (Hv & Hf). split; [apply order_in; auto|].
    intros Hu. apply inb_in in Hu. rewrite Hu in Hf. discriminate.
  - intros v Hv. apply (order_in us) in Hv. rewrite H3, H6 by auto. auto.
Qed.
Lemma restr_unique x x' y' : restr x x' -> length y' = l_dim L' ->
  (forall z z', extend z z' -> vdot z x = vdot z' y') -> restr x y'.
Proof.
  intros Hx Hy H. replace y' with x'; auto. pose proof Hx as (_ & Hl & _).
  apply (vec_ext (l_dim L')); auto. intros z' Hz. destruct (extend_to z' Hz) as (z & Hr).
  rewrite <- (H z z' Hr). symmetry. apply extend_dot; auto.
Qed.
End Sub.

Lemma mvec_of_zero (W : list (list R)) n : mvec W (vzero n) = vzero (length W).
Proof. induction W as [|row W IH]; [reflexivity|]. cbn [length]. rewrite mvec_cons, vzero_S, IH, vdot_zero_r. auto. Qed.
Lemma vadd_zeros n : vadd (vzero (T := R) n) (vzero n) = vzero n.
Proof. induction n as [|n IH]; auto. rewrite !vzero_S. unfold vadd in *. cbn [zipw]. rewrite IH. f_equal. rn. lra. Qed.

Section Part.
Variable E : env R.
Let C := e_cls E.
Variables fs part rest : list (factor R).
Variables g g' : graph R.
Hypothesis CO : classes_ok C.
Hypothesis Hok : forall f, In f fs -> factor_ok f.
Hypothesis Hp : Permutation fs (part ++ rest).
Hypothesis Hind : independent part rest.
Hypothesis Hg : is_graph E fs g.
Hypothesis Hg' : is_graph E part g'.
Hypothesis Hrd : total residual_dim part <> 0%nat.
Hypothesis Hws : well_shaped E fs.
Let L := graph_layout E fs true.
Let L' := graph_layout E part true.
Let N1 : NoDup (mentioned fs) := mentioned_nodup fs.
Let N2 : NoDup (mentioned part) := mentioned_nodup part.

Lemma part_in f : In f part -> In f fs.
Proof. intros H. apply (Permutation_in f (Permutation_sym Hp)), in_or_app. auto. Qed.
Lemma part_vars v : In v (mentioned part) -> In v (mentioned fs).
Proof. rewrite !mentioned_in. intros (f & Hf & Hv). exists f. split; auto. apply part_in; auto. Qed.
Lemma part_ok f : In f part -> factor_ok f.
Proof. intros H. apply Hok, part_in; auto. Qed.
Lemma whole_rd : total residual_dim fs <> 0%nat.
Proof. rewrite (total_perm _ _ _ Hp), total_app. lia. Qed.
Lemma part_rlen w : rlen fs w -> rlen part w.
Proof. intros H f Hf. apply H, part_in; auto. Qed.
Lemma part_ne : part <> [].
Proof. intros H. apply Hrd. rewrite H. auto. Qed.
Lemma whole_ne : fs <> [].
Proof. intros H. apply whole_rd. rewrite H. auto. Qed.

Definition prel (local : bool) := restr C local (mentioned fs) (mentioned part).
Definition pext (local : bool) := extend C local (mentioned fs) (mentioned part).

Lemma part_dot w u : rlen fs w -> rlen fs u -> (forall f, In f rest -> w f = vzero (residual_dim f)) ->
  vdot (rvec fs w) (rvec fs u) = vdot (rvec part w) (rvec part u).
Proof.
  intros Hw Hu Hz. rewrite !rvec_vdot by (auto using part_rlen). rewrite (vsum_perm _ _ (Permutation_map _ Hp)), map_app, vsum_app.
  assert (H : forall l, (forall f, In f l -> In f rest) -> vsum (map (fun f => vdot (w f) (u f)) l) = 0).
  { induction l as [|f l IH]; intros Hl; [reflexivity|]. cbn [map]. rewrite vsum_cons, IH, Hz, vdot_zero_l by (intros; apply Hl; cbn; auto). lra. }
  rewrite (H rest) by auto. lra.
Qed.

Lemma ufun_part val w x x' f : prel true x x' -> In f part -> ufun E fs val w x f = ufun E part val w x' f.
Proof.
  intros (_ & _ & H) Hf. unfold ufun, apply_slots. f_equal.
  assert (Hv : forall v, In v (f_vars f) -> block C (graph_layout E fs true) x v = block C (graph_layout E part true) x' v).
  { intros v Hv. apply H. apply mentioned_in. eauto. }
  revert Hv. generalize (f_vars f) (jac_of E val f (w f)). induction l as [|v l IH]; intros [|W Ws] Hv; simpl; auto.
  f_equal; [|apply IH; intros; apply Hv; right; auto]. f_equal. apply Hv. left; auto.
Qed.
Lemma ufun_rest val w x x' f : rlen fs w -> (forall f, In f fs -> jacobian_shape_ok E val f) -> pext true x x' -> In f rest -> ufun E fs val w x f = vzero (residual_dim f).
Proof.
  intros Hw Hj (_ & H) Hf. unfold ufun, apply_slots.
  assert (Hin : In f fs) by (apply (Permutation_in f (Permutation_sym Hp)), in_or_app; auto).
  pose proof (jac_of_ok E fs whole_rd val f (w f) (Hok f Hin) (Hj f Hin) (Hw f Hin)) as HJ.
  assert (Hv : forall v, In v (f_vars f) -> block C (graph_layout E fs true) x v = vzero (vdim C true v)).
  { intros v Hv. apply H; [apply mentioned_in; eauto|]. intros Hu. apply (Hind v Hu). apply mentioned_in. eauto. }
  revert HJ Hv. generalize (f_vars f) (jac_of E val f (w f)). induction 1 as [|v W vs Ws H1 H2 IH]; intros Hv; cbn [zipw fold_right]; auto.
  rewrite IH by (intros; apply Hv; right; auto). unfold C in Hv. rewrite (Hv v) by (left; auto). rewrite mvec_of_zero, H1. apply vadd_zeros.
Qed.

Record jpart (val : var -> pytree R) (A A' : coo R) : Prop := {
  jp_ok : coo_ok A; jp_ok' : coo_ok A';
  jp_rows : fst (m_shape A) = total residual_dim fs; jp_rows' : fst (m_shape A') = total residual_dim part;
  jp_cols : snd (m_shape A) = l_dim L; jp_cols' : snd (m_shape A') = l_dim L';
  jp_act : forall x x', prel true x x' -> exists u, rlen fs u /\ mapply A x = rvec fs u /\ mapply A' x' = rvec part u;
  jp_ext : forall x x', pext true x x' -> exists u, rlen fs u /\ mapply A x = rvec fs u /\ mapply A' x' = rvec part u /\
             forall f, In f rest -> u f = vzero (residual_dim f) }.

Lemma part_jacobians a a' val w : assigns E fs a val -> assigns E part a' val -> (forall f, In f fs -> jacobian_shape_ok E val f) -> rlen fs w ->
  exists A A', compute_whitened_residual_jacobian E g a (rvec fs w) = Ok A /\
    compute_whitened_residual_jacobian E g' a' (rvec part w) = Ok A' /\ jpart val A A'.
Proof.
  intros Ha Ha' Hj Hw.
  assert (Hj' : forall f, In f part -> jacobian_shape_ok E val f) by (intros; apply Hj, part_in; auto).
  destruct (one_jacobian E fs g Hok Hg whole_rd a val w Ha Hj Hw) as (A & EA & HA & Hs & Hx).
  destruct (one_jacobian E part g' part_ok Hg' Hrd a' val w Ha' Hj' (part_rlen _ Hw)) as (A' & EA' & HA' & Hs' & Hx').
  exists A, A'. split; auto. split; auto.
  assert (Hact : forall x x', prel true x x' -> rlen fs (ufun E fs val w x) /\ mapply A x = rvec fs (ufun E fs val w x) /\ mapply A' x' = rvec part (ufun E fs val w x)).
  { intros x x' Hr. pose proof Hr as (H1 & H2 & _). split; [apply ufun_len; auto using whole_rd|].
    split; [apply Hx; auto|]. rewrite Hx' by auto. apply rvec_ext. intros f Hf. symmetry. apply ufun_part; auto. }
  split; auto; try (rewrite ?Hs, ?Hs'; auto).
  - intros x x' Hr. eexists. apply Hact. auto.
  - intros x x' Hr. destruct (Hact x x' (proj1 Hr)) as (H1 & H2 & H3). exists (ufun E fs val w x). split; auto. split; auto. split; auto.
    intros f Hf. apply (ufun_rest val w x x'); auto.
Qed.

Section Rel.
Variables (val : var -> pytree R) (A A' : coo R).
Hypothesis HJ : jpart val A A'.

Lemma jp_dot y y' x x' : pext true y y' -> prel true x x' -> vdot (mapply A y) (mapply A x) = vdot (mapply A' y') (mapply A' x').
Proof.
  intros Hy Hx. destruct (jp_ext _ _ _ HJ y y' Hy) as (u & Hu & -> & -> & Hz). destruct (jp_act _ _ _ HJ x x' Hx) as (v & Hv & -> & ->). apply part_dot; auto.
Qed.
Lemma jp_transpose w : rlen fs w -> prel true (mapply (transpose A) (rvec fs w)) (mapply (transpose A') (rvec part w)).
Proof.
  intros Hw. pose proof HJ as [OA OA' R1 R2 C1 C2 Hact Hext].
  assert (Hl : length (mapply (transpose A) (rvec fs w)) = l_dim L) by (rewrite mapply_length; simpl; auto).
  destruct (restr_to C true _ _ N1 N2 part_vars _ Hl) as (z & Hz).
  apply (restr_unique C true _ _ N1 N2 part_vars _ z); auto.
  - rewrite mapply_length. simpl. auto.
  - intros y y' Hy. pose proof Hy as ((Hy1 & Hy2 & _) & _).
    rewrite <- !mapply_adjoint; auto; try (rewrite C1; auto); try (rewrite C2; auto).
    + destruct (Hext y y' Hy) as (u & Hu & -> & -> & Hzr). apply part_dot; auto.
    + rewrite rvec_length by (apply part_rlen; auto). auto.
    + rewrite rvec_length by auto. auto.
Qed.
Lemma jp_solve b b' lambd it : prel true b b' -> 0 < lambd + Rlit 1 100000 ->
  exists x x', cholmod_solve A b lambd it = Ok x /\ cholmod_solve A' b' lambd it = Ok x' /\ prel true x x'.
Proof.
  intros Hb Hl. pose proof HJ as [OA OA' R1 R2 C1 C2 Hact Hext]. pose proof Hb as (Hb1 & Hb2 & _).
  destruct (cholmod_solve_ok A b lambd it OA Hl) as (x & Ex & Hx); [rewrite C1; auto|].
  destruct (cholmod_solve_ok A' b' lambd it OA' Hl) as (x' & Ex' & Hx'); [rewrite C2; auto|].
  exists x, x'. split; auto. split; auto.
  assert (Lx : length x = l_dim L) by (rewrite (proj1 Hx); auto).
  destruct (restr_to C true _ _ N1 N2 part_vars x Lx) as (z & Hz). pose proof Hz as (_ & Lz & _).
  replace x' with z; auto. apply (normal_unique A' (lambd + Rlit 1 100000) OA' Hl b'); auto.
  apply normal_weak; auto; try (rewrite C2; auto). intros y' Hy'.
  destruct (extend_to C true _ _ N1 N2 part_vars y') as (y & Hy); [rewrite Hy'; auto|]. pose proof Hy as ((Ly & _ & _) & _).
  apply (proj1 (normal_weak A (lambd + Rlit 1 100000) OA b x ltac:(rewrite C1; auto) ltac:(rewrite C1; auto))) with (y := y) in Hx; [|rewrite C1; auto].
  rewrite <- (jp_dot y y' x z), <- (extend_dot C true _ _ N1 N2 part_vars y y' x z), <- (extend_dot C true _ _ N1 N2 part_vars y y' b b') by auto. auto.
Qed.
End Rel.

Hypothesis Hlegal : exists val, legal E fs val.
Lemma part_shaped : well_shaped E part.
Proof.
  destruct Hlegal as (val0 & H0). set (patch := fun (val : var -> pytree R) v => if inb v (mentioned part) then val v else val0 v).
  assert (Hpl : forall val, (forall v, In v (mentioned part) -> value_ok (e_cls E (v_ty v)) (val v)) -> forall v, In v (mentioned fs) -> value_ok (e_cls E (v_ty v)) (patch val v)).
  { intros val Hv v Hin. unfold patch. destruct (inb v (mentioned part)) eqn:Ev; [apply Hv, inb_in; auto | apply H0; auto]. }
  assert (Hpe : forall val f, In f part -> map (patch val) (f_vars f) = map val (f_vars f)).
  { intros val f Hf. apply map_ext_in. intros v Hv. unfold patch. rewrite (proj2 (inb_in v (mentioned part))); auto. apply mentioned_in. eauto. }
  split.
  - intros val f Hv Hf. pose proof (ws_residual E fs Hws (patch val) f (Hpl val Hv) (part_in f Hf)) as H. unfold residual_shape_ok, residual_at in *. rewrite Hpe in H; auto.
  - intros val f Hv Hf. pose proof (ws_jacobian E fs Hws (patch val) f (Hpl val Hv) (part_in f Hf)) as H. unfold jacobian_shape_ok, jacobians_at in *. rewrite Hpe in H; auto.
  - intros v x d Hv. apply (ws_retract E fs Hws). apply part_vars; auto.
Qed.

Lemma part_retract a a' val x x' : holds E fs a val -> holds E part a' val -> prel true x x' ->
  exists p p' val', manifold_retract C a (mkAssign x (g_local_layout g)) = Ok p /\
    manifold_retract C a' (mkAssign x' (g_local_layout g')) = Ok p' /\
    as_layout p = as_layout a /\ as_layout p' = as_layout a' /\ holds E fs p val' /\ holds E part p' val'.
Proof.
  intros Ha Ha' (Hx1 & Hx2 & Hb). rewrite (ig_local _ _ _ Hg), (ig_local _ _ _ Hg').
  pose proof (holds_legal E fs CO a val Ha) as Hl.
  destruct (one_retract E fs CO Hws a val x Ha Hx1) as (p & Ep & HLp & Hh).
  destruct (one_retract E part CO part_shaped a' val x' Ha' Hx2) as (p' & Ep' & HLp' & Hh').
  set (val' := fun v => unwrap (val v) (retract (C (v_ty v)) (val v) (block C L x v))).
  assert (Hr : forall v, In v (mentioned fs) -> retract (C (v_ty v)) (val v) (block C L x v) = Ok (val' v)).
  { intros v Hv. destruct (ws_retract E fs Hws v (val v) (block C L x v)) as (y & Ey & _); auto.
    - apply (block_length C (mentioned fs) true N1); auto.
    - fold C in Ey. unfold val'. rewrite Ey. auto. }
  exists p, p', val'. split; auto. split; auto. split; auto. split; auto. split; [apply Hh; auto|].
  apply Hh'. intros v Hv. rewrite <- (Hr v) by (apply part_vars; auto). f_equal. symmetry. apply Hb; auto.
Qed.
Lemma part_cost a a' val : holds E fs a val -> holds E part a' val ->
  exists c c' w, rlen fs w /\ compute_cost E g a = Ok (c, rvec fs w) /\ compute_cost E g' a' = Ok (c', rvec part w).
Proof.
  intros Ha Ha'. pose proof (holds_legal E fs CO a val Ha) as Hl.
  destruct (one_cost E fs g Hok Hg a val (holds_assigns E fs a val Ha)) as (Hw & Hc).
  { intros f Hf. apply (ws_residual E fs Hws); auto. }
  { apply whole_ne; auto. }
  destruct (one_cost E part g' part_ok Hg' a' val (holds_assigns E part a' val Ha')) as (_ & Hc').
  { intros f Hf. apply (ws_residual E fs Hws); auto. apply part_in; auto. }
  { apply part_ne. }
  eexists _, _, _. split; [exact Hw|]. split; [exact Hc|]. exact Hc'.
Qed.

Record psrel (s s' : sstate R) : Prop := {
  pr_val : exists val, holds E fs (s_assign s) val /\ holds E part (s_assign s') val;
  pr_res : exists w, rlen fs w /\ s_res s = rvec fs w /\ s_res s' = rvec part w;
  pr_iter : s_iter s = s_iter s'; pr_done : s_done s = s_done s' }.
Definition prrel (r r' : result (sstate R)) : Prop :=
  match r, r' with Ok s, Ok s' => psrel s s' | Err e, Err e' => e = e' | _, _ => False end.

Lemma part_update s s' : psrel s s' ->
  exists b b' x x' p p' val', gn_update E cholmod_solve g s = Ok (b, mkAssign x (g_local_layout g), p) /\
    gn_update E cholmod_solve g' s' = Ok (b', mkAssign x' (g_local_layout g'), p') /\
    prel true b b' /\ prel true x x' /\ holds E fs p val' /\ holds E part p' val'.
Proof.
  intros Hs. destruct (pr_val _ _ Hs) as (val & Ha & Ha'). destruct (pr_res _ _ Hs) as (w & Hw & Er & Er').
  destruct (part_jacobians (s_assign s) (s_assign s') val w) as (A & A' & EA & EA' & HJ); auto.
  { apply holds_assigns; auto. } { apply holds_assigns; auto. } { intros f Hf. apply (ws_jacobian E fs Hws); auto. apply (holds_legal E fs CO (s_assign s)); auto. }
  unfold gn_update. rewrite Er, Er', EA, EA'. cbn [bind].
  rewrite !matmul_mapply.
  2: apply transpose_ok, (jp_ok' _ _ _ HJ).
  2: { cbn [transpose m_shape snd]. rewrite (jp_rows' _ _ _ HJ). apply rvec_length. apply part_rlen; auto. }
  2: apply transpose_ok, (jp_ok _ _ _ HJ).
  2: { cbn [transpose m_shape snd]. rewrite (jp_rows _ _ _ HJ). apply rvec_length; auto. }
  cbn [bind]. pose proof (jp_transpose val A A' HJ w Hw) as Hb. apply (restr_map C true _ _ nneg) in Hb.
  fold (vneg (mapply (transpose A) (rvec fs w))) (vneg (mapply (transpose A') (rvec part w))) in Hb.
  destruct (jp_solve val A A' HJ _ _ n0 (s_iter s) Hb) as (x & x' & Ex & Ex' & Hx).
  { unfold Rlit. rn. lra. }
  rewrite <- (pr_iter _ _ Hs), Ex, Ex'. cbn [bind].
  destruct (part_retract _ _ val x x' Ha Ha' Hx) as (p & p' & val' & Ep & Ep' & _ & _ & Hp1 & Hp2). fold C. rewrite Ep, Ep'. cbn [bind].
  exists (vneg (mapply (transpose A) (rvec fs w))), (vneg (mapply (transpose A') (rvec part w))), x, x', p, p', val'. repeat (split; auto).
Qed.
Lemma part_fixed it s s' : psrel s s' -> prrel (fixed_step E it cholmod_solve g s) (fixed_step E it cholmod_solve g' s').
Proof.
  intros Hs. destruct (part_update s s' Hs) as (b & b' & x & x' & p & p' & val' & Eu & Eu' & Hb & Hx & Hp1 & Hp2).
  unfold fixed_step. rewrite Eu, Eu'. cbn [bind].
  destruct (part_cost p p' val' Hp1 Hp2) as (c & c' & w & Hw & -> & ->). cbn [bind fst snd].
  split; cbn [s_assign s_res s_iter s_done].
  - exists val'; auto.
  - exists w; auto.
  - rewrite (pr_iter _ _ Hs). auto.
  - rewrite (pr_iter _ _ Hs). auto.
Qed.
Lemma part_loop (step step' : sstate R -> result (sstate R)) :
  (forall s s', psrel s s' -> prrel (step s) (step' s')) ->
  forall fuel s s', psrel s s' ->
  match while_loop fuel (fun s => negb (s_done s)) step s, while_loop fuel (fun s => negb (s_done s)) step' s' with
  | None, None => True
  | Some r, Some r' => prrel r r'
  | _, _ => False
  end.
Proof.
  intros Hstep. induction fuel as [|fuel IH]; intros s s' Hs; simpl; rewrite <- (pr_done _ _ Hs); destruct (s_done s); simpl; auto.
  pose proof (Hstep s s' Hs) as H. unfold prrel in H.
  destruct (step s) as [s1|e], (step' s') as [s1'|e']; try contradiction; [|exact H]. apply IH; auto.
Qed.
Lemma part_iterate (step step' : sstate R -> result (sstate R)) :
  (forall s s', psrel s s' -> prrel (step s) (step' s')) ->
  forall n s s', psrel s s' -> prrel (iterate n step s) (iterate n step' s').
Proof.
  intros Hstep. induction n as [|n IH]; intros s s' Hs; cbn [iterate]; auto.
  pose proof (Hstep s s' Hs) as H. unfold prrel in H.
  destruct (step s) as [s1|e], (step' s') as [s1'|e']; try contradiction; [|exact H]. cbn [bind]. apply IH. auto.
Qed.
Lemma part_fixed_solve init init' val unroll it fuel : holds E fs init val -> holds E part init' val ->
  part_outcome E fs part (fixed_solve E fuel unroll it cholmod_solve g init) (fixed_solve E fuel unroll it cholmod_solve g' init').
Proof.
  intros Ha Ha'. destruct (part_cost init init' val Ha Ha') as (c & c' & w & Hw & Ec & Ec').
  unfold fixed_solve, init_state. rewrite Ec, Ec'. cbn [bind fst snd].
  set (s := mkState 0 init c (rvec fs w) false n0). set (s' := mkState 0 init' c' (rvec part w) false n0).
  assert (Hs : psrel s s') by (split; cbn; auto; [exists val | exists w]; auto).
  assert (Hend : forall r r', prrel r r' ->
    part_outcome E fs part (match r with Ok st => Some (Ok (s_assign st)) | Err e => Some (Err e) end)
      (match r' with Ok st => Some (Ok (s_assign st)) | Err e => Some (Err e) end)).
  { intros [s1|e] [s1'|e']; simpl; try tauto. intros H. destruct (pr_val _ _ H) as (val1 & H1 & H1').
    exists val1. split; apply holds_assigns; auto. }
  destruct unroll.
  - apply Hend. apply part_iterate; auto. intros. apply part_fixed; auto.
  - pose proof (part_loop (fixed_step E it cholmod_solve g) (fixed_step E it cholmod_solve g')) as H.
    specialize (H ltac:(intros; apply part_fixed; auto) fuel s s' Hs).
    destruct (while_loop fuel _ (fixed_step E it cholmod_solve g) s) as [r|], (while_loop fuel _ (fixed_step E it cholmod_solve g') s') as [r'|]; try contradiction; auto.
Qed.
End Part.
