(* Independent subproblems with the conjugate gradient solver run to convergence. *)
From Coq Require Import List Arith Bool Lia Permutation Reals Lra ZArith.
From Verif Require Import Num NumR Py Arr MLayout MAssign MNoise MSparse MFactor MGraph MLinear MSolver SpecLayout SpecTree SpecAssign SpecGraph SpecSparse SpecCgLin SpecOrder SpecPart.
From Verif Require Import PBase PLayout PTree PAssign PAssign2 PAssign3 PStack PGraph PGraph2 PJac PVec PSparse PLinear PGraph3 PGraph4 PGraph5 PHold POrder POrder2 POrder3 PCg PFin PCgNan PCgConv PLinCg PLocal PPart.
Import ListNotations.
Local Open Scope R_scope.

Definition injective (A : coo R) : Prop := forall x, length x = snd (m_shape A) -> mapply A x = vzero (fst (m_shape A)) -> x = vzero (snd (m_shape A)).

Lemma mapply_nil (A : coo R) : coo_ok A -> mapply A (vzero (snd (m_shape A))) = vzero (fst (m_shape A)).
Proof.
  intros Hok. apply (vec_ext (fst (m_shape A))); [apply mapply_length | apply vzero_length|]. intros y Hy.
  rewrite vdot_comm, mapply_adjoint by (auto; apply vzero_length). rewrite vdot_zero_l, vdot_zero_r. auto.
Qed.
Lemma injective_columns (A : coo R) : coo_ok A -> injective A -> no_zero_column A.
Proof.
  intros Hok Hi j Hj.
  assert (Hd : forall ts : list (nat * nat * R), (exists r v, In (r, j, v) ts /\ v <> 0) \/ (forall r v, In (r, j, v) ts -> v = 0)).
  { induction ts as [|[[r c] v] ts [(r' & v' & H1 & H2)|IH]]; [right; intros r v [] | left; exists r', v'; split; [right|]; auto |].
    destruct (Nat.eq_dec c j) as [->|Hc].
    - destruct (Req_dec v 0) as [->|Hv]; [|left; exists r, v; split; [left|]; auto]. right. intros r' v' [H|H]; [congruence | eapply IH; eauto].
    - right. intros r' v' [H|H]; [congruence | eapply IH; eauto]. }
  destruct (Hd (triples A)) as [H|H]; auto. exfalso.
  assert (Hz : mapply A (unitv (snd (m_shape A)) j) = vzero (fst (m_shape A))).
  { apply (vec_ext (fst (m_shape A))); [apply mapply_length | apply vzero_length|]. intros y Hy.
    rewrite vdot_comm, mapply_adjoint by (auto; apply unitv_length). rewrite vdot_unitv by (auto; apply mapply_length).
    rewrite (proj1 (zero_column A y j Hok Hy Hj H)), vdot_zero_r. auto. }
  apply Hi in Hz; [|apply unitv_length]. assert (Hn : nth j (unitv (snd (m_shape A)) j) 0 = 1) by (rewrite nth_unitv by auto; rewrite Nat.eqb_refl; auto).
  rewrite Hz in Hn. rewrite (nth_vzero (N := NumR)) in Hn. rn. lra.
Qed.

Section Part.
Variable E : env R.
Let C := e_cls E.
Variables fs part rest : list (factor R).
Variables g g' : graph R.
Hypothesis CO : classes_ok C.
Hypothesis Hok : forall f, In f fs -> factor_ok f.
Hypothesis Hp : Permutation fs (part ++ rest).
Hypothesis Hind : independent part rest.
Hypothesis Hg : is_graph E fs g.
Hypothesis Hg' : is_graph E part g'.
Hypothesis Hrd : total residual_dim part <> 0%nat.
Hypothesis Hws : well_shaped E fs.
Hypothesis Hlegal : exists val, legal E fs val.
Hypothesis Hdet : determined E fs g.
Variable tol : nat -> R.
Hypothesis Htol : forall i, tol i = 0.
Let N1 : NoDup (mentioned fs) := mentioned_nodup fs.
Let N2 : NoDup (mentioned part) := mentioned_nodup part.
Let PV := part_vars fs part rest Hp.

Lemma part_injective val A A' : jpart E fs part rest val A A' -> injective A -> injective A'.
Proof.
  intros HJ Hi x' Hx' H0. destruct HJ as [OA OA' R1 R2 C1 C2 Hact Hext] eqn:EJ.
  destruct (extend_to C true _ _ N1 N2 PV x') as (x & Hx); [rewrite Hx'; auto|]. pose proof Hx as ((Lx & _ & _) & _).
  assert (Hd : vdot (mapply A x) (mapply A x) = 0).
  { rewrite (jp_dot E fs part rest Hp val A A' HJ x x' x x' Hx (proj1 Hx)), H0. apply vdot_zero_l. }
  rewrite <- sumsq_dot in Hd. apply PVec.sumsq_zero in Hd. rewrite mapply_length in Hd. apply Hi in Hd; [|rewrite C1; auto].
  assert (Hs : vdot x' x' = 0). { rewrite <- (extend_dot C true _ _ N1 N2 PV x x' x x' Hx (proj1 Hx)), Hd. apply vdot_zero_l. }
  rewrite <- sumsq_dot in Hs. apply PVec.sumsq_zero in Hs. rewrite Hx' in Hs. auto.
Qed.

Lemma cg_weak (A : coo R) rhs it : coo_ok A -> length rhs = fst (m_shape A) -> injective A ->
  exists x, cg_solve tol A (mapply (transpose A) rhs) 0 it = Ok x /\ length x = snd (m_shape A) /\
    forall y, length y = snd (m_shape A) -> vdot (mapply A y) (mapply A x) = vdot y (mapply (transpose A) rhs).
Proof.
  intros OA Hr Hi. destruct (cg_converges A rhs 0 it tol OA (Rle_refl 0) Hr (injective_columns A OA Hi)) as (x & Ex & _ & Lx & Hs & _).
  exists x. split; [exact Ex|]. split; [exact Lx|]. set (c := mapply (transpose A) rhs) in *. assert (Lc : length c = snd (m_shape A)) by apply mapply_length.
  assert (Lo : length (cg_op A 0 x) = snd (m_shape A)) by (apply cg_op_length; auto).
  rewrite (Htol it) in Hs. assert (Hz : sumsq (vsub c (cg_op A 0 x)) = 0) by (pose proof (sumsq_nonneg (vsub c (cg_op A 0 x))); lra).
  apply PVec.sumsq_zero in Hz. intros y Hy. pose proof (cg_form A 0 x y OA Lx Hy) as Hf.
  assert (H0 : vdot y (vsub c (cg_op A 0 x)) = 0) by (rewrite Hz; apply vdot_zero_r). rewrite vdot_sub_r in H0 by congruence. lra.
Qed.

Lemma jp_cg val A A' w it : jpart E fs part rest val A A' -> rlen fs w -> injective A ->
  exists x x', cg_solve tol A (vneg (mapply (transpose A) (rvec fs w))) 0 it = Ok x /\
    cg_solve tol A' (vneg (mapply (transpose A') (rvec part w))) 0 it = Ok x' /\ prel E fs part true x x'.
Proof.
  intros HJ Hw Hi. pose proof (part_injective val A A' HJ Hi) as Hi'. pose proof HJ as [OA OA' R1 R2 C1 C2 Hact Hext].
  assert (L1 : length (rvec fs w) = fst (m_shape A)) by (rewrite rvec_length by auto; auto).
  assert (L2 : length (rvec part w) = fst (m_shape A')) by (rewrite rvec_length by (apply (part_rlen fs part rest Hp); auto); auto).
  pose proof (jp_transpose E fs part rest Hp val A A' HJ w Hw) as Hb. apply (restr_map C true _ _ nneg) in Hb.
  fold (vneg (mapply (transpose A) (rvec fs w))) (vneg (mapply (transpose A') (rvec part w))) in Hb.
  rewrite !neg_gradient in Hb |- * by auto.
  destruct (cg_weak A (vneg (rvec fs w)) it OA) as (x & Ex & Lx & Hx); auto; [unfold vneg; rewrite map_length; auto|].
  destruct (cg_weak A' (vneg (rvec part w)) it OA') as (x' & Ex' & Lx' & Hx'); auto; [unfold vneg; rewrite map_length; auto|].
  exists x, x'. split; auto. split; auto.
  destruct (restr_to C true _ _ N1 N2 PV x ltac:(rewrite Lx; auto)) as (z & Hz). pose proof Hz as (_ & Lz & _).
  assert (Lz' : length z = snd (m_shape A')) by (rewrite C2; auto).
  replace x' with z; auto.
  assert (Hw0 : forall y', length y' = snd (m_shape A') -> vdot (mapply A' y') (mapply A' z) = vdot y' (mapply (transpose A') (vneg (rvec part w)))).
  { intros y' Hy'. destruct (extend_to C true _ _ N1 N2 PV y' ltac:(rewrite Hy'; auto)) as (y & Hy). pose proof Hy as ((Ly & _ & _) & _).
    rewrite <- (jp_dot E fs part rest Hp val A A' HJ y y' x z Hy Hz), <- (extend_dot C true _ _ N1 N2 PV y y' _ _ Hy Hb). apply Hx. rewrite Ly; auto. }
  assert (Ls : length (vsub z x') = snd (m_shape A')) by (rewrite vsub_length; congruence).
  assert (Hd : vdot (mapply A' (vsub z x')) (mapply A' (vsub z x')) = 0).
  { rewrite (mapply_sub A' OA' z x') at 2 by auto. rewrite vdot_sub_r by (rewrite !mapply_length; auto). rewrite Hw0, Hx' by auto. lra. }
  rewrite <- sumsq_dot in Hd. apply PVec.sumsq_zero in Hd. rewrite mapply_length in Hd. apply Hi' in Hd; auto.
  apply (vec_ext (snd (m_shape A'))); auto. intros y Hy.
  assert (H0 : vdot y (vsub z x') = 0) by (rewrite Hd; apply vdot_zero_r). rewrite vdot_sub_r in H0 by congruence. lra.
Qed.

Lemma cg_part_fixed it s s' : psrel E fs part s s' -> prrel E fs part (fixed_step E it (cg_solve tol) g s) (fixed_step E it (cg_solve tol) g' s').
Proof.
  intros Hs. destruct (pr_val _ _ _ _ _ Hs) as (val & Ha & Ha'). destruct (pr_res _ _ _ _ _ Hs) as (w & Hw & Er & Er').
  destruct (part_jacobians E fs part rest g g' Hok Hp Hind Hg Hg' Hrd (s_assign s) (s_assign s') val w) as (A & A' & EA & EA' & HJ); auto.
  { apply holds_assigns; auto. } { apply holds_assigns; auto. } { intros f Hf. apply (ws_jacobian E fs Hws); auto. apply (holds_legal E fs CO (s_assign s)); auto. }
  assert (Hi : injective A).
  { intros x Hx H0. apply (Hdet _ val _ _ (holds_assigns _ _ _ _ Ha) (rvec_length fs w Hw) EA); auto. rewrite <- H0. apply matmul_mapply; auto. apply (jp_ok _ _ _ _ _ _ _ HJ). }
  unfold fixed_step, gn_update. rewrite Er, Er', EA, EA'. cbn [bind].
  rewrite !matmul_mapply.
  2: apply transpose_ok, (jp_ok' _ _ _ _ _ _ _ HJ).
  2: { cbn [transpose m_shape snd]. rewrite (jp_rows' _ _ _ _ _ _ _ HJ). apply rvec_length. apply (part_rlen fs part rest Hp); auto. }
  2: apply transpose_ok, (jp_ok _ _ _ _ _ _ _ HJ).
  2: { cbn [transpose m_shape snd]. rewrite (jp_rows _ _ _ _ _ _ _ HJ). apply rvec_length; auto. }
  cbn [bind]. destruct (jp_cg val A A' w (s_iter s) HJ Hw Hi) as (x & x' & Ex & Ex' & Hx).
  rewrite <- (pr_iter _ _ _ _ _ Hs). change (@n0 R NumR) with 0. rewrite Ex, Ex'. cbn [bind].
  destruct (part_retract E fs part rest g g' CO Hp Hg Hg' Hws Hlegal _ _ val x x' Ha Ha' Hx) as (p & p' & val' & Ep & Ep' & _ & _ & Hp1 & Hp2). rewrite Ep, Ep'. cbn [bind].
  destruct (part_cost E fs part rest g g' CO Hok Hp Hg Hg' Hrd Hws p p' val' Hp1 Hp2) as (c & c' & w' & Hw' & -> & ->). cbn [bind fst snd].
  split; cbn [s_assign s_res s_iter s_done]; eauto.
Qed.

Lemma cg_part_solve init init' val unroll it fuel : holds E fs init val -> holds E part init' val ->
  part_outcome E fs part (fixed_solve E fuel unroll it (cg_solve tol) g init) (fixed_solve E fuel unroll it (cg_solve tol) g' init').
Proof.
  intros Ha Ha'. destruct (part_cost E fs part rest g g' CO Hok Hp Hg Hg' Hrd Hws init init' val Ha Ha') as (c & c' & w & Hw & Ec & Ec').
  unfold fixed_solve, init_state. rewrite Ec, Ec'. cbn [bind fst snd].
  set (s := mkState 0 init c (rvec fs w) false n0). set (s' := mkState 0 init' c' (rvec part w) false n0).
  assert (Hs : psrel E fs part s s') by (split; cbn; auto; [exists val | exists w]; auto).
  assert (Hend : forall r r', prrel E fs part r r' ->
    part_outcome E fs part (match r with Ok st => Some (Ok (s_assign st)) | Err e => Some (Err e) end)
      (match r' with Ok st => Some (Ok (s_assign st)) | Err e => Some (Err e) end)).
  { intros [s1|e] [s1'|e']; simpl; try tauto. intros H. destruct (pr_val _ _ _ _ _ H) as (val1 & H1 & H1').
    exists val1. split; apply holds_assigns; auto. }
  destruct unroll.
  - apply Hend. apply part_iterate; auto. intros. apply cg_part_fixed; auto.
  - pose proof (part_loop E fs part (fixed_step E it (cg_solve tol) g) (fixed_step E it (cg_solve tol) g')) as H.
    specialize (H ltac:(intros; apply cg_part_fixed; auto) fuel s s' Hs).
    destruct (while_loop fuel _ (fixed_step E it (cg_solve tol) g) s) as [r|], (while_loop fuel _ (fixed_step E it (cg_solve tol) g') s') as [r'|]; try contradiction; auto.
Qed.
End Part.
