(* The steps the solvers take and when they stop, read off one iteration. *)
From Coq Require Import List Arith Bool ZArith Lia Reals Lra.
From Verif Require Import Num NumR Py Arr MLayout MAssign MNoise MSparse MFactor MGraph MLinear MSolver SpecLayout SpecTree SpecAssign SpecGraph SpecSparse SpecSolver SpecInv.
From Verif Require Import PBase PLayout PAssign PAssign2 PGraph PGraph2 PGraph4 PExGraph PExAssign PVec PSparse PLinear PGraph5 PSolver PSolver2 PSolverR.
Import ListNotations.
Local Open Scope R_scope.

Section Real.
Variable E : env R.
Let C := e_cls E.

Lemma checked_converged cfg s L c d ng b : check_convergence E cfg s c (mkAssign d L) ng = Ok b ->
  (b = true <-> converged E cfg s L c d ng).
Proof.
  intros H. destruct (convergence_meaning E cfg s c (mkAssign d L) ng b H) as (a' & Ea & Hb). cbn [as_layout as_storage] in *.
  rewrite Hb. unfold converged. split; [intros Ht; exists a'; auto|]. intros (a2 & Ea2 & Ht). rewrite Ea in Ea2. injection Ea2 as <-. exact Ht.
Qed.
Lemma exceeded_iff cfg (s : sstate R) i : i = S (s_iter s) ->
  (exceeded_max_iterations cfg s = true <-> (max_iterations cfg <= Z.of_nat i)%Z).
Proof. intros ->. unfold exceeded_max_iterations. rewrite Z.leb_le. lia. Qed.

Lemma when_solvers_stop lin g s s' :
  (forall cfg, gn_step E cfg lin g s = Ok s' -> exists A ATr d,
     compute_whitened_residual_jacobian E g (s_assign s) (s_res s) = Ok A /\ matmul (transpose A) (s_res s) = Ok ATr /\
     lin A (vneg ATr) 0 (s_iter s) = Ok d /\
     manifold_retract (e_cls E) (s_assign s) (mkAssign d (g_local_layout g)) = Ok (s_assign s') /\
     (s_done s' = true <-> (max_iterations cfg <= Z.of_nat (s_iter s'))%Z \/
        converged E cfg s (g_local_layout g) (s_cost s') d (vneg ATr))) /\
  (forall cfg, lm_step E cfg lin g s = Ok s' -> exists A ATb d prop c r q,
     trust_step E g (lm_quality_min cfg) s s' A d prop c r q /\ matmul (transpose A) (vneg (s_res s)) = Ok ATb /\
     lin A ATb (s_extra s) (s_iter s) = Ok d /\
     (s_done s' = true <-> (max_iterations (lm_term cfg) <= Z.of_nat (s_iter s'))%Z \/
        (lm_quality_min cfg <= q /\ converged E (lm_term cfg) s (g_local_layout g) c d ATb))) /\
  (forall cfg, dl_step E cfg lin g s = Ok s' -> exists A ATb d prop c r q,
     trust_step E g (dl_quality_min cfg) s s' A d prop c r q /\ matmul (transpose A) (vneg (s_res s)) = Ok ATb /\
     (s_done s' = true <-> (max_iterations (dl_term cfg) <= Z.of_nat (s_iter s'))%Z \/
        (dl_quality_min cfg <= q /\ converged E (dl_term cfg) s (g_local_layout g) c d ATb))).
Proof.
  split; [|split]; intros cfg H.
  - unfold gn_step in H. apply bind_ok in H. destruct H as (((ATb & delta) & a') & Eu & H).
    unfold gn_update in Eu. apply bind_ok in Eu. destruct Eu as (A & EA & Eu). apply bind_ok in Eu. destruct Eu as (b & Eb & Eu).
    apply bind_ok in Eu. destruct Eu as (d & Ed & Eu). apply bind_ok in Eu. destruct Eu as (a1 & Er & Eu). injection Eu as <- <- <-.
    apply bind_ok in H. destruct H as ((c & r) & Ec & H). apply bind_ok in H. destruct H as (conv & Ev & H). injection H as <-.
    cbn [s_assign s_cost s_done s_iter fst] in *. exists A, b, d. do 4 (split; [auto|]).
    rewrite orb_true_iff. rewrite <- (checked_converged _ _ _ _ _ _ _ Ev). rewrite (exceeded_iff cfg s (s_iter s + 1)) by lia. reflexivity.
  - destruct (lm_tr E _ _ _ _ _ H) as (A & ATb & d & prop & c & r & q & Ht & Eb & Ed & _ & conv & Ev & Hd).
    exists A, ATb, d, prop, c, r, q. do 3 (split; [auto|]). rewrite Hd, orb_true_iff, andb_true_iff.
    rewrite (checked_converged _ _ _ _ _ _ _ Ev). rewrite (exceeded_iff _ s (s_iter s')) by apply (tr_iter _ _ _ _ _ _ _ _ _ _ _ Ht).
    rn. rewrite Rleb_ok. reflexivity.
  - destruct (dl_tr E _ _ _ _ _ H) as (A & ATb & gn & Asd & d & prop & c & r & q & Ht & Eb & Eg & Ea & Ed & _ & conv & Ev & Hd).
    exists A, ATb, d, prop, c, r, q. do 2 (split; [auto|]). rewrite Hd, orb_true_iff, andb_true_iff.
    rewrite (checked_converged _ _ _ _ _ _ _ Ev). rewrite (exceeded_iff _ s (s_iter s')) by apply (tr_iter _ _ _ _ _ _ _ _ _ _ _ Ht).
    rn. rewrite Rleb_ok. reflexivity.
Qed.

Lemma dogleg_iteration fs g val cfg lin s s' : (forall f, In f fs -> factor_ok f) -> graph_make E fs = Ok g ->
  assigns E fs (s_assign s) val -> (forall f, In f fs -> jacobian_shape_ok E val f) -> total residual_dim fs <> 0%nat ->
  length (s_res s) = total residual_dim fs -> sized lin -> 0 < s_extra s ->
  dl_step E cfg lin g s = Ok s' ->
  exists A ATb gn Asd d prop c r q, trust_step E g (dl_quality_min cfg) s s' A d prop c r q /\
    matmul (transpose A) (vneg (s_res s)) = Ok ATb /\ lin A ATb 0 (s_iter s) = Ok gn /\ matmul A ATb = Ok Asd /\
    (ATb <> vzero (length ATb) \/ vnorm gn <= s_extra s ->
     let a := vscale (sumsq ATb / sumsq Asd) ATb in
     vnorm d <= s_extra s /\
     (vnorm gn <= s_extra s -> d = gn) /\
     (s_extra s < vnorm gn -> vnorm d = s_extra s) /\
     (s_extra s < vnorm gn -> s_extra s <= vnorm a -> d = vscale (s_extra s / vnorm a) a) /\
     (s_extra s < vnorm gn -> vnorm a < s_extra s -> exists beta, 0 < beta <= 1 /\ d = vadd a (vscale beta (vsub gn a)))).
Proof.
  intros Hok Hg Ha Hjs Hpos Hlen Hsz Hr H. destruct (made E fs g Hok Hg) as (Hgr & Hne).
  destruct (dl_tr E _ _ _ _ _ H) as (A & ATb & gn & Asd & d & prop & c & r & q & Ht & Eb & Eg & Ea & Ed & _).
  destruct (jacobian_action E fs g (s_assign s) (s_res s) val Hok Hjs Hgr Ha Hlen Hpos) as (A' & EA & HA & Hsh & _).
  pose proof (tr_A _ _ _ _ _ _ _ _ _ _ _ Ht) as EA'. rewrite EA in EA'. injection EA' as ->.
  assert (Hfst : length (vneg (s_res s)) = fst (m_shape A)) by (rewrite vneg_length, Hsh, Hlen; auto).
  assert (HlATb : length ATb = snd (m_shape A)).
  { rewrite matmul_mapply in Eb by (try apply transpose_ok; auto). injection Eb as <-. apply mapply_length. }
  assert (Hgn : length gn = snd (m_shape A)) by (apply (Hsz _ _ _ _ _ HlATb Eg)).
  destruct (dogleg_in_region A _ gn (s_extra s) ATb Asd HA Hfst Hgn Hr Eb Ea) as (_ & Hd).
  exists A, ATb, gn, Asd, d, prop, c, r, q. do 4 (split; [auto|]). rewrite HlATb. intros Hc a. rewrite Ed.
  destruct (Hd Hc) as (D1 & D2 & D3 & D4 & D5). do 4 (split; [auto|]). intros K1 K2. destruct (D5 K1 K2) as (beta & B1 & B2 & _). eauto.
Qed.
End Real.

Lemma block_sizes {T} (C : cenv (T := T)) t : tree_ok (vc_default (C t)) ->
  tdim C false t = scalars (vc_default (C t)) /\
  tdim C true t = match vc_local (C t) with Some n => n | None => scalars (vc_default (C t)) end /\
  forall local v, v_ty v = t -> vdim C local v = tdim C local t.
Proof.
  intros H. unfold tdim, local_dim. rewrite (scalars_dim _ H). do 2 (split; [reflexivity|]). intros local v <-. reflexivity.
Qed.
