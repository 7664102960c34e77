(* Lockstep simulation of solve() on two graphs over a permuted factor list. *)
From Coq Require Import List Arith Bool Lia Permutation Reals Lra ZArith.
From Verif Require Import Num NumR Py Arr MLayout MAssign MNoise MSparse MFactor MGraph MLinear MSolver SpecLayout SpecTree SpecAssign SpecGraph SpecSparse SpecOrder.
From Verif Require Import PBase PLayout PTree PAssign PAssign2 PAssign3 PStack PGraph PGraph2 PJac PVec PSparse PLinear PGraph3 PGraph4 PGraph5 PHold POrder POrder2.
Import ListNotations.
Local Open Scope R_scope.


Section Two.
Variable E : env R.
Let C := e_cls E.
Variables fs fs' : list (factor R).
Variables g g' : graph R.
Hypothesis CO : classes_ok C.
Hypothesis Hok : forall f, In f fs -> factor_ok f.
Hypothesis Hp : Permutation fs fs'.
Hypothesis Hg : is_graph E fs g.
Hypothesis Hg' : is_graph E fs' g'.
Hypothesis Hrd : total residual_dim fs <> 0%nat.
Hypothesis Hws : well_shaped E fs.
Let L := graph_layout E fs true.
Let L' := graph_layout E fs' true.
Let Hvars := two_vars fs fs' Hp.
Let N1 : NoDup (mentioned fs) := mentioned_nodup fs.
Let N2 : NoDup (mentioned fs') := mentioned_nodup fs'.

Lemma well_shaped' : well_shaped E fs'.
Proof.
  split.
  - intros val f Hv Hf. apply (ws_residual E fs Hws); [intros v Hin; apply Hv, Hvars; auto | apply (two_in fs fs' Hp); auto].
  - intros val f Hv Hf. apply (ws_jacobian E fs Hws); [intros v Hin; apply Hv, Hvars; auto | apply (two_in fs fs' Hp); auto].
  - intros v x d Hv. apply (ws_retract E fs Hws). apply Hvars; auto.
Qed.

Lemma two_storage a a' val : holds E fs a val -> holds E fs' a' val -> lrel E fs fs' false (as_storage a) (as_storage a').
Proof.
  intros Ha Ha'. destruct (holds_storage E fs CO a val Ha) as (H1 & H2). destruct (holds_storage E fs' CO a' val Ha') as (H3 & H4).
  repeat split; auto. intros v Hv. fold (graph_layout E fs false) (graph_layout E fs' false). 
  transitivity (flatten (val v)); [apply H2; auto | symmetry; apply H4, Hvars; auto].
Qed.

Lemma two_retract a a' val x x' : holds E fs a val -> holds E fs' a' val -> lrel E fs fs' true x x' ->
  exists p p' val', manifold_retract C a (mkAssign x (g_local_layout g)) = Ok p /\
    manifold_retract C a' (mkAssign x' (g_local_layout g')) = Ok p' /\
    as_layout p = as_layout a /\ as_layout p' = as_layout a' /\ holds E fs p val' /\ holds E fs' p' val'.
Proof.
  intros Ha Ha' (Hx1 & Hx2 & Hb). rewrite (ig_local _ _ _ Hg), (ig_local _ _ _ Hg').
  pose proof (holds_legal E fs CO a val Ha) as Hl.
  destruct (one_retract E fs CO Hws a val x Ha Hx1) as (p & Ep & HLp & Hh).
  destruct (one_retract E fs' CO well_shaped' a' val x' Ha' Hx2) as (p' & Ep' & HLp' & Hh').
  set (val' := fun v => unwrap (val v) (retract (C (v_ty v)) (val v) (block C L x v))).
  assert (Hr : forall v, In v (mentioned fs) -> retract (C (v_ty v)) (val v) (block C L x v) = Ok (val' v)).
  { intros v Hv. destruct (ws_retract E fs Hws v (val v) (block C L x v)) as (y & Ey & _); auto.
    - apply (block_length C (mentioned fs) true N1); auto.
    - fold C in Ey. unfold val'. rewrite Ey. auto. }
  exists p, p', val'. split; auto. split; auto. split; auto. split; auto. split; [apply Hh; auto|].
  apply Hh'. intros v Hv. apply Hvars in Hv. rewrite <- (Hr v Hv). f_equal. symmetry. apply Hb; auto.
Qed.

Lemma two_cost a a' val : holds E fs a val -> holds E fs' a' val ->
  exists c w, rlen fs w /\ compute_cost E g a = Ok (c, rvec fs w) /\ compute_cost E g' a' = Ok (c, rvec fs' w).
Proof.
  intros Ha Ha'. pose proof (holds_legal E fs CO a val Ha) as Hl.
  destruct (one_cost E fs g Hok Hg a val (holds_assigns E fs a val Ha)) as (Hw & Hc).
  { intros f Hf. apply (ws_residual E fs Hws); auto. }
  { apply two_ne; auto. }
  destruct (one_cost E fs' g' (two_ok fs fs' Hok Hp) Hg' a' val (holds_assigns E fs' a' val Ha')) as (_ & Hc').
  { intros f Hf. apply (ws_residual E fs Hws); auto. apply (two_in fs fs' Hp); auto. }
  { apply two_ne. apply (two_rd fs fs'); auto. }
  eexists _, _. split; [exact Hw|]. split; [exact Hc|]. rewrite Hc'. f_equal. f_equal. symmetry. apply rvec_sumsq; auto.
Qed.

(* related solver states *)
Record srel (s s' : sstate R) : Prop := {
  sr_val : exists val, holds E fs (s_assign s) val /\ holds E fs' (s_assign s') val;
  sr_res : exists w, rlen fs w /\ s_res s = rvec fs w /\ s_res s' = rvec fs' w;
  sr_cost : s_cost s = s_cost s'; sr_iter : s_iter s = s_iter s';
  sr_done : s_done s = s_done s'; sr_extra : s_extra s = s_extra s' }.

Definition rrel (P : sstate R -> Prop) (r r' : result (sstate R)) : Prop :=
  match r, r' with Ok s, Ok s' => srel s s' /\ P s | Err e, Err e' => e = e' | _, _ => False end.

Lemma two_gradient cfg s s' x x' ng ng' : srel s s' -> lrel E fs fs' true ng ng' ->
  converged_gradient E cfg s (mkAssign x (g_local_layout g)) ng = converged_gradient E cfg s' (mkAssign x' (g_local_layout g')) ng'.
Proof.
  intros Hs Hn. destruct (sr_val _ _ Hs) as (val & Ha & Ha'). unfold converged_gradient. fold C. cbn [as_layout].
  destruct (two_retract _ _ val ng ng' Ha Ha' Hn) as (p & p' & val' & -> & -> & _ & _ & Hp1 & Hp2). cbn [bind].
  assert (Hv : lrel E fs fs' false (vsub (as_storage (s_assign s)) (as_storage p)) (vsub (as_storage (s_assign s')) (as_storage p'))).
  { apply vrel_zipw; eapply two_storage; eauto. }
  apply vrel_perm in Hv; auto.
  destruct (vsub (as_storage (s_assign s)) (as_storage p)) as [|d l], (vsub (as_storage (s_assign s')) (as_storage p')) as [|d' l']; auto.
  - apply Permutation_nil in Hv. discriminate.
  - symmetry in Hv. apply Permutation_nil in Hv. discriminate.
  - rewrite (vmax_perm _ _ _ _ Hv), (sr_iter _ _ Hs). auto.
Qed.
Lemma two_convergence cfg s s' c x x' ng ng' : srel s s' -> lrel E fs fs' true x x' -> lrel E fs fs' true ng ng' ->
  check_convergence E cfg s c (mkAssign x (g_local_layout g)) ng = check_convergence E cfg s' c (mkAssign x' (g_local_layout g')) ng'.
Proof.
  intros Hs Hx Hn. unfold check_convergence. rewrite (two_gradient cfg s s' x x' ng ng') by auto.
  destruct (converged_gradient E cfg s' _ ng'); auto. cbn [bind]. f_equal. f_equal; [f_equal|].
  - unfold converged_cost. rewrite (sr_cost _ _ Hs). auto.
  - unfold converged_parameters. cbn [as_storage]. destruct (sr_val _ _ Hs) as (val & Ha & Ha').
    rewrite (vrel_norm C true _ _ N1 N2 Hvars (map nabs x) (map nabs x')) by (apply vrel_map; auto).
    rewrite (vrel_norm C false _ _ N1 N2 Hvars (as_storage (s_assign s)) (as_storage (s_assign s'))) by (eapply two_storage; eauto). auto.
Qed.

Lemma two_system s s' : srel s s' ->
  exists val w A A', holds E fs (s_assign s) val /\ holds E fs' (s_assign s') val /\ rlen fs w /\
    s_res s = rvec fs w /\ s_res s' = rvec fs' w /\
    compute_whitened_residual_jacobian E g (s_assign s) (s_res s) = Ok A /\
    compute_whitened_residual_jacobian E g' (s_assign s') (s_res s') = Ok A' /\ jrel E fs fs' val w A A'.
Proof.
  intros Hs. destruct (sr_val _ _ Hs) as (val & Ha & Ha'). destruct (sr_res _ _ Hs) as (w & Hw & Er & Er').
  destruct (two_jacobians E fs fs' g g' Hok Hp Hg Hg' Hrd Hws (s_assign s) (s_assign s') val w) as (A & A' & EA & EA' & HJ); auto.
  - apply holds_assigns; auto.
  - apply holds_assigns; auto.
  - apply (holds_legal E fs CO (s_assign s)); auto.
  - exists val, w, A, A'. rewrite Er, Er'. repeat (split; auto).
Qed.

Lemma jr_matmul val w0 A A' x x' : jrel E fs fs' val w0 A A' -> lrel E fs fs' true x x' ->
  matmul A x = Ok (mapply A x) /\ matmul A' x' = Ok (mapply A' x').
Proof.
  intros HJ (H1 & H2 & _). split; apply matmul_mapply.
  - apply (jr_ok _ _ _ _ _ _ _ HJ).
  - rewrite (jr_cols _ _ _ _ _ _ _ HJ); auto.
  - apply (jr_ok' _ _ _ _ _ _ _ HJ).
  - rewrite (jr_cols' _ _ _ _ _ _ _ HJ); auto.
Qed.
Lemma jr_matmul_t val w0 A A' w : jrel E fs fs' val w0 A A' -> rlen fs w ->
  matmul (transpose A) (rvec fs w) = Ok (mapply (transpose A) (rvec fs w)) /\
  matmul (transpose A') (rvec fs' w) = Ok (mapply (transpose A') (rvec fs' w)).
Proof.
  intros HJ Hw. split; apply matmul_mapply.
  - apply transpose_ok, (jr_ok _ _ _ _ _ _ _ HJ).
  - cbn [transpose m_shape snd]. rewrite (jr_rows _ _ _ _ _ _ _ HJ). apply rvec_length; auto.
  - apply transpose_ok, (jr_ok' _ _ _ _ _ _ _ HJ).
  - cbn [transpose m_shape snd]. rewrite (jr_rows' _ _ _ _ _ _ _ HJ). apply rvec_length. apply (two_rlen fs fs' Hp); auto.
Qed.

Lemma gn_update_rel s s' lambd : srel s s' -> lambd = 0 ->
  exists b b' x x' p p' val', gn_update E cholmod_solve g s = Ok (b, mkAssign x (g_local_layout g), p) /\
    gn_update E cholmod_solve g' s' = Ok (b', mkAssign x' (g_local_layout g'), p') /\
    lrel E fs fs' true b b' /\ lrel E fs fs' true x x' /\ holds E fs p val' /\ holds E fs' p' val'.
Proof.
  intros Hs _. destruct (two_system s s' Hs) as (val & w & A & A' & Ha & Ha' & Hw & Er & Er' & EA & EA' & HJ).
  unfold gn_update. rewrite EA, EA'. cbn [bind]. rewrite Er, Er'.
  destruct (jr_matmul_t _ _ _ _ w HJ Hw) as (-> & ->). cbn [bind].
  pose proof (jr_transpose E fs fs' Hp val w A A' HJ w Hw) as Hb. apply (vrel_map C true _ _ nneg) in Hb.
  fold (vneg (mapply (transpose A) (rvec fs w))) (vneg (mapply (transpose A') (rvec fs' w))) in Hb.
  destruct (jr_solve E fs fs' Hp val w A A' HJ _ _ n0 (s_iter s) Hb) as (x & x' & Ex & Ex' & Hx).
  { unfold Rlit. rn. lra. }
  rewrite <- (sr_iter _ _ Hs), Ex, Ex'. cbn [bind].
  destruct (two_retract _ _ val x x' Ha Ha' Hx) as (p & p' & val' & Ep & Ep' & _ & _ & Hp1 & Hp2). fold C. rewrite Ep, Ep'. cbn [bind].
  exists (vneg (mapply (transpose A) (rvec fs w))), (vneg (mapply (transpose A') (rvec fs' w))), x, x', p, p', val'. repeat (split; auto).
Qed.

Lemma gn_step_rel cfg s s' : srel s s' -> rrel (fun _ => True) (gn_step E cfg cholmod_solve g s) (gn_step E cfg cholmod_solve g' s').
Proof.
  intros Hs. destruct (gn_update_rel s s' 0 Hs eq_refl) as (b & b' & x & x' & p & p' & val' & Eu & Eu' & Hb & Hx & Hp1 & Hp2).
  unfold gn_step. rewrite Eu, Eu'. cbn [bind].
  destruct (two_cost p p' val' Hp1 Hp2) as (c & w & Hw & -> & ->). cbn [bind fst snd].
  rewrite (two_convergence cfg s s' c x x' b b') by auto.
  destruct (check_convergence E cfg s' c _ b') as [conv|e]; cbn [bind]; [|reflexivity].
  split; auto. split; cbn [s_assign s_res s_cost s_iter s_done s_extra].
  - exists val'; auto.
  - exists w; auto.
  - auto.
  - rewrite (sr_iter _ _ Hs). auto.
  - unfold exceeded_max_iterations. rewrite (sr_iter _ _ Hs). auto.
  - apply (sr_extra _ _ Hs).
Qed.

Lemma fixed_step_rel it s s' : srel s s' -> rrel (fun _ => True) (fixed_step E it cholmod_solve g s) (fixed_step E it cholmod_solve g' s').
Proof.
  intros Hs. destruct (gn_update_rel s s' 0 Hs eq_refl) as (b & b' & x & x' & p & p' & val' & Eu & Eu' & Hb & Hx & Hp1 & Hp2).
  unfold fixed_step. rewrite Eu, Eu'. cbn [bind].
  destruct (two_cost p p' val' Hp1 Hp2) as (c & w & Hw & -> & ->). cbn [bind fst snd].
  split; auto. split; cbn [s_assign s_res s_cost s_iter s_done s_extra].
  - exists val'; auto.
  - exists w; auto.
  - auto.
  - rewrite (sr_iter _ _ Hs). auto.
  - rewrite (sr_iter _ _ Hs). auto.
  - apply (sr_extra _ _ Hs).
Qed.

Lemma quality_rel val w A A' s s' c x x' : jrel E fs fs' val w A A' -> srel s s' -> lrel E fs fs' true x x' ->
  exists q, step_quality A c s x = Ok q /\ step_quality A' c s' x' = Ok q.
Proof.
  intros HJ Hs Hx. unfold step_quality. destruct (jr_matmul _ _ _ _ _ _ HJ Hx) as (-> & ->). cbn [bind].
  destruct (jr_act _ _ _ _ _ _ _ HJ x x' Hx) as (u & Hu & -> & ->). destruct (sr_res _ _ Hs) as (w1 & Hw1 & -> & ->).
  rewrite <- (sr_cost _ _ Hs). eexists. split; [reflexivity|]. f_equal. f_equal. f_equal.
  unfold vadd. rewrite !rvec_zipw by (auto; apply (two_rlen fs fs' Hp); auto). symmetry. apply rvec_sumsq; auto.
  intros f Hf. rewrite zipw_length, Hu, Hw1 by auto. lia.
Qed.

(* what a trust region step does with an accepted or rejected proposal *)
Lemma trust_rel s s' x x' (qmin : R) A A' val w tcfg ng ng' (extra extra' : R -> R) : (forall q, extra' q = extra q) ->
  srel s s' -> jrel E fs fs' val w A A' -> lrel E fs fs' true x x' -> lrel E fs fs' true ng ng' ->
  holds E fs (s_assign s) val -> holds E fs' (s_assign s') val ->
  let body g s x ng A extra :=
    (prop <- manifold_retract C (s_assign s) (mkAssign x (g_local_layout g)) ;;
     cr <- compute_cost E g prop ;;
     q <- step_quality A (fst cr) s x ;;
     let accept := nleb qmin q in
     conv <- check_convergence E tcfg s (fst cr) (mkAssign x (g_local_layout g)) ng ;;
     Ok (mkState (s_iter s + 1)
        (mkAssign (if accept then as_storage prop else as_storage (s_assign s)) (as_layout (s_assign s)))
        (if accept then fst cr else s_cost s) (snd cr)
        (exceeded_max_iterations tcfg s || (accept && conv)) (extra q))) in
  rrel (fun s1 => exists q, s_extra s1 = extra q) (body g s x ng A extra) (body g' s' x' ng' A' extra').
Proof.
  intros Hex Hs HJ Hx Hn Ha Ha' body. unfold body.
  destruct (two_retract _ _ val x x' Ha Ha' Hx) as (p & p' & val' & -> & -> & HLp & HLp' & Hp1 & Hp2). cbn [bind].
  destruct (two_cost p p' val' Hp1 Hp2) as (c & w' & Hw' & -> & ->). cbn [bind fst snd].
  destruct (quality_rel val w A A' s s' c x x' HJ Hs Hx) as (q & -> & ->). cbn [bind].
  rewrite (two_convergence tcfg s s' c x x' ng ng') by auto.
  destruct (check_convergence E tcfg s' c _ ng') as [conv|e]; cbn [bind]; [|reflexivity].
  assert (Hid : forall a : assign R, mkAssign (as_storage a) (as_layout a) = a) by (intros []; auto).
  split; [|exists q; auto]. split; cbn [s_assign s_res s_cost s_iter s_done s_extra].
  - destruct (nleb qmin q); [exists val' | exists val].
    + rewrite <- HLp, <- HLp', !Hid. auto.
    + rewrite !Hid. auto.
  - exists w'; auto.
  - rewrite (sr_cost _ _ Hs). auto.
  - rewrite (sr_iter _ _ Hs). auto.
  - unfold exceeded_max_iterations. rewrite (sr_iter _ _ Hs). auto.
  - auto.
Qed.

Lemma lm_step_rel cfg s s' : srel s s' -> 0 < s_extra s -> 0 < lambda_factor cfg -> 0 < lambda_min cfg ->
  rrel (fun s1 => 0 < s_extra s1) (lm_step E cfg cholmod_solve g s) (lm_step E cfg cholmod_solve g' s').
Proof.
  intros Hs Hpos Hf Hm. destruct (two_system s s' Hs) as (val & w & A & A' & Ha & Ha' & Hw & Er & Er' & EA & EA' & HJ).
  unfold lm_step. rewrite EA, EA'. cbn [bind].
  assert (Hw' : rlen fs (fun f => vneg (w f))) by (intros f Hin; rewrite vneg_length; auto).
  assert (En : vneg (s_res s) = rvec fs (fun f => vneg (w f))) by (rewrite Er; apply rvec_map).
  assert (En' : vneg (s_res s') = rvec fs' (fun f => vneg (w f))) by (rewrite Er'; apply rvec_map).
  rewrite En, En'. destruct (jr_matmul_t _ _ _ _ _ HJ Hw') as (-> & ->). cbn [bind].
  pose proof (jr_transpose E fs fs' Hp val w A A' HJ _ Hw') as Hb.
  destruct (jr_solve E fs fs' Hp val w A A' HJ _ _ (s_extra s) (s_iter s) Hb) as (x & x' & Ex & Ex' & Hx).
  { unfold Rlit. rn. lra. }
  pose proof Ex' as Ex2. rewrite (sr_iter _ _ Hs), (sr_extra _ _ Hs) in Ex2. rewrite Ex, Ex2. cbn [bind].
  assert (Hr : forall q, lm_lambda cfg (s_extra s') (nleb (lm_quality_min cfg) q) = lm_lambda cfg (s_extra s) (nleb (lm_quality_min cfg) q)).
  { intros q. rewrite (sr_extra _ _ Hs). auto. }
  pose proof (trust_rel s s' x x' (lm_quality_min cfg) A A' val w (lm_term cfg) _ _
    (fun q => lm_lambda cfg (s_extra s) (nleb (lm_quality_min cfg) q)) (fun q => lm_lambda cfg (s_extra s') (nleb (lm_quality_min cfg) q)) Hr Hs HJ Hx Hb Ha Ha') as H. cbv zeta in H.
  fold C. cbv zeta. unfold rrel in *. 
  match type of H with match ?X with _ => _ end => destruct X as [s1|e1] end;
  match type of H with match ?X with _ => _ end => destruct X as [s2|e2] end; auto.
  destruct H as (H1 & q & H2). split; auto. rewrite H2. unfold lm_lambda. destruct (nleb (lm_quality_min cfg) q).
  - rn. apply Rdiv_lt_0_compat; auto.
  - rn. eapply Rlt_le_trans; [exact Hm | apply Rmax_l].
Qed.

Lemma dogleg_rel sd sd' Asd Asd' gn gn' radius : lrel E fs fs' true sd sd' -> lrel E fs fs' true gn gn' -> sumsq Asd = sumsq Asd' ->
  lrel E fs fs' true (dogleg_step_of sd Asd gn radius) (dogleg_step_of sd' Asd' gn' radius).
Proof.
  intros Hsd Hgn HA.
  assert (Hsq : forall x x', lrel E fs fs' true x x' -> sumsq x = sumsq x') by (intros; apply (vrel_sumsq C true _ _ N1 N2 Hvars); auto).
  assert (Hn : forall x x', lrel E fs fs' true x x' -> vnorm x = vnorm x') by (intros; apply (vrel_norm C true _ _ N1 N2 Hvars); auto).
  assert (Hd : forall x x' y y', lrel E fs fs' true x x' -> lrel E fs fs' true y y' -> vsum (vmul x y) = vsum (vmul x' y')).
  { intros. apply (vrel_dot C true _ _ N1 N2 Hvars); auto. }
  assert (Hsc : forall k x x', lrel E fs fs' true x x' -> lrel E fs fs' true (vscale k x) (vscale k x')) by (intros; apply vrel_map; auto).
  assert (Hsb : forall x x' y y', lrel E fs fs' true x x' -> lrel E fs fs' true y y' -> lrel E fs fs' true (vsub x y) (vsub x' y')) by (intros; apply vrel_zipw; auto).
  assert (Had : forall x x' y y', lrel E fs fs' true x x' -> lrel E fs fs' true y y' -> lrel E fs fs' true (vadd x y) (vadd x' y')) by (intros; apply vrel_zipw; auto).
  unfold dogleg_step_of. cbv zeta. rewrite <- (Hsq sd sd'), <- HA by auto.
  set (alpha := ndiv (sumsq sd) (sumsq Asd)).
  assert (Ha : lrel E fs fs' true (vscale alpha sd) (vscale alpha sd')) by auto.
  rewrite <- (Hn _ _ Hgn), <- (Hn _ _ Ha), <- (Hsq _ _ Ha), <- (Hsq (vsub gn (vscale alpha sd)) (vsub gn' (vscale alpha sd'))) by auto.
  rewrite <- (Hd (vscale alpha sd) (vscale alpha sd') (vsub gn (vscale alpha sd)) (vsub gn' (vscale alpha sd'))) by auto.
  destruct (nleb (vnorm gn) radius); auto. destruct (nleb radius (vnorm (vscale alpha sd))); auto.
Qed.

Lemma dl_step_rel cfg s s' : srel s s' -> rrel (fun _ => True) (dl_step E cfg cholmod_solve g s) (dl_step E cfg cholmod_solve g' s').
Proof.
  intros Hs. destruct (two_system s s' Hs) as (val & w & A & A' & Ha & Ha' & Hw & Er & Er' & EA & EA' & HJ).
  unfold dl_step. rewrite EA, EA'. cbn [bind].
  assert (Hw' : rlen fs (fun f => vneg (w f))) by (intros f Hin; rewrite vneg_length; auto).
  assert (En : vneg (s_res s) = rvec fs (fun f => vneg (w f))) by (rewrite Er; apply rvec_map).
  assert (En' : vneg (s_res s') = rvec fs' (fun f => vneg (w f))) by (rewrite Er'; apply rvec_map).
  rewrite En, En'. destruct (jr_matmul_t _ _ _ _ _ HJ Hw') as (-> & ->). cbn [bind].
  pose proof (jr_transpose E fs fs' Hp val w A A' HJ _ Hw') as Hb.
  destruct (jr_solve E fs fs' Hp val w A A' HJ _ _ n0 (s_iter s) Hb) as (x & x' & Ex & Ex' & Hx).
  { unfold Rlit. rn. lra. }
  pose proof Ex' as Ex2. rewrite (sr_iter _ _ Hs) in Ex2. rewrite Ex, Ex2. cbn [bind].
  destruct (jr_matmul _ _ _ _ _ _ HJ Hb) as (-> & ->). cbn [bind]. 
  fold C. cbv zeta.
  match goal with |- context [dogleg_step_of ?b ?Ab x (s_extra s)] => set (Ab1 := Ab) in *; set (b1 := b) in * end.
  match goal with |- context [dogleg_step_of ?b ?Ab x' (s_extra s')] => set (Ab2 := Ab) in *; set (b2 := b) in * end.
  assert (Hst : lrel E fs fs' true (dogleg_step_of b1 Ab1 x (s_extra s)) (dogleg_step_of b2 Ab2 x' (s_extra s'))).
  { rewrite <- (sr_extra _ _ Hs). apply dogleg_rel; auto. unfold Ab1, Ab2. rewrite !sumsq_dot. apply (jr_act_dot E fs fs' Hp val w A A' HJ); auto. }
  set (d1 := dogleg_step_of b1 Ab1 x (s_extra s)) in *. set (d2 := dogleg_step_of b2 Ab2 x' (s_extra s')) in *.
  assert (Hr : forall q, dogleg_radius (s_extra s') q d2 = dogleg_radius (s_extra s) q d1).
  { intros q. unfold dogleg_radius. rewrite (vrel_norm C true _ _ N1 N2 Hvars d1 d2) by auto. rewrite (sr_extra _ _ Hs). auto. }
  pose proof (trust_rel s s' d1 d2 (dl_quality_min cfg) A A' val w (dl_term cfg) _ _
    (fun q => dogleg_radius (s_extra s) q d1) (fun q => dogleg_radius (s_extra s') q d2) Hr Hs HJ Hst Hb Ha Ha') as H. cbv zeta in H.
  fold C. cbv zeta. unfold rrel in *.
  match type of H with match ?X with _ => _ end => destruct X as [s1|e1] end;
  match type of H with match ?X with _ => _ end => destruct X as [s2|e2] end; tauto.
Qed.

Lemma loop_rel (step step' : sstate R -> result (sstate R)) (P : sstate R -> Prop) :
  (forall s s', srel s s' -> P s -> rrel P (step s) (step' s')) ->
  forall fuel s s', srel s s' -> P s ->
  match while_loop fuel (fun s => negb (s_done s)) step s, while_loop fuel (fun s => negb (s_done s)) step' s' with
  | None, None => True
  | Some r, Some r' => rrel P r r'
  | _, _ => False
  end.
Proof.
  intros Hstep. induction fuel as [|fuel IH]; intros s s' Hs HP; simpl; rewrite <- (sr_done _ _ Hs); destruct (s_done s); simpl; auto.
  pose proof (Hstep s s' Hs HP) as H. unfold rrel in H.
  destruct (step s) as [s1|e], (step' s') as [s1'|e']; try contradiction; [|exact H].
  destruct H as (H1 & H2). apply IH; auto.
Qed.

Lemma iterate_rel (step step' : sstate R -> result (sstate R)) :
  (forall s s', srel s s' -> rrel (fun _ => True) (step s) (step' s')) ->
  forall n s s', srel s s' -> rrel (fun _ => True) (iterate n step s) (iterate n step' s').
Proof.
  intros Hstep. induction n as [|n IH]; intros s s' Hs; cbn [iterate]; [split; auto|].
  pose proof (Hstep s s' Hs) as H. unfold rrel in H.
  destruct (step s) as [s1|e], (step' s') as [s1'|e']; try contradiction; [|exact H].
  cbn [bind]. apply IH. tauto.
Qed.
End Two.

Section Solve.
Variable E : env R.
Let C := e_cls E.
Hypothesis CO : classes_ok C.

Lemma assigns_perm fs fs' a val : Permutation fs fs' -> assigns E fs a val -> assigns E fs' a val.
Proof.
  intros Hp (vs & H1 & H2 & H3). exists vs. split; auto. split; auto. intros v. rewrite H2. apply (two_vars fs fs' Hp).
Qed.

Section Given.
Variables fs fs' : list (factor R).
Variables g g' : graph R.
Hypothesis Hok : forall f, In f fs -> factor_ok f.
Hypothesis Hp : Permutation fs fs'.
Hypothesis Hg : is_graph E fs g.
Hypothesis Hg' : is_graph E fs' g'.
Hypothesis Hrd : total residual_dim fs <> 0%nat.
Hypothesis Hws : well_shaped E fs.

Lemma start_rel a a' val extra : holds E fs a val -> holds E fs' a' val ->
  exists s s', init_state E g a extra = Ok s /\ init_state E g' a' extra = Ok s' /\ srel E fs fs' s s' /\ s_extra s = extra.
Proof.
  intros Ha Ha'. destruct (two_cost E fs fs' g g' CO Hok Hp Hg Hg' Hrd Hws a a' val Ha Ha') as (c & w & Hw & Hc & Hc').
  unfold init_state. rewrite Hc, Hc'. cbn [bind fst snd]. eexists _, _. split; [reflexivity|]. split; [reflexivity|].
  split; auto. split; cbn; auto; [exists val | exists w]; auto.
Qed.

Lemma solve_rel (step : graph R -> sstate R -> result (sstate R)) extra (P : sstate R -> Prop) init init' val fuel :
  (forall s s', srel E fs fs' s s' -> P s -> rrel E fs fs' P (step g s) (step g' s')) ->
  (forall s, s_extra s = extra -> P s) ->
  assigns E fs init val -> assigns E fs init' val ->
  same_outcome E fs (solve_with E fuel step extra g init) (solve_with E fuel step extra g' init').
Proof.
  intros Hstep HP Hi Hi'. apply (assigns_perm fs fs' init' val Hp) in Hi' as Hi2.
  unfold solve_with. rewrite (ig_layout _ _ _ Hg), (ig_layout _ _ _ Hg').
  destruct (update_holds E CO fs init val Hi) as (a & -> & Ha). destruct (update_holds E CO fs' init' val Hi2) as (a' & -> & Ha').
  destruct (start_rel a a' val extra Ha Ha') as (s & s' & -> & -> & Hs & Hx).
  pose proof (loop_rel E fs fs' (step g) (step g') P Hstep fuel s s' Hs (HP s Hx)) as Hl.
  destruct (while_loop fuel _ (step g) s) as [[s1|e]|], (while_loop fuel _ (step g') s') as [[s1'|e']|]; try contradiction; auto.
  destruct Hl as (Hl & _). destruct (sr_val _ _ _ _ _ Hl) as (val1 & H1 & H1').
  destruct (update_back E CO fs _ val1 init val H1 Hi) as (b & -> & Hb).
  destruct (update_back E CO fs' _ val1 init' val H1' Hi2) as (b' & -> & Hb').
  exists val1. split; auto. apply (assigns_perm fs'); auto. symmetry; auto.
Qed.
End Given.

Lemma is_graph_of fs g : (forall f, In f fs -> factor_ok f) -> graph_make E fs = Ok g -> is_graph E fs g.
Proof.
  intros Hok Hg. destruct (graph_make_ok E fs Hok) as (H1 & H2).
  assert (Hd : (exists f, In f fs /\ f_vars f <> []) \/ forall f, In f fs -> f_vars f = []).
  { clear. induction fs as [|f fs [(h & H1 & H2)|H]]; [right; intros f []|left; exists h; split; [right|]; auto|].
    destruct (f_vars f) as [|v l] eqn:Ef; [right; intros h [->|Hh]; auto|left; exists f; split; [left; auto|rewrite Ef; discriminate]]. }
  destruct Hd as [Hd|Hd]; [|rewrite (H2 Hd) in Hg; discriminate].
  destruct (H1 Hd) as (g1 & E1 & Hg1). rewrite Hg in E1. injection E1 as <-. auto.
Qed.

Lemma solve_order fs fs' g g' init init' val solve fuel :
  (forall f, In f fs -> factor_ok f) -> Permutation fs fs' ->
  graph_make E fs = Ok g -> graph_make E fs' = Ok g' ->
  total residual_dim fs <> 0%nat -> well_shaped E fs ->
  assigns E fs init val -> assigns E fs init' val ->
  cholmod_solver E solve ->
  same_outcome E fs (solve fuel g init) (solve fuel g' init').
Proof.
  intros Hok Hp Eg Eg' Hrd Hws Hi Hi' Hs.
  assert (Hg := is_graph_of fs g Hok Eg). assert (Hg' := is_graph_of fs' g' (two_ok fs fs' Hok Hp) Eg').
  destruct Hs as [cfg|cfg H1 H2 H3|cfg].
  - apply (solve_rel fs fs' g g' Hok Hp Hg Hg' Hrd Hws (gn_step E cfg cholmod_solve) n0 (fun _ => True) init init' val); auto.
    intros s s' Hs _. apply gn_step_rel; auto.
  - apply (solve_rel fs fs' g g' Hok Hp Hg Hg' Hrd Hws (lm_step E cfg cholmod_solve) (lambda_initial cfg) (fun s => 0 < s_extra s) init init' val); auto.
    + intros s s' Hs Hx. apply lm_step_rel; auto.
    + intros s ->. auto.
  - apply (solve_rel fs fs' g g' Hok Hp Hg Hg' Hrd Hws (dl_step E cfg cholmod_solve) (radius_initial cfg) (fun _ => True) init init' val); auto.
    intros s s' Hs _. apply dl_step_rel; auto.
Qed.

(* the fixed-iteration solver: same, from assignments already in the storage order of the graph *)
Lemma fixed_order fs fs' g g' init init' val unroll it fuel :
  (forall f, In f fs -> factor_ok f) -> Permutation fs fs' ->
  graph_make E fs = Ok g -> graph_make E fs' = Ok g' ->
  total residual_dim fs <> 0%nat -> well_shaped E fs ->
  assigns E fs init val -> assigns E fs init' val ->
  same_layout (as_layout init) (g_layout g) -> same_layout (as_layout init') (g_layout g') ->
  same_outcome E fs (fixed_solve E fuel unroll it cholmod_solve g init) (fixed_solve E fuel unroll it cholmod_solve g' init').
Proof.
  intros Hok Hp Eg Eg' Hrd Hws (vs & Hwf & Hvs & Hv) (vs' & Hwf' & Hvs' & Hv') Hl Hl'.
  assert (Hg := is_graph_of fs g Hok Eg). assert (Hg' := is_graph_of fs' g' (two_ok fs fs' Hok Hp) Eg').
  assert (Ha : holds E fs init val).
  { exists vs. split; auto. split; [rewrite <- (ig_layout _ _ _ Hg); auto|]. intros v Hin. apply Hv, Hvs; auto. }
  assert (Ha' : holds E fs' init' val).
  { exists vs'. split; auto. split; [rewrite <- (ig_layout _ _ _ Hg'); auto|]. intros v Hin. apply Hv', Hvs', (two_vars fs fs' Hp); auto. }
  unfold fixed_solve. destruct (start_rel fs fs' g g' Hok Hp Hg Hg' Hrd Hws init init' val n0 Ha Ha') as (s & s' & -> & -> & Hs & _).
  assert (Hend : forall r r', rrel E fs fs' (fun _ => True) r r' ->
    same_outcome E fs (match r with Ok st => Some (Ok (s_assign st)) | Err e => Some (Err e) end)
      (match r' with Ok st => Some (Ok (s_assign st)) | Err e => Some (Err e) end)).
  { intros [s1|e] [s1'|e']; simpl; try tauto. intros (H & _). destruct (sr_val _ _ _ _ _ H) as (val1 & H1 & H1').
    exists val1. split; [apply holds_assigns; auto | apply (assigns_perm fs'); [symmetry; auto|apply holds_assigns; auto]]. }
  destruct unroll.
  - apply Hend. apply iterate_rel; auto. intros. apply fixed_step_rel; auto.
  - pose proof (loop_rel E fs fs' (fixed_step E it cholmod_solve g) (fixed_step E it cholmod_solve g') (fun _ => True)) as H.
    specialize (H ltac:(intros; apply fixed_step_rel; auto) fuel s s' Hs I).
    destruct (while_loop fuel _ (fixed_step E it cholmod_solve g) s) as [r|], (while_loop fuel _ (fixed_step E it cholmod_solve g') s') as [r'|]; try contradiction; auto.
Qed.
End Solve.
