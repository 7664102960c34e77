(* Solvers on a problem and on the same problem moved by a symmetry. *)
From Coq Require Import List Arith Bool ZArith Lia Permutation.
From Verif Require Import Num Py Arr MLayout MAssign MNoise MSparse MFactor MGraph MLinear MSolver SpecLayout SpecTree SpecAssign SpecGraph SpecSparse SpecSolver SpecOrder SpecInv SpecSym.
From Verif Require Import PBase PLayout PTree PAssign PAssign2 PAssign3 PStack PGraph PGraph2 PGraph3 PGraph4 PVec PSparse PJac PLayout2 PHold PSolver PSolver2 PInv PTotal.
Import ListNotations.

Section Move.
Context {T : Type} {N : Num T}.
Variable E : env T.
Let C := e_cls E.
Variable fs : list (factor T).
Variable mv : factor T -> factor T.
Variable S : var -> pytree T -> pytree T -> Prop.
Hypothesis HS : symmetry E fs mv S.
Let fs' := map mv fs.

Lemma mv_dim f : In f fs -> residual_dim (mv f) = residual_dim f.
Proof. intros H. unfold residual_dim. rewrite (sy_noise _ _ _ _ HS); auto. Qed.
Lemma mv_key f : In f fs -> group_key (mv f) = group_key f.
Proof.
  intros H. symmetry. apply group_key_kind. destruct (sy_kind _ _ _ _ HS f H) as (H1 & H2 & _).
  unfold same_kind. rewrite (sy_vars _ _ _ _ HS), (sy_noise _ _ _ _ HS), H1 by auto. auto.
Qed.
Lemma mv_ok : (forall f, In f fs -> factor_ok f) -> forall f, In f fs' -> factor_ok f.
Proof.
  intros Hok f H. apply in_map_iff in H. destruct H as (h & <- & H). destruct (sy_kind _ _ _ _ HS h H) as (_ & _ & H3).
  split; auto. rewrite (sy_noise _ _ _ _ HS) by auto. apply Hok; auto.
Qed.
Lemma mv_mentioned : mentioned fs' = mentioned fs.
Proof.
  unfold mentioned, fs'. f_equal. assert (H : forall l, incl l fs -> flat_map f_vars (map mv l) = flat_map f_vars l).
  { induction l as [|f l IH]; intros Hl; simpl; auto. rewrite IH by (intros x Hx; apply Hl; right; auto).
    rewrite (sy_vars _ _ _ _ HS) by (apply Hl; left; auto). auto. }
  apply H. apply incl_refl.
Qed.
Lemma mv_layout local : graph_layout E fs' local = graph_layout E fs local.
Proof. unfold graph_layout. rewrite mv_mentioned. auto. Qed.
Lemma mv_keys : map group_key fs' = map group_key fs.
Proof. unfold fs'. rewrite map_map. apply map_ext_in. intros f H. apply mv_key; auto. Qed.
Lemma mv_groups : kgroups fs' = map (map mv) (kgroups fs).
Proof.
  unfold kgroups. rewrite mv_keys, map_map. apply map_ext. intros k. unfold fs'.
  assert (H : forall l, incl l fs -> filter (fun f => eqb (group_key f) k) (map mv l) = map mv (filter (fun f => eqb (group_key f) k) l)).
  { induction l as [|f l IH]; intros Hl; cbn [map filter]; auto. rewrite mv_key by (apply Hl; left; auto).
    rewrite IH by (intros x Hx; apply Hl; right; auto). destruct (eqb (group_key f) k); auto. }
  apply H. apply incl_refl.
Qed.
Lemma mv_total l : incl l fs -> total residual_dim (map mv l) = total residual_dim l.
Proof.
  induction l as [|f l IH]; intros Hl; cbn; auto. unfold total in IH. rewrite IH by (intros x Hx; apply Hl; right; auto).
  rewrite mv_dim by (apply Hl; left; auto). auto.
Qed.
Lemma group_incl gfs : In gfs (kgroups fs) -> incl gfs fs.
Proof. intros H f Hf. eapply kgroups_in; eauto. Qed.

Lemma place_mv l off : incl l fs -> place residual_dim off (map mv l) = map (fun fo => (mv (fst fo), snd fo)) (place residual_dim off l).
Proof.
  revert off. induction l as [|f l IH]; intros off Hl; simpl; auto. rewrite mv_dim by (apply Hl; left; auto).
  rewrite IH by (intros x Hx; apply Hl; right; auto). auto.
Qed.
Lemma place_groups gs off : (forall gfs, In gfs gs -> incl gfs fs) ->
  place gdim off (map (map mv) gs) = map (fun go => (map mv (fst go), snd go)) (place gdim off gs).
Proof.
  revert off. induction gs as [|g gs IH]; intros off Hl; simpl; auto. unfold gdim at 2. rewrite mv_total by (apply Hl; left; auto).
  rewrite IH by (intros; apply Hl; right; auto). auto.
Qed.
Lemma mv_slots gfs : incl gfs fs -> gkind_slots (map mv gfs) = gkind_slots gfs.
Proof. destruct gfs as [|f l]; intros H; auto. simpl. rewrite (sy_vars _ _ _ _ HS) by (apply H; left; auto). auto. Qed.
Lemma mv_kdim gfs : incl gfs fs -> gkind_dim (map mv gfs) = gkind_dim gfs.
Proof. destruct gfs as [|f l]; intros H; auto. simpl. rewrite mv_dim by (apply H; left; auto). auto. Qed.
Lemma mv_slot i f : In f fs -> slot i (mv f) = slot i f.
Proof. intros H. unfold slot. rewrite (sy_vars _ _ _ _ HS); auto. Qed.
Lemma mv_group_coords L gfs off : incl gfs fs -> group_coords E L (map mv gfs) off = group_coords E L gfs off.
Proof.
  intros H. unfold group_coords. rewrite mv_slots, mv_kdim, map_length by auto. apply map_ext. intros i.
  assert (Ht : slot_type i (map mv gfs) = slot_type i gfs).
  { destruct gfs as [|f l]; auto. simpl. rewrite mv_slot by (apply H; left; auto). auto. }
  rewrite Ht. f_equal. rewrite flat_map_concat_map, map_map, <- flat_map_concat_map. apply flat_map_ext_in.
  intros f Hf. rewrite mv_slot by (apply H; auto). auto.
Qed.
Lemma mv_coords : all_coords E fs' = all_coords E fs.
Proof.
  unfold all_coords. rewrite mv_layout, mv_groups, place_groups by (apply group_incl). rewrite map_map. f_equal. apply map_ext_in.
  intros [gfs off] H. cbn. apply mv_group_coords. apply group_incl. apply (place_in _ _ _ _ _ H).
Qed.

Lemma mv_holds a val : holds E fs a val <-> holds E fs' a val.
Proof. unfold holds. rewrite mv_layout, mv_mentioned. tauto. Qed.
Lemma mv_assigns a val : assigns E fs a val <-> assigns E fs' a val.
Proof. unfold assigns. rewrite mv_mentioned. tauto. Qed.

Section Rel.
Hypothesis CO : classes_ok C.
Hypothesis Hok : forall f, In f fs -> factor_ok f.
Hypothesis Hne : fs <> [].
Hypothesis Hrd : total residual_dim fs <> 0.
Hypothesis Hws : well_shaped E fs.
Variable g : graph T.
Variable g' : graph T.
Hypothesis Hg : is_graph E fs g.
Hypothesis Hg' : is_graph E fs' g'.
Variable lin : linear_solver (T := T).
Hypothesis Hlin : total_solver lin.

Definition rel (a a' : assign T) : Prop :=
  exists val val', holds E fs a val /\ holds E fs a' val' /\ related_values E fs S val val'.

Lemma mv_whitened val val' f : related_values E fs S val val' -> In f fs -> whitened_at E val' (mv f) = whitened_at E val f.
Proof.
  intros Hr Hf. unfold whitened_at. rewrite (sy_residual _ _ _ _ HS f val val'), (sy_noise _ _ _ _ HS); auto.
Qed.
Lemma rel_residual_ok a val val' f : holds E fs a val -> related_values E fs S val val' -> In f fs' -> residual_shape_ok E val' f.
Proof.
  intros Ha Hr H. apply in_map_iff in H. destruct H as (h & <- & H). unfold residual_shape_ok.
  rewrite (sy_residual _ _ _ _ HS h val val'), mv_dim by auto. apply (ws_residual E fs Hws); auto.
  intros v Hv. apply (Hr v Hv).
Qed.
Lemma rel_jacobian_ok a val val' f : holds E fs a val -> related_values E fs S val val' -> In f fs' -> jacobian_shape_ok E val' f.
Proof.
  intros Ha Hr H. apply in_map_iff in H. destruct H as (h & <- & H). unfold jacobian_shape_ok.
  rewrite (sy_jacobian _ _ _ _ HS h val val'), mv_dim, (sy_vars _ _ _ _ HS) by auto. apply (ws_jacobian E fs Hws); auto.
  intros v Hv. apply (Hr v Hv).
Qed.

Lemma cost_sym a a' : rel a a' -> exists c r, compute_cost E g a = Ok (c, r) /\ compute_cost E g' a' = Ok (c, r) /\ length r = total residual_dim fs.
Proof.
  intros (val & val' & Ha & Ha' & Hr).
  destruct (cost_total E CO fs g Hok Hg Hne Hws a (ex_intro _ val Ha)) as (c & r & Ec & Hl). exists c, r. split; auto. split; auto.
  destruct (residual_vector_ok E fs g a val Hok Hne Hg (holds_assigns E fs a val Ha)) as (ws & Hw & Hv).
  { intros f Hf. apply (ws_residual E fs Hws); auto. intros v Hin. apply (Hr v Hin). }
  destruct (residual_vector_ok E fs' g' a' val' (mv_ok Hok)) as (ws' & Hw' & Hv').
  - intros Hc. apply Hne. apply map_eq_nil in Hc. auto.
  - auto.
  - apply mv_assigns, holds_assigns; auto.
  - intros f Hf. apply (rel_residual_ok a val); auto.
  - unfold compute_cost in *. rewrite Hv in Ec. rewrite Hv'. rewrite mv_groups in Hw'. rewrite <- concat_map in Hw'.
    rewrite traverse_map in Hw'. rewrite (traverse_ext_in _ (whitened_at E val)) in Hw'.
    + rewrite Hw in Hw'. injection Hw' as <-. auto.
    + intros f Hf. apply mv_whitened; auto. apply (Permutation_in _ (kgroups_perm fs)). auto.
Qed.

Lemma wjacs_sym val val' r fo : related_values E fs S val val' -> In (fst fo) fs ->
  wjacs E val' r (mv (fst fo), snd fo) = wjacs E val r fo.
Proof.
  intros Hr Hf. unfold wjacs, part. cbn [fst snd]. rewrite (sy_jacobian _ _ _ _ HS (fst fo) val val'), (sy_noise _ _ _ _ HS), mv_dim by auto. auto.
Qed.
Lemma vals_sym val val' r : related_values E fs S val val' -> graph_vals E val' r fs' = graph_vals E val r fs.
Proof.
  intros Hr. unfold graph_vals. rewrite mv_groups, place_groups by apply group_incl.
  rewrite flat_map_concat_map, map_map, <- flat_map_concat_map. apply flat_map_ext_in. intros [gfs off] H. cbn [fst snd].
  assert (Hi : incl gfs fs) by (apply group_incl; apply (place_in _ _ _ _ _ H)). rewrite mv_slots by auto.
  apply map_ext. intros i. unfold slot_vals. rewrite place_mv by auto. rewrite flat_map_concat_map, map_map, <- flat_map_concat_map.
  apply flat_map_ext_in. intros [f o] Ho. rewrite (wjacs_sym val val' r (f, o)); auto. apply Hi. apply (place_in _ _ _ _ _ Ho).
Qed.

Lemma jacobian_exact f2 h a val r : (forall f, In f f2 -> factor_ok f) -> (forall f, In f f2 -> jacobian_shape_ok E val f) ->
  is_graph E f2 h -> assigns E f2 a val -> length r = total residual_dim f2 -> total residual_dim f2 <> 0 ->
  compute_whitened_residual_jacobian E h a r = Ok (mkCoo (concat (graph_vals E val r f2)) (g_coords h) (total residual_dim f2, l_dim (graph_layout E f2 true))).
Proof.
  intros Hok2 Hj Hh Ha Hlen Hpos. destruct (setup E f2 a val Ha) as (a' & Ea & HL & Hr).
  unfold compute_whitened_residual_jacobian. rewrite (ig_layout _ _ _ Hh), Ea. cbn [bind].
  rewrite (jacobian_fold E f2 a' r val Hok2 Hj HL Hr (kgroups f2)); auto; [|apply (ig_stacks _ _ _ Hh) | rewrite total_kgroups; lia].
  cbn [bind]. rewrite total_kgroups, (ig_dim _ _ _ Hh). simpl. rewrite Nat.eqb_refl.
  destruct (Nat.eqb_spec (total residual_dim f2) 0); [lia|]. cbn [negb assert_ bind].
  rewrite (ig_local _ _ _ Hh). reflexivity.
Qed.
Lemma jacobian_sym a a' r : rel a a' -> length r = total residual_dim fs ->
  compute_whitened_residual_jacobian E g' a' r = compute_whitened_residual_jacobian E g a r.
Proof.
  intros (val & val' & Ha & Ha' & Hr) Hl. assert (Ht : total residual_dim fs' = total residual_dim fs) by (apply mv_total, incl_refl).
  rewrite (jacobian_exact fs' g' a' val' r (mv_ok Hok)); auto; try (rewrite Ht; auto).
  - rewrite (jacobian_exact fs g a val r); auto.
    + rewrite vals_sym with (val := val), mv_layout by auto. rewrite (ig_coords _ _ _ Hg), (ig_coords _ _ _ Hg'), mv_coords. auto.
    + intros f Hf. apply (ws_jacobian E fs Hws); auto. intros v Hin. apply (Hr v Hin).
    + apply holds_assigns; auto.
  - intros f Hf. apply (rel_jacobian_ok a val); auto.
  - apply mv_assigns, holds_assigns; auto.
Qed.

Lemma local_sym : g_local_layout g' = g_local_layout g.
Proof. rewrite (ig_local _ _ _ Hg), (ig_local _ _ _ Hg'), mv_layout. auto. Qed.

Lemma retract_sym a a' x : rel a a' -> length x = l_dim (graph_layout E fs true) ->
  exists b b', manifold_retract C a (mkAssign x (g_local_layout g)) = Ok b /\ manifold_retract C a' (mkAssign x (g_local_layout g)) = Ok b' /\
    rel b b' /\ as_layout b = as_layout a /\ as_layout b' = as_layout a'.
Proof.
  intros (val & val' & Ha & Ha' & Hr) Hx. rewrite (ig_local _ _ _ Hg).
  destruct (retract_holds E fs CO _ a val x (ws_preserved E fs Hws) Ha (fun _ _ => I) Hx) as (b & w & Eb & Lb & Hb & Hw).
  destruct (retract_holds E fs CO _ a' val' x (ws_preserved E fs Hws) Ha' (fun _ _ => I) Hx) as (b' & w' & Eb' & Lb' & Hb' & Hw').
  exists b, b'. split; auto. split; auto. split; auto. exists w, w'. split; auto. split; auto.
  pose proof (holds_legal E fs CO b w Hb) as L1. pose proof (holds_legal E fs CO b' w' Hb') as L2.
  intros v Hin. split; [apply L1; auto|]. split; [apply L2; auto|]. destruct (Hr v Hin) as (H1 & H2 & H3).
  eapply (sy_retract _ _ _ _ HS v (val v) (val' v)); eauto; [|apply Hw; auto | apply Hw'; auto].
  apply (block_length C (mentioned fs) true (mentioned_nodup fs)); auto.
Qed.

(* ---- states ---- *)
Definition srel (s s' : sstate T) : Prop :=
  s_iter s' = s_iter s /\ rel (s_assign s) (s_assign s') /\ s_cost s' = s_cost s /\ s_res s' = s_res s /\
  s_done s' = s_done s /\ s_extra s' = s_extra s /\ length (s_res s) = total residual_dim fs.
Lemma rel_held a a' : rel a a' -> held E fs a.
Proof. intros (val & val' & Ha & _). exists val. auto. Qed.
Lemma rel_held' a a' : rel a a' -> held E fs a'.
Proof. intros (val & val' & _ & Ha & _). exists val'. auto. Qed.
Lemma srel_ready s s' : srel s s' -> ready E fs s /\ ready E fs s'.
Proof.
  intros (_ & Ha & _ & Hr & _ & _ & Hl). split; (split; [|try rewrite Hr; auto]).
  - eapply rel_held; eauto.
  - eapply rel_held'; eauto.
Qed.

Lemma update_sym s s' : srel s s' -> exists b d p p',
  gn_update E lin g s = Ok (b, mkAssign d (g_local_layout g), p) /\ gn_update E lin g' s' = Ok (b, mkAssign d (g_local_layout g), p') /\
  rel p p' /\ length b = l_dim (graph_layout E fs true).
Proof.
  intros Hs. destruct (srel_ready s s' Hs) as (Hrd1 & _). destruct Hs as (Hi & Ha & Hc & Hr & Hd & He & Hl).
  destruct (jacobian_total E CO fs g Hok Hg Hrd Hws s Hrd1) as (A & EA & HA & Hsh).
  unfold gn_update. rewrite Hr, (jacobian_sym _ _ _ Ha Hl), EA, Hi. cbn [bind].
  destruct (matmul_ok (transpose A) (s_res s) (transpose_ok A HA)) as (b & -> & Hb); [cbn; rewrite Hsh; auto|]. cbn [bind].
  cbn in Hb. rewrite Hsh in Hb. cbn in Hb.
  assert (Hb' : length (vneg b) = l_dim (graph_layout E fs true)) by (unfold vneg; rewrite map_length; auto).
  destruct (Hlin A (vneg b) n0 (s_iter s) HA) as (x & -> & Hx); [rewrite Hsh; auto|]. cbn [bind]. rewrite Hsh in Hx. cbn in Hx.
  destruct (retract_sym _ _ x Ha Hx) as (p & p' & E1 & E2 & Hp & _). rewrite local_sym. fold C. rewrite E1, E2. cbn [bind].
  exists (vneg b), x, p, p'. auto.
Qed.

Lemma fixed_sym it s s' : srel s s' -> exists t t', fixed_step E it lin g s = Ok t /\ fixed_step E it lin g' s' = Ok t' /\ srel t t'.
Proof.
  intros Hs. destruct (update_sym s s' Hs) as (b & d & p & p' & E1 & E2 & Hp & _). unfold fixed_step. rewrite E1, E2. cbn [bind].
  destruct (cost_sym p p' Hp) as (c & r & -> & -> & Hl). cbn [bind fst snd]. eexists _, _. split; [reflexivity|]. split; [reflexivity|].
  destruct Hs as (Hi & Ha & Hc & Hr & Hd & He & Hl'). rewrite Hi, He. repeat (split; auto).
Qed.

(* the value of the convergence test only matters before the last iteration *)
Hypothesis Hpd : l_dim (graph_layout E fs false) <> 0.
Lemma convergence_sym cfg s s' c d b : value_free cfg -> srel s s' -> length b = l_dim (graph_layout E fs true) ->
  exists v v', check_convergence E cfg s c (mkAssign d (g_local_layout g)) b = Ok v /\
    check_convergence E cfg s' c (mkAssign d (g_local_layout g)) b = Ok v' /\
    (exceeded_max_iterations cfg s = false -> v = v').
Proof.
  intros (Hm & Hp) Hs Hb. destruct (srel_ready s s' Hs) as (R1 & R2).
  destruct (convergence_total E CO fs g Hg Hrd Hpd Hws cfg s c d b R1 Hb) as (v & E1).
  destruct (convergence_total E CO fs g Hg Hrd Hpd Hws cfg s' c d b R2 Hb) as (v' & E2).
  exists v, v'. split; auto. split; auto. intros Hx. destruct Hs as (Hi & Ha & Hc & Hr & Hd & He & Hl).
  assert (Hgs : Z.leb (gradient_start cfg) (Z.of_nat (s_iter s)) = false).
  { unfold exceeded_max_iterations in Hx. apply Z.leb_gt in Hx. apply Z.leb_gt. lia. }
  unfold check_convergence, converged_gradient, converged_parameters, converged_cost in E1, E2. rewrite Hi, Hc in E2. rewrite Hgs in E1, E2.
  cbn [as_storage] in E1, E2. rewrite Hp in E1, E2.
  destruct (manifold_retract (e_cls E) (s_assign s) (mkAssign b (as_layout (mkAssign d (g_local_layout g))))) as [p|]; [|discriminate].
  destruct (manifold_retract (e_cls E) (s_assign s') (mkAssign b (as_layout (mkAssign d (g_local_layout g))))) as [p'|]; [|discriminate].
  cbn [bind] in E1, E2. destruct (vsub (as_storage (s_assign s)) (as_storage p)); [discriminate|].
  destruct (vsub (as_storage (s_assign s')) (as_storage p')); [discriminate|]. cbn [andb bind] in E1, E2. congruence.
Qed.
Lemma done_eq cfg (s s' : sstate T) v v' acc : s_iter s' = s_iter s -> (exceeded_max_iterations cfg s = false -> v = v') ->
  exceeded_max_iterations cfg s' || acc && v' = exceeded_max_iterations cfg s || acc && v.
Proof.
  intros Hi Hv. assert (He : exceeded_max_iterations cfg s' = exceeded_max_iterations cfg s) by (unfold exceeded_max_iterations; rewrite Hi; auto).
  rewrite He. destruct (exceeded_max_iterations cfg s); auto. rewrite Hv; auto.
Qed.

Lemma gn_sym cfg s s' : value_free cfg -> srel s s' -> exists t t', gn_step E cfg lin g s = Ok t /\ gn_step E cfg lin g' s' = Ok t' /\ srel t t'.
Proof.
  intros Hf Hs. destruct (update_sym s s' Hs) as (b & d & p & p' & E1 & E2 & Hp & Hb). unfold gn_step. rewrite E1, E2. cbn [bind].
  destruct (cost_sym p p' Hp) as (c & r & -> & -> & Hl). cbn [bind fst snd].
  destruct (convergence_sym cfg s s' c d b Hf Hs Hb) as (v & v' & -> & -> & Hv). cbn [bind].
  eexists _, _. split; [reflexivity|]. split; [reflexivity|].
  destruct Hs as (Hi & Ha & Hc & Hr & Hd & He & Hl'). pose proof (done_eq cfg s s' v v' true Hi Hv) as Hdn. cbn [andb] in Hdn.
  unfold srel. cbn. rewrite Hi, He. repeat (split; auto).
Qed.

Lemma rel_choose (acc : bool) a a' p p' : rel a a' -> rel p p' -> as_layout p = as_layout a -> as_layout p' = as_layout a' ->
  rel (mkAssign (if acc then as_storage p else as_storage a) (as_layout a)) (mkAssign (if acc then as_storage p' else as_storage a') (as_layout a')).
Proof. intros Ha Hp H1 H2. destruct acc; [rewrite <- H1, <- H2|]; rewrite !assign_eta; auto. Qed.

Lemma quality_sym (s s' : sstate T) A c x : s_cost s' = s_cost s -> s_res s' = s_res s -> step_quality A c s' x = step_quality A c s x.
Proof. intros H1 H2. unfold step_quality. rewrite H1, H2. auto. Qed.

Lemma lm_sym cfg s s' : value_free (lm_term cfg) -> srel s s' -> exists t t', lm_step E cfg lin g s = Ok t /\ lm_step E cfg lin g' s' = Ok t' /\ srel t t'.
Proof.
  intros Hf Hs. destruct (srel_ready s s' Hs) as (Hrd1 & _). pose proof Hs as Hs0. destruct Hs as (Hi & Ha & Hc & Hr & Hd & He & Hl).
  destruct (jacobian_total E CO fs g Hok Hg Hrd Hws s Hrd1) as (A & EA & HA & Hsh).
  unfold lm_step. rewrite Hr, (jacobian_sym _ _ _ Ha Hl), EA, Hi, He. cbn [bind].
  destruct (matmul_ok (transpose A) (vneg (s_res s)) (transpose_ok A HA)) as (b & -> & Hb); [cbn; rewrite Hsh; unfold vneg; rewrite map_length; auto|]. cbn [bind].
  cbn in Hb. rewrite Hsh in Hb. cbn in Hb.
  destruct (Hlin A b (s_extra s) (s_iter s) HA) as (x & -> & Hx); [rewrite Hsh; auto|]. cbn [bind]. rewrite Hsh in Hx. cbn in Hx.
  destruct (retract_sym _ _ x Ha Hx) as (p & p' & E1 & E2 & Hp & L1 & L2). rewrite local_sym. fold C. rewrite E1, E2. cbn [bind].
  destruct (cost_sym p p' Hp) as (c & r & -> & -> & Hlr). cbn [bind fst snd].
  rewrite (quality_sym s s' A c x Hc Hr). destruct (quality_total E fs s A c x Hrd1 HA Hsh Hx) as (q & ->). cbn [bind].
  destruct (convergence_sym (lm_term cfg) s s' c x b Hf Hs0 Hb) as (v & v' & -> & -> & Hv). cbn [bind].
  eexists _, _. split; [reflexivity|]. split; [reflexivity|]. unfold srel. cbn [s_iter s_assign s_cost s_res s_done s_extra].
  rewrite Hc. split; auto. split; [apply rel_choose; auto|]. split; auto. split; auto. split; auto. apply done_eq; auto.
Qed.

Lemma dl_sym cfg s s' : value_free (dl_term cfg) -> srel s s' -> exists t t', dl_step E cfg lin g s = Ok t /\ dl_step E cfg lin g' s' = Ok t' /\ srel t t'.
Proof.
  intros Hf Hs. destruct (srel_ready s s' Hs) as (Hrd1 & _). pose proof Hs as Hs0. destruct Hs as (Hi & Ha & Hc & Hr & Hd & He & Hl).
  destruct (jacobian_total E CO fs g Hok Hg Hrd Hws s Hrd1) as (A & EA & HA & Hsh).
  unfold dl_step. rewrite Hr, (jacobian_sym _ _ _ Ha Hl), EA, Hi, He. cbn [bind].
  destruct (matmul_ok (transpose A) (vneg (s_res s)) (transpose_ok A HA)) as (b & -> & Hb); [cbn; rewrite Hsh; unfold vneg; rewrite map_length; auto|]. cbn [bind].
  cbn in Hb. rewrite Hsh in Hb. cbn in Hb.
  destruct (Hlin A b n0 (s_iter s) HA) as (gn & -> & Hx); [rewrite Hsh; auto|]. cbn [bind]. rewrite Hsh in Hx. cbn in Hx.
  destruct (matmul_ok A b HA) as (Asd & -> & _); [rewrite Hsh; auto|]. cbn [bind].
  pose proof (dogleg_length _ b Asd gn (s_extra s) Hb Hx) as Hst. set (x := dogleg_step_of b Asd gn (s_extra s)) in *. cbv zeta.
  destruct (retract_sym _ _ x Ha Hst) as (p & p' & E1 & E2 & Hp & L1 & L2). rewrite local_sym. fold C. rewrite E1, E2. cbn [bind].
  destruct (cost_sym p p' Hp) as (c & r & -> & -> & Hlr). cbn [bind fst snd].
  rewrite (quality_sym s s' A c x Hc Hr). destruct (quality_total E fs s A c x Hrd1 HA Hsh Hst) as (q & ->). cbn [bind].
  destruct (convergence_sym (dl_term cfg) s s' c x b Hf Hs0 Hb) as (v & v' & -> & -> & Hv). cbn [bind].
  eexists _, _. split; [reflexivity|]. split; [reflexivity|]. unfold srel. cbn [s_iter s_assign s_cost s_res s_done s_extra].
  rewrite Hc. split; auto. split; [apply rel_choose; auto|]. split; auto. split; auto. split; auto. apply done_eq; auto.
Qed.

Lemma loop_sym (step step' : sstate T -> result (sstate T)) :
  (forall s s', srel s s' -> exists t t', step s = Ok t /\ step' s' = Ok t' /\ srel t t') -> forall fuel s s', srel s s' ->
  match while_loop fuel (fun s => negb (s_done s)) step s, while_loop fuel (fun s => negb (s_done s)) step' s' with
  | None, None => True | Some (Ok t), Some (Ok t') => srel t t' | _, _ => False end.
Proof.
  intros Hst. induction fuel as [|fuel IH]; intros s s' Hs; cbn [while_loop]; pose proof Hs as (_ & _ & _ & _ & -> & _);
    destruct (negb (s_done s)); auto.
  destruct (Hst s s' Hs) as (t & t' & -> & -> & Ht). apply IH; auto.
Qed.
Lemma iterate_sym (step step' : sstate T -> result (sstate T)) :
  (forall s s', srel s s' -> exists t t', step s = Ok t /\ step' s' = Ok t' /\ srel t t') -> forall k s s', srel s s' ->
  exists t t', iterate k step s = Ok t /\ iterate k step' s' = Ok t' /\ srel t t'.
Proof.
  intros Hst. induction k as [|k IH]; intros s s' Hs; cbn [iterate]; [eauto|].
  destruct (Hst s s' Hs) as (t & t' & -> & -> & Ht). cbn [bind]. apply IH; auto.
Qed.

Lemma solve_sym step step' extra init init' val val' fuel :
  (forall s s', srel s s' -> exists t t', step g s = Ok t /\ step' g' s' = Ok t' /\ srel t t') ->
  assigns E fs init val -> assigns E fs init' val' -> related_values E fs S val val' ->
  related_outcome E fs S (solve_with E fuel step extra g init) (solve_with E fuel step' extra g' init').
Proof.
  intros Hst Hi Hi' Hr. unfold solve_with. rewrite (ig_layout _ _ _ Hg), (ig_layout _ _ _ Hg'), mv_layout.
  destruct (update_holds E CO fs init val Hi) as (a & -> & Ha). destruct (update_holds E CO fs init' val' Hi') as (a' & -> & Ha').
  assert (Haa : rel a a') by (exists val, val'; auto). unfold init_state.
  destruct (cost_sym a a' Haa) as (c & r & -> & -> & Hl). cbn [bind fst snd].
  assert (H0 : srel (mkState 0 a c r false extra) (mkState 0 a' c r false extra)) by (unfold srel; cbn; repeat (split; auto)).
  pose proof (loop_sym (step g) (step' g') Hst fuel _ _ H0) as Hlp.
  destruct (while_loop fuel _ (step g) _) as [[t|]|]; destruct (while_loop fuel _ (step' g') _) as [[t'|]|]; try contradiction; cbn; auto.
  destruct Hlp as (_ & (w & w' & Hw & Hw' & Hww) & _).
  destruct (update_back E CO fs (s_assign t) w init val Hw Hi) as (b & -> & Hb).
  destruct (update_back E CO fs (s_assign t') w' init' val' Hw' Hi') as (b' & -> & Hb').
  exists w, w'. auto.
Qed.

Lemma solver_sym solve solve' init init' val val' fuel :
  (exists cfg, value_free cfg /\ solve = (fun fuel => gn_solve E fuel cfg lin) /\ solve' = (fun fuel => gn_solve E fuel cfg lin)) \/
  (exists cfg, value_free (lm_term cfg) /\ solve = (fun fuel => lm_solve E fuel cfg lin) /\ solve' = (fun fuel => lm_solve E fuel cfg lin)) \/
  (exists cfg, value_free (dl_term cfg) /\ solve = (fun fuel => dl_solve E fuel cfg lin) /\ solve' = (fun fuel => dl_solve E fuel cfg lin)) ->
  assigns E fs init val -> assigns E fs init' val' -> related_values E fs S val val' ->
  related_outcome E fs S (solve fuel g init) (solve' fuel g' init').
Proof.
  intros [(cfg & Hf & -> & ->)|[(cfg & Hf & -> & ->)|(cfg & Hf & -> & ->)]] Hi Hi' Hr; unfold gn_solve, lm_solve, dl_solve;
    eapply solve_sym; eauto; intros s s' Hs; [apply gn_sym | apply lm_sym | apply dl_sym]; auto.
Qed.

Lemma fixed_solve_sym init init' val val' fuel unroll it : holds E fs init val -> holds E fs init' val' -> related_values E fs S val val' ->
  related_outcome E fs S (fixed_solve E fuel unroll it lin g init) (fixed_solve E fuel unroll it lin g' init').
Proof.
  intros Hi Hi' Hr. assert (Haa : rel init init') by (exists val, val'; auto). unfold fixed_solve, init_state.
  destruct (cost_sym init init' Haa) as (c & r & -> & -> & Hl). cbn [bind fst snd].
  assert (H0 : srel (mkState 0 init c r false n0) (mkState 0 init' c r false n0)) by (unfold srel; cbn; repeat (split; auto)).
  destruct unroll.
  - destruct (iterate_sym _ _ (fixed_sym it) (Z.to_nat it) _ _ H0) as (t & t' & -> & -> & Ht). cbn.
    destruct Ht as (_ & (w & w' & Hw & Hw' & Hww) & _). exists w, w'. split; [|split]; auto; apply holds_assigns; auto.
  - pose proof (loop_sym _ _ (fixed_sym it) fuel _ _ H0) as Hlp.
    destruct (while_loop fuel _ (fixed_step E it lin g) _) as [[t|]|]; destruct (while_loop fuel _ (fixed_step E it lin g') _) as [[t'|]|]; try contradiction; cbn; auto.
    destruct Hlp as (_ & (w & w' & Hw & Hw' & Hww) & _). exists w, w'. split; [|split]; auto; apply holds_assigns; auto.
Qed.
End Rel.
End Move.
