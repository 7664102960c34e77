(* Lockstep simulation of the solvers on two problems carrying the same information. *)
From Coq Require Import List Arith Bool Lia Permutation Reals Lra ZArith.
From Verif Require Import Num NumR Py Arr MLayout MAssign MNoise MSparse MFactor MGraph MLinear MSolver SpecLayout SpecTree SpecAssign SpecGraph SpecSparse SpecNoise SpecDeriv SpecOrder SpecTwin.
From Verif Require Import PBase PLayout PTree PAssign PAssign2 PAssign3 PStack PGraph PGraph2 PJac PVec PSparse PLinear PCg PGraph3 PGraph4 PGraph5 PHold POrder POrder2.
Import ListNotations.
Local Open Scope R_scope.

Definition wv (E : env R) (val : var -> pytree R) (f : factor R) : list R := unwrap [] (whitened_at E val f).

(* ---- one graph: the model is the squared length of A x + r ---- *)
Section One.
Variable E : env R.
Let C := e_cls E.
Variable fs : list (factor R).
Variable g : graph R.
Hypothesis CO : classes_ok C.
Hypothesis Hok : forall f, In f fs -> factor_ok f.
Hypothesis Hg : is_graph E fs g.
Hypothesis Hrd : total residual_dim fs <> 0%nat.
Hypothesis Hws : well_shaped E fs.
Let L := graph_layout E fs true.

Lemma wv_len val : legal E fs val -> rlen fs (wv E val).
Proof.
  intros Hl f Hf. destruct (whitened_at_ok E val f) as (w & Ew & Hw); [apply Hok; auto | apply (ws_residual E fs Hws); auto|].
  unfold wv. rewrite Ew. auto.
Qed.
Lemma model_one val old xi f x : legal E fs val -> legal E fs old -> In f fs -> (forall v, In v (f_vars f) -> xi v = block C L x v) ->
  model_at E val old xi f = sumsq (vadd (ufun E fs val (wv E old) x f) (wv E old f)).
Proof.
  intros Hl Hl2 Hf Hx. unfold model_at. destruct (whitened_at_ok E old f) as (w & Ew & Hw); [apply Hok; auto | apply (ws_residual E fs Hws); auto|].
  assert (Hwv : wv E old f = w) by (unfold wv; rewrite Ew; auto). rewrite Ew.
  destruct (wjacs_ok E val w (f, 0%nat)) as (Hj & Hs).
  { split; [apply Hok; auto | apply (ws_jacobian E fs Hws); auto]. }
  { simpl. rewrite Hw. lia. }
  assert (Hpart : part w (f, 0%nat) = w) by (unfold part, slice; simpl; rewrite Nat.sub_0_r; apply firstn_all2; rewrite Hw; lia).
  cbn [fst] in Hj. rewrite Hpart in Hj. rewrite Hj. f_equal. rewrite Hwv. f_equal. unfold ufun. rewrite Hwv. unfold pushed, apply_slots.
  unfold wjacs. cbn [fst]. rewrite Hpart. fold (jac_of E val f w). f_equal. fold C. fold L. revert Hx. generalize (f_vars f) (jac_of E val f w).
  induction l as [|v l IH]; intros [|J Js] Hx; simpl; auto. f_equal; [rewrite Hx; [auto | left; auto] | apply IH; intros; apply Hx; right; auto].
Qed.
Lemma model_sum val old xi x : legal E fs val -> legal E fs old -> (forall v, In v (mentioned fs) -> xi v = block C L x v) ->
  vsum (map (model_at E val old xi) fs) = sumsq (vadd (rvec fs (ufun E fs val (wv E old) x)) (rvec fs (wv E old))).
Proof.
  intros Hl Hl2 Hx. assert (Hj : forall f, In f fs -> jacobian_shape_ok E val f) by (intros; apply (ws_jacobian E fs Hws); auto).
  pose proof (wv_len old Hl2) as Hw. pose proof (ufun_len E fs Hok Hrd val (wv E old) x Hw Hj) as Hu.
  unfold vadd. rewrite rvec_zipw by auto. rewrite sumsq_dot, rvec_vdot by (intros f Hf; rewrite zipw_length, Hu, Hw by auto; lia).
  apply vsum_map_ext. intros f Hf. rewrite <- sumsq_dot. apply model_one; auto. intros v Hv. apply Hx. apply mentioned_in. eauto.
Qed.
End One.

Section Twin.
Variable E : env R.
Let C := e_cls E.
Variables fs fs' : list (factor R).
Variables g g' : graph R.
Hypothesis CO : classes_ok C.
Hypothesis Hok : forall f, In f fs -> factor_ok f.
Hypothesis Hok' : forall f, In f fs' -> factor_ok f.
Hypothesis Hg : is_graph E fs g.
Hypothesis Hg' : is_graph E fs' g'.
Hypothesis Hrd : total residual_dim fs <> 0%nat.
Hypothesis Hrd' : total residual_dim fs' <> 0%nat.
Hypothesis Hws : well_shaped E fs.
Hypothesis Hws' : well_shaped E fs'.
Hypothesis HI : same_information E fs fs'.
Let L := graph_layout E fs true.
Let L' := graph_layout E fs' true.
Let Hvars := proj1 HI.
Let N1 : NoDup (mentioned fs) := mentioned_nodup fs.
Let N2 : NoDup (mentioned fs') := mentioned_nodup fs'.
Notation lrel := (lrel E fs fs').

Lemma ne_of (l : list (factor R)) : total residual_dim l <> 0%nat -> l <> [].
Proof. intros H ->. apply H. auto. Qed.
Lemma legal_two val : legal E fs val -> legal E fs' val.
Proof. intros H v Hv. apply H, Hvars; auto. Qed.

(* ---- related Jacobians ---- *)
Record grel (A A' : coo R) : Prop := {
  gr_ok : coo_ok A; gr_ok' : coo_ok A';
  gr_cols : snd (m_shape A) = l_dim L; gr_cols' : snd (m_shape A') = l_dim L';
  gr_dot : forall x x' y y', lrel true x x' -> lrel true y y' -> vdot (mapply A x) (mapply A y) = vdot (mapply A' x') (mapply A' y') }.
Record qrel (A A' : coo R) (r r' : list R) : Prop := {
  qr_ok : coo_ok A; qr_ok' : coo_ok A';
  qr_rows : fst (m_shape A) = length r; qr_rows' : fst (m_shape A') = length r';
  qr_cols : snd (m_shape A) = l_dim L; qr_cols' : snd (m_shape A') = l_dim L';
  qr_model : forall x x', lrel true x x' -> sumsq (vadd (mapply A x) r) = sumsq (vadd (mapply A' x') r') }.

Lemma lrel_neg x x' : lrel true x x' -> lrel true (vscale (-1) x) (vscale (-1) x').
Proof. apply vrel_map. Qed.
Lemma lrel_add x x' y y' : lrel true x x' -> lrel true y y' -> lrel true (vadd x y) (vadd x' y').
Proof. apply vrel_zipw. Qed.

Section Polar.
Variables (A A' : coo R) (r r' : list R).
Hypothesis HQ : qrel A A' r r'.
Lemma q_expand B s x : coo_ok B -> fst (m_shape B) = length s -> length x = snd (m_shape B) ->
  sumsq (vadd (mapply B x) s) = sumsq (mapply B x) + 2 * vdot (mapply B x) s + sumsq s /\
  sumsq (vadd (mapply B (vscale (-1) x)) s) = sumsq (mapply B x) - 2 * vdot (mapply B x) s + sumsq s /\
  sumsq (vadd (mapply B (vscale 0 x)) s) = sumsq s.
Proof.
  intros HB Hs Hx. rewrite !mapply_scale by auto.
  assert (Hl : forall k, length (vscale k (mapply B x)) = length s) by (intros k; unfold vscale; rewrite map_length, mapply_length; auto).
  rewrite !sumsq_add by (rewrite ?Hl, ?mapply_length; auto). rewrite !sumsq_scale, !vdot_scale_l. split; [|split]; lra.
Qed.
Lemma polar x x' : lrel true x x' -> sumsq (mapply A x) = sumsq (mapply A' x') /\ vdot (mapply A x) r = vdot (mapply A' x') r'.
Proof.
  intros Hx. destruct HQ as [OA OA' R1 R2 C1 C2 Hm]. pose proof Hx as (Lx & Lx' & _). fold L in Lx. fold L' in Lx'.
  destruct (q_expand A r x OA R1) as (E1 & E2 & E3); [rewrite C1; auto|]. destruct (q_expand A' r' x' OA' R2) as (F1 & F2 & F3); [rewrite C2; auto|].
  pose proof (Hm _ _ Hx) as H1. pose proof (Hm _ _ (lrel_neg _ _ Hx)) as H2. pose proof (Hm _ _ (vrel_map C true _ _ (Rmult 0) _ _ Hx)) as H3.
  change (map (Rmult 0) x) with (vscale 0 x) in H3. change (map (Rmult 0) x') with (vscale 0 x') in H3.
  rewrite E1, F1 in H1. rewrite E2, F2 in H2. rewrite E3, F3 in H3. split; lra.
Qed.
Lemma polar_dot : grel A A'.
Proof.
  pose proof HQ as [OA OA' R1 R2 C1 C2 Hm]. split; auto. intros x x' y y' Hx Hy. pose proof Hx as (Lx & Lx' & _). pose proof Hy as (Ly & Ly' & _).
  fold L in Lx, Ly. fold L' in Lx', Ly'.
  destruct (polar _ _ Hx) as (H1 & _). destruct (polar _ _ Hy) as (H2 & _). destruct (polar _ _ (lrel_add _ _ _ _ Hx Hy)) as (H3 & _).
  rewrite !mapply_add in H3 by (auto; rewrite ?C1, ?C2; auto). rewrite !sumsq_add in H3 by (rewrite !mapply_length; auto). lra.
Qed.
Lemma polar_transpose : lrel true (mapply (transpose A) r) (mapply (transpose A') r').
Proof.
  pose proof HQ as [OA OA' R1 R2 C1 C2 Hm].
  assert (Hl : length (mapply (transpose A) r) = l_dim L) by (rewrite mapply_length; simpl; auto).
  destruct (vrel_to C true _ _ N1 N2 Hvars _ Hl) as (z & Hz).
  apply (vrel_ext C true _ _ N1 N2 Hvars _ z); auto.
  - rewrite mapply_length. simpl. auto.
  - intros y y' Hy. pose proof Hy as (Hy1 & Hy2 & _).
    rewrite <- !mapply_adjoint; auto; try (rewrite C1; auto); try (rewrite C2; auto). apply (polar _ _ Hy).
Qed.
End Polar.

(* the two Jacobians at val, with residuals of old *)
Lemma two_jacobians a a' val old : assigns E fs a val -> assigns E fs' a' val -> legal E fs val -> legal E fs old ->
  exists A A', compute_whitened_residual_jacobian E g a (rvec fs (wv E old)) = Ok A /\
    compute_whitened_residual_jacobian E g' a' (rvec fs' (wv E old)) = Ok A' /\ qrel A A' (rvec fs (wv E old)) (rvec fs' (wv E old)).
Proof.
  intros Ha Ha' Hl Hl2. pose proof (legal_two _ Hl) as Hl'. pose proof (legal_two _ Hl2) as Hl2'.
  pose proof (wv_len E fs Hok Hws old Hl2) as Hw. pose proof (wv_len E fs' Hok' Hws' old Hl2') as Hw'.
  destruct (one_jacobian E fs g Hok Hg Hrd a val _ Ha (fun f Hf => ws_jacobian E fs Hws val f Hl Hf) Hw) as (A & EA & HA & Hs & Hx).
  destruct (one_jacobian E fs' g' Hok' Hg' Hrd' a' val _ Ha' (fun f Hf => ws_jacobian E fs' Hws' val f Hl' Hf) Hw') as (A' & EA' & HA' & Hs' & Hx').
  exists A, A'. split; auto. split; auto. split; auto; try (rewrite ?Hs, ?Hs', ?rvec_length; auto).
  intros x x' Hr. pose proof Hr as (H1 & H2 & H3). rewrite Hx, Hx' by auto.
  rewrite <- (model_sum E fs Hok Hrd Hws val old (block C L x) x) by auto.
  rewrite <- (model_sum E fs' Hok' Hrd' Hws' val old (block C L x) x') by (auto; intros v Hv; apply H3, Hvars; auto).
  apply (proj2 HI); auto. intros v Hv. apply (block_length C (mentioned fs) true N1); auto.
Qed.

Lemma two_costs a a' val : holds E fs a val -> holds E fs' a' val ->
  exists c, compute_cost E g a = Ok (c, rvec fs (wv E val)) /\ compute_cost E g' a' = Ok (c, rvec fs' (wv E val)).
Proof.
  intros Ha Ha'. pose proof (holds_legal E fs CO a val Ha) as Hl. pose proof (legal_two _ Hl) as Hl'.
  destruct (one_cost E fs g Hok Hg a val (holds_assigns E fs a val Ha) (fun f Hf => ws_residual E fs Hws val f Hl Hf) (ne_of fs Hrd)) as (Hw & Hc).
  destruct (one_cost E fs' g' Hok' Hg' a' val (holds_assigns E fs' a' val Ha') (fun f Hf => ws_residual E fs' Hws' val f Hl' Hf) (ne_of fs' Hrd')) as (Hw' & Hc').
  exists (sumsq (rvec fs (wv E val))). split; [exact Hc|]. rewrite Hc'. f_equal. f_equal. fold (wv E val).
  destruct (two_jacobians a a' val val (holds_assigns E fs a val Ha) (holds_assigns E fs' a' val Ha') Hl Hl) as (A & A' & _ & _ & HQ).
  destruct (vrel_to C true _ _ N1 N2 Hvars (vzero (l_dim L))) as (z & Hz); [apply vzero_length|].
  pose proof (polar A A' _ _ HQ _ _ Hz) as (_ & _). pose proof HQ as [OA OA' R1 R2 C1 C2 Hm]. pose proof Hz as (Lz & Lz' & _). fold L in Lz. fold L' in Lz'.
  pose proof (Hm _ _ (vrel_map C true _ _ (Rmult 0) _ _ Hz)) as H3.
  destruct (q_expand A _ (vzero (l_dim L)) OA R1) as (_ & _ & E3); [rewrite C1; auto|]. destruct (q_expand A' _ z OA' R2) as (_ & _ & F3); [rewrite C2; auto|].
  change (map (Rmult 0)) with (vscale (N := NumR) 0) in H3. symmetry. rewrite <- E3, <- F3. exact H3.
Qed.

(* ---- linear solvers ---- *)
Lemma nth_error_nth_eq (l l' : list R) i j : nth_error l i = nth_error l' j -> nth i l 0 = nth j l' 0.
Proof. intros H. rewrite <- !nth_default_eq. unfold nth_default. rewrite H. auto. Qed.
Lemma nth_block (ls : list (factor R)) x v i : In v (mentioned ls) -> length x = l_dim (graph_layout E ls true) -> (i < vldim C v)%nat ->
  nth i (block C (graph_layout E ls true) x v) 0 = nth (pos (graph_layout E ls true) v + i) x 0.
Proof.
  intros Hv Hx Hi. pose proof (mentioned_nodup ls) as ND. pose proof (proj1 (lay_index_mem C (mentioned ls) true ND v) Hv) as (j & Hj).
  unfold block, pos. unfold graph_layout. fold C. rewrite Hj. rewrite (lay_local C (mentioned ls) true ND). change (vdim C true v) with (vldim C v).
  apply nth_error_nth_eq. apply nth_error_slice. lia.
Qed.
Lemma unit_rel v i : In v (mentioned fs) -> (i < vldim C v)%nat -> lrel true (unitv (l_dim L) (pos L v + i)) (unitv (l_dim L') (pos L' v + i)).
Proof.
  intros Hv Hi. assert (Hv' : In v (mentioned fs')) by (apply Hvars; auto). split; [apply unitv_length|]. split; [apply unitv_length|]. intros w Hw. assert (Hw' : In w (mentioned fs')) by (apply Hvars; auto).
  fold (graph_layout E fs true) (graph_layout E fs' true). fold L L'.
  assert (Ln : length (block C L (unitv (l_dim L) (pos L v + i)) w) = vldim C w) by (apply (PAssign.block_length C (mentioned fs) true N1); auto; apply unitv_length).
  assert (Ln' : length (block C L' (unitv (l_dim L') (pos L' v + i)) w) = vldim C w) by (apply (PAssign.block_length C (mentioned fs') true N2); auto; apply unitv_length).
  apply (nth_ext _ _ 0 0); [exact (eq_trans Ln (eq_sym Ln'))|]. intros k Hk0. pose proof (Nat.lt_le_trans _ _ _ Hk0 (Nat.eq_le_incl _ _ Ln)) as Hk. clear Hk0 Ln Ln'. unfold L, L' in *. rewrite !nth_block by (auto using unitv_length).
  pose proof (pos_bound E fs v Hv) as B1. pose proof (pos_bound E fs' v Hv') as B2. pose proof (pos_bound E fs w Hw) as B3. pose proof (pos_bound E fs' w Hw') as B4. fold C in B1, B2, B3, B4.
  rewrite !nth_unitv by lia. assert (Hd : v = w \/ v <> w) by (destruct (var_eqb v w) eqn:He; [left; apply var_eqb_ok; auto | right; intros Hc; apply var_eqb_ok in Hc; congruence]). destruct Hd as [->|Hn].
  - assert (Hb : Nat.eqb (pos (graph_layout E fs true) w + k) (pos (graph_layout E fs true) w + i) = Nat.eqb (pos (graph_layout E fs' true) w + k) (pos (graph_layout E fs' true) w + i)).
    { destruct (Nat.eqb_spec (pos (graph_layout E fs true) w + k) (pos (graph_layout E fs true) w + i)), (Nat.eqb_spec (pos (graph_layout E fs' true) w + k) (pos (graph_layout E fs' true) w + i)); auto; lia. }
    rewrite Hb. auto.
  - pose proof (pos_disjoint E fs v w Hv Hw Hn) as D1. pose proof (pos_disjoint E fs' v w Hv' Hw' Hn) as D2. cbv zeta in D1, D2. fold C in D1, D2.
    destruct (Nat.eqb_spec (pos (graph_layout E fs true) w + k) (pos (graph_layout E fs true) v + i)), (Nat.eqb_spec (pos (graph_layout E fs' true) w + k) (pos (graph_layout E fs' true) v + i)); auto; lia.
Qed.

Section Lin.
Variables A A' : coo R.
Hypothesis HG : grel A A'.
Lemma gr_cholmod b b' lambd it : lrel true b b' -> 0 < lambd + Rlit 1 100000 ->
  exists x x', cholmod_solve A b lambd it = Ok x /\ cholmod_solve A' b' lambd it = Ok x' /\ lrel true x x'.
Proof.
  intros Hb Hl. pose proof HG as [OA OA' C1 C2 Hdot]. pose proof Hb as (Hb1 & Hb2 & _).
  destruct (cholmod_solve_ok A b lambd it OA Hl) as (x & Ex & Hx); [rewrite C1; auto|].
  destruct (cholmod_solve_ok A' b' lambd it OA' Hl) as (x' & Ex' & Hx'); [rewrite C2; auto|].
  exists x, x'. split; auto. split; auto.
  assert (Lx : length x = l_dim L) by (rewrite (proj1 Hx); auto).
  destruct (vrel_to C true _ _ N1 N2 Hvars x Lx) as (z & Hz). pose proof Hz as (_ & Lz & _).
  replace x' with z; auto. apply (normal_unique A' (lambd + Rlit 1 100000) OA' Hl b'); auto.
  apply normal_weak; auto; try (rewrite C2; auto). intros y' Hy'.
  destruct (vrel_from C true _ _ N1 N2 Hvars y') as (y & Hy); [rewrite Hy'; auto|]. pose proof Hy as (Ly & _ & _).
  apply (proj1 (normal_weak A (lambd + Rlit 1 100000) OA b x ltac:(rewrite C1; auto) ltac:(rewrite C1; auto))) with (y := y) in Hx; [|rewrite C1; auto].
  rewrite <- (Hdot y y' x z), <- (vrel_dot C true _ _ N1 N2 Hvars y y' x z), <- (vrel_dot C true _ _ N1 N2 Hvars y y' b b') by auto. auto.
Qed.
Lemma gr_diag : distinct A -> distinct A' -> lrel true (ata_diagonals A (l_dim L)) (ata_diagonals A' (l_dim L')).
Proof.
  intros D D'. pose proof HG as [OA OA' C1 C2 Hdot]. split; [apply diag_length|]. split; [apply diag_length|]. intros v Hv. assert (Hv' : In v (mentioned fs')) by (apply Hvars; auto).
  fold (graph_layout E fs true) (graph_layout E fs' true). fold L L'.
  assert (Ln : length (block C L (ata_diagonals A (l_dim L)) v) = vldim C v) by (apply (PAssign.block_length C (mentioned fs) true N1); auto; apply diag_length).
  assert (Ln' : length (block C L' (ata_diagonals A' (l_dim L')) v) = vldim C v) by (apply (PAssign.block_length C (mentioned fs') true N2); auto; apply diag_length).
  apply (nth_ext _ _ 0 0); [exact (eq_trans Ln (eq_sym Ln'))|]. intros i Hi0. pose proof (Nat.lt_le_trans _ _ _ Hi0 (Nat.eq_le_incl _ _ Ln)) as Hi. clear Hi0 Ln Ln'. pose proof (pos_bound E fs v Hv) as B1. pose proof (pos_bound E fs' v Hv') as B2. fold C L L' in B1, B2.
  unfold L, L'. rewrite !nth_block by (auto using diag_length). fold L L'.
  pose proof (diag_is_gram A (pos L v + i) OA D) as G1. rewrite C1 in G1. rewrite G1 by lia. pose proof (diag_is_gram A' (pos L' v + i) OA' D') as G2. rewrite C2 in G2. rewrite G2 by lia.
  rewrite !sumsq_dot. apply Hdot; apply unit_rel; auto.
Qed.
Lemma gr_ata x x' : lrel true x x' -> lrel true (mapply (transpose A) (mapply A x)) (mapply (transpose A') (mapply A' x')).
Proof.
  intros Hx. pose proof HG as [OA OA' C1 C2 Hdot]. pose proof Hx as (Lx & Lx' & _).
  assert (Hl : length (mapply (transpose A) (mapply A x)) = l_dim L) by (rewrite mapply_length; simpl; auto).
  destruct (vrel_to C true _ _ N1 N2 Hvars _ Hl) as (z & Hz). apply (vrel_ext C true _ _ N1 N2 Hvars _ z); auto.
  - rewrite mapply_length. simpl. auto.
  - intros y y' Hy. pose proof Hy as (Hy1 & Hy2 & _). rewrite <- !mapply_adjoint; auto; try (rewrite C1; auto); try (rewrite C2; auto); try (rewrite mapply_length; auto).
Qed.
Lemma gr_cg tol b b' lambd it : distinct A -> distinct A' -> lrel true b b' ->
  exists x x', cg_solve tol A b lambd it = Ok x /\ cg_solve tol A' b' lambd it = Ok x' /\ lrel true x x'.
Proof.
  intros D D' Hb. pose proof HG as [OA OA' C1 C2 Hdot]. pose proof Hb as (Hb1 & Hb2 & _). change (length b = l_dim L) in Hb1. change (length b' = l_dim L') in Hb2. pose proof (gr_diag D D') as Hd.
  assert (Hn : l_dim L = l_dim L') by (apply (dims_same C true _ _ N1 N2 Hvars)).
  assert (Hdotr : forall x x' y y', lrel true x x' -> lrel true y y' -> vdot x y = vdot x' y') by (intros; apply (vrel_dot C true _ _ N1 N2 Hvars); auto).
  assert (Hz : forall f x x' y y', lrel true x x' -> lrel true y y' -> lrel true (zipw f x y) (zipw f x' y')) by (intros; apply vrel_zipw; auto).
  assert (Hm : forall f x x', lrel true x x' -> lrel true (map f x) (map f x')) by (intros; apply vrel_map; auto).
  assert (Hop : forall x x', lrel true x x' -> exists y y', ata_function A lambd (l_dim L) x = Ok y /\ ata_function A' lambd (l_dim L') x' = Ok y' /\ lrel true y y').
  { intros x x' Hx. pose proof Hx as (Lx & Lx' & _). change (length x = l_dim L) in Lx. change (length x' = l_dim L') in Lx'.
    pose proof (ata_function_ok A lambd x OA) as F1. rewrite C1 in F1. pose proof (ata_function_ok A' lambd x' OA') as F2. rewrite C2 in F2.
    eexists _, _. split; [apply F1; auto|]. split; [apply F2; auto|]. apply Hz; [apply gr_ata; auto|]. apply Hz; auto. apply Hm; auto. }
  assert (Hj : forall x x', lrel true x x' -> lrel true (jacobi A (l_dim L) x) (jacobi A' (l_dim L') x')) by (intros x x' Hx; apply Hz; auto).
  assert (Hloop : forall k atol2 x x' r r' gamma p p', lrel true x x' -> lrel true r r' -> lrel true p p' ->
    exists y y' m, cg_loop k (ata_function A lambd (l_dim L)) (jacobi A (l_dim L)) atol2 x r gamma p = Ok (y, m) /\
      cg_loop k (ata_function A' lambd (l_dim L')) (jacobi A' (l_dim L')) atol2 x' r' gamma p' = Ok (y', m) /\ lrel true y y').
  { induction k as [|k IH]; intros atol2 x x' r r' gamma p p' Hx Hr Hp; cbn [cg_loop]; [exists x, x', 0%nat; auto|].
    rewrite <- (Hdotr r r' r r') by auto. destruct (nltb atol2 (vdot r r)); [|exists x, x', (S k); auto].
    destruct (Hop p p' Hp) as (y & y' & -> & -> & Hy). cbn [bind]. cbv zeta. rewrite <- (Hdotr p p' y y') by auto.
    set (al := ndiv gamma (vdot p y)). assert (Hr1 : lrel true (vsub r (vscale al y)) (vsub r' (vscale al y'))) by (apply Hz; auto; apply Hm; auto).
    rewrite <- (Hdotr _ _ _ _ Hr1 (Hj _ _ Hr1)). apply IH; auto; [apply Hz; auto; apply Hm; auto|]. apply Hz; auto; apply Hm; auto. }
  assert (H0 : lrel true (vzero (l_dim L)) (vzero (l_dim L'))).
  { pose proof (Hm (fun _ => 0) b b' Hb) as H0. assert (Hc : forall l : list R, map (fun _ => 0) l = vzero (length l)) by (induction l; cbn; f_equal; auto). rewrite !Hc, Hb1, Hb2 in H0. auto. }
  unfold cg_solve, cg_run. rewrite Hb1, Hb2. unfold cg. cbv zeta. destruct (Hop _ _ H0) as (y & y' & -> & -> & Hy). cbn [bind].
  assert (Hr0 : lrel true (vsub b y) (vsub b' y')) by (apply Hz; auto).
  rewrite <- (Hdotr b b' b b'), <- (Hdotr _ _ _ _ Hr0 (Hj _ _ Hr0)) by auto. match goal with |- context [cg_loop (l_dim L') ?o ?m ?a ?x ?r ?g ?p] => replace (cg_loop (l_dim L') o m a x r g p) with (cg_loop (l_dim L) o m a x r g p) by (apply (f_equal (fun k => cg_loop k o m a x r g p)); exact Hn) end.
  destruct (Hloop (l_dim L) (nmax (nmul (nmul (tol it) (tol it)) (vdot b b)) (nmul n0 n0)) _ _ _ _ (vdot (vsub b y) (jacobi A (l_dim L) (vsub b y))) _ _ H0 Hr0 (Hj _ _ Hr0)) as (u & u' & m & E1 & E2 & Hu).
  rewrite E1, E2. cbn [bind fst]. exists u, u'. auto.
Qed.
End Lin.

Hypothesis Hnr : no_repeats fs.
Hypothesis Hnr' : no_repeats fs'.
Variable lin : linear_solver (T := R).
Hypothesis Hlin : library_linear lin.

Lemma jac_distinct (ls : list (factor R)) h a val r A : (forall f, In f ls -> factor_ok f) -> is_graph E ls h -> well_shaped E ls -> total residual_dim ls <> 0%nat -> no_repeats ls ->
  assigns E ls a val -> legal E ls val -> length r = total residual_dim ls -> compute_whitened_residual_jacobian E h a r = Ok A -> distinct A.
Proof.
  intros Ho Hh Hw Hr Hn Ha Hl Hlen EA. destruct (jacobian_action E ls h a r val Ho (fun f Hf => ws_jacobian E ls Hw val f Hl Hf) Hh Ha Hlen Hr) as (A2 & E2 & _ & _ & Hco & _).
  rewrite EA in E2. injection E2 as <-. unfold distinct. rewrite Hco. apply (coords_distinct E ls h); auto.
Qed.
Lemma lin_rel A A' b b' lambd it : grel A A' -> distinct A -> distinct A' -> lrel true b b' -> 0 <= lambd ->
  exists x x', lin A b lambd it = Ok x /\ lin A' b' lambd it = Ok x' /\ lrel true x x'.
Proof.
  intros HG D D' Hb Hl. destruct Hlin as [|tol]; [apply gr_cholmod; auto; unfold Rlit; lra | apply gr_cg; auto].
Qed.

Lemma zero_ge : 0 <= @n0 R NumR.
Proof. rn. lra. Qed.

(* ---- states ---- *)
Lemma two_storage a a' val : holds E fs a val -> holds E fs' a' val -> lrel false (as_storage a) (as_storage a').
Proof.
  intros Ha Ha'. destruct (holds_storage E fs CO a val Ha) as (H1 & H2). destruct (holds_storage E fs' CO a' val Ha') as (H3 & H4).
  repeat split; auto. intros v Hv. fold (graph_layout E fs false) (graph_layout E fs' false). 
  transitivity (flatten (val v)); [apply H2; auto | symmetry; apply H4, Hvars; auto].
Qed.

Lemma two_retract a a' val x x' : holds E fs a val -> holds E fs' a' val -> lrel true x x' ->
  exists p p' val', manifold_retract C a (mkAssign x (g_local_layout g)) = Ok p /\
    manifold_retract C a' (mkAssign x' (g_local_layout g')) = Ok p' /\
    as_layout p = as_layout a /\ as_layout p' = as_layout a' /\ holds E fs p val' /\ holds E fs' p' val'.
Proof.
  intros Ha Ha' (Hx1 & Hx2 & Hb). rewrite (ig_local _ _ _ Hg), (ig_local _ _ _ Hg').
  pose proof (holds_legal E fs CO a val Ha) as Hl.
  destruct (one_retract E fs CO Hws a val x Ha Hx1) as (p & Ep & HLp & Hh).
  destruct (one_retract E fs' CO Hws' a' val x' Ha' Hx2) as (p' & Ep' & HLp' & Hh').
  set (val' := fun v => unwrap (val v) (retract (C (v_ty v)) (val v) (block C L x v))).
  assert (Hr : forall v, In v (mentioned fs) -> retract (C (v_ty v)) (val v) (block C L x v) = Ok (val' v)).
  { intros v Hv. destruct (ws_retract E fs Hws v (val v) (block C L x v)) as (y & Ey & _); auto.
    - apply (block_length C (mentioned fs) true N1); auto.
    - fold C in Ey. unfold val'. rewrite Ey. auto. }
  exists p, p', val'. split; auto. split; auto. split; auto. split; auto. split; [apply Hh; auto|].
  apply Hh'. intros v Hv. apply Hvars in Hv. rewrite <- (Hr v Hv). f_equal. symmetry. apply Hb; auto.
Qed.

(* related solver states *)
Record srel (s s' : sstate R) : Prop := {
  sr_val : exists val, holds E fs (s_assign s) val /\ holds E fs' (s_assign s') val;
  sr_res : exists old, legal E fs old /\ s_res s = rvec fs (wv E old) /\ s_res s' = rvec fs' (wv E old);
  sr_cost : s_cost s = s_cost s'; sr_iter : s_iter s = s_iter s';
  sr_done : s_done s = s_done s'; sr_extra : s_extra s = s_extra s' }.

Definition rrel (P : sstate R -> Prop) (r r' : result (sstate R)) : Prop :=
  match r, r' with Ok s, Ok s' => srel s s' /\ P s | Err e, Err e' => e = e' | _, _ => False end.

Lemma two_gradient cfg s s' x x' ng ng' : srel s s' -> lrel true ng ng' ->
  converged_gradient E cfg s (mkAssign x (g_local_layout g)) ng = converged_gradient E cfg s' (mkAssign x' (g_local_layout g')) ng'.
Proof.
  intros Hs Hn. destruct (sr_val _ _ Hs) as (val & Ha & Ha'). unfold converged_gradient. fold C. cbn [as_layout].
  destruct (two_retract _ _ val ng ng' Ha Ha' Hn) as (p & p' & val' & -> & -> & _ & _ & Hp1 & Hp2). cbn [bind].
  assert (Hv : lrel false (vsub (as_storage (s_assign s)) (as_storage p)) (vsub (as_storage (s_assign s')) (as_storage p'))).
  { apply vrel_zipw; eapply two_storage; eauto. }
  apply vrel_perm in Hv; auto.
  destruct (vsub (as_storage (s_assign s)) (as_storage p)) as [|d l], (vsub (as_storage (s_assign s')) (as_storage p')) as [|d' l']; auto.
  - apply Permutation_nil in Hv. discriminate.
  - symmetry in Hv. apply Permutation_nil in Hv. discriminate.
  - rewrite (vmax_perm _ _ _ _ Hv), (sr_iter _ _ Hs). auto.
Qed.
Lemma two_convergence cfg s s' c x x' ng ng' : srel s s' -> lrel true x x' -> lrel true ng ng' ->
  check_convergence E cfg s c (mkAssign x (g_local_layout g)) ng = check_convergence E cfg s' c (mkAssign x' (g_local_layout g')) ng'.
Proof.
  intros Hs Hx Hn. unfold check_convergence. rewrite (two_gradient cfg s s' x x' ng ng') by auto.
  destruct (converged_gradient E cfg s' _ ng'); auto. cbn [bind]. f_equal. f_equal; [f_equal|].
  - unfold converged_cost. rewrite (sr_cost _ _ Hs). auto.
  - unfold converged_parameters. cbn [as_storage]. destruct (sr_val _ _ Hs) as (val & Ha & Ha').
    rewrite (vrel_norm C true _ _ N1 N2 Hvars (map nabs x) (map nabs x')) by (apply vrel_map; auto).
    rewrite (vrel_norm C false _ _ N1 N2 Hvars (as_storage (s_assign s)) (as_storage (s_assign s'))) by (eapply two_storage; eauto). auto.
Qed.

Lemma two_system s s' : srel s s' ->
  exists val A A', holds E fs (s_assign s) val /\ holds E fs' (s_assign s') val /\
    compute_whitened_residual_jacobian E g (s_assign s) (s_res s) = Ok A /\
    compute_whitened_residual_jacobian E g' (s_assign s') (s_res s') = Ok A' /\ qrel A A' (s_res s) (s_res s') /\ distinct A /\ distinct A'.
Proof.
  intros Hs. destruct (sr_val _ _ Hs) as (val & Ha & Ha'). destruct (sr_res _ _ Hs) as (old & Ho & Er & Er'). pose proof (holds_legal E fs CO _ val Ha) as Hl.
  pose proof (holds_assigns E fs _ _ Ha) as Has. pose proof (holds_assigns E fs' _ _ Ha') as Has'.
  destruct (two_jacobians (s_assign s) (s_assign s') val old Has Has' Hl Ho) as (A & A' & EA & EA' & HQ).
  exists val, A, A'. rewrite Er, Er'. do 5 (split; auto). split.
  - apply (jac_distinct fs g (s_assign s) val (rvec fs (wv E old))); auto. apply rvec_length. apply wv_len; auto.
  - apply (jac_distinct fs' g' (s_assign s') val (rvec fs' (wv E old))); auto; [apply legal_two; auto|]. apply rvec_length. apply wv_len; auto. apply legal_two; auto.
Qed.
Lemma qr_matmul A A' r r' x x' : qrel A A' r r' -> lrel true x x' -> matmul A x = Ok (mapply A x) /\ matmul A' x' = Ok (mapply A' x').
Proof. intros [OA OA' R1 R2 C1 C2 _] (H1 & H2 & _). split; apply matmul_mapply; auto; [rewrite C1 | rewrite C2]; auto. Qed.
Lemma qr_matmul_t A A' r r' : qrel A A' r r' -> matmul (transpose A) r = Ok (mapply (transpose A) r) /\ matmul (transpose A') r' = Ok (mapply (transpose A') r').
Proof. intros [OA OA' R1 R2 C1 C2 _]. split; apply matmul_mapply; auto using transpose_ok. Qed.
Lemma neg_scale (r : list R) : vneg r = vscale (-1) r.
Proof. unfold vneg, vscale. apply map_ext. intros x. rn. lra. Qed.
Lemma qr_matmul_neg A A' r r' : qrel A A' r r' -> exists b b', matmul (transpose A) (vneg r) = Ok b /\ matmul (transpose A') (vneg r') = Ok b' /\ lrel true b b'.
Proof.
  intros HQ. pose proof HQ as [OA OA' R1 R2 C1 C2 _]. rewrite !neg_scale. eexists _, _. split; [|split].
  - apply matmul_mapply; auto using transpose_ok. cbn [transpose m_shape snd]. unfold vscale. rewrite map_length. auto.
  - apply matmul_mapply; auto using transpose_ok. cbn [transpose m_shape snd]. unfold vscale. rewrite map_length. auto.
  - rewrite !mapply_scale by (auto using transpose_ok). apply lrel_neg. apply polar_transpose; auto.
Qed.

Lemma gn_update_rel s s' : srel s s' ->
  exists b b' x x' p p' val', gn_update E lin g s = Ok (b, mkAssign x (g_local_layout g), p) /\
    gn_update E lin g' s' = Ok (b', mkAssign x' (g_local_layout g'), p') /\
    lrel true b b' /\ lrel true x x' /\ holds E fs p val' /\ holds E fs' p' val'.
Proof.
  intros Hs. destruct (two_system s s' Hs) as (val & A & A' & Ha & Ha' & EA & EA' & HQ & D & D').
  unfold gn_update. rewrite EA, EA'. cbn [bind]. destruct (qr_matmul_t _ _ _ _ HQ) as (-> & ->). cbn [bind].
  pose proof (polar_transpose _ _ _ _ HQ) as Hb. apply (vrel_map C true _ _ nneg) in Hb.
  fold (vneg (mapply (transpose A) (s_res s))) (vneg (mapply (transpose A') (s_res s'))) in Hb.
  destruct (lin_rel A A' _ _ n0 (s_iter s) (polar_dot _ _ _ _ HQ) D D' Hb zero_ge) as (x & x' & Ex & Ex' & Hx).
  rewrite <- (sr_iter _ _ Hs), Ex, Ex'. cbn [bind].
  destruct (two_retract _ _ val x x' Ha Ha' Hx) as (p & p' & val' & Ep & Ep' & _ & _ & Hp1 & Hp2). fold C. rewrite Ep, Ep'. cbn [bind].
  exists (vneg (mapply (transpose A) (s_res s))), (vneg (mapply (transpose A') (s_res s'))), x, x', p, p', val'. repeat (split; auto).
Qed.
Lemma gn_step_rel cfg s s' : srel s s' -> rrel (fun _ => True) (gn_step E cfg lin g s) (gn_step E cfg lin g' s').
Proof.
  intros Hs. destruct (gn_update_rel s s' Hs) as (b & b' & x & x' & p & p' & val' & Eu & Eu' & Hb & Hx & Hp1 & Hp2).
  unfold gn_step. rewrite Eu, Eu'. cbn [bind].
  destruct (two_costs p p' val' Hp1 Hp2) as (c & -> & ->). cbn [bind fst snd].
  rewrite (two_convergence cfg s s' c x x' b b') by auto.
  destruct (check_convergence E cfg s' c _ b') as [conv|e]; cbn [bind]; [|reflexivity].
  split; auto. split; cbn [s_assign s_res s_cost s_iter s_done s_extra].
  - exists val'; auto.
  - exists val'. split; auto. apply (holds_legal E fs CO p); auto.
  - auto.
  - rewrite (sr_iter _ _ Hs). auto.
  - unfold exceeded_max_iterations. rewrite (sr_iter _ _ Hs). auto.
  - apply (sr_extra _ _ Hs).
Qed.
Lemma fixed_step_rel it s s' : srel s s' -> rrel (fun _ => True) (fixed_step E it lin g s) (fixed_step E it lin g' s').
Proof.
  intros Hs. destruct (gn_update_rel s s' Hs) as (b & b' & x & x' & p & p' & val' & Eu & Eu' & Hb & Hx & Hp1 & Hp2).
  unfold fixed_step. rewrite Eu, Eu'. cbn [bind].
  destruct (two_costs p p' val' Hp1 Hp2) as (c & -> & ->). cbn [bind fst snd].
  split; auto. split; cbn [s_assign s_res s_cost s_iter s_done s_extra].
  - exists val'; auto.
  - exists val'. split; auto. apply (holds_legal E fs CO p); auto.
  - auto.
  - rewrite (sr_iter _ _ Hs). auto.
  - rewrite (sr_iter _ _ Hs). auto.
  - apply (sr_extra _ _ Hs).
Qed.
Lemma quality_rel A A' s s' c x x' : qrel A A' (s_res s) (s_res s') -> srel s s' -> lrel true x x' ->
  exists q, step_quality A c s x = Ok q /\ step_quality A' c s' x' = Ok q.
Proof.
  intros HQ Hs Hx. unfold step_quality. destruct (qr_matmul _ _ _ _ _ _ HQ Hx) as (-> & ->). cbn [bind].
  rewrite <- (sr_cost _ _ Hs), <- (qr_model _ _ _ _ HQ x x' Hx). eauto.
Qed.
(* what a trust region step does with an accepted or rejected proposal *)
Lemma trust_rel s s' x x' (qmin : R) A A' val tcfg ng ng' (extra extra' : R -> R) : (forall q, extra' q = extra q) ->
  srel s s' -> qrel A A' (s_res s) (s_res s') -> lrel true x x' -> lrel true ng ng' ->
  holds E fs (s_assign s) val -> holds E fs' (s_assign s') val ->
  let body g s x ng A extra :=
    (prop <- manifold_retract C (s_assign s) (mkAssign x (g_local_layout g)) ;;
     cr <- compute_cost E g prop ;;
     q <- step_quality A (fst cr) s x ;;
     let accept := nleb qmin q in
     conv <- check_convergence E tcfg s (fst cr) (mkAssign x (g_local_layout g)) ng ;;
     Ok (mkState (s_iter s + 1)
        (mkAssign (if accept then as_storage prop else as_storage (s_assign s)) (as_layout (s_assign s)))
        (if accept then fst cr else s_cost s) (snd cr)
        (exceeded_max_iterations tcfg s || (accept && conv)) (extra q))) in
  rrel (fun s1 => exists q, s_extra s1 = extra q) (body g s x ng A extra) (body g' s' x' ng' A' extra').
Proof.
  intros Hex Hs HJ Hx Hn Ha Ha' body. unfold body.
  destruct (two_retract _ _ val x x' Ha Ha' Hx) as (p & p' & val' & -> & -> & HLp & HLp' & Hp1 & Hp2). cbn [bind].
  destruct (two_costs p p' val' Hp1 Hp2) as (c & -> & ->). cbn [bind fst snd].
  destruct (quality_rel A A' s s' c x x' HJ Hs Hx) as (q & -> & ->). cbn [bind].
  rewrite (two_convergence tcfg s s' c x x' ng ng') by auto.
  destruct (check_convergence E tcfg s' c _ ng') as [conv|e]; cbn [bind]; [|reflexivity].
  assert (Hid : forall a : assign R, mkAssign (as_storage a) (as_layout a) = a) by (intros []; auto).
  split; [|exists q; auto]. split; cbn [s_assign s_res s_cost s_iter s_done s_extra].
  - destruct (nleb qmin q); [exists val' | exists val].
    + rewrite <- HLp, <- HLp', !Hid. auto.
    + rewrite !Hid. auto.
  - exists val'. split; auto. apply (holds_legal E fs CO p); auto.
  - rewrite (sr_cost _ _ Hs). auto.
  - rewrite (sr_iter _ _ Hs). auto.
  - unfold exceeded_max_iterations. rewrite (sr_iter _ _ Hs). auto.
  - auto.
Qed.

Lemma lm_step_rel cfg s s' : srel s s' -> 0 < s_extra s -> 0 < lambda_factor cfg -> 0 < lambda_min cfg ->
  rrel (fun s1 => 0 < s_extra s1) (lm_step E cfg lin g s) (lm_step E cfg lin g' s').
Proof.
  intros Hs Hpos Hf Hm. destruct (two_system s s' Hs) as (val & A & A' & Ha & Ha' & EA & EA' & HQ & D & D').
  unfold lm_step. rewrite EA, EA'. cbn [bind]. destruct (qr_matmul_neg _ _ _ _ HQ) as (b & b' & -> & -> & Hb). cbn [bind].
  destruct (lin_rel A A' b b' (s_extra s) (s_iter s) (polar_dot _ _ _ _ HQ) D D' Hb) as (x & x' & Ex & Ex' & Hx); [lra|].
  pose proof Ex' as Ex2. rewrite (sr_iter _ _ Hs), (sr_extra _ _ Hs) in Ex2. rewrite Ex, Ex2. cbn [bind].
  assert (Hr : forall q, lm_lambda cfg (s_extra s') (nleb (lm_quality_min cfg) q) = lm_lambda cfg (s_extra s) (nleb (lm_quality_min cfg) q)).
  { intros q. rewrite (sr_extra _ _ Hs). auto. }
  pose proof (trust_rel s s' x x' (lm_quality_min cfg) A A' val (lm_term cfg) _ _
    (fun q => lm_lambda cfg (s_extra s) (nleb (lm_quality_min cfg) q)) (fun q => lm_lambda cfg (s_extra s') (nleb (lm_quality_min cfg) q)) Hr Hs HQ Hx Hb Ha Ha') as H. cbv zeta in H.
  fold C. cbv zeta. unfold rrel in *. 
  match type of H with match ?X with _ => _ end => destruct X as [s1|e1] end;
  match type of H with match ?X with _ => _ end => destruct X as [s2|e2] end; auto.
  destruct H as (H1 & q & H2). split; auto. rewrite H2. unfold lm_lambda. destruct (nleb (lm_quality_min cfg) q).
  - rn. apply Rdiv_lt_0_compat; auto.
  - rn. eapply Rlt_le_trans; [exact Hm | apply Rmax_l].
Qed.

Lemma dogleg_rel sd sd' Asd Asd' gn gn' radius : lrel true sd sd' -> lrel true gn gn' -> sumsq Asd = sumsq Asd' ->
  lrel true (dogleg_step_of sd Asd gn radius) (dogleg_step_of sd' Asd' gn' radius).
Proof.
  intros Hsd Hgn HA.
  assert (Hsq : forall x x', lrel true x x' -> sumsq x = sumsq x') by (intros; apply (vrel_sumsq C true _ _ N1 N2 Hvars); auto).
  assert (Hn : forall x x', lrel true x x' -> vnorm x = vnorm x') by (intros; apply (vrel_norm C true _ _ N1 N2 Hvars); auto).
  assert (Hd : forall x x' y y', lrel true x x' -> lrel true y y' -> vsum (vmul x y) = vsum (vmul x' y')).
  { intros. apply (vrel_dot C true _ _ N1 N2 Hvars); auto. }
  assert (Hsc : forall k x x', lrel true x x' -> lrel true (vscale k x) (vscale k x')) by (intros; apply vrel_map; auto).
  assert (Hsb : forall x x' y y', lrel true x x' -> lrel true y y' -> lrel true (vsub x y) (vsub x' y')) by (intros; apply vrel_zipw; auto).
  assert (Had : forall x x' y y', lrel true x x' -> lrel true y y' -> lrel true (vadd x y) (vadd x' y')) by (intros; apply vrel_zipw; auto).
  unfold dogleg_step_of. cbv zeta. rewrite <- (Hsq sd sd'), <- HA by auto.
  set (alpha := ndiv (sumsq sd) (sumsq Asd)).
  assert (Ha : lrel true (vscale alpha sd) (vscale alpha sd')) by auto.
  rewrite <- (Hn _ _ Hgn), <- (Hn _ _ Ha), <- (Hsq _ _ Ha), <- (Hsq (vsub gn (vscale alpha sd)) (vsub gn' (vscale alpha sd'))) by auto.
  rewrite <- (Hd (vscale alpha sd) (vscale alpha sd') (vsub gn (vscale alpha sd)) (vsub gn' (vscale alpha sd'))) by auto.
  destruct (nleb (vnorm gn) radius); auto. destruct (nleb radius (vnorm (vscale alpha sd))); auto.
Qed.

Lemma dl_step_rel cfg s s' : srel s s' -> rrel (fun _ => True) (dl_step E cfg lin g s) (dl_step E cfg lin g' s').
Proof.
  intros Hs. destruct (two_system s s' Hs) as (val & A & A' & Ha & Ha' & EA & EA' & HQ & D & D').
  unfold dl_step. rewrite EA, EA'. cbn [bind]. destruct (qr_matmul_neg _ _ _ _ HQ) as (b & b' & -> & -> & Hb). cbn [bind].
  destruct (lin_rel A A' b b' n0 (s_iter s) (polar_dot _ _ _ _ HQ) D D' Hb zero_ge) as (x & x' & Ex & Ex' & Hx).
  pose proof Ex' as Ex2. rewrite (sr_iter _ _ Hs) in Ex2. rewrite Ex, Ex2. cbn [bind].
  destruct (qr_matmul _ _ _ _ _ _ HQ Hb) as (-> & ->). cbn [bind]. fold C. cbv zeta.
  assert (Hst : lrel true (dogleg_step_of b (mapply A b) x (s_extra s)) (dogleg_step_of b' (mapply A' b') x' (s_extra s'))).
  { rewrite <- (sr_extra _ _ Hs). apply dogleg_rel; auto. rewrite !sumsq_dot. apply (gr_dot _ _ (polar_dot _ _ _ _ HQ)); auto. }
  set (d1 := dogleg_step_of b (mapply A b) x (s_extra s)) in *. set (d2 := dogleg_step_of b' (mapply A' b') x' (s_extra s')) in *.
  assert (Hr : forall q, dogleg_radius (s_extra s') q d2 = dogleg_radius (s_extra s) q d1).
  { intros q. unfold dogleg_radius. rewrite (vrel_norm C true _ _ N1 N2 Hvars d1 d2) by auto. rewrite (sr_extra _ _ Hs). auto. }
  pose proof (trust_rel s s' d1 d2 (dl_quality_min cfg) A A' val (dl_term cfg) _ _
    (fun q => dogleg_radius (s_extra s) q d1) (fun q => dogleg_radius (s_extra s') q d2) Hr Hs HQ Hst Hb Ha Ha') as H. cbv zeta in H.
  fold C. cbv zeta. unfold rrel in *.
  match type of H with match ?X with _ => _ end => destruct X as [s1|e1] end;
  match type of H with match ?X with _ => _ end => destruct X as [s2|e2] end; tauto.
Qed.

Lemma loop_rel (step step' : sstate R -> result (sstate R)) (P : sstate R -> Prop) :
  (forall s s', srel s s' -> P s -> rrel P (step s) (step' s')) ->
  forall fuel s s', srel s s' -> P s ->
  match while_loop fuel (fun s => negb (s_done s)) step s, while_loop fuel (fun s => negb (s_done s)) step' s' with
  | None, None => True
  | Some r, Some r' => rrel P r r'
  | _, _ => False
  end.
Proof.
  intros Hstep. induction fuel as [|fuel IH]; intros s s' Hs HP; simpl; rewrite <- (sr_done _ _ Hs); destruct (s_done s); simpl; auto.
  pose proof (Hstep s s' Hs HP) as H. unfold rrel in H.
  destruct (step s) as [s1|e], (step' s') as [s1'|e']; try contradiction; [|exact H].
  destruct H as (H1 & H2). apply IH; auto.
Qed.

Lemma iterate_rel (step step' : sstate R -> result (sstate R)) :
  (forall s s', srel s s' -> rrel (fun _ => True) (step s) (step' s')) ->
  forall n s s', srel s s' -> rrel (fun _ => True) (iterate n step s) (iterate n step' s').
Proof.
  intros Hstep. induction n as [|n IH]; intros s s' Hs; cbn [iterate]; [split; auto|].
  pose proof (Hstep s s' Hs) as H. unfold rrel in H.
  destruct (step s) as [s1|e], (step' s') as [s1'|e']; try contradiction; [|exact H].
  cbn [bind]. apply IH. tauto.
Qed.
End Twin.
