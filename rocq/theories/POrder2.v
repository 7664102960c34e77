(* Residuals, Jacobians and linear systems of two graphs over a permuted factor list. *)
From Coq Require Import List Arith Bool Lia Permutation Reals Lra ZArith.
From Verif Require Import Num NumR Py Arr MLayout MAssign MNoise MSparse MFactor MGraph MLinear MSolver SpecLayout SpecTree SpecAssign SpecGraph SpecSparse SpecOrder.
From Verif Require Import PBase PLayout PTree PAssign PAssign2 PAssign3 PStack PGraph PGraph2 PJac PVec PSparse PLinear PGraph3 PGraph4 PGraph5 PHold POrder.
Import ListNotations.
Local Open Scope R_scope.

(* ---- maxima ---- *)
Lemma vmax_le x (l : list R) m : vmax x l <= m <-> forall y, In y (x :: l) -> y <= m.
Proof.
  unfold vmax. induction l as [|z l IH]; simpl.
  - split; [intros H y [->|[]]; auto | intros H; apply H; auto].
  - rn. split.
    + intros H. assert (H1 := Rmax_l z (fold_right Rmax x l)). assert (H2 := Rmax_r z (fold_right Rmax x l)).
      assert (H3 : fold_right Rmax x l <= m) by lra. rewrite IH in H3. intros y [->|[->|Hy]]; [apply H3; left; auto | lra | apply H3; right; auto].
    + intros H. apply Rmax_lub; [apply H; auto|]. apply IH. intros y [->|Hy]; apply H; auto.
Qed.
Lemma vmax_perm x l x' (l' : list R) : Permutation (x :: l) (x' :: l') -> vmax x l = vmax x' l'.
Proof.
  intros Hp. apply Rle_antisym; apply vmax_le; intros y Hy.
  - apply (proj1 (vmax_le x' l' (vmax x' l')) (Rle_refl _)). apply (Permutation_in _ Hp); auto.
  - apply (proj1 (vmax_le x l (vmax x l)) (Rle_refl _)). apply (Permutation_in _ (Permutation_sym Hp)); auto.
Qed.

(* ---- one residual piece per factor ---- *)
Definition rvec (fs : list (factor R)) (w : factor R -> list R) : list R := concat (map w (concat (kgroups fs))).
Definition rlen (fs : list (factor R)) (w : factor R -> list R) : Prop := forall f, In f fs -> length (w f) = residual_dim f.

Lemma kg_in (fs : list (factor R)) f : In f (concat (kgroups fs)) <-> In f fs.
Proof. split; apply Permutation_in; [|symmetry]; apply kgroups_perm. Qed.
Lemma rvec_length fs w : rlen fs w -> length (rvec fs w) = total residual_dim fs.
Proof.
  intros H. unfold rvec. rewrite (concat_total residual_dim) by (intros f Hf; apply H, kg_in; auto).
  apply total_perm, kgroups_perm.
Qed.
Lemma rvec_part fs w f o : rlen fs w -> In (f, o) (place residual_dim 0 (concat (kgroups fs))) -> part (rvec fs w) (f, o) = w f.
Proof.
  intros H Hin. unfold part, rvec. simpl fst; simpl snd.
  pose proof (slice_concat_place residual_dim w 0 (concat (kgroups fs)) f o) as Hs. rewrite Nat.sub_0_r in Hs.
  apply Hs; auto. intros x Hx. apply H, kg_in; auto.
Qed.
Lemma rvec_ext fs w u : (forall f, In f fs -> w f = u f) -> rvec fs w = rvec fs u.
Proof. intros H. unfold rvec. f_equal. apply map_ext_in. intros f Hf. apply H, kg_in; auto. Qed.
Lemma rvec_vdot fs w u : rlen fs w -> rlen fs u -> vdot (rvec fs w) (rvec fs u) = vsum (map (fun f => vdot (w f) (u f)) fs).
Proof.
  intros Hw Hu. rewrite <- (vsum_perm _ _ (Permutation_map _ (kgroups_perm fs))). unfold rvec.
  assert (H : forall f, In f (concat (kgroups fs)) -> length (w f) = length (u f)).
  { intros f Hf. apply (kg_in fs) in Hf. rewrite Hw, Hu; auto. }
  rewrite vdot_concat.
  - f_equal. generalize (concat (kgroups fs)). induction l; simpl; f_equal; auto.
  - revert H. generalize (concat (kgroups fs)). induction l; simpl; constructor; auto.
Qed.
Lemma rvec_zipw (f : R -> R -> R) fs w u : rlen fs w -> rlen fs u -> zipw f (rvec fs w) (rvec fs u) = rvec fs (fun x => zipw f (w x) (u x)).
Proof.
  intros Hw Hu. unfold rvec.
  assert (H : forall f, In f (concat (kgroups fs)) -> length (w f) = length (u f)).
  { intros h Hf. apply (kg_in fs) in Hf. rewrite Hw, Hu; auto. }
  revert H. generalize (concat (kgroups fs)). induction l as [|h l IH]; simpl; intros H; auto.
  rewrite <- IH by auto. specialize (H h (or_introl eq_refl)). clear -H. revert H. generalize (w h) (u h).
  induction l0 as [|a l0 IH]; intros [|b l1]; simpl; intros H; try discriminate; auto. f_equal. auto.
Qed.
Lemma rvec_map (f : R -> R) fs w : map f (rvec fs w) = rvec fs (fun x => map f (w x)).
Proof. unfold rvec. rewrite concat_map, map_map. auto. Qed.

(* ---- one graph ---- *)
Section One.
Variable E : env R.
Let C := e_cls E.
Variable fs : list (factor R).
Variable g : graph R.
Hypothesis CO : classes_ok C.
Hypothesis Hok : forall f, In f fs -> factor_ok f.
Hypothesis Hg : is_graph E fs g.
Hypothesis Hrd : total residual_dim fs <> 0%nat.
Let L := graph_layout E fs true.

(* the whitened Jacobians of f when its stored residual piece is rf *)
Definition jac_of (val : var -> pytree R) (f : factor R) (rf : list R) : list (list (list R)) :=
  map (fun J => unwrap [] (whiten_jacobian (f_noise f) J rf)) (jacobians_at E val f).
(* the product of the factor's Jacobian with x *)
Definition ufun (val : var -> pytree R) (w : factor R -> list R) (x : list R) (f : factor R) : list R :=
  apply_slots E L x (residual_dim f) (f_vars f) (jac_of val f (w f)).

Lemma jac_of_ok val f rf : factor_ok f -> jacobian_shape_ok E val f -> length rf = residual_dim f ->
  Forall2 (fun v W => length W = residual_dim f) (f_vars f) (jac_of val f rf).
Proof.
  intros H1 H2 Hl. destruct (wjacs_ok E val rf (f, 0%nat)) as (_ & H); [split; auto | simpl; lia|].
  assert (Hpart : part rf (f, 0%nat) = rf) by (unfold part, slice; simpl; rewrite Nat.sub_0_r; apply firstn_all2; lia).
  unfold wjacs in H. rewrite Hpart in H. simpl fst in H. fold (jac_of val f rf) in H. clear -H. induction H; constructor; tauto.
Qed.
Lemma ufun_len val w x : rlen fs w -> (forall f, In f fs -> jacobian_shape_ok E val f) -> rlen fs (ufun val w x).
Proof. intros Hw Hj f Hf. apply apply_slots_length. apply jac_of_ok; auto. Qed.

Lemma one_jacobian a val w : assigns E fs a val -> (forall f, In f fs -> jacobian_shape_ok E val f) -> rlen fs w ->
  exists A, compute_whitened_residual_jacobian E g a (rvec fs w) = Ok A /\ coo_ok A /\
    m_shape A = (total residual_dim fs, l_dim L) /\
    forall x, length x = l_dim L -> mapply A x = rvec fs (ufun val w x).
Proof.
  intros Ha Hj Hw.
  destruct (jacobian_action E fs g a (rvec fs w) val Hok Hj Hg Ha (rvec_length fs w Hw) Hrd) as (A & EA & HA & Hsh & _ & Hact).
  exists A. repeat split; auto; try apply HA. intros x Hx. specialize (Hact x Hx).
  rewrite matmul_mapply in Hact by (auto; rewrite Hsh; auto). injection Hact as ->.
  unfold rvec at 2. f_equal. rewrite <- (place_fst residual_dim 0 (concat (kgroups fs))) at 2. rewrite map_map.
  apply map_ext_in. intros [f o] Hin. simpl fst. unfold ufun. f_equal. unfold wjacs. rewrite rvec_part by auto. auto.
Qed.

Lemma one_cost a val : assigns E fs a val -> (forall f, In f fs -> residual_shape_ok E val f) -> fs <> [] ->
  let w := fun f => unwrap [] (whitened_at E val f) in
  rlen fs w /\ compute_cost E g a = Ok (sumsq (rvec fs w), rvec fs w).
Proof.
  intros Ha Hs Hne w. split.
  - intros f Hf. destruct (whitened_at_ok E val f) as (x & Ex & Hl); [apply Hok; auto | apply Hs; auto|].
    unfold w. rewrite Ex. auto.
  - destruct (residual_vector_ok E fs g a val Hok Hne Hg Ha Hs) as (ws & Hw & Hv).
    unfold compute_cost. rewrite Hv. simpl. replace (concat ws) with (rvec fs w); auto.
    unfold rvec. f_equal. apply traverse_forall2 in Hw. clear -Hw. induction Hw as [|f x l ws Hf Hw IH]; simpl; auto.
    unfold w at 1. rewrite Hf. simpl. f_equal. auto.
Qed.
End One.

(* ---- two graphs ---- *)
Section Two.
Variable E : env R.
Let C := e_cls E.
Variables fs fs' : list (factor R).
Variables g g' : graph R.
Hypothesis CO : classes_ok C.
Hypothesis Hok : forall f, In f fs -> factor_ok f.
Hypothesis Hp : Permutation fs fs'.
Hypothesis Hg : is_graph E fs g.
Hypothesis Hg' : is_graph E fs' g'.
Hypothesis Hrd : total residual_dim fs <> 0%nat.
Hypothesis Hws : well_shaped E fs.
Let L := graph_layout E fs true.
Let L' := graph_layout E fs' true.

Lemma two_in f : In f fs <-> In f fs'.
Proof. split; apply Permutation_in; auto. symmetry; auto. Qed.
Lemma two_vars v : In v (mentioned fs) <-> In v (mentioned fs').
Proof. rewrite !mentioned_in. setoid_rewrite two_in. tauto. Qed.
Lemma two_ok f : In f fs' -> factor_ok f.
Proof. intros H. apply Hok, two_in; auto. Qed.
Lemma two_rd : total residual_dim fs' <> 0%nat.
Proof. rewrite <- (total_perm _ _ _ Hp). auto. Qed.
Lemma two_rlen w : rlen fs w -> rlen fs' w.
Proof. intros H f Hf. apply H, two_in; auto. Qed.
Lemma two_ne : fs <> [].
Proof. intros H. apply Hrd. rewrite H. auto. Qed.

Definition lrel (local : bool) := vrel C local (mentioned fs) (mentioned fs').

Lemma rvec_dot w u : rlen fs w -> rlen fs u -> vdot (rvec fs w) (rvec fs u) = vdot (rvec fs' w) (rvec fs' u).
Proof.
  intros Hw Hu. rewrite !rvec_vdot by (auto using two_rlen). apply vsum_perm, Permutation_map; auto.
Qed.
Lemma rvec_sumsq w : rlen fs w -> sumsq (rvec fs w) = sumsq (rvec fs' w).
Proof. intros Hw. rewrite !sumsq_dot. apply rvec_dot; auto. Qed.

Lemma ufun_rel val w x x' f : lrel true x x' -> In f fs -> ufun E fs val w x f = ufun E fs' val w x' f.
Proof.
  intros (_ & _ & H) Hf. unfold ufun, apply_slots. f_equal.
  assert (Hv : forall v, In v (f_vars f) -> block C (graph_layout E fs true) x v = block C (graph_layout E fs' true) x' v).
  { intros v Hv. apply H. apply mentioned_in. eauto. }
  revert Hv. generalize (f_vars f) (jac_of E val f (w f)). induction l as [|v l IH]; intros [|W Ws] Hv; simpl; auto.
  f_equal; [|apply IH; intros; apply Hv; right; auto]. f_equal. apply Hv. left; auto.
Qed.

(* the two Jacobians *)
Record jrel (val : var -> pytree R) (w : factor R -> list R) (A A' : coo R) : Prop := {
  jr_ok : coo_ok A; jr_ok' : coo_ok A';
  jr_rows : fst (m_shape A) = total residual_dim fs; jr_rows' : fst (m_shape A') = total residual_dim fs';
  jr_cols : snd (m_shape A) = l_dim L; jr_cols' : snd (m_shape A') = l_dim L';
  jr_act : forall x x', lrel true x x' -> exists u, rlen fs u /\ mapply A x = rvec fs u /\ mapply A' x' = rvec fs' u }.

Lemma two_jacobians a a' val w : assigns E fs a val -> assigns E fs' a' val -> legal E fs val -> rlen fs w ->
  exists A A', compute_whitened_residual_jacobian E g a (rvec fs w) = Ok A /\
    compute_whitened_residual_jacobian E g' a' (rvec fs' w) = Ok A' /\ jrel val w A A'.
Proof.
  intros Ha Ha' Hl Hw.
  assert (Hj : forall f, In f fs -> jacobian_shape_ok E val f) by (intros; apply (ws_jacobian E fs Hws); auto).
  assert (Hj' : forall f, In f fs' -> jacobian_shape_ok E val f) by (intros; apply Hj, two_in; auto).
  destruct (one_jacobian E fs g Hok Hg Hrd a val w Ha Hj Hw) as (A & EA & HA & Hs & Hx).
  destruct (one_jacobian E fs' g' two_ok Hg' two_rd a' val w Ha' Hj' (two_rlen _ Hw)) as (A' & EA' & HA' & Hs' & Hx').
  exists A, A'. split; auto. split; auto. split; auto; try (rewrite ?Hs, ?Hs'; auto).
  intros x x' Hr. pose proof Hr as (H1 & H2 & _). exists (ufun E fs val w x). split; [apply ufun_len; auto|].
  split; [apply Hx; auto|]. rewrite Hx' by auto. apply rvec_ext. intros f Hf. symmetry. apply ufun_rel; auto. apply two_in; auto.
Qed.

Lemma mvars : NoDup (mentioned fs) /\ NoDup (mentioned fs').
Proof. split; apply mentioned_nodup. Qed.

Section Rel.
Variables (val : var -> pytree R) (w0 : factor R -> list R) (A A' : coo R).
Hypothesis HJ : jrel val w0 A A'.

Lemma jr_transpose w : rlen fs w -> lrel true (mapply (transpose A) (rvec fs w)) (mapply (transpose A') (rvec fs' w)).
Proof.
  intros Hw. destruct HJ as [OA OA' R1 R2 C1 C2 Hact]. destruct mvars as (N1 & N2).
  assert (Hl : length (mapply (transpose A) (rvec fs w)) = l_dim L) by (rewrite mapply_length; simpl; auto).
  destruct (vrel_to C true _ _ N1 N2 two_vars _ Hl) as (z & Hz).
  apply (vrel_ext C true _ _ N1 N2 two_vars _ z); auto.
  - rewrite mapply_length. simpl. auto.
  - intros y y' Hy. pose proof Hy as (Hy1 & Hy2 & _).
    rewrite <- !mapply_adjoint; auto; try (rewrite C1; auto); try (rewrite C2; auto).
    + destruct (Hact y y' Hy) as (u & Hu & -> & ->). apply rvec_dot; auto.
    + rewrite rvec_length by (apply two_rlen; auto). auto.
    + rewrite rvec_length by auto. auto.
Qed.
Lemma jr_act_dot x x' y y' : lrel true x x' -> lrel true y y' -> vdot (mapply A x) (mapply A y) = vdot (mapply A' x') (mapply A' y').
Proof.
  intros Hx Hy. destruct HJ as [_ _ _ _ _ _ Hact].
  destruct (Hact x x' Hx) as (u & Hu & -> & ->). destruct (Hact y y' Hy) as (v & Hv & -> & ->). apply rvec_dot; auto.
Qed.

Lemma jr_solve b b' lambd it : lrel true b b' -> 0 < lambd + Rlit 1 100000 ->
  exists x x', cholmod_solve A b lambd it = Ok x /\ cholmod_solve A' b' lambd it = Ok x' /\ lrel true x x'.
Proof.
  intros Hb Hl. pose proof HJ as [OA OA' R1 R2 C1 C2 Hact]. destruct mvars as (N1 & N2). pose proof Hb as (Hb1 & Hb2 & _).
  destruct (cholmod_solve_ok A b lambd it OA Hl) as (x & Ex & Hx); [rewrite C1; auto|].
  destruct (cholmod_solve_ok A' b' lambd it OA' Hl) as (x' & Ex' & Hx'); [rewrite C2; auto|].
  exists x, x'. split; auto. split; auto.
  assert (Lx : length x = l_dim L) by (rewrite (proj1 Hx); auto).
  destruct (vrel_to C true _ _ N1 N2 two_vars x Lx) as (z & Hz). pose proof Hz as (_ & Lz & _).
  replace x' with z; auto. apply (normal_unique A' (lambd + Rlit 1 100000) OA' Hl b'); auto.
  apply normal_weak; auto; try (rewrite C2; auto). intros y' Hy'.
  destruct (vrel_from C true _ _ N1 N2 two_vars y') as (y & Hy); [rewrite Hy'; auto|]. pose proof Hy as (Ly & _ & _).
  apply (proj1 (normal_weak A (lambd + Rlit 1 100000) OA b x ltac:(rewrite C1; auto) ltac:(rewrite C1; auto))) with (y := y) in Hx; [|rewrite C1; auto].
  rewrite <- (jr_act_dot y y' x z), <- (vrel_dot C true _ _ N1 N2 two_vars y y' x z), <- (vrel_dot C true _ _ N1 N2 two_vars y y' b b') by auto. auto.
Qed.
End Rel.
End Two.
