(* Affine residuals under Gaussian or Huber noise: the Jacobians at all points, entry by entry; conjugate gradients. *)
From Coq Require Import List Arith Bool Lia ZArith Permutation Reals Lra Psatz.
From Verif Require Import Num NumR Py Arr MLayout MAssign MNoise MSparse MFactor MGraph MLinear MSolver SpecLayout SpecTree SpecAssign SpecGraph SpecSparse SpecDeriv SpecNoise SpecSolver SpecOrder SpecInv SpecLin SpecCgLin SpecLoss SpecRobust.
From Verif Require Import PBase PLayout PTree PAssign PAssign2 PAssign3 PStack PGraph PGraph2 PGraph3 PGraph4 PVec PSparse PLinear PCg PCgConv PJac PGraph5 PLayout2 POrder PHold PExGraph PSolver PSolver2 PSolverR PDescent PInv PTotal PDeriv PNoise PLoss PExLoss PLin PLinDl PLinCg PNear PLinTr PHalt PRobust PRobust2 PRobust3 PRobust4.
Import ListNotations.
Local Open Scope R_scope.

(* t is tr, scaled down *)
Definition softer (t tr : nat * nat * R) : Prop := fst t = fst tr /\ exists q, 0 < q <= 1 /\ snd t = q * snd tr.
Definition soften (q : R) (t : nat * nat * R) : nat * nat * R := (fst t, q * snd t).
Lemma soften_all q l : 0 < q <= 1 -> Forall2 softer (map (soften q) l) l.
Proof. intros Hq. induction l as [|t l IH]; cbn [map]; constructor; auto. split; [reflexivity|]. exists q. split; auto. Qed.
Lemma enumerate_map {X Y} (f : X -> Y) l : enumerate (map f l) = map (fun ix => (fst ix, f (snd ix))) (enumerate l).
Proof. unfold enumerate. rewrite map_length. generalize 0%nat. induction l as [|x l IH]; intros k; cbn [length seq combine map]; auto. rewrite IH. auto. Qed.
Lemma row_soften q r p (row : list R) : row_triples r p (vscale q row) = map (soften q) (row_triples r p row).
Proof. unfold row_triples, vscale. rewrite enumerate_map, !map_map. apply map_ext. intros [i x]. reflexivity. Qed.
Lemma block_soften q o p (B : list (list R)) : block_triples o p (map (vscale q) B) = map (soften q) (block_triples o p B).
Proof.
  unfold block_triples. rewrite enumerate_map. induction (enumerate B) as [|[i row] l IH]; cbn [map flat_map fst snd]; auto. rewrite map_app, IH. f_equal. apply row_soften.
Qed.
Lemma vscale_one (v : list R) : vscale 1 v = v.
Proof. unfold vscale. rewrite <- (map_id v) at 2. apply map_ext. intros y. rn. ring. Qed.
Lemma jac_core nm (J : list (list R)) r r' : linear_noise nm -> length r = length r' -> whiten_jacobian nm J r = whiten_jacobian nm J r'.
Proof. intros Hn Hl. destruct nm; cbn [whiten_jacobian]; auto; [rewrite Hl; auto | destruct Hn]. Qed.
Lemma jac_soften nm (J : list (list R)) r : robust_noise nm -> exists q, 0 < q <= 1 /\ unwrap [] (whiten_jacobian nm J r) = map (vscale q) (unwrap [] (whiten_jacobian (core nm) J r)).
Proof.
  assert (H1 : forall B : list (list R), B = map (vscale 1) B) by (intros B; rewrite <- (map_id B) at 1; apply map_ext; intros; rewrite vscale_one; auto).
  intros [Hlin|(w & delta & -> & Hlin & Hd)].
  - assert (Hc : core nm = nm) by (destruct nm; auto; destruct Hlin). rewrite Hc. exists 1. split; [lra | auto].
  - cbn [core whiten_jacobian]. destruct (whiten_jacobian w J r) as [J'|e]; cbn [bind unwrap]; [|exists 1; split; [lra | reflexivity]].
    cbn [scalar scal a_data a_shape bind unwrap]. rn. destruct (Rltb (vnorm r) delta) eqn:Hb; cbn [unwrap].
    + exists 1. split; [lra | auto].
    + assert (Hge : delta <= vnorm r). { unfold Rltb in Hb. destruct (Rlt_dec (vnorm r) delta); [discriminate | lra]. }
      exists (sqrt (delta / vnorm r)). assert (Hq : 0 < delta / vnorm r <= 1).
      { split; [apply Rdiv_lt_0_compat; lra|]. apply (Rmult_le_reg_r (vnorm r)); [lra|]. replace (delta / vnorm r * vnorm r) with delta by (field; lra). lra. }
      split; [split; [apply sqrt_lt_R0; lra | rewrite <- sqrt_1; apply sqrt_le_1_alt; lra]|].
      apply map_ext. intros row. unfold vscale. apply map_ext. intros y. rn. ring.
Qed.

Section Entries.
Variable E : env R.
Let C := e_cls E.
Variable fs : list (factor R).
Variable g : graph R.
Hypothesis RP : robust_problem E fs.
Hypothesis CO : classes_ok C.
Hypothesis Hok : forall f, In f fs -> factor_ok f.
Hypothesis Hg : is_graph E fs g.
Hypothesis Hne : fs <> [].
Hypothesis Hrd : total residual_dim fs <> 0%nat.
Hypothesis Hws : well_shaped E fs.
Let L := graph_layout E fs true.
Let n := l_dim L.
Let m := total residual_dim fs.
Notation fresh := (fresh E fs g).
Variable valr : var -> pytree R.
Hypothesis Hlr : legal E fs valr.
Notation placed_fs := (place residual_dim 0 (concat (kgroups fs))).
Definition bare_jacs (fo : factor R * nat) : list (list (list R)) := map (fun J => unwrap [] (whiten_jacobian (core (f_noise (fst fo))) J (vzero (residual_dim (fst fo))))) (jacobians_at E valr (fst fo)).
Definition bare_triples : list (nat * nat * R) := flat_map (fun fo => flat_map (fun vW => block_triples (snd fo) (pos L (fst vW)) (snd vW)) (combine (f_vars (fst fo)) (bare_jacs fo))) placed_fs.

Lemma flat_rel {X Y} (P : X -> Y -> Prop) {Z} (f : Z -> list X) (h : Z -> list Y) l : (forall z, In z l -> Forall2 P (f z) (h z)) -> Forall2 P (flat_map f l) (flat_map h l).
Proof. induction l as [|z l IH]; intros H; cbn; [constructor|]. apply Forall2_app; [apply H; left; auto | apply IH; intros; apply H; right; auto]. Qed.
Lemma entries val r : legal E fs val -> length r = m -> Forall2 softer (flat_map (factor_triples E val r L) placed_fs) bare_triples.
Proof.
  intros Hl Hr. apply flat_rel. intros [f o] Hin. destruct (placed _ _ _ Hin) as (Hf & Ho). unfold factor_triples, wjacs, bare_jacs. cbn [fst snd]. rewrite (eff_jac E fs RP valr Hlr val f Hl Hf).
  assert (Hp : length (part r (f, o)) = length (@vzero R NumR (residual_dim f))) by (unfold part; cbn [fst snd]; rewrite slice_length, vzero_length by (unfold m in Hr; lia); lia).
  generalize (f_vars f) (jacobians_at E valr f). induction l as [|v l IH]; intros [|J Js]; cbn [map combine flat_map]; try constructor. apply Forall2_app; [|apply IH]. cbn [fst snd].
  destruct (jac_soften (f_noise f) J (part r (f, o)) (rp_noise _ _ RP f Hf)) as (q & Hq & ->). rewrite (jac_core _ J _ (vzero (residual_dim f)) (core_linear _ (rp_noise _ _ RP f Hf)) Hp).
  rewrite block_soften. apply soften_all. auto.
Qed.
Lemma entries_of s A : fresh s -> compute_whitened_residual_jacobian E g (s_assign s) (s_res s) = Ok A -> exists T, Permutation (triples A) T /\ Forall2 softer T bare_triples.
Proof.
  intros Hf EA. destruct (jac_of E fs g CO Hok Hg Hne Hrd Hws s Hf) as (A' & EA' & _ & _ & Hm & _). destruct Hf as (_ & val & Ha). pose proof (holds_legal E fs CO _ _ Ha) as Hl.
  destruct (jacobian_coo_ok E fs g (s_assign s) (s_res s) val Hok) as (A2 & EA2 & _ & _ & _ & HP); auto; [intros f Hf; apply (ws_jacobian E fs Hws); auto | apply holds_assigns; auto|].
  rewrite EA in EA2. injection EA2 as <-. eexists. split; [exact HP | apply entries; auto].
Qed.
Lemma diag_uniform : exists Q, 0 <= Q /\ forall s A, fresh s -> compute_whitened_residual_jacobian E g (s_assign s) (s_res s) = Ok A -> forall y, diag_form A y y <= Q * sumsq y.
Proof.
  exists (vsum (map (fun t => snd t * snd t) bare_triples)). split; [apply vsum_nonneg; intros z Hz; apply in_map_iff in Hz; destruct Hz as (t & <- & _); apply Rle_0_sqr|].
  intros s A Hf EA y. destruct (entries_of s A Hf EA) as (T & HP & HF). unfold diag_form. rewrite (vsum_perm _ _ (Permutation_map _ HP)). destruct (vnorm_sq y) as (Y0 & Y1). rewrite <- Y1.
  clear HP EA Hf A. induction HF as [|t tr T B (Hc & q & Hq & Ht) HF IH]; cbn [map]; [change (0 <= 0 * (vnorm y * vnorm y)); lra|]. rewrite !vsum_cons. rewrite Rmult_plus_distr_r. apply Rplus_le_compat; auto.
  rewrite Ht. set (b := nth (snd (fst t)) y 0). pose proof (nth_le_norm y (snd (fst t))) as Hb. fold b in Hb. assert (Hbb : b * b <= vnorm y * vnorm y) by (apply sq_le; auto).
  set (v := snd tr). assert (Hv : q * v * (q * v) <= v * v). { assert (0 <= v * v) by apply Rle_0_sqr. assert (q * q <= 1) by nra. nra. }
  apply Rmult_le_compat; auto; apply Rle_0_sqr.
Qed.
Lemma columns_everywhere s0 A0 : fresh s0 -> compute_whitened_residual_jacobian E g (s_assign s0) (s_res s0) = Ok A0 -> no_zero_column A0 ->
  forall s A, fresh s -> compute_whitened_residual_jacobian E g (s_assign s) (s_res s) = Ok A -> no_zero_column A.
Proof.
  intros Hf0 EA0 Hc0 s A Hf EA j Hj.
  destruct (jac_of E fs g CO Hok Hg Hne Hrd Hws s0 Hf0) as (A1 & EA1 & _ & Hsh0 & _). destruct (jac_of E fs g CO Hok Hg Hne Hrd Hws s Hf) as (A2 & EA2 & _ & Hsh & _).
  rewrite EA0 in EA1. injection EA1 as <-. rewrite EA in EA2. injection EA2 as <-. rewrite Hsh in Hj.
  destruct (Hc0 j) as (r & v & Hin & Hv); [rewrite Hsh0; auto|].
  destruct (entries_of s0 A0 Hf0 EA0) as (T0 & HP0 & HF0). destruct (entries_of s A Hf EA) as (T & HP & HF).
  apply (Permutation_in _ HP0) in Hin.
  assert (Hb : exists b, In (r, j, b) bare_triples /\ b <> 0).
  { revert Hin. clear - HF0 Hv. induction HF0 as [|t tr T B (Hc & q & Hq & Ht) HF IH]; intros []; [|destruct (IH H) as (b & Hb & Hb0); exists b; split; auto; right; auto].
    subst t. destruct tr as [c b]. cbn in Hc, Ht. subst c. exists b. split; [left; auto|]. intros ->. apply Hv. rewrite Ht. ring. }
  destruct Hb as (b & Hb & Hb0).
  assert (Ht : exists w, In (r, j, w) T /\ w <> 0).
  { revert Hb. clear - HF Hb0. induction HF as [|t tr T B (Hc & q & Hq & Ht) HF IH]; intros []; [|destruct (IH H) as (w & Hw & Hw0); exists w; split; auto; right; auto].
    subst tr. destruct t as [c w]. cbn in Hc, Ht. subst c. exists w. split; [left; auto|]. intros ->. assert (q * b <> 0); [apply Rmult_integral_contrapositive; split; lra | lra]. }
  destruct Ht as (w & Hw & Hw0). exists r, w. split; auto. apply (Permutation_in _ (Permutation_sym HP)). auto.
Qed.

Lemma cg_takes F t tol s A : 0 < F -> (forall x, length x = n -> sumsq (mapply A x) <= F * sumsq x) -> (forall y, diag_form A y y <= F * sumsq y) -> no_zero_column A ->
  (forall i, Rabs (tol i) <= t) -> t < 1 -> fresh s -> compute_whitened_residual_jacobian E g (s_assign s) (s_res s) = Ok A ->
  exists x, cg_solve tol A (mapply (transpose A) (vneg (s_res s))) 0 (s_iter s) = Ok x /\ length x = n /\
   (1 - t) * (1 - t) / F * sumsq (mapply (transpose A) (vneg (s_res s))) <= vdot x (mapply (transpose A) (vneg (s_res s))) /\ sumsq (mapply A x) <= vdot x (mapply (transpose A) (vneg (s_res s))).
Proof.
  intros HF HFA HFD Hcol Ht Ht1 Hf EA. destruct (jac_of E fs g CO Hok Hg Hne Hrd Hws s Hf) as (A' & EA' & HA & Hsh & Hm & Hw). rewrite EA in EA'. injection EA' as <-.
  assert (Hneg : length (vneg (s_res s)) = fst (m_shape A)) by (unfold vneg; rewrite map_length, Hsh; auto).
  destruct (cg_converges A (vneg (s_res s)) 0 (s_iter s) tol HA ltac:(lra) Hneg Hcol) as (x & Ex & _ & Hx & Hres & Hgal). set (c := mapply (transpose A) (vneg (s_res s))) in *.
  exists x. split; auto. split; [rewrite Hx, Hsh; auto|]. assert (Hn : length c = snd (m_shape A)) by apply mapply_length.
  assert (HFA' : forall y, length y = snd (m_shape A) -> sumsq (mapply A y) <= F * sumsq y) by (rewrite Hsh; auto).
  pose proof (inexact_lower A 0 F t (tol (s_iter s)) c x HA ltac:(lra) HF HFA' HFD Hn Hx (Ht _) Ht1 Hres) as Hlow. rewrite <- Hgal in Hlow. rewrite Rplus_0_r, Rmult_1_l in Hlow.
  split.
  - apply (Rmult_le_reg_l F); auto. replace (F * ((1 - t) * (1 - t) / F * sumsq c)) with ((1 - t) * (1 - t) * sumsq c) by (field; lra). auto.
  - rewrite Hgal, cg_form, <- sumsq_dot by auto. lra.
Qed.
End Entries.
