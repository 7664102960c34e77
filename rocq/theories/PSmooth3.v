(* A problem given by programs, near an exact fit: the constants that make the solvers converge. *)
From Coq Require Import List Arith Bool Lia ZArith Reals Lra.
From Verif Require Import Num NumR Py Arr MLayout MAssign MNoise MSparse MFactor MGraph MLinear MSolver MAuto MDual SpecLayout SpecTree SpecAssign SpecGraph SpecSparse SpecDeriv SpecSolver SpecOrder SpecInv SpecAuto SpecDual SpecTwin SpecLin SpecCgLin SpecLocal SpecSmooth.
From Verif Require Import PBase PTree PVec PSparse PCg PSolverR PAuto PDeriv PAutoR PDual PDual2 PLayout PAssign PStack PGraph PGraph2 PGraph4 PGraph5 PJac POrder POrder2 PExGraph PExAuto PExDual PHold PInv PExInv PLin PExLinDl PLocal PNear PTwin2 PBasin4 PBasin5 PBasin6 PBasin7 PSmooth PSmooth2.
Import ListNotations.
Local Open Scope R_scope.

Lemma entries_norm (x : list R) c : (forall i, Rabs (nth i x 0) <= c) -> vnorm x <= INR (length x) * c.
Proof.
  intros H. replace x with (flat_map (fun a => [a]) x) at 1 by (clear; induction x; cbn; congruence). apply flat_norm. intros a Ha.
  destruct (In_nth x a 0 Ha) as (i & _ & <-). apply norm_le_of; [eapply Rle_trans; [apply Rabs_pos | apply (H i)]|].
  rewrite sumsq_cons. specialize (H i). pose proof (Rabs_pos (nth i x 0)). assert (Rabs (nth i x 0) * Rabs (nth i x 0) = nth i x 0 * nth i x 0) by (rewrite <- Rabs_mult; apply Rabs_right; nra). change (sumsq (@nil R)) with 0. nra.
Qed.
Lemma in_norm (x : list R) a : In a x -> Rabs a <= vnorm x.
Proof. intros H. destruct (In_nth x a 0 H) as (i & _ & <-). apply comp_le_norm. Qed.
Lemma in_block (C : cenv (T := R)) L x v a : In a (block C L x v) -> In a x.
Proof.
  unfold block. destruct (dict_get (l_index L) v) as [i|]; [|intros []]. unfold slice. intros H.
  assert (H1 : forall k (l : list R), In a (firstn k l) -> In a l) by (intros k l Hi; rewrite <- (firstn_skipn k l); apply in_or_app; auto).
  assert (H2 : forall k (l : list R), In a (skipn k l) -> In a l) by (intros k l Hi; rewrite <- (firstn_skipn k l); apply in_or_app; auto).
  eauto.
Qed.

(* ---- one factor, whitened ---- *)
Section Factor.
Variable C : cenv (T := R).
Variable prog : nat -> list expr.
Notation E := (plain_programs C prog).
Hypothesis CO : classes_ok C.
Variable f : factor R.
Hypothesis Hok : factor_ok f.
Hypothesis Hprog : length (prog (f_cls f)) = residual_dim f.
Hypothesis Hrd : (0 < residual_dim f)%nat.
Hypothesis Hth : positive_thresholds (f_noise f).
Hypothesis Hpl : forall v, In v (f_vars f) -> plain_class (C (v_ty v)) /\ (0 < param_dim (C (v_ty v)))%nat.
Variable z : var -> pytree R.
Hypothesis Hz : fits C f z.
Hypothesis Hfit : forall e, In e (prog (f_cls f)) -> smooth (inputs z f) (fields f) e /\ denote (inputs z f) (fields f) e = 0.

Lemma push_length val xi : fits C f val -> length (pushed (residual_dim f) (f_vars f) (jacobians_at E val f) xi) = residual_dim f.
Proof. intros H. apply (pushed_len E). apply factor_shape; auto. Qed.
Lemma linf_len val xi : fits C f val -> length (linf E val f xi) = residual_dim f.
Proof. intros H. apply (wl_lin (f_noise f)); [apply Hok|]. apply push_length; auto. Qed.
Lemma residual_length val : length (residual_at E val f) = residual_dim f.
Proof. rewrite residual_rows, map_length. auto. Qed.
Lemma resf_len val : length (resf E val f) = residual_dim f.
Proof. apply (wl_lin (f_noise f)); [apply Hok|]. apply residual_length. Qed.
Lemma fit_residual : resf E z f = vzero (residual_dim f).
Proof.
  unfold resf. rewrite residual_rows. replace (map (denote (inputs z f) (fields f)) (prog (f_cls f))) with (vzero (residual_dim f) : list R).
  - unfold residual_dim. apply (lin_zero _ _ _ (wl_lin (f_noise f) (proj1 Hok))).
  - rewrite <- Hprog. clear - Hfit. induction (prog (f_cls f)) as [|e l IH]; auto. cbn [length map]. rewrite (proj2 (Hfit e (or_introl eq_refl))), <- IH by (intros; apply Hfit; right; auto). reflexivity.
Qed.

Lemma whitened_near : exists r B, 0 < r /\ 0 <= B /\ forall e val s, off_by C f z e val -> within f e s -> s < r ->
  whitened_at E val f = Ok (resf E val f) /\
  (forall xi, field C f xi -> pushed (residual_dim f) (f_vars f) (jac_of E val f (resf E val f)) xi = linf E val f xi) /\
  vnorm (vadd (linf E val f e) (resf E val f)) <= B * (s * s) /\
  (forall xi t, field C f xi -> within f xi t -> vnorm (vsub (linf E val f xi) (linf E z f xi)) <= B * s * t /\ vnorm (linf E z f xi) <= B * t).
Proof.
  pose proof (proj1 Hok) as Hn. pose proof (wl_lin (f_noise f) Hn) as WL. destruct (program_near C prog CO f Hprog Hrd Hpl z Hz Hfit) as (r & B & Pr & PB & HN).
  destruct (lin_bounded _ _ _ WL) as (c & Hc & HW). destruct (thresholds_near (f_noise f) Hn Hth) as (t & Pt & HA & HB).
  pose proof (pos_INR (residual_dim f)) as Pd. set (d := INR (residual_dim f)) in *. set (G := c * (d * B)). assert (PG : 0 <= G) by (repeat apply Rmult_le_pos; auto).
  assert (Pt' : 0 < t / (3 * (G + 1))) by (apply Rdiv_lt_0_compat; lra).
  exists (Rmin (Rmin r 1) (t / (3 * (G + 1)))), G. split; [repeat apply Rmin_pos; auto; lra|]. split; auto. intros e val s Ho Hw Hs.
  assert (S0 : 0 <= s) by apply Hw.
  assert (S1 : s < r) by (eapply Rlt_le_trans; [exact Hs|]; eapply Rle_trans; [apply Rmin_l | apply Rmin_l]).
  assert (S2 : s < 1) by (eapply Rlt_le_trans; [exact Hs|]; eapply Rle_trans; [apply Rmin_l | apply Rmin_r]).
  assert (S3 : s < t / (3 * (G + 1))) by (eapply Rlt_le_trans; [exact Hs|]; apply Rmin_r).
  destruct (HN e val s Ho Hw S1) as (_ & HE). assert (Hv : fits C f val) by apply Ho. assert (Hfe : field C f e) by apply Ho.
  pose proof (residual_length val) as L1. assert (L2 : forall xi, length (pushed (residual_dim f) (f_vars f) (jacobians_at E val f) xi) = residual_dim f) by (intros; apply push_length; auto).
  assert (L3 : forall xi, length (pushed (residual_dim f) (f_vars f) (jacobians_at E z f) xi) = residual_dim f) by (intros; apply push_length; auto).
  assert (Q1 : vnorm (vadd (linf E val f e) (resf E val f)) <= G * (s * s)).
  { unfold linf, resf. rewrite <- wl_add; [|apply base_linear | apply base_ok; auto | rewrite base_dim; apply L2 | rewrite base_dim; apply L1].
    eapply Rle_trans; [apply HW; rewrite vadd_length; rewrite L2; auto|]. unfold G. rewrite !Rmult_assoc. apply Rmult_le_compat_l; auto.
    eapply Rle_trans; [apply (entries_norm _ (B * (s * s))); intros i; apply HE|]. rewrite vadd_length, L2 by (rewrite L2; auto). fold d. lra. }
  assert (Q2 : forall xi u, field C f xi -> within f xi u -> vnorm (vsub (linf E val f xi) (linf E z f xi)) <= G * s * u /\ vnorm (linf E z f xi) <= G * u).
  { intros xi u Hx Hu. split.
    - unfold linf. rewrite <- (lin_sub _ _ _ _ _ WL) by (apply L2 || apply L3). eapply Rle_trans; [apply HW; rewrite vsub_length; rewrite L2; auto; rewrite L3; auto|].
      unfold G. rewrite !Rmult_assoc. apply Rmult_le_compat_l; auto. eapply Rle_trans; [apply (entries_norm _ (B * s * u)); intros i; apply HE; auto|]. rewrite vsub_length, L2 by (rewrite L2, L3; auto). fold d. lra.
    - unfold linf. eapply Rle_trans; [apply HW; apply L3|]. unfold G. rewrite !Rmult_assoc. apply Rmult_le_compat_l; auto.
      eapply Rle_trans; [apply (entries_norm _ (B * u)); intros i; apply HE; auto|]. rewrite L3. fold d. lra. }
  assert (Hsm : vnorm (wl (base (f_noise f)) (residual_at E val f)) < t).
  { change (vnorm (resf E val f) < t). assert (H1 : vnorm (resf E val f) <= vnorm (vadd (linf E val f e) (resf E val f)) + vnorm (linf E val f e)).
    { assert (Le : length (linf E val f e) = length (resf E val f)) by (rewrite linf_len, resf_len; auto).
      replace (resf E val f) with (vsub (vadd (linf E val f e) (resf E val f)) (linf E val f e)) at 1.
      2: { apply (nth_ext' _ _ 0); [rewrite vsub_length; rewrite vadd_length; auto|]. intros i _. rewrite nth_vsub, nth_vadd by (rewrite ?vadd_length; auto). ring. }
      set (p := vadd _ _). assert (Lp : length p = length (linf E val f e)) by (unfold p; rewrite vadd_length; auto).
      replace (vsub p (linf E val f e)) with (vadd p (vscale (-1) (linf E val f e))).
      2: { apply (nth_ext' _ _ 0); [rewrite vsub_length, vadd_length; rewrite ?vscale_length; auto|]. intros i _. rewrite nth_vsub, nth_vadd, nth_vscale by (rewrite ?vscale_length; auto). ring. }
      eapply Rle_trans; [apply norm_add; rewrite vscale_length; auto|]. rewrite norm_scale. replace (Rabs (-1)) with 1 by (rewrite Rabs_left; lra). lra. }
    destruct (Q2 e s Hfe Hw) as (Q3 & Q4). assert (H2 : vnorm (linf E val f e) <= vnorm (vsub (linf E val f e) (linf E z f e)) + vnorm (linf E z f e)) by (apply norm_split; rewrite !linf_len; auto).
    assert (H3 : G * (s * s) <= G * s) by (apply Rmult_le_compat_l; auto; nra). assert (H4 : vnorm (resf E val f) <= 3 * (G * s)) by lra.
    assert (H5 : s * (3 * (G + 1)) < t). { apply (Rmult_lt_compat_r (3 * (G + 1))) in S3; [|lra]. unfold Rdiv in S3. rewrite Rmult_assoc, Rinv_l in S3 by lra. lra. }
    lra. }
  split; [|split; [|split; auto]].
  - unfold whitened_at. rewrite white_res by auto. rewrite (HA _ L1 Hsm), vscale_one. reflexivity.
  - intros xi Hx. pose proof (factor_shape C prog CO f Hprog Hrd Hpl val Hv) as HJ. unfold jacobian_shape_ok in HJ. pose proof (resf_len val) as Lr. unfold residual_dim in *.
    destruct (pushed_white E (f_noise f) (resf E val f) (f_vars f) xi (jacobians_at E val f) Hn Lr HJ) as (Ws & ET & HP).
    + intros v Hiv. change (vldim (e_cls E) v) with (local_dim (C (v_ty v))). rewrite plain_dims by apply Hpl, Hiv. apply Hx; auto.
    + assert (Ej : jac_of E val f (resf E val f) = Ws). { unfold jac_of. clear - ET. revert Ws ET. induction (jacobians_at E val f) as [|J Js IH]; intros Ws ET; cbn [traverse] in ET; [injection ET as <-; auto|]. destruct (whiten_jacobian _ J _) as [W|] eqn:EW; [|discriminate]. cbn [bind] in ET. destruct (traverse _ Js) as [Ws'|]; [|discriminate]. injection ET as <-. cbn [map]. rewrite EW. cbn [PJac.unwrap]. f_equal. apply IH. auto. }
      rewrite Ej, HP. rewrite (HB (vnorm (resf E val f)) Hsm), vscale_one. reflexivity.
Qed.
End Factor.

(* ---- the whole problem ---- *)
Lemma program_plain C prog fs : program_problem C prog fs -> plain_problem (plain_programs C prog) fs.
Proof. intros H v Hv. apply (pp_plain _ _ _ H); auto. Qed.
Lemma program_well_posed C prog fs : program_problem C prog fs -> well_posed (plain_programs C prog) fs.
Proof.
  intros [CO Hne Hf Hp]. apply program_posed; auto.
  - intros f Hi. destruct (Hf f Hi) as (H1 & H2 & H3 & H4 & _). auto.
  - intros v Hv. destruct (Hp v Hv) as (P1 & P2). pose proof (plain_dims (C (v_ty v)) P1) as Hd. split.
    + intros Hl. unfold param_dim in P2. apply (Nat.lt_irrefl 0). revert P2. unfold ravel. rewrite ?Hl. cbn. auto.
    + split; auto. split; [lia|]. intros x d Hx Hl. destruct (plain_retract (C (v_ty v)) P1 (CO _) x d Hx) as (y & E1 & H1 & _); auto. exists y. auto.
Qed.

Section Problem.
Variable C : cenv (T := R).
Variable prog : nat -> list expr.
Notation E := (plain_programs C prog).
Variable fs : list (factor R).
Hypothesis PP : program_problem C prog fs.
Variable g : graph R.
Hypothesis Eg : graph_make E fs = Ok g.
Let WP := program_well_posed C prog fs PP.
Let CO := pp_classes C prog fs PP.
Let HP := program_plain C prog fs PP.
Variable z : assign R.
Variable valz : var -> pytree R.
Hypothesis Hza : assigns E fs z valz.
Hypothesis Hzl : same_layout (as_layout z) (g_layout g).
Hypothesis Hfit : exact_fit prog fs valz.
Let Hz : holds E fs z valz := lin_holds E fs g WP Eg z valz Hza Hzl.
Let L := graph_layout E fs true.
Let n := l_dim L.
Let mm := total residual_dim fs.
Let Hg : is_graph E fs g := proj1 (made E fs g (wp_factors _ _ WP) Eg).

Lemma var_of f v : In f fs -> In v (f_vars f) -> In v (mentioned fs).
Proof. intros H1 H2. apply mentioned_in. eauto. Qed.
Lemma held_fits b val f : holds E fs b val -> In f fs -> fits C f val.
Proof. intros Hb Hf v Hv. apply (holds_legal E fs CO b val Hb). eapply var_of; eauto. Qed.
Lemma block_field x f : length x = n -> In f fs -> field C f (block C L x).
Proof.
  intros Hx Hf v Hv. change (block C L x v) with (block (e_cls E) L x v). rewrite (PDeriv.block_length E fs) by (auto; eapply var_of; eauto).
  change (vldim (e_cls E) v) with (local_dim (C (v_ty v))). apply plain_dims. apply (pp_plain C prog fs PP). eapply var_of; eauto.
Qed.
Lemma block_within x f : within f (block C L x) (vnorm x).
Proof. split; [apply norm_pos|]. intros v a _ Ha. apply in_norm. eapply in_block; eauto. Qed.
Lemma held_off b val f : holds E fs b val -> In f fs -> off_by C f valz (block C L (vsub (as_storage z) (as_storage b))) val.
Proof.
  intros Hb Hf. pose proof (pl_held_length E fs HP CO _ _ Hb) as Lb. pose proof (pl_held_length E fs HP CO _ _ Hz) as Lz.
  split; [eapply held_fits; eauto|]. split; [apply block_field; auto; rewrite vsub_length; [exact Lz | rewrite Lz, Lb; auto]|].
  intros v Hv. assert (Hm : In v (mentioned fs)) by (eapply var_of; eauto).
  assert (Eb : block C L (vsub (as_storage z) (as_storage b)) v = vsub (block C L (as_storage z) v) (block C L (as_storage b) v)) by (unfold vsub; apply (block_zipw C)).
  assert (B1 : block C L (as_storage z) v = ravel (valz v)) by (apply (pl_held_blocks E fs HP CO z valz v Hz Hm)).
  assert (B2 : block C L (as_storage b) v = ravel (val v)) by (apply (pl_held_blocks E fs HP CO b val v Hb Hm)). rewrite Eb, B1, B2.
  assert (Hl : length (ravel (valz v)) = length (ravel (val v))).
  { rewrite (ravel_dim C CO v), (ravel_dim C CO v); auto; [apply (holds_legal E fs CO b val Hb) | apply (holds_legal E fs CO z valz Hz)]; auto. }
  apply (nth_ext' _ _ 0); [rewrite vadd_length; rewrite ?vsub_length; auto|]. intros i _. rewrite nth_vadd, nth_vsub by (rewrite ?vsub_length; auto). ring.
Qed.

Lemma rvec_norm (a : factor R -> list R) c : (forall f, In f fs -> vnorm (a f) <= c) -> vnorm (rvec fs a) <= INR (length (concat (kgroups fs))) * c.
Proof. intros H. unfold rvec. rewrite <- flat_map_concat_map. apply flat_norm. intros f Hf. apply H. apply kg_in. auto. Qed.

Lemma problem_near : exists r B Az, 0 < r /\ 0 <= B /\ compute_cost E g z = Ok (sumsq (vzero mm : list R), vzero mm) /\
  compute_whitened_residual_jacobian E g z (vzero mm) = Ok Az /\ coo_ok Az /\ m_shape Az = (mm, n) /\
  forall b val c rr A, holds E fs b val -> compute_cost E g b = Ok (c, rr) -> compute_whitened_residual_jacobian E g b rr = Ok A ->
    let e := vsub (as_storage z) (as_storage b) in vnorm e < r ->
    coo_ok A /\ m_shape A = (mm, n) /\ length rr = mm /\ length e = n /\ vnorm (vadd (mapply A e) rr) <= B * (vnorm e * vnorm e) /\
    forall x, length x = n -> vnorm (vsub (mapply A x) (mapply Az x)) <= B * vnorm e * vnorm x /\ vnorm (mapply Az x) <= B * vnorm x.
Proof.
  pose proof WP as [_ Hok Hws _ _]. destruct (posed_graph E fs WP) as (Hne & _ & Hrd & _).
  destruct (uniform (fun f r B => forall e val s, off_by C f valz e val -> within f e s -> s < r ->
    whitened_at E val f = Ok (resf E val f) /\
    (forall xi, field C f xi -> pushed (residual_dim f) (f_vars f) (jac_of E val f (resf E val f)) xi = linf E val f xi) /\
    vnorm (vadd (linf E val f e) (resf E val f)) <= B * (s * s) /\
    (forall xi t, field C f xi -> within f xi t -> vnorm (vsub (linf E val f xi) (linf E valz f xi)) <= B * s * t /\ vnorm (linf E valz f xi) <= B * t)) fs) as (r & B & Pr & PB & HN).
  { intros f r B r' B' H Hr' Hr HB e val s Ho Hw Hs. destruct (H e val s Ho Hw ltac:(lra)) as (H1 & H2 & H3 & H4). assert (S0 : 0 <= s) by apply Hw. split; auto. split; auto. split.
    - eapply Rle_trans; [exact H3|]. apply Rmult_le_compat_r; auto. apply Rmult_le_pos; auto.
    - intros xi t Hx Ht. destruct (H4 xi t Hx Ht) as (H5 & H6). assert (T0 : 0 <= t) by apply Ht. split.
      + eapply Rle_trans; [exact H5|]. apply Rmult_le_compat_r; auto. apply Rmult_le_compat_r; auto.
      + eapply Rle_trans; [exact H6|]. apply Rmult_le_compat_r; auto. }
  { intros f Hf. destruct (pp_factors C prog fs PP f Hf) as (F1 & F2 & F3 & F4 & F5). apply whitened_near; auto.
    - intros v Hv. apply (pp_plain C prog fs PP). eapply var_of; eauto.
    - eapply held_fits; eauto. }
  assert (Hlen : forall val, rlen fs (resf E val)). { intros val f Hf. destruct (pp_factors C prog fs PP f Hf) as (F1 & F2 & F3 & F4 & F5). apply resf_len; auto. }
  assert (Hlin : forall b val x, holds E fs b val -> rlen fs (fun f => linf E val f (block C L x))).
  { intros b val x Hb f Hf. destruct (pp_factors C prog fs PP f Hf) as (F1 & F2 & F3 & F4 & F5). apply linf_len; auto; [|eapply held_fits; eauto]. intros v Hv. apply (pp_plain C prog fs PP). eapply var_of; eauto. }
  (* the cost and the Jacobian at any values close enough *)
  assert (Hat : forall b val, holds E fs b val -> vnorm (vsub (as_storage z) (as_storage b)) < r ->
    compute_cost E g b = Ok (sumsq (rvec fs (resf E val)), rvec fs (resf E val)) /\ exists A, compute_whitened_residual_jacobian E g b (rvec fs (resf E val)) = Ok A /\ coo_ok A /\ m_shape A = (mm, n) /\
      forall x, length x = n -> mapply A x = rvec fs (fun f => linf E val f (block C L x))).
  { intros b val Hb Hd. pose proof (holds_assigns E fs _ _ Hb) as Ha. pose proof (holds_legal E fs CO _ _ Hb) as Hl.
    assert (HF : forall f, In f fs -> whitened_at E val f = Ok (resf E val f) /\ (forall xi, field C f xi -> pushed (residual_dim f) (f_vars f) (jac_of E val f (resf E val f)) xi = linf E val f xi)).
    { intros f Hf. destruct (HN f Hf _ val _ (held_off b val f Hb Hf) (block_within _ f) Hd) as (H1 & H2 & _). auto. }
    assert (Hj : forall f, In f fs -> jacobian_shape_ok E val f) by (intros f Hf; apply (ws_jacobian E fs Hws); auto).
    split.
    - destruct (one_cost E fs g Hok Hg b val Ha) as (_ & Hc); auto; [intros f Hf; apply (ws_residual E fs Hws); auto|].
      rewrite (rvec_ext fs _ (resf E val)) in Hc; auto. intros f Hf. destruct (HF f Hf) as (-> & _). auto.
    - destruct (one_jacobian E fs g Hok Hg Hrd b val (resf E val) Ha Hj (Hlen val)) as (A & EA & HA & Hsh & Hact). exists A. split; auto. split; auto. split; auto.
      intros x Hx. rewrite Hact by exact Hx. apply rvec_ext. intros f Hf. destruct (HF f Hf) as (_ & H2). apply (H2 (block C L x)). apply block_field; auto. }
  assert (Hd0 : vnorm (vsub (as_storage z) (as_storage z)) < r).
  { replace (vsub (as_storage z) (as_storage z)) with (vzero (length (as_storage z)) : list R); [rewrite zero_norm; auto|].
    apply (nth_ext' _ _ 0); [rewrite vsub_length, vzero_length; auto|]. intros i _. rewrite nth_vsub, nth_zero by auto. ring. }
  destruct (Hat z valz Hz Hd0) as (Ecz & Az & EAz & HAz & Shz & Actz).
  assert (Erz : rvec fs (resf E valz) = vzero mm).
  { assert (Hlz : length (rvec fs (resf E valz)) = mm) by (apply rvec_length; auto). assert (S0 : vnorm (rvec fs (resf E valz)) <= INR (length (concat (kgroups fs))) * 0).
    { apply rvec_norm. intros f Hf. destruct (pp_factors C prog fs PP f Hf) as (F1 & F2 & F3 & F4 & F5). rewrite (fit_residual C prog f); auto. rewrite zero_norm; lra. }
    rewrite <- Hlz. apply PVec.sumsq_zero. destruct (vnorm_sq (rvec fs (resf E valz))) as (N1 & N2). rewrite Rmult_0_r in S0. nra. }
  rewrite Erz in Ecz, EAz. pose proof (pos_INR (length (concat (kgroups fs)))) as Pk. set (k := INR (length (concat (kgroups fs)))) in *.
  exists r, (k * B), Az. split; auto. split; [apply Rmult_le_pos; auto|]. split; auto. split; auto. split; auto. split; auto.
  intros b val c rr A Hb Ec EA e Hd. destruct (Hat b val Hb Hd) as (Ec' & A' & EA' & HA & Sh & Act). rewrite Ec in Ec'. injection Ec' as _ ->. rewrite EA in EA'. injection EA' as <-.
  pose proof (pl_held_length E fs HP CO _ _ Hb) as Lb. pose proof (pl_held_length E fs HP CO _ _ Hz) as Lz.
  assert (Le : length e = n) by (unfold e; rewrite vsub_length; [exact Lz | rewrite Lz, Lb; auto]).
  split; auto. split; auto. split; [apply rvec_length; auto|]. split; auto. split.
  - rewrite Act by auto. unfold vadd. rewrite rvec_zipw by (auto; eapply Hlin; eauto). rewrite Rmult_assoc. apply rvec_norm. intros f Hf.
    destruct (HN f Hf _ val _ (held_off b val f Hb Hf) (block_within _ f) Hd) as (_ & _ & H3 & _). exact H3.
  - intros x Hx. rewrite Act, Actz by auto. split.
    + unfold vsub at 1. rewrite rvec_zipw by (eapply Hlin; eauto). rewrite !Rmult_assoc. apply rvec_norm. intros f Hf.
      destruct (HN f Hf _ val _ (held_off b val f Hb Hf) (block_within _ f) Hd) as (_ & _ & _ & H4). destruct (H4 _ _ (block_field x f Hx Hf) (block_within x f)) as (H5 & _). rewrite <- Rmult_assoc. exact H5.
    + rewrite Rmult_assoc. apply rvec_norm. intros f Hf. destruct (HN f Hf _ val _ (held_off b val f Hb Hf) (block_within _ f) Hd) as (_ & _ & _ & H4). destruct (H4 _ _ (block_field x f Hx Hf) (block_within x f)) as (_ & H6). exact H6.
Qed.

Lemma fit_constants : determined_at E g z -> exists rho m K f, 0 < rho /\ good_solution E fs g z valz rho m K 0 /\ 0 <= f /\ bounded_near E fs g z rho f.
Proof.
  intros Hdet. destruct problem_near as (r & B & Az & Pr & PB & Ecz & EAz & HAz & Shz & HN).
  destruct (PNear.bounded_below Az HAz) as (mu & Pmu & Hmu). rewrite Shz in Hmu. cbn [fst snd] in Hmu.
  assert (Hker : forall y, length y = n -> mapply Az y = vzero mm -> sumsq y = 0).
  { intros y Hy H0. apply (Hdet _ (vzero mm) Az Ecz) with (Ax := mapply Az y); auto; [apply matmul_mapply; auto; rewrite Shz; auto|]. rewrite H0. apply PVec.sumsq_zero. rewrite vzero_length. auto. }
  set (m0 := sqrt mu). assert (Pm0 : 0 < m0) by (apply sqrt_lt_R0; auto). assert (Em0 : m0 * m0 = mu) by (apply sqrt_sqrt; lra).
  assert (Low : forall x, length x = n -> m0 * vnorm x <= vnorm (mapply Az x)).
  { intros x Hx. assert (H1 : mu * sumsq x <= sumsq (mapply Az x)).
    { apply Hmu; auto. intros y Hy H0. rewrite Shz in *. cbn [fst snd] in *. pose proof (Hker y Hy H0) as Hs. apply PVec.sumsq_zero in Hs. rewrite Hs. apply vdot_zero_r. }
    destruct (vnorm_sq x) as (N1 & N2). destruct (vnorm_sq (mapply Az x)) as (N3 & N4). rewrite <- N2, <- N4 in H1. apply Rsqr_incr_0_var; auto. unfold Rsqr. nra. }
  set (rho := Rmin (Rmin (r / 2) 1) (m0 / (2 * (B + 1)))). assert (Q0 : 0 < m0 / (2 * (B + 1))) by (apply Rdiv_lt_0_compat; lra).
  assert (Prho : 0 < rho) by (repeat apply Rmin_pos; lra).
  assert (R1 : rho <= r / 2) by (eapply Rle_trans; [apply Rmin_l | apply Rmin_l]). assert (R2 : rho <= 1) by (eapply Rle_trans; [apply Rmin_l | apply Rmin_r]).
  assert (R3 : B * rho < m0 / 2).
  { assert (Hle : rho <= m0 / (2 * (B + 1))) by apply Rmin_r. apply (Rmult_le_compat_r (2 * (B + 1))) in Hle; [|lra]. unfold Rdiv in Hle at 1. rewrite Rmult_assoc, Rinv_l in Hle by lra. lra. }
  exists rho, (m0 / 2), B, (2 * B). split; auto. split; [|split; [lra|]].
  - split; [exact HP|]. split; [exact WP|]. split; auto. split; auto. split; auto. split; [|split; [lra|]; split; auto; split; [lra|]; nra].
    eexists. exists (vzero mm). split; [exact Ecz|]. intros b val c rr A Ha Hl Ec EA e He. pose proof (lin_holds E fs g WP Eg b val Ha Hl) as Hb.
    destruct (HN b val c rr A Hb Ec EA) as (HA & Sh & Lr & Le & H1 & H2); [change (vnorm e < r); lra|]. fold e in Le, H1, H2. split; [|split].
    + intros y Ay Hy EAy. rewrite Sh in Hy. cbn [snd] in Hy. rewrite matmul_mapply in EAy by (auto; rewrite Sh; auto). injection EAy as <-.
      destruct (H2 y Hy) as (H3 & H4). pose proof (Low y Hy) as H5.
      assert (H6 : vnorm (mapply Az y) <= vnorm (vsub (mapply Az y) (mapply A y)) + vnorm (mapply A y)) by (apply norm_split; rewrite !mapply_length, Sh, Shz; auto).
      rewrite norm_flip in H6 by (rewrite !mapply_length, Sh, Shz; auto). pose proof (norm_pos y) as Py. pose proof (norm_pos e) as Pe.
      assert (H7 : B * vnorm e * vnorm y <= m0 / 2 * vnorm y). { apply Rmult_le_compat_r; auto. assert (B * vnorm e <= B * rho) by (apply Rmult_le_compat_l; auto). lra. }
      assert (H8 : m0 / 2 * vnorm y <= vnorm (mapply A y)) by lra.
      destruct (vnorm_sq y) as (_ & N2). destruct (vnorm_sq (mapply A y)) as (_ & N4). rewrite <- N2, <- N4. assert (0 <= m0 / 2 * vnorm y) by (apply Rmult_le_pos; lra). nra.
    + intros Ae EAe. rewrite matmul_mapply in EAe by (auto; rewrite Sh; auto). injection EAe as <-.
      replace (vsub (vadd (mapply A e) rr) (vzero mm)) with (vadd (mapply A e) rr); auto.
      assert (Hl2 : length (vadd (mapply A e) rr) = mm) by (rewrite vadd_length; rewrite mapply_length, Sh; auto).
      apply (nth_ext' _ _ 0); [rewrite vsub_length; rewrite ?vzero_length; auto|]. intros i _. rewrite nth_vsub, nth_zero by (rewrite vzero_length; auto). ring.
    + intros v Av _. rewrite vdot_zero_r. lra.
  - intros b val c rr A Ha Hl Ec EA He v Av EAv. pose proof (lin_holds E fs g WP Eg b val Ha Hl) as Hb.
    destruct (HN b val c rr A Hb Ec EA) as (HA & Sh & Lr & Le & H1 & H2); [lra|].
    assert (Hv : length v = n). { apply (matmul_length A v Av) in EAv. rewrite Sh in EAv. cbn [fst snd] in EAv. tauto. }
    rewrite matmul_mapply in EAv by (auto; rewrite Sh; auto). injection EAv as <-. destruct (H2 v Hv) as (H3 & H4).
    assert (H6 : vnorm (mapply A v) <= vnorm (vsub (mapply A v) (mapply Az v)) + vnorm (mapply Az v)) by (apply norm_split; rewrite !mapply_length, Sh, Shz; auto).
    pose proof (norm_pos v) as Pv. pose proof (norm_pos (vsub (as_storage z) (as_storage b))) as Pe. set (d := vnorm (vsub (as_storage z) (as_storage b))) in *.
    assert (H7 : B * d * vnorm v <= B * 1 * vnorm v) by (apply Rmult_le_compat_r; auto; apply Rmult_le_compat_l; lra). assert (H8 : vnorm (mapply A v) <= 2 * B * vnorm v) by lra.
    destruct (vnorm_sq v) as (_ & N2). destruct (vnorm_sq (mapply A v)) as (N3 & N4). rewrite <- N2, <- N4. nra.
Qed.
End Problem.
