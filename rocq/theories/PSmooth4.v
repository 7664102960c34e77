(* Problems given by programs, near an exact fit: linearisation error between two points. *)
From Coq Require Import List Arith Bool Lia ZArith Reals Lra.
From Verif Require Import Num NumR Py Arr MLayout MAssign MNoise MSparse MFactor MGraph MLinear MSolver MAuto MDual SpecLayout SpecTree SpecAssign SpecGraph SpecSparse SpecDeriv SpecSolver SpecOrder SpecInv SpecAuto SpecDual SpecTwin SpecLin SpecCgLin SpecLocal SpecSmooth SpecTrust.
From Verif Require Import PBase PTree PVec PSparse PCg PSolverR PAuto PDeriv PAutoR PDual PDual2 PLayout PAssign PStack PGraph PGraph2 PGraph4 PGraph5 PJac POrder POrder2 PExGraph PExAuto PExDual PHold PInv PExInv PLin PExLinDl PLocal PNear PTwin2 PBasin4 PBasin5 PBasin6 PBasin7 PSmooth PSmooth2 PSmooth3.
Import ListNotations.
Local Open Scope R_scope.

(* ---- one factor ---- *)
Section Factor.
Variable C : cenv (T := R).
Variable prog : nat -> list expr.
Notation E := (plain_programs C prog).
Hypothesis CO : classes_ok C.
Variable f : factor R.
Hypothesis Hok : factor_ok f.
Hypothesis Hprog : length (prog (f_cls f)) = residual_dim f.
Hypothesis Hrd : (0 < residual_dim f)%nat.
Hypothesis Hpl : forall v, In v (f_vars f) -> plain_class (C (v_ty v)) /\ (0 < param_dim (C (v_ty v)))%nat.
Variable z : var -> pytree R.
Hypothesis Hz : fits C f z.
Hypothesis Hfit : forall e, In e (prog (f_cls f)) -> smooth (inputs z f) (fields f) e /\ denote (inputs z f) (fields f) e = 0.
Notation push val xi := (pushed (residual_dim f) (f_vars f) (jacobians_at E val f) xi).
Notation width := (width C f).
Notation tot u := (vsum (map u (seq 0 width))).

(* val' is val plus x *)
Definition moved (x : var -> list R) (val val' : var -> pytree R) : Prop := field C f x /\ forall v, In v (f_vars f) -> ravel (val' v) = vadd (ravel (val v)) (x v).

Lemma program_taylor : exists r B, 0 < r /\ 0 <= B /\ forall e val s e' val' s' x t, off_by C f z e val -> within f e s -> s < r -> off_by C f z e' val' -> within f e' s' -> s' < r ->
  moved x val val' -> within f x t ->
  forall i, Rabs (nth i (vsub (residual_at E val' f) (vadd (push val x) (residual_at E val f))) 0) <= B * (t * t).
Proof.
  destruct (program_near C prog CO f Hprog Hrd Hpl z Hz Hfit) as (r0 & B0 & P0 & _ & HN).
  destruct (uniform (fun p r B => forall e val s e' val' s' x t, off_by C f z e val -> within f e s -> s < r -> off_by C f z e' val' -> within f e' s' -> s' < r -> moved x val val' -> within f x t ->
      Rabs (denote (inputs val' f) (fields f) p - (tot (fun k => jac_entry real_funs (inputs val f) (fields f) p k * spread_out f x k) + denote (inputs val f) (fields f) p)) <= B * (t * t)) (prog (f_cls f))) as (r & B & Pr & PB & H).
  - intros p r B r' B' H Hr' Hr HB e val s e' val' s' x t Ho Hw Hs Ho' Hw' Hs' Hx Ht. assert (T0 : 0 <= t) by apply Ht.
    eapply Rle_trans; [apply (H e val s e' val' s' x t); auto; lra|]. apply Rmult_le_compat_r; auto. apply Rmult_le_pos; auto.
  - intros p Hp. destruct (Hfit p Hp) as (Hsm & _). destruct (entry_tame width (inputs z f) (fields f) p Hsm) as (_ & (r & B & Pr & PB & HB)).
    pose proof (pos_INR width) as Pw. set (W := INR width) in *. exists r, (B * (W * W)). split; auto. split; [repeat apply Rmult_le_pos; auto|].
    intros e val s e' val' s' x t Ho Hw Hs Ho' Hw' Hs' (Hx & Hm) Ht. assert (T0 : 0 <= t) by apply Ht.
    destruct (HB (inputs val f) (inputs val' f)) as (_ & _ & T3); [eapply off_near; eauto | eapply off_near; eauto|].
    assert (Hd : forall k, inputs val' f k - inputs val f k = spread_out f x k).
    { intros k. rewrite (moved_inputs C CO f val val' x); auto; [ring | apply Ho]. }
    rewrite (vsum_map_ext (fun k => jac_entry real_funs (inputs val f) (fields f) p k * (inputs val' f k - inputs val f k)) (fun k => jac_entry real_funs (inputs val f) (fields f) p k * spread_out f x k)) in T3 by (intros; rewrite Hd; auto).
    assert (Ed : tot (fun k => Rabs (inputs val f k - inputs val' f k)) = tot (fun k => Rabs (spread_out f x k))).
    { apply vsum_map_ext. intros k _. rewrite Rabs_minus_sym, Hd. auto. }
    rewrite Ed in T3. pose proof (within_tot C f x t Ht) as Hxt. fold W in Hxt.
    assert (X0 : 0 <= tot (fun k => Rabs (spread_out f x k))) by (apply vsum_nonneg; intros y Hy; apply in_map_iff in Hy; destruct Hy as (k & <- & _); apply Rabs_pos).
    set (dd := tot (fun k => Rabs (spread_out f x k))) in *. assert (dd * dd <= (W * t) * (W * t)) by (apply Rmult_le_compat; auto). assert (B * (dd * dd) <= B * ((W * t) * (W * t))) by (apply Rmult_le_compat_l; auto).
    match goal with |- Rabs (?a - (?b + ?c)) <= _ => replace (a - (b + c)) with (a - c - b) by ring end. eapply Rle_trans; [exact T3|]. lra.
  - exists (Rmin r0 r), B. split; [apply Rmin_pos; auto|]. split; auto. intros e val s e' val' s' x t Ho Hw Hs Ho' Hw' Hs' Hx Ht i.
    assert (Hs1 : s < r) by (eapply Rlt_le_trans; [exact Hs | apply Rmin_r]). assert (Hs2 : s' < r) by (eapply Rlt_le_trans; [exact Hs' | apply Rmin_r]). assert (Hs0 : s < r0) by (eapply Rlt_le_trans; [exact Hs | apply Rmin_l]).
    destruct (HN e val s Ho Hw Hs0) as (Hsm & _). assert (Hv : fits C f val) by apply Ho. assert (Hfx : field C f x) by apply Hx. assert (T0 : 0 <= t) by apply Ht.
    destruct (Nat.lt_ge_cases i (length (prog (f_cls f)))) as [Hi|Hi].
    + assert (Hin : In (nth i (prog (f_cls f)) (Lit 0 1)) (prog (f_cls f))) by (apply nth_In; auto).
      rewrite nth_vsub by (rewrite vadd_length; rewrite jacobian_rows, ?residual_rows, !map_length by auto; auto). rewrite nth_vadd by (rewrite jacobian_rows, residual_rows, !map_length by auto; auto).
      rewrite jacobian_rows, !residual_rows by auto. rewrite !(nth_map' _ _ i 0 (Lit 0 1)) by auto. apply (H _ Hin e val s e' val' s' x t); auto.
    + rewrite nth_overflow; [rewrite Rabs_R0; repeat apply Rmult_le_pos; auto|]. rewrite vsub_length; [rewrite residual_rows, map_length; auto|]. rewrite vadd_length; rewrite jacobian_rows, ?residual_rows, !map_length by auto; auto.
Qed.

Lemma whitened_taylor : exists r B, 0 < r /\ 0 <= B /\ forall e val s e' val' s' x t, off_by C f z e val -> within f e s -> s < r -> off_by C f z e' val' -> within f e' s' -> s' < r ->
  moved x val val' -> within f x t -> vnorm (vsub (resf E val' f) (vadd (linf E val f x) (resf E val f))) <= B * (t * t).
Proof.
  pose proof (proj1 Hok) as Hn. pose proof (wl_lin (f_noise f) Hn) as WL. destruct program_taylor as (r & B & Pr & PB & HN).
  destruct (lin_bounded _ _ _ WL) as (c & Hc & HW). pose proof (pos_INR (residual_dim f)) as Pd. set (d := INR (residual_dim f)) in *. exists r, (c * (d * B)). split; auto. split; [repeat apply Rmult_le_pos; auto|].
  intros e val s e' val' s' x t Ho Hw Hs Ho' Hw' Hs' Hx Ht. specialize (HN e val s e' val' s' x t Ho Hw Hs Ho' Hw' Hs' Hx Ht).
  assert (Hv : fits C f val) by apply Ho. assert (L2 : length (push val x) = residual_dim f) by (apply (push_length C prog CO f); auto).
  assert (L1 : forall val, length (residual_at E val f) = residual_dim f) by (intros; apply residual_length; auto). assert (L3 : length (vadd (push val x) (residual_at E val f)) = residual_dim f) by (rewrite vadd_length; rewrite L2; auto).
  unfold linf, resf. rewrite <- wl_add; [|apply base_linear | apply base_ok; auto | rewrite base_dim; apply L2 | rewrite base_dim; apply L1].
  rewrite <- (lin_sub _ _ _ _ _ WL) by (auto; apply L1). eapply Rle_trans; [apply HW; rewrite vsub_length; rewrite L1; auto|]. rewrite !Rmult_assoc. apply Rmult_le_compat_l; auto.
  eapply Rle_trans; [apply (entries_norm _ (B * (t * t))); apply HN|]. rewrite vsub_length, L1 by (rewrite L1; auto). fold d. lra.
Qed.
End Factor.

(* ---- the whole problem ---- *)
Section Problem.
Variable C : cenv (T := R).
Variable prog : nat -> list expr.
Notation E := (plain_programs C prog).
Variable fs : list (factor R).
Hypothesis PP : program_problem C prog fs.
Variable g : graph R.
Hypothesis Eg : graph_make E fs = Ok g.
Let WP := program_well_posed C prog fs PP.
Let CO := pp_classes C prog fs PP.
Let HP := program_plain C prog fs PP.
Variable z : assign R.
Variable valz : var -> pytree R.
Hypothesis Hza : assigns E fs z valz.
Hypothesis Hzl : same_layout (as_layout z) (g_layout g).
Hypothesis Hfit : exact_fit prog fs valz.
Let Hz : holds E fs z valz := lin_holds E fs g WP Eg z valz Hza Hzl.
Let L := graph_layout E fs true.
Let n := l_dim L.
Let mm := total residual_dim fs.
Let Hg : is_graph E fs g := proj1 (made E fs g (wp_factors _ _ WP) Eg).

Lemma held_moved b val b' val' f : holds E fs b val -> holds E fs b' val' -> In f fs -> moved C f (block C L (vsub (as_storage b') (as_storage b))) val val'.
Proof.
  intros Hb Hb' Hf. pose proof (pl_held_length E fs HP CO _ _ Hb) as Lb. pose proof (pl_held_length E fs HP CO _ _ Hb') as Lz.
  split; [apply (block_field C prog fs PP); auto; rewrite vsub_length; [exact Lz | rewrite Lz, Lb; auto]|].
  intros v Hv. assert (Hm : In v (mentioned fs)) by (eapply var_of; eauto).
  assert (Eb : block C L (vsub (as_storage b') (as_storage b)) v = vsub (block C L (as_storage b') v) (block C L (as_storage b) v)) by (unfold vsub; apply (block_zipw C)).
  assert (B1 : block C L (as_storage b') v = ravel (val' v)) by (apply (pl_held_blocks E fs HP CO b' val' v Hb' Hm)).
  assert (B2 : block C L (as_storage b) v = ravel (val v)) by (apply (pl_held_blocks E fs HP CO b val v Hb Hm)). rewrite Eb, B1, B2.
  assert (Hl : length (ravel (val' v)) = length (ravel (val v))).
  { rewrite (ravel_dim C CO v), (ravel_dim C CO v); auto; [apply (holds_legal E fs CO b val Hb) | apply (holds_legal E fs CO b' val' Hb')]; auto. }
  apply (nth_ext' _ _ 0); [rewrite vadd_length; rewrite ?vsub_length; auto|]. intros i _. rewrite nth_vadd, nth_vsub by (rewrite ?vsub_length; auto). ring.
Qed.

Lemma fit_taylor : exists r B, 0 < r /\ 0 <= B /\ forall rho, rho <= r -> taylor_near E fs g z rho B.
Proof.
  pose proof WP as [_ Hok Hws _ _]. destruct (posed_graph E fs WP) as (Hne & _ & Hrd & _).
  (* each factor: what its residual and Jacobian are, and the error *)
  destruct (uniform (fun f r B => forall e val s, off_by C f valz e val -> within f e s -> s < r ->
    (whitened_at E val f = Ok (resf E val f) /\ (forall xi, field C f xi -> pushed (residual_dim f) (f_vars f) (jac_of E val f (resf E val f)) xi = linf E val f xi)) /\
    forall e' val' s' x t, off_by C f valz e' val' -> within f e' s' -> s' < r -> moved C f x val val' -> within f x t -> vnorm (vsub (resf E val' f) (vadd (linf E val f x) (resf E val f))) <= B * (t * t)) fs) as (r & B & Pr & PB & HN).
  { intros f r B r' B' H Hr' Hr HB e val s Ho Hw Hs. destruct (H e val s Ho Hw ltac:(lra)) as (H1 & H2). split; auto. intros e' val' s' x t Ho' Hw' Hs' Hx Ht. assert (T0 : 0 <= t) by apply Ht.
    eapply Rle_trans; [apply (H2 e' val' s' x t); auto; lra|]. apply Rmult_le_compat_r; auto. apply Rmult_le_pos; auto. }
  { intros f Hf. destruct (pp_factors C prog fs PP f Hf) as (F1 & F2 & F3 & F4 & F5). assert (Hpl : forall v, In v (f_vars f) -> plain_class (C (v_ty v)) /\ (0 < param_dim (C (v_ty v)))%nat) by (intros v Hv; apply (pp_plain C prog fs PP); eapply var_of; eauto).
    assert (Hzf : fits C f valz) by (eapply held_fits; eauto).
    destruct (whitened_near C prog CO f F1 F2 F3 ltac:(auto) Hpl valz Hzf (fun e He => Hfit f e Hf He)) as (r1 & B1 & P1 & _ & W1).
    destruct (whitened_taylor C prog CO f F1 F2 F3 Hpl valz Hzf (fun e He => Hfit f e Hf He)) as (r2 & B2 & P2 & Q2 & W2).
    exists (Rmin r1 r2), B2. split; [apply Rmin_pos; auto|]. split; auto. intros e val s Ho Hw Hs. split.
    - destruct (W1 e val s Ho Hw) as (H1 & H2 & _); auto. eapply Rlt_le_trans; [exact Hs | apply Rmin_l].
    - intros e' val' s' x t Ho' Hw' Hs' Hx Ht. apply (W2 e val s e' val' s' x t); auto; eapply Rlt_le_trans; eauto; apply Rmin_r. }
  assert (Hlen : forall val, rlen fs (resf E val)). { intros val f Hf. destruct (pp_factors C prog fs PP f Hf) as (F1 & F2 & F3 & F4 & F5). apply resf_len; auto. }
  assert (Hlin : forall b val x, holds E fs b val -> rlen fs (fun f => linf E val f (block C L x))).
  { intros b val x Hb f Hf. destruct (pp_factors C prog fs PP f Hf) as (F1 & F2 & F3 & F4 & F5). apply linf_len; auto; [|eapply held_fits; eauto]. intros v Hv. apply (pp_plain C prog fs PP). eapply var_of; eauto. }
  assert (Hat : forall b val, holds E fs b val -> vnorm (vsub (as_storage z) (as_storage b)) < r ->
    compute_cost E g b = Ok (sumsq (rvec fs (resf E val)), rvec fs (resf E val)) /\ exists A, compute_whitened_residual_jacobian E g b (rvec fs (resf E val)) = Ok A /\ coo_ok A /\ m_shape A = (mm, n) /\
      forall x, length x = n -> mapply A x = rvec fs (fun f => linf E val f (block C L x))).
  { intros b val Hb Hd. pose proof (holds_assigns E fs _ _ Hb) as Ha. pose proof (holds_legal E fs CO _ _ Hb) as Hl.
    assert (HF : forall f, In f fs -> whitened_at E val f = Ok (resf E val f) /\ (forall xi, field C f xi -> pushed (residual_dim f) (f_vars f) (jac_of E val f (resf E val f)) xi = linf E val f xi)).
    { intros f Hf. destruct (HN f Hf _ val _ (held_off C prog fs PP g Eg z valz Hza Hzl b val f Hb Hf) (block_within C prog fs _ f) Hd) as (H1 & _). auto. }
    assert (Hj : forall f, In f fs -> jacobian_shape_ok E val f) by (intros f Hf; apply (ws_jacobian E fs Hws); auto).
    split.
    - destruct (one_cost E fs g Hok Hg b val Ha) as (_ & Hc); auto; [intros f Hf; apply (ws_residual E fs Hws); auto|].
      rewrite (rvec_ext fs _ (resf E val)) in Hc; auto. intros f Hf. destruct (HF f Hf) as (-> & _). auto.
    - destruct (one_jacobian E fs g Hok Hg Hrd b val (resf E val) Ha Hj (Hlen val)) as (A & EA & HA & Hsh & Hact). exists A. split; auto. split; auto. split; auto.
      intros x Hx. rewrite Hact by exact Hx. apply rvec_ext. intros f Hf. destruct (HF f Hf) as (_ & H2). apply (H2 (block C L x)). apply (block_field C prog fs PP); auto. }
  pose proof (pos_INR (length (concat (kgroups fs)))) as Pk. set (k := INR (length (concat (kgroups fs)))) in *.
  exists (r / 2), (k * B). split; [lra|]. split; [apply Rmult_le_pos; auto|]. intros rho Hrho b val c rr A b' val' c' rr' Hb Hbl Ec EA Hb' Hbl' Ec' D1 D2 d Ad EAd.
  pose proof (lin_holds E fs g WP Eg b val Hb Hbl) as Hh. pose proof (lin_holds E fs g WP Eg b' val' Hb' Hbl') as Hh'.
  destruct (Hat b val Hh ltac:(lra)) as (Ec1 & A1 & EA1 & HA & Sh & Act). rewrite Ec in Ec1. injection Ec1 as _ ->. rewrite EA in EA1. injection EA1 as <-.
  destruct (Hat b' val' Hh' ltac:(lra)) as (Ec1 & _). rewrite Ec' in Ec1. injection Ec1 as _ ->.
  pose proof (pl_held_length E fs HP CO _ _ Hh) as Lb. pose proof (pl_held_length E fs HP CO _ _ Hh') as Lb'.
  assert (Ld : length d = n) by (unfold d; rewrite vsub_length; [exact Lb' | rewrite Lb, Lb'; auto]).
  rewrite matmul_mapply in EAd by (auto; rewrite Sh; auto). injection EAd as <-. rewrite Act by auto. unfold vadd. rewrite rvec_zipw by (auto; eapply Hlin; eauto). unfold vsub at 1. rewrite rvec_zipw.
  - rewrite Rmult_assoc. apply rvec_norm. intros f Hf. destruct (vnorm_sq d) as (_ & <-).
    destruct (HN f Hf _ val _ (held_off C prog fs PP g Eg z valz Hza Hzl b val f Hh Hf) (block_within C prog fs _ f) ltac:(lra)) as (_ & H3).
    apply (H3 _ val' _ (block C L d) (vnorm d) (held_off C prog fs PP g Eg z valz Hza Hzl b' val' f Hh' Hf) (block_within C prog fs _ f) ltac:(lra)); [apply held_moved; auto | apply (block_within C prog fs)].
  - auto.
  - intros f Hf. pose proof (Hlin b val d Hh f Hf) as H1. pose proof (Hlen val f Hf) as H2. change (length (vadd (linf E val f (block C L d)) (resf E val f)) = residual_dim f). rewrite vadd_length; congruence.
Qed.
End Problem.
