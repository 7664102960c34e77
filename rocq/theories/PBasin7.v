(* Proofs: the linearised residual of one pose factor near poses at which its measurement holds. *)
From Coq Require Import List Arith Bool Lia Reals Lra Psatz.
From Verif Require Import Num NumR Py Arr MLayout MAssign MNoise MSparse MFactor MGraph MLie MPose SpecLayout SpecTree SpecNoise SpecGraph SpecLie SpecPose SpecZero SpecSpatial SpecTwin SpecInv SpecOrder SpecBook PGraph PVec PLie PPose PFrame PSolverR PNoise PDescent PLocal PLin PTwin2 PFree PZero PJacZero PNear PSpatial PSpatial2 PSpatial3 PSpatial4 PBasin4 PBasin5 PBasin6.
Import ListNotations.
Local Open Scope R_scope.

Lemma sub_sub (a b c : list R) : length a = length c -> length b = length c -> vsub (vsub a c) (vsub b c) = vsub a b.
Proof.
  intros Ha Hb. assert (L1 : length (vsub a c) = length c) by (rewrite vsub_length; auto). assert (L2 : length (vsub b c) = length c) by (rewrite vsub_length; auto).
  apply (nth_ext' _ _ 0); [rewrite !vsub_length; congruence|]. intros i _. rewrite !nth_vsub by congruence. ring.
Qed.
Lemma norm_scale k (x : list R) : vnorm (vscale k x) = Rabs k * vnorm x.
Proof.
  destruct (vnorm_sq x) as (H0 & H1). apply vnorm_eq; [apply Rmult_le_pos; auto; apply Rabs_pos|]. rewrite sumsq_scale, <- H1.
  assert (Rabs k * Rabs k = k * k) by (rewrite <- Rabs_mult; apply Rabs_right; nra). nra.
Qed.
Lemma lin_bounded m n : forall F, linmap m n F -> exists c, 0 <= c /\ forall x, length x = n -> vnorm (F x) <= c * vnorm x.
Proof.
  induction n as [|n IH]; intros F LF.
  - exists 0. split; [lra|]. intros x Hx. destruct x; [|discriminate]. pose proof (lin_zero m 0 F LF) as Z. change (vzero 0 : list R) with (@nil R) in Z. rewrite Z, zero_norm. lra.
  - pose proof (vzero_length (T := R) n) as Lz. destruct LF as (LF & HF). assert (Lc : forall a (y : list R), length y = n -> length (a :: y) = S n) by (intros; cbn; lia).
    destruct (IH (fun y => F (0 :: y))) as (c & Hc & Hb).
    { split; [intros x Hx; apply LF, Lc; auto|]. intros x y t Hx Hy. rewrite <- HF by auto. f_equal. rewrite vscale_cons, vadd_cons. f_equal. ring. }
    exists (c + vnorm (F (1 :: vzero n))). pose proof (norm_pos (F (1 :: vzero n))) as Pp. split; [lra|]. intros [|a y] Hx; [discriminate|]. injection Hx as Hx.
    assert (E : a :: y = vadd (0 :: y) (vscale a (1 :: vzero n))). { rewrite vscale_cons, vadd_cons. f_equal; [ring|]. apply (nth_ext' _ _ 0); [rewrite vadd_length; rewrite ?vscale_length; congruence|]. intros i _. rewrite nth_vadd, nth_vscale, nth_zero by (rewrite vscale_length; congruence). ring. }
    assert (Na : Rabs a <= vnorm (a :: y)) by (pose proof (comp_le_norm (a :: y) 0); auto).
    assert (Ny : vnorm y <= vnorm (a :: y)). { apply norm_le_of; [apply norm_pos|]. destruct (vnorm_sq (a :: y)) as (_ & ->). rewrite sumsq_cons. nra. }
    rewrite E at 1. rewrite HF by auto. eapply Rle_trans; [apply norm_add; rewrite vscale_length, !LF; auto|]. rewrite norm_scale. specialize (Hb y Hx). cbv beta in Hb.
    assert (c * vnorm y <= c * vnorm (a :: y)) by (apply Rmult_le_compat_l; auto). assert (Rabs a * vnorm (F (1 :: vzero n)) <= vnorm (a :: y) * vnorm (F (1 :: vzero n))) by (apply Rmult_le_compat_r; auto). lra.
Qed.
Lemma lin_sub m n F x y : linmap m n F -> length x = n -> length y = n -> F (vsub x y) = vsub (F x) (F y).
Proof.
  intros (LF & HF) Hx Hy. assert (E : forall u v : list R, length u = length v -> vsub u v = vadd u (vscale (-1) v)).
  { intros u v H. apply (nth_ext' _ _ 0); [rewrite vsub_length, vadd_length; rewrite ?vscale_length; congruence|]. intros i _. rewrite nth_vsub, nth_vadd, nth_vscale by (rewrite ?vscale_length; congruence). ring. }
  rewrite !E by (rewrite ?LF; congruence). apply HF; auto.
Qed.

Lemma wl_lin n : noise_ok n -> linmap (noise_dim n) (noise_dim n) (wl (base n)).
Proof.
  intros Hn. pose proof (base_linear n) as BL. pose proof (base_ok n Hn) as BO. pose proof (base_dim n) as BD. split.
  - intros x Hx. rewrite <- BD. apply wl_ok; congruence.
  - intros x y t Hx Hy. rewrite wl_add, wl_scale; rewrite ?vscale_length; auto; congruence.
Qed.
Lemma base_informative n : informative n -> informative (base n).
Proof. induction n as [| |w IH d]; cbn [base]; auto. intros (H & _). auto. Qed.
Lemma wl_injective n r : noise_ok n -> informative n -> length r = noise_dim n -> wl (base n) r = vzero (noise_dim n) -> r = vzero (noise_dim n).
Proof.
  intros Hn Hi Hr H. pose proof (base_ok n Hn) as BO. pose proof (base_dim n) as BD. destruct (wl_ok (base n) r BO) as (E & _); [congruence|].
  destruct (whiten_zero (base n) r _ BO (base_informative n Hi) ltac:(congruence) E) as (_ & H'). rewrite BD in H'. apply H'. auto.
Qed.
Lemma huber_near n : noise_ok n -> informative n -> exists t, 0 < t /\ (forall r, length r = noise_dim n -> vnorm (wl (base n) r) < t -> alpha n r = 1) /\ forall x, x < t -> beta n x = 1.
Proof.
  induction n as [W|d|n IH delta]; intros Hn Hi; try (exists 1; split; [lra|]; split; auto; fail).
  destruct Hn as (Hok & Ha & Hs). destruct Hi as (Hi & dl & Hd & Hpos). destruct (IH Hok Hi) as (t & Ht & HA & HB). exists (Rmin t dl). split; [apply Rmin_pos; auto|].
  assert (Sh : forall x, x < dl -> shrink delta x = 1).
  { intros x Hx. unfold shrink. replace (scalar delta) with (Ok dl) by (unfold scalar; rewrite Hs, Hd; reflexivity). cbn [PJac.unwrap]. destruct (nltb x dl) eqn:E; auto. apply Rltb_no in E. lra. }
  split.
  - intros r Hr Hw. cbn [noise_dim base] in *. cbn [alpha]. assert (Hw1 : vnorm (wl (base n) r) < t) by (eapply Rlt_le_trans; [exact Hw | apply Rmin_l]). rewrite (HA r Hr Hw1), vscale_one.
    rewrite Sh by (eapply Rlt_le_trans; [exact Hw | apply Rmin_r]). ring.
  - intros x Hx. cbn [beta]. rewrite HB by (eapply Rlt_le_trans; [exact Hx | apply Rmin_l]). rewrite Sh by (eapply Rlt_le_trans; [exact Hx | apply Rmin_r]). ring.
Qed.

Definition linf (E : env R) (val : var -> pytree R) (f : factor R) (eta : var -> list R) : list R :=
  wl (base (f_noise f)) (pushed (residual_dim f) (f_vars f) (jacobians_at E val f) eta).
Definition resf (E : env R) (val : var -> pytree R) (f : factor R) : list R := wl (base (f_noise f)) (residual_at E val f).

Lemma in_one (f : factor R) v : In v (mentioned [f]) -> In v (f_vars f).
Proof. intros H. apply mentioned_in in H. destruct H as (h & [<-|[]] & H). auto. Qed.

Section Factor.
Variable groups : vty -> lie_ops R (list R).
Let E := pose_env groups.
Variable z : var -> pytree R.
Variable f : factor R.
Hypothesis Hf : pose_factor groups f.
Hypothesis Hk : forall v, In v (f_vars f) -> PZero.known (groups (v_ty v)).
Hypothesis Hu : unit_measurement groups f.
Hypothesis Hm : measured groups z f.
Hypothesis Hz : forall v, In v (f_vars f) -> pose_value groups (v_ty v) (z v) /\ unit_pose (groups (v_ty v)) (params (z v)).
Notation dimv v := (lg_dim (groups (v_ty v))).
Definition sized (eta : var -> list R) : Prop := forall v, In v (f_vars f) -> length (eta v) = dimv v.
Definition bounded (eta : var -> list R) (r : R) : Prop := forall v, In v (f_vars f) -> vnorm (eta v) <= r.
Definition placed (e : var -> list R) (val : var -> pytree R) : Prop :=
  forall v, In v (f_vars f) -> val v = group_value (v_ty v) (lie_retract (groups (v_ty v)) (params (z v)) (e v)).
Notation push val eta := (pushed (residual_dim f) (f_vars f) (jacobians_at E val f) eta).

Lemma some_var : exists v, In v (f_vars f). 
Proof. clear - Hf. destruct Hf as [v mu n Hmu Hn Hd|va vb Tab n h Hbt Htab Hn Hd]; [exists v; left; auto|]. apply between_inv in Hbt. destruct Hbt as (_ & ->). exists va. left. auto. Qed.
Lemma bounded_pos eta r : bounded eta r -> 0 <= r.
Proof. intros H. destruct some_var as (v & Hv). eapply Rle_trans; [apply norm_pos | apply (H v Hv)]. Qed.

Lemma factor_near : exists K d, 0 <= K /\ 0 < d /\ forall e val r, sized e -> bounded e r -> r <= d -> placed e val ->
  vnorm (vsub (residual_at E val f) (push val e)) <= K * (r * r) /\
  (forall eta s, sized eta -> bounded eta s -> vnorm (vsub (push val eta) (push z eta)) <= K * r * s).
Proof.
  assert (Hs : forall t x, pose_value groups t x -> sized_pose (groups t) (params x)).
  { intros t x (p & -> & Hp). rewrite params_value. exact Hp. }
  pose proof bounded_pos as Bpos. unfold sized, bounded, placed in *. revert Bpos Hk Hu Hm Hz. destruct Hf as [v mu n Hmu Hn Hd|va vb Tab n h Hbt Htab Hn Hd]; intros Bpos Hk' Hu' Hm' Hz'.
  - destruct (Hz' v) as (Lv & Uv); [cbn; auto|]. pose proof (Hk' v (or_introl eq_refl)) as Kv. assert (Um : unit_pose (groups (v_ty v)) (params mu)) by (apply (Hu' v mu); cbn; auto).
    assert (Hm2 : same_pose (groups (v_ty v)) (params (z v)) (params mu)) by exact Hm'.
    destruct (prior_near _ Kv (params mu) (params (z v)) (conj (Hs _ _ Hmu) Um) (conj (Hs _ _ Lv) Uv) Hm2) as (K & d & HK & Hd0 & HN).
    exists K, d. split; auto. split; auto. intros e val r Le Be Hr Hp. pose proof (Le v (or_introl eq_refl)) as Lev. pose proof (Be v (or_introl eq_refl)) as Bev.
    pose proof (Hp v (or_introl eq_refl)) as Ev. unfold residual_dim. cbn [prior_make f_noise]. rewrite Hd.
    change (vnorm (vsub (prior_residual (groups (v_ty v)) (params mu) (params (val v))) (vadd (mvec (neg_eye (dimv v)) (e v)) (vzero (dimv v)))) <= K * (r * r) /\
      forall eta s, (forall v0, In v0 [v] -> length (eta v0) = dimv v0) -> (forall v0, In v0 [v] -> vnorm (eta v0) <= s) ->
        vnorm (vsub (vadd (mvec (neg_eye (dimv v)) (eta v)) (vzero (dimv v))) (vadd (mvec (neg_eye (dimv v)) (eta v)) (vzero (dimv v)))) <= K * r * s).
    assert (Pr : 0 <= r) by (eapply Rle_trans; [apply norm_pos | exact Bev]). rewrite Ev, params_value. rewrite !add_zero_r by (rewrite neg_eye_mvec, vneg_length; auto). rewrite neg_eye_mvec by auto. split; [apply HN; auto|].
    intros eta s Leta Beta. assert (Ps : 0 <= s) by (eapply Rle_trans; [apply norm_pos | apply (Beta v (or_introl eq_refl))]).
    rewrite vsub_self || idtac. set (w := vadd _ _).
    replace (vsub w w) with (vzero (length w) : list R); [rewrite zero_norm; repeat apply Rmult_le_pos; auto|].
    apply (nth_ext' _ _ 0); [rewrite vsub_length, vzero_length; auto|]. intros i _. rewrite nth_vsub, nth_zero by auto. ring.
  - pose proof (between_inv va vb Tab n h Hbt) as (Ht & ->). destruct (Hz' va) as (La & Ua); [cbn; auto|]. destruct (Hz' vb) as (Lb & Ub); [cbn; auto|].
    pose proof (Hk' va (or_introl eq_refl)) as Ka. assert (Ut : unit_pose (groups (v_ty va)) (params Tab)) by (apply (Hu' va Tab); cbn; auto).
    assert (Hm2 : same_pose (groups (v_ty va)) (lg_mul (groups (v_ty va)) (params (z va)) (params Tab)) (params (z vb))) by exact Hm'.
    apply Hs in Lb. rewrite <- Ht in Lb, Ub.
    destruct (between_near _ Ka (params Tab) (params (z va)) (params (z vb)) (conj (Hs _ _ Htab) Ut) (conj (Hs _ _ La) Ua) (conj Lb Ub) Hm2) as (K & d & HK & Hd0 & HN).
    exists K, d. split; auto. split; auto. intros e val r Le Be Hr Hp. pose proof (Le va (or_introl eq_refl)) as Lea. pose proof (Be va (or_introl eq_refl)) as Bea. pose proof (Le vb (or_intror (or_introl eq_refl))) as Leb. pose proof (Be vb (or_intror (or_introl eq_refl))) as Beb.
    pose proof (Hp va (or_introl eq_refl)) as Ea. pose proof (Hp vb (or_intror (or_introl eq_refl))) as Eb. rewrite <- Ht in Leb, Eb. unfold residual_dim. cbn [f_noise]. rewrite Hd.
    set (raw := groups (v_ty va)) in *. set (nn := lg_dim raw) in *.
    change (vnorm (vsub (between_residual raw (params Tab) (params (val va)) (params (val vb)))
        (vadd (mvec (lg_adj raw (lg_inv raw (lg_mul raw (lg_inv raw (params (val va))) (params (val vb))))) (e va)) (vadd (mvec (neg_eye nn) (e vb)) (vzero nn)))) <= K * (r * r) /\
      forall eta s, (forall v0, In v0 [va; vb] -> length (eta v0) = dimv v0) -> (forall v0, In v0 [va; vb] -> vnorm (eta v0) <= s) ->
        vnorm (vsub (vadd (mvec (lg_adj raw (lg_inv raw (lg_mul raw (lg_inv raw (params (val va))) (params (val vb))))) (eta va)) (vadd (mvec (neg_eye nn) (eta vb)) (vzero nn)))
          (vadd (mvec (lg_adj raw (lg_inv raw (lg_mul raw (lg_inv raw (params (z va))) (params (z vb))))) (eta va)) (vadd (mvec (neg_eye nn) (eta vb)) (vzero nn)))) <= K * r * s).
    rewrite Ea, Eb, !params_value. destruct (HN (e va) (e vb) r Lea Leb Bea Beb Hr) as (H1 & H2). split.
    + rewrite neg_eye_mvec by auto. rewrite add_zero_r by (rewrite vneg_length; auto). rewrite add_neg. exact H1.
    + intros eta s Leta Beta. pose proof (Leta va (or_introl eq_refl)) as Lta. pose proof (Leta vb (or_intror (or_introl eq_refl))) as Ltb. rewrite <- Ht in Ltb. change (length (eta vb) = nn) in Ltb. change (length (eta va) = nn) in Lta. pose proof (Beta va (or_introl eq_refl)) as Bta.
      rewrite neg_eye_mvec by auto. rewrite add_zero_r by (rewrite vneg_length; auto). rewrite !add_neg.
      rewrite sub_sub by (rewrite k_adj_length by auto; auto). eapply Rle_trans; [apply H2; auto|]. assert (Pr : 0 <= r) by (eapply Rle_trans; [apply norm_pos | exact Bea]). apply Rmult_le_compat_l; auto. apply Rmult_le_pos; auto.
Qed.

Lemma placed_legal e val : placed e val -> forall v, In v (mentioned [f]) -> value_ok (e_cls E (v_ty v)) (val v).
Proof.
  intros H v Hv. apply in_one in Hv. rewrite (H v Hv). apply pose_value_ok. eexists. split; [reflexivity|]. apply retract_dim. apply Hk; auto.
Qed.
Lemma z_legal : forall v, In v (mentioned [f]) -> value_ok (e_cls E (v_ty v)) (z v).
Proof. intros v Hv. apply in_one in Hv. apply pose_value_ok. apply Hz; auto. Qed.
Lemma shaped1 : well_shaped E [f].
Proof. apply pose_shaped; [intros h [<-|[]]; auto|]. intros v Hv. apply in_one in Hv. apply Hk; auto. Qed.
Lemma ok1 : factor_ok f. Proof. apply (pose_factor_ok groups f Hf). Qed.

Lemma push_bounded : exists C, 0 <= C /\ forall eta s, 0 <= s -> sized eta -> bounded eta s -> vnorm (push z eta) <= C * s.
Proof.
  pose proof (ws_jacobian E [f] shaped1 z f z_legal (or_introl eq_refl)) as HJ. unfold jacobian_shape_ok in HJ. unfold sized, bounded.
  revert HJ. generalize (residual_dim f) (jacobians_at E z f) (f_vars f). intros rd Js vs HJ. induction HJ as [|v J vs Js (H1 & H2) HJ (C & HC & IH)].
  - exists 0. split; [lra|]. intros. change (pushed rd [] [] eta) with (vzero rd : list R). rewrite zero_norm. lra.
  - destruct (mvec_bound _ J H2) as (c & Hc & Hb). exists (c + C). split; [lra|]. intros eta s Ps He Hs.
    assert (L1 : length (mvec J (eta v)) = rd) by (rewrite mvec_length; auto). assert (L2 : length (pushed rd vs Js eta) = rd) by (apply (pushed_len E); auto).
    change (pushed rd (v :: vs) (J :: Js) eta) with (vadd (mvec J (eta v)) (pushed rd vs Js eta)).
    eapply Rle_trans; [apply norm_add; congruence|]. pose proof (Hb (eta v) (He v (or_introl eq_refl))) as B1. pose proof (Hs v (or_introl eq_refl)) as B2.
    assert (c * vnorm (eta v) <= c * s) by (apply Rmult_le_compat_l; auto). pose proof (IH eta s Ps (fun u Hu0 => He u (or_intror Hu0)) (fun u Hu0 => Hs u (or_intror Hu0))). lra.
Qed.
Lemma push_len val eta : (forall v, In v (mentioned [f]) -> value_ok (e_cls E (v_ty v)) (val v)) -> length (push val eta) = residual_dim f.
Proof. intros Hv. apply (pushed_len E). apply (ws_jacobian E [f] shaped1 val f Hv (or_introl eq_refl)). Qed.
Lemma res_len val : (forall v, In v (mentioned [f]) -> value_ok (e_cls E (v_ty v)) (val v)) -> length (residual_at E val f) = residual_dim f.
Proof. intros Hv. apply (ws_residual E [f] shaped1 val f Hv (or_introl eq_refl)). Qed.
Lemma linf_length val eta : (forall v, In v (mentioned [f]) -> value_ok (e_cls E (v_ty v)) (val v)) -> length (linf E val f eta) = residual_dim f.
Proof. intros Hv. apply (wl_lin (f_noise f)); [apply ok1|]. apply push_len; auto. Qed.
Lemma resf_length val : (forall v, In v (mentioned [f]) -> value_ok (e_cls E (v_ty v)) (val v)) -> length (resf E val f) = residual_dim f.
Proof. intros Hv. apply (wl_lin (f_noise f)); [apply ok1|]. apply res_len; auto. Qed.
Lemma linf_move val xi nu t : (forall v, In v (mentioned [f]) -> value_ok (e_cls E (v_ty v)) (val v)) -> sized xi -> sized nu ->
  linf E val f (fun v => vadd (xi v) (vscale t (nu v))) = vadd (linf E val f xi) (vscale t (linf E val f nu)).
Proof.
  intros Hv Hx Hn. unfold linf. rewrite (pushed_move (e_cls E)) by (auto; apply (ws_jacobian E [f] shaped1 val f Hv (or_introl eq_refl))).
  apply (wl_lin (f_noise f)); [apply ok1 | |]; apply push_len; auto.
Qed.

Hypothesis Hi : informative (f_noise f).
Lemma whitened_near : exists K d, 0 <= K /\ 0 < d /\ forall e val r, sized e -> bounded e r -> r <= d -> placed e val ->
  (whitened_at E val f = Ok (resf E val f) /\ forall eta, sized eta -> model_at E val val eta f = sumsq (vadd (linf E val f eta) (resf E val f))) /\
  vnorm (vsub (resf E val f) (linf E val f e)) <= K * (r * r) /\
  (forall eta s, sized eta -> bounded eta s -> vnorm (vsub (linf E val f eta) (linf E z f eta)) <= K * r * s).
Proof.
  destruct factor_near as (K & d & HK & Hd & HN). destruct push_bounded as (C & HC & HP). pose proof ok1 as (Hn & _). pose proof (wl_lin (f_noise f) Hn) as WL.
  destruct (lin_bounded _ _ _ WL) as (c & Hc & HW). destruct (huber_near (f_noise f) Hn Hi) as (t & Ht & HA & HB).
  set (C1 := c * (2 * K + C)). assert (HC1 : 0 <= C1) by (apply Rmult_le_pos; lra).
  exists (c * K), (Rmin (Rmin 1 d) (t / (2 * (C1 + 1)))). split; [apply Rmult_le_pos; auto|]. assert (Hdt : 0 < t / (2 * (C1 + 1))) by (apply Rdiv_lt_0_compat; lra).
  split; [repeat apply Rmin_pos; auto; lra|]. intros e val r He Be Hr Hp. pose proof (bounded_pos e r Be) as Pr.
  assert (R1 : r <= 1) by (eapply Rle_trans; [exact Hr|]; eapply Rle_trans; [apply Rmin_l|apply Rmin_l]).
  assert (R2 : r <= d) by (eapply Rle_trans; [exact Hr|]; eapply Rle_trans; [apply Rmin_l|apply Rmin_r]).
  assert (R3 : r <= t / (2 * (C1 + 1))) by (eapply Rle_trans; [exact Hr|]; apply Rmin_r).
  destruct (HN e val r He Be R2 Hp) as (H1 & H2). pose proof (placed_legal e val Hp) as Lv. pose proof z_legal as Lz.
  pose proof (res_len val Lv) as L1. assert (L2 : forall eta, length (push val eta) = residual_dim f) by (intros; apply push_len; auto). assert (L3 : forall eta, length (push z eta) = residual_dim f) by (intros; apply push_len; auto).
  unfold residual_dim in *. split; [|split].
  - assert (Hsm : vnorm (wl (base (f_noise f)) (residual_at E val f)) < t).
    { eapply Rle_lt_trans; [apply HW; auto|]. assert (B1 : vnorm (residual_at E val f) <= K * (r * r) + (K * r * r + C * r)).
      { eapply Rle_trans; [apply (norm_split _ (pushed (noise_dim (f_noise f)) (f_vars f) (jacobians_at E val f) e)); rewrite L2; auto|]. apply Rplus_le_compat; auto.
        eapply Rle_trans; [apply (norm_split _ (pushed (noise_dim (f_noise f)) (f_vars f) (jacobians_at E z f) e)); rewrite L2, L3; auto|]. apply Rplus_le_compat; [apply H2; auto | apply HP; auto]. }
      assert (B2 : K * (r * r) <= K * r) by (apply Rmult_le_compat_l; auto; nra). assert (B3 : vnorm (residual_at E val f) <= (2 * K + C) * r) by lra.
      assert (B4 : c * vnorm (residual_at E val f) <= C1 * r) by (unfold C1; rewrite Rmult_assoc; apply Rmult_le_compat_l; auto).
      eapply Rle_lt_trans; [exact B4|]. assert (B5 : C1 * r <= C1 * (t / (2 * (C1 + 1)))) by (apply Rmult_le_compat_l; auto). eapply Rle_lt_trans; [exact B5|].
      apply (Rmult_lt_reg_r (2 * (C1 + 1))); [lra|]. replace (C1 * (t / (2 * (C1 + 1))) * (2 * (C1 + 1))) with (C1 * t) by (field; lra). nra. }
    split; [unfold whitened_at; rewrite white_res, (HA _ L1 Hsm), vscale_one by auto; reflexivity|].
    intros eta Heta. rewrite (model_formula E val val eta f); auto; [|apply ok1 | apply (ws_jacobian E [f] shaped1 val f Lv (or_introl eq_refl))].
    rewrite (HA _ L1 Hsm), vscale_one, (HB _ Hsm). unfold mixed. rewrite !vscale_one. f_equal. unfold residual_dim. apply wl_add; [apply base_linear | apply base_ok; auto | rewrite base_dim; auto | rewrite base_dim; auto].
  - unfold resf, linf. rewrite <- (lin_sub _ _ _ _ _ WL) by (auto; apply L2). eapply Rle_trans; [apply HW; rewrite vsub_length; rewrite ?L1; symmetry; apply L2 || auto|]. rewrite Rmult_assoc. apply Rmult_le_compat_l; auto.
  - intros eta s Le Bs. unfold linf. rewrite <- (lin_sub _ _ _ _ _ WL) by (apply L2 || apply L3). eapply Rle_trans; [apply HW; rewrite vsub_length; [apply L2|]; rewrite L3; apply L2|].
    rewrite !Rmult_assoc. apply Rmult_le_compat_l; auto. rewrite <- Rmult_assoc. apply H2; auto.
Qed.
End Factor.
