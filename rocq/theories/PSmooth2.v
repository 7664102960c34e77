(* One factor given by programs, near an exact fit. *)
From Coq Require Import List Arith Bool Lia ZArith Reals Lra.
From Verif Require Import Num NumR Py Arr MLayout MAssign MNoise MSparse MFactor MGraph MLinear MSolver MAuto MDual SpecLayout SpecTree SpecAssign SpecGraph SpecDeriv SpecOrder SpecInv SpecAuto SpecDual SpecTwin SpecSmooth.
From Verif Require Import PBase PTree PVec PSolverR PAuto PDeriv PAutoR PDual PDual2 PLayout PAssign PGraph PExGraph PExAuto PExDual PHold PTwin2 PBasin4 PBasin5 PBasin6 PBasin7 PSmooth.
Import ListNotations.
Local Open Scope R_scope.

Lemma uniform {A} (P : A -> R -> R -> Prop) l : (forall a r B r' B', P a r B -> 0 < r' -> r' <= r -> B <= B' -> P a r' B') ->
  (forall a, In a l -> exists r B, 0 < r /\ 0 <= B /\ P a r B) -> exists r B, 0 < r /\ 0 <= B /\ forall a, In a l -> P a r B.
Proof.
  intros Hm. induction l as [|a l IH]; intros H.
  - exists 1, 0. split; [lra|]. split; [lra|]. intros a [].
  - destruct IH as (r1 & B1 & P1 & Q1 & H1); [intros; apply H; right; auto|]. destruct (H a (or_introl eq_refl)) as (r2 & B2 & P2 & Q2 & H2).
    exists (Rmin r1 r2), (B1 + B2). assert (Pm : 0 < Rmin r1 r2) by (apply Rmin_pos; auto). split; auto. split; [lra|]. intros b [<-|Hb].
    + eapply Hm; [exact H2 | auto | apply Rmin_r | lra].
    + eapply Hm; [apply H1; exact Hb | auto | apply Rmin_l | lra].
Qed.
Lemma thresholds_near n : noise_ok n -> positive_thresholds n -> exists t, 0 < t /\ (forall r, length r = noise_dim n -> vnorm (wl (base n) r) < t -> alpha n r = 1) /\ forall x, x < t -> beta n x = 1.
Proof.
  induction n as [W|d|n IH delta]; intros Hn Hi; try (exists 1; split; [lra|]; split; auto; fail).
  destruct Hn as (Hok & Ha & Hs). destruct Hi as (Hi & dl & Hd & Hpos). destruct (IH Hok Hi) as (t & Ht & HA & HB). exists (Rmin t dl). split; [apply Rmin_pos; auto|].
  assert (Sh : forall x, x < dl -> shrink delta x = 1).
  { intros x Hx. unfold shrink. replace (MNoise.scalar delta) with (Ok dl) by (unfold MNoise.scalar; rewrite Hs, Hd; reflexivity). cbn [PJac.unwrap]. destruct (nltb x dl) eqn:E; auto. apply Rltb_no in E. lra. }
  split.
  - intros r Hr Hw. cbn [noise_dim base] in *. cbn [alpha]. assert (Hw1 : vnorm (wl (base n) r) < t) by (eapply Rlt_le_trans; [exact Hw | apply Rmin_l]). rewrite (HA r Hr Hw1), vscale_one.
    rewrite Sh by (eapply Rlt_le_trans; [exact Hw | apply Rmin_r]). ring.
  - intros x Hx. cbn [beta]. rewrite HB by (eapply Rlt_le_trans; [exact Hx | apply Rmin_l]). rewrite Sh by (eapply Rlt_le_trans; [exact Hx | apply Rmin_r]). ring.
Qed.
Lemma vderiv_unique F d d' : vderiv F d -> vderiv F d' -> d = d'.
Proof.
  intros (L1 & D1) (L2 & D2). apply (nth_ext' _ _ 0); [rewrite <- (L1 0), <- (L2 0); auto|]. intros i _. eapply uniqueness_limite; [apply D1 | apply D2].
Qed.

Section Factor.
Variable C : cenv (T := R).
Variable prog : nat -> list expr.
Notation E := (plain_programs C prog).
Hypothesis CO : classes_ok C.
Variable f : factor R.
Hypothesis Hprog : length (prog (f_cls f)) = residual_dim f.
Hypothesis Hrd : (0 < residual_dim f)%nat.
Hypothesis Hpl : forall v, In v (f_vars f) -> plain_class (C (v_ty v)) /\ (0 < param_dim (C (v_ty v)))%nat.
Definition fits (val : var -> pytree R) : Prop := forall v, In v (f_vars f) -> value_ok (C (v_ty v)) (val v).
Definition field (xi : var -> list R) : Prop := forall v, In v (f_vars f) -> length (xi v) = param_dim (C (v_ty v)).
Definition width : nat := list_sum (map (fun v => param_dim (C (v_ty v))) (f_vars f)).
Definition spread_out (xi : var -> list R) (k : nat) : R := nth k (flat_map xi (f_vars f)) 0.
Notation tot u := (vsum (map u (seq 0 width))).

Lemma ravel_dim v x : value_ok (C (v_ty v)) x -> length (ravel x) = param_dim (C (v_ty v)).
Proof. intros H. apply (flatten_length (C (v_ty v)) (CO _) x H). Qed.
Lemma field_width xi : field xi -> length (flat_map xi (f_vars f)) = width.
Proof.
  clear Hpl. unfold field, width. induction (f_vars f) as [|v l IH]; intros H; auto. cbn [flat_map map list_sum]. rewrite app_length, IH by (intros; apply H; right; auto). rewrite H by (left; auto). auto.
Qed.
Lemma fits_field val : fits val -> field (fun v => ravel (val v)).
Proof. intros H v Hv. apply ravel_dim. auto. Qed.
Lemma inputs_spread val k : inputs val f k = spread_out (fun v => ravel (val v)) k.
Proof. unfold inputs, spread_out, flat. rewrite map_map, <- flat_map_concat_map. auto. Qed.
Lemma inputs_beyond val k : fits val -> (width <= k)%nat -> inputs val f k = 0.
Proof. intros H Hk. rewrite inputs_spread. unfold spread_out. apply nth_overflow. rewrite field_width by (apply fits_field; auto). auto. Qed.
Lemma moved_inputs val val' xi : fits val -> field xi -> (forall v, In v (f_vars f) -> ravel (val' v) = vadd (ravel (val v)) (xi v)) -> forall k, inputs val' f k = inputs val f k + spread_out xi k.
Proof.
  intros Hf Hx Hv k. rewrite !inputs_spread. unfold spread_out. pose proof (fits_field val Hf) as Hfv. unfold field in *.
  assert (Hl : length (flat_map (fun v => ravel (val v)) (f_vars f)) = length (flat_map xi (f_vars f))) by (apply flat_len; intros v Hi; rewrite Hfv, Hx by auto; auto).
  rewrite <- nth_vadd by auto. rewrite flat_add by (intros v Hi; rewrite Hfv, Hx by auto; auto). f_equal. apply flat_ext. auto.
Qed.

Lemma factor_auto_ok val : fits val -> auto_ok E (forward real_funs C prog (fun t => add_prog (param_dim (C t)))) (anonymize f) (map val (f_vars f)).
Proof.
  intros Hf. apply program_auto_ok; auto. unfold fits in Hf. revert Hf Hpl. generalize (f_vars f). induction l as [|v l IH]; intros Hf Hp; cbn; constructor.
  - destruct (Hp v (or_introl eq_refl)) as (P1 & P2). split; [apply Hf; left; auto|]. split.
    + intros Hz. pose proof (ravel_dim v (val v) (Hf v (or_introl eq_refl))) as Hl. unfold ravel in Hl. rewrite Hz in Hl. cbn in Hl. lia.
    + rewrite plain_dims; auto.
  - apply IH; [intros; apply Hf | intros; apply Hp]; right; auto.
Qed.
Lemma factor_jacobians val : fits val -> default_jacobians E (forward real_funs C prog (fun t => add_prog (param_dim (C t)))) (anonymize f) (map val (f_vars f)) = Ok (jacobians_at E val f).
Proof. intros Hf. apply (auto_env_default C (prog_residual real_funs prog) (forward real_funs C prog (fun t => add_prog (param_dim (C t))))). apply factor_auto_ok. auto. Qed.
Lemma factor_shape val : fits val -> jacobian_shape_ok E val f.
Proof. intros Hf. eapply default_shapes; [apply factor_auto_ok; auto | apply factor_jacobians; auto]. Qed.
Lemma residual_rows val : residual_at E val f = map (denote (inputs val f) (fields f)) (prog (f_cls f)).
Proof. unfold residual_at. cbn. unfold prog_residual. cbn. apply map_ext. intros e. apply eval_denote. Qed.

(* the Jacobian blocks, applied to a tangent *)
Lemma jacobian_rows val xi : fits val -> field xi -> (forall e, In e (prog (f_cls f)) -> smooth (inputs val f) (fields f) e) ->
  pushed (residual_dim f) (f_vars f) (jacobians_at E val f) xi =
  map (fun e => tot (fun k => jac_entry real_funs (inputs val f) (fields f) e k * spread_out xi k)) (prog (f_cls f)).
Proof.
  intros Hf Hx Hs.
  set (valt := fun t v => match retract (C (v_ty v)) (val v) (vscale t (xi v)) with Ok y => y | Err _ => val v end).
  assert (Hvt : forall t v, In v (f_vars f) -> retract (C (v_ty v)) (val v) (vscale t (xi v)) = Ok (valt t v) /\ value_ok (C (v_ty v)) (valt t v) /\ ravel (valt t v) = vadd (ravel (val v)) (vscale t (xi v))).
  { intros t v Hv. destruct (Hpl v Hv) as (P1 & P2). destruct (plain_retract (C (v_ty v)) P1 (CO _) (val v) (vscale t (xi v)) (Hf v Hv)) as (y & Ey & Hy & Hr); [rewrite vscale_length, plain_dims by auto; apply Hx; auto|].
    unfold valt. rewrite Ey. auto. }
  pose proof (factor_auto_ok val Hf) as Hauto. pose proof (factor_jacobians val Hf) as HJ.
  assert (D1 : vderiv (fun t => e_res E (anonymize f) (map (valt t) (f_vars f))) (pushed (residual_dim f) (f_vars f) (jacobians_at E val f) xi)).
  { apply (factor_derivative E (forward real_funs C prog (fun t => add_prog (param_dim (C t)))) (anonymize f) (f_vars f) val valt xi); auto.
    - cbn [fd_noise anonymize]. fold (residual_dim f). rewrite <- Hprog. apply (prog_derivative C prog (anonymize f) (map val (f_vars f))).
      + cbn [fd_types anonymize]. unfold fits in Hf. clear - Hf. induction (f_vars f) as [|v l IH]; cbn; constructor; [apply Hf; left; auto | apply IH; intros; apply Hf; right; auto].
      + exact Hs.
    - intros v Hv. destruct (Hpl v Hv) as (P1 & P2). destruct (plain_retracts (C (v_ty v)) P1 (CO _)) as (H1 & H2). destruct (H2 (val v) (Hf v Hv)) as (H3 & H4).
      apply (prog_retract C (fun t => add_prog (param_dim (C t))) (v_ty v) (val v)); auto.
    - intros v Hv. destruct (Hpl v Hv) as (P1 & P2). change (e_cls E) with C. rewrite plain_dims by auto. auto.
    - intros t v Hv. destruct (Hvt t v Hv) as (A1 & A2 & _). auto. }
  eapply vderiv_unique; [exact D1|]. split.
  - intros t. cbn. unfold prog_residual. rewrite !map_length. auto.
  - intros i. destruct (Nat.lt_ge_cases i (length (prog (f_cls f)))) as [Hi|Hi].
    + rewrite (nth_map' _ _ i 0 (Lit 0 1)) by auto. assert (Hin : In (nth i (prog (f_cls f)) (Lit 0 1)) (prog (f_cls f))) by (apply nth_In; auto).
      set (e := nth i (prog (f_cls f)) (Lit 0 1)) in *.
      pose proof (d_line width (inputs val f) (fun y => denote y (fields f) e) (jac_entry real_funs (inputs val f) (fields f) e) (flat_map xi (f_vars f))
        (entry_diffable width (inputs val f) (fields f) e (Hs e Hin)) (field_width xi Hx) (fun k Hk => inputs_beyond val k Hf Hk)) as HD.
      eapply derivable_pt_lim_ext; [|exact HD]. intros t. cbv beta. change (e_res E (anonymize f) (map (valt t) (f_vars f))) with (residual_at E (valt t) f).
      rewrite residual_rows. rewrite (nth_map' _ _ i 0 (Lit 0 1)) by auto. fold e. 
      assert (Hin' : forall k, inputs val f k + t * nth k (flat_map xi (f_vars f)) 0 = inputs (valt t) f k).
      { intros k. rewrite (moved_inputs val (valt t) (fun v => vscale t (xi v))); auto.
        - f_equal. unfold spread_out. rewrite <- flat_scale, nth_vscale. auto.
        - intros v Hv. rewrite vscale_length. auto.
        - intros v Hv. apply Hvt; auto. }
      clear - Hin'. induction e; cbn; rewrite ?IHe, ?IHe1, ?IHe2; auto.
    + rewrite nth_overflow by (rewrite map_length; auto). eapply derivable_pt_lim_ext; [|apply (derivable_pt_lim_const 0)]. intros t. unfold fct_cte. symmetry. apply nth_overflow. cbn. unfold prog_residual. rewrite map_length. auto.
Qed.

(* the size of a tangent bounds its entries *)
Definition within (xi : var -> list R) (s : R) : Prop := 0 <= s /\ forall v x, In v (f_vars f) -> In x (xi v) -> Rabs x <= s.
Lemma within_entry xi s k : within xi s -> Rabs (spread_out xi k) <= s.
Proof.
  intros (Hs & H). unfold spread_out. destruct (nth_in_or_default k (flat_map xi (f_vars f)) 0) as [Hi| ->]; [|rewrite Rabs_R0; auto].
  apply in_flat_map in Hi. destruct Hi as (v & Hv & Hi). apply (H v); auto.
Qed.
Lemma within_tot xi s : within xi s -> tot (fun k => Rabs (spread_out xi k)) <= INR width * s.
Proof.
  intros H. replace (INR width * s) with (tot (fun _ : nat => s)) by (rewrite vsum_const, seq_length; auto). apply vsum_le. intros k _. apply within_entry. auto.
Qed.

Variable z : var -> pytree R.
Hypothesis Hz : fits z.
Hypothesis Hfit : forall e, In e (prog (f_cls f)) -> smooth (inputs z f) (fields f) e /\ denote (inputs z f) (fields f) e = 0.
(* val is z minus e *)
Definition off_by (e : var -> list R) (val : var -> pytree R) : Prop := fits val /\ field e /\ forall v, In v (f_vars f) -> ravel (z v) = vadd (ravel (val v)) (e v).
Notation push val xi := (pushed (residual_dim f) (f_vars f) (jacobians_at E val f) xi).

Lemma off_inputs e val k : off_by e val -> inputs val f k - inputs z f k = - spread_out e k.
Proof. intros (H1 & H2 & H3). rewrite (moved_inputs val z e H1 H2 H3 k). ring. Qed.
Lemma off_near e val s r : off_by e val -> within e s -> s < r -> near width (inputs z f) r (inputs val f).
Proof.
  intros Ho Hw Hs. split.
  - intros k. rewrite (off_inputs e val k Ho), Rabs_Ropp. pose proof (within_entry e s k Hw). lra.
  - intros k Hk. pose proof (off_inputs e val k Ho) as H. rewrite (inputs_beyond val k), (inputs_beyond z k) in * by (auto; apply Ho). auto.
Qed.
Lemma off_tot e val s : off_by e val -> within e s -> tot (fun k => Rabs (inputs val f k - inputs z f k)) <= INR width * s.
Proof.
  intros Ho Hw. rewrite (vsum_map_ext _ (fun k => Rabs (spread_out e k))); [apply within_tot; auto|]. intros k _. rewrite (off_inputs e val k Ho), Rabs_Ropp. auto.
Qed.

Lemma program_near : exists r B, 0 < r /\ 0 <= B /\ forall e val s, off_by e val -> within e s -> s < r ->
  (forall p, In p (prog (f_cls f)) -> smooth (inputs val f) (fields f) p) /\
  forall i, Rabs (nth i (vadd (push val e) (residual_at E val f)) 0) <= B * (s * s) /\
    (forall xi t, field xi -> within xi t -> Rabs (nth i (vsub (push val xi) (push z xi)) 0) <= B * s * t /\ Rabs (nth i (push z xi) 0) <= B * t).
Proof.
  set (D := fun p val k => jac_entry real_funs (inputs val f) (fields f) p k).
  destruct (uniform (fun p r B => forall e val s, off_by e val -> within e s -> s < r -> smooth (inputs val f) (fields f) p /\
      Rabs (tot (fun k => D p val k * spread_out e k) + denote (inputs val f) (fields f) p) <= B * (s * s) /\
      forall xi t, within xi t -> Rabs (tot (fun k => D p val k * spread_out xi k) - tot (fun k => D p z k * spread_out xi k)) <= B * s * t /\
        Rabs (tot (fun k => D p z k * spread_out xi k)) <= B * t) (prog (f_cls f))) as (r & B & Pr & PB & H).
  - intros p r B r' B' H Hr' Hr HB e val s Ho Hw Hs. destruct (H e val s Ho Hw ltac:(lra)) as (H1 & H2 & H3). assert (S0 : 0 <= s) by apply Hw. split; auto. split.
    + eapply Rle_trans; [exact H2|]. apply Rmult_le_compat_r; auto. apply Rmult_le_pos; auto.
    + intros xi t Ht. destruct (H3 xi t Ht) as (H4 & H5). assert (T0 : 0 <= t) by apply Ht. split.
      * eapply Rle_trans; [exact H4|]. apply Rmult_le_compat_r; auto. apply Rmult_le_compat_r; auto.
      * eapply Rle_trans; [exact H5|]. apply Rmult_le_compat_r; auto.
  - intros p Hp. destruct (Hfit p Hp) as (Hsm & H0). destruct (entry_tame width (inputs z f) (fields f) p Hsm) as ((d & Pd & Hd) & (r & B & Pr & PB & HB)).
    pose proof (pos_INR width) as Pw. set (W := INR width) in *. set (G := tot (fun k => Rabs (D p z k))).
    assert (HG : 0 <= G) by (apply vsum_nonneg; intros y Hy; apply in_map_iff in Hy; destruct Hy as (k & <- & _); apply Rabs_pos).
    exists (Rmin d r), (B * (W * W) + G * W). split; [apply Rmin_pos; auto|]. assert (B1 : 0 <= B * (W * W)) by (repeat apply Rmult_le_pos; auto). assert (B2 : 0 <= G * W) by (apply Rmult_le_pos; auto). split; [lra|].
    intros e val s Ho Hw Hs. assert (S0 : 0 <= s) by apply Hw. pose proof (off_tot e val s Ho Hw) as Ht. fold W in Ht.
    destruct (HB (inputs val f) (inputs z f)) as (_ & T2 & T3). { apply (near_le _ _ (Rmin d r)); [apply Rmin_r|]. apply (off_near e val s); auto. } { apply near_self; auto. }
    pose proof (tot_pos width (inputs z f) (inputs val f)) as Hp0. set (dd := tot (fun k => Rabs (inputs val f k - inputs z f k))) in *.
    split; [|split].
    + apply Hd. apply (near_le _ _ (Rmin d r)); [apply Rmin_l|]. apply (off_near e val s); auto.
    + rewrite (vsum_map_ext (fun k => D p val k * spread_out e k) (fun k => D p val k * (inputs z f k - inputs val f k))) by (intros k _; f_equal; pose proof (off_inputs e val k Ho); lra).
      rewrite H0 in T3. match goal with |- Rabs (?a + ?b) <= _ => replace (a + b) with (- (0 - b - a)) by ring end. rewrite Rabs_Ropp. eapply Rle_trans; [exact T3|].
      assert (dd * dd <= (W * s) * (W * s)) by (apply Rmult_le_compat; auto). assert (B * (dd * dd) <= B * ((W * s) * (W * s))) by (apply Rmult_le_compat_l; auto).
      assert (0 <= G * W * (s * s)) by (apply Rmult_le_pos; auto; apply Rmult_le_pos; auto). lra.
    + intros xi t Hxi. assert (T0 : 0 <= t) by apply Hxi. pose proof (within_tot xi t Hxi) as Hxt. fold W in Hxt.
      assert (X0 : 0 <= tot (fun k => Rabs (spread_out xi k))) by (apply vsum_nonneg; intros y Hy; apply in_map_iff in Hy; destruct Hy as (k & <- & _); apply Rabs_pos). split.
      * assert (Es : tot (fun k => D p val k * spread_out xi k) - tot (fun k => D p z k * spread_out xi k) = tot (fun k => (D p val k - D p z k) * spread_out xi k)).
        { rewrite (vsum_map_ext (fun k => (D p val k - D p z k) * spread_out xi k) (fun k => D p val k * spread_out xi k + (-1) * (D p z k * spread_out xi k))) by (intros; ring). rewrite vsum_map_plus, vsum_map_scale. ring. }
        rewrite Es. eapply Rle_trans; [apply vsum_abs|]. apply Rle_trans with (tot (fun k => (B * dd) * Rabs (spread_out xi k))).
        { apply vsum_le. intros k Hk. apply in_seq in Hk. rewrite Rabs_mult. apply Rmult_le_compat_r; [apply Rabs_pos|]. apply T2. lia. }
        rewrite vsum_map_scale. assert (B * dd <= B * (W * s)) by (apply Rmult_le_compat_l; auto).
        assert (B * dd * tot (fun k => Rabs (spread_out xi k)) <= B * (W * s) * (W * t)) by (apply Rmult_le_compat; auto; apply Rmult_le_pos; auto).
        assert (0 <= G * W * s * t) by (repeat apply Rmult_le_pos; auto). lra.
      * eapply Rle_trans; [apply vsum_abs|]. apply Rle_trans with (tot (fun k => t * Rabs (D p z k))).
        { apply vsum_le. intros k Hk. rewrite Rabs_mult, Rmult_comm. apply Rmult_le_compat_r; [apply Rabs_pos|]. apply within_entry; auto. }
        rewrite vsum_map_scale. fold G. destruct (Nat.eq_dec width 0) as [W0|W0].
        { assert (G0 : G = 0) by (unfold G; rewrite W0; reflexivity). rewrite G0. rewrite Rmult_0_r. apply Rmult_le_pos; lra. }
        assert (1 <= W) by (unfold W; apply (le_INR 1); lia). assert (G * 1 <= G * W) by (apply Rmult_le_compat_l; auto).
        assert (t * G <= t * (G * W)) by (apply Rmult_le_compat_l; lra). assert (0 <= B * (W * W) * t) by (apply Rmult_le_pos; auto). lra.
  - exists r, B. split; auto. split; auto. intros e val s Ho Hw Hs. assert (Hsm : forall p, In p (prog (f_cls f)) -> smooth (inputs val f) (fields f) p) by (intros p Hp; apply (H p Hp e val s); auto).
    assert (S0 : 0 <= s) by apply Hw. split; auto. intros i.
    assert (Hv : fits val) by apply Ho. assert (He : field e) by apply Ho.
    destruct (Nat.lt_ge_cases i (length (prog (f_cls f)))) as [Hi|Hi].
    + assert (Hin : In (nth i (prog (f_cls f)) (Lit 0 1)) (prog (f_cls f))) by (apply nth_In; auto). destruct (H _ Hin e val s Ho Hw Hs) as (_ & H2 & H3). split.
      * rewrite nth_vadd by (rewrite jacobian_rows, residual_rows, !map_length by auto; auto). rewrite jacobian_rows, residual_rows by auto. rewrite !(nth_map' _ _ i 0 (Lit 0 1)) by auto. exact H2.
      * intros xi t Hxi Hwi. destruct (H3 xi t Hwi) as (H4 & H5). assert (Hsz : forall p, In p (prog (f_cls f)) -> smooth (inputs z f) (fields f) p) by (intros p Hp; apply Hfit; auto).
        rewrite nth_vsub by (rewrite !jacobian_rows, !map_length by auto; auto). rewrite !jacobian_rows by auto. rewrite !(nth_map' _ _ i 0 (Lit 0 1)) by auto. split; auto.
    + assert (Hsz : forall p, In p (prog (f_cls f)) -> smooth (inputs z f) (fields f) p) by (intros p Hp; apply Hfit; auto). split.
      * rewrite nth_overflow; [rewrite Rabs_R0; repeat apply Rmult_le_pos; auto|]. rewrite vadd_length; rewrite jacobian_rows, ?residual_rows, !map_length by auto; auto.
      * intros xi t Hxi Hwi. assert (T0 : 0 <= t) by apply Hwi. split.
        -- rewrite nth_overflow; [rewrite Rabs_R0; repeat apply Rmult_le_pos; auto|]. rewrite vsub_length; rewrite !jacobian_rows, !map_length by auto; auto.
        -- rewrite nth_overflow; [rewrite Rabs_R0; repeat apply Rmult_le_pos; auto|]. rewrite jacobian_rows, map_length by auto; auto.
Qed.
End Factor.
