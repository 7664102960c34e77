(* Problems carrying the same information: solving them, and where they come from. *)
From Coq Require Import List Arith Bool Lia Permutation Reals Lra ZArith.
From Verif Require Import Num NumR Py Arr MLayout MAssign MNoise MSparse MFactor MGraph MLinear MSolver SpecLayout SpecTree SpecAssign SpecGraph SpecSparse SpecNoise SpecDeriv SpecOrder SpecTwin.
From Verif Require Import PBase PLayout PTree PAssign PAssign2 PAssign3 PStack PGraph PGraph2 PJac PVec PSum PSparse PLinear PDeriv PNoise PLin PCg PGraph3 PGraph4 PGraph5 PHold POrder POrder2 POrder3 PTwin.
Import ListNotations.
Local Open Scope R_scope.

Section Solve.
Variable E : env R.
Let C := e_cls E.
Hypothesis CO : classes_ok C.

Lemma assigns_vars fs fs' a val : (forall v, In v (mentioned fs) <-> In v (mentioned fs')) -> assigns E fs a val -> assigns E fs' a val.
Proof. intros Hp (vs & H1 & H2 & H3). exists vs. split; auto. split; auto. intros v. rewrite H2. apply Hp. Qed.

Section Given.
Variables fs fs' : list (factor R).
Variables g g' : graph R.
Hypothesis Hok : forall f, In f fs -> factor_ok f.
Hypothesis Hok' : forall f, In f fs' -> factor_ok f.
Hypothesis Hg : is_graph E fs g.
Hypothesis Hg' : is_graph E fs' g'.
Hypothesis Hrd : total residual_dim fs <> 0%nat.
Hypothesis Hrd' : total residual_dim fs' <> 0%nat.
Hypothesis Hws : well_shaped E fs.
Hypothesis Hws' : well_shaped E fs'.
Hypothesis HI : same_information E fs fs'.

Lemma start_twin a a' val extra : holds E fs a val -> holds E fs' a' val ->
  exists s s', init_state E g a extra = Ok s /\ init_state E g' a' extra = Ok s' /\ PTwin.srel E fs fs' s s' /\ s_extra s = extra.
Proof.
  intros Ha Ha'. destruct (two_costs E fs fs' g g' CO Hok Hok' Hg Hg' Hrd Hrd' Hws Hws' HI a a' val Ha Ha') as (c & Hc & Hc').
  unfold init_state. rewrite Hc, Hc'. cbn [bind fst snd]. eexists _, _. split; [reflexivity|]. split; [reflexivity|].
  split; auto. split; cbn; auto; [exists val; auto | exists val; split; auto; apply (holds_legal E fs CO a); auto].
Qed.

Lemma solve_twin_rel (step : graph R -> sstate R -> result (sstate R)) extra (P : sstate R -> Prop) init init' val fuel :
  (forall s s', PTwin.srel E fs fs' s s' -> P s -> PTwin.rrel E fs fs' P (step g s) (step g' s')) ->
  (forall s, s_extra s = extra -> P s) ->
  assigns E fs init val -> assigns E fs init' val ->
  same_outcome E fs (solve_with E fuel step extra g init) (solve_with E fuel step extra g' init').
Proof.
  intros Hstep HP Hi Hi'. pose proof (assigns_vars fs fs' init' val (proj1 HI) Hi') as Hi2.
  unfold solve_with. rewrite (ig_layout _ _ _ Hg), (ig_layout _ _ _ Hg').
  destruct (update_holds E CO fs init val Hi) as (a & -> & Ha). destruct (update_holds E CO fs' init' val Hi2) as (a' & -> & Ha').
  destruct (start_twin a a' val extra Ha Ha') as (s & s' & -> & -> & Hs & Hx).
  pose proof (PTwin.loop_rel E fs fs' (step g) (step g') P Hstep fuel s s' Hs (HP s Hx)) as Hl.
  destruct (while_loop fuel _ (step g) s) as [[s1|e]|], (while_loop fuel _ (step g') s') as [[s1'|e']|]; try contradiction; auto.
  destruct Hl as (Hl & _). destruct (PTwin.sr_val _ _ _ _ _ Hl) as (val1 & H1 & H1').
  destruct (update_back E CO fs _ val1 init val H1 Hi) as (b & -> & Hb).
  destruct (update_back E CO fs' _ val1 init' val H1' Hi2) as (b' & -> & Hb').
  exists val1. split; auto. apply (assigns_vars fs'); auto. intros v. symmetry. apply (proj1 HI).
Qed.
End Given.

Lemma solve_twin fs fs' g g' init init' val solve fuel :
  (forall f, In f fs -> factor_ok f) -> (forall f, In f fs' -> factor_ok f) -> no_repeats fs -> no_repeats fs' ->
  same_information E fs fs' ->
  graph_make E fs = Ok g -> graph_make E fs' = Ok g' ->
  total residual_dim fs <> 0%nat -> total residual_dim fs' <> 0%nat -> well_shaped E fs -> well_shaped E fs' ->
  assigns E fs init val -> assigns E fs init' val ->
  library_solver E solve ->
  same_outcome E fs (solve fuel g init) (solve fuel g' init').
Proof.
  intros Hok Hok' Hn Hn' HI Eg Eg' Hrd Hrd' Hws Hws' Hi Hi' Hs.
  assert (Hg := is_graph_of E fs g Hok Eg). assert (Hg' := is_graph_of E fs' g' Hok' Eg').
  destruct Hs as [cfg lin Hl|cfg lin H1 H2 H3 Hl|cfg lin Hl].
  - apply (solve_twin_rel fs fs' g g' Hok Hok' Hg Hg' Hrd Hrd' Hws Hws' HI (gn_step E cfg lin) n0 (fun _ => True) init init' val); auto.
    intros s s' Hs _. apply PTwin.gn_step_rel; auto.
  - apply (solve_twin_rel fs fs' g g' Hok Hok' Hg Hg' Hrd Hrd' Hws Hws' HI (lm_step E cfg lin) (lambda_initial cfg) (fun s => 0 < s_extra s) init init' val); auto.
    + intros s s' Hs Hx. apply PTwin.lm_step_rel; auto.
    + intros s ->. auto.
  - apply (solve_twin_rel fs fs' g g' Hok Hok' Hg Hg' Hrd Hrd' Hws Hws' HI (dl_step E cfg lin) (radius_initial cfg) (fun _ => True) init init' val); auto.
    intros s s' Hs _. apply PTwin.dl_step_rel; auto.
Qed.

Lemma fixed_twin fs fs' g g' init init' val unroll it fuel lin :
  (forall f, In f fs -> factor_ok f) -> (forall f, In f fs' -> factor_ok f) -> no_repeats fs -> no_repeats fs' ->
  same_information E fs fs' ->
  graph_make E fs = Ok g -> graph_make E fs' = Ok g' ->
  total residual_dim fs <> 0%nat -> total residual_dim fs' <> 0%nat -> well_shaped E fs -> well_shaped E fs' ->
  assigns E fs init val -> assigns E fs init' val ->
  same_layout (as_layout init) (g_layout g) -> same_layout (as_layout init') (g_layout g') ->
  library_linear lin ->
  same_outcome E fs (fixed_solve E fuel unroll it lin g init) (fixed_solve E fuel unroll it lin g' init').
Proof.
  intros Hok Hok' Hn Hn' HI Eg Eg' Hrd Hrd' Hws Hws' (vs & Hwf & Hvs & Hv) (vs' & Hwf' & Hvs' & Hv') Hl Hl' Hlin.
  assert (Hg := is_graph_of E fs g Hok Eg). assert (Hg' := is_graph_of E fs' g' Hok' Eg'). pose proof (proj1 HI) as Hvars.
  assert (Ha : holds E fs init val).
  { exists vs. split; auto. split; [rewrite <- (ig_layout _ _ _ Hg); auto|]. intros v Hin. apply Hv, Hvs; auto. }
  assert (Ha' : holds E fs' init' val).
  { exists vs'. split; auto. split; [rewrite <- (ig_layout _ _ _ Hg'); auto|]. intros v Hin. apply Hv', Hvs', Hvars; auto. }
  unfold fixed_solve. destruct (start_twin fs fs' g g' Hok Hok' Hg Hg' Hrd Hrd' Hws Hws' HI init init' val n0 Ha Ha') as (s & s' & -> & -> & Hs & _).
  assert (Hend : forall r r', PTwin.rrel E fs fs' (fun _ => True) r r' ->
    same_outcome E fs (match r with Ok st => Some (Ok (s_assign st)) | Err e => Some (Err e) end)
      (match r' with Ok st => Some (Ok (s_assign st)) | Err e => Some (Err e) end)).
  { intros [s1|e] [s1'|e']; simpl; try tauto. intros (H & _). destruct (PTwin.sr_val _ _ _ _ _ H) as (val1 & H1 & H1').
    exists val1. split; [apply holds_assigns; auto | apply (assigns_vars fs'); [intros v; symmetry; apply Hvars | apply holds_assigns; auto]]. }
  assert (Hstep : forall s s', PTwin.srel E fs fs' s s' -> PTwin.rrel E fs fs' (fun _ => True) (fixed_step E it lin g s) (fixed_step E it lin g' s')) by (intros; apply PTwin.fixed_step_rel; auto).
  destruct unroll.
  - apply Hend. apply PTwin.iterate_rel; auto.
  - pose proof (PTwin.loop_rel E fs fs' (fixed_step E it lin g) (fixed_step E it lin g') (fun _ => True)) as H.
    specialize (H ltac:(intros; apply Hstep; auto) fuel s s' Hs I).
    destruct (while_loop fuel _ (fixed_step E it lin g) s) as [r|], (while_loop fuel _ (fixed_step E it lin g') s') as [r'|]; try contradiction; auto.
Qed.

(* ---- an equivalence, closed under permutation and concatenation ---- *)
Lemma info_refl fs : same_information E fs fs.
Proof. split; [tauto | auto]. Qed.
Lemma info_sym fs fs' : same_information E fs fs' -> same_information E fs' fs.
Proof.
  intros (H1 & H2). split; [intros v; symmetry; auto|]. intros val old xi A B D. symmetry. apply H2; intros v Hv; [apply A | apply B | apply D]; apply H1; auto.
Qed.
Lemma info_trans fs1 fs2 fs3 : same_information E fs1 fs2 -> same_information E fs2 fs3 -> same_information E fs1 fs3.
Proof.
  intros (H1 & H2) (H3 & H4). split; [intros v; rewrite H1; auto|]. intros val old xi A B D. rewrite H2 by auto. apply H4; intros v Hv; [apply A | apply B | apply D]; apply H1; auto.
Qed.
Lemma info_perm fs fs' : Permutation fs fs' -> same_information E fs fs'.
Proof. intros H. split; [apply two_vars; auto|]. intros. apply vsum_perm. apply Permutation_map. auto. Qed.
Lemma mentioned_app (l1 l2 : list (factor R)) v : In v (mentioned (l1 ++ l2)) <-> In v (mentioned l1) \/ In v (mentioned l2).
Proof.
  rewrite !mentioned_in. split.
  - intros (f & Hf & Hv). apply in_app_or in Hf. destruct Hf; eauto.
  - intros [(f & Hf & Hv)|(f & Hf & Hv)]; exists f; split; auto; apply in_or_app; auto.
Qed.
Lemma info_app a a' b b' : same_information E a a' -> same_information E b b' -> same_information E (a ++ b) (a' ++ b').
Proof.
  intros (H1 & H2) (H3 & H4). split; [intros v; rewrite !mentioned_app, H1, H3; tauto|]. intros val old xi A B D. rewrite !map_app, !vsum_app.
  rewrite H2, H4; auto; intros v Hv; (apply A || apply B || apply D); apply mentioned_app; auto.
Qed.
End Solve.

(* ---- one factor: the model through the precision matrix ---- *)
Fixpoint base (n : noise R) : noise R := match n with Huber w _ => base w | _ => n end.
Definition wl (n : noise R) (r : list R) : list R := unwrap [] (whiten_residual n r).
Definition shrink (delta : arr R) (x : R) : R := let d := unwrap 0 (scalar delta) in if nltb x d then 1 else nsqrt (ndiv d x).
Fixpoint beta (n : noise R) (x : R) : R := match n with Huber w delta => shrink delta x * beta w x | _ => 1 end.
Fixpoint alpha (n : noise R) (r : list R) : R :=
  match n with Huber w delta => shrink delta (vnorm (vscale (alpha w r) (wl (base w) r))) * alpha w r | _ => 1 end.

Lemma base_linear n : linear_noise (base n).
Proof. induction n; simpl; auto. Qed.
Lemma base_ok n : noise_ok n -> noise_ok (base n).
Proof. induction n; simpl; auto. tauto. Qed.
Lemma base_dim n : noise_dim (base n) = noise_dim n.
Proof. induction n; simpl; auto. Qed.
Lemma wl_ok n r : noise_ok n -> length r = noise_dim n -> whiten_residual n r = Ok (wl n r) /\ length (wl n r) = noise_dim n.
Proof. intros Hn Hr. destruct (whiten_ok n r Hn Hr) as (w & Ew & Hw). unfold wl. rewrite Ew. auto. Qed.
Lemma white_add (nm : noise R) x y wy : linear_noise nm -> noise_ok nm -> length x = noise_dim nm -> length y = noise_dim nm ->
  whiten_residual nm y = Ok wy -> exists wx, whiten_residual nm x = Ok wx /\ whiten_residual nm (vadd x y) = Ok (vadd wx wy).
Proof.
  intros Hl Hn Hx Hy Hw. destruct nm as [W|D|]; cbn [whiten_residual] in *; [| |destruct Hl]; destruct Hn as (Ha & k & Hk); rewrite Hk in *; cbn [noise_dim] in *.
  - assert (Hk' : forall z : list R, length z = length y -> (length z =? k) = true).
    { intros z Hz. apply Nat.eqb_eq. unfold noise_dim in Hy. cbn in Hy. rewrite Hk in Hy. cbn in Hy. congruence. }
    rewrite Hk' in Hw by auto. injection Hw as <-. rewrite !Hk' by (rewrite ?vadd_length; congruence).
    eexists. split; [reflexivity|]. f_equal. apply mvec_add. congruence.
  - unfold noise_dim in Hx, Hy. cbn in Hx, Hy. rewrite Hk in Hx, Hy. cbn in Hx, Hy.
    assert (Hs : forall z : list R, length z = k -> shape_eqb [length z] [k] = true).
    { intros z Hz. apply shape_eqb_ok. congruence. }
    rewrite Hs in Hw by auto. cbn [assert_ bind] in Hw. injection Hw as <-. rewrite !Hs by (rewrite ?vadd_length; congruence). cbn [assert_ bind].
    eexists. split; [reflexivity|]. f_equal. apply vmul_vadd; [congruence|]. apply Nat.eqb_eq in Ha. rewrite Hk in Ha. cbn in Ha. lia.
Qed.

Lemma wl_add n x y : linear_noise n -> noise_ok n -> length x = noise_dim n -> length y = noise_dim n -> wl n (vadd x y) = vadd (wl n x) (wl n y).
Proof.
  intros Hl Hn Hx Hy. destruct (whiten_ok n y Hn Hy) as (wy & Ey & _). destruct (white_add n x y wy Hl Hn Hx Hy Ey) as (wx & Ex & Exy).
  unfold wl. rewrite Ex, Ey, Exy. auto.
Qed.
Lemma wl_scale n k x : linear_noise n -> noise_ok n -> length x = noise_dim n -> wl n (vscale k x) = vscale k (wl n x).
Proof.
  intros Hl Hn Hx. unfold wl. destruct n as [W|D|]; cbn [whiten_residual]; [| |destruct Hl]; destruct Hn as (Ha & m & Hm); unfold noise_dim in Hx; rewrite Hm in *; cbn in Hx; rewrite vscale_length, Hx.
  - rewrite Nat.eqb_refl. cbn [unwrap]. apply mvec_scale.
  - rewrite (proj2 (shape_eqb_ok [m] [m]) eq_refl). cbn [assert_ bind unwrap]. apply Nat.eqb_eq in Ha. rewrite Hm in Ha. cbn in Ha.
    apply (nth_ext' _ _ 0); [rewrite vscale_length, !vmul_length; rewrite ?vscale_length; lia|]. intros i Hi. rewrite vmul_length in Hi by (rewrite vscale_length; lia).
    rewrite nth_vscale, !nth_vmul by (rewrite ?vscale_length; lia). rewrite nth_vscale. rn. lra.
Qed.
Lemma wl_jac n J c x r : linear_noise n -> noise_ok n -> length r = noise_dim n -> shaped (noise_dim n) c J -> length x = c ->
  exists M, whiten_jacobian n J r = Ok M /\ mvec M x = wl n (mvec J x) /\ length M = noise_dim n.
Proof.
  intros Hl Hn Hr HJ Hx. destruct (jacobian_columns n J c r x Hl Hn Hr HJ Hx) as (M & EM & Hw & _). exists M. split; auto.
  unfold wl. rewrite Hw. split; auto. destruct (whiten_jac_ok n J r c Hn Hr (proj1 HJ) (proj2 HJ)) as (M2 & E2 & H2 & _). congruence.
Qed.

Lemma map_one (l : list R) : map (fun x => nmul x 1) l = l.
Proof. rewrite <- (map_id l) at 2. apply map_ext. intros x. rn. lra. Qed.
Lemma map_shrink d (l : list R) : (if nltb (vnorm l) (unwrap 0 (scalar d)) then l else map (fun x => nmul x (nsqrt (ndiv (unwrap 0 (scalar d)) (vnorm l)))) l) = vscale (shrink d (vnorm l)) l.
Proof.
  unfold shrink. cbv zeta. destruct (nltb _ _).
  - unfold vscale. symmetry. rewrite <- (map_id l) at 2. apply map_ext. intros x. rn. lra.
  - unfold vscale. apply map_ext. intros x. rn. lra.
Qed.
Lemma vscale_vscale a b (l : list R) : vscale a (vscale b l) = vscale (a * b) l.
Proof. unfold vscale. rewrite map_map. apply map_ext. intros x. rn. lra. Qed.
Lemma vscale_one (l : list R) : vscale 1 l = l.
Proof. unfold vscale. rewrite <- (map_id l) at 2. apply map_ext. intros x. rn. lra. Qed.

Lemma white_res n r : noise_ok n -> length r = noise_dim n -> whiten_residual n r = Ok (vscale (alpha n r) (wl (base n) r)).
Proof.
  induction n as [W|D|w IH d]; intros Hn Hr.
  - cbn [alpha base]. rewrite vscale_one. apply wl_ok; auto.
  - cbn [alpha base]. rewrite vscale_one. apply wl_ok; auto.
  - destruct Hn as (Hn & Ha & Hs). cbn [whiten_residual alpha base]. rewrite IH by auto. cbn [bind].
    pose proof (map_shrink d (vscale (alpha w r) (wl (base w) r))) as Hm.
    destruct (scalar_ok d Ha Hs) as (x & Ex). rewrite Ex in *. cbn [bind unwrap] in *. cbv zeta. f_equal. rewrite Hm, vscale_vscale. auto.
Qed.
Lemma mvec_rows k (M : list (list R)) x : mvec (map (map (fun y => nmul y k)) M) x = vscale k (mvec M x).
Proof.
  unfold mvec, vscale. rewrite !map_map. apply map_ext. intros row. rewrite (map_ext _ (nmul k)) by (intros; rn; lra). change (map (nmul k) row) with (vscale k row). rewrite vdot_scale_l. rn. auto.
Qed.
Lemma white_jac n J c x r : noise_ok n -> length r = noise_dim n -> shaped (noise_dim n) c J -> length x = c ->
  exists M, whiten_jacobian n J r = Ok M /\ mvec M x = vscale (beta n (vnorm r)) (wl (base n) (mvec J x)) /\ length M = noise_dim n.
Proof.
  induction n as [W|D|w IH d]; intros Hn Hr HJ Hx.
  - cbn [beta base]. rewrite vscale_one. apply (wl_jac (Gaussian W) J c x r); simpl; auto.
  - cbn [beta base]. rewrite vscale_one. apply (wl_jac (DiagGaussian D) J c x r); simpl; auto.
  - destruct Hn as (Hn & Ha & Hs). destruct (IH Hn Hr HJ Hx) as (M & EM & HM & Hl). cbn [whiten_jacobian beta base]. rewrite EM. cbn [bind].
    destruct (scalar_ok d Ha Hs) as (y & Ey). unfold shrink. rewrite Ey. cbn [bind unwrap]. cbv zeta. eexists. split; [reflexivity|].
    destruct (nltb (vnorm r) y).
    + split; auto. rewrite HM. f_equal. lra.
    + rewrite mvec_rows, HM, vscale_vscale, map_length. auto.
Qed.

Lemma vscale_vadd k (x y : list R) : vscale k (vadd x y) = vadd (vscale k x) (vscale k y).
Proof. unfold vscale, vadd. revert y; induction x as [|a x IH]; intros [|b y]; simpl; auto. f_equal; auto. rn. lra. Qed.
Lemma vscale_vzero k n : vscale k (vzero n) = @vzero R NumR n.
Proof. unfold vscale, vzero. induction n; simpl; auto. f_equal; auto. rn. lra. Qed.

Section Model.
Variable E : env R.
Let C := e_cls E.
Lemma pushed_len rd vs Js xi : Forall2 (fun v J => length J = rd /\ Forall (fun row => length row = vldim C v) J) vs Js -> length (pushed rd vs Js xi) = rd.
Proof.
  unfold pushed. induction 1 as [|v J vs Js (H1 & H2) H IH]; simpl; [apply vzero_length|]. rewrite vadd_length; rewrite mvec_length; congruence.
Qed.
Lemma pushed_white n r vs xi Js : noise_ok n -> length r = noise_dim n ->
  Forall2 (fun v J => length J = noise_dim n /\ Forall (fun row => length row = vldim C v) J) vs Js ->
  (forall v, In v vs -> length (xi v) = vldim C v) ->
  exists Ws, traverse (fun J => whiten_jacobian n J r) Js = Ok Ws /\
    pushed (noise_dim n) vs Ws xi = vscale (beta n (vnorm r)) (wl (base n) (pushed (noise_dim n) vs Js xi)).
Proof.
  intros Hn Hr HF. pose proof (base_linear n) as BL. pose proof (base_ok n Hn) as BO. pose proof (base_dim n) as BD.
  induction HF as [|v J vs Js (H1 & H2) HF IH]; intros Hx.
  - exists []. split; auto. unfold pushed. simpl.
    assert (Hz : vscale 0 (vzero (noise_dim n)) = @vzero R NumR (noise_dim n)) by apply vscale_vzero.
    rewrite <- Hz, wl_scale by (auto; rewrite vzero_length; auto). destruct (wl_ok (base n) (vzero (noise_dim n)) BO) as (_ & Hl); [rewrite vzero_length; auto|].
    assert (Hz2 : forall l : list R, vscale 0 l = vzero (length l)).
    { unfold vscale, vzero. induction l; simpl; auto. f_equal; auto. rn. lra. }
    rewrite !Hz2, Hl, vzero_length, BD. symmetry. apply vscale_vzero.
  - destruct IH as (Ws & ET & HP); [intros; apply Hx; right; auto|].
    destruct (white_jac n J (vldim C v) (xi v) r Hn Hr) as (M & EM & HM & Hl); [split; auto | apply Hx; left; auto|].
    exists (M :: Ws). cbn [traverse]. rewrite EM, ET. split; auto. unfold pushed in *. simpl. rewrite HM, HP, <- vscale_vadd. f_equal. symmetry.
    apply wl_add; auto; [rewrite mvec_length, BD; auto|]. rewrite BD. apply (pushed_len (noise_dim n) vs Js xi). auto.
Qed.

Definition mixed (E : env R) (val old : var -> pytree R) xi (f : factor R) (a b : R) : list R :=
  vadd (vscale b (pushed (residual_dim f) (f_vars f) (jacobians_at E val f) xi)) (vscale a (residual_at E old f)).
Lemma model_formula val old xi f : factor_ok f -> residual_shape_ok E old f -> jacobian_shape_ok E val f ->
  (forall v, In v (f_vars f) -> length (xi v) = vldim C v) ->
  let r := residual_at E old f in let n := f_noise f in
  model_at E val old xi f = sumsq (wl (base n) (mixed E val old xi f (alpha n r) (beta n (vnorm (vscale (alpha n r) (wl (base n) r)))))).
Proof.
  intros (Hn & _) Hr HJ Hx. cbv zeta. unfold residual_shape_ok in Hr. unfold jacobian_shape_ok in HJ. unfold model_at, whitened_at, whitened_jacobians_at.
  pose proof (base_linear (f_noise f)) as BL. pose proof (base_ok (f_noise f) Hn) as BO. pose proof (base_dim (f_noise f)) as BD.
  change (residual_dim f) with (noise_dim (f_noise f)) in *.
  rewrite (white_res (f_noise f) (residual_at E old f)) by auto. set (w := vscale (alpha (f_noise f) (residual_at E old f)) (wl (base (f_noise f)) (residual_at E old f))).
  destruct (wl_ok (base (f_noise f)) (residual_at E old f) BO) as (_ & Hwl); [rewrite BD; auto|].
  assert (Hw : length w = noise_dim (f_noise f)) by (unfold w; rewrite vscale_length, Hwl; auto).
  destruct (pushed_white (f_noise f) w (f_vars f) xi (jacobians_at E val f) Hn Hw HJ Hx) as (Ws & -> & HP). rewrite HP. unfold mixed.
  pose proof (pushed_len _ _ _ xi HJ) as Hpl. change (residual_dim f) with (noise_dim (f_noise f)).
  rewrite wl_add, !wl_scale by (auto; rewrite ?vscale_length; congruence). auto.
Qed.
End Model.

(* the squared length of a whitened vector, through the precision matrix *)
Lemma precision_form n r : linear_noise n -> noise_ok n -> length r = noise_dim n ->
  sumsq (wl n r) = sumn (noise_dim n) (fun i => sumn (noise_dim n) (fun j => nth i r 0 * precision n i j * nth j r 0)).
Proof.
  intros Hl Hn Hr. destruct n as [W|D|]; [| |destruct Hl]; destruct Hn as (Ha & k & Hk).
  - unfold wl. cbn [precision noise_dim] in *. rewrite Hk in *. cbn [last] in *. destruct (gaussian_norm W k r Ha Hk Hr) as (w & Ew & _ & _ & Hs). rewrite Ew. exact Hs.
  - unfold wl. cbn [precision noise_dim whiten_residual] in *. rewrite Hk in *. cbn [last] in *. rewrite Hr, (proj2 (shape_eqb_ok [k] [k]) eq_refl). cbn [assert_ bind unwrap].
    apply Nat.eqb_eq in Ha. rewrite Hk in Ha. cbn in Ha. rewrite (sumsq_sumn k) by (rewrite vmul_length; lia). apply sumn_ext. intros i Hi. rewrite nth_vmul by lia.
    transitivity (sumn k (fun j => (if Nat.eqb i j then 1 else 0) * (nth i r 0 * (nth i (a_data D) 0 * nth i (a_data D) 0) * nth j r 0))).
    + rewrite sumn_delta by auto. rn. lra.
    + apply sumn_ext. intros j Hj. destruct (Nat.eqb i j); lra.
Qed.

Lemma weight_base k n n' : same_weight k n n' -> noise_ok n -> noise_ok n' -> noise_dim n = k /\ noise_dim n' = k /\
  (forall r, length r = k -> sumsq (wl (base n) r) = sumsq (wl (base n') r)) /\ (forall x, beta n x = beta n' x) /\ (forall r, length r = k -> alpha n r = alpha n' r).
Proof.
  induction 1 as [n n' H1 H2 H3 H4 H5|n n' d H IH]; intros Hn Hn'.
  - assert (B1 : base n = n) by (destruct n; auto; destruct H1). assert (B2 : base n' = n') by (destruct n'; auto; destruct H2).
    split; auto. split; auto. split; [|split].
    + intros r Hr. rewrite B1, B2, !precision_form by (auto; congruence). rewrite H3, H4. apply sumn_ext. intros i Hi. apply sumn_ext. intros j Hj. rewrite H5; auto.
    + intros x. destruct n, n'; auto; tauto.
    + intros r Hr. destruct n, n'; auto; tauto.
  - destruct Hn as (Hn & _). destruct Hn' as (Hn' & _). destruct (IH Hn Hn') as (D1 & D2 & I1 & I2 & I3). cbn [noise_dim base beta alpha]. split; auto. split; auto. split; auto. split.
    + intros x. rewrite I2. auto.
    + intros r Hr. rewrite I3 by auto. f_equal. f_equal. unfold vnorm. f_equal. rewrite !sumsq_scale. rewrite I1 by auto. auto.
Qed.

Section Factors.
Variable E : env R.
Let C := e_cls E.
Lemma same_factor_model f f' val old xi : same_factor E f f' -> factor_ok f -> factor_ok f' ->
  residual_shape_ok E old f -> jacobian_shape_ok E val f -> (forall v, In v (f_vars f) -> length (xi v) = vldim C v) ->
  model_at E val old xi f = model_at E val old xi f'.
Proof.
  intros ((Hv & Hd & Hf) & Hw) Hok Hok' Hr HJ Hx. destruct (Hf old) as (F1 & _). destruct (Hf val) as (_ & F2).
  destruct (weight_base _ _ _ Hw (proj1 Hok) (proj1 Hok')) as (D1 & D2 & I1 & I2 & I3).
  pose proof Hr as Hr0. unfold residual_shape_ok in Hr0. pose proof HJ as HJ0. unfold jacobian_shape_ok in HJ0.
  rewrite !model_formula; auto; [| unfold residual_shape_ok; rewrite F1, Hd; auto | unfold jacobian_shape_ok; rewrite F2, Hd, Hv; auto | rewrite Hv; auto].
  unfold mixed. rewrite F1, F2, Hd, Hv, <- I2, <- I3 by auto.
  replace (vnorm (vscale (alpha (f_noise f) (residual_at E old f)) (wl (base (f_noise f')) (residual_at E old f)))) with (vnorm (vscale (alpha (f_noise f) (residual_at E old f)) (wl (base (f_noise f)) (residual_at E old f)))).
  - apply I1. rewrite vadd_length; rewrite !vscale_length; auto; rewrite (pushed_len E) by auto; auto.
  - unfold vnorm. f_equal. rewrite !sumsq_scale, I1 by auto. auto.
Qed.
Lemma mentioned_same (fs fs' : list (factor R)) : Forall2 (fun f f' => f_vars f' = f_vars f) fs fs' -> forall v, In v (mentioned fs) <-> In v (mentioned fs').
Proof.
  intros H v. rewrite !mentioned_in. split; intros (f & Hf & Hv).
  - induction H as [|a b l l' H1 H IH]; [destruct Hf|]. destruct Hf as [->|Hf]; [exists b; split; [left; auto | rewrite H1; auto]|]. destruct (IH Hf) as (h & Hh & Hv'). exists h. split; [right|]; auto.
  - induction H as [|a b l l' H1 H IH]; [destruct Hf|]. destruct Hf as [->|Hf]; [exists a; split; [left; auto | rewrite <- H1; auto]|]. destruct (IH Hf) as (h & Hh & Hv'). exists h. split; [right|]; auto.
Qed.
Lemma info_factors fs fs' : (forall f, In f fs -> factor_ok f) -> (forall f, In f fs' -> factor_ok f) -> well_shaped E fs ->
  Forall2 (same_factor E) fs fs' -> same_information E fs fs'.
Proof.
  intros Hok Hok' Hws HF. split.
  - apply mentioned_same. clear - HF. induction HF; constructor; auto. apply H.
  - intros val old xi A B D.
    assert (Hl : forall f, In f fs -> residual_shape_ok E old f /\ jacobian_shape_ok E val f /\ forall v, In v (f_vars f) -> length (xi v) = vldim C v).
    { intros f Hf. split; [apply (ws_residual E fs Hws); auto|]. split; [apply (ws_jacobian E fs Hws); auto|]. intros v Hv. apply D. apply mentioned_in. eauto. }
    clear - HF Hok Hok' Hl. induction HF as [|f f' l l' H HF IH]; auto. cbn [map]. rewrite !vsum_cons. f_equal.
    + destruct (Hl f) as (H1 & H2 & H3); [left; auto|]. apply same_factor_model; auto; [apply Hok | apply Hok']; left; auto.
    + apply IH; intros; [apply Hok | apply Hok' | apply Hl]; right; auto.
Qed.
Lemma split_model f f1 f2 val old xi : split_factor E f f1 f2 -> factor_ok f -> factor_ok f1 -> factor_ok f2 ->
  residual_shape_ok E old f -> jacobian_shape_ok E val f -> (forall v, In v (f_vars f) -> length (xi v) = vldim C v) ->
  model_at E val old xi f = model_at E val old xi f1 + model_at E val old xi f2.
Proof.
  intros ((Hv & Hd & Hf) & (Hv' & Hd' & Hf') & L & L1 & L2 & HP) Hok Hok1 Hok2 Hr HJ Hx. destruct (Hf old) as (F1 & _). destruct (Hf val) as (_ & F2). destruct (Hf' old) as (G1 & _). destruct (Hf' val) as (_ & G2).
  pose proof Hr as Hr0. unfold residual_shape_ok in Hr0. pose proof HJ as HJ0. unfold jacobian_shape_ok in HJ0.
  rewrite (model_formula E val old xi f), (model_formula E val old xi f1), (model_formula E val old xi f2); auto;
    [| unfold residual_shape_ok; rewrite G1, Hd'; auto | unfold jacobian_shape_ok; rewrite G2, Hd', Hv'; auto | rewrite Hv'; auto | unfold residual_shape_ok; rewrite F1, Hd; auto | unfold jacobian_shape_ok; rewrite F2, Hd, Hv; auto | rewrite Hv; auto].
  assert (Bs : forall n, linear_noise n -> base n = n) by (intros [| |]; simpl; tauto). assert (Al : forall n r, linear_noise n -> alpha n r = 1) by (intros [| |]; simpl; tauto). assert (Be : forall n r, linear_noise n -> beta n r = 1) by (intros [| |]; simpl; tauto).
  rewrite !Bs, !Al, !Be by auto. unfold mixed. rewrite F1, F2, Hd, Hv, G1, G2, Hd', Hv'. rewrite !vscale_one.
  set (z := vadd (pushed (residual_dim f) (f_vars f) (jacobians_at E val f) xi) (residual_at E old f)).
  assert (Hz : length z = residual_dim f) by (unfold z; rewrite vadd_length; rewrite (pushed_len E) by auto; auto).
  unfold residual_dim in *. rewrite !precision_form; auto; try congruence; try apply Hok; try apply Hok1; try apply Hok2.
  rewrite Hd, Hd', <- sumn_plus. apply sumn_ext. intros i Hi. rewrite <- sumn_plus. apply sumn_ext. intros j Hj. rewrite HP by auto. lra.
Qed.
Lemma info_split pre f f1 f2 post : (forall h, In h (pre ++ f :: post) -> factor_ok h) -> factor_ok f1 -> factor_ok f2 -> well_shaped E (pre ++ f :: post) ->
  split_factor E f f1 f2 -> same_information E (pre ++ f :: post) (pre ++ f1 :: f2 :: post).
Proof.
  intros Hok H1 H2 Hws HS. pose proof HS as ((Hv & _) & (Hv' & _) & _). assert (Hin : In f (pre ++ f :: post)) by (apply in_or_app; right; left; auto). split.
  - intros v. change (f1 :: f2 :: post) with ([f1; f2] ++ post). change (f :: post) with ([f] ++ post). rewrite !mentioned_app.
    assert (Hm : In v (mentioned [f]) <-> In v (mentioned [f1; f2])).
    { rewrite !mentioned_in. split; [intros (h & [<-|[]] & Hi); exists f1; split; [left; auto | rewrite Hv; auto]|]. intros (h & [<-|[<-|[]]] & Hi); exists f; split; try (left; auto; fail); [rewrite <- Hv | rewrite <- Hv']; auto. }
    tauto.
  - intros val old xi A B D. rewrite !map_app. cbn [map]. rewrite !vsum_app, !vsum_cons.
    rewrite (split_model f f1 f2 val old xi HS); auto; [lra | apply (ws_residual E _ Hws); auto | apply (ws_jacobian E _ Hws); auto|]. intros v Hi. apply D. apply mentioned_in. eauto.
Qed.
End Factors.
