(* Affine residuals under Gaussian or Huber noise: bounds on the followed loss along a step. *)
From Coq Require Import List Arith Bool Lia ZArith Permutation Reals Lra Psatz.
From Verif Require Import Num NumR Py Arr MLayout MAssign MNoise MSparse MFactor MGraph MLinear MSolver SpecLayout SpecTree SpecAssign SpecGraph SpecSparse SpecDeriv SpecNoise SpecSolver SpecOrder SpecInv SpecLin SpecLoss SpecRobust.
From Verif Require Import PBase PLayout PTree PAssign PAssign2 PAssign3 PStack PGraph PGraph2 PGraph3 PGraph4 PVec PSparse PLinear PCg PJac PGraph5 PLayout2 POrder PHold PExGraph PSolver PSolver2 PInv PTotal PDeriv PNoise PLoss PExLoss PLin PRobust.
Import ListNotations.
Local Open Scope R_scope.

(* ---- the two quadratic forms of the Jacobian, factor by factor ---- *)
Section Forms.
Variable E : env R.
Let C := e_cls E.
Variable fs : list (factor R).
Variable g : graph R.
Hypothesis CO : classes_ok C.
Hypothesis Hok : forall f, In f fs -> factor_ok f.
Hypothesis Hg : is_graph E fs g.
Hypothesis Hne : fs <> [].
Hypothesis Hrd : total residual_dim fs <> 0%nat.
Hypothesis Hws : well_shaped E fs.
Let L := graph_layout E fs true.
Let n := l_dim L.

Definition wres (val : var -> pytree R) (f : factor R) : list R := unwrap [] (whitened_at E val f).
Definition wjac (val : var -> pytree R) (f : factor R) : list (list (list R)) := unwrap [] (whitened_jacobians_at E val f (wres val f)).
Definition push (val : var -> pytree R) (x : list R) (f : factor R) : list R := slots_times C L x (residual_dim f) (f_vars f) (wjac val f).

Lemma sumsq_concat (ls : list (list R)) : sumsq (concat ls) = vsum (map (fun l => sumsq l) ls).
Proof.
  induction ls as [|l ls IH]; [reflexivity|]. cbn [concat map]. rewrite sumsq_dot, PLoss.vdot_app by auto. rewrite <- !sumsq_dot, IH. reflexivity.
Qed.

Lemma graph_forms a val r A x : holds E fs a val -> compute_whitened_residual_vector E g a = Ok r -> compute_whitened_residual_jacobian E g a r = Ok A -> length x = n ->
  vdot (mapply A x) r = vsum (map (fun f => vdot (wres val f) (push val x f)) fs) /\ sumsq (mapply A x) = vsum (map (fun f => sumsq (push val x f)) fs) /\
  forall f, In f fs -> exists w Ws, whitened_at E val f = Ok w /\ whitened_jacobians_at E val f w = Ok Ws /\ length w = residual_dim f /\
    Forall2 (fun v W => length W = residual_dim f /\ Forall (fun row => length row = vldim C v) W) (f_vars f) Ws /\ wres val f = w /\ wjac val f = Ws.
Proof.
  intros Ha Er EA Hx. pose proof (holds_legal E fs CO _ _ Ha) as Hl. pose proof (holds_assigns E fs a val Ha) as Ha'.
  assert (Hj : forall f, In f fs -> jacobian_shape_ok E val f) by (intros f Hf; apply (ws_jacobian E fs Hws); auto).
  assert (Hrs : forall f, In f fs -> residual_shape_ok E val f) by (intros f Hf; apply (ws_residual E fs Hws); auto).
  destruct (residual_vector_ok E fs g a val Hok Hne Hg Ha' Hrs) as (ws & Hws' & Hvec). rewrite Er in Hvec. injection Hvec as ->.
  assert (HF : Forall2 (fun f w => length w = residual_dim f) (concat (kgroups fs)) ws).
  { apply traverse_forall2 in Hws'. assert (Hin : forall f, In f (concat (kgroups fs)) -> In f fs) by (intros f; apply Permutation_in, kgroups_perm).
    clear - Hws' Hin Hok Hrs. induction Hws' as [|f w l ws Hf Hws IH]; constructor.
    - destruct (whitened_at_ok E val f) as (w' & Ew & Hl); [apply Hok, Hin; left; auto | apply Hrs, Hin; left; auto|]. congruence.
    - apply IH. intros; apply Hin; right; auto. }
  assert (Hlen : length (concat ws) = total residual_dim (concat (kgroups fs))).
  { clear - HF. induction HF as [|f w l ws H HF IH]; auto. cbn [concat]. rewrite app_length, IH, H. auto. }
  pose proof (total_perm residual_dim _ _ (kgroups_perm fs)) as Htot.
  destruct (jacobian_action E fs g a (concat ws) val Hok Hj Hg Ha' ltac:(congruence) Hrd) as (A' & EA' & HA & Hsh & _ & Hact).
  rewrite EA in EA'. injection EA' as <-.
  assert (HxA : length x = snd (m_shape A)) by (rewrite Hsh; auto).
  specialize (Hact x Hx). rewrite matmul_mapply in Hact by auto. injection Hact as Hact. rewrite Hact.
  set (Y := fun fo => apply_slots E (graph_layout E fs true) x (residual_dim (fst fo)) (f_vars (fst fo)) (wjacs E val (concat ws) fo)).
  assert (HW : forall fo, In fo (place residual_dim 0 (concat (kgroups fs))) -> In (fst fo) fs /\ whitened_jacobians_at E val (fst fo) (part (concat ws) fo) = Ok (wjacs E val (concat ws) fo) /\
    Forall2 (fun v W => length W = residual_dim (fst fo) /\ Forall (fun row => length row = vldim C v) W) (f_vars (fst fo)) (wjacs E val (concat ws) fo)).
  { intros [f o] Hin. pose proof (placed _ _ _ Hin) as (Hf & Hb). split; auto. apply wjacs_ok; [split; [apply Hok; auto | apply Hj; auto] | simpl; lia]. }
  destruct (placed_dot E val (concat ws) Y (concat (kgroups fs)) 0 ws Hws' HF) as [HD HP].
  { intros fo Hin. destruct (HW fo Hin) as (_ & _ & H). apply apply_slots_length. clear - H. induction H; constructor; tauto. }
  { simpl. apply slice_full. congruence. }
  { simpl. lia. }
  rewrite Forall_forall in HP.
  assert (Hpt : forall fo, In fo (place residual_dim 0 (concat (kgroups fs))) -> part (concat ws) fo = wres val (fst fo) /\ wjacs E val (concat ws) fo = wjac val (fst fo) /\ Y fo = push val x (fst fo)).
  { intros fo Hin. destruct (HW fo Hin) as (Hf & HWj & _). specialize (HP fo Hin). assert (H1 : part (concat ws) fo = wres val (fst fo)) by (unfold wres; rewrite HP; auto).
    assert (H2 : wjacs E val (concat ws) fo = wjac val (fst fo)) by (unfold wjac; rewrite <- H1, HWj; auto). repeat split; auto. unfold Y, push. rewrite H2. reflexivity. }
  fold Y. split; [|split].
  - rewrite vdot_comm, HD. rewrite (map_ext_in _ (fun fo => (fun f => vdot (wres val f) (push val x f)) (fst fo))).
    + rewrite (place_sum (fun f => vdot (wres val f) (push val x f))). apply vsum_perm, Permutation_map, kgroups_perm.
    + intros fo Hin. destruct (Hpt fo Hin) as (-> & _ & ->). auto.
  - rewrite sumsq_concat, map_map. rewrite (map_ext_in _ (fun fo => (fun f => sumsq (push val x f)) (fst fo))).
    + rewrite (place_sum (fun f => sumsq (push val x f))). apply vsum_perm, Permutation_map, kgroups_perm.
    + intros fo Hin. destruct (Hpt fo Hin) as (_ & _ & ->). auto.
  - intros f Hf. assert (Hfo : exists o, In (f, o) (place residual_dim 0 (concat (kgroups fs)))).
    { assert (Hin : In f (concat (kgroups fs))) by (apply Permutation_in with fs; [symmetry; apply kgroups_perm | auto]). revert Hin. clear. generalize (concat (kgroups fs)) 0%nat.
      induction l as [|f' l IH]; intros k []; cbn [place]; [subst; exists k; left; auto|]. destruct (IH (k + residual_dim f')%nat H) as (o & Ho). exists o. right; auto. }
    destruct Hfo as (o & Hin). destruct (HW _ Hin) as (_ & H1 & H2). destruct (Hpt _ Hin) as (H3 & H4 & _). specialize (HP _ Hin). cbn [fst] in *.
    exists (part (concat ws) (f, o)), (wjacs E val (concat ws) (f, o)). repeat split; auto. unfold part. cbn [fst snd]. destruct (placed _ _ _ Hin) as (_ & Hb). rewrite slice_length; lia.
Qed.
End Forms.

(* ---- one factor ---- *)
Definition core (nm : noise R) : noise R := match nm with Huber w _ => w | _ => nm end.
Lemma core_linear nm : robust_noise nm -> linear_noise (core nm).
Proof. intros [H|(w & delta & -> & H & _)]; auto. destruct nm; auto. destruct H. Qed.
Lemma core_ok nm : noise_ok nm -> noise_ok (core nm).
Proof. destruct nm; auto. intros H. apply H. Qed.
Lemma core_dim nm : noise_dim (core nm) = noise_dim nm.
Proof. destruct nm; auto. Qed.
(* the residual and a direction, whitened without the Huber weight *)
Definition bare (nm : noise R) (r : list R) : list R := unwrap [] (whiten_residual (core nm) r).
Lemma bare_ok nm r : noise_ok nm -> length r = noise_dim nm -> whiten_residual (core nm) r = Ok (bare nm r) /\ length (bare nm r) = noise_dim nm.
Proof.
  intros Hn Hr. destruct (whiten_ok (core nm) r) as (w & Ew & Hw); [apply core_ok; auto | rewrite core_dim; auto|]. unfold bare. rewrite Ew. split; auto. rewrite core_dim in Hw. auto.
Qed.
Lemma whiten_sum (nm : noise R) x y wy : linear_noise nm -> noise_ok nm -> length x = noise_dim nm -> length y = noise_dim nm ->
  whiten_residual nm y = Ok wy -> exists wx, whiten_residual nm x = Ok wx /\ whiten_residual nm (vadd x y) = Ok (vadd wx wy).
Proof.
  intros Hl Hn Hx Hy Hw. destruct nm as [W|D|]; cbn [whiten_residual] in *; [| |destruct Hl]; destruct Hn as (Ha & k & Hk); rewrite Hk in *; cbn [noise_dim] in *.
  - assert (Hk' : forall z : list R, length z = length y -> (length z =? k) = true).
    { intros z Hz. apply Nat.eqb_eq. unfold noise_dim in Hy. cbn in Hy. rewrite Hk in Hy. cbn in Hy. congruence. }
    rewrite Hk' in Hw by auto. injection Hw as <-. rewrite !Hk' by (rewrite ?vadd_length; congruence).
    eexists. split; [reflexivity|]. f_equal. apply mvec_add. congruence.
  - unfold noise_dim in Hx, Hy. cbn in Hx, Hy. rewrite Hk in Hx, Hy. cbn in Hx, Hy.
    assert (Hs : forall z : list R, length z = k -> shape_eqb [length z] [k] = true).
    { intros z Hz. apply shape_eqb_ok. congruence. }
    rewrite Hs in Hw by auto. cbn [assert_ bind] in Hw. injection Hw as <-. rewrite !Hs by (rewrite ?vadd_length; congruence). cbn [assert_ bind].
    eexists. split; [reflexivity|]. f_equal. apply vmul_vadd; [congruence|]. apply Nat.eqb_eq in Ha. rewrite Hk in Ha. cbn in Ha. lia.
Qed.

Lemma bare_add nm r y : robust_noise nm -> noise_ok nm -> length r = noise_dim nm -> length y = noise_dim nm -> bare nm (vadd r y) = vadd (bare nm r) (bare nm y).
Proof.
  intros Hr Hn H1 H2. destruct (bare_ok nm y Hn H2) as (Ey & _). destruct (whiten_sum (core nm) r y (bare nm y) (core_linear nm Hr) (core_ok nm Hn)) as (wx & Ex & Exy); [rewrite core_dim; auto | rewrite core_dim; auto | exact Ey|].
  unfold bare at 1 2. rewrite Ex, Exy. reflexivity.
Qed.

(* what the Huber wrapper does to the residual and to the Jacobian *)
Definition gain (nm : noise R) (nr : R) : R :=
  match nm with Huber _ d => match a_data d with [delta] => weight delta nr | _ => 1 end | _ => 1 end.
Definition profile (nm : noise R) (nr : R) : R :=
  match nm with Huber _ d => match a_data d with [delta] => quarter_loss delta nr | _ => 0 end | _ => nr * nr / 2 end.

Lemma norm_sq (v : list R) : vnorm v * vnorm v = sumsq v.
Proof. unfold vnorm. rn. apply sqrt_sqrt, sumsq_nonneg. Qed.
Lemma norm_pos (v : list R) : 0 <= vnorm v.
Proof. unfold vnorm. rn. apply sqrt_pos. Qed.

Lemma profile_loss nm r : robust_noise nm -> noise_ok nm -> length r = noise_dim nm -> followed_loss nm r = profile nm (vnorm (bare nm r)).
Proof.
  intros Hr Hn Hl. destruct (bare_ok nm r Hn Hl) as (Eb & _). destruct Hr as [Hr|(w & delta & -> & Hr & Hd)].
  - destruct nm as [W|D|]; [| |destruct Hr]; unfold followed_loss, profile; cbn [core] in Eb; rewrite Eb, norm_sq; auto.
  - unfold followed_loss, profile. cbn [core] in Eb. rewrite Eb. cbn [scal a_data]. auto.
Qed.

Lemma factor_parts C L x (nm : noise R) vs Js Ws res rw : robust_noise nm -> noise_ok nm -> (forall v, In v vs -> length (block C L x v) = vldim C v) ->
  Forall2 (fun v J => length J = noise_dim nm /\ Forall (fun row => length row = vldim C v) J) vs Js -> length res = noise_dim nm ->
  whiten_residual nm res = Ok rw -> traverse (fun J => whiten_jacobian nm J rw) Js = Ok Ws ->
  exists s q, rw = vscale s (bare nm res) /\ slots_times C L x (noise_dim nm) vs Ws = vscale q (bare nm (slots_times C L x (noise_dim nm) vs Js)) /\
    0 < q <= 1 /\ q * q = s /\ s * q = gain nm (vnorm (bare nm res)).
Proof.
  intros Hrob Hn Hb HJ Hres Hrw HW.
  assert (Hsl : length (slots_times C L x (noise_dim nm) vs Js) = noise_dim nm).
  { apply slots_length. clear - HJ. induction HJ; constructor; tauto. }
  assert (Hone : forall v : list R, v = vscale 1 v).
  { intros v. unfold vscale. rewrite <- (map_id v) at 1. apply map_ext. intros y. rn. ring. }
  destruct (bare_ok nm res Hn Hres) as (Eb & Hbl). destruct (bare_ok nm _ Hn Hsl) as (Es & _).
  destruct Hrob as [Hlin|(w & delta & -> & Hlin & Hd)].
  - assert (Hc : core nm = nm) by (destruct nm; auto; destruct Hlin). rewrite Hc in *. exists 1, 1. rewrite Eb in Hrw. injection Hrw as <-. split; [apply Hone|].
    assert (Hlr : length (bare nm res) = noise_dim nm) by auto.
    rewrite (whiten_slots C L x (noise_dim nm) nm vs Js Ws (bare nm res)) in Es by auto. injection Es as ->. split; [apply Hone|].
    split; [lra|]. split; [lra|]. unfold gain. destruct nm; [lra | lra | destruct Hlin].
  - assert (Hn' : noise_ok w) by (apply Hn). cbn [noise_dim core] in *. set (r' := bare (Huber w (scal delta)) res) in *.
    destruct (huber_residual w delta res r' Hd Eb) as (HA & HB & _).
    assert (Hlr : length rw = noise_dim w).
    { destruct (Rlt_or_le (vnorm r') delta) as [H|H]; [rewrite (HA H) in Hrw | destruct (HB H) as (_ & HB'); rewrite HB' in Hrw];
        injection Hrw as <-; rewrite ?vscale_length; auto. }
    assert (HJw : exists Js', traverse (fun J => whiten_jacobian w J rw) Js = Ok Js' /\
      Ws = (if Rlt_dec (vnorm r') delta then Js' else map (map (vscale (sqrt (sqrt (delta / vnorm r'))))) Js')).
    { clearbody r'. clear Es Hsl Hb. revert Ws HW. induction HJ as [|v J vs Js (H1 & H2) HJ IH]; intros Ws HW.
      - injection HW as <-. exists []. split; auto. destruct (Rlt_dec _ _); auto.
      - cbn [traverse] in HW. destruct (whiten_jacobian (Huber w (scal delta)) J rw) as [W1|] eqn:EW; [|discriminate].
        cbn [bind] in HW. destruct (traverse _ Js) as [Ws1|] eqn:ET in HW; [|discriminate]. injection HW as <-.
        destruct (IH Ws1 ET) as (Js' & T1 & T2).
        destruct (whiten_jac_ok w J rw (vldim C v) Hn' Hlr H1 H2) as (J' & EJ & HJ1 & HJ2).
        destruct (huber_jacobian w delta res r' rw J J' (vldim C v) Hd Eb Hrw EJ) as (_ & Hlow & Hhigh & _).
        { split; auto. congruence. }
        exists (J' :: Js'). split; [cbn [traverse]; rewrite EJ; cbn [bind]; rewrite T1; auto|].
        destruct (Rlt_dec (vnorm r') delta) as [Hlt|Hge].
        + destruct (Hlow Hlt) as (_ & HE). rewrite EW in HE. injection HE as <-. congruence.
        + destruct (Hhigh ltac:(lra)) as (_ & JH & HE & HJH & _). rewrite EW in HE. injection HE as <-. cbn [map]. congruence. }
    destruct HJw as (Js' & HT & HWs).
    rewrite (whiten_slots C L x (noise_dim w) w vs Js Js' rw) in Es by auto. injection Es as Es.
    unfold gain. cbn [scal a_data]. unfold weight. rewrite <- Es, HWs. destruct (Rlt_dec (vnorm r') delta) as [Hlt|Hge].
    + exists 1, 1. rewrite (HA Hlt) in Hrw. injection Hrw as <-. split; [apply Hone|]. split; [apply Hone|]. lra.
    + destruct (HB ltac:(lra)) as ((Hs0 & Hs1) & HE). assert (Er : rw = vscale (sqrt (delta / vnorm r')) r') by congruence.
      exists (sqrt (delta / vnorm r')), (sqrt (sqrt (delta / vnorm r'))). split; auto. split; [apply scaled_slots|]. split.
      * split; [apply sqrt_lt_R0; auto|]. rewrite <- sqrt_1 at 1. apply sqrt_le_1_alt; auto.
      * split; [apply sqrt_sqrt; lra | auto].
Qed.

(* upper bound along a step, and lower bound on a bounded range *)
Lemma profile_above nm n m : robust_noise nm -> 0 <= n -> 0 <= m -> profile nm m <= profile nm n + gain nm n / 2 * (m * m - n * n).
Proof.
  intros [H|(w & delta & -> & _ & Hd)] Hn Hm; [destruct nm; [| |destruct H]; unfold profile, gain; lra|]. apply majorise; auto.
Qed.
Lemma profile_below nm B : robust_noise nm -> 0 <= B -> exists mu, 0 < mu <= 1 /\
  forall n m, 0 <= n <= B -> 0 <= m <= B -> mu <= gain nm n /\ profile nm n + gain nm n * n * (m - n) + mu / 2 * ((m - n) * (m - n)) <= profile nm m.
Proof.
  intros [H|(w & delta & -> & _ & Hd)] HB.
  - exists 1. split; [lra|]. intros n m _ _. destruct nm; [| |destruct H]; unfold profile, gain; lra.
  - set (B' := Rmax delta B). assert (H1 : delta <= B') by apply Rmax_l. assert (H2 : B <= B') by apply Rmax_r.
    destruct (fourth delta B' Hd H1) as (b & Hb & B1 & B2 & _ & _). assert (Hb3 : 1 <= b * b * b) by nra.
    assert (Hi : 0 < / (10 * (b * b * b)) <= 1) by (split; [apply Rinv_0_lt_compat; lra | rewrite <- Rinv_1 at 1; apply Rinv_le_contravar; lra]).
    exists (/ (10 * (b * b * b))). split; auto. intros n m Hn Hm. unfold profile, gain. cbn [scal a_data]. split.
    { destruct (Rlt_or_le n delta) as [H|H]; [rewrite weight_inner; lra|]. destruct (fourth delta n Hd H) as (u & Hu & _ & U0 & U1 & U2). rewrite (weight_outer _ _ u) by (auto; lra).
      assert (Hub : u <= b).
      { destruct (Rle_or_lt u b) as [|Hc]; auto. exfalso. assert (b * b < u * u) by nra. assert (b * b * (b * b) < u * u * (u * u)) by nra. nra. }
      assert (0 < u * u * u) by (repeat apply Rmult_lt_0_compat; lra). assert (u * u * u <= b * b * b) by (assert (u * u <= b * b) by nra; nra). apply Rinv_le_contravar; lra. }
    apply (strongly delta B' (/ (10 * (b * b * b))) Hd H1 (proj1 Hi)); [rewrite <- B1; right; field; nra | lra | lra].
Qed.
Lemma gain_range nm n : robust_noise nm -> 0 <= n -> 0 < gain nm n <= 1.
Proof.
  intros [H|(w & delta & -> & _ & Hd)] Hn; [destruct nm; [| |destruct H]; unfold gain; lra|]. unfold gain. cbn [scal a_data].
  destruct (Rlt_or_le n delta) as [H|H]; [rewrite weight_inner; lra|]. destruct (fourth delta n Hd H) as (u & Hu & _ & _ & U1 & U2). rewrite (weight_outer _ _ u) by (auto; lra).
  assert (1 <= u * u * u) by nra. split; [apply Rinv_0_lt_compat; lra | rewrite <- Rinv_1 at 1; apply Rinv_le_contravar; lra].
Qed.
(* the loss bounds the norm *)
Lemma profile_coercive nm l : robust_noise nm -> exists B, 0 <= B /\ forall n, 0 <= n -> profile nm n <= l -> n <= B.
Proof.
  intros [H|(w & delta & -> & _ & Hd)].
  - exists (Rmax 0 (l + 1 / 2)). split; [apply Rmax_l|]. intros n Hn Hp. eapply Rle_trans; [|apply Rmax_r]. assert (profile nm n = n * n / 2) by (destruct nm; auto; destruct H). pose proof (Rle_0_sqr (n - 1)) as Hq. unfold Rsqr in Hq. lra.
  - exists (Rmax 0 (l / delta + delta)). split; [apply Rmax_l|]. intros n Hn Hp. eapply Rle_trans; [|apply Rmax_r]. unfold profile in Hp. cbn [scal a_data] in Hp.
    apply (Rmult_le_reg_l delta); auto. replace (delta * (l / delta + delta)) with (l + delta * delta) by (field; lra).
    destruct (Rlt_or_le n delta) as [H|H]; [rewrite loss_inner in Hp by auto; nra|]. destruct (fourth delta n Hd H) as (u & Hu & U1 & U2 & _). rewrite (loss_outer _ _ u) in Hp by auto.
    rewrite U2. assert (Hi : u * u * (u * u) <= 4 / 5 * (u * u * u * u * u) + 1 / 5).
    { assert (0 <= (u - 1) * (u - 1) * (4 * (u * u * u) + 3 * (u * u) + 2 * u + 1)) by (apply Rmult_le_pos; [apply Rle_0_sqr | nra]). nra. }
    assert (Hdd : 0 < delta * delta) by nra. nra.
Qed.
