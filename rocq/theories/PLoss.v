(* The gradient A^T r is the gradient of the sum of the followed losses. *)
From Coq Require Import List Arith Bool Lia Permutation Reals Lra.
From Verif Require Import Num NumR Py Arr MLayout MAssign MNoise MSparse MFactor MGraph SpecLayout SpecTree SpecAssign SpecGraph SpecSparse SpecDeriv SpecNoise SpecLoss.
From Verif Require Import PBase PLayout PTree PAssign PAssign2 PAssign3 PStack PGraph PGraph2 PJac PVec PSparse PGraph3 PGraph4 PGraph5 PDeriv PNoise.
Import ListNotations.
Local Open Scope R_scope.

(* ---- derivatives ---- *)
Lemma sumsq_deriv F d : vderiv F d -> derivable_pt_lim (fun t => sumsq (F t)) 0 (2 * vdot (F 0) d).
Proof.
  intros (Hl & Hd). revert F Hl Hd. induction d as [|y d IH]; intros F Hl Hd.
  - apply (deriv_ext (fun _ => 0)).
    + intros t. specialize (Hl t). destruct (F t); [auto | discriminate].
    + rewrite vdot_nil_r, Rmult_0_r. apply derivable_pt_lim_const.
  - apply (deriv_ext (fun t => nth 0 (F t) 0 * nth 0 (F t) 0 + sumsq (tl (F t)))).
    { intros t. specialize (Hl t). destruct (F t); [discriminate|]. rewrite sumsq_cons. auto. }
    assert (E0 : 2 * vdot (F 0) (y :: d) = (y * nth 0 (F 0) 0 + nth 0 (F 0) 0 * y) + 2 * vdot (tl (F 0)) d).
    { specialize (Hl 0). destruct (F 0); [discriminate|]. rewrite vdot_cons. simpl. rn. lra. }
    rewrite E0. apply (derivable_pt_lim_plus (fun t => nth 0 (F t) 0 * nth 0 (F t) 0) (fun t => sumsq (tl (F t)))).
    + apply (derivable_pt_lim_mult (fun t => nth 0 (F t) 0) (fun t => nth 0 (F t) 0)); apply (Hd 0%nat).
    + apply (IH (fun t => tl (F t))).
      * intros t. specialize (Hl t). destruct (F t); simpl in *; congruence.
      * intros k. eapply deriv_ext; [|apply (Hd (S k))]. intros t. cbv beta. specialize (Hl t). destruct (F t); [discriminate | auto].
Qed.

Lemma deriv_local (f g : R -> R) l : (exists e, 0 < e /\ forall t, Rabs t < e -> f t = g t) -> derivable_pt_lim f 0 l -> derivable_pt_lim g 0 l.
Proof.
  intros (e & He & H) Hd eps Heps. destruct (Hd eps Heps) as (d & H2).
  assert (Hp : 0 < Rmin d e) by (apply Rmin_glb_lt; [apply cond_pos | auto]). exists (mkposreal _ Hp). simpl. intros h Hh Hlt.
  rewrite <- !H.
  - apply H2; auto. eapply Rlt_le_trans; [exact Hlt | apply Rmin_l].
  - rewrite Rabs_R0. auto.
  - rewrite Rplus_0_l. eapply Rlt_le_trans; [exact Hlt | apply Rmin_r].
Qed.
Lemma deriv_choice (c : R -> bool) (f g : R -> R) l : f 0 = g 0 -> derivable_pt_lim f 0 l -> derivable_pt_lim g 0 l ->
  derivable_pt_lim (fun t => if c t then f t else g t) 0 l.
Proof.
  intros H0 Hf Hg eps Heps. destruct (Hf eps Heps) as (d & H1). destruct (Hg eps Heps) as (e & H2).
  assert (Hp : 0 < Rmin d e) by (apply Rmin_glb_lt; apply cond_pos). exists (mkposreal _ Hp). simpl. intros h Hh Hlt.
  assert (E0 : (if c 0 then f 0 else g 0) = f 0) by (destruct (c 0); auto). rewrite E0. destruct (c (0 + h)).
  - apply H1; auto. eapply Rlt_le_trans; [exact Hlt | apply Rmin_l].
  - rewrite H0. apply H2; auto. eapply Rlt_le_trans; [exact Hlt | apply Rmin_r].
Qed.
Lemma deriv_keeps_below (f : R -> R) l b : derivable_pt_lim f 0 l -> f 0 < b -> exists e, 0 < e /\ forall t, Rabs t < e -> f t < b.
Proof.
  intros Hd Hb. assert (Hc : continuity_pt f 0) by (apply derivable_continuous_pt; exists l; auto).
  destruct (Hc (b - f 0)) as (e & He & H); [lra|]. exists e. split; auto. intros t Ht.
  destruct (Req_dec t 0) as [->|Hne]; [auto|].
  specialize (H t). simpl in H. unfold R_dist in H. rewrite Rminus_0_r in H.
  assert (Hx : Rabs (f t - f 0) < b - f 0) by (apply H; split; auto; split; [exact I | auto]).
  apply Rabs_def2 in Hx. lra.
Qed.

Lemma deriv_scal_r (f : R -> R) c x l : derivable_pt_lim f x l -> derivable_pt_lim (fun t => f t * c) x (l * c).
Proof.
  intros H. pose proof (derivable_pt_lim_mult f (fct_cte c) x l 0 H (derivable_pt_lim_const c x)) as H2.
  unfold mult_fct, fct_cte in H2. replace (l * c + f x * 0) with (l * c) in H2 by ring. exact H2.
Qed.

(* the outer branch *)
Lemma outer_deriv delta n : 0 < delta -> 0 < n ->
  derivable_pt_lim (fun n => 4 / 5 * delta * n * sqrt (sqrt (n / delta)) - 3 / 10 * delta * delta) n (delta * sqrt (sqrt (n / delta))).
Proof.
  intros Hd Hn. assert (Hq : 0 < n / delta) by (apply Rdiv_lt_0_compat; auto).
  assert (Hs : 0 < sqrt (n / delta)) by (apply sqrt_lt_R0; auto). assert (Hu : 0 < sqrt (sqrt (n / delta))) by (apply sqrt_lt_R0; auto).
  set (u := sqrt (sqrt (n / delta))) in *.
  assert (Huu : u * u = sqrt (n / delta)) by (apply sqrt_sqrt; lra).
  assert (H4 : u * u * (u * u) = n / delta) by (rewrite Huu; apply sqrt_sqrt; lra).
  assert (D1 : derivable_pt_lim (fun n => n / delta) n (/ delta)).
  { replace (/ delta) with (1 * / delta) by ring. apply (deriv_scal_r id). apply derivable_pt_lim_id. }
  assert (D2 : derivable_pt_lim (fun n => sqrt (n / delta)) n (/ (2 * sqrt (n / delta)) * / delta)).
  { apply (derivable_pt_lim_comp (fun n => n / delta) sqrt); auto. apply derivable_pt_lim_sqrt. auto. }
  assert (D3 : derivable_pt_lim (fun n => sqrt (sqrt (n / delta))) n (/ (2 * u) * (/ (2 * sqrt (n / delta)) * / delta))).
  { apply (derivable_pt_lim_comp (fun n => sqrt (n / delta)) sqrt); auto. apply derivable_pt_lim_sqrt. auto. }
  assert (D4 : derivable_pt_lim (fun n => 4 / 5 * delta * n) n (4 / 5 * delta)).
  { pose proof (derivable_pt_lim_scal id (4 / 5 * delta) n 1 (derivable_pt_lim_id n)) as H. rewrite Rmult_1_r in H. exact H. }
  pose proof (derivable_pt_lim_mult _ _ n _ _ D4 D3) as D5. unfold mult_fct in D5. fold u in D5.
  pose proof (derivable_pt_lim_minus _ _ n _ _ D5 (derivable_pt_lim_const (3 / 10 * delta * delta) n)) as D6.
  unfold minus_fct, fct_cte in D6. cbv beta in D6.
  replace (delta * u) with (4 / 5 * delta * u + 4 / 5 * delta * n * (/ (2 * u) * (/ (2 * sqrt (n / delta)) * / delta)) - 0); auto.
  rewrite <- Huu. assert (Hn4 : n = delta * (u * u * (u * u))) by (rewrite H4; field; lra).
  rewrite Hn4 at 1. field. split; lra.
Qed.
Lemma join delta : 0 < delta -> delta * delta / 2 = 4 / 5 * delta * delta * sqrt (sqrt (delta / delta)) - 3 / 10 * delta * delta.
Proof. intros H. replace (delta / delta) with 1 by (field; lra). rewrite !sqrt_1. lra. Qed.

Lemma quarter_deriv delta G w : 0 < delta -> vderiv G w ->
  let n := vnorm (G 0) in
  derivable_pt_lim (fun t => quarter_loss delta (vnorm (G t))) 0
    ((if Rlt_dec n delta then 1 else sqrt (delta / n) * sqrt (sqrt (delta / n))) * vdot (G 0) w).
Proof.
  intros Hd HG n. pose proof (sumsq_deriv G w HG) as HS.
  assert (Hnn : forall v : list R, vnorm v * vnorm v = sumsq v) by (intros v; unfold vnorm; rn; apply sqrt_sqrt, sumsq_nonneg).
  assert (Hn0 : 0 <= n) by (unfold n, vnorm; rn; apply sqrt_pos).
  assert (Hin : derivable_pt_lim (fun t => vnorm (G t) * vnorm (G t) / 2) 0 (vdot (G 0) w)).
  { replace (vdot (G 0) w) with (2 * vdot (G 0) w * / 2) by field. apply (deriv_ext (fun t => sumsq (G t) * / 2)).
    - intros t. rewrite Hnn. auto.
    - apply (deriv_scal_r (fun t => sumsq (G t))). exact HS. }
  assert (Hnorm : 0 < n -> derivable_pt_lim (fun t => vnorm (G t)) 0 (vdot (G 0) w / n)).
  { intros Hp. apply (deriv_ext (fun t => sqrt (sumsq (G t)))); [intros; reflexivity|].
    replace (vdot (G 0) w / n) with (/ (2 * sqrt (sumsq (G 0))) * (2 * vdot (G 0) w)).
    - apply (derivable_pt_lim_comp (fun t => sumsq (G t)) sqrt); auto. apply derivable_pt_lim_sqrt.
      rewrite <- Hnn. fold n. nra.
    - change (sqrt (sumsq (G 0))) with n. field. lra. }
  assert (Hout : delta <= n -> derivable_pt_lim (fun t => 4 / 5 * delta * vnorm (G t) * sqrt (sqrt (vnorm (G t) / delta)) - 3 / 10 * delta * delta) 0
     (sqrt (delta / n) * sqrt (sqrt (delta / n)) * vdot (G 0) w)).
  { intros Hge. assert (Hp : 0 < n) by lra.
    pose proof (derivable_pt_lim_comp (fun t => vnorm (G t)) _ 0 _ _ (Hnorm Hp) (outer_deriv delta (vnorm (G 0)) Hd Hp)) as H.
    fold n in H. replace (sqrt (delta / n) * sqrt (sqrt (delta / n)) * vdot (G 0) w) with (delta * sqrt (sqrt (n / delta)) * (vdot (G 0) w / n)); [exact H|].
    set (s := sqrt (delta / n)). set (q := sqrt s).
    assert (Hdn : 0 < delta / n) by (apply Rdiv_lt_0_compat; lra).
    assert (Hs0 : 0 < s) by (apply sqrt_lt_R0; lra). assert (Hq0 : 0 < q) by (apply sqrt_lt_R0; lra).
    assert (Hqq : q * q = s) by (apply sqrt_sqrt; lra). assert (Hss : s * s = delta / n) by (apply sqrt_sqrt; lra).
    assert (Hinv : sqrt (sqrt (n / delta)) = / q).
    { assert (H1 : sqrt (n / delta) = / s).
      { apply sqrt_lem_1; [apply Rlt_le, Rdiv_lt_0_compat; lra | left; apply Rinv_0_lt_compat; lra |]. rewrite <- Rinv_mult, Hss. field. lra. }
      rewrite H1. apply sqrt_lem_1; [left; apply Rinv_0_lt_compat; lra | left; apply Rinv_0_lt_compat; lra |]. rewrite <- Rinv_mult, Hqq. auto. }
    rewrite Hinv. replace (delta * / q * (vdot (G 0) w / n)) with (delta / n * / q * vdot (G 0) w) by (field; lra).
    rewrite <- Hss, <- Hqq. field. lra. }
  unfold quarter_loss. destruct (Rlt_dec n delta) as [Hlt|Hge].
  - rewrite Rmult_1_l. destruct (Rlt_or_le 0 n) as [Hp|Hz].
    + destruct (deriv_keeps_below _ _ delta (Hnorm Hp) Hlt) as (e & He & H).
      eapply deriv_local; [|exact Hin]. exists e. split; auto. intros t Ht. destruct (Rlt_dec (vnorm (G t)) delta) as [|Hc]; auto. elim Hc; auto.
    + assert (Hs : sumsq (G 0) < delta * delta) by (rewrite <- Hnn; fold n; nra).
      destruct (deriv_keeps_below _ _ _ HS Hs) as (e & He & H).
      eapply deriv_local; [|exact Hin]. exists e. split; auto. intros t Ht. destruct (Rlt_dec (vnorm (G t)) delta) as [|Hc]; auto.
      exfalso. specialize (H t Ht). rewrite <- Hnn in H. nra.
  - assert (Hge' : delta <= n) by lra. destruct (Rle_lt_or_eq_dec _ _ Hge') as [Hgt|Heq].
    + assert (Hneg : derivable_pt_lim (fun t => - vnorm (G t)) 0 (- (vdot (G 0) w / n))) by (apply derivable_pt_lim_opp, Hnorm; lra).
      destruct (deriv_keeps_below _ _ (- delta) Hneg) as (e & He & H); [fold n; lra|].
      eapply deriv_local; [|exact (Hout Hge')]. exists e. split; auto. intros t Ht. specialize (H t Ht).
      destruct (Rlt_dec (vnorm (G t)) delta); auto. lra.
    + apply (deriv_ext (fun t => if (if Rlt_dec (vnorm (G t)) delta then true else false) then vnorm (G t) * vnorm (G t) / 2
        else 4 / 5 * delta * vnorm (G t) * sqrt (sqrt (vnorm (G t) / delta)) - 3 / 10 * delta * delta)).
      { intros t. destruct (Rlt_dec (vnorm (G t)) delta); auto. }
      apply (deriv_choice (fun t => if Rlt_dec (vnorm (G t)) delta then true else false) (fun t => vnorm (G t) * vnorm (G t) / 2)).
      * fold n. rewrite <- Heq. apply join; auto.
      * replace (sqrt (delta / n) * sqrt (sqrt (delta / n)) * vdot (G 0) w) with (vdot (G 0) w); [exact Hin|].
        rewrite <- Heq. replace (delta / delta) with 1 by (field; lra). rewrite !sqrt_1. ring.
      * apply Hout; auto.
Qed.

(* ---- one factor ---- *)
Lemma scale_zero k n : vscale k (vzero n) = vzero n.
Proof. induction n; auto. rewrite vzero_S. unfold vscale in *. cbn [map]. rewrite IHn. f_equal. rn. ring. Qed.
Lemma scale_add k (a : list R) : forall b, vscale k (vadd a b) = vadd (vscale k a) (vscale k b).
Proof. induction a as [|x a IH]; intros [|y b]; auto. unfold vscale, vadd in *. cbn [zipw map]. rewrite IH. f_equal. rn. ring. Qed.
Lemma scaled_slots C L x k rd Ws : forall vs, slots_times C L x rd vs (map (map (vscale k)) Ws) = vscale k (slots_times C L x rd vs Ws).
Proof.
  unfold slots_times. induction Ws as [|W Ws IH]; intros [|v vs]; cbn [map zipw fold_right]; try (symmetry; apply scale_zero).
  rewrite IH, scale_add. f_equal. unfold mvec, vscale at 2. rewrite !map_map. apply map_ext. intros row. apply vdot_scale_l.
Qed.
Lemma factor_loss C L x (n : noise R) (F : R -> list R) vs Js Ws rw :
  robust_noise n -> noise_ok n -> (forall v, In v vs -> length (block C L x v) = vldim C v) ->
  Forall2 (fun v J => length J = noise_dim n /\ Forall (fun row => length row = vldim C v) J) vs Js ->
  vderiv F (slots_times C L x (noise_dim n) vs Js) -> whiten_residual n (F 0) = Ok rw ->
  traverse (fun J => whiten_jacobian n J rw) Js = Ok Ws ->
  derivable_pt_lim (fun t => followed_loss n (F t)) 0 (vdot rw (slots_times C L x (noise_dim n) vs Ws)).
Proof.
  intros Hrob Hn Hb HJ HF Hrw HW.
  assert (Hsl : length (slots_times C L x (noise_dim n) vs Js) = noise_dim n).
  { apply slots_length. clear - HJ. induction HJ; constructor; tauto. }
  destruct Hrob as [Hlin|(w & delta & -> & Hlin & Hd)].
  - destruct (whiten_deriv n F _ Hlin Hn Hsl HF) as (w & Hw & HG).
    assert (Hlr : length rw = noise_dim n).
    { pose proof (vderiv_len _ _ HF 0) as H0. rewrite Hsl in H0. destruct (whiten_ok n (F 0) Hn H0) as (rw' & E' & Hl'). congruence. }
    assert (Hwe : w = slots_times C L x (noise_dim n) vs Ws).
    { rewrite (whiten_slots C L x (noise_dim n) n vs Js Ws rw) in Hw by auto. congruence. }
    rewrite <- Hwe. pose proof (deriv_scal_r _ (/ 2) 0 _ (sumsq_deriv _ _ HG)) as H.
    cbv beta in H. rewrite Hrw in H. cbn [unwrap] in H. replace (2 * vdot rw w * / 2) with (vdot rw w) in H by field.
    eapply deriv_ext; [|exact H]. intros t. cbv beta.
    pose proof (vderiv_len _ _ HF t) as Ht. rewrite Hsl in Ht. destruct (whiten_ok n (F t) Hn Ht) as (wt & Et & _).
    destruct n as [W|D|]; [| |destruct Hlin]; unfold followed_loss; rewrite Et; reflexivity.
  - assert (Hn' : noise_ok w) by (apply Hn). cbn [noise_dim] in *.
    destruct (whiten_deriv w F _ Hlin Hn' Hsl HF) as (y & Hy & HG).
    assert (Hwt : forall t, exists wt, whiten_residual w (F t) = Ok wt /\ length wt = noise_dim w).
    { intros t. pose proof (vderiv_len _ _ HF t) as Ht. rewrite Hsl in Ht. exact (whiten_ok w (F t) Hn' Ht). }
    destruct (Hwt 0) as (r' & E' & Hl').
    destruct (huber_residual w delta (F 0) r' Hd E') as (HA & HB & _).
    assert (Hlr : length rw = noise_dim w).
    { destruct (Rlt_or_le (vnorm r') delta) as [H|H]; [rewrite (HA H) in Hrw | destruct (HB H) as (_ & HB'); rewrite HB' in Hrw];
        injection Hrw as <-; rewrite ?vscale_length; auto. }
    assert (HJw : exists Js', traverse (fun J => whiten_jacobian w J rw) Js = Ok Js' /\
      Ws = (if Rlt_dec (vnorm r') delta then Js' else map (map (vscale (sqrt (sqrt (delta / vnorm r'))))) Js')).
    { clear - HW HJ Hlr Hn' Hd E' Hrw Hl'. revert Ws HW. induction HJ as [|v J vs Js (H1 & H2) HJ IH]; intros Ws HW.
      - injection HW as <-. exists []. split; auto. destruct (Rlt_dec _ _); auto.
      - cbn [traverse] in HW. destruct (whiten_jacobian (Huber w (scal delta)) J rw) as [W1|] eqn:EW; [|discriminate].
        cbn [bind] in HW. destruct (traverse _ Js) as [Ws1|] eqn:ET in HW; [|discriminate]. injection HW as <-.
        destruct (IH Ws1 ET) as (Js' & T1 & T2).
        destruct (whiten_jac_ok w J rw (vldim C v) Hn' Hlr H1 H2) as (J' & EJ & HJ1 & HJ2).
        destruct (huber_jacobian w delta (F 0) r' rw J J' (vldim C v) Hd E' Hrw EJ) as (_ & Hlow & Hhigh & _).
        { split; auto. congruence. }
        exists (J' :: Js'). split; [cbn [traverse]; rewrite EJ; cbn [bind]; rewrite T1; auto|].
        destruct (Rlt_dec (vnorm r') delta) as [Hlt|Hge].
        + destruct (Hlow Hlt) as (_ & HE). rewrite EW in HE. injection HE as <-. congruence.
        + destruct (Hhigh ltac:(lra)) as (_ & JH & HE & HJH & _). rewrite EW in HE. injection HE as <-. cbn [map]. congruence. }
    destruct HJw as (Js' & HT & HWs).
    assert (Hye : y = slots_times C L x (noise_dim w) vs Js').
    { rewrite (whiten_slots C L x (noise_dim w) w vs Js Js' rw) in Hy by auto. congruence. }
    pose proof (quarter_deriv delta _ _ Hd HG) as HQ. cbv zeta in HQ. cbv beta in HQ. rewrite E' in HQ. cbn [unwrap] in HQ.
    eapply deriv_ext.
    { intros t. destruct (Hwt t) as (wt & Et & _). unfold followed_loss. rewrite Et. cbn [scal a_data]. instantiate (1 := fun t => quarter_loss delta (vnorm (unwrap [] (whiten_residual w (F t))))).
      cbv beta. rewrite Et. reflexivity. }
    replace (vdot rw (slots_times C L x (noise_dim w) vs Ws)) with
      ((if Rlt_dec (vnorm r') delta then 1 else sqrt (delta / vnorm r') * sqrt (sqrt (delta / vnorm r'))) * vdot r' y); [exact HQ|].
    rewrite HWs, Hye. destruct (Rlt_dec (vnorm r') delta) as [Hlt|Hge].
    + rewrite (HA Hlt) in Hrw. injection Hrw as <-. ring.
    + destruct (HB ltac:(lra)) as (_ & HE). assert (Er : rw = vscale (sqrt (delta / vnorm r')) r') by congruence. rewrite Er, scaled_slots, vdot_scale_l, vdot_scale_r. ring.
Qed.

(* ---- the whole graph ---- *)
Lemma sum_deriv {A} (f : A -> R -> R) (d : A -> R) l : (forall a, In a l -> derivable_pt_lim (f a) 0 (d a)) ->
  derivable_pt_lim (fun t => vsum (map (fun a => f a t) l)) 0 (vsum (map d l)).
Proof.
  induction l as [|a l IH]; intros H.
  - apply derivable_pt_lim_const.
  - change (derivable_pt_lim (fun t => f a t + vsum (map (fun a => f a t) l)) 0 (d a + vsum (map d l))).
    apply (derivable_pt_lim_plus (f a) (fun t => vsum (map (fun a => f a t) l))); [apply H; left; auto | apply IH; intros; apply H; right; auto].
Qed.
Lemma vdot_app (a a' b b' : list R) : length a = length b -> vdot (a ++ a') (b ++ b') = vdot a b + vdot a' b'.
Proof.
  revert b; induction a as [|x a IH]; intros [|y b] H; try discriminate H.
  - rewrite vdot_nil_l. simpl. lra.
  - cbn [app]. rewrite !vdot_cons, IH by (simpl in H; lia). lra.
Qed.
Lemma app_split {A} (a a' b b' : list A) : length a = length b -> a ++ a' = b ++ b' -> a = b /\ a' = b'.
Proof.
  revert b; induction a as [|x a IH]; intros [|y b] H E; try discriminate H; auto.
  cbn [app] in E. injection E as -> E. destruct (IH b ltac:(simpl in H; lia) E) as [-> ->]. auto.
Qed.
Lemma placed_dot E val r (Y : factor R * nat -> list R) l : forall o ws, traverse (whitened_at E val) l = Ok ws ->
  Forall2 (fun f w => length w = residual_dim f) l ws ->
  (forall fo, In fo (place residual_dim o l) -> length (Y fo) = residual_dim (fst fo)) ->
  slice r o (o + total residual_dim l) = concat ws -> (o + total residual_dim l <= length r)%nat ->
  vdot (concat ws) (concat (map Y (place residual_dim o l))) =
  vsum (map (fun fo => vdot (part r fo) (Y fo)) (place residual_dim o l)) /\
  Forall (fun fo => whitened_at E val (fst fo) = Ok (part r fo)) (place residual_dim o l).
Proof.
  induction l as [|f l IH]; intros o ws HT HF HY Hs Hb.
  - injection HT as <-. split; [apply vdot_nil_l | constructor].
  - cbn [traverse] in HT. destruct (whitened_at E val f) as [w|] eqn:Ew; [|discriminate]. cbn [bind] in HT.
    destruct (traverse (whitened_at E val) l) as [ws'|] eqn:ET; [|discriminate]. injection HT as <-.
    inversion HF as [|? ? ? ? Hw HF']; subst. cbn [place map concat] in *.
    change (total residual_dim (f :: l)) with (residual_dim f + total residual_dim l)%nat in *.
    assert (Hsplit : slice r o (o + (residual_dim f + total residual_dim l)) =
      slice r o (o + residual_dim f) ++ slice r (o + residual_dim f) (o + residual_dim f + total residual_dim l)).
    { rewrite Nat.add_assoc. symmetry. apply slice_app; lia. }
    rewrite Hsplit in Hs. apply app_split in Hs; [|rewrite slice_length; lia]. destruct Hs as [Hs1 Hs2].
    destruct (IH (o + residual_dim f)%nat ws' eq_refl HF') as [I1 I2]; auto; try lia.
    { intros fo Hin. apply HY. right; auto. }
    split.
    + rewrite vdot_app by (rewrite Hw; symmetry; apply (HY (f, o)); left; auto). rewrite I1.
      change (vdot w (Y (f, o)) + vsum (map (fun fo => vdot (part r fo) (Y fo)) (place residual_dim (o + residual_dim f) l)) =
        vdot (part r (f, o)) (Y (f, o)) + vsum (map (fun fo => vdot (part r fo) (Y fo)) (place residual_dim (o + residual_dim f) l))).
      unfold part at 2. cbn [fst snd]. rewrite Hs1. auto.
    + constructor; auto. cbn [fst]. unfold part. cbn [fst snd]. rewrite Hs1. auto.
Qed.

Section Graph.
Variable E : env R.
Let C := e_cls E.

Lemma place_sum (f : factor R -> R) l o : vsum (map (fun fo => f (fst fo)) (place residual_dim o l)) = vsum (map f l).
Proof.
  revert o; induction l as [|a l IH]; intros o; auto. cbn [place map fst].
  change (f a + vsum (map (fun fo => f (fst fo)) (place residual_dim (o + residual_dim a) l)) = f a + vsum (map f l)). rewrite IH. auto.
Qed.

Lemma form_gradient fs g a vs val x (valt : R -> var -> pytree R) (phi : factor R -> R -> R) :
  classes_ok C -> (forall f, In f fs -> factor_ok f) -> fs <> [] -> is_graph E fs g ->
  wf_assign C vs false a -> (forall t, of_type t vs = of_type t (mentioned fs)) ->
  (forall v, In v vs -> get_value C a v = Ok (val v)) ->
  (forall f, In f fs -> jacobian_shape_ok E val f) -> (forall f, In f fs -> residual_shape_ok E val f) ->
  total residual_dim fs <> 0%nat -> length x = l_dim (graph_layout E fs true) ->
  (forall t v, In v vs -> retract (C (v_ty v)) (val v) (vscale t (block C (graph_layout E fs true) x v)) = Ok (valt t v) /\
     value_ok (C (v_ty v)) (valt t v)) ->
  (forall f w Ws, In f fs -> whitened_at E val f = Ok w -> whitened_jacobians_at E val f w = Ok Ws ->
     derivable_pt_lim (phi f) 0 (vdot w (slots_times C (graph_layout E fs true) x (residual_dim f) (f_vars f) Ws))) ->
  exists r A grad, compute_whitened_residual_vector E g a = Ok r /\ compute_whitened_residual_jacobian E g a r = Ok A /\
    matmul (transpose A) r = Ok grad /\ length grad = l_dim (graph_layout E fs true) /\
    (forall t, exists a', manifold_retract C a (mkAssign (vscale t x) (graph_layout E fs true)) = Ok a' /\ assigns E fs a' (valt t)) /\
    derivable_pt_lim (fun t => vsum (map (fun f => phi f t) fs)) 0 (vdot grad x).
Proof.
  intros CO Hok Hne Hg Hwf Hty Hval Hj Hrs Hpos Hx Hret Hder.
  assert (Hvs : forall v, In v vs <-> In v (mentioned fs)).
  { intros v. specialize (Hty (v_ty v)). unfold of_type in Hty. split; intros H.
    - assert (Hf : In v (filter (fun w => Nat.eqb (v_ty w) (v_ty v)) vs)) by (apply filter_In; split; auto; apply Nat.eqb_refl).
      rewrite Hty in Hf. apply filter_In in Hf. tauto.
    - assert (Hf : In v (filter (fun w => Nat.eqb (v_ty w) (v_ty v)) (mentioned fs))) by (apply filter_In; split; auto; apply Nat.eqb_refl).
      rewrite <- Hty in Hf. apply filter_In in Hf. tauto. }
  assert (Ha : assigns E fs a val) by (exists vs; auto).
  destruct (residual_vector_ok E fs g a val Hok Hne Hg Ha Hrs) as (ws & Hws & Hvec).
  assert (HF : Forall2 (fun f w => length w = residual_dim f) (concat (kgroups fs)) ws).
  { apply traverse_forall2 in Hws. assert (Hin : forall f, In f (concat (kgroups fs)) -> In f fs) by (intros f; apply Permutation_in, kgroups_perm).
    clear - Hws Hin Hok Hrs. induction Hws as [|f w l ws Hf Hws IH]; constructor.
    - destruct (whitened_at_ok E val f) as (w' & Ew & Hl); [apply Hok, Hin; left; auto | apply Hrs, Hin; left; auto|]. congruence.
    - apply IH. intros; apply Hin; right; auto. }
  assert (Hlen : length (concat ws) = total residual_dim (concat (kgroups fs))).
  { clear - HF. induction HF as [|f w l ws H HF IH]; auto. cbn [concat]. rewrite app_length, IH, H. auto. }
  pose proof (total_perm residual_dim _ _ (kgroups_perm fs)) as Htot.
  destruct (jacobian_action E fs g a (concat ws) val Hok Hj Hg Ha ltac:(congruence) Hpos) as (A & EA & HA & Hsh & _ & Hact).
  exists (concat ws), A. eexists. split; auto. split; auto.
  assert (HlA : length (concat ws) = fst (m_shape A)) by (rewrite Hsh; simpl; congruence).
  split; [apply matmul_mapply; [apply transpose_ok; auto | unfold transpose; cbn [m_shape snd]; auto]|].
  split; [rewrite mapply_length; unfold transpose; cbn [m_shape fst snd]; rewrite Hsh; auto|]. split.
  - intros t. destruct (retract_values C vs (mentioned fs) a (mkAssign (vscale t x) (graph_layout E fs true)) (fun v => v) (valt t) CO Hwf) as (a' & Ea' & HLa & Hwf' & Hv').
    + repeat split; [apply mentioned_nodup|]. simpl. rewrite vscale_length. auto.
    + intros ty. rewrite map_id. auto.
    + intros v Hv. destruct (Hret t v Hv) as (H1 & H2). exists (val v). split; auto. split; auto. simpl. unfold C. rewrite block_vscale. auto.
    + exists a'. split; auto. exists vs; auto.
  - assert (HxA : length x = snd (m_shape A)) by (rewrite Hsh; auto).
    rewrite vdot_comm. rewrite <- mapply_adjoint by auto.
    specialize (Hact x Hx). rewrite matmul_mapply in Hact by auto. injection Hact as Hact. rewrite Hact, vdot_comm.
    set (Y := fun fo => apply_slots E (graph_layout E fs true) x (residual_dim (fst fo)) (f_vars (fst fo)) (wjacs E val (concat ws) fo)).
    assert (HW : forall fo, In fo (place residual_dim 0 (concat (kgroups fs))) -> In (fst fo) fs /\ whitened_jacobians_at E val (fst fo) (part (concat ws) fo) = Ok (wjacs E val (concat ws) fo) /\
      Forall2 (fun v W => length W = residual_dim (fst fo) /\ Forall (fun row => length row = vldim C v) W) (f_vars (fst fo)) (wjacs E val (concat ws) fo)).
    { intros [f o] Hin. pose proof (placed _ _ _ Hin) as (Hf & Hb). split; auto. apply wjacs_ok; [split; [apply Hok; auto | apply Hj; auto] | simpl; lia]. }
    destruct (placed_dot E val (concat ws) Y (concat (kgroups fs)) 0 ws Hws HF) as [HD HP].
    + intros fo Hin. destruct (HW fo Hin) as (_ & _ & H). apply apply_slots_length. clear - H. induction H; constructor; tauto.
    + simpl. apply slice_full. congruence.
    + simpl. lia.
    + rewrite HD. apply (deriv_ext (fun t => vsum (map (fun fo => phi (fst fo) t) (place residual_dim 0 (concat (kgroups fs)))))).
      { intros t. rewrite (place_sum (fun f => phi f t)). apply vsum_perm, Permutation_map, kgroups_perm. }
      apply (sum_deriv (fun fo t => phi (fst fo) t)).
      intros fo Hin. destruct (HW fo Hin) as (Hf & HWj & _). rewrite Forall_forall in HP. specialize (HP fo Hin).
      apply (Hder (fst fo) (part (concat ws) fo) (wjacs E val (concat ws) fo)); auto.
Qed.

Lemma loss_gradient fs g a vs val x (valt : R -> var -> pytree R) :
  classes_ok C -> (forall f, In f fs -> factor_ok f) -> fs <> [] -> is_graph E fs g ->
  wf_assign C vs false a -> (forall t, of_type t vs = of_type t (mentioned fs)) ->
  (forall v, In v vs -> get_value C a v = Ok (val v)) ->
  (forall f, In f fs -> jacobian_shape_ok E val f) -> (forall f, In f fs -> robust_noise (f_noise f)) ->
  total residual_dim fs <> 0%nat -> length x = l_dim (graph_layout E fs true) ->
  (forall t v, In v vs -> retract (C (v_ty v)) (val v) (vscale t (block C (graph_layout E fs true) x v)) = Ok (valt t v) /\
     value_ok (C (v_ty v)) (valt t v)) ->
  (forall v, In v vs -> valt 0 v = val v) ->
  (forall f, In f fs -> vderiv (fun t => residual_at E (valt t) f)
     (slots_times C (graph_layout E fs true) x (residual_dim f) (f_vars f) (jacobians_at E val f))) ->
  exists r A grad, compute_whitened_residual_vector E g a = Ok r /\ compute_whitened_residual_jacobian E g a r = Ok A /\
    matmul (transpose A) r = Ok grad /\ length grad = l_dim (graph_layout E fs true) /\
    (forall t, exists a', manifold_retract C a (mkAssign (vscale t x) (graph_layout E fs true)) = Ok a' /\ assigns E fs a' (valt t)) /\
    derivable_pt_lim (fun t => total_loss E fs (valt t)) 0 (vdot grad x).
Proof.
  intros CO Hok Hne Hg Hwf Hty Hval Hj Hrob Hpos Hx Hret Hval0 Hder.
  assert (Hvs : forall v, In v vs <-> In v (mentioned fs)).
  { intros v. specialize (Hty (v_ty v)). unfold of_type in Hty. split; intros H.
    - assert (Hf : In v (filter (fun w => Nat.eqb (v_ty w) (v_ty v)) vs)) by (apply filter_In; split; auto; apply Nat.eqb_refl).
      rewrite Hty in Hf. apply filter_In in Hf. tauto.
    - assert (Hf : In v (filter (fun w => Nat.eqb (v_ty w) (v_ty v)) (mentioned fs))) by (apply filter_In; split; auto; apply Nat.eqb_refl).
      rewrite <- Hty in Hf. apply filter_In in Hf. tauto. }
  assert (Hslots : forall f, In f fs -> length (slots_times C (graph_layout E fs true) x (residual_dim f) (f_vars f) (jacobians_at E val f)) = residual_dim f).
  { intros f Hf. apply slots_length. pose proof (Hj f Hf) as H. unfold jacobian_shape_ok in H. clear - H. induction H; constructor; tauto. }
  assert (Hres0 : forall f, In f fs -> residual_at E (valt 0) f = residual_at E val f).
  { intros f Hf. unfold residual_at. f_equal. apply map_ext_in. intros v Hv. apply Hval0, Hvs, mentioned_in. eauto. }
  apply (form_gradient fs g a vs val x valt (fun f t => followed_loss (f_noise f) (residual_at E (valt t) f))); auto.
  { intros f Hf. unfold residual_shape_ok. rewrite <- Hres0, (vderiv_len _ _ (Hder f Hf)) by auto. auto. }
  intros f w Ws Hf Hw HWs.
  apply (factor_loss C (graph_layout E fs true) x (f_noise f) (fun t => residual_at E (valt t) f) (f_vars f) (jacobians_at E val f)).
  - apply Hrob; auto.
  - apply Hok; auto.
  - intros v Hv. apply block_length; auto. apply mentioned_in. eauto.
  - apply (Hj f Hf).
  - apply (Hder f Hf).
  - rewrite Hres0 by auto. exact Hw.
  - exact HWs.
Qed.
End Graph.
