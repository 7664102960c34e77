(* Exact convergence of the preconditioned conjugate gradient iteration. *)
From Coq Require Import List Arith Bool Lia Reals Lra ZArith.
From Verif Require Import Num NumR Py Arr MSparse MLinear SpecSparse PBase PVec PSparse PLinear PCg PFin.
Import ListNotations.
Local Open Scope R_scope.

(* ---- orthogonal families in an n-dimensional space ---- *)
(* the bilinear form sum_i u_i v_i / d_i *)
Definition wdot (d u v : list R) : R := vdot u (zipw Rdiv v d).

Section Form.
Variables (n : nat) (d : list R).
Hypothesis Hd : length d = n.
Hypothesis Hpos : Forall (fun c => 0 < c) d.

Lemma wdot_seq u v : length u = n -> length v = n ->
  wdot d u v = vsum (map (fun i => nth i u 0 * nth i v 0 / nth i d 0) (seq 0 n)).
Proof.
  intros Hu Hv. unfold wdot. rewrite (vdot_seq _ _ n) by (rewrite ?zipw_length; lia).
  apply vsum_map_ext. intros i Hi. apply in_seq in Hi. rewrite (nth_zipw _ _ _ _ 0 0) by lia. unfold Rdiv. lra.
Qed.
Lemma wdot_comm u v : length u = n -> length v = n -> wdot d u v = wdot d v u.
Proof. intros. rewrite !wdot_seq by auto. apply vsum_map_ext. intros. unfold Rdiv. lra. Qed.
Lemma wdot_sub_r u v c w : length u = n -> length v = n -> length w = n ->
  wdot d u (vsub v (vscale c w)) = wdot d u v - c * wdot d u w.
Proof.
  intros Hu Hv Hw. assert (Hl : length (vsub v (vscale c w)) = n) by (rewrite vsub_length; rewrite ?vscale_length; lia).
  rewrite !wdot_seq by auto.
  assert (E : vsum (map (fun i => nth i u 0 * nth i (vsub v (vscale c w)) 0 / nth i d 0) (seq 0 n)) =
    vsum (map (fun i => nth i u 0 * nth i v 0 / nth i d 0 + (- c) * (nth i u 0 * nth i w 0 / nth i d 0)) (seq 0 n))).
  { apply vsum_map_ext. intros i _. rewrite nth_vsub by (rewrite vscale_length; lia). rewrite nth_vscale. unfold Rdiv. lra. }
  rewrite E, vsum_map_plus, vsum_map_scale. lra.
Qed.
Lemma dpos i : (i < n)%nat -> 0 < nth i d 0.
Proof. intros. rewrite Forall_forall in Hpos. apply Hpos, nth_In. lia. Qed.
Lemma wdot_nonneg u : length u = n -> 0 <= wdot d u u.
Proof.
  intros Hu. rewrite wdot_seq by auto. apply vsum_nonneg. intros z Hz. apply in_map_iff in Hz. destruct Hz as (i & <- & Hi).
  apply in_seq in Hi. apply Rle_mult_inv_pos; [apply Rle_0_sqr | apply dpos; lia].
Qed.
Lemma wdot_unit_r u i : length u = n -> (i < n)%nat -> wdot d u (unitv n i) = nth i u 0 / nth i d 0.
Proof.
  intros Hu Hi. rewrite wdot_seq by (auto; apply unitv_length).
  rewrite (vsum_map_ext _ (fun k => if Nat.eqb k i then nth k u 0 / nth k d 0 else 0)).
  - apply (vsum_pick n i (fun k => nth k u 0 / nth k d 0)); auto.
  - intros k Hk. apply in_seq in Hk. rewrite nth_unitv by lia. destruct (Nat.eqb k i); unfold Rdiv; lra.
Qed.

(* Bessel's inequality *)
Lemma bessel : forall us v, length v = n -> Forall (fun u => length u = n /\ 0 < wdot d u u) us ->
  ForallOrdPairs (fun u w => wdot d u w = 0) us ->
  vsum (map (fun u => wdot d u v * wdot d u v / wdot d u u) us) <= wdot d v v.
Proof.
  induction us as [|u us IH]; intros v Hv HF HO.
  - simpl map. rewrite vsum_nil. apply wdot_nonneg; auto.
  - inversion_clear HF as [|? ? [Hu Hp] HF']. inversion_clear HO as [|? ? HO1 HO2]. simpl map. rewrite vsum_cons.
    set (c := wdot d u v / wdot d u u). set (v' := vsub v (vscale c u)).
    assert (Hv' : length v' = n) by (unfold v'; rewrite vsub_length; rewrite ?vscale_length; lia).
    pose proof (IH v' Hv' HF' HO2) as H.
    assert (E1 : vsum (map (fun w => wdot d w v' * wdot d w v' / wdot d w w) us) = vsum (map (fun w => wdot d w v * wdot d w v / wdot d w w) us)).
    { apply vsum_map_ext. intros w Hw. rewrite Forall_forall in HO1, HF'. destruct (HF' w Hw) as [Hlw _].
      unfold v'. rewrite wdot_sub_r, (wdot_comm w u), (HO1 w Hw) by auto. rewrite Rmult_0_r, Rminus_0_r. auto. }
    assert (E2 : wdot d v' v' = wdot d v v - wdot d u v * wdot d u v / wdot d u u).
    { unfold v' at 2. rewrite wdot_sub_r by auto. rewrite (wdot_comm v' v), (wdot_comm v' u) by auto.
      unfold v'. rewrite !wdot_sub_r by auto. rewrite (wdot_comm v u) by auto. unfold c. field. lra. }
    rewrite E1, E2 in H. lra.
Qed.

Lemma vsum_const {A} (l : list A) c : vsum (map (fun _ => c) l) = INR (length l) * c.
Proof. induction l; [simpl; rewrite vsum_nil; lra|]. cbn [map length]. rewrite vsum_cons, IHl, S_INR. lra. Qed.

Lemma orthogonal_bound us : Forall (fun u => length u = n /\ 0 < wdot d u u) us ->
  ForallOrdPairs (fun u w => wdot d u w = 0) us -> (length us <= n)%nat.
Proof.
  intros HF HO. apply INR_le.
  assert (E : INR (length us) = vsum (map (fun i => vsum (map (fun u => nth i u 0 * nth i u 0 / nth i d 0 / wdot d u u) us)) (seq 0 n))).
  { rewrite vsum_swap. rewrite (vsum_map_ext _ (fun _ => 1)); [rewrite vsum_const; lra|].
    intros u Hin. rewrite Forall_forall in HF. destruct (HF u Hin) as [Hu Hp].
    rewrite (vsum_map_ext _ (fun i => / wdot d u u * (nth i u 0 * nth i u 0 / nth i d 0))) by (intros; unfold Rdiv; lra).
    rewrite vsum_map_scale, <- wdot_seq by auto. field. lra. }
  rewrite E. apply Rle_trans with (vsum (map (fun _ : nat => 1) (seq 0 n))).
  - apply vsum_le. intros i Hi. apply in_seq in Hi. pose proof (dpos i ltac:(lia)) as Hdi.
    pose proof (bessel us (unitv n i) (unitv_length n i) HF HO) as H.
    rewrite wdot_unit_r, nth_unitv, Nat.eqb_refl in H by (try apply unitv_length; lia).
    assert (E2 : vsum (map (fun u => wdot d u (unitv n i) * wdot d u (unitv n i) / wdot d u u) us) =
      / nth i d 0 * vsum (map (fun u => nth i u 0 * nth i u 0 / nth i d 0 / wdot d u u) us)).
    { rewrite <- vsum_map_scale. apply vsum_map_ext. intros u Hin. rewrite Forall_forall in HF. destruct (HF u Hin) as [Hu Hp].
      rewrite wdot_unit_r by (auto; lia). field. lra. }
    rewrite E2 in H. apply (Rmult_le_reg_l (/ nth i d 0)); [apply Rinv_0_lt_compat; auto|]. unfold Rdiv in H. lra.
  - rewrite vsum_const, seq_length. lra.
Qed.
Lemma wdot_zero_vec u : length u = n -> wdot d u u = 0 -> u = vzero n.
Proof.
  intros Hu H. apply (nth_ext' _ _ 0); [rewrite vzero_length; auto|]. intros i Hi.
  change 0 with (@n0 R NumR) at 2. rewrite (nth_vzero (T := R)). rn.
  destruct (Req_dec (nth i u 0) 0) as [|Hne]; auto. exfalso.
  rewrite wdot_seq in H by auto.
  assert (Hs : nth i u 0 * nth i u 0 / nth i d 0 <= 0).
  { pose proof (vsum_pick n i (fun k => nth k u 0 * nth k u 0 / nth k d 0) ltac:(lia)) as Hpk. cbv beta in Hpk.
    apply Rle_trans with (vsum (map (fun i => nth i u 0 * nth i u 0 / nth i d 0) (seq 0 n))); [rewrite <- Hpk | rewrite H; lra].
    apply vsum_le. intros k Hk. apply in_seq in Hk. destruct (Nat.eqb k i); [lra|].
    apply Rle_mult_inv_pos; [apply Rle_0_sqr | apply dpos; lia]. }
  assert (0 < nth i u 0 * nth i u 0 / nth i d 0).
  { apply Rdiv_lt_0_compat; [apply (Rsqr_pos_lt _ Hne) | apply dpos; lia]. }
  lra.
Qed.
End Form.

(* ---- the iteration ---- *)
Section Conv.
Variables (n : nat) (op : list R -> result (list R)) (f : list R -> list R) (d b : list R).
Hypothesis Hop : forall x, length x = n -> op x = Ok (f x).
Hypothesis Hlen : forall x, length x = n -> length (f x) = n.
Hypothesis Hadd : forall x y, length x = n -> length y = n -> f (vadd x y) = vadd (f x) (f y).
Hypothesis Hscale : forall k x, length x = n -> f (vscale k x) = vscale k (f x).
Hypothesis Hsym : forall x y, length x = n -> length y = n -> vdot x (f y) = vdot y (f x).
Hypothesis Hpsd : forall x, length x = n -> 0 <= vdot x (f x).
(* the right-hand side is consistent: orthogonal to every direction of zero curvature *)
Hypothesis Hcons : forall x, length x = n -> vdot x (f x) = 0 -> f x = vzero n /\ vdot x b = 0.
Hypothesis Hd : length d = n.
Hypothesis Hpos : Forall (fun c => 0 < c) d.
Hypothesis Hb : length b = n.
Let M (x : list R) := zipw Rdiv x d.

Lemma M_len x : length x = n -> length (M x) = n.
Proof. intros. unfold M. rewrite zipw_length. lia. Qed.
Lemma dot_M x y : vdot x (M y) = wdot d x y. Proof. reflexivity. Qed.
Lemma M_dot x y : length x = n -> length y = n -> vdot (M x) y = wdot d x y.
Proof. intros. rewrite vdot_comm, dot_M. apply (wdot_comm n); auto. Qed.

Record inv (P Rl : list (list R)) (x r : list R) (gamma : R) (p : list R) : Prop := {
  i_x : length x = n; i_p : length p = n; i_r : r = vsub b (f x);
  i_P : Forall (fun q => length q = n) P;
  i_R : Forall (fun s => length s = n /\ 0 < wdot d s s) Rl;
  i_orth : ForallOrdPairs (fun s t => wdot d s t = 0) Rl;
  i_1 : forall q, In q P -> vdot r q = 0;
  i_2 : forall q, In q P -> vdot p (f q) = 0;
  i_3 : forall s, In s Rl -> wdot d r s = 0;
  i_4 : vdot p r = gamma; i_4' : gamma = wdot d r r;
  i_5 : forall s w, In s (r :: Rl) -> length w = n -> (forall q, In q (p :: P) -> vdot w q = 0) -> vdot w (M s) = 0;
  i_6 : forall q u, In q P -> length u = n -> (forall s, In s (r :: Rl) -> vdot u s = 0) -> vdot u (f q) = 0 }.

Lemma r_len x : length x = n -> length (vsub b (f x)) = n.
Proof. intros. rewrite vsub_length; auto. rewrite Hlen; auto. Qed.

Lemma inv_step P Rl x r gamma p : inv P Rl x r gamma p -> r <> vzero n ->
  let alpha := gamma / vdot p (f p) in
  let x' := vadd x (vscale alpha p) in
  let r' := vsub r (vscale alpha (f p)) in
  let z' := M r' in
  let gamma' := vdot r' z' in
  let beta := gamma' / gamma in
  0 < vdot p (f p) /\ 0 < gamma /\ inv (p :: P) (r :: Rl) x' r' gamma' (vadd z' (vscale beta p)).
Proof.
  intros [Ix Ip Ir IP IR Io I1 I2 I3 I4 I4' I5 I6] Hne alpha x' r' z' gamma' beta.
  assert (Hr : length r = n) by (subst r; apply r_len; auto).
  assert (Hg : 0 < gamma).
  { pose proof (wdot_nonneg n d Hd Hpos r Hr). destruct (Req_dec gamma 0) as [E|E]; [|lra].
    exfalso. apply Hne. apply (wdot_zero_vec n d); auto. lra. }
  assert (Hk : 0 < vdot p (f p)).
  { pose proof (Hpsd p Ip). destruct (Req_dec (vdot p (f p)) 0) as [E|E]; [|lra]. exfalso.
    destruct (Hcons p Ip E) as [Ef Eb]. rewrite Ir, vdot_sub_r, Eb in I4 by (rewrite Hlen; auto).
    rewrite (Hsym p x) in I4 by auto. rewrite Ef, vdot_zero_r in I4. lra. }
  assert (Hal : alpha * vdot p (f p) = gamma) by (unfold alpha; field; lra).
  assert (Ha0 : 0 < alpha) by (unfold alpha; apply Rdiv_lt_0_compat; auto).
  assert (Hfp : length (f p) = n) by auto.
  assert (Hx' : length x' = n) by (unfold x'; rewrite vadd_length; rewrite ?vscale_length; lia).
  assert (Hr' : length r' = n) by (unfold r'; rewrite vsub_length; rewrite ?vscale_length; lia).
  assert (Hz' : length z' = n) by (apply M_len; auto).
  assert (Hrdot : forall y, vdot y r' = vdot y r - alpha * vdot y (f p)).
  { intros y. unfold r'. rewrite vdot_sub_r by (rewrite vscale_length; lia). rewrite vdot_scale_r. auto. }
  assert (J1 : forall q, In q (p :: P) -> vdot r' q = 0).
  { rewrite Forall_forall in IP. intros q [<-|Hin]; rewrite vdot_comm, Hrdot; [lra|].
    rewrite (vdot_comm q r), I1 by auto. rewrite Hsym, I2 by auto. lra. }
  assert (J3 : forall s, In s (r :: Rl) -> wdot d r' s = 0).
  { intros s Hin. rewrite <- dot_M. apply I5; auto. }
  assert (Hsl : forall s, In s (r :: Rl) -> length s = n).
  { rewrite Forall_forall in IR. intros s [<-|Hin]; auto. apply IR; auto. }
  assert (J3' : forall s, In s (r :: Rl) -> vdot z' s = 0).
  { intros s Hin. unfold z'. rewrite M_dot by auto. apply J3; auto. }
  assert (Hg' : gamma' = wdot d r' r') by reflexivity.
  assert (Hfpz : forall u, alpha * vdot u (f p) = vdot u r - vdot u r').
  { intros u. rewrite Hrdot. lra. }
  split; [auto|]. split; [auto|]. constructor; auto.
  - rewrite vadd_length; rewrite ?vscale_length; lia.
  - apply (vec_ext n); auto; [apply r_len; auto|]. intros y Hy. rewrite Hrdot, Ir. rewrite !vdot_sub_r by (rewrite Hlen; auto).
    unfold x'. rewrite Hadd, Hscale by (rewrite ?vscale_length; auto). rewrite vdot_add_r by (rewrite vscale_length, !Hlen; auto).
    rewrite vdot_scale_r. lra.
  - constructor; auto. split; auto. lra.
  - constructor; auto. apply Forall_forall. auto.
  - intros q Hin. assert (Hq : length q = n) by (destruct Hin as [<-|Hin]; auto; rewrite Forall_forall in IP; auto).
    rewrite vdot_add_l by (rewrite vscale_length; lia). rewrite vdot_scale_l.
    destruct Hin as [<-|Hin].
    + apply (Rmult_eq_reg_l alpha); [|lra]. rewrite Rmult_plus_distr_l, Hfpz, J3' by (left; auto).
      assert (E : alpha * (beta * vdot p (f p)) = gamma') by (replace (alpha * (beta * vdot p (f p))) with (beta * (alpha * vdot p (f p))) by lra; rewrite Hal; unfold beta; field; lra).
      rewrite E. unfold z'. rewrite M_dot, <- Hg' by auto. lra.
    + rewrite I6, (I2 q Hin) by auto. lra.
  - rewrite vdot_add_l by (rewrite vscale_length; lia). rewrite vdot_scale_l, (vdot_comm p r'), J1 by (left; auto).
    rewrite vdot_comm. fold z'. unfold gamma'. lra.
  - intros s w [<-|Hin] Hw Hq.
    + assert (H1 : vdot w (vadd z' (vscale beta p)) = 0) by (apply Hq; left; auto).
      rewrite vdot_add_r in H1 by (rewrite vscale_length; lia). rewrite vdot_scale_r, (Hq p) in H1 by (right; left; auto).
      fold z'. lra.
    + apply I5; auto. intros q Hq'. apply Hq. right. auto.
  - intros q u Hin Hu Hs. destruct Hin as [<-|Hin].
    + apply (Rmult_eq_reg_l alpha); [|lra]. rewrite Hfpz, (Hs r), (Hs r') by (simpl; auto). lra.
    + apply I6; auto. intros s Hs'. apply Hs. right. auto.
Qed.

Lemma conv_loop atol2 : 0 <= atol2 -> forall k P Rl x r gamma p, inv P Rl x r gamma p -> (length Rl + k = n)%nat ->
  (forall w, length w = n -> (forall q, In q P -> vdot w q = 0) -> vdot w x = 0) ->
  exists x' j, cg_loop k op M atol2 x r gamma p = Ok (x', j) /\ length x' = n /\
    sumsq (vsub b (f x')) <= atol2 /\ vdot (vsub b (f x')) x' = 0.
Proof.
  intros Hat. induction k as [|k IH]; intros P Rl x r gamma p HI Hk Hsp; cbn [cg_loop].
  - exists x, O. split; [auto|]. split; [apply (i_x _ _ _ _ _ _ HI)|]. rewrite <- (i_r _ _ _ _ _ _ HI).
    split; [|apply Hsp; [rewrite (i_r _ _ _ _ _ _ HI); apply r_len, (i_x _ _ _ _ _ _ HI) | apply (i_1 _ _ _ _ _ _ HI)]].
    destruct (list_eq_dec Req_EM_T r (vzero n)) as [->|Hne].
    + rewrite sumsq_dot, vdot_zero_r. auto.
    + exfalso. destruct (inv_step _ _ _ _ _ _ HI Hne) as (_ & _ & [_ _ _ _ HR HO _ _ _ _ _ _ _]).
      pose proof (orthogonal_bound n d Hd Hpos _ HR HO) as Hl. simpl in Hl. lia.
  - rn. unfold Rltb. destruct (Rlt_dec atol2 (vdot r r)) as [Hlt|Hge].
    + rewrite Hop by (apply (i_p _ _ _ _ _ _ HI)). cbn [bind].
      assert (Hne : r <> vzero n) by (intros ->; rewrite vdot_zero_r in Hlt; lra).
      destruct (inv_step _ _ _ _ _ _ HI Hne) as (_ & _ & HI').
      apply (IH _ _ _ _ _ _ HI'); [simpl; lia|].
      intros w Hw Hq. pose proof (i_x _ _ _ _ _ _ HI) as Hlx. pose proof (i_p _ _ _ _ _ _ HI) as Hlp.
      rewrite vdot_add_r by (rewrite vscale_length; lia). rewrite vdot_scale_r, (Hq p) by (left; auto). rewrite Hsp by (auto; intros; apply Hq; right; auto). lra.
    + exists x, (S k). split; [auto|]. split; [apply (i_x _ _ _ _ _ _ HI)|]. rewrite <- (i_r _ _ _ _ _ _ HI), sumsq_dot. split; [lra|].
      apply Hsp; [rewrite (i_r _ _ _ _ _ _ HI); apply r_len, (i_x _ _ _ _ _ _ HI) | apply (i_1 _ _ _ _ _ _ HI)].
Qed.

Lemma inv_start x : length x = n -> inv [] [] x (vsub b (f x)) (vdot (vsub b (f x)) (M (vsub b (f x)))) (M (vsub b (f x))).
Proof.
  intros Hx. assert (Hr := r_len x Hx). constructor; auto; try (simpl; tauto); try constructor.
  - apply M_len; auto.
  - rewrite vdot_comm. auto.
  - intros s w [<-|[]] Hw Hq. apply Hq. left. auto.
Qed.
End Conv.

(* ---- the solver of jaxfg, on extended reals: no division by zero is met ---- *)
#[local] Existing Instance NumXR | 100.
Lemma conv_loop_fin n f d b (opx : list xr -> result (list xr)) (Mx : list xr -> list xr) atol2 :
  (forall x, length x = n -> opx (fin x) = Ok (fin (f x))) ->
  (forall x, length x = n -> Mx (fin x) = fin (zipw Rdiv x d)) ->
  (forall x, length x = n -> length (f x) = n) ->
  (forall x y, length x = n -> length y = n -> f (vadd x y) = vadd (f x) (f y)) ->
  (forall k x, length x = n -> f (vscale k x) = vscale k (f x)) ->
  (forall x y, length x = n -> length y = n -> vdot x (f y) = vdot y (f x)) ->
  (forall x, length x = n -> 0 <= vdot x (f x)) ->
  (forall x, length x = n -> vdot x (f x) = 0 -> f x = vzero n /\ vdot x b = 0) ->
  length d = n -> Forall (fun c => 0 < c) d -> length b = n -> 0 <= atol2 ->
  forall k P Rl x r gamma p x' j, inv n f d b P Rl x r gamma p ->
  cg_loop k (fun x => Ok (f x)) (fun x => zipw Rdiv x d) atol2 x r gamma p = Ok (x', j) ->
  cg_loop k opx Mx (Fin atol2) (fin x) (fin r) (Fin gamma) (fin p) = Ok (fin x', j).
Proof.
  intros Hop HM H1 H2 H3 H4 H5 H6 H7 H8 H9 Hat. induction k as [|k IH]; intros P Rl x r gamma p x' j HI; cbn [cg_loop].
  - intros [= <- <-]. auto.
  - rewrite vdot_fin. cbn [nltb NumXR]. rewrite xltb_fin. cbn [nltb NumR bind].
    destruct (Rltb atol2 (vdot r r)) eqn:El; [|intros [= <- <-]; auto].
    assert (Hne : r <> vzero n).
    { intros ->. rewrite vdot_zero_r in El. unfold Rltb in El. destruct (Rlt_dec atol2 0); [lra | discriminate]. }
    destruct (inv_step n f d b H1 H2 H3 H4 H5 H6 H7 H8 H9 _ _ _ _ _ _ HI Hne) as (Hk & Hg & HI').
    rewrite Hop by (apply (i_p _ _ _ _ _ _ _ _ _ _ HI)). cbn [bind]. intros E.
    rewrite vdot_fin. cbn [ndiv NumXR]. rewrite xdiv_fin by lra. rewrite vscale_fin, vadd_fin, vscale_fin, vsub_fin.
    assert (Hrl : length (vsub r (vscale (gamma / vdot p (f p)) (f p))) = n).
    { pose proof (i_r _ _ _ _ _ _ _ _ _ _ HI'). rewrite (i_r _ _ _ _ _ _ _ _ _ _ HI'). apply r_len; auto.
      apply (i_x _ _ _ _ _ _ _ _ _ _ HI'). }
    rewrite HM by auto. rewrite vdot_fin, xdiv_fin by lra. rewrite vscale_fin, vadd_fin.
    eapply IH; eauto.
Qed.

Lemma diag_pos (A : coo R) : coo_ok A -> 
  (forall j, (j < snd (m_shape A))%nat -> exists r v, In (r, j, v) (triples A) /\ v <> 0) ->
  Forall (fun c => 0 < c) (ata_diagonals A (snd (m_shape A))).
Proof.
  intros Hok Hc. apply Forall_forall. intros c Hin. apply (In_nth _ _ 0) in Hin. destruct Hin as (j & Hj & <-).
  rewrite diag_length in Hj. rewrite <- (vdot_unitv (snd (m_shape A)) j) by (auto; apply diag_length).
  rewrite diag_dot by (auto; apply unitv_length).
  destruct (Hc j Hj) as (r & v & Hin & Hv). apply in_split in Hin. destruct Hin as (l1 & l2 & E). 
  assert (Hnn : forall l, incl l (triples A) -> 0 <= vsum (map (fun t => snd t * snd t * nth (snd (fst t)) (unitv (snd (m_shape A)) j) 0) l)).
  { intros l Hl. apply vsum_nonneg. intros z Hz. apply in_map_iff in Hz. destruct Hz as ([[r' c'] v'] & <- & Ht).
    destruct (triples_in A r' c' v' Hok (Hl _ Ht)) as [_ Hc']. simpl. rewrite nth_unitv by auto.
    pose proof (Rle_0_sqr v') as Hs. unfold Rsqr in Hs. destruct (Nat.eqb c' j); lra. }
  rewrite E, map_app, vsum_app. cbn [map]. rewrite vsum_cons. cbn [fst snd]. rewrite nth_unitv, Nat.eqb_refl by auto.
  assert (0 <= vsum (map (fun t => snd t * snd t * nth (snd (fst t)) (unitv (snd (m_shape A)) j) 0) l1)).
  { apply Hnn. intros z Hz. rewrite E. apply in_app_iff. auto. }
  assert (0 <= vsum (map (fun t => snd t * snd t * nth (snd (fst t)) (unitv (snd (m_shape A)) j) 0) l2)).
  { apply Hnn. intros z Hz. rewrite E. apply in_app_iff. simpl. auto. }
  pose proof (Rsqr_pos_lt v Hv) as Hs. unfold Rsqr in Hs. lra.
Qed.

Lemma vsum_zero_each {B} (g : B -> R) l : (forall x, In x l -> 0 <= g x) -> vsum (map g l) = 0 -> forall x, In x l -> g x = 0.
Proof.
  induction l as [|y l IH]; intros Hn; cbn [map]; [intros _ x []|]. rewrite vsum_cons. intros E.
  assert (0 <= vsum (map g l)).
  { apply vsum_nonneg. intros z Hz. apply in_map_iff in Hz. destruct Hz as (x & <- & Hx). apply Hn. right. auto. }
  pose proof (Hn y (or_introl eq_refl)). intros x [<-|Hx]; [lra|]. apply IH; auto; [intros; apply Hn; right; auto | lra].
Qed.

Lemma cg_consistent (A : coo R) lambd rhs x : coo_ok A -> 0 <= lambd -> length rhs = fst (m_shape A) -> length x = snd (m_shape A) ->
  vdot x (cg_op A lambd x) = 0 -> cg_op A lambd x = vzero (snd (m_shape A)) /\ vdot x (mapply (transpose A) rhs) = 0.
Proof.
  intros Hok Hl Hr Hx. rewrite cg_form by auto. rewrite <- sumsq_dot. intros E.
  pose proof (sumsq_nonneg (mapply A x)) as H1. pose proof (Rmult_le_pos _ _ Hl (diag_form_nonneg A x)) as H2.
  assert (EA : mapply A x = vzero (fst (m_shape A))) by (rewrite <- (mapply_length A x); apply sumsq_zero; lra).
  assert (ED : lambd * diag_form A x x = 0) by lra.
  split.
  - apply (vec_ext (snd (m_shape A))); [apply cg_op_length; auto | apply vzero_length|]. intros y Hy.
    rewrite cg_form by auto. rewrite EA, !vdot_zero_r.
    assert (Ey : lambd * diag_form A y x = 0).
    { apply Rmult_integral in ED. destruct ED as [->|ED]; [lra|].
      assert (Hz : diag_form A y x = 0); [|rewrite Hz; lra].
      unfold diag_form in *. apply vsum_map_zero. intros t Ht.
      assert (Et : snd t * snd t * (nth (snd (fst t)) x 0 * nth (snd (fst t)) x 0) = 0).
      { apply (vsum_zero_each (fun t => snd t * snd t * (nth (snd (fst t)) x 0 * nth (snd (fst t)) x 0)) (triples A)); auto.
        intros s _. apply Rmult_le_pos; [apply (Rle_0_sqr (snd s)) | apply (Rle_0_sqr (nth (snd (fst s)) x 0))]. }
      apply Rmult_integral in Et. destruct Et as [->|Et]; [lra|]. apply Rmult_integral in Et. destruct Et as [->| ->]; lra. }
    lra.
  - rewrite <- mapply_adjoint, EA by auto. apply vdot_zero_l.
Qed.

Lemma cg_converges (A : coo R) rhs lambd it (tol : nat -> R) : coo_ok A -> 0 <= lambd -> length rhs = fst (m_shape A) ->
  (forall j, (j < snd (m_shape A))%nat -> exists r v, In (r, j, v) (triples A) /\ v <> 0) ->
  let c := mapply (transpose A) rhs in
  exists x, cg_solve tol A c lambd it = Ok x /\
    cg_solve (fun i => Fin (tol i)) (coo_fin A) (fin c) (Fin lambd) it = Ok (fin x) /\
    length x = snd (m_shape A) /\ sumsq (vsub c (cg_op A lambd x)) <= tol it * tol it * sumsq c /\ vdot x c = vdot x (cg_op A lambd x).
Proof.
  intros Hok Hl Hr Hcol c. set (n := snd (m_shape A)). assert (Hc : length c = n) by apply mapply_length.
  set (atol2 := Rmax (tol it * tol it * vdot c c) (0 * 0)).
  assert (Hsq : 0 <= tol it * tol it * vdot c c).
  { apply Rmult_le_pos; [apply (Rle_0_sqr (tol it))|]. rewrite <- sumsq_dot. apply sumsq_nonneg. }
  assert (Hat : atol2 = tol it * tol it * vdot c c) by (unfold atol2; rewrite Rmax_left; lra).
  destruct (cg_op_linear A lambd Hok) as [Ha Hs]. destruct (cg_sym_psd A lambd Hok) as [Hsym Hpsd].
  pose proof (diag_pos A Hok Hcol) as Hdp. fold n in Hdp, Ha, Hs, Hsym, Hpsd.
  pose proof (diag_length A n) as Hdl.
  assert (Hcons : forall x, length x = n -> vdot x (cg_op A lambd x) = 0 -> cg_op A lambd x = vzero n /\ vdot x c = 0)
    by (intros; apply cg_consistent; auto).
  assert (Hlen := cg_op_length A lambd). fold n in Hlen.
  assert (Hz : length (@vzero R NumR n) = n) by apply vzero_length.
  assert (HI := inv_start n (cg_op A lambd) (ata_diagonals A n) c Hlen Hdl Hc (vzero n) Hz).
  destruct (conv_loop n (fun x => Ok (cg_op A lambd x)) (cg_op A lambd) (ata_diagonals A n) c
              (fun x _ => eq_refl) Hlen Ha Hs Hsym (Hpsd Hl) Hcons Hdl Hdp Hc atol2 ltac:(lra) n [] []
              _ _ _ _ HI eq_refl (fun w _ _ => vdot_zero_r n w)) as (x & j & E & Hx & Hres & Hgal).
  assert (Hata : forall x, length x = n -> ata_function A lambd n x = Ok (cg_op A lambd x))
    by (intros y Hy; apply ata_function_ok; auto).
  assert (Hext : forall k x r gamma p, length x = n -> length p = n -> length r = n ->
    cg_loop k (ata_function A lambd n) (jacobi A n) atol2 x r gamma p =
    cg_loop k (fun x => Ok (cg_op A lambd x)) (fun x => zipw Rdiv x (ata_diagonals A n)) atol2 x r gamma p).
  { induction k; intros x0 r gamma p Hx0 Hp Hrl; cbn [cg_loop]; auto.
    destruct (nltb atol2 (vdot r r)); auto. rewrite Hata by auto. cbn [bind].
    assert (L1 : length (vsub r (vscale (ndiv gamma (vdot p (cg_op A lambd p))) (cg_op A lambd p))) = n).
    { rewrite vsub_length; auto. rewrite vscale_length, Hlen; auto. }
    pose proof (jacobi_length A n _ L1) as L2.
    apply IHk; auto; rewrite vadd_length; rewrite ?vscale_length; auto; idtac. all: rewrite ?L2; auto; try (exact L2); try (etransitivity; [exact L2|auto]). all: try lia. }
  exists x. assert (Hl0 : length (vsub c (cg_op A lambd (vzero n))) = n) by (apply (r_len n _ c); auto).
  assert (Hjl : length (zipw Rdiv (vsub c (cg_op A lambd (vzero n))) (ata_diagonals A n)) = n) by (rewrite zipw_length; lia).
  split; [|split; [|split; [auto|split]]].
  - unfold cg_solve, cg_run, cg. rewrite Hc, Hata by auto. cbn [bind].
    change (nmax (nmul (nmul (tol it) (tol it)) (vdot c c)) (nmul n0 n0)) with atol2.
    rewrite Hext by auto. unfold jacobi. cbn [ndiv NumR]. rewrite E. reflexivity.
  - unfold cg_solve, cg_run, cg. rewrite fin_length, Hc, vzero_fin, ata_function_fin, Hata by auto. cbn [bind].
    rewrite vsub_fin, vdot_fin. cbn [nmul n0 nmax NumXR].
    change (xmul (xmul (Fin (tol it)) (Fin (tol it))) (Fin (vdot c c))) with (Fin (tol it * tol it * vdot c c)).
    change (xmul (Fin 0) (Fin 0)) with (Fin (0 * 0)). rewrite xmax_fin. fold atol2.
    assert (Hjx : forall y, jacobi (coo_fin A) n (fin y) = fin (zipw Rdiv y (ata_diagonals A n))).
    { intros y. unfold jacobi. rewrite ata_diagonals_fin. cbn [ndiv NumXR]. apply zipw_div_fin.
      eapply Forall_impl; [|exact Hdp]. intros a H. simpl in H. lra. }
    rewrite Hjx, vdot_fin.
    rewrite (conv_loop_fin n (cg_op A lambd) (ata_diagonals A n) c (ata_function (coo_fin A) (Fin lambd) n) (jacobi (coo_fin A) n) atol2)
      with (P := []) (Rl := []) (x' := x) (j := j); auto; try reflexivity; try (apply Hpsd; auto).
    + intros y Hy. rewrite ata_function_fin, Hata by auto. reflexivity.
    + lra.
  - rewrite sumsq_dot at 1. rewrite <- sumsq_dot. rewrite (sumsq_dot c), <- Hat. exact Hres.
  - rewrite vdot_comm, vdot_sub_r in Hgal by (rewrite Hlen; auto). lra.
Qed.
