(* Programs and their forward-mode derivatives near a point where they are smooth: Lipschitz
   derivative, quadratic linearisation error, between any two points near it. *)
From Coq Require Import List Arith Bool Lia ZArith Reals Lra.
From Verif Require Import Num NumR Py Arr MLayout MAssign MNoise MFactor MGraph MAuto MDual SpecLayout SpecTree SpecAssign SpecGraph SpecDeriv SpecAuto SpecDual.
From Verif Require Import PBase PTree PVec PSolverR PAuto PDeriv PAutoR PDual.
Import ListNotations.
Local Open Scope R_scope.

(* ---- functions of one real ---- *)
Definition curve (phi phi1 : R -> R) (a : R) : Prop := exists h B, 0 < h /\ 0 <= B /\ forall s t, Rabs (s - a) < h -> Rabs (t - a) < h ->
  Rabs (phi s - phi t - phi1 t * (s - t)) <= B * (Rabs (t - s) * Rabs (t - s)) /\ Rabs (phi1 t - phi1 s) <= B * Rabs (t - s).
Lemma continuous_bounded phi a : continuity_pt phi a -> exists h B, 0 < h /\ 0 <= B /\ forall t, Rabs (t - a) < h -> Rabs (phi t) <= B.
Proof.
  intros H. destruct (H 1 Rlt_0_1) as (h & Hh & Hd). exists h, (Rabs (phi a) + 1). pose proof (Rabs_pos (phi a)). split; auto. split; [lra|]. intros t Ht.
  destruct (Req_dec t a) as [->|Hne]; [lra|]. assert (Hd1 : Rabs (phi t - phi a) < 1). { apply Hd. split; [split; [exact I | auto]|]. exact Ht. }
  replace (phi t) with ((phi t - phi a) + phi a) by ring. eapply Rle_trans; [apply Rabs_triang|]. lra.
Qed.
(* the mean value theorem between any two points near a *)
Lemma mean_value phi phi1 a h s t : (forall u, Rabs (u - a) < h -> derivable_pt_lim phi u (phi1 u)) -> Rabs (s - a) < h -> Rabs (t - a) < h ->
  exists c, Rabs (c - a) < h /\ Rabs (t - c) <= Rabs (t - s) /\ phi s - phi t = phi1 c * (s - t).
Proof.
  intros H Hs Ht. destruct (Rtotal_order t s) as [Hlt|[->|Hgt]].
  - destruct (MVT_cor2 phi phi1 t s Hlt) as (c & Hc & Hc0).
    + intros u Hu. apply H. apply Rabs_def2 in Hs, Ht. apply Rabs_def1; lra.
    + exists c. apply Rabs_def2 in Hs, Ht. split; [apply Rabs_def1; lra|]. split; auto. rewrite !Rabs_left1 by lra. lra.
  - exists s. split; auto. split; [lra | ring].
  - destruct (MVT_cor2 phi phi1 s t Hgt) as (c & Hc & Hc0).
    + intros u Hu. apply H. apply Rabs_def2 in Hs, Ht. apply Rabs_def1; lra.
    + exists c. apply Rabs_def2 in Hs, Ht. split; [apply Rabs_def1; lra|]. split; [rewrite !Rabs_right by lra; lra | lra].
Qed.
Lemma curve_of phi phi1 phi2 a h0 : 0 < h0 -> (forall t, Rabs (t - a) < h0 -> derivable_pt_lim phi t (phi1 t)) -> (forall t, Rabs (t - a) < h0 -> derivable_pt_lim phi1 t (phi2 t)) ->
  continuity_pt phi2 a -> curve phi phi1 a.
Proof.
  intros P0 H1 H2 H3. destruct (continuous_bounded _ _ H3) as (h3 & B & P3 & PB & HB). set (h := Rmin h0 h3). assert (Ph : 0 < h) by (apply Rmin_pos; auto).
  assert (D1 : forall t, Rabs (t - a) < h -> derivable_pt_lim phi t (phi1 t)) by (intros t Ht; apply H1; eapply Rlt_le_trans; [exact Ht | apply Rmin_l]).
  assert (D2 : forall t, Rabs (t - a) < h -> derivable_pt_lim phi1 t (phi2 t)) by (intros t Ht; apply H2; eapply Rlt_le_trans; [exact Ht | apply Rmin_l]).
  assert (HB' : forall t, Rabs (t - a) < h -> Rabs (phi2 t) <= B) by (intros t Ht; apply HB; eapply Rlt_le_trans; [exact Ht | apply Rmin_r]).
  assert (L : forall s t, Rabs (s - a) < h -> Rabs (t - a) < h -> Rabs (phi1 t - phi1 s) <= B * Rabs (t - s)).
  { intros s t Hs Ht. destruct (mean_value phi1 phi2 a h t s D2 Ht Hs) as (c & Hc & _ & ->). rewrite Rabs_mult. apply Rmult_le_compat_r; [apply Rabs_pos | auto]. }
  exists h, B. split; auto. split; auto. intros s t Hs Ht. split; auto. destruct (mean_value phi phi1 a h s t D1 Hs Ht) as (c & Hc & Hct & ->).
  replace (phi1 c * (s - t) - phi1 t * (s - t)) with (- ((phi1 t - phi1 c) * (s - t))) by ring. rewrite Rabs_Ropp, Rabs_mult, (Rabs_minus_sym s t). rewrite <- Rmult_assoc. apply Rmult_le_compat_r; [apply Rabs_pos|].
  eapply Rle_trans; [apply L; auto|]. apply Rmult_le_compat_l; auto.
Qed.
Lemma lim_sin_neg a : derivable_pt_lim (fun t => - sin t) a (- cos a).
Proof. apply (derivable_pt_lim_opp sin). apply derivable_pt_lim_sin. Qed.
Lemma curve_sin a : curve sin cos a.
Proof. apply (curve_of sin cos (fun t => - sin t) a 1); [lra | intros; apply derivable_pt_lim_sin | intros; apply derivable_pt_lim_cos | reg]. Qed.
Lemma curve_cos a : curve cos (fun t => - sin t) a.
Proof. apply (curve_of cos (fun t => - sin t) (fun t => - cos t) a 1); [lra | intros; apply derivable_pt_lim_cos | intros; apply lim_sin_neg | reg]. Qed.
Lemma curve_exp a : curve exp exp a.
Proof. apply (curve_of exp exp exp a 1); [lra | intros; apply derivable_pt_lim_exp | intros; apply derivable_pt_lim_exp | reg]. Qed.
Lemma curve_sqr a : curve (fun t => t * t) (fun t => 2 * t) a.
Proof.
  apply (curve_of _ _ (fun _ => 2) a 1); [lra | intros t _ | intros; apply lim_scale | reg].
  replace (2 * t) with (1 * t + t * 1) by ring. apply (derivable_pt_lim_mult id id t 1 1); apply derivable_pt_lim_id.
Qed.
Lemma curve_scale c a : curve (fun t => c * t) (fun _ => c) a.
Proof. apply (curve_of _ _ (fun _ => 0) a 1); [lra | intros t _; apply lim_scale | intros; apply derivable_pt_lim_const | reg]. Qed.
Lemma lim_inv t : t <> 0 -> derivable_pt_lim Rinv t (- / (t * t)).
Proof.
  intros Hz. pose proof (derivable_pt_lim_div (fct_cte 1) id t 0 1 (derivable_pt_lim_const 1 t) (derivable_pt_lim_id t) Hz) as Hi.
  eapply derivable_pt_lim_ext; [|replace (- / (t * t)) with ((0 * id t - 1 * fct_cte 1 t) / Rsqr (id t)); [exact Hi|]].
  - intros z. unfold div_fct, fct_cte, id, Rdiv. ring.
  - unfold fct_cte, id, Rsqr. field. auto.
Qed.
Lemma away t a : Rabs (t - a) < Rabs a -> t <> 0.
Proof. intros H ->. rewrite Rminus_0_l, Rabs_Ropp in H. lra. Qed.
Lemma lim_inv_sqr t : t <> 0 -> derivable_pt_lim (fun t => - / (t * t)) t (- (- / ((t * t) * (t * t)) * (1 * t + t * 1))).
Proof.
  intros Hz. apply (derivable_pt_lim_opp (fun t => / (t * t))). apply (derivable_pt_lim_comp (fun t => t * t) Rinv t (1 * t + t * 1)).
  - apply (derivable_pt_lim_mult id id t 1 1); apply derivable_pt_lim_id.
  - apply lim_inv. apply Rmult_integral_contrapositive. auto.
Qed.
Lemma curve_inv a : a <> 0 -> curve Rinv (fun t => - / (t * t)) a.
Proof.
  intros Ha. apply (curve_of _ _ (fun t => - (- / ((t * t) * (t * t)) * (1 * t + t * 1))) a (Rabs a)).
  - apply Rabs_pos_lt; auto.
  - intros t Ht. apply lim_inv. eapply away; eauto.
  - intros t Ht. apply lim_inv_sqr. eapply away; eauto.
  - reg. repeat apply Rmult_integral_contrapositive_currified; auto.
Qed.
Lemma curve_sqrt a : 0 < a -> curve sqrt (fun t => / (2 * sqrt t)) a.
Proof.
  intros Ha. assert (Hpos : forall t, Rabs (t - a) < a -> 0 < t) by (intros t Ht; apply Rabs_def2 in Ht; lra).
  apply (curve_of _ _ (fun t => - / ((2 * sqrt t) * (2 * sqrt t)) * (2 * / (2 * sqrt t))) a a); auto.
  - intros t Ht. apply derivable_pt_lim_sqrt. auto.
  - intros t Ht. apply (derivable_pt_lim_comp (fun t => 2 * sqrt t) Rinv t).
    + apply (derivable_pt_lim_scal sqrt). apply derivable_pt_lim_sqrt. auto.
    + apply lim_inv. pose proof (sqrt_lt_R0 t (Hpos t Ht)). lra.
  - pose proof (sqrt_lt_R0 a Ha) as Hs. reg; try lra. apply Rmult_integral_contrapositive_currified; lra.
Qed.

(* ---- functions of n reals, around x ---- *)
Section Centre.
Variable n : nat.
Variable x : nat -> R.
Notation tot f := (vsum (map f (seq 0 n))).
Notation dd y y' := (tot (fun k => Rabs (y k - y' k))).
(* between any two points y and y' close to x *)
Definition tame (f : (nat -> R) -> R) (J : (nat -> R) -> nat -> R) : Prop := exists r B, 0 < r /\ 0 <= B /\ forall y y', near n x r y -> near n x r y' ->
  Rabs (f y - f y') <= B * dd y y' /\ (forall k, (k < n)%nat -> Rabs (J y k - J y' k) <= B * dd y y') /\
  Rabs (f y' - f y - tot (fun k => J y k * (y' k - y k))) <= B * (dd y y' * dd y y').
Lemma near_self r : 0 < r -> near n x r x.
Proof. intros H. split; auto. intros k. rewrite Rminus_eq_0, Rabs_R0. auto. Qed.
Lemma tot_two r y y' : near n x r y -> near n x r y' -> dd y y' <= 2 * INR n * r.
Proof.
  intros (H1 & _) (H2 & _). replace (2 * INR n * r) with (tot (fun _ : nat => 2 * r)) by (rewrite vsum_const, seq_length; ring). apply vsum_le. intros k _.
  replace (y k - y' k) with ((y k - x k) - (y' k - x k)) by ring. eapply Rle_trans; [apply Rabs_triang|]. rewrite Rabs_Ropp. specialize (H1 k). specialize (H2 k). lra.
Qed.
Lemma tame_local f J f' J' : (exists r, 0 < r /\ forall y, near n x r y -> f y = f' y /\ forall k, (k < n)%nat -> J y k = J' y k) -> tame f J -> tame f' J'.
Proof.
  intros (r0 & P0 & Heq) (r & B & Pr & PB & H). exists (Rmin r0 r), B. split; [apply Rmin_pos; auto|]. split; auto. intros y y' Hy Hy'.
  destruct (Heq y (near_le _ _ _ _ _ (Rmin_l _ _) Hy)) as (E1 & E2). destruct (Heq y' (near_le _ _ _ _ _ (Rmin_l _ _) Hy')) as (E3 & E4).
  destruct (H y y' (near_le _ _ _ _ _ (Rmin_r _ _) Hy) (near_le _ _ _ _ _ (Rmin_r _ _) Hy')) as (H1 & H2 & H3). rewrite <- E1, <- E3. split; auto. split.
  - intros k Hk. rewrite <- E2, <- E4 by auto. auto.
  - rewrite (vsum_map_ext (fun k => J' y k * (y' k - y k)) (fun k => J y k * (y' k - y k))); [exact H3|]. intros k Hk. apply in_seq in Hk. rewrite E2 by lia. auto.
Qed.
Lemma tame_ext f J f' J' : (forall y, f y = f' y) -> (forall y k, J y k = J' y k) -> tame f J -> tame f' J'.
Proof. intros H1 H2. apply tame_local. exists 1. split; [lra|]. intros y _. split; auto. Qed.
Lemma tame_const c : tame (fun _ => c) (fun _ _ => 0).
Proof.
  exists 1, 0. split; [lra|]. split; [lra|]. intros y y' _ _. rewrite vsum_map_scale, !Rmult_0_l, !Rminus_eq_0, Rabs_R0. repeat split; intros; lra.
Qed.
Lemma onehot_sum j (u : nat -> R) : (forall k, (n <= k)%nat -> u k = 0) -> tot (fun k => @onehot R NumR j k * u k) = u j.
Proof.
  intros Hn. unfold onehot. cbn [n0 n1 NumR]. destruct (Nat.lt_ge_cases j n) as [Hj|Hj].
  - rewrite <- (vsum_pick n j u) by auto. apply vsum_map_ext. intros k _. destruct (Nat.eqb k j); lra.
  - rewrite (Hn j Hj). rewrite (vsum_map_ext _ (fun k => 0 * u k)); [rewrite vsum_map_scale; ring|].
    intros k Hk. apply in_seq in Hk. destruct (Nat.eqb_spec k j); [lia | ring].
Qed.
Lemma entry_le_tot (u : nat -> R) k : (k < n)%nat -> Rabs (u k) <= tot (fun k => Rabs (u k)).
Proof.
  intros Hk. assert (Hin : In k (seq 0 n)) by (apply in_seq; lia). clear - Hin. induction (seq 0 n) as [|i l IH]; [destruct Hin|]. cbn [map]. rewrite vsum_cons.
  assert (0 <= vsum (map (fun k => Rabs (u k)) l)) by (apply vsum_nonneg; intros z Hz; apply in_map_iff in Hz; destruct Hz as (i' & <- & _); apply Rabs_pos).
  destruct Hin as [->|Hin]; [lra|]. specialize (IH Hin). pose proof (Rabs_pos (u i)). lra.
Qed.
Lemma tame_inp j : tame (fun y => y j) (fun _ => onehot j).
Proof.
  exists 1, 1. split; [lra|]. split; [lra|]. intros y y' (H1 & H2) (H3 & H4). pose proof (tot_pos n y' y) as Hp. split; [|split].
  - destruct (Nat.lt_ge_cases j n) as [Hj|Hj]; [|rewrite H2, H4, Rminus_eq_0, Rabs_R0 by auto; lra].
    rewrite Rmult_1_l. apply (entry_le_tot (fun k => y k - y' k)). auto.
  - intros k _. rewrite Rminus_eq_0, Rabs_R0. lra.
  - rewrite (onehot_sum j (fun k => y' k - y k)) by (intros k Hk; rewrite H2, H4 by auto; ring). rewrite Rminus_eq_0, Rabs_R0. nra.
Qed.
Lemma tame_add f J f' J' : tame f J -> tame f' J' -> tame (fun y => f y + f' y) (fun y k => J y k + J' y k).
Proof.
  intros (r1 & B1 & P1 & Q1 & H1) (r2 & B2 & P2 & Q2 & H2). exists (Rmin r1 r2), (B1 + B2). split; [apply Rmin_pos; auto|]. split; [lra|]. intros y y' Hy Hy'.
  destruct (H1 y y' (near_le _ _ _ _ _ (Rmin_l _ _) Hy) (near_le _ _ _ _ _ (Rmin_l _ _) Hy')) as (A1 & A2 & A3). destruct (H2 y y' (near_le _ _ _ _ _ (Rmin_r _ _) Hy) (near_le _ _ _ _ _ (Rmin_r _ _) Hy')) as (C1 & C2 & C3). split; [|split].
  - replace (f y + f' y - (f y' + f' y')) with ((f y - f y') + (f' y - f' y')) by ring. eapply Rle_trans; [apply Rabs_triang|]. lra.
  - intros k Hk. specialize (A2 k Hk). specialize (C2 k Hk). replace (J y k + J' y k - (J y' k + J' y' k)) with ((J y k - J y' k) + (J' y k - J' y' k)) by ring. eapply Rle_trans; [apply Rabs_triang|]. lra.
  - rewrite (vsum_map_ext (fun k => (J y k + J' y k) * (y' k - y k)) (fun k => J y k * (y' k - y k) + J' y k * (y' k - y k))) by (intros; ring). rewrite vsum_map_plus.
    match goal with |- Rabs (_ - _ - (?s + ?t)) <= _ => replace (f y' + f' y' - (f y + f' y) - (s + t)) with ((f y' - f y - s) + (f' y' - f' y - t)) by ring end. eapply Rle_trans; [apply Rabs_triang|]. lra.
Qed.
Lemma tame_continuous f J e : tame f J -> 0 < e -> exists d, 0 < d /\ forall y, near n x d y -> Rabs (f y - f x) < e.
Proof.
  intros (r & B & Pr & PB & H) He. pose proof (pos_INR n) as Hn0. set (d := e / ((B + 1) * (INR n + 1))).
  assert (Pd : 0 < d) by (unfold d; apply Rdiv_lt_0_compat; auto; apply Rmult_lt_0_compat; lra).
  exists (Rmin r d). split; [apply Rmin_pos; auto|]. intros y Hy. destruct (H y x (near_le _ _ _ _ _ (Rmin_l _ _) Hy) (near_self r Pr)) as (H1 & _).
  pose proof (tot_near n x _ y (near_le _ _ _ _ _ (Rmin_r _ _) Hy)) as Ht. pose proof (tot_pos n x y) as Hp. eapply Rle_lt_trans; [exact H1|].
  apply Rle_lt_trans with ((B + 1) * (INR n * d)); [apply Rmult_le_compat; lra|].
  replace e with ((B + 1) * (INR n + 1) * d) by (unfold d; field; lra). assert (0 < (B + 1) * d) by (apply Rmult_lt_0_compat; lra). nra.
Qed.
Lemma tame_comp phi phi1 f J : curve phi phi1 (f x) -> tame f J -> tame (fun y => phi (f y)) (fun y k => phi1 (f y) * J y k).
Proof.
  intros (h & Q & Ph & PQ & Hphi) Hf. destruct (tame_continuous f J h Hf Ph) as (d0 & Pd0 & Hc). destruct Hf as (r & B & Pr & PB & H).
  set (a := f x) in *. pose proof (pos_INR n) as Hn0. destruct (ex_intro (fun N => N = 2 * INR n) _ eq_refl) as (N & EN). assert (HN : 0 <= N) by lra.
  set (G := tot (fun k => Rabs (J x k))).
  assert (HG : 0 <= G) by (apply vsum_nonneg; intros z Hz; apply in_map_iff in Hz; destruct Hz as (k & <- & _); apply Rabs_pos).
  set (p := Rabs (phi1 a)). assert (Hp : 0 <= p) by apply Rabs_pos.
  set (P := p + Q * B * N). assert (HP : 0 <= P) by (unfold P; assert (0 <= Q * B * N) by (repeat apply Rmult_le_pos; auto); lra).
  set (K := P * B + Q * (B * B * N) + (Q * B * (G + B * N) + P * B) + Q * (B * B)).
  assert (M1 : 0 <= P * B) by (apply Rmult_le_pos; auto). assert (M2 : 0 <= Q * (B * B * N)) by (repeat apply Rmult_le_pos; auto).
  assert (M3 : 0 <= Q * B * (G + B * N)) by (apply Rmult_le_pos; [apply Rmult_le_pos; auto | assert (0 <= B * N) by (apply Rmult_le_pos; auto); lra]).
  assert (M5 : 0 <= Q * (B * B)) by (repeat apply Rmult_le_pos; auto).
  exists (Rmin d0 (Rmin r 1)), K. split; [repeat apply Rmin_pos; lra|]. split; [unfold K; lra|].
  assert (Hin : forall y, near n x (Rmin d0 (Rmin r 1)) y -> near n x d0 y /\ near n x r y /\ near n x 1 y).
  { intros y Hy. split; [apply (near_le _ _ _ _ _ (Rmin_l _ _) Hy)|]. split; apply (near_le n x (Rmin d0 (Rmin r 1))); auto; (eapply Rle_trans; [apply Rmin_r|]); [apply Rmin_l | apply Rmin_r]. }
  (* bounds at one point *)
  assert (Hone : forall y, near n x (Rmin d0 (Rmin r 1)) y -> Rabs (phi1 (f y)) <= P /\ forall k, (k < n)%nat -> Rabs (J y k) <= G + B * N).
  { intros y Hy. destruct (Hin y Hy) as (Hy1 & Hy2 & Hy3). destruct (H y x Hy2 (near_self r Pr)) as (A1 & A2 & _). pose proof (tot_two 1 y x Hy3 (near_self 1 Rlt_0_1)) as HdN. rewrite Rmult_1_r in HdN. rewrite <- EN in HdN.
    pose proof (tot_pos n x y) as Hd0. assert (Hbd : B * dd y x <= B * N) by (apply Rmult_le_compat_l; auto). split.
    - destruct (Hphi a (f y)) as (_ & C2); [rewrite Rminus_eq_0, Rabs_R0; auto | apply Hc; auto|]. replace (phi1 (f y)) with ((phi1 (f y) - phi1 a) + phi1 a) by ring. eapply Rle_trans; [apply Rabs_triang|]. fold p. unfold P.
      fold a in A1. assert (Q * Rabs (f y - a) <= Q * (B * N)) by (apply Rmult_le_compat_l; lra). lra.
    - intros k Hk. specialize (A2 k Hk). replace (J y k) with (J x k + (J y k - J x k)) by ring. eapply Rle_trans; [apply Rabs_triang|]. pose proof (entry_le_tot (J x) k Hk) as He. fold G in He. lra. }
  intros y y' Hy Hy'. destruct (Hin y Hy) as (Hy1 & Hy2 & Hy3). destruct (Hin y' Hy') as (Hz1 & Hz2 & Hz3). destruct (Hone y Hy) as (Hp1 & HJ). destruct (Hone y' Hy') as (Hp2 & _).
  destruct (H y y' Hy2 Hz2) as (A1 & A2 & A3). pose proof (tot_two 1 y y' Hy3 Hz3) as HdN. rewrite Rmult_1_r in HdN. rewrite <- EN in HdN. pose proof (tot_pos n y' y) as Hd0.
  set (d := dd y y') in *. destruct (Hphi (f y') (f y) (Hc y' Hz1) (Hc y Hy1)) as (C1 & C2). set (t := f y) in *. set (s := f y') in *.
  assert (Ht : Rabs (t - s) <= B * d) by exact A1. pose proof (Rabs_pos (t - s)) as Hta. set (w := Rabs (t - s)) in *.
  assert (Hw2 : w * w <= (B * B) * (d * d)) by (replace ((B * B) * (d * d)) with ((B * d) * (B * d)) by ring; apply Rmult_le_compat; auto).
  assert (Hdd : d * d <= N * d) by (apply Rmult_le_compat_r; auto).
  split; [|split].
  - change (Rabs (phi t - phi s) <= K * d). replace (phi t - phi s) with (- (phi s - phi t - phi1 t * (s - t)) + phi1 t * (t - s)) by ring. eapply Rle_trans; [apply Rabs_triang|]. rewrite Rabs_Ropp, Rabs_mult. fold w.
    assert (Rabs (phi1 t) * w <= P * (B * d)) by (apply Rmult_le_compat; auto; apply Rabs_pos).
    assert (Q * (w * w) <= Q * ((B * B) * (N * d))).
    { apply Rmult_le_compat_l; auto. eapply Rle_trans; [exact Hw2|]. apply Rmult_le_compat_l; auto. apply Rmult_le_pos; auto. }
    assert (0 <= (Q * B * (G + B * N) + P * B + Q * (B * B)) * d) by (apply Rmult_le_pos; lra). unfold K. lra.
  - intros k Hk. specialize (A2 k Hk). change (Rabs (phi1 t * J y k - phi1 s * J y' k) <= K * d). replace (phi1 t * J y k - phi1 s * J y' k) with ((phi1 t - phi1 s) * J y k + phi1 s * (J y k - J y' k)) by ring.
    eapply Rle_trans; [apply Rabs_triang|]. rewrite !Rabs_mult. specialize (HJ k Hk).
    assert (Rabs (phi1 t - phi1 s) * Rabs (J y k) <= Q * (B * d) * (G + B * N)).
    { apply Rmult_le_compat; auto; try apply Rabs_pos. eapply Rle_trans; [exact C2|]. apply Rmult_le_compat_l; auto. }
    assert (Rabs (phi1 s) * Rabs (J y k - J y' k) <= P * (B * d)) by (apply Rmult_le_compat; auto; apply Rabs_pos).
    assert (0 <= (P * B + Q * (B * B * N) + Q * (B * B)) * d) by (apply Rmult_le_pos; lra). unfold K. lra.
  - change (Rabs (phi s - phi t - tot (fun k => phi1 t * J y k * (y' k - y k))) <= K * (d * d)). rewrite (vsum_map_ext (fun k => phi1 t * J y k * (y' k - y k)) (fun k => phi1 t * (J y k * (y' k - y k)))) by (intros; ring). rewrite vsum_map_scale.
    match type of A3 with Rabs (_ - _ - ?s0) <= _ => set (u := s0) in * end.
    replace (phi s - phi t - phi1 t * u) with ((phi s - phi t - phi1 t * (s - t)) + phi1 t * (s - t - u)) by ring. eapply Rle_trans; [apply Rabs_triang|]. rewrite Rabs_mult.
    assert (Rabs (phi1 t) * Rabs (s - t - u) <= P * (B * (d * d))) by (apply Rmult_le_compat; auto; apply Rabs_pos).
    assert (Q * (w * w) <= Q * ((B * B) * (d * d))) by (apply Rmult_le_compat_l; auto).
    assert (0 <= (Q * (B * B * N) + (Q * B * (G + B * N) + P * B)) * (d * d)) by (apply Rmult_le_pos; [lra | apply Rmult_le_pos; auto]). unfold K. lra.
Qed.
Lemma tame_scale c f J : tame f J -> tame (fun y => c * f y) (fun y k => c * J y k).
Proof. intros H. apply (tame_comp (fun z => c * z) (fun _ => c)); auto. apply curve_scale. Qed.
Lemma tame_sub f J f' J' : tame f J -> tame f' J' -> tame (fun y => f y - f' y) (fun y k => J y k - J' y k).
Proof. intros H H'. apply (tame_ext (fun y => f y + (-1) * f' y) (fun y k => J y k + (-1) * J' y k)); [intros; ring | intros; ring|]. apply tame_add; auto. apply tame_scale; auto. Qed.
Lemma tame_mul f J f' J' : tame f J -> tame f' J' -> tame (fun y => f y * f' y) (fun y k => J y k * f' y + f y * J' y k).
Proof.
  intros H H'. pose proof (tame_comp _ _ _ _ (curve_sqr _) (tame_add _ _ _ _ H H')) as H1. pose proof (tame_comp _ _ _ _ (curve_sqr _) (tame_sub _ _ _ _ H H')) as H2.
  pose proof (tame_scale (1 / 4) _ _ (tame_sub _ _ _ _ H1 H2)) as H3. eapply tame_ext; [| |exact H3]; cbv beta; intros; field.
Qed.
Lemma tame_inv f J : f x <> 0 -> tame f J -> tame (fun y => / f y) (fun y k => - / (f y * f y) * J y k).
Proof. intros Hz H. apply (tame_comp Rinv (fun t => - / (t * t))); auto. apply curve_inv. auto. Qed.
Lemma tame_stays f J : f x <> 0 -> tame f J -> exists d, 0 < d /\ forall y, near n x d y -> (0 < f x -> 0 < f y) /\ (f x < 0 -> f y < 0).
Proof.
  intros Hz H. destruct (tame_continuous f J (Rabs (f x)) H) as (d & Hd & Hc); [apply Rabs_pos_lt; auto|]. exists d. split; auto. intros y Hy.
  specialize (Hc y Hy). split; intros Hs; [rewrite (Rabs_right (f x)) in Hc by lra | rewrite (Rabs_left (f x)) in Hc by lra]; apply Rabs_def2 in Hc; lra.
Qed.
End Centre.

(* ---- programs ---- *)
Section Program.
Variable n : nat.
Variables (x par : nat -> R).
Notation ev y i e := (eval (N := NumDual) (dual_funs real_funs) (fun k => (y k, Some (onehot i k))) (fun k => (par k, None)) e).
Notation grad y e i := (tan (snd (ev y i e))).
Notation around P := (exists d, 0 < d /\ forall y, near n x d y -> P y).
Lemma around_and (P Q : (nat -> R) -> Prop) : around P -> around Q -> around (fun y => P y /\ Q y).
Proof.
  intros (d1 & P1 & H1) (d2 & P2 & H2). exists (Rmin d1 d2). split; [apply Rmin_pos; auto|]. intros y Hy. split; [apply H1 | apply H2]; eapply near_le; [apply Rmin_l | exact Hy | apply Rmin_r | exact Hy].
Qed.
Lemma around_mono (P Q : (nat -> R) -> Prop) : (forall y, P y -> Q y) -> around P -> around Q.
Proof. intros H (d & Hd & Hy). exists d. split; auto. Qed.
Lemma around_true (P : (nat -> R) -> Prop) : (forall y, P y) -> around P.
Proof. intros H. exists 1. split; [lra|]. auto. Qed.
Lemma program_tame e : smooth x par e -> around (fun y => smooth y par e) /\ tame n x (fun y => denote y par e) (fun y i => grad y e i).
Proof.
  induction e as [k|k|p q|a IHa b IHb|a IHa b IHb|a IHa b IHb|a IHa b IHb|a IHa|a IHa|a IHa|a IHa b IHb|a IHa b IHb|a IHa|a IHa|a IHa];
    cbn [smooth denote]; intros Hs.
  - split; [apply around_true; auto|]. eapply tame_ext; [| |apply (tame_inp n x k)]; [auto|]. intros y i. cbn [eval snd tan]. unfold onehot. rewrite Nat.eqb_sym. auto.
  - split; [apply around_true; auto|]. apply (tame_const n x (par k)).
  - split; [apply around_true; auto|]. apply (tame_const n x (IZR p / IZR (Z.pos q))).
  - destruct Hs as (Ha & Hb). destruct (IHa Ha) as (Sa & Ta). destruct (IHb Hb) as (Sb & Tb). split; [apply around_and; auto|].
    eapply tame_ext; [| |apply (tame_add n x _ _ _ _ Ta Tb)]; [auto|]. intros y i. cbn [eval nadd NumDual snd]. rewrite tan_add. auto.
  - destruct Hs as (Ha & Hb). destruct (IHa Ha) as (Sa & Ta). destruct (IHb Hb) as (Sb & Tb). split; [apply around_and; auto|].
    eapply tame_ext; [| |apply (tame_sub n x _ _ _ _ Ta Tb)]; [auto|]. intros y i. cbn [eval nsub NumDual snd]. rewrite tan_add, tan_map by (cbn; ring). cbn. ring.
  - destruct Hs as (Ha & Hb). destruct (IHa Ha) as (Sa & Ta). destruct (IHb Hb) as (Sb & Tb). split; [apply around_and; auto|].
    eapply tame_ext; [| |apply (tame_mul n x _ _ _ _ Ta Tb)]; [auto|]. intros y i. cbn [eval nmul NumDual snd]. rewrite tan_add, !tan_map by (cbn; ring). rewrite !ev_primal. cbn. ring.
  - destruct Hs as (Ha & Hb & Hz). destruct (IHa Ha) as (Sa & Ta). destruct (IHb Hb) as (Sb & Tb). destruct (tame_stays n x _ _ Hz Tb) as (d & Hd & Hst).
    assert (Hnz : around (fun y => denote y par b <> 0)) by (exists d; split; auto; intros y Hy; destruct (Hst y Hy) as (Hs1 & Hs2); destruct (Rdichotomy _ _ Hz) as [H|H]; [specialize (Hs2 H) | specialize (Hs1 H)]; lra).
    split; [apply around_and; auto; apply around_and; auto|].
    eapply tame_local; [|apply (tame_mul n x _ _ _ _ Ta (tame_inv n x _ _ Hz Tb))]. destruct Hnz as (d' & Hd' & Hnz). exists d'. split; auto. intros y Hy. specialize (Hnz y Hy). split; [auto|]. intros i _.
    cbn [eval ndiv NumDual snd]. rewrite tan_add, !tan_map by (cbn; unfold Rdiv; ring). rewrite !ev_primal. cbn. field. auto.
  - destruct (IHa Hs) as (Sa & Ta). split; auto. eapply tame_ext; [| |apply (tame_scale n x (-1) _ _ Ta)]; [intros; cbv beta; ring|]. intros y i. cbn [eval nneg NumDual snd]. rewrite tan_map by (cbn; ring). cbn. ring.
  - destruct Hs as (Ha & Hp). destruct (IHa Ha) as (Sa & Ta). destruct (tame_stays n x _ _ (Rgt_not_eq _ _ Hp) Ta) as (d & Hd & Hst).
    assert (Hpos : around (fun y => 0 < denote y par a)) by (exists d; split; auto; intros y Hy; apply (Hst y Hy); auto).
    split; [apply around_and; auto|]. eapply tame_local; [|apply (tame_comp n x sqrt _ _ _ (curve_sqrt _ Hp) Ta)]. destruct Hpos as (d' & Hd' & Hpos). exists d'. split; auto. intros y Hy. specialize (Hpos y Hy). split; [auto|]. intros i _.
    cbn [eval nsqrt NumDual snd]. rewrite tan_map by (cbn; ring). rewrite ev_primal. assert (Hsq : sqrt (denote y par a) <> 0) by (apply Rgt_not_eq, sqrt_lt_R0; auto). cbn. unfold Rlit. field. auto.
  - destruct Hs as (Ha & Hz). destruct (IHa Ha) as (Sa & Ta). destruct (tame_stays n x _ _ Hz Ta) as (d & Hd & Hst). destruct (Rdichotomy _ _ Hz) as [Hl|Hl].
    + assert (Hneg : forall y, near n x d y -> denote y par a < 0) by (intros y Hy; apply (Hst y Hy); auto).
      split; [apply around_and; auto; exists d; split; auto; intros y Hy; specialize (Hneg y Hy); lra|].
      eapply tame_local; [|apply (tame_scale n x (-1) _ _ Ta)]. exists d. split; auto. intros y Hy. specialize (Hneg y Hy). split; [rewrite Rabs_left by lra; ring|]. intros i _.
      cbn [eval nabs NumDual snd]. rewrite tan_map by (cbn; ring). rewrite ev_primal. unfold nsign. cbn [nltb n0 n1 nneg nmul NumR]. rewrite (proj2 (Rltb_no 0 _)), (proj2 (Rltb_ok _ 0)) by lra. ring.
    + assert (Hpos : forall y, near n x d y -> 0 < denote y par a) by (intros y Hy; apply (Hst y Hy); auto).
      split; [apply around_and; auto; exists d; split; auto; intros y Hy; specialize (Hpos y Hy); lra|].
      eapply tame_local; [|exact Ta]. exists d. split; auto. intros y Hy. specialize (Hpos y Hy). split; [rewrite Rabs_right by lra; ring|]. intros i _.
      cbn [eval nabs NumDual snd]. rewrite tan_map by (cbn; ring). rewrite ev_primal. unfold nsign. cbn [nltb n0 n1 nneg nmul NumR]. rewrite (proj2 (Rltb_ok 0 _)) by lra. ring.
  - destruct Hs as (Ha & Hb & Hz). destruct (IHa Ha) as (Sa & Ta). destruct (IHb Hb) as (Sb & Tb). assert (Hd0 : denote x par a - denote x par b <> 0) by lra.
    destruct (tame_stays n x (fun y => denote y par a - denote y par b) _ Hd0 (tame_sub n x _ _ _ _ Ta Tb)) as (d & Hd & Hst). destruct (Rdichotomy _ _ Hz) as [Hl|Hl].
    + assert (Hlt : forall y, near n x d y -> denote y par a < denote y par b) by (intros y Hy; destruct (Hst y Hy) as (_ & Hs2); specialize (Hs2 ltac:(lra)); lra).
      split; [apply around_and; auto; apply around_and; auto; exists d; split; auto; intros y Hy; specialize (Hlt y Hy); lra|].
      eapply tame_local; [|exact Tb]. exists d. split; auto. intros y Hy. specialize (Hlt y Hy). split; [rewrite Rmax_right by lra; auto|]. intros i _. cbn [eval nmax NumDual snd].
      rewrite tan_add, !tan_map by (cbn; ring). rewrite !ev_primal. cbn [nmax nmul NumR]. unfold balanced. rewrite Rmax_right by lra. rewrite same_refl, same_ne by lra. cbn. unfold Rlit. field.
    + assert (Hlt : forall y, near n x d y -> denote y par b < denote y par a) by (intros y Hy; destruct (Hst y Hy) as (Hs2 & _); specialize (Hs2 ltac:(lra)); lra).
      split; [apply around_and; auto; apply around_and; auto; exists d; split; auto; intros y Hy; specialize (Hlt y Hy); lra|].
      eapply tame_local; [|exact Ta]. exists d. split; auto. intros y Hy. specialize (Hlt y Hy). split; [rewrite Rmax_left by lra; auto|]. intros i _. cbn [eval nmax NumDual snd].
      rewrite tan_add, !tan_map by (cbn; ring). rewrite !ev_primal. cbn [nmax nmul NumR]. unfold balanced. rewrite Rmax_left by lra. rewrite same_refl, same_ne by lra. cbn. unfold Rlit. field.
  - destruct Hs as (Ha & Hb & Hz). destruct (IHa Ha) as (Sa & Ta). destruct (IHb Hb) as (Sb & Tb). assert (Hd0 : denote x par a - denote x par b <> 0) by lra.
    destruct (tame_stays n x (fun y => denote y par a - denote y par b) _ Hd0 (tame_sub n x _ _ _ _ Ta Tb)) as (d & Hd & Hst). destruct (Rdichotomy _ _ Hz) as [Hl|Hl].
    + assert (Hlt : forall y, near n x d y -> denote y par a < denote y par b) by (intros y Hy; destruct (Hst y Hy) as (_ & Hs2); specialize (Hs2 ltac:(lra)); lra).
      split; [apply around_and; auto; apply around_and; auto; exists d; split; auto; intros y Hy; specialize (Hlt y Hy); lra|].
      eapply tame_local; [|exact Ta]. exists d. split; auto. intros y Hy. specialize (Hlt y Hy). split; [rewrite Rmin_left by lra; auto|]. intros i _. cbn [eval nmin NumDual snd].
      rewrite tan_add, !tan_map by (cbn; ring). rewrite !ev_primal. cbn [nmin nmul NumR]. unfold balanced. rewrite Rmin_left by lra. rewrite same_refl, same_ne by lra. cbn. unfold Rlit. field.
    + assert (Hlt : forall y, near n x d y -> denote y par b < denote y par a) by (intros y Hy; destruct (Hst y Hy) as (Hs2 & _); specialize (Hs2 ltac:(lra)); lra).
      split; [apply around_and; auto; apply around_and; auto; exists d; split; auto; intros y Hy; specialize (Hlt y Hy); lra|].
      eapply tame_local; [|exact Tb]. exists d. split; auto. intros y Hy. specialize (Hlt y Hy). split; [rewrite Rmin_right by lra; auto|]. intros i _. cbn [eval nmin NumDual snd].
      rewrite tan_add, !tan_map by (cbn; ring). rewrite !ev_primal. cbn [nmin nmul NumR]. unfold balanced. rewrite Rmin_right by lra. rewrite same_refl, same_ne by lra. cbn. unfold Rlit. field.
  - destruct (IHa Hs) as (Sa & Ta). split; auto. eapply tame_ext; [| |apply (tame_comp n x sin _ _ _ (curve_sin _) Ta)]; [auto|]. intros y i. cbn [eval f_sin dual_funs snd real_funs].
    rewrite tan_map by (cbn; ring). rewrite ev_primal. cbn. ring.
  - destruct (IHa Hs) as (Sa & Ta). split; auto. eapply tame_ext; [| |apply (tame_comp n x cos _ _ _ (curve_cos _) Ta)]; [auto|]. intros y i. cbn [eval f_cos dual_funs snd real_funs].
    rewrite tan_map by (cbn; ring). rewrite ev_primal. cbn. ring.
  - destruct (IHa Hs) as (Sa & Ta). split; auto. eapply tame_ext; [| |apply (tame_comp n x exp _ _ _ (curve_exp _) Ta)]; [auto|]. intros y i. cbn [eval f_exp dual_funs snd real_funs].
    rewrite tan_map by (cbn; ring). rewrite ev_primal. cbn. ring.
Qed.
Lemma entry_tame e : smooth x par e -> around (fun y => smooth y par e) /\ tame n x (fun y => denote y par e) (fun y => jac_entry real_funs y par e).
Proof.
  exact (program_tame e).
Qed.
End Program.
