(* Averaging rotations: whole runs and concrete cases. *)
From Coq Require Import List Arith Bool Lia Reals Lra ZArith.
From Verif Require Import Num NumR Py Arr MLayout MAssign MNoise MSparse MFactor MGraph MLinear MSolver MLie MPose SpecNoise SpecLayout SpecTree SpecAssign SpecLie SpecGraph SpecSparse SpecDeriv SpecPose SpecZero SpecSpatial SpecTwin SpecInv SpecOrder SpecSolver SpecBook SpecSettle SpecTurn SpecMean.
From Verif Require Import PBase PVec PLayout PAssign PAssign3 PGraph PGraph4 PHold PNoise PGraph2 PDeriv PLie PPose PFrame PZero PJacZero PSpatial PSpatial2 PSpatial3 PSpatial4 PSolverR PDescent PTotal PLoss PTwin PTwin2 PLin PBook PExBook PFree PExInv PExZero PStraight PTurn PExTurn PSettle1 PSettle2 PSettle3 PSettle4 PSettle6 PSettle8 PExSettle PMean1 PMean2 PMean3 PMean4.
Import ListNotations.
Local Open Scope R_scope.

Lemma mean_short : forall raw d e, turning raw -> length d = lg_dim raw -> length e = lg_dim raw ->
  vnorm (lg_log raw (lg_mul raw (lg_inv raw (lg_exp raw d)) (lg_exp raw e))) <= vnorm (vsub e d).
Proof.
  intros raw d e Ht Hd He. destruct Ht; cbn [lg_dim raw_so2 raw_so3] in *.
  - destruct d as [|u [|]]; try discriminate. destruct e as [|w [|]]; try discriminate. cbn [lg_mul lg_inv lg_exp raw_so2]. unfold so2_exp. cbn [nth].
    rewrite facing_inv, facing_mul, !log_facing. unfold vsub. cbn [zipw]. replace (- u + w) with (w - u) by ring.
    unfold vnorm. rn. apply sqrt_le_1_alt. rewrite !sumsq_cons. change (sumsq (T := R) []) with 0. pose proof (wrap_le (w - u)). lra.
  - cbn [lg_mul lg_inv lg_exp lg_log raw_so3]. rewrite !norm_len by (try reflexivity; rewrite vsub_length; auto; congruence). apply quat_short; auto.
Qed.
Lemma mean_model : forall groups fs, averaging groups fs -> majorised (pose_env groups) fs (rotations groups fs).
Proof. exact mean_majorised. Qed.

Lemma lowered_of E fs g P init val val' a k : well_posed E fs -> graph_make E fs = Ok g -> assigns E fs init val -> assigns E fs a val' -> (1 <= k)%nat ->
  P val' /\ cost_at E fs val' <= cost_at E fs val /\ ((1 <= k)%nat -> cost_at E fs val' = cost_at E fs val -> balanced E fs val) -> lowered E fs g P val a.
Proof.
  intros WP Eg Hi Ha Hk (H1 & H2 & H3). destruct (cost_of_assigns E fs g a val' WP Eg Ha) as (r & Er). exists val', r. repeat (split; auto).
  intros Hb. destruct (Req_dec (cost_at E fs val') (cost_at E fs val)) as [He|He]; [|lra]. exfalso. auto.
Qed.
Lemma mean_general : forall E fs g P init val, well_posed E fs -> graph_make E fs = Ok g -> majorised E fs P ->
  (forall u v, P u -> In v (mentioned fs) -> value_ok (e_cls E (v_ty v)) (u v) /\ retract (e_cls E (v_ty v)) (u v) (vzero (vldim (e_cls E) v)) = Ok (u v)) ->
  assigns E fs init val -> P val -> descends E fs g P init val.
Proof.
  intros E fs g P init val WP Eg HP Hu Hi Hv fuel. destruct (book_solves E fs g init val fuel WP Eg Hi) as (H1 & H2 & H3 & H4).
  assert (HL : forall u, P u -> forall v, In v (mentioned fs) -> value_ok (e_cls E (v_ty v)) (u v)) by (intros u Pu v Hin; apply (Hu u v Pu Hin)).
  assert (Hs : forall u, P u -> forall v, In v (mentioned fs) -> retract (e_cls E (v_ty v)) (u v) (vzero (vldim (e_cls E) v)) = Ok (u v)) by (intros u Pu v Hin; apply (Hu u v Pu Hin)).
  split; [|split; [|split]].
  - intros cfg Hf. destruct (H1 cfg Hf) as (a' & k & u & Es & Hk & Ht & Ha). exists a'. split; auto. apply (lowered_of E fs g P init val u a' k); auto; try lia. apply (gn_down E fs WP P HP HL k val u Ht Hv).
  - intros un it Hl Hit Hf. destruct (H2 un it Hl Hit Hf) as (a' & u & Es & Ht & Ha). exists a'. split; auto. apply (lowered_of E fs g P init val u a' (Z.to_nat it)); auto; try lia. apply (gn_down E fs WP P HP HL _ val u Ht Hv).
  - intros cfg Hf L1 L2 L3 Hq. destruct (H3 cfg Hf L1 L2 L3) as (a' & k & b & Es & Hk & Ht & Ha). exists a'. split; auto. apply (lowered_of E fs g P init val (b_val b) a' k); auto; try lia.
    apply (books_down E fs P (lm_turn E fs cfg) (fun b b' => lm_down E fs WP P HP HL Hs cfg b b' L2 L3 Hq) k _ _ Ht). split; [auto|]. split; [intros v _; auto | auto].
  - intros cfg Hf L1 Hq. destruct (H4 cfg Hf L1) as (a' & k & b & Es & Hk & Ht & Ha). exists a'. split; auto. apply (lowered_of E fs g P init val (b_val b) a' k); auto; try lia.
    apply (books_down E fs P (dogleg_turn E fs cfg) (fun b b' => dl_down E fs WP P HP HL Hs cfg b b' Hq) k _ _ Ht). split; [auto|]. split; [intros v _; auto | auto].
Qed.
Lemma mean_descends : forall groups fs g init val, averaging groups fs -> graph_make (pose_env groups) fs = Ok g -> assigns (pose_env groups) fs init val -> rotations groups fs val ->
  descends (pose_env groups) fs g (rotations groups fs) init val.
Proof.
  intros groups fs g init val Hav Eg Hi Hr. apply mean_general; auto; [apply av_posed; auto | apply mean_majorised; auto|].
  intros u v Pu Hin. split; [eapply av_legal; eauto | apply (mean_still groups fs Hav u Pu v Hin)].
Qed.
Lemma mean_short_residuals : forall groups fs val c, averaging groups fs -> rotations groups fs val -> cost_at (pose_env groups) fs val <= c -> short_of_half_turns groups fs c ->
  forall f, In f fs -> vnorm (residual_at (pose_env groups) val f) < PI.
Proof.
  intros groups fs val c Hav Hr Hc Hs f Hf. apply (residual_small groups fs Hav); auto. intros h s Hh Has. specialize (Hs h s Hh Has). lra.
Qed.

(* ---- the gradients vanish ---- *)
Section Slope.
Variable groups : vty -> lie_ops R (list R).
Variable fs : list (factor R).
Variable g : graph R.
Hypothesis Hav : averaging groups fs.
Let E := pose_env groups.
Hypothesis Eg : graph_make E fs = Ok g.
Variable init : assign R.
Variable val : var -> pytree R.
Hypothesis Hi : assigns E fs init val.
Hypothesis Hl : same_layout (as_layout init) (g_layout g).
Hypothesis Hr : rotations groups fs val.
Let WP : well_posed E fs := av_posed groups fs Hav.
Notation cost := (cost_at E fs).

Lemma seq_exists unroll n fuel : (1 <= n <= fuel)%nat -> exists a u, fixed_solve E fuel unroll (Z.of_nat n) cholmod_solve g init = Some (Ok a) /\ turns (gauss_newton_turn E fs) n val u /\ assigns E fs a u /\ rotations groups fs u.
Proof.
  intros Hn. destruct (book_solves E fs g init val fuel WP Eg Hi) as (_ & H2 & _). destruct (H2 unroll (Z.of_nat n) Hl) as (a & u & Es & Ht & Ha); [lia | lia|]. rewrite Nat2Z.id in Ht.
  exists a, u. repeat (split; auto). apply (gn_down E fs WP _ (mean_majorised groups fs Hav) (av_legal groups fs) n val u Ht Hr).
Qed.
Definition level (n : nat) : R := match n with
  | O => cost val
  | _ => match fixed_solve E n true (Z.of_nat n) cholmod_solve g init with Some (Ok a) => match compute_cost E g a with Ok (c, _) => c | Err _ => 0 end | _ => 0 end
  end.
Lemma level_at n u : turns (gauss_newton_turn E fs) n val u -> level n = cost u.
Proof.
  intros Ht. destruct n as [|n]; [inversion Ht; subst; reflexivity|]. destruct (seq_exists true (S n) (S n)) as (a & w & Es & Hw & Ha & _); [lia|]. unfold level. rewrite Es.
  destruct (cost_of_assigns E fs g a w WP Eg Ha) as (r & ->). apply cost_at_ext. apply (turns_same E fs (S n) val u Ht val w); auto. intros v _. auto.
Qed.
Lemma reach n : exists u, turns (gauss_newton_turn E fs) n val u /\ rotations groups fs u.
Proof. destruct n as [|n]; [exists val; split; [constructor | auto]|]. destruct (seq_exists true (S n) (S n)) as (a & u & _ & Ht & _ & Hu); [lia|]. eauto. Qed.
Lemma level_gap n u K : (forall w xi, rotations groups fs w -> tangent E fs xi -> bend E fs w xi <= K * inner fs xi xi) -> turns (gauss_newton_turn E fs) n val u -> rotations groups fs u ->
  level (S n) <= level n /\ forall eta, tangent E fs eta -> pull E fs u eta * pull E fs u eta <= (level n - level (S n)) * ((K + 1) * inner fs eta eta).
Proof.
  intros HK Ht Hu. destruct (reach (S n)) as (w & Hw & _). destruct (turns_front _ _ _ _ Hw) as (y & Hy & Hyw).
  assert (Hs : at_rest fs u y) by (apply (turns_same E fs n val u Ht val y); auto; intros v _; auto).
  assert (Ry : rotations groups fs y) by (apply (gn_down E fs WP _ (mean_majorised groups fs Hav) (av_legal groups fs) n val y Hy Hr)).
  destruct (gn_gain E fs WP _ (mean_majorised groups fs Hav) (av_legal groups fs) y w Ry Hyw) as (_ & Hc & Hg).
  rewrite (level_at n y Hy), (level_at (S n) w Hw). split; auto. intros eta Te. rewrite (pull_same E fs u y eta Hs). eapply Rle_trans; [apply Hg; auto|]. apply Rmult_le_compat_l; [lra|].
  pose proof (HK y eta Ry Te). pose proof (inner_nonneg fs eta). lra.
Qed.
Lemma level_pos n : 0 <= level n.
Proof.
  destruct (reach n) as (u & Hu & _). rewrite (level_at n u Hu). unfold cost_at. apply vsum_nonneg. intros f _. destruct (whitened_at E u f); [apply sumsq_nonneg | lra].
Qed.
End Slope.

Lemma mean_slope : forall groups fs g, averaging groups fs -> graph_make (pose_env groups) fs = Ok g -> exists K, 0 < K /\
  forall init val unroll, assigns (pose_env groups) fs init val -> same_layout (as_layout init) (g_layout g) -> rotations groups fs val ->
  (forall n, (1 <= n)%nat -> exists it, (1 <= it <= n)%nat /\ forall fuel, (it <= fuel)%nat -> exists a u,
     fixed_solve (pose_env groups) fuel unroll (Z.of_nat it) cholmod_solve g init = Some (Ok a) /\ assigns (pose_env groups) fs a u /\
     forall eta, tangent (pose_env groups) fs eta -> pull (pose_env groups) fs u eta * pull (pose_env groups) fs u eta <= K * cost_at (pose_env groups) fs val / INR n * inner fs eta eta) /\
  (forall eps, 0 < eps -> exists N, forall it fuel, (N <= it)%nat -> (1 <= it <= fuel)%nat -> exists a u,
     fixed_solve (pose_env groups) fuel unroll (Z.of_nat it) cholmod_solve g init = Some (Ok a) /\ assigns (pose_env groups) fs a u /\
     forall eta, tangent (pose_env groups) fs eta -> pull (pose_env groups) fs u eta * pull (pose_env groups) fs u eta <= eps * inner fs eta eta).
Proof.
  intros groups fs g Hav Eg. destruct (bend_bound groups fs Hav) as (K & HK & HB). exists (K + 1). split; [lra|]. intros init val unroll Hi Hl Hr.
  set (c := level groups fs g init val).
  assert (Hd : forall n, c (S n) <= c n).
  { intros n. destruct (reach groups fs g Hav Eg init val Hi Hl Hr n) as (u & Hu & Ru). apply (level_gap groups fs g Hav Eg init val Hi Hl Hr n u K HB Hu Ru). }
  assert (Hc : forall n, 0 <= c n) by (intros n; apply level_pos; auto).
  split.
  - intros n Hn. destruct (one_small c Hc 1 n Hn) as (it & Hit & Hsm). exists it. split; [lia|]. intros fuel Hf.
    destruct (seq_exists groups fs g Hav Eg init val Hi Hl Hr unroll it fuel) as (a & u & Es & Ht & Ha & Ru); [lia|]. exists a, u. split; [auto|]. split; [auto|]. intros eta Te.
    destruct (level_gap groups fs g Hav Eg init val Hi Hl Hr it u K HB Ht Ru) as (_ & Hp). eapply Rle_trans; [apply Hp; auto|].
    pose proof (inner_nonneg fs eta). assert (0 < INR n) by (apply lt_0_INR; lia). assert (Hq : c it - c (S it) <= cost_at (pose_env groups) fs val / INR n).
    { eapply Rle_trans; [exact Hsm|]. apply Rmult_le_compat_r; [left; apply Rinv_0_lt_compat; auto|]. apply (Hd 0%nat). }
    replace ((K + 1) * cost_at (pose_env groups) fs val / INR n * inner fs eta eta) with (cost_at (pose_env groups) fs val / INR n * ((K + 1) * inner fs eta eta)) by (field; lra).
    apply Rmult_le_compat_r; auto. apply Rmult_le_pos; lra.
  - intros eps He. destruct (gaps_vanish c Hd Hc (eps / (K + 1))) as (N & HN); [apply Rdiv_lt_0_compat; lra|]. exists N. intros it fuel H1 H2.
    destruct (seq_exists groups fs g Hav Eg init val Hi Hl Hr unroll it fuel) as (a & u & Es & Ht & Ha & Ru); [lia|]. exists a, u. split; [auto|]. split; [auto|]. intros eta Te.
    destruct (level_gap groups fs g Hav Eg init val Hi Hl Hr it u K HB Ht Ru) as (_ & Hp). eapply Rle_trans; [apply Hp; auto|].
    pose proof (inner_nonneg fs eta). specialize (HN it H1). replace (eps * inner fs eta eta) with (eps / (K + 1) * ((K + 1) * inner fs eta eta)) by (field; lra).
    apply Rmult_le_compat_r; [apply Rmult_le_pos; lra|]. fold c. lra.
Qed.

(* ---- two measurements of one rotation ---- *)
Lemma two_averaging groups v mu1 mu2 n1 n2 s1 s2 : turning (groups (v_ty v)) -> legal_pose (groups (v_ty v)) mu1 -> legal_pose (groups (v_ty v)) mu2 ->
  scales n1 (lg_dim (groups (v_ty v))) s1 -> scales n2 (lg_dim (groups (v_ty v))) s2 -> averaging groups (two_priors v mu1 n1 mu2 n2).
Proof.
  intros Ht H1 H2 S1 S2. split; [discriminate|].
  assert (H : forall mu n s, legal_pose (groups (v_ty v)) mu -> scales n (lg_dim (groups (v_ty v))) s -> averages groups (prior_make v (group_value (v_ty v) mu) n) s).
  { intros mu n s Hm Sn. pose proof Sn as (_ & On & Dn & _). split; [constructor; auto; exists mu; split; auto; apply Hm|]. split.
    - intros u y [<-|[]] [<-|[]]. rewrite params_value. apply Hm.
    - split; [unfold residual_dim; cbn [prior_make f_noise]; rewrite Dn; auto|]. intros u [<-|[]]. destruct Ht; auto. }
  intros f [<-|[<-|[]]]; eauto.
Qed.
Lemma two_rotations groups v mu1 mu2 n1 n2 x val : legal_pose (groups (v_ty v)) x -> val v = group_value (v_ty v) x -> rotations groups (two_priors v mu1 n1 mu2 n2) val.
Proof. intros Hx Hv u Hu. rewrite mentioned_two in Hu. destruct Hu as [<-|[]]. eauto. Qed.
Lemma norm_quat_log q : length q = 4%nat -> norm4 q = 1 -> sumsq (quat_log q) = (2 * acos (Rabs q.[0])) * (2 * acos (Rabs q.[0])).
Proof. intros Hl Hn. destruct (vnorm_sq (quat_log q)) as (_ & <-). rewrite norm_len by reflexivity. rewrite quat_angle; auto. Qed.

(* rotations by a and -a about an axis balance half a turn away as well, at a higher cost *)
Definition east : list R := [4/5; 0; 0; 3/5].
Definition west : list R := [4/5; 0; 0; - (3/5)].
Definition far : list R := [0; 0; 0; 1].
Definition ex_far : list (factor R) := two_priors qv east one3 west one3.
Lemma far_facts : turning (ex_groups (v_ty qv)) /\ legal_pose raw_so3 east /\ legal_pose raw_so3 west /\ legal_pose raw_so3 far /\ legal_pose raw_so3 [1; 0; 0; 0].
Proof. split; [constructor|]. repeat apply conj; apply so3_legal; try reflexivity; unfold norm4, east, west, far; cbn [nth]; field. Qed.
Lemma far_residuals : prior_residual raw_so3 west far = vscale (-1) (prior_residual raw_so3 east far).
Proof.
  unfold prior_residual, rminus. cbn [lg_log lg_mul lg_inv raw_so3].
  assert (E1 : quat_mul (quat_conj far) east = [3/5; 0; 0; - (4/5)]) by (unfold quat_mul, quat_conj, far, east; cbn [nth]; lists; field).
  assert (E2 : quat_mul (quat_conj far) west = map Ropp [3/5; 0; 0; 4/5]) by (unfold quat_mul, quat_conj, far, west; cbn [nth map]; lists; field).
  rewrite E1, E2, quat_log_opp by (try reflexivity; cbn; lra). unfold quat_log. cbn [nth tl].
  assert (El : len3 [0; 0; - (4/5)] = len3 [0; 0; 4/5]) by (unfold len3; cbn [nth]; f_equal; ring). rewrite El. unfold vscale. cbn [map]. rn. lists; ring.
Qed.
Lemma far_balanced : balanced (pose_env ex_groups) ex_far (fun _ => group_value (v_ty qv) far).
Proof.
  destruct far_facts as (Ht & H1 & H2 & H3 & _). intros xi Tx.
  assert (Hx : length (xi qv) = lg_dim (ex_groups (v_ty qv))) by (apply Tx; unfold ex_far; rewrite mentioned_two; left; auto).
  assert (O : noise_ok one3) by (split; [reflexivity | exists 3%nat; reflexivity]). assert (M : multiple one3 1 one3) by (apply multiple_self; [exact I | exact O]).
  assert (Hk : known (ex_groups (v_ty qv))) by (right; constructor).
  unfold pull, ex_far, two_priors. cbn [map]. rewrite !vsum_cons, vsum_nil.
  rewrite (two_pull ex_groups qv Hk one3 I O eq_refl far _ east one3 1 xi M eq_refl Hx), (two_pull ex_groups qv Hk one3 I O eq_refl far _ west one3 1 xi M eq_refl Hx).
  change (ex_groups (v_ty qv)) with raw_so3. rewrite far_residuals. rewrite wl_scale by (try exact I; auto; reflexivity). rewrite vdot_scale_l. ring.
Qed.
Lemma best_fails : exists groups fs g init val b val' c c' r r', averaging groups fs /\ graph_make (pose_env groups) fs = Ok g /\
  assigns (pose_env groups) fs init val /\ rotations groups fs val /\ same_layout (as_layout init) (g_layout g) /\ stays (pose_env groups) fs g init val /\
  assigns (pose_env groups) fs b val' /\ rotations groups fs val' /\ compute_cost (pose_env groups) g init = Ok (c, r) /\ compute_cost (pose_env groups) g b = Ok (c', r') /\ c' < c.
Proof.
  destruct far_facts as (Ht & H1 & H2 & H3 & H4). assert (Hk : known (ex_groups (v_ty qv))) by (right; constructor).
  assert (S : scales one3 (lg_dim (ex_groups (v_ty qv))) 1) by apply diag3_scales.
  pose proof (two_posed ex_groups qv east west one3 one3 1 1 Hk H1 H2 S S) as WP.
  destruct (graph_make (pose_env ex_groups) ex_far) as [g|] eqn:Eg; [|discriminate].
  destruct (two_start ex_groups qv east west one3 one3 far Hk eq_refl) as (a & _ & Ha & Hla). destruct (two_start ex_groups qv east west one3 one3 [1; 0; 0; 0] Hk eq_refl) as (b & _ & Hb & _).
  destruct (cost_of_assigns _ _ g a _ WP Eg Ha) as (r & Er). destruct (cost_of_assigns _ _ g b _ WP Eg Hb) as (r' & Er').
  exists ex_groups, ex_far, g, a, (fun _ => group_value (v_ty qv) far), b, (fun _ => group_value (v_ty qv) [1; 0; 0; 0]). do 2 eexists. exists r, r'.
  pose proof (two_averaging ex_groups qv east west one3 one3 1 1 Ht H1 H2 S S) as Hav.
  split; [exact Hav|]. split; [auto|]. split; [exact Ha|]. split; [eapply two_rotations; [exact H3 | reflexivity]|]. split; [apply Hla; auto|].
  split; [apply settle_poses; auto; [apply (av_factor _ _ Hav) | apply (av_known _ _ Hav) | apply far_balanced]|].
  split; [exact Hb|]. split; [eapply two_rotations; [exact H4 | reflexivity]|]. split; [exact Er|]. split; [exact Er'|].
  rewrite (iso_cost ex_groups qv Hk east west one3 one3 1 1 S S far _ eq_refl), (iso_cost ex_groups qv Hk east west one3 one3 1 1 S S [1; 0; 0; 0] _ eq_refl).
  change (ex_groups (v_ty qv)) with raw_so3. unfold prior_residual, rminus. cbn [lg_log lg_mul lg_inv raw_so3].
  assert (N : forall p q, legal_pose raw_so3 p -> legal_pose raw_so3 q -> norm4 (quat_mul (quat_conj p) q) = 1).
  { intros p q (_ & _ & Hp) (_ & _ & Hq). rewrite quat_norm, conj_norm, Hp, Hq by constructor. ring. }
  rewrite !norm_quat_log by (try reflexivity; apply N; auto).
  assert (F : forall p q x, (quat_mul (quat_conj p) q).[0] = x \/ (quat_mul (quat_conj p) q).[0] = - x -> 0 <= x -> Rabs (quat_mul (quat_conj p) q).[0] = x).
  { intros p q x [->| ->] Hx; [apply Rabs_pos_eq; auto | rewrite Rabs_Ropp; apply Rabs_pos_eq; auto]. }
  rewrite (F far east (3/5)), (F far west (3/5)), (F [1; 0; 0; 0] east (4/5)), (F [1; 0; 0; 0] west (4/5)) by (try lra; unfold quat_mul, quat_conj, far, east, west; cbn [nth]; first [left; lra | right; lra]).
  assert (Hl : acos (4/5) < acos (3/5)).
  { destruct (Rlt_or_le (acos (4/5)) (acos (3/5))) as [|Hge]; auto. exfalso. pose proof (acos_bound (4/5)). pose proof (acos_bound (3/5)).
    assert (cos (acos (4/5)) <= cos (acos (3/5))) by (apply cos_decr_1; lra). rewrite !cos_acos in * by lra. lra. }
  pose proof (acos_bound (4/5)). nra.
Qed.

(* ---- a start with work left to do ---- *)
Lemma tilt_start : averaging ex_groups ex_tilt /\ (exists g a, graph_make (pose_env ex_groups) ex_tilt = Ok g /\ assigns (pose_env ex_groups) ex_tilt a (fun _ => group_value 3%nat [1; 0; 0; 0]) /\ same_layout (as_layout a) (g_layout g)) /\
  rotations ex_groups ex_tilt (fun _ => group_value 3%nat [1; 0; 0; 0]) /\ ~ balanced (pose_env ex_groups) ex_tilt (fun _ => group_value 3%nat [1; 0; 0; 0]).
Proof.
  destruct ex_tilt_ok as (Ht & H1 & H2 & S1 & S2 & _). assert (Hk : known (ex_groups (v_ty qv))) by (right; constructor).
  split; [eapply two_averaging; eauto|]. split; [|split; [eapply two_rotations; [exact H1 | reflexivity]|]].
  - destruct (graph_make (pose_env ex_groups) ex_tilt) as [g|] eqn:Eg; [|discriminate]. destruct (two_start ex_groups qv [1; 0; 0; 0] tilt one3 two3 [1; 0; 0; 0] Hk eq_refl) as (a & _ & Ha & Hl).
    exists g, a. split; auto. split; [exact Ha|]. apply Hl; auto. eapply two_posed; eauto.
  - intros HB. set (xi := fun _ : var => [0; 0; 1]). assert (Tx : tangent (pose_env ex_groups) ex_tilt xi) by (intros v Hv; unfold ex_tilt in Hv; rewrite mentioned_two in Hv; destruct Hv as [<-|[]]; reflexivity).
    specialize (HB xi Tx). assert (O : noise_ok one3) by (split; [reflexivity | exists 3%nat; reflexivity]). assert (M1 : multiple one3 1 one3) by (apply multiple_self; [exact I | exact O]).
    assert (M2 : multiple one3 2 two3). { replace 2 with (2 / 1) by field. eapply scales_multiple; eauto. }
    unfold pull, ex_tilt, two_priors in HB. cbn [map] in HB. rewrite !vsum_cons, vsum_nil in HB.
    rewrite (two_pull ex_groups qv Hk one3 I O eq_refl [1; 0; 0; 0] _ [1; 0; 0; 0] one3 1 xi M1 eq_refl eq_refl), (two_pull ex_groups qv Hk one3 I O eq_refl [1; 0; 0; 0] _ tilt two3 2 xi M2 eq_refl eq_refl) in HB.
    change (ex_groups (v_ty qv)) with raw_so3 in HB. unfold prior_residual, rminus in HB. cbn [lg_log lg_mul lg_inv raw_so3] in HB.
    assert (E1 : quat_mul (quat_conj [1; 0; 0; 0]) [1; 0; 0; 0] = [1; 0; 0; 0]) by (unfold quat_mul, quat_conj; cbn [nth]; lists; field).
    assert (E2 : quat_mul (quat_conj [1; 0; 0; 0]) tilt = [3/5; 0; 0; 4/5]) by (unfold quat_mul, quat_conj, tilt; cbn [nth]; lists; field). rewrite E1, E2 in HB.
    unfold quat_log in HB. cbn [nth tl] in HB. unfold wl, one3, xi in HB. cbn in HB. rnin HB.
    assert (El : len3 [0; 0; 4/5] = 4/5) by (unfold len3; cbn [nth]; replace (0 * 0 + 0 * 0 + 4/5 * (4/5)) with (Rsqr (4/5)) by (unfold Rsqr; ring); apply sqrt_Rsqr; lra). rewrite El in HB.
    assert (Eq : quat_log_factor (3/5) (4/5) = 2 * atan (4/5 / (3/5)) / (4/5)) by (unfold quat_log_factor; destruct (Req_EM_T (4/5) 0); [lra|]; destruct (Req_EM_T (3/5) 0); [lra | reflexivity]).
    rewrite Eq in HB. assert (Hat : 0 < atan (4/5 / (3/5))) by (rewrite <- atan_0; apply atan_increasing; lra).
    set (z := quat_log_factor 1 _) in HB. clearbody z. set (w := atan _) in *. clearbody w. rewrite !vdot_cons, !vdot_nil_l in HB. rnin HB. lra.
Qed.
(* planar rotations as well: a heading and a turn *)
Definition h1 : var := mkVar 1%nat 1%nat.
Definition h2 : var := mkVar 2%nat 1%nat.
Definition ex_mixed : list (factor R) := ex_tilt ++ [prior_make h1 (facing 1%nat 1) (diag1 3); mkFactor 1%nat [h1; h2] (diag1 2) [facing 1%nat 2]].
Lemma ex_mixed_ok : averaging ex_groups ex_mixed /\ between_make h1 h2 (facing 1%nat 2) (diag1 2) = Ok (mkFactor 1%nat [h1; h2] (diag1 2) [facing 1%nat 2]) /\
  (exists g, graph_make (pose_env ex_groups) ex_mixed = Ok g) /\ forall t, rotations ex_groups ex_mixed (fun v => if Nat.eqb (v_ty v) 3 then group_value 3%nat [1; 0; 0; 0] else facing 1%nat t).
Proof.
  destruct ex_tilt_ok as (Ht & H1 & H2 & S1 & S2 & _). pose proof (two_averaging _ _ _ _ _ _ _ _ Ht H1 H2 S1 S2) as (_ & Hav).
  assert (Sd : forall w, scales (diag1 w) 1 w).
  { intros w. split; [exact I|]. split; [split; [reflexivity | exists 1%nat; reflexivity]|]. split; [reflexivity|]. intros [|x [|]] Hr; try discriminate. reflexivity. }
  assert (Un : forall t, unit_pose raw_so2 (params (facing 1%nat t))).
  { intros t. unfold facing. rewrite params_value. split; [intros _; unfold norm2; cbn [nth]; pose proof (sin2_cos2 t) as H; unfold Rsqr in H; lra | intros H; inversion H]. }
  assert (Pv : forall t, pose_value ex_groups 1%nat (facing 1%nat t)) by (intros t; eexists; split; reflexivity).
  split; [|split; [reflexivity|split]].
  - split; [discriminate|]. intros f Hf. apply in_app_or in Hf. destruct Hf as [Hf|[<-|[<-|[]]]]; [apply Hav; exact Hf| |].
    + exists 3. split; [constructor; [apply Pv | apply Sd | reflexivity]|]. split; [intros v y [<-|[]] [<-|[]]; apply Un|]. split; [apply Sd|]. intros v [<-|[]]. left. reflexivity.
    + exists 2. split; [apply (pf_between ex_groups h1 h2 (facing 1%nat 2) (diag1 2)); [reflexivity | apply Pv | apply Sd | reflexivity]|]. split; [intros v y [<-|[<-|[]]] [<-|[]]; apply Un|]. split; [apply Sd|]. intros v [<-|[<-|[]]]; left; reflexivity.
  - destruct (graph_make (pose_env ex_groups) ex_mixed) as [g|] eqn:Eg; [eauto | discriminate].
  - intros t v Hv. assert (Hm : mentioned ex_mixed = [qv; h1; h2]) by reflexivity. rewrite Hm in Hv. destruct Hv as [<-|[<-|[<-|[]]]]; cbn [v_ty qv h1 h2 Nat.eqb].
    + exists [1; 0; 0; 0]. split; [reflexivity | exact H1].
    + exists [cos t; sin t]. split; [reflexivity|]. split; [reflexivity|]. pose proof (Un t) as U. unfold facing in U. rewrite params_value in U. exact U.
    + exists [cos t; sin t]. split; [reflexivity|]. split; [reflexivity|]. pose proof (Un t) as U. unfold facing in U. rewrite params_value in U. exact U.
Qed.
(* near the better of the two resting places no residual can come to a half turn *)
Lemma near_short : averaging ex_groups ex_far /\ short_of_half_turns ex_groups ex_far (cost_at (pose_env ex_groups) ex_far (fun _ => group_value 3%nat [1; 0; 0; 0])).
Proof.
  destruct far_facts as (Ht & H1 & H2 & H3 & H4). assert (Hk : known (ex_groups (v_ty qv))) by (right; constructor).
  assert (S : scales one3 (lg_dim (ex_groups (v_ty qv))) 1) by apply diag3_scales.
  split; [eapply two_averaging; eauto|]. intros f s Hf (_ & _ & Hs & _).
  assert (Es : s = 1).
  { destruct Hs as (_ & _ & _ & Hw). assert (Hw1 : whiten_residual one3 [1; 1; 1] = Ok (vscale s [1; 1; 1])) by (destruct Hf as [<-|[<-|[]]]; apply Hw; reflexivity).
    cbn in Hw1. rnin Hw1. injection Hw1 as E1. lra. }
  subst s. rewrite (iso_cost ex_groups qv Hk east west one3 one3 1 1 S S [1; 0; 0; 0] _ eq_refl).
  change (ex_groups (v_ty qv)) with raw_so3. unfold prior_residual, rminus. cbn [lg_log lg_mul lg_inv raw_so3].
  assert (N : forall p q, legal_pose raw_so3 p -> legal_pose raw_so3 q -> norm4 (quat_mul (quat_conj p) q) = 1).
  { intros p q (_ & _ & Hp) (_ & _ & Hq). rewrite quat_norm, conj_norm, Hp, Hq by constructor. ring. }
  rewrite !norm_quat_log by (try reflexivity; apply N; auto).
  assert (F : forall q, q.[0] = 4/5 -> Rabs (quat_mul (quat_conj [1; 0; 0; 0]) q).[0] = 4/5).
  { intros q Hq. rewrite <- Hq. unfold quat_mul, quat_conj. cbn [nth]. rewrite Hq. rewrite Rabs_pos_eq; lra. }
  rewrite (F east eq_refl), (F west eq_refl). pose proof PI_RGT_0. pose proof (acos_bound (4/5)).
  assert (Hl : acos (4/5) < PI / 3).
  { destruct (Rlt_or_le (acos (4/5)) (PI / 3)) as [|Hge]; auto. exfalso.
    assert (cos (acos (4/5)) <= cos (PI / 3)) by (apply cos_decr_1; lra). rewrite cos_acos, cos_PI3 in * by lra. lra. }
  nra.
Qed.
