(* The textbook steps are orthogonal to every direction that no factor measures. *)
From Coq Require Import List Arith Bool Lia Permutation Reals Lra ZArith.
From Verif Require Import Num NumR Py Arr MLayout MAssign MNoise MSparse MFactor MGraph MLinear MSolver SpecLayout SpecTree SpecAssign SpecGraph SpecSparse SpecNoise SpecDeriv SpecOrder SpecInv SpecSolver SpecTwin SpecBook SpecLin SpecNear.
From Verif Require Import PBase PLayout PTree PAssign PAssign2 PAssign3 PStack PGraph PGraph2 PJac PVec PSparse PLinear PCg PGraph3 PGraph4 PGraph5 PHold POrder POrder2 PSolver PSolver2 PSolverR PDescent PTotal PInv PTwin PTwin2 PExGraph PExInv PLinCg PLin PLinDl PExLinDl PBook PExBook.
Import ListNotations.
Local Open Scope R_scope.

Lemma pushed_move (C : cenv (T := R)) rd vs Js xi nu t : Forall2 (fun v J => length J = rd /\ Forall (fun row => length row = vldim C v) J) vs Js ->
  (forall v, In v vs -> length (xi v) = vldim C v) -> (forall v, In v vs -> length (nu v) = vldim C v) ->
  pushed rd vs Js (fun v => vadd (xi v) (vscale t (nu v))) = vadd (pushed rd vs Js xi) (vscale t (pushed rd vs Js nu)).
Proof.
  unfold pushed. induction 1 as [|v J vs Js (H1 & H2) H IH]; intros Hx Hn; cbn [zipw fold_right].
  - rewrite vscale_vzero. apply (vec_ext rd); [apply vzero_length | rewrite vadd_length; rewrite ?vzero_length; auto|]. intros u Hu. rewrite vdot_add_r, !vdot_zero_r by (rewrite vzero_length; auto). lra.
  - rewrite IH by (intros; auto; try (apply Hx; right; auto); try (apply Hn; right; auto)).
    pose proof (Hx v (or_introl eq_refl)) as Lx. pose proof (Hn v (or_introl eq_refl)) as Ln.
    assert (P : forall eta, length (fold_right vadd (vzero rd) (zipw (fun v J => mvec J (eta v)) vs Js)) = rd).
    { intros eta. clear - H. induction H as [|u J' vs Js (H1 & _) H IH]; simpl; [apply vzero_length|]. rewrite vadd_length; rewrite mvec_length; congruence. }
    assert (Q : mvec J (vadd (xi v) (vscale t (nu v))) = vadd (mvec J (xi v)) (vscale t (mvec J (nu v)))).
    { clear - H2 Lx Ln. unfold mvec. induction H2 as [|row J Hr H2 IH]; cbn [map]; auto. rewrite vscale_cons, vadd_cons, <- IH. f_equal.
      rewrite vdot_add_r by (rewrite vscale_length; congruence). rewrite vdot_scale_r. auto. }
    rewrite Q. apply (vec_ext rd).
    + rewrite vadd_length; rewrite vadd_length; rewrite ?vadd_length; rewrite ?vscale_length, ?mvec_length, ?P; auto.
    + rewrite vadd_length; rewrite vadd_length; rewrite ?vscale_length; rewrite ?vadd_length; rewrite ?mvec_length, ?P; auto.
    + intros u Hu. repeat (rewrite vdot_add_r || rewrite vdot_scale_r); rewrite ?vadd_length; rewrite ?vscale_length; rewrite ?vadd_length; rewrite ?mvec_length, ?vscale_length, ?P; auto; rewrite ?vadd_length, ?vscale_length, ?mvec_length, ?P; auto. lra.
Qed.

Section Free.
Variable E : env R.
Variable fs : list (factor R).
Hypothesis WP : well_posed E fs.
Notation legal_at val := (forall v, In v (mentioned fs) -> value_ok (e_cls E (v_ty v)) (val v)).

Lemma model_shift val old xi nu t : legal_at val -> legal_at old -> tangent E fs xi -> unseen_at E fs val nu ->
  model E fs val old (fun v => vadd (xi v) (vscale t (nu v))) = model E fs val old xi.
Proof.
  intros Hv Ho Hx (Hn & H0). pose proof WP as [CO Hok Hws _ _]. unfold model. apply vsum_map_ext. intros f Hf.
  assert (Hin : forall v, In v (f_vars f) -> In v (mentioned fs)) by (intros v Hi; apply mentioned_in; eauto).
  pose proof (ws_jacobian E fs Hws val f Hv Hf) as HJ.
  rewrite !(model_formula E) by (auto; try (apply (ws_residual E fs Hws); auto); intros v Hi; rewrite ?vadd_length; rewrite ?vscale_length; rewrite ?Hx, ?Hn; auto).
  cbv zeta. do 2 f_equal. unfold mixed. do 2 f_equal.
  rewrite (pushed_move (e_cls E)), H0 by (auto; intros v Hi; auto). rewrite vscale_vzero.
  pose proof (pushed_len E _ _ _ xi HJ) as Hpl. rewrite <- Hpl at 2. apply vadd_zero.
Qed.

Lemma inner_move xi nu eta t : tangent E fs xi -> tangent E fs nu -> tangent E fs eta ->
  inner fs eta (fun v => vadd (xi v) (vscale t (nu v))) = inner fs eta xi + t * inner fs eta nu.
Proof.
  intros H1 H2 H3. unfold inner, tangent in *. revert H1 H2 H3. generalize (mentioned fs). induction l as [|v l IH]; intros H1 H2 H3; cbn [map]; [rewrite !vsum_nil; lra|].
  rewrite !vsum_cons, IH by (intros; auto; try (apply H1; right; auto); try (apply H2; right; auto); try (apply H3; right; auto)).
  rewrite vdot_add_r, vdot_scale_r by (rewrite vscale_length, H1, H2 by (left; auto); auto). lra.
Qed.
Lemma inner_sym xi eta : inner fs xi eta = inner fs eta xi.
Proof. unfold inner. apply vsum_map_ext. intros v _. apply vdot_comm. Qed.
Lemma inner_nonneg xi : 0 <= inner fs xi xi.
Proof. unfold inner. generalize (mentioned fs). induction l as [|v l IH]; cbn [map]; [rewrite vsum_nil; lra|]. rewrite vsum_cons, <- sumsq_dot. pose proof (sumsq_nonneg (xi v)). lra. Qed.
Lemma inner_along t xi nu : inner fs (along t xi) nu = t * inner fs xi nu.
Proof. unfold inner, along. generalize (mentioned fs). induction l as [|v l IH]; cbn [map]; [rewrite !vsum_nil; lra|]. rewrite !vsum_cons, IH, vdot_comm, vdot_scale_r, vdot_comm. lra. Qed.

Lemma damped_orthogonal beta val old xi nu : 0 < beta -> legal_at val -> legal_at old -> unseen_at E fs val nu ->
  damped_step E fs beta val old xi -> inner fs xi nu = 0.
Proof.
  intros Hb Hv Ho Hu (Hx & Hmin). pose proof Hu as (Hn & _). apply (flat _ (inner fs nu nu)); [apply inner_nonneg|]. intros t.
  assert (Ht : tangent E fs (fun v => vadd (xi v) (vscale t (nu v)))) by (intros v Hi; rewrite vadd_length; rewrite ?vscale_length, ?Hx, ?Hn; auto).
  destruct (Hmin _ Ht) as (H & _). rewrite (model_shift val old xi nu t Hv Ho Hx Hu) in H.
  rewrite (inner_move xi nu _ t Hx Hn Ht), (inner_sym (fun v => vadd (xi v) (vscale t (nu v))) xi), (inner_sym (fun v => vadd (xi v) (vscale t (nu v))) nu), !inner_move in H by auto. rewrite (inner_sym nu xi) in H.
  apply (Rmult_le_reg_l beta); auto. set (u := inner fs xi xi) in *. set (w := inner fs xi nu) in *. set (q := inner fs nu nu) in *. clearbody u w q. lra.
Qed.
Lemma downhill_orthogonal val old sd nu : legal_at val -> legal_at old -> unseen_at E fs val nu -> downhill E fs val old sd -> inner fs sd nu = 0.
Proof.
  intros Hv Ho Hu (Hs & Hd). pose proof Hu as (Hn & _). specialize (Hd nu Hn).
  set (zf := fun v => vzero (T := R) (vldim (e_cls E) v)). assert (Hz : tangent E fs zf) by (intros v _; apply vzero_length).
  assert (E1 : forall t, model E fs val old (along t nu) = model E fs val old zf).
  { intros t. rewrite <- (model_shift val old zf nu t Hv Ho Hz Hu). apply model_ext. intros v Hi. unfold along, zf.
    apply (vec_ext (vldim (e_cls E) v)); [rewrite vscale_length; auto | rewrite vadd_length; rewrite ?vscale_length, ?vzero_length, ?Hn; auto|].
    intros u Hlu. rewrite vdot_add_r, vdot_zero_r by (rewrite vscale_length, vzero_length, Hn; auto). lra. }
  assert (E2 : model E fs val old nu = model E fs val old (along 1 nu)).
  { apply model_ext. intros v Hi. unfold along. apply (vec_ext (length (nu v))); auto; [apply vscale_length|]. intros u Hlu. rewrite vdot_scale_r. lra. }
  assert (E3 : model E fs val old (fun v => vneg (nu v)) = model E fs val old (along (-1) nu)).
  { apply model_ext. intros v Hi. unfold along. apply (vec_ext (length (nu v))); [unfold vneg; apply map_length | apply vscale_length|]. intros u Hlu. rewrite vdot_scale_r, vdot_neg_r. lra. }
  rewrite E2, E3, !E1 in Hd. lra.
Qed.
Lemma dogleg_orthogonal radius val old xi nu : legal_at val -> legal_at old -> unseen_at E fs val nu -> dogleg_point E fs radius val old xi -> inner fs xi nu = 0.
Proof.
  intros Hv Ho Hu (gn & Hg & Hc). pose proof (damped_orthogonal (1 / 100000) val old gn nu ltac:(lra) Hv Ho Hu Hg) as Og. pose proof Hu as (Hn & _).
  assert (Nn : agree fs nu nu) by (intros v Hi; auto).
  destruct Hc as [(_ & Ha)|(_ & _ & a & (sd & t & Hd & Ea & _) & Hc)]; [rewrite (inner_ext fs xi gn nu nu); auto|].
  pose proof (downhill_orthogonal val old sd nu Hv Ho Hu Hd) as Os.
  assert (Oa : inner fs a nu = 0) by (rewrite (inner_ext fs a (along t sd) nu nu), inner_along by auto; rewrite Os; lra).
  assert (Ta : tangent E fs a) by (intros v Hi; rewrite Ea by auto; unfold along; rewrite vscale_length; apply Hd; auto).
  destruct Hc as [(_ & Ex)|(_ & b & _ & Ex)].
  - rewrite (inner_ext fs xi _ nu nu Ex Nn), inner_along, Oa. lra.
  - rewrite (inner_ext fs xi _ nu nu Ex Nn). pose proof Hg as (Tg & _).
    assert (Td : tangent E fs (fun v => vsub (gn v) (a v))) by (intros v Hi; rewrite vsub_length; rewrite ?Ta, ?Tg; auto).
    rewrite inner_sym, (inner_move a (fun v => vsub (gn v) (a v)) nu b Ta Td Hn), (inner_sym nu a), Oa.
    assert (Hs : inner fs nu (fun v => vsub (gn v) (a v)) = inner fs nu gn - inner fs nu a).
    { clear - Ta Tg Hn. unfold inner, tangent in *. revert Ta Tg Hn. generalize (mentioned fs). induction l as [|v l IH]; intros H1 H2 H3; cbn [map]; [rewrite !vsum_nil; lra|].
      rewrite !vsum_cons, IH by (intros; auto; try (apply H1; right; auto); try (apply H2; right; auto); try (apply H3; right; auto)).
      rewrite vdot_sub_r by (rewrite H1, H2 by (left; auto); auto). lra. }
    rewrite Hs, (inner_sym nu gn), (inner_sym nu a), Og, Oa. lra.
Qed.

(* ---- plain variables: the component never changes ---- *)
Hypothesis Hplain : forall v, In v (mentioned fs) -> plain_class (e_cls E (v_ty v)).

Lemma moved_component val xi val' nu : legal_at val -> tangent E fs xi -> tangent E fs nu -> moved E fs val xi val' ->
  component fs nu val' = component fs nu val + inner fs xi nu.
Proof.
  intros Hv Hx Hn Hm. unfold component, inner.
  assert (H : forall v, In v (mentioned fs) -> vdot (nu v) (ravel (val' v)) = vdot (nu v) (ravel (val v)) + vdot (xi v) (nu v)).
  { intros v Hi. pose proof WP as [CO _ _ _ _]. destruct (Hplain v Hi) as (P1 & P2). specialize (Hm v Hi). unfold retract in Hm. rewrite P2 in Hm.
    destruct (Nat.eqb _ _) eqn:El; [|discriminate]. apply Nat.eqb_eq in El. pose proof (flatten_length _ (CO _) _ (Hv v Hi)) as Hl.
    destruct (unflatten_ok (e_cls E (v_ty v)) (CO _) (vadd (flatten (val v)) (xi v))) as (y & Ey & _ & Hf); [rewrite vadd_length; auto|].
    rewrite Hm in Ey. injection Ey as <-. unfold flatten in *. rewrite Hf, vdot_add_r by auto. rewrite (vdot_comm (xi v)). auto. }
  revert H. generalize (mentioned fs). induction l as [|v l IH]; intros H; cbn [map]; [rewrite !vsum_nil; lra|].
  rewrite !vsum_cons, IH, (H v (or_introl eq_refl)) by (intros; apply H; right; auto). lra.
Qed.
Lemma moved_legal val xi val' : legal_at val -> tangent E fs xi -> moved E fs val xi val' -> legal_at val'.
Proof.
  intros Hv Hx Hm v Hi. pose proof WP as [_ _ Hws _ _]. destruct (ws_retract E fs Hws v (val v) (xi v) Hi (Hv v Hi) (Hx v Hi)) as (y & Ey & Hy). rewrite (Hm v Hi) in Ey. injection Ey as ->. auto.
Qed.
Lemma dogleg_tangent radius val old xi : dogleg_point E fs radius val old xi -> tangent E fs xi.
Proof.
  intros (gn & (Tg & _) & Hc). destruct Hc as [(_ & Ha)|(_ & _ & a & (sd & t & (Ts & _) & Ea & _) & Hc)]; [intros v Hi; rewrite Ha; auto|].
  assert (Ta : tangent E fs a) by (intros v Hi; rewrite Ea by auto; unfold along; rewrite vscale_length; auto).
  destruct Hc as [(_ & Ex)|(_ & b & _ & Ex)]; intros v Hi; rewrite Ex by auto; [unfold along; rewrite vscale_length; auto|].
  rewrite vadd_length; rewrite ?vscale_length; rewrite ?vsub_length; rewrite ?Ta, ?Tg; auto.
Qed.

Variable nu : var -> list R.
Hypothesis Hnu : unseen E fs nu.

Lemma gn_component val val' : legal_at val -> gauss_newton_turn E fs val val' -> legal_at val' /\ component fs nu val' = component fs nu val.
Proof.
  intros Hv (xi & Hd & Hm). pose proof (proj1 Hd) as Hx. split; [apply (moved_legal val xi); auto|].
  rewrite (moved_component val xi val' nu Hv Hx (proj1 (Hnu val Hv)) Hm), (damped_orthogonal (1 / 100000) val val xi nu) by (auto; lra). lra.
Qed.
Definition fine (b : book) : Prop := legal_at (b_val b) /\ legal_at (b_old b).
Lemma decided_component q val old xi p extra b' : fine (mkBook val old 0) -> tangent E fs xi -> inner fs xi nu = 0 -> moved E fs val xi p ->
  decided E fs q val old xi p extra b' -> fine b' /\ component fs nu (b_val b') = component fs nu val.
Proof.
  intros (Hv & Ho) Hx H0 Hm Hd. pose proof (moved_legal val xi p Hv Hx Hm) as Hp.
  destruct Hd as [(_ & ->)|(_ & ->)]; cbn; (split; [split; auto|]); auto.
  rewrite (moved_component val xi p nu Hv Hx (proj1 (Hnu val Hv)) Hm), H0. lra.
Qed.
Lemma lm_component cfg b b' : 0 <= b_extra b -> fine b -> lm_turn E fs cfg b b' -> fine b' /\ component fs nu (b_val b') = component fs nu (b_val b).
Proof.
  intros Hx (Hv & Ho) (xi & p & Hd & Hm & Hdec). apply (decided_component _ _ _ _ _ _ _ (conj Hv Ho : fine (mkBook (b_val b) (b_old b) 0)) (proj1 Hd)) in Hdec; auto.
  apply (damped_orthogonal (b_extra b + 1 / 100000) (b_val b) (b_old b)); auto. lra.
Qed.
Lemma dl_component cfg b b' : fine b -> dogleg_turn E fs cfg b b' -> fine b' /\ component fs nu (b_val b') = component fs nu (b_val b).
Proof.
  intros (Hv & Ho) (xi & p & Hd & Hm & Hdec). apply (decided_component _ _ _ _ _ _ _ (conj Hv Ho : fine (mkBook (b_val b) (b_old b) 0)) (dogleg_tangent _ _ _ _ Hd)) in Hdec; auto.
  apply (dogleg_orthogonal (b_extra b) (b_val b) (b_old b)); auto.
Qed.
Lemma turns_keep {A} (step : A -> A -> Prop) (P : A -> Prop) (h : A -> R) : (forall x y, P x -> step x y -> P y /\ h y = h x) ->
  forall k x y, P x -> turns step k x y -> P y /\ h y = h x.
Proof. intros H k x y Hp Ht. induction Ht as [x|k x y z H1 H2 IH]; auto. destruct (H _ _ Hp H1) as (Py & E1). destruct (IH Py) as (Pz & E2). split; auto. congruence. Qed.
End Free.
