(* NaN in the trust-region solvers. *)
From Coq Require Import List Arith Bool ZArith Reals Lia Floats.SpecFloat.
From Verif Require Import Num NumR NumF32 Py Arr MLayout MAssign MNoise MSparse MFactor MGraph MLinear MSolver SpecSolver SpecNan PBase PSolver2 PInv.
Import ListNotations.

Lemma nan_xr : nan_arith NumXR (fun x => x = NaN).
Proof.
  split; intros a b [-> | ->]; cbn; try reflexivity; destruct a as [|[]|]; try reflexivity; destruct b as [|[]|]; reflexivity.
Qed.
Lemma nan_f32 : nan_arith NumF32 (fun x => x = S754_nan).
Proof.
  split; intros a b [-> | ->]; try reflexivity; try (destruct a as [[]|[]| |[]]; reflexivity); destruct b as [[]|[]| |[]]; reflexivity.
Qed.

Section Any.
Context {T : Type} {N : Num T}.
Variable isnan : T -> Prop.
Hypothesis HN : nan_arith N isnan.
Variable E : env T.

Lemma nan_sum l : has_nan isnan l -> isnan (vsum l).
Proof.
  intros (x & Hi & Hx). induction l as [|y l IH]; [destruct Hi|]. cbn. apply (nan_add _ _ HN).
  destruct Hi as [-> | Hi]; [left; exact Hx | right; exact (IH Hi)].
Qed.
Lemma nan_sumsq l : has_nan isnan l -> isnan (sumsq l).
Proof.
  intros (x & Hi & Hx). apply nan_sum. exists (nmul x x). split; [apply (in_map (fun x => nmul x x)); exact Hi|].
  apply (nan_mul _ _ HN). left. exact Hx.
Qed.
Lemma nan_zip a b : length a = length b -> has_nan isnan b -> has_nan isnan (vadd a b).
Proof.
  intros Hl (x & Hi & Hx). revert a Hl. induction b as [|y b IH]; intros [|z a] Hl; try discriminate; [destruct Hi|].
  injection Hl as Hl. destruct Hi as [-> | Hi].
  - exists (nadd z x). split; [left; reflexivity|]. apply (nan_add _ _ HN). right. exact Hx.
  - destruct (IH Hi a Hl) as (w & Hw & Hn). exists w. split; [right; exact Hw | exact Hn].
Qed.
Lemma nan_quality A c s d q : length (s_res s) = fst (m_shape A) -> step_quality A c s d = Ok q ->
  isnan c \/ isnan (s_cost s) \/ has_nan isnan (s_res s) -> isnan q.
Proof.
  intros Hl H Hn. unfold step_quality in H. apply bind_ok in H. destruct H as (Ax & Em & H).
  apply matmul_length in Em. injection H as <-. apply (nan_div _ _ HN).
  destruct Hn as [Hn | [Hn | Hn]].
  - left. apply (nan_sub _ _ HN). left. exact Hn.
  - left. apply (nan_sub _ _ HN). right. exact Hn.
  - right. apply (nan_sub _ _ HN). left. apply nan_sumsq. apply nan_zip; [lia | exact Hn].
Qed.
Lemma cost_of g a c r : compute_cost E g a = Ok (c, r) -> c = sumsq r.
Proof. intros H. unfold compute_cost in H. apply bind_ok in H. destruct H as (r' & _ & H). injection H as <- <-. reflexivity. Qed.
Lemma res_length A (r b : list T) : matmul (transpose A) (vneg r) = Ok b -> length r = fst (m_shape A).
Proof. intros H. apply matmul_length in H. destruct H as (H & _). unfold vneg in H. rewrite map_length in H. exact H. Qed.

(* a NaN in the residual linearised at, or in the proposal's, rejects the step *)
Lemma lm_nan cfg lin g s s' : lm_step E cfg lin g s = Ok s' -> has_nan isnan (s_res s) \/ has_nan isnan (s_res s') \/ isnan (s_cost s) ->
  s_assign s' = s_assign s /\ s_cost s' = s_cost s /\ s_done s' = exceeded_max_iterations (lm_term cfg) s /\
  s_extra s' = nmax (lambda_min cfg) (nmin (nmul (s_extra s) (lambda_factor cfg)) (lambda_max cfg)).
Proof.
  intros H Hn. unfold lm_step in H.
  apply bind_ok in H. destruct H as (A & EA & H). apply bind_ok in H. destruct H as (ATb & Eb & H).
  apply bind_ok in H. destruct H as (d & Ed & H). apply bind_ok in H. destruct H as (prop & Ep & H).
  apply bind_ok in H. destruct H as ((c & r) & Ec & H). apply bind_ok in H. destruct H as (q & Eq & H).
  apply bind_ok in H. destruct H as (conv & Ev & H). cbn [fst snd] in *.
  pose proof (res_length _ _ _ Eb) as Hl.
  destruct (nleb (lm_quality_min cfg) q) eqn:Ea; injection H as <-; cbn in *.
  - exfalso. rewrite (nan_le _ _ HN) in Ea; [discriminate|]. right. apply (nan_quality _ _ _ _ _ Hl Eq).
    destruct Hn as [Hn | [Hn | Hn]]; [right; right; exact Hn | left; rewrite (cost_of _ _ _ _ Ec); exact (nan_sumsq _ Hn) | right; left; exact Hn].
  - destruct (s_assign s). rewrite orb_false_r. repeat split; reflexivity.
Qed.
Lemma dl_nan cfg lin g s s' : dl_step E cfg lin g s = Ok s' -> has_nan isnan (s_res s) \/ has_nan isnan (s_res s') \/ isnan (s_cost s) ->
  s_assign s' = s_assign s /\ s_cost s' = s_cost s /\ s_done s' = exceeded_max_iterations (dl_term cfg) s /\ s_extra s' = s_extra s.
Proof.
  intros H Hn. unfold dl_step in H.
  apply bind_ok in H. destruct H as (A & EA & H). apply bind_ok in H. destruct H as (ATb & Eb & H).
  apply bind_ok in H. destruct H as (gn & Eg & H). apply bind_ok in H. destruct H as (Asd & Es & H).
  apply bind_ok in H. destruct H as (prop & Ep & H).
  apply bind_ok in H. destruct H as ((c & r) & Ec & H). apply bind_ok in H. destruct H as (q & Eq & H).
  apply bind_ok in H. destruct H as (conv & Ev & H). cbn [fst snd] in *.
  pose proof (res_length _ _ _ Eb) as Hl.
  assert (Hq : has_nan isnan (s_res s) \/ has_nan isnan r \/ isnan (s_cost s) -> isnan q).
  { intros Hm. apply (nan_quality _ _ _ _ _ Hl Eq).
    destruct Hm as [Hm | [Hm | Hm]]; [right; right; exact Hm | left; rewrite (cost_of _ _ _ _ Ec); exact (nan_sumsq _ Hm) | right; left; exact Hm]. }
  destruct (nleb (dl_quality_min cfg) q) eqn:Ea; injection H as <-; cbn [s_assign s_cost s_done s_extra s_res] in *; specialize (Hq Hn).
  - exfalso. rewrite (nan_le _ _ HN) in Ea; [discriminate|]. right. exact Hq.
  - unfold dogleg_radius. rewrite (nan_lt _ _ HN q) by (left; exact Hq). rewrite (nan_lt _ _ HN _ q) by (right; exact Hq).
    destruct (s_assign s). cbn. rewrite orb_false_r. repeat split; reflexivity.
Qed.

Lemma trust_cost_nan lin step qmin g : trust_body E lin step qmin ->
  forall k s s', runs (step g) k s s' -> ~ isnan (s_cost s) -> ~ isnan (s_cost s').
Proof.
  intros Hb k s s' H. induction H as [s | k s s1 s2 Hd Hs Hr IH]; [auto|]. intros Hc. apply IH. intros H1.
  destruct (trust_body_step E _ _ _ _ _ _ Hb Hs) as (A & d & prop & c & r & q & Ht).
  destruct (nleb qmin q) eqn:Ea.
  - destruct (tr_acc _ _ _ _ _ _ _ _ _ _ _ Ht Ea) as (_ & Ec). rewrite Ec in H1.
    rewrite (nan_le _ _ HN) in Ea; [discriminate|]. right.
    pose proof (tr_q _ _ _ _ _ _ _ _ _ _ _ Ht) as (Ax & _ & Eq).
    rewrite Eq. apply (nan_div _ _ HN). left. apply (nan_sub _ _ HN). left. exact H1.
  - destruct (tr_rej _ _ _ _ _ _ _ _ _ _ _ Ht Ea) as (_ & Ec). rewrite Ec in H1. exact (Hc H1).
Qed.
End Any.
