(* Infinite costs in the trust-region solvers. *)
From Coq Require Import List Arith Bool ZArith Reals Floats.SpecFloat.
From Flocq Require Import IEEE754.BinarySingleNaN.
From Verif Require Import Num NumR NumF32 NumB32 Py Arr MLayout MAssign MNoise MSparse MFactor MGraph MLinear MSolver SpecSolver SpecNan PBase PSolver PSolver2 PNan PB32 PB32S Ex ExG ExS PExB32.
Import ListNotations.

Lemma nan_b32 : nan_arith NumB32 (fun x => x = B754_nan).
Proof.
  split; intros a b [-> | ->]; try reflexivity; try (destruct a as [[]|[]| |[]]; reflexivity); destruct b as [[]|[]| |[]]; reflexivity.
Qed.
Lemma inf_xr : inf_arith NumXR (fun x => x = NaN) (Inf false) (Inf true).
Proof. split; [intros [r|[]|]; cbn; auto | reflexivity]. Qed.
Lemma inf_f32 : inf_arith NumF32 (fun x => x = S754_nan) (S754_infinity false) (S754_infinity true).
Proof. split; [intros [[]|[]| |[]]; cbn; auto | reflexivity]. Qed.
Lemma inf_b32 : inf_arith NumB32 (fun x => x = B754_nan) (B754_infinity false) (B754_infinity true).
Proof. split; [intros [[]|[]| |[]]; cbn; auto | reflexivity]. Qed.

Section Any.
Context {T : Type} {N : Num T}.
Variables (isnan : T -> Prop) (inf minf : T).
Hypothesis HN : nan_arith N isnan.
Hypothesis HI : inf_arith N isnan inf minf.
Variable E : env T.

Lemma inf_quality c p : isnan (ndiv (nsub c inf) (nsub p inf)).
Proof.
  destruct (inf_sub _ _ _ _ HI c) as [H | ->]; [apply (nan_div _ _ HN); auto|].
  destruct (inf_sub _ _ _ _ HI p) as [H | ->]; [apply (nan_div _ _ HN); auto|]. apply (inf_div _ _ _ _ HI).
Qed.
Lemma infinite_step lin step qmin g s s' : trust_body E lin step qmin -> s_cost s = inf -> step g s = Ok s' ->
  s_assign s' = s_assign s /\ s_cost s' = inf.
Proof.
  intros Hb Hc H. destruct (trust_body_step E _ _ _ _ _ _ Hb H) as (A & d & prop & c & r & q & [_ _ _ Hq _ Hr _ _]).
  destruct Hq as (Ad & _ & Hq). rewrite Hc in Hq, Hr. apply Hr. apply (nan_le _ _ HN). right. rewrite Hq. apply inf_quality.
Qed.
Lemma infinite_stuck lin step qmin g k s s' : trust_body E lin step qmin -> s_cost s = inf -> runs (step g) k s s' ->
  s_assign s' = s_assign s /\ s_cost s' = inf.
Proof.
  intros Hb Hc Hr. induction Hr as [s|k s s1 s2 _ H Hr IH]; [auto|]. destruct (infinite_step _ _ _ _ _ _ Hb Hc H) as (H1 & H2).
  destruct (IH H2) as (H3 & H4). rewrite H3, H1. auto.
Qed.
End Any.

Lemma infinite_numbers : nan_arith NumXR (fun x => x = NaN) /\ nan_arith NumF32 (fun x => x = S754_nan) /\ nan_arith NumB32 (fun x => x = B754_nan) /\
  inf_arith NumXR (fun x => x = NaN) (Inf false) (Inf true) /\ inf_arith NumF32 (fun x => x = S754_nan) (S754_infinity false) (S754_infinity true) /\
  inf_arith NumB32 (fun x => x = B754_nan) (B754_infinity false) (B754_infinity true).
Proof. exact (conj nan_xr (conj nan_f32 (conj nan_b32 (conj inf_xr (conj inf_f32 inf_b32))))). Qed.

(* a finite start: x = 0 observed with standard deviation 1, started at 10^20 *)
#[local] Existing Instance NumF32.
Definition far : assign f32 := scalars [vx] [lit 100000000000000000000].
Definition gfar : graph f32 := graph_of [anchor vx 0].
Lemma far_stuck : exists (E : env f32) fs g init r a b c r', graph_make E fs = Ok g /\
  compute_cost E g init = Ok (S754_infinity false, r) /\ (forall x, In x (as_storage init ++ r) -> exists s m e, x = S754_finite s m e) /\
  lm_solve E 100 (lm_default 100) cholmod_solve g init = Some (Ok init) /\
  dl_solve E 100 (dl_default 100) cholmod_solve g init = Some (Ok init) /\
  gn_solve E 100 (term_default 100) cholmod_solve g init = Some (Ok a) /\ compute_cost E g a = Ok (c, r') /\ nltb c (nlit 1 1000000) = true /\
  compute_cost E g (scalars [vx] [lit 1000000000000000000]) = Ok b /\ fst b <> S754_infinity false.
Proof.
  exists exSE, [anchor vx 0], gfar, far. do 5 eexists. split; [vm_compute; reflexivity|]. split; [vm_compute; reflexivity|].
  split; [intros x Hx; vm_compute in Hx; repeat (destruct Hx as [<- | Hx]; [do 3 eexists; reflexivity|]); destruct Hx|].
  do 6 (split; [vm_compute; reflexivity|]). vm_compute. discriminate.
Qed.
Lemma ex_far : trust_body (exSE (N := NumF32)) cholmod_solve (lm_step exSE (lm_default 100) cholmod_solve) (lm_quality_min (lm_default 100)) /\
  s_cost (start gfar far n0) = S754_infinity false /\
  exists s', runs (lm_step exSE (lm_default 100) cholmod_solve gfar) 2 (start gfar far n0) s' /\ s_assign s' = far /\ s_res s' <> s_res (start gfar far n0).
Proof.
  split; [constructor|]. split; [vm_compute; reflexivity|]. eexists.
  split; [apply run_n_runs; vm_compute; reflexivity|]. split; [vm_compute; reflexivity|]. vm_compute. discriminate.
Qed.
