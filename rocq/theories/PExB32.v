(* C68: binary32 instances, and a Levenberg-Marquardt run that drives lambda to zero. *)
From Coq Require Import List Arith Bool ZArith Floats.SpecFloat.
From Flocq Require Import IEEE754.BinarySingleNaN.
From Verif Require Import Num NumF32 NumB32 Py Arr MLayout MAssign MNoise MSparse MFactor MGraph MLinear MSolver SpecSolver SpecB32 PSolver PB32 PB32S Ex ExG ExS.
Import ListNotations.
#[local] Existing Instance NumB32.

Fixpoint run_n {T} (step : sstate T -> result (sstate T)) (k : nat) (s : sstate T) : option (sstate T) :=
  match k with O => Some s | S k' => if s_done s then None else match step s with Ok s' => run_n step k' s' | Err _ => None end end.
Lemma run_n_runs {T} (step : sstate T -> result (sstate T)) k s s' : run_n step k s = Some s' -> runs step k s s'.
Proof.
  revert s. induction k as [|k IH]; simpl; intros s H.
  - injection H as ->. constructor.
  - destruct (s_done s) eqn:Ed; [discriminate|]. destruct (step s) as [s1|] eqn:Es; [|discriminate]. econstructor; eauto.
Qed.

Lemma run_1 {T} (step : sstate T -> result (sstate T)) s s' : run_n step 1 s = Some s' -> step s = Ok s'.
Proof. simpl. destruct (s_done s); [discriminate|]. destruct (step s); [congruence|discriminate]. Qed.

(* x = 0 observed with standard deviation 1000, started at a million *)
Definition loose : noise b32 := DiagGaussian (mkArr [1] [nlit 1 1000]).
Definition floose : list (factor b32) := [mkFactor 21 [vx] loose [leaf1 [lit 0]]].
Definition gloose : graph b32 := graph_of floose.
Definition sloose : sstate b32 := start gloose (scalars [vx] [lit 1000000]) (lambda_initial (lm_default 200)).

Definition okb {A} (x : result A) : bool := match x with Ok _ => true | Err _ => false end.
Definition someb {A} (x : option A) : bool := match x with Some _ => true | None => false end.
Lemma loose_graph : okb (graph_make exSE floose) = true.
Proof. vm_cast_no_check (eq_refl true). Qed.
Lemma loose_cost : okb (compute_cost exSE gloose (scalars [vx] [lit 1000000])) = true.
Proof. vm_cast_no_check (eq_refl true). Qed.
Lemma loose_run : option_map (fun s => nltb n0 (s_extra s)) (run_n (lm_step exSE (lm_default 200) cholmod_solve gloose) 142 sloose) = Some false.
Proof. vm_cast_no_check (eq_refl (Some false)). Qed.
Lemma ok_ex {A} (x : result A) : okb x = true -> exists y, x = Ok y.
Proof. destruct x; [eauto|discriminate]. Qed.
Lemma graph_of_ok {T} {N : Num T} (fs : list (factor T)) : okb (graph_make exSE fs) = true -> graph_make exSE fs = Ok (graph_of fs).
Proof. unfold graph_of. destruct (graph_make exSE fs); [reflexivity|discriminate]. Qed.
Lemma start_current {T} {N : Num T} (g : graph T) a x : okb (compute_cost exSE g a) = true -> current exSE g (start g a x) /\ s_extra (start g a x) = x.
Proof. unfold start, current. destruct (compute_cost exSE g a) as [[c r]|] eqn:Ec; [|discriminate]. intros _. simpl. auto. Qed.

Lemma lambda_reaches_zero : exists (E : env b32) fs g s0 s, graph_make E fs = Ok g /\ current E g s0 /\
  s_extra s0 = lambda_initial (lm_default 200) /\ runs (lm_step E (lm_default 200) cholmod_solve g) 142 s0 s /\ nltb n0 (s_extra s) = false.
Proof.
  exists exSE, floose, gloose, sloose. pose proof loose_run as H.
  destruct (run_n (lm_step exSE (lm_default 200) cholmod_solve gloose) 142 sloose) as [s|] eqn:E; [|discriminate].
  exists s. split; [apply graph_of_ok, loose_graph|]. destruct (start_current gloose _ (lambda_initial (lm_default 200)) loose_cost) as (H1 & H2).
  split; [exact H1|]. split; [exact H2|]. split; [apply run_n_runs; exact E|]. injection H as H. exact H.
Qed.

Lemma loose_lower : option_map (fun s => nltb (s_cost s) (s_cost sloose)) (run_n (lm_step exSE (lm_default 200) cholmod_solve gloose) 1 sloose) = Some true.
Proof. vm_cast_no_check (eq_refl (Some true)). Qed.
Lemma ex_b32 : graph_make exSE floose = Ok gloose /\ current exSE gloose sloose /\
  trust_body exSE cholmod_solve (lm_step exSE (lm_default 200) cholmod_solve) (lm_quality_min (lm_default 200)) /\
  nltb n0 (lm_quality_min (lm_default (N := NumB32) 200)) = true /\ lm_params (lm_default 200) /\
  s_extra sloose = lambda_initial (lm_default 200) /\ nleb n0 (s_extra sloose) = true /\ nleb (s_extra sloose) (lambda_max (lm_default 200)) = true /\
  nltb (radius_initial (dl_default (N := NumB32) 100)) n0 = false /\
  exists s1, lm_step exSE (lm_default 200) cholmod_solve gloose sloose = Ok s1 /\ nltb (s_cost s1) (s_cost sloose) = true.
Proof.
  assert (H1 : current exSE gloose sloose) by exact (proj1 (start_current gloose _ (lambda_initial (lm_default 200)) loose_cost)).
  assert (H2 : s_extra sloose = lambda_initial (lm_default 200)) by exact (proj2 (start_current gloose _ (lambda_initial (lm_default 200)) loose_cost)).
  split; [apply graph_of_ok, loose_graph|]. split; [exact H1|]. split; [constructor|]. split; [vm_cast_no_check (eq_refl true)|].
  split; [apply default_params|]. split; [exact H2|]. rewrite H2. do 2 (split; [vm_cast_no_check (eq_refl true)|]). split; [vm_cast_no_check (eq_refl false)|].
  pose proof loose_lower as H. destruct (run_n _ 1 sloose) as [s1|] eqn:E1; [|discriminate H].
  exists s1. split; [apply run_1; exact E1|]. injection H as H. exact H.
Qed.
