(* Bundled statements and concrete runs for C66. *)
From Coq Require Import List Arith Bool ZArith Reals Lia Floats.SpecFloat.
From Verif Require Import Num NumR NumF32 Py Arr MLayout MAssign MNoise MSparse MFactor MGraph MLinear MSolver SpecSolver SpecNan Ex ExG ExS PNan.
Import ListNotations.
#[local] Existing Instance NumF32.

(* sqrt x - z, not a number for x < 0 *)
Definition exNE : env f32 := mkEnv exC
  (fun fd vals => match vals with [x] => vsub (map nsqrt (ravel x)) (par fd) | _ => [] end)
  (fun fd vals => match vals with [x] => [[map (fun y => ndiv (nlit 1 2) (nsqrt y)) (ravel x)]] | _ => [] end).
Definition root : factor f32 := mkFactor 20 [vx] dg1 [leaf1 [lit 1]].
Definition groot : graph f32 :=
  match graph_make exNE [root] with Ok g => g | Err _ => mkGraph [] (mkCoords [] []) (make_layout exC [] false) (make_layout exC [] true) 0 end.
Definition nine : assign f32 := scalars [vx] [lit 9].

Lemma nan_rejected {T} {N : Num T} (isnan : T -> Prop) : nan_arith N isnan -> forall (E : env T) lin g s s',
  has_nan isnan (s_res s) \/ has_nan isnan (s_res s') \/ isnan (s_cost s) ->
  (forall cfg, lm_step E cfg lin g s = Ok s' -> s_assign s' = s_assign s /\ s_cost s' = s_cost s /\
     s_done s' = exceeded_max_iterations (lm_term cfg) s /\
     s_extra s' = nmax (lambda_min cfg) (nmin (nmul (s_extra s) (lambda_factor cfg)) (lambda_max cfg))) /\
  (forall cfg, dl_step E cfg lin g s = Ok s' -> s_assign s' = s_assign s /\ s_cost s' = s_cost s /\
     s_done s' = exceeded_max_iterations (dl_term cfg) s /\ s_extra s' = s_extra s).
Proof.
  intros HN E lin g s s' Hn. split; intros cfg H; [exact (lm_nan isnan HN E cfg lin g s s' H Hn) | exact (dl_nan isnan HN E cfg lin g s s' H Hn)].
Qed.
Lemma never_nan {T} {N : Num T} (isnan : T -> Prop) : nan_arith N isnan -> forall (E : env T) lin step qmin g k s s',
  trust_body E lin step qmin -> runs (step g) k s s' -> ~ isnan (s_cost s) -> ~ isnan (s_cost s').
Proof. intros HN E lin step qmin g k s s' Hb. exact (trust_cost_nan isnan HN E lin step qmin g Hb k s s'). Qed.
Lemma nan_numbers : nan_arith NumXR (fun x => x = NaN) /\ nan_arith NumF32 (fun x => x = S754_nan).
Proof. exact (conj nan_xr nan_f32). Qed.

(* the first proposal is negative; its NaN residual stays, and all 30 iterations are rejected,
   although damping 1/10, which the ninth of them exceeds, leads to a lower cost *)
Lemma lm_poisoned : exists (E : env f32) fs g init a b c r c' r', graph_make E fs = Ok g /\
  compute_cost E g init = Ok (c, r) /\ lm_solve E 30 (lm_default 30) cholmod_solve g init = Some (Ok a) /\ a = init /\
  lm_solve E 30 (mkLm (term_default 30) (nlit 1 10) (lit 2) (nlit 1 100000) (lit 10000000000) (nlit 1 1000)) cholmod_solve g init = Some (Ok b) /\
  compute_cost E g b = Ok (c', r') /\ nltb c' (nlit 1 1000000) = true /\ nltb (lit 3) c = true.
Proof.
  exists exNE, [root], groot, nine. do 6 eexists.
  do 7 (split; [vm_compute; reflexivity|]). vm_compute. reflexivity.
Qed.
Lemma dl_poisoned : exists (E : env f32) fs g init a b c r c' r', graph_make E fs = Ok g /\
  compute_cost E g init = Ok (c, r) /\ dl_solve E 30 (mkDl (term_default 30) (lit 100) (nlit 1 1000)) cholmod_solve g init = Some (Ok a) /\ a = init /\
  dl_solve E 1 (dl_default 1) cholmod_solve g init = Some (Ok b) /\
  compute_cost E g b = Ok (c', r') /\ nltb c' c = true.
Proof.
  exists exNE, [root], groot, nine. do 6 eexists.
  do 6 (split; [vm_compute; reflexivity|]). vm_compute. reflexivity.
Qed.
Lemma gn_accepts_nan : exists (E : env f32) fs g init c r a, graph_make E fs = Ok g /\ compute_cost E g init = Ok (c, r) /\ nltb c (lit 5) = true /\
  gn_solve E 1 (term_default 1) cholmod_solve g init = Some (Ok a) /\ exists r', compute_cost E g a = Ok (S754_nan, r').
Proof.
  exists exNE, [root], groot, nine. do 3 eexists. do 4 (split; [vm_compute; reflexivity|]). eexists. vm_compute. reflexivity.
Qed.
Definition sroot : sstate f32 := match compute_cost exNE groot nine with Ok (c, r) => mkState 0 nine c r false (nlit 5 10000) | Err _ => mkState 0 nine n0 [] true n0 end.
Lemma ex_nan : current exNE groot sroot /\ s_cost sroot <> S754_nan /\ ~ has_nan (fun x => x = S754_nan) (s_res sroot) /\
  exists s1 s2, lm_step exNE (lm_default 30) cholmod_solve groot sroot = Ok s1 /\ has_nan (fun x => x = S754_nan) (s_res s1) /\
  runs (lm_step exNE (lm_default 30) cholmod_solve groot) 2 sroot s2 /\ s_assign s2 = nine /\ s_extra s2 <> s_extra s1.
Proof.
  split; [vm_compute; reflexivity|]. split; [vm_compute; discriminate|].
  split; [intros (x & Hi & ->); vm_compute in Hi; destruct Hi as [Hi|[]]; discriminate|].
  do 2 eexists. split; [vm_compute; reflexivity|]. split; [exists S754_nan; split; [vm_compute; left; reflexivity | reflexivity]|].
  split; [econstructor; [vm_compute; reflexivity | vm_compute; reflexivity|]; econstructor; [vm_compute; reflexivity | vm_compute; reflexivity|]; constructor|].
  split; [vm_compute; reflexivity | vm_compute; discriminate].
Qed.
