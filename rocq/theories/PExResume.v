(* Bundled statements, concrete instances and counterexamples for stopping and resuming. *)
From Coq Require Import List Arith Bool ZArith Lia.
From Verif Require Import Num NumR NumF32 Py Arr MLayout MAssign MNoise MSparse MFactor MGraph MLinear MSolver SpecLayout SpecTree SpecAssign SpecGraph SpecSolver SpecResume.
From Verif Require Import PBase PLayout PTree PAssign PAssign2 PGraph PGraph2 PExGraph PSolver PSolver2 PExSolver PResume Ex ExG ExS.
Import ListNotations.

Lemma blind_solvers (T : Type) (N : Num T) : iteration_blind (cholmod_solve (T := T)) /\
  forall tol, iteration_blind (conjugate_gradient_solver (T := T) tol).
Proof. split; [apply cholmod_blind | apply cg_blind]. Qed.

Section Any.
Context {T : Type} {N : Num T}.
(* class 20: x^2 - z; class 22: y - x - z *)
Definition exDE : env T := mkEnv exC
  (fun fd vals => match fd_cls fd, vals with
     | 20, [x] => vsub (vmul (ravel x) (ravel x)) (par fd)
     | 22, [x; y] => vsub (vsub (ravel y) (ravel x)) (par fd)
     | _, _ => []
     end)
  (fun fd vals => match fd_cls fd, vals with
     | 20, [x] => [[vscale (lit 2) (ravel x)]]
     | 22, _ => [[[nneg n1]]; [[n1]]]
     | _, _ => []
     end).
Definition spring (z : Z) : factor T := mkFactor 22 [vx; vy] dg1 [leaf1 [lit z]].
Definition sprung : list (factor T) := [square vx 20; square vy 2; spring 3].
Definition gsprung : graph T := match graph_make exDE sprung with Ok g => g | Err _ => graph_of [] end.
Lemma sprung_ok f : In f sprung -> factor_ok f.
Proof. intros [<-|[<-|[<-|[]]]]; (split; [split; [reflexivity | exists 1; reflexivity] | repeat constructor; simpl; intuition discriminate]). Qed.
End Any.

#[local] Existing Instance NumF32.
Definition sat (x : f32) : assign f32 := scalars [vx] [x].
Lemma sat_wf x : wf_assign exC [vx] false (sat x).
Proof. split; [repeat constructor; simpl; tauto | split; reflexivity]. Qed.

(* x^2 = 2 from 8, the gradient tested from the start: still going after two iterations *)
Definition eager : term_cfg f32 := mkTerm 100 (nlit 1 100000) (nlit 1 1000000000) 0 (nlit 1 10000000).
Definition lm_eager : lm_cfg f32 := mkLm eager (nlit 5 10000) (lit 2) (nlit 1 100000) (lit 10000000000) (nlit 1 1000).
Lemma ex_resume : classes_ok (exC (N := NumF32)) /\ (forall f, In f (sq (T := f32) 2) -> factor_ok f) /\ graph_make exSE (sq 2) = Ok (gsq 2) /\
  wf_assign exC [vx] false (sat (lit 8)) /\
  restartable exSE cholmod_solve (fun n => lm_step exSE (lm_with n (lambda_initial lm_eager) lm_eager) cholmod_solve) (lambda_initial lm_eager)
    (fun n x fuel => lm_solve exSE fuel (lm_with n x lm_eager) cholmod_solve) 0 /\
  update_storage_layout exC (sat (lit 8)) (g_layout (gsq 2)) = Ok (sat (lit 8)) /\
  exists c res st r, compute_cost exSE (gsq 2) (sat (lit 8)) = Ok (c, res) /\
    runs (lm_step exSE (lm_with 4 (lambda_initial lm_eager) lm_eager) cholmod_solve (gsq 2)) 2 (mkState 0 (sat (lit 8)) c res false (lambda_initial lm_eager)) st /\
    s_done st = false /\ current exSE (gsq 2) st /\
    lm_solve exSE 9 (lm_with 4 (lambda_initial lm_eager) lm_eager) cholmod_solve (gsq 2) (sat (lit 8)) = Some (Ok r) /\ as_storage r <> as_storage (s_assign st).
Proof.
  split; [exact exC_ok|]. split; [apply sq_ok|]. split; [vm_compute; reflexivity|]. split; [apply sat_wf|].
  split; [apply (restart_lm exSE cholmod_solve lm_eager)|]. split; [vm_compute; reflexivity|].
  do 4 eexists. split; [vm_compute; reflexivity|]. split.
  { econstructor; [vm_compute; reflexivity | vm_compute; reflexivity|].
    econstructor; [vm_compute; reflexivity | vm_compute; reflexivity|]. constructor. }
  split; [vm_compute; reflexivity|]. split; [vm_compute; reflexivity|]. split; [vm_compute; reflexivity|]. vm_compute. discriminate.
Qed.
Lemma ex_gn_split : exists b r, gn_solve exSE 9 (term_with 2 eager) cholmod_solve (gsq 2) (sat (lit 8)) = Some (Ok b) /\
  gn_solve exSE 9 (term_with 4 eager) cholmod_solve (gsq 2) (sat (lit 8)) = Some (Ok r) /\ as_storage r <> as_storage b /\
  gn_solve exSE 9 (term_with 2 eager) cholmod_solve (gsq 2) b = Some (Ok r).
Proof. do 2 eexists. split; [vm_compute; reflexivity|]. split; [vm_compute; reflexivity|]. split; [vm_compute; discriminate | vm_compute; reflexivity]. Qed.

Ltac shows := split; [vm_compute; reflexivity|]; split; [vm_compute; reflexivity|]; split; [vm_compute; reflexivity|]; vm_compute; discriminate.

Lemma inexact_differs : exists E fs g vs init b r r',
  differs E fs g vs init b r r' (fixed_solve E 5 true 1 (inexact_cg_solver (nlit 1 100)))
    (fixed_solve E 5 true 1 (inexact_cg_solver (nlit 1 100))) (fixed_solve E 5 true 2 (inexact_cg_solver (nlit 1 100))).
Proof.
  exists exDE, sprung, gsprung, [vx; vy], (scalars [vx; vy] [lit 8; lit 9]). do 3 eexists.
  split; [exact exC_ok|]. split; [exact sprung_ok|]. split; [vm_compute; reflexivity|].
  split; [split; [repeat constructor; simpl; intuition discriminate | split; reflexivity]|]. shows.
Qed.
Lemma gradient_start_differs : exists E fs g vs init b r r',
  differs E fs g vs init b r r' (gn_solve E 99 (term_with 5 (term_default 100)) cholmod_solve)
    (gn_solve E 99 (term_with 15 (term_default 100)) cholmod_solve) (gn_solve E 99 (term_with 20 (term_default 100)) cholmod_solve).
Proof.
  exists exSE, (sq 0), (gsq 0), [vx], (sat (nneg (lit 1048576))). do 3 eexists.
  split; [exact exC_ok|]. split; [apply sq_ok|]. split; [vm_compute; reflexivity|]. split; [apply sat_wf|]. shows.
Qed.
Definition dl_eager : dl_cfg f32 := mkDl eager n1 (nlit 1 1000).
Lemma damping_differs :
  (exists E fs g vs init b r r', differs E fs g vs init b r r' (lm_solve E 9 (lm_with 2 (nlit 5 10000) lm_eager) cholmod_solve)
    (lm_solve E 9 (lm_with 2 (nlit 5 10000) lm_eager) cholmod_solve) (lm_solve E 9 (lm_with 4 (nlit 5 10000) lm_eager) cholmod_solve)) /\
  (exists E fs g vs init b r r', differs E fs g vs init b r r' (dl_solve E 9 (dl_with 2 n1 dl_eager) cholmod_solve)
    (dl_solve E 9 (dl_with 2 n1 dl_eager) cholmod_solve) (dl_solve E 9 (dl_with 4 n1 dl_eager) cholmod_solve)).
Proof.
  split.
  - exists exSE, (sq 2), (gsq 2), [vx], (sat (lit 8)). do 3 eexists.
    split; [exact exC_ok|]. split; [apply sq_ok|]. split; [vm_compute; reflexivity|]. split; [apply sat_wf|]. shows.
  - exists exSE, (sq 2), (gsq 2), [vx], (sat (lit 50)). do 3 eexists.
    split; [exact exC_ok|]. split; [apply sq_ok|]. split; [vm_compute; reflexivity|]. split; [apply sat_wf|]. shows.
Qed.
(* the first step from 1/100 is rejected; even with the damping or radius carried over, the
   second one differs, since the uninterrupted run linearises with the rejected residual *)
Lemma rejected_differs :
  (exists E fs g vs init b r r' c res st, differs E fs g vs init b r r' (lm_solve E 9 (lm_with 1 (nlit 5 10000) lm_eager) cholmod_solve)
      (lm_solve E 9 (lm_with 1 (s_extra st) lm_eager) cholmod_solve) (lm_solve E 9 (lm_with 2 (nlit 5 10000) lm_eager) cholmod_solve) /\
    compute_cost E g init = Ok (c, res) /\ runs (lm_step E (lm_with 2 (nlit 5 10000) lm_eager) cholmod_solve g) 1 (mkState 0 init c res false (nlit 5 10000)) st /\
    s_done st = false /\ s_assign st = init) /\
  (exists E fs g vs init b r r' c res st, differs E fs g vs init b r r' (dl_solve E 9 (dl_with 1 (lit 1000) dl_eager) cholmod_solve)
      (dl_solve E 9 (dl_with 1 (s_extra st) dl_eager) cholmod_solve) (dl_solve E 9 (dl_with 2 (lit 1000) dl_eager) cholmod_solve) /\
    compute_cost E g init = Ok (c, res) /\ runs (dl_step E (dl_with 2 (lit 1000) dl_eager) cholmod_solve g) 1 (mkState 0 init c res false (lit 1000)) st /\
    s_done st = false /\ s_assign st = init).
Proof.
  assert (S2 : graph_make exSE (sq 2) = Ok (gsq 2)) by (vm_compute; reflexivity).
  split.
  - exists exSE, (sq 2), (gsq 2), [vx], (sat (nlit 1 100)). do 5 eexists. eexists (mkState _ _ _ _ _ _). split; [|split; [vm_compute; reflexivity | split]].
    2:{ econstructor; [reflexivity | vm_compute; reflexivity|]. constructor. }
    + split; [exact exC_ok|]. split; [apply sq_ok|]. split; [exact S2|]. split; [apply sat_wf|]. cbn [s_extra]. shows.
    + split; vm_compute; reflexivity.
  - exists exSE, (sq 2), (gsq 2), [vx], (sat (nlit 1 100)). do 5 eexists. eexists (mkState _ _ _ _ _ _). split; [|split; [vm_compute; reflexivity | split]].
    2:{ econstructor; [reflexivity | vm_compute; reflexivity|]. constructor. }
    + split; [exact exC_ok|]. split; [apply sq_ok|]. split; [exact S2|]. split; [apply sat_wf|]. cbn [s_extra]. shows.
    + split; vm_compute; reflexivity.
Qed.
