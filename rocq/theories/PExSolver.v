(* Concrete instances and counterexamples for the solver theorems. *)
From Coq Require Import List Arith Bool ZArith Lia Reals Lra.
From Verif Require Import Num NumR NumF32 Py Arr MLayout MAssign MNoise MSparse MFactor MGraph MLinear MSolver SpecLayout SpecTree SpecAssign SpecGraph SpecSparse SpecSolver.
From Verif Require Import PBase PLayout PTree PAssign PAssign2 PGraph PGraph2 PGraph4 PExAssign PExGraph PVec PSolver PSolver2 PSolverR PSolverX Ex ExG ExS.
Import ListNotations.

(* ---- C28: exactly `iterations` steps ---- *)
Lemma fixed_exact (T : Type) (N : Num T) (E : env T) lin g init fuel :
  (forall unroll it, (1 <= it)%Z -> Z.to_nat it <= fuel ->
     fixed_solve E fuel unroll it lin g init =
       Some (a <- gauss_newton E lin g (Z.to_nat it) 0 init ;; _ <- compute_whitened_residual_vector E g a ;; Ok a)) /\
  (forall it, (it <= 0)%Z -> 1 <= fuel ->
     fixed_solve E fuel true it lin g init = Some (_ <- compute_whitened_residual_vector E g init ;; Ok init) /\
     fixed_solve E fuel false it lin g init =
       Some (a <- gauss_newton E lin g 1 0 init ;; _ <- compute_whitened_residual_vector E g a ;; Ok a)).
Proof.
  split; [intros; apply fixed_solve_ok; auto|]. intros it Hit Hf. split.
  - unfold fixed_solve, init_state, compute_cost. destruct (compute_whitened_residual_vector E g init); cbn [bind]; auto.
    replace (Z.to_nat it) with 0 by lia. auto.
  - assert (H1 : fixed_solve E fuel false it lin g init = fixed_solve E fuel false 1 lin g init).
    { unfold fixed_solve. destruct (init_state E g init n0) as [st|] eqn:Est; auto. 
      assert (Hst : s_done st = false /\ s_iter st = 0).
      { unfold init_state in Est. apply bind_ok in Est. destruct Est as (cr & _ & Est). injection Est as <-. auto. }
      destruct Hst as (Hd & Hi). destruct fuel as [|fuel]; [lia|]. cbn [while_loop]. rewrite Hd. cbn [negb].
      unfold fixed_step. destruct (gn_update E lin g st) as [[[u d] a]|]; cbn [bind]; auto.
      destruct (compute_cost E g a) as [cr|]; cbn [bind]; auto. rewrite Hi. cbn [Z.of_nat].
      replace (Z.leb (it - 1) 0) with true by (symmetry; apply Z.leb_le; lia). cbn [Z.sub Z.leb Z.compare].
      destruct fuel; reflexivity. }
    rewrite H1. rewrite fixed_solve_ok by lia. reflexivity.
Qed.

(* ---- common facts about the example factors ---- *)
Section ExAny.
Context {T : Type} {N : Num T}.
Lemma exS_ok vs (fs : list (factor T)) : (forall f, In f fs -> exists c v z, f = mkFactor c [v] dg1 [leaf1 [lit z]] /\ In v vs) ->
  forall f, In f fs -> factor_ok f.
Proof.
  intros H f Hf. destruct (H f Hf) as (c & v & z & -> & _). split; [split; [reflexivity | exists 1; reflexivity] | repeat constructor].
Qed.
Definition two := [anchor (T := T) vx 3; anchor vy 7].
Lemma two_ok f : In f two -> factor_ok f.
Proof. apply (exS_ok [vx; vy]). intros h [<-|[<-|[]]]; do 3 eexists; (split; [reflexivity | simpl; auto]). Qed.
Definition mixed := [anchor (T := T) vx 1; square vx 3].
Lemma mixed_ok f : In f mixed -> factor_ok f.
Proof. apply (exS_ok [vx]). intros h [<-|[<-|[]]]; do 3 eexists; (split; [reflexivity | simpl; auto]). Qed.
Definition sq (z : Z) := [square (T := T) vx z].
Lemma sq_ok z f : In f (sq z) -> factor_ok f.
Proof. apply (exS_ok [vx]). intros h [<-|[]]; do 3 eexists; (split; [reflexivity | simpl; auto]). Qed.
End ExAny.

Section F32.
#[local] Existing Instance NumF32.
Notation S := (start (N := NumF32)).
Definition gtwo : graph f32 := graph_of two.
Definition swapped : assign f32 := scalars [vy; vx] [lit 1; lit 1].
Definition straight : assign f32 := scalars [vx; vy] [lit 1; lit 1].
Definition gsq (z : Z) : graph f32 := graph_of (sq z).

Lemma exC_ok : classes_ok (exC (N := NumF32)).
Proof. exact (proj1 ex_two_layouts). Qed.
Lemma swapped_wf : wf_assign exC [vy; vx] false swapped.
Proof. split; [repeat constructor; simpl; intuition discriminate | split; reflexivity]. Qed.
Lemma straight_wf : wf_assign exC [vx; vy] false straight.
Proof. split; [repeat constructor; simpl; intuition discriminate | split; reflexivity]. Qed.

(* C27: three iterations allowed, three used; none allowed, one used *)
Lemma ex_terminates :
  iteration_cap (max_iterations (term_default (T := f32) 3)) = 3 /\ iteration_cap (max_iterations (term_default (T := f32) (-5))) = 1 /\
  (exists a st, gn_solve exSE 3 (term_default 3) cholmod_solve (gsq 0) (scalars [vx] [lit 8]) = Some (Ok a) /\
     runs (gn_step exSE (term_default 3) cholmod_solve (gsq 0)) 3 (S (gsq 0) (scalars [vx] [lit 8]) n0) st /\ s_assign st = a) /\
  (exists a st, lm_solve exSE 1 (lm_default (-5)) cholmod_solve (gsq 0) (scalars [vx] [lit 8]) = Some (Ok a) /\
     runs (lm_step exSE (lm_default (-5)) cholmod_solve (gsq 0)) 1 (S (gsq 0) (scalars [vx] [lit 8]) (nlit 5 10000)) st /\ s_assign st = a).
Proof.
  split; [reflexivity|]. split; [reflexivity|]. split.
  - do 2 eexists. split; [vm_compute; reflexivity|]. split.
    + econstructor; [vm_compute; reflexivity | vm_compute; reflexivity|].
      econstructor; [vm_compute; reflexivity | vm_compute; reflexivity|].
      econstructor; [vm_compute; reflexivity | vm_compute; reflexivity|]. constructor.
    + vm_compute. reflexivity.
  - do 2 eexists. split; [vm_compute; reflexivity|]. split.
    + econstructor; [vm_compute; reflexivity | vm_compute; reflexivity|]. constructor.
    + vm_compute. reflexivity.
Qed.

Lemma ex_fixed : exists a, fixed_solve exSE 5 true 2 cholmod_solve gtwo straight = Some (Ok a) /\
  fixed_solve exSE 5 false 2 cholmod_solve gtwo straight = Some (Ok a) /\ as_storage a <> as_storage straight.
Proof. eexists. split; [vm_compute; reflexivity|]. split; [vm_compute; reflexivity|]. vm_compute. discriminate. Qed.
Lemma fixed_zero_differs : exists (E : env f32) lin g init a b fuel,
  fixed_solve E fuel true 0 lin g init = Some (Ok a) /\ fixed_solve E fuel false 0 lin g init = Some (Ok b) /\
  a = init /\ as_storage b <> as_storage init.
Proof.
  exists exSE, cholmod_solve, gtwo, straight. do 2 eexists. exists 5.
  split; [vm_compute; reflexivity|]. split; [vm_compute; reflexivity|]. split; [reflexivity|]. vm_compute. discriminate.
Qed.

(* C29: the result comes back in the caller's order *)
Lemma ex_layout_kept : classes_ok (exC (N := NumF32)) /\ (forall f, In f (two (T := f32)) -> factor_ok f) /\
  graph_make exSE two = Ok gtwo /\ wf_assign exC [vy; vx] false swapped /\
  (exists a, dl_solve exSE 9 (dl_default 9) cholmod_solve gtwo swapped = Some (Ok a)) /\
  (exists a, gn_solve exSE 9 (term_default 9) cholmod_solve gtwo swapped = Some (Ok a) /\
     as_layout a = as_layout swapped /\ as_layout swapped <> g_layout gtwo) /\
  wf_assign exC [vx] false (scalars [vx] [lit 1]) /\ ~ (forall v, In v [vx] <-> In v (mentioned (two (T := f32)))).
Proof.
  split; [exact exC_ok|]. split; [exact two_ok|]. split; [vm_compute; reflexivity|]. split; [exact swapped_wf|].
  split; [eexists; vm_compute; reflexivity|].
  split; [eexists; split; [vm_compute; reflexivity | split; [vm_compute; reflexivity | vm_compute; discriminate]]|].
  split; [split; [repeat constructor; simpl; intuition discriminate | split; reflexivity]|].
  intros H. assert (H1 : In vy [vx]) by (apply H; vm_compute; auto). destruct H1 as [H1|[]]. discriminate.
Qed.

(* C31 *)
Lemma ex_fixed_gn : (forall f, In f (two (T := f32)) -> factor_ok f) /\ graph_make exSE two = Ok gtwo /\
  wf_assign exC [vx; vy] false straight /\ same_layout (as_layout straight) (g_layout gtwo) /\
  exists c res st, compute_cost exSE gtwo straight = Ok (c, res) /\
    runs (gn_step exSE (term_default 100) cholmod_solve gtwo) 2 (mkState 0 straight c res false n0) st.
Proof.
  split; [exact two_ok|]. split; [vm_compute; reflexivity|]. split; [exact straight_wf|].
  split; [vm_compute; repeat split; reflexivity|]. do 3 eexists. split; [vm_compute; reflexivity|].
  econstructor; [vm_compute; reflexivity | vm_compute; reflexivity|].
  econstructor; [vm_compute; reflexivity | vm_compute; reflexivity|]. constructor.
Qed.
Lemma fixed_swaps : exists (E : env f32) fs g init init' a b v w,
  graph_make E fs = Ok g /\ wf_assign (e_cls E) [w; v] false init /\ (forall u, In u [w; v] <-> In u (mentioned fs)) /\
  update_storage_layout (e_cls E) init (g_layout g) = Ok init' /\
  fixed_solve E 1 false 1 cholmod_solve g init = Some (Ok a) /\ fixed_solve E 1 false 1 cholmod_solve g init' = Some (Ok b) /\
  get_value (e_cls E) init v = get_value (e_cls E) init w /\
  get_value (e_cls E) a v = get_value (e_cls E) b w /\ get_value (e_cls E) a w = get_value (e_cls E) b v /\
  get_value (e_cls E) a v <> get_value (e_cls E) b v.
Proof.
  exists exSE, two, gtwo, swapped. do 3 eexists. exists vx, vy.
  split; [vm_compute; reflexivity|]. split; [exact swapped_wf|].
  split; [intros u; assert (Hm : mentioned (two (T := f32)) = [vx; vy]) by (vm_compute; reflexivity); rewrite Hm; simpl; tauto|].
  split; [vm_compute; reflexivity|]. split; [vm_compute; reflexivity|]. split; [vm_compute; reflexivity|].
  split; [vm_compute; reflexivity|]. split; [vm_compute; reflexivity|]. split; [vm_compute; reflexivity|]. vm_compute. discriminate.
Qed.

(* C32, C33: x^2 - 2 from 0.01: the first step is far too long and is rejected *)
Definition s_bad : sstate f32 := S (gsq 2) (scalars [vx] [nlit 1 100]) (nlit 5 10000).
Definition d_bad : sstate f32 := S (gsq 2) (scalars [vx] [nlit 1 100]) (lit 1000).
Definition dl_wide : dl_cfg f32 := mkDl (term_default 100) (lit 1000) (nlit 1 1000).
Lemma ex_current : current exSE (gsq 2) s_bad /\ exists s1 s2, runs (lm_step exSE (lm_default 100) cholmod_solve (gsq 2)) 2 s_bad s2 /\
  lm_step exSE (lm_default 100) cholmod_solve (gsq 2) s_bad = Ok s1 /\ s_cost s1 = s_cost s_bad /\ s_cost s2 <> s_cost s1.
Proof.
  split; [vm_compute; reflexivity|]. do 2 eexists. split; [|split; [|split]].
  - econstructor; [vm_compute; reflexivity | vm_compute; reflexivity|].
    econstructor; [vm_compute; reflexivity | vm_compute; reflexivity|]. constructor.
  - vm_compute. reflexivity.
  - vm_compute. reflexivity.
  - vm_compute. discriminate.
Qed.
Lemma residual_goes_stale :
  (exists (E : env f32) fs g cfg s0 s1 r, graph_make E fs = Ok g /\ current E g s0 /\
     runs (lm_step E cfg cholmod_solve g) 1 s0 s1 /\ s_done s1 = false /\
     compute_whitened_residual_vector E g (s_assign s1) = Ok r /\ r <> s_res s1) /\
  (exists (E : env f32) fs g cfg s0 s1 r, graph_make E fs = Ok g /\ current E g s0 /\
     runs (dl_step E cfg cholmod_solve g) 1 s0 s1 /\ s_done s1 = false /\
     compute_whitened_residual_vector E g (s_assign s1) = Ok r /\ r <> s_res s1).
Proof.
  split.
  - exists exSE, (sq 2), (gsq 2), (lm_default 100), s_bad. do 2 eexists. split; [vm_compute; reflexivity|]. split; [vm_compute; reflexivity|].
    split; [econstructor; [vm_compute; reflexivity | vm_compute; reflexivity | constructor]|].
    split; [vm_compute; reflexivity|]. split; [vm_compute; reflexivity|]. vm_compute. discriminate.
  - exists exSE, (sq 2), (gsq 2), dl_wide, d_bad. do 2 eexists. split; [vm_compute; reflexivity|]. split; [vm_compute; reflexivity|].
    split; [econstructor; [vm_compute; reflexivity | vm_compute; reflexivity | constructor]|].
    split; [vm_compute; reflexivity|]. split; [vm_compute; reflexivity|]. vm_compute. discriminate.
Qed.

Lemma ex_trust : exists s', trust_body exSE cholmod_solve (lm_step exSE (lm_default 100) cholmod_solve) (lm_quality_min (lm_default 100)) /\
  lm_step exSE (lm_default 100) cholmod_solve (gsq 2) s_bad = Ok s'.
Proof. eexists. split; [constructor | vm_compute; reflexivity]. Qed.

(* C34: and the second step, computed from the stale residual, is accepted although it
   raises the cost from 4 to more than 10^17 *)
Lemma cost_raised : exists (E : env f32) fs g s0 s1 s2, graph_make E fs = Ok g /\ current E g s0 /\
  runs (lm_step E (lm_default 100) cholmod_solve g) 1 s0 s1 /\ runs (lm_step E (lm_default 100) cholmod_solve g) 1 s1 s2 /\
  s_assign s2 <> s_assign s1 /\ nltb (s_cost s1) (lit 5) = true /\ nltb (lit 100000000000000000) (s_cost s2) = true.
Proof.
  exists exSE, (sq 2), (gsq 2), s_bad. do 2 eexists. split; [vm_compute; reflexivity|]. split; [vm_compute; reflexivity|].
  split; [econstructor; [vm_compute; reflexivity | vm_compute; reflexivity | constructor]|].
  split; [econstructor; [vm_compute; reflexivity | vm_compute; reflexivity | constructor]|].
  split; [vm_compute; discriminate|]. split; vm_compute; reflexivity.
Qed.

(* C35 *)
Lemma lambda_below_min : exists (E : env f32) fs g s0 s7, graph_make E fs = Ok g /\
  s_extra s0 = lambda_initial (lm_default 100) /\ nltb (lambda_min (lm_default (T := f32) 100)) (s_extra s0) = true /\
  runs (lm_step E (lm_default 100) cholmod_solve g) 7 s0 s7 /\ nltb (s_extra s7) (lambda_min (lm_default 100)) = true.
Proof.
  exists exSE, (sq 0), (gsq 0), (S (gsq 0) (scalars [vx] [lit 1024]) (nlit 5 10000)). eexists.
  split; [vm_compute; reflexivity|]. split; [vm_compute; reflexivity|]. split; [vm_compute; reflexivity|].
  split; [|shelve]. do 7 (econstructor; [vm_compute; reflexivity | vm_compute; reflexivity|]). constructor.
  Unshelve. vm_compute. reflexivity.
Qed.

(* C38: x^2 from -2^20 with the default settings: declared converged at x = -512 *)
Lemma stops_far_away : exists (E : env f32) fs g init st st' a,
  graph_make E fs = Ok g /\ runs (gn_step E (term_default 100) cholmod_solve g) 10 (S g init n0) st /\
  gn_step E (term_default 100) cholmod_solve g st = Ok st' /\ s_done st' = true /\ s_iter st' = 11 /\
  gn_solve E 100 (term_default 100) cholmod_solve g init = Some (Ok a) /\ as_storage a = [lit (-512)] /\
  nltb (lit 1000000000) (s_cost st') = true.
Proof.
  exists exSE, (sq 0), (gsq 0), (scalars [vx] [lit (-1048576)]). do 3 eexists.
  split; [vm_compute; reflexivity|].
  split; [do 10 (econstructor; [vm_compute; reflexivity | vm_compute; reflexivity|]); constructor|].
  split; [vm_compute; reflexivity|]. split; [vm_compute; reflexivity|]. split; [vm_compute; reflexivity|].
  split; [vm_compute; reflexivity|]. split; vm_compute; reflexivity.
Qed.
End F32.

Section Reals.
Local Open Scope R_scope.
Ltac comp := lazy -[Rlit Rplus Rmult Ropp IZR Rdiv Rminus Rmax Rmin sqrt Rabs Rleb Rltb Rinv].

Ltac sq1 := rewrite ?sumsq_cons; unfold sumsq; cbn; unfold vsum; cbn; lra.
Definition gmixed : graph R := graph_of mixed.
Definition amixed : assign R := scalars [vx] [2].
Definition smixed : sstate R := start gmixed amixed (Rlit 5 10000).
Definition vmixed (v : var) : pytree R := leaf1 [2].

Lemma ex_lm_prediction : (forall f, In f (mixed (N := NumR)) -> factor_ok f) /\ graph_make exSE mixed = Ok gmixed /\
  assigns exSE mixed (s_assign smixed) vmixed /\ (forall f, In f mixed -> residual_shape_ok exSE vmixed f) /\
  (forall f, In f mixed -> jacobian_shape_ok exSE vmixed f) /\ total residual_dim (mixed (N := NumR)) = 2%nat /\
  current exSE gmixed smixed /\ 0 < s_extra smixed + Rlit 1 100000 /\ 0 < lm_quality_min (lm_default (T := R) 100) /\
  (exists s', lm_step exSE (lm_default 100) cholmod_solve gmixed smixed = Ok s') /\
  trust_body exSE cholmod_solve (lm_step exSE (lm_default 100) cholmod_solve) (lm_quality_min (lm_default 100)) /\
  exists A ATb, compute_whitened_residual_jacobian exSE gmixed (s_assign smixed) (s_res smixed) = Ok A /\
    matmul (transpose A) (vneg (s_res smixed)) = Ok ATb /\ ATb <> vzero (length ATb).
Proof.
  split; [exact mixed_ok|]. split; [reflexivity|].
  split. { exists [vx]. split; [split; [repeat constructor; simpl; tauto | split; reflexivity]|].
    split; [intros v; simpl; tauto|]. intros v [<-|[]]. reflexivity. }
  split; [intros f [<-|[<-|[]]]; reflexivity|].
  split; [intros f [<-|[<-|[]]]; repeat constructor|].
  split; [reflexivity|]. split; [reflexivity|].
  split; [unfold smixed, Rlit; cbn; lra|]. split; [unfold Rlit; cbn; unfold Rlit; lra|].
  split; [eexists; comp; reflexivity|]. split; [constructor|].
  do 2 eexists. split; [comp; reflexivity|]. split; [comp; reflexivity|]. comp. intros H. injection H. unfold Rlit. lra.
Qed.

Definition smixed_dl : sstate R := start gmixed amixed 1.
Lemma ex_radius : 0 < radius_initial (dl_default (T := R) 100) /\ s_extra smixed_dl = radius_initial (dl_default (T := R) 100) /\
  exists s', dl_step exSE (dl_default 100) cholmod_solve gmixed smixed_dl = Ok s'.
Proof. 
  split; [cbn; unfold Rlit; lra|]. split; [cbn; unfold Rlit; lra|].
  destruct (dl_step exSE (dl_default 100) cholmod_solve gmixed smixed_dl) as [s'|e] eqn:H; [eauto|]. exfalso. revert H. comp.
  repeat match goal with |- context [Rleb ?a ?b] => destruct (Rleb a b); comp | |- context [Rltb ?a ?b] => destruct (Rltb a b); comp end; discriminate.
Qed.

Definition eye1 : coo R := mkCoo [1] (mkCoords [0%nat] [0%nat]) (1%nat, 1%nat).
Lemma ex_dogleg : coo_ok eye1 /\ length [2] = fst (m_shape eye1) /\ length [2] = snd (m_shape eye1) /\
  exists ATb Asd, matmul (transpose eye1) [2] = Ok ATb /\ matmul eye1 ATb = Ok Asd /\ ATb <> vzero (snd (m_shape eye1)) /\
    1 < vnorm [2].
Proof.
  split; [repeat split; repeat constructor|]. split; [reflexivity|]. split; [reflexivity|].
  do 2 eexists. split; [reflexivity|]. split; [reflexivity|]. split.
  - cbn. intros H. injection H. lra.
  - rewrite (vnorm_eq [2] 2); [lra | lra | sq1].
Qed.
Lemma ex_lm_params : let cfg := lm_default (T := R) 100 in 0 < lambda_min cfg /\ lambda_min cfg <= lambda_max cfg /\ 1 < lambda_factor cfg /\
  0 < lambda_initial cfg /\ lambda_initial cfg <= lambda_max cfg /\ 0 < radius_initial (dl_default (T := R) 100).
Proof. cbn. unfold Rlit. repeat split; lra. Qed.

(* C38: the gradient criterion holds although the largest component has size B + 1 *)
Lemma gradient_not_inf_norm (B : R) : 0 < B -> exists (E : env R) st delta ng a',
  let cfg := term_default 100 in
  manifold_retract (e_cls E) (s_assign st) (mkAssign ng (as_layout delta)) = Ok a' /\
  check_convergence E cfg st (s_cost st + s_cost st) delta ng = Ok true /\
  converged_cost cfg st (s_cost st + s_cost st) = false /\ converged_parameters cfg st delta = false /\
  exists i, B < Rabs (nth i (as_storage (s_assign st)) 0 - nth i (as_storage a') 0).
Proof.
  intros HB. exists exSE, (mkState 10 (scalars [vx] [0]) 1 [1] false 0), (mkAssign [1] (make_layout exC [vx] true)), [B + 1].
  eexists. cbn zeta.
  assert (Hr : manifold_retract exC (scalars [vx] [0]) (mkAssign [B + 1] (make_layout exC [vx] true)) = Ok (scalars [vx] [0 + (B + 1)])) by reflexivity.
  assert (Hc : converged_cost (term_default 100) (mkState 10 (scalars [vx] [0]) 1 [1] false 0) (1 + 1) = false).
  { unfold converged_cost. cbn [s_cost]. rn. apply Rltb_no. replace (1 + 1 - 1) with 1 by lra. rewrite Rabs_R1. cbn. unfold Rlit. lra. }
  assert (Hp : converged_parameters (term_default 100) (mkState 10 (scalars [vx] [0]) 1 [1] false 0) (mkAssign [1] (make_layout exC [vx] true)) = false).
  { unfold converged_parameters. rewrite vnorm_abs. cbn [s_assign as_storage]. rn. apply Rltb_no.
    rewrite (vnorm_eq [1] 1) by (try lra; sq1). unfold scalars. cbn [as_storage]. rewrite (vnorm_eq [0] 0) by (try lra; sq1).
    cbn. unfold Rlit. lra. }
  split; [exact Hr|]. split.
  - unfold check_convergence, converged_gradient. cbn [s_assign as_layout e_cls exSE]. rewrite Hr. cbn [bind].
    cbn [s_cost] in *. rewrite Hp, Hc. unfold scalars at 1 2. cbn [as_storage].
    cbn. f_equal. rewrite orb_false_r. apply Rltb_ok. unfold Rlit. lra.
  - split; [exact Hc|]. split; [exact Hp|]. exists 0%nat. cbn. rewrite Rabs_left; lra.
Qed.
End Reals.

Section XReals.
Local Open Scope R_scope.
#[local] Existing Instance NumXR.
Definition gX : graph xr := graph_of [anchor vx 1; anchor vx 3].
Definition aX : assign xr := scalars [vx] [Fin 2].
Definition AX : coo R := mkCoo [1 * 1; 1 * 1] (mkCoords [0%nat; 1%nat] [0%nat; 0%nat]) (2%nat, 1%nat).
Lemma ex_stationary : stationary exSE gX aX 2 [1; -1] [2] AX /\ update_storage_layout (e_cls exSE) aX (g_layout gX) = Ok aX /\
  iteration_cap (max_iterations (lm_term (lm_default (T := xr) 100))) = 100%nat.
Proof.
  split; [|split; reflexivity].
  assert (H : exists c r, compute_cost exSE gX aX = Ok (Fin c, finite r) /\ c = 2 /\ r = [1; -1]).
  { eexists (_ + (_ + _)), [_; _]. split; [lazy -[Rlit Rplus Rmult Ropp IZR]; reflexivity|].
    unfold Rlit. split; [lra|]. f_equal; [lra|]. f_equal. lra. }
  destruct H as (c & r & Hc & -> & ->). constructor; auto.
  - repeat split; repeat constructor.
  - lazy -[Rlit Rplus Rmult Ropp IZR]. f_equal. f_equal. lra.
  - discriminate.
  - lazy -[Rlit Rplus Rmult Ropp IZR]. replace (2 + 0) with 2 by lra. reflexivity.
Qed.
End XReals.
