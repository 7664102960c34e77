(* Concrete instance and counterexample for the order independence of solve(). *)
From Coq Require Import List Arith Bool ZArith Lia Permutation Reals Lra.
From Verif Require Import Num NumR NumF32 Py Arr MLayout MAssign MNoise MSparse MFactor MGraph MLinear MSolver SpecLayout SpecTree SpecAssign SpecGraph SpecSparse SpecSolver SpecOrder.
From Verif Require Import PBase PLayout PTree PAssign PAssign2 PGraph PGraph2 PGraph4 PExAssign PExGraph PVec POrder POrder2 POrder3 Ex ExG ExS PExSolver.
Import ListNotations.

Section Lists.
Context {T : Type} {N : Num T}.
Definition quad : list (factor T) := [anchor vx 1; square vy 3; square vx 2; anchor vy 7].
Definition quad' : list (factor T) := [square vy 3; anchor vy 7; anchor vx 1; square vx 2].
End Lists.

Section Reals.
Local Open Scope R_scope.
Ltac comp := lazy -[Rlit Rplus Rmult Ropp IZR Rdiv Rminus Rmax Rmin sqrt Rabs Rleb Rltb Rinv].

Definition gquad : graph R := graph_of quad.
Definition gquad' : graph R := graph_of quad'.
Definition vquad (v : var) : pytree R := if eqb v vx then leaf1 [2] else leaf1 [5].

Lemma scalar_shape (x : pytree R) : value_ok ex_scalar x -> exists r, x = leaf1 [r].
Proof.
  intros (H1 & H2 & H3). unfold tree_ok in H1. destruct x as [a|tag l]; [|simpl in H2; discriminate].
  simpl in *. destruct a as [sh dat]. simpl in H3. injection H3 as ->. apply Forall_inv in H1. unfold arr_ok in H1. apply Nat.eqb_eq in H1. simpl in H1.
  destruct dat as [|r [|? ?]]; try discriminate. exists r. reflexivity.
Qed.

Lemma quad_shaped : well_shaped exSE quad.
Proof.
  assert (Hm : forall v, In v (mentioned (quad (N := NumR))) -> v = vx \/ v = vy) by (intros v; simpl; intuition).
  assert (Hx : In vx (mentioned (quad (N := NumR)))) by (simpl; auto). assert (Hy : In vy (mentioned (quad (N := NumR)))) by (simpl; auto).
  split.
  - intros val f Hv Hf. destruct (scalar_shape _ (Hv vx Hx)) as (x & Ex). destruct (scalar_shape _ (Hv vy Hy)) as (y & Ey).
    destruct Hf as [<-|[<-|[<-|[<-|[]]]]]; unfold residual_shape_ok, residual_at, quad; simpl map; rewrite ?Ex, ?Ey; reflexivity.
  - intros val f Hv Hf. destruct (scalar_shape _ (Hv vx Hx)) as (x & Ex). destruct (scalar_shape _ (Hv vy Hy)) as (y & Ey).
    destruct Hf as [<-|[<-|[<-|[<-|[]]]]]; unfold jacobian_shape_ok, jacobians_at; simpl map; rewrite ?Ex, ?Ey; repeat constructor.
  - intros v x d Hv Hx' Hd. destruct (Hm v Hv) as [->| ->]; destruct (scalar_shape x Hx') as (r & ->);
      destruct d as [|e [|? ?]]; try discriminate Hd; eexists; (split; [reflexivity | split; repeat constructor]).
Qed.

Lemma quad_perm : Permutation (quad (N := NumR)) quad'.
Proof.
  unfold quad, quad'. apply (Permutation_cons_app [_; _] [_]). simpl. apply perm_skip. apply perm_swap.
Qed.
Lemma quad_ok f : In f (quad (N := NumR)) -> factor_ok f.
Proof.
  apply (exS_ok [vx; vy]). intros h [<-|[<-|[<-|[<-|[]]]]]; do 3 eexists; (split; [reflexivity | simpl; auto]).
Qed.

Lemma ex_order : classes_ok (e_cls (exSE (N := NumR))) /\ (forall f, In f (quad (N := NumR)) -> factor_ok f) /\ Permutation (quad (N := NumR)) quad' /\
  graph_make exSE quad = Ok gquad /\ graph_make exSE quad' = Ok gquad' /\
  total residual_dim (quad (N := NumR)) = 4%nat /\ well_shaped exSE quad /\
  assigns exSE quad (scalars [vx; vy] [2; 5]) vquad /\ assigns exSE quad (scalars [vy; vx] [5; 2]) vquad /\
  g_layout gquad <> g_layout gquad' /\ g_coords gquad <> g_coords gquad' /\
  cholmod_solver exSE (fun fuel => lm_solve exSE fuel (lm_default 1) cholmod_solve) /\
  exists a, gn_solve exSE 1 (term_default 1) cholmod_solve gquad (scalars [vx; vy] [2; 5]) = Some (Ok a).
Proof.
  split; [intros [|[|t]]; repeat constructor|]. split; [exact quad_ok|]. split; [exact quad_perm|]. split; [reflexivity|]. split; [reflexivity|].
  split; [reflexivity|]. split; [exact quad_shaped|].
  split. { exists [vx; vy]. split; [split; [repeat constructor; simpl; intuition discriminate | split; reflexivity]|].
    split; [intros v; simpl; tauto|]. intros v [<-|[<-|[]]]; reflexivity. }
  split. { exists [vy; vx]. split; [split; [repeat constructor; simpl; intuition discriminate | split; reflexivity]|].
    split; [intros v; simpl; tauto|]. intros v [<-|[<-|[]]]; reflexivity. }
  split; [discriminate|]. split; [discriminate|]. split; [constructor; cbn; unfold Rlit; lra|].
  eexists; comp; reflexivity.
Qed.
End Reals.

(* floating point sums depend on the order *)
Section F32.
#[local] Existing Instance NumF32.
Definition big : list (factor f32) := anchor vx 16777216 :: map (fun _ => anchor vx 1) (seq 0 20).
Definition big' : list (factor f32) := map (fun _ => anchor vx 1) (seq 0 20) ++ [anchor vx 16777216].
Lemma floats_order : exists (E : env f32) fs fs' g g' init a a' v, Permutation fs fs' /\ graph_make E fs = Ok g /\ graph_make E fs' = Ok g' /\
  gn_solve E 1 (term_default 1) cholmod_solve g init = Some (Ok a) /\ gn_solve E 1 (term_default 1) cholmod_solve g' init = Some (Ok a') /\
  (exists x, get_value (e_cls E) a v = Ok x) /\ get_value (e_cls E) a v <> get_value (e_cls E) a' v.
Proof.
  exists exSE, big, big', (graph_of big), (graph_of big'), (scalars [vx] [lit 0]).
  destruct (gn_solve exSE 1 (term_default 1) cholmod_solve (graph_of big) (scalars [vx] [lit 0])) as [[a|e]|] eqn:H1; [|exfalso; revert H1; vm_compute; discriminate..].
  destruct (gn_solve exSE 1 (term_default 1) cholmod_solve (graph_of big') (scalars [vx] [lit 0])) as [[a'|e]|] eqn:H2; [|exfalso; revert H2; vm_compute; discriminate..].
  exists a, a', vx. split; [apply Permutation_cons_append|]. split; [vm_compute; reflexivity|]. split; [vm_compute; reflexivity|].
  split; auto. split; auto. vm_compute in H1, H2. injection H1 as <-. injection H2 as <-. split; [eexists; vm_compute; reflexivity|]. vm_compute. discriminate.
Qed.
End F32.
