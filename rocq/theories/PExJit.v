(* Concrete instances for the sharing of CHOLMOD analyses. *)
From Coq Require Import List Arith Bool ZArith Lia Reals.
From Verif Require Import Num NumR Py Arr MLayout MAssign MNoise MSparse MFactor MGraph MMisc MJit SpecLayout SpecTree SpecAssign SpecGraph SpecJit.
From Verif Require Import PBase PAssign PAssign2 PGraph PJit PJit2 Ex ExG ExS PExLin.
Import ListNotations.

Definition vz : var := mkVar 2 2.
Definition link (v w : var) (z : Z) : factor R := mkFactor 22 [v; w] dg1 [leaf1 [lit z]].
(* the same three anchored variables, linked differently; [tied_xy'] repeats [tied_xy] with other measurements *)
Definition tied (v w : var) (a b c d : Z) : list (factor R) := [anchor vx a; anchor vy b; anchor vz c; link v w d].
Definition made_of (fs : list (factor R)) : graph R :=
  match graph_make exLE fs with Ok g => g | Err _ => mkGraph [] (mkCoords [] []) (make_layout exC [] false) (make_layout exC [] true) 0 end.
Definition origin : assign R := scalars [vx; vy; vz] [0%R; 0%R; 0%R].
Definition solve_with (o : nat) (fs : list (factor R)) : call R := mkCall o 0 (made_of fs) origin.

Lemma tied_ok v w a b c d f : In f (tied v w a b c d) -> factor_ok f.
Proof. intros [<-|[<-|[<-|[<-|[]]]]]; (split; [split; [reflexivity | exists 1; reflexivity] | repeat constructor]). Qed.
Lemma anchor_kind v w a b : v_ty v = v_ty w -> same_kind (anchor (T := R) v a) (anchor w b).
Proof. intros H. unfold same_kind, anchor. simpl. rewrite H. repeat split; auto. repeat constructor. Qed.
Lemma link_kind v w v' w' a b : v_ty v = v_ty v' -> v_ty w = v_ty w' -> same_kind (link v w a) (link v' w' b).
Proof. intros H H'. unfold same_kind, link. simpl. rewrite H, H'. repeat split; auto. repeat constructor. Qed.
Lemma tied_kind v w v' w' a b c d a' b' c' d' : v_ty v = v_ty v' -> v_ty w = v_ty w' ->
  Forall2 same_kind (tied v w a b c d) (tied v' w' a' b' c' d').
Proof. intros H H'. unfold tied. repeat (apply Forall2_cons; [auto using anchor_kind, link_kind|]). apply Forall2_nil. Qed.
Lemma tied_made v w a b c d : In v [vx; vy; vz] -> In w [vx; vy; vz] ->
  graph_make exLE (tied v w a b c d) = Ok (made_of (tied v w a b c d)).
Proof.
  intros Hv Hw. unfold made_of.
  destruct (graph_make_ok exLE (tied v w a b c d)) as [H _]; [intros f Hf; eapply tied_ok; eauto|].
  destruct H as (g & Eg & _); [exists (anchor vx a); split; [left; auto | discriminate]|]. rewrite Eg. auto.
Qed.
Lemma origin_ok : wf_assign (e_cls exLE) [vx; vy; vz] false origin.
Proof. split; [|split; reflexivity]. repeat constructor; simpl; intuition discriminate. Qed.
Lemma solve_ok o v w a b c d : In v [vx; vy; vz] -> In w [vx; vy; vz] -> call_ok exLE (solve_with o (tied v w a b c d)).
Proof.
  intros Hv Hw. exists (tied v w a b c d), [vx; vy; vz]. split; [intros f Hf; eapply tied_ok; eauto|].
  split; [apply tied_made; auto | apply origin_ok].
Qed.

(* the positions of A^T *)
Lemma tied_pattern o v w a b c d : In v [vx; vy; vz] -> In w [vx; vy; vz] ->
  call_pattern (solve_with o (tied v w a b c d)) = (3, 4, [(0, 0); (1, 1); (2, 2); (v_id v, 3); (v_id w, 3)]).
Proof. intros [<-|[<-|[<-|[]]]] [<-|[<-|[<-|[]]]]; lazy -[Rlit Rplus Rmult Ropp IZR Rdiv]; reflexivity. Qed.

Lemma tied_mentioned v w a b c d : In v [vx; vy; vz] -> In w [vx; vy; vz] -> mentioned (tied v w a b c d) = [vx; vy; vz].
Proof. intros [<-|[<-|[<-|[]]]] [<-|[<-|[<-|[]]]]; reflexivity. Qed.

Lemma tied_alike o o' v w v' w' a b c d a' b' c' d' : In v [vx; vy; vz] -> In w [vx; vy; vz] -> In v' [vx; vy; vz] -> In w' [vx; vy; vz] ->
  calls_alike (solve_with o (tied v w a b c d)) (solve_with o' (tied v' w' a' b' c' d')).
Proof.
  intros Hv Hw Hv' Hw'. assert (Ht : forall u, In u [vx; vy; vz] -> v_ty u = 2) by (intros u [<-|[<-|[<-|[]]]]; auto).
  split; auto. split; [|split; [auto | apply same_layout_refl]]. cbn [solve_with cl_graph].
  apply (alike_graphs exLE (tied v w a b c d) (tied v' w' a' b' c' d')); auto using tied_made.
  - intros f Hf; eapply tied_ok; eauto.
  - intros f Hf; eapply tied_ok; eauto.
  - apply tied_kind; rewrite !Ht; auto.
  - rewrite !tied_mentioned; auto.
Qed.

(* two fresh solvers, one graph each: the second is factorised with the analysis of the first *)
Lemma jit_shared : exists (E : env R) fs fs' g g' a,
  (forall f, In f fs -> factor_ok f) /\ (forall f, In f fs' -> factor_ok f) /\
  graph_make E fs = Ok g /\ graph_make E fs' = Ok g' /\ wf_assign (e_cls E) (mentioned fs) false a /\ mentioned fs' = mentioned fs /\
  call_pattern (mkCall 1 0 g' a) <> call_pattern (mkCall 0 0 g a) /\
  fst (jit_run [mkCall 0 0 g a; mkCall 1 0 g' a] jit0) = [Some (call_pattern (mkCall 0 0 g a)); Some (call_pattern (mkCall 0 0 g a))].
Proof.
  exists exLE, (tied vx vy 1 2 3 4), (tied vx vz 1 2 3 4), (made_of (tied vx vy 1 2 3 4)), (made_of (tied vx vz 1 2 3 4)), origin.
  assert (I1 : In vx [vx; vy; vz]) by (left; auto). assert (I2 : In vy [vx; vy; vz]) by (right; left; auto).
  assert (I3 : In vz [vx; vy; vz]) by (right; right; left; auto).
  split; [intros f Hf; eapply tied_ok; eauto|]. split; [intros f Hf; eapply tied_ok; eauto|].
  split; [apply tied_made; auto|]. split; [apply tied_made; auto|].
  rewrite !tied_mentioned by auto. split; [apply origin_ok|]. split; auto.
  pose proof (tied_pattern 0 vx vy 1 2 3 4 I1 I2) as P1. pose proof (tied_pattern 1 vx vz 1 2 3 4 I1 I3) as P2.
  unfold solve_with in P1, P2. split.
  - rewrite P1, P2. intros H. discriminate.
  - set (c := mkCall 0 0 (made_of (tied vx vy 1 2 3 4)) origin). set (c' := mkCall 1 0 (made_of (tied vx vz 1 2 3 4)) origin).
    assert (Hok : forall x, In x [c; c'] -> call_ok exLE x).
    { intros x [<-|[<-|[]]]; [apply (solve_ok 0 vx vy 1 2 3 4) | apply (solve_ok 1 vx vz 1 2 3 4)]; auto. }
    assert (Ha : calls_alike c c') by (apply (tied_alike 0 1 vx vy vx vz); auto).
    destruct (jit_analysis exLE [c; c'] Hok 0 c eq_refl) as (j0 & d0 & Hj0 & Hn0 & _ & _ & R0).
    destruct (jit_analysis exLE [c; c'] Hok 1 c' eq_refl) as (j1 & d1 & Hj1 & Hn1 & _ & Hmin & R1).
    assert (j0 = 0) by lia. subst j0. injection Hn0 as <-.
    assert (j1 = 0). { destruct j1 as [|j1]; auto. exfalso. apply (Hmin 0 c); auto; lia. }
    subst j1. injection Hn1 as <-. cbn [jit_run] in R0, R1 |- *.
    destruct (jit_call c jit0) as [p s]. destruct (jit_call c' s) as [q s']. cbn [fst nth_error] in *. congruence.
Qed.

(* new measurements on the same connections *)
Lemma jit_remeasured : 
  Forall2 (fun f f' => same_kind f f' /\ f_vars f = f_vars f') (tied vx vy 1 2 3 4) (tied vx vy 5 6 7 8) /\
  call_ok exLE (solve_with 0 (tied vx vy 1 2 3 4)) /\ call_ok exLE (solve_with 1 (tied vx vy 5 6 7 8)) /\
  call_pattern (solve_with 0 (tied vx vy 1 2 3 4)) = (3, 4, [(0, 0); (1, 1); (2, 2); (0, 3); (1, 3)]).
Proof.
  assert (I1 : In vx [vx; vy; vz]) by (left; auto). assert (I2 : In vy [vx; vy; vz]) by (right; left; auto).
  split; [unfold tied; repeat constructor|].
  split; [apply solve_ok; auto|]. split; [apply solve_ok; auto|]. apply (tied_pattern 0 vx vy 1 2 3 4); auto.
Qed.

(* one object for two graphs of different sizes is safe *)
Lemma jit_other_key : ~ calls_alike (solve_with 0 (tied vx vy 1 2 3 4)) (solve_with 0 [anchor vx 1; anchor vy 2]).
Proof.
  intros (_ & (_ & _ & _ & _ & _ & H) & _). revert H. lazy -[Rlit Rplus Rmult Ropp IZR Rdiv]. discriminate.
Qed.
