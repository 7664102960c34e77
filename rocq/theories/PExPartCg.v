(* Bundling lemmas and concrete instances for C74: conjugate gradients. *)
From Coq Require Import List Arith Bool ZArith Lia Permutation Reals Lra.
From Verif Require Import Num NumR Py Arr MLayout MAssign MNoise MSparse MFactor MGraph MCov MLinear MSolver SpecLayout SpecTree SpecAssign SpecGraph SpecSparse SpecSolver SpecOrder SpecPart.
From Verif Require Import PBase PLayout PTree PAssign PAssign2 PGraph PGraph2 PGraph4 PVec PSum PSolverR PHold POrder POrder2 POrder3 PPart PPart2 PPartCg PExGraph Ex ExG ExS PExSolver PExOrder PExPart PExLin.
Import ListNotations.
Local Open Scope R_scope.

Lemma independent_cg (E : env R) : classes_ok (e_cls E) ->
  forall fs part rest g g' init init' val unroll it fuel,
  (forall f, In f fs -> factor_ok f) -> Permutation fs (part ++ rest) -> independent part rest ->
  graph_make E fs = Ok g -> graph_make E part = Ok g' -> total residual_dim part <> 0%nat -> well_shaped E fs -> determined E fs g ->
  assigns E fs init val -> assigns E part init' val ->
  same_layout (as_layout init) (g_layout g) -> same_layout (as_layout init') (g_layout g') ->
  part_outcome E fs part (fixed_solve E fuel unroll it (conjugate_gradient_solver 0) g init) (fixed_solve E fuel unroll it (conjugate_gradient_solver 0) g' init').
Proof.
  intros CO fs part rest g g' init init' val unroll it fuel Hok Hp Hind Eg Eg' Hrd Hws Hdet (vs & Hwf & Hvs & Hv) (vs' & Hwf' & Hvs' & Hv') Hl Hl'.
  assert (Hg := is_graph_of E fs g Hok Eg). assert (Hg' := is_graph_of E part g' (part_ok fs part rest Hok Hp) Eg').
  assert (Ha : holds E fs init val).
  { exists vs. split; auto. split; [rewrite <- (ig_layout _ _ _ Hg); auto|]. intros v Hin. apply Hv, Hvs; auto. }
  assert (Ha' : holds E part init' val).
  { exists vs'. split; auto. split; [rewrite <- (ig_layout _ _ _ Hg'); auto|]. intros v Hin. apply Hv', Hvs'; auto. }
  apply (cg_part_solve E fs part rest g g' CO Hok Hp Hind Hg Hg' Hrd Hws) with (val := val); auto.
  exists val. apply (holds_legal E fs CO init). auto.
Qed.

(* ---- one scalar beside a pair of linked ones ---- *)
Definition vw : var := mkVar 2%nat 2%nat.
Definition lone : list (factor R) := [anchor vw 10].
Definition linked : list (factor R) := [anchor vx 0; mkFactor 22%nat [vx; vy] dg1 [leaf1 [1]]].
Definition three (x y w : R) (v : var) : pytree R := if eqb v vx then leaf1 [x] else if eqb v vy then leaf1 [y] else leaf1 [w].

Lemma three_ok f : In f (lone ++ linked) -> factor_ok f.
Proof. intros [<-|[<-|[<-|[]]]]; (split; [split; [reflexivity | exists 1%nat; reflexivity] | repeat constructor]). Qed.
Lemma three_shaped : well_shaped exLE (lone ++ linked).
Proof.
  split.
  - intros val f Hv Hf. assert (Hx : exists x, val vx = leaf1 [x]) by (apply scalar_shape, (Hv vx); simpl; auto).
    assert (Hy : exists x, val vy = leaf1 [x]) by (apply scalar_shape, (Hv vy); simpl; auto).
    assert (Hw : exists x, val vw = leaf1 [x]) by (apply scalar_shape, (Hv vw); simpl; auto). destruct Hx as (x & Ex), Hy as (y & Ey), Hw as (w & Ew).
    destruct Hf as [<-|[<-|[<-|[]]]]; unfold residual_shape_ok, residual_at; simpl map; rewrite ?Ex, ?Ey, ?Ew; reflexivity.
  - intros val f Hv [<-|[<-|[<-|[]]]]; repeat constructor.
  - intros v x d [<-|[<-|[<-|[]]]] Hx' Hd; destruct (scalar_shape x Hx') as (r & ->);
      (destruct d as [|e [|? ?]]; try discriminate Hd; eexists; (split; [reflexivity | split; repeat constructor])).
Qed.
Lemma three_whole x y w : assigns exLE (lone ++ linked) (scalars [vw; vx; vy] [w; x; y]) (three x y w).
Proof.
  exists [vw; vx; vy]. split; [split; [repeat constructor; simpl; intuition discriminate | split; reflexivity]|].
  split; [intros v; reflexivity|]. intros v [<-|[<-|[<-|[]]]]; reflexivity.
Qed.
Lemma three_part x y w : assigns exLE lone (scalars [vw] [w]) (three x y w).
Proof.
  exists [vw]. split; [split; [repeat constructor; simpl; intuition discriminate | split; reflexivity]|].
  split; [intros v; reflexivity|]. intros v [<-|[]]; reflexivity.
Qed.
Lemma lone_solve : exists g, graph_make exLE lone = Ok g /\ exists a, fixed_solve exLE 1 true 1 (conjugate_gradient_solver (1 / 2)) g (scalars [vw] [0]) = Some (Ok a) /\ exists w, a = scalars [vw] [w] /\ w = 10.
Proof.
  eexists. split; [reflexivity|]. eexists. split.
  { comp. match goal with |- context [Rltb ?a ?b] => replace (Rltb a b) with true end.
    2:{ symmetry. apply Rltb_ok. unfold Rlit. rewrite Rmax_left by lra. lra. }
    cbv iota beta. reflexivity. }
  eexists. split; [reflexivity|]. unfold Rlit. field.
Qed.
(* the loop ends after its first iteration *)
Lemma cg_loop_stop k op M (atol2 : R) x r gamma p Ap : atol2 < vdot r r -> op p = Ok Ap ->
  sumsq (vsub r (vscale (gamma / vdot p Ap) Ap)) <= atol2 ->
  cg_loop (Datatypes.S k) op M atol2 x r gamma p = Ok (vadd x (vscale (gamma / vdot p Ap) p), k).
Proof.
  intros H1 H2 H3. cbn [cg_loop]. replace (nltb atol2 (vdot r r)) with true by (symmetry; apply Rltb_ok; auto). rewrite H2. cbn [bind].
  rewrite sumsq_dot in H3. destruct k as [|k]; [reflexivity|]. cbn [cg_loop].
  match goal with |- context [nltb atol2 ?d] => replace (nltb atol2 d) with false by (symmetry; apply Rltb_no; exact H3) end. reflexivity.
Qed.
Definition A3 : coo R := mkCoo [1; 1; -1; 1] (mkCoords [0; 1; 2; 2] [0; 1; 1; 2])%nat (3, 3)%nat.
Lemma three_cg it : cg_solve (fun _ => 1 / 2) A3 [10; -1; 1] 0 it = Ok [406 / 41; - (203 / 410); 203 / 205].
Proof.
  unfold cg_solve, cg_run, cg. change (length [10; -1; 1]) with 3%nat.
  replace (ata_function A3 0 3 (vzero 3)) with (Ok (A := list R) [0; 0; 0]) by (comp; do 2 f_equal; [lra | f_equal; [lra | f_equal; lra]]).
  cbn [bind]. replace (vsub [10; -1; 1] [0; 0; 0]) with [10; -1; 1] by (comp; f_equal; [lra | f_equal; [lra | f_equal; lra]]).
  replace (jacobi A3 3 [10; -1; 1]) with [10; - (1 / 2); 1] by (comp; f_equal; [field | f_equal; [field | f_equal; field]]).
  rewrite (cg_loop_stop 2 _ _ _ _ _ _ _ [10; -2; 3 / 2]).
  - comp. do 2 f_equal; [field | f_equal; [field | f_equal; field]].
  - comp. rewrite Rmax_left; lra.
  - comp. do 2 f_equal; [field | f_equal; [field | f_equal; field]].
  - comp. eapply Rle_trans; [|apply Rmax_l]. match goal with |- ?a <= _ => replace a with (16 / 1681 + 40401 / 42025 + 39601 / 168100) by field end. lra.
Qed.
Lemma three_solve : exists g, graph_make exLE (lone ++ linked) = Ok g /\
  fixed_solve exLE 1 true 1 (conjugate_gradient_solver (1 / 2)) g (scalars [vw; vx; vy] [0; 0; 0]) = Some (Ok (scalars [vw; vx; vy] [406 / 41; - (203 / 410); 203 / 205])).
Proof.
  eexists. split; [reflexivity|]. unfold conjugate_gradient_solver. pose proof (three_cg 0) as H. revert H. generalize (cg_solve (fun _ : nat => 1 / 2)). intros lin H.
  comp. match goal with |- context [lin ?A ?b 0 0%nat] => replace (lin A b 0 0%nat) with (Ok (A := list R) [406 / 41; - (203 / 410); 203 / 205]) end.
  - cbv iota beta. comp. do 4 f_equal; [lra | f_equal; [lra | f_equal; lra]].
  - rewrite <- H. unfold A3, Rlit. f_equal.
    + f_equal. f_equal; [lra | f_equal; [lra | f_equal; [lra | f_equal; lra]]].
    + f_equal; [lra | f_equal; [lra | f_equal; lra]].
Qed.
Lemma cg_couples : exists (E : env R) part rest g g' init init' val a a' v x, independent part rest /\
  (forall f, In f (part ++ rest) -> factor_ok f) /\ well_shaped E (part ++ rest) /\ graph_make E (part ++ rest) = Ok g /\ graph_make E part = Ok g' /\
  assigns E (part ++ rest) init val /\ assigns E part init' val /\
  fixed_solve E 1 true 1 (conjugate_gradient_solver (1 / 2)) g init = Some (Ok a) /\ fixed_solve E 1 true 1 (conjugate_gradient_solver (1 / 2)) g' init' = Some (Ok a') /\
  In v (mentioned part) /\ get_value (e_cls E) a v = Ok x /\ get_value (e_cls E) a' v <> Ok x.
Proof.
  destruct lone_solve as (g' & Eg' & a' & Ha' & w' & -> & Hw'). destruct three_solve as (g & Eg & Ha).
  exists exLE, lone, linked, g, g', (scalars [vw; vx; vy] [0; 0; 0]), (scalars [vw] [0]), (three 0 0 0), (scalars [vw; vx; vy] [406 / 41; - (203 / 410); 203 / 205]), (scalars [vw] [w']), vw, (leaf1 [406 / 41]).
  split. { intros v [<-|[]] [H|[H|[]]]; discriminate. }
  split; [exact three_ok|]. split; [exact three_shaped|]. split; [exact Eg|]. split; [exact Eg'|]. split; [apply three_whole|]. split; [apply three_part|].
  split; [exact Ha|]. split; [exact Ha'|]. split; [left; reflexivity|]. split; [reflexivity|].
  intros H. change (Ok (leaf1 [w']) = Ok (leaf1 [406 / 41])) in H. injection H as H. lra.
Qed.

(* two pinned scalars *)
Definition apart : list (factor R) := [anchor vx 1; anchor vy 7].
Lemma apart_determined : determined exSE apart (graph_of apart).
Proof.
  intros a val r A Ha Hr EA x Hx H0. pose proof Ha as (vs & Hwf & Hvs & Hval).
  assert (CO : classes_ok exC) by (intros [|[|t]]; repeat constructor).
  assert (Hl : forall v, In v [vx; vy] -> value_ok (exC (v_ty v)) (val v)).
  { intros v Hin. destruct (get_value_ok _ CO vs a v Hwf) as (z & Ez & Hz & _); [apply Hvs; auto|].
    change (e_cls exSE) with exC in Hval. rewrite Hval in Ez by (apply Hvs; auto). injection Ez as ->. auto. }
  destruct (scalar_shape _ (Hl vx (or_introl eq_refl))) as (p & Ep). destruct (scalar_shape _ (Hl vy (or_intror (or_introl eq_refl)))) as (q & Eq).
  assert (Hb : assigns exSE apart (scalars [vx; vy] [p; q]) val).
  { exists [vx; vy]. split; [split; [repeat constructor; simpl; intuition discriminate | split; reflexivity]|].
    split; [intros v; reflexivity|]. intros v [<-|[<-|[]]]; rewrite ?Ep, ?Eq; reflexivity. }
  assert (Hok : forall f, In f apart -> factor_ok f) by (intros f [<-|[<-|[]]]; (split; [split; [reflexivity | exists 1%nat; reflexivity] | repeat constructor])).
  destruct (proj1 (evaluation_layout_independent exSE apart (graph_of apart) CO Hok eq_refl) a _ val r (fun x => x) (fun _ => 0) Ha Hb) as (_ & _ & _ & H).
  rewrite EA in H. clear EA. destruct r as [|r1 [|r2 [|? ?]]]; try discriminate Hr. revert H. comp. intros H. injection H as ->.
  destruct x as [|x1 [|x2 [|? ?]]]; try discriminate Hx. revert H0. comp. intros H0. injection H0 as H1 H2. f_equal; [lra | f_equal; lra].
Qed.
Lemma ex_part_cg : classes_ok (e_cls (exSE (N := NumR))) /\ (forall f, In f apart -> factor_ok f) /\
  Permutation apart ([anchor vy 7] ++ [anchor vx 1]) /\ independent [anchor (N := NumR) vy 7] [anchor vx 1] /\
  graph_make exSE apart = Ok (graph_of apart) /\ graph_make exSE [anchor vy 7] = Ok (graph_of [anchor vy 7]) /\ total residual_dim [anchor (N := NumR) vy 7] <> 0%nat /\
  well_shaped exSE apart /\ determined exSE apart (graph_of apart) /\
  assigns exSE apart (scalars [vx; vy] [2; 5]) (two_of 2 5) /\ assigns exSE [anchor vy 7] (scalars [vy] [5]) (two_of 2 5) /\
  same_layout (as_layout (scalars [vx; vy] [2; 5])) (g_layout (graph_of apart)) /\ same_layout (as_layout (scalars [vy] [5])) (g_layout (graph_of [anchor (N := NumR) vy 7])).
Proof.
  assert (Hf : forall f, In f apart -> exists v w, In v [vx; vy] /\ (f = square v w \/ f = anchor v w)).
  { intros f [<-|[<-|[]]]; do 2 eexists; (split; [|right; reflexivity]); simpl; auto. }
  split; [intros [|[|t]]; repeat constructor|]. split; [apply ok_two; auto|]. split; [apply perm_swap|].
  split. { intros v [<-|[]] [H|[]]. discriminate. }
  split; [reflexivity|]. split; [reflexivity|]. split; [discriminate|]. split; [apply shaped_two; auto|]. split; [exact apart_determined|].
  split; [apply two_whole; intros v; simpl; tauto|]. split.
  { exists [vy]. split; [split; [repeat constructor; simpl; intuition discriminate | split; reflexivity]|]. split; [intros v; reflexivity|]. intros v [<-|[]]; reflexivity. }
  split; repeat split; reflexivity.
Qed.
