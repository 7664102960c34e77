(* Bundling lemmas and concrete instances for C74. *)
From Coq Require Import List Arith Bool ZArith Lia Permutation Reals Lra.
From Verif Require Import Num NumR Py Arr MLayout MAssign MNoise MSparse MFactor MGraph MCov MLinear MSolver SpecLayout SpecTree SpecAssign SpecGraph SpecSparse SpecSolver SpecCov SpecInfo SpecOrder SpecPart.
From Verif Require Import PBase PLayout PTree PAssign PAssign2 PGraph PGraph2 PGraph4 PVec PSum PSolverR PHold POrder POrder2 POrder3 PPart PPart2 PExGraph Ex ExG ExS PExSolver PExOrder.
Import ListNotations.
Local Open Scope R_scope.
Ltac comp := lazy -[Rlit Rplus Rmult Ropp IZR Rdiv Rminus Rmax Rmin sqrt Rabs Rleb Rltb Rinv].
(* rational constants *)
Ltac rat := unfold Rlit; rewrite <- ?Rminus_0_l; lra.

Lemma independent_fixed (E : env R) : classes_ok (e_cls E) ->
  forall fs part rest g g' init init' val unroll it fuel,
  (forall f, In f fs -> factor_ok f) -> Permutation fs (part ++ rest) -> independent part rest ->
  graph_make E fs = Ok g -> graph_make E part = Ok g' -> total residual_dim part <> 0%nat -> well_shaped E fs ->
  assigns E fs init val -> assigns E part init' val ->
  same_layout (as_layout init) (g_layout g) -> same_layout (as_layout init') (g_layout g') ->
  part_outcome E fs part (fixed_solve E fuel unroll it cholmod_solve g init) (fixed_solve E fuel unroll it cholmod_solve g' init').
Proof.
  intros CO fs part rest g g' init init' val unroll it fuel Hok Hp Hind Eg Eg' Hrd Hws (vs & Hwf & Hvs & Hv) (vs' & Hwf' & Hvs' & Hv') Hl Hl'.
  assert (Hg := is_graph_of E fs g Hok Eg). assert (Hg' := is_graph_of E part g' (part_ok fs part rest Hok Hp) Eg').
  assert (Ha : holds E fs init val).
  { exists vs. split; auto. split; [rewrite <- (ig_layout _ _ _ Hg); auto|]. intros v Hin. apply Hv, Hvs; auto. }
  assert (Ha' : holds E part init' val).
  { exists vs'. split; auto. split; [rewrite <- (ig_layout _ _ _ Hg'); auto|]. intros v Hin. apply Hv', Hvs'; auto. }
  apply (part_fixed_solve E fs part rest g g' CO Hok Hp Hind Hg Hg' Hrd Hws) with (val := val); auto.
  exists val. apply (holds_legal E fs CO init). auto.
Qed.

(* ---- the problem of C30, taken apart ---- *)
Definition quad_x : list (factor R) := [anchor vx 1; square vx 2].
Definition quad_y : list (factor R) := [square vy 3; anchor vy 7].
Lemma quad_parts : Permutation (quad (N := NumR)) (quad_x ++ quad_y) /\ independent quad_x quad_y.
Proof.
  split.
  - unfold quad, quad_x, quad_y. cbn [app]. apply perm_skip. apply perm_swap.
  - intros v [<-|[]] [H|[]]. discriminate.
Qed.

Definition two_of (x y : R) (v : var) : pytree R := if eqb v vx then leaf1 [x] else leaf1 [y].
Lemma two_whole (fs : list (factor R)) x y : (forall v, In v (mentioned fs) <-> In v [vx; vy]) -> assigns exSE fs (scalars [vx; vy] [x; y]) (two_of x y).
Proof.
  intros H. exists [vx; vy]. split; [split; [repeat constructor; simpl; intuition discriminate | split; reflexivity]|].
  split; [intros v; symmetry; auto|]. intros v [<-|[<-|[]]]; reflexivity.
Qed.
Lemma two_part (fs : list (factor R)) x y : (forall v, In v (mentioned fs) <-> In v [vx]) -> assigns exSE fs (scalars [vx] [x]) (two_of x y).
Proof.
  intros H. exists [vx]. split; [split; [repeat constructor; simpl; intuition discriminate | split; reflexivity]|].
  split; [intros v; symmetry; auto|]. intros v [<-|[]]; reflexivity.
Qed.
Lemma shaped_two (fs : list (factor R)) : (forall f, In f fs -> exists v z, In v [vx; vy] /\ (f = square v z \/ f = anchor v z)) -> well_shaped exSE fs.
Proof.
  intros H.
  assert (Hm : forall v, In v (mentioned fs) -> v = vx \/ v = vy).
  { intros v Hv. unfold mentioned in Hv; apply (proj1 (firsts_in _ _)) in Hv; apply in_flat_map in Hv as (f & Hf & Hv). destruct (H f Hf) as (w & z & Hw & [->| ->]); destruct Hv as [<-|[]]; simpl in Hw; intuition. }
  assert (Hval : forall val f, legal exSE fs val -> In f fs -> forall v, In v (f_vars f) -> exists r, val v = leaf1 [r]).
  { intros val f Hv Hf v Hin. assert (Hv' : In v (mentioned fs)) by (apply firsts_in, in_flat_map; eauto).
    apply scalar_shape. specialize (Hv v Hv'). destruct (Hm v Hv') as [->| ->]; exact Hv. }
  split.
  - intros val f Hv Hf. destruct (H f Hf) as (w & z & Hw & [->| ->]); destruct (Hval val _ Hv Hf w) as (r & Er); try (left; reflexivity);
      unfold residual_shape_ok, residual_at; simpl map; rewrite Er; reflexivity.
  - intros val f Hv Hf. destruct (H f Hf) as (w & z & Hw & [->| ->]); destruct (Hval val _ Hv Hf w) as (r & Er); try (left; reflexivity);
      unfold jacobian_shape_ok, jacobians_at; simpl map; rewrite Er; (destruct Hw as [<-|[<-|[]]]; repeat constructor).
  - intros v x d Hv Hx Hd. destruct (Hm v Hv) as [->| ->]; destruct (scalar_shape x Hx) as (r & ->);
      destruct d as [|e [|? ?]]; try discriminate Hd; eexists; (split; [reflexivity | split; repeat constructor]).
Qed.
Lemma ok_two (fs : list (factor R)) : (forall f, In f fs -> exists v z, In v [vx; vy] /\ (f = square v z \/ f = anchor v z)) -> forall f, In f fs -> factor_ok f.
Proof.
  intros H. apply (exS_ok [vx; vy]). intros f Hf. destruct (H f Hf) as (v & z & Hv & [->| ->]); do 3 eexists; (split; [reflexivity | auto]).
Qed.

(* ---- Gauss-Newton: the stopping tests look at the whole problem ---- *)
Definition drag : list (factor R) := [anchor vx 0; anchor vx 1000].
Definition drag2 : list (factor R) := drag ++ [anchor vy 1000].
Lemma drag_part : exists a, gn_solve exSE 2 (term_default 2) cholmod_solve (graph_of drag) (scalars [vx] [501]) = Some (Ok a) /\ exists z, a = scalars [vx] [z] /\ 500 + 1/200001  <= z.
Proof.
  eexists. split.
  { comp. match goal with |- context [Rltb ?a ?b] => assert (H : Rltb a b = true) end.
    { apply Rltb_ok. match goal with |- context [Rabs ?a / _] => assert (H : -3 <= a <= 0) by (split; rat); rewrite (Rabs_left1 a) by lra end. rat. }
    rewrite H. reflexivity. }
  eexists. split; [reflexivity|]. rat.
Qed.
Lemma drag_whole : exists a, gn_solve exSE 2 (term_default 2) cholmod_solve (graph_of drag2) (scalars [vx; vy] [501;0]) = Some (Ok a) /\ exists z y, a = scalars [vx;vy] [z; y] /\ z < 500+1/200001.
Proof.
  eexists. split.
  { comp. match goal with |- context [Rltb ?a ?b] => assert (H : Rltb a b = false) end.
    { apply Rltb_no. match goal with |- context [Rabs ?a / _] => assert (H : a <= -900000) by (rat); rewrite (Rabs_left1 a) by lra end. rat. }
    rewrite H. clear H. match goal with |- context [Rltb ?a ?b] => assert (H : Rltb a b = false) end.
    { apply Rltb_no. 
      match goal with |- (sqrt ?a + _) * _ <= sqrt (?b + (?c + 0)) => assert (H1 : sqrt a <= 1000) by (rewrite <- (sqrt_square 1000) by lra; apply sqrt_le_1_alt; unfold Rabs; repeat destruct (Rcase_abs _); rat);
        assert (H2 : 1 <= sqrt (b + (c + 0))) end.
      { rewrite <- sqrt_1 at 1. apply sqrt_le_1_alt.
        match goal with |- 1 <= Rabs ?p * Rabs ?p + (Rabs ?q * Rabs ?q + 0) => assert (Hq : 900 <= q) by rat; rewrite (Rabs_pos_eq q) by lra; pose proof (Rabs_pos p); nra end. }
      unfold Rlit in H1, H2 |- *. lra. }
    rewrite H. reflexivity. }
  do 2 eexists. split; [reflexivity|]. rat.
Qed.
Lemma gn_couples : exists (E : env R) part rest g g' init init' val a a' v x, independent part rest /\
  (forall f, In f (part ++ rest) -> factor_ok f) /\ well_shaped E (part ++ rest) /\ graph_make E (part ++ rest) = Ok g /\ graph_make E part = Ok g' /\
  assigns E (part ++ rest) init val /\ assigns E part init' val /\
  gn_solve E 2 (term_default 2) cholmod_solve g init = Some (Ok a) /\ gn_solve E 2 (term_default 2) cholmod_solve g' init' = Some (Ok a') /\
  In v (mentioned part) /\ get_value (e_cls E) a v = Ok x /\ get_value (e_cls E) a' v <> Ok x.
Proof.
  destruct drag_part as (a' & Ha' & z' & -> & Hz'). destruct drag_whole as (a & Ha & z & y & -> & Hz).
  exists exSE, drag, [anchor vy 1000], (graph_of drag2), (graph_of drag), (scalars [vx; vy] [501; 0]), (scalars [vx] [501]), (two_of 501 0), (scalars [vx; vy] [z; y]), (scalars [vx] [z']), vx, (leaf1 [z]).
  assert (Hf : forall f, In f (drag ++ [anchor vy 1000]) -> exists v w, In v [vx; vy] /\ (f = square v w \/ f = anchor v w)).
  { intros f [<-|[<-|[<-|[]]]]; do 2 eexists; (split; [|right; reflexivity]); simpl; auto. }
  split. { intros v Hv [<-|[]]. destruct Hv as [Hv|[]]; discriminate. }
  split; [apply ok_two; auto|]. split; [apply shaped_two; auto|]. split; [reflexivity|]. split; [reflexivity|].
  split; [apply two_whole; intros v; simpl; tauto|]. split; [apply two_part; intros v; simpl; tauto|]. split; [exact Ha|]. split; [exact Ha'|].
  split; [simpl; auto|]. split; [reflexivity|]. intros H. change (Ok (leaf1 [z']) = Ok (leaf1 [z])) in H. injection H as H. lra.
Qed.

(* ---- Levenberg-Marquardt: a step is judged on the whole problem ---- *)
Definition over : list (factor R) := [square vx 100].
Definition over2 : list (factor R) := over ++ [anchor vy 1000000].
Lemma over_part : lm_solve exSE 1 (lm_default 1) cholmod_solve (graph_of over) (scalars [vx] [1]) = Some (Ok (scalars [vx] [1])).
Proof.
  comp. match goal with |- context [Rleb ?a ?b] => assert (H : Rleb a b = false) end.
  { apply Rleb_no. rat. }
  rewrite H. reflexivity.
Qed.
Lemma over_whole : exists a, lm_solve exSE 1 (lm_default 1) cholmod_solve (graph_of over2) (scalars [vx; vy] [1;0]) = Some (Ok a) /\ exists z y, a = scalars [vx;vy] [z; y] /\ 50 < z.
Proof.
  eexists. split; [comp; reflexivity|].
  match goal with |- context [Rleb ?a ?b] => assert (H : Rleb a b = true) end.
  { apply Rleb_ok. rat. }
  rewrite H. do 2 eexists. split; [reflexivity|]. rat.
Qed.
Lemma lm_couples : exists (E : env R) part rest g g' init init' val a a' b vb v x c c' r r', independent part rest /\
  (forall f, In f (part ++ rest) -> factor_ok f) /\ well_shaped E (part ++ rest) /\ graph_make E (part ++ rest) = Ok g /\ graph_make E part = Ok g' /\
  assigns E (part ++ rest) init val /\ assigns E part init' val /\
  lm_solve E 1 (lm_default 1) cholmod_solve g init = Some (Ok a) /\ lm_solve E 1 (lm_default 1) cholmod_solve g' init' = Some (Ok a') /\
  In v (mentioned part) /\ get_value (e_cls E) a v = Ok x /\ get_value (e_cls E) a' v <> Ok x /\
  assigns E (part ++ rest) a vb /\ assigns E part b vb /\ compute_cost E g' init' = Ok (c, r) /\ compute_cost E g' b = Ok (c', r') /\ c < c'.
Proof.
  destruct over_whole as (a & Ha & z & y & -> & Hz).
  exists exSE, over, [anchor vy 1000000], (graph_of over2), (graph_of over), (scalars [vx; vy] [1; 0]), (scalars [vx] [1]), (two_of 1 0), (scalars [vx; vy] [z; y]), (scalars [vx] [1]), (scalars [vx] [z]), (two_of z y), vx, (leaf1 [z]).
  do 4 eexists.
  assert (Hf : forall f, In f (over ++ [anchor vy 1000000]) -> exists v w, In v [vx; vy] /\ (f = square v w \/ f = anchor v w)).
  { intros f [<-|[<-|[]]]; do 2 eexists; (split; [|(left; reflexivity) || (right; reflexivity)]); simpl; auto. }
  split. { intros v Hv [<-|[]]. destruct Hv as [Hv|[]]; discriminate. }
  split; [apply ok_two; auto|]. split; [apply shaped_two; auto|]. split; [reflexivity|]. split; [reflexivity|].
  split; [apply two_whole; intros v; simpl; tauto|]. split; [apply two_part; intros v; simpl; tauto|]. split; [exact Ha|]. split; [exact over_part|].
  split; [simpl; auto|]. split; [reflexivity|]. split. { intros H. change (Ok (leaf1 [1]) = Ok (leaf1 [z])) in H. injection H as H. lra. }
  split; [apply two_whole; intros v; simpl; tauto|]. split; [apply two_part; intros v; simpl; tauto|].
  split; [comp; reflexivity|]. split; [comp; reflexivity|]. assert (Hzz : 2500 <= z * z) by nra. unfold Rlit. match goal with |- ?a < ?b => assert (Ha1 : a = 99 * 99) by field; assert (Hb1 : b = (z * z - 100) * (z * z - 100)) by field; rewrite Ha1, Hb1; nra end.
Qed.

(* ---- an instance for the marginals: A^T A is diag(4, 1) ---- *)
Definition pins_x : list (factor R) := [anchor vx 1; anchor vx 2; anchor vx 3; anchor vx 4].
Definition pins : list (factor R) := [anchor vx 1; anchor vy 7; anchor vx 2; anchor vx 3; anchor vx 4].
Definition chol2 : csc R := [[(0%nat, 2)]; [(1%nat, 1)]].
Definition chol1 : csc R := [[(0%nat, 2)]].
Lemma pins_recovered : (exists S, recovered (fun _ => chol2) exSE (graph_of pins) (scalars [vx; vy] [2; 5]) S) /\
  (exists S, recovered (fun _ => chol1) exSE (graph_of pins_x) (scalars [vx] [2]) S).
Proof.
  split; eexists; (split; [comp; reflexivity|]); do 2 eexists; (split; [comp; reflexivity|]); (split; [comp; reflexivity|]).
  - split; [reflexivity|]. split; [intros [|[|[|j]]] col H; try discriminate; injection H as <-; repeat constructor; cbn; lia|].
    split; [intros [|[|i]] Hi; cbn in Hi; try (exfalso; lia); unfold centry, vsum; cbn; rn; lra|]. split; [split; auto|].
    intros [|[|i]] [|[|j]] Hi Hj; cbn in Hi, Hj; try (exfalso; lia); comp; unfold Rlit; field.
  - split; [reflexivity|]. split; [intros [|[|[|j]]] col H; try discriminate; injection H as <-; repeat constructor; cbn; lia|].
    split; [intros [|[|i]] Hi; cbn in Hi; try (exfalso; lia); unfold centry, vsum; cbn; rn; lra|]. split; [split; auto|].
    intros [|[|i]] [|[|j]] Hi Hj; cbn in Hi, Hj; try (exfalso; lia); comp; unfold Rlit; field.
Qed.

Lemma ex_part : classes_ok (e_cls (exSE (N := NumR))) /\ (forall f, In f (quad (N := NumR)) -> factor_ok f) /\
  Permutation (quad (N := NumR)) (quad_x ++ quad_y) /\ independent quad_x quad_y /\
  graph_make exSE (quad (N := NumR)) = Ok gquad /\ graph_make exSE quad_x = Ok (graph_of quad_x) /\ total residual_dim quad_x <> 0%nat /\ well_shaped exSE (quad (N := NumR)) /\
  assigns exSE quad (scalars [vx; vy] [2; 5]) (two_of 2 5) /\ assigns exSE quad_x (scalars [vx] [2]) (two_of 2 5) /\
  same_layout (as_layout (scalars [vx; vy] [2; 5])) (g_layout gquad) /\ same_layout (as_layout (scalars [vx] [2])) (g_layout (graph_of quad_x)) /\
  exists a, fixed_solve exSE 3 false 2 cholmod_solve gquad (scalars [vx; vy] [2; 5]) = Some (Ok a).
Proof.
  split; [intros [|[|t]]; repeat constructor|]. split; [exact quad_ok|]. split; [apply quad_parts|]. split; [apply quad_parts|].
  split; [reflexivity|]. split; [reflexivity|]. split; [discriminate|]. split; [exact quad_shaped|].
  split; [apply two_whole; intros v; simpl; tauto|]. split; [apply two_part; intros v; simpl; tauto|]. split; [repeat split|]. split; [repeat split|].
  eexists. comp. reflexivity.
Qed.
Lemma ex_part_marginal : exists g g' S S', (forall f, In f pins -> factor_ok f) /\ Permutation pins (pins_x ++ [anchor vy 7]) /\ independent pins_x [anchor vy 7] /\
  graph_make exSE pins = Ok g /\ graph_make exSE pins_x = Ok g' /\ total residual_dim pins_x <> 0%nat /\
  assigns exSE pins (scalars [vx; vy] [2; 5]) (two_of 2 5) /\ assigns exSE pins_x (scalars [vx] [2]) (two_of 2 5) /\
  (forall f, In f pins -> residual_shape_ok exSE (two_of 2 5) f) /\ (forall f, In f pins -> jacobian_shape_ok exSE (two_of 2 5) f) /\
  recovered (fun _ => chol2) exSE g (scalars [vx; vy] [2; 5]) S /\ recovered (fun _ => chol1) exSE g' (scalars [vx] [2]) S' /\
  exists ch, compute_marginal (e_cls exSE) S 5 [vy; vx] [] = Ok (Some ([[1; 0]; [0; / 4]], ch)).
Proof.
  destruct pins_recovered as ((S & HS) & (S' & HS')). exists (graph_of pins), (graph_of pins_x), S, S'.
  assert (Hf : forall f, In f pins -> exists v w, In v [vx; vy] /\ (f = square v w \/ f = anchor v w)).
  { intros f [<-|[<-|[<-|[<-|[<-|[]]]]]]; do 2 eexists; (split; [|right; reflexivity]); simpl; auto. }
  assert (Hm : forall v, In v (mentioned pins) -> v = vx \/ v = vy) by (intros v; simpl; intuition).
  assert (Hlg : legal exSE pins (two_of 2 5)).
  { intros v Hv. destruct (Hm v Hv) as [->| ->]; repeat split; repeat constructor. }
  destruct (shaped_two pins Hf) as [W1 W2 _].
  split; [apply ok_two; auto|]. split. { unfold pins, pins_x. cbn [app]. apply perm_skip. apply (Permutation_cons_app [_; _; _] []). reflexivity. }
  split; [intros v [<-|[]] [H|[]]; discriminate|].
  split; [reflexivity|]. split; [reflexivity|]. split; [discriminate|].
  split; [apply two_whole; intros v; simpl; tauto|]. split; [apply two_part; intros v; simpl; tauto|].
  split; [intros f H; apply W1; auto|]. split; [intros f H; apply W2; auto|]. split; auto. split; auto.
  destruct HS as (HS & _). revert HS. comp. intros HS. injection HS as <-. eexists. comp. repeat f_equal; unfold Rlit; field.
Qed.
