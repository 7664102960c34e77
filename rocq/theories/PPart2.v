(* Marginal covariances of independent subproblems. *)
From Coq Require Import List Arith Bool Lia Permutation Reals Lra ZArith.
From Verif Require Import Num NumR Py Arr MLayout MAssign MNoise MSparse MFactor MGraph MCov MLinear MSolver SpecLayout SpecTree SpecAssign SpecGraph SpecSparse SpecNoise SpecCov SpecInfo SpecOrder SpecPart.
From Verif Require Import PBase PLayout PTree PAssign PAssign2 PAssign3 PStack PGraph PGraph2 PJac PVec PSparse PSum PTri PLinear PGraph3 PGraph4 PGraph5 PHold POrder POrder2 POrder3 PAuto PExGraph PExSparse PCov PCov2 PInfo PPart.
Import ListNotations.
Local Open Scope R_scope.

Section Columns.
Variable A : coo R.
Variable s : nat -> nat -> R.
Let n := snd (m_shape A).
Hypothesis HA : coo_ok A.
Hypothesis Hs : minverse n (gram A) s.
Definition col (k : nat) : list R := vec n (fun i => s i k).

Lemma col_weak k y : (k < n)%nat -> length y = n -> vdot (mapply A y) (mapply A (col k)) = nth k y 0.
Proof.
  intros Hk Hy. assert (Hc : length (col k) = n) by apply vec_length.
  rewrite mapply_adjoint; auto; [|apply mapply_length].
  rewrite (vdot_sumn n); auto; [|rewrite mapply_length; unfold transpose; cbn [m_shape fst snd]; auto].
  rewrite (sumn_ext _ _ (fun i => (if Nat.eqb k i then 1 else 0) * nth i y 0)); [apply (sumn_delta n k (fun i => nth i y 0)); auto|].
  intros i Hi. rewrite gram_apply by auto. fold n.
  assert (E : mat_times n (gram A) (col k) i = meye i k).
  { rewrite <- (proj1 Hs i k Hi Hk). unfold mprod. unfold mat_times, sumn. apply vsum_map_ext. intros j Hj. apply in_seq in Hj.
    unfold col. unfold vec. rewrite nth_list by lia. auto. }
  rewrite E. unfold meye. rewrite (Nat.eqb_sym i k). ring.
Qed.
Lemma col_sym i k : (i < n)%nat -> (k < n)%nat -> s i k = s k i.
Proof.
  intros Hi Hk. pose proof (col_weak k (col i) Hk (vec_length _ _)) as H1. pose proof (col_weak i (col k) Hi (vec_length _ _)) as H2.
  rewrite vdot_comm, H2 in H1. unfold col, vec in H1. rewrite !nth_list in H1 by auto. auto.
Qed.
Lemma col_unique k x : (k < n)%nat -> length x = n -> (forall y, length y = n -> vdot (mapply A y) (mapply A x) = nth k y 0) -> x = col k.
Proof.
  intros Hk Hx H. apply (nth_ext _ _ 0 0); [rewrite Hx; symmetry; apply vec_length|]. intros i Hi. rewrite Hx in Hi.
  rewrite <- (col_weak i x Hi Hx), vdot_comm, H by apply vec_length. unfold col, vec. rewrite !nth_list by auto. apply col_sym; auto.
Qed.
End Columns.

Section Part.
Variable E : env R.
Let C := e_cls E.

Definition slots (vs : list var) : list (var * nat) := flat_map (fun v => map (pair v) (seq 0 (vldim C v))) vs.
Lemma indices_slots L vs : indices E L vs = map (fun p => (pos L (fst p) + snd p)%nat) (slots vs).
Proof.
  unfold indices, slots. fold C. induction vs as [|v vs IH]; auto. cbn [flat_map]. rewrite map_app, IH, map_map. f_equal. cbn [fst snd].
  generalize (pos L v). intros p. generalize (vldim C v). intros d. rewrite <- (Nat.add_0_r p) at 1. generalize 0%nat. induction d as [|d IHd]; intros k; auto.
  cbn [seq map]. f_equal. rewrite <- IHd. f_equal. lia.
Qed.
Lemma block_slots s L vs : block_of s (indices E L vs) = map (fun p => map (fun q => s (pos L (fst p) + snd p)%nat (pos L (fst q) + snd q)%nat) (slots vs)) (slots vs).
Proof. rewrite indices_slots. unfold block_of. rewrite map_map. apply map_ext. intros p. rewrite map_map. auto. Qed.

Lemma nth_in_block (fs : list (factor R)) x v i : In v (mentioned fs) -> length x = l_dim (graph_layout E fs true) -> (i < vldim C v)%nat ->
  (pos (graph_layout E fs true) v + i < l_dim (graph_layout E fs true))%nat /\
  nth i (block C (graph_layout E fs true) x v) 0 = nth (pos (graph_layout E fs true) v + i) x 0.
Proof.
  intros Hv Hx Hi. pose proof (mentioned_nodup fs) as ND. unfold graph_layout in *. fold C in Hx |- *.
  destruct (proj1 (lay_index_mem C (mentioned fs) true ND v) Hv) as (k & Hk).
  pose proof (lay_bound C (mentioned fs) true ND v k Hk) as Hb. unfold pos, block. rewrite Hk. rewrite lay_local by auto. change (vdim C true v) with (vldim C v) in *.
  split; [lia|]. rewrite (slice_nth _ _ _ 0) by (rewrite Hx; lia). rewrite (nth_map' _ _ _ _ 0%nat) by (rewrite seq_length; lia). rewrite seq_nth by lia. auto.
Qed.

Lemma part_marginals fs part rest g g' a a' val chol chol' S S' :
  (forall f, In f fs -> factor_ok f) -> Permutation fs (part ++ rest) -> independent part rest ->
  graph_make E fs = Ok g -> graph_make E part = Ok g' -> total residual_dim part <> 0%nat ->
  assigns E fs a val -> assigns E part a' val ->
  (forall f, In f fs -> residual_shape_ok E val f) -> (forall f, In f fs -> jacobian_shape_ok E val f) ->
  recovered chol E g a S -> recovered chol' E g' a' S' ->
  forall vs fuel, (forall v, In v vs -> In v (mentioned part)) -> (2 * l_dim (g_local_layout g) + 1 <= fuel)%nat ->
  exists M ch ch', compute_marginal C S fuel vs [] = Ok (Some (M, ch)) /\ compute_marginal C S' fuel vs [] = Ok (Some (M, ch')).
Proof.
  intros Hok Hp Hind Hm Hm' Hrd Ha Ha' Hr Hj HR HR' vs fuel Hin Hfu.
  pose proof (part_in fs part rest Hp) as Hpin. pose proof (part_vars fs part rest Hp) as Hpv. pose proof (whole_rd fs part rest Hp Hrd) as Hrd'.
  destruct (recovered_marginal E fs g a val chol S) as (r & A & s & Er & Hl & EA & Hs & HM); auto.
  destruct (recovered_marginal E part g' a' val chol' S') as (r' & A' & s' & Er' & Hl' & EA' & Hs' & HM'); auto.
  destruct (made E fs g) as (Hg & Hne); auto. destruct (made E part g') as (Hg' & Hne'); auto.
  destruct (one_cost E fs g Hok Hg a val Ha Hr Hne) as (Hw & Hc).
  destruct (one_cost E part g' (fun f H => Hok f (Hpin f H)) Hg' a' val Ha' (fun f H => Hr f (Hpin f H)) Hne') as (_ & Hc').
  set (w := fun f => unwrap [] (whitened_at E val f)) in *.
  unfold compute_cost in Hc, Hc'. rewrite Er in Hc. rewrite Er' in Hc'. cbn [bind] in Hc, Hc'. injection Hc as _ Hc. injection Hc' as _ Hc'. subst r r'.
  destruct (part_jacobians E fs part rest g g' Hok Hp Hind Hg Hg' Hrd a a' val w Ha Ha' Hj Hw) as (A0 & A0' & EA0 & EA0' & HJ).
  assert (A0 = A) by congruence. assert (A0' = A') by congruence. subst A0 A0'.
  rewrite (ig_local _ _ _ Hg) in Hs, HM, Hfu. rewrite (ig_local _ _ _ Hg') in Hs', HM'.
  assert (Hdim : (l_dim (graph_layout E part true) <= l_dim (graph_layout E fs true))%nat).
  { unfold graph_layout. rewrite !lay_dim by apply mentioned_nodup. 
    rewrite <- (total_perm _ _ _ (order_perm (mentioned fs))), <- (total_perm _ _ _ (order_perm (mentioned part))).
    rewrite (total_perm _ _ _ (order_split (mentioned fs) (mentioned part) (mentioned_nodup fs) (mentioned_nodup part) Hpv)), total_app. lia. }
  destruct (HM vs fuel) as (ch & Ech); auto. destruct (HM' vs fuel) as (ch' & Ech'); auto; [lia|].
  exists (block_of s (indices E (graph_layout E fs true) vs)), ch, ch'. split; [exact Ech|]. unfold C. rewrite Ech'. do 3 f_equal. symmetry.
  rewrite !block_slots.
  assert (Hslot : forall p, In p (slots vs) -> In (fst p) (mentioned part) /\ (snd p < vldim C (fst p))%nat).
  { intros [v i] Hi. apply in_flat_map in Hi. destruct Hi as (u & Hu & Hi). apply in_map_iff in Hi. destruct Hi as (k & Ek & Hk). injection Ek as -> ->.
    apply in_seq in Hk. cbn [fst snd]. split; auto. lia. }
  apply map_ext_in. intros [v i] Hi. apply map_ext_in. intros [u j] Hj'. cbn [fst snd].
  destruct (Hslot _ Hi) as (Hv & Hiv). destruct (Hslot _ Hj') as (Hu & Hju). cbn [fst snd] in *.
  pose proof (mentioned_nodup fs) as N1. pose proof (mentioned_nodup part) as N2.
  rewrite <- (jp_cols _ _ _ _ _ _ _ HJ) in Hs. rewrite <- (jp_cols' _ _ _ _ _ _ _ HJ) in Hs'.
  set (L := graph_layout E fs true) in *. set (L' := graph_layout E part true) in *.
  assert (HcA : snd (m_shape A) = l_dim L) by apply (jp_cols _ _ _ _ _ _ _ HJ). assert (HcA' : snd (m_shape A') = l_dim L') by apply (jp_cols' _ _ _ _ _ _ _ HJ).
  set (x := col A s (pos L u + j)). assert (Hx : length x = l_dim L) by (unfold x, col; rewrite vec_length; auto).
  destruct (restr_to C true _ _ N1 N2 Hpv x Hx) as (z & Hz). pose proof Hz as (_ & Lz & Hbz).
  destruct (nth_in_block fs x v i (Hpv v Hv) Hx Hiv) as (B1 & V1). destruct (nth_in_block part z v i Hv Lz Hiv) as (B2 & V2).
  destruct (nth_in_block fs x u j (Hpv u Hu) Hx Hju) as (B3 & _). destruct (nth_in_block part z u j Hu Lz Hju) as (B4 & _).
  fold L L' in B1, B2, B3, B4, V1, V2.
  assert (Ez : z = col A' s' (pos L' u + j)).
  { apply (col_unique A' s' (jp_ok' _ _ _ _ _ _ _ HJ) Hs'); auto; [rewrite HcA'; auto | rewrite HcA'; exact Lz|].
    intros y' Hy'. rewrite HcA' in Hy'. destruct (extend_to C true _ _ N1 N2 Hpv y' Hy') as (y & Hy). pose proof Hy as ((Ly & _ & Hby) & _).
    rewrite <- (jp_dot E fs part rest Hp val A A' HJ y y' x z Hy Hz).
    unfold x. rewrite (col_weak A s (jp_ok _ _ _ _ _ _ _ HJ) Hs) by (rewrite HcA; auto).
    destruct (nth_in_block fs y u j (Hpv u Hu) Ly Hju) as (_ & V3). destruct (nth_in_block part y' u j Hu Hy' Hju) as (_ & V4).
    fold L in V3. fold L' in V4. rewrite <- V3, <- V4. f_equal. unfold L, L', graph_layout. apply Hby. auto. }
  assert (G1 : s (pos L v + i)%nat (pos L u + j)%nat = nth (pos L v + i) x 0) by (unfold x, col, vec; rewrite nth_list by (rewrite HcA; auto); auto).
  assert (G2 : s' (pos L' v + i)%nat (pos L' u + j)%nat = nth (pos L' v + i) z 0) by (rewrite Ez; unfold col, vec; rewrite nth_list by (rewrite HcA'; auto); auto).
  rewrite G1, G2, <- V1, <- V2. f_equal. unfold L, L', graph_layout. rewrite Hbz by auto. auto.
Qed.

Lemma slots_length vs : length (slots vs) = total (vldim C) vs.
Proof. unfold slots. induction vs as [|v vs IH]; auto. cbn [flat_map]. rewrite app_length, map_length, seq_length, IH. reflexivity. Qed.
Lemma slots_in vs v i : In (v, i) (slots vs) -> In v vs /\ (i < vldim C v)%nat.
Proof.
  intros Hi. apply in_flat_map in Hi. destruct Hi as (u & Hu & Hi). apply in_map_iff in Hi. destruct Hi as (k & Ek & Hk). injection Ek as -> ->.
  apply in_seq in Hk. split; auto. lia.
Qed.

(* variables of independent parts are uncorrelated *)
Lemma part_uncorrelated fs part rest g g' a a' val chol S :
  (forall f, In f fs -> factor_ok f) -> Permutation fs (part ++ rest) -> independent part rest ->
  graph_make E fs = Ok g -> graph_make E part = Ok g' -> total residual_dim part <> 0%nat ->
  assigns E fs a val -> assigns E part a' val ->
  (forall f, In f fs -> residual_shape_ok E val f) -> (forall f, In f fs -> jacobian_shape_ok E val f) ->
  recovered chol E g a S ->
  forall us ws fuel, (forall v, In v us -> In v (mentioned part)) -> (forall v, In v ws -> In v (mentioned rest)) ->
  (2 * l_dim (g_local_layout g) + 1 <= fuel)%nat ->
  exists M ch, compute_marginal C S fuel (us ++ ws) [] = Ok (Some (M, ch)) /\
    forall i j, (i < total (vldim C) us)%nat -> (total (vldim C) us <= j < total (vldim C) (us ++ ws))%nat -> ent M i j = 0 /\ ent M j i = 0.
Proof.
  intros Hok Hp Hind Hm Hm' Hrd Ha Ha' Hr Hj HR us ws fuel Hus Hws Hfu.
  pose proof (part_in fs part rest Hp) as Hpin. pose proof (part_vars fs part rest Hp) as Hpv. pose proof (whole_rd fs part rest Hp Hrd) as Hrd'.
  assert (Hrv : forall v, In v (mentioned rest) -> In v (mentioned fs)).
  { apply (part_vars fs rest part). rewrite Hp. apply Permutation_app_comm. }
  destruct (recovered_marginal E fs g a val chol S) as (r & A & s & Er & Hl & EA & Hs & HM); auto.
  destruct (made E fs g) as (Hg & Hne); auto. destruct (made E part g') as (Hg' & Hne'); auto.
  destruct (one_cost E fs g Hok Hg a val Ha Hr Hne) as (Hw & Hc).
  set (w := fun f => unwrap [] (whitened_at E val f)) in *.
  unfold compute_cost in Hc. rewrite Er in Hc. cbn [bind] in Hc. injection Hc as _ Hc. subst r.
  destruct (part_jacobians E fs part rest g g' Hok Hp Hind Hg Hg' Hrd a a' val w Ha Ha' Hj Hw) as (A0 & A' & EA0 & EA0' & HJ).
  assert (A0 = A) by congruence. subst A0.
  rewrite (ig_local _ _ _ Hg) in Hs, HM, Hfu.
  destruct (HM (us ++ ws) fuel) as (ch & Ech); auto. { intros v Hv. apply in_app_or in Hv. destruct Hv; auto. }
  exists (block_of s (indices E (graph_layout E fs true) (us ++ ws))), ch. split; [exact Ech|]. clear Ech HM.
  pose proof (mentioned_nodup fs) as N1. pose proof (mentioned_nodup part) as N2.
  rewrite <- (jp_cols _ _ _ _ _ _ _ HJ) in Hs.
  set (L := graph_layout E fs true) in *. set (L' := graph_layout E part true) in *.
  assert (HcA : snd (m_shape A) = l_dim L) by apply (jp_cols _ _ _ _ _ _ _ HJ). assert (HcA' : snd (m_shape A') = l_dim L') by apply (jp_cols' _ _ _ _ _ _ _ HJ).
  pose proof (jp_ok _ _ _ _ _ _ _ HJ) as HA.
  assert (Key : forall u j v i, In u us -> (j < vldim C u)%nat -> In v ws -> (i < vldim C v)%nat ->
    s (pos L v + i)%nat (pos L u + j)%nat = 0 /\ s (pos L u + j)%nat (pos L v + i)%nat = 0).
  { intros u j v i Hu' Hju Hv' Hiv. pose proof (Hus u Hu') as Hu. pose proof (Hws v Hv') as Hv.
    set (x := col A s (pos L u + j)). assert (Hx : length x = l_dim L) by (unfold x, col; rewrite vec_length; auto).
    destruct (restr_to C true _ _ N1 N2 Hpv x Hx) as (z & Hz). pose proof Hz as (_ & Lz & Hbz).
    destruct (extend_to C true _ _ N1 N2 Hpv z Lz) as (xe & Hxe). pose proof Hxe as ((Lxe & _ & _) & Hzero).
    destruct (nth_in_block fs x u j (Hpv u Hu) Hx Hju) as (B3 & _). fold L in B3.
    assert (Exe : xe = x).
    { apply (col_unique A s HA Hs); auto; [rewrite HcA; auto | rewrite HcA; exact Lxe|].
      intros y Hy. rewrite HcA in Hy. destruct (restr_to C true _ _ N1 N2 Hpv y Hy) as (y' & Hyr). pose proof Hyr as (_ & Ly' & Hby').
      destruct (extend_to C true _ _ N1 N2 Hpv y' Ly') as (ye & Hye). pose proof Hye as ((Lye & _ & Hbye) & _).
      rewrite vdot_comm, (jp_dot E fs part rest Hp val A A' HJ xe z y y' Hxe Hyr), vdot_comm.
      rewrite <- (jp_dot E fs part rest Hp val A A' HJ ye y' x z Hye Hz).
      unfold x. rewrite (col_weak A s HA Hs) by (rewrite HcA; auto).
      destruct (nth_in_block fs ye u j (Hpv u Hu) Lye Hju) as (_ & V3). destruct (nth_in_block fs y u j (Hpv u Hu) Hy Hju) as (_ & V4).
      fold L in V3, V4. rewrite <- V3, <- V4. f_equal. unfold L, graph_layout. rewrite Hbye, Hby' by auto. auto. }
    destruct (nth_in_block fs x v i (Hrv v Hv) Hx Hiv) as (B1 & V1). fold L in B1, V1.
    assert (Z : nth (pos L v + i) x 0 = 0).
    { rewrite <- V1, <- Exe. unfold L, graph_layout. fold C. rewrite (Hzero v (Hrv v Hv)); [|intros H; apply (Hind v); auto]. apply nth_repeat. }
    assert (G1 : s (pos L v + i)%nat (pos L u + j)%nat = 0).
    { rewrite <- Z. unfold x, col, vec. rewrite nth_list by (rewrite HcA; auto). auto. }
    split; auto. rewrite (col_sym A s HA Hs) by (rewrite HcA; auto). auto. }
  rewrite block_slots. unfold slots. rewrite flat_map_app. fold (slots us) (slots ws). rewrite total_app, <- !slots_length.
  intros i j Hi Hj'.
  assert (Hnth : forall k l, (k < length (slots us ++ slots ws))%nat -> (l < length (slots us ++ slots ws))%nat ->
    ent (map (fun p => map (fun q => s (pos L (fst p) + snd p)%nat (pos L (fst q) + snd q)%nat) (slots us ++ slots ws)) (slots us ++ slots ws)) k l =
    s (pos L (fst (nth k (slots us ++ slots ws) (mkVar 0%nat 0%nat, 0%nat))) + snd (nth k (slots us ++ slots ws) (mkVar 0%nat 0%nat, 0%nat)))%nat
      (pos L (fst (nth l (slots us ++ slots ws) (mkVar 0%nat 0%nat, 0%nat))) + snd (nth l (slots us ++ slots ws) (mkVar 0%nat 0%nat, 0%nat)))%nat).
  { intros k l Hk Hl'. unfold ent. rewrite (nth_map' _ _ _ _ (mkVar 0%nat 0%nat, 0%nat)) by auto. rewrite (nth_map' _ _ _ _ (mkVar 0%nat 0%nat, 0%nat)) by auto. auto. }
  rewrite !Hnth by (rewrite app_length; lia). rewrite app_nth1 by auto. rewrite app_nth2 by lia.
  destruct (nth i (slots us) (mkVar 0%nat 0%nat, 0%nat)) as [u m] eqn:Eu. destruct (nth (j - length (slots us)) (slots ws) (mkVar 0%nat 0%nat, 0%nat)) as [v k] eqn:Ev. cbn [fst snd].
  assert (Iu : In (u, m) (slots us)) by (rewrite <- Eu; apply nth_In; auto).
  assert (Iv : In (v, k) (slots ws)) by (rewrite <- Ev; apply nth_In; lia).
  apply slots_in in Iu, Iv. destruct Iu, Iv. destruct (Key u m v k); auto.
Qed.
End Part.
