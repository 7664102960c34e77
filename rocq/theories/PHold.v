(* Assignments that hold given values in the storage order of a graph. *)
From Coq Require Import List Arith Bool Lia Permutation.
From Verif Require Import Num Py Arr MLayout MAssign MNoise MSparse MFactor MGraph MLinear MSolver SpecLayout SpecTree SpecAssign SpecGraph SpecSparse SpecOrder SpecInv.
From Verif Require Import PBase PLayout PTree PAssign PAssign2 PAssign3 PStack PGraph PGraph2 PJac PLayout2.
Import ListNotations.

Section One.
Context {T : Type} {N : Num T}.
Variable E : env T.
Let C := e_cls E.
Variable fs : list (factor T).
Hypothesis CO : classes_ok C.

(* legal values for the variables of fs *)
Definition legal (val : var -> pytree T) : Prop := forall v, In v (mentioned fs) -> value_ok (C (v_ty v)) (val v).

(* an assignment in the graph's storage order with the values val *)
Definition holds (a : assign T) (val : var -> pytree T) : Prop :=
  exists vs, wf_assign C vs false a /\ same_layout (as_layout a) (graph_layout E fs false) /\
    forall v, In v (mentioned fs) -> get_value C a v = Ok (val v).

Lemma holds_vars vs a : wf_assign C vs false a -> same_layout (as_layout a) (graph_layout E fs false) ->
  forall v, In v vs <-> In v (mentioned fs).
Proof.
  intros (ND & HL & _) Hs. rewrite HL in Hs. apply (same_layout_vars C vs (mentioned fs) false false); auto. apply mentioned_nodup.
Qed.
Lemma holds_assigns a val : holds a val -> assigns E fs a val.
Proof.
  intros (vs & Hwf & Hs & Hv). pose proof (holds_vars vs a Hwf Hs) as Hi. exists vs. split; auto. split; auto.
  intros v Hin. apply Hv, Hi; auto.
Qed.
Lemma holds_legal a val : holds a val -> legal val.
Proof.
  intros (vs & Hwf & Hs & Hv) v Hin. pose proof (holds_vars vs a Hwf Hs) as Hi.
  destruct (get_value_ok C CO vs a v Hwf) as (x & Ex & Hx & _); [apply Hi; auto|].
  rewrite Hv in Ex by auto. injection Ex as ->. auto.
Qed.
Lemma holds_storage a val : holds a val -> length (as_storage a) = l_dim (graph_layout E fs false) /\
  forall v, In v (mentioned fs) -> block C (graph_layout E fs false) (as_storage a) v = flatten (val v).
Proof.
  intros (vs & Hwf & Hs & Hv). pose proof (holds_vars vs a Hwf Hs) as Hi. split.
  - destruct Hwf as (_ & _ & ->). apply Hs.
  - intros v Hin. destruct (get_value_ok C CO vs a v Hwf) as (x & Ex & _ & Hx); [apply Hi; auto|].
    rewrite Hv in Ex by auto. injection Ex as ->. rewrite Hx. symmetry. apply same_layout_block. auto.
Qed.

Lemma holds_ext a val val' : holds a val -> (forall v, In v (mentioned fs) -> val v = val' v) -> holds a val'.
Proof.
  intros (vs & H1 & H2 & H3) He. exists vs. split; auto. split; auto. intros v Hin. rewrite <- He; auto.
Qed.

(* one retraction, the values satisfying Q *)
Lemma retract_holds (Q : var -> pytree T -> Prop) a val x : preserved E fs Q -> holds a val ->
  (forall v, In v (mentioned fs) -> Q v (val v)) -> length x = l_dim (graph_layout E fs true) ->
  exists a' val', manifold_retract C a (mkAssign x (graph_layout E fs true)) = Ok a' /\ as_layout a' = as_layout a /\ holds a' val' /\
    forall v, In v (mentioned fs) -> retract (C (v_ty v)) (val v) (block C (graph_layout E fs true) x v) = Ok (val' v) /\ Q v (val' v).
Proof.
  intros Hre Ha HQ Hx. pose proof (holds_legal a val Ha) as Hl. destruct Ha as (vs & Hwf & Hs & Hv).
  pose proof (holds_vars vs a Hwf Hs) as Hi. pose proof Hwf as (ND & HL & Hst). assert (NDm := mentioned_nodup fs).
  assert (Hty : forall t, length (of_type t vs) = length (of_type t (mentioned fs)) /\
    ((0 < param_dim (C t))%nat -> of_type t vs = of_type t (mentioned fs))).
  { apply same_layout_types; auto. rewrite HL in Hs. auto. }
  set (sg := pairing vs (mentioned fs)).
  assert (Hsg : forall v, In v vs -> In (sg v) (mentioned fs) /\ v_ty (sg v) = v_ty v).
  { intros v Hin. assert (Hm : In (sg v) (of_type (v_ty v) (mentioned fs))).
    { rewrite (pairing_type vs (mentioned fs) (v_ty v) ND (proj1 (Hty _))). apply in_map. apply of_type_ty; auto. }
    apply of_type_ty in Hm. auto. }
  assert (Hbl : forall v, In v (mentioned fs) -> length (block C (graph_layout E fs true) x v) = vldim C v).
  { intros v Hin. apply (block_length C (mentioned fs) true NDm); auto. }
  set (y := fun v => unwrap (val v) (retract (C (v_ty v)) (val v) (block C (graph_layout E fs true) x (sg v)))).
  set (z := fun v => unwrap (val v) (retract (C (v_ty v)) (val v) (block C (graph_layout E fs true) x v))).
  assert (Hy : forall v, In v vs -> retract (C (v_ty v)) (val v) (block C (graph_layout E fs true) x (sg v)) = Ok (y v) /\
     value_ok (C (v_ty v)) (y v)).
  { intros v Hin. destruct (Hsg v Hin) as (H1 & H2). destruct (Hre v (val v) (block C (graph_layout E fs true) x (sg v))) as (w & Ew & Hw & _); auto.
    - apply Hi; auto.
    - apply Hl, Hi; auto.
    - apply HQ, Hi; auto.
    - rewrite Hbl by auto. unfold vldim. rewrite H2. auto.
    - unfold y. fold C in Ew. rewrite Ew. auto. }
  assert (Hz : forall v, In v (mentioned fs) -> retract (C (v_ty v)) (val v) (block C (graph_layout E fs true) x v) = Ok (z v) /\
     value_ok (C (v_ty v)) (z v) /\ Q v (z v)).
  { intros v Hin. destruct (Hre v (val v) (block C (graph_layout E fs true) x v)) as (w & Ew & Hw & Hq); auto.
    unfold z. fold C in Ew. rewrite Ew. auto. }
  destruct (retract_values C vs (mentioned fs) a (mkAssign x (graph_layout E fs true)) sg y CO Hwf) as (a' & Ea & HLa & Hwf' & Hval).
  - repeat split; auto.
  - intros t. apply pairing_type; auto. apply Hty.
  - intros v Hin. exists (val v). destruct (Hy v Hin). split; [apply Hv, Hi; auto|]. split; auto.
  - exists a', z. split; auto. split; auto. split.
    + exists vs. split; auto. split; [rewrite HLa; auto|].
      intros v Hin. assert (Hin' : In v vs) by (apply Hi; auto). rewrite Hval by auto. f_equal.
      destruct (Hy v Hin') as (H1 & H2). destruct (Hz v Hin) as (H3 & H4 & _).
      destruct (Nat.eq_dec (param_dim (C (v_ty v))) 0) as [Z|Z].
      * apply (dimless_equal (C (v_ty v))); auto.
      * assert (sg v = v). { apply pairing_same; auto. apply Hty. lia. }
        rewrite H in H1. congruence.
    + intros v Hin. destruct (Hz v Hin) as (H3 & _ & H4). auto.
Qed.

Hypothesis Hws : well_shaped E fs.
Lemma ws_preserved : preserved E fs (fun _ _ => True).
Proof. intros v x d Hin Hx _ Hd. destruct (ws_retract E fs Hws v x d Hin Hx Hd) as (y & H1 & H2). exists y. auto. Qed.

Lemma one_retract a val x : holds a val -> length x = l_dim (graph_layout E fs true) ->
  exists a', manifold_retract C a (mkAssign x (graph_layout E fs true)) = Ok a' /\ as_layout a' = as_layout a /\
    forall val', (forall v, In v (mentioned fs) ->
       retract (C (v_ty v)) (val v) (block C (graph_layout E fs true) x v) = Ok (val' v)) -> holds a' val'.
Proof.
  intros Ha Hx. destruct (retract_holds _ a val x ws_preserved Ha (fun _ _ => I) Hx) as (a' & val1 & H1 & H2 & H3 & H4).
  exists a'. split; auto. split; auto. intros val' Hv'. apply (holds_ext a' val1); auto.
  intros v Hin. destruct (H4 v Hin) as (H5 & _). rewrite Hv' in H5 by auto. congruence.
Qed.
End One.

Section Update.
Context {T : Type} {N : Num T}.
Variable E : env T.
Let C := e_cls E.
Hypothesis CO : classes_ok C.

Lemma update_wf vs1 vs2 (a : assign T) : wf_assign C vs1 false a -> NoDup vs2 -> (forall v, In v vs1 <-> In v vs2) ->
  exists a' vs, update_storage_layout C a (make_layout C vs2 false) = Ok a' /\ wf_assign C vs false a' /\ (forall v, In v vs <-> In v vs2) /\ same_layout (as_layout a') (make_layout C vs2 false) /\ forall v, get_value C a' v = get_value C a v.
Proof.
  intros Hwf N2 Hvs. destruct (update_ok C vs1 vs2 false a Hwf N2 Hvs) as (a' & Ea & HL & Hcase & Hlen & _).
  destruct (update_values C vs1 vs2 a CO Hwf N2 Hvs) as (a2 & Ea2 & _ & Hval).
  rewrite Ea in Ea2. injection Ea2 as <-. exists a'.
  destruct Hcase as [->|HLa].
  - exists vs1. repeat (split; auto).
  - exists vs2. split; auto. split; [|split; [tauto | auto]]. split; auto. split; auto. rewrite HLa. auto.
Qed.

Lemma update_holds fs a val : assigns E fs a val ->
  exists a', update_storage_layout C a (graph_layout E fs false) = Ok a' /\ holds E fs a' val.
Proof.
  intros (vs & Hwf & Hvs & Hval). destruct (update_wf vs (mentioned fs) a Hwf (mentioned_nodup fs) Hvs) as (a' & vs' & Ea & Hwf' & Hi & Hs & Hv).
  exists a'. split; auto. exists vs'. split; auto. split; auto. intros v Hin. rewrite Hv. apply Hval, Hvs; auto.
Qed.
Lemma update_back fs a val init val0 : holds E fs a val -> assigns E fs init val0 ->
  exists a', update_storage_layout C a (as_layout init) = Ok a' /\ assigns E fs a' val.
Proof.
  intros (vs & Hwf & Hs & Hval) (vs0 & Hwf0 & Hvs0 & _). pose proof (holds_vars E fs vs a Hwf Hs) as Hi.
  pose proof Hwf0 as (N0 & HL0 & _). rewrite HL0.
  destruct (update_wf vs vs0 a Hwf N0) as (a' & vs' & Ea & Hwf' & Hi' & _ & Hv); [intros v; rewrite Hi, Hvs0; tauto|].
  exists a'. split; auto. exists vs'. split; auto. split; [intros v; rewrite Hi', Hvs0; tauto|].
  intros v Hin. rewrite Hv. apply Hval. apply Hvs0, Hi'; auto.
Qed.

End Update.
