(* Layouts that compare equal in Python. *)
From Coq Require Import List Arith Bool Lia.
From Verif Require Import Num Py Arr MLayout MAssign SpecLayout SpecTree SpecAssign.
From Verif Require Import PBase PLayout PTree PAssign PAssign2.
Import ListNotations.

(* ---- layouts that are == assign the same storage position inside each type ---- *)
Section Types.
Context {T : Type}.
Variable C : cenv (T := T).

Lemma same_layout_types vs vs' : NoDup vs -> NoDup vs' ->
  same_layout (make_layout C vs false) (make_layout C vs' false) -> forall t,
  length (of_type t vs) = length (of_type t vs') /\
  ((0 < param_dim (C t))%nat -> of_type t vs = of_type t vs').
Proof.
  intros ND ND' (_ & _ & Hi & Ht & Hc) t.
  assert (Hlen : length (of_type t vs) = length (of_type t vs')).
  { specialize (Hc t). rewrite !lay_tcount in Hc by auto.
    destruct (mem t (map v_ty vs)) eqn:E1, (mem t (map v_ty vs')) eqn:E2; try discriminate.
    - injection Hc; auto.
    - rewrite !of_type_nil; auto; intros H; apply mem_in in H; congruence. }
  split; auto. intros Hpos. apply list_ext. intros k.
  destruct (nth_error (of_type t vs) k) as [v|] eqn:E1.
  - assert (Hv : In v (of_type t vs)) by (eapply nth_error_In; eauto). apply of_type_ty in Hv. destruct Hv as (Hv & Hvt).
    assert (Hv' : In v vs').
    { apply (lay_index_mem C vs' false ND'). apply (lay_index_mem C vs false ND) in Hv. destruct Hv as (i & Hv). exists i. rewrite <- Hi. auto. }
    destruct (of_type_nth vs' v Hv') as (k' & E2). rewrite Hvt in E2.
    assert (Hm : In t (map v_ty vs)) by (apply in_map_iff; eauto).
    apply (lay_tindex_mem C vs false ND) in Hm. destruct Hm as (ti & Eti).
    assert (Eti' : dict_get (l_tindex (make_layout C vs' false)) t = Some ti) by (rewrite <- Ht; auto).
    pose proof (lay_run C vs false ND t ti k v Eti E1) as R1. pose proof (lay_run C vs' false ND' t ti k' v Eti' E2) as R2.
    rewrite <- Hi, R1 in R2. injection R2 as R2. unfold tdim in R2.
    assert (k = k') by nia. subst. auto.
  - symmetry. apply nth_error_None. apply nth_error_None in E1. lia.
Qed.

(* pairing the k-th variables *)
Definition pairing (vs vs' : list var) (v : var) : var :=
  match dict_get (combine (of_type (v_ty v) vs) (of_type (v_ty v) vs')) v with Some w => w | None => v end.

Lemma combine_get (ks ws : list var) : NoDup ks -> length ks = length ws ->
  map (fun v => match dict_get (combine ks ws) v with Some w => w | None => v end) ks = ws.
Proof.
  revert ws; induction ks as [|k ks IH]; intros [|w ws] ND Hl; try discriminate; auto.
  inversion ND; subst. cbn [map combine dict_get]. rewrite eqb_refl. f_equal.
  etransitivity; [|apply (IH ws); auto]. apply map_ext_in. intros v Hv.
  destruct (eqb v k) eqn:Ek; auto. apply eqb_ok in Ek. subst. tauto.
Qed.
Lemma combine_self (ks : list var) v : In v ks -> dict_get (combine ks ks) v = Some v.
Proof.
  induction ks as [|k ks IH]; cbn [In combine dict_get]; [tauto|]. intros [->|H]; [rewrite eqb_refl; auto|].
  destruct (eqb v k) eqn:Ek; auto. apply eqb_ok in Ek. subst. auto.
Qed.
Lemma pairing_type vs vs' t : NoDup vs -> length (of_type t vs) = length (of_type t vs') ->
  of_type t vs' = map (pairing vs vs') (of_type t vs).
Proof.
  intros ND Hl. rewrite <- (combine_get (of_type t vs) (of_type t vs')) at 1; auto.
  - apply map_ext_in. intros v Hv. apply of_type_ty in Hv. unfold pairing. destruct Hv as (_ & ->). auto.
  - apply NoDup_filter; auto.
Qed.
Lemma pairing_same vs vs' v : In v vs -> of_type (v_ty v) vs = of_type (v_ty v) vs' -> pairing vs vs' v = v.
Proof. intros Hv H. unfold pairing. rewrite <- H, combine_self; auto. apply of_type_ty; auto. Qed.

Lemma dimless_equal c x y : tree_ok (vc_default c) -> value_ok c x -> value_ok c y -> param_dim c = 0%nat -> x = y :> pytree T.
Proof.
  intros Hc Hx Hy Hd.
  pose proof (flatten_length c Hc x Hx) as Lx. pose proof (flatten_length c Hc y Hy) as Ly. rewrite Hd in *.
  pose proof (unflatten_flatten c Hc x Hx) as Ux. pose proof (unflatten_flatten c Hc y Hy) as Uy.
  destruct (flatten x); [|discriminate]. destruct (flatten y); [|discriminate]. congruence.
Qed.
End Types.
