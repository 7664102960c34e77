(* Evaluating one factor by hand agrees with the graph. *)
From Coq Require Import List Arith Bool ZArith Lia Reals.
From Verif Require Import Num NumR NumF32 Py Arr MLayout MAssign MNoise MFactor MGraph MMisc MHand SpecLayout SpecTree SpecAssign SpecGraph SpecMisc SpecHand.
From Verif Require Import PBase PLayout PAssign PAssign2 PGraph PGraph2 PExGraph PMisc Ex ExG.
Import ListNotations.

Section AnyNum.
Context {T : Type} {N : Num T}.
Variable E : env T.
Variable isinstance : pytree T -> nat -> bool.
Variable hint_of : nat -> hint.
Let C := e_cls E.
Let hand := get_variable_values_from_assignments E isinstance hint_of.

Lemma build_admitted h vs : admits isinstance h vs -> build_variable_value_tuple isinstance h vs = Ok (wrapped h vs).
Proof.
  destruct (value_tuple isinstance vs) as (_ & Ht & Hn & _). destruct h as [|tag ts|ts]; cbn [admits wrapped]; [tauto| |].
  - intros (Hl & Hm). apply Hn; auto.
  - intros Hm. apply Ht; auto.
Qed.
Lemma build_refused h vs : ~ admits isinstance h vs -> exists e, build_variable_value_tuple isinstance h vs = Err e.
Proof.
  destruct (value_tuple isinstance vs) as (H0 & Ht & Hn & Hl). destruct h as [|tag ts|ts]; cbn [admits]; intros H.
  - eauto.
  - destruct (Nat.eq_dec (length ts) (length vs)) as [Hd|Hd]; [|eauto]. destruct (Hn tag ts Hd) as (_ & Hn'). destruct Hn' as (e & He & _); eauto.
  - destruct (Ht ts) as (_ & Ht'). destruct Ht' as (e & He & _); eauto.
Qed.
Lemma values_read vs a l val : wf_assign C vs false a -> incl l vs -> (forall v, In v vs -> get_value C a v = Ok (val v)) -> traverse (get_value C a) l = Ok (map val l).
Proof. intros Hwf Hi Hv. apply traverse_all. intros v Hin. apply Hv. apply Hi. auto. Qed.
Lemma values_missing vs a l : wf_assign C vs false a -> classes_ok C -> ~ incl l vs -> traverse (get_value C a) l = Err KeyError.
Proof.
  intros Hwf CO. induction l as [|v l IH]; intros Hn; [exfalso; apply Hn; intros x []|]. cbn [traverse].
  destruct (in_dec (fun x y => eqb_dec x y) v vs) as [Hi|Hi].
  - destruct (get_value_ok C CO vs a v Hwf Hi) as (x & -> & _). cbn [bind]. rewrite IH; auto. intros Hl. apply Hn. intros w [<-|Hw]; auto.
  - rewrite (get_value_foreign C vs false a v Hwf Hi). reflexivity.
Qed.
End AnyNum.
