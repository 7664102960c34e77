(* Theorems C26, C51, C52, C58: caches, identities and variable-value tuples. *)
From Coq Require Import List Arith Bool ZArith.
From Verif Require Import Num Py Arr MLayout MMisc SpecMisc PMisc.
Import ListNotations.

Theorem C26_analysis_of_first_pattern :
  forall os i a p, nth_error os i = Some (CSolve a p) ->
  exists q j, nth_error (fst (crun os [])) i = Some (Some q) /\ j <= i /\ first_solve os a j q /\
    (q = p <-> forall k p', k <= i -> first_solve os a k p' -> p' = p) /\
    ((forall k p', k < i -> nth_error os k = Some (CSolve a p') -> p' = p) -> q = p).
Proof. exact analysis_cache. Qed.
Print Assumptions C26_analysis_of_first_pattern.

Theorem C26_second_pattern_refuted :
  forall a p q, p <> q ->
  nth_error (fst (crun [CSolve a p; CSolve a q] [])) 1 = Some (Some p) /\
  nth_error (fst (crun [CSolve a p; CFree a; CSolve a q] [])) 2 = Some (Some p).
Proof. exact analysis_stale. Qed.
Print Assumptions C26_second_pattern_refuted.

Example C26_example :
  nth_error [CSolve 4 (1, 2, [(0, 1)]); CSolve 5 (1, 1, []); CFree 5; CSolve 4 (1, 2, [(0, 1)])] 3 = Some (CSolve 4 (1, 2, [(0, 1)])) /\
  fst (crun [CSolve 4 (1, 2, [(0, 1)]); CSolve 5 (1, 1, []); CFree 5; CSolve 4 (1, 2, [(0, 1)])] []) =
    [Some (1, 2, [(0, 1)]); Some (1, 1, []); None; Some (1, 2, [(0, 1)])].
Proof. exact (conj eq_refl eq_refl). Qed.

Theorem C51_value_tuple :
  forall (V : Type) (isinstance : V -> nat -> bool) vs,
  build_variable_value_tuple isinstance NoHint vs = Err NotImplementedError /\
  (forall ts, (matches isinstance ts vs -> build_variable_value_tuple isinstance (HTuple ts) vs = Ok (Plain vs)) /\
     (~ matches isinstance ts vs -> exists e, build_variable_value_tuple isinstance (HTuple ts) vs = Err e /\ (sane ts -> e = AssertionError))) /\
  (forall tag ts, length ts = length vs -> (matches isinstance ts vs -> build_variable_value_tuple isinstance (HNamed tag ts) vs = Ok (Named tag vs)) /\
     (~ matches isinstance ts vs -> exists e, build_variable_value_tuple isinstance (HNamed tag ts) vs = Err e /\ (sane ts -> e = AssertionError))) /\
  (forall tag ts, length ts <> length vs -> build_variable_value_tuple isinstance (HNamed tag ts) vs = Err TypeError).
Proof. exact @value_tuple. Qed.
Print Assumptions C51_value_tuple.

Example C51_example :
  build_variable_value_tuple Nat.eqb (HTuple [TyElt 3; TyEllipsis]) [3; 3; 3] = Ok (Plain [3; 3; 3]) /\
  build_variable_value_tuple Nat.eqb (HNamed 7 [TyElt 3; TyElt 4]) [3; 4] = Ok (Named 7 [3; 4]) /\
  build_variable_value_tuple Nat.eqb (HNamed 7 [TyElt 3; TyElt 4]) [4; 3] = Err AssertionError.
Proof. exact (conj eq_refl (conj eq_refl eq_refl)). Qed.

Theorem C52_stable_identities :
  forall os xs h, hrun os heap0 = (xs, h) ->
  length xs = length os /\
  (forall i t, nth_error os i = Some (HCanonical t) -> exists v, nth_error xs i = Some (OVar v) /\ v_ty v = t) /\
  (forall i j t t' v v', nth_error os i = Some (HCanonical t) -> nth_error os j = Some (HCanonical t') ->
     nth_error xs i = Some (OVar v) -> nth_error xs j = Some (OVar v') -> (v = v' <-> t = t') /\ (v_id v = v_id v' <-> t = t')) /\
  (forall i j k k' n n' c c', nth_error os i = Some (HReal k) -> nth_error os j = Some (HReal k') -> stands_for k n -> stands_for k' n' ->
     nth_error xs i = Some (OCls (Ok c)) -> nth_error xs j = Some (OCls (Ok c')) -> (c = c' <-> n = n')) /\
  (forall i j t v, nth_error os i = Some (HNewVar t) -> i <> j -> nth_error xs i = Some (OVar v) ->
     v_ty v = t /\ forall w, nth_error xs j = Some (OVar w) -> v_id w <> v_id v) /\
  (forall i j c, nth_error os i = Some HNewClass -> i <> j -> nth_error xs i = Some (OCls (Ok c)) ->
     forall c', nth_error xs j = Some (OCls (Ok c')) -> c' <> c).
Proof. exact stable_identities_spec. Qed.
Print Assumptions C52_stable_identities.

(* True, 1 and 1.0 are one key *)
Example C52_equal_subscripts :
  stands_for (KBool true) 1 /\ stands_for (KInt 1) 1 /\ stands_for (KFloat 1) 1 /\
  fst (hrun [HReal (KBool true); HReal (KInt 0); HReal (KInt 1); HReal (KFloat 1); HReal (KBool false)] heap0) =
  [OCls (Ok 0); OCls (Ok 1); OCls (Ok 0); OCls (Ok 0); OCls (Ok 1)].
Proof. exact (conj sf_true (conj (sf_int 1) (conj (sf_float 1) eq_refl))). Qed.

Example C52_example :
  fst (hrun [HReal (KInt 2); HCanonical 0; HNewVar 0; HReal (KInt 3); HCanonical 1; HReal (KInt 2); HCanonical 0; HNewClass] heap0) =
  [OCls (Ok 0); OVar (mkVar 0 0); OVar (mkVar 1 0); OCls (Ok 1); OVar (mkVar 2 1); OCls (Ok 0); OVar (mkVar 0 0); OCls (Ok 2)].
Proof. exact eq_refl. Qed.

Theorem C58_real_subscript :
  forall os xs h i k n, hrun os heap0 = (xs, h) -> nth_error os i = Some (HReal k) -> stands_for k n ->
  let cached := exists j k' c, j < i /\ nth_error os j = Some (HReal k') /\ stands_for k' n /\ nth_error xs j = Some (OCls (Ok c)) in
  (int_object k -> (0 <= n)%Z -> exists c, nth_error xs i = Some (OCls (Ok c))) /\
  ((n < 0)%Z -> exists e, nth_error xs i = Some (OCls (Err e))) /\
  (~ int_object k -> cached -> exists c, nth_error xs i = Some (OCls (Ok c))) /\
  (~ int_object k -> ~ cached -> nth_error xs i = Some (OCls (Err AssertionError))).
Proof. exact real_subscript_spec. Qed.
Print Assumptions C58_real_subscript.

Theorem C58_history_independence_refuted :
  exists os os' k, nth_error (fst (hrun (os ++ [HReal k]) heap0)) (length os) = Some (OCls (Err AssertionError)) /\
    exists c, nth_error (fst (hrun (os' ++ [HReal k]) heap0)) (length os') = Some (OCls (Ok c)).
Proof. exact (ex_intro _ [] (ex_intro _ [HReal (KInt 1)] (ex_intro _ (KFloat 1) (conj eq_refl (ex_intro _ 0 eq_refl))))). Qed.
Print Assumptions C58_history_independence_refuted.
