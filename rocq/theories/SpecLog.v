(* Specification vocabulary: a run as a sequence of states, and the lines that report it. *)
From Coq Require Import List Arith ZArith.
From Verif Require Import Num Py MAssign MFactor MGraph MSolver MLog SpecSolver.
Import ListNotations.

(* st 0 = s, ..., st k = s', each the result of a step on the one before *)
Definition trail {T} (step : sstate T -> result (sstate T)) (k : nat) (s : sstate T) (st : nat -> sstate T) (s' : sstate T) : Prop :=
  st 0 = s /\ st k = s' /\ forall i, i < k -> step (st i) = Ok (st (S i)).

(* one line per iteration, then the last line; with [extra] also lambda or the radius *)
Definition report {T} (max_i : option Z) (extra : bool) (k : nat) (st : nat -> sstate T) : list (message T) :=
  map (fun i => Iteration i max_i (s_cost (st i)) (if extra then Some (s_extra (st i)) else None)) (seq 0 k)
  ++ [Terminated k (s_cost (st k))].

(* the costs in the lines *)
Definition line_cost {T} (m : message T) : T := match m with Iteration _ _ c _ => c | Terminated _ c => c end.

(* without the lines *)
Definition result_of {T} (r : option (result (assign T) * list (message T))) : option (result (assign T)) := option_map fst r.

(* what a verbose call that returns a' prints.  The run starts at the initial assignment in
   the graph's layout, st 0, ..., st k are its states, the last being the first that is done;
   the cost in each is the graph's cost at its assignment *)
Definition reported {T} {N : Num T} (E : env T) (step : graph T -> sstate T -> result (sstate T)) (extra : T) (max_i : Z) (more : bool)
    (g : graph T) (init a' : assign T) (ms : list (message T)) : Prop :=
  exists a c res k st, update_storage_layout (e_cls E) init (g_layout g) = Ok a /\ compute_cost E g a = Ok (c, res) /\
    trail (step g) k (mkState 0 a c res false extra) st (st k) /\ 1 <= k <= iteration_cap max_i /\
    (forall i, i <= k -> s_done (st i) = (k <=? i) /\ cost_current E g (st i)) /\
    update_storage_layout (e_cls E) (s_assign (st k)) (as_layout init) = Ok a' /\
    ms = report (Some max_i) more k st.
