(* Theorems C49, C50, C60: the g2o reader. *)
From Coq Require Import Arith Bool ZArith String List Reals.
From Verif Require Import Num NumR NumF32 Py Arr MNoise MFactor MG2o SpecSparse SpecNoise SpecG2o PG2o PExG2o.
Import ListNotations.
Local Open Scope list_scope.

Theorem C49_symmetric :
  forall (T : Type) (N : Num T) n (comps : list T), 2 * List.length comps = n * (n + 1) ->
  exists M, read_precision n comps = Ok M /\ is_symmetric_of n comps M.
Proof. exact symmetric_read. Qed.
Print Assumptions C49_symmetric.

Theorem C49_wrong_count :
  forall (T : Type) (N : Num T) n (comps : list T), 2 * List.length comps <> n * (n + 1) ->
  read_precision n comps =
    match comps with
    | [x] => Ok (repeat (repeat x n) n)
    | _ => Err ValueError
    end.
Proof. exact wrong_count. Qed.
Print Assumptions C49_wrong_count.

Theorem C49_whitened_quadratic :
  forall (cholesky : list (list R) -> result (list (list R))) n comps M c r,
  2 * List.length comps = n * (n + 1) -> is_symmetric_of n comps M -> cholesky M = Ok c -> is_cholesky n M c -> List.length r = n ->
  exists W w, sqrt_precision cholesky n comps = Ok W /\ shaped n n W /\
    whiten_residual (Gaussian (mkArr [n; n] (List.concat W))) r = Ok w /\
    sumsq w = sumn n (fun i => sumn n (fun j => nth i r 0 * nth (upper_pos n i j) comps 0 * nth j r 0))%R.
Proof. exact whitened_quadratic. Qed.
Print Assumptions C49_whitened_quadratic.

Example C49_example : 2 * List.length [4; 2; 5]%R = 2 * (2 + 1) /\ is_symmetric_of 2 [4; 2; 5]%R [[4; 2]; [2; 5]]%R /\
  is_cholesky 2 [[4; 2]; [2; 5]]%R [[2; 0]; [1; 2]]%R.
Proof. exact ex_quadratic. Qed.

Theorem C50_parse :
  forall (T P : Type) (N : Num T) parse_int parse_float se2 se3 se3q cholesky limit lines fs ps,
  parse_g2o (T := T) (P := P) parse_int parse_float se2 se3 se3q cholesky limit lines = Ok (fs, ps) <->
  exists k p vs es, builds parse_int parse_float se2 se3 se3q cholesky limit [] lines ((k, p) :: vs) es /\
    ps = numbered ((k, p) :: vs) /\
    fs = es ++ [GPrior (mkPvar 0 k) p (repeat (nmul n1 (nlit 100 1)) (match k with SE2 => 3 | SE3 => 6 end))].
Proof. exact @parse_iff. Qed.
Print Assumptions C50_parse.

Theorem C50_pose_limit :
  forall (T P : Type) (N : Num T) parse_int parse_float se2 se3 se3q cholesky limit lines vs0 vs fs,
  builds (T := T) (P := P) parse_int parse_float se2 se3 se3q cholesky limit vs0 lines vs fs ->
  (0 <= limit)%Z -> Forall (fun kp => fst kp = SE2) vs ->
  List.length vs = min (se2_vertices lines) (Z.to_nat limit + 1 - List.length vs0).
Proof. exact @limit_count. Qed.
Print Assumptions C50_pose_limit.

Theorem C50_rejects_unknown :
  forall (T P : Type) (N : Num T) parse_int parse_float se2 se3 se3q cholesky limit l1 parts l2,
  (forall t args, parts = t :: args -> ~ In t tags) ->
  exists e, parse_g2o (T := T) (P := P) parse_int parse_float se2 se3 se3q cholesky limit (l1 ++ parts :: l2) = Err e.
Proof. exact @bad_line. Qed.
Print Assumptions C50_rejects_unknown.

Theorem C50_rejects_misnumbered :
  forall (T P : Type) (N : Num T) parse_int parse_float se2 se3 se3q cholesky limit l1 parts l2 vs1 fs1 i,
  builds (T := T) (P := P) parse_int parse_float se2 se3 se3q cholesky limit [] l1 vs1 fs1 ->
  vertex_number parse_int parts i -> (Z.of_nat (List.length vs1) <= limit)%Z -> i <> Z.of_nat (List.length vs1) ->
  exists e, parse_g2o parse_int parse_float se2 se3 se3q cholesky limit (l1 ++ parts :: l2) = Err e.
Proof. exact @misnumbered. Qed.
Print Assumptions C50_rejects_misnumbered.

Theorem C50_rejects_dangling :
  forall (T P : Type) (N : Num T) parse_int parse_float se2 se3 se3q cholesky limit l1 parts l2 vs1 fs1 k a b,
  builds (T := T) (P := P) parse_int parse_float se2 se3 se3q cholesky limit [] l1 vs1 fs1 ->
  edge_ends parse_int parts k a b -> (k = SE2 -> a <= limit /\ b <= limit)%Z ->
  (Z.of_nat (List.length vs1) <= a \/ Z.of_nat (List.length vs1) <= b)%Z ->
  exists e, parse_g2o parse_int parse_float se2 se3 se3q cholesky limit (l1 ++ parts :: l2) = Err e.
Proof. exact @dangling. Qed.
Print Assumptions C50_rejects_dangling.

Theorem C50_negative_numbers_rejected_refuted :
  exists text fs ps a b t w, ex_parse 5 text = Ok (fs, ps) /\
  text = (ex_file ++ "EDGE_SE2 -1 0 2 0 0 1 0 0 1 0 1")%string /\ In (GBetween a b t w) fs /\ pv_id a = 2 /\ pv_id b = 0.
Proof. exact negative_index. Qed.
Print Assumptions C50_negative_numbers_rejected_refuted.

Example C50_example_all : ex_parse 5 ex_file = Ok
  ([GBetween (mkPvar 0 SE2) (mkPvar 1 SE2) [f 2; f 0; f 0] eye3;
    GBetween (mkPvar 1 SE2) (mkPvar 2 SE2) [f 2; f 0; f 0] eye3;
    GPrior (mkPvar 0 SE2) [f 0; f 0; f 0] [f 100; f 100; f 100]],
   [(mkPvar 0 SE2, [f 0; f 0; f 0]); (mkPvar 1 SE2, [f 2; f 0; f 0]); (mkPvar 2 SE2, [f 4; f 0; f 0])]).
Proof. exact ex_read_all. Qed.
Example C50_example_limited : ex_parse 1 ex_file = Ok
  ([GBetween (mkPvar 0 SE2) (mkPvar 1 SE2) [f 2; f 0; f 0] eye3;
    GPrior (mkPvar 0 SE2) [f 0; f 0; f 0] [f 100; f 100; f 100]],
   [(mkPvar 0 SE2, [f 0; f 0; f 0]); (mkPvar 1 SE2, [f 2; f 0; f 0])]).
Proof. exact ex_read_limited. Qed.
Example C50_example_rejects : ex_parse 5 (ex_file ++ nl) = Err IndexError /\ ex_parse 5 (ex_file ++ "FIX 0") = Err AssertionError /\
  ex_parse 5 (ex_file ++ "VERTEX_SE2 4 0 0 0") = Err AssertionError /\ ex_parse 5 (ex_file ++ "EDGE_SE2 2 3 2 0 0 1 0 0 1 0 1") = Err IndexError.
Proof. exact ex_rejects. Qed.

Theorem C60_text :
  forall (T P : Type) (N : Num T) parse_int parse_float se2 se3 se3q cholesky limit ls wss, Forall2 shows ls wss ->
  parse_text (T := T) (P := P) parse_int parse_float se2 se3 se3q cholesky limit (unlines ls) =
    parse_g2o parse_int parse_float se2 se3 se3q cholesky limit wss /\
  forall l ws, shows l ws -> l <> EmptyString ->
    parse_text parse_int parse_float se2 se3 se3q cholesky limit (unlines ls ++ l) =
      parse_g2o parse_int parse_float se2 se3 se3q cholesky limit (wss ++ [ws]).
Proof. exact @text_parsed. Qed.
Print Assumptions C60_text.

(* only blanks separate words: a tab between two words does not *)
Theorem C60_tabs_do_not_separate :
  forall (T P : Type) (N : Num T) parse_int parse_float se2 se3 se3q cholesky limit w v, is_word w -> is_word v ->
  parse_text (T := T) (P := P) parse_int parse_float se2 se3 se3q cholesky limit (unlines [(w ++ String tab v)%string]) =
    parse_g2o parse_int parse_float se2 se3 se3q cholesky limit [[(w ++ String tab v)%string]].
Proof. exact @tab_parsed. Qed.
Print Assumptions C60_tabs_do_not_separate.

Example C60_example : Forall2 shows [String tab " EDGE_SE2 0   1 "; "FIX"]%string [["EDGE_SE2"; "0"; "1"]; ["FIX"]]%string.
Proof. exact ex_shows. Qed.
Example C60_example_tab : is_word "FIX" /\ is_word "0".
Proof. exact ex_tab. Qed.
