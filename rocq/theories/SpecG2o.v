(* Specification vocabulary for the g2o reader. *)
From Coq Require Import Arith Bool ZArith String List.
From Verif Require Import Num Py MG2o.
Import ListNotations.
Local Open Scope list_scope.

(* entry (i, j) of a matrix and its shape, for any number type *)
Definition gent {T} {N : Num T} (M : list (list T)) (i j : nat) : T := nth j (nth i M []) n0.
Definition gshaped {T} (m n : nat) (M : list (list T)) : Prop := length M = m /\ Forall (fun row => length row = n) M.

(* in the row by row listing of the upper triangle of an n x n matrix, row i starts at
   position n + (n-1) + ... + (n-i+1), and entry (i, j), i <= j, comes j - i later *)
Definition row_start (n i : nat) : nat := list_sum (map (fun r => n - r) (seq 0 i)).
Definition upper_pos (n i j : nat) : nat := row_start n (min i j) + (max i j - min i j).
(* the symmetric matrix of an upper triangle *)
Definition is_symmetric_of {T} {N : Num T} (n : nat) (comps : list T) (M : list (list T)) : Prop :=
  gshaped n n M /\ forall i j, i < n -> j < n -> gent M i j = nth (upper_pos n i j) comps n0.

Section Reader.
Context {T P : Type} {N : Num T}.
Variable parse_int : string -> result Z.
Variable parse_float : string -> result T.
Variable se2_xy_theta : T -> T -> T -> P.
Variable se3_wxyz_xyz : list T -> P.
Variable se3_quat_trans : list T -> list T -> P.
Variable cholesky : list (list T) -> result (list (list T)).
Variable limit : Z.

(* what a line of the file says *)
Inductive item :=
| Vertex (k : pose_kind) (num : Z) (p : P)
| Edge (k : pose_kind) (a b : Z) (t : P) (w : list (list T))
| Ignored.

Definition floats (ss : list string) (xs : list T) : Prop := Forall2 (fun s x => parse_float s = Ok x) ss xs.

(* the square root of the information matrix given by its upper triangle: the transpose of a
   Cholesky factor *)
Definition sqrt_info (n : nat) (comps : list T) (w : list (list T)) : Prop :=
  exists M c, is_symmetric_of n comps M /\ cholesky M = Ok c /\ gshaped n n w /\
    forall i j, i < n -> j < n -> gent w i j = gent c j i.

Local Open Scope string_scope.
(* [reads n parts it]: a line made of these words says [it], [n] vertices having been kept before it *)
Inductive reads (n : nat) : list string -> item -> Prop :=
| r_v2 si sx sy st i x y t : (Z.of_nat n <= limit)%Z -> parse_int si = Ok i -> floats [sx; sy; st] [x; y; t] ->
    reads n ["VERTEX_SE2"; si; sx; sy; st] (Vertex SE2 i (se2_xy_theta x y t))
| r_v2_beyond args : (limit < Z.of_nat n)%Z -> reads n ("VERTEX_SE2" :: args) Ignored
| r_e2 sa sb rest a b x y t comps w : parse_int sa = Ok a -> parse_int sb = Ok b -> (a <= limit)%Z -> (b <= limit)%Z ->
    floats rest (x :: y :: t :: comps) -> List.length comps = 6 -> sqrt_info 3 comps w ->
    reads n ("EDGE_SE2" :: sa :: sb :: rest) (Edge SE2 a b (se2_xy_theta x y t) w)
| r_e2_one sa sb rest a b x y t c w : parse_int sa = Ok a -> parse_int sb = Ok b -> (a <= limit)%Z -> (b <= limit)%Z ->
    floats rest [x; y; t; c] -> sqrt_info 3 [c; c; c; c; c; c] w ->
    reads n ("EDGE_SE2" :: sa :: sb :: rest) (Edge SE2 a b (se2_xy_theta x y t) w)
| r_e2_beyond sa sb rest a b : parse_int sa = Ok a -> parse_int sb = Ok b -> (limit < a \/ limit < b)%Z ->
    reads n ("EDGE_SE2" :: sa :: sb :: rest) Ignored
| r_v3 si sx sy sz qx qy qz qw i x y z a b c d : parse_int si = Ok i ->
    floats [sx; sy; sz; qx; qy; qz; qw] [x; y; z; a; b; c; d] ->
    reads n ["VERTEX_SE3:QUAT"; si; sx; sy; sz; qx; qy; qz; qw] (Vertex SE3 i (se3_wxyz_xyz [d; a; b; c; x; y; z]))
| r_e3 sa sb rest a b x y z q0 q1 q2 q3 comps w : parse_int sa = Ok a -> parse_int sb = Ok b ->
    floats rest (x :: y :: z :: q0 :: q1 :: q2 :: q3 :: comps) -> List.length comps = 21 -> sqrt_info 6 comps w ->
    reads n ("EDGE_SE3:QUAT" :: sa :: sb :: rest) (Edge SE3 a b (se3_quat_trans [q0; q1; q2; q3] [x; y; z]) w).
Local Close Scope string_scope.

(* [builds vs fs lines]: the lines, read in order after the vertices [vs0], keep the further
   vertices [vs] and the edges [fs].  A vertex must be numbered by its position; an edge
   must name vertices already read, of its own kind. *)
Definition vertex_at (vs : list (pose_kind * P)) (k : pose_kind) (i : Z) (v : pvar) : Prop :=
  exists j p, nth_error vs j = Some (k, p) /\ v = mkPvar j k /\
    (i = Z.of_nat j \/ i = Z.of_nat j - Z.of_nat (List.length vs))%Z.

Inductive builds : list (pose_kind * P) -> list (list string) -> list (pose_kind * P) -> list (gfactor (T := T) (P := P)) -> Prop :=
| b_nil vs0 : builds vs0 [] [] []
| b_vertex vs0 parts lines k p vs fs : reads (List.length vs0) parts (Vertex k (Z.of_nat (List.length vs0)) p) ->
    builds (vs0 ++ [(k, p)]) lines vs fs -> builds vs0 (parts :: lines) ((k, p) :: vs) fs
| b_edge vs0 parts lines k a b t w va vb vs fs : reads (List.length vs0) parts (Edge k a b t w) ->
    vertex_at vs0 k a va -> vertex_at vs0 k b vb ->
    builds vs0 lines vs fs -> builds vs0 (parts :: lines) vs (GBetween va vb t w :: fs)
| b_ignored vs0 parts lines vs fs : reads (List.length vs0) parts Ignored ->
    builds vs0 lines vs fs -> builds vs0 (parts :: lines) vs fs.

(* the i-th kept vertex, as a variable with its initial pose *)
Definition numbered (vs : list (pose_kind * P)) : list (pvar * P) :=
  map (fun jkp => (mkPvar (fst jkp) (fst (snd jkp)), snd (snd jkp))) (combine (seq 0 (List.length vs)) vs).

(* the four known line types *)
Definition tags : list string := ["VERTEX_SE2"; "EDGE_SE2"; "VERTEX_SE3:QUAT"; "EDGE_SE3:QUAT"]%string.
(* a vertex line and the number it carries; an edge line and the numbers of its ends *)
Definition vertex_number (parts : list string) (i : Z) : Prop :=
  exists tag si args, parts = tag :: si :: args /\ parse_int si = Ok i /\ (tag = "VERTEX_SE2" \/ tag = "VERTEX_SE3:QUAT")%string.
Definition edge_ends (parts : list string) (k : pose_kind) (a b : Z) : Prop :=
  exists sa sb args, parts = (match k with SE2 => "EDGE_SE2" | SE3 => "EDGE_SE3:QUAT" end)%string :: sa :: sb :: args /\
    parse_int sa = Ok a /\ parse_int sb = Ok b.
Definition se2_vertices (lines : list (list string)) : nat :=
  List.length (filter (fun parts => match parts with t :: _ => String.eqb t "VERTEX_SE2" | [] => false end) lines).
End Reader.
Arguments Vertex {T P}. Arguments Edge {T P}. Arguments Ignored {T P}.

(* text: words are non-empty and contain no white space *)
Definition space : Ascii.ascii := Ascii.ascii_of_nat 32.
Definition newline : Ascii.ascii := Ascii.ascii_of_nat 10.
Definition tab : Ascii.ascii := Ascii.ascii_of_nat 9.
(* tab, line feed, vertical tab, form feed, carriage return, file/group/record/unit separator, blank *)
Definition white (c : Ascii.ascii) : Prop := In (Ascii.nat_of_ascii c) [9; 10; 11; 12; 13; 28; 29; 30; 31; 32].
Definition is_word (w : string) : Prop := w <> EmptyString /\ Forall (fun c => ~ white c) (list_ascii_of_string w).
Definition spaces (n : nat) : string := string_of_list_ascii (repeat space n).
(* words with one or more blanks between them *)
Fixpoint spaced (ws : list (string * nat)) : string :=
  match ws with
  | [] => EmptyString
  | [(w, _)] => w
  | (w, k) :: r => (w ++ spaces (S k) ++ spaced r)%string
  end.
Definition blank (s : string) : Prop := Forall (fun c => white c /\ c <> newline) (list_ascii_of_string s).
(* a line showing these words *)
Definition shows (l : string) (ws : list string) : Prop :=
  exists pre post seps, blank pre /\ blank post /\ Forall is_word ws /\ List.length seps = List.length ws /\
    l = (pre ++ spaced (combine ws seps) ++ post)%string.
Fixpoint unlines (ls : list string) : string :=
  match ls with
  | [] => EmptyString
  | l :: r => (l ++ String newline (unlines r))%string
  end.
