(* Model of scripts/_g2o_utils.py *)
From Coq Require Import Arith Bool ZArith String List.
From Verif Require Import Num Py Arr.
Import ListNotations.
Local Open Scope string_scope.
Local Open Scope list_scope.

(* ----- the text (:22-23, :31) ----- *)
(* str.strip()'s white space, restricted to ASCII *)
Definition is_space (c : Ascii.ascii) : bool :=
  let n := Ascii.nat_of_ascii c in
  (Nat.leb 9 n && Nat.leb n 13) || (Nat.leb 28 n && Nat.leb n 32).
Fixpoint lstrip (s : list Ascii.ascii) : list Ascii.ascii :=
  match s with
  | [] => []
  | c :: r => if is_space c then lstrip r else s
  end.
Definition strip (s : list Ascii.ascii) : list Ascii.ascii := rev (lstrip (rev (lstrip s))).
(* s.split(d), and keeping the separator at the end of each piece (readlines; the text has
   universal newlines, so only "\n" ends a line and the last piece is dropped when empty) *)
Fixpoint split_on (d : Ascii.ascii) (s : list Ascii.ascii) : list (list Ascii.ascii) :=
  match s with
  | [] => [[]]
  | c :: r => if Ascii.eqb c d then [] :: split_on d r
              else match split_on d r with
                   | w :: ws => (c :: w) :: ws
                   | [] => [[c]]
                   end
  end.
Fixpoint readlines (s : list Ascii.ascii) : list (list Ascii.ascii) :=
  match s with
  | [] => []
  | c :: r => if Ascii.eqb c (Ascii.ascii_of_nat 10) then [c] :: readlines r
              else match readlines r with
                   | l :: ls => (c :: l) :: ls
                   | [] => [[c]]
                   end
  end.
Definition nonempty (w : list Ascii.ascii) : bool := match w with [] => false | _ => true end.
(* :23 and :31 on one line *)
Definition words (line : list Ascii.ascii) : list string :=
  map string_of_list_ascii (filter nonempty (split_on (Ascii.ascii_of_nat 32) (strip line))).

Inductive pose_kind := SE2 | SE3.
Definition kind_eqb (a b : pose_kind) : bool :=
  match a, b with SE2, SE2 | SE3, SE3 => true | _, _ => false end.

Section Model.
Context {T P : Type} {N : Num T}.
(* library functions: int(), float(), the jaxlie constructors, onp.linalg.cholesky *)
Variable parse_int : string -> result Z.
Variable parse_float : string -> result T.
Variable se2_xy_theta : T -> T -> T -> P.
Variable se3_wxyz_xyz : list T -> P.
Variable se3_quat_trans : list T -> list T -> P.
Variable cholesky : list (list T) -> result (list (list T)).

(* a pose variable is identified by its creation number *)
Record pvar := mkPvar { pv_id : nat; pv_kind : pose_kind }.

Inductive gfactor :=
| GBetween (a b : pvar) (t : P) (w : list (list T))       (* BetweenFactor, Gaussian(w) *)
| GPrior (v : pvar) (mu : P) (d : list T).                (* PriorFactor, DiagonalGaussian(d) *)

(* pose_variables / initial_poses (insertion-ordered, same keys) / factors *)
Record pstate := mkP { p_vars : list pvar; p_poses : list (pvar * P); p_factors : list gfactor }.

(* onp.zeros((n,n)); m[triu_indices(n)] = comps : triu_indices enumerates (i,j), i<=j, row
   by row; a length-1 right-hand side is broadcast, any other mismatch raises *)
Definition triu (n : nat) : list (nat * nat) :=
  flat_map (fun i => map (fun j => (i, j)) (seq i (n - i))) (seq 0 n).
Definition set_entry (m : list (list T)) (ij : nat * nat) (x : T) : list (list T) :=
  map (fun ir => if Nat.eqb (fst ir) (fst ij)
                 then map (fun jx => if Nat.eqb (fst jx) (snd ij) then x else snd jx)
                          (combine (seq 0 (length (snd ir))) (snd ir))
                 else snd ir)
      (combine (seq 0 (length m)) m).
Definition set_triu (n : nat) (m : list (list T)) (comps : list T) : result (list (list T)) :=
  let pos := triu n in
  let comps' := match comps with [x] => repeat x (length pos) | _ => comps end in
  if Nat.eqb (length comps') (length pos)
  then Ok (fold_left (fun m px => set_entry m (fst px) (snd px)) (combine pos comps') m)
  else Err ValueError.
Definition transpose_sq (n : nat) (m : list (list T)) : list (list T) :=
  map (fun j => map (fun i => nth j (nth i m []) n0) (seq 0 n)) (seq 0 n).

(* :59-63, :105-108 *)
Definition read_precision (n : nat) (comps : list T) : result (list (list T)) :=
  m1 <- set_triu n (repeat (repeat n0 n) n) comps ;;
  set_triu n (transpose_sq n m1) comps.

(* :64, :110 *)
Definition sqrt_precision (n : nat) (comps : list T) : result (list (list T)) :=
  m <- read_precision n comps ;;
  c <- cholesky m ;;
  Ok (transpose_sq n c).

(* pose_variables[i] with Python's negative indices *)
Definition py_index {A} (l : list A) (i : Z) : result A :=
  let k := if Z.ltb i 0 then (i + Z.of_nat (List.length l))%Z else i in
  if Z.ltb k 0 then Err IndexError
  else match nth_error l (Z.to_nat k) with Some x => Ok x | None => Err IndexError end.

(* BetweenFactor.make, jaxfg/geometry/_factors.py:80-97 *)
Definition between_make (a b : pvar) (k : pose_kind) (t : P) (w : list (list T)) : result gfactor :=
  _ <- assert_ (kind_eqb (pv_kind a) (pv_kind b)) ;;
  _ <- assert_ (kind_eqb (pv_kind a) k) ;;
  Ok (GBetween a b t w).

Definition add_pose (s : pstate) (k : pose_kind) (p : P) : pstate :=
  let v := mkPvar (List.length (p_vars s)) k in
  mkP (p_vars s ++ [v]) (p_poses s ++ [(v, p)]) (p_factors s).
Definition add_factor (s : pstate) (f : gfactor) : pstate :=
  mkP (p_vars s) (p_poses s) (p_factors s ++ [f]).

(* :30-123, body of the loop on one line, already split into parts (:31).  In the SE(2)
   edge the evaluation order is: offset, precision, noise arguments, then the lookups of
   the variables; all of them raise, so only the kind of the exception depends on it. *)
Definition parse_line (limit : Z) (s : pstate) (parts : list string) : result pstate :=
  match parts with
  | [] => Err IndexError                                                   (* parts[0] *)
  | tag :: args =>
      if String.eqb tag "VERTEX_SE2" then                                  (* :36-47 *)
        if Z.ltb limit (Z.of_nat (List.length (p_vars s))) then Ok s
        else match args with
             | [si; sx; sy; st] =>
                 i <- parse_int si ;;
                 x <- parse_float sx ;; y <- parse_float sy ;; t <- parse_float st ;;
                 _ <- assert_ (Z.eqb (Z.of_nat (List.length (p_poses s))) i) ;;
                 Ok (add_pose s SE2 (se2_xy_theta x y t))
             | _ => Err ValueError
             end
      else if String.eqb tag "EDGE_SE2" then                               (* :49-75 *)
        match args with
        | sa :: sb :: rest =>
            ia <- parse_int sa ;; ib <- parse_int sb ;;
            if Z.ltb limit ia || Z.ltb limit ib then Ok s
            else
              txy <- traverse parse_float (firstn 3 rest) ;;
              match txy with
              | [x; y; t] =>
                  comps <- traverse parse_float (skipn 3 rest) ;;
                  w <- sqrt_precision 3 comps ;;
                  a <- py_index (p_vars s) ia ;;
                  b <- py_index (p_vars s) ib ;;
                  f <- between_make a b SE2 (se2_xy_theta x y t) w ;;
                  Ok (add_factor s f)
              | _ => Err TypeError
              end
        | _ => Err IndexError
        end
      else if String.eqb tag "VERTEX_SE3:QUAT" then                        (* :77-86 *)
        match args with
        | [si; sx; sy; sz; sqx; sqy; sqz; sqw] =>
            i <- parse_int si ;;
            _ <- assert_ (Z.eqb (Z.of_nat (List.length (p_poses s))) i) ;;
            fs <- traverse parse_float [sqw; sqx; sqy; sqz; sx; sy; sz] ;;
            Ok (add_pose s SE3 (se3_wxyz_xyz fs))
        | _ => Err ValueError
        end
      else if String.eqb tag "EDGE_SE3:QUAT" then                          (* :88-121 *)
        match args with
        | sa :: sb :: rest =>
            ia <- parse_int sa ;; ib <- parse_int sb ;;
            fs <- traverse parse_float rest ;;
            _ <- assert_ (Nat.eqb (List.length fs) 28) ;;
            w <- sqrt_precision 6 (skipn 7 fs) ;;
            a <- py_index (p_vars s) ia ;;
            b <- py_index (p_vars s) ib ;;
            f <- between_make a b SE3 (se3_quat_trans (firstn 4 (skipn 3 fs)) (firstn 3 fs)) w ;;
            Ok (add_factor s f)
        | _ => Err IndexError
        end
      else Err AssertionError                                              (* :122-123 *)
  end.

Definition tangent_dim (k : pose_kind) : nat := match k with SE2 => 3 | SE3 => 6 end.

(* :19-136 parse_g2o; the result is (factors, initial_poses) *)
Definition parse_g2o (limit : Z) (lines : list (list string)) : result (list gfactor * list (pvar * P)) :=
  s <- foldM (parse_line limit) lines (mkP [] [] []) ;;
  match p_poses s with
  | [] => Err IndexError
  | (v, mu) :: _ =>
      Ok (p_factors s ++ [GPrior v mu (map (fun _ => nmul n1 (nlit 100 1)) (seq 0 (tangent_dim (pv_kind v))))],
          p_poses s)
  end.

(* the whole function, from the text of the file *)
Definition parse_text (limit : Z) (text : string) : result (list gfactor * list (pvar * P)) :=
  parse_g2o limit (map words (readlines (list_ascii_of_string text))).
End Model.
