(** * Model of the derived Debug impls and of the alternate form of Mat's Display.

    Integer (core/num/int.rs:5), Rational (core/num/rat.rs:11), MultiDegree (poly/mdeg.rs:19), Term and
    Polynomial (poly/elts.rs:10, 17) and Mat (linalg/mat.rs:9) derive Debug.  A derived impl describes the value to
    one of the builders of core::fmt (DebugTuple, DebugStruct, DebugList); here the description is a tree, which
    [fmt] turns into text for the formats "{:?}" (alternate = false) and "{:#?}" (alternate = true).  Display of Mat
    (linalg/mat.rs:325-339) hands its formatter to DebugList, so that "{:#}" changes its output as well.
    A string is the list of its Unicode code points. *)
From Coq Require Import String Ascii.
From Verif Require Import Base BaseLemmas IntModel RatModel FieldIface MDegModel PolyModel MatModel DisplayModel.
Local Open Scope Z_scope.

Definition str (s : string) : chars := map (fun a => Z.of_N (N_of_ascii a)) (list_ascii_of_string s).

(** ** What a derived impl tells the formatter *)
Inductive dkind : Type := KTuple | KStruct | KList.
(** a number, or a value with a name (empty for lists) and fields; only the fields of a struct have names *)
Inductive dtree : Type :=
  | DAtom (s : chars)
  | DNode (k : dkind) (name : chars) (l : list (chars * dtree)).

(** core::fmt::builders::PadAdapter: four spaces at the beginning of every line *)
Fixpoint pad_from (start : bool) (s : chars) : chars :=
  match s with
  | [] => []
  | c :: s' => (if start then [32; 32; 32; 32] else []) ++ c :: pad_from (c =? 10) s'
  end.
Definition pad (s : chars) : chars := pad_from true s.

(** a field: name, colon and value for structs, the value for tuples and lists *)
Definition ditem (k : dkind) (name s : chars) : chars := match k with KStruct => name ++ str ": " ++ s | _ => s end.
(** the texts before the first and after the last field; a tuple struct or struct without fields, which would be only
    its name, does not occur *)
Definition dopen (alternate : bool) (k : dkind) (name : chars) : chars :=
  match k with KTuple => name ++ str "(" | KStruct => name ++ (if alternate then str " {" else str " { ") | KList => str "[" end.
Definition dclose (alternate : bool) (k : dkind) : chars :=
  match k with KTuple => str ")" | KStruct => if alternate then str "}" else str " }" | KList => str "]" end.
(** one field after the other: separated by comma and space, or each on lines of its own, indented and followed by a comma *)
Definition dbody (alternate : bool) (l : list chars) : chars :=
  if alternate then match l with [] => [] | _ => 10 :: concat (map (fun s => pad (s ++ [44; 10])) l) end else join l.
Fixpoint fmt (alternate : bool) (t : dtree) : chars :=
  match t with
  | DAtom s => s
  | DNode k name l => dopen alternate k name ++ dbody alternate (map (fun x => ditem k (fst x) (fmt alternate (snd x))) l) ++ dclose alternate k
  end.

(** ** The types of the crate *)
Definition dlist {A} (f : A -> dtree) (l : list A) : dtree := DNode KList [] (map (fun x => ([], f x)) l).
Definition nat_tree (n : nat) : dtree := DAtom (dec_string (Z.of_nat n)).
(** int.rs:5-6 *)
Definition int_tree (z : Z) : dtree := DNode KTuple (str "Integer") [([], DAtom (int_display z))].
(** rat.rs:11-15 *)
Definition rat_tree (r : rat) : dtree := DNode KStruct (str "Rational") [(str "numer", int_tree (numer r)); (str "denom", int_tree (denom r))].
(** mdeg.rs:19-20 *)
Definition mdeg_tree (v : mdeg) : dtree := DNode KTuple (str "MultiDegree") [([], dlist nat_tree v)].
Section Trees.
(** [ft] is the Debug impl of the coefficients *)
Context {F : FieldImpl} (ft : F -> dtree).
(** elts.rs:10-14 *)
Definition term_tree (t : term F) : dtree := DNode KStruct (str "Term") [(str "coef", ft (coef t)); (str "mdeg", mdeg_tree (tdeg t))].
(** elts.rs:17-21 *)
Definition poly_tree (p : poly F) : dtree := DNode KStruct (str "Polynomial") [(str "terms", dlist term_tree p)].
(** mat.rs:9-14 *)
Definition mat_tree (a : mat F) : dtree :=
  DNode KStruct (str "Mat") [(str "entries", dlist ft (ments a)); (str "rows", nat_tree (mrows a)); (str "cols", nat_tree (mcols a))].
(** mat.rs:326-338 *)
Definition mat_fmt (alternate : bool) (a : mat F) : res chars :=
  foldM (fun (acc : chars) (r : nat) =>
      row <- mat_row_slice a r ;;
      let acc := acc ++ fmt alternate (dlist ft row) in
      Ok (if negb (Nat.eqb r (mrows a - 1)) then acc ++ [10] else acc)) (seq 0 (mrows a)) [10].
(** the message of the panic of Term::eval and hence Polynomial::eval on too few arguments, elts.rs:103-109; the
    argument is a slice *)
Definition eval_message (x : list F) (t : term F) : chars :=
  str "incorrectly sized argument " ++ fmt false (dlist ft x) ++ str " passed to term " ++ fmt false (term_tree t).
End Trees.
