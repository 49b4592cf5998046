(** * Model of src/poly/ord.rs: monomial orders. *)
From Verif Require Import Base MDegModel.

(** ord.rs:10-12 trait MonomialOrder: a comparison that may panic *)
Definition ord_impl := mdeg -> mdeg -> res comparison.

(** ord.rs:21-46 Lex::cmp: two iterators advanced in lock step *)
Fixpoint lex_loop (a b : mdeg) : comparison :=
  match a, b with
  | [], [] => Eq
  | [], _ :: _ => Lt
  | _ :: _, [] => Gt
  | x :: a', y :: b' =>
      match x ?= y with
      | Eq => lex_loop a' b'
      | lt_or_gt => lt_or_gt
      end
  end.
Definition lex_cmp : ord_impl := fun a b => Ok (lex_loop a b).

(** ord.rs:55-70 RevLex::cmp: lengths first, then entries from the right *)
Fixpoint first_diff (ps : list (nat * nat)) : comparison :=
  match ps with
  | [] => Eq
  | (x, y) :: ps' =>
      match x ?= y with
      | Eq => first_diff ps'
      | lt_or_gt => lt_or_gt
      end
  end.
Definition revlex_loop (a b : mdeg) : comparison :=
  match mdeg_len a ?= mdeg_len b with
  | Eq => first_diff (rev (combine a b))
  | lt_or_gt => lt_or_gt
  end.
Definition revlex_cmp : ord_impl := fun a b => Ok (revlex_loop a b).

(** ord.rs:80-82 grad *)
Definition grad (m : mode) : ord_impl := fun a b =>
  ta <- mdeg_total_deg m a ;;
  tb <- mdeg_total_deg m b ;;
  Ok (ta ?= tb).

(** ord.rs:89-96 GrLex::cmp *)
Definition grlex_cmp (m : mode) : ord_impl := fun a b =>
  g <- grad m a b ;;
  match g with
  | Eq => lex_cmp a b
  | lt_or_gt => Ok lt_or_gt
  end.

(** ord.rs:104-111 GRevLex::cmp (Ordering::reverse = CompOpp) *)
Definition grevlex_cmp (m : mode) : ord_impl := fun a b =>
  g <- grad m a b ;;
  match g with
  | Eq => c <- revlex_cmp a b ;; Ok (CompOpp c)
  | lt_or_gt => Ok lt_or_gt
  end.
