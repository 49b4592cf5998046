(** * Base: how a run of the Rust program is represented.

    A Rust function becomes a Gallina function into [res].  A panic is an
    explicit value carrying its kind; a loop without a syntactic bound recurses
    on explicit fuel and yields [NoFuel] when it is exhausted, which is never
    confused with a normal result. *)
From Coq Require Export List ZArith Lia Bool Arith.
Export ListNotations.

(** Why a Rust program stops with a panic. *)
Inductive panic : Type :=
| Overflow     (* arithmetic overflow, "attempt to ... with overflow" *)
| DivZero      (* division or remainder by zero *)
| IndexOOB     (* slice/Vec index out of bounds *)
| UnwrapNone   (* Option::unwrap / expect on None *)
| Explicit.    (* panic!(..) written in the crate *)

Inductive res (A : Type) : Type :=
| Ok (a : A)
| Panic (k : panic)
| NoFuel.
Arguments Ok {A} a.
Arguments Panic {A} k.
Arguments NoFuel {A}.

Definition bind {A B : Type} (x : res A) (f : A -> res B) : res B :=
  match x with
  | Ok a => f a
  | Panic k => Panic k
  | NoFuel => NoFuel
  end.

Notation "x <- e ;; k" := (bind e (fun x => k))
  (at level 61, e at next level, right associativity).
Notation "' p <- e ;; k" := (bind e (fun p => k))
  (at level 61, p pattern, e at next level, right associativity).

(** Build profile: [Debug] has overflow checks (cargo's dev and test profiles),
    [Release] wraps. *)
Inductive mode : Type := Debug | Release.

(** Iterator::map(..).collect() with a fallible closure: left to right, first
    failure wins. *)
Fixpoint mapM {A B : Type} (f : A -> res B) (l : list A) : res (list B) :=
  match l with
  | [] => Ok []
  | x :: xs => y <- f x ;; ys <- mapM f xs ;; Ok (y :: ys)
  end.

(** Iterator::fold / a for loop over a sequence with mutable state. *)
Fixpoint foldM {A S : Type} (f : S -> A -> res S) (l : list A) (s : S) : res S :=
  match l with
  | [] => Ok s
  | x :: xs => s' <- f s x ;; foldM f xs s'
  end.

(** Iterator::reduce over a lazily evaluated iterator: each item is a delayed
    computation, forced just before it is combined. *)
Definition reduce_iter {A : Type} (f : A -> A -> res A) (l : list (res A)) : res (option A) :=
  match l with
  | [] => Ok None
  | x :: xs =>
      a <- x ;;
      r <- foldM (fun acc y => b <- y ;; f acc b) xs a ;;
      Ok (Some r)
  end.

(** Option::unwrap *)
Definition unwrap {A : Type} (o : option A) : res A :=
  match o with Some a => Ok a | None => Panic UnwrapNone end.

(** Vec / slice indexing and indexed assignment with the bounds check. *)
Definition vget {A : Type} (l : list A) (i : nat) : res A :=
  match nth_error l i with Some a => Ok a | None => Panic IndexOOB end.

Fixpoint list_set {A : Type} (l : list A) (i : nat) (a : A) : list A :=
  match l, i with
  | [], _ => []
  | _ :: xs, O => a :: xs
  | x :: xs, S j => x :: list_set xs j a
  end.

Definition vset {A : Type} (l : list A) (i : nat) (a : A) : res (list A) :=
  if i <? length l then Ok (list_set l i a) else Panic IndexOOB.

(** Vec::remove (the removed element is [nth i l]). *)
Fixpoint list_remove {A : Type} (l : list A) (i : nat) : list A :=
  match l, i with
  | [], _ => []
  | _ :: xs, O => xs
  | x :: xs, S j => x :: list_remove xs j
  end.

(** Iterator::position *)
Fixpoint position {A : Type} (p : A -> bool) (l : list A) : option nat :=
  match l with
  | [] => None
  | x :: xs => if p x then Some O else option_map S (position p xs)
  end.

(** Iterator::rposition *)
Fixpoint rposition {A : Type} (p : A -> bool) (l : list A) : option nat :=
  match l with
  | [] => None
  | x :: xs =>
      match rposition p xs with
      | Some i => Some (S i)
      | None => if p x then Some O else None
      end
  end.

(** itertools::zip_longest *)
Inductive either_or_both (A : Type) : Type :=
| Both (a b : A)
| Left (a : A)
| Right (b : A).
Arguments Both {A} a b.
Arguments Left {A} a.
Arguments Right {A} b.

Fixpoint zip_longest {A : Type} (l1 l2 : list A) : list (either_or_both A) :=
  match l1 with
  | [] => map Right l2
  | a :: l1' =>
      match l2 with
      | [] => Left a :: zip_longest l1' []
      | b :: l2' => Both a b :: zip_longest l1' l2'
      end
  end.

(** Iterator::max_by: a left fold keeping the later element unless the
    comparison says the current best is strictly greater. *)
Definition max_by {A : Type} (cmp : A -> A -> res comparison) (l : list A) : res (option A) :=
  match l with
  | [] => Ok None
  | x :: xs =>
      r <- foldM (fun best y => c <- cmp best y ;;
                     Ok (match c with Gt => best | _ => y end)) xs x ;;
      Ok (Some r)
  end.

(** slice::sort_by / Itertools::sorted_by: a stable ascending sort.  Modelled by
    insertion sort from the right; for a total order every stable sort gives the
    same list. *)
Fixpoint insert_by {A : Type} (cmp : A -> A -> res comparison) (x : A) (l : list A) : res (list A) :=
  match l with
  | [] => Ok [x]
  | y :: ys =>
      c <- cmp x y ;;
      match c with
      | Gt => zs <- insert_by cmp x ys ;; Ok (y :: zs)
      | _ => Ok (x :: y :: ys)
      end
  end.

Fixpoint sort_by {A : Type} (cmp : A -> A -> res comparison) (l : list A) : res (list A) :=
  match l with
  | [] => Ok []
  | x :: xs => s <- sort_by cmp xs ;; insert_by cmp x s
  end.

(** Iterator::cartesian_product of two ranges / lists. *)
Definition cartesian {A B : Type} (l1 : list A) (l2 : list B) : list (A * B) :=
  flat_map (fun a => map (fun b => (a, b)) l2) l1.

(** ** Reasoning about outcomes (used in statements and proofs). *)

(** [safe x Q]: the run [x] either overflows or returns a value satisfying [Q];
    it never panics for any other reason and never runs out of fuel. *)
Definition safe {A : Type} (x : res A) (Q : A -> Prop) : Prop :=
  match x with
  | Ok a => Q a
  | Panic Overflow => True
  | _ => False
  end.

(** [evs g Q]: the fuelled run [g] terminates: from some fuel on the outcome is
    a constant [r], which is [safe]. *)
Definition evs {A : Type} (g : nat -> res A) (Q : A -> Prop) : Prop :=
  exists (N : nat) (r : res A), (forall n, N <= n -> g n = r) /\ safe r Q.
