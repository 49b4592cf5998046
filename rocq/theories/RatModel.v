(** * Model of src/core/num/rat.rs and the Rational instances of src/core/num/traits.rs *)
From Verif Require Import Base IntModel.
Open Scope Z_scope.

(** rat.rs:11-15 struct Rational; the derived PartialEq/Eq is structural. *)
Record rat : Type := mkrat { numer : Z; denom : Z }.

Definition rat_eqb (a b : rat) : bool := (numer a =? numer b) && (denom a =? denom b).
(** derived Hash (int.rs:5, rat.rs:11): the values written to the hasher, field by field *)
Definition int_hash (a : Z) : list Z := [a].
Definition rat_hash (r : rat) : list Z := int_hash (numer r) ++ int_hash (denom r).

(** traits.rs:42-46 Rational::ZERO, 88-92 Rational::ONE *)
Definition rat_zero : rat := mkrat 0 1.
Definition rat_one : rat := mkrat 1 1.
(** traits.rs:48-51 is_zero, 94-102 is_one *)
Definition rat_is_zero (a : rat) : bool := int_is_zero (numer a).
Definition rat_is_one (a : rat) : bool := numer a =? denom a.

(** rat.rs:26-34 Rational::new *)
Definition rat_new (m : mode) (n d : Z) : res rat :=
  if int_is_zero d then Panic Explicit
  else
    g <- int_gcd m n d ;;
    sn <- int_mul m (int_sgn d) n ;;
    n' <- int_div m sn g ;;
    ad <- int_abs m d ;;
    d' <- int_div m ad g ;;
    Ok (mkrat n' d').

(** rat.rs:38-40 new_i64 is [new] after wrapping; rat.rs:44-46 new_int *)
Definition rat_new_int (i : Z) : rat := mkrat i 1.

(** rat.rs:48-54 pow *)
Definition rat_pow (m : mode) (r : rat) (e : Z) : res rat :=
  if int_is_neg e then
    e1 <- int_neg m e ;;
    n' <- int_pow m (denom r) e1 ;;
    e2 <- int_neg m e ;;
    d' <- int_pow m (numer r) e2 ;;
    Ok (mkrat n' d')
  else
    n' <- int_pow m (numer r) e ;;
    d' <- int_pow m (denom r) e ;;
    Ok (mkrat n' d').

(** rat.rs:57-59 powi (i32 exponent widened to i64) *)
Definition rat_powi (m : mode) (r : rat) (e : Z) : res rat := rat_pow m r e.

(** rat.rs:62-64 sgn *)
Definition rat_sgn (r : rat) : Z := int_sgn (numer r).

(** rat.rs:66-68 recip *)
Definition rat_recip (m : mode) (r : rat) : res rat :=
  n' <- int_mul m (rat_sgn r) (denom r) ;;
  d' <- int_mul m (rat_sgn r) (numer r) ;;
  Ok (mkrat n' d').

(** rat.rs:78-90 Add *)
Definition rat_add (m : mode) (a b : rat) : res rat :=
  x <- int_mul m (numer a) (denom b) ;;
  y <- int_mul m (numer b) (denom a) ;;
  n <- int_add m x y ;;
  if int_is_zero n then Ok rat_zero
  else d <- int_mul m (denom a) (denom b) ;; Ok (mkrat n d).

(** rat.rs:98-110 Sub *)
Definition rat_sub (m : mode) (a b : rat) : res rat :=
  x <- int_mul m (numer a) (denom b) ;;
  y <- int_mul m (numer b) (denom a) ;;
  n <- int_sub m x y ;;
  if int_is_zero n then Ok rat_zero
  else d <- int_mul m (denom a) (denom b) ;; Ok (mkrat n d).

(** rat.rs:112-119 Neg *)
Definition rat_neg (m : mode) (a : rat) : res rat :=
  n <- int_neg m (numer a) ;; Ok (mkrat n (denom a)).

(** rat.rs:121-127 Mul *)
Definition rat_mul (m : mode) (a b : rat) : res rat :=
  n <- int_mul m (numer a) (numer b) ;;
  d <- int_mul m (denom a) (denom b) ;;
  rat_new m n d.

(** rat.rs:135-141 Div *)
Definition rat_div (m : mode) (a b : rat) : res rat :=
  n <- int_mul m (numer a) (denom b) ;;
  d <- int_mul m (denom a) (numer b) ;;
  rat_new m n d.

(** rat.rs:92-96 Sum, 129-133 Product: Iterator::reduce over a lazy iterator *)
Definition rat_sum (m : mode) (l : list (res rat)) : res rat :=
  o <- reduce_iter (rat_add m) l ;;
  Ok (match o with Some r => r | None => rat_zero end).
Definition rat_product (m : mode) (l : list (res rat)) : res rat :=
  o <- reduce_iter (rat_mul m) l ;;
  Ok (match o with Some r => r | None => rat_one end).

(** rat.rs:148-162 the assignment operators: [*self = self.op(other)] *)
Definition rat_add_assign (m : mode) (self other : rat) : res rat := rat_add m self other.
Definition rat_sub_assign (m : mode) (self other : rat) : res rat := rat_sub m self other.
Definition rat_mul_assign (m : mode) (self other : rat) : res rat := rat_mul m self other.
Definition rat_div_assign (m : mode) (self other : rat) : res rat := rat_div m self other.

(** traits.rs:233-237 Ord::cmp (227-231 partial_cmp wraps it in Some) *)
Definition rat_cmp (m : mode) (a b : rat) : res comparison :=
  x <- int_mul m (numer a) (denom b) ;;
  y <- int_mul m (numer b) (denom a) ;;
  Ok (x ?= y).
Definition rat_partial_cmp (m : mode) (a b : rat) : res (option comparison) :=
  c <- rat_cmp m a b ;; Ok (Some c).

(** traits.rs:175-179 EpsilonEquality for Rational: structural == *)
Definition rat_epsilon_equals (a b : rat) : bool := rat_eqb a b.

(** traits.rs:214-225 StabilityCmp for Rational: note the swapped operands in the
    last branch.  Integer's derived partial_cmp is total. *)
Definition rat_stability_cmp (m : mode) (a b : rat) : res (option comparison) :=
  if rat_eqb a rat_zero then Ok (Some Lt)
  else if rat_eqb b rat_zero then Ok (Some Gt)
  else
    on <- int_abs m (numer b) ;;
    od <- int_abs m (denom b) ;;
    so <- int_add m on od ;;
    sn <- int_abs m (numer a) ;;
    sd <- int_abs m (denom a) ;;
    ss <- int_add m sn sd ;;
    Ok (Some (so ?= ss)).
