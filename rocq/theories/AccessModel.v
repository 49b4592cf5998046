(** * The mutable accessors degs_mut and terms_mut, and Zero and One for the primitive integer types *)
From Coq Require Import ZArith.
From Verif Require Import Base FieldIface MDegModel PolyModel.
Local Open Scope nat_scope.

(** ** poly/mdeg.rs:78-92 degs, degs_mut; poly/elts.rs:200-214 terms, terms_mut

    degs and terms hand out the entries of the vector in order: the models of the functions using them work on the list itself.
    A user of degs_mut or terms_mut writes to some of the entries, one after the other; the length cannot change. *)
Definition degs (d : mdeg) : list nat := d.
(** *d.degs_mut().nth(i).unwrap() = x *)
Definition write_deg (d : mdeg) (i x : nat) : res mdeg := if i <? length d then Ok (list_set d i x) else Panic UnwrapNone.
Section Terms.
Context {F : FieldImpl}.
Definition terms (p : poly F) : list (term F) := p.
(** *p.terms_mut().nth(i).unwrap() = t *)
Definition write_term (p : poly F) (i : nat) (t : term F) : res (poly F) :=
  if i <? length p then Ok (list_set p i t) else Panic UnwrapNone.
(** for t in p.terms_mut() { t.coef = f(t.coef) } *)
Definition map_coefs (f : F -> res F) (p : poly F) : res (poly F) := mapM (fun t => c <- f (coef t) ;; Ok (mkterm c (tdeg t))) p.
End Terms.

(** ** core/num/traits.rs:15-31, 61-77: Zero and One for the primitive integer types *)
Local Open Scope Z_scope.
Record prim := mkprim { pmin : Z; pmax : Z }.
Definition unsigned (bits : Z) : prim := mkprim 0 (2 ^ bits - 1).
Definition signed (bits : Z) : prim := mkprim (- 2 ^ (bits - 1)) (2 ^ (bits - 1) - 1).
(** usize u8 u16 u32 u64 u128 isize i8 i16 i32 i64 i128, with 64-bit usize and isize *)
Definition prims : list prim := map unsigned [64; 8; 16; 32; 64; 128] ++ map signed [64; 8; 16; 32; 64; 128].
Section Prim.
Context (p : prim).
(** const ZERO: Self = 0 as Self; const ONE: Self = 1 as Self *)
Definition prim_zero : Z := 0.
Definition prim_one : Z := 1.
Definition prim_is_zero (x : Z) : bool := x =? prim_zero.
Definition prim_is_one (x : Z) : bool := x =? prim_one.
(** + and * of the type: checked with overflow checks, modulo 2^bits without *)
Definition prim_fit (m : mode) (z : Z) : res Z :=
  if (pmin p <=? z) && (z <=? pmax p) then Ok z
  else match m with Debug => Panic Overflow | Release => Ok ((z - pmin p) mod (pmax p - pmin p + 1) + pmin p) end.
Definition prim_add m x y := prim_fit m (x + y).
Definition prim_mul m x y := prim_fit m (x * y).
End Prim.
