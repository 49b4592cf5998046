(** * Model of src/poly/elts.rs: Term and Polynomial over a generic Field.

    The owned/borrowed variants generated by [#[binop(derefs)]] all forward to the
    [&]-version modelled here; [commute] generates the version with swapped operands. *)
From Verif Require Import Base FieldIface MDegModel.

Section Poly.
Context (m : mode) {F : FieldImpl}.

(** elts.rs:11-14 struct Term, 18-21 struct Polynomial (a Vec of terms) *)
Record term : Type := mkterm { coef : F; tdeg : mdeg }.
Definition poly : Type := list term.

(** elts.rs:39-45 Term::new *)
Definition term_zero : term := mkterm f0 mdeg_zero.        (* elts.rs:54-62 *)
Definition term_one : term := mkterm f1 mdeg_zero.         (* elts.rs:72-74 *)
Definition term_is_zero (t : term) : bool := feqb (coef t) f0.   (* elts.rs:66-68 *)
Definition term_new (c : F) (d : mdeg) : term :=
  if feqb c f0 then term_zero else mkterm c d.
(** elts.rs:54-56 constant_unchecked, 235-240 From<F> for Term<F> *)
Definition term_constant (c : F) : term := mkterm c mdeg_zero.
(** elts.rs:79-81 monic *)
Definition term_monic (d : mdeg) : term := mkterm f1 d.
(** elts.rs:88-94 var *)
Definition term_var (idx deg : nat) : term :=
  if deg =? 0 then term_one else term_monic (mdeg_var idx deg).

(** elts.rs:102-115 Term::eval *)
Definition term_eval (t : term) (x : list F) : res F :=
  if length x <? mdeg_len (tdeg t) then Panic Explicit
  else foldM (fun acc (p : nat * F) =>
                let '(deg, val) := p in
                v <- fpowi32 val (Z.of_nat deg) ;; fmul acc v)
             (combine (tdeg t) x) (coef t).

(** elts.rs:117-119 divides *)
Definition term_divides (self other : term) : bool :=
  negb (term_is_zero self) && mdeg_is_succ (tdeg self) (tdeg other).

(** elts.rs:121-134 try_div; the coefficient quotient is computed first *)
Definition term_try_div (self other : term) : res (option term) :=
  if term_is_zero self then Ok (Some term_zero)
  else if term_is_zero other then Ok None
  else
    c <- fdiv (coef self) (coef other) ;;
    match mdeg_checked_sub (tdeg self) (tdeg other) with
    | None => Ok None
    | Some d => Ok (Some (mkterm c d))
    end.

(** elts.rs:154-156 Polynomial::new *)
Definition poly_new (ts : list term) : poly := filter (fun t => negb (term_is_zero t)) ts.
(** elts.rs:162-164 zero, 168-170 is_zero *)
Definition poly_zero : poly := [].
Definition poly_is_zero (p : poly) : bool := match p with [] => true | _ => false end.
(** elts.rs:176-198 term_unchecked, constant_unchecked, var, one *)
Definition poly_term (t : term) : poly := [t].
Definition poly_constant_unchecked (c : F) : poly := poly_term (term_constant c).
Definition poly_var (idx deg : nat) : poly := poly_term (term_var idx deg).
Definition poly_one : poly := poly_term term_one.
(** elts.rs:242-250 From<F> for Polynomial<F> *)
Definition poly_from_coef (c : F) : poly :=
  if feqb c f0 then poly_zero else poly_constant_unchecked c.
(** elts.rs:252-267 From<Term<F>>, From<&Term<F>> for Polynomial<F> *)
Definition poly_from_term (t : term) : poly :=
  if term_is_zero t then poly_zero else poly_term t.

(** elts.rs:223-225 Polynomial::eval: a lazy sum *)
Definition poly_eval (p : poly) (x : list F) : res F :=
  fsum (map (fun t => term_eval t x) p).

(** elts.rs:271-275 PartialEq for Term *)
Definition term_eqb (a b : term) : bool := feqb (coef a) (coef b) && mdeg_eqb (tdeg a) (tdeg b).

(** elts.rs:283-308 Term + Term *)
Definition term_add (a b : term) : res poly :=
  if term_is_zero a then Ok (poly_from_term b)
  else if term_is_zero b then Ok (poly_from_term a)
  else if mdeg_eqb (tdeg a) (tdeg b) then
    c <- fadd (coef a) (coef b) ;;
    Ok (poly_from_term (term_new c (tdeg a)))
  else Ok [a; b].

(** elts.rs:310-347 Polynomial + Term (and, commuted, Term + Polynomial) *)
Definition poly_add_term (p : poly) (t : term) : res poly :=
  if poly_is_zero p then Ok (poly_from_term t)
  else if term_is_zero t then Ok p
  else
    match position (fun s => mdeg_eqb (tdeg s) (tdeg t)) p with
    | Some i =>
        ti <- vget p i ;;
        c <- fadd (coef ti) (coef t) ;;
        let ti' := mkterm c (tdeg ti) in
        if term_is_zero ti' then Ok (list_remove p i) else Ok (list_set p i ti')
    | None => Ok (p ++ [t])
    end.
Definition term_add_poly (t : term) (p : poly) : res poly := poly_add_term p t.

(** elts.rs:349-360 Polynomial + Polynomial *)
Definition poly_add (p q : poly) : res poly := foldM poly_add_term q p.

(** elts.rs:364-379 -Term, 381-402 -Polynomial *)
Definition term_neg (t : term) : res term := c <- fneg (coef t) ;; Ok (mkterm c (tdeg t)).
Definition poly_neg (p : poly) : res poly := mapM term_neg p.

(** elts.rs:406-443 the four subtractions *)
Definition term_sub (a b : term) : res poly := nb <- term_neg b ;; term_add a nb.
Definition term_sub_poly (t : term) (p : poly) : res poly := np <- poly_neg p ;; term_add_poly t np.
Definition poly_sub_term (p : poly) (t : term) : res poly := nt <- term_neg t ;; poly_add_term p nt.
Definition poly_sub (p q : poly) : res poly := nq <- poly_neg q ;; poly_add p nq.

(** elts.rs:447-458 Term * Term *)
Definition term_mul (a b : term) : res term :=
  if term_is_zero a || term_is_zero b then Ok term_zero
  else
    c <- fmul (coef a) (coef b) ;;
    d <- mdeg_add m (tdeg a) (tdeg b) ;;
    Ok (mkterm c d).

(** elts.rs:470-486 Polynomial * Term (and, commuted, Term * Polynomial) *)
Definition poly_mul_term (p : poly) (t : term) : res poly :=
  if term_is_zero t || poly_is_zero p then Ok poly_zero
  else mapM (fun s => term_mul s t) p.
Definition term_mul_poly (t : term) (p : poly) : res poly := poly_mul_term p t.

(** elts.rs:460-468 Polynomial * F *)
Definition poly_scale (p : poly) (c : F) : res poly := poly_mul_term p (term_constant c).

(** elts.rs:488-499 Polynomial * Polynomial: lazy reduce *)
Definition poly_mul (p q : poly) : res poly :=
  o <- reduce_iter poly_add (map (fun t => term_mul_poly t q) p) ;;
  Ok (match o with Some r => r | None => poly_zero end).

(** elts.rs:503-512 Polynomial / F *)
Definition poly_div_scalar (p : poly) (c : F) : res poly := i <- finv c ;; poly_scale p i.

End Poly.
Arguments term F : clear implicits.
Arguments poly F : clear implicits.
