(** * Model of src/poly/display.rs, the Display impls of Integer and Rational, and the names in
    src/poly/macros.rs.

    A string is the list of its Unicode code points. *)
From Verif Require Import Base IntModel RatModel FieldIface MDegModel PolyModel.

Local Open Scope Z_scope.
Definition chars := list Z.

(** display.rs:27-41 superscript; the recursion is on n / 10, three levels are enough for an u8 *)
Definition superscript_digit (n : Z) : Z :=
  match n with
  | 0 => 8304 | 1 => 185 | 2 => 178 | 3 => 179 | 4 => 8308
  | 5 => 8309 | 6 => 8310 | 7 => 8311 | 8 => 8312 | _ => 8313
  end.
Fixpoint superscript_rec (fuel : nat) (n : Z) : res chars :=
  match fuel with
  | O => NoFuel
  | S fuel' =>
      if n <? 10 then Ok [superscript_digit n]
      else h <- superscript_rec fuel' (n / 10) ;; l <- superscript_rec fuel' (n mod 10) ;; Ok (h ++ l)
  end.
Definition superscript (n : nat) : res chars := superscript_rec 3 (Z.of_nat n).

(** core::fmt for integers: decimal, with a minus sign.  By contract of the standard library. *)
Fixpoint dec_rec (fuel : nat) (n : Z) : chars :=
  match fuel with
  | O => []
  | S fuel' => if n <? 10 then [48 + n] else dec_rec fuel' (n / 10) ++ [48 + n mod 10]
  end.
Definition dec_string (n : Z) : chars := dec_rec (S (Z.to_nat (Z.log2 n))) n.
(** int.rs:122-127 *)
Definition int_display (z : Z) : chars := if z <? 0 then 45 :: dec_string (- z) else dec_string z.

(** rat.rs:164-177 *)
Definition rat_display (r : rat) : chars :=
  if numer r =? 0 then [48]
  else if denom r =? 1 then int_display (numer r)
  else int_display (numer r) ++ 47 :: int_display (denom r).

(** display.rs:12-24 write_var *)
Definition write_var (v : mdeg) (idx : nat) (ident : Z) : res chars :=
  match nth_error v idx with
  | Some deg =>
      if Nat.eqb deg 1 then Ok [ident]
      else if negb (Nat.eqb deg 0) then s <- superscript deg ;; Ok (ident :: s)
      else Ok []
  | None => Ok []
  end.
(** the derived Debug of Vec<u8>: comma separated in brackets *)
Fixpoint join (l : list chars) : chars :=
  match l with [] => [] | [x] => x | x :: l' => x ++ 44 :: 32 :: join l' end.
Definition vec_debug (v : list nat) : chars := 91 :: join (map (fun d => dec_string (Z.of_nat d)) v) ++ [93].
(** display.rs:45-59 Display for MultiDegree *)
Definition mdeg_display (v : mdeg) : res chars :=
  if Nat.leb (mdeg_len v) 5 then
    x <- write_var v 0 120 ;; y <- write_var v 1 121 ;; z <- write_var v 2 122 ;;
    u <- write_var v 3 117 ;; v' <- write_var v 4 118 ;; w <- write_var v 5 119 ;;
    Ok (x ++ y ++ z ++ u ++ v' ++ w)
  else Ok (88 :: vec_debug v).

(** display.rs:61-73 Display for Term, given the Display of the coefficients *)
Definition term_display {F : FieldImpl} (show : F -> chars) (t : term F) : res chars :=
  if mdeg_is_zero (tdeg t) then Ok (show (coef t))
  else if feqb (coef t) f1 then mdeg_display (tdeg t)
  else
    m1 <- fneg f1 ;;
    if feqb (coef t) m1 then d <- mdeg_display (tdeg t) ;; Ok (45 :: d)
    else d <- mdeg_display (tdeg t) ;; Ok (show (coef t) ++ d).

(** display.rs:102-127 Display for Polynomial<Rational> *)
Definition rat_term_display (m : mode) (t : term (rat_impl m)) : res chars :=
  term_display (rat_display : rat_impl m -> chars) t.
Definition poly_display (m : mode) (p : poly (rat_impl m)) : res chars :=
  match p with
  | [] => Ok [48]
  | t :: rest =>
      s <- rat_term_display m t ;;
      foldM (fun (acc : chars) (t : term (rat_impl m)) =>
          if int_is_neg (numer (coef t : rat)) then
            c <- rat_neg m (coef t) ;;
            s <- rat_term_display m (mkterm (c : rat_impl m) (tdeg t)) ;;
            Ok (acc ++ 32 :: 45 :: 32 :: s)
          else
            s <- rat_term_display m t ;;
            Ok (acc ++ 32 :: 43 :: 32 :: s)) rest s
  end.

(** macros.rs:48-53 fn_vars: the index a variable name stands for *)
Inductive var_name := Vx | Vy | Vz | Vw | Vu | Vv.
Definition macro_idx (v : var_name) : nat :=
  match v with Vx => 0 | Vy => 1 | Vz => 2 | Vw => 3 | Vu => 4 | Vv => 5 end%nat.
Definition name_char (v : var_name) : Z :=
  match v with Vx => 120 | Vy => 121 | Vz => 122 | Vw => 119 | Vu => 117 | Vv => 118 end.
(** macros.rs:54-60: the function generated for a name *)
Definition macro_var (m : mode) (v : var_name) (deg : nat) : poly (rat_impl m) := poly_var (macro_idx v) deg.
