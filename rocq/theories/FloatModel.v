(** * f32 and f64 as field types: src/core/num/traits.rs:31, 77, 138-153, 161-173, 195-207.

    The Rust primitives f32 and f64 are IEEE 754 binary32 and binary64 with round to nearest even.  They are
    modelled by the executable specification of the standard library (Coq.Floats.SpecFloat, which is
    plain definitions over Z and adds no axiom).  Simplifications:
    - there is one NaN, without sign and payload; nothing modelled here looks at either;
    - f64::powi has unspecified precision and f64's Sum starts from 0.0 or -0.0 depending on the
      version of the standard library, so both are parameters (record [fenv]) and every theorem
      holds for all choices. *)
From Verif Require Import Base FieldIface.
From Coq Require Export Floats.SpecFloat.

(** a value of the type; only the [valid_binary] ones exist in Rust *)
Notation float := spec_float.
Record fmt : Type := mkfmt { prec : Z; emax : Z }.
Definition binary32 : fmt := mkfmt 24 128.
Definition binary64 : fmt := mkfmt 53 1024.
Definition valid (t : fmt) (x : float) : Prop := valid_binary (prec t) (emax t) x = true.
Definition finite (x : float) : bool :=
  match x with S754_zero _ | S754_finite _ _ _ => true | _ => false end.

(** what the standard library leaves open *)
Record fenv : Type := mkenv { powi : float -> Z -> float; sum_neg_zero : bool }.

(** integer literals, "0 as Self" and "1 as Self" *)
Definition fzero : float := S754_zero false.
Definition fone (t : fmt) : float := SFone (prec t) (emax t).

(** traits.rs:142-147 powi32 = powi, inv = recip; std: recip(x) = 1.0 / x; Sum folds + from the start
    value *)
Definition float_sum (t : fmt) (e : fenv) (l : list (res float)) : res float :=
  foldM (fun acc r => x <- r ;; Ok (SFadd (prec t) (emax t) acc x)) l (S754_zero (sum_neg_zero e)).
Definition float_impl (t : fmt) (e : fenv) : FieldImpl := {|
  fcar := float;
  f0 := fzero;
  f1 := fone t;
  feqb := SFeqb;
  fadd := fun x y => Ok (SFadd (prec t) (emax t) x y);
  fsub := fun x y => Ok (SFsub (prec t) (emax t) x y);
  fneg := fun x => Ok (SFopp x);
  fmul := fun x y => Ok (SFmul (prec t) (emax t) x y);
  fdiv := fun x y => Ok (SFdiv (prec t) (emax t) x y);
  finv := fun x => Ok (SFdiv (prec t) (emax t) (fone t) x);
  fpowi32 := fun x n => Ok (powi e x n);
  fsum := float_sum t e
|}.

(** f32::EPSILON = 2^-23, f64::EPSILON = 2^-52: the distance from 1 to the next value *)
Definition fepsilon (t : fmt) : float := S754_finite false (Z.to_pos (2 ^ (prec t - 1))) (2 - 2 * prec t).
(** traits.rs:165-167 epsilon_equals *)
Definition float_epsilon_equals (t : fmt) (x y : float) : bool :=
  SFltb (SFabs (SFsub (prec t) (emax t) x y)) (fepsilon t).
(** traits.rs:199-201 stability_cmp *)
Definition float_stability_cmp (x y : float) : option comparison := SFcompare (SFabs x) (SFabs y).

Definition float_stab (t : fmt) (e : fenv) : StabImpl (float_impl t e) := {|
  feps := float_epsilon_equals t : float_impl t e -> float_impl t e -> bool;
  fstab := fun x y : float_impl t e => Ok (float_stability_cmp x y);
  fpcmp := fun x y : float_impl t e => Ok (SFcompare x y)
|}.
