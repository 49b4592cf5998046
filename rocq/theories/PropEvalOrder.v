(** * C154: polynomials are evaluated term by term in the stored order

    Appending a term to the stored list adds its value on the right of what was there, after everything before it has been computed.  For
    rationals this fixes the stored result and the panic that surfaces, for floats the result bit for bit; neither is fixed by the value of
    the polynomial.  For floats the value of the zero polynomial is the start value of the library's Sum. *)
From Coq Require Import ZArith.
From Verif Require Import Base IntModel RatModel FieldIface MDegModel PolyModel FloatModel PropSum.
Import ListNotations.
Local Open Scope nat_scope.

Theorem C154_rational : forall m (p : poly (rat_impl m)) t x,
  poly_eval (F := rat_impl m) [] x = Ok (mkrat 0 1) /\ poly_eval (F := rat_impl m) [t] x = term_eval t x /\
  (p <> [] -> poly_eval (p ++ [t]) x = (s <- poly_eval p x ;; b <- term_eval t x ;; rat_add m s b)).
Proof.
  intros m p t x. destruct (C153_sum m) as (A & B & C). split; [exact A|]. split; [exact (B (term_eval t x))|].
  intros N. unfold poly_eval. rewrite map_app. apply C. destruct p; [congruence|discriminate].
Qed.
Theorem C154_float : forall f e (p : poly (float_impl f e)) t x,
  poly_eval (F := float_impl f e) [] x = Ok (S754_zero (sum_neg_zero e)) /\
  poly_eval (p ++ [t]) x = (s <- poly_eval p x ;; b <- term_eval t x ;; Ok (SFadd (prec f) (emax f) s b)).
Proof.
  intros f e p t x. split; [reflexivity|]. unfold poly_eval. rewrite map_app. exact (foldM_snoc _ _ _ _).
Qed.

Definition eo_t (n d : Z) (g : mdeg) : term (rat_impl Debug) := @mkterm (rat_impl Debug) (mkrat n d) g.
(** the same polynomial stored in two orders: one evaluates, the other overflows *)
Example C154_ex :
  poly_eval [eo_t i64_max 1 []; eo_t (-1) 1 [1]; eo_t 1 1 [2]] [mkrat 1 1 : rat_impl Debug] = Ok (mkrat i64_max 1 : rat_impl Debug) /\
  poly_eval [eo_t i64_max 1 []; eo_t 1 1 [2]; eo_t (-1) 1 [1]] [mkrat 1 1 : rat_impl Debug] = Panic Overflow.
Proof. split; reflexivity. Qed.

Print Assumptions C154_rational.
Print Assumptions C154_float.
