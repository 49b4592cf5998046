(** * The trait Field (src/core/num/traits.rs:118-136) and what the theorems assume of an
    implementation. *)
From Verif Require Import Base IntModel RatModel.
From Coq Require Import Field_theory Ring_theory.

(** ** The operations of the trait, as the generic code uses them.

    traits.rs:10-14 Zero, 56-60 One, 113-116 operator bundles, 118-136 Field.
    Each arithmetic operation may panic.  [fsum] is Iterator::sum over a lazy
    iterator; [feqb] is PartialEq. *)
Record FieldImpl : Type := {
  fcar :> Type;
  f0 : fcar;
  f1 : fcar;
  feqb : fcar -> fcar -> bool;
  fadd : fcar -> fcar -> res fcar;
  fsub : fcar -> fcar -> res fcar;
  fneg : fcar -> res fcar;
  fmul : fcar -> fcar -> res fcar;
  fdiv : fcar -> fcar -> res fcar;
  finv : fcar -> res fcar;
  fpowi32 : fcar -> Z -> res fcar;
  fsum : list (res fcar) -> res fcar
}.
Arguments f0 {_}. Arguments f1 {_}. Arguments feqb {_} _ _.
Arguments fadd {_} _ _. Arguments fsub {_} _ _. Arguments fneg {_} _.
Arguments fmul {_} _ _. Arguments fdiv {_} _ _. Arguments finv {_} _.
Arguments fpowi32 {_} _ _. Arguments fsum {_} _.

(** traits.rs:157-159 EpsilonEquality, 191-193 StabilityCmp, and PartialOrd (used by Cone) *)
Record StabImpl (F : FieldImpl) : Type := {
  feps : F -> F -> bool;
  fstab : F -> F -> res (option comparison);
  fpcmp : F -> F -> res (option comparison)
}.
Arguments feps {_} _ _ _. Arguments fstab {_} _ _ _. Arguments fpcmp {_} _ _ _.

(** ** Rational implements the trait: traits.rs:138-153 (powi32 = powi, inv = recip) *)
Definition rat_impl (m : mode) : FieldImpl := {|
  fcar := rat;
  f0 := rat_zero;
  f1 := rat_one;
  feqb := rat_eqb;
  fadd := rat_add m;
  fsub := rat_sub m;
  fneg := rat_neg m;
  fmul := rat_mul m;
  fdiv := rat_div m;
  finv := rat_recip m;
  fpowi32 := rat_powi m;
  fsum := rat_sum m
|}.

Definition rat_stab (m : mode) : StabImpl (rat_impl m) := {|
  feps := rat_epsilon_equals : rat_impl m -> rat_impl m -> bool;
  fstab := rat_stability_cmp m : rat_impl m -> rat_impl m -> res (option comparison);
  fpcmp := rat_partial_cmp m : rat_impl m -> rat_impl m -> res (option comparison)
|}.

(** ** Specification side: a mathematical field with decidable equality. *)
Record MathField : Type := {
  kcar :> Type;
  k0 : kcar;
  k1 : kcar;
  kadd : kcar -> kcar -> kcar;
  kmul : kcar -> kcar -> kcar;
  ksub : kcar -> kcar -> kcar;
  kopp : kcar -> kcar;
  kdiv : kcar -> kcar -> kcar;
  kinv : kcar -> kcar;
  kth : field_theory k0 k1 kadd kmul ksub kopp kdiv kinv (@eq kcar);
  kdec : forall x y : kcar, {x = y} + {x <> y}
}.
Arguments k0 {_}. Arguments k1 {_}. Arguments kadd {_} _ _. Arguments kmul {_} _ _.
Arguments ksub {_} _ _. Arguments kopp {_} _. Arguments kdiv {_} _ _. Arguments kinv {_} _.
Arguments kdec {_} _ _.

Fixpoint kpow {K : MathField} (x : K) (n : nat) : K :=
  match n with O => k1 | S n' => kmul x (kpow x n') end.

Definition ksum {K : MathField} (l : list K) : K := fold_right kadd k0 l.

(** ** What it means for a trait implementation to be an exact field.

    [fwf] singles out the representations the crate produces, [den] gives the
    number a representation stands for.  Equal numbers may have different
    representations; only the comparison with ZERO must be faithful. *)
Record FieldSpec (F : FieldImpl) (K : MathField) : Type := {
  fwf : F -> Prop;
  den : F -> K;
  wf0 : fwf f0;
  wf1 : fwf f1;
  den0 : den f0 = k0;
  den1 : den f1 = k1;
  eqb0 : forall x, fwf x -> (feqb x f0 = true <-> den x = k0);
  add_ok : forall x y, fwf x -> fwf y ->
    safe (fadd x y) (fun z => fwf z /\ den z = kadd (den x) (den y));
  sub_ok : forall x y, fwf x -> fwf y ->
    safe (fsub x y) (fun z => fwf z /\ den z = ksub (den x) (den y));
  neg_ok : forall x, fwf x ->
    safe (fneg x) (fun z => fwf z /\ den z = kopp (den x));
  mul_ok : forall x y, fwf x -> fwf y ->
    safe (fmul x y) (fun z => fwf z /\ den z = kmul (den x) (den y));
  div_ok : forall x y, fwf x -> fwf y -> den y <> k0 ->
    safe (fdiv x y) (fun z => fwf z /\ den z = kdiv (den x) (den y));
  inv_ok : forall x, fwf x -> den x <> k0 ->
    safe (finv x) (fun z => fwf z /\ den z = kinv (den x));
  pow_ok : forall x n, fwf x -> (0 <= n <= 255)%Z ->
    safe (fpowi32 x n) (fun z => fwf z /\ den z = kpow (den x) (Z.to_nat n));
  sum_ok : forall (l : list (res F)),
    Forall (fun r => safe r fwf) l ->
    safe (fsum l) (fun z => fwf z /\
       exists vs, l = map Ok vs /\ den z = ksum (map den vs));
  sum_panic : forall (vs : list F) k rest, Forall fwf vs ->
    fsum (map Ok vs ++ Panic k :: rest) = Panic k \/
    fsum (map Ok vs ++ Panic k :: rest) = Panic Overflow
}.
Arguments fwf {_ _} _ _. Arguments den {_ _} _ _.

Record StabSpec {F : FieldImpl} {K : MathField} (S : FieldSpec F K) (T : StabImpl F) : Type := {
  eps0 : forall x, fwf S x -> (feps T x f0 = true <-> den S x = k0);
  stab_ok : forall x y, fwf S x -> fwf S y ->
    safe (fstab T x y) (fun o => exists c, o = Some c /\
       (den S x <> k0 -> den S y = k0 -> c = Gt) /\
       (den S x = k0 -> c <> Gt))
}.
