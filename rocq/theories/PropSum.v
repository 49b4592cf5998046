(** * C153: sums and products of rationals, as stored

    Sum and Product of rationals reduce the iterator from its first item, so a single item comes back as it was given, not in another
    representation, and each further item is combined with the result so far on the left, after it has been computed.  Only the empty
    iterator gives 0/1 or 1/1. *)
From Coq Require Import ZArith.
From Verif Require Import Base IntModel RatModel.
Import ListNotations.
Local Open Scope nat_scope.

Lemma foldM_snoc {A S : Type} (f : S -> A -> res S) l x : forall s, foldM f (l ++ [x]) s = (s' <- foldM f l s ;; f s' x).
Proof.
  induction l as [|y l IH]; intros s; cbn [app foldM].
  - cbn. destruct (f s x); reflexivity.
  - destruct (f s y) as [s'| |]; cbn; [apply IH|reflexivity|reflexivity].
Qed.

Theorem C153_sum : forall m,
  rat_sum m [] = Ok (mkrat 0 1) /\ (forall x, rat_sum m [x] = x) /\
  (forall l x, l <> [] -> rat_sum m (l ++ [x]) = (s <- rat_sum m l ;; b <- x ;; rat_add m s b)).
Proof.
  intros m. split; [reflexivity|]. split; [intros [r|k|]; reflexivity|].
  intros [|[a|k|] l] x N; [congruence| |reflexivity|reflexivity]. unfold rat_sum, reduce_iter. cbn [app]. cbn. rewrite foldM_snoc.
  destruct (foldM _ l a) as [s| |]; cbn; [|reflexivity|reflexivity]. destruct x as [b| |]; cbn; [|reflexivity|reflexivity].
  destruct (rat_add m s b); reflexivity.
Qed.
Theorem C153_product : forall m,
  rat_product m [] = Ok (mkrat 1 1) /\ (forall x, rat_product m [x] = x) /\
  (forall l x, l <> [] -> rat_product m (l ++ [x]) = (s <- rat_product m l ;; b <- x ;; rat_mul m s b)).
Proof.
  intros m. split; [reflexivity|]. split; [intros [r|k|]; reflexivity|].
  intros [|[a|k|] l] x N; [congruence| |reflexivity|reflexivity]. unfold rat_product, reduce_iter. cbn [app]. cbn. rewrite foldM_snoc.
  destruct (foldM _ l a) as [s| |]; cbn; [|reflexivity|reflexivity]. destruct x as [b| |]; cbn; [|reflexivity|reflexivity].
  destruct (rat_mul m s b); reflexivity.
Qed.

(** a zero that is not stored as 0/1 is returned as it is; the same items in another order overflow *)
Example C153_ex : rat_sum Debug [Ok (mkrat 0 5)] = Ok (mkrat 0 5) /\ rat_product Debug [Ok (mkrat 0 5)] = Ok (mkrat 0 5) /\
  rat_sum Debug ([Ok (mkrat 1 2); Ok (mkrat 1 3)] ++ [Ok (mkrat 1 6)]) = Ok (mkrat 36 36).
Proof. repeat split; reflexivity. Qed.
Example C153_ex_order : rat_sum Debug [Ok (mkrat i64_max 1); Ok (mkrat (-1) 1); Ok (mkrat 1 1)] = Ok (mkrat i64_max 1) /\
  rat_sum Debug [Ok (mkrat i64_max 1); Ok (mkrat 1 1); Ok (mkrat (-1) 1)] = Panic Overflow.
Proof. split; reflexivity. Qed.

Print Assumptions C153_sum.
Print Assumptions C153_product.
