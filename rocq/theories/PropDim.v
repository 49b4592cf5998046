(** * C120: the dimension of an ideal

    The largest number of variables that are independent modulo the ideal (no nonzero polynomial of the ideal is in these variables alone; the
    dimension of the variety, over an algebraically closed field) can be read off the leading monomials buchberger_algorithm returns, for each of
    the four orders. *)
From Coq Require Import ZArith.
From Verif Require Import Base BaseLemmas IntModel RatModel FieldIface RatProofs MDegModel OrdModel PolyModel CompModel
  MonoSpec MDegProofs OrdProofs LinSpec PolySpec PolyProofs GroebnerSpec DivProofs DivSpec GbProofs CompMono PropPoly PropDiv PropGb IdealSpec PropIdeal SubstSpec StdSpec PropIdealOps PropStd HilbertSpec DimSpec PropHilbert.
From Coq Require Import Ring Field Setoid Morphisms.
Import ListNotations.
Local Open Scope nat_scope.

(** [k] is the size of the largest sets of variables among x_0 .. x_(n-1) with the property [P] *)
Definition largest (n : nat) (P : list nat -> Prop) (k : nat) : Prop :=
  (exists U, NoDup U /\ (forall i, In i U -> i < n) /\ P U /\ length U = k) /\
  (forall U, NoDup U -> (forall i, In i U -> i < n) -> P U -> length U <= k).
Lemma largest_unique n P k k' : largest n P k -> largest n P k' -> k = k'.
Proof. intros [(U & A & B & C & D) E] [(U' & A' & B' & C' & D') E']. specialize (E U' A' B' C'). specialize (E' U A B C). lia. Qed.

Section PropDim.
Context {F : FieldImpl} {K : MathField} (FS : FieldSpec F K).
Notation poly := (poly F).
Notation val := (ip FS).
Notation clean := (pwf FS).
Notation nonzero := (fun g : poly => g <> []).
Notation vars n := (fun g : poly => forall t, In t g -> length (tdeg t) <= n).
(** the leading terms of the polynomials *)
Definition leads (O : ord_impl) (out : list poly) (ls : list (term F)) : Prop := Forall2 (fun g t => leading_term O g = Ok (Some t)) out ls.
(** each of the terms has a variable outside [U] *)
Definition avoids (U : list nat) (ls : list (term F)) : Prop := forall t, In t ls -> exists i, nth i (tdeg t) 0 <> 0 /\ ~ In i U.
(** the ideal has no nonzero polynomial in the variables [U] only *)
Notation independent U gens := (independent_vars U (map val gens)).

Lemma avoids_free {O} (OS : OrderSpec O) U out ls : Forall clean out -> leads O out ls -> (avoids U ls <-> free_vars (olt OS) U (map val out)).
Proof.
  intros W H. assert (L : Forall2 (fun g t => is_lm (olt OS) (val g) (MonoSpec.canon (tdeg t))) out ls).
  { induction H as [|g t out ls E _ IH]; [constructor|]. inversion W; subst. constructor; [|apply IH; assumption]. apply (proj1 (C31_clean FS OS g ltac:(assumption)) _ E). }
  split.
  - intros A g l Ig Lg. apply in_map_iff in Ig as (g0 & <- & Ig). clear H W. induction L as [|g t out ls E _ IH]; [destruct Ig|]. destruct Ig as [->|Ig].
    + rewrite (is_lm_unique (olt OS) (olaws _ OS) _ _ _ Lg E). destruct (A t (or_introl eq_refl)) as (i & Hi & Ni). exists i. split; [rewrite canon_exp; exact Hi|exact Ni].
    + apply IH; [intros t' I; apply A; right; exact I|exact Ig].
  - intros A t It. clear H W. induction L as [|g t' out ls E _ IH]; [destruct It|]. destruct It as [->|It].
    + destruct (A (val g) _ (or_introl eq_refl) E) as (i & Hi & Ni). rewrite canon_exp in Hi. exists i. split; [exact Hi|exact Ni].
    + apply IH; [intros g' l I; apply A; right; exact I|exact It].
Qed.
Lemma independent_ideal U (G G' : list (spoly K)) : (forall f, in_ideal G f <-> in_ideal G' f) -> independent_vars U G -> independent_vars U G'.
Proof. intros S H f I. apply H. apply S. exact I. Qed.

(** ** C120 *)
(** if every leading term has a variable outside U, then U is independent *)
Theorem C120_free : forall (O : ord_impl) (OS : OrderSpec O) fuel (gens out : list poly) ls U, Forall clean gens -> Forall nonzero gens ->
  buchberger_algorithm Debug O fuel gens = Ok out -> leads O out ls -> avoids U ls -> independent U gens.
Proof.
  intros O OS fuel gens out ls U W NZ E L A. destruct (algorithm_run FS OS fuel gens out W NZ E) as (Wo & SI & GB & _).
  apply (independent_ideal U _ _ SI). apply (free_independent (olt OS) (olaws _ OS)); [exact GB|]. apply (avoids_free OS U out ls Wo L). exact A.
Qed.
(** every independent set is at most as large as some set avoided by the leading terms *)
Theorem C120_independent : forall (O : ord_impl) (OS : OrderSpec O) fuel n (gens out : list poly) ls U, weightable (olt OS) ->
  Forall clean gens -> Forall nonzero gens -> Forall (vars n) gens -> buchberger_algorithm Debug O fuel gens = Ok out -> leads O out ls ->
  NoDup U -> (forall i, In i U -> i < n) -> independent U gens ->
  exists U', NoDup U' /\ (forall i, In i U' -> i < n) /\ length U <= length U' /\ avoids U' ls.
Proof.
  intros O OS fuel n gens out ls U Wt W NZ V E L ND Un Ind. destruct (algorithm_run FS OS fuel gens out W NZ E) as (Wo & SI & GB & _).
  destruct (dim_theorem (olt OS) (olaws _ OS) n (map val out) U GB Wt) as (U' & A & B & C & D); auto.
  - apply (out_vars FS OS fuel n gens out); auto.
  - intros d. apply (C118_exists FS O OS n d out).
  - apply (independent_ideal U (map val gens)); [intros f; symmetry; apply SI|exact Ind].
  - exists U'. split; [exact A|]. split; [exact B|]. split; [exact C|]. apply (avoids_free OS U' out ls Wo L). exact D.
Qed.
(** so the dimension can be read off *)
Theorem C120_dimension : forall (O : ord_impl) (OS : OrderSpec O) fuel n (gens out : list poly) ls k, weightable (olt OS) ->
  Forall clean gens -> Forall nonzero gens -> Forall (vars n) gens -> buchberger_algorithm Debug O fuel gens = Ok out -> leads O out ls ->
  (largest n (fun U => independent U gens) k <-> largest n (fun U => avoids U ls) k).
Proof.
  intros O OS fuel n gens out ls k Wt W NZ V E L. split.
  - intros [(U & A & B & C & D) H].
    destruct (C120_independent O OS fuel n gens out ls U Wt W NZ V E L A B C) as (U' & A' & B' & C' & D').
    assert (X : forall U, NoDup U -> (forall i, In i U -> i < n) -> avoids U ls -> length U <= k).
    { intros U1 A1 B1 C1. apply H; auto. apply (C120_free O OS fuel gens out ls U1); auto. }
    split; [|exact X]. exists U'. split; [exact A'|]. split; [exact B'|]. split; [exact D'|]. specialize (X U' A' B' D'). lia.
  - intros [(U & A & B & C & D) H]. split.
    + exists U. split; [exact A|]. split; [exact B|]. split; [apply (C120_free O OS fuel gens out ls U); auto|exact D].
    + intros U1 A1 B1 C1. destruct (C120_independent O OS fuel n gens out ls U1 Wt W NZ V E L A1 B1 C1) as (U' & A' & B' & C' & D'). specialize (H U' A' B' D'). lia.
Qed.
(** it does not depend on the order or the generators *)
Theorem C120_invariant : forall (O O' : ord_impl) (OS : OrderSpec O) (OS' : OrderSpec O') fuel fuel' n (gens gens' out out' : list poly) ls ls' k,
  weightable (olt OS) -> weightable (olt OS') -> Forall clean gens -> Forall nonzero gens -> Forall (vars n) gens -> Forall clean gens' -> Forall nonzero gens' -> Forall (vars n) gens' ->
  (forall f, in_ideal (map val gens) f <-> in_ideal (map val gens') f) ->
  buchberger_algorithm Debug O fuel gens = Ok out -> buchberger_algorithm Debug O' fuel' gens' = Ok out' -> leads O out ls -> leads O' out' ls' ->
  largest n (fun U => avoids U ls) k -> largest n (fun U => avoids U ls') k.
Proof.
  intros O O' OS OS' fuel fuel' n gens gens' out out' ls ls' k Wt Wt' W NZ V W' NZ' V' SI E E' L L' H.
  apply (C120_dimension O' OS' fuel' n gens' out' ls' k); auto. apply (C120_dimension O OS fuel n gens out ls k) in H; auto.
  destruct H as [(U & A & B & C & D) H]. split.
  - exists U. split; [exact A|]. split; [exact B|]. split; [apply (independent_ideal U _ _ SI); exact C|exact D].
  - intros U1 A1 B1 C1. apply H; auto. apply (independent_ideal U1 (map val gens')); [intros f; symmetry; apply SI|exact C1].
Qed.
End PropDim.
(** the hypothesis holds for the four orders of the crate *)
Theorem C120_orders : weightable (olt lex_spec) /\ weightable (olt revlex_spec) /\ weightable (olt grlex_spec) /\ weightable (olt grevlex_spec).
Proof.
  split; [exact lex_weightable|]. split; [exact revlex_weightable|].
  split; apply degree_weightable; [exact grlex_degree_first|exact grevlex_degree_first].
Qed.

(** ** Concrete cases *)
(** x z, y z: the union of the plane z = 0 and a line has dimension 2, by U = {x, y} *)
Definition dxz : poly RR := [ex_t 1 1 [1; 0; 1]].
Definition dyz : poly RR := [ex_t 1 1 [0; 1; 1]].
Example C120_ex_run : Forall (pwf rat_spec) [dxz; dyz] /\ Forall (fun g : poly RR => forall t, In t g -> length (tdeg t) <= 3) [dxz; dyz] /\
  buchberger_algorithm Debug lex_cmp 30 [dxz; dyz] = Ok [dxz; dyz] /\ leads lex_cmp [dxz; dyz] [ex_t 1 1 [1; 0; 1]; ex_t 1 1 [0; 1; 1]].
Proof.
  split; [repeat (constructor; [apply ex_clean; reflexivity|]); constructor|].
  split; [repeat (constructor; [intros t [<-|[]]; cbn; lia|]); constructor|]. split; [reflexivity|]. repeat constructor.
Qed.
Example C120_ex_largest : largest 3 (fun U => avoids U [ex_t 1 1 [1; 0; 1]; ex_t 1 1 [0; 1; 1]]) 2.
Proof.
  split.
  - exists [0; 1]. split; [repeat constructor; cbn; intuition discriminate|]. split; [intros i [<-|[<-|[]]]; lia|]. split; [|reflexivity].
    intros t [<-|[<-|[]]]; exists 2; (split; [discriminate|intros [X|[X|[]]]; discriminate X]).
  - intros U ND B A. destruct (le_lt_dec (length U) 2) as [|Lt]; [assumption|exfalso].
    assert (I : incl U [0; 1; 2]) by (intros i Ii; specialize (B i Ii); cbn; lia).
    assert (J : incl [0; 1; 2] U) by (apply (NoDup_length_incl ND); [cbn; lia|exact I]).
    destruct (A _ (or_introl eq_refl)) as (i & Ni & Nu). apply Nu. apply J. destruct i as [|[|[|i]]]; cbn; auto. exfalso. apply Ni. cbn. destruct i; reflexivity.
Qed.
Example C120_ex_dimension : largest 3 (fun U => independent_vars U (map (ip rat_spec) [dxz; dyz])) 2.
Proof.
  destruct C120_ex_run as (W & V & E & L).
  apply (C120_dimension rat_spec lex_cmp lex_spec 30 3 _ _ _ 2 lex_weightable W ltac:(repeat (constructor; [discriminate|]); constructor) V E L). exact C120_ex_largest.
Qed.
(** x - y^2 has dimension 1 for each order; the avoided set is {y} for Lex and {x} for GrLex *)
Example C120_ex_orders : leads lex_cmp [hx] [ex_t 1 1 [1]] /\ avoids [1] [ex_t 1 1 [1]] /\
  leads (grlex_cmp Debug) [hx] [ex_t (-1) 1 [0; 2]] /\ avoids [0] [ex_t (-1) 1 [0; 2]].
Proof.
  split; [repeat constructor|]. split; [intros t [<-|[]]; exists 0; (split; [discriminate|intros [X|[]]; discriminate X])|].
  split; [repeat constructor|]. intros t [<-|[]]. exists 1. split; [discriminate|intros [X|[]]; discriminate X].
Qed.

Print Assumptions C120_free.
Print Assumptions C120_independent.
Print Assumptions C120_dimension.
Print Assumptions C120_invariant.
Print Assumptions C120_orders.
