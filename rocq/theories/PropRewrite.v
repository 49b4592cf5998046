(** * Property C140: division as a rewriting system.

    A step cancels any one term of a polynomial with a multiple of one of the divisors ([RewriteSpec.v]). *)
From Coq Require Import ZArith QArith Qcanon.
From Verif Require Import Base BaseLemmas IntModel RatModel FieldIface RatProofs MDegModel OrdModel PolyModel CompModel
  MonoSpec MDegProofs OrdProofs PolySpec PolyProofs GroebnerSpec DivProofs DivSpec GbProofs CompMono PropPoly PropDiv PropGb PropGraded RewriteSpec.
From Coq Require Import Lia Ring Field Setoid Morphisms.
Local Open Scope nat_scope.

(** any two sequences of steps from one polynomial can be continued to a common one *)
Definition confluent {K : MathField} (lt : mono -> mono -> Prop) (G : list (spoly K)) : Prop :=
  forall f a b, steps lt G f a -> steps lt G f b -> exists h, steps lt G a h /\ steps lt G b h.

Section PropRewrite.
Context {F : FieldImpl} {K : MathField} (FS : FieldSpec F K) {O : ord_impl} (OS : OrderSpec O).
Add Field Kf74 : (kth K).
Add Ring Pr74 : (@poly_ring K) (setoid (@peq_equiv K) (@poly_ring_ext K)).
Notation poly := (poly F).
Notation val := (ip FS).
Notation clean := (pwf FS).
Notation lt := (olt OS).
Notation nonzero := (fun g : poly => g <> []).
Let laws := olaws _ OS.

Lemma irreducible_stays (G : list (spoly K)) f h : irreducible lt G f -> steps lt G f h -> peq f h.
Proof. intros I S. destruct S as [f h E|f f1 h S _]; [exact E|]. exfalso. exact (I f1 S). Qed.
Lemma confluent_iff (G : list (spoly K)) : confluent lt G <-> one_end lt G.
Proof.
  split.
  - intros C f h h' S S' I I'. destruct (C f h h' S S') as (k & Sk & Sk'). transitivity k; [exact (irreducible_stays G h k I Sk)|symmetry; exact (irreducible_stays G h' k I' Sk')].
  - intros U f a b Sa Sb. destruct (some_end lt laws G a) as (h & Sh & I). destruct (some_end lt laws G b) as (h' & Sh' & I').
    exists h. split; [exact Sh|]. apply (steps_peq_r lt G b h'); [|exact Sh'].
    apply (U f); [exact (steps_trans lt G f b h' Sb Sh')|exact (steps_trans lt G f a h Sa Sh)|exact I'|exact I].
Qed.

(** ** C140 *)
(** the remainder of a division by any divisors is reached by such steps, and no further one is possible *)
Theorem C140_division : forall fuel (f : poly) divs r qs, clean f -> Forall clean divs -> divide Debug O fuel f divs = Ok (r, qs) ->
  steps lt (map val divs) (val f) (val r) /\ irreducible lt (map val divs) (val r).
Proof.
  intros fuel f divs r qs W Wd E. destruct (divide_run FS OS fuel f divs r qs W Wd E) as (Wr & _ & D).
  pose proof (ds_red _ _ _ _ _ _ D) as Red. split; [|apply irreducible_iff; exact Red].
  destruct (entries_all lt laws (map val divs) (map val qs) (map val divs) (ds_len _ _ _ _ _ _ D) (incl_refl _) (ds_first _ _ _ _ _ _ D)) as (T & ET & OT & NT).
  apply (steps_peq lt _ (padd (esum T) (val r))); [rewrite (ds_eq _ _ _ _ _ _ D), ET; ring|].
  apply (entries_steps lt laws (map val divs) (length T) T (val r) eq_refl (fun e I => proj1 (OT e I)) NT Red).
Qed.
(** no sequence of steps goes on for ever, whichever are chosen *)
Theorem C140_terminates : forall (divs : list poly) (s : nat -> spoly K), ~ forall i, step lt (map val divs) (s i) (s (S i)).
Proof. intros divs s. apply (no_infinite_run lt laws). Qed.
(** buchberger_criterion says whether the choice of the steps matters *)
Theorem C140_criterion : forall fuel (gens : list poly) b, Forall clean gens -> Forall nonzero gens -> buchberger_criterion Debug O fuel gens = Ok b ->
  (b = true <-> one_end lt (map val gens)) /\ (b = true <-> confluent lt (map val gens)).
Proof.
  intros fuel gens b W N E. assert (X : b = true <-> one_end lt (map val gens)).
  { rewrite (one_end_iff lt laws). rewrite (C38_criterion_decides FS OS fuel gens b W N E). unfold groebner. split; intros H f m I L; destruct (H f m I L) as (g & l & Ig & Lg & D).
    - exists (val g), l. split; [apply in_map; exact Ig|auto].
    - apply in_map_iff in Ig as (g0 & <- & Ig). eauto. }
  split; [exact X|]. rewrite confluent_iff. exact X.
Qed.
(** by the result of buchberger_algorithm every choice of steps ends with the remainder divide computes *)
Theorem C140_any_choice : forall fuel n (gens out : list poly) (f r : poly) qs h, Forall clean gens -> Forall nonzero gens ->
  buchberger_algorithm Debug O fuel gens = Ok out -> clean f -> divide Debug O n f out = Ok (r, qs) ->
  steps lt (map val out) (val f) h -> irreducible lt (map val out) h -> peq h (val r).
Proof.
  intros fuel n gens out f r qs h W N E Wf D S I. destruct (algorithm_run FS OS fuel gens out W N E) as (A & _ & C & _).
  destruct (C140_division n f out r qs Wf A D) as (S' & I'). exact (proj2 (one_end_iff lt laws (map val out)) C (val f) h (val r) S S' I I').
Qed.
End PropRewrite.

(** ** Concrete cases *)
Notation RR := (rat_impl Debug).
(** by x^2 - y and x^3 - z, x^3 ends as x y or as z *)
Example C140_ex_choice : Forall (pwf rat_spec) [ex_ga; ex_gb] /\ buchberger_criterion Debug lex_cmp 40 [ex_ga; ex_gb] = Ok false /\
  divide Debug lex_cmp 40 ([ex_t 1 1 [3]] : poly RR) [ex_ga; ex_gb] = Ok ([ex_t 1 1 [1; 1]], [[ex_t 1 1 [1]]; []]) /\
  divide Debug lex_cmp 40 ([ex_t 1 1 [3]] : poly RR) [ex_gb; ex_ga] = Ok ([ex_t 1 1 [0; 0; 1]], [[ex_t 1 1 []]; []]).
Proof. split; [repeat (constructor; [apply ex_clean; reflexivity|]); constructor|]. split; [reflexivity|]. split; reflexivity. Qed.
(** by the Groebner basis it does not matter *)
Example C140_ex_one : Forall (pwf rat_spec) ex_gout /\ buchberger_criterion Debug lex_cmp 40 ex_gout = Ok true /\ buchberger_algorithm Debug lex_cmp 40 [ex_ga; ex_gb] = Ok ex_gout /\
  divide Debug lex_cmp 40 ([ex_t 1 1 [3]] : poly RR) ex_gout = Ok ([ex_t 1 1 [0; 0; 1]], [[ex_t 1 1 [1]]; [ex_t 1 1 []]; []; []]) /\
  divide Debug lex_cmp 40 ([ex_t 1 1 [3]] : poly RR) (rev ex_gout) = Ok ([ex_t 1 1 [0; 0; 1]], [[]; []; [ex_t 1 1 []]; [ex_t 1 1 [1]]]).
Proof. split; [repeat (constructor; [apply ex_clean; reflexivity|]); constructor|]. split; [reflexivity|]. split; [reflexivity|]. split; reflexivity. Qed.

Print Assumptions C140_division.
Print Assumptions C140_terminates.
Print Assumptions C140_criterion.
Print Assumptions C140_any_choice.
