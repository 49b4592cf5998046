(** * Property C82: what division and the Groebner functions guarantee over any coefficient type whatever,
    in particular over f32 and f64, whenever they return. *)
From Verif Require Import Base BaseLemmas FieldIface MDegModel OrdModel PolyModel CompModel MonoSpec MDegProofs OrdProofs
  PolySpec GroebnerSpec DivProofs GbProofs DivShape FloatModel PropFloatDiv.
From Coq Require Import Lia.
Local Open Scope nat_scope.

Section Any.
Context {F : FieldImpl}.
Notation poly := (poly F).
Notation term := (term F).

(** one quotient per divisor, and no term of the remainder is divisible by the leading monomial of a divisor *)
Theorem C82_division : forall O (OS : OrderSpec O) n (f : poly) (gs : list poly) r qs,
  (forall u, In u f -> mwf (tdeg u)) -> (forall g u, In g gs -> In u g -> mwf (tdeg u)) ->
  divide Debug O n f gs = Ok (r, qs) ->
  length qs = length gs /\
  (forall u g l, In u r -> In g gs -> leading_term O g = Ok (Some l) -> feqb (coef l) f0 = false ->
     ~ mdiv (MonoSpec.canon (tdeg l)) (MonoSpec.canon (tdeg u))).
Proof.
  intros O OS n f gs r qs Wf Wg E.
  assert (Wg' : Forall (Forall dwf) gs).
  { apply Forall_forall. intros g Ig. apply Forall_forall. intros u Iu. exact (Wg g u Ig Iu). }
  destruct (divide_loop_shape OS gs Wg' n f _ _ r qs (proj2 (Forall_forall _ _) Wf) (repeat_length _ _) (Forall_nil _) E) as [L H].
  split; [exact L|]. intros u g l Iu Ig El Nz. rewrite Forall_forall in H. exact (H u Iu g l Ig El Nz).
Qed.

Context (m : mode) (O : ord_impl).

(** ** buchberger_extend: the generators are kept, and every S-polynomial of the result leaves no remainder *)
Lemma leading_coef_none (r : poly) : leading_coef O r = Ok None -> r = [].
Proof.
  unfold leading_coef, leading_term, max_by. destruct r as [|x l]; [reflexivity|].
  intros H. apply bind_Ok in H as (o & E & H). apply bind_Ok in E as (t & _ & E). injection E as <-. discriminate H.
Qed.
Definition no_remainder (fuel : nat) (G : list poly) (i j : nat) : Prop := exists gi gj h qs,
  nth_error G i = Some gi /\ nth_error G j = Some gj /\ try_reduce m O gi gj = Ok (Some h) /\ divide m O fuel h G = Ok ([], qs).
Lemma vget_Ok {A : Type} (l : list A) i x : vget l i = Ok x -> nth_error l i = Some x.
Proof. unfold vget. destruct (nth_error l i); [intros H; injection H as <-; reflexivity|discriminate]. Qed.
Lemma extend_inner_none fuel gens i js : extend_inner m O fuel gens i js = Ok None ->
  forall j, In j js -> no_remainder fuel gens i j.
Proof.
  induction js as [|j js IH]; [intros _ j []|]. cbn [extend_inner]. intros H.
  apply bind_Ok in H as (gi & Ei & H). apply bind_Ok in H as (gj & Ej & H). apply bind_Ok in H as (o & Er & H).
  apply bind_Ok in H as (h & Eo & H). destruct o as [h'|]; [|discriminate]. injection Eo as ->.
  apply bind_Ok in H as ([r qs] & Ed & H). apply bind_Ok in H as (lc & El & H). destruct lc as [c|].
  - apply bind_Ok in H as (r' & _ & H). discriminate H.
  - apply leading_coef_none in El. subst r. intros j' [<-|I]; [|auto].
    exists gi, gj, h, qs. split; [apply vget_Ok; exact Ei|]. split; [apply vget_Ok; exact Ej|]. auto.
Qed.
Lemma extend_loop_shape dfuel fuel : forall gens i G, (forall k j, j < k -> k < i -> no_remainder dfuel gens k j) ->
  extend_loop m O dfuel fuel gens i = Ok G ->
  (exists new, G = gens ++ new) /\ forall k j, j < k -> k < length G -> no_remainder dfuel G k j.
Proof.
  induction fuel as [|fuel IH]; intros gens i G Hi; cbn [extend_loop]; destruct (Nat.ltb_spec i (length gens)) as [L|L]; intros E.
  - discriminate.
  - injection E as <-. split; [exists []; rewrite app_nil_r; reflexivity|]. intros k j A B. apply Hi; lia.
  - apply bind_Ok in E as (o & Eo & E). destruct o as [r|].
    + apply IH in E; [|intros; lia]. destruct E as ((new & ->) & H). split; [|exact H].
      exists (r :: new). rewrite <- app_assoc. reflexivity.
    + apply IH in E; [exact E|]. intros k j A B. destruct (Nat.eq_dec k i) as [->|N]; [|apply Hi; lia].
      apply (extend_inner_none _ _ _ _ Eo). apply in_seq. lia.
  - injection E as <-. split; [exists []; rewrite app_nil_r; reflexivity|]. intros k j A B. apply Hi; lia.
Qed.
Theorem C82_extend : forall fuel (gens G : list poly), buchberger_extend m O fuel gens = Ok G ->
  (exists new, G = gens ++ new) /\
  (forall i j, j < i -> i < length G -> exists gi gj h qs,
     nth_error G i = Some gi /\ nth_error G j = Some gj /\ try_reduce m O gi gj = Ok (Some h) /\ divide m O fuel h G = Ok ([], qs)).
Proof. intros fuel gens G E. eapply extend_loop_shape; [|exact E]. intros; lia. Qed.

(** ** buchberger_criterion *)
Lemma criterion_loop_shape fuel gens ps : criterion_loop m O fuel gens ps = Ok true ->
  forall i j, In (i, j) ps -> no_remainder fuel gens i j.
Proof.
  induction ps as [|[i j] ps IH]; [intros _ i j []|]. cbn [criterion_loop]. intros H.
  apply bind_Ok in H as (gi & Ei & H). apply bind_Ok in H as (gj & Ej & H). apply bind_Ok in H as (o & Er & H).
  destruct o as [h|]; [|discriminate]. apply bind_Ok in H as ([r qs] & Ed & H).
  destruct r as [|t r]; [|discriminate]. cbn [poly_is_zero] in H. intros i' j' [E|I]; [|auto].
  injection E as <- <-. exists gi, gj, h, qs. split; [apply vget_Ok; exact Ei|]. split; [apply vget_Ok; exact Ej|]. auto.
Qed.
Lemma criterion_loop_back fuel gens ps : (forall i j, In (i, j) ps -> no_remainder fuel gens i j) ->
  criterion_loop m O fuel gens ps = Ok true.
Proof.
  induction ps as [|[i j] ps IH]; intros H; [reflexivity|]. cbn [criterion_loop].
  destruct (H i j (or_introl eq_refl)) as (gi & gj & h & qs & Ei & Ej & Er & Ed).
  unfold vget. rewrite Ei, Ej. cbn [bind]. rewrite Er. cbn [bind]. rewrite Ed. cbn [bind poly_is_zero].
  apply IH. intros i' j' I. apply H. right. exact I.
Qed.
Theorem C82_criterion : forall fuel (gens : list poly), buchberger_criterion m O fuel gens = Ok true <->
  (forall i j, i < length gens -> j < length gens -> i <> j -> exists gi gj h qs,
     nth_error gens i = Some gi /\ nth_error gens j = Some gj /\ try_reduce m O gi gj = Ok (Some h) /\ divide m O fuel h gens = Ok ([], qs)).
Proof.
  intros fuel gens. unfold buchberger_criterion. split.
  - intros H i j Hi Hj N. apply (criterion_loop_shape _ _ _ H). apply pairs_iter_in. auto.
  - intros H. apply criterion_loop_back. intros i j I. apply pairs_iter_in in I as (Hi & Hj & N). exact (H i j Hi Hj N).
Qed.

(** ** buchberger_minimize: a sublist in which no leading term divides another *)
Lemma minimize_find_none (gens : list poly) ps : minimize_find O gens ps = Ok None -> forall i j, In (i, j) ps ->
  exists (gi gj : poly) ti tj, nth_error gens i = Some gi /\ nth_error gens j = Some gj /\ leading_term O gi = Ok (Some ti) /\
    leading_term O gj = Ok (Some tj) /\ term_divides tj ti = false.
Proof.
  induction ps as [|[i j] ps IH]; [intros _ i j []|]. cbn [minimize_find]. intros H.
  apply bind_Ok in H as (gj & Ej & H). apply bind_Ok in H as (oj & Lj & H). apply bind_Ok in H as (tj & Tj & H).
  apply bind_Ok in H as (gi & Ei & H). apply bind_Ok in H as (oi & Li & H). apply bind_Ok in H as (ti & Ti & H).
  destruct (term_divides tj ti) eqn:D; [discriminate|]. intros i' j' [E|I]; [|auto]. injection E as <- <-.
  destruct oj; [|discriminate]. destruct oi; [|discriminate]. injection Tj as ->. injection Ti as ->.
  exists gi, gj, ti, tj. split; [apply vget_Ok; exact Ei|]. split; [apply vget_Ok; exact Ej|]. auto.
Qed.
Inductive sublist {A : Type} : list A -> list A -> Prop :=
| sub_nil : sublist [] []
| sub_keep : forall x l l', sublist l l' -> sublist (x :: l) (x :: l')
| sub_drop : forall x l l', sublist l l' -> sublist l (x :: l').
Lemma sublist_refl {A : Type} (l : list A) : sublist l l.
Proof. induction l; constructor; assumption. Qed.
Lemma sublist_trans {A : Type} (l2 l3 : list A) : sublist l2 l3 -> forall l1, sublist l1 l2 -> sublist l1 l3.
Proof.
  induction 1 as [|x l l' H IH|x l l' H IH]; intros l1 S; [exact S| |apply sub_drop; auto].
  inversion S; subst; [apply sub_keep; auto|apply sub_drop; auto].
Qed.
Lemma sublist_remove {A : Type} (l : list A) i : sublist (list_remove l i) l.
Proof.
  revert i. induction l as [|x l IH]; intros [|i]; simpl; [apply sub_nil|apply sub_nil|apply sub_drop; apply sublist_refl|].
  apply sub_keep. apply IH.
Qed.
Lemma minimize_loop_shape fuel : forall (gens G : list poly), minimize_loop O fuel gens = Ok G ->
  sublist G gens /\ minimize_find O G (pairs_iter (length G)) = Ok None.
Proof.
  induction fuel as [|fuel IH]; intros gens G; cbn [minimize_loop]; [discriminate|]. intros H.
  apply bind_Ok in H as (o & E & H). destruct o as [i|].
  - apply IH in H as [S N]. split; [|exact N]. eapply sublist_trans; [apply (sublist_remove gens i)|exact S].
  - injection H as <-. split; [apply sublist_refl|exact E].
Qed.
Theorem C82_minimize : forall fuel (gens G : list poly), buchberger_minimize O fuel gens = Ok G ->
  sublist G gens /\
  (forall i j, i < length G -> j < length G -> i <> j -> exists gi gj ti tj,
     nth_error G i = Some gi /\ nth_error G j = Some gj /\ leading_term O gi = Ok (Some ti) /\
     leading_term O gj = Ok (Some tj) /\ term_divides tj ti = false).
Proof.
  intros fuel gens G H. apply minimize_loop_shape in H as [S N]. split; [exact S|].
  intros i j Hi Hj Nij. apply (minimize_find_none _ _ N). apply pairs_iter_in. auto.
Qed.

(** ** buchberger_reduce: as many polynomials, and no term of one is divisible by the leading term of another *)
Lemma any_term_false (gj ts : poly) : any_term_divisible O gj ts = Ok false -> forall u, In u ts ->
  exists tj, leading_term O gj = Ok (Some tj) /\ term_divides tj u = false.
Proof.
  induction ts as [|t ts IH]; [intros _ u []|]. cbn [any_term_divisible]. intros H.
  apply bind_Ok in H as (o & L & H). apply bind_Ok in H as (tj & T & H). destruct o; [|discriminate]. injection T as ->.
  destruct (term_divides tj t) eqn:D; [discriminate|]. intros u [<-|I]; eauto.
Qed.
Lemma reduce_find_none (gens : list poly) ps : reduce_find O gens ps = Ok None -> forall i j, In (i, j) ps ->
  exists gi, nth_error gens i = Some gi /\ forall u, In u gi -> exists gj tj, nth_error gens j = Some gj /\
    leading_term O gj = Ok (Some tj) /\ term_divides tj u = false.
Proof.
  induction ps as [|[i j] ps IH]; [intros _ i j []|]. cbn [reduce_find]. intros H.
  apply bind_Ok in H as (gi & Ei & H). apply bind_Ok in H as (gj & Ej & H). apply bind_Ok in H as (b & Eb & H).
  destruct b; [discriminate|]. intros i' j' [E|I]; [|auto]. injection E as <- <-.
  exists gi. split; [apply vget_Ok; exact Ei|]. intros u Iu. destruct (any_term_false _ _ Eb u Iu) as (tj & L & D).
  exists gj, tj. split; [|auto]. destruct gi; [destruct Iu|]. apply vget_Ok. exact Ej.
Qed.
Lemma list_remove_length {A : Type} (l : list A) i : i < length l -> length (list_remove l i) + 1 = length l.
Proof.
  revert i. induction l as [|x l IH]; intros [|i]; simpl; intros H; try lia. specialize (IH i ltac:(lia)). lia.
Qed.
Lemma reduce_loop_shape dfuel fuel : forall (gens G : list poly), reduce_loop m O dfuel fuel gens = Ok G ->
  length G = length gens /\ reduce_find O G (pairs_iter (length G)) = Ok None.
Proof.
  induction fuel as [|fuel IH]; intros gens G; cbn [reduce_loop]; [discriminate|]. intros H.
  apply bind_Ok in H as (o & E & H). destruct o as [i|].
  - apply bind_Ok in H as (g & Eg & H). apply bind_Ok in H as ([r qs] & _ & H). apply IH in H as [L N]. split; [|exact N].
    rewrite L, app_length. cbn [length]. apply list_remove_length. apply nth_error_Some. rewrite (vget_Ok _ _ _ Eg). discriminate.
  - injection H as <-. split; [reflexivity|exact E].
Qed.
Theorem C82_reduce : forall fuel (gens G : list poly), buchberger_reduce m O fuel gens = Ok G ->
  length G = length gens /\
  (forall i j gi u, i < length G -> j < length G -> i <> j -> nth_error G i = Some gi -> In u gi -> exists gj tj,
     nth_error G j = Some gj /\ leading_term O gj = Ok (Some tj) /\ term_divides tj u = false).
Proof.
  intros fuel gens G H. apply reduce_loop_shape in H as [L N]. split; [exact L|].
  intros i j gi u Hi Hj Nij Ei Iu.
  destruct (reduce_find_none _ _ N i j) as (gi' & Ei' & H); [apply pairs_iter_in; auto|].
  rewrite Ei in Ei'. injection Ei' as <-. exact (H u Iu).
Qed.
Theorem C82_algorithm : forall fuel (gens G : list poly), buchberger_algorithm m O fuel gens = Ok G ->
  forall i j gi u, i < length G -> j < length G -> i <> j -> nth_error G i = Some gi -> In u gi -> exists gj tj,
     nth_error G j = Some gj /\ leading_term O gj = Ok (Some tj) /\ term_divides tj u = false.
Proof.
  intros fuel gens G H. unfold buchberger_algorithm in H. apply bind_Ok in H as (g1 & _ & H). apply bind_Ok in H as (g2 & _ & H).
  apply (C82_reduce _ _ _ H).
Qed.
End Any.

(** ** Over f64, with rounding: 3 x + y and x + 3 y *)
Notation env0 := (mkenv (fun x _ => x) false).
Definition c64 (z : Z) (d : mdeg) : term (float_impl binary64 env0) := ft binary64 env0 (of_int binary64 z) d.
Definition r64 (s : bool) (p : positive) (e : Z) (d : mdeg) : term (float_impl binary64 env0) := ft binary64 env0 (S754_finite s p e) d.
(** x^2 + y by 3 x + 1: the quotients of coefficients are rounded *)
Example C82_ex_divide : divide Debug lex_cmp 40 [c64 1 [2]; c64 1 [0; 1]] [[c64 3 [1]; c64 1 []]] =
  Ok ([c64 1 [0; 1]; r64 false 8006399337547548 (-56) []],
      [[r64 false 6004799503160661 (-54) [1]; r64 true 8006399337547548 (-56) []]]).
Proof. reflexivity. Qed.
Example C82_ex_extend : buchberger_extend Debug lex_cmp 40 [[c64 3 [1]; c64 1 [0; 1]]; [c64 1 [1]; c64 7 [0; 1]]] =
  Ok [[c64 3 [1]; c64 1 [0; 1]]; [c64 1 [1]; c64 7 [0; 1]]; [c64 1 [0; 1]]].
Proof. reflexivity. Qed.
Example C82_ex_minimize : buchberger_minimize lex_cmp 40 [[c64 3 [1]; c64 1 [0; 1]]; [c64 1 [1]; c64 7 [0; 1]]; [c64 1 [0; 1]]] =
  Ok [[c64 1 [1]; c64 7 [0; 1]]; [c64 1 [0; 1]]].
Proof. reflexivity. Qed.
Example C82_ex_algorithm : buchberger_algorithm Debug lex_cmp 40 [[c64 3 [1]; c64 1 [0; 1]]; [c64 1 [1]; c64 7 [0; 1]]] =
  Ok [[c64 1 [0; 1]]; [c64 1 [1]]].
Proof. reflexivity. Qed.
Example C82_ex_criterion : buchberger_criterion Debug lex_cmp 40 [[c64 3 [1]; c64 1 [0; 1]]; [c64 1 [1]; c64 7 [0; 1]]; [c64 1 [0; 1]]] = Ok true.
Proof. reflexivity. Qed.

Print Assumptions C82_division.
Print Assumptions C82_extend.
Print Assumptions C82_criterion.
Print Assumptions C82_minimize.
Print Assumptions C82_reduce.
Print Assumptions C82_algorithm.
