(** * C116: renaming the variables

    The library numbers variables 0, 1, 2, ...; nothing in the arithmetic should depend on the numbers, and the algorithms that use a monomial order
    should depend on them only through that order.  For every coefficient type - exact, machine rationals or floats - a computation and the same
    computation after renaming end alike: corresponding results with the same coefficients in the same places, the same panic at the same point, or
    both still running. *)
From Coq Require Import ZArith QArith Qcanon.
From Verif Require Import Base BaseLemmas FieldIface IntModel RatModel RatProofs MDegModel OrdModel PolyModel CompModel MonoSpec PolySpec GroebnerSpec IdealSpec SubstSpec MapSpec MDegProofs OrdProofs PolyProofs DivProofs Param ParamDeg RenameProofs.
Import ListNotations.
Local Open Scope nat_scope.

(** the same coefficients, the variables 0, ..., n-1 being called s 0, ..., s (n-1) *)
Definition renamed_term {F : FieldImpl} (n : nat) (s : nat -> nat) (t t' : term F) : Prop :=
  coef t = coef t' /\ renamed_deg n s (tdeg t) (tdeg t').
Definition renamed {F : FieldImpl} (n : nat) (s : nat -> nat) : poly F -> poly F -> Prop := Forall2 (renamed_term n s).
Definition both {A : Type} (R : A -> A -> Prop) (o o' : option A) : Prop :=
  match o, o' with Some a, Some a' => R a a' | None, None => True | _, _ => False end.
Definition div_renamed {F : FieldImpl} (n : nat) (s : nat -> nat) (x y : poly F * list (poly F)) : Prop :=
  renamed n s (fst x) (fst y) /\ Forall2 (renamed n s) (snd x) (snd y).

Section Rename.
Context {F : FieldImpl} (n : nat) (s : nat -> nat).
Notation T := (@renamed_term F n s).
Notation P := (@renamed F n s).
Notation D' := (fun a' a => renamed_deg n s a a').
Notation T' := (@trel F D').

Lemma t_flip t t' : T' t' t -> T t t'. Proof. intros [H G]. split; [symmetry; exact H|exact G]. Qed.
Lemma flip_t t t' : T t t' -> T' t' t. Proof. intros [H G]. split; [symmetry; exact H|exact G]. Qed.
Lemma Forall2_turn {A B : Type} (R : A -> B -> Prop) (Q : B -> A -> Prop) l l' : (forall a b, R a b -> Q b a) -> Forall2 R l l' -> Forall2 Q l' l.
Proof. intros H. induction 1; constructor; auto. Qed.
Lemma p_flip p p' : Forall2 T' p' p -> P p p'. Proof. apply Forall2_turn. intros; apply t_flip; assumption. Qed.
Lemma flip_p p p' : P p p' -> Forall2 T' p' p. Proof. apply Forall2_turn. intros; apply flip_t; assumption. Qed.
Lemma l_flip (l l' : list (poly F)) : Forall2 (Forall2 T') l' l -> Forall2 P l l'. Proof. apply Forall2_turn. intros; apply p_flip; assumption. Qed.
Lemma flip_l (l l' : list (poly F)) : Forall2 P l l' -> Forall2 (Forall2 T') l' l. Proof. apply Forall2_turn. intros; apply flip_p; assumption. Qed.

Lemma same2 {A : Type} (R Q : A -> A -> Prop) x y : (forall a' a, Q a' a -> R a a') -> rsim R x y -> rsim Q y x -> rsame R x y.
Proof. intros H H1 H2. apply rsame_of; [exact H1|]. apply (rsim_mono Q); [exact H|exact H2]. Qed.

Section Ord.
Context {O O' : ord_impl} (H : order_renamed n s O O').
Let X := rename_sim n s O O' H.
Let Y := rename_sim_flip n s O O' H.

Lemma leading_same p p' : P p p' -> rsame (both T) (leading_term O p) (leading_term O' p').
Proof.
  intros E. apply (same2 _ (orel T')); [intros [a'|] [a|]; cbn; try tauto; apply t_flip|apply (leading_term_rsim X); exact E|apply (leading_term_rsim Y), flip_p, E].
Qed.
Lemma sort_same p p' : P p p' -> rsame P (sort_terms O p) (sort_terms O' p').
Proof. intros E. apply (same2 _ (Forall2 T')); [intros a a'; apply p_flip|apply (sort_terms_rsim X); exact E|apply (sort_terms_rsim Y), flip_p, E]. Qed.
Lemma divide_same fuel p p' ds ds' : P p p' -> Forall2 P ds ds' -> rsame (div_renamed n s) (divide Debug O fuel p ds) (divide Debug O' fuel p' ds').
Proof.
  intros E G. apply (same2 _ (fun x y => Forall2 T' (fst x) (fst y) /\ Forall2 (Forall2 T') (snd x) (snd y))).
  - intros [a' b'] [a b] [H1 H2]. split; [apply p_flip; exact H1|apply l_flip; exact H2].
  - apply (divide_rsim X); assumption.
  - apply (divide_rsim Y); [apply flip_p, E|apply flip_l, G].
Qed.
Lemma try_reduce_same p p' q q' : P p p' -> P q q' -> rsame (both P) (try_reduce Debug O p q) (try_reduce Debug O' p' q').
Proof.
  intros E G. apply (same2 _ (orel (Forall2 T'))); [intros [a'|] [a|]; cbn; try tauto; apply p_flip|apply (try_reduce_rsim X); assumption|apply (try_reduce_rsim Y); apply flip_p; assumption].
Qed.
Lemma criterion_same fuel gs gs' : Forall2 P gs gs' -> buchberger_criterion Debug O fuel gs = buchberger_criterion Debug O' fuel gs'.
Proof.
  intros E. enough (R : rsame eq (buchberger_criterion Debug O fuel gs) (buchberger_criterion Debug O' fuel gs')).
  - destruct (buchberger_criterion Debug O fuel gs), (buchberger_criterion Debug O' fuel gs'); cbn in R; try contradiction; congruence.
  - apply (same2 _ eq); [auto|apply (criterion_rsim X); exact E|apply (criterion_rsim Y), flip_l, E].
Qed.
Lemma algorithm_same fuel gs gs' : Forall2 P gs gs' -> rsame (Forall2 P) (buchberger_algorithm Debug O fuel gs) (buchberger_algorithm Debug O' fuel gs').
Proof. intros E. apply (same2 _ (Forall2 (Forall2 T'))); [intros a a'; apply l_flip|apply (buchberger_rsim X); exact E|apply (buchberger_rsim Y), flip_l, E]. Qed.
End Ord.

Section Arith.
Let O : ord_impl := fun _ _ => Ok Eq.
Let H : order_renamed n s O O. Proof. intros a b a' b' _ _. reflexivity. Qed.
Let X := rename_sim n s O O H.
Let Y := rename_sim_flip n s O O H.
Lemma add_same p p' q q' : P p p' -> P q q' -> rsame P (poly_add p q) (poly_add p' q').
Proof. intros E G. apply (same2 _ (Forall2 T')); [intros a a'; apply p_flip|apply (poly_add_rsim X); [exact E|exact G]|apply (poly_add_rsim Y); apply flip_p; [exact E|exact G]]. Qed.
Lemma sub_same p p' q q' : P p p' -> P q q' -> rsame P (poly_sub p q) (poly_sub p' q').
Proof. intros E G. apply (same2 _ (Forall2 T')); [intros a a'; apply p_flip|apply (poly_sub_rsim X); [exact E|exact G]|apply (poly_sub_rsim Y); apply flip_p; [exact E|exact G]]. Qed.
Lemma neg_same p p' : P p p' -> rsame P (poly_neg p) (poly_neg p').
Proof. intros E. apply (same2 _ (Forall2 T')); [intros a a'; apply p_flip|exact (@poly_neg_rsim F (renamed_deg n s) p p' E)|exact (@poly_neg_rsim F D' p' p (flip_p p p' E))]. Qed.
Lemma mul_same p p' q q' : P p p' -> P q q' -> rsame P (poly_mul Debug p q) (poly_mul Debug p' q').
Proof. intros E G. apply (same2 _ (Forall2 T')); [intros a a'; apply p_flip|apply (poly_mul_rsim X); [exact E|exact G]|apply (poly_mul_rsim Y); apply flip_p; [exact E|exact G]]. Qed.
Lemma scale_same p p' c : P p p' -> rsame P (poly_scale Debug p c) (poly_scale Debug p' c).
Proof. intros E. apply (same2 _ (Forall2 T')); [intros a a'; apply p_flip|apply (poly_scale_rsim X); [exact E|reflexivity]|apply (poly_scale_rsim Y); [apply flip_p; exact E|reflexivity]]. Qed.
End Arith.
End Rename.

(** ** What a renamed polynomial is *)
Definition injective_on (n : nat) (s : nat -> nat) : Prop := forall i j, i < n -> j < n -> s i = s j -> i = j.
(** the monomial with the exponent of the i-th variable moved to s i *)
Fixpoint moved (s : nat -> nat) (a : mdeg) (k : nat) : mono :=
  match k with O => mone | S k' => MonoSpec.mmul (moved s a k') (mvar (s k') (expo a k')) end.
Lemma moved_out s a k j : (forall i, i < k -> s i <> j) -> mexp (moved s a k) j = 0.
Proof.
  induction k as [|k IH]; intros N; cbn [moved]; [apply mone_exp|]. rewrite mmul_exp, mvar_exp, IH by (intros i Hi; apply N; lia).
  destruct (Nat.eqb_spec j (s k)) as [E|E]; [destruct (N k ltac:(lia) (eq_sym E))|reflexivity].
Qed.
Lemma moved_in s a k i : injective_on k s -> i < k -> mexp (moved s a k) (s i) = expo a i.
Proof.
  induction k as [|k IH]; intros J Hi; [lia|]. cbn [moved]. rewrite mmul_exp, mvar_exp. destruct (Nat.eq_dec i k) as [->|N].
  - rewrite Nat.eqb_refl, moved_out; [reflexivity|]. intros j Hj E. specialize (J j k ltac:(lia) ltac:(lia) E). lia.
  - rewrite IH; [|intros x y Hx Hy; apply J; lia|lia]. destruct (Nat.eqb_spec (s i) (s k)) as [E|E]; [|lia]. specialize (J i k ltac:(lia) ltac:(lia) E). lia.
Qed.
Lemma moved_renamed n s a a' : injective_on n s -> renamed_deg n s a a' -> moved s a n = canon a'.
Proof.
  intros J (_ & _ & _ & E & N). apply mono_ext. intros j. rewrite canon_exp. destruct (hit_dec n s j) as [(i & Hi & <-)|H].
  - rewrite moved_in, E by assumption. reflexivity.
  - rewrite moved_out, N by assumption. reflexivity.
Qed.
Lemma renamed_deg_exists n s a : injective_on n s -> mwf a -> (forall i, n <= i -> expo a i = 0) -> exists a', renamed_deg n s a a'.
Proof.
  intros J W Z. exists (mlist (moved s a n)). split; [exact W|].
  assert (E : forall i, i < n -> expo (mlist (moved s a n)) (s i) = expo a i) by (intros i Hi; apply moved_in; assumption).
  assert (N : forall j, (forall i, i < n -> s i <> j) -> expo (mlist (moved s a n)) j = 0) by (intros j; apply moved_out).
  split; [|auto]. split; [apply mcanonical|]. apply expo_u8. intros j. destruct (hit_dec n s j) as [(i & Hi & <-)|H].
  - rewrite E by exact Hi. apply u8_expo, W.
  - rewrite N by exact H. lia.
Qed.
Section Meaning.
Context {F : FieldImpl} {K : MathField} (FS : FieldSpec F K) (n : nat) (s : nat -> nat).
Add Field Kf47 : (kth K).
Lemma mmap_moved a : mwf a -> (forall i, n <= i -> expo a i = 0) -> peq (mmap (fun i => pvar (s i)) (canon a)) (@pterm K k1 (moved s a n)).
Proof.
  intros W Z. rewrite (mmap_up_eq (fun i => pvar (s i)) (canon a) n) by (intros i Hi; rewrite canon_exp; apply Z; exact Hi). clear Z.
  induction n as [|k IH]; cbn [mmap_up moved]; [reflexivity|]. rewrite IH, pow_pvar, pterm_mul, canon_exp. intros phi. unfold pterm. cbn. ring.
Qed.
Lemma renamed_subst (p p' : poly F) : injective_on n s -> renamed n s p p' -> peq (ip FS p') (psubst (fun i => pvar (s i)) (ip FS p)).
Proof.
  intros J H phi. rewrite ev_psubst. induction H as [|t t' p p' [Hc Hd] _ IH]; [reflexivity|].
  unfold ip in *. cbn [map]. unfold ev in *. cbn [fold_right fst snd]. rewrite IH. f_equal. rewrite <- Hc. f_equal.
  pose proof Hd as (W & _ & Z & _). pose proof (mmap_moved (tdeg t) W Z phi) as E. unfold ev in E. rewrite E, (moved_renamed n s _ _ J Hd). unfold pterm. cbn. ring.
Qed.
End Meaning.

(** ** C116 *)
(** the ring operations do not look at the numbers of the variables *)
Theorem C116_arith : forall {F : FieldImpl} n s (p p' q q' : poly F) (c : F), renamed n s p p' -> renamed n s q q' ->
  rsame (renamed n s) (poly_add p q) (poly_add p' q') /\ rsame (renamed n s) (poly_sub p q) (poly_sub p' q') /\
  rsame (renamed n s) (poly_neg p) (poly_neg p') /\ rsame (renamed n s) (poly_mul Debug p q) (poly_mul Debug p' q') /\
  rsame (renamed n s) (poly_scale Debug p c) (poly_scale Debug p' c).
Proof. intros F n s p p' q q' c H G. repeat split; [apply add_same|apply sub_same|apply neg_same|apply mul_same|apply scale_same]; assumption. Qed.

(** a renaming that keeps the variables in order is invisible to each of the four orders and to all that depends on them *)
Theorem C116_increasing : forall {F : FieldImpl} n s (O : ord_impl), increasing_on n s -> kept_order O ->
  forall fuel (p p' q q' : poly F) (gs gs' : list (poly F)), renamed n s p p' -> renamed n s q q' -> Forall2 (renamed n s) gs gs' ->
  rsame (both (renamed_term n s)) (leading_term O p) (leading_term O p') /\
  rsame (renamed n s) (sort_terms O p) (sort_terms O p') /\
  rsame (div_renamed n s) (divide Debug O fuel p gs) (divide Debug O fuel p' gs') /\
  rsame (both (renamed n s)) (try_reduce Debug O p q) (try_reduce Debug O p' q') /\
  buchberger_criterion Debug O fuel gs = buchberger_criterion Debug O fuel gs' /\
  rsame (Forall2 (renamed n s)) (buchberger_algorithm Debug O fuel gs) (buchberger_algorithm Debug O fuel gs').
Proof.
  intros F n s O M KO fuel p p' q q' gs gs' H G L. pose proof (kept_renamed n s O M KO) as X.
  repeat split; [apply (leading_same _ _ X)|apply (sort_same _ _ X)|apply (divide_same _ _ X)|apply (try_reduce_same _ _ X)|apply (criterion_same _ _ X)|apply (algorithm_same _ _ X)]; assumption.
Qed.
(** turning the order of the variables round exchanges Lex and RevLex, step by step *)
Theorem C116_reversing : forall {F : FieldImpl} n s (O O' : ord_impl), decreasing_on n s -> swapped_order O O' ->
  forall fuel (p p' q q' : poly F) (gs gs' : list (poly F)), renamed n s p p' -> renamed n s q q' -> Forall2 (renamed n s) gs gs' ->
  rsame (both (renamed_term n s)) (leading_term O p) (leading_term O' p') /\
  rsame (renamed n s) (sort_terms O p) (sort_terms O' p') /\
  rsame (div_renamed n s) (divide Debug O fuel p gs) (divide Debug O' fuel p' gs') /\
  rsame (both (renamed n s)) (try_reduce Debug O p q) (try_reduce Debug O' p' q') /\
  buchberger_criterion Debug O fuel gs = buchberger_criterion Debug O' fuel gs' /\
  rsame (Forall2 (renamed n s)) (buchberger_algorithm Debug O fuel gs) (buchberger_algorithm Debug O' fuel gs').
Proof.
  intros F n s O O' M KO fuel p p' q q' gs gs' H G L. pose proof (swapped_renamed n s O O' M KO) as X.
  repeat split; [apply (leading_same _ _ X)|apply (sort_same _ _ X)|apply (divide_same _ _ X)|apply (try_reduce_same _ _ X)|apply (criterion_same _ _ X)|apply (algorithm_same _ _ X)]; assumption.
Qed.
(** the relation is what it says: p' stands for p with x_(s i) put for x_i, and every polynomial in x_0, ..., x_(n-1) can be renamed *)
Theorem C116_meaning : forall {F : FieldImpl} {K : MathField} (FS : FieldSpec F K) n s, injective_on n s ->
  (forall p p' : poly F, renamed n s p p' -> peq (ip FS p') (psubst (fun i => pvar (s i)) (ip FS p))) /\
  forall p : poly F, (forall t, In t p -> mwf (tdeg t) /\ forall i, n <= i -> expo (tdeg t) i = 0) -> exists p', renamed n s p p'.
Proof.
  intros F K FS n s J. split; [intros p p'; apply renamed_subst; exact J|].
  induction p as [|t p IH]; intros H; [exists []; constructor|]. destruct IH as [p' Hp]; [intros u Hu; apply H; right; exact Hu|].
  destruct (H t (or_introl eq_refl)) as [W Z]. destruct (renamed_deg_exists n s _ J W Z) as [d Hd].
  exists (mkterm (coef t) d :: p'). constructor; [split; [reflexivity|exact Hd]|exact Hp].
Qed.

(** ** Examples *)
Notation R := (rat_impl Debug).
Definition rn_t (n d : Z) (e : mdeg) : term R := @mkterm R (mkrat n d) e.
Definition renamed_check (n : nat) (s : nat -> nat) (a a' : mdeg) : bool :=
  (length a <=? n) && negb (last a 1 =? 0) && negb (last a' 1 =? 0) && forallb (fun x => x <=? 255) a && forallb (fun x => x <=? 255) a' &&
  forallb (fun i => expo a' (s i) =? expo a i) (seq 0 n) &&
  forallb (fun j => existsb (fun i => s i =? j) (seq 0 n) || (expo a' j =? 0)) (seq 0 (length a')).
Lemma last_canonical a : negb (last a 1 =? 0) = true -> canonical a.
Proof.
  intros H. apply Bool.negb_true_iff, Nat.eqb_neq in H. intros E. apply H. destruct a as [|x a]; [discriminate|]. rewrite <- E. clear H E.
  revert x. induction a as [|y a IH]; intros x; [reflexivity|]. exact (IH y).
Qed.
Lemma renamed_checked n s a a' : renamed_check n s a a' = true -> renamed_deg n s a a'.
Proof.
  unfold renamed_check. rewrite !Bool.andb_true_iff. intros ((((((L & C) & C') & U) & U') & E) & N). apply Nat.leb_le in L.
  rewrite forallb_forall in E, N. split; [split; [apply last_canonical; exact C|apply forallb_u8; exact U]|].
  split; [split; [apply last_canonical; exact C'|apply forallb_u8; exact U']|]. split; [intros i Hi; apply expo_over; lia|]. split.
  - intros i Hi. apply Nat.eqb_eq, E, in_seq. lia.
  - intros j H. destruct (Nat.lt_ge_cases j (length a')) as [Lj|Lj]; [|apply expo_over; exact Lj].
    specialize (N j ltac:(apply in_seq; lia)). apply Bool.orb_true_iff in N as [N|N]; [|apply Nat.eqb_eq; exact N].
    apply existsb_exists in N as (i & Hi & Ei). apply Nat.eqb_eq in Ei. apply in_seq in Hi. destruct (H i ltac:(lia) Ei).
Qed.
Ltac renamed_tac := repeat (constructor; [repeat (constructor; [split; [reflexivity|apply renamed_checked; reflexivity]|]); constructor|]); constructor.

(** the cusp (x, x^2, x^3): y - x^2, z - x^3, then with the variables 0, 1, 2 called 1, 3, 4 *)
Definition rn_cusp : list (poly R) := [[rn_t 1 1 [0; 1]; rn_t (-1) 1 [2]]; [rn_t 1 1 [0; 0; 1]; rn_t (-1) 1 [3]]].
Definition rn_up (i : nat) : nat := match i with O => 1 | S O => 3 | _ => 2 + i end.
Definition rn_cusp_up : list (poly R) := [[rn_t 1 1 [0; 0; 0; 1]; rn_t (-1) 1 [0; 2]]; [rn_t 1 1 [0; 0; 0; 0; 1]; rn_t (-1) 1 [0; 3]]].
Definition rn_down (i : nat) : nat := 2 - i.
Definition rn_cusp_down : list (poly R) := [[rn_t 1 1 [0; 1]; rn_t (-1) 1 [0; 0; 2]]; [rn_t 1 1 [1]; rn_t (-1) 1 [0; 0; 3]]].
Example C116_hyps : increasing_on 3 rn_up /\ Forall2 (renamed 3 rn_up) rn_cusp rn_cusp_up /\
  decreasing_on 3 rn_down /\ Forall2 (renamed 3 rn_down) rn_cusp rn_cusp_down.
Proof.
  split; [intros [|[|[|i]]] [|[|[|j]]] H G; cbn; lia|]. split; [renamed_tac|].
  split; [intros [|[|[|i]]] [|[|[|j]]] H G; cbn; lia|]. renamed_tac.
Qed.
Example C116_ex_runs :
  buchberger_algorithm Debug lex_cmp 30 rn_cusp = Ok
    [[rn_t 1 1 [0; 1]; rn_t (-1) 1 [2]]; [rn_t 1 1 [1; 1]; rn_t (-1) 1 [0; 0; 1]];
     [rn_t 1 1 [1; 0; 1]; rn_t (-1) 1 [0; 2]]; [rn_t 1 1 [0; 3]; rn_t (-1) 1 [0; 0; 2]]] /\
  buchberger_algorithm Debug lex_cmp 30 rn_cusp_up = Ok
    [[rn_t 1 1 [0; 0; 0; 1]; rn_t (-1) 1 [0; 2]]; [rn_t 1 1 [0; 1; 0; 1]; rn_t (-1) 1 [0; 0; 0; 0; 1]];
     [rn_t 1 1 [0; 1; 0; 0; 1]; rn_t (-1) 1 [0; 0; 0; 2]]; [rn_t 1 1 [0; 0; 0; 3]; rn_t (-1) 1 [0; 0; 0; 0; 2]]] /\
  buchberger_algorithm Debug revlex_cmp 30 rn_cusp_down = Ok
    [[rn_t 1 1 [0; 1]; rn_t (-1) 1 [0; 0; 2]]; [rn_t 1 1 [0; 1; 1]; rn_t (-1) 1 [1]];
     [rn_t 1 1 [1; 0; 1]; rn_t (-1) 1 [0; 2]]; [rn_t 1 1 [0; 3]; rn_t (-1) 1 [2]]].
Proof. repeat split; reflexivity. Qed.
(** a renaming that is not monotone does change leading terms: x_0 + x_1 with the two variables exchanged *)
Definition rn_swap (i : nat) : nat := 1 - i.
Example C116_ex_swap : injective_on 2 rn_swap /\ renamed 2 rn_swap ([rn_t 1 1 [1]; rn_t 1 1 [0; 1]] : poly R) [rn_t 1 1 [0; 1]; rn_t 1 1 [1]] /\
  leading_term lex_cmp ([rn_t 1 1 [1]; rn_t 1 1 [0; 1]] : poly R) = Ok (Some (rn_t 1 1 [1])) /\
  leading_term lex_cmp ([rn_t 1 1 [0; 1]; rn_t 1 1 [1]] : poly R) = Ok (Some (rn_t 1 1 [1])) /\
  ~ renamed_term 2 rn_swap (rn_t 1 1 [1]) (rn_t 1 1 [1]).
Proof.
  split; [intros [|[|i]] [|[|j]]; cbn; lia|].
  split; [repeat (constructor; [split; [reflexivity|apply renamed_checked; reflexivity]|]); constructor|].
  split; [reflexivity|]. split; [reflexivity|]. intros [_ (_ & _ & _ & E & _)]. specialize (E 0 ltac:(lia)). discriminate E.
Qed.

Print Assumptions C116_arith.
Print Assumptions C116_increasing.
Print Assumptions C116_reversing.
Print Assumptions C116_meaning.
