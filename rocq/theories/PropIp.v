(** * C147: systems of linear equations in natural numbers

    The columns of the system are given to buchberger_algorithm as the polynomials y_j - x^(column j).  Dividing x^b by the result
    solves the system for the right-hand side b: with Lex it finds the lexicographically smallest solution or shows that there is none. *)
From Coq Require Import ZArith QArith Qcanon.
From Verif Require Import Base BaseLemmas IntModel RatModel FieldIface RatProofs MDegModel OrdModel PolyModel CompModel
  MonoSpec MDegProofs OrdProofs PolySpec PolyProofs GroebnerSpec DivProofs DivSpec GbProofs CompMono PropPoly PropDiv PropGb PropGraded PropSparse IdealSpec WordSpec PropWord IpSpec.
From Coq Require Import Lia Ring Field Setoid Morphisms.
Local Open Scope nat_scope.

(** [v] solves the system with these columns: sum over j of v_j times entry i of column j is b_i, for all i below [p] *)
Definition solution (p : nat) (cols : list mono) (b : mono) (v : nat -> nat) : Prop :=
  forall i, i < p -> nsum (fun j => v j * mexp (nth j cols mone) i) (seq 0 (length cols)) = mexp b i.
(** the solution in the exponents of a monomial *)
Definition unknowns (p : nat) (m : mono) (j : nat) : nat := mexp m (p + j).
(** lexicographically smaller or equal on the first [q] unknowns *)
Definition lex_smaller (q : nat) (v w : nat -> nat) : Prop :=
  (forall j, j < q -> v j = w j) \/ exists k, k < q /\ v k < w k /\ forall j, j < k -> v j = w j.

Section PropIp.
Context {F : FieldImpl} {K : MathField} (FS : FieldSpec F K).
Notation poly := (poly F).
Notation val := (ip FS).
Notation clean := (pwf FS).
Notation mon t := (canon (tdeg t)).
Section Run.
Context {O : ord_impl} (OS : OrderSpec O).
Notation le := (mle (olt OS)).

(** for every order the remainder of x^b is the smallest of the monomials x^u y^v with u + A v = b *)
Theorem C147_least : forall p cols (gens out : list poly) fuel n (f r : poly) qs b,
  Forall (mvars p) cols -> Forall2 (relator FS) gens (column_relations p cols) -> buchberger_algorithm Debug O fuel gens = Ok out ->
  clean f -> mvars p b -> peq (val f) (pterm k1 b) -> divide Debug O n f out = Ok (r, qs) ->
  exists t, r = [t] /\ den FS (coef t) = k1 /\ mvars (p + length cols) (mon t) /\
    (forall i, i < p -> mexp (mon t) i + nsum (fun j => unknowns p (mon t) j * mexp (nth j cols mone) i) (seq 0 (length cols)) = mexp b i) /\
    forall m, mvars (p + length cols) m -> (forall i, i < p -> mexp m i + nsum (fun j => unknowns p m j * mexp (nth j cols mone) i) (seq 0 (length cols)) = mexp b i) -> le (mon t) m.
Proof.
  intros p cols gens out fuel n f r qs b VC HR E Wf Vb Ef D. destruct (nf_congr FS OS gens out _ fuel HR E n f r qs b Wf Ef D) as (t & Er & C & X & M).
  assert (Vb' : mvars (p + length cols) b) by (intros i Hi; apply Vb; lia).
  assert (Vt : mvars (p + length cols) (mon t)) by (intros i Hi; rewrite <- (congr_outside p cols VC _ _ X i Hi); apply Vb'; exact Hi).
  exists t. split; [exact Er|]. split; [exact C|]. split; [exact Vt|]. split.
  - intros i Hi. change (total p cols (mon t) i = mexp b i). rewrite <- (congr_total p cols VC _ _ X i Hi). apply total_vars. exact Vb.
  - intros m Vm Hm. apply M. apply (congr_iff p cols VC b m Vb' Vm). intros i Hi. rewrite (total_vars p cols b i Vb). symmetry. apply (Hm i Hi).
Qed.
End Run.

(** with Lex the system has a solution exactly if no x is left, and the y are then its smallest solution *)
Theorem C147_lex : forall p cols (gens out : list poly) fuel n (f r : poly) qs b,
  Forall (mvars p) cols -> Forall2 (relator FS) gens (column_relations p cols) -> buchberger_algorithm Debug lex_cmp fuel gens = Ok out ->
  clean f -> mvars p b -> peq (val f) (pterm k1 b) -> divide Debug lex_cmp n f out = Ok (r, qs) ->
  exists t, r = [t] /\ ((exists v, solution p cols b v) <-> forall i, i < p -> mexp (mon t) i = 0) /\
    ((forall i, i < p -> mexp (mon t) i = 0) -> solution p cols b (unknowns p (mon t)) /\
       forall v, solution p cols b v -> lex_smaller (length cols) (unknowns p (mon t)) v).
Proof.
  intros p cols gens out fuel n f r qs b VC HR E Wf Vb Ef D.
  destruct (C147_least lex_spec p cols gens out fuel n f r qs b VC HR E Wf Vb Ef D) as (t & Er & _ & Vt & Tt & M). exists t. split; [exact Er|].
  set (q := length cols) in *.
  assert (X : forall v, exists m, mvars (p + q) m /\ (forall i, i < p -> mexp m i = 0) /\ forall j, j < q -> unknowns p m j = v j).
  { intros v. exists (canon (repeat 0 p ++ map v (seq 0 q))).
    assert (Ex : forall i, mexp (canon (repeat 0 p ++ map v (seq 0 q))) i = if i <? p then 0 else if i <? p + q then v (i - p) else 0).
    { intros i. rewrite canon_exp. unfold expo. destruct (Nat.ltb_spec i p) as [H|H].
      - rewrite app_nth1 by (rewrite repeat_length; exact H). apply nth_repeat.
      - rewrite app_nth2 by (rewrite repeat_length; exact H). rewrite repeat_length. destruct (Nat.ltb_spec i (p + q)) as [H'|H'].
        + rewrite (nth_indep _ 0 (v 0)) by (rewrite map_length, seq_length; lia). rewrite map_nth, seq_nth by lia. reflexivity.
        + apply nth_overflow. rewrite map_length, seq_length. lia. }
    split; [|split].
    - intros i Hi. rewrite Ex. destruct (Nat.ltb_spec i p); [reflexivity|]. destruct (Nat.ltb_spec i (p + q)); [lia|reflexivity].
    - intros i Hi. rewrite Ex. destruct (Nat.ltb_spec i p); [reflexivity|lia].
    - intros j Hj. unfold unknowns. rewrite Ex. destruct (Nat.ltb_spec (p + j) p); [lia|]. destruct (Nat.ltb_spec (p + j) (p + q)); [|lia]. f_equal. lia. }
  assert (Y : forall v, solution p cols b v -> exists m, mvars (p + q) m /\ (forall i, i < p -> mexp m i = 0) /\ (forall j, j < q -> unknowns p m j = v j) /\ mle lex_lt (mon t) m).
  { intros v Sv. destruct (X v) as (m & Vm & Z & U). exists m. split; [exact Vm|]. split; [exact Z|]. split; [exact U|]. apply M; [exact Vm|]. intros i Hi. rewrite (Z i Hi). cbn.
    rewrite <- (Sv i Hi). apply nsum_ext. intros j Ij. apply in_seq in Ij. rewrite (U j) by lia. reflexivity. }
  split; [split|].
  - intros (v & Sv) i Hi. destruct (Y v Sv) as (m & _ & Z & _ & L). destruct L as [->|(k & Lk & Ek)]; [apply Z; exact Hi|].
    destruct (le_lt_dec k i) as [H|H]; [rewrite (Z k) in Lk by lia; lia|]. rewrite (Ek i H). apply Z. exact Hi.
  - intros Z. exists (unknowns p (mon t)). intros i Hi. rewrite <- (Tt i Hi), (Z i Hi). reflexivity.
  - intros Z. split; [intros i Hi; rewrite <- (Tt i Hi), (Z i Hi); reflexivity|]. intros v Sv. destruct (Y v Sv) as (m & Vm & Zm & U & L).
    destruct L as [->|(k & Lk & Ek)]; [left; exact U|]. right.
    assert (Hk : p <= k) by (destruct (le_lt_dec p k) as [H|H]; [exact H|rewrite (Zm k H) in Lk; lia]).
    destruct (le_lt_dec (p + q) k) as [H|H].
    + rewrite (Vm k H) in Lk. lia.
    + exists (k - p). split; [lia|]. unfold unknowns. replace (p + (k - p)) with k by lia. split.
      * rewrite <- (U (k - p)) by lia. unfold unknowns. replace (p + (k - p)) with k by lia. exact Lk.
      * intros j Hj. rewrite <- (U j) by lia. unfold unknowns. apply Ek. lia.
Qed.
End PropIp.

(** ** Concrete cases *)
Notation RR := (rat_impl Debug).
Definition ex_ip_cols : list mono := [canon [2; 1]; canon [1; 1]; canon [0; 2]].
Definition ex_ip : list (poly RR) :=
  [[ex_t 1 1 [0; 0; 1]; ex_t (-1) 1 [2; 1]]; [ex_t 1 1 [0; 0; 0; 1]; ex_t (-1) 1 [1; 1]]; [ex_t 1 1 [0; 0; 0; 0; 1]; ex_t (-1) 1 [0; 2]]].
Definition ex_ip_out : list (poly RR) :=
  [[ex_t 1 1 [0; 0; 0; 1]; ex_t (-1) 1 [1; 1]]; [ex_t 1 1 [0; 0; 0; 0; 1]; ex_t (-1) 1 [0; 2]]; [ex_t 1 1 [1; 0; 0; 1]; ex_t (-1) 1 [0; 0; 1]];
   [ex_t 1 1 [1; 0; 0; 0; 1]; ex_t (-1) 1 [0; 1; 0; 1]]; [ex_t 1 1 [0; 1; 1]; ex_t (-1) 1 [0; 0; 0; 2]];
   [ex_t 1 1 [0; 1; 0; 2]; ex_t (-1) 1 [0; 0; 1; 0; 1]]; [ex_t 1 1 [0; 0; 2; 0; 1]; ex_t (-1) 1 [0; 0; 0; 4]]].
(** 2 a + b = s, a + b + 2 c = t: for (4, 4) the solutions are (0, 4, 0) and (2, 0, 1), the first is found; for (3, 1) there is none *)
Example C147_ex : Forall (mvars 2) ex_ip_cols /\ Forall2 (relator rat_spec) ex_ip (column_relations 2 ex_ip_cols) /\
  buchberger_algorithm Debug lex_cmp 60 ex_ip = Ok ex_ip_out /\
  pwf rat_spec ([ex_t 1 1 [4; 4]] : poly RR) /\ mvars 2 (canon [4; 4]) /\ peq (ip rat_spec ([ex_t 1 1 [4; 4]] : poly RR)) (pterm k1 (canon [4; 4])) /\
  divide Debug lex_cmp 60 ([ex_t 1 1 [4; 4]] : poly RR) ex_ip_out =
    Ok ([ex_t 1 1 [0; 0; 0; 4]], [[ex_t (-1) 1 [3; 3]; ex_t (-1) 1 [2; 2; 0; 1]; ex_t (-1) 1 [1; 1; 0; 2]; ex_t (-1) 1 [0; 0; 0; 3]]; []; []; []; []; []; []]) /\
  divide Debug lex_cmp 60 ([ex_t 1 1 [3; 1]] : poly RR) ex_ip_out =
    Ok ([ex_t 1 1 [1; 0; 1]], [[ex_t (-1) 1 [2]]; []; [ex_t 1 1 [1]]; []; []; []; []]).
Proof.
  assert (V : forall a b, mvars 2 (canon [a; b])) by (intros a b i Hi; rewrite canon_exp; unfold expo; apply nth_overflow; cbn; lia).
  split; [repeat constructor; apply V|]. split.
  { unfold column_relations, ex_ip_cols. cbn [map seq length nth].
    assert (R : forall s t a b, canon (tdeg s) = a -> canon (tdeg t) = b -> pwf rat_spec ([s; t] : poly RR) -> den rat_spec (coef s) = k1 -> den rat_spec (coef t) = kopp k1 ->
      relator rat_spec ([s; t] : poly RR) (a, b)) by (intros s t a b <- <- W A B; exact (relator_two rat_spec s t W A B)).
    apply Forall2_cons; [|apply Forall2_cons; [|apply Forall2_cons; [|apply Forall2_nil]]]; apply R;
      try (apply ex_clean; reflexivity); try (apply Qc_is_canon; reflexivity); try reflexivity. }
  split; [reflexivity|]. split; [apply ex_clean; reflexivity|]. split; [apply V|]. split.
  { cbn [ip map]. assert (C : den rat_spec (coef (ex_t 1 1 [4; 4])) = k1) by (apply Qc_is_canon; reflexivity). unfold ip, it. cbn [map]. rewrite C. reflexivity. }
  split; reflexivity.
Qed.
Example C147_ex_solutions : solution 2 ex_ip_cols (canon [4; 4]) (fun j => nth j [0; 4; 0] 0) /\ solution 2 ex_ip_cols (canon [4; 4]) (fun j => nth j [2; 0; 1] 0) /\
  ~ lex_smaller 3 (fun j => nth j [2; 0; 1] 0) (fun j => nth j [0; 4; 0] 0).
Proof.
  split; [intros [|[|i]] Hi; [reflexivity|reflexivity|lia]|]. split; [intros [|[|i]] Hi; [reflexivity|reflexivity|lia]|].
  intros [H|([|k] & _ & L & H)]; [specialize (H 0 ltac:(lia)); discriminate|cbn in L; lia|specialize (H 0 ltac:(lia)); discriminate].
Qed.

Print Assumptions C147_least.
Print Assumptions C147_lex.
