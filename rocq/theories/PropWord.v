(** * Property C139: the word problem of commutative monoids.

    The relations x^a = x^b of a commutative monoid are given to buchberger_algorithm as the polynomials x^a - x^b.  Dividing by
    the result decides which products of generators are equal in every commutative monoid with these relations, and the
    remainder of a monomial is its normal form. *)
From Coq Require Import ZArith QArith Qcanon.
From Verif Require Import Base BaseLemmas IntModel RatModel FieldIface RatProofs MDegModel OrdModel PolyModel CompModel
  MonoSpec MDegProofs OrdProofs PolySpec PolyProofs GroebnerSpec DivProofs DivSpec GbProofs CompMono PropPoly PropDiv PropGb PropGraded PropSparse WordSpec.
From Coq Require Import Lia Ring Field Setoid Morphisms.
Local Open Scope nat_scope.

(** [g] is x^a - x^b *)
Definition relator {F : FieldImpl} {K : MathField} (FS : FieldSpec F K) (g : poly F) (ab : mono * mono) : Prop :=
  pwf FS g /\ g <> [] /\ peq (ip FS g) (psub (pterm k1 (fst ab)) (pterm k1 (snd ab))).

Lemma Forall2_in_l {A B : Type} (P : A -> B -> Prop) l l' x : Forall2 P l l' -> In x l -> exists y, In y l' /\ P x y.
Proof. induction 1 as [|a b l l' H _ IH]; intros I; [destruct I|]. destruct I as [->|I]; [exists b; split; [left; reflexivity|exact H]|]. destruct (IH I) as (y & Iy & Hy). exists y. split; [right; exact Iy|exact Hy]. Qed.
Lemma Forall2_in_r {A B : Type} (P : A -> B -> Prop) l l' y : Forall2 P l l' -> In y l' -> exists x, In x l /\ P x y.
Proof. induction 1 as [|a b l l' H _ IH]; intros I; [destruct I|]. destruct I as [->|I]; [exists a; split; [left; reflexivity|exact H]|]. destruct (IH I) as (x & Ix & Hx). exists x. split; [right; exact Ix|exact Hx]. Qed.

Section PropWord.
Context {F : FieldImpl} {K : MathField} (FS : FieldSpec F K) {O : ord_impl} (OS : OrderSpec O).
Add Field Kf72 : (kth K).
Add Ring Pr72 : (@poly_ring K) (setoid (@peq_equiv K) (@poly_ring_ext K)).
Notation poly := (poly F).
Notation val := (ip FS).
Notation clean := (pwf FS).
Notation lt := (olt OS).
Notation le := (mle lt).
Notation mon t := (canon (tdeg t)).
Notation LM := (is_lm lt).
Let laws := olaws _ OS.

Lemma relators_clean (gens : list poly) R : Forall2 (relator FS) gens R -> Forall clean gens /\ Forall (fun g => g <> []) gens /\ Forall (fun g : poly => length g <= 2) gens.
Proof.
  induction 1 as [|g [a b] gens R (W & N & E) _ (A & B & C)]; [repeat constructor|]. cbn [fst snd] in E. split; [constructor; assumption|]. split; [constructor; assumption|]. constructor; [|exact C].
  change 2 with (length [a; b]). apply (count_le FS); [exact W|]. intros m Hm. rewrite E in Hm.
  rewrite coeff_sub, !coeff_pterm in Hm. cbn [In].
  destruct (mono_dec a m) as [Ea|Na]; [auto|]. destruct (mono_dec b m) as [Eb|Nb]; [auto|]. exfalso. apply Hm. ring.
Qed.
Lemma relators_ideal (gens : list poly) R : Forall2 (relator FS) gens R -> forall p, in_ideal (map val gens) p <-> in_ideal (map (fun ab => pdiff (fst ab) (snd ab)) R) p.
Proof.
  intros H p. split; apply in_ideal_sub_ideal; intros g I.
  - apply in_map_iff in I as (g0 & <- & I). destruct (Forall2_in_l _ _ _ _ H I) as (ab & Iab & (_ & _ & E)). apply in_ideal_gen_eq with (h := pdiff (fst ab) (snd ab)); [apply in_map_iff; eauto|exact E].
  - apply in_map_iff in I as (ab & <- & I). destruct (Forall2_in_r _ _ _ _ H I) as (g0 & Ig & (_ & _ & E)). apply in_ideal_gen_eq with (h := val g0); [apply in_map; exact Ig|]. unfold pdiff. rewrite E. reflexivity.
Qed.

Lemma relator_two (s t : term F) : clean [s; t] -> den FS (coef s) = k1 -> den FS (coef t) = kopp k1 -> relator FS [s; t] (canon (tdeg s), canon (tdeg t)).
Proof.
  intros W Es Et. split; [exact W|]. split; [discriminate|]. intros phi. cbn [fst snd]. fold (pdiff (K := K) (canon (tdeg s)) (canon (tdeg t))). rewrite ev_pdiff. unfold ip. cbn [map ev fst snd].
  rewrite Es, Et. unfold ev. cbn [fold_right fst snd]. ring.
Qed.
Section Run.
Variable (gens out : list poly) (R : list (mono * mono)) (fuel : nat).
Hypothesis (HR : Forall2 (relator FS) gens R) (E : buchberger_algorithm Debug O fuel gens = Ok out).

Lemma out_facts : Forall clean out /\ groebner lt (map val out) /\ Forall (fun g : poly => length g <= 2) out /\
  forall p, in_ideal (map val out) p <-> in_ideal (map (fun ab => pdiff (fst ab) (snd ab)) R) p.
Proof.
  destruct (relators_clean gens R HR) as (W & N & S). destruct (algorithm_run FS OS fuel gens out W N E) as (A & B & C & _).
  split; [exact A|]. split; [exact C|]. split; [apply (C110_two_terms FS OS fuel gens out W S); auto|].
  intros p. rewrite <- (relators_ideal gens R HR p). exact (B p).
Qed.
Lemma word_congr n (f r : poly) qs u v : clean f -> peq (val f) (psub (pterm k1 u) (pterm k1 v)) ->
  divide Debug O n f out = Ok (r, qs) -> (r = [] <-> congr R u v).
Proof.
  intros W Ef D. destruct out_facts as (A & C & _ & B). rewrite (C45_membership FS OS n f out r qs W A C D), B, Ef.
  split; [apply ideal_congr|apply congr_ideal].
Qed.
Lemma nf_congr n (f r : poly) qs u : clean f -> peq (val f) (pterm k1 u) -> divide Debug O n f out = Ok (r, qs) ->
  exists t, r = [t] /\ den FS (coef t) = k1 /\ congr R u (mon t) /\ forall w, congr R u w -> le (mon t) w.
Proof.
  intros W Ef D. destruct out_facts as (A & C & S & B). destruct (divide_run FS OS n f out r qs W A D) as (Wr & _ & D').
  pose proof (div_ok_ideal OS _ _ _ _ D') as I. apply B in I.
  assert (Lf : length f <= 1).
  { change 1 with (length [u]). apply (count_le FS); [exact W|]. intros m Hm. rewrite Ef, coeff_pterm in Hm. left. destruct (mono_dec u m); [assumption|contradiction Hm; reflexivity]. }
  pose proof (C110_division FS OS n f out r qs W A S D) as Lr.
  pose proof (ideal_sum R _ I) as Z. unfold psub, padd in Z. rewrite ev_app, ev_popp in Z. rewrite (Ef _) in Z.
  assert (V0 : forall phi : mono -> K, ev (val []) phi = k0) by reflexivity.
  assert (V1 : forall c m (phi : mono -> K), ev (pterm c m) phi = kmul c (phi m)) by (intros c m phi; unfold pterm; cbn; ring).
  assert (V2 : forall x (phi : mono -> K), ev (val [x]) phi = kmul (den FS (coef x)) (phi (mon x))) by (intros x phi; apply V1).
  rewrite V1 in Z.
  destruct r as [|t [|t' r]]; [| |cbn in Lr; lia].
  { exfalso. apply (F_1_neq_0 (kth K)). rewrite V0 in Z. rewrite <- Z. ring. }
  exists t. split; [reflexivity|].
  assert (Ct : den FS (coef t) = k1).
  { rewrite V2 in Z. transitivity (ksub k1 (ksub k1 (den FS (coef t)))); [ring|].
    replace (ksub k1 (den FS (coef t))) with (k0 : K); [ring|]. rewrite <- Z. ring. }
  split; [exact Ct|].
  assert (Cg : congr R u (mon t)).
  { apply (ideal_congr (K := K)). rewrite Ef in I. assert (X : peq (pdiff u (mon t)) (psub (pterm k1 u) (val [t]))); [|rewrite X; exact I].
    intros phi. rewrite ev_pdiff. unfold psub, padd. rewrite ev_app, ev_popp, V1, V2, Ct. ring. }
  split; [exact Cg|]. intros w Cw. destruct (lt_total lt laws (mon t) w) as [X|[X|X]]; [left; exact X|right; exact X|]. exfalso.
  assert (Iw : in_ideal (map val out) (pdiff (mon t) w)).
  { apply B. apply congr_ideal. apply cg_trans with u; [apply cg_sym; exact Cg|exact Cw]. }
  assert (Lw : LM (pdiff (mon t) w : spoly K) (mon t)).
  { assert (X' : forall m, coeff (pdiff (mon t) w : spoly K) m = ksub (if mono_dec m (mon t) then k1 else k0) (if mono_dec m w then k1 else k0 : K)).
    { intros m. unfold pdiff. rewrite coeff_sub, !coeff_pterm.
      destruct (mono_dec (mon t) m), (mono_dec m (mon t)), (mono_dec w m), (mono_dec m w); try congruence; ring. }
    split.
    - rewrite X'. destruct (mono_dec (mon t) (mon t)) as [_|N]; [|contradiction]. destruct (mono_dec (mon t) w) as [Y|_]; [rewrite Y in X; contradiction (lt_irrefl lt laws _ X)|].
      intros Y. apply (F_1_neq_0 (kth K)). rewrite <- Y. ring.
    - intros m. rewrite X'. destruct (mono_dec m (mon t)) as [->|_]; [left; reflexivity|]. destruct (mono_dec m w) as [->|_]; [right; exact X|]. intros Y. contradiction Y. ring. }
  destruct (C _ _ Iw Lw) as (g & l & Ig & Lg & Dv). apply in_map_iff in Ig as (g0 & <- & Ig).
  exact (C33_remainder_reduced FS OS n f out [t] qs W A D t g0 l (or_introl eq_refl) Ig Lg Dv).
Qed.
End Run.

(** ** C139 *)
(** the remainder of x^u - x^v vanishes iff u = v holds in every commutative monoid with the relations *)
Theorem C139_word : forall (gens out : list poly) R fuel n (f r : poly) qs u v,
  Forall2 (relator FS) gens R -> buchberger_algorithm Debug O fuel gens = Ok out ->
  clean f -> peq (val f) (psub (pterm k1 u) (pterm k1 v)) -> divide Debug O n f out = Ok (r, qs) ->
  (r = [] <-> equal_in_models R u v).
Proof. intros gens out R fuel n f r qs u v HR E W Ef D. rewrite <- congr_models. apply (word_congr gens out R fuel HR E n f r qs u v W Ef D). Qed.
(** the remainder of a monomial is the smallest monomial equal to it, with the coefficient 1 *)
Theorem C139_normal_form : forall (gens out : list poly) R fuel n (f r : poly) qs u,
  Forall2 (relator FS) gens R -> buchberger_algorithm Debug O fuel gens = Ok out ->
  clean f -> peq (val f) (pterm k1 u) -> divide Debug O n f out = Ok (r, qs) ->
  exists t, r = [t] /\ den FS (coef t) = k1 /\ equal_in_models R u (mon t) /\ forall w, equal_in_models R u w -> le (mon t) w.
Proof.
  intros gens out R fuel n f r qs u HR E W Ef D. destruct (nf_congr gens out R fuel HR E n f r qs u W Ef D) as (t & Er & C & X & M).
  exists t. split; [exact Er|]. split; [exact C|]. split; [apply congr_models; exact X|]. intros w Hw. apply M. apply congr_models. exact Hw.
Qed.
End PropWord.

(** two monomials are equal in all models iff their remainders are the same monomial, and neither this nor the monomial depends on
    the number types *)
Theorem C139_same_normal_form : forall {F F' : FieldImpl} {K K' : MathField} (FS : FieldSpec F K) (FS' : FieldSpec F' K') {O : ord_impl} (OS : OrderSpec O)
  (gens out : list (poly F)) (gens' out' : list (poly F')) R fuel fuel' n n' (f r : poly F) (f' r' : poly F') qs qs' u v,
  Forall2 (relator FS) gens R -> Forall2 (relator FS') gens' R ->
  buchberger_algorithm Debug O fuel gens = Ok out -> buchberger_algorithm Debug O fuel' gens' = Ok out' ->
  pwf FS f -> peq (ip FS f) (pterm k1 u) -> divide Debug O n f out = Ok (r, qs) ->
  pwf FS' f' -> peq (ip FS' f') (pterm k1 v) -> divide Debug O n' f' out' = Ok (r', qs') ->
  (map tdeg r = map tdeg r' <-> equal_in_models R u v).
Proof.
  intros F F' K K' FS FS' O OS gens out gens' out' R fuel fuel' n n' f r f' r' qs qs' u v HR HR' E E' W Ef D W' Ef' D'.
  pose proof (proj1 (divide_run FS OS n f out r qs W (proj1 (out_facts FS OS gens out R fuel HR E)) D)) as Wr.
  pose proof (proj1 (divide_run FS' OS n' f' out' r' qs' W' (proj1 (out_facts FS' OS gens' out' R fuel' HR' E')) D')) as Wr'.
  destruct (nf_congr FS OS gens out R fuel HR E n f r qs u W Ef D) as (t & -> & _ & X & M).
  destruct (nf_congr FS' OS gens' out' R fuel' HR' E' n' f' r' qs' v W' Ef' D') as (t' & -> & _ & X' & M').
  rewrite <- congr_models. cbn [map]. split.
  - intros Q. injection Q as Q. apply cg_trans with (canon (tdeg t)); [exact X|]. rewrite Q. apply cg_sym. exact X'.
  - intros C. f_equal.
    assert (Q : canon (tdeg t) = canon (tdeg t')).
    { apply (mle_antisym (olt OS) (olaws _ OS)); [apply M|apply M'].
      - apply cg_trans with v; [exact C|exact X'].
      - apply cg_trans with u; [apply cg_sym; exact C|exact X]. }
    destruct (pwf_in FS [t] t Wr (or_introl eq_refl)) as (_ & _ & Ct & _). destruct (pwf_in FS' [t'] t' Wr' (or_introl eq_refl)) as (_ & _ & Ct' & _).
    apply canonical_ext; [exact Ct|exact Ct'|]. intros i. rewrite <- !canon_exp, Q. reflexivity.
Qed.

(** ** Concrete cases *)
Notation RR := (rat_impl Debug).
(** x^2 = y, x^3 = z: the relations y^3 = z^2 and x z = y^2 follow, y = z does not, and x^7 is y^2 z *)
Example C139_ex : Forall2 (relator rat_spec) [ex_ga; ex_gb] [(canon [2], canon [0; 1]); (canon [3], canon [0; 0; 1])] /\
  buchberger_algorithm Debug lex_cmp 40 [ex_ga; ex_gb] = Ok ex_gout /\
  divide Debug lex_cmp 40 ([ex_t 1 1 [0; 3]; ex_t (-1) 1 [0; 0; 2]] : poly RR) ex_gout = Ok ([], [[]; []; []; [ex_t 1 1 []]]) /\
  divide Debug lex_cmp 40 ([ex_t 1 1 [0; 1]; ex_t (-1) 1 [0; 0; 1]] : poly RR) ex_gout = Ok ([ex_t 1 1 [0; 1]; ex_t (-1) 1 [0; 0; 1]], [[]; []; []; []]) /\
  divide Debug lex_cmp 40 ([ex_t 1 1 [7]] : poly RR) ex_gout =
    Ok ([ex_t 1 1 [0; 2; 1]], [[ex_t 1 1 [5]; ex_t 1 1 [3; 1]; ex_t 1 1 [1; 2]]; [ex_t 1 1 [0; 2]]; []; []]).
Proof.
  split; [|split; [reflexivity|]].
  - constructor; [|constructor; [|constructor]]; (apply relator_two; [apply ex_clean; reflexivity|apply Qc_is_canon; reflexivity|apply Qc_is_canon; reflexivity]).
  - split; [reflexivity|]. split; reflexivity.
Qed.
(** coins: five of the first are one of the second, two of the second one of the third *)
Example C139_ex_coins : let gens : list (poly RR) := [[ex_t 1 1 [5]; ex_t (-1) 1 [0; 1]]; [ex_t 1 1 [0; 2]; ex_t (-1) 1 [0; 0; 1]]] in
  Forall2 (relator rat_spec) gens [(canon [5], canon [0; 1]); (canon [0; 2], canon [0; 0; 1])] /\
  buchberger_algorithm Debug lex_cmp 40 gens = Ok gens /\
  divide Debug lex_cmp 40 ([ex_t 1 1 [17]] : poly RR) gens =
    Ok ([ex_t 1 1 [2; 1; 1]], [[ex_t 1 1 [12]; ex_t 1 1 [7; 1]; ex_t 1 1 [2; 2]]; [ex_t 1 1 [2; 1]]]).
Proof.
  cbv zeta. split; [|split; [reflexivity|]].
  - constructor; [|constructor; [|constructor]]; (apply relator_two; [apply ex_clean; reflexivity|apply Qc_is_canon; reflexivity|apply Qc_is_canon; reflexivity]).
  - reflexivity.
Qed.

Print Assumptions C139_word.
Print Assumptions C139_normal_form.
Print Assumptions C139_same_normal_form.
