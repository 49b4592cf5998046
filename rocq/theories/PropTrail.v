(** * Property C101: multidegrees with trailing zeros.

    [MultiDegree(pub Vec<u8>)] can be built with trailing zeros, and [trim_zeros] leaves a vector of
    zeros as it is.  Which operations still do what they say, and what a division does then. *)
From Coq Require Import QArith Qcanon.
From Verif Require Import Base BaseLemmas IntModel RatModel FieldIface RatProofs MDegModel OrdModel PolyModel CompModel
  MonoSpec MDegProofs OrdProofs PolySpec PolyProofs DivProofs PropOrd PropUnclean.
From Coq Require Import Lia.

Local Open Scope nat_scope.

(** the same monomial *)
Definition same (a b : mdeg) : Prop := forall i, expo a i = expo b i.

(** ** subtraction *)
Lemma expo_pad l n i : expo (l ++ repeat 0 n) i = expo l i.
Proof.
  unfold expo. destruct (Nat.lt_ge_cases i (length l)) as [H|H].
  - apply app_nth1. exact H.
  - rewrite app_nth2 by exact H. rewrite (nth_overflow l 0 H). generalize (i - length l). clear.
    induction n as [|n IH]; intros [|k]; cbn; auto.
Qed.
Lemma sub_loop_expo ps : forall degs zc d, checked_sub_loop ps degs zc = Some d ->
  forallb eb_ge ps = true /\ forall i, expo d i = expo (degs ++ repeat 0 zc ++ map eb_sub ps) i.
Proof.
  induction ps as [|[a b|a|b] ps IH]; intros degs zc d E; cbn [checked_sub_loop] in E.
  - injection E as <-. split; [reflexivity|]. intros i. cbn [map]. rewrite app_nil_r. symmetry. apply expo_pad.
  - cbn [forallb map eb_ge eb_sub]. destruct (Nat.compare_spec a b) as [->|H|H]; [|discriminate|]; apply IH in E as [A B].
    + rewrite Nat.leb_refl. split; [exact A|]. intros i. rewrite B, Nat.sub_diag, repeat_snoc. reflexivity.
    + assert (b <=? a = true) as -> by (apply Nat.leb_le; lia). split; [exact A|]. intros i. rewrite B.
      cbn [repeat app]. rewrite <- !app_assoc. reflexivity.
  - apply IH in E as [A B]. split; [exact A|]. intros i. rewrite B. cbn [repeat app map eb_sub]. rewrite <- !app_assoc. reflexivity.
  - discriminate.
Qed.
Lemma ge_expo a : forall b, forallb eb_ge (zip_longest a b) = true -> forall i, expo b i <= expo a i.
Proof.
  induction a as [|x a IH]; intros [|y b] H i; cbn in H; try discriminate; try (rewrite expo_nil; lia).
  apply andb_true_iff in H as [A B]. apply Nat.leb_le in A. destruct i as [|i]; [exact A|]. exact (IH b B i).
Qed.
Lemma loop_some ps : forallb eb_ge ps = true -> forall degs zc, checked_sub_loop ps degs zc <> None.
Proof.
  induction ps as [|[a b|a|b] ps IH]; intros H degs zc; cbn [checked_sub_loop]; try discriminate.
  - cbn in H. apply andb_true_iff in H as [A B]. apply Nat.leb_le in A.
    destruct (Nat.compare_spec a b); [apply IH; exact B|lia|apply IH; exact B].
  - apply IH. exact H.
Qed.

(** a difference that is returned is right, for all vectors; one is returned whenever it exists and the
    subtrahend has no trailing zero *)
Theorem C101_checked_sub : forall a b,
  (forall d, mdeg_checked_sub a b = Some d -> forall i, expo b i + expo d i = expo a i) /\
  (canonical b -> (forall i, expo b i <= expo a i) -> mdeg_checked_sub a b <> None).
Proof.
  intros a b. split.
  - intros d. unfold mdeg_checked_sub. destruct b as [|y b]; cbn [mdeg_is_zero].
    { intros E i. injection E as <-. rewrite expo_nil. reflexivity. }
    destruct a as [|x a]; cbn [mdeg_is_zero]; [discriminate|]. intros E i. apply sub_loop_expo in E as [A B].
    rewrite B. cbn [repeat app]. rewrite (zip_longest_map eb_sub Nat.sub); try reflexivity; [|intros; cbn; lia].
    rewrite (lzip_expo Nat.sub eq_refl). pose proof (ge_expo _ _ A i). lia.
  - intros Cb H. unfold mdeg_checked_sub. destruct b as [|y b]; cbn [mdeg_is_zero]; [discriminate|].
    destruct a as [|x a]; cbn [mdeg_is_zero].
    { exfalso. apply (canonical_last _ Cb); [discriminate|]. specialize (H (length (y :: b) - 1)). rewrite expo_nil in H. lia. }
    apply loop_some. apply zip_ge_spec; assumption.
Qed.
Theorem C101_checked_sub_refuted : exists a b, (forall i, expo b i <= expo a i) /\ mdeg_checked_sub a b = None.
Proof. exists [1], [1; 0]. split; [|reflexivity]. intros [|[|i]]; cbn; [lia|lia|]. destruct i; cbn; lia. Qed.

(** ** divisibility *)
Theorem C101_is_succ : forall a b, mdeg_is_succ a b = true -> forall i, expo a i <= expo b i.
Proof.
  intros a b. unfold mdeg_is_succ, mdeg_len. destruct (Nat.ltb_spec (length b) (length a)) as [L|L]; [discriminate|].
  intros H. apply zip_le_spec; assumption.
Qed.
Theorem C101_is_succ_refuted : exists a b, (forall i, expo a i <= expo b i) /\ mdeg_is_succ a b = false.
Proof. exists [1; 0], [1]. split; [|reflexivity]. intros [|[|i]]; cbn; [lia|lia|]. destruct i; cbn; lia. Qed.

(** ** orders *)
Lemma lex_distinct a : forall b, lex_loop a b <> Eq \/ same a b.
Proof.
  induction a as [|x a IH]; intros [|y b]; cbn; try (left; discriminate); [right; intros i; reflexivity|].
  destruct (Nat.compare_spec x y) as [->|H|H]; try (left; discriminate).
  destruct (IH b) as [N|S]; [left; exact N|]. right. intros [|i]; [reflexivity|exact (S i)].
Qed.
Lemma lex_first a : forall b, lex_loop a b <> Eq -> ~ same a b ->
  exists k, (forall i, i < k -> expo a i = expo b i) /\
    match lex_loop a b with Lt => expo a k < expo b k | Gt => expo b k < expo a k | Eq => False end.
Proof.
  assert (Z : forall l : list nat, (exists k, (forall i, i < k -> expo l i = 0) /\ 0 < expo l k) \/ same [] l).
  { induction l as [|x l [(k & A & B)|S]]; [right; intros i; reflexivity| |].
    - destruct x as [|x].
      + left. exists (Datatypes.S k). split; [|exact B]. intros [|i] Hi; [reflexivity|]. apply (A i). lia.
      + left. exists 0. split; [intros i Hi; lia|cbn; lia].
    - destruct x as [|x].
      + right. intros [|i]; [reflexivity|]. rewrite expo_nil. pose proof (S i) as E. rewrite expo_nil in E. exact E.
      + left. exists 0. split; [intros i Hi; lia|cbn; lia]. }
  induction a as [|x a IH]; intros [|y b] N D; cbn [lex_loop] in *.
  - contradiction.
  - destruct (Z (y :: b)) as [(k & A & B)|S]; [|contradiction]. exists k. split; [|rewrite expo_nil; exact B].
    intros i Hi. rewrite expo_nil. symmetry. apply A. exact Hi.
  - destruct (Z (x :: a)) as [(k & A & B)|S]; [|exfalso; apply D; intros i; symmetry; apply S].
    exists k. split; [|rewrite expo_nil; exact B]. intros i Hi. rewrite expo_nil. apply A. exact Hi.
  - destruct (Nat.compare_spec x y) as [->|H|H].
    + destruct (IH b N) as (k & A & B). { intros S. apply D. intros [|i]; [reflexivity|exact (S i)]. }
      exists (S k). split; [|exact B]. intros [|i] Hi; [reflexivity|]. apply (A i). lia.
    + exists 0. split; [intros i Hi; lia|exact H].
    + exists 0. split; [intros i Hi; lia|exact H].
Qed.

(** Lex and GrLex order different monomials correctly whatever the trailing zeros *)
Theorem C101_lex : forall a b c, lex_cmp a b = Ok c -> ~ same a b ->
  exists k, (forall i, i < k -> expo a i = expo b i) /\
    match c with Lt => expo a k < expo b k | Gt => expo b k < expo a k | Eq => False end.
Proof.
  intros a b c E D. injection E as <-. apply lex_first; [|exact D]. destruct (lex_distinct a b); [assumption|contradiction].
Qed.
Theorem C101_grlex : forall a b c, grlex_cmp Debug a b = Ok c -> ~ same a b ->
  match c with
  | Lt => list_sum a < list_sum b \/ list_sum a = list_sum b /\ exists k, expo a k < expo b k /\ forall i, i < k -> expo a i = expo b i
  | Gt => list_sum b < list_sum a \/ list_sum a = list_sum b /\ exists k, expo b k < expo a k /\ forall i, i < k -> expo a i = expo b i
  | Eq => False
  end.
Proof.
  intros a b c E D. unfold grlex_cmp, grad in E. rewrite !total_deg_debug in E.
  destruct (list_sum a <=? 255); [|discriminate]. destruct (list_sum b <=? 255); [|discriminate]. cbn [bind] in E.
  destruct (Nat.compare_spec (list_sum a) (list_sum b)) as [S|S|S].
  - destruct (C101_lex a b c E D) as (k & A & B). destruct c; [exact B|right; split; [exact S|]; exists k; split; assumption..].
  - injection E as <-. left. exact S.
  - injection E as <-. left. exact S.
Qed.
(** RevLex and GRevLex do not: 1 written (0,0) is above x, and x^2 written (2,0,0) below xy *)
Theorem C101_revlex_refuted : 
  (exists a b, ~ same a b /\ revlex_cmp a b = Ok Lt /\ revlex_cmp (mdeg_from_vec a) (mdeg_from_vec b) = Ok Gt) /\
  (exists a b, ~ same a b /\ grevlex_cmp Debug a b = Ok Lt /\ grevlex_cmp Debug (mdeg_from_vec a) (mdeg_from_vec b) = Ok Gt).
Proof.
  split; [exists [1], [0; 0]|exists [2; 0; 0], [1; 1]];
    (split; [intros S; specialize (S 0); discriminate|split; reflexivity]).
Qed.

(** two forms of one monomial are never equal to an order, only their lengths are compared *)
Lemma lex_same a : forall b, same a b -> lex_loop a b = (length a ?= length b).
Proof.
  induction a as [|x a IH]; intros [|y b] S; try reflexivity. cbn [lex_loop length Nat.compare].
  pose proof (S 0) as E. cbn in E. subst y. rewrite Nat.compare_refl. apply IH. intros i. exact (S (Datatypes.S i)).
Qed.
Lemma sum_same a : forall b, same a b -> list_sum a = list_sum b.
Proof.
  assert (Z : forall l : list nat, same [] l -> list_sum l = 0).
  { induction l as [|x l IH]; intros S; [reflexivity|]. pose proof (S 0) as E. cbn in E. subst x. cbn. apply IH.
    intros i. specialize (S (Datatypes.S i)). rewrite expo_nil in *. exact S. }
  induction a as [|x a IH]; intros b S.
  - symmetry. apply Z. exact S.
  - destruct b as [|y b]; [apply Z; intros i; symmetry; apply S|]. pose proof (S 0) as E. cbn in E. subst y. cbn. f_equal.
    apply IH. intros i. exact (S (Datatypes.S i)).
Qed.
Lemma first_diff_refl (l : list nat) : first_diff (rev (combine l l)) = Eq.
Proof.
  assert (G : forall ps, Forall (fun p : nat * nat => fst p = snd p) ps -> first_diff ps = Eq).
  { induction 1 as [|[x y] ps E H IH]; [reflexivity|]. cbn in *. subst y. rewrite Nat.compare_refl. exact IH. }
  apply G. apply Forall_rev. induction l; cbn; constructor; auto.
Qed.
Lemma same_eq a : forall b, same a b -> length a = length b -> a = b.
Proof.
  induction a as [|x a IH]; intros [|y b] S L; try discriminate; [reflexivity|]. pose proof (S 0) as E. cbn in E. subst y. f_equal.
  apply IH; [intros i; exact (S (Datatypes.S i))|injection L as L; exact L].
Qed.
Lemma revlex_same a b : same a b -> revlex_loop a b = (length a ?= length b).
Proof.
  intros S. unfold revlex_loop, mdeg_len. destruct (Nat.compare_spec (length a) (length b)) as [L|L|L]; try reflexivity.
  rewrite (same_eq a b S L). apply first_diff_refl.
Qed.
Theorem C101_same_monomial : forall a b, same a b ->
  lex_cmp a b = Ok (length a ?= length b) /\ revlex_cmp a b = Ok (length a ?= length b) /\
  (forall c, grlex_cmp Debug a b = Ok c -> c = (length a ?= length b)) /\
  (forall c, grevlex_cmp Debug a b = Ok c -> c = (length b ?= length a)).
Proof.
  intros a b S. unfold lex_cmp, revlex_cmp, grlex_cmp, grevlex_cmp, grad, lex_cmp, revlex_cmp.
  rewrite (lex_same a b S), (revlex_same a b S), !total_deg_debug, (sum_same a b S).
  split; [reflexivity|]. split; [reflexivity|].
  destruct (list_sum b <=? 255); [|split; discriminate]. cbn [bind]. rewrite Nat.compare_refl. cbn [bind].
  split; intros c E; injection E as <-; [reflexivity|]. symmetry. apply Nat.compare_antisym.
Qed.

(** ** division *)
Section Div.
Context {F : FieldImpl} {K : MathField} (FS : FieldSpec F K).
Notation term := (term F).
Notation poly := (poly F).
Context (O : ord_impl) (t g : term) (Rt : rawt FS t) (Rg : rawt FS g) (Nt : term_is_zero t = false) (Ng : term_is_zero g = false)
  (Ct : ~ canonical (tdeg t)) (Dv : mdeg_checked_sub (tdeg t) (tdeg g) <> None).
Notation u := (ltrim (tdeg t)).
Context (Oc : forall x, O (tdeg t) u = Ok x -> x <> Eq).

Lemma u_ne : mdeg_eqb (tdeg t) u = false.
Proof.
  destruct (mdeg_eqb (tdeg t) u) eqn:E; [|reflexivity]. apply mdeg_eqb_eq in E. exfalso. apply Ct. rewrite E. apply ltrim_canonical.
Qed.
Definition state (f : poly) : Prop := f = [t] \/ exists w, f = [t; w] /\ rawt FS w /\ tdeg w = u.

Lemma state_add f w f' : state f -> rawt FS w -> tdeg w = u -> poly_add_term f w = Ok f' -> state f'.
Proof.
  intros Sf Rw Dw E. unfold poly_add_term in E.
  destruct Sf as [-> | (v & -> & Rv & Dv')]; cbn [poly_is_zero] in E; destruct (term_is_zero w) eqn:Zw.
  - injection E as <-. left. reflexivity.
  - cbn [position] in E. rewrite Dw, u_ne in E. cbn in E. injection E as <-. right. exists w. auto.
  - injection E as <-. right. exists v. auto.
  - cbn [position] in E. rewrite Dw, u_ne, Dv', (proj2 (mdeg_eqb_eq u u) eq_refl) in E. cbn [option_map vget nth_error bind] in E.
    cbv zeta in E. apply bind_Ok in E as (c & Ec & E).
    destruct (safe_val _ _ _ (add_ok _ _ FS _ _ (proj1 Rv) (proj1 Rw)) Ec) as [Wc _].
    rewrite Dv' in E. destruct (term_is_zero (@mkterm F c u)); injection E as <-.
    + left. reflexivity.
    + right. eexists. split; [reflexivity|]. split; [split; [exact Wc|]|reflexivity]. cbn. apply ltrim_u8. apply Rt.
Qed.
Lemma prod_deg (s a w : term) : rawt FS a -> tdeg s = tdeg t \/ tdeg s = u -> 
  mdeg_checked_sub (tdeg s) (tdeg g) = Some (tdeg a) -> term_is_zero a = false -> term_mul Debug g a = Ok w -> rawt FS w /\ tdeg w = u.
Proof.
  intros Ra Ds E Na Ew. pose proof (safe_val _ _ _ (term_mul_raw FS g a Rg Ra) Ew) as (Rw & Cw & _). split; [exact Rw|].
  unfold term_mul in Ew. rewrite Ng, Na in Ew. cbn [orb] in Ew. apply bind_Ok in Ew as (c & _ & Ew).
  apply bind_Ok in Ew as (d & Ed & Ew). injection Ew as <-. cbn [tdeg] in *.
  destruct (C101_checked_sub (tdeg s) (tdeg g)) as [X _]. specialize (X _ E).
  apply canonical_ext; [exact Cw|apply ltrim_canonical|]. intros i.
  rewrite mdeg_add_debug in Ed by (try apply Rg; apply Ra). destruct (forallb _ _); [|discriminate]. injection Ed as <-.
  rewrite !ltrim_expo, (lzip_expo Nat.add eq_refl), X. destruct Ds as [-> | ->]; [reflexivity|apply ltrim_expo].
Qed.
Lemma state_step f (s a : term) ag f' : state f -> rawt FS s -> tdeg s = tdeg t \/ tdeg s = u -> term_try_div s g = Ok (Some a) ->
  term_mul_poly Debug a [g] = Ok ag -> poly_sub f ag = Ok f' -> state f'.
Proof.
  intros Sf Rs Ds Ea Eag Ef. pose proof (try_div_raw FS s g (Some a) Rs Rg Ea) as Ra. cbv beta iota in Ra.
  unfold term_mul_poly, poly_mul_term in Eag. destruct (term_is_zero a) eqn:Za.
  { cbn [orb] in Eag. injection Eag as <-. cbn in Ef. injection Ef as <-. exact Sf. }
  cbn [orb poly_is_zero mapM] in Eag. apply bind_Ok in Eag as (w & Ew & Eag). cbn [bind] in Eag. injection Eag as <-.
  assert (Es : mdeg_checked_sub (tdeg s) (tdeg g) = Some (tdeg a)).
  { unfold term_try_div in Ea. destruct (term_is_zero s).
    - injection Ea as <-. exfalso. unfold term_is_zero in Za. cbn in Za. rewrite (proj2 (eqb0 _ _ FS _ (wf0 _ _ FS)) (den0 _ _ FS)) in Za. discriminate.
    - rewrite Ng in Ea. apply bind_Ok in Ea as (c & _ & Ea). destruct (mdeg_checked_sub (tdeg s) (tdeg g)); [|discriminate]. injection Ea as <-. reflexivity. }
  destruct (prod_deg s a w Ra Ds Es Za Ew) as [Rw Dw].
  unfold poly_sub, poly_neg in Ef. cbn [mapM] in Ef. apply bind_Ok in Ef as (nl & En & Ef).
  apply bind_Ok in En as (nw & Enw & En). cbn [bind] in En. injection En as <-.
  destruct (safe_val _ _ _ (term_neg_raw FS w Rw) Enw) as [Rnw _].
  assert (Dnw : tdeg nw = u).
  { unfold term_neg in Enw. apply bind_Ok in Enw as (c & _ & Enw). injection Enw as <-. exact Dw. }
  unfold poly_add in Ef. cbn [foldM] in Ef. apply bind_Ok in Ef as (f'' & Ef & Ef'). injection Ef' as ->.
  exact (state_add f nw f' Sf Rnw Dnw Ef).
Qed.
Lemma t_divides o : term_try_div t g = Ok o -> o <> None.
Proof.
  unfold term_try_div. rewrite Nt, Ng. intros E. apply bind_Ok in E as (c & _ & E).
  destruct (mdeg_checked_sub (tdeg t) (tdeg g)); [|contradiction]. injection E as <-. discriminate.
Qed.
Lemma state_loop fuel : forall f q rem r qs, state f -> divide_loop Debug O fuel f [[g]] [q] rem <> Ok (r, qs).
Proof.
  induction fuel as [|fuel IH]; intros f q rem r qs Sf E; cbn [divide_loop] in E; apply bind_Ok in E as (o & Eo & E).
  { pose proof (max_by_in _ _ _ Eo) as X. destruct o; [discriminate|]. destruct Sf as [-> | (w & -> & _)]; discriminate. }
  assert (L : exists s, o = Some s /\ rawt FS s /\ (s = t \/ tdeg s = u /\ f = [t; s] /\ O (tdeg t) u = Ok Lt)).
  { destruct Sf as [-> | (w & -> & Rw & Dw)].
    - injection Eo as <-. exists t. auto.
    - unfold leading_term, max_by in Eo. cbn [foldM] in Eo. apply bind_Ok in Eo as (z & Ez & Eo). injection Eo as <-.
      apply bind_Ok in Ez as (z' & Ez & Ez'). injection Ez' as ->. apply bind_Ok in Ez as (c & Ec & Ez). injection Ez as <-.
      unfold term_cmp in Ec. rewrite Dw in Ec. destruct c.
      + exfalso. exact (Oc _ Ec eq_refl).
      + exists w. auto 8.
      + exists t. auto. }
  destruct L as (s & -> & Rs & Cs). apply bind_Ok in E as (o & Et & E).
  cbn [try_divisors] in Et. change (leading_term O [g]) with (@Ok (option term) (Some g)) in Et. cbn [bind] in Et.
  apply bind_Ok in Et as (a & Ea & Et). destruct a as [a|].
  - apply bind_Ok in Et as (q' & _ & Et). injection Et as <-. apply bind_Ok in E as (ag & Eag & E). apply bind_Ok in E as (f' & Ef & E).
    apply (IH f' q' rem r qs); [|exact E]. apply (state_step f s a ag f'); try assumption.
    destruct Cs as [-> | [D _]]; [left; reflexivity|right; exact D].
  - destruct Cs as [-> | (D & -> & Lt_)]; [exfalso; exact (t_divides None Ea eq_refl)|].
    cbn [bind] in Et. injection Et as <-.
    apply bind_Ok in E as (fs & Es & E). cbn [sort_by insert_by bind] in Es. unfold term_cmp in Es. rewrite D, Lt_ in Es.
    cbn [bind] in Es. injection Es as <-. cbn in E. apply bind_Ok in E as (rem' & _ & E).
    apply (IH [t] q rem' r qs); [left; reflexivity|exact E].
Qed.
Lemma div_no_result fuel r qs : divide Debug O fuel [t] [[g]] <> Ok (r, qs).
Proof. apply state_loop. left. reflexivity. Qed.
End Div.

(** a term whose degree ends in a zero, divided by a term that divides it, gives no result, with any of the four
    orders: the product of quotient and divisor has no trailing zero, so it is never equal to the term *)
Theorem C101_division_no_result : forall (F : FieldImpl) (K : MathField) (FS : FieldSpec F K) O, In O orders ->
  forall (t g : term F), rawt FS t -> rawt FS g -> term_is_zero t = false -> term_is_zero g = false ->
  ~ canonical (tdeg t) -> mdeg_checked_sub (tdeg t) (tdeg g) <> None ->
  forall fuel r qs, divide Debug O fuel [t] [[g]] <> Ok (r, qs).
Proof.
  intros F K FS O HO t g Rt Rg Nt Ng Ct Dv fuel r qs. apply (div_no_result FS O t g); try assumption.
  intros x E ->.
  assert (S : same (tdeg t) (ltrim (tdeg t))) by (intros i; symmetry; apply ltrim_expo).
  assert (L : length (tdeg t) <> length (ltrim (tdeg t))).
  { intros L. apply Ct. rewrite (same_eq _ _ S L). apply ltrim_canonical. }
  destruct (C101_same_monomial _ _ S) as (A & B & C & D). unfold orders in HO.
  destruct HO as [<- | [<- | [<- | [<- | []]]]].
  - rewrite E in A. injection A as A. symmetry in A. apply Nat.compare_eq in A. contradiction.
  - rewrite E in B. injection B as B. symmetry in B. apply Nat.compare_eq in B. contradiction.
  - specialize (C _ E). symmetry in C. apply Nat.compare_eq in C. contradiction.
  - specialize (D _ E). symmetry in D. apply Nat.compare_eq in D. apply L. symmetry. exact D.
Qed.

(** ** Non-trivial instances *)
Local Notation qt n d l := (@mkterm (rat_impl Debug) (mkrat n%Z d%Z) l).
(** 2x written (1,0), by itself, and by x *)
Example C101_ex_division fuel r qs : divide Debug lex_cmp fuel [qt 2 1 [1; 0]] [[qt 2 1 [1; 0]]] <> Ok (r, qs) /\
  divide Debug (grevlex_cmp Debug) fuel [qt 2 1 [1; 0]] [[qt 1 1 [1]]] <> Ok (r, qs).
Proof.
  split; apply (C101_division_no_result _ _ rat_spec); try reflexivity; try discriminate;
    try (unfold orders; cbn; tauto); try (split; [split; cbn; lia|repeat constructor; cbn; lia]); intros H; apply H; reflexivity.
Qed.
Example C101_ex_sub : mdeg_checked_sub [3; 1; 0] [1; 1] = Some [2; 0; 0] /\ mdeg_checked_sub [3; 1; 0] [1; 1; 0] = Some [2] /\
  mdeg_checked_sub [3; 1] [1; 1; 0] = None /\ mdeg_checked_sub [0; 0] [] = Some [0; 0].
Proof. repeat split; reflexivity. Qed.
Example C101_ex_lex : lex_cmp [1; 0] [1; 0; 0; 2] = Ok Lt /\ ~ same [1; 0] [1; 0; 0; 2] /\ lex_cmp [1; 0] [1] = Ok Gt /\
  grlex_cmp Debug [1; 2; 0; 0] [2; 1] = Ok Lt /\ ~ same [1; 2; 0; 0] [2; 1].
Proof. repeat split; try reflexivity; intros S; [specialize (S 3)|specialize (S 0)]; discriminate. Qed.
Example C101_ex_succ : mdeg_is_succ [1; 0] [1; 0; 0] = true. Proof. reflexivity. Qed.
Example C101_ex_same : same [1; 0] [1] /\ grevlex_cmp Debug [1; 0] [1] = Ok Lt.
Proof. split; [|reflexivity]. intros [|[|i]]; try reflexivity. destruct i; reflexivity. Qed.

Print Assumptions C101_checked_sub.
Print Assumptions C101_checked_sub_refuted.
Print Assumptions C101_is_succ.
Print Assumptions C101_is_succ_refuted.
Print Assumptions C101_lex.
Print Assumptions C101_grlex.
Print Assumptions C101_revlex_refuted.
Print Assumptions C101_same_monomial.
Print Assumptions C101_division_no_result.
