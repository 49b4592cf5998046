(** * Property C112: polynomial maps, implicit equations and subalgebras.

    Client programs of Buchberger's algorithm: with new variables y_j and generators y_j - f_j the result
    decides which polynomials vanish after substituting f_j for y_j, gives the implicit equations of the
    map x -> f(x), and decides which polynomials are polynomials in the f_j.  [psubst s p] is
    p(s_0, s_1, ...); [block b fs] sends the variables from x_b on to the elements of [fs] and
    every other variable to itself. *)
From Coq Require Import ZArith QArith Qcanon.
From Verif Require Import Base BaseLemmas IntModel RatModel FieldIface RatProofs MDegModel OrdModel PolyModel CompModel
  MonoSpec MDegProofs OrdProofs PolySpec PolyProofs GroebnerSpec DivProofs DivSpec GbProofs CompMono PropPoly PropDiv PropGb IdealSpec PropIdeal SubstSpec
  PropIdealOps MapSpec.
From Coq Require Import Ring Field Setoid Morphisms.
Local Open Scope nat_scope.

Section PropMap.
Context {F : FieldImpl} {K : MathField} (FS : FieldSpec F K).
Add Field Kf40 : (kth K).
Add Ring Pr40 : (@poly_ring K) (setoid (@peq_equiv K) (@poly_ring_ext K)).
Notation poly := (poly F).
Notation val := (ip FS).
Notation clean := (pwf FS).
Notation nonzero := (fun g : poly => g <> []).

(** x_b - f_0, x_(b+1) - f_1, ..., computed with the operators of the crate *)
Fixpoint graph (b : nat) (fs : list poly) : res (list poly) :=
  match fs with
  | [] => Ok []
  | f :: fs' => g <- poly_sub (poly_var b 1) f ;; gs <- graph (S b) fs' ;; Ok (g :: gs)
  end.
(** f uses none of x_b .. x_(b+k-1) *)
Definition spares (b k : nat) (f : poly) : Prop := forall t i, In t f -> b <= i -> i < b + k -> expo (tdeg t) i = 0.

Lemma spares_avoids b k f : clean f -> spares b k f -> avoids b k (val f).
Proof. intros W S m i C L1 L2. apply (pwf_support FS f m W) in C as (t & It & <-). rewrite canon_exp. apply S; assumption. Qed.
Lemma spares_list b k fs : Forall clean fs -> Forall (spares b k) fs -> Forall (avoids b k) (map val fs).
Proof. intros W S. apply Forall_map. rewrite Forall_forall in *. intros f I. apply spares_avoids; auto. Qed.

Lemma graph_ok fs : forall b k gens, Forall clean fs -> Forall (spares b k) fs -> length fs <= k -> graph b fs = Ok gens ->
  Forall clean gens /\ Forall nonzero gens /\ Forall2 peq (map val gens) (graphs b (map val fs)).
Proof.
  induction fs as [|f fs IH]; intros b k gens W S L E; cbn [graph length] in *.
  - injection E as <-. repeat split; constructor.
  - apply bind_Ok in E as (g & E1 & E). apply bind_Ok in E as (gs & E2 & E). injection E as <-.
    pose proof (Forall_inv W) as Wf. pose proof (Forall_inv S) as Sf.
    destruct (IH (Datatypes.S b) (k - 1) gs (Forall_inv_tail W)) as (A & B & C); [|lia|exact E2|].
    { apply Forall_inv_tail in S. eapply Forall_impl; [|exact S]. intros h Hh t i It L1 L2. apply (Hh t i It); lia. }
    destruct (clean_var FS b) as [Wv Ev].
    destruct (safe_val _ _ _ (poly_sub_ok FS _ f Wv (clean_f0 FS _ Wf)) E1) as [Wg Eg]. rewrite Ev in Eg.
    split; [constructor; assumption|]. split; [|constructor; assumption]. constructor; [|exact B].
    apply (nonzero_of FS g _ Eg). intros Z. pose proof (proj1 (peq_coeff _ _) Z (mvar b 1)) as X.
    rewrite coeff_sub, coeff_zero in X. unfold pvar in X. rewrite coeff_pterm in X. destruct (mono_dec (mvar b 1) (mvar b 1)) as [_|N]; [|congruence].
    destruct (kdec (coeff (val f) (mvar b 1)) k0) as [Y|Y].
    + rewrite Y in X. apply (F_1_neq_0 (kth K)). rewrite <- X. ring.
    + pose proof (spares_avoids b k f Wf Sf (mvar b 1) b Y ltac:(lia) ltac:(lia)) as Q. rewrite mvar_exp, Nat.eqb_refl in Q. discriminate.
Qed.

Lemma graph_ideal b fs gens p : Forall clean fs -> Forall (spares b (length fs)) fs -> graph b fs = Ok gens ->
  (in_ideal (map val gens) p <-> peq (psubst (block b (map val fs)) p) pzero).
Proof.
  intros W S E. destruct (graph_ok fs b (length fs) gens W S ltac:(lia) E) as (_ & _ & G).
  rewrite <- (graph_kernel b (map val fs) p) by (rewrite map_length; apply spares_list; assumption).
  split; apply ideal_peq; [exact G|apply Forall2_peq_sym; exact G].
Qed.

(** ** The kernel, for every order *)
Theorem C112_kernel : forall (O : ord_impl) (OS : OrderSpec O) b fs gens fuel out,
  Forall clean fs -> Forall (spares b (length fs)) fs -> graph b fs = Ok gens -> buchberger_algorithm Debug O fuel gens = Ok out ->
  (forall p, in_ideal (map val out) p <-> peq (psubst (block b (map val fs)) p) pzero) /\
  (forall p n r qs, clean p -> divide Debug O n p out = Ok (r, qs) ->
     (r = [] <-> peq (psubst (block b (map val fs)) (val p)) pzero) /\
     peq (psubst (block b (map val fs)) (val r)) (psubst (block b (map val fs)) (val p))).
Proof.
  intros O OS b fs gens fuel out W S Eg E. destruct (graph_ok fs b (length fs) gens W S ltac:(lia) Eg) as (Wg & Ng & _).
  destruct (algorithm_run FS OS fuel gens out Wg Ng E) as (Wo & SI & GB & _).
  assert (H : forall p, in_ideal (map val out) p <-> peq (psubst (block b (map val fs)) p) pzero).
  { intros p. rewrite <- (graph_ideal b fs gens p W S Eg). apply SI. }
  split; [exact H|]. intros p n r qs Wp Er. destruct (divide_nf FS OS n p out r qs Wp Wo Er) as (Wr & I & R).
  pose proof (proj1 (H _) I) as Z. rewrite psubst_sub in Z.
  assert (X : peq (psubst (block b (map val fs)) (val r)) (psubst (block b (map val fs)) (val p))).
  { assert (Y : peq (psubst (block b (map val fs)) (val p)) (padd (psub (psubst (block b (map val fs)) (val p)) (psubst (block b (map val fs)) (val r))) (psubst (block b (map val fs)) (val r)))) by ring.
    rewrite Y, Z. ring. }
  split; [|exact X]. rewrite <- X, <- H. rewrite (pwf_zero_iff FS r Wr). split.
  - intros Z'. rewrite Z'. apply in_ideal_zero.
  - intros I'. destruct (zero_or_lm (olt OS) (olaws _ OS) (val r)) as [Z'|(l & Ll)]; [exact Z'|].
    exfalso. destruct (GB (val r) l I' Ll) as (g & l' & Ig & Lg & D). apply (R l (proj1 Ll) g l' Ig Lg D).
Qed.

(** every element of the result vanishes at (x, f(x)) *)
Theorem C112_points : forall (O : ord_impl) (OS : OrderSpec O) fs gens fuel out x y,
  Forall clean fs -> Forall (fun f => free_from (length x) f = true) fs -> graph (length x) fs = Ok gens ->
  buchberger_algorithm Debug O fuel gens = Ok out ->
  Forall (fwf FS) x -> Forall (fwf FS) y -> Forall2 (fun f v => poly_eval f x = Ok v) fs y ->
  forall g v, In g out -> poly_eval g (x ++ y) = Ok v -> den FS v = k0.
Proof.
  intros O OS fs gens fuel out x y W V Eg E Wx Wy Ey g v Ig Ev. set (n := length x) in *.
  assert (S : Forall (spares n (length fs)) fs).
  { rewrite Forall_forall in *. intros f I t i It L _. apply expo_over. specialize (V f I). unfold free_from in V. rewrite forallb_forall in V.
    specialize (V t It). apply Nat.leb_le in V. lia. }
  destruct (graph_ok fs n (length fs) gens W S ltac:(lia) Eg) as (Wg & Ng & _).
  destruct (algorithm_run FS OS fuel gens out Wg Ng E) as (Wo & _).
  pose proof (proj1 (C112_kernel O OS n fs gens fuel out W S Eg E) (val g)) as [Z _].
  specialize (Z (in_ideal_gen _ _ (in_map _ _ _ Ig))).
  rewrite (eval_val FS g (x ++ y) v); [|rewrite Forall_forall in Wo; auto|apply Forall_app; auto|exact Ev].
  assert (X : peval (pt FS (x ++ y)) (psubst (block n (map val fs)) (val g)) = k0) by (unfold peval; rewrite (Z (mval (pt FS (x ++ y)))); reflexivity).
  rewrite <- X, peval_psubst. unfold peval at 1 2. apply ev_ext. intros m. unfold mval.
  induction (length (mlist m)) as [|j IH]; cbn [mval_up]; [reflexivity|]. rewrite IH. f_equal. f_equal.
  unfold block. rewrite map_length. destruct (Nat.leb_spec n j) as [X1|X1], (Nat.ltb_spec j (n + length fs)) as [X2|X2]; cbn [andb].
  2,3,4: symmetry; unfold peval, pvar, pterm; cbn [ev fst snd fold_right map]; simpl; rewrite (mval_up_eq _ (mvar j 1) (Datatypes.S j)) by
      (intros i Hi; rewrite mvar_exp; destruct (Nat.eqb_spec i j); lia); cbn [mval_up]; rewrite mvar_exp, Nat.eqb_refl;
      assert (Q : forall i, i <= j -> mval_up (pt FS (x ++ y)) (mvar j 1) i = k1)
        by (induction i as [|i IHi]; intros Li; cbn [mval_up]; [reflexivity|]; rewrite IHi by lia; rewrite mvar_exp; destruct (Nat.eqb_spec i j); [lia|]; cbn [kpow]; ring);
      rewrite Q by lia; cbn [kpow]; ring.
  destruct (nth_error fs (j - n)) as [f|] eqn:Hf; [|apply nth_error_None in Hf; lia].
  pose proof (Forall2_len _ _ _ Ey) as Ly. destruct (nth_error y (j - n)) as [w|] eqn:Hw; [|apply nth_error_None in Hw; lia].
  assert (Ew : poly_eval f x = Ok w).
  { clear - Ey Hf Hw. revert Hf Hw. generalize (j - n). induction Ey as [|f0 y0 fs y E0 Ey IH]; intros [|i] Hf Hw; cbn [nth_error] in *; try discriminate; [congruence|eauto]. }
  assert (If : In f fs) by (eapply nth_error_In; exact Hf). rewrite Forall_forall in W, V, Wx.
  rewrite (nth_indep _ pzero (val [])) by (rewrite map_length; lia). rewrite map_nth, (nth_error_nth fs (j - n) [] Hf).
  unfold pt at 1. rewrite app_nth2 by (fold n; lia). fold n. rewrite (nth_error_nth y (j - n) f0 Hw).
  rewrite (eval_val FS f x w) by (try (apply Forall_forall); auto).
  specialize (V f If). apply (free_from_iff FS n f (W f If)) in V.
  destruct (pnorm (val f)) as (p' & E' & N'). unfold peval. rewrite <- (E' (mval (pt FS x))), <- (E' (mval (pt FS (x ++ y)))).
  apply ev_ext_in. intros m' I'. apply in_map_iff in I' as ([c m0] & <- & I'). simpl. apply N' in I' as [C0 C1].
  assert (VM : mvars n m0) by (apply V; congruence). rewrite !(mval_up_eq _ m0 n VM).
  assert (Q : forall i, i <= n -> mval_up (pt FS x) m0 i = mval_up (pt FS (x ++ y)) m0 i).
  { induction i as [|i IHi]; intros Li; cbn [mval_up]; [reflexivity|]. rewrite IHi by lia. f_equal. f_equal. unfold pt. rewrite app_nth1 by (fold n; lia). reflexivity. }
  apply Q. lia.
Qed.

(** ** Implicit equations *)
Lemma lex_spares n fs : Forall clean fs -> Forall (fun f => free_from n f = true) fs -> Forall (spares n (length fs)) fs.
Proof.
  intros W V. rewrite Forall_forall in *. intros f I t i It L _. apply expo_over. specialize (V f I). unfold free_from in V. rewrite forallb_forall in V.
  specialize (V t It). apply Nat.leb_le in V. lia.
Qed.
Lemma revlex_spares fs : Forall clean fs -> Forall (fun f => free_below (length fs) f = true) fs -> Forall (spares 0 (length fs)) fs.
Proof.
  intros W V. rewrite Forall_forall in *. intros f I t i It _ L. specialize (V f I). unfold free_below in V. rewrite forallb_forall in V.
  specialize (V t It). rewrite forallb_forall in V. apply Nat.eqb_eq. apply V. apply in_seq. lia.
Qed.

(** Lex: the f_j use x_0 .. x_(n-1), the new variables follow *)
Theorem C112_implicit_lex : forall n fs gens fuel out,
  Forall clean fs -> Forall (fun f => free_from n f = true) fs -> graph n fs = Ok gens -> buchberger_algorithm Debug lex_cmp fuel gens = Ok out ->
  let later := fun m => forall i, i < n -> mexp m i = 0 in
  forall p, over later p ->
    (in_ideal_over later (map val (filter (free_below n) out)) p <-> peq (psubst (block n (map val fs)) p) pzero).
Proof.
  intros n fs gens fuel out W V Eg E later p Ov. pose proof (lex_spares n fs W V) as S.
  destruct (graph_ok fs n (length fs) gens W S ltac:(lia) Eg) as (Wg & Ng & _).
  rewrite <- (graph_ideal n fs gens p W S Eg). pose proof (proj1 (C95_lex FS fuel gens out n Wg Ng E) p) as X. fold later in X.
  rewrite <- X. split; [intros [I _]; exact I|auto].
Qed.
(** RevLex: the new variables are x_0 .. x_(k-1), the f_j use the variables from x_k on *)
Theorem C112_implicit_revlex : forall fs gens fuel out,
  Forall clean fs -> Forall (fun f => free_below (length fs) f = true) fs -> graph 0 fs = Ok gens ->
  buchberger_algorithm Debug revlex_cmp fuel gens = Ok out ->
  forall p, svars (length fs) p ->
    (in_ideal_over (mvars (length fs)) (map val (filter (free_from (length fs)) out)) p <-> peq (psubst (block 0 (map val fs)) p) pzero).
Proof.
  intros fs gens fuel out W V Eg E p Ov. pose proof (revlex_spares fs W V) as S.
  destruct (graph_ok fs 0 (length fs) gens W S ltac:(lia) Eg) as (Wg & Ng & _).
  rewrite <- (graph_ideal 0 fs gens p W S Eg). rewrite <- (proj1 (C95_revlex FS fuel gens out (length fs) Wg Ng E) p). split; [intros [I _]; exact I|auto].
Qed.

(** ** Polynomials in f_0, f_1, ... *)
(** with an elimination order normal forms of polynomials congruent to one in S are in S *)
Lemma nf_over {O} (OS : OrderSpec O) (S : mono -> Prop) (G : list (spoly K)) (q r : spoly K) :
  (forall a b, olt OS a b -> S b -> S a) -> groebner (olt OS) G -> reduced (olt OS) G r -> in_ideal G (psub r q) -> over S q -> over S r.
Proof.
  intros SL GB R I Oq m C. destruct (zero_or_lm (olt OS) (olaws _ OS) (psub r q)) as [Z|(l & Ll)].
  - apply Oq. intros X. apply C. pose proof (proj1 (peq_coeff _ _) Z m) as Y. rewrite coeff_sub, X, coeff_zero in Y.
    transitivity (ksub (coeff r m) k0); [ring|exact Y].
  - destruct (kdec (coeff q l) k0) as [Y|Y].
    + exfalso. destruct (GB _ l I Ll) as (g & l' & Ig & Lg & D). refine (R l _ g l' Ig Lg D).
      intros X. apply (proj1 Ll). rewrite coeff_sub, X, Y. ring.
    + apply Oq in Y. destruct (kdec (coeff q m) k0) as [X|X]; [|apply Oq; exact X].
      assert (N : coeff (psub r q) m <> k0).
      { rewrite coeff_sub, X. intros Q. apply C. transitivity (ksub (coeff r m) k0); [ring|exact Q]. }
      destruct (proj2 Ll m N) as [->|L]; [exact Y|]. apply (SL m l L Y).
Qed.
Section Sub.
Context (b : nat) (fs : list poly) (xs : nat -> bool).
Hypothesis (W : Forall clean fs).
Hypothesis (BX : forall i, b <= i -> i < b + length fs -> xs i = false).
(** polynomials in the variables in xs *)
Notation inxs := (fun m => forall i, xs i = false -> mexp m i = 0).
Notation outxs := (fun m => forall i, xs i = true -> mexp m i = 0).
Notation inblock := (fun m => forall i, mexp m i <> 0 -> b <= i /\ i < b + length fs).
Hypothesis (Of : forall f, In f fs -> over inxs (val f)).
Notation s := (block b (map val fs)).

Lemma block_values i : b <= i -> i < b + length fs -> exists f, In f fs /\ s i = val f.
Proof.
  intros L1 L2. unfold block. rewrite map_length. destruct (Nat.leb_spec b i); [|lia]. destruct (Nat.ltb_spec i (b + length fs)); [|lia]. cbn [andb].
  exists (nth (i - b) fs []). split; [apply nth_In; lia|]. rewrite (nth_indep _ pzero (val [])) by (rewrite map_length; lia). apply map_nth.
Qed.
Lemma block_other i : i < b \/ b + length fs <= i -> s i = pvar i.
Proof.
  intros L. unfold block. rewrite map_length. destruct (Nat.leb_spec b i), (Nat.ltb_spec i (b + length fs)); cbn [andb]; try reflexivity. lia.
Qed.
Lemma only_block (p r : spoly K) : over inxs p -> over outxs r -> peq p (psubst s r) -> exists q, over inblock q /\ peq p (psubst s q).
Proof.
  intros Op Or E. set (inb := fun i => (b <=? i) && (i <? b + length fs)). 
  assert (IB : forall i, inb i = true <-> b <= i /\ i < b + length fs).
  { intros i. unfold inb. rewrite andb_true_iff, Nat.leb_le, Nat.ltb_lt. tauto. }
  set (z := fun i => if inb i then pvar i else @pzero K). set (w := fun i => if xs i then pvar i else @pzero K).
  exists (psubst z r). split.
  - apply over_psubst.
    + intros i X. exfalso. apply X. apply mone_exp.
    + intros x y Hx Hy i N. rewrite mmul_exp in N. destruct (Nat.eq_dec (mexp x i) 0) as [X|X]; [apply Hy; lia|apply Hx; exact X].
    + intros m i _ _. unfold z. destruct (inb i) eqn:B; [|apply over_zero]. apply IB in B. apply over_pterm. intros j N. rewrite mvar_exp in N.
      destruct (Nat.eqb_spec j i) as [Q|]; [rewrite Q; exact B|congruence].
  - assert (F1 : forall q : spoly K, over inxs q -> peq (psubst w q) q).
    { intros q Oq. apply psubst_fix. intros m i C N. unfold w. destruct (xs i) eqn:X; [reflexivity|]. exfalso. apply N. apply (Oq m C i X). }
    rewrite <- (F1 p Op), E, !psubst_comp. apply psubst_ext. intros m i C N. unfold z.
    assert (X : xs i = false) by (destruct (xs i) eqn:X; [exfalso; apply N; apply (Or m C i X)|reflexivity]).
    destruct (inb i) eqn:B.
    + apply IB in B. rewrite psubst_var. destruct (block_values i (proj1 B) (proj2 B)) as (f & If & ->). apply F1. apply Of. exact If.
    + rewrite block_other by (destruct (Nat.lt_ge_cases i b); [auto|right; destruct (Nat.lt_ge_cases i (b + length fs)); [|lia]; assert (inb i = true) by (apply IB; lia); congruence]).
      rewrite psubst_var. unfold w. rewrite X. reflexivity.
Qed.
Lemma subalgebra_generic {O} (OS : OrderSpec O) (keep : poly -> bool) gens fuel out (p : poly) n r qs :
  (forall a c, olt OS a c -> outxs c -> outxs a) -> (forall g, clean g -> keep g = true <-> over outxs (val g)) ->
  graph b fs = Ok gens -> buchberger_algorithm Debug O fuel gens = Ok out ->
  clean p -> over inxs (val p) -> divide Debug O n p out = Ok (r, qs) ->
  ((exists q, over inblock q /\ peq (val p) (psubst s q)) <-> keep r = true) /\
  (keep r = true -> peq (val p) (psubst s (val r))).
Proof.
  intros SL HK Eg E Wp Op Ed.
  assert (S : Forall (spares b (length fs)) fs).
  { apply Forall_forall. intros f I t i It L1 L2. rewrite Forall_forall in W. rewrite <- canon_exp. apply (Of f I); [|apply BX; assumption].
    apply (pwf_support FS f _ (W f I)). eauto. }
  destruct (graph_ok fs b (length fs) gens W S ltac:(lia) Eg) as (Wg & Ng & _).
  destruct (algorithm_run FS OS fuel gens out Wg Ng E) as (Wo & SI & GB & _).
  destruct (C112_kernel O OS b fs gens fuel out W S Eg E) as [HI HD]. destruct (HD p n r qs Wp Ed) as [_ HR]. clear HD.
  destruct (divide_nf FS OS n p out r qs Wp Wo Ed) as (Wr & I & R).
  assert (Fp : peq (psubst s (val p)) (val p)).
  { apply block_fix. intros m i C L1 L2. rewrite map_length in L2. apply (Op m C). apply BX; assumption. }
  assert (B : keep r = true -> peq (val p) (psubst s (val r))) by (intros _; rewrite HR, Fp; reflexivity).
  split; [|exact B]. split.
  - intros (q & Oq & Eq). apply HK; [exact Wr|]. apply (nf_over OS outxs (map val out) q (val r) SL GB R).
    + apply HI. rewrite psubst_sub, HR, Fp, Eq. ring.
    + intros m C i X. destruct (Nat.eq_dec (mexp m i) 0) as [|N]; [assumption|]. destruct (Oq m C i N) as [L1 L2]. rewrite (BX i L1 L2) in X. discriminate.
  - intros Kr. apply (only_block (val p) (val r) Op); [apply HK; assumption|apply B; exact Kr].
Qed.
End Sub.

(** p is a polynomial in the f_j exactly when its remainder involves only the new variables; then the
    remainder is such a polynomial *)
Theorem C112_subalgebra_lex : forall n fs gens fuel out (p : poly) n' r qs,
  Forall clean fs -> Forall (fun f => free_from n f = true) fs -> graph n fs = Ok gens -> buchberger_algorithm Debug lex_cmp fuel gens = Ok out ->
  clean p -> free_from n p = true -> divide Debug lex_cmp n' p out = Ok (r, qs) ->
  let inblock := fun m => forall i, mexp m i <> 0 -> n <= i /\ i < n + length fs in
  ((exists q, over inblock q /\ peq (val p) (psubst (block n (map val fs)) q)) <-> free_below n r = true) /\
  (free_below n r = true -> peq (val p) (psubst (block n (map val fs)) (val r))).
Proof.
  intros n fs gens fuel out p n' r qs W V Eg E Wp Vp Ed.
  assert (H : forall f, clean f -> free_from n f = true -> over (fun m => forall i, (i <? n) = false -> mexp m i = 0) (val f)).
  { intros f Wf Vf m C i L. apply (free_from_iff FS n f Wf) in Vf. apply (Vf m C). apply Nat.ltb_ge. exact L. }
  apply (subalgebra_generic n fs (fun i => i <? n) W) with (OS := lex_spec) (gens := gens) (fuel := fuel) (out := out) (n := n') (qs := qs); auto.
  - intros i L1 L2. apply Nat.ltb_ge. exact L1.
  - intros f I. rewrite Forall_forall in W, V. auto.
  - intros a c (j & Lj & Ej) Hc i Hi. apply Nat.ltb_lt in Hi. destruct (lt_dec i j) as [X|X]; [rewrite Ej by exact X; apply Hc; apply Nat.ltb_lt; exact Hi|].
    assert (mexp c j = 0) by (apply Hc; apply Nat.ltb_lt; lia). lia.
  - intros g Wg. rewrite (free_below_iff FS n g Wg). split; intros X m C i Hi; apply (X m C); apply Nat.ltb_lt; exact Hi.
Qed.
Theorem C112_subalgebra_revlex : forall fs gens fuel out (p : poly) n' r qs,
  Forall clean fs -> Forall (fun f => free_below (length fs) f = true) fs -> graph 0 fs = Ok gens ->
  buchberger_algorithm Debug revlex_cmp fuel gens = Ok out ->
  clean p -> free_below (length fs) p = true -> divide Debug revlex_cmp n' p out = Ok (r, qs) ->
  ((exists q, svars (length fs) q /\ peq (val p) (psubst (block 0 (map val fs)) q)) <-> free_from (length fs) r = true) /\
  (free_from (length fs) r = true -> peq (val p) (psubst (block 0 (map val fs)) (val r))).
Proof.
  intros fs gens fuel out p n' r qs W V Eg E Wp Vp Ed. set (k := length fs) in *.
  assert (H : forall f, clean f -> free_below k f = true -> over (fun m => forall i, (k <=? i) = false -> mexp m i = 0) (val f)).
  { intros f Wf Vf m C i L. apply (free_below_iff FS k f Wf) in Vf. apply (Vf m C). apply Nat.leb_gt. exact L. }
  assert (X : (exists q : spoly K, svars k q /\ peq (val p) (psubst (block 0 (map val fs)) q)) <->
              exists q, over (fun m => forall i, mexp m i <> 0 -> 0 <= i /\ i < 0 + length fs) q /\ peq (val p) (psubst (block 0 (map val fs)) q)).
  { split; intros (q & O & Q); exists q; (split; [|exact Q]); intros m C.
    - intros i N. split; [lia|]. destruct (Nat.lt_ge_cases i (length fs)); [assumption|]. exfalso. apply N. apply (O m C). assumption.
    - intros i L. destruct (Nat.eq_dec (mexp m i) 0) as [|N]; [assumption|]. destruct (O m C i N). unfold k in *. lia. }
  rewrite X.
  apply (subalgebra_generic 0 fs (fun i => k <=? i) W) with (OS := revlex_spec) (gens := gens) (fuel := fuel) (out := out) (n := n') (qs := qs); auto.
  - intros i L1 L2. apply Nat.leb_gt. fold k in L2. lia.
  - intros f I. rewrite Forall_forall in W, V. auto.
  - intros a c (j & Lj & Ej) Hc i Hi. apply Nat.leb_le in Hi. destruct (lt_dec j i) as [Y|Y]; [rewrite Ej by exact Y; apply Hc; apply Nat.leb_le; exact Hi|].
    assert (mexp c j = 0) by (apply Hc; apply Nat.leb_le; lia). lia.
  - intros g Wg. rewrite (free_from_iff FS k g Wg). split; intros Y m C i Hi; apply (Y m C); apply Nat.leb_le; exact Hi.
Qed.
End PropMap.

(** the cusp: x -> (x^2, x^3) *)
Notation R := (rat_impl Debug).
Definition ex_v (n : Z) : R := mkrat n 1.
Definition ex_sq : poly R := [ex_t 1 1 [2]].
Definition ex_cu : poly R := [ex_t 1 1 [3]].
Definition ex_cusp : list (poly R) := [[ex_t 1 1 [0; 1]; ex_t (-1) 1 [2]]; [ex_t 1 1 [0; 0; 1]; ex_t (-1) 1 [3]]].
Definition ex_cusp_out : list (poly R) :=
  [[ex_t 1 1 [0; 1]; ex_t (-1) 1 [2]]; [ex_t 1 1 [1; 1]; ex_t (-1) 1 [0; 0; 1]];
   [ex_t 1 1 [1; 0; 1]; ex_t (-1) 1 [0; 2]]; [ex_t 1 1 [0; 3]; ex_t (-1) 1 [0; 0; 2]]].
Example C112_hyps : Forall (pwf rat_spec) [ex_sq; ex_cu] /\ Forall (fun f => free_from 1 f = true) [ex_sq; ex_cu] /\
  graph 1 [ex_sq; ex_cu] = Ok ex_cusp /\ buchberger_algorithm Debug lex_cmp 30 ex_cusp = Ok ex_cusp_out.
Proof.
  split; [repeat (constructor; [apply ex_clean; reflexivity|]); constructor|].
  split; [repeat (constructor; [reflexivity|]); constructor|]. split; reflexivity.
Qed.
(** its implicit equation is x_1^3 = x_2^2 *)
Example C112_ex_implicit : filter (free_below 1) ex_cusp_out = [[ex_t 1 1 [0; 3]; ex_t (-1) 1 [0; 0; 2]]].
Proof. reflexivity. Qed.
(** x^5 + 2 is a polynomial in x^2 and x^3, x is not *)
Example C112_ex_subalgebra :
  divide Debug lex_cmp 30 [ex_t 1 1 [5]; ex_t 2 1 []] ex_cusp_out =
    Ok ([ex_t 1 1 [0; 1; 1]; ex_t 2 1 []], [[ex_t (-1) 1 [3]; ex_t (-1) 1 [1; 1]]; [ex_t 1 1 [0; 1]]; []; []]) /\
  free_below 1 ([ex_t 1 1 [0; 1; 1]; ex_t 2 1 []] : poly R) = true /\
  divide Debug lex_cmp 30 [ex_t 1 1 [1]] ex_cusp_out = Ok ([ex_t 1 1 [1]], [[]; []; []; []]) /\
  free_below 1 ([ex_t 1 1 [1]] : poly R) = false.
Proof. repeat split; reflexivity. Qed.
Example C112_ex_points : poly_eval ex_sq [ex_v 3] = Ok (ex_v 9) /\ poly_eval ex_cu [ex_v 3] = Ok (ex_v 27) /\
  poly_eval ([ex_t 1 1 [0; 3]; ex_t (-1) 1 [0; 0; 2]] : poly R) [ex_v 3; ex_v 9; ex_v 27] = Ok (ex_v 0).
Proof. repeat split; reflexivity. Qed.
(** with RevLex the roles of the first and last variables are exchanged *)
Definition ex_cusp' : list (poly R) := [[ex_t 1 1 [1]; ex_t (-1) 1 [0; 0; 2]]; [ex_t 1 1 [0; 1]; ex_t (-1) 1 [0; 0; 3]]].
Definition ex_cusp_out' : list (poly R) :=
  [[ex_t 1 1 [1]; ex_t (-1) 1 [0; 0; 2]]; [ex_t 1 1 [1; 0; 1]; ex_t (-1) 1 [0; 1]];
   [ex_t 1 1 [0; 1; 1]; ex_t (-1) 1 [2]]; [ex_t 1 1 [0; 2]; ex_t (-1) 1 [3]]].
Example C112_ex_revlex : Forall (fun f => free_below 2 f = true) ([[ex_t 1 1 [0; 0; 2]]; [ex_t 1 1 [0; 0; 3]]] : list (poly R)) /\
  graph 0 [[ex_t 1 1 [0; 0; 2]]; [ex_t 1 1 [0; 0; 3]]] = Ok ex_cusp' /\
  buchberger_algorithm Debug revlex_cmp 30 ex_cusp' = Ok ex_cusp_out' /\
  filter (free_from 2) ex_cusp_out' = [[ex_t 1 1 [0; 2]; ex_t (-1) 1 [3]]].
Proof. split; [repeat (constructor; [reflexivity|]); constructor|]. repeat split; reflexivity. Qed.

Print Assumptions C112_kernel.
Print Assumptions C112_points.
Print Assumptions C112_implicit_lex.
Print Assumptions C112_implicit_revlex.
Print Assumptions C112_subalgebra_lex.
Print Assumptions C112_subalgebra_revlex.
