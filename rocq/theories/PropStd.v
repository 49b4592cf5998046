(** * Properties C107, C108: standard monomials and the number of common zeros.

    [std lt n G m]: the monomial [m] involves only x_0 .. x_(n-1) and no leading monomial of [G] divides it;
    [mvar i k] is x_i^k; [LM p m]: [m] is the leading monomial of [p]. *)
From Verif Require Import Base BaseLemmas IntModel RatModel FieldIface RatProofs MDegModel OrdModel PolyModel CompModel
  MonoSpec MDegProofs OrdProofs PolySpec PolyProofs GroebnerSpec DivProofs DivSpec GbProofs CompMono PropPoly PropDiv PropGb IdealSpec PropIdeal SubstSpec StdSpec PropIdealOps.
From Coq Require Import Ring Field Setoid Morphisms Permutation.

Local Open Scope nat_scope.

Section PropStd.
Context {F : FieldImpl} {K : MathField} (FS : FieldSpec F K).
Add Field Kf32 : (kth K).
Add Ring Pr32 : (@poly_ring K) (setoid (@peq_equiv K) (@poly_ring_ext K)).
Notation poly := (poly F).
Notation val := (ip FS).
Notation clean := (pwf FS).
Notation nonzero := (fun g : poly => g <> []).
Notation vanishes x := (fun g : poly => exists v, poly_eval g x = Ok v /\ den FS v = k0).
Notation vars n := (fun g : poly => forall t, In t g -> length (tdeg t) <= n).
Notation mon t := (canon (tdeg t)).

Lemma vars_svars n g : clean g -> vars n g -> svars n (val g).
Proof.
  intros W V m N. apply (pwf_support FS g m W) in N as (t & I & <-). intros i Hi. rewrite canon_exp. apply expo_over. specialize (V t I). lia.
Qed.
Section Order.
Context {O : ord_impl} (OS : OrderSpec O).
Notation lt := (olt OS).
Notation LM := (is_lm lt).
Let laws := olaws _ OS.

Lemma out_vars fuel n gens out : Forall clean gens -> Forall nonzero gens -> Forall (vars n) gens ->
  buchberger_algorithm Debug O fuel gens = Ok out -> forall g, In g (map val out) -> svars n g.
Proof.
  intros W NZ V E g I. apply in_map_iff in I as (g0 & <- & I). destruct (C39_same_ideal FS OS fuel gens out W NZ E) as [Wo _].
  rewrite Forall_forall in Wo. intros m N i Hi. apply (pwf_support FS g0 m (Wo g0 I)) in N as (t & It & <-). rewrite canon_exp.
  apply (C96_variables FS OS fuel gens out i W NZ E) with (g := g0); auto. intros h s Ih Is. apply expo_over.
  rewrite Forall_forall in V. specialize (V h Ih s Is). lia.
Qed.

(** ** C107 *)
(** finitely many standard monomials iff the result contains, for each variable, an element led by a power of it *)
Theorem C107_finite : forall fuel n (gens out : list poly), Forall clean gens -> Forall nonzero gens ->
  buchberger_algorithm Debug O fuel gens = Ok out ->
  ((exists L, forall m, std lt n (map val out) m -> In m L) <->
   (forall i, i < n -> exists g k, In g out /\ LM (val g) (mvar i k))) /\
  ((exists L, forall m, std lt n (map val out) m -> In m L) <->
   (forall i, i < n -> exists f k, in_ideal (map val gens) f /\ LM f (mvar i k))).
Proof.
  intros fuel n gens out W NZ E.
  assert (A : (exists L, forall m, std lt n (map val out) m -> In m L) <-> (forall i, i < n -> exists g k, In g out /\ LM (val g) (mvar i k))).
  { rewrite (std_finite lt laws n (map val out)). split; intros H i Hi; destruct (H i Hi) as (g & k & I & A).
    - apply in_map_iff in I as (g0 & <- & I). eauto.
    - exists (val g), k. split; [apply in_map; exact I|exact A]. }
  split; [exact A|]. rewrite A. destruct (C39_same_ideal FS OS fuel gens out W NZ E) as [Wo SI]. split; intros H i Hi; destruct (H i Hi) as (f & k & I & B).
  - exists (val f), k. split; [|exact B]. apply SI. apply in_ideal_gen. apply in_map. exact I.
  - destruct (C40_groebner_basis FS OS fuel gens out W NZ E f (mvar i k) I B) as (g & l & Ig & Lg & D). exists g, (mexp l i). split; [exact Ig|].
    rewrite <- (mvar_mdiv i k l D). exact Lg.
Qed.
(** remainders are combinations of standard monomials, and only one such combination is congruent to f *)
Theorem C107_normal_form : forall fuel fuel' n (gens out : list poly) f r qs, Forall clean gens -> Forall nonzero gens -> Forall (vars n) gens ->
  clean f -> vars n f -> buchberger_algorithm Debug O fuel gens = Ok out -> divide Debug O fuel' f out = Ok (r, qs) ->
  (forall t, In t r -> std lt n (map val out) (mon t)) /\
  (forall p, (forall m, coeff p m <> k0 -> std lt n (map val out) m) -> in_ideal (map val gens) (psub (val f) p) ->
     forall m, coeff p m = coeff (val r) m).
Proof.
  intros fuel fuel' n gens out f r qs W NZ V Wf Vf E Ed. destruct (algorithm_run FS OS fuel gens out W NZ E) as (Wo & SI & GB & _).
  destruct (divide_nf FS OS fuel' f out r qs Wf Wo Ed) as (Wr & Ir & Rr).
  pose proof (out_vars fuel n gens out W NZ V E) as Vo. split.
  - intros t It. split.
    + assert (X : svars n (val r)).
      { destruct (normal_form lt laws n (map val out) Vo (val f) (vars_svars n f Wf Vf)) as (r' & Ir' & Hr').
        assert (Y : peq (val r) r') by (apply (remainder_unique lt laws (map val out) (val f)); auto; intros m N; apply (Hr' m N)).
        intros m N. apply Hr'. rewrite <- Y. exact N. }
      apply X. apply (pwf_support FS r _ Wr). eauto.
    + intros g l Ig Lg. apply (Rr (mon t)) with (g := g); auto. apply (pwf_support FS r _ Wr). eauto.
  - intros p Hp Ip m. assert (Y : peq p (val r)); [|rewrite Y; reflexivity].
    apply (remainder_unique lt laws (map val out) (val f)); auto; [apply SI; exact Ip|intros x N; apply (Hp x N)].
Qed.
End Order.
(** the number of standard monomials depends on the ideal only, not on the order or on the generators *)
Theorem C107_dimension : forall (O O' : ord_impl) (OS : OrderSpec O) (OS' : OrderSpec O') fuel fuel' n (gens gens' out out' : list poly) L L',
  Forall clean gens -> Forall nonzero gens -> Forall (vars n) gens -> Forall clean gens' -> Forall nonzero gens' -> Forall (vars n) gens' ->
  (forall f, in_ideal (map val gens) f <-> in_ideal (map val gens') f) ->
  buchberger_algorithm Debug O fuel gens = Ok out -> buchberger_algorithm Debug O' fuel' gens' = Ok out' ->
  NoDup L -> (forall m, In m L <-> std (olt OS) n (map val out) m) ->
  NoDup L' -> (forall m, In m L' <-> std (olt OS') n (map val out') m) -> length L = length L'.
Proof.
  intros O O' OS OS' fuel fuel' n gens gens' out out' L L' W NZ V W' NZ' V' SI E E' ND HL ND' HL'.
  destruct (algorithm_run FS OS fuel gens out W NZ E) as (_ & S & GB & _). destruct (algorithm_run FS OS' fuel' gens' out' W' NZ' E') as (_ & S' & GB' & _).
  apply Nat.le_antisymm.
  - apply (std_count (olt OS) (olt OS') (olaws _ OS) (olaws _ OS') n (map val out) (map val out')); auto.
    + apply (out_vars OS' fuel' n gens' out'); auto.
    + intros f I. apply S, SI, S'. exact I.
    + intros m. apply HL.
    + intros m. apply HL'.
  - apply (std_count (olt OS') (olt OS) (olaws _ OS') (olaws _ OS) n (map val out') (map val out)); auto.
    + apply (out_vars OS fuel n gens out); auto.
    + intros f I. apply S', SI, S. exact I.
    + intros m. apply HL'.
    + intros m. apply HL.
Qed.

(** ** C108 *)
(** two points differ in one of the first n coordinates *)
Definition differ (n : nat) (x y : list F) : Prop := exists i, i < n /\ den FS (nth i x f0) <> den FS (nth i y f0).
Lemma zeros_generic {O} (OS : OrderSpec O) n (gens G : list poly) xs L : Forall clean gens -> Forall (Forall (fwf FS)) xs ->
  (forall f, in_ideal (map val G) f -> in_ideal (map val gens) f) -> (forall g, In g (map val G) -> svars n g) ->
  (forall m, std (olt OS) n (map val G) m -> In m L) ->
  Forall (fun x => Forall (vanishes x) gens) xs -> ForallOrdPairs (differ n) xs -> length xs <= length L.
Proof.
  intros W Wx SI Vo HL HV HD.
  apply (zeros_bound (olt OS) (olaws _ OS) n (map val G) L (fun k => pt FS (nth k xs [])) (length xs)); auto.
  - intros k g Hk I. rewrite Forall_forall in HV, Wx. apply (vanish_ideal FS (nth k xs []) gens); [apply Wx; apply nth_In; exact Hk|exact W|apply HV; apply nth_In; exact Hk|].
    apply SI. apply in_ideal_gen. exact I.
  - assert (S : forall (xs : list (list F)), ForallOrdPairs (differ n) xs -> forall j k, j < k -> k < length xs -> differ n (nth j xs []) (nth k xs [])).
    { clear. intros xs H. induction H as [|x xs Hx H IH]; intros j k Hj Hk; cbn in Hk; [lia|].
      destruct k as [|k]; [lia|]. destruct j as [|j]; cbn [nth].
      - rewrite Forall_forall in Hx. apply Hx. apply nth_In. lia.
      - apply IH; lia. }
    intros j k Hj Hk N. destruct (Nat.lt_gt_cases j k) as [[Lt|Lt] _]; [exact N| |].
    + destruct (S xs HD j k Lt Hk) as (i & Hi & D). exists i. auto.
    + destruct (S xs HD k j Lt Hj) as (i & Hi & D). exists i. split; [exact Hi|]. intros Z. apply D. symmetry. exact Z.
Qed.
Theorem C108_zeros : forall (O : ord_impl) (OS : OrderSpec O) fuel n (gens out : list poly) xs L,
  Forall clean gens -> Forall nonzero gens -> Forall (vars n) gens -> Forall (Forall (fwf FS)) xs ->
  buchberger_algorithm Debug O fuel gens = Ok out -> (forall m, std (olt OS) n (map val out) m -> In m L) ->
  Forall (fun x => Forall (vanishes x) gens) xs -> ForallOrdPairs (differ n) xs -> length xs <= length L.
Proof.
  intros O OS fuel n gens out xs L W NZ V Wx E HL HV HD. destruct (algorithm_run FS OS fuel gens out W NZ E) as (Wo & SI & _).
  apply (zeros_generic OS n gens out xs L); auto; [intros f; apply SI|apply (out_vars OS fuel n gens out); auto].
Qed.
(** with leading monomials x_i^(d_i) there are at most d_0 * .. * d_(n-1) common zeros *)
Theorem C108_product : forall (O : ord_impl) (OS : OrderSpec O) fuel n (gens out : list poly) xs d,
  Forall clean gens -> Forall nonzero gens -> Forall (vars n) gens -> Forall (Forall (fwf FS)) xs ->
  buchberger_algorithm Debug O fuel gens = Ok out -> (forall i, i < n -> exists g, In g out /\ is_lm (olt OS) (val g) (mvar i (d i))) ->
  Forall (fun x => Forall (vanishes x) gens) xs -> ForallOrdPairs (differ n) xs -> length xs <= prodn d n.
Proof.
  intros O OS fuel n gens out xs d W NZ V Wx E HD HV HP. rewrite <- box_length. apply (C108_zeros O OS fuel n gens out xs); auto.
  intros m Sm. apply box_spec; [apply Sm|]. intros i Hi. destruct (HD i Hi) as (g & I & A).
  apply (std_exp (olt OS) n (map val out) i (val g) (d i) m); auto. apply in_map. exact I.
Qed.
(** a polynomial in one variable has at most as many roots as its degree *)
Theorem C108_roots : forall (f : poly) (xs : list F) d, clean f -> f <> [] -> vars 1 f -> (forall t, In t f -> expo (tdeg t) 0 <= d) ->
  Forall (fwf FS) xs -> Forall (fun x => vanishes [x] f) xs -> ForallOrdPairs (fun x y => den FS x <> den FS y) xs -> length xs <= d.
Proof.
  intros f xs d W NZ V D Wx HV HD. destruct (pwf_lm_exists FS lex_spec f W NZ) as (l & Ll).
  assert (El : l = mvar 0 (mexp l 0)).
  { apply mono_ext. intros i. rewrite mvar_exp. destruct (Nat.eqb_spec i 0) as [->|N]; [reflexivity|].
    apply (vars_svars 1 f W V l (proj1 Ll)). lia. }
  assert (Dl : mexp l 0 <= d).
  { destruct (proj1 (pwf_support FS f l W) (proj1 Ll)) as (t & It & <-). rewrite canon_exp. apply D. exact It. }
  assert (X : length (map (fun x => [x]) xs) <= length (box (fun _ => mexp l 0) 1)).
  { apply (zeros_generic lex_spec 1 [f] [f]); auto.
    - apply Forall_map. eapply Forall_impl; [|exact Wx]. intros x Hx. constructor; [exact Hx|constructor].
    - intros g [<-|[]]. apply vars_svars; assumption.
    - intros m Sm. apply box_spec; [apply Sm|]. intros i Hi. replace i with 0 by lia.
      apply (std_exp (olt lex_spec) 1 (map val [f]) 0 (val f) (mexp l 0) m (or_introl eq_refl)); [rewrite <- El; exact Ll|exact Sm].
    - apply Forall_map. eapply Forall_impl; [|exact HV]. intros x Hx. constructor; [exact Hx|constructor].
    - clear - HD. induction HD as [|x xs Hx H IH]; cbn [map]; constructor; [|exact IH]. apply Forall_map. eapply Forall_impl; [|exact Hx].
      intros y Hy. exists 0. split; [lia|exact Hy]. }
  rewrite box_length, map_length in X. cbn in X. lia.
Qed.
End PropStd.

(** ** Concrete cases *)
(** (xy - 1, x - y): with Lex the result is x - y, y^2 - 1, the standard monomials are 1 and y, the zeros (1, 1) and (-1, -1) *)
Notation RR := (rat_impl Debug).
Lemma ex_lead (g : poly RR) t : pwf rat_spec g -> leading_term lex_cmp g = Ok (Some t) -> is_lm lex_lt (ip rat_spec g) (canon (tdeg t)).
Proof. intros W E. apply (proj1 (C31_clean rat_spec lex_spec g W) t E). Qed.
Example ex_lm2 : is_lm lex_lt (ip rat_spec ex_i2) (mvar 0 1).
Proof. apply (ex_lead ex_i2 (ex_t 1 1 [1])); [apply ex_clean; reflexivity|reflexivity]. Qed.
Example ex_lm3 : is_lm lex_lt (ip rat_spec ex_i3) (mvar 1 2).
Proof. apply (ex_lead ex_i3 (ex_t 1 1 [0; 2])); [apply ex_clean; reflexivity|reflexivity]. Qed.
Example C107_ex : forall m, std lex_lt 2 (map (ip rat_spec) [ex_i2; ex_i3]) m <-> In m [mone; mvar 1 1].
Proof.
  intros m. split.
  - intros Sm. pose proof (std_exp lex_lt 2 (map (ip rat_spec) [ex_i2; ex_i3]) 0 (ip rat_spec ex_i2) 1 m (or_introl eq_refl) ex_lm2 Sm) as A.
    pose proof (std_exp lex_lt 2 (map (ip rat_spec) [ex_i2; ex_i3]) 1 (ip rat_spec ex_i3) 2 m (or_intror (or_introl eq_refl)) ex_lm3 Sm) as B. destruct Sm as [V _].
    assert (E : m = mvar 1 (mexp m 1)).
    { apply mono_ext. intros [|[|i]]; rewrite mvar_exp; cbn [Nat.eqb]; [lia|reflexivity|apply V; lia]. }
    rewrite E. destruct (mexp m 1) as [|[|k]]; [left|right; left; reflexivity|lia]. apply mono_ext. intros i. rewrite mone_exp, mvar_exp. destruct (Nat.eqb i 1); reflexivity.
  - assert (H : forall k, k < 2 -> std lex_lt 2 (map (ip rat_spec) [ex_i2; ex_i3]) (mvar 1 k)).
    { intros k Hk. split; [apply mvar_vars; lia|]. intros g l [<-|[<-|[]]] Lg D.
      - rewrite (is_lm_unique lex_lt (olaws _ lex_spec) _ _ _ Lg ex_lm2) in D. specialize (D 0). rewrite !mvar_exp in D. cbn in D. lia.
      - rewrite (is_lm_unique lex_lt (olaws _ lex_spec) _ _ _ Lg ex_lm3) in D. specialize (D 1). rewrite !mvar_exp in D. cbn in D. lia. }
    intros [<-|[<-|[]]]; [|apply H; lia]. assert (E : mone = mvar 1 0) by (apply mono_ext; intros i; rewrite mone_exp, mvar_exp; destruct (Nat.eqb i 1); reflexivity).
    rewrite E. apply H. lia.
Qed.
Example C107_ex_finite : forall i, i < 2 -> exists g k, In g [ex_i2; ex_i3] /\ is_lm lex_lt (ip rat_spec g) (mvar i k).
Proof.
  intros [|[|i]] Hi; [exists ex_i2, 1; split; [left; reflexivity|exact ex_lm2]|exists ex_i3, 2; split; [right; left; reflexivity|exact ex_lm3]|lia].
Qed.
Definition ex_zeros : list (list RR) := [[mkrat 1 1 : RR; mkrat 1 1 : RR]; [mkrat (-1) 1 : RR; mkrat (-1) 1 : RR]].
Lemma ex_den1 : den rat_spec (mkrat 1 1 : RR) <> den rat_spec (mkrat (-1) 1 : RR).
Proof. cbn. intros H. discriminate H. Qed.
(** the bound of C108_product is attained *)
Example C108_ex : buchberger_algorithm Debug lex_cmp 30 [ex_i1; ex_i2] = Ok [ex_i2; ex_i3] /\
  Forall (fun x => Forall (fun g => exists v, poly_eval g x = Ok v /\ den rat_spec v = k0) [ex_i1; ex_i2]) ex_zeros /\
  ForallOrdPairs (differ rat_spec 2) ex_zeros /\ length ex_zeros = prodn (fun i => if Nat.eqb i 0 then 1 else 2) 2.
Proof.
  split; [exact C95_run|]. split; [|split; [|reflexivity]].
  - assert (Z : den rat_spec (mkrat 0 1 : RR) = k0) by (apply den0).
    repeat (constructor; [repeat (constructor; [exists (mkrat 0 1 : RR); split; [reflexivity|exact Z]|]); constructor|]). constructor.
  - constructor; [constructor; [|constructor]|constructor; [constructor|constructor]]. exists 0. split; [lia|]. exact ex_den1.
Qed.
Example C108_ex_roots : let f : poly RR := [ex_t 1 1 [2]; ex_t (-1) 1 []] in
  pwf rat_spec f /\ Forall (fun x : RR => exists v, poly_eval f [x] = Ok v /\ den rat_spec v = k0) [mkrat 1 1 : RR; mkrat (-1) 1 : RR] /\
  ForallOrdPairs (fun x y : RR => den rat_spec x <> den rat_spec y) [mkrat 1 1 : RR; mkrat (-1) 1 : RR].
Proof.
  split; [apply ex_clean; reflexivity|]. split.
  - assert (Z : den rat_spec (mkrat 0 1 : RR) = k0) by (apply den0).
    repeat (constructor; [exists (mkrat 0 1 : RR); split; [reflexivity|exact Z]|]). constructor.
  - constructor; [constructor; [exact ex_den1|constructor]|constructor; [constructor|constructor]].
Qed.

Print Assumptions C107_finite.
Print Assumptions C107_normal_form.
Print Assumptions C107_dimension.
Print Assumptions C108_zeros.
Print Assumptions C108_product.
Print Assumptions C108_roots.
