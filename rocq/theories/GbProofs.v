(** * Buchberger's criterion and algorithm (Debug profile, any exact field, any lawful order). *)
From Verif Require Import Base BaseLemmas FieldIface MDegModel OrdModel PolyModel CompModel MonoSpec MDegProofs OrdProofs
  PolySpec PolyProofs GroebnerSpec DivProofs.
From Coq Require Import Ring Field Setoid Morphisms Permutation Sorted.

(** outcomes with a given set of admissible panics *)
Definition outc {A} (P : panic -> Prop) (x : res A) (Q : A -> Prop) : Prop :=
  match x with Ok a => Q a | Panic k => P k | NoFuel => False end.
(** two fuels *)
Definition evs2 {A} (P : panic -> Prop) (g : nat -> nat -> res A) (Q : A -> Prop) : Prop :=
  exists N r, (forall d n, N <= d -> N <= n -> g d n = r) /\ outc P r Q.

Lemma outc_safe {A} (P : panic -> Prop) (x : res A) Q : P Overflow -> safe x Q -> outc P x Q.
Proof. intros H. destruct x as [a|[]|]; simpl; auto; contradiction. Qed.
Lemma outc_mono {A} (P : panic -> Prop) (x : res A) (Q Q' : A -> Prop) : outc P x Q -> (forall a, Q a -> Q' a) -> outc P x Q'.
Proof. intros H X. destruct x; simpl in *; auto. Qed.
Lemma evs2_bind {A B} (P : panic -> Prop) (g : nat -> res A) (h : A -> nat -> nat -> res B) (R : A -> Prop) Q :
  (exists N r, (forall d, N <= d -> g d = r) /\ outc P r R) ->
  (forall a, R a -> evs2 P (h a) Q) -> evs2 P (fun d n => bind (g d) (fun a => h a d n)) Q.
Proof.
  intros (N & r & E & H) Hh. destruct r as [a|k|]; simpl in H; [| |contradiction].
  - destruct (Hh a H) as (N' & r' & E' & H'). exists (Nat.max N N'), r'. split; [|exact H'].
    intros d n Hd Hn. rewrite E by lia. simpl. apply E'; lia.
  - exists N, (Panic k). split; [|exact H]. intros d n Hd Hn. rewrite E by lia. reflexivity.
Qed.
Lemma evs2_S {A} (P : panic -> Prop) (g g' : nat -> nat -> res A) Q :
  (forall d n, g' d (S n) = g d n) -> evs2 P g Q -> evs2 P g' Q.
Proof.
  intros E (N & r & H & X). exists (S N), r. split; [|exact X]. intros d n Hd Hn. destruct n as [|n]; [lia|].
  rewrite E. apply H; lia.
Qed.
Lemma evs2_const {A} (P : panic -> Prop) (g : nat -> nat -> res A) x Q : (forall d n, g d n = x) -> outc P x Q -> evs2 P g Q.
Proof. intros E H. exists 0, x. auto. Qed.
Lemma evs2_diag {A} (P : panic -> Prop) (g : nat -> nat -> res A) Q : evs2 P g Q ->
  exists N r, (forall n, N <= n -> g n n = r) /\ outc P r Q.
Proof. intros (N & r & E & H). exists N, r. auto. Qed.

(** eventual outcomes with one fuel *)
Definition evo {A} (P : panic -> Prop) (g : nat -> res A) (Q : A -> Prop) : Prop :=
  exists N r, (forall d, N <= d -> g d = r) /\ outc P r Q.
Lemma evs_evo {A} (P : panic -> Prop) (g : nat -> res A) Q : P Overflow -> evs g Q -> evo P g Q.
Proof. intros H (N & r & E & S). exists N, r. split; [exact E|]. apply outc_safe; assumption. Qed.
Lemma evo_const {A} (P : panic -> Prop) (x : res A) Q : outc P x Q -> evo P (fun _ => x) Q.
Proof. intros H. exists 0, x. auto. Qed.
Lemma evo_mono {A} (P : panic -> Prop) (g : nat -> res A) (Q Q' : A -> Prop) : evo P g Q -> (forall a, Q a -> Q' a) -> evo P g Q'.
Proof. intros (N & r & E & S) X. exists N, r. split; [exact E|]. eapply outc_mono; eassumption. Qed.
Lemma evo_bind {A B} (P : panic -> Prop) (g : nat -> res A) (h : A -> nat -> res B) (R : A -> Prop) Q :
  evo P g R -> (forall a, R a -> evo P (h a) Q) -> evo P (fun d => bind (g d) (fun a => h a d)) Q.
Proof.
  intros (N & r & E & H) Hh. destruct r as [a|k|]; simpl in H; [| |contradiction].
  - destruct (Hh a H) as (N' & r' & E' & H'). exists (Nat.max N N'), r'. split; [|exact H'].
    intros d Hd. rewrite E by lia. simpl. apply E'; lia.
  - exists N, (Panic k). split; [|exact H]. intros d Hd. rewrite E by lia. reflexivity.
Qed.
Lemma evo_safe {A B} (P : panic -> Prop) (x : res A) (h : A -> nat -> res B) (R : A -> Prop) Q : P Overflow ->
  safe x R -> (forall a, R a -> evo P (h a) Q) -> evo P (fun d => bind x (fun a => h a d)) Q.
Proof. intros HP H X. apply (evo_bind P (fun _ => x) h R Q); [apply evo_const; apply outc_safe; assumption|exact X]. Qed.
Lemma evo_evs {A} (g : nat -> res A) Q : evo (fun k => k = Overflow) g Q -> evs g Q.
Proof. intros (N & r & E & H). exists N, r. split; [exact E|]. destruct r as [a|k|]; simpl in *; auto. subst. exact I. Qed.

(** boxes of monomials *)
Fixpoint boxes (n M : nat) : list (list nat) :=
  match n with 0 => [[]] | S n' => flat_map (fun x => map (cons x) (boxes n' M)) (seq 0 (S M)) end.
Lemma boxes_in n M l : length l = n -> Forall (fun x => x <= M) l -> In l (boxes n M).
Proof.
  revert l. induction n as [|n IH]; intros [|x l] Len H; try discriminate; [left; reflexivity|].
  inversion H; subst. cbn [boxes]. apply in_flat_map. exists x. split; [apply in_seq; lia|].
  apply in_map. apply IH; auto.
Qed.
Lemma box_mono n M m : mvars n m -> (forall i, mexp m i <= M) -> In m (map canon (boxes n M)).
Proof.
  intros V H. apply in_map_iff. exists (map (mexp m) (seq 0 n)). split.
  - apply mono_ext. intros i. rewrite canon_exp. unfold expo. destruct (lt_dec i n) as [L|L].
    + rewrite (nth_indep _ 0 (mexp m 0)) by (rewrite map_length, seq_length; exact L).
      rewrite map_nth, seq_nth by exact L. reflexivity.
    + rewrite nth_overflow by (rewrite map_length, seq_length; lia). symmetry. apply V. lia.
  - apply boxes_in; [rewrite map_length, seq_length; reflexivity|]. apply Forall_map. rewrite Forall_forall. intros; apply H.
Qed.
(** the monomials of a box not divisible by any of [ls] *)
Definition free (ls : list mono) (m : mono) : bool := forallb (fun l => if mdiv_dec l m then false else true) ls.
Lemma free_iff ls m : free ls m = true <-> forall l, In l ls -> ~ mdiv l m.
Proof.
  unfold free. rewrite forallb_forall. split; intros H l I; specialize (H l I); destruct (mdiv_dec l m); auto; discriminate || contradiction.
Qed.
Definition nfree (U ls : list mono) : nat := length (filter (free ls) U).
Lemma free_snoc ls m x : free (ls ++ [m]) x = free ls x && (if mdiv_dec m x then false else true).
Proof. unfold free. rewrite forallb_app. simpl. rewrite andb_true_r. reflexivity. Qed.
Lemma nfree_lt U ls m : In m U -> free ls m = true -> nfree U (ls ++ [m]) < nfree U ls.
Proof.
  intros I Fm. unfold nfree.
  assert (Le : forall U', length (filter (free (ls ++ [m])) U') <= length (filter (free ls) U')).
  { induction U' as [|x U' IH]; simpl; [lia|]. rewrite free_snoc.
    destruct (free ls x); simpl; [|exact IH]. destruct (mdiv_dec m x); simpl; lia. }
  induction U as [|x U IH]; [contradiction|]. destruct I as [->|I]; simpl; rewrite free_snoc.
  - rewrite Fm. simpl. destruct (mdiv_dec m m) as [|N]; [|exfalso; apply N; apply mdiv_refl].
    simpl. specialize (Le U). lia.
  - specialize (IH I).
    destruct (free ls x); simpl; [|exact IH]. destruct (mdiv_dec m x); simpl; lia.
Qed.

Lemma nth_lt {A} (l : list A) i x : nth_error l i = Some x -> i < length l.
Proof. intros E. apply nth_error_Some. rewrite E. discriminate. Qed.

Section GbProofs.
Context {F : FieldImpl} {K : MathField} (FS : FieldSpec F K) {O : ord_impl} (OS : OrderSpec O).
Add Field Kf6 : (kth K).
Add Ring Pr6 : (@poly_ring K) (setoid (@peq_equiv K) (@poly_ring_ext K)).
Notation term := (term F).
Notation poly := (poly F).
Notation ip := (ip FS).
Notation it := (it FS).
Notation pwf := (pwf FS).
Notation twf := (twf FS).
Notation olt := (olt OS).
Notation tm t := (canon (tdeg t)).
Notation LM := (is_lm olt).
Notation mle := (mle olt).
Let laws := olaws _ OS.
Implicit Types (G H : list (spoly K)).

Lemma pwf_lm_exists g : pwf g -> g <> [] -> exists l, LM (ip g) l.
Proof.
  intros W N. apply (lm_exists olt laws). intros Z. apply N. apply (pwf_zero_iff FS g W). exact Z.
Qed.
Lemma LM_nonnil g l : LM (ip g) l -> g <> [].
Proof. intros [H _] ->. apply H. reflexivity. Qed.

(** an S-polynomial with zero remainder has a standard representation below the lcm *)
Lemma pair_rep G n g l h l' qs (r : spoly K) : In g G -> In h G -> LM g l -> LM h l' -> (forall x, In x G -> svars n x) ->
  div_ok OS (spol g l h l') G qs r -> peq r pzero -> rep olt G n (fun m => olt m (mlcm l l')) (spol g l h l').
Proof.
  intros Ig Ih Lg Lh V D Z.
  assert (Vs : svars n (spol g l h l')) by (apply (spol_vars olt n g l h l'); auto).
  destruct (zero_or_lm olt laws (spol g l h l')) as [E|(b & Hb)]; [rewrite E; apply rep_zero|].
  assert (R : rep olt G n (fun x => mle x b) (psub (spol g l h l') r)).
  { eapply (div_ok_rep OS); eauto. apply Hb. }
  assert (E : peq (psub (spol g l h l') r) (spol g l h l')) by (rewrite Z; ring). rewrite E in R.
  eapply rep_mono; [apply le_n| |exact R]. intros x X. eapply (mle_lt_trans olt laws); [exact X|].
  apply (spol_below olt laws g l h l'); auto. apply Hb.
Qed.

Definition pair_ok (G : list (spoly K)) n (i j : nat) : Prop :=
  forall gi gj l l', nth_error G i = Some gi -> nth_error G j = Some gj -> LM gi l -> LM gj l' ->
    rep olt G n (fun m => olt m (mlcm l l')) (spol gi l gj l').

Lemma all_pairs_groebner G n : (forall g, In g G -> svars n g) ->
  (forall i j, i < length G -> j < i -> pair_ok G n i j) -> groebner olt G.
Proof.
  intros V H. apply (buchberger olt laws G n V). intros g l h l' Ig Ih Lg Lh.
  apply In_nth_error in Ig as (i & Ei). apply In_nth_error in Ih as (j & Ej).
  assert (Hi : i < length G) by (eapply nth_lt; eassumption).
  assert (Hj : j < length G) by (eapply nth_lt; eassumption).
  destruct (lt_eq_lt_dec i j) as [[Lt|E]|Lt].
  - rewrite (spol_sym g l h l'). apply rep_opp. rewrite (mlcm_comm l l'). eapply (H j i); eassumption.
  - subst j. assert (g = h) by congruence. subst h. assert (l = l') by (eapply (is_lm_unique olt laws); eassumption). subst l'.
    rewrite (spol_self g l). apply rep_zero.
  - eapply (H i j); eassumption.
Qed.

Lemma svars_all (G : list (spoly K)) : exists n, forall g, In g G -> svars n g.
Proof.
  induction G as [|h H (n & IH)]; [exists 0; intros h []|]. destruct (svars_exists h) as (n' & V).
  exists (Nat.max n n'). intros x [->|I]; [apply (svars_le n')|apply (svars_le n)]; auto; lia.
Qed.

Lemma pairs_iter_in n i j : In (i, j) (pairs_iter n) <-> i < n /\ j < n /\ i <> j.
Proof.
  unfold pairs_iter. rewrite filter_In, In_cartesian, !in_seq, negb_true_iff, Nat.eqb_neq. simpl. lia.
Qed.

Lemma vget_cases {A} (l : list A) i : i < length l -> exists x, vget l i = Ok x /\ nth_error l i = Some x.
Proof.
  intros H. unfold vget. destruct (nth_error l i) eqn:E; [eauto|]. apply nth_error_None in E. lia.
Qed.

(** ** the S-polynomial of a pair, divided *)
Lemma spair_divide gens gi gj : Forall pwf gens -> In gi gens -> In gj gens -> gi <> [] -> gj <> [] ->
  safe (try_reduce Debug O gi gj) (fun o => exists s, o = Some s /\ pwf s /\
     exists l l', LM (ip gi) l /\ LM (ip gj) l' /\ peq (ip s) (spol (ip gi) l (ip gj) l')).
Proof.
  intros W Ii Ij Ni Nj. rewrite Forall_forall in W.
  eapply safe_mono; [apply (try_reduce_ok FS OS); auto|]. intros [s|] H.
  - destruct H as (Ws & l & l' & H). eauto 8.
  - exfalso. tauto.
Qed.
Lemma div_ok_eq (f f' : spoly K) G qs r : peq f f' -> div_ok OS f G qs r -> div_ok OS f' G qs r.
Proof.
  intros E [S1 S2 S3 S4 S5 S6 S7 S8 S9]. constructor; [exact S1| |exact S3|exact S4|exact S5| | | |].
  - rewrite <- E. exact S2.
  - intros B HB. apply S6. intros m X. apply HB. rewrite <- E. exact X.
  - intros B HB. apply S7. intros m X. apply HB. rewrite <- E. exact X.
  - intros B HB. apply S8. intros m X. apply HB. rewrite <- E. exact X.
  - intros n V. apply S9. rewrite E. exact V.
Qed.

(** ** buchberger_criterion *)
Lemma criterion_loop_ok (P : panic -> Prop) gens n : Forall pwf gens -> (forall g, In g (map ip gens) -> svars n g) ->
  P Overflow -> (In [] gens -> P Explicit) ->
  forall ps, (forall i j, In (i, j) ps -> i < length gens /\ j < length gens /\ i <> j) ->
  evo P (fun d => criterion_loop Debug O d gens ps) (fun b =>
     (b = true -> forall i j, In (i, j) ps -> pair_ok (map ip gens) n i j /\
          nth_error gens i <> Some [] /\ nth_error gens j <> Some []) /\
     (b = false -> ~ groebner olt (map ip gens))).
Proof.
  intros W V PO PE. induction ps as [|[i j] ps IH]; intros Hps.
  - cbn [criterion_loop]. apply evo_const. simpl. split; [intros _ i j []|discriminate].
  - destruct (Hps i j (or_introl eq_refl)) as (Hi & Hj & Nij).
    destruct (vget_cases gens i Hi) as (gi & Ei & Ei'). destruct (vget_cases gens j Hj) as (gj & Ej & Ej').
    assert (Ii : In gi gens) by (eapply nth_error_In; exact Ei'). assert (Ij : In gj gens) by (eapply nth_error_In; exact Ej').
    assert (Wi : pwf gi) by (rewrite Forall_forall in W; auto). assert (Wj : pwf gj) by (rewrite Forall_forall in W; auto).
    cbn [criterion_loop]. rewrite Ei, Ej. cbn [bind].
    eapply evo_safe; [exact PO|apply (try_reduce_ok FS OS gi gj Wi Wj)|].
    intros [s|] H.
    2:{ apply evo_const. simpl. apply PE. destruct H as [->| ->]; assumption. }
    destruct H as (Ws & l & l' & Ll & Ll' & Es).
    eapply evo_bind; [apply evs_evo; [exact PO|]; apply (divide_ok FS OS s gens Ws W)|].
    intros [r qs] (Wr & Wq & D). simpl fst in *. simpl snd in *.
    apply (div_ok_eq _ _ _ _ _ Es) in D.
    assert (Iri : in_ideal (map ip gens) (ip r)).
    { assert (E : peq (ip r) (psub (spol (ip gi) l (ip gj) l') (psub (spol (ip gi) l (ip gj) l') (ip r)))) by ring.
      rewrite E. apply in_ideal_sub; [apply spol_ideal; apply in_map; assumption|]. eapply div_ok_ideal; exact D. }
    destruct r as [|t r]; cbn [poly_is_zero].
    + eapply evo_mono; [apply IH; intros a b I; apply Hps; right; exact I|]. intros b [H1 H2]. split; [|exact H2].
      intros Hb x y [E|I]; [|apply H1; assumption]. injection E as <- <-. split.
      * intros gi' gj' m m' E1 E2 L1 L2.
        rewrite nth_error_map, Ei' in E1. injection E1 as <-. rewrite nth_error_map, Ej' in E2. injection E2 as <-.
        assert (m = l) by (eapply (is_lm_unique olt laws); eassumption).
        assert (m' = l') by (eapply (is_lm_unique olt laws); eassumption). subst m m'.
        eapply pair_rep; eauto; try (apply in_map; assumption). reflexivity.
      * rewrite Ei', Ej'. split; intros X; injection X as X; revert X; eapply LM_nonnil; eassumption.
    + apply evo_const. simpl. split; [discriminate|]. intros _ GB.
      assert (Z : peq (ip (t :: r)) pzero) by (eapply (reduced_ideal_zero olt laws); [exact GB|exact Iri|apply D]).
      apply (pwf_zero_iff FS _ Wr) in Z. discriminate.
Qed.

Theorem criterion_ok gens : Forall pwf gens -> Forall (fun g => g <> []) gens ->
  evs (fun fuel => buchberger_criterion Debug O fuel gens) (fun b => b = true <-> groebner olt (map ip gens)).
Proof.
  intros W NZ. destruct (svars_all (map ip gens)) as (n & V). apply evo_evs.
  eapply evo_mono; [apply (criterion_loop_ok (fun k => k = Overflow) gens n W V eq_refl)|].
  - intros I. rewrite Forall_forall in NZ. exfalso. exact (NZ [] I eq_refl).
  - intros i j I. apply pairs_iter_in. exact I.
  - intros b [H1 H2]. destruct b; split; intros X; try congruence.
    + apply (all_pairs_groebner _ n V). intros i j Hi Hj. apply H1; [reflexivity|].
      rewrite map_length in Hi. apply pairs_iter_in. lia.
    + exfalso. apply H2; auto.
Qed.
(** with a zero generator the criterion never answers true *)
Theorem criterion_zero gens : Forall pwf gens -> In [] gens -> 2 <= length gens ->
  evo (fun k => k = Overflow \/ k = Explicit) (fun fuel => buchberger_criterion Debug O fuel gens)
    (fun b => b = false /\ ~ groebner olt (map ip gens)).
Proof.
  intros W Z Len. destruct (svars_all (map ip gens)) as (n & V).
  eapply evo_mono; [apply (criterion_loop_ok (fun k => k = Overflow \/ k = Explicit) gens n W V); auto|].
  - intros i j I. apply pairs_iter_in. exact I.
  - intros [|] [H1 H2]; [|split; auto]. exfalso.
    apply In_nth_error in Z as (z & Ez). assert (Hz : z < length gens) by (eapply nth_lt; eassumption).
    assert (I : In (z, if z =? 0 then 1 else 0) (pairs_iter (length gens))).
    { apply pairs_iter_in. destruct (z =? 0) eqn:E; [apply Nat.eqb_eq in E|apply Nat.eqb_neq in E]; lia. }
    destruct (H1 eq_refl _ _ I) as (_ & X & _). exact (X Ez).
Qed.

(** ** buchberger_extend *)
Lemma leading_coef_ok f : pwf f ->
  safe (leading_coef O f) (fun o => match o with
    | None => f = []
    | Some c => exists l, LM (ip f) l /\ den FS c = coeff (ip f) l /\ fwf FS c /\ coeff (ip f) l <> k0
    end).
Proof.
  intros W. unfold leading_coef. eapply safe_bind; [apply (leading_term_ok FS OS f W)|].
  intros [t|] H; simpl; [|exact H]. destruct H as (I & Wt & L & C). exists (tm t).
  split; [exact L|]. split; [symmetry; exact C|]. split; [apply Wt|apply L].
Qed.

(** what is pushed: a monic reduced element of the ideal *)
Definition pushed gens n (r : poly) : Prop :=
  pwf r /\ in_ideal (map ip gens) (ip r) /\ reduced olt (map ip gens) (ip r) /\ svars n (ip r) /\
  exists l, LM (ip r) l /\ coeff (ip r) l = k1.

Lemma extend_inner_ok (P : panic -> Prop) gens n i : Forall pwf gens -> (forall g, In g (map ip gens) -> svars n g) ->
  P Overflow -> (In [] gens -> 2 <= length gens -> P UnwrapNone) -> i < length gens ->
  forall js, (forall j, In j js -> j < i) ->
  evo P (fun d => extend_inner Debug O d gens i js) (fun o => match o with
     | None => forall j, In j js -> pair_ok (map ip gens) n i j /\ nth_error gens i <> Some [] /\ nth_error gens j <> Some []
     | Some r => pushed gens n r /\ js <> []
     end).
Proof.
  intros W V PO PE Hi. induction js as [|j js IH]; intros Hjs.
  - cbn [extend_inner]. apply evo_const. simpl. intros j [].
  - assert (Hj : j < i) by (apply Hjs; left; reflexivity).
    destruct (vget_cases gens i Hi) as (gi & Ei & Ei'). destruct (vget_cases gens j) as (gj & Ej & Ej'); [lia|].
    assert (Ii : In gi gens) by (eapply nth_error_In; exact Ei'). assert (Ij : In gj gens) by (eapply nth_error_In; exact Ej').
    assert (Wi : pwf gi) by (rewrite Forall_forall in W; auto). assert (Wj : pwf gj) by (rewrite Forall_forall in W; auto).
    cbn [extend_inner]. rewrite Ei, Ej. cbn [bind].
    eapply evo_safe; [exact PO|apply (try_reduce_ok FS OS gi gj Wi Wj)|].
    intros [s|] H.
    2:{ cbn [unwrap bind]. apply evo_const. simpl. apply PE; [|lia]. destruct H as [->| ->]; assumption. }
    destruct H as (Ws & l & l' & Ll & Ll' & Es). cbn [unwrap bind].
    eapply evo_bind; [apply evs_evo; [exact PO|]; apply (divide_ok FS OS s gens Ws W)|].
    intros [r qs] (Wr & Wq & D). simpl fst in *. simpl snd in *.
    apply (div_ok_eq _ _ _ _ _ Es) in D.
    assert (Iri : in_ideal (map ip gens) (ip r)).
    { assert (E : peq (ip r) (psub (spol (ip gi) l (ip gj) l') (psub (spol (ip gi) l (ip gj) l') (ip r)))) by ring.
      rewrite E. apply in_ideal_sub; [apply spol_ideal; apply in_map; assumption|]. eapply div_ok_ideal; exact D. }
    assert (Vs : svars n (spol (ip gi) l (ip gj) l')) by (apply (spol_vars olt n); auto; apply V; apply in_map; assumption).
    eapply evo_safe; [exact PO|apply (leading_coef_ok r Wr)|]. intros [c|] Hc.
    + destruct Hc as (lr & Lr & Dc & Wc & Nc).
      eapply evo_safe; [exact PO|apply (poly_div_scalar_ok FS r c); [apply Forall_twf0; apply Wr|exact Wc|rewrite Dc; exact Nc]|].
      intros r' (_ & Wr' & Er'). specialize (Wr' Wr). apply evo_const. simpl. rewrite Dc in Er'.
      split; [|discriminate].
      assert (Sup : forall m, coeff (ip r') m <> k0 -> coeff (ip r) m <> k0).
      { intros m X Z. apply X. rewrite Er', coeff_scale, Z. ring. }
      split; [exact Wr'|]. split; [rewrite Er'; apply in_ideal_tmul; exact Iri|]. split; [|split].
      * intros m X. apply (ds_red _ _ _ _ _ _ D). apply Sup. exact X.
      * intros m X. destruct (ds_vars _ _ _ _ _ _ D n Vs V) as (_ & Vr & _). apply Vr. apply Sup. exact X.
      * exists lr. assert (C1 : coeff (ip r') lr = k1) by (rewrite Er', coeff_scale; field; exact Nc).
        split; [|exact C1]. split; [rewrite C1; apply k1_neq_0|]. intros m X. apply Lr. apply Sup. exact X.
    + subst r. eapply evo_mono; [apply IH; intros x I; apply Hjs; right; exact I|]. intros [r'|]; [intros [H1 _]; split; [exact H1|discriminate]|]. intros H1.
      intros x [<-|I]; [|apply H1; exact I]. split.
      * intros gi' gj' m m' E1 E2 L1 L2.
        rewrite nth_error_map, Ei' in E1. injection E1 as <-. rewrite nth_error_map, Ej' in E2. injection E2 as <-.
        assert (m = l) by (eapply (is_lm_unique olt laws); eassumption).
        assert (m' = l') by (eapply (is_lm_unique olt laws); eassumption). subst m m'.
        eapply pair_rep; eauto; try (apply in_map; assumption). reflexivity.
      * rewrite Ei', Ej'. split; intros X; injection X as X; revert X; eapply LM_nonnil; eassumption.
Qed.

Definition same_ideal (G H : list (spoly K)) : Prop := forall f, in_ideal G f <-> in_ideal H f.
Lemma same_ideal_refl G : same_ideal G G. Proof. intros f. reflexivity. Qed.
Lemma same_ideal_trans G H J : same_ideal G H -> same_ideal H J -> same_ideal G J.
Proof. intros A B f. split; intros X; [apply B, A|apply A, B]; exact X. Qed.
Lemma in_ideal_incl G H f : incl G H -> in_ideal G f -> in_ideal H f.
Proof. intros I. apply in_ideal_sub_ideal. intros g X. apply in_ideal_gen. apply I. exact X. Qed.
Lemma same_ideal_snoc G r : in_ideal G r -> same_ideal (G ++ [r]) G.
Proof.
  intros I f. split.
  - apply in_ideal_sub_ideal. intros g X. apply in_app_or in X as [X|[<-|[]]]; [apply in_ideal_gen; exact X|exact I].
  - apply in_ideal_incl. intros x X. apply in_or_app. left. exact X.
Qed.

Definition monic (g : poly) : Prop := exists l, LM (ip g) l /\ coeff (ip g) l = k1.

Record extended (gens gens' : list poly) : Prop := {
  ex_wf : Forall pwf gens';
  ex_ideal : same_ideal (map ip gens') (map ip gens);
  ex_gb : groebner olt (map ip gens');
  ex_app : exists ext, gens' = gens ++ ext /\ Forall monic ext;
  ex_zero : length gens' <= 1 \/ ~ In [] gens'
}.

Lemma extend_loop_ok (P : panic -> Prop) n (gens0 : list poly) : P Overflow ->
  (In [] gens0 -> 2 <= length gens0 -> P UnwrapNone) ->
  forall k ls gens i, nfree (map canon (boxes n 255)) ls <= k ->
  (forall l, In l ls -> exists g, In g gens /\ LM (ip g) l) ->
  Forall pwf gens -> (forall g, In g (map ip gens) -> svars n g) ->
  same_ideal (map ip gens) (map ip gens0) ->
  (exists ext, gens = gens0 ++ ext /\ Forall monic ext /\ (length gens0 <= 1 -> ext = [])) ->
  i <= length gens ->
  (forall a b, a < i -> b < a -> pair_ok (map ip gens) n a b /\ nth_error gens a <> Some [] /\ nth_error gens b <> Some []) ->
  evs2 P (fun d f => extend_loop Debug O d f gens i) (extended gens0).
Proof.
  intros PO PE. induction k as [k IHk] using (well_founded_induction Wf_nat.lt_wf).
  intros ls gens i Hk Hls W V SI Ext Hi Done.
  remember (length gens - i) as gap eqn:Egap. revert i Egap Hi Done.
  induction gap as [|gap IHgap]; intros i Egap Hi Done.
  - assert (i = length gens) by lia. subst i.
    apply (evs2_const P _ (Ok gens)).
    { intros d [|f]; simpl; rewrite Nat.ltb_irrefl; reflexivity. }
    simpl. constructor; auto.
    + apply (all_pairs_groebner _ n V). intros a b Ha Hb. rewrite map_length in Ha. apply Done; assumption.
    + destruct Ext as (ext & E & M & _). eauto.
    + destruct (le_lt_dec (length gens) 1) as [L|L]; [left; exact L|right]. intros Z.
      apply In_nth_error in Z as (z & Ez). assert (Hz : z < length gens) by (eapply nth_lt; eassumption).
      destruct z as [|z].
      * destruct (Done 1 0) as (_ & _ & X); [lia|lia|exact (X Ez)].
      * destruct (Done (S z) 0) as (_ & X & _); [lia|lia|exact (X Ez)].
  - assert (Hlt : i < length gens) by lia.
    eapply (evs2_S P (fun d f => o <- extend_inner Debug O d gens i (seq 0 i) ;;
        match o with
        | Some r => extend_loop Debug O d f (gens ++ [r]) 0
        | None => extend_loop Debug O d f gens (i + 1)
        end)).
    { intros d f. simpl. apply Nat.ltb_lt in Hlt. rewrite Hlt. reflexivity. }
    destruct Ext as (ext & Eg & Mext & Ext0).
    assert (ExtNZ : In [] gens -> 2 <= length gens -> P UnwrapNone).
    { intros Z L2. apply PE.
      - rewrite Eg in Z. apply in_app_or in Z as [Z|Z]; [exact Z|]. exfalso.
        rewrite Forall_forall in Mext. destruct (Mext [] Z) as (l & Ll & _). exact (LM_nonnil [] l Ll eq_refl).
      - destruct (le_lt_dec (length gens0) 1) as [L|L]; [|lia]. rewrite Eg, (Ext0 L), app_nil_r in L2. lia. }
    eapply evs2_bind; [apply (extend_inner_ok P gens n i W V PO ExtNZ Hlt (seq 0 i)); intros j I; apply in_seq in I; lia|].
    intros [r|] H.
    + destruct H as ((Wr & Ir & Rr & Vr & lr & Lr & Cr) & Njs).
      assert (Fr : free ls lr = true).
      { apply free_iff. intros l Il. destruct (Hls l Il) as (g & Ig & Lg). apply (Rr lr (proj1 Lr) (ip g) l); auto. apply in_map. exact Ig. }
      assert (Ulr : In lr (map canon (boxes n 255))).
      { apply box_mono; [apply Vr; apply Lr|]. intros e. pose proof (proj1 (pwf_support FS r lr Wr) (proj1 Lr)) as (t & It & <-).
        rewrite canon_exp. apply u8_expo. apply (pwf_in FS r t Wr It). }
      pose proof (nfree_lt _ ls lr Ulr Fr) as Lt.
      apply (IHk (nfree (map canon (boxes n 255)) (ls ++ [lr]))) with (ls := ls ++ [lr]).
      * lia.
      * lia.
      * intros l Il. apply in_app_or in Il as [Il|[<-|[]]].
        -- destruct (Hls l Il) as (g & Ig & Lg). exists g. split; [apply in_or_app; left; exact Ig|exact Lg].
        -- exists r. split; [apply in_or_app; right; left; reflexivity|exact Lr].
      * apply Forall_app. split; [exact W|]. constructor; [exact Wr|constructor].
      * intros g I. rewrite map_app in I. apply in_app_or in I as [I|[<-|[]]]; auto.
      * rewrite map_app. eapply same_ideal_trans; [|exact SI]. apply same_ideal_snoc. exact Ir.
      * exists (ext ++ [r]). split; [rewrite Eg, app_assoc; reflexivity|]. split.
        -- apply Forall_app. split; [exact Mext|]. constructor; [|constructor]. exists lr. auto.
        -- intros L. exfalso. specialize (Ext0 L). subst ext. rewrite app_nil_r in Eg. subst gens.
           assert (i = 0) by lia. subst i. apply Njs. reflexivity.
      * lia.
      * intros a b Ha. lia.
    + replace (i + 1) with (S i) by lia. apply IHgap; [lia|lia|].
      intros a b Ha Hb. destruct (Nat.eq_dec a i) as [->|Na]; [apply H; apply in_seq; lia|]. apply Done; lia.
Qed.

Theorem extend_ok (P : panic -> Prop) gens : Forall pwf gens -> P Overflow ->
  (In [] gens -> 2 <= length gens -> P UnwrapNone) ->
  evo P (fun fuel => buchberger_extend Debug O fuel gens) (extended gens).
Proof.
  intros W PO PE. destruct (svars_all (map ip gens)) as (n & V). unfold buchberger_extend.
  apply evs2_diag with (g := fun d f => extend_loop Debug O d f gens 0).
  apply (extend_loop_ok P n gens PO PE (nfree (map canon (boxes n 255)) []) [] gens 0); auto.
  - intros l [].
  - apply same_ideal_refl.
  - exists []. rewrite app_nil_r. auto.
  - lia.
  - intros a b Ha. lia.
Qed.

(** ** buchberger_minimize *)
Lemma lead_nonzero g : pwf g -> g <> [] ->
  safe (o <- leading_term O g ;; unwrap o) (fun t => twf t /\ LM (ip g) (tm t)).
Proof.
  intros W N. eapply safe_bind; [apply (leading_term_ok FS OS g W)|]. intros [t|] H; [|contradiction].
  simpl. destruct H as (_ & Wt & L & _). auto.
Qed.

Lemma divides_iff s t : twf s -> twf t -> (term_divides s t = true <-> mdiv (tm s) (tm t)).
Proof.
  intros Ws Wt. rewrite (term_divides_ok FS s t); [|apply twf_twf0; assumption..]. split; [tauto|]. intros H. split; [apply Ws|exact H].
Qed.

Definition lm_pair_div G i j : Prop :=
  exists gi gj li lj, nth_error G i = Some gi /\ nth_error G j = Some gj /\ LM gi li /\ LM gj lj /\ mdiv lj li.

Lemma minimize_find_ok gens : Forall pwf gens -> Forall (fun g => g <> []) gens ->
  forall ps, (forall i j, In (i, j) ps -> i < length gens /\ j < length gens /\ i <> j) ->
  safe (minimize_find O gens ps) (fun o => match o with
    | Some i => exists j, In (i, j) ps /\ lm_pair_div (map ip gens) i j
    | None => forall i j, In (i, j) ps -> ~ lm_pair_div (map ip gens) i j
    end).
Proof.
  intros W NZ. rewrite Forall_forall in W, NZ. induction ps as [|[i j] ps IH]; intros Hps; simpl minimize_find.
  - intros i j [].
  - destruct (Hps i j (or_introl eq_refl)) as (Hi & Hj & Nij).
    destruct (vget_cases gens i Hi) as (gi & Ei & Ei'). destruct (vget_cases gens j Hj) as (gj & Ej & Ej').
    assert (Ii : In gi gens) by (eapply nth_error_In; exact Ei'). assert (Ij : In gj gens) by (eapply nth_error_In; exact Ej').
    rewrite Ei, Ej. cbn [bind].
    rewrite <- bind_assoc. eapply safe_bind; [apply lead_nonzero; auto|]. intros tj [Wj Lj].
    rewrite <- bind_assoc. eapply safe_bind; [apply lead_nonzero; auto|]. intros ti [Wi Li].
    destruct (term_divides tj ti) eqn:D.
    + simpl. exists j. split; [left; reflexivity|]. exists (ip gi), (ip gj), (tm ti), (tm tj).
      rewrite !nth_error_map, Ei', Ej'. repeat (split; [solve [auto]|]). apply divides_iff; assumption.
    + eapply safe_mono; [apply IH; intros a b I; apply Hps; right; exact I|]. intros [x|] H.
      * destruct H as (y & I & X). exists y. split; [right; exact I|exact X].
      * intros a b [E|I]; [|apply H; exact I]. injection E as <- <-.
        intros (gi' & gj' & li & lj & E1 & E2 & L1 & L2 & Dv).
        rewrite nth_error_map, Ei' in E1. injection E1 as <-. rewrite nth_error_map, Ej' in E2. injection E2 as <-.
        assert (li = tm ti) by (eapply (is_lm_unique olt laws); eassumption).
        assert (lj = tm tj) by (eapply (is_lm_unique olt laws); eassumption). subst.
        apply (divides_iff tj ti Wj Wi) in Dv. congruence.
Qed.

Lemma map_list_remove {A B} (h : A -> B) l i : map h (list_remove l i) = list_remove (map h l) i.
Proof. revert i. induction l as [|y l IH]; intros [|i]; simpl; auto. f_equal. apply IH. Qed.
Lemma list_remove_incl {A} (l : list A) i : incl (list_remove l i) l.
Proof.
  revert i. induction l as [|y l IH]; intros [|i] x X; simpl in *; auto. destruct X as [->|X]; auto. right. apply (IH i). exact X.
Qed.
Lemma list_remove_in {A} (l : list A) i j x : i <> j -> nth_error l j = Some x -> In x (list_remove l i).
Proof.
  revert i j. induction l as [|y l IH]; intros [|i] [|j] N E; simpl in *; try discriminate; try lia.
  - eapply nth_error_In; exact E.
  - injection E as ->. left. reflexivity.
  - right. apply (IH i j); [lia|exact E].
Qed.
Lemma list_remove_length {A} (l : list A) i : i < length l -> length (list_remove l i) = length l - 1.
Proof. revert i. induction l as [|y l IH]; intros [|i] H; simpl in *; try lia. rewrite IH by lia. lia. Qed.

(** dropping a generator whose leading monomial is covered by another one's *)
Lemma drop_ok G i j : i <> j -> groebner olt G -> lm_pair_div G i j ->
  groebner olt (list_remove G i) /\ same_ideal (list_remove G i) G.
Proof.
  intros Nij GB (gi & gj & li & lj & Ei & Ej & Li & Lj & D).
  assert (Cov : forall g l, In g G -> LM g l -> exists h l', In h (list_remove G i) /\ LM h l' /\ mdiv l' l).
  { intros g l Ig Lg. apply In_nth_error in Ig as (k & Ek). destruct (Nat.eq_dec i k) as [<-|Nk].
    - assert (g = gi) by congruence. subst g. assert (l = li) by (eapply (is_lm_unique olt laws); eassumption). subst l.
      exists gj, lj. split; [apply (list_remove_in G i j); assumption|]. auto.
    - exists g, l. split; [apply (list_remove_in G i k); assumption|]. split; [exact Lg|apply mdiv_refl]. }
  assert (SI : same_ideal (list_remove G i) G).
  { intros f. split; [apply in_ideal_incl; apply list_remove_incl|].
    apply (lm_cover olt laws).
    - intros h m Ih Lh. destruct (GB h m Ih Lh) as (g & l & Ig & Lg & Dg). destruct (Cov g l Ig Lg) as (h' & l' & Ih' & Lh' & Dh').
      exists h', l'. split; auto. split; auto. eapply mdiv_trans; eassumption.
    - intros h Ih. apply in_ideal_gen. apply (list_remove_incl G i). exact Ih. }
  split; [|exact SI]. eapply (groebner_transfer olt G); [|exact GB|exact Cov]. intros f. apply SI.
Qed.

Definition minimal_gb G : Prop := forall i j, i <> j -> ~ lm_pair_div G i j.

Lemma minimize_ok gens : Forall pwf gens -> Forall (fun g => g <> []) gens -> groebner olt (map ip gens) ->
  evs (fun fuel => buchberger_minimize O fuel gens) (fun gens' =>
    Forall pwf gens' /\ Forall (fun g => g <> []) gens' /\ groebner olt (map ip gens') /\
    same_ideal (map ip gens') (map ip gens) /\ minimal_gb (map ip gens') /\ incl gens' gens).
Proof.
  intros W NZ GB. unfold buchberger_minimize. remember (length gens) as k eqn:Ek. revert gens Ek W NZ GB.
  induction k as [k IH] using (well_founded_induction Wf_nat.lt_wf). intros gens Ek W NZ GB.
  eapply (evs_S (fun fuel => o <- minimize_find O gens (pairs_iter (length gens)) ;;
      match o with
      | Some i => minimize_loop O fuel (list_remove gens i)
      | None => Ok gens
      end)); [reflexivity|].
  eapply evs_bind_safe; [apply (minimize_find_ok gens W NZ); intros i j I; apply pairs_iter_in; exact I|].
  intros [i|] H.
  - destruct H as (j & I & D). apply pairs_iter_in in I as (Hi & Hj & Nij).
    assert (Inc : incl (list_remove gens i) gens) by apply list_remove_incl.
    destruct (drop_ok (map ip gens) i j Nij GB D) as [GB' SI']. rewrite <- map_list_remove in GB', SI'.
    eapply evs_mono; [apply (IH (length (list_remove gens i))); auto|].
    + rewrite list_remove_length by exact Hi. lia.
    + rewrite Forall_forall in *. auto.
    + rewrite Forall_forall in *. auto.
    + intros g (A1 & A2 & A3 & A4 & A5 & A6). repeat (split; [solve [auto]|]).
      split; [eapply same_ideal_trans; eassumption|]. split; [exact A5|]. eapply incl_tran; eassumption.
  - apply evs_const. simpl. repeat (split; [solve [auto]|]). split; [apply same_ideal_refl|]. split; [|apply incl_refl].
    intros i j Nij D. apply (H i j); [|exact D]. apply pairs_iter_in.
    destruct D as (gi & gj & _ & _ & E1 & E2 & _). apply nth_lt in E1, E2. rewrite map_length in E1, E2. auto.
Qed.

(** ** buchberger_reduce *)
Lemma any_term_divisible_ok gj ts l : pwf gj -> Forall twf ts -> LM (ip gj) l ->
  safe (any_term_divisible O gj ts) (fun b => b = true <-> exists t, In t ts /\ mdiv l (tm t)).
Proof.
  intros Wj Wt Ll. induction Wt as [|t ts Ht Hts IH]; simpl any_term_divisible.
  - simpl. split; [discriminate|]. intros (t & [] & _).
  - rewrite <- bind_assoc. eapply safe_bind; [apply lead_nonzero; [exact Wj|eapply LM_nonnil; exact Ll]|]. intros tj [Wtj Ltj].
    assert (tm tj = l) by (eapply (is_lm_unique olt laws); eassumption). subst l.
    destruct (term_divides tj t) eqn:D.
    + simpl. split; [|reflexivity]. intros _. exists t. split; [left; reflexivity|]. apply divides_iff; assumption.
    + eapply safe_mono; [apply IH|]. intros b Hb. rewrite Hb. split.
      * intros (s & I & X). exists s. split; [right; exact I|exact X].
      * intros (s & [<-|I] & X); [|exists s; auto]. apply (divides_iff tj t Wtj Ht) in X. congruence.
Qed.

Definition term_pair_div G i j : Prop :=
  exists gi gj lj m, nth_error G i = Some gi /\ nth_error G j = Some gj /\ LM gj lj /\ coeff gi m <> k0 /\ mdiv lj m.

Lemma reduce_find_ok gens : Forall pwf gens -> Forall (fun g => g <> []) gens ->
  forall ps, (forall i j, In (i, j) ps -> i < length gens /\ j < length gens /\ i <> j) ->
  safe (reduce_find O gens ps) (fun o => match o with
    | Some i => exists j, In (i, j) ps /\ term_pair_div (map ip gens) i j
    | None => forall i j, In (i, j) ps -> ~ term_pair_div (map ip gens) i j
    end).
Proof.
  intros W NZ. rewrite Forall_forall in W, NZ. induction ps as [|[i j] ps IH]; intros Hps; simpl reduce_find.
  - intros i j [].
  - destruct (Hps i j (or_introl eq_refl)) as (Hi & Hj & Nij).
    destruct (vget_cases gens i Hi) as (gi & Ei & Ei'). destruct (vget_cases gens j Hj) as (gj & Ej & Ej').
    assert (Ii : In gi gens) by (eapply nth_error_In; exact Ei'). assert (Ij : In gj gens) by (eapply nth_error_In; exact Ej').
    rewrite Ei. cbn [bind]. destruct gi as [|t0 gi0] eqn:Eg; [exfalso; exact (NZ _ Ii eq_refl)|]. rewrite <- Eg in *.
    rewrite Ej. cbn [bind].
    destruct (pwf_lm_exists gj (W _ Ij) (NZ _ Ij)) as (lj & Lj).
    assert (Supp : forall m, coeff (ip gi) m <> k0 <-> exists t, In t gi /\ tm t = m) by (intros m; apply pwf_support; auto).
    eapply safe_bind; [apply (any_term_divisible_ok gj gi lj); auto; apply (W _ Ii)|]. intros b Hb.
    destruct b.
    + simpl. destruct (proj1 Hb eq_refl) as (t & It & D). exists j. split; [left; reflexivity|].
      exists (ip gi), (ip gj), lj, (tm t). rewrite !nth_error_map, Ei', Ej'. repeat (split; [solve [auto]|]).
      split; [|exact D]. apply Supp. eauto.
    + eapply safe_mono; [apply IH; intros a b I; apply Hps; right; exact I|]. intros [x|] H.
      * destruct H as (y & I & X). exists y. split; [right; exact I|exact X].
      * intros a b [E|I]; [|apply H; exact I]. injection E as <- <-.
        intros (gi' & gj' & l & m & E1 & E2 & L2 & N & Dv).
        rewrite nth_error_map, Ei' in E1. injection E1 as <-. rewrite nth_error_map, Ej' in E2. injection E2 as <-.
        assert (l = lj) by (eapply (is_lm_unique olt laws); eassumption). subst l.
        apply Supp in N as (t & It & <-). assert (X : false = true) by (apply Hb; eauto). discriminate.
Qed.

(** leading monomials of the list, as a ghost *)
Definition antichain (ls : list mono) : Prop :=
  NoDup ls /\ forall a b, In a ls -> In b ls -> mdiv a b -> a = b.
Lemma antichain_perm ls ls' : Permutation ls ls' -> antichain ls -> antichain ls'.
Proof.
  intros P [N H]. split; [eapply Permutation_NoDup; eassumption|]. apply Permutation_sym in P.
  intros a b Ia Ib. apply H; eapply Permutation_in; eassumption.
Qed.

Definition badb (ls : list mono) (gl : poly * mono) : bool :=
  existsb (fun m => existsb (fun l' => if mono_dec l' (snd gl) then false else if mdiv_dec l' m then true else false) ls)
    (support (ip (fst gl))).
Lemma badb_iff ls g l : badb ls (g, l) = true <->
  exists m l', coeff (ip g) m <> k0 /\ In l' ls /\ l' <> l /\ mdiv l' m.
Proof.
  unfold badb. rewrite existsb_exists. split.
  - intros (m & Im & H). apply existsb_exists in H as (l' & Il & H). simpl in H. apply support_iff in Im.
    destruct (mono_dec l' l); [discriminate|]. destruct (mdiv_dec l' m); [|discriminate]. eauto 7.
  - intros (m & l' & N & Il & Nl & D). exists m. split; [apply support_iff; exact N|]. apply existsb_exists.
    exists l'. split; [exact Il|]. simpl. destruct (mono_dec l' l); [contradiction|]. destruct (mdiv_dec l' m); auto.
Qed.
Lemma badb_perm ls ls' gl : Permutation ls ls' -> badb ls gl = badb ls' gl.
Proof.
  intros P. destruct gl as [g l]. apply eq_true_iff_eq. rewrite !badb_iff.
  split; intros (m & l' & N & Il & X); exists m, l'; split; auto; split; auto; eapply Permutation_in; try eassumption.
  apply Permutation_sym. exact P.
Qed.
Definition nbad (gens : list poly) (ls : list mono) : nat := length (filter (badb ls) (combine gens ls)).

Lemma combine_app {A B} (a a' : list A) (b b' : list B) : length a = length b -> combine (a ++ a') (b ++ b') = combine a b ++ combine a' b'.
Proof. revert b. induction a as [|x a IH]; intros [|y b] H; simpl in *; try discriminate; [reflexivity|]. f_equal. apply IH. lia. Qed.
Lemma filter_ext_len {A} (f g : A -> bool) l : (forall x, f x = g x) -> length (filter f l) = length (filter g l).
Proof. intros H. f_equal. apply filter_ext. exact H. Qed.

(** the remainder of an element of a minimal basis by the others keeps its leading monomial *)
Lemma reduce_keeps_lm G g l qs r : LM g l -> (forall h l', In h G -> LM h l' -> ~ mdiv l' l) ->
  div_ok OS g G qs r -> LM r l.
Proof.
  intros Lg Min D.
  destruct (svars_all (g :: G)) as (n & V).
  assert (R : rep olt G n (fun x => mle x l) (psub g r)).
  { eapply (div_ok_rep OS); [exact D|apply V; left; reflexivity|intros h I; apply V; right; exact I|apply Lg]. }
  assert (Z : coeff (psub g r) l = k0).
  { destruct (kdec (coeff (psub g r) l) k0) as [|N]; auto. exfalso.
    assert (R' : rep olt G n (fun x => mle x l /\ exists h l', In h G /\ LM h l' /\ mdiv l' x) (psub g r)).
    { destruct R as (es & X & E). exists es. split; [|exact E]. eapply Forall_impl; [|exact X].
      intros e ((I & Le & Ve) & T). split; [split; auto|]. split; [exact T|]. exists (eg e), (el e). split; [exact I|].
      split; [exact Le|]. apply mdiv_mul_r. }
    destruct (rep_support olt laws G n _ _ _ R' N) as (b & (Hb & h & l' & Ih & Lh & D') & Hl).
    assert (b = l) by (apply (mle_antisym olt laws); assumption). subst b. exact (Min h l' Ih Lh D'). }
  rewrite coeff_sub in Z. split.
  - intros E. apply (proj1 Lg). transitivity (kadd (ksub (coeff g l) (coeff r l)) (coeff r l)); [ring|]. rewrite Z, E. ring.
  - intros m X. apply (ds_rbound _ _ _ _ _ _ D l); [apply Lg|exact X].
Qed.

Lemma Forall2_nth {A B} (R : A -> B -> Prop) l l' i a : Forall2 R l l' -> nth_error l i = Some a ->
  exists b, nth_error l' i = Some b /\ R a b.
Proof.
  intros H. revert i. induction H as [|x y l l' Hx _ IH]; intros [|i] E; simpl in *; try discriminate; [|auto].
  injection E as <-. eauto.
Qed.
Lemma Forall2_nth' {A B} (R : A -> B -> Prop) l l' i b : Forall2 R l l' -> nth_error l' i = Some b ->
  exists a, nth_error l i = Some a /\ R a b.
Proof.
  intros H. revert i. induction H as [|x y l l' Hx _ IH]; intros [|i] E; simpl in *; try discriminate; [|auto].
  injection E as <-. eauto.
Qed.

Notation lms := (Forall2 (fun (g : poly) l => LM (ip g) l)).
Lemma lms_exists gens : Forall pwf gens -> Forall (fun g => g <> []) gens -> exists ls, lms gens ls.
Proof.
  intros W NZ. induction W as [|g gens Wg W IH]; [exists []; constructor|]. inversion NZ; subst.
  destruct IH as (ls & H); auto. destruct (pwf_lm_exists g Wg) as (l & Ll); auto. exists (l :: ls). constructor; assumption.
Qed.
Lemma lms_nonzero gens ls : lms gens ls -> Forall (fun g => g <> []) gens.
Proof. induction 1; constructor; auto. eapply LM_nonnil; eassumption. Qed.
Lemma minimal_antichain gens ls : lms gens ls -> minimal_gb (map ip gens) -> antichain ls.
Proof.
  intros H M.
  assert (X : forall i j a b, nth_error ls i = Some a -> nth_error ls j = Some b -> mdiv a b -> i = j).
  { intros i j a b Ei Ej D. destruct (Nat.eq_dec i j) as [|N]; auto. exfalso.
    destruct (Forall2_nth' _ _ _ _ _ H Ei) as (gi & Gi & Li). destruct (Forall2_nth' _ _ _ _ _ H Ej) as (gj & Gj & Lj).
    apply (M j i (not_eq_sym N)). exists (ip gj), (ip gi), b, a. rewrite !nth_error_map, Gi, Gj. auto 8. }
  split.
  - apply NoDup_nth_error. intros i j Hi E. destruct (nth_error ls i) as [a|] eqn:Ei; [|apply nth_error_None in Ei; lia].
    symmetry in E. apply (X i j a a Ei E). apply mdiv_refl.
  - intros a b Ia Ib D. apply In_nth_error in Ia as (i & Ei). apply In_nth_error in Ib as (j & Ej).
    assert (i = j) by (eapply X; eassumption). subst j. congruence.
Qed.

Lemma reduce_step gens ls i j qs g r : Forall pwf gens -> lms gens ls -> antichain ls -> groebner olt (map ip gens) ->
  i <> j -> term_pair_div (map ip gens) i j -> nth_error gens i = Some g -> pwf r ->
  div_ok OS (ip g) (map ip (list_remove gens i)) qs (ip r) ->
  let gens' := list_remove gens i ++ [r] in
  exists ls', Permutation ls ls' /\ Forall pwf gens' /\ lms gens' ls' /\ groebner olt (map ip gens') /\
    same_ideal (map ip gens') (map ip gens) /\ nbad gens' ls' < nbad gens ls.
Proof.
  intros W Hls AC GB Nij TD Ei Wr D gens'.
  destruct (nth_error_split gens i Ei) as (l1 & l2 & Eg & Len1).
  assert (Erem : list_remove gens i = l1 ++ l2) by (rewrite Eg, <- Len1; apply list_remove_split).
  unfold gens'. rewrite Erem in *. rewrite Eg in Hls. apply Forall2_app_inv_l in Hls as (k1 & k0' & H1 & H2 & Els).
  inversion H2 as [|? l ? k2 Ll H3]; subst k0'. subst ls.
  assert (P : Permutation (k1 ++ l :: k2) ((k1 ++ k2) ++ [l])).
  { rewrite <- app_assoc. apply Permutation_app_head. apply Permutation_cons_append. }
  assert (NDl : ~ In l (k1 ++ k2)).
  { destruct AC as [ND _]. apply NoDup_remove_2 in ND. exact ND. }
  assert (Rest : forall h l', In h (map ip (l1 ++ l2)) -> LM h l' -> In l' (k1 ++ k2)).
  { intros h l' Ih Lh. apply in_map_iff in Ih as (h0 & <- & Ih). apply In_nth_error in Ih as (k & Ek).
    assert (F2 : lms (l1 ++ l2) (k1 ++ k2)) by (apply Forall2_app; assumption).
    destruct (Forall2_nth _ _ _ _ _ F2 Ek) as (l'' & El & L''). assert (l' = l'') by (eapply (is_lm_unique olt laws); eassumption).
    subst. eapply nth_error_In; exact El. }
  assert (Rest' : forall l', In l' (k1 ++ k2) -> exists h, In h (map ip (l1 ++ l2)) /\ LM h l').
  { intros l' I. apply In_nth_error in I as (k & Ek).
    assert (F2 : lms (l1 ++ l2) (k1 ++ k2)) by (apply Forall2_app; assumption).
    destruct (Forall2_nth' _ _ _ _ _ F2 Ek) as (h & Eh & L'). exists (ip h). split; [|exact L'].
    apply in_map. eapply nth_error_In; exact Eh. }
  assert (Lr : LM (ip r) l).
  { eapply reduce_keeps_lm; [exact Ll| |exact D]. intros h l' Ih Lh Dv. apply (Rest h l' Ih) in Lh.
    apply NDl. rewrite <- (proj2 AC l' l); auto.
    - apply in_app_or in Lh as [X|X]; apply in_or_app; [left|right; right]; exact X.
    - apply in_or_app. right. left. reflexivity. }
  assert (Wrest : Forall pwf (l1 ++ l2)).
  { rewrite Eg in W. apply Forall_app in W as [W1 W2]. inversion W2; subst. apply Forall_app. auto. }
  assert (Inc : incl (l1 ++ l2) gens).
  { rewrite Eg. intros y X. apply in_app_or in X as [X|X]; apply in_or_app; [left|right; right]; exact X. }
  assert (Ig : In g gens) by (eapply nth_error_In; exact Ei).
  assert (Ir : in_ideal (map ip gens) (ip r)).
  { assert (E : peq (ip r) (psub (ip g) (psub (ip g) (ip r)))) by ring. rewrite E.
    apply in_ideal_sub; [apply in_ideal_gen; apply in_map; exact Ig|].
    apply (in_ideal_incl (map ip (l1 ++ l2))); [apply incl_map; exact Inc|]. eapply div_ok_ideal; exact D. }
  assert (Cov : forall h m, In h (map ip gens) -> LM h m -> exists h' m', In h' (map ip ((l1 ++ l2) ++ [r])) /\ LM h' m' /\ mdiv m' m).
  { intros h m Ih Lh. rewrite Eg, map_app in Ih. simpl in Ih. apply in_app_or in Ih as [I|[<-|I]].
    - exists h, m. split; [|split; [exact Lh|apply mdiv_refl]]. rewrite !map_app. apply in_or_app. left. apply in_or_app. left. exact I.
    - assert (m = l) by (eapply (is_lm_unique olt laws); eassumption). subst m. exists (ip r), l.
      split; [|split; [exact Lr|apply mdiv_refl]]. rewrite !map_app. apply in_or_app. right. left. reflexivity.
    - exists h, m. split; [|split; [exact Lh|apply mdiv_refl]]. rewrite !map_app. apply in_or_app. left. apply in_or_app. right. exact I. }
  assert (SI : same_ideal (map ip ((l1 ++ l2) ++ [r])) (map ip gens)).
  { intros f. split.
    - apply in_ideal_sub_ideal. intros h Ih. rewrite map_app in Ih. apply in_app_or in Ih as [Ih|[<-|[]]]; [|exact Ir].
      apply in_ideal_gen. apply (incl_map ip Inc). exact Ih.
    - apply (lm_cover olt laws).
      + intros h m Ih Lh. destruct (GB h m Ih Lh) as (h1 & m1 & I1 & L1 & D1). destruct (Cov h1 m1 I1 L1) as (h2 & m2 & I2 & L2 & D2).
        exists h2, m2. split; auto. split; auto. eapply mdiv_trans; eassumption.
      + intros h Ih. rewrite map_app in Ih. apply in_app_or in Ih as [Ih|[<-|[]]]; [|exact Ir].
        apply in_ideal_gen. apply (incl_map ip Inc). exact Ih. }
  exists ((k1 ++ k2) ++ [l]). split; [exact P|]. split; [apply Forall_app; split; [exact Wrest|constructor; [exact Wr|constructor]]|].
  split; [apply Forall2_app; [apply Forall2_app; assumption|constructor; [exact Lr|constructor]]|].
  split; [eapply (groebner_transfer olt (map ip gens)); [intros f; apply SI|exact GB|exact Cov]|].
  split; [exact SI|].
  (* the count *)
  assert (Bg : badb (k1 ++ l :: k2) (g, l) = true).
  { destruct TD as (gi & gj & lj & m & E1 & E2 & L2 & N & Dv).
    rewrite nth_error_map, Ei in E1. injection E1 as <-. apply badb_iff. exists m, lj. split; [exact N|].
    assert (Ijr : In gj (map ip (l1 ++ l2))).
    { rewrite <- Erem, map_list_remove. apply (list_remove_in _ i j _ Nij). exact E2. }
    pose proof (Rest gj lj Ijr L2) as Il. split; [|split; [intros ->; exact (NDl Il)|exact Dv]].
    apply in_app_or in Il as [X|X]; apply in_or_app; [left|right; right]; exact X. }
  assert (Br : badb ((k1 ++ k2) ++ [l]) (r, l) = false).
  { destruct (badb ((k1 ++ k2) ++ [l]) (r, l)) eqn:E; auto. exfalso. apply badb_iff in E as (m & l' & N & Il & Nl & Dv).
    apply in_app_or in Il as [Il|[<-|[]]]; [|congruence]. destruct (Rest' l' Il) as (h & Ih & Lh).
    exact (ds_red _ _ _ _ _ _ D m N h l' Ih Lh Dv). }
  unfold nbad. rewrite Eg.
  assert (Ln1 : length l1 = length k1) by (eapply Forall2_len; exact H1).
  assert (Ln2 : length l2 = length k2) by (eapply Forall2_len; exact H3).
  rewrite !combine_app; auto; [|rewrite !app_length; lia]. simpl combine. rewrite !filter_app, !app_length.
  cbn [filter]. rewrite Br, Bg. cbn [length].
  rewrite (filter_ext_len (badb ((k1 ++ k2) ++ [l])) (badb (k1 ++ l :: k2)) (combine l1 k1)).
  2:{ intros y. apply badb_perm. apply Permutation_sym. exact P. }
  rewrite (filter_ext_len (badb ((k1 ++ k2) ++ [l])) (badb (k1 ++ l :: k2)) (combine l2 k2)).
  2:{ intros y. apply badb_perm. apply Permutation_sym. exact P. }
  lia.
Qed.

Definition reduced_gb (gens gens' : list poly) : Prop :=
  Forall pwf gens' /\ same_ideal (map ip gens') (map ip gens) /\ groebner olt (map ip gens') /\ inter_reduced olt (map ip gens').

Lemma reduce_loop_ok gens0 : forall k gens ls, nbad gens ls <= k -> Forall pwf gens -> lms gens ls -> antichain ls ->
  groebner olt (map ip gens) -> same_ideal (map ip gens) (map ip gens0) ->
  evs2 (fun p => p = Overflow) (fun d f => reduce_loop Debug O d f gens) (reduced_gb gens0).
Proof.
  induction k as [k IH] using (well_founded_induction Wf_nat.lt_wf). intros gens ls Hk W Hls AC GB SI.
  pose proof (lms_nonzero _ _ Hls) as NZ.
  eapply (evs2_S _ (fun d f => o <- reduce_find O gens (pairs_iter (length gens)) ;;
      match o with
      | Some i =>
          g <- vget gens i ;;
          '(g_rem, _) <- divide Debug O d g (list_remove gens i) ;;
          reduce_loop Debug O d f (list_remove gens i ++ [g_rem])
      | None => Ok gens
      end)); [reflexivity|].
  eapply (evs2_bind _ (fun _ => reduce_find O gens (pairs_iter (length gens)))).
  { apply (evo_const _ _). apply outc_safe; [reflexivity|].
    apply (reduce_find_ok gens W NZ). intros i j I. apply pairs_iter_in. exact I. }
  intros [i|] H.
  - destruct H as (j & I & TD). apply pairs_iter_in in I as (Hi & Hj & Nij).
    destruct (vget_cases gens i Hi) as (g & Ei & Ei'). rewrite Ei. cbn [bind].
    assert (Wg : pwf g) by (rewrite Forall_forall in W; apply W; eapply nth_error_In; exact Ei').
    assert (Wr : Forall pwf (list_remove gens i)).
    { rewrite Forall_forall in *. intros x X. apply W. apply (list_remove_incl gens i). exact X. }
    eapply (evs2_bind _ (fun d => divide Debug O d g (list_remove gens i)) (fun o d f => 
        let '(g_rem, _) := o in reduce_loop Debug O d f (list_remove gens i ++ [g_rem]))).
    { apply evs_evo; [reflexivity|]. apply (divide_ok FS OS g (list_remove gens i) Wg Wr). }
    intros [r qs] (Wrr & Wq & D). simpl fst in *. simpl snd in *.
    destruct (reduce_step gens ls i j _ g r W Hls AC GB Nij TD Ei' Wrr D) as (ls' & P & W' & Hls' & GB' & SI' & Lt).
    apply (IH (nbad (list_remove gens i ++ [r]) ls')) with (ls := ls'); auto; [lia|eapply antichain_perm; eassumption|].
    eapply same_ideal_trans; eassumption.
  - apply (evs2_const _ _ (Ok gens)); [reflexivity|]. simpl. split; [exact W|]. split; [exact SI|]. split; [exact GB|].
    split.
    + intros g I Z. apply in_map_iff in I as (g0 & <- & I). rewrite Forall_forall in NZ, W. apply (NZ g0 I).
      apply (pwf_zero_iff FS g0 (W g0 I)). exact Z.
    + intros i j gi gj l m Nij E1 E2 L2 N D. apply (H i j).
      * apply pairs_iter_in. apply nth_lt in E1 as X1. apply nth_lt in E2 as X2. rewrite map_length in X1, X2. auto.
      * exists gi, gj, l, m. auto.
Qed.

(** ** buchberger_algorithm *)
Theorem algorithm_ok gens : Forall pwf gens -> Forall (fun g => g <> []) gens ->
  evs (fun fuel => buchberger_algorithm Debug O fuel gens) (reduced_gb gens).
Proof.
  intros W NZ. apply evo_evs. unfold buchberger_algorithm.
  eapply evo_bind; [apply (extend_ok (fun k => k = Overflow) gens W eq_refl)|].
  { intros I. rewrite Forall_forall in NZ. exfalso. exact (NZ [] I eq_refl). }
  intros g1 [W1 SI1 GB1 (ext & E1 & M1) Z1].
  assert (NZ1 : Forall (fun g => g <> []) g1).
  { rewrite E1. apply Forall_app. split; [exact NZ|]. eapply Forall_impl; [|exact M1].
    intros g (l & Ll & _). eapply LM_nonnil; exact Ll. }
  eapply evo_bind; [apply evs_evo; [reflexivity|]; apply (minimize_ok g1 W1 NZ1 GB1)|].
  intros g2 (W2 & NZ2 & GB2 & SI2 & M2 & _). unfold buchberger_reduce.
  destruct (lms_exists g2 W2 NZ2) as (ls & Hls).
  apply evs2_diag with (g := fun d f => reduce_loop Debug O d f g2).
  apply (reduce_loop_ok gens (nbad g2 ls) g2 ls); auto.
  - eapply minimal_antichain; eassumption.
  - eapply same_ideal_trans; eassumption.
Qed.

Theorem algorithm_zero gens : Forall pwf gens -> In [] gens -> 2 <= length gens ->
  evo (fun k => k = Overflow \/ k = UnwrapNone) (fun fuel => buchberger_algorithm Debug O fuel gens) (fun _ => False).
Proof.
  intros W Z Len. unfold buchberger_algorithm.
  eapply evo_bind; [apply (extend_ok (fun k => k = Overflow \/ k = UnwrapNone) gens W); auto|].
  intros g1 [W1 SI1 GB1 (ext & E1 & M1) [Z1|Z1]]; exfalso.
  - rewrite E1, app_length in Z1. lia.
  - apply Z1. rewrite E1. apply in_or_app. left. exact Z.
Qed.

Theorem algorithm_short (gens : list poly) : length gens <= 1 -> forall fuel, 2 <= fuel -> buchberger_algorithm Debug O fuel gens = Ok gens.
Proof.
  intros Len [|[|fuel]] Hf; try lia. destruct gens as [|g [|h gens]]; simpl in Len; [reflexivity|reflexivity|lia].
Qed.

(** two runs on generators of the same ideal agree up to order and scaling *)
Theorem reduced_gb_unique gens1 gens2 out1 out2 :
  reduced_gb gens1 out1 -> reduced_gb gens2 out2 -> same_ideal (map ip gens1) (map ip gens2) ->
  exists out2', Permutation out2 out2' /\
    Forall2 (fun g h => exists c, c <> k0 /\ peq (ip g) (pscale c (ip h))) out1 out2'.
Proof.
  intros (W1 & SI1 & GB1 & IR1) (W2 & SI2 & GB2 & IR2) SI.
  assert (E : same_ideal (map ip out1) (map ip out2)).
  { eapply same_ideal_trans; [exact SI1|]. eapply same_ideal_trans; [exact SI|]. intros f. symmetry. apply SI2. }
  assert (NZ : forall out, Forall pwf out -> inter_reduced olt (map ip out) -> Forall (fun g => g <> []) out).
  { intros out W [NZ _]. rewrite Forall_forall in *. intros g I ->. apply (NZ (ip [])); [apply (in_map ip _ _ I)|reflexivity]. }
  destruct (lms_exists out1 W1 (NZ _ W1 IR1)) as (ls1 & H1). destruct (lms_exists out2 W2 (NZ _ W2 IR2)) as (ls2 & H2).
  assert (ND : forall out ls, inter_reduced olt (map ip out) -> lms out ls -> NoDup ls).
  { intros out ls [_ R] H. apply NoDup_nth_error. intros i j Hi Eij. destruct (Nat.eq_dec i j) as [|N]; auto. exfalso.
    destruct (nth_error ls i) as [a|] eqn:Ei; [|apply nth_error_None in Ei; lia]. symmetry in Eij.
    destruct (Forall2_nth' _ _ _ _ _ H Ei) as (gi & Gi & Li). destruct (Forall2_nth' _ _ _ _ _ H Eij) as (gj & Gj & Lj).
    apply (R i j (ip gi) (ip gj) a a N); [rewrite nth_error_map, Gi; reflexivity|rewrite nth_error_map, Gj; reflexivity|exact Lj|apply Li|apply mdiv_refl]. }
  assert (Sub : forall oA oB lsA lsB, groebner olt (map ip oA) -> groebner olt (map ip oB) ->
     inter_reduced olt (map ip oA) -> inter_reduced olt (map ip oB) -> same_ideal (map ip oA) (map ip oB) ->
     lms oA lsA -> lms oB lsB -> forall a, In a lsA -> In a lsB).
  { intros oA oB lsA lsB GA GB' RA RB S HA HB a Ia. apply In_nth_error in Ia as (i & Ei).
    destruct (Forall2_nth' _ _ _ _ _ HA Ei) as (g & Gi & Li).
    destruct (inter_reduced_unique olt laws _ _ GA GB' RA RB S (ip g)) as (h & c & Ih & Nc & Eh).
    { apply in_map. eapply nth_error_In; exact Gi. }
    apply in_map_iff in Ih as (h0 & <- & Ih). apply In_nth_error in Ih as (j & Ej).
    destruct (Forall2_nth _ _ _ _ _ HB Ej) as (b & Eb & Lb).
    assert (Lg : LM (ip g) b). { rewrite Eh. unfold pscale. rewrite <- (mmul_1_l b). apply (is_lm_tmul olt laws); assumption. }
    assert (a = b) by (eapply (is_lm_unique olt laws); eassumption). subst. eapply nth_error_In; exact Eb. }
  assert (P : Permutation ls2 ls1).
  { apply NoDup_Permutation; [exact (ND out2 ls2 IR2 H2)|exact (ND out1 ls1 IR1 H1)|]. intros a. split.
    - apply (Sub out2 out1 ls2 ls1 GB2 GB1 IR2 IR1); auto. intros f. symmetry. apply E.
    - apply (Sub out1 out2 ls1 ls2 GB1 GB2 IR1 IR2); auto. }
  assert (PF : forall l l', Permutation l l' -> forall o, lms o l -> exists o', Permutation o o' /\ lms o' l').
  { clear. induction 1 as [|x l l' P IH|x y l|l l' l'' P1 IH1 P2 IH2]; intros o H.
    - inversion H; subst. exists []. auto.
    - inversion H as [|g ? o' ? Hg Ho]; subst. destruct (IH o' Ho) as (o'' & Po & Ho''). exists (g :: o''). auto.
    - inversion H as [|g ? o' ? Hg Ho]; subst. inversion Ho as [|g' ? o'' ? Hg' Ho']; subst.
      exists (g' :: g :: o''). split; [apply perm_swap|]. auto.
    - destruct (IH1 o H) as (o' & Po & Ho'). destruct (IH2 o' Ho') as (o'' & Po' & Ho'').
      exists o''. split; [eapply perm_trans; eassumption|exact Ho'']. }
  destruct (PF ls2 ls1 P out2 H2) as (out2' & Po & H2').
  exists out2'. split; [exact Po|].
  assert (In1 : incl out1 out1) by apply incl_refl. assert (In2 : incl out2' out2).
  { intros x X. apply (Permutation_in _ (Permutation_sym Po)). exact X. }
  revert out2' ls1 H1 H2' In2 In1 P Po. 
  assert (Main : forall o1 l1 o2, lms o1 l1 -> lms o2 l1 -> incl o1 out1 -> incl o2 out2 ->
     Forall2 (fun g h => exists c, c <> k0 /\ peq (ip g) (pscale c (ip h))) o1 o2).
  { intros o1 l1 o2 A. revert o2. induction A as [|g l o1 l1 Lg A IH]; intros o2 B I1 I2; inversion B as [|h ? o2' ? Lh B']; subst; [constructor|].
    constructor.
    - destruct (inter_reduced_unique olt laws _ _ GB1 GB2 IR1 IR2 E (ip g)) as (h' & c & Ih & Nc & Eh).
      { apply in_map. apply I1. left. reflexivity. }
      exists c. split; [exact Nc|]. rewrite Eh.
      assert (X : h' = ip h).
      { assert (Lh' : LM h' l).
        { assert (Y : peq h' (pscale (kinv c) (ip g))).
          { rewrite Eh. unfold pscale. rewrite tmul_tmul, mmul_1_l. 
            assert (Z : kmul (kinv c) c = k1) by (field; exact Nc). rewrite Z, tmul_one. reflexivity. }
          rewrite Y. unfold pscale. rewrite <- (mmul_1_l l). apply (is_lm_tmul olt laws); [|exact Lg].
          intros Z. apply (k1_neq_0 (K := K)). transitivity (kmul (kinv c) c); [field; exact Nc|]. rewrite Z. ring. }
        eapply (inter_reduced_lm olt (map ip out2)); [exact IR2|exact Ih|apply in_map; apply I2; left; reflexivity|exact Lh'|exact Lh|apply mdiv_refl]. }
      rewrite X. reflexivity.
    - apply IH; [exact B'|intros x X; apply I1; right; exact X|intros x X; apply I2; right; exact X]. }
  intros out2' ls1 H1 H2' In2 In1 P Po. apply (Main out1 ls1 out2'); auto.
Qed.

End GbProofs.
