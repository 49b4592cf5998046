(** * The four orders are monomial orders, and the code computes them. *)
From Verif Require Import Base BaseLemmas MDegModel OrdModel MonoSpec MDegProofs.

(** What the algorithms need to know of a [MonomialOrder] implementation: on well-formed
    multidegrees it either overflows or decides a monomial order. *)
Record OrderSpec (O : ord_impl) : Type := {
  olt : mono -> mono -> Prop;
  olaws : mono_order_laws olt;
  ocmp_ok : forall a b, mwf a -> mwf b ->
    safe (O a b) (fun c => CompareSpec (canon a = canon b) (olt (canon a) (canon b)) (olt (canon b) (canon a)) c)
}.
Arguments olt {_} _ _ _.

(** ** Lex *)
Lemma canon_exp_0 x l : mexp (canon (x :: l)) 0 = x.
Proof. rewrite canon_exp. reflexivity. Qed.
Lemma canon_exp_S x l i : mexp (canon (x :: l)) (S i) = mexp (canon l) i.
Proof. rewrite !canon_exp. reflexivity. Qed.

Lemma canon_cons_ne_one x l : canonical (x :: l) -> canon (x :: l) <> mone.
Proof. intros C E. apply canon_inj in E; [discriminate|exact C|discriminate]. Qed.

Lemma lex_cons x a b : lex_lt (canon a) (canon b) -> lex_lt (canon (x :: a)) (canon (x :: b)).
Proof.
  intros (k & H & E). exists (S k). rewrite !canon_exp_S. split; [exact H|].
  intros [|i] Hi; [rewrite !canon_exp_0; reflexivity|]. rewrite !canon_exp_S. apply E. lia.
Qed.
Lemma lex_head x y a b : x < y -> lex_lt (canon (x :: a)) (canon (y :: b)).
Proof. intros H. exists 0. rewrite !canon_exp_0. split; [exact H|]. intros; lia. Qed.

Lemma lex_loop_spec a : forall b, canonical a -> canonical b ->
  CompareSpec (canon a = canon b) (lex_lt (canon a) (canon b)) (lex_lt (canon b) (canon a)) (lex_loop a b).
Proof.
  induction a as [|x a IH]; intros [|y b] Ca Cb; simpl.
  - constructor. reflexivity.
  - constructor. apply lex_one. apply canon_cons_ne_one. exact Cb.
  - constructor. apply lex_one. apply canon_cons_ne_one. exact Ca.
  - destruct (Nat.compare_spec x y) as [->|H|H].
    + destruct (IH b) as [E|E|E]; [eapply canonical_tail; eassumption..| | |]; constructor.
      * apply canon_inj in E; [|eapply canonical_tail; eassumption..]. subst. reflexivity.
      * apply lex_cons. exact E.
      * apply lex_cons. exact E.
    + constructor. apply lex_head. exact H.
    + constructor. apply lex_head. exact H.
Qed.

(** ** RevLex *)
Lemma first_diff_snoc l p : first_diff (l ++ [p]) =
  match first_diff l with Eq => (fst p ?= snd p) | c => c end.
Proof.
  induction l as [|[x y] l IH]; simpl.
  - destruct p as [x y]; simpl. destruct (x ?= y); reflexivity.
  - destruct (x ?= y); auto.
Qed.

Lemma revlex_cons x y a b : revlex_lt (canon a) (canon b) -> revlex_lt (canon (x :: a)) (canon (y :: b)).
Proof.
  intros (k & H & E). exists (S k). rewrite !canon_exp_S. split; [exact H|].
  intros [|i] Hi; [lia|]. rewrite !canon_exp_S. apply E. lia.
Qed.
Lemma revlex_head x y a : x < y -> revlex_lt (canon (x :: a)) (canon (y :: a)).
Proof.
  intros H. exists 0. rewrite !canon_exp_0. split; [exact H|].
  intros [|i] Hi; [lia|]. rewrite !canon_exp_S. reflexivity.
Qed.

Lemma first_diff_spec a : forall b, length a = length b ->
  CompareSpec (a = b) (revlex_lt (canon a) (canon b)) (revlex_lt (canon b) (canon a))
    (first_diff (rev (combine a b))).
Proof.
  induction a as [|x a IH]; intros [|y b] L; simpl in L; try discriminate; simpl.
  - constructor. reflexivity.
  - injection L as L. rewrite first_diff_snoc. destruct (IH b L) as [->|E|E].
    + cbn [fst snd]. destruct (Nat.compare_spec x y) as [->|H|H]; constructor.
      * reflexivity.
      * apply revlex_head. exact H.
      * apply revlex_head. exact H.
    + constructor. apply revlex_cons. exact E.
    + constructor. apply revlex_cons. exact E.
Qed.

Lemma revlex_length a b : canonical b -> length a < length b -> revlex_lt (canon a) (canon b).
Proof.
  intros Cb L. assert (N : b <> []) by (destruct b; simpl in *; [lia|discriminate]).
  exists (length b - 1). rewrite !canon_exp. split.
  - rewrite (expo_over a) by lia. pose proof (canonical_last b Cb N). lia.
  - intros i Hi. rewrite !canon_exp, !expo_over by lia. reflexivity.
Qed.

Lemma revlex_loop_spec a b : canonical a -> canonical b ->
  CompareSpec (canon a = canon b) (revlex_lt (canon a) (canon b)) (revlex_lt (canon b) (canon a)) (revlex_loop a b).
Proof.
  intros Ca Cb. unfold revlex_loop, mdeg_len. destruct (Nat.compare_spec (length a) (length b)) as [E|H|H].
  - destruct (first_diff_spec a b E) as [->|X|X]; constructor; auto.
  - constructor. apply revlex_length; assumption.
  - constructor. apply revlex_length; assumption.
Qed.

(** ** the graded orders *)
Lemma grad_safe a b : safe (grad Debug a b) (fun c => c = (mtot (canon a) ?= mtot (canon b))).
Proof.
  unfold grad. eapply safe_bind; [apply total_deg_safe|]. intros ta ->.
  eapply safe_bind; [apply total_deg_safe|]. intros tb ->. reflexivity.
Qed.

Lemma grlex_safe a b : canonical a -> canonical b ->
  safe (grlex_cmp Debug a b) (fun c =>
    CompareSpec (canon a = canon b) (grlex_lt (canon a) (canon b)) (grlex_lt (canon b) (canon a)) c).
Proof.
  intros Ca Cb. unfold grlex_cmp. eapply safe_bind; [apply grad_safe|]. intros c ->.
  destruct (Nat.compare_spec (mtot (canon a)) (mtot (canon b))) as [E|H|H]; simpl.
  - destruct (lex_loop_spec a b Ca Cb) as [X|X|X]; constructor; auto; right; auto.
  - constructor. left. exact H.
  - constructor. left. exact H.
Qed.

Lemma grevlex_safe a b : canonical a -> canonical b ->
  safe (grevlex_cmp Debug a b) (fun c =>
    CompareSpec (canon a = canon b) (grevlex_lt (canon a) (canon b)) (grevlex_lt (canon b) (canon a)) c).
Proof.
  intros Ca Cb. unfold grevlex_cmp. eapply safe_bind; [apply grad_safe|]. intros c ->.
  destruct (Nat.compare_spec (mtot (canon a)) (mtot (canon b))) as [E|H|H]; simpl.
  - destruct (revlex_loop_spec a b Ca Cb) as [X|X|X]; simpl; constructor; auto; right; auto.
  - constructor. left. exact H.
  - constructor. left. exact H.
Qed.

(** ** instances *)
Definition lex_spec : OrderSpec lex_cmp :=
  Build_OrderSpec (lex_cmp) lex_lt lex_laws
     (fun a b Ha Hb => lex_loop_spec a b (proj1 Ha) (proj1 Hb)).
Definition revlex_spec : OrderSpec revlex_cmp :=
  Build_OrderSpec (revlex_cmp) revlex_lt revlex_laws
     (fun a b Ha Hb => revlex_loop_spec a b (proj1 Ha) (proj1 Hb)).
Definition grlex_spec : OrderSpec (grlex_cmp Debug) :=
  Build_OrderSpec (grlex_cmp Debug) grlex_lt grlex_laws
     (fun a b Ha Hb => grlex_safe a b (proj1 Ha) (proj1 Hb)).
Definition grevlex_spec : OrderSpec (grevlex_cmp Debug) :=
  Build_OrderSpec (grevlex_cmp Debug) grevlex_lt grevlex_laws
     (fun a b Ha Hb => grevlex_safe a b (proj1 Ha) (proj1 Hb)).

(** ** profile refinement *)
Lemma grad_le a b : res_le (grad Debug a b) (grad Release a b).
Proof.
  apply res_le_bind; [apply total_deg_le|]. intros ? _.
  apply res_le_bind; [apply total_deg_le|]. intros ? _. apply res_le_refl.
Qed.
Lemma grlex_le a b : res_le (grlex_cmp Debug a b) (grlex_cmp Release a b).
Proof. apply res_le_bind; [apply grad_le|]. intros [] _; apply res_le_refl. Qed.
Lemma grevlex_le a b : res_le (grevlex_cmp Debug a b) (grevlex_cmp Release a b).
Proof. apply res_le_bind; [apply grad_le|]. intros [] _; apply res_le_refl. Qed.

(** RevLex needs no bound on the number of variables *)
Lemma revlex_wf_global : well_founded revlex_lt.
Proof.
  intros b. 
  assert (K : forall n b, mvars n b -> Acc revlex_lt b).
  { intros n. assert (W := revlex_wf n).
    intros c Hc. induction c as [c IH] using (well_founded_induction W).
    constructor. intros a H.
    assert (Ha : mvars n a).
    { destruct H as (k & L & E). intros i Hi. destruct (Nat.lt_ge_cases k i) as [Lk|Gk].
      - rewrite E by exact Lk. apply Hc. exact Hi.
      - rewrite (Hc k) in L by lia. lia. }
    apply IH; auto. }
  apply (K (length (mlist b))). apply mvars_length.
Qed.
