(** * Renaming variables: exponent vectors with the same exponents at other places. *)
From Verif Require Import Base BaseLemmas FieldIface MDegModel OrdModel PolyModel CompModel MonoSpec MDegProofs OrdProofs DivProofs Param ParamDeg.

(** the variables 0, ..., n-1 of [a] are called s 0, ..., s (n-1) in [a'], which has no others *)
Definition renamed_deg (n : nat) (s : nat -> nat) (a a' : mdeg) : Prop :=
  mwf a /\ mwf a' /\ (forall i, n <= i -> expo a i = 0) /\ (forall i, i < n -> expo a' (s i) = expo a i) /\
  forall j, (forall i, i < n -> s i <> j) -> expo a' j = 0.

(** both computations end alike: related results, the same panic, or both still running *)
Definition rsame {A A' : Type} (R : A -> A' -> Prop) (x : res A) (y : res A') : Prop :=
  match x, y with
  | Ok a, Ok a' => R a a'
  | Panic k, Panic k' => k = k'
  | NoFuel, NoFuel => True
  | _, _ => False
  end.
Lemma rsame_of {A A' : Type} (R : A -> A' -> Prop) x y : rsim R x y -> rsim (fun a' a => R a a') y x -> rsame R x y.
Proof. destruct x as [a|[]|], y as [a'|[]|]; cbn; try tauto; try discriminate; congruence. Qed.
Lemma rsame_rsim {A A' : Type} (R : A -> A' -> Prop) x y : rsame R x y -> rsim R x y.
Proof. destruct x as [a|[]|], y as [a'|[]|]; cbn; try contradiction; try discriminate; auto. Qed.
Lemma rsame_rsim_flip {A A' : Type} (R : A -> A' -> Prop) x y : rsame R x y -> rsim (fun a' a => R a a') y x.
Proof. destruct x as [a|[]|], y as [a'|[]|]; cbn; try contradiction; try discriminate; auto. Qed.

Lemma hit_dec n (s : nat -> nat) j : (exists i, i < n /\ s i = j) \/ forall i, i < n -> s i <> j.
Proof.
  induction n as [|n [(i & Hi & E)|N]].
  - right. lia.
  - left. exists i. split; [lia|exact E].
  - destruct (Nat.eq_dec (s n) j) as [E|E]; [left; exists n; split; [lia|exact E]|].
    right. intros i Hi. destruct (Nat.eq_dec i n) as [->|]; [exact E|apply N; lia].
Qed.

Section Rename.
Context (n : nat) (s : nat -> nat).
Notation D := (renamed_deg n s).

(** a statement about exponents at each place holds for [a], [b] iff it does for [a'], [b'] *)
Lemma rename_all (P : nat -> nat -> Prop) a b a' b' : P 0 0 -> D a a' -> D b b' ->
  ((forall i, P (expo a i) (expo b i)) <-> (forall j, P (expo a' j) (expo b' j))).
Proof.
  intros P0 (_ & _ & Za & Ea & Oa) (_ & _ & Zb & Eb & Ob). split; intros H k.
  - destruct (hit_dec n s k) as [(i & Hi & <-)|N]; [rewrite Ea, Eb by exact Hi; apply H|rewrite Oa, Ob by exact N; exact P0].
  - destruct (Nat.lt_ge_cases k n) as [L|L]; [rewrite <- Ea, <- Eb by exact L; apply H|rewrite Za, Zb by exact L; exact P0].
Qed.
Lemma rename_eq a b a' b' : D a a' -> D b b' -> (a = b <-> a' = b').
Proof.
  intros Ha Hb. pose proof (rename_all eq a b a' b' eq_refl Ha Hb) as E. destruct Ha as ((Ca & _) & (Ca' & _) & _), Hb as ((Cb & _) & (Cb' & _) & _).
  split; intros H.
  - apply canonical_ext; try assumption. apply E. intros i. rewrite H. reflexivity.
  - apply canonical_ext; try assumption. apply E. intros i. rewrite H. reflexivity.
Qed.
Lemma rename_eqb a b a' b' : D a a' -> D b b' -> mdeg_eqb a b = mdeg_eqb a' b'.
Proof. intros Ha Hb. apply Bool.eq_iff_eq_true. rewrite !mdeg_eqb_eq. apply rename_eq; assumption. Qed.
Lemma rename_succ a b a' b' : D a a' -> D b b' -> mdeg_is_succ a b = mdeg_is_succ a' b'.
Proof.
  intros Ha Hb. apply Bool.eq_iff_eq_true. rewrite !is_succ_expo by (apply Ha). apply (rename_all le); [lia|exact Ha|exact Hb].
Qed.
(** an operation at each place *)
Lemma rename_op (f : nat -> nat -> nat) a b a' b' c c' : f 0 0 = 0 -> D a a' -> D b b' -> mwf c -> mwf c' ->
  (forall i, expo c i = f (expo a i) (expo b i)) -> (forall i, expo c' i = f (expo a' i) (expo b' i)) -> D c c'.
Proof.
  intros F0 (_ & _ & Za & Ea & Oa) (_ & _ & Zb & Eb & Ob) Wc Wc' E E'. split; [exact Wc|]. split; [exact Wc'|]. split; [|split].
  - intros i Hi. rewrite E, Za, Zb by exact Hi. exact F0.
  - intros i Hi. rewrite E', E, Ea, Eb by exact Hi. reflexivity.
  - intros j N. rewrite E', Oa, Ob by exact N. exact F0.
Qed.
Lemma rename_sub a b a' b' : D a a' -> D b b' -> orel D (mdeg_checked_sub a b) (mdeg_checked_sub a' b').
Proof.
  intros Ha Hb. pose proof (rename_all le b a b' a' ltac:(lia) Hb Ha) as DV.
  pose proof Ha as ((Ca & Ua) & (Ca' & Ua') & _). pose proof Hb as ((Cb & _) & (Cb' & _) & _).
  destruct (checked_sub_full a b Ca Cb) as [(c & -> & L & Cc & E)|[-> N]], (checked_sub_full a' b' Ca' Cb') as [(c' & -> & L' & Cc' & E')|[-> N']]; cbn; try tauto.
  apply (rename_op Nat.sub a b a' b'); try assumption; try reflexivity; (split; [assumption|]); apply expo_u8; intros i.
  - rewrite E. pose proof (u8_expo a i Ua). lia.
  - rewrite E'. pose proof (u8_expo a' i Ua'). lia.
Qed.
Lemma rename_add a b a' b' : D a a' -> D b b' -> rsame D (mdeg_add Debug a b) (mdeg_add Debug a' b').
Proof.
  intros Ha Hb. pose proof Ha as ((_ & Ua) & (_ & Ua') & _). pose proof Hb as ((_ & Ub) & (_ & Ub') & _).
  rewrite !mdeg_add_debug by assumption.
  assert (E : forall x y, forallb (fun x => x <=? 255) (lzip Nat.add x y) = true <-> forall i, expo x i + expo y i <= 255).
  { intros x y. rewrite forallb_u8. split; intros H.
    - intros i. rewrite <- (lzip_expo Nat.add) by reflexivity. apply u8_expo. exact H.
    - apply expo_u8. intros i. rewrite lzip_expo by reflexivity. apply H. }
  assert (P0 : 0 + 0 <= 255) by (apply Nat.leb_le; reflexivity). pose proof (rename_all (fun x y => x + y <= 255) a b a' b' P0 Ha Hb) as S0. clear P0. cbv beta in S0. rewrite <- !E in S0.
  assert (W : forall x y, forallb (fun x => x <=? 255) (lzip Nat.add x y) = true -> mwf (ltrim (lzip Nat.add x y))).
  { intros x y H. split; [apply ltrim_canonical|apply ltrim_u8, forallb_u8, H]. }
  pose proof (W a b) as W1. pose proof (W a' b') as W2.
  destruct (forallb _ (lzip Nat.add a b)), (forallb _ (lzip Nat.add a' b')); cbn.
  - apply (rename_op Nat.add a b a' b'); auto; intros i; rewrite ltrim_expo, lzip_expo by reflexivity; reflexivity.
  - discriminate (proj1 S0 eq_refl).
  - discriminate (proj2 S0 eq_refl).
  - reflexivity.
Qed.
Lemma rename_lcm a b a' b' : D a a' -> D b b' -> D (mdeg_lcm a b) (mdeg_lcm a' b').
Proof.
  intros Ha Hb. pose proof Ha as (Wa & Wa' & _). pose proof Hb as (Wb & Wb' & _).
  apply (rename_op Nat.max a b a' b'); try assumption; try reflexivity; try (apply mdeg_lcm_wf; assumption);
    intros i; rewrite mdeg_lcm_zip, lzip_expo by reflexivity; reflexivity.
Qed.
Lemma rename_zero : D mdeg_zero mdeg_zero.
Proof. split; [apply mwf_nil|]. split; [apply mwf_nil|]. repeat split; intros; unfold mdeg_zero; rewrite ?expo_nil; reflexivity. Qed.

(** two comparisons that agree on < agree *)
Lemma cmp_sim (lt lt' : mono -> mono -> Prop) a b a' b' c c' : D a a' -> D b b' ->
  (forall x, ~ lt' x x) -> (forall x y, lt' x y -> ~ lt' y x) ->
  (lt (canon a) (canon b) -> lt' (canon a') (canon b')) -> (lt (canon b) (canon a) -> lt' (canon b') (canon a')) ->
  CompareSpec (canon a = canon b) (lt (canon a) (canon b)) (lt (canon b) (canon a)) c ->
  CompareSpec (canon a' = canon b') (lt' (canon a') (canon b')) (lt' (canon b') (canon a')) c' -> c = c'.
Proof.
  intros Ha Hb Ir As H1 H2 C C'. pose proof (rename_eq a b a' b' Ha Hb) as E.
  pose proof Ha as ((Ca & _) & (Ca' & _) & _). pose proof Hb as ((Cb & _) & (Cb' & _) & _).
  assert (Q : canon a = canon b -> canon a' = canon b') by (intros Q; apply canon_inj in Q; try assumption; apply E in Q; rewrite Q; reflexivity).
  destruct C as [C|C|C].
  - apply Q in C. destruct C' as [C'|C'|C']; [reflexivity|rewrite C in C'; destruct (Ir _ C')|rewrite C in C'; destruct (Ir _ C')].
  - apply H1 in C. destruct C' as [C'|C'|C']; [rewrite C' in C; destruct (Ir _ C)|reflexivity|destruct (As _ _ C C')].
  - apply H2 in C. destruct C' as [C'|C'|C']; [rewrite C' in C; destruct (Ir _ C)|destruct (As _ _ C C')|reflexivity].
Qed.
Lemma lt_at a b a' b' k : D a a' -> D b b' -> expo a k < expo b k -> k < n.
Proof. intros _ (_ & _ & Zb & _) H. destruct (Nat.lt_ge_cases k n) as [L|L]; [exact L|rewrite (Zb k L) in H; lia]. Qed.
Lemma same_at a b a' b' j : D a a' -> D b b' -> (forall i, i < n -> s i = j -> expo a i = expo b i) -> expo a' j = expo b' j.
Proof.
  intros (_ & _ & _ & Ea & Oa) (_ & _ & _ & Eb & Ob) H. destruct (hit_dec n s j) as [(i & Hi & <-)|N]; [rewrite Ea, Eb by exact Hi; auto|rewrite Oa, Ob by exact N; reflexivity].
Qed.
Definition increasing_on : Prop := forall i j, i < j -> j < n -> s i < s j.
Definition decreasing_on : Prop := forall i j, i < j -> j < n -> s j < s i.

Lemma lex_up a b a' b' : increasing_on -> D a a' -> D b b' -> lex_lt (canon a) (canon b) -> lex_lt (canon a') (canon b').
Proof.
  intros M Ha Hb (k & H & E). rewrite !canon_exp in H. pose proof (lt_at _ _ _ _ _ Ha Hb H) as Hk. exists (s k). split.
  - rewrite !canon_exp. destruct Ha as (_ & _ & _ & Ea & _), Hb as (_ & _ & _ & Eb & _). rewrite Ea, Eb by exact Hk. exact H.
  - intros j Hj. rewrite !canon_exp. apply (same_at a b); try assumption. intros i Hi <-.
    assert (L : i < k). { destruct (Nat.lt_trichotomy i k) as [L|[->|L]]; [exact L|lia|pose proof (M k i L Hi); lia]. }
    specialize (E i L). rewrite !canon_exp in E. exact E.
Qed.
Lemma revlex_up a b a' b' : increasing_on -> D a a' -> D b b' -> revlex_lt (canon a) (canon b) -> revlex_lt (canon a') (canon b').
Proof.
  intros M Ha Hb (k & H & E). rewrite !canon_exp in H. pose proof (lt_at _ _ _ _ _ Ha Hb H) as Hk. exists (s k). split.
  - rewrite !canon_exp. destruct Ha as (_ & _ & _ & Ea & _), Hb as (_ & _ & _ & Eb & _). rewrite Ea, Eb by exact Hk. exact H.
  - intros j Hj. rewrite !canon_exp. apply (same_at a b); try assumption. intros i Hi <-.
    assert (L : k < i). { destruct (Nat.lt_trichotomy i k) as [L|[->|L]]; [pose proof (M i k L Hk); lia|lia|exact L]. }
    specialize (E i L). rewrite !canon_exp in E. exact E.
Qed.
Lemma lex_down a b a' b' : decreasing_on -> D a a' -> D b b' -> lex_lt (canon a) (canon b) -> revlex_lt (canon a') (canon b').
Proof.
  intros M Ha Hb (k & H & E). rewrite !canon_exp in H. pose proof (lt_at _ _ _ _ _ Ha Hb H) as Hk. exists (s k). split.
  - rewrite !canon_exp. destruct Ha as (_ & _ & _ & Ea & _), Hb as (_ & _ & _ & Eb & _). rewrite Ea, Eb by exact Hk. exact H.
  - intros j Hj. rewrite !canon_exp. apply (same_at a b); try assumption. intros i Hi <-.
    assert (L : i < k). { destruct (Nat.lt_trichotomy i k) as [L|[->|L]]; [exact L|lia|pose proof (M k i L Hi); lia]. }
    specialize (E i L). rewrite !canon_exp in E. exact E.
Qed.
Lemma revlex_down a b a' b' : decreasing_on -> D a a' -> D b b' -> revlex_lt (canon a) (canon b) -> lex_lt (canon a') (canon b').
Proof.
  intros M Ha Hb (k & H & E). rewrite !canon_exp in H. pose proof (lt_at _ _ _ _ _ Ha Hb H) as Hk. exists (s k). split.
  - rewrite !canon_exp. destruct Ha as (_ & _ & _ & Ea & _), Hb as (_ & _ & _ & Eb & _). rewrite Ea, Eb by exact Hk. exact H.
  - intros j Hj. rewrite !canon_exp. apply (same_at a b); try assumption. intros i Hi <-.
    assert (L : k < i). { destruct (Nat.lt_trichotomy i k) as [L|[->|L]]; [pose proof (M i k L Hk); lia|lia|exact L]. }
    specialize (E i L). rewrite !canon_exp in E. exact E.
Qed.

(** ** total degrees *)
Definition nsum (k : nat) (f : nat -> nat) : nat := list_sum (map f (seq 0 k)).
Lemma nsum_S k f : nsum (S k) f = nsum k f + f k.
Proof. unfold nsum. rewrite seq_S, map_app, list_sum_app. cbn. lia. Qed.
Lemma nsum_ext k f g : (forall i, i < k -> f i = g i) -> nsum k f = nsum k g.
Proof. intros H. unfold nsum. f_equal. apply map_ext_in. intros i Hi. apply in_seq in Hi. apply H. lia. Qed.
Lemma nsum_0 k : nsum k (fun _ => 0) = 0.
Proof. induction k as [|k IH]; [reflexivity|]. rewrite nsum_S, IH. reflexivity. Qed.
Lemma nsum_add k f g : nsum k (fun i => f i + g i) = nsum k f + nsum k g.
Proof. induction k as [|k IH]; [reflexivity|]. rewrite !nsum_S, IH. lia. Qed.
Lemma nsum_swap k l (f : nat -> nat -> nat) : nsum k (fun i => nsum l (fun j => f i j)) = nsum l (fun j => nsum k (fun i => f i j)).
Proof.
  induction k as [|k IH].
  - symmetry. apply nsum_0.
  - rewrite nsum_S, IH. rewrite (nsum_ext l (fun j => nsum (S k) (fun i => f i j)) (fun j => nsum k (fun i => f i j) + f k j)) by (intros j _; exact (nsum_S k (fun i => f i j))).
    rewrite nsum_add. reflexivity.
Qed.
Lemma nsum_delta k i x : nsum k (fun j => if i =? j then x else 0) = if i <? k then x else 0.
Proof.
  induction k as [|k IH]; [reflexivity|]. rewrite nsum_S, IH.
  destruct (Nat.ltb_spec i k), (Nat.eqb_spec i k), (Nat.ltb_spec i (S k)); lia.
Qed.
Lemma list_sum_expo a k : length a <= k -> list_sum a = nsum k (expo a).
Proof.
  revert k. induction a as [|x a IH]; intros k L.
  - rewrite (nsum_ext k _ (fun _ => 0)) by (intros; apply expo_nil). symmetry. apply nsum_0.
  - destruct k as [|k]; [cbn in L; lia|]. unfold nsum. cbn [seq map list_sum fold_right]. change (expo (x :: a) 0) with x.
    rewrite <- seq_shift, map_map. change (x + list_sum a = x + nsum k (expo a)). rewrite (IH k) by (cbn in L; lia). reflexivity.
Qed.
Lemma rename_tot a a' : (forall i j, i < n -> j < n -> s i = s j -> i = j) -> D a a' -> list_sum a = list_sum a'.
Proof.
  intros Inj ((Ca & _) & _ & Za & Ea & Oa).
  assert (Ln : length a <= n) by (apply canonical_length; [exact Ca|exact Za]).
  assert (B : exists k, length a' <= k /\ forall i, i < n -> s i < k).
  { exists (length a' + list_sum (map s (seq 0 n)) + 1). split; [lia|]. intros i Hi.
    assert (G : forall l, In i l -> s i <= list_sum (map s l)). { induction l as [|x l IH]; cbn; [tauto|]. intros [->|H]; [lia|apply IH in H; unfold list_sum in H; lia]. }
    pose proof (G (seq 0 n) ltac:(apply in_seq; lia)). lia. }
  destruct B as (k & Lk & Bk). rewrite (list_sum_expo a n Ln), (list_sum_expo a' k Lk).
  rewrite (nsum_ext k (expo a') (fun j => nsum n (fun i => if s i =? j then expo a i else 0))).
  - rewrite nsum_swap. apply nsum_ext. intros i Hi. rewrite nsum_delta. destruct (Nat.ltb_spec (s i) k) as [L|L]; [reflexivity|pose proof (Bk i Hi); lia].
  - intros j Hj. destruct (hit_dec n s j) as [(i & Hi & <-)|N].
    + rewrite (nsum_ext n _ (fun l => if i =? l then expo a i else 0)).
      * rewrite nsum_delta. apply Nat.ltb_lt in Hi as Hi'. rewrite Hi'. apply Ea. exact Hi.
      * intros l Hl. destruct (Nat.eqb_spec (s l) (s i)) as [E|E], (Nat.eqb_spec i l) as [E2|E2]; try congruence.
        exfalso. apply E2. symmetry. apply Inj; assumption.
    + rewrite Oa by exact N. symmetry. rewrite (nsum_ext n _ (fun _ => 0)); [apply nsum_0|]. intros l Hl. destruct (Nat.eqb_spec (s l) j) as [E|E]; [|reflexivity].
      destruct (N l Hl E).
Qed.
Lemma increasing_inj : increasing_on -> forall i j, i < n -> j < n -> s i = s j -> i = j.
Proof. intros M i j Hi Hj E. destruct (Nat.lt_trichotomy i j) as [L|[L|L]]; [pose proof (M i j L Hj); lia|exact L|pose proof (M j i L Hi); lia]. Qed.

(** ** the orders *)
Lemma lex_asym x y : lex_lt x y -> ~ lex_lt y x.
Proof. intros H G. exact (lex_irrefl x (lex_trans _ _ _ H G)). Qed.
Lemma revlex_asym x y : revlex_lt x y -> ~ revlex_lt y x.
Proof. intros H G. exact (revlex_irrefl x (revlex_trans _ _ _ H G)). Qed.

Lemma lex_cmp_up a b a' b' : increasing_on -> D a a' -> D b b' -> lex_loop a b = lex_loop a' b'.
Proof.
  intros M Ha Hb. pose proof Ha as ((Ca & _) & (Ca' & _) & _). pose proof Hb as ((Cb & _) & (Cb' & _) & _).
  apply (cmp_sim lex_lt lex_lt a b a' b'); try assumption; try apply lex_loop_spec; try assumption;
    [apply lex_irrefl|apply lex_asym|apply lex_up; assumption|apply lex_up; assumption].
Qed.
Lemma revlex_cmp_up a b a' b' : increasing_on -> D a a' -> D b b' -> revlex_loop a b = revlex_loop a' b'.
Proof.
  intros M Ha Hb. pose proof Ha as ((Ca & _) & (Ca' & _) & _). pose proof Hb as ((Cb & _) & (Cb' & _) & _).
  apply (cmp_sim revlex_lt revlex_lt a b a' b'); try assumption; try apply revlex_loop_spec; try assumption;
    [apply revlex_irrefl|apply revlex_asym|apply revlex_up; assumption|apply revlex_up; assumption].
Qed.
Lemma lex_cmp_down a b a' b' : decreasing_on -> D a a' -> D b b' -> lex_loop a b = revlex_loop a' b'.
Proof.
  intros M Ha Hb. pose proof Ha as ((Ca & _) & (Ca' & _) & _). pose proof Hb as ((Cb & _) & (Cb' & _) & _).
  apply (cmp_sim lex_lt revlex_lt a b a' b'); try assumption; try apply lex_loop_spec; try apply revlex_loop_spec; try assumption;
    [apply revlex_irrefl|apply revlex_asym|apply lex_down; assumption|apply lex_down; assumption].
Qed.
Lemma revlex_cmp_down a b a' b' : decreasing_on -> D a a' -> D b b' -> revlex_loop a b = lex_loop a' b'.
Proof.
  intros M Ha Hb. pose proof Ha as ((Ca & _) & (Ca' & _) & _). pose proof Hb as ((Cb & _) & (Cb' & _) & _).
  apply (cmp_sim revlex_lt lex_lt a b a' b'); try assumption; try apply lex_loop_spec; try apply revlex_loop_spec; try assumption;
    [apply lex_irrefl|apply lex_asym|apply revlex_down; assumption|apply revlex_down; assumption].
Qed.
Lemma grad_up a b a' b' : increasing_on -> D a a' -> D b b' -> grad Debug a b = grad Debug a' b'.
Proof.
  intros M Ha Hb. unfold grad. rewrite !total_deg_debug. rewrite (rename_tot a a' (increasing_inj M) Ha), (rename_tot b b' (increasing_inj M) Hb). reflexivity.
Qed.
End Rename.

(** the orders that come along *)
Definition kept_order (O : ord_impl) : Prop := O = lex_cmp \/ O = revlex_cmp \/ O = grlex_cmp Debug \/ O = grevlex_cmp Debug.
Definition swapped_order (O O' : ord_impl) : Prop := (O = lex_cmp /\ O' = revlex_cmp) \/ (O = revlex_cmp /\ O' = lex_cmp).
Definition order_renamed (n : nat) (s : nat -> nat) (O O' : ord_impl) : Prop :=
  forall a b a' b', renamed_deg n s a a' -> renamed_deg n s b b' -> O a b = O' a' b'.
Lemma kept_renamed n s O : increasing_on n s -> kept_order O -> order_renamed n s O O.
Proof.
  intros M H a b a' b' Ha Hb. destruct H as [H|[H|[H|H]]]; rewrite H.
  - unfold lex_cmp. f_equal. apply (lex_cmp_up n s); assumption.
  - unfold revlex_cmp. f_equal. apply (revlex_cmp_up n s); assumption.
  - unfold grlex_cmp, lex_cmp. rewrite (grad_up n s a b a' b' M Ha Hb), (lex_cmp_up n s a b a' b' M Ha Hb). reflexivity.
  - unfold grevlex_cmp, revlex_cmp. rewrite (grad_up n s a b a' b' M Ha Hb), (revlex_cmp_up n s a b a' b' M Ha Hb). reflexivity.
Qed.
Lemma swapped_renamed n s O O' : decreasing_on n s -> swapped_order O O' -> order_renamed n s O O'.
Proof.
  intros M H a b a' b' Ha Hb. destruct H as [(E1 & E2)|(E1 & E2)]; rewrite E1, E2; unfold lex_cmp, revlex_cmp; f_equal; [apply (lex_cmp_down n s)|apply (revlex_cmp_down n s)]; assumption.
Qed.
Lemma rename_sim n s O O' : order_renamed n s O O' -> DegSim (renamed_deg n s) O O'.
Proof.
  intros H. constructor.
  - apply rename_zero.
  - apply rename_eqb.
  - apply rename_succ.
  - apply rename_sub.
  - intros. apply rsame_rsim. apply rename_add; assumption.
  - apply rename_lcm.
  - intros a b a' b' Ha Hb. rewrite (H a b a' b' Ha Hb). apply rsim_refl.
Qed.
Lemma rename_sim_flip n s O O' : order_renamed n s O O' -> DegSim (fun a' a => renamed_deg n s a a') O' O.
Proof.
  intros H. constructor.
  - apply rename_zero.
  - intros a b a' b' Ha Hb. symmetry. apply (rename_eqb n s); assumption.
  - intros a b a' b' Ha Hb. symmetry. apply (rename_succ n s); assumption.
  - intros a b a' b' Ha Hb. pose proof (rename_sub n s _ _ _ _ Ha Hb) as E. destruct (mdeg_checked_sub a b), (mdeg_checked_sub a' b'); cbn in *; tauto.
  - intros a b a' b' Ha Hb. apply rsame_rsim_flip. apply rename_add; assumption.
  - intros a b a' b' Ha Hb. apply rename_lcm; assumption.
  - intros a b a' b' Ha Hb. rewrite (H a' b' a b Ha Hb). apply rsim_refl.
Qed.
