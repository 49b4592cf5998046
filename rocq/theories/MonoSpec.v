(** * Monomials as exponent functions of finite support (specification level).

    The exponent of variable [i] in a vector is [expo v i], zero beyond its end.  A [mono] is a
    vector without trailing zeros, so that two monos with the same exponents are equal. *)
From Verif Require Import Base.
From Coq Require Import Eqdep_dec Wf_nat Wellfounded.

Definition expo (l : list nat) (i : nat) : nat := nth i l 0.

(** the last entry, if any, is nonzero *)
Definition canonical (l : list nat) : Prop := last l 1 <> 0.
Definition canonicalb (l : list nat) : bool := negb (last l 1 =? 0).

Lemma canonicalb_spec l : canonicalb l = true <-> canonical l.
Proof. unfold canonicalb, canonical. rewrite negb_true_iff, Nat.eqb_neq. tauto. Qed.

Lemma expo_nil i : expo [] i = 0.
Proof. destruct i; reflexivity. Qed.
Lemma expo_cons_S x l i : expo (x :: l) (S i) = expo l i.
Proof. reflexivity. Qed.
Lemma expo_over l i : length l <= i -> expo l i = 0.
Proof. intros H. unfold expo. apply nth_overflow. exact H. Qed.

Lemma canonical_tail x l : canonical (x :: l) -> canonical l.
Proof. unfold canonical. destruct l; simpl; auto. Qed.

Lemma canonical_cons x l : l <> [] -> canonical l -> canonical (x :: l).
Proof. unfold canonical. destruct l; simpl; auto. Qed.

Lemma canonical_last l : canonical l -> l <> [] -> expo l (length l - 1) <> 0.
Proof.
  induction l as [|x l IH]; intros C N; [contradiction|].
  destruct l as [|y l]; [exact C|].
  apply canonical_tail in C. specialize (IH C ltac:(discriminate)).
  simpl length in *. replace (S (S (length l)) - 1) with (S (length l)) by lia.
  rewrite expo_cons_S. replace (S (length l) - 1) with (length l) in IH by lia. exact IH.
Qed.

Lemma canonical_ext a : forall b, canonical a -> canonical b -> (forall i, expo a i = expo b i) -> a = b.
Proof.
  induction a as [|x a IH]; intros [|y b] Ca Cb E.
  - reflexivity.
  - exfalso. apply (canonical_last (y :: b) Cb ltac:(discriminate)). rewrite <- E. apply expo_nil.
  - exfalso. apply (canonical_last (x :: a) Ca ltac:(discriminate)). rewrite E. apply expo_nil.
  - f_equal; [exact (E 0)|]. apply IH; [eapply canonical_tail; eassumption..|].
    intros i. exact (E (S i)).
Qed.

(** length of a canonical vector in terms of exponents *)
Lemma canonical_length l n : canonical l -> (length l <= n <-> forall i, n <= i -> expo l i = 0).
Proof.
  intros C. split.
  - intros H i Hi. apply expo_over. lia.
  - intros H. destruct (Nat.le_gt_cases (length l) n) as [L|G]; auto. exfalso.
    assert (N : l <> []) by (destruct l; simpl in *; [lia|discriminate]).
    apply (canonical_last l C N). apply H. lia.
Qed.

(** ** trimming *)
Fixpoint ltrim (l : list nat) : list nat :=
  match l with
  | [] => []
  | x :: xs =>
      match ltrim xs with
      | [] => if x =? 0 then [] else [x]
      | t => x :: t
      end
  end.

Lemma ltrim_canonical l : canonical (ltrim l).
Proof.
  induction l as [|x l IH]; simpl; [discriminate|].
  destruct (ltrim l) as [|y t] eqn:E.
  - destruct (Nat.eqb_spec x 0); [discriminate|]. exact n.
  - apply canonical_cons; [discriminate|exact IH].
Qed.

Lemma ltrim_expo l : forall i, expo (ltrim l) i = expo l i.
Proof.
  induction l as [|x l IH]; intros i; simpl; [reflexivity|].
  destruct (ltrim l) as [|y t] eqn:E.
  - destruct (Nat.eqb_spec x 0) as [->|N].
    + destruct i; rewrite expo_nil; [reflexivity|]. rewrite expo_cons_S, <- IH, expo_nil. reflexivity.
    + destruct i; [reflexivity|]. rewrite !expo_cons_S. exact (IH i).
  - destruct i; [reflexivity|]. rewrite !expo_cons_S. exact (IH i).
Qed.

Lemma ltrim_id l : canonical l -> ltrim l = l.
Proof.
  intros C. apply canonical_ext; [apply ltrim_canonical|exact C|]. apply ltrim_expo.
Qed.

Lemma ltrim_length l : length (ltrim l) <= length l.
Proof.
  apply canonical_length; [apply ltrim_canonical|]. intros i Hi. rewrite ltrim_expo. apply expo_over. exact Hi.
Qed.

(** ** the type of monomials *)
Record mono : Type := mkmono { mlist : list nat; mcan : canonicalb mlist = true }.

Definition mexp (m : mono) (i : nat) : nat := expo (mlist m) i.

Lemma mono_eq a b : mlist a = mlist b -> a = b.
Proof.
  destruct a as [la ca], b as [lb cb]; simpl. intros <-. f_equal.
  apply UIP_dec. apply Bool.bool_dec.
Qed.

Lemma mcanonical m : canonical (mlist m).
Proof. apply canonicalb_spec. apply mcan. Qed.

Lemma mono_ext a b : (forall i, mexp a i = mexp b i) -> a = b.
Proof. intros H. apply mono_eq. apply canonical_ext; [apply mcanonical..|exact H]. Qed.

Lemma mono_dec (a b : mono) : {a = b} + {a <> b}.
Proof.
  destruct (list_eq_dec Nat.eq_dec (mlist a) (mlist b)) as [E|N].
  - left. apply mono_eq. exact E.
  - right. intros ->. apply N. reflexivity.
Defined.

Definition canon (l : list nat) : mono :=
  mkmono (ltrim l) (proj2 (canonicalb_spec _) (ltrim_canonical l)).

Lemma canon_exp l i : mexp (canon l) i = expo l i.
Proof. apply ltrim_expo. Qed.

Lemma canon_mlist m : canon (mlist m) = m.
Proof. apply mono_eq. simpl. apply ltrim_id. apply mcanonical. Qed.

Lemma mlist_canon l : canonical l -> mlist (canon l) = l.
Proof. intros C. simpl. apply ltrim_id. exact C. Qed.

Lemma canon_inj a b : canonical a -> canonical b -> canon a = canon b -> a = b.
Proof. intros Ca Cb E. rewrite <- (mlist_canon a Ca), <- (mlist_canon b Cb), E. reflexivity. Qed.

(** ** pointwise operations *)
Fixpoint lzip (f : nat -> nat -> nat) (a b : list nat) : list nat :=
  match a, b with
  | [], _ => map (fun y => f 0 y) b
  | x :: a', [] => f x 0 :: lzip f a' []
  | x :: a', y :: b' => f x y :: lzip f a' b'
  end.

Lemma lzip_expo f : f 0 0 = 0 -> forall a b i, expo (lzip f a b) i = f (expo a i) (expo b i).
Proof.
  intros F. induction a as [|x a IH]; intros b i; simpl.
  - revert i. induction b as [|y b IHb]; intros i; simpl; [rewrite !expo_nil; auto|].
    rewrite expo_nil. destruct i; [reflexivity|]. rewrite !expo_cons_S, IHb, expo_nil. reflexivity.
  - destruct b as [|y b]; destruct i; try reflexivity; rewrite !expo_cons_S, IH; [|reflexivity].
    rewrite !expo_nil. reflexivity.
Qed.

Definition mone : mono := canon [].
Definition mmul (a b : mono) : mono := canon (lzip Nat.add (mlist a) (mlist b)).
Definition mlcm (a b : mono) : mono := canon (lzip Nat.max (mlist a) (mlist b)).
(** quotient, meaningful when [b] divides [a] *)
Definition mquo (a b : mono) : mono := canon (lzip Nat.sub (mlist a) (mlist b)).
Definition mdiv (a b : mono) : Prop := forall i, mexp a i <= mexp b i.
Definition mvar (i k : nat) : mono := canon (repeat 0 i ++ [k]).

Lemma mone_exp i : mexp mone i = 0.
Proof. unfold mone. rewrite canon_exp. apply expo_nil. Qed.
Lemma mmul_exp a b i : mexp (mmul a b) i = mexp a i + mexp b i.
Proof. unfold mmul. rewrite canon_exp, lzip_expo by reflexivity. reflexivity. Qed.
Lemma mlcm_exp a b i : mexp (mlcm a b) i = Nat.max (mexp a i) (mexp b i).
Proof. unfold mlcm. rewrite canon_exp, lzip_expo by reflexivity. reflexivity. Qed.
Lemma mquo_exp a b i : mexp (mquo a b) i = mexp a i - mexp b i.
Proof. unfold mquo. rewrite canon_exp, lzip_expo by reflexivity. reflexivity. Qed.

Ltac mext := apply mono_ext; intros ?i; repeat rewrite ?mmul_exp, ?mone_exp, ?mlcm_exp, ?mquo_exp.

Lemma mmul_comm a b : mmul a b = mmul b a.
Proof. mext. lia. Qed.
Lemma mmul_assoc a b c : mmul a (mmul b c) = mmul (mmul a b) c.
Proof. mext. lia. Qed.
Lemma mmul_1_l a : mmul mone a = a.
Proof. mext. lia. Qed.
Lemma mmul_1_r a : mmul a mone = a.
Proof. mext. lia. Qed.
Lemma mmul_cancel_l a b c : mmul a b = mmul a c -> b = c.
Proof.
  intros E. apply mono_ext. intros i. assert (X : mexp (mmul a b) i = mexp (mmul a c) i) by (rewrite E; reflexivity).
  rewrite !mmul_exp in X. lia.
Qed.
Lemma mmul_quo a b : mdiv a b -> mmul a (mquo b a) = b.
Proof. intros D. mext. specialize (D i). lia. Qed.
Lemma mquo_mul a b : mquo (mmul a b) a = b.
Proof. mext. lia. Qed.
Lemma mdiv_mul a b : mdiv a (mmul a b).
Proof. intros i. rewrite mmul_exp. lia. Qed.
Lemma mdiv_mul_r a b : mdiv b (mmul a b).
Proof. intros i. rewrite mmul_exp. lia. Qed.
Lemma mdiv_refl a : mdiv a a.
Proof. intros i. lia. Qed.
Lemma mdiv_trans a b c : mdiv a b -> mdiv b c -> mdiv a c.
Proof. intros H1 H2 i. specialize (H1 i). specialize (H2 i). lia. Qed.
Lemma mdiv_antisym a b : mdiv a b -> mdiv b a -> a = b.
Proof. intros H1 H2. apply mono_ext. intros i. specialize (H1 i). specialize (H2 i). lia. Qed.
Lemma mdiv_one a : mdiv mone a.
Proof. intros i. rewrite mone_exp. lia. Qed.
Lemma mdiv_lcm_l a b : mdiv a (mlcm a b).
Proof. intros i. rewrite mlcm_exp. lia. Qed.
Lemma mdiv_lcm_r a b : mdiv b (mlcm a b).
Proof. intros i. rewrite mlcm_exp. lia. Qed.
Lemma mlcm_least a b c : mdiv a c -> mdiv b c -> mdiv (mlcm a b) c.
Proof. intros H1 H2 i. rewrite mlcm_exp. specialize (H1 i). specialize (H2 i). lia. Qed.
Lemma mlcm_comm a b : mlcm a b = mlcm b a.
Proof. mext. lia. Qed.

Lemma mdiv_iff a b : mdiv a b <-> exists c, b = mmul a c.
Proof.
  split.
  - intros D. exists (mquo b a). symmetry. apply mmul_quo. exact D.
  - intros [c ->]. apply mdiv_mul.
Qed.

Definition ldivb (a b : list nat) : bool :=
  forallb (fun i => expo a i <=? expo b i) (seq 0 (length a)).
Lemma mdiv_dec a b : {mdiv a b} + {~ mdiv a b}.
Proof.
  destruct (ldivb (mlist a) (mlist b)) eqn:E.
  - left. intros i. destruct (Nat.lt_ge_cases i (length (mlist a))) as [L|G].
    + unfold ldivb in E. rewrite forallb_forall in E. apply Nat.leb_le. apply E. apply in_seq. lia.
    + unfold mexp at 1. rewrite expo_over by exact G. lia.
  - right. intros D. assert (X : ldivb (mlist a) (mlist b) = true).
    { unfold ldivb. apply forallb_forall. intros i _. apply Nat.leb_le. apply D. }
    congruence.
Qed.

(** number of variables *)
Definition mvars (n : nat) (m : mono) : Prop := forall i, n <= i -> mexp m i = 0.
Lemma mvars_mul n a b : mvars n (mmul a b) <-> mvars n a /\ mvars n b.
Proof.
  split.
  - intros H. split; intros i Hi; specialize (H i Hi); rewrite mmul_exp in H; lia.
  - intros [Ha Hb] i Hi. rewrite mmul_exp, Ha, Hb by exact Hi. reflexivity.
Qed.
Lemma mvars_one n : mvars n mone.
Proof. intros i _. apply mone_exp. Qed.
Lemma mvars_lcm n a b : mvars n a -> mvars n b -> mvars n (mlcm a b).
Proof. intros Ha Hb i Hi. rewrite mlcm_exp, Ha, Hb by exact Hi. reflexivity. Qed.
Lemma mvars_quo n a b : mvars n a -> mvars n (mquo a b).
Proof. intros Ha i Hi. rewrite mquo_exp, Ha by exact Hi. reflexivity. Qed.
Lemma mvars_div n a b : mdiv a b -> mvars n b -> mvars n a.
Proof. intros D H i Hi. specialize (D i). rewrite H in D by exact Hi. lia. Qed.
Lemma mvars_le n n' a : n <= n' -> mvars n a -> mvars n' a.
Proof. intros L H i Hi. apply H. lia. Qed.
Lemma mvars_length a : mvars (length (mlist a)) a.
Proof. intros i Hi. apply expo_over. exact Hi. Qed.
Lemma mvars_iff n a : mvars n a <-> length (mlist a) <= n.
Proof. symmetry. apply canonical_length. apply mcanonical. Qed.

(** total degree *)
Definition mtot (a : mono) : nat := list_sum (mlist a).

Lemma list_sum_trim l : list_sum (ltrim l) = list_sum l.
Proof.
  induction l as [|x l IH]; simpl; [reflexivity|].
  destruct (ltrim l) as [|y t] eqn:E.
  - simpl in IH. destruct (Nat.eqb_spec x 0); simpl; lia.
  - simpl in *. lia.
Qed.
Lemma list_sum_zip_add a : forall b, list_sum (lzip Nat.add a b) = list_sum a + list_sum b.
Proof.
  induction a as [|x a IH]; intros b; simpl.
  - induction b; simpl; auto.
  - destruct b as [|y b]; simpl; rewrite IH; simpl; lia.
Qed.
Lemma mtot_mul a b : mtot (mmul a b) = mtot a + mtot b.
Proof. unfold mtot, mmul. simpl. rewrite list_sum_trim. apply list_sum_zip_add. Qed.
Lemma mtot_one : mtot mone = 0.
Proof. reflexivity. Qed.
Lemma expo_le_sum l i : expo l i <= list_sum l.
Proof.
  revert i. induction l as [|x l IH]; intros i; [rewrite expo_nil; lia|].
  destruct i; simpl; [unfold expo; simpl; lia|]. rewrite expo_cons_S. specialize (IH i). lia.
Qed.
Lemma mexp_le_tot a i : mexp a i <= mtot a.
Proof. apply expo_le_sum. Qed.

(** ** the textbook orders, on exponents *)
Definition lex_lt (a b : mono) : Prop :=
  exists k, mexp a k < mexp b k /\ forall i, i < k -> mexp a i = mexp b i.
Definition revlex_lt (a b : mono) : Prop :=
  exists k, mexp a k < mexp b k /\ forall i, k < i -> mexp a i = mexp b i.
Definition grlex_lt (a b : mono) : Prop :=
  mtot a < mtot b \/ (mtot a = mtot b /\ lex_lt a b).
Definition grevlex_lt (a b : mono) : Prop :=
  mtot a < mtot b \/ (mtot a = mtot b /\ revlex_lt b a).

(** A comparison function deciding a strict relation *)
Definition decides (lt : mono -> mono -> Prop) (cmp : mono -> mono -> comparison) : Prop :=
  forall a b, CompareSpec (a = b) (lt a b) (lt b a) (cmp a b).

Definition mono_order_laws (lt : mono -> mono -> Prop) : Prop :=
  (forall a, ~ lt a a) /\
  (forall a b c, lt a b -> lt b c -> lt a c) /\
  (forall a b, a = b \/ lt a b \/ lt b a) /\
  (forall a b c, lt a b -> lt (mmul c a) (mmul c b)) /\
  (forall a, a <> mone -> lt mone a) /\
  (forall n, well_founded (fun a b => mvars n a /\ mvars n b /\ lt a b)).

Lemma lex_irrefl a : ~ lex_lt a a.
Proof. intros (k & H & _). lia. Qed.
Lemma lex_trans a b c : lex_lt a b -> lex_lt b c -> lex_lt a c.
Proof.
  intros (k & H1 & H2) (l & H3 & H4). destruct (Nat.lt_trichotomy k l) as [L|[->|L]].
  - exists k. split; [rewrite <- H4 by exact L; exact H1|]. intros i Hi. rewrite H2, H4 by lia. reflexivity.
  - exists l. split; [lia|]. intros i Hi. rewrite H2, H4 by lia. reflexivity.
  - exists l. split; [rewrite H2 by exact L; exact H3|]. intros i Hi. rewrite H2, H4 by lia. reflexivity.
Qed.
Lemma revlex_irrefl a : ~ revlex_lt a a.
Proof. intros (k & H & _). lia. Qed.
Lemma revlex_trans a b c : revlex_lt a b -> revlex_lt b c -> revlex_lt a c.
Proof.
  intros (k & H1 & H2) (l & H3 & H4). destruct (Nat.lt_trichotomy k l) as [L|[->|L]].
  - exists l. split; [rewrite H2 by exact L; exact H3|]. intros i Hi. rewrite H2, H4 by lia. reflexivity.
  - exists l. split; [lia|]. intros i Hi. rewrite H2, H4 by lia. reflexivity.
  - exists k. split; [rewrite <- H4 by exact L; exact H1|]. intros i Hi. rewrite H2, H4 by lia. reflexivity.
Qed.
Lemma grlex_irrefl a : ~ grlex_lt a a.
Proof. intros [H|[_ H]]; [lia|]. exact (lex_irrefl a H). Qed.
Lemma grlex_trans a b c : grlex_lt a b -> grlex_lt b c -> grlex_lt a c.
Proof.
  intros [H|[E H]] [H'|[E' H']]; [left; lia..|]. right. split; [lia|]. eapply lex_trans; eassumption.
Qed.
Lemma grevlex_irrefl a : ~ grevlex_lt a a.
Proof. intros [H|[_ H]]; [lia|]. exact (revlex_irrefl a H). Qed.
Lemma grevlex_trans a b c : grevlex_lt a b -> grevlex_lt b c -> grevlex_lt a c.
Proof.
  intros [H|[E H]] [H'|[E' H']]; [left; lia..|]. right. split; [lia|]. eapply revlex_trans; eassumption.
Qed.

(** trichotomy by scanning up to a bound *)
Lemma scan_up (f g : nat -> nat) n :
  (forall i, i < n -> f i = g i) \/ (exists k, k < n /\ f k <> g k /\ forall i, i < k -> f i = g i).
Proof.
  induction n as [|n [IH|IH]]; [left; intros; lia| |].
  - destruct (Nat.eq_dec (f n) (g n)) as [E|N].
    + left. intros i Hi. destruct (Nat.eq_dec i n) as [->|]; [exact E|apply IH; lia].
    + right. exists n. split; [lia|]. split; auto.
  - right. destruct IH as (k & L & H). exists k. split; [lia|exact H].
Qed.
Lemma scan_down (f g : nat -> nat) n : (forall i, n <= i -> f i = g i) ->
  (forall i, f i = g i) \/ (exists k, k < n /\ f k <> g k /\ forall i, k < i -> f i = g i).
Proof.
  induction n as [|n IH]; intros H; [left; intros; apply H; lia|].
  destruct (Nat.eq_dec (f n) (g n)) as [E|N].
  - destruct IH as [A|(k & L & A)].
    + intros i Hi. destruct (Nat.eq_dec i n) as [->|]; [exact E|apply H; lia].
    + left; exact A.
    + right. exists k. split; [lia|exact A].
  - right. exists n. split; [lia|]. split; auto.
Qed.

Lemma mvars_common a b : exists n, mvars n a /\ mvars n b.
Proof.
  exists (Nat.max (length (mlist a)) (length (mlist b))). split; apply mvars_iff; lia.
Qed.

Lemma lex_total a b : a = b \/ lex_lt a b \/ lex_lt b a.
Proof.
  destruct (mvars_common a b) as (n & Ha & Hb).
  destruct (scan_up (mexp a) (mexp b) n) as [E|(k & L & N & E)].
  - left. apply mono_ext. intros i. destruct (Nat.lt_ge_cases i n); auto. rewrite Ha, Hb; auto.
  - right. destruct (Nat.lt_trichotomy (mexp a k) (mexp b k)) as [X|[X|X]]; [left|contradiction|right];
      exists k; split; auto. intros i Hi. symmetry. auto.
Qed.
Lemma revlex_total a b : a = b \/ revlex_lt a b \/ revlex_lt b a.
Proof.
  destruct (mvars_common a b) as (n & Ha & Hb).
  destruct (scan_down (mexp a) (mexp b) n) as [E|(k & L & N & E)].
  - intros i Hi. rewrite Ha, Hb; auto.
  - left. apply mono_ext. exact E.
  - right. destruct (Nat.lt_trichotomy (mexp a k) (mexp b k)) as [X|[X|X]]; [left|contradiction|right];
      exists k; split; auto. intros i Hi. symmetry. auto.
Qed.
Lemma grlex_total a b : a = b \/ grlex_lt a b \/ grlex_lt b a.
Proof.
  unfold grlex_lt. destruct (Nat.lt_trichotomy (mtot a) (mtot b)) as [L|[E|L]]; [auto| |auto].
  destruct (lex_total a b) as [H|[H|H]]; auto.
Qed.
Lemma grevlex_total a b : a = b \/ grevlex_lt a b \/ grevlex_lt b a.
Proof.
  unfold grevlex_lt. destruct (Nat.lt_trichotomy (mtot a) (mtot b)) as [L|[E|L]]; [auto| |auto].
  destruct (revlex_total a b) as [H|[H|H]]; auto.
Qed.

Lemma lex_mul a b c : lex_lt a b -> lex_lt (mmul c a) (mmul c b).
Proof.
  intros (k & H & E). exists k. rewrite !mmul_exp. split; [lia|].
  intros i Hi. rewrite !mmul_exp, E by exact Hi. reflexivity.
Qed.
Lemma revlex_mul a b c : revlex_lt a b -> revlex_lt (mmul c a) (mmul c b).
Proof.
  intros (k & H & E). exists k. rewrite !mmul_exp. split; [lia|].
  intros i Hi. rewrite !mmul_exp, E by exact Hi. reflexivity.
Qed.
Lemma grlex_mul a b c : grlex_lt a b -> grlex_lt (mmul c a) (mmul c b).
Proof.
  intros [H|[E H]]; [left|right]; rewrite !mtot_mul; [lia|]. split; [lia|]. apply lex_mul. exact H.
Qed.
Lemma grevlex_mul a b c : grevlex_lt a b -> grevlex_lt (mmul c a) (mmul c b).
Proof.
  intros [H|[E H]]; [left|right]; rewrite !mtot_mul; [lia|]. split; [lia|]. apply revlex_mul. exact H.
Qed.

Lemma lex_one a : a <> mone -> lex_lt mone a.
Proof.
  intros N. destruct (lex_total mone a) as [E|[H|(k & H & _)]]; [congruence|exact H|].
  rewrite mone_exp in H. lia.
Qed.
Lemma revlex_one a : a <> mone -> revlex_lt mone a.
Proof.
  intros N. destruct (revlex_total mone a) as [E|[H|(k & H & _)]]; [congruence|exact H|].
  rewrite mone_exp in H. lia.
Qed.
Lemma mtot_zero a : mtot a = 0 -> a = mone.
Proof.
  intros E. apply mono_ext. intros i. rewrite mone_exp. pose proof (mexp_le_tot a i). lia.
Qed.
Lemma grlex_one a : a <> mone -> grlex_lt mone a.
Proof.
  intros N. left. rewrite mtot_one. destruct (mtot a) eqn:E; [|lia]. apply mtot_zero in E. contradiction.
Qed.
Lemma grevlex_one a : a <> mone -> grevlex_lt mone a.
Proof.
  intros N. left. rewrite mtot_one. destruct (mtot a) eqn:E; [|lia]. apply mtot_zero in E. contradiction.
Qed.

(** ** well-foundedness through lexicographic comparison of key vectors of fixed length *)
Fixpoint lexn (a b : list nat) : Prop :=
  match a, b with
  | x :: a', y :: b' => x < y \/ (x = y /\ lexn a' b')
  | _, _ => False
  end.

Lemma lexn_wf n : well_founded (fun a b => length a = n /\ length b = n /\ lexn a b).
Proof.
  induction n as [|n IH].
  - intros b. constructor. intros a (La & Lb & H). destruct a, b; simpl in *; try discriminate; contradiction.
  - assert (K : forall x, forall t, Acc (fun a b => length a = n /\ length b = n /\ lexn a b) t -> length t = n ->
        Acc (fun a b => length a = S n /\ length b = S n /\ lexn a b) (x :: t)).
    { induction x as [x IHx] using (well_founded_induction lt_wf). intros t At. induction At as [t _ IHt].
      intros Lt. constructor. intros [|y s] (Ls & _ & H); [simpl in Ls; lia|].
      simpl in Ls. injection Ls as Ls. simpl in H. destruct H as [H|[-> H]].
      - apply IHx; [exact H|apply IH|exact Ls].
      - apply IHt; auto. }
    intros [|x t].
    + constructor. intros a (_ & L & _). simpl in L. lia.
    + destruct (Nat.eq_dec (length t) n) as [E|N].
      * apply K; [apply IH|exact E].
      * constructor. intros a (_ & L & _). simpl in L. lia.
Qed.

(** keys given by a function of the index *)
Lemma lexn_map (f g : nat -> nat) (n : nat) : forall s k, s <= k < s + n -> f k < g k ->
  (forall i, s <= i < k -> f i = g i) -> lexn (map f (seq s n)) (map g (seq s n)).
Proof.
  induction n as [|n IH]; intros s k Hk L E; [lia|]. simpl.
  destruct (Nat.eq_dec s k) as [->|N]; [left; exact L|].
  right. split; [apply E; lia|]. apply (IH (S s) k); auto; [lia|]. intros i Hi. apply E. lia.
Qed.

Lemma key_wf (n m : nat) (lt : mono -> mono -> Prop) (key : mono -> nat -> nat) :
  (forall a b, mvars n a -> mvars n b -> lt a b ->
     exists k, k < m /\ key a k < key b k /\ forall i, i < k -> key a i = key b i) ->
  well_founded (fun a b => mvars n a /\ mvars n b /\ lt a b).
Proof.
  intros H. set (kl := fun a => map (key a) (seq 0 m)).
  apply (wf_incl _ _ (fun a b => length (kl a) = m /\ length (kl b) = m /\ lexn (kl a) (kl b))).
  - intros a b (Ha & Hb & L). unfold kl. rewrite !map_length, !seq_length. split; [reflexivity|]. split; [reflexivity|].
    destruct (H a b Ha Hb L) as (k & Hk & K1 & K2).
    apply (lexn_map _ _ m 0 k); auto; [lia|]. intros i Hi. apply K2. lia.
  - apply (wf_inverse_image mono (list nat) (fun a b => length a = m /\ length b = m /\ lexn a b) kl).
    apply lexn_wf.
Qed.

Lemma lex_index n a b : mvars n a -> mvars n b -> lex_lt a b ->
  exists k, k < n /\ mexp a k < mexp b k /\ forall i, i < k -> mexp a i = mexp b i.
Proof.
  intros Ha Hb (k & H & E). exists k. split; [|split; auto].
  destruct (Nat.lt_ge_cases k n); auto. rewrite (Hb k) in H by assumption. lia.
Qed.
Lemma revlex_index n a b : mvars n a -> mvars n b -> revlex_lt a b ->
  exists k, k < n /\ mexp a k < mexp b k /\ forall i, k < i -> mexp a i = mexp b i.
Proof.
  intros Ha Hb (k & H & E). exists k. split; [|split; auto].
  destruct (Nat.lt_ge_cases k n); auto. rewrite (Hb k) in H by assumption. lia.
Qed.

Lemma lex_wf n : well_founded (fun a b => mvars n a /\ mvars n b /\ lex_lt a b).
Proof. apply (key_wf n n lex_lt mexp). apply lex_index. Qed.

Lemma revlex_wf n : well_founded (fun a b => mvars n a /\ mvars n b /\ revlex_lt a b).
Proof.
  apply (key_wf n n revlex_lt (fun a i => mexp a (n - 1 - i))).
  intros a b Ha Hb L. destruct (revlex_index n a b Ha Hb L) as (k & Hk & H & E).
  exists (n - 1 - k). split; [lia|]. replace (n - 1 - (n - 1 - k)) with k by lia.
  split; [exact H|]. intros i Hi. apply E. lia.
Qed.

Lemma grlex_wf n : well_founded (fun a b => mvars n a /\ mvars n b /\ grlex_lt a b).
Proof.
  apply (key_wf n (S n) grlex_lt (fun a i => match i with 0 => mtot a | S j => mexp a j end)).
  intros a b Ha Hb [L|[T L]].
  - exists 0. split; [lia|]. split; [exact L|]. intros; lia.
  - destruct (lex_index n a b Ha Hb L) as (k & Hk & H & E).
    exists (S k). split; [lia|]. split; [exact H|]. intros [|i] Hi; [exact T|]. apply E. lia.
Qed.

Lemma grevlex_wf n : well_founded (fun a b => mvars n a /\ mvars n b /\ grevlex_lt a b).
Proof.
  apply (key_wf n (S n) grevlex_lt
    (fun a i => match i with 0 => mtot a | S j => mtot a - mexp a (n - 1 - j) end)).
  intros a b Ha Hb [L|[T L]].
  - exists 0. split; [lia|]. split; [exact L|]. intros; lia.
  - destruct (revlex_index n b a Hb Ha L) as (k & Hk & H & E).
    exists (S (n - 1 - k)). split; [lia|]. replace (n - 1 - (n - 1 - k)) with k by lia.
    pose proof (mexp_le_tot a k). pose proof (mexp_le_tot b k).
    split; [lia|]. intros [|i] Hi; [exact T|]. rewrite E by lia. lia.
Qed.

Lemma lex_laws : mono_order_laws lex_lt.
Proof.
  split; [exact lex_irrefl|]. split; [exact lex_trans|]. split; [exact lex_total|].
  split; [exact lex_mul|]. split; [exact lex_one|exact lex_wf].
Qed.
Lemma revlex_laws : mono_order_laws revlex_lt.
Proof.
  split; [exact revlex_irrefl|]. split; [exact revlex_trans|]. split; [exact revlex_total|].
  split; [exact revlex_mul|]. split; [exact revlex_one|exact revlex_wf].
Qed.
Lemma grlex_laws : mono_order_laws grlex_lt.
Proof.
  split; [exact grlex_irrefl|]. split; [exact grlex_trans|]. split; [exact grlex_total|].
  split; [exact grlex_mul|]. split; [exact grlex_one|exact grlex_wf].
Qed.
Lemma grevlex_laws : mono_order_laws grevlex_lt.
Proof.
  split; [exact grevlex_irrefl|]. split; [exact grevlex_trans|]. split; [exact grevlex_total|].
  split; [exact grevlex_mul|]. split; [exact grevlex_one|exact grevlex_wf].
Qed.
