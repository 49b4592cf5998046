(** * Properties C17-C21: monomial orders. *)
From Verif Require Import Base BaseLemmas MDegModel OrdModel MonoSpec MDegProofs OrdProofs.

(** the orders the crate implements, in a build with overflow checks *)
Definition orders : list ord_impl := [lex_cmp; revlex_cmp; grlex_cmp Debug; grevlex_cmp Debug].

(** definedness: only the graded orders can overflow, exactly when a total degree exceeds 255 *)
Lemma grad_def a b : list_sum a <= 255 -> list_sum b <= 255 -> exists c, grad Debug a b = Ok c.
Proof.
  intros Ha Hb. unfold grad. rewrite !total_deg_debug. apply Nat.leb_le in Ha, Hb. rewrite Ha, Hb. simpl. eauto.
Qed.
Lemma grad_undef a b : 255 < list_sum a \/ 255 < list_sum b -> grad Debug a b = Panic Overflow.
Proof.
  intros H. unfold grad. rewrite !total_deg_debug.
  destruct (Nat.leb_spec (list_sum a) 255); simpl; auto.
  destruct (Nat.leb_spec (list_sum b) 255); simpl; auto. lia.
Qed.

Lemma order_char O : In O orders -> exists (lt : mono -> mono -> Prop) (D : mdeg -> bool),
  mono_order_laws lt /\
  (forall a b, canonical a -> canonical b -> D a = true -> D b = true ->
     exists c, O a b = Ok c /\ CompareSpec (canon a = canon b) (lt (canon a) (canon b)) (lt (canon b) (canon a)) c) /\
  (forall a b, D a = false \/ D b = false -> O a b = Panic Overflow).
Proof.
  intros [<-|[<-|[<-|[<-|[]]]]].
  - exists lex_lt, (fun _ => true). split; [exact lex_laws|]. split.
    + intros a b Ca Cb _ _. eexists. split; [reflexivity|]. apply lex_loop_spec; assumption.
    + intros a b [H|H]; discriminate.
  - exists revlex_lt, (fun _ => true). split; [exact revlex_laws|]. split.
    + intros a b Ca Cb _ _. eexists. split; [reflexivity|]. apply revlex_loop_spec; assumption.
    + intros a b [H|H]; discriminate.
  - exists grlex_lt, (fun a => list_sum a <=? 255). split; [exact grlex_laws|]. split.
    + intros a b Ca Cb Da Db. apply Nat.leb_le in Da, Db. pose proof (grlex_safe a b Ca Cb) as S.
      unfold grlex_cmp in *. destruct (grad_def a b Da Db) as (c & E). rewrite E in *. simpl in *.
      destruct c; simpl in *; eexists; (split; [reflexivity|exact S]).
    + intros a b H. unfold grlex_cmp. rewrite grad_undef; [reflexivity|]. rewrite !Nat.leb_gt in H. exact H.
  - exists grevlex_lt, (fun a => list_sum a <=? 255). split; [exact grevlex_laws|]. split.
    + intros a b Ca Cb Da Db. apply Nat.leb_le in Da, Db. pose proof (grevlex_safe a b Ca Cb) as S.
      unfold grevlex_cmp in *. destruct (grad_def a b Da Db) as (c & E). rewrite E in *. simpl in *.
      destruct c; simpl in *; eexists; (split; [reflexivity|exact S]).
    + intros a b H. unfold grevlex_cmp. rewrite grad_undef; [reflexivity|]. rewrite !Nat.leb_gt in H. exact H.
Qed.

Lemma canon_lex_iff a b : lex_lt (canon a) (canon b) <->
  exists k, expo a k < expo b k /\ forall i, i < k -> expo a i = expo b i.
Proof.
  unfold lex_lt. split; intros (k & H & E); exists k; rewrite ?canon_exp in *; split; auto;
    intros i Hi; specialize (E i Hi); rewrite ?canon_exp in *; exact E.
Qed.
Lemma canon_revlex_iff a b : revlex_lt (canon a) (canon b) <->
  exists k, expo a k < expo b k /\ forall i, k < i -> expo a i = expo b i.
Proof.
  unfold revlex_lt. split; intros (k & H & E); exists k; rewrite ?canon_exp in *; split; auto;
    intros i Hi; specialize (E i Hi); rewrite ?canon_exp in *; exact E.
Qed.

Lemma lt_iff lt a b c : mono_order_laws lt -> CompareSpec (a = b) (lt a b) (lt b a) c ->
  (c = Lt <-> lt a b) /\ (c = Gt <-> lt b a) /\ (c = Eq <-> a = b).
Proof.
  intros (I & T & _) S. destruct S as [->|H|H].
  - repeat split; intros X; try discriminate; try reflexivity; exfalso; exact (I b X).
  - repeat split; intros X; try discriminate; try reflexivity; try assumption; exfalso.
    + exact (I a (T a b a H X)).
    + subst. exact (I b H).
  - repeat split; intros X; try discriminate; try reflexivity; try assumption; exfalso.
    + exact (I a (T a b a X H)).
    + subst. exact (I b H).
Qed.

(** ** C17 *)
Theorem C17_lex : forall a b, canonical a -> canonical b ->
  exists c, lex_cmp a b = Ok c /\
    (c = Lt <-> exists k, expo a k < expo b k /\ forall i, i < k -> expo a i = expo b i) /\
    (c = Gt <-> exists k, expo b k < expo a k /\ forall i, i < k -> expo b i = expo a i).
Proof.
  intros a b Ca Cb. eexists. split; [reflexivity|].
  rewrite <- !canon_lex_iff. pose proof (lt_iff lex_lt _ _ _ lex_laws (lex_loop_spec a b Ca Cb)). tauto.
Qed.

Theorem C17_revlex : forall a b, canonical a -> canonical b ->
  exists c, revlex_cmp a b = Ok c /\
    (c = Lt <-> exists k, expo a k < expo b k /\ forall i, k < i -> expo a i = expo b i) /\
    (c = Gt <-> exists k, expo b k < expo a k /\ forall i, k < i -> expo b i = expo a i).
Proof.
  intros a b Ca Cb. eexists. split; [reflexivity|].
  rewrite <- !canon_revlex_iff. pose proof (lt_iff revlex_lt _ _ _ revlex_laws (revlex_loop_spec a b Ca Cb)). tauto.
Qed.

Theorem C17_grlex : forall m a b, canonical a -> canonical b -> list_sum a <= 255 -> list_sum b <= 255 ->
  exists c, grlex_cmp m a b = Ok c /\
    (c = Lt <-> list_sum a < list_sum b \/
       (list_sum a = list_sum b /\ exists k, expo a k < expo b k /\ forall i, i < k -> expo a i = expo b i)) /\
    (c = Gt <-> list_sum b < list_sum a \/
       (list_sum b = list_sum a /\ exists k, expo b k < expo a k /\ forall i, i < k -> expo b i = expo a i)).
Proof.
  intros m a b Ca Cb Ha Hb.
  assert (X : exists c, grlex_cmp Debug a b = Ok c).
  { unfold grlex_cmp. destruct (grad_def a b Ha Hb) as ([] & ->); simpl; eexists; reflexivity. }
  destruct X as (c & E). exists c. split; [destruct m; [exact E|apply grlex_le; exact E]|].
  pose proof (grlex_safe a b Ca Cb) as S. rewrite E in S. simpl in S.
  pose proof (lt_iff grlex_lt _ _ _ grlex_laws S) as (L & G & _).
  unfold grlex_lt in L, G. rewrite !mtot_canon, canon_lex_iff in L, G. split; assumption.
Qed.

Theorem C17_grevlex : forall m a b, canonical a -> canonical b -> list_sum a <= 255 -> list_sum b <= 255 ->
  exists c, grevlex_cmp m a b = Ok c /\
    (c = Lt <-> list_sum a < list_sum b \/
       (list_sum a = list_sum b /\ exists k, expo b k < expo a k /\ forall i, k < i -> expo b i = expo a i)) /\
    (c = Gt <-> list_sum b < list_sum a \/
       (list_sum b = list_sum a /\ exists k, expo a k < expo b k /\ forall i, k < i -> expo a i = expo b i)).
Proof.
  intros m a b Ca Cb Ha Hb.
  assert (X : exists c, grevlex_cmp Debug a b = Ok c).
  { unfold grevlex_cmp. destruct (grad_def a b Ha Hb) as ([] & ->); simpl; eexists; reflexivity. }
  destruct X as (c & E). exists c. split; [destruct m; [exact E|apply grevlex_le; exact E]|].
  pose proof (grevlex_safe a b Ca Cb) as S. rewrite E in S. simpl in S.
  pose proof (lt_iff grevlex_lt _ _ _ grevlex_laws S) as (L & G & _).
  unfold grevlex_lt in L, G. rewrite !mtot_canon, canon_revlex_iff in L, G. split; assumption.
Qed.

(** graded orders differ from Lex already in three variables *)
Example C17_ex : lex_cmp [1] [0; 2] = Ok Gt /\ revlex_cmp [1] [0; 2] = Ok Lt /\
  grlex_cmp Debug [1; 0; 2] [0; 3] = Ok Gt /\ grevlex_cmp Debug [1; 0; 2] [0; 3] = Ok Lt.
Proof. repeat split; reflexivity. Qed.

(** ** C18 *)
Theorem C18_total_order : forall O, In O orders -> forall a b c, canonical a -> canonical b -> canonical c ->
  (forall x, O a b = Ok x -> (x = Eq <-> a = b)) /\
  (forall x, O a b = Ok x -> O b a = Ok (CompOpp x)) /\
  (O a b = Ok Lt -> O b c = Ok Lt -> O a c = Ok Lt).
Proof.
  intros O HO a b c Ca Cb Cc. destruct (order_char O HO) as (lt & D & L & Def & Und).
  assert (inv : forall u v x, canonical u -> canonical v -> O u v = Ok x -> D u = true /\ D v = true /\
     ((x = Lt <-> lt (canon u) (canon v)) /\ (x = Gt <-> lt (canon v) (canon u)) /\ (x = Eq <-> canon u = canon v))).
  { intros u v x Cu Cv E. destruct (D u) eqn:Du; [|rewrite Und in E by auto; discriminate].
    destruct (D v) eqn:Dv; [|rewrite Und in E by auto; discriminate].
    destruct (Def u v Cu Cv Du Dv) as (y & Ey & S). rewrite E in Ey. injection Ey as <-.
    split; [reflexivity|]. split; [reflexivity|]. exact (lt_iff lt _ _ _ L S). }
  split; [|split].
  - intros x E. destruct (inv _ _ _ Ca Cb E) as (_ & _ & _ & _ & X). rewrite X. split.
    + apply canon_inj; assumption.
    + intros ->; reflexivity.
  - intros x E. destruct (inv _ _ _ Ca Cb E) as (Da & Db & X1 & X2 & X3).
    destruct (Def b a Cb Ca Db Da) as (y & Ey & S). rewrite Ey. f_equal.
    destruct (lt_iff lt _ _ _ L S) as (Y1 & Y2 & Y3).
    destruct x; simpl.
    + apply Y3. symmetry. apply X3. reflexivity.
    + apply Y2. apply X1. reflexivity.
    + apply Y1. apply X2. reflexivity.
  - intros E1 E2. destruct (inv _ _ _ Ca Cb E1) as (Da & Db & X1 & _).
    destruct (inv _ _ _ Cb Cc E2) as (_ & Dc & Z1 & _).
    destruct (Def a c Ca Cc Da Dc) as (y & Ey & S). rewrite Ey. f_equal.
    apply (lt_iff lt _ _ _ L S). destruct L as (_ & T & _).
    apply (T _ (canon b)); [apply X1; reflexivity|apply Z1; reflexivity].
Qed.

Example C18_ex : grevlex_cmp Debug [0; 3] [2; 1] = Ok Lt /\ grevlex_cmp Debug [2; 1] [0; 3] = Ok Gt.
Proof. split; reflexivity. Qed.

(** ** C19 *)
Theorem C19_respects_multiplication : forall O, In O orders -> forall a b c a' b' x y,
  mwf a -> mwf b -> mwf c ->
  mdeg_add Debug a c = Ok a' -> mdeg_add Debug b c = Ok b' ->
  O a b = Ok x -> O a' b' = Ok y -> x = y.
Proof.
  intros O HO a b c a' b' x y [Ca Ua] [Cb Ub] [Cc Uc] Ea Eb Ex Ey.
  apply (safe_val _ _ _ (mdeg_add_safe a c Ua Uc)) in Ea as [[Ca' _] Ea].
  apply (safe_val _ _ _ (mdeg_add_safe b c Ub Uc)) in Eb as [[Cb' _] Eb].
  destruct (order_char O HO) as (lt & D & L & Def & Und).
  destruct (D a) eqn:Da; [|rewrite Und in Ex by auto; discriminate].
  destruct (D b) eqn:Db; [|rewrite Und in Ex by auto; discriminate].
  destruct (D a') eqn:Da'; [|rewrite Und in Ey by auto; discriminate].
  destruct (D b') eqn:Db'; [|rewrite Und in Ey by auto; discriminate].
  destruct (Def a b Ca Cb Da Db) as (x' & E & S). rewrite Ex in E. injection E as <-.
  destruct (Def a' b' Ca' Cb' Da' Db') as (y' & E & S'). rewrite Ey in E. injection E as <-.
  pose proof (lt_iff lt _ _ _ L S') as (Y1 & Y2 & Y3). rewrite Ea, Eb in Y1, Y2, Y3.
  rewrite (mmul_comm (canon a)), (mmul_comm (canon b)) in Y1, Y2, Y3.
  destruct L as (_ & _ & _ & M & _).
  destruct S as [E|H|H]; symmetry.
  - apply Y3. rewrite E. reflexivity.
  - apply Y1. apply M. exact H.
  - apply Y2. apply M. exact H.
Qed.

Theorem C19_zero_least : forall O, In O orders -> forall a x, canonical a -> O mdeg_zero a = Ok x ->
  x <> Gt /\ (x = Eq <-> a = mdeg_zero).
Proof.
  intros O HO a x Ca Ex.
  assert (C0 : canonical mdeg_zero) by discriminate.
  destruct (order_char O HO) as (lt & D & L & Def & Und).
  destruct (D mdeg_zero) eqn:D0; [|rewrite Und in Ex by auto; discriminate].
  destruct (D a) eqn:Da; [|rewrite Und in Ex by auto; discriminate].
  destruct (Def _ _ C0 Ca D0 Da) as (x' & E & S). rewrite Ex in E. injection E as <-.
  pose proof (lt_iff lt _ _ _ L S) as (Y1 & Y2 & Y3).
  assert (Z : x = Eq <-> a = mdeg_zero).
  { rewrite Y3. split; [|intros ->; reflexivity]. intros E. symmetry. apply canon_inj; assumption. }
  split; [|exact Z]. intros G. apply Y2 in G.
  destruct L as (I & T & _ & _ & One & _).
  destruct (mono_dec (canon a) mone) as [E|N].
  - rewrite E in G. exact (I mone G).
  - exact (I mone (T _ _ _ (One _ N) G)).
Qed.

Example C19_ex : mdeg_add Debug [0; 3] [1; 1] = Ok [1; 4] /\ mdeg_add Debug [2; 1] [1; 1] = Ok [3; 2] /\
  grevlex_cmp Debug [1; 4] [3; 2] = Ok Lt.
Proof. repeat split; reflexivity. Qed.

(** ** C20 *)
Theorem C20_no_infinite_descent : forall O, In O orders -> forall n (f : nat -> mdeg),
  (forall i, canonical (f i) /\ length (f i) <= n) -> ~ (forall i, O (f (S i)) (f i) = Ok Lt).
Proof.
  intros O HO n f Hf H. destruct (order_char O HO) as (lt & D & L & Def & Und).
  assert (K : forall i, lt (canon (f (S i))) (canon (f i))).
  { intros i. specialize (H i). destruct (Hf i) as [C1 _], (Hf (S i)) as [C2 _].
    destruct (D (f i)) eqn:D1; [|rewrite Und in H by auto; discriminate].
    destruct (D (f (S i))) eqn:D2; [|rewrite Und in H by auto; discriminate].
    destruct (Def _ _ C2 C1 D2 D1) as (x & E & S). rewrite H in E. injection E as <-. inversion S. assumption. }
  destruct L as (_ & _ & _ & _ & _ & W). specialize (W n).
  assert (V : forall i, mvars n (canon (f i))).
  { intros i. apply mvars_iff. destruct (Hf i) as [C Hl]. rewrite mlist_canon by exact C. exact Hl. }
  assert (Z : forall m, Acc (fun a b => mvars n a /\ mvars n b /\ lt a b) m -> forall i, m = canon (f i) -> False).
  { intros m A. induction A as [m _ IH]. intros i ->. apply (IH (canon (f (S i)))) with (i := S i); auto. }
  exact (Z (canon (f 0)) (W _) 0 eq_refl).
Qed.

Theorem C20_unbounded_descent_refuted :
  exists f : nat -> mdeg, (forall i, canonical (f i)) /\
   (forall i, lex_cmp (f (S i)) (f i) = Ok Lt) /\
   (forall i, grlex_cmp Debug (f (S i)) (f i) = Ok Lt) /\
   (forall i, grevlex_cmp Debug (f (S i)) (f i) = Ok Lt).
Proof.
  exists (fun i => mdeg_var i 1). 
  assert (C : forall i, canonical (mdeg_var i 1)) by (intros; apply mdeg_var_canonical).
  assert (T : forall i, list_sum (mdeg_var i 1) = 1).
  { intros i. unfold mdeg_var. simpl. rewrite list_sum_app. simpl. 
    assert (X : forall k, list_sum (repeat 0 k) = 0) by (induction k; simpl; auto). rewrite X. reflexivity. }
  assert (LX : forall i, exists k, expo (mdeg_var (S i) 1) k < expo (mdeg_var i 1) k /\
      forall j, j < k -> expo (mdeg_var (S i) 1) j = expo (mdeg_var i 1) j).
  { intros i. exists i. rewrite !mdeg_var_expo, Nat.eqb_refl.
    assert (i =? S i = false) as -> by (apply Nat.eqb_neq; lia). split; [lia|].
    intros j Hj. rewrite !mdeg_var_expo.
    assert (j =? S i = false) as -> by (apply Nat.eqb_neq; lia).
    assert (j =? i = false) as -> by (apply Nat.eqb_neq; lia). reflexivity. }
  split; [exact C|]. split; [|split]; intros i.
  - destruct (C17_lex _ _ (C (S i)) (C i)) as (c & E & L & _). rewrite E. f_equal. apply L. apply LX.
  - destruct (C17_grlex Debug _ _ (C (S i)) (C i)) as (c & E & L & _); [rewrite T; lia..|].
    rewrite E. f_equal. apply L. right. rewrite !T. split; [reflexivity|]. apply LX.
  - destruct (C17_grevlex Debug _ _ (C (S i)) (C i)) as (c & E & L & _); [rewrite T; lia..|].
    rewrite E. f_equal. apply L. right. rewrite !T. split; [reflexivity|].
    exists (S i). rewrite !mdeg_var_expo, Nat.eqb_refl.
    assert (S i =? i = false) as -> by (apply Nat.eqb_neq; lia). split; [lia|].
    intros j Hj. rewrite !mdeg_var_expo.
    assert (j =? S i = false) as -> by (apply Nat.eqb_neq; lia).
    assert (j =? i = false) as -> by (apply Nat.eqb_neq; lia). reflexivity.
Qed.

(** RevLex is well-founded without any bound on the number of variables *)
Theorem C20_revlex_unbounded : forall f : nat -> mdeg, (forall i, canonical (f i)) ->
  ~ (forall i, revlex_cmp (f (S i)) (f i) = Ok Lt).
Proof.
  intros f Hf H.
  assert (Z : forall m, Acc revlex_lt m -> forall i, m = canon (f i) -> False).
  { intros m A. induction A as [m _ IH]. intros i ->. apply (IH (canon (f (S i)))) with (i := S i); auto.
    pose proof (revlex_loop_spec (f (S i)) (f i) (Hf _) (Hf _)) as S. specialize (H i). unfold revlex_cmp in H.
    injection H as H. rewrite H in S. inversion S. assumption. }
  exact (Z _ (revlex_wf_global _) 0 eq_refl).
Qed.

Example C20_ex : lex_cmp [0; 1] [1] = Ok Lt /\ lex_cmp [0; 0; 1] [0; 1] = Ok Lt. Proof. split; reflexivity. Qed.

(** ** C21 *)
Theorem C21_release_graded_refuted : exists a b c a' b',
  mwf a /\ mwf b /\ mwf c /\
  mdeg_add Release a c = Ok a' /\ mdeg_add Release b c = Ok b' /\
  grlex_cmp Release a b = Ok Lt /\ grlex_cmp Release a' b' = Ok Gt /\
  grevlex_cmp Release a b = Ok Lt /\ grevlex_cmp Release a' b' = Ok Gt.
Proof.
  exists [254], [255], [0; 1], [254; 1], [255; 1].
  repeat split; try discriminate; try (repeat constructor; lia); vm_compute; reflexivity.
Qed.

(** two different monomials whose wrapped total degrees agree, ranked below a constant *)
Theorem C21_release_below_zero_refuted : exists a, mwf a /\ a <> mdeg_zero /\
  grlex_cmp Release a [1] = Ok Lt /\ grevlex_cmp Release a [1] = Ok Lt.
Proof.
  exists [255; 1]. repeat split; try discriminate; try (repeat constructor; lia); vm_compute; reflexivity.
Qed.

Theorem C21_checked_panics : forall a b, 255 < list_sum a \/ 255 < list_sum b ->
  grlex_cmp Debug a b = Panic Overflow /\ grevlex_cmp Debug a b = Panic Overflow.
Proof.
  intros a b H. unfold grlex_cmp, grevlex_cmp. rewrite grad_undef by exact H. split; reflexivity.
Qed.

Example C21_ex : grlex_cmp Debug [200; 100] [] = Panic Overflow. Proof. vm_compute. reflexivity. Qed.

Print Assumptions C17_lex.
Print Assumptions C17_revlex.
Print Assumptions C17_grlex.
Print Assumptions C17_grevlex.
Print Assumptions C18_total_order.
Print Assumptions C19_respects_multiplication.
Print Assumptions C19_zero_least.
Print Assumptions C20_no_infinite_descent.
Print Assumptions C20_unbounded_descent_refuted.
Print Assumptions C20_revlex_unbounded.
Print Assumptions C21_release_graded_refuted.
Print Assumptions C21_release_below_zero_refuted.
Print Assumptions C21_checked_panics.
