(** * Linear algebra over a mathematical field, independent of the code.

    Matrices are functions of two indices of which only the ones within the stated dimensions
    matter; vectors are functions of one index; families of vectors are lists. *)
From Verif Require Import Base FieldIface.
From Coq Require Import Field_theory Ring Field Setoid.

Section Lin.
Context {K : MathField}.
Add Field Kf10 : (kth K).
Notation vec := (nat -> K).
Notation fmat := (nat -> nat -> K).

(** sum over k < n *)
Fixpoint sumn (n : nat) (f : nat -> K) : K :=
  match n with O => k0 | S n' => kadd (sumn n' f) (f n') end.

Definition meq (n m : nat) (a b : fmat) : Prop := forall i j, i < n -> j < m -> a i j = b i j.
(** product with inner dimension [k] *)
Definition mmul (k : nat) (a b : fmat) : fmat := fun i j => sumn k (fun l => kmul (a i l) (b l j)).
Definition mtrans (a : fmat) : fmat := fun i j => a j i.
Definition mid : fmat := fun i j => if i =? j then k1 else k0.
Definition mvec (k : nat) (a : fmat) (v : vec) : vec := fun i => sumn k (fun l => kmul (a i l) (v l)).
Definition invertible (n : nat) (p : fmat) : Prop :=
  exists q, meq n n (mmul n p q) mid /\ meq n n (mmul n q p) mid.
Definition mcol (a : fmat) (j : nat) : vec := fun i => a i j.
Definition mrow (a : fmat) (i : nat) : vec := fun j => a i j.

(** ** Families of vectors *)
Definition vzero : vec := fun _ => k0.
Definition lcomb (vs : list vec) (c : nat -> K) : vec :=
  fun i => sumn (length vs) (fun k => kmul (c k) (nth k vs vzero i)).
(** of vectors with [n] components *)
Definition lin_indep (n : nat) (vs : list vec) : Prop :=
  forall c, (forall i, i < n -> lcomb vs c i = k0) -> forall k, k < length vs -> c k = k0.
Definition in_span (n : nat) (vs : list vec) (w : vec) : Prop :=
  exists c, forall i, i < n -> w i = lcomb vs c i.
(** [vs] is a basis of the space of vectors satisfying [P] *)
Definition is_basis (n : nat) (P : vec -> Prop) (vs : list vec) : Prop :=
  lin_indep n vs /\ Forall P vs /\ forall w, P w -> in_span n vs w.
Definition in_kernel (n m : nat) (a : fmat) (w : vec) : Prop := forall i, i < n -> mvec m a w i = k0.
Definition in_colspace (n m : nat) (a : fmat) (w : vec) : Prop :=
  in_span n (map (mcol a) (seq 0 m)) w.
Definition in_rowspace (n m : nat) (a : fmat) (w : vec) : Prop :=
  in_span m (map (mrow a) (seq 0 n)) w.

(** ** Echelon forms.  [ech n c r piv b]: the first [c] columns of [b] are in echelon form with [r]
    pivots, all equal to one, the i-th in row [i], column [piv i]. *)
Record ech (n c r : nat) (piv : nat -> nat) (b : fmat) : Prop := {
  ech_le : r <= n;
  ech_lt : forall i, i < r -> piv i < c;
  ech_one : forall i, i < r -> b i (piv i) = k1;
  ech_left : forall i j, i < r -> j < piv i -> b i j = k0;
  ech_inc : forall i k, i < k -> k < r -> piv i < piv k;
  ech_zero : forall i j, r <= i -> i < n -> j < c -> b i j = k0
}.
(** the entries above pivots vanish as well *)
Definition rref (n m r : nat) (piv : nat -> nat) (b : fmat) : Prop :=
  ech n m r piv b /\ forall i k, i < k -> k < r -> b i (piv k) = k0.

(** ** Sums *)
Lemma sumn_ext n (f g : nat -> K) : (forall i, i < n -> f i = g i) -> sumn n f = sumn n g.
Proof.
  induction n; simpl; intros H; [reflexivity|].
  rewrite IHn by (intros; apply H; lia). rewrite (H n) by lia. reflexivity.
Qed.
Lemma sumn_zero n : sumn n (fun _ => k0) = k0.
Proof. induction n; simpl; [reflexivity|]. rewrite IHn. ring. Qed.
Lemma sumn_zero' n (f : nat -> K) : (forall i, i < n -> f i = k0) -> sumn n f = k0.
Proof. intros H. rewrite (sumn_ext n f (fun _ => k0) H). apply sumn_zero. Qed.
Lemma sumn_add n (f g : nat -> K) : sumn n (fun i => kadd (f i) (g i)) = kadd (sumn n f) (sumn n g).
Proof. induction n; simpl; [ring|]. rewrite IHn. ring. Qed.
Lemma sumn_mul_l n x (f : nat -> K) : sumn n (fun i => kmul x (f i)) = kmul x (sumn n f).
Proof. induction n; simpl; [ring|]. rewrite IHn. ring. Qed.
Lemma sumn_mul_r n x (f : nat -> K) : sumn n (fun i => kmul (f i) x) = kmul (sumn n f) x.
Proof. induction n; simpl; [ring|]. rewrite IHn. ring. Qed.
Lemma sumn_opp n (f : nat -> K) : sumn n (fun i => kopp (f i)) = kopp (sumn n f).
Proof. induction n; simpl; [ring|]. rewrite IHn. ring. Qed.
Lemma sumn_sub n (f g : nat -> K) : sumn n (fun i => ksub (f i) (g i)) = ksub (sumn n f) (sumn n g).
Proof. induction n; simpl; [ring|]. rewrite IHn. ring. Qed.
Lemma sumn_swap n m (f : nat -> nat -> K) :
  sumn n (fun i => sumn m (fun j => f i j)) = sumn m (fun j => sumn n (fun i => f i j)).
Proof.
  induction n; simpl.
  - symmetry. apply sumn_zero.
  - rewrite IHn, <- sumn_add. reflexivity.
Qed.
Lemma sumn_delta n k (f : nat -> K) : k < n ->
  (forall i, i < n -> i <> k -> f i = k0) -> sumn n f = f k.
Proof.
  induction n; intros Hk H; [lia|]. simpl. destruct (Nat.eq_dec k n) as [->|N].
  - rewrite sumn_zero' by (intros; apply H; lia). ring.
  - rewrite IHn by (intros; try apply H; lia). rewrite (H n) by lia. ring.
Qed.
Lemma sumn_split n m (f : nat -> K) : sumn (n + m) f = kadd (sumn n f) (sumn m (fun i => f (n + i))).
Proof.
  induction m; simpl.
  - rewrite Nat.add_0_r. ring.
  - rewrite Nat.add_succ_r. simpl. rewrite IHm. ring.
Qed.
Lemma sumn_S_first n (f : nat -> K) : sumn (S n) f = kadd (f 0) (sumn n (fun i => f (S i))).
Proof. rewrite (sumn_split 1 n). simpl. ring. Qed.
Lemma sumn_mono n m (f : nat -> K) : n <= m -> (forall i, n <= i -> i < m -> f i = k0) ->
  sumn m f = sumn n f.
Proof.
  intros L H. replace m with (n + (m - n)) by lia. rewrite sumn_split.
  rewrite (sumn_zero' (m - n)) by (intros; apply H; lia). ring.
Qed.
(** summing over the elements of a filtered range *)
Lemma sumn_filter (P : nat -> bool) m (g : nat -> K) :
  sumn (length (filter P (seq 0 m))) (fun k => g (nth k (filter P (seq 0 m)) 0))
  = sumn m (fun j => if P j then g j else k0).
Proof.
  induction m; [reflexivity|].
  rewrite seq_S, filter_app, app_length. cbn [sumn].
  rewrite Nat.add_0_l. cbn [filter]. rewrite <- IHm.
  assert (E : sumn (length (filter P (seq 0 m)))
     (fun k => g (nth k (filter P (seq 0 m) ++ (if P m then [m] else [])) 0))
   = sumn (length (filter P (seq 0 m))) (fun k => g (nth k (filter P (seq 0 m)) 0))).
  { apply sumn_ext. intros i Hi. rewrite app_nth1 by exact Hi. reflexivity. }
  destruct (P m); cbn [length].
  - rewrite Nat.add_1_r. cbn [sumn]. rewrite E. rewrite app_nth2 by lia. rewrite Nat.sub_diag. reflexivity.
  - rewrite Nat.add_0_r. rewrite E. ring.
Qed.

(** ** Matrix algebra *)
Lemma mid_eq i : mid i i = k1.
Proof. unfold mid. rewrite Nat.eqb_refl. reflexivity. Qed.
Lemma mid_neq i j : i <> j -> mid i j = k0.
Proof. intros N. unfold mid. apply Nat.eqb_neq in N. rewrite N. reflexivity. Qed.

Lemma meq_refl n m a : meq n m a a. Proof. intros i j _ _. reflexivity. Qed.
Lemma meq_sym n m a b : meq n m a b -> meq n m b a.
Proof. intros H i j Hi Hj. symmetry. apply H; assumption. Qed.
Lemma meq_trans n m a b c : meq n m a b -> meq n m b c -> meq n m a c.
Proof. intros H1 H2 i j Hi Hj. rewrite H1, H2 by assumption. reflexivity. Qed.
Lemma mmul_ext n k m a a' b b' : meq n k a a' -> meq k m b b' -> meq n m (mmul k a b) (mmul k a' b').
Proof.
  intros H1 H2 i j Hi Hj. unfold mmul. apply sumn_ext. intros l Hl.
  rewrite H1, H2 by assumption. reflexivity.
Qed.
Lemma mmul_assoc k l a b c i j : mmul l (mmul k a b) c i j = mmul k a (mmul l b c) i j.
Proof.
  unfold mmul.
  rewrite (sumn_ext l _ (fun q => sumn k (fun p => kmul (kmul (a i p) (b p q)) (c q j))))
    by (intros; rewrite sumn_mul_r; reflexivity).
  rewrite sumn_swap. apply sumn_ext. intros p Hp.
  rewrite <- sumn_mul_l. apply sumn_ext. intros q Hq. ring.
Qed.
Lemma mmul_id_l n m a : meq n m (mmul n mid a) a.
Proof.
  intros i j Hi Hj. unfold mmul. rewrite (sumn_delta n i) by
   (try assumption; intros l Hl N; rewrite mid_neq by congruence; ring).
  rewrite mid_eq. ring.
Qed.
Lemma mmul_id_r n m a : meq n m (mmul m a mid) a.
Proof.
  intros i j Hi Hj. unfold mmul. rewrite (sumn_delta m j) by
   (try assumption; intros l Hl N; rewrite mid_neq by congruence; ring).
  rewrite mid_eq. ring.
Qed.
Lemma mmul_trans k a b i j : mtrans (mmul k a b) i j = mmul k (mtrans b) (mtrans a) i j.
Proof. unfold mtrans, mmul. apply sumn_ext. intros. ring. Qed.
Lemma mmul_add_l k (a b c : fmat) i j :
  mmul k (fun i j => kadd (a i j) (b i j)) c i j = kadd (mmul k a c i j) (mmul k b c i j).
Proof. unfold mmul. rewrite <- sumn_add. apply sumn_ext. intros. ring. Qed.
Lemma mmul_add_r k (a b c : fmat) i j :
  mmul k a (fun i j => kadd (b i j) (c i j)) i j = kadd (mmul k a b i j) (mmul k a c i j).
Proof. unfold mmul. rewrite <- sumn_add. apply sumn_ext. intros. ring. Qed.

Lemma invertible_id n : invertible n mid.
Proof. exists mid. split; apply mmul_id_l. Qed.
Lemma invertible_ext n p p' : meq n n p p' -> invertible n p -> invertible n p'.
Proof.
  intros H (q & H1 & H2). exists q. split.
  - eapply meq_trans; [|exact H1]. apply mmul_ext; [apply meq_sym; exact H|apply meq_refl].
  - eapply meq_trans; [|exact H2]. apply mmul_ext; [apply meq_refl|apply meq_sym; exact H].
Qed.
Lemma invertible_mul n p q : invertible n p -> invertible n q -> invertible n (mmul n p q).
Proof.
  intros (p' & P1 & P2) (q' & Q1 & Q2). exists (mmul n q' p'). split.
  - intros i j Hi Hj. rewrite mmul_assoc.
    rewrite (mmul_ext n n n p p _ p' (meq_refl _ _ _)) ; try assumption.
    + apply P1; assumption.
    + intros a b Ha Hb. rewrite <- mmul_assoc.
      rewrite (mmul_ext n n n _ mid p' p' Q1 (meq_refl _ _ _)) by assumption. apply (mmul_id_l n n p'); assumption.
  - intros i j Hi Hj. rewrite mmul_assoc.
    rewrite (mmul_ext n n n q' q' _ q (meq_refl _ _ _)); try assumption.
    + apply Q2; assumption.
    + intros a b Ha Hb. rewrite <- mmul_assoc.
      rewrite (mmul_ext n n n _ mid q q P2 (meq_refl _ _ _)) by assumption. apply (mmul_id_l n n q); assumption.
Qed.

Lemma mvec_mmul k l a b (v : vec) i : mvec l (mmul k a b) v i = mvec k a (mvec l b v) i.
Proof. apply (mmul_assoc k l a b (fun i _ => v i) i 0). Qed.
Lemma mvec_ext n k a a' v v' : meq n k a a' -> (forall i, i < k -> v i = v' i) ->
  forall i, i < n -> mvec k a v i = mvec k a' v' i.
Proof. intros H1 H2 i Hi. unfold mvec. apply sumn_ext. intros l Hl. rewrite H1, H2 by assumption. reflexivity. Qed.
Lemma mvec_id n v i : i < n -> mvec n mid v i = v i.
Proof. intros Hi. apply (mmul_id_l n 1 (fun i _ => v i) i 0); lia. Qed.
Lemma mvec_zero k a v i : (forall l, l < k -> v l = k0) -> mvec k a v i = k0.
Proof. intros H. unfold mvec. apply sumn_zero'. intros l Hl. rewrite H by exact Hl. ring. Qed.

(** an invertible matrix kills only zero *)
Lemma invertible_inj n p v : invertible n p -> (forall i, i < n -> mvec n p v i = k0) ->
  forall i, i < n -> v i = k0.
Proof.
  intros (q & _ & Q2) H i Hi. rewrite <- (mvec_id n v i Hi).
  rewrite <- (mvec_ext n n _ _ v v Q2 (fun _ _ => eq_refl) i Hi).
  rewrite mvec_mmul. apply mvec_zero. exact H.
Qed.

(** ** Steinitz *)
Lemma sumn_swap_idx n p q (f : nat -> K) : p < n -> q < n ->
  sumn n (fun i => f (if i =? p then q else if i =? q then p else i)) = sumn n f.
Proof.
  intros Hp Hq. destruct (Nat.eq_dec p q) as [->|N].
  { apply sumn_ext. intros i _. destruct (Nat.eqb_spec i q); [subst; reflexivity|reflexivity]. }
  (* both sums equal the rest plus f p + f q *)
  set (g := fun i => if i =? p then k0 else if i =? q then k0 else f i).
  assert (A : forall x y, sumn n (fun i => if i =? p then x else if i =? q then y else f i)
     = kadd (sumn n g) (kadd x y)).
  { intros x y.
    rewrite (sumn_ext n _ (fun i => kadd (g i) (kadd (if i =? p then x else k0) (if i =? q then y else k0)))).
    - rewrite !sumn_add. f_equal. f_equal.
      + rewrite (sumn_delta n p); [rewrite Nat.eqb_refl; reflexivity|assumption|].
        intros i _ Ni. apply Nat.eqb_neq in Ni. rewrite Ni. reflexivity.
      + rewrite (sumn_delta n q); [rewrite Nat.eqb_refl; reflexivity|assumption|].
        intros i _ Ni. apply Nat.eqb_neq in Ni. rewrite Ni. reflexivity.
    - intros i _. unfold g. destruct (Nat.eqb_spec i p), (Nat.eqb_spec i q); subst; try congruence; ring. }
  rewrite (sumn_ext n _ (fun i => if i =? p then f q else if i =? q then f p else f i)).
  2:{ intros i _. destruct (i =? p); [reflexivity|]. destruct (i =? q); reflexivity. }
  rewrite A. rewrite (sumn_ext n f (fun i => if i =? p then f p else if i =? q then f q else f i)).
  2:{ intros i _. destruct (Nat.eqb_spec i p); [congruence|]. destruct (Nat.eqb_spec i q); congruence. }
  rewrite A. ring.
Qed.

Lemma find_nonzero n (f : nat -> K) : (exists p, p < n /\ f p <> k0) \/ forall i, i < n -> f i = k0.
Proof.
  induction n; [right; intros; lia|].
  destruct IHn as [(p & Hp & Fp)|H]; [left; exists p; split; [lia|exact Fp]|].
  destruct (kdec (f n) k0) as [E|N]; [|left; exists n; split; [lia|exact N]].
  right. intros i Hi. destruct (Nat.eq_dec i n) as [->|Ni]; [exact E|apply H; lia].
Qed.

(** more rows than columns: the rows are dependent *)
Lemma rows_dependent m : forall l (a : fmat), m < l ->
  exists c, (exists k, k < l /\ c k <> k0) /\ forall j, j < m -> sumn l (fun k => kmul (c k) (a k j)) = k0.
Proof.
  induction m; intros l a L.
  { exists (fun _ => k1). split; [exists 0; split; [lia|]|intros; lia].
    apply (F_1_neq_0 (kth K)). }
  destruct (find_nonzero l (fun k => a k m)) as [(p & Hp & Np)|Z].
  2:{ destruct (IHm l a) as (c & Nc & Hc); [lia|]. exists c. split; [exact Nc|].
      intros j Hj. destruct (Nat.eq_dec j m) as [->|N]; [|apply Hc; lia].
      apply sumn_zero'. intros i Hi. rewrite (Z i Hi). ring. }
  destruct l as [|l]; [lia|].
  set (s := fun i => if i =? p then l else if i =? l then p else i).
  set (b := fun i j => a (s i) j).
  assert (Nb : b l m <> k0).
  { unfold b, s. destruct (Nat.eqb_spec l p); [subst; exact Np|]. rewrite Nat.eqb_refl. exact Np. }
  destruct (IHm l (fun i j => ksub (b i j) (kmul (kdiv (b i m) (b l m)) (b l j)))) as (c & (k & Hk & Nk) & Hc); [lia|].
  set (c2 := fun i => if i <? l then c i else kopp (kdiv (sumn l (fun k => kmul (c k) (b k m))) (b l m))).
  assert (Hb : forall j, j < S m -> sumn (S l) (fun i => kmul (c2 i) (b i j)) = k0).
  { intros j Hj. cbn [sumn]. unfold c2 at 2. rewrite Nat.ltb_irrefl.
    rewrite (sumn_ext l _ (fun i => kmul (c i) (b i j)))
      by (intros i Hi; unfold c2; apply Nat.ltb_lt in Hi; rewrite Hi; reflexivity).
    destruct (Nat.eq_dec j m) as [->|N].
    - field. exact Nb.
    - specialize (Hc j ltac:(lia)).
      rewrite (sumn_ext l _ (fun i => ksub (kmul (c i) (b i j)) (kmul (kmul (c i) (b i m)) (kdiv (b l j) (b l m))))) in Hc.
      + rewrite sumn_sub, sumn_mul_r in Hc.
        replace (sumn l (fun i => kmul (c i) (b i j))) with
          (kmul (sumn l (fun i => kmul (c i) (b i m))) (kdiv (b l j) (b l m))).
        * field. exact Nb.
        * transitivity (kadd (ksub (sumn l (fun i => kmul (c i) (b i j))) (kmul (sumn l (fun i => kmul (c i) (b i m))) (kdiv (b l j) (b l m))))
                             (kmul (sumn l (fun i => kmul (c i) (b i m))) (kdiv (b l j) (b l m)))).
          { rewrite Hc. ring. }
          { ring. }
      + intros i Hi. field. exact Nb. }
  exists (fun i => c2 (s i)). split.
  - exists (s k). split.
    + unfold s. destruct (k =? p); [lia|]. destruct (k =? l); lia.
    + assert (s (s k) = k).
      { unfold s. destruct (Nat.eqb_spec k p) as [->|N1].
        - destruct (Nat.eqb_spec l p); [congruence|]. rewrite Nat.eqb_refl. reflexivity.
        - destruct (Nat.eqb_spec k l) as [->|N2]; [rewrite Nat.eqb_refl; reflexivity|].
          apply Nat.eqb_neq in N1, N2. rewrite N1, N2. reflexivity. }
      rewrite H. unfold c2. apply Nat.ltb_lt in Hk. rewrite Hk. exact Nk.
  - intros j Hj. rewrite <- (Hb j Hj).
    rewrite <- (sumn_swap_idx (S l) p l (fun i => kmul (c2 i) (b i j))) by lia.
    apply sumn_ext. intros i Hi. fold (s i). f_equal. unfold b. f_equal.
    unfold s. destruct (Nat.eqb_spec i p) as [->|N1].
    + destruct (Nat.eqb_spec l p); [congruence|]. rewrite Nat.eqb_refl. reflexivity.
    + destruct (Nat.eqb_spec i l) as [->|N2]; [rewrite Nat.eqb_refl; reflexivity|].
      apply Nat.eqb_neq in N1, N2. rewrite N1, N2. reflexivity.
Qed.

Lemma in_span_choice n ws vs : Forall (in_span n ws) vs ->
  exists C : fmat, forall k i, k < length vs -> i < n -> nth k vs vzero i = lcomb ws (C k) i.
Proof.
  induction 1 as [|v vs [c Hc] _ (C & HC)].
  - exists (fun _ _ => k0). simpl. intros; lia.
  - exists (fun k => match k with O => c | S k' => C k' end).
    intros [|k] i Hk Hi; simpl in *; [apply Hc; exact Hi|apply HC; [lia|exact Hi]].
Qed.

(** independent vectors in the span of [ws] are at most as many *)
Lemma steinitz n vs ws : lin_indep n vs -> Forall (in_span n ws) vs -> length vs <= length ws.
Proof.
  intros I S. destruct (le_lt_dec (length vs) (length ws)) as [L|L]; [exact L|exfalso].
  apply in_span_choice in S. destruct S as [C HC].
  destruct (rows_dependent (length ws) (length vs) C L) as (c & (k & Hk & Nk) & Hc).
  apply Nk. apply (I c); [|exact Hk]. intros i Hi. unfold lcomb at 1.
  rewrite (sumn_ext (length vs) _ (fun k => sumn (length ws) (fun j => kmul (kmul (c k) (C k j)) (nth j ws vzero i)))).
  - rewrite sumn_swap. apply sumn_zero'. intros j Hj. rewrite sumn_mul_r, Hc by exact Hj. ring.
  - intros q Hq. rewrite HC by assumption. unfold lcomb. rewrite <- sumn_mul_l. apply sumn_ext. intros. ring.
Qed.
(** all bases of a space have the same size *)
Lemma basis_size n P vs ws : is_basis n P vs -> is_basis n P ws -> length vs = length ws.
Proof.
  intros (I1 & P1 & S1) (I2 & P2 & S2).
  apply Nat.le_antisymm; (eapply steinitz; [eassumption|]).
  - rewrite Forall_forall in *. auto.
  - rewrite Forall_forall in *. auto.
Qed.

End Lin.
