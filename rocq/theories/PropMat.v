(** * Properties C46-C48, C57, C58: matrix constructors, arithmetic and row operations.

    [mshape a] says that [a] has rows*cols entries, [mwf FS a] that moreover all entries are well
    formed, [mden FS a i j] is the number the entry at (i, j) stands for. *)
From Verif Require Import Base BaseLemmas IntModel RatModel FieldIface RatProofs UtilModel MatModel LinSpec RrefSpec MatProofs.
From Coq Require Import Field_theory Ring Field QArith Qcanon.

Local Close Scope Qc_scope.
Local Close Scope Q_scope.
Local Open Scope nat_scope.

(** ** Exact statements, for any field implementation *)
Section Exact.
Context {F : FieldImpl}.
Notation mat := (mat F).

(** [a] is an n x m matrix and indexing it at (r, c) gives [g r c] *)
Definition entries_are (a : mat) (n m : nat) (g : nat -> nat -> F) : Prop :=
  mrows a = n /\ mcols a = m /\ length (ments a) = n * m /\
  forall r c, r < n -> c < m -> mget a r c = Ok (g r c).

Lemma entries_are_shape a n m g : entries_are a n m g <->
  (mshape a /\ mrows a = n /\ mcols a = m /\ forall r c, r < n -> c < m -> mentry a r c = g r c).
Proof.
  unfold entries_are, mshape. split.
  - intros (<- & <- & L & H). repeat split; [exact L|]. intros r c Hr Hc.
    specialize (H r c Hr Hc). rewrite mget_ok in H by assumption. congruence.
  - intros (L & <- & <- & H). repeat split; [exact L|]. intros r c Hr Hc.
    rewrite mget_ok by assumption. rewrite H by assumption. reflexivity.
Qed.
Lemma from_fn_are n m (g : nat -> nat -> F) : entries_are (from_fn n m g) n m g.
Proof.
  apply entries_are_shape. split; [apply from_fn_shape|]. split; [reflexivity|]. split; [reflexivity|].
  intros r c Hr Hc. apply from_fn_entry; assumption.
Qed.

(** *** C46 *)
(** Mat::new and indexing, whatever the length of the vector *)
Theorem C46_new : forall n m (l : list F), mrows (mat_new n m l) = n /\ mcols (mat_new n m l) = m /\ ments (mat_new n m l) = l /\
  (forall r c, mget (mat_new n m l) r c = match nth_error l (r * m + c) with Some x => Ok x | None => Panic IndexOOB end) /\
  (length l = n * m -> entries_are (mat_new n m l) n m (fun r c => nth (r * m + c) l f0)).
Proof.
  intros n m l. do 3 (split; [reflexivity|]). split.
  - intros r c. unfold mget, vget. reflexivity.
  - intros L. split; [reflexivity|]. split; [reflexivity|]. split; [exact L|]. intros r c Hr Hc. unfold mget. cbn [mat_new ments mcols].
    apply vget_Ok. rewrite L. apply idx_lt; assumption.
Qed.
Theorem C46_identity : forall n, entries_are (mat_identity n) n n (fun r c => if r =? c then f1 else f0).
Proof. intros n. apply from_fn_are. Qed.
Theorem C46_zero : forall n m, entries_are (mat_zero n m) n m (fun _ _ => f0).
Proof. intros n m. apply from_fn_are. Qed.
Theorem C46_e : forall k n, entries_are (mat_e k n) n 1 (fun r _ => if r =? k then f1 else f0).
Proof.
  intros k n. unfold entries_are, mat_e, mget. cbn. rewrite map_length, seq_length.
  split; [reflexivity|]. split; [reflexivity|]. split; [lia|]. intros r c Hr Hc. assert (c = 0) by lia; subst c.
  rewrite (vget_Ok _ _ f0) by (rewrite map_length, seq_length; lia). f_equal.
  rewrite Nat.mul_1_r, Nat.add_0_r, nth_map_seq by exact Hr. reflexivity.
Qed.
Theorem C46_scale_mat : forall n i s, entries_are (mat_scale_mat n i s) n n
  (fun r c => if r =? c then (if r =? i then s else f1) else f0).
Proof.
  intros n i s. apply entries_are_shape. split; [apply from_fn_shape|]. split; [reflexivity|]. split; [reflexivity|].
  intros r c Hr Hc. unfold mat_scale_mat. rewrite from_fn_entry by assumption.
  destruct (r =? c), (r =? i); reflexivity.
Qed.
(** swaps [s] and [t], fixes the other indices *)
Definition transposition (s t r : nat) : nat := if r =? s then t else if r =? t then s else r.
Theorem C46_permutation : forall n s t, entries_are (mat_permutation n s t) n n
  (fun r c => if c =? transposition s t r then f1 else f0).
Proof.
  intros n s t. apply entries_are_shape. split; [apply from_fn_shape|]. split; [reflexivity|]. split; [reflexivity|].
  intros r c Hr Hc. unfold mat_permutation. rewrite from_fn_entry by assumption. unfold transposition.
  destruct (Nat.eqb_spec r s), (Nat.eqb_spec c t), (Nat.eqb_spec c s), (Nat.eqb_spec r t), (Nat.eqb_spec r c);
    subst; cbn [andb orb negb]; rewrite ?Nat.eqb_refl; try reflexivity; try congruence;
    repeat match goal with |- context [?x =? ?y] => destruct (Nat.eqb_spec x y); subst end; try reflexivity; congruence.
Qed.
Theorem C46_replacement : forall n s t x, entries_are (mat_replacement n s t x) n n
  (fun r c => if (r =? t) && (c =? s) then x else if r =? c then f1 else f0).
Proof.
  intros n s t x. apply entries_are_shape. split; [apply from_fn_shape|]. split; [reflexivity|]. split; [reflexivity|].
  intros r c Hr Hc. unfold mat_replacement. rewrite from_fn_entry by assumption. rewrite andb_comm. reflexivity.
Qed.
Theorem C46_permutation_from_vec : forall p, exists a, mat_permutation_from_vec p = Ok a /\
  entries_are a (length p) (length p) (fun r c => if nth r p 0 =? c then f1 else f0).
Proof.
  intros p. unfold mat_permutation_from_vec.
  rewrite (from_fnM_Ok _ _ _ (fun r c => if nth r p 0 =? c then f1 else f0)).
  - eexists. split; [reflexivity|]. apply from_fn_are.
  - intros i j Hi Hj. rewrite (vget_Ok _ _ 0) by lia. reflexivity.
Qed.
(** the first vector fixes the length; longer ones are cut off *)
Theorem C46_from_col_vectors : forall (v : mat) vs,
  (forall w, In w (v :: vs) -> mcols w = 1 /\ length (ments w) = mrows w /\ mrows v <= mrows w) ->
  exists a, mat_from_col_vectors (v :: vs) = Ok a /\
    entries_are a (mrows v) (length (v :: vs)) (fun r c => nth r (ments (nth c (v :: vs) v)) f0).
Proof.
  intros v vs H. unfold mat_from_col_vectors. change (vget (v :: vs) 0) with (@Ok mat v). cbn [bind].
  rewrite (from_fnM_Ok _ _ _ (fun r c => nth r (ments (nth c (v :: vs) v)) f0)).
  - eexists. split; [reflexivity|]. apply from_fn_are.
  - intros r c Hr Hc. rewrite (vget_Ok _ _ v) by exact Hc. cbn [bind].
    destruct (H (nth c (v :: vs) v) (nth_In _ _ Hc)) as (H1 & H2 & H3).
    unfold mget. rewrite H1, (vget_Ok _ _ f0) by lia. rewrite Nat.mul_1_r, Nat.add_0_r. reflexivity.
Qed.
Theorem C46_from_row_vectors : forall (v : mat) vs,
  (forall w, In w (v :: vs) -> mcols w = 1 /\ length (ments w) = mrows w /\ mrows v <= mrows w) ->
  exists a, mat_from_row_vectors (v :: vs) = Ok a /\
    entries_are a (length (v :: vs)) (mrows v) (fun r c => nth c (ments (nth r (v :: vs) v)) f0).
Proof.
  intros v vs H. unfold mat_from_row_vectors. change (vget (v :: vs) 0) with (@Ok mat v). cbn [bind].
  rewrite (from_fnM_Ok _ _ _ (fun r c => nth c (ments (nth r (v :: vs) v)) f0)).
  - eexists. split; [reflexivity|]. apply from_fn_are.
  - intros r c Hr Hc. rewrite (vget_Ok _ _ v) by exact Hr. cbn [bind].
    destruct (H (nth r (v :: vs) v) (nth_In _ _ Hr)) as (H1 & H2 & H3).
    unfold mget. rewrite H1, (vget_Ok _ _ f0) by lia. rewrite Nat.mul_1_r, Nat.add_0_r. reflexivity.
Qed.
(** shorter ones and the empty list make the constructors panic *)
Lemma mapM_panics {A B : Type} (f : A -> res B) k l :
  (forall x, In x l -> (exists y, f x = Ok y) \/ f x = Panic k) -> (exists x, In x l /\ f x = Panic k) ->
  mapM f l = Panic k.
Proof.
  induction l as [|x l IH]; intros H (z & Hz & Ez); [destruct Hz|]. simpl.
  destruct (H x (or_introl eq_refl)) as [(y & E)|E]; rewrite E; [|reflexivity]. simpl.
  destruct Hz as [->|Hz]; [congruence|]. rewrite IH; [reflexivity|intros; apply H; right; assumption|eauto].
Qed.
Lemma vget_cases {A : Type} (l : list A) i : (exists x, vget l i = Ok x) \/ vget l i = Panic IndexOOB.
Proof. unfold vget. destruct (nth_error l i); eauto. Qed.
Theorem C46_vectors_panic :
  mat_from_col_vectors ([] : list mat) = Panic IndexOOB /\ mat_from_row_vectors ([] : list mat) = Panic IndexOOB /\
  forall (v w : mat) vs, In w vs -> mcols w = 1 -> length (ments w) = mrows w -> mrows w < mrows v ->
    mat_from_col_vectors (v :: vs) = Panic IndexOOB /\ mat_from_row_vectors (v :: vs) = Panic IndexOOB.
Proof.
  split; [reflexivity|]. split; [reflexivity|]. intros v w vs Hw Hc Hl Hlt.
  destruct (In_nth (v :: vs) w v (or_intror Hw)) as (k & Hk & Ek).
  unfold mat_from_col_vectors, mat_from_row_vectors. change (vget (v :: vs) 0) with (@Ok mat v). cbn [bind].
  unfold from_fnM. split.
  - rewrite (mapM_panics _ IndexOOB); [reflexivity| |].
    + intros [r c] _. cbn [fst snd]. destruct (vget_cases (v :: vs) c) as [[x ->]| ->]; [|right; reflexivity].
      cbn [bind]. apply vget_cases.
    + exists (mrows w, k). split; [apply box_In; lia|]. cbn [fst snd]. rewrite (vget_Ok _ _ v) by exact Hk.
      cbn [bind]. rewrite Ek. unfold mget, vget. rewrite (proj2 (nth_error_None _ _)); [reflexivity|lia].
  - rewrite (mapM_panics _ IndexOOB); [reflexivity| |].
    + intros [r c] _. cbn [fst snd]. destruct (vget_cases (v :: vs) r) as [[x ->]| ->]; [|right; reflexivity].
      cbn [bind]. apply vget_cases.
    + exists (k, mrows w). split; [apply box_In; lia|]. cbn [fst snd]. rewrite (vget_Ok _ _ v) by exact Hk.
      cbn [bind]. rewrite Ek. unfold mget, vget. rewrite (proj2 (nth_error_None _ _)); [reflexivity|lia].
Qed.
Theorem C46_get_row_col_transpose : forall a n m g, entries_are a n m g ->
  (forall r, r < n -> exists v, mat_get_row a r = Ok v /\ entries_are v m 1 (fun c _ => g r c)) /\
  (forall c, c < m -> exists v, mat_get_col a c = Ok v /\ entries_are v n 1 (fun r _ => g r c)) /\
  exists t, mat_transpose a = Ok t /\ entries_are t m n (fun c r => g r c).
Proof.
  intros a n m g H. apply entries_are_shape in H. destruct H as (S & <- & <- & H).
  assert (V : forall k (h : nat -> F), entries_are (mat_from_iter (map h (seq 0 k))) k 1 (fun i _ => h i)).
  { intros k h. unfold entries_are, mat_from_iter, mget. cbn. rewrite map_length, seq_length.
    split; [reflexivity|]. split; [reflexivity|]. split; [lia|]. intros r c Hr Hc. assert (c = 0) by lia; subst c.
    rewrite (vget_Ok _ _ f0) by (rewrite map_length, seq_length; lia). f_equal.
    rewrite Nat.mul_1_r, Nat.add_0_r, nth_map_seq by exact Hr. reflexivity. }
  assert (X : forall v k (h h' : nat -> nat -> F), entries_are v k 1 h -> (forall i j, i < k -> j < 1 -> h i j = h' i j) -> entries_are v k 1 h').
  { intros v k h h' (A1 & A2 & A3 & A4) E. repeat split; try assumption. intros r c Hr Hc. rewrite <- E by assumption. auto. }
  split; [|split].
  - intros r Hr. unfold mat_get_row. rewrite row_slice_ok by assumption. cbn [bind]. eexists. split; [reflexivity|].
    eapply X; [apply V|]. intros i j Hi _. apply H; assumption.
  - intros c Hc. unfold mat_get_col. rewrite col_list_ok by assumption. cbn [bind]. eexists. split; [reflexivity|].
    eapply X; [apply V|]. intros i j Hi _. apply H; assumption.
  - unfold mat_transpose. rewrite (from_fnM_Ok _ _ _ (fun c r => g r c)).
    + eexists. split; [reflexivity|]. apply from_fn_are.
    + intros i j Hi Hj. rewrite mget_ok by assumption. rewrite H by assumption. reflexivity.
Qed.

(** index_iter yields every index once, in the order in which the entries are stored *)
Theorem C46_index_iter : forall a n m g, entries_are a n m g ->
  (forall r c, In (r, c) (mat_index_iter a) <-> r < n /\ c < m) /\ NoDup (mat_index_iter a) /\
  length (mat_index_iter a) = n * m /\
  (forall k, k < n * m -> exists r c, nth_error (mat_index_iter a) k = Some (r, c) /\ k = r * m + c /\ nth_error (ments a) k = Some (g r c)).
Proof.
  intros a n m g H. apply entries_are_shape in H. destruct H as (S & <- & <- & H). unfold mat_index_iter.
  assert (N : forall s n k, k < n * mcols a -> exists c, c < mcols a /\
     nth_error (cartesian (seq s n) (seq 0 (mcols a))) k = Some (s + k / mcols a, c) /\ k = (k / mcols a) * mcols a + c).
  { clear. intros s n. revert s. induction n as [|n IH]; intros s k Hk; [lia|]. unfold cartesian. cbn [seq flat_map].
    assert (M : mcols a <> 0) by (intros Z; rewrite Z in Hk; lia).
    destruct (le_lt_dec (mcols a) k) as [L|L].
    - rewrite nth_error_app2 by (rewrite map_length, seq_length; exact L). rewrite map_length, seq_length.
      destruct (IH (Datatypes.S s) (k - mcols a)) as (c & Hc & E & X); [lia|]. exists c. split; [exact Hc|].
      assert (Q : k / mcols a = Datatypes.S ((k - mcols a) / mcols a)).
      { replace k with ((k - mcols a) + 1 * mcols a) at 1 by lia. rewrite Nat.div_add by exact M. lia. }
      rewrite Q. split; [|cbn [Nat.mul]; lia]. unfold cartesian in E. rewrite E. f_equal. f_equal. lia.
    - exists k. split; [exact L|]. rewrite Nat.div_small by exact L. split; [|lia].
      rewrite nth_error_app1 by (rewrite map_length, seq_length; exact L). rewrite nth_error_map.
      rewrite (nth_error_nth' _ 0) by (rewrite seq_length; exact L). rewrite seq_nth by exact L. cbn. f_equal. f_equal. lia. }
  assert (Len : length (cartesian (seq 0 (mrows a)) (seq 0 (mcols a))) = mrows a * mcols a).
  { clear. unfold cartesian. rewrite <- (seq_length (mrows a) 0) at 2. induction (seq 0 (mrows a)) as [|x l IH]; [reflexivity|].
    cbn [flat_map length]. rewrite app_length, map_length, seq_length, IH. lia. }
  split; [|split; [|split; [exact Len|]]].
  - intros r c. rewrite In_cartesian, !in_seq. lia.
  - apply NoDup_nth_error. intros i j Hi E. rewrite Len in Hi.
    assert (Hj : j < mrows a * mcols a).
    { destruct (le_lt_dec (mrows a * mcols a) j) as [L|]; [|assumption]. exfalso.
      rewrite (proj2 (nth_error_None _ j)) in E by (rewrite Len; exact L). apply nth_error_None in E. rewrite Len in E. lia. }
    destruct (N 0 (mrows a) i Hi) as (c & _ & Ei & Xi). destruct (N 0 (mrows a) j Hj) as (d & _ & Ej & Xj).
    rewrite Ei, Ej in E. injection E as E1 E2. rewrite Xi, Xj, E2. f_equal. f_equal. lia.
  - intros k Hk. destruct (N 0 (mrows a) k Hk) as (c & Hc & E & X). exists (k / mcols a), c. split; [exact E|]. split; [exact X|].
    assert (Hr : k / mcols a < mrows a) by (apply Nat.div_lt_upper_bound; lia).
    rewrite <- (H _ c Hr Hc). unfold mentry. rewrite <- X. apply nth_error_nth'. rewrite S. exact Hk.
Qed.

(** *** C48, exact part: the other rows are untouched, the swapped rows are exchanged exactly *)
Lemma foldM_seq_inv {ST : Type} (f : ST -> nat -> res ST) (I : nat -> ST -> Prop) start len s s' :
  I 0 s -> (forall k s s', k < len -> I k s -> f s (start + k) = Ok s' -> I (k + 1) s') ->
  foldM f (seq start len) s = Ok s' -> I len s'.
Proof.
  revert start I s. induction len; intros start I s H0 H; simpl; intros E.
  - inversion E; subst. exact H0.
  - apply bind_Ok in E. destruct E as (s1 & E1 & E2).
    apply (IHlen (1 + start) (fun k => I (Datatypes.S k)) s1); [|clear s s1 H0 E1 E2|exact E2].
    + apply (H 0 s s1); [lia|exact H0|rewrite Nat.add_0_r; exact E1].
    + intros k s s1 Hk Hs E. replace (Datatypes.S (k + 1)) with (Datatypes.S k + 1) by lia.
      apply (H (Datatypes.S k) s); [lia|exact Hs|]. rewrite <- E. f_equal. lia.
Qed.
Definition same_shape (a b : mat) : Prop := mshape b /\ mrows b = mrows a /\ mcols b = mcols a.
Theorem C48_scale_row_frame : forall a i s a', mshape a -> i < mrows a -> mat_scale_row a i s = Ok a' ->
  same_shape a a' /\ forall r c, r < mrows a -> c < mcols a ->
    if r =? i then fmul s (mentry a r c) = Ok (mentry a' r c) else mentry a' r c = mentry a r c.
Proof.
  intros a i s a' S Hi E. unfold mat_scale_row in E.
  apply (foldM_seq_inv _ (fun k b => same_shape a b /\ forall r c, r < mrows a -> c < mcols a ->
    if (r =? i) && (c <? k) then fmul s (mentry a r c) = Ok (mentry b r c) else mentry b r c = mentry a r c)) in E.
  - destruct E as [SS H]. split; [exact SS|]. intros r c Hr Hc. specialize (H r c Hr Hc).
    destruct (Nat.ltb_spec c (mcols a)); [|lia]. rewrite andb_true_r in H. exact H.
  - split; [repeat split; exact S|]. intros r c Hr Hc. rewrite andb_false_r. reflexivity.
  - clear E a'. intros k b b' Hk ((Sb & Rb & Cb) & H) E. rewrite Nat.add_0_l in E.
    rewrite mget_ok in E by (try assumption; lia). cbn [bind] in E. apply bind_Ok in E. destruct E as (y & Ey & E).
    destruct (mset_ok b i k y Sb) as (b2 & E2 & S2 & R2 & C2 & H2); [lia|lia|]. rewrite E2 in E. inversion E; subst b2.
    split; [split; [exact S2|split; congruence]|]. intros r c Hr Hc. rewrite H2 by lia. specialize (H r c Hr Hc).
    destruct (Nat.eqb_spec r i) as [->|N]; cbn [andb] in *; [|exact H].
    destruct (Nat.eqb_spec c k) as [->|Nc].
    + destruct (Nat.ltb_spec k (k + 1)); [|lia]. destruct (Nat.ltb_spec k k); [lia|]. rewrite H in Ey. exact Ey.
    + destruct (Nat.ltb_spec c (k + 1)), (Nat.ltb_spec c k); try lia; exact H.
Qed.
Theorem C48_permute_rows_exact : forall a s t, mshape a -> s < mrows a -> t < mrows a ->
  exists a', mat_permute_rows a s t = Ok a' /\ same_shape a a' /\
    forall r c, r < mrows a -> c < mcols a -> mentry a' r c = mentry a (transposition s t r) c.
Proof.
  intros a s t S Hs Ht. unfold mat_permute_rows.
  assert (G : forall k, k <= mcols a -> exists b,
     foldM (fun a c => temp <- mget a s c ;; y <- mget a t c ;; a1 <- mset a s c y ;; mset a1 t c temp) (seq 0 k) a = Ok b
     /\ same_shape a b /\ forall r c, r < mrows a -> c < mcols a ->
        mentry b r c = mentry a (if c <? k then transposition s t r else r) c).
  { induction k; intros Hk.
    - exists a. split; [reflexivity|]. split; [repeat split; exact S|]. intros r c _ _. reflexivity.
    - destruct IHk as (b & E1 & (Sb & Rb & Cb) & H); [lia|]. rewrite seq_S, foldM_app, E1. cbn [bind foldM]. rewrite Nat.add_0_l.
      rewrite !(mget_ok b) by (try assumption; lia). cbn [bind].
      destruct (mset_ok b s k (mentry b t k) Sb) as (b2 & -> & S2 & R2 & C2 & H2); [lia|lia|]. cbn [bind].
      destruct (mset_ok b2 t k (mentry b s k) S2) as (b3 & -> & S3 & R3 & C3 & H3); [lia|lia|]. cbn [bind].
      exists b3. split; [reflexivity|]. split; [split; [exact S3|split; congruence]|].
      intros r c Hr Hc. rewrite H3 by lia. rewrite H2 by lia. rewrite !H by lia. unfold transposition.
      rewrite Nat.ltb_irrefl.
      repeat match goal with
       | |- context [?x =? ?y] => destruct (Nat.eqb_spec x y); subst
       | |- context [?x <? ?y] => destruct (Nat.ltb_spec x y); subst end; cbn [andb]; try congruence; try lia. }
  destruct (G (mcols a) (le_n _)) as (b & E & SS & H). exists b. split; [exact E|]. split; [exact SS|].
  intros r c Hr Hc. rewrite H by assumption. destruct (Nat.ltb_spec c (mcols a)); [reflexivity|lia].
Qed.
Theorem C48_replace_row_frame : forall a s t x a', mshape a -> s < mrows a -> t < mrows a ->
  mat_replace_row a s t x = Ok a' ->
  same_shape a a' /\ forall r c, r < mrows a -> c < mcols a ->
    if r =? t then (p <- fmul (mentry a s c) x ;; fadd (mentry a t c) p) = Ok (mentry a' r c)
    else mentry a' r c = mentry a r c.
Proof.
  intros a s t x a' S Hs Ht E. unfold mat_replace_row in E.
  apply (foldM_seq_inv _ (fun k b => same_shape a b /\ forall r c, r < mrows a -> c < mcols a ->
    if (r =? t) && (c <? k) then (p <- fmul (mentry a s c) x ;; fadd (mentry a t c) p) = Ok (mentry b r c)
    else mentry b r c = mentry a r c)) in E.
  - destruct E as [SS H]. split; [exact SS|]. intros r c Hr Hc. specialize (H r c Hr Hc).
    destruct (Nat.ltb_spec c (mcols a)); [|lia]. rewrite andb_true_r in H. exact H.
  - split; [repeat split; exact S|]. intros r c Hr Hc. rewrite andb_false_r. reflexivity.
  - clear E a'. intros k b b' Hk ((Sb & Rb & Cb) & H) E. rewrite Nat.add_0_l in E.
    rewrite !mget_ok in E by (try assumption; lia). cbn [bind] in E.
    apply bind_Ok in E. destruct E as (p & Ep & E). apply bind_Ok in E. destruct E as (y & Ey & E).
    destruct (mset_ok b t k y Sb) as (b2 & E2 & S2 & R2 & C2 & H2); [lia|lia|]. rewrite E2 in E. inversion E; subst b2.
    assert (B1 : mentry b s k = mentry a s k).
    { specialize (H s k Hs Hk). rewrite Nat.ltb_irrefl, andb_false_r in H. exact H. }
    assert (B2 : mentry b t k = mentry a t k).
    { specialize (H t k Ht Hk). rewrite Nat.ltb_irrefl, andb_false_r in H. exact H. }
    split; [split; [exact S2|split; congruence]|]. intros r c Hr Hc. rewrite H2 by lia. specialize (H r c Hr Hc).
    destruct (Nat.eqb_spec r t) as [->|N]; cbn [andb] in *; [|exact H].
    destruct (Nat.eqb_spec c k) as [->|Nc].
    + destruct (Nat.ltb_spec k (k + 1)); [|lia]. rewrite <- B1, <- B2, Ep. exact Ey.
    + destruct (Nat.ltb_spec c (k + 1)), (Nat.ltb_spec c k); try lia; exact H.
Qed.

(** *** C57 *)
(** the flat positions of column [c] *)
Definition column_positions (a : mat) (c : nat) : list nat := map (fun r => r * mcols a + c) (seq 0 (mrows a)).
Theorem C57_square : forall (a : mat) c, mshape a -> mrows a = mcols a -> c < mcols a ->
  mat_col_iter_mut a c = Ok (column_positions a c).
Proof.
  intros a c S E Hc. unfold mat_col_iter_mut, column_positions. unfold mshape in S.
  destruct (Nat.eqb_spec (mrows a) 0); [lia|].
  rewrite S, E, Nat.div_mul by lia. apply mapM_Ok_intro. intros k _.
  destruct (Nat.ltb_spec c (mcols a)); [reflexivity|lia].
Qed.
(** in general it yields one entry per column, with stride rows *)
Theorem C57_general : forall (a : mat) c, mshape a -> 0 < mrows a ->
  mat_col_iter_mut a c =
    if c <? mrows a then Ok (map (fun k => k * mrows a + c) (seq 0 (mcols a)))
    else if mcols a =? 0 then Ok [] else Panic IndexOOB.
Proof.
  intros a c S Hr. unfold mat_col_iter_mut. unfold mshape in S.
  destruct (Nat.eqb_spec (mrows a) 0); [lia|].
  rewrite S, Nat.mul_comm, Nat.div_mul by lia.
  destruct (Nat.ltb_spec c (mrows a)) as [L|L].
  - apply mapM_Ok_intro. reflexivity.
  - destruct (mcols a) as [|k]; reflexivity.
Qed.
Theorem C57_nonsquare_refuted :
  (exists a : mat, mshape a /\ exists c l, c < mcols a /\ mat_col_iter_mut a c = Ok l /\ l <> column_positions a c) /\
  (exists a : mat, mshape a /\ exists c, c < mcols a /\ mat_col_iter_mut a c = Panic IndexOOB) /\
  (exists a : mat, mshape a /\ exists c, c < mcols a /\ mat_col_iter_mut a c = Panic Explicit).
Proof.
  split; [|split].
  - exists (mat_zero 2 3). split; [apply from_fn_shape|]. exists 1, [1; 3; 5]. repeat split; [cbn; lia|discriminate].
  - exists (mat_zero 2 3). split; [apply from_fn_shape|]. exists 2. split; [cbn; lia|reflexivity].
  - exists (mat_zero 0 2). split; [reflexivity|]. exists 0. split; [cbn; lia|reflexivity].
Qed.
End Exact.

(** ** Statements in terms of values, for any exact field *)
Section PropMat.
Context {F : FieldImpl} {K : MathField} (FS : FieldSpec F K).
Add Field Kf14 : (kth K).
Notation mat := (mat F).
Notation val := (mden FS).
Notation ok := (mwf FS).

(** *** C47 *)
Theorem C47_add : forall a b, ok a -> ok b -> mrows a = mrows b -> mcols a = mcols b ->
  safe (mat_add a b) (fun c => ok c /\ mrows c = mrows a /\ mcols c = mcols a /\
    meq (mrows a) (mcols a) (val c) (fun i j => kadd (val a i j) (val b i j))).
Proof.
  intros a b Wa Wb Er Ec. apply mwf_mrep in Wa, Wb. rewrite <- Er, <- Ec in Wb.
  eapply safe_mono; [eapply add_mat_ok; eassumption|]. intros c R. apply mrep_mwf in R. exact R.
Qed.
Theorem C47_mul : forall a b, ok a -> ok b -> mcols a = mrows b ->
  safe (mat_mul a b) (fun c => ok c /\ mrows c = mrows a /\ mcols c = mcols b /\
    meq (mrows a) (mcols b) (val c) (mmul (mcols a) (val a) (val b))).
Proof.
  intros a b Wa Wb E. apply mwf_mrep in Wa, Wb. rewrite <- E in Wb.
  eapply safe_mono; [eapply mat_mul_ok; eassumption|]. intros c R. apply mrep_mwf in R. exact R.
Qed.
Theorem C47_scalar : forall a s, ok a -> fwf FS s ->
  safe (mat_mul_scalar a s) (fun c => ok c /\ mrows c = mrows a /\ mcols c = mcols a /\
    meq (mrows a) (mcols a) (val c) (fun i j => kmul (val a i j) (den FS s))) /\
  mat_scale a s = mat_mul_scalar a s.
Proof.
  intros a s Wa Ws. split; [|reflexivity]. apply mwf_mrep in Wa.
  eapply safe_mono; [eapply mul_scalar_ok; eassumption|]. intros c R. apply mrep_mwf in R. exact R.
Qed.
Theorem C47_panics : forall a b, ok a -> ok b ->
  (mat_add a b = Panic Explicit <-> ~ (mrows a = mrows b /\ mcols a = mcols b)) /\
  (mat_mul a b = Panic Explicit <-> mcols a <> mrows b).
Proof.
  intros a b Wa Wb. split; split.
  - intros E [H1 H2]. pose proof (C47_add a b Wa Wb H1 H2) as G. rewrite E in G. exact G.
  - intros N. unfold mat_add. destruct (Nat.eqb_spec (mrows a) (mrows b)); [|reflexivity].
    destruct (Nat.eqb_spec (mcols a) (mcols b)); [|reflexivity]. tauto.
  - intros E H. pose proof (C47_mul a b Wa Wb H) as G. rewrite E in G. exact G.
  - intros N. unfold mat_mul. destruct (Nat.eqb_spec (mcols a) (mrows b)); [congruence|reflexivity].
Qed.
Theorem C47_mul_assoc : forall a b c ab bc x y, ok a -> ok b -> ok c -> mcols a = mrows b -> mcols b = mrows c ->
  mat_mul a b = Ok ab -> mat_mul ab c = Ok x -> mat_mul b c = Ok bc -> mat_mul a bc = Ok y ->
  mrows x = mrows y /\ mcols x = mcols y /\ meq (mrows x) (mcols x) (val x) (val y).
Proof.
  intros a b c ab bc x y Wa Wb Wc E1 E2 Eab Ex Ebc Ey.
  apply mwf_mrep in Wa, Wb, Wc. rewrite <- E1 in Wb. rewrite <- E2 in Wc.
  pose proof (safe_val _ _ _ (mat_mul_ok FS _ _ _ _ _ _ _ Wa Wb) Eab) as Rab.
  pose proof (safe_val _ _ _ (mat_mul_ok FS _ _ _ _ _ _ _ Rab Wc) Ex) as Rx.
  pose proof (safe_val _ _ _ (mat_mul_ok FS _ _ _ _ _ _ _ Wb Wc) Ebc) as Rbc.
  pose proof (safe_val _ _ _ (mat_mul_ok FS _ _ _ _ _ _ _ Wa Rbc) Ey) as Ry.
  apply mrep_mwf in Rx, Ry. destruct Rx as (_ & R1 & C1 & V1), Ry as (_ & R2 & C2 & V2).
  split; [congruence|]. split; [congruence|]. rewrite R1, C1. intros i j Hi Hj.
  rewrite V1, V2 by assumption. apply mmul_assoc.
Qed.
Theorem C47_mul_distrib : forall a b c bc x ab ac y, ok a -> ok b -> ok c ->
  mcols a = mrows b -> mrows b = mrows c -> mcols b = mcols c ->
  mat_add b c = Ok bc -> mat_mul a bc = Ok x ->
  mat_mul a b = Ok ab -> mat_mul a c = Ok ac -> mat_add ab ac = Ok y ->
  mrows x = mrows y /\ mcols x = mcols y /\ meq (mrows x) (mcols x) (val x) (val y).
Proof.
  intros a b c bc x ab ac y Wa Wb Wc E1 E2 E3 Ebc Ex Eab Eac Ey.
  apply mwf_mrep in Wa, Wb, Wc. rewrite <- E2, <- E1, <- E3 in Wc. rewrite <- E1 in Wb.
  pose proof (safe_val _ _ _ (add_mat_ok FS _ _ _ _ _ _ Wb Wc) Ebc) as Rbc.
  pose proof (safe_val _ _ _ (mat_mul_ok FS _ _ _ _ _ _ _ Wa Rbc) Ex) as Rx.
  pose proof (safe_val _ _ _ (mat_mul_ok FS _ _ _ _ _ _ _ Wa Wb) Eab) as Rab.
  pose proof (safe_val _ _ _ (mat_mul_ok FS _ _ _ _ _ _ _ Wa Wc) Eac) as Rac.
  pose proof (safe_val _ _ _ (add_mat_ok FS _ _ _ _ _ _ Rab Rac) Ey) as Ry.
  apply mrep_mwf in Rx, Ry. destruct Rx as (_ & R1 & C1 & V1), Ry as (_ & R2 & C2 & V2).
  split; [congruence|]. split; [congruence|]. rewrite R1, C1. intros i j Hi Hj.
  rewrite V1, V2 by assumption. apply (mmul_add_r (mcols a) (val a) (val b) (val c)).
Qed.
Theorem C47_mul_distrib_r : forall a b c ab x ac bc y, ok a -> ok b -> ok c ->
  mrows a = mrows b -> mcols a = mcols b -> mcols a = mrows c ->
  mat_add a b = Ok ab -> mat_mul ab c = Ok x ->
  mat_mul a c = Ok ac -> mat_mul b c = Ok bc -> mat_add ac bc = Ok y ->
  mrows x = mrows y /\ mcols x = mcols y /\ meq (mrows x) (mcols x) (val x) (val y).
Proof.
  intros a b c ab x ac bc y Wa Wb Wc E1 E2 E3 Eab Ex Eac Ebc Ey.
  apply mwf_mrep in Wa, Wb, Wc. rewrite <- E1, <- E2 in Wb. rewrite <- E3 in Wc.
  pose proof (safe_val _ _ _ (add_mat_ok FS _ _ _ _ _ _ Wa Wb) Eab) as Rab.
  pose proof (safe_val _ _ _ (mat_mul_ok FS _ _ _ _ _ _ _ Rab Wc) Ex) as Rx.
  pose proof (safe_val _ _ _ (mat_mul_ok FS _ _ _ _ _ _ _ Wa Wc) Eac) as Rac.
  pose proof (safe_val _ _ _ (mat_mul_ok FS _ _ _ _ _ _ _ Wb Wc) Ebc) as Rbc.
  pose proof (safe_val _ _ _ (add_mat_ok FS _ _ _ _ _ _ Rac Rbc) Ey) as Ry.
  apply mrep_mwf in Rx, Ry. destruct Rx as (_ & R1 & C1 & V1), Ry as (_ & R2 & C2 & V2).
  split; [congruence|]. split; [congruence|]. rewrite R1, C1. intros i j Hi Hj.
  rewrite V1, V2 by assumption. apply (mmul_add_l (mcols a) (val a) (val b) (val c)).
Qed.
Theorem C47_identity_unit : forall a, ok a ->
  safe (mat_mul (mat_identity (mrows a)) a) (fun x => mrows x = mrows a /\ mcols x = mcols a /\ meq (mrows a) (mcols a) (val x) (val a)) /\
  safe (mat_mul a (mat_identity (mcols a))) (fun x => mrows x = mrows a /\ mcols x = mcols a /\ meq (mrows a) (mcols a) (val x) (val a)).
Proof.
  intros a Wa. apply mwf_mrep in Wa. split.
  - eapply safe_mono; [eapply mat_mul_ok; [apply identity_ok|exact Wa]|]. intros x R. apply mrep_mwf in R.
    destruct R as (_ & R & C & V). repeat split; try assumption. eapply meq_trans; [exact V|apply mmul_id_l].
  - eapply safe_mono; [eapply mat_mul_ok; [exact Wa|apply identity_ok]|]. intros x R. apply mrep_mwf in R.
    destruct R as (_ & R & C & V). repeat split; try assumption. eapply meq_trans; [exact V|apply mmul_id_r].
Qed.
Theorem C47_transpose_mul : forall a b ab x ta tb y, ok a -> ok b -> mcols a = mrows b ->
  mat_mul a b = Ok ab -> mat_transpose ab = Ok x ->
  mat_transpose a = Ok ta -> mat_transpose b = Ok tb -> mat_mul tb ta = Ok y ->
  mrows x = mrows y /\ mcols x = mcols y /\ meq (mrows x) (mcols x) (val x) (val y).
Proof.
  intros a b ab x ta tb y Wa Wb E Eab Ex Eta Etb Ey.
  apply mwf_mrep in Wa, Wb. rewrite <- E in Wb.
  pose proof (safe_val _ _ _ (mat_mul_ok FS _ _ _ _ _ _ _ Wa Wb) Eab) as Rab.
  destruct (transpose_ok FS _ _ _ _ Rab) as (x' & Ex' & Rx). rewrite Ex in Ex'. inversion Ex'; subst x'.
  destruct (transpose_ok FS _ _ _ _ Wa) as (ta' & Eta' & Ra). rewrite Eta in Eta'. inversion Eta'; subst ta'.
  destruct (transpose_ok FS _ _ _ _ Wb) as (tb' & Etb' & Rb). rewrite Etb in Etb'. inversion Etb'; subst tb'.
  pose proof (safe_val _ _ _ (mat_mul_ok FS _ _ _ _ _ _ _ Rb Ra) Ey) as Ry.
  apply mrep_mwf in Rx, Ry. destruct Rx as (_ & R1 & C1 & V1), Ry as (_ & R2 & C2 & V2).
  split; [congruence|]. split; [congruence|]. rewrite R1, C1. intros i j Hi Hj.
  rewrite V1, V2 by assumption. apply mmul_trans.
Qed.
Theorem C47_transpose_involutive : forall a t, mshape a -> mat_transpose a = Ok t -> mat_transpose t = Ok (a : mat).
Proof.
  intros a t S E. unfold mat_transpose in E.
  rewrite (from_fnM_Ok _ _ _ (fun c r => mentry a r c)) in E by (intros; apply mget_ok; assumption).
  inversion E; subst t. unfold mat_transpose. cbn [mcols mrows].
  rewrite (from_fnM_Ok _ _ _ (fun r c => mentry a r c)).
  - f_equal. apply mat_ext; try reflexivity; [apply from_fn_shape|exact S|].
    intros i j Hi Hj. apply from_fn_entry; assumption.
  - intros i j Hi Hj. rewrite mget_ok; [|apply from_fn_shape|exact Hj|exact Hi].
    rewrite from_fn_entry by assumption. reflexivity.
Qed.
Theorem C47_dot_norm : forall a b, ok a -> ok b -> mcols a = 1 -> mcols b = 1 -> mrows a = mrows b ->
  safe (mat_dot a b) (fun x => fwf FS x /\ den FS x = sumn (mrows a) (fun i => kmul (val a i 0) (val b i 0))) /\
  mat_frobenius a = mat_dot a a.
Proof.
  intros a b Wa Wb Ca Cb Er. split.
  - apply mwf_mrep in Wa, Wb. rewrite Ca in Wa. rewrite Cb, <- Er in Wb. eapply dot_vec_ok; eassumption.
  - unfold mat_frobenius, mat_dot. generalize (ments a) (@f0 F). induction l as [|x l IH]; intros acc; simpl; [reflexivity|].
    destruct (fmul x x); simpl; try reflexivity. destruct (fadd acc _); simpl; try reflexivity. apply IH.
Qed.

(** *** C48 *)
Theorem C48_scale_row : forall a i s, ok a -> i < mrows a -> fwf FS s ->
  safe (mat_scale_row a i s) (fun a' => ok a' /\ mrows a' = mrows a /\ mcols a' = mcols a /\
    meq (mrows a) (mcols a) (val a') (mmul (mrows a) (val (mat_scale_mat (mrows a) i s)) (val a))).
Proof.
  intros a i s Wa Hi Ws. apply mwf_mrep in Wa.
  eapply safe_mono; [eapply scale_row_ok; eassumption|]. intros a' R. apply mrep_mwf in R.
  destruct R as (W & R & C & V). split; [exact W|]. split; [exact R|]. split; [exact C|].
  pose proof (mrep_mwf _ _ _ _ _ (scale_mat_ok FS (mrows a) i s Ws)) as (_ & _ & _ & VS).
  eapply meq_trans; [exact V|]. apply meq_sym.
  eapply meq_trans; [apply mmul_ext; [exact VS|apply meq_refl]|].
  intros r c Hr Hc. rewrite (ro_mul _ _ (rowop_scale (mrows a) i (den FS s))).
  apply (ro_ext _ _ (rowop_scale (mrows a) i (den FS s)) (mcols a)); try assumption. apply mmul_id_l.
Qed.
Theorem C48_permute_rows : forall a s t, ok a -> s < mrows a -> t < mrows a ->
  exists a', mat_permute_rows a s t = Ok a' /\ ok a' /\ mrows a' = mrows a /\ mcols a' = mcols a /\
    meq (mrows a) (mcols a) (val a') (mmul (mrows a) (val (mat_permutation (mrows a) s t)) (val a)).
Proof.
  intros a s t Wa Hs Ht. apply mwf_mrep in Wa.
  destruct (permute_rows_ok FS _ _ _ _ s t Wa Hs Ht) as (a' & E & R). exists a'. split; [exact E|]. apply mrep_mwf in R.
  destruct R as (W & R & C & V). split; [exact W|]. split; [exact R|]. split; [exact C|].
  pose proof (mrep_mwf _ _ _ _ _ (permutation_ok FS (mrows a) s t)) as (_ & _ & _ & VS).
  eapply meq_trans; [exact V|]. apply meq_sym.
  eapply meq_trans; [apply mmul_ext; [exact VS|apply meq_refl]|].
  intros r c Hr Hc. rewrite (ro_mul _ _ (rowop_swap (mrows a) s t Hs Ht)).
  apply (ro_ext _ _ (rowop_swap (mrows a) s t Hs Ht) (mcols a)); try assumption. apply mmul_id_l.
Qed.
Theorem C48_replace_row : forall a s t x, ok a -> s < mrows a -> t < mrows a -> s <> t -> fwf FS x ->
  safe (mat_replace_row a s t x) (fun a' => ok a' /\ mrows a' = mrows a /\ mcols a' = mcols a /\
    meq (mrows a) (mcols a) (val a') (mmul (mrows a) (val (mat_replacement (mrows a) s t x)) (val a))).
Proof.
  intros a s t x Wa Hs Ht N Wx. apply mwf_mrep in Wa.
  eapply safe_mono; [apply (replace_row_ok FS _ _ _ _ s t x Wa Hs Ht Wx)|]. intros a' R. apply mrep_mwf in R.
  destruct R as (W & R & C & V). split; [exact W|]. split; [exact R|]. split; [exact C|].
  pose proof (mrep_mwf _ _ _ _ _ (replacement_ok FS (mrows a) s t x Wx N)) as (_ & _ & _ & VS).
  eapply meq_trans; [exact V|]. apply meq_sym.
  eapply meq_trans; [apply mmul_ext; [exact VS|apply meq_refl]|].
  intros r c Hr Hc. rewrite (ro_mul _ _ (rowop_repl (mrows a) s t (den FS x) Hs)).
  apply (ro_ext _ _ (rowop_repl (mrows a) s t (den FS x) Hs) (mcols a)); try assumption. apply mmul_id_l.
Qed.
(** for equal rows replace_row multiplies the row by 1 + scalar, which is not the matrix
    replacement(rows, i, i, scalar) *)
Theorem C48_replace_row_same : forall a i x, ok a -> i < mrows a -> fwf FS x ->
  safe (mat_replace_row a i i x) (fun a' =>
    meq (mrows a) (mcols a) (val a') (op_scale i (kadd k1 (den FS x)) (val a))) /\
  meq (mrows a) (mcols a) (mmul (mrows a) (val (mat_replacement (mrows a) i i x)) (val a)) (op_scale i (den FS x) (val a)).
Proof.
  intros a i x Wa Hi Wx. apply mwf_mrep in Wa. split.
  - eapply safe_mono; [apply (replace_row_ok FS _ _ _ _ i i x Wa Hi Hi Wx)|]. intros a' R. apply mrep_mwf in R.
    destruct R as (_ & _ & _ & V). eapply meq_trans; [exact V|]. intros r c Hr Hc. unfold op_repl, op_scale.
    destruct (Nat.eqb_spec r i); [subst; ring|reflexivity].
  - assert (VS : meq (mrows a) (mrows a) (val (mat_replacement (mrows a) i i x)) (op_scale i (den FS x) mid)).
    { intros r c Hr Hc. unfold mden, mat_replacement. rewrite from_fn_entry by assumption. unfold op_scale, mid.
      destruct (Nat.eqb_spec r i), (Nat.eqb_spec c i), (Nat.eqb_spec r c); subst; cbn [andb]; try congruence;
        rewrite ?(den0 _ _ FS), ?(den1 _ _ FS); ring. }
    eapply meq_trans; [apply mmul_ext; [exact VS|apply meq_refl]|].
    intros r c Hr Hc. rewrite (ro_mul _ _ (rowop_scale (mrows a) i (den FS x))).
    apply (ro_ext _ _ (rowop_scale (mrows a) i (den FS x)) (mcols a)); try assumption. apply mmul_id_l.
Qed.

End PropMat.

(** ** C58 *)
Lemma Qc_sq_nonneg (x : Qc) : (0 <= x * x)%Qc.
Proof.
  unfold Qcle, Qcmult, Q2Qc. cbn [this].
  rewrite (Qred_correct (this x * this x)), (Qred_correct 0). destruct (this x) as [a b].
  unfold Qle, Qmult. cbn [Qnum Qden]. cbn. rewrite ?Z.mul_1_r. apply Z.square_nonneg.
Qed.
Lemma Qc_add_zero (x y : Qc) : (0 <= x)%Qc -> (0 <= y)%Qc -> (x + y)%Qc = Q2Qc 0 -> x = Q2Qc 0 /\ y = Q2Qc 0.
Proof.
  intros Hx Hy E. split.
  - apply Qcle_antisym; [|exact Hx]. change (x <= Q2Qc 0)%Qc. rewrite <- E. rewrite <- (Qcplus_0_r x) at 1.
    apply Qcplus_le_compat; [apply Qcle_refl|exact Hy].
  - apply Qcle_antisym; [|exact Hy]. change (y <= Q2Qc 0)%Qc. rewrite <- E. rewrite <- (Qcplus_0_l y) at 1.
    apply Qcplus_le_compat; [exact Hx|apply Qcle_refl].
Qed.
Lemma Qc_sum_sq_zero (l : list Qc) : ksum (K:=QcField) (map (fun x => @kmul QcField x x) l) = Q2Qc 0 ->
  Forall (fun x => x = Q2Qc 0) l.
Proof.
  assert (P : forall l : list Qc, (0 <= ksum (K:=QcField) (map (fun x => @kmul QcField x x) l))%Qc).
  { induction l0 as [|x l0 IH]; cbn.
    - apply Qcle_refl.
    - unfold ksum in IH. rewrite <- (Qcplus_0_l 0). apply Qcplus_le_compat; [apply Qc_sq_nonneg|exact IH]. }
  induction l as [|x l IH]; intros H; constructor; apply (Qc_add_zero _ _ (Qc_sq_nonneg x) (P l)) in H.
  - destruct H as [H _]. apply Qcmult_integral in H. destruct H; assumption.
  - apply IH. exact (proj2 H).
Qed.
Lemma Qc_sub_zero (y z : Qc) : (y + z * (Q2Qc 0 - Q2Qc 1) = Q2Qc 0)%Qc <-> y = z.
Proof.
  split; intros H.
  - transitivity (y + z * (Q2Qc 0 - Q2Qc 1) + z)%Qc; [ring|]. rewrite H. ring.
  - subst. ring.
Qed.
Theorem C58_epsilon_equals : forall a b, mwf rat_spec a -> mwf rat_spec b ->
  mrows a = mrows b -> mcols a = mcols b ->
  safe (mat_epsilon_equals (rat_stab Debug) a b) (fun t =>
    t = true <-> meq (mrows a) (mcols a) (mden rat_spec a) (mden rat_spec b)).
Proof.
  intros a b Wa Wb Er Ec. apply mwf_mrep in Wa, Wb. rewrite <- Er, <- Ec in Wb.
  unfold mat_epsilon_equals.
  eapply safe_bind; [apply (sub_ok _ _ rat_spec); apply rat_spec|]. intros m1 [Wm Dm].
  rewrite (den0 _ _ rat_spec), (den1 _ _ rat_spec) in Dm.
  eapply safe_bind; [eapply mul_scalar_ok; [exact Wb|exact Wm]|]. intros nb Rn.
  eapply safe_bind; [eapply add_mat_ok; [exact Wa|exact Rn]|]. intros d Rd.
  pose proof (mrep_mwf _ _ _ _ _ Rd) as ((Sd & Wd) & Rd1 & Cd & Vd).
  eapply safe_bind; [apply (frobenius_ok rat_spec); exact Wd|]. intros x [Wx Dx]. apply safe_Ok.
  rewrite (eps0 _ _ rat_stab_spec) by exact Wx. rewrite Dx.
  assert (Z : forall y z : QcField, @kadd QcField y (kmul z (den rat_spec m1)) = k0 <-> y = z).
  { intros y z. rewrite Dm. exact (Qc_sub_zero y z). }
  split.
  - intros H. rewrite <- (map_map (den rat_spec) (fun x => @kmul QcField x x)) in H. apply (Qc_sum_sq_zero (map (den rat_spec) (ments d))) in H.
    intros i j Hi Hj. apply Z. rewrite <- (Vd i j Hi Hj). unfold mden, mentry.
    rewrite Forall_map, Forall_forall in H. apply H. apply nth_In. rewrite Sd, Rd1, Cd. apply idx_lt; assumption.
  - intros H. assert (G : forall l : list rat, Forall (fun y => den rat_spec y = @k0 QcField) l ->
        ksum (map (fun y => kmul (den rat_spec y) (den rat_spec y)) l) = @k0 QcField).
    { induction 1 as [|y l Hy _ IH]; [reflexivity|]. unfold ksum in *. cbn [map fold_right]. rewrite IH.
      change (den rat_spec y) with (rat_den y) in *. rewrite Hy. reflexivity. }
    apply G. apply Forall_forall. intros y Hy. destruct (In_nth _ _ (@f0 (rat_impl Debug)) Hy) as (k & Hk & <-).
    rewrite Sd, Rd1, Cd in Hk. destruct (idx_split _ _ _ Hk) as (i & j & Hi & Hj & ->).
    pose proof (Vd i j Hi Hj) as V. unfold mden, mentry in V. rewrite Cd in V. rewrite V.
    apply Z. apply H; assumption.
Qed.
Theorem C58_shapes : forall a b, mwf rat_spec a -> mwf rat_spec b ->
  ~ (mrows a = mrows b /\ mcols a = mcols b) ->
  mat_epsilon_equals (rat_stab Debug) a b = Panic Explicit \/ mat_epsilon_equals (rat_stab Debug) a b = Panic Overflow.
Proof.
  intros a b Wa Wb N. apply mwf_mrep in Wb. unfold mat_epsilon_equals.
  pose proof (sub_ok _ _ rat_spec f0 f1 (wf0 _ _ rat_spec) (wf1 _ _ rat_spec)) as S1.
  destruct (fsub f0 f1) as [m1|[]|]; simpl in S1; try contradiction; [|right; reflexivity].
  destruct S1 as [Wm _]. cbn [bind].
  pose proof (mul_scalar_ok rat_spec _ _ _ _ m1 Wb Wm) as S2.
  destruct (mat_mul_scalar b m1) as [nb|[]|]; simpl in S2; try contradiction; [|right; reflexivity].
  cbn [bind]. apply mrep_mwf in S2. destruct S2 as (Wn & Rn & Cn & _). left.
  rewrite (proj2 (proj1 (C47_panics rat_spec a nb Wa Wn))); [reflexivity|]. rewrite Rn, Cn. exact N.
Qed.

(** ** Concrete cases over Rational *)
Definition ex_r (n d : Z) : rat_impl Debug := mkrat n d : rat_impl Debug.
Definition ex_mat (n m : nat) (l : list (Z * Z)) : mat (rat_impl Debug) :=
  mkmat (map (fun p => ex_r (fst p) (snd p)) l) n m.
Definition ex_mat_okb (a : mat (rat_impl Debug)) : bool :=
  (length (ments a) =? mrows a * mcols a) &&
  forallb (fun x : rat => (0 <? denom x)%Z && (negb (numer x =? 0)%Z || (denom x =? 1)%Z)) (ments a).
Lemma ex_mat_ok a : ex_mat_okb a = true -> mwf rat_spec a.
Proof.
  unfold ex_mat_okb. intros H. apply andb_true_iff in H as [A B]. apply Nat.eqb_eq in A. split; [exact A|].
  apply Forall_forall. intros x Hx. rewrite forallb_forall in B. specialize (B x Hx).
  apply andb_true_iff in B as [B1 B2]. apply Z.ltb_lt in B1. apply orb_true_iff in B2.
  rewrite negb_true_iff, Z.eqb_neq, Z.eqb_eq in B2. split; [exact B1|]. intros E. destruct B2; [contradiction|assumption].
Qed.
Definition ex_m1 := ex_mat 2 3 [(1,1);(2,1);(0,1);(1,2);(-1,3);(5,1)]%Z.
Example C46_index_ex : mat_index_iter ex_m1 = [(0, 0); (0, 1); (0, 2); (1, 0); (1, 1); (1, 2)]. Proof. reflexivity. Qed.
Definition ex_m2 := ex_mat 3 2 [(2,1);(0,1);(1,1);(1,1);(3,1);(-1,1)]%Z.
Example ex_m1_ok : mwf rat_spec ex_m1. Proof. apply ex_mat_ok. reflexivity. Qed.
Example ex_m2_ok : mwf rat_spec ex_m2. Proof. apply ex_mat_ok. reflexivity. Qed.
Example C47_ex : mat_mul ex_m1 ex_m2 = Ok (ex_mat 2 2 [(4,1);(2,1);(47,3);(-16,3)]%Z).
Proof. reflexivity. Qed.
Example C48_ex : mat_replace_row ex_m1 0 1 (ex_r (-1) 2) = Ok (ex_mat 2 3 [(1,1);(2,1);(0,1);(0,1);(-4,3);(5,1)]%Z).
Proof. reflexivity. Qed.
Example C58_ex : mat_epsilon_equals (rat_stab Debug) ex_m1 (ex_mat 2 3 [(1,1);(2,1);(0,1);(2,4);(-1,3);(5,1)]%Z) = Ok true
  /\ mat_epsilon_equals (rat_stab Debug) ex_m1 (mat_zero 2 3) = Ok false
  /\ mat_eqb ex_m1 (ex_mat 2 3 [(1,1);(2,1);(0,1);(2,4);(-1,3);(5,1)]%Z) = false.
Proof. repeat split; reflexivity. Qed.

(** a vector one entry short: the last cell panics, and an index past the end of a row reads the next row *)
Example C46_new_ex : let a := @mat_new (rat_impl Debug) 2 2 [mkrat 1 1; mkrat 2 1; mkrat 3 1] in
  mget a 0 1 = Ok (mkrat 2 1) /\ mget a 1 0 = Ok (mkrat 3 1) /\ mget a 1 1 = Panic IndexOOB /\ mget a 0 2 = Ok (mkrat 3 1).
Proof. repeat split; reflexivity. Qed.

Print Assumptions C46_new.
Print Assumptions C46_identity.
Print Assumptions C46_zero.
Print Assumptions C46_e.
Print Assumptions C46_scale_mat.
Print Assumptions C46_permutation.
Print Assumptions C46_replacement.
Print Assumptions C46_permutation_from_vec.
Print Assumptions C46_from_col_vectors.
Print Assumptions C46_from_row_vectors.
Print Assumptions C46_vectors_panic.
Print Assumptions C46_get_row_col_transpose.
Print Assumptions C46_index_iter.
Print Assumptions C48_scale_row_frame.
Print Assumptions C48_permute_rows_exact.
Print Assumptions C48_replace_row_frame.
Print Assumptions C57_square.
Print Assumptions C57_general.
Print Assumptions C57_nonsquare_refuted.
Print Assumptions C47_add.
Print Assumptions C47_mul.
Print Assumptions C47_scalar.
Print Assumptions C47_panics.
Print Assumptions C47_mul_assoc.
Print Assumptions C47_mul_distrib.
Print Assumptions C47_mul_distrib_r.
Print Assumptions C47_identity_unit.
Print Assumptions C47_transpose_mul.
Print Assumptions C47_transpose_involutive.
Print Assumptions C47_dot_norm.
Print Assumptions C48_scale_row.
Print Assumptions C48_permute_rows.
Print Assumptions C48_replace_row.
Print Assumptions C48_replace_row_same.
Print Assumptions C58_epsilon_equals.
Print Assumptions C58_shapes.
