(** * Proofs about the matrix model. *)
From Verif Require Import Base BaseLemmas FieldIface UtilModel MatModel LinSpec RrefSpec.
From Coq Require Import Field_theory Ring Field.

(** a loop over consecutive indices *)
Lemma foldM_seq_safe {ST : Type} (f : ST -> nat -> res ST) (I : nat -> ST -> Prop) start len s :
  I 0 s -> (forall k s, k < len -> I k s -> safe (f s (start + k)) (I (k + 1))) ->
  safe (foldM f (seq start len) s) (I len).
Proof.
  revert start I s. induction len; intros start I s H0 H; simpl; [exact H0|].
  eapply safe_bind.
  - rewrite <- (Nat.add_0_r start). apply (H 0 s); [lia|exact H0].
  - intros s' Hs. apply (IHlen (1 + start) (fun k => I (S k))).
    + rewrite Nat.add_1_r in Hs. simpl in Hs. exact Hs.
    + intros k s2 Hk Hs2. replace (1 + start + k) with (start + S k) by lia.
      replace (S (k + 1)) with (S k + 1) by lia. apply H; [lia|exact Hs2].
Qed.

Lemma Forall2_nth {A B : Type} (R : A -> B -> Prop) l l' d d' i :
  Forall2 R l l' -> i < length l -> R (nth i l d) (nth i l' d').
Proof.
  intros H; revert i; induction H; intros [|i] Hi; simpl in *; try lia; [assumption|].
  apply IHForall2. lia.
Qed.

(** ** Index pairs *)
Lemma box_length n m : length (get_box_iter n m) = n * m.
Proof.
  assert (G : forall s, length (flat_map (fun r => map (fun c => (r, c)) (seq 0 m)) (seq s n)) = n * m).
  { induction n; intros s; simpl; [reflexivity|].
    rewrite app_length, map_length, seq_length, IHn. lia. }
  apply G.
Qed.
Lemma box_from_nth s n m i j : i < n -> j < m ->
  nth (i * m + j) (flat_map (fun r => map (fun c => (r, c)) (seq 0 m)) (seq s n)) (0, 0) = (s + i, j).
Proof.
  revert s i. induction n; intros s i Hi Hj; [lia|]. simpl.
  destruct i as [|i].
  - simpl. rewrite app_nth1 by (rewrite map_length, seq_length; exact Hj).
    rewrite (nth_indep _ (0,0) (s, 0)) by (rewrite map_length, seq_length; exact Hj).
    rewrite (map_nth (fun c => (s, c))), seq_nth by exact Hj. rewrite Nat.add_0_r. reflexivity.
  - rewrite app_nth2 by (rewrite map_length, seq_length; simpl; lia).
    rewrite map_length, seq_length. replace (S i * m + j - m) with (i * m + j) by (simpl; lia).
    rewrite IHn by lia. f_equal. lia.
Qed.
Lemma box_nth n m i j : i < n -> j < m -> nth (i * m + j) (get_box_iter n m) (0, 0) = (i, j).
Proof. intros. apply (box_from_nth 0); assumption. Qed.
Lemma box_In n m i j : In (i, j) (get_box_iter n m) <-> i < n /\ j < m.
Proof.
  unfold get_box_iter. rewrite in_flat_map. split.
  - intros (r & Hr & H). apply in_map_iff in H. destruct H as (c & E & Hc). inversion E; subst.
    apply in_seq in Hr, Hc. lia.
  - intros [Hi Hj]. exists i. split; [apply in_seq; lia|]. apply in_map. apply in_seq. lia.
Qed.
Lemma idx_lt n m i j : i < n -> j < m -> i * m + j < n * m.
Proof. intros Hi Hj. assert (S i * m <= n * m) by (apply Nat.mul_le_mono_r; lia). simpl in H. lia. Qed.
Lemma idx_inj m i j i' j' : j < m -> j' < m -> i * m + j = i' * m + j' -> i = i' /\ j = j'.
Proof.
  intros Hj Hj' E. assert (i = i').
  { rewrite (Nat.div_unique (i * m + j) m i j) by lia.
    rewrite E. symmetry. apply (Nat.div_unique _ m i' j'); lia. }
  subst. lia.
Qed.
(** every flat index comes from a pair *)
Lemma idx_split n m k : k < n * m -> exists i j, i < n /\ j < m /\ k = i * m + j.
Proof.
  intros H. assert (Hm : m <> 0) by (intros ->; lia).
  exists (k / m), (k mod m). split; [|split].
  - apply Nat.div_lt_upper_bound; [exact Hm|lia].
  - apply Nat.mod_upper_bound. exact Hm.
  - rewrite Nat.mul_comm. apply Nat.div_mod. exact Hm.
Qed.

(** ** Entries *)
Section Entries.
Context {F : FieldImpl}.
Notation mat := (mat F).
Definition mentry (a : mat) (r c : nat) : F := nth (r * mcols a + c) (ments a) f0.
(** as many entries as the dimensions say *)
Definition mshape (a : mat) : Prop := length (ments a) = mrows a * mcols a.

Lemma mget_ok a r c : mshape a -> r < mrows a -> c < mcols a -> mget a r c = Ok (mentry a r c).
Proof.
  intros S Hr Hc. unfold mget, mentry. apply vget_Ok. rewrite S. apply idx_lt; assumption.
Qed.
Lemma mset_ok a r c x : mshape a -> r < mrows a -> c < mcols a ->
  exists a', mset a r c x = Ok a' /\ mshape a' /\ mrows a' = mrows a /\ mcols a' = mcols a /\
    forall i j, i < mrows a -> j < mcols a ->
      mentry a' i j = if (i =? r) && (j =? c) then x else mentry a i j.
Proof.
  intros S Hr Hc. unfold mset.
  assert (L : r * mcols a + c < length (ments a)) by (rewrite S; apply idx_lt; assumption).
  rewrite vset_Ok by exact L. cbn [bind]. eexists. split; [reflexivity|].
  unfold mshape, mentry. cbn [ments mrows mcols]. rewrite list_set_length.
  repeat split; [exact S|]. intros i j Hi Hj.
  rewrite nth_list_set by exact L.
  destruct (Nat.eqb_spec i r) as [->|N1]; cbn [andb].
  - destruct (Nat.eqb_spec j c) as [->|N2]; [rewrite Nat.eqb_refl; reflexivity|].
    destruct (Nat.eqb_spec (r * mcols a + c) (r * mcols a + j)); [lia|reflexivity].
  - destruct (Nat.eqb_spec (r * mcols a + c) (i * mcols a + j)) as [E|_]; [|reflexivity].
    apply idx_inj in E; [lia|assumption|assumption].
Qed.
(** matrices of the same shape with the same entries are the same *)
Lemma mat_ext a b : mshape a -> mshape b -> mrows a = mrows b -> mcols a = mcols b ->
  (forall i j, i < mrows a -> j < mcols a -> mentry a i j = mentry b i j) -> a = b.
Proof.
  destruct a as [ea ra ca], b as [eb rb cb]. unfold mshape, mentry. cbn. intros Sa Sb <- <- H.
  f_equal. apply (nth_ext _ _ f0 f0); [congruence|].
  intros k Hk. rewrite Sa in Hk. destruct (idx_split _ _ _ Hk) as (i & j & Hi & Hj & ->).
  apply H; assumption.
Qed.

Lemma from_fn_shape n m (g : nat -> nat -> F) : mshape (from_fn n m g).
Proof. unfold mshape, from_fn. cbn. rewrite map_length. apply box_length. Qed.
Lemma from_fn_entry n m (g : nat -> nat -> F) i j : i < n -> j < m -> mentry (from_fn n m g) i j = g i j.
Proof.
  intros Hi Hj. unfold mentry, from_fn. cbn [mcols ments].
  rewrite (nth_indep _ f0 (g 0 0)) by (rewrite map_length, box_length; apply idx_lt; assumption).
  rewrite (map_nth (fun p => g (fst p) (snd p)) (get_box_iter n m) (0,0)), box_nth by assumption.
  reflexivity.
Qed.
Lemma from_fnM_safe n m (f : nat -> nat -> res F) (Q : nat -> nat -> F -> Prop) :
  (forall i j, i < n -> j < m -> safe (f i j) (Q i j)) ->
  safe (from_fnM n m f) (fun a => mshape a /\ mrows a = n /\ mcols a = m /\
     forall i j, i < n -> j < m -> Q i j (mentry a i j)).
Proof.
  intros H. unfold from_fnM. eapply safe_bind.
  - apply (mapM_safe _ (fun p x => Q (fst p) (snd p) x)).
    intros [i j] Hin. apply box_In in Hin. apply H; apply Hin.
  - intros es HF. apply safe_Ok. unfold mshape, mentry. cbn [ments mrows mcols].
    pose proof (Forall2_len _ _ _ HF) as L. rewrite box_length in L.
    repeat split; [symmetry; exact L|].
    intros i j Hi Hj. assert (Hk : i * m + j < length (get_box_iter n m)) by (rewrite box_length; apply idx_lt; assumption).
    pose proof (Forall2_nth _ _ _ (0,0) f0 _ HF Hk) as N. rewrite box_nth in N by assumption. exact N.
Qed.
Lemma from_fnM_Ok n m (f : nat -> nat -> res F) (g : nat -> nat -> F) :
  (forall i j, i < n -> j < m -> f i j = Ok (g i j)) -> from_fnM n m f = Ok (from_fn n m g).
Proof.
  intros H. unfold from_fnM, from_fn.
  rewrite (mapM_Ok_intro _ (fun p => g (fst p) (snd p))); [reflexivity|].
  intros [i j] Hin. apply box_In in Hin. apply H; apply Hin.
Qed.

Lemma row_slice_ok a r : mshape a -> r < mrows a ->
  mat_row_slice a r = Ok (map (fun c => mentry a r c) (seq 0 (mcols a))).
Proof.
  intros S Hr. unfold mat_row_slice.
  assert (L : (r + 1) * mcols a <= length (ments a)) by (rewrite S; apply Nat.mul_le_mono_r; lia).
  pose proof L as L'. apply Nat.leb_le in L. rewrite L. f_equal.
  apply (nth_ext _ _ f0 f0).
  - rewrite firstn_length, skipn_length, map_length, seq_length. lia.
  - rewrite firstn_length, skipn_length. intros k Hk. assert (Hk' : k < mcols a) by lia.
    rewrite (nth_indep (map _ _) f0 (mentry a r 0)) by (rewrite map_length, seq_length; exact Hk').
    rewrite (map_nth (fun c => mentry a r c)), seq_nth by exact Hk'. simpl. unfold mentry.
    assert (G : forall (l : list F) s k, nth k (skipn s l) f0 = nth (s + k) l f0).
    { clear. induction l; intros [|s] k; simpl; auto. destruct k; reflexivity. }
    rewrite <- G. clear - Hk'. revert k Hk'. generalize (skipn (r * mcols a) (ments a)). generalize (mcols a).
    induction n; intros l k Hk; [lia|]. destruct l; [reflexivity|]. destruct k; [reflexivity|]. simpl. apply IHn. lia.
Qed.
Lemma col_list_ok a c : mshape a -> c < mcols a ->
  mat_col_list a c = Ok (map (fun r => mentry a r c) (seq 0 (mrows a))).
Proof.
  intros S Hc. apply mapM_Ok_intro. intros r Hr. apply in_seq in Hr. apply mget_ok; [exact S|lia|exact Hc].
Qed.
End Entries.

(** ** Values *)
Section Values.
Context {F : FieldImpl} {K : MathField} (FS : FieldSpec F K).
Add Field Kf12 : (kth K).
Notation mat := (mat F).
Notation fmat := (nat -> nat -> K).
Notation wf := (fwf FS).
Notation dn := (den FS).

(** [mrep a n m A]: [a] is a well-formed n x m matrix whose entries stand for [A] *)
Definition mrep (a : mat) (n m : nat) (A : fmat) : Prop :=
  mshape a /\ mrows a = n /\ mcols a = m /\
  forall i j, i < n -> j < m -> wf (mentry a i j) /\ dn (mentry a i j) = A i j.
Definition mden (a : mat) : fmat := fun i j => dn (mentry a i j).
(** well formed: the right number of entries, all well formed *)
Definition mwf (a : mat) : Prop := mshape a /\ Forall wf (ments a).

Lemma mwf_mrep a : mwf a -> mrep a (mrows a) (mcols a) (mden a).
Proof.
  intros [S W]. split; [exact S|]. split; [reflexivity|]. split; [reflexivity|].
  intros i j Hi Hj. split; [|reflexivity].
  unfold mentry. rewrite Forall_forall in W. apply W, nth_In. rewrite S. apply idx_lt; assumption.
Qed.
Lemma mrep_mwf a n m A : mrep a n m A -> mwf a /\ mrows a = n /\ mcols a = m /\ meq n m (mden a) A.
Proof.
  intros (S & <- & <- & H). split; [split; [exact S|]|split; [reflexivity|split; [reflexivity|]]].
  - apply Forall_forall. intros x Hx. destruct (In_nth _ _ f0 Hx) as (k & Hk & <-).
    rewrite S in Hk. destruct (idx_split _ _ _ Hk) as (i & j & Hi & Hj & ->). apply H; assumption.
  - intros i j Hi Hj. apply H; assumption.
Qed.
Lemma mrep_ext a n m A B : mrep a n m A -> meq n m A B -> mrep a n m B.
Proof.
  intros (S & R & C & H) E. repeat split; try assumption; [apply H; assumption|].
  rewrite <- E by assumption. apply H; assumption.
Qed.
Lemma mrep_get a n m A r c : mrep a n m A -> r < n -> c < m ->
  exists x, mget a r c = Ok x /\ wf x /\ dn x = A r c /\ x = mentry a r c.
Proof.
  intros (S & <- & <- & H) Hr Hc. exists (mentry a r c). split; [apply mget_ok; assumption|].
  destruct (H r c Hr Hc) as [W D]. auto.
Qed.
Lemma mrep_set a n m A r c x : mrep a n m A -> r < n -> c < m -> wf x ->
  exists a', mset a r c x = Ok a' /\
    mrep a' n m (fun i j => if (i =? r) && (j =? c) then dn x else A i j).
Proof.
  intros (S & <- & <- & H) Hr Hc W. destruct (mset_ok a r c x S Hr Hc) as (a' & E & S' & R' & C' & N).
  exists a'. split; [exact E|]. split; [exact S'|]. split; [exact R'|]. split; [exact C'|].
  intros i j Hi Hj. rewrite N by assumption.
  destruct ((i =? r) && (j =? c)); [auto|apply H; assumption].
Qed.
Lemma mrep_get_safe a n m A r c (B : Type) (f : F -> res B) (Q : B -> Prop) : mrep a n m A -> r < n -> c < m ->
  (forall x, wf x -> dn x = A r c -> safe (f x) Q) -> safe (bind (mget a r c) f) Q.
Proof.
  intros R Hr Hc H. destruct (mrep_get a n m A r c R Hr Hc) as (x & -> & W & D & _). simpl. apply H; assumption.
Qed.
Lemma mrep_set_safe a n m A r c x (Q : mat -> Prop) : mrep a n m A -> r < n -> c < m -> wf x ->
  (forall a', mrep a' n m (fun i j => if (i =? r) && (j =? c) then dn x else A i j) -> Q a') ->
  safe (mset a r c x) Q.
Proof.
  intros R Hr Hc W H. destruct (mrep_set a n m A r c x R Hr Hc W) as (a' & -> & R'). apply H. exact R'.
Qed.

Ltac eqb := repeat match goal with
  | |- context [?x =? ?y] => destruct (Nat.eqb_spec x y); subst
  | |- context [?x <? ?y] => destruct (Nat.ltb_spec x y); subst
  end; cbn [andb orb negb]; try congruence; try lia.

(** *** Row operations *)
Lemma scale_row_ok a n m A i s : mrep a n m A -> i < n -> wf s ->
  safe (mat_scale_row a i s) (fun a' => mrep a' n m (op_scale i (dn s) A)).
Proof.
  intros R Hi W. unfold mat_scale_row. pose proof R as (S & Ra & Ca & H). rewrite Ca.
  eapply safe_mono.
  - apply (foldM_seq_safe _ (fun k a' => mrep a' n m
      (fun r c => if (r =? i) && (c <? k) then kmul (dn s) (A r c) else A r c))).
    + eapply mrep_ext; [exact R|].
      intros r c _ _. eqb.
    + intros k a' Hk R'. rewrite Nat.add_0_l.
      eapply mrep_get_safe; [exact R'|exact Hi|exact Hk|]. intros x Wx Dx.
      eapply safe_bind; [apply (mul_ok _ _ FS); [exact W|exact Wx]|]. intros y [Wy Dy].
      eapply mrep_set_safe; [exact R'|exact Hi|exact Hk|exact Wy|]. intros a2 R2.
      eapply mrep_ext; [exact R2|]. intros r c Hr Hc. rewrite Dy, Dx. eqb.
  - intros a' R'. eapply mrep_ext; [exact R'|]. intros r c Hr Hc. unfold op_scale. eqb.
Qed.
Lemma permute_rows_ok a n m A s t : mrep a n m A -> s < n -> t < n ->
  exists a', mat_permute_rows a s t = Ok a' /\ mrep a' n m (op_swap s t A).
Proof.
  intros R Hs Ht. unfold mat_permute_rows. pose proof R as (S & Ra & Ca & H). rewrite Ca.
  assert (G : forall k, k <= m -> exists a',
     foldM (fun a c => temp <- mget a s c ;; y <- mget a t c ;; a1 <- mset a s c y ;; mset a1 t c temp) (seq 0 k) a = Ok a'
     /\ mrep a' n m (fun r c => if c <? k then op_swap s t A r c else A r c)).
  { induction k; intros Hk.
    - exists a. split; [reflexivity|]. eapply mrep_ext; [exact R|]. intros r c _ _. eqb.
    - destruct IHk as (a1 & E1 & R1); [lia|]. rewrite seq_S, foldM_app, E1. cbn [bind foldM].
      rewrite Nat.add_0_l.
      destruct (mrep_get _ _ _ _ s k R1 Hs Hk) as (x & -> & Wx & Dx & _).
      destruct (mrep_get _ _ _ _ t k R1 Ht Hk) as (y & -> & Wy & Dy & _). cbn [bind].
      destruct (mrep_set _ _ _ _ s k y R1 Hs Hk Wy) as (a2 & -> & R2). cbn [bind].
      destruct (mrep_set _ _ _ _ t k x R2 Ht Hk Wx) as (a3 & -> & R3). cbn [bind].
      exists a3. split; [reflexivity|]. eapply mrep_ext; [exact R3|].
      rewrite Nat.ltb_irrefl in Dx, Dy. unfold op_swap. intros r c Hr Hc. rewrite Dx, Dy. eqb. }
  destruct (G m (le_n _)) as (a' & E & R'). exists a'. split; [exact E|].
  eapply mrep_ext; [exact R'|]. intros r c Hr Hc. eqb.
Qed.
Lemma replace_row_ok a n m A s t x : mrep a n m A -> s < n -> t < n -> wf x ->
  safe (mat_replace_row a s t x) (fun a' => mrep a' n m (op_repl s t (dn x) A)).
Proof.
  intros R Hs Ht W. unfold mat_replace_row. pose proof R as (S & Ra & Ca & H). rewrite Ca.
  eapply safe_mono.
  - apply (foldM_seq_safe _ (fun k a' => mrep a' n m
      (fun r c => if c <? k then op_repl s t (dn x) A r c else A r c))).
    + eapply mrep_ext; [exact R|]. intros r c _ _. eqb.
    + intros k a' Hk R'. rewrite Nat.add_0_l.
      eapply mrep_get_safe; [exact R'|exact Ht|exact Hk|]. intros y Wy Dy.
      eapply mrep_get_safe; [exact R'|exact Hs|exact Hk|]. intros z Wz Dz.
      eapply safe_bind; [apply (mul_ok _ _ FS); [exact Wz|exact W]|]. intros p [Wp Dp].
      eapply safe_bind; [apply (add_ok _ _ FS); [exact Wy|exact Wp]|]. intros v [Wv Dv].
      eapply mrep_set_safe; [exact R'|exact Ht|exact Hk|exact Wv|]. intros a2 R2.
      eapply mrep_ext; [exact R2|]. cbv beta in Dy, Dz. rewrite Nat.ltb_irrefl in Dy, Dz.
      intros r c Hr Hc. rewrite Dv, Dp, Dy, Dz. unfold op_repl. eqb.
  - intros a' R'. eapply mrep_ext; [exact R'|]. intros r c Hr Hc. eqb.
Qed.

(** *** Constructors *)
Lemma mrep_from_fn n m (g : nat -> nat -> F) : (forall i j, i < n -> j < m -> wf (g i j)) ->
  mrep (from_fn n m g) n m (fun i j => dn (g i j)).
Proof.
  intros W. repeat split; try apply from_fn_shape; rewrite from_fn_entry by assumption; auto.
Qed.
Lemma identity_ok n : mrep (mat_identity n) n n mid.
Proof.
  unfold mat_identity. eapply mrep_ext.
  - apply mrep_from_fn. intros i j _ _. destruct (i =? j); [apply (wf1 _ _ FS)|apply (wf0 _ _ FS)].
  - intros i j _ _. unfold mid. cbv beta. destruct (i =? j); [apply (den1 _ _ FS)|apply (den0 _ _ FS)].
Qed.
Lemma zero_ok n m : mrep (mat_zero n m) n m (fun _ _ => k0).
Proof.
  unfold mat_zero. eapply mrep_ext.
  - apply mrep_from_fn. intros i j _ _. apply (wf0 _ _ FS).
  - intros i j _ _. apply (den0 _ _ FS).
Qed.
Lemma e_ok k n : mrep (mat_e k n) n 1 (fun i _ => if i =? k then k1 else k0).
Proof.
  unfold mat_e. unfold mrep, mshape, mentry. cbn. rewrite map_length, seq_length.
  repeat split; [lia| |]; intros; assert (j = 0) by lia; subst; rewrite Nat.mul_1_r, Nat.add_0_r;
  rewrite (nth_indep _ f0 (if 0 =? k then f1 else f0)) by (rewrite map_length, seq_length; lia);
  rewrite (map_nth (fun r => if r =? k then f1 else f0)), seq_nth by lia; simpl (0 + i);
  destruct (i =? k); apply FS.
Qed.
Lemma scale_mat_ok n i s : wf s -> mrep (mat_scale_mat n i s) n n (op_scale i (dn s) mid).
Proof.
  intros W. unfold mat_scale_mat. eapply mrep_ext.
  - apply mrep_from_fn. intros r c _ _. cbv beta. destruct (r =? c), (r =? i); cbn [andb]; try assumption; apply FS.
  - intros r c _ _. cbv beta. unfold op_scale, mid.
    destruct (r =? c), (r =? i); cbn [andb]; rewrite ?(den0 _ _ FS), ?(den1 _ _ FS); ring.
Qed.
Lemma permutation_ok n s t : mrep (mat_permutation n s t) n n (op_swap s t mid).
Proof.
  unfold mat_permutation. eapply mrep_ext.
  - apply mrep_from_fn. intros r c _ _. cbv beta. destruct (_ || _); apply FS.
  - intros r c _ _. cbv beta. unfold op_swap, mid.
    eqb; rewrite ?(den0 _ _ FS), ?(den1 _ _ FS); reflexivity.
Qed.
Lemma replacement_ok n s t x : wf x -> s <> t -> mrep (mat_replacement n s t x) n n (op_repl s t (dn x) mid).
Proof.
  intros W N. unfold mat_replacement. eapply mrep_ext.
  - apply mrep_from_fn. intros r c _ _. cbv beta. destruct (_ && _); [exact W|destruct (r =? c); apply FS].
  - intros r c _ _. cbv beta. unfold op_repl, mid.
    eqb; rewrite ?(den0 _ _ FS), ?(den1 _ _ FS); ring.
Qed.
Lemma permutation_from_vec_ok p n : length p = n ->
  exists a, mat_permutation_from_vec p = Ok a /\
    mrep a n n (fun r c => if nth r p 0 =? c then k1 else k0).
Proof.
  intros L. unfold mat_permutation_from_vec. rewrite L.
  rewrite (from_fnM_Ok n n _ (fun r c => if nth r p 0 =? c then f1 else f0)).
  - eexists. split; [reflexivity|]. eapply mrep_ext.
    + apply mrep_from_fn. intros r c _ _. cbv beta. destruct (_ =? _); apply FS.
    + intros r c _ _. cbv beta. destruct (_ =? _); apply FS.
  - intros i j Hi Hj. rewrite (vget_Ok _ _ 0) by lia. reflexivity.
Qed.
Lemma transpose_ok a n m A : mrep a n m A -> exists a', mat_transpose a = Ok a' /\ mrep a' m n (mtrans A).
Proof.
  intros (S & Ra & Ca & H). unfold mat_transpose. rewrite Ra, Ca.
  rewrite (from_fnM_Ok m n _ (fun c r => mentry a r c)).
  - eexists. split; [reflexivity|]. repeat split; try apply from_fn_shape;
    rewrite from_fn_entry by assumption; apply H; assumption.
  - intros i j Hi Hj. apply mget_ok; [exact S|lia|lia].
Qed.
Lemma from_col_vectors_ok vs n : vs <> [] -> Forall (fun v => exists A, mrep v n 1 A) vs ->
  exists a, mat_from_col_vectors vs = Ok a /\
    mrep a n (length vs) (fun i j => mden (nth j vs (mkmat [] 0 0)) i 0).
Proof.
  intros N H. unfold mat_from_col_vectors. destruct vs as [|v0 vs]; [congruence|].
  change (vget (v0 :: vs) 0) with (@Ok mat v0). cbn [bind].
  assert (R0 : mrows v0 = n) by (inversion H as [|? ? [A R] _]; apply R). rewrite R0.
  set (l := v0 :: vs) in *.
  rewrite (from_fnM_Ok n (length l) _ (fun r c => mentry (nth c l (mkmat [] 0 0)) r 0)).
  - eexists. split; [reflexivity|]. repeat split; try apply from_fn_shape;
    rewrite from_fn_entry by assumption; try reflexivity.
    rewrite Forall_forall in H. destruct (H (nth j l (mkmat [] 0 0)) (nth_In _ _ H1)) as [A R].
    apply R; lia.
  - intros i j Hi Hj. rewrite (vget_Ok _ _ (mkmat [] 0 0)) by exact Hj. cbn [bind].
    rewrite Forall_forall in H. destruct (H (nth j l (mkmat [] 0 0)) (nth_In _ _ Hj)) as [A (S & R & C & _)].
    apply mget_ok; [exact S|lia|lia].
Qed.
Lemma from_row_vectors_ok vs n : vs <> [] -> Forall (fun v => exists A, mrep v n 1 A) vs ->
  exists a, mat_from_row_vectors vs = Ok a /\
    mrep a (length vs) n (fun i j => mden (nth i vs (mkmat [] 0 0)) j 0).
Proof.
  intros N H. unfold mat_from_row_vectors. destruct vs as [|v0 vs]; [congruence|].
  change (vget (v0 :: vs) 0) with (@Ok mat v0). cbn [bind].
  assert (R0 : mrows v0 = n) by (inversion H as [|? ? [A R] _]; apply R). rewrite R0.
  set (l := v0 :: vs) in *.
  rewrite (from_fnM_Ok (length l) n _ (fun r c => mentry (nth r l (mkmat [] 0 0)) c 0)).
  - eexists. split; [reflexivity|]. repeat split; try apply from_fn_shape;
    rewrite from_fn_entry by assumption; try reflexivity.
    rewrite Forall_forall in H. destruct (H (nth i l (mkmat [] 0 0)) (nth_In _ _ H0)) as [A R].
    apply R; lia.
  - intros i j Hi Hj. rewrite (vget_Ok _ _ (mkmat [] 0 0)) by exact Hi. cbn [bind].
    rewrite Forall_forall in H. destruct (H (nth i l (mkmat [] 0 0)) (nth_In _ _ Hi)) as [A (S & R & C & _)].
    apply mget_ok; [exact S|lia|lia].
Qed.
Lemma mrep_from_iter (l : list F) : Forall wf l ->
  mrep (mat_from_iter l) (length l) 1 (fun i _ => dn (nth i l f0)).
Proof.
  intros W. unfold mat_from_iter, mrep, mshape, mentry. cbn. rewrite Nat.mul_1_r.
  repeat split; assert (j = 0) by lia; subst; rewrite Nat.mul_1_r, Nat.add_0_r; [|reflexivity].
  rewrite Forall_forall in W. apply W, nth_In. assumption.
Qed.
Lemma nth_map_seq {B : Type} (f : nat -> B) s n i d : i < n -> nth i (map f (seq s n)) d = f (s + i).
Proof.
  intros H. rewrite (nth_indep _ d (f 0)) by (rewrite map_length, seq_length; exact H).
  rewrite map_nth, seq_nth by exact H. reflexivity.
Qed.
Lemma get_col_ok a n m A c : mrep a n m A -> c < m ->
  exists v, mat_get_col a c = Ok v /\ mrep v n 1 (fun i _ => A i c).
Proof.
  intros (S & Ra & Ca & H) Hc. unfold mat_get_col. rewrite col_list_ok by (try assumption; lia). cbn [bind].
  eexists. split; [reflexivity|]. rewrite Ra.
  pose proof (mrep_from_iter (map (fun r => mentry a r c) (seq 0 n))) as P. rewrite map_length, seq_length in P.
  eapply mrep_ext.
  - apply P. apply Forall_forall. intros x Hx. apply in_map_iff in Hx.
    destruct Hx as (r & <- & Hr). apply in_seq in Hr. apply H; lia.
  - intros i j Hi Hj. cbv beta. rewrite nth_map_seq by exact Hi. apply H; assumption.
Qed.
Lemma get_row_ok a n m A r : mrep a n m A -> r < n ->
  exists v, mat_get_row a r = Ok v /\ mrep v m 1 (fun i _ => A r i).
Proof.
  intros (S & Ra & Ca & H) Hr. unfold mat_get_row. rewrite row_slice_ok by (try assumption; lia). cbn [bind].
  eexists. split; [reflexivity|]. rewrite Ca.
  pose proof (mrep_from_iter (map (fun c => mentry a r c) (seq 0 m))) as P. rewrite map_length, seq_length in P.
  eapply mrep_ext.
  - apply P. apply Forall_forall. intros x Hx. apply in_map_iff in Hx.
    destruct Hx as (c & <- & Hc). apply in_seq in Hc. apply H; lia.
  - intros i j Hi Hj. cbv beta. rewrite nth_map_seq by exact Hi. apply H; assumption.
Qed.

(** *** Arithmetic *)
Lemma mrep_entrywise a n m A (f : F -> res F) (g : K -> K) : mrep a n m A ->
  (forall x, wf x -> safe (f x) (fun y => wf y /\ dn y = g (dn x))) ->
  safe (es <- mapM f (ments a) ;; Ok (mkmat es (mrows a) (mcols a))) (fun a' => mrep a' n m (fun i j => g (A i j))).
Proof.
  intros R Hf. pose proof (mrep_mwf _ _ _ _ R) as ((S & W) & Ra & Ca & E). rewrite Forall_forall in W.
  eapply safe_bind.
  - apply (mapM_safe _ (fun x y => wf y /\ dn y = g (dn x))). intros x Hx. apply Hf, W, Hx.
  - intros es HF. apply safe_Ok. pose proof (Forall2_len _ _ _ HF) as L.
    unfold mrep, mshape, mentry. cbn [ments mrows mcols]. subst n m. unfold mshape in S.
    repeat split; try (rewrite <- L; exact S).
    + apply (Forall2_nth _ _ _ f0 f0 _ HF). rewrite S. apply idx_lt; assumption.
    + destruct (Forall2_nth _ _ _ f0 f0 (i * mcols a + j) HF) as [_ ->].
      * rewrite S. apply idx_lt; assumption.
      * f_equal. apply E; assumption.
Qed.
Lemma mul_scalar_ok a n m A s : mrep a n m A -> wf s ->
  safe (mat_mul_scalar a s) (fun a' => mrep a' n m (fun i j => kmul (A i j) (dn s))).
Proof.
  intros R W. unfold mat_mul_scalar. apply (mrep_entrywise a n m A _ (fun x => kmul x (dn s)) R).
  intros x Wx. apply (mul_ok _ _ FS); assumption.
Qed.
Lemma add_mat_ok a b n m A B : mrep a n m A -> mrep b n m B ->
  safe (mat_add a b) (fun a' => mrep a' n m (fun i j => kadd (A i j) (B i j))).
Proof.
  intros (Sa & Ra & Ca & Ha) (Sb & Rb & Cb & Hb). unfold mat_add.
  rewrite Ra, Rb, Ca, Cb, !Nat.eqb_refl. cbn [andb].
  assert (La : length (ments a) = n * m) by (unfold mshape in Sa; rewrite Sa, Ra, Ca; reflexivity).
  assert (Lb : length (ments b) = n * m) by (unfold mshape in Sb; rewrite Sb, Rb, Cb; reflexivity).
  assert (N : forall k, k < n * m -> nth k (combine (ments a) (ments b)) (f0, f0) = (nth k (ments a) f0, nth k (ments b) f0)).
  { intros k Hk. apply combine_nth. congruence. }
  assert (W : forall k, k < n * m -> wf (nth k (ments a) f0) /\ wf (nth k (ments b) f0)).
  { intros k Hk. destruct (idx_split _ _ _ Hk) as (i & j & Hi & Hj & ->).
    destruct (Ha i j Hi Hj), (Hb i j Hi Hj). unfold mentry in *. rewrite Ca in *. rewrite Cb in *. auto. }
  eapply safe_bind.
  - apply (mapM_safe _ (fun p y => wf y /\ dn y = kadd (dn (fst p)) (dn (snd p)))).
    intros p Hp. destruct (In_nth _ _ (f0,f0) Hp) as (k & Hk & <-).
    rewrite combine_length, La, Lb, Nat.min_id in Hk. rewrite N by exact Hk. cbn [fst snd].
    apply (add_ok _ _ FS); apply W; exact Hk.
  - intros es HF. apply safe_Ok. pose proof (Forall2_len _ _ _ HF) as L.
    rewrite combine_length, La, Lb, Nat.min_id in L.
    unfold mrep, mshape, mentry. cbn [ments mrows mcols].
    split; [congruence|]. split; [reflexivity|]. split; [reflexivity|].
    intros i j Hi Hj. pose proof (idx_lt _ _ _ _ Hi Hj) as Hk.
    assert (Hk' : i * m + j < length (combine (ments a) (ments b))) by (rewrite combine_length, La, Lb, Nat.min_id; exact Hk).
    pose proof (Forall2_nth _ _ _ (f0,f0) f0 _ HF Hk') as [W1 D1]. split; [exact W1|]. rewrite D1.
    rewrite N by exact Hk. cbn [fst snd]. destruct (Ha i j Hi Hj) as [_ Da], (Hb i j Hi Hj) as [_ Db].
    unfold mentry in Da, Db. rewrite Ca in Da. rewrite Cb in Db. rewrite Da, Db. reflexivity.
Qed.
Lemma mat_mul_ok a b n k m A B : mrep a n k A -> mrep b k m B ->
  safe (mat_mul a b) (fun a' => mrep a' n m (mmul k A B)).
Proof.
  intros Ra Rb. unfold mat_mul. destruct Ra as (Sa & Rwa & Ca & Ha). pose proof Rb as (Sb & Rwb & Cb & Hb).
  rewrite Rwa, Rwb, Ca, Cb, Nat.eqb_refl.
  eapply safe_mono.
  - apply (from_fnM_safe _ _ _ (fun i j x => wf x /\ dn x = mmul k A B i j)).
    intros i j Hi Hj. rewrite row_slice_ok by (try assumption; lia). cbn [bind]. rewrite Ca.
    assert (E : combine (map (fun c => mentry a i c) (seq 0 k)) (seq 0 k) = map (fun c => (mentry a i c, c)) (seq 0 k)).
    { clear. generalize 0. induction k; intros s; simpl; [reflexivity|]. rewrite IHk. reflexivity. }
    rewrite E.
    assert (G : forall s acc len, wf acc -> s + len <= k -> dn acc = sumn s (fun l => kmul (A i l) (B l j)) ->
      safe (foldM (fun acc p => y <- mget b (snd p) j ;; q <- fmul (fst p) y ;; fadd acc q)
           (map (fun c => (mentry a i c, c)) (seq s len)) acc)
        (fun x => wf x /\ dn x = sumn (s + len) (fun l => kmul (A i l) (B l j)))).
    { intros s acc len; revert s acc. induction len; intros s acc W L D; simpl.
      - rewrite Nat.add_0_r. auto.
      - rewrite bind_assoc. eapply mrep_get_safe; [exact Rb|lia|exact Hj|]. intros y Wy Dy.
        rewrite bind_assoc. destruct (Ha i s Hi ltac:(lia)) as [Wx Dx].
        eapply safe_bind; [apply (mul_ok _ _ FS); [exact Wx|exact Wy]|]. intros q [Wq Dq].
        eapply safe_bind; [apply (add_ok _ _ FS); [exact W|exact Wq]|]. intros z [Wz Dz].
        rewrite Nat.add_succ_r. apply (IHlen (S s)); [exact Wz|lia|].
        rewrite Dz, D, Dq, Dx, Dy. reflexivity. }
    apply (G 0 f0 k); [apply FS|lia|apply (den0 _ _ FS)].
  - intros x (S & R & C & H). repeat split; try assumption; apply H; assumption.
Qed.
(** sums of products, as used by frobenius_norm and dot *)
Lemma fold_products_ok (l : list (F * F)) acc : wf acc -> Forall (fun p => wf (fst p) /\ wf (snd p)) l ->
  safe (foldM (fun acc p => q <- fmul (fst p) (snd p) ;; fadd acc q) l acc)
    (fun x => wf x /\ dn x = kadd (dn acc) (ksum (map (fun p => kmul (dn (fst p)) (dn (snd p))) l))).
Proof.
  revert acc. induction l as [|p l IH]; intros acc W H; simpl.
  - split; [exact W|]. unfold ksum. simpl. ring.
  - inversion H as [|? ? [W1 W2] HF]; subst. rewrite bind_assoc.
    eapply safe_bind; [apply (mul_ok _ _ FS); assumption|]. intros q [Wq Dq].
    eapply safe_bind; [apply (add_ok _ _ FS); assumption|]. intros z [Wz Dz].
    eapply safe_mono; [apply IH; assumption|]. intros x [Wx Dx]. split; [exact Wx|].
    rewrite Dx, Dz, Dq. unfold ksum. simpl. ring.
Qed.
Lemma frobenius_ok a : Forall wf (ments a) ->
  safe (mat_frobenius a) (fun x => wf x /\ dn x = ksum (map (fun y => kmul (dn y) (dn y)) (ments a))).
Proof.
  intros W. unfold mat_frobenius.
  assert (E : forall l acc, foldM (fun acc x => p <- fmul x x ;; fadd acc p) l acc
     = foldM (fun acc p => q <- fmul (fst p) (snd p) ;; fadd (acc : F) q) (map (fun x => (x, x)) l) acc).
  { induction l; intros acc; simpl; [reflexivity|]. rewrite !bind_assoc. cbn [fst snd]. destruct (fmul _ _) as [z| |]; simpl; try reflexivity.
    destruct (fadd acc z); simpl; try reflexivity. apply IHl. }
  rewrite E. eapply safe_mono.
  - apply fold_products_ok; [apply FS|]. rewrite Forall_map. eapply Forall_impl; [|exact W]. simpl. auto.
  - intros x [Wx Dx]. split; [exact Wx|]. rewrite Dx, (den0 _ _ FS), map_map. simpl. ring.
Qed.
Lemma dot_ok a b : Forall wf (ments a) -> Forall wf (ments b) ->
  safe (mat_dot a b) (fun x => wf x /\
    dn x = ksum (map (fun p => kmul (dn (fst p)) (dn (snd p))) (combine (ments a) (ments b)))).
Proof.
  intros Wa Wb. unfold mat_dot. eapply safe_mono.
  - apply fold_products_ok; [apply FS|]. apply Forall_forall. intros [x y] H.
    rewrite Forall_forall in Wa, Wb. split; [apply Wa; eapply in_combine_l; eassumption|apply Wb; eapply in_combine_r; eassumption].
  - intros x [Wx Dx]. split; [exact Wx|]. rewrite Dx, (den0 _ _ FS). ring.
Qed.
Lemma ksum_seq n (f : nat -> K) s : ksum (map f (seq s n)) = sumn n (fun i => f (s + i)).
Proof.
  unfold ksum. revert s. induction n; intros s; [reflexivity|].
  rewrite sumn_S_first, Nat.add_0_r. cbn [seq map fold_right]. rewrite IHn. f_equal.
  apply sumn_ext. intros i _. f_equal. lia.
Qed.
(** the dot product of two column vectors *)
Lemma dot_vec_ok a b n A B : mrep a n 1 A -> mrep b n 1 B ->
  safe (mat_dot a b) (fun x => wf x /\ dn x = sumn n (fun i => kmul (A i 0) (B i 0))).
Proof.
  intros Ra Rb. pose proof (mrep_mwf _ _ _ _ Ra) as ((Sa & Wa) & Ra1 & Ca & Ea).
  pose proof (mrep_mwf _ _ _ _ Rb) as ((Sb & Wb) & Rb1 & Cb & Eb).
  eapply safe_mono; [apply dot_ok; assumption|]. intros x [Wx Dx]. split; [exact Wx|]. rewrite Dx.
  assert (La : length (ments a) = n) by (unfold mshape in Sa; rewrite Sa, Ra1, Ca; lia).
  assert (Lb : length (ments b) = n) by (unfold mshape in Sb; rewrite Sb, Rb1, Cb; lia).
  assert (E : combine (ments a) (ments b) = map (fun i => (nth i (ments a) f0, nth i (ments b) f0)) (seq 0 n)).
  { apply (nth_ext _ _ (f0,f0) (f0,f0)).
    - rewrite combine_length, map_length, seq_length. lia.
    - rewrite combine_length. intros k Hk. rewrite combine_nth by congruence.
      rewrite nth_map_seq by lia. reflexivity. }
  rewrite E, map_map, ksum_seq. apply sumn_ext. intros i Hi. cbn [fst snd]. simpl (0 + i).
  specialize (Ea i 0 Hi (Nat.lt_0_succ _)). specialize (Eb i 0 Hi (Nat.lt_0_succ _)).
  unfold mden, mentry in Ea, Eb. rewrite Ca in Ea. rewrite Cb in Eb.
  rewrite Nat.mul_1_r, Nat.add_0_r in Ea, Eb. rewrite Ea, Eb. reflexivity.
Qed.

(** *** Triangularity tests *)
Lemma all_zero_at_ok a n m A ps : mrep a n m A -> (forall p, In p ps -> fst p < n /\ snd p < m) ->
  exists t, all_zero_at a ps = Ok t /\ (t = true <-> forall p, In p ps -> A (fst p) (snd p) = k0).
Proof.
  intros R. induction ps as [|p ps IH]; intros H; simpl.
  - exists true. split; [reflexivity|]. split; [intros _ p []|reflexivity].
  - destruct (H p (or_introl eq_refl)) as [H1 H2].
    destruct (mrep_get _ _ _ _ _ _ R H1 H2) as (x & -> & Wx & Dx & _). cbn [bind].
    destruct (feqb x f0) eqn:E.
    + apply (eqb0 _ _ FS) in E; [|exact Wx].
      destruct (IH (fun q Hq => H q (or_intror Hq))) as (t & -> & Ht). exists t. split; [reflexivity|]. rewrite Ht. split.
      * intros G q [<-|Hq]; [congruence|auto].
      * auto.
    + exists false. split; [reflexivity|]. split; [discriminate|]. intros G. exfalso.
      specialize (G p (or_introl eq_refl)). rewrite <- Dx in G. apply (eqb0 _ _ FS) in G; [congruence|exact Wx].
Qed.
Lemma is_upper_ok a n m A : mrep a n m A ->
  exists t, mat_is_upper a = Ok t /\ (t = true <-> forall i j, i < n -> j < m -> j < i -> A i j = k0).
Proof.
  intros R. pose proof R as (_ & Ra & Ca & _). unfold mat_is_upper. rewrite Ra, Ca.
  destruct (all_zero_at_ok a n m A (flat_map (fun r => map (fun c => (r, c)) (seq 0 (Nat.min r m))) (seq 0 n)) R)
    as (t & -> & Ht).
  - intros p Hp. apply in_flat_map in Hp. destruct Hp as (r & Hr & Hp). apply in_map_iff in Hp.
    destruct Hp as (c & <- & Hc). apply in_seq in Hr, Hc. cbn. lia.
  - exists t. split; [reflexivity|]. rewrite Ht. split.
    + intros H i j Hi Hj L. apply (H (i, j)). apply in_flat_map. exists i. split; [apply in_seq; lia|].
      apply in_map. apply in_seq. lia.
    + intros H p Hp. apply in_flat_map in Hp. destruct Hp as (r & Hr & Hp). apply in_map_iff in Hp.
      destruct Hp as (c & <- & Hc). apply in_seq in Hr, Hc. apply H; cbn; lia.
Qed.
Lemma is_lower_ok a n m A : mrep a n m A ->
  exists t, mat_is_lower a = Ok t /\ (t = true <-> forall i j, i < n -> j < m -> i < j -> A i j = k0).
Proof.
  intros R. pose proof R as (_ & Ra & Ca & _). unfold mat_is_lower. rewrite Ra, Ca. cbv zeta.
  destruct (all_zero_at_ok a n m A (flat_map (fun r => map (fun c => (r, c)) (seq (Nat.min r m + 1) (m - (Nat.min r m + 1)))) (seq 0 n)) R)
    as (t & -> & Ht).
  - intros p Hp. apply in_flat_map in Hp. destruct Hp as (r & Hr & Hp). apply in_map_iff in Hp.
    destruct Hp as (c & <- & Hc). apply in_seq in Hr, Hc. cbn. lia.
  - exists t. split; [reflexivity|]. rewrite Ht. split.
    + intros H i j Hi Hj L. apply (H (i, j)). apply in_flat_map. exists i. split; [apply in_seq; lia|].
      apply in_map. apply in_seq. lia.
    + intros H p Hp. apply in_flat_map in Hp. destruct Hp as (r & Hr & Hp). apply in_map_iff in Hp.
      destruct Hp as (c & <- & Hc). apply in_seq in Hr, Hc. apply H; cbn; lia.
Qed.

End Values.
