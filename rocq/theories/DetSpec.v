(** * Determinants.

    Pure mathematics; nothing here mentions the code.  The determinant is defined by expansion along the first column. *)
From Verif Require Import Base FieldIface LinSpec.
From Coq Require Import List Arith Lia Field_theory Ring Field Setoid Permutation Sorted.
Import ListNotations.
Local Open Scope nat_scope.

Section Det.
Context {K : MathField}.
Add Field Kf36 : (kth K).
Notation vec := (nat -> K).
Notation fmat := (nat -> nat -> K).

Definition skip (i r : nat) : nat := if r <? i then r else S r.
(** without row [i] and the first column *)
Definition minor (i : nat) (a : fmat) : fmat := fun r c => a (skip i r) (S c).
Definition alt (i : nat) : K := if Nat.even i then k1 else kopp k1.
Fixpoint det (n : nat) (a : fmat) : K :=
  match n with O => k1 | S n' => sumn (S n') (fun i => kmul (alt i) (kmul (a i 0) (det n' (minor i a)))) end.
Fixpoint prodk (n : nat) (f : nat -> K) : K := match n with O => k1 | S n' => kmul (prodk n' f) (f n') end.

Lemma alt_S i : alt (S i) = kopp (alt i).
Proof. unfold alt. rewrite Nat.even_succ, <- Nat.negb_even. destruct (Nat.even i); cbn [negb]; ring. Qed.
Lemma alt_sq i : kmul (alt i) (alt i) = k1.
Proof. unfold alt. destruct (Nat.even i); ring. Qed.
Lemma prodk_ext n f g : (forall i, i < n -> f i = g i) -> prodk n f = prodk n g.
Proof. induction n as [|n IH]; intros H; [reflexivity|]. cbn [prodk]. rewrite IH, H; auto. Qed.
Lemma prodk_one n f : (forall i, i < n -> f i = k1) -> prodk n f = k1.
Proof. induction n as [|n IH]; intros H; [reflexivity|]. cbn [prodk]. rewrite IH, H by auto. ring. Qed.
Lemma prodk_zero n f i : i < n -> f i = k0 -> prodk n f = k0.
Proof.
  induction n as [|n IH]; intros Hi E; [lia|]. cbn [prodk]. destruct (Nat.eq_dec i n) as [->|N]; [rewrite E; ring|]. rewrite IH by (auto; lia). ring.
Qed.
Lemma prodk_nonzero n f : (forall i, i < n -> f i <> k0) -> prodk n f <> k0.
Proof.
  induction n as [|n IH]; intros H; cbn [prodk]; [exact (F_1_neq_0 (kth K))|]. intros E. assert (A : prodk n f <> k0) by auto. apply A.
  assert (B : kmul (kmul (prodk n f) (f n)) (kinv (f n)) = prodk n f) by (field; auto). rewrite <- B, E. ring.
Qed.
Lemma skip_lt i r n : r < n -> skip i r < S n.
Proof. unfold skip. destruct (Nat.ltb_spec r i); lia. Qed.

Lemma det_ext n : forall a b, meq n n a b -> det n a = det n b.
Proof.
  induction n as [|n IH]; intros a b E; [reflexivity|]. cbn [det]. apply sumn_ext. intros i Hi. rewrite (E i 0) by lia. do 2 f_equal.
  apply IH. intros r c Hr Hc. unfold minor. apply E; [apply skip_lt; exact Hr|lia].
Qed.

(** ** linear in every row *)
Definition upd (a : fmat) (r : nat) (v : vec) : fmat := fun i j => if i =? r then v j else a i j.
Lemma upd_same a r v j : upd a r v r j = v j.
Proof. unfold upd. rewrite Nat.eqb_refl. reflexivity. Qed.
Lemma upd_other a r v i j : i <> r -> upd a r v i j = a i j.
Proof. intros N. unfold upd. destruct (Nat.eqb_spec i r); [contradiction|reflexivity]. Qed.
Lemma det_linear n : forall a r c v w, r < n -> det n (upd a r (fun j => kadd (kmul c (v j)) (w j))) = kadd (kmul c (det n (upd a r v))) (det n (upd a r w)).
Proof.
  induction n as [|n IH]; intros a r c v w Hr; [lia|]. cbn [det]. rewrite <- sumn_mul_l, <- sumn_add. apply sumn_ext. intros i Hi.
  destruct (Nat.eq_dec i r) as [->|N].
  - rewrite !upd_same.
    assert (M : forall x, det n (minor r (upd a r x)) = det n (minor r a)).
    { intros x. apply det_ext. intros s t _ _. unfold minor. apply upd_other. unfold skip. destruct (Nat.ltb_spec s r); lia. }
    rewrite !M. ring.
  - rewrite !upd_other by exact N. set (r' := if r <? i then r else r - 1).
    assert (Hr' : r' < n) by (unfold r'; destruct (Nat.ltb_spec r i); lia).
    assert (M : forall x, det n (minor i (upd a r x)) = det n (upd (minor i a) r' (fun j => x (S j)))).
    { intros x. apply det_ext. intros s t Hs _. unfold minor, upd, skip, r'.
      destruct (Nat.ltb_spec s i), (Nat.ltb_spec r i); repeat match goal with |- context [?p =? ?q] => destruct (Nat.eqb_spec p q) end; try reflexivity; lia. }
    rewrite !M, (IH (minor i a) r' c (fun j => v (S j)) (fun j => w (S j)) Hr'). ring.
Qed.
Lemma det_row n a b r : r < n -> (forall i j, i < n -> j < n -> i <> r -> a i j = b i j) -> det n a = det n (upd b r (a r)).
Proof.
  intros Hr H. apply det_ext. intros i j Hi Hj. destruct (Nat.eq_dec i r) as [->|N]; [rewrite upd_same; reflexivity|]. rewrite upd_other by exact N. auto.
Qed.
Lemma det_zero_row n a r : r < n -> (forall j, j < n -> a r j = k0) -> det n a = k0.
Proof.
  intros Hr H. assert (E : det n a = det n (upd a r (fun j => kadd (kmul (kopp k1) (a r j)) (a r j)))).
  { apply det_ext. intros i j Hi Hj. destruct (Nat.eq_dec i r) as [->|N]; [rewrite upd_same, H by auto; ring|rewrite upd_other by exact N; reflexivity]. }
  rewrite E, det_linear by exact Hr. ring.
Qed.

(** ** alternating *)
Lemma sumn_two n (f : nat -> K) r : S r < n -> kadd (f r) (f (S r)) = k0 -> (forall i, i < n -> i <> r -> i <> S r -> f i = k0) -> sumn n f = k0.
Proof.
  intros Hr E H. replace n with (r + (2 + (n - r - 2))) by lia. rewrite !sumn_split.
  rewrite (sumn_zero' r f) by (intros i Hi; apply H; lia).
  rewrite (sumn_zero' (n - r - 2)) by (intros i Hi; apply H; lia). cbn [sumn]. rewrite Nat.add_0_r, Nat.add_1_r.
  replace (kadd k0 (kadd (kadd (kadd k0 (f r)) (f (S r))) k0)) with (kadd (f r) (f (S r))) by ring. exact E.
Qed.
Lemma det_adjacent n : forall a r, S r < n -> (forall j, j < n -> a r j = a (S r) j) -> det n a = k0.
Proof.
  induction n as [|n IH]; intros a r Hr E; [lia|]. cbn [det]. apply (sumn_two (S n) _ r Hr).
  - assert (M : det n (minor r a) = det n (minor (S r) a)).
    { apply det_ext. intros s t Hs Ht. unfold minor, skip. destruct (Nat.ltb_spec s r), (Nat.ltb_spec s (S r)); try reflexivity; [lia|].
      assert (s = r) by lia. subst s. symmetry. apply E. lia. }
    rewrite M, alt_S, (E 0) by lia. ring.
  - intros i Hi N1 N2. assert (Z : det n (minor i a) = k0).
    { destruct (Nat.lt_ge_cases i r) as [L|L].
      - apply (IH (minor i a) (r - 1)); [lia|]. intros j Hj. unfold minor, skip.
        destruct (Nat.ltb_spec (r - 1) i), (Nat.ltb_spec (S (r - 1)) i); try lia. replace (S (r - 1)) with r by lia. apply E. lia.
      - apply (IH (minor i a) r); [lia|]. intros j Hj. unfold minor, skip.
        destruct (Nat.ltb_spec r i), (Nat.ltb_spec (S r) i); try lia. apply E. lia. }
    rewrite Z. ring.
Qed.
Definition swapi (r s i : nat) : nat := if i =? r then s else if i =? s then r else i.
Lemma det_swap_adjacent n a r : S r < n -> det n (fun i => a (swapi r (S r) i)) = kopp (det n a).
Proof.
  intros Hr. set (x := a r). set (y := a (S r)). set (one := fun v : vec => fun j => kadd (kmul k1 (v j)) (k0 : K)).
  set (U := fun v w : vec => upd (upd a (S r) w) r v).
  assert (Z : forall v : vec, det n (U v v) = k0).
  { intros v. apply (det_adjacent n _ r Hr). intros j Hj. unfold U. rewrite upd_same, upd_other by lia. rewrite upd_same. reflexivity. }
  assert (L1 : forall v v' w, det n (U (fun j => kadd (kmul k1 (v j)) (v' j)) w) = kadd (det n (U v w)) (det n (U v' w))).
  { intros v v' w. unfold U. rewrite det_linear by lia. ring. }
  assert (C : forall v w, det n (U v w) = det n (upd (upd a r v) (S r) w)).
  { intros v w. apply det_ext. intros i j _ _. unfold U, upd. destruct (Nat.eqb_spec i r), (Nat.eqb_spec i (S r)); try reflexivity; lia. }
  assert (L2 : forall v w w', det n (U v (fun j => kadd (kmul k1 (w j)) (w' j))) = kadd (det n (U v w)) (det n (U v w'))).
  { intros v w w'. rewrite !C, det_linear by lia. ring. }
  assert (A : det n a = det n (U x y)).
  { apply det_ext. intros i j _ _. unfold U, upd. destruct (Nat.eqb_spec i r) as [->|]; [reflexivity|]. destruct (Nat.eqb_spec i (S r)) as [->|]; reflexivity. }
  assert (B : det n (fun i => a (swapi r (S r) i)) = det n (U y x)).
  { apply det_ext. intros i j _ _. unfold U, upd, swapi. destruct (Nat.eqb_spec i r) as [->|]; [reflexivity|]. destruct (Nat.eqb_spec i (S r)) as [->|]; reflexivity. }
  pose proof (Z (fun j => kadd (kmul k1 (x j)) (y j))) as E. rewrite L1, !L2, !Z in E. rewrite A, B.
  assert (F : det n (U y x) = ksub (kadd (kadd k0 (det n (U x y))) (kadd (det n (U y x)) k0)) (det n (U x y))) by ring. rewrite F, E. ring.
Qed.
Lemma det_equal_rows n a r s : r < s -> s < n -> (forall j, j < n -> a r j = a s j) -> det n a = k0.
Proof.
  intros L Hs E. remember (s - r - 1) as d eqn:Ed. revert a s L Hs E Ed. induction d as [|d IH]; intros a s L Hs E Ed.
  - apply (det_adjacent n a r); [lia|]. replace (S r) with s by lia. exact E.
  - assert (X : det n (fun i => a (swapi (s - 1) (S (s - 1)) i)) = k0).
    { apply (IH _ (s - 1)); try lia. intros j Hj. cbv beta. unfold swapi.
      destruct (Nat.eqb_spec r (s - 1)), (Nat.eqb_spec r (S (s - 1))), (Nat.eqb_spec (s - 1) (s - 1)); try lia.
      replace (S (s - 1)) with s by lia. apply E. exact Hj. }
    rewrite det_swap_adjacent in X by lia.
    assert (Y : det n a = kopp (kopp (det n a))) by ring. rewrite Y, X. ring.
Qed.
Lemma det_swap n a r s : r < s -> s < n -> det n (fun i => a (swapi r s i)) = kopp (det n a).
Proof.
  intros L Hs. set (x := a r). set (y := a s).
  set (U := fun v w : vec => upd (upd a s w) r v).
  assert (Z : forall v : vec, det n (U v v) = k0).
  { intros v. apply (det_equal_rows n _ r s L Hs). intros j Hj. unfold U. rewrite upd_same, upd_other by lia. rewrite upd_same. reflexivity. }
  assert (L1 : forall v v' w, det n (U (fun j => kadd (kmul k1 (v j)) (v' j)) w) = kadd (det n (U v w)) (det n (U v' w))).
  { intros v v' w. unfold U. rewrite det_linear by lia. ring. }
  assert (C : forall v w, det n (U v w) = det n (upd (upd a r v) s w)).
  { intros v w. apply det_ext. intros i j _ _. unfold U, upd. destruct (Nat.eqb_spec i r), (Nat.eqb_spec i s); try reflexivity; lia. }
  assert (L2 : forall v w w', det n (U v (fun j => kadd (kmul k1 (w j)) (w' j))) = kadd (det n (U v w)) (det n (U v w'))).
  { intros v w w'. rewrite !C, det_linear by lia. ring. }
  assert (A : det n a = det n (U x y)).
  { apply det_ext. intros i j _ _. unfold U, upd. destruct (Nat.eqb_spec i r) as [->|]; [reflexivity|]. destruct (Nat.eqb_spec i s) as [->|]; reflexivity. }
  assert (B : det n (fun i => a (swapi r s i)) = det n (U y x)).
  { apply det_ext. intros i j _ _. unfold U, upd, swapi. destruct (Nat.eqb_spec i r) as [->|]; [reflexivity|]. destruct (Nat.eqb_spec i s) as [->|]; reflexivity. }
  pose proof (Z (fun j => kadd (kmul k1 (x j)) (y j))) as E. rewrite L1, !L2, !Z in E. rewrite A, B.
  assert (F : det n (U y x) = ksub (kadd (kadd k0 (det n (U x y))) (kadd (det n (U y x)) k0)) (det n (U x y))) by ring. rewrite F, E. ring.
Qed.
(** a row that is a combination of the others and of itself *)
Lemma det_sum_row n a r k c (b : fmat) : r < n -> det n (upd a r (fun j => sumn k (fun l => kmul (c l) (b l j)))) = sumn k (fun l => kmul (c l) (det n (upd a r (b l)))).
Proof.
  intros Hr. induction k as [|k IH]; cbn [sumn].
  - apply (det_zero_row n _ r Hr). intros j _. rewrite upd_same. reflexivity.
  - rewrite <- IH. assert (E : det n (upd a r (fun j => kadd (sumn k (fun l => kmul (c l) (b l j))) (kmul (c k) (b k j)))) =
       det n (upd a r (fun j => kadd (kmul (c k) (b k j)) (sumn k (fun l => kmul (c l) (b l j)))))).
    { apply det_ext. intros i j _ _. unfold upd. destruct (i =? r); [ring|reflexivity]. }
    rewrite E, det_linear by exact Hr. ring.
Qed.
Lemma det_row_comb n a r c (b : fmat) : r < n -> (forall l, l < n -> l <> r -> c l <> k0 -> forall j, j < n -> a l j = b l j) ->
  det n (upd a r (fun j => sumn n (fun l => kmul (c l) (b l j)))) = kmul (c r) (det n (upd a r (b r))).
Proof.
  intros Hr H. rewrite det_sum_row by exact Hr. apply (sumn_delta n r (fun l => kmul (c l) (det n (upd a r (b l)))) Hr). intros l Hl N.
  destruct (kdec (c l) k0) as [Z|Nz]; [rewrite Z; ring|].
  assert (D : det n (upd a r (b l)) = k0).
  { destruct (Nat.lt_ge_cases l r) as [L|L].
    - apply (det_equal_rows n _ l r L Hr). intros j Hj. rewrite upd_same, upd_other by lia. apply H; auto.
    - apply (det_equal_rows n _ r l); [lia|exact Hl|]. intros j Hj. rewrite upd_same, upd_other by lia. symmetry. apply H; auto. }
  rewrite D. ring.
Qed.

(** ** triangular factors *)
Lemma det_mul_lower n l u : (forall i j, i < j -> j < n -> l i j = k0) -> det n (mmul n l u) = kmul (prodk n (fun i => l i i)) (det n u).
Proof.
  intros Low. set (H := fun k : nat => (fun i j => if i <? k then u i j else mmul n l u i j) : fmat).
  assert (G : forall k, k <= n -> det n (mmul n l u) = kmul (prodk k (fun i => l i i)) (det n (H k))).
  { induction k as [|k IH]; intros Hk; cbn [prodk].
    - rewrite (det_ext n (H 0) (mmul n l u)); [ring|]. intros i j _ _. reflexivity.
    - rewrite (IH ltac:(lia)). assert (E : det n (H k) = kmul (l k k) (det n (H (S k)))).
      { rewrite (det_ext n (H k) (upd (H k) k (fun j => sumn n (fun x => kmul (l k x) (u x j))))).
        - rewrite det_row_comb; [f_equal; apply det_ext; intros i j _ _; unfold H, upd; destruct (Nat.eqb_spec i k) as [->|N]| lia|].
          + rewrite (proj2 (Nat.ltb_lt k (S k))) by lia. reflexivity.
          + destruct (Nat.ltb_spec i k), (Nat.ltb_spec i (S k)); try reflexivity; lia.
          + intros x Hx Nx Nz j Hj. unfold H. destruct (Nat.ltb_spec x k) as [L|L]; [reflexivity|]. exfalso. apply Nz. apply Low; lia.
        - intros i j _ _. unfold upd, H. destruct (Nat.eqb_spec i k) as [->|N]; [|reflexivity]. rewrite Nat.ltb_irrefl. reflexivity. }
      rewrite E. ring. }
  rewrite (G n (le_n n)). f_equal. apply det_ext. intros i j Hi _. unfold H. rewrite (proj2 (Nat.ltb_lt i n)) by exact Hi. reflexivity.
Qed.
Lemma det_mul_upper n u b : (forall i j, j < i -> i < n -> u i j = k0) -> det n (mmul n u b) = kmul (prodk n (fun i => u i i)) (det n b).
Proof.
  intros Up. set (H := fun k : nat => (fun i j => if i <? k then mmul n u b i j else b i j) : fmat).
  assert (G : forall k, k <= n -> det n (H k) = kmul (prodk k (fun i => u i i)) (det n b)).
  { induction k as [|k IH]; intros Hk; cbn [prodk].
    - rewrite (det_ext n (H 0) b); [ring|]. intros i j _ _. reflexivity.
    - assert (E : det n (H (S k)) = kmul (u k k) (det n (H k))).
      { rewrite (det_ext n (H (S k)) (upd (H (S k)) k (fun j => sumn n (fun x => kmul (u k x) (b x j))))).
        - rewrite det_row_comb; [f_equal; apply det_ext; intros i j _ _; unfold H, upd; destruct (Nat.eqb_spec i k) as [->|N]| lia|].
          + rewrite Nat.ltb_irrefl. reflexivity.
          + destruct (Nat.ltb_spec i k), (Nat.ltb_spec i (S k)); try reflexivity; lia.
          + intros x Hx Nx Nz j Hj. unfold H. destruct (Nat.ltb_spec x (S k)) as [L|L]; [|reflexivity]. exfalso. apply Nz. apply Up; lia.
        - intros i j _ _. unfold upd, H. destruct (Nat.eqb_spec i k) as [->|N]; [|reflexivity]. rewrite (proj2 (Nat.ltb_lt k (S k))) by lia. reflexivity. }
      rewrite E, (IH ltac:(lia)). ring. }
  rewrite <- (G n (le_n n)). apply det_ext. intros i j Hi _. unfold H. rewrite (proj2 (Nat.ltb_lt i n)) by exact Hi. reflexivity.
Qed.
Lemma det_id n : det n mid = k1.
Proof.
  induction n as [|n IH]; [reflexivity|]. cbn [det]. rewrite (sumn_delta (S n) 0); [|lia|].
  - rewrite mid_eq, (det_ext n (minor 0 mid) mid), IH; [cbn; unfold alt; cbn; ring|]. intros i j _ _. unfold minor, skip, mid. reflexivity.
  - intros i Hi N. rewrite mid_neq by exact N. ring.
Qed.
Lemma det_lower n l : (forall i j, i < j -> j < n -> l i j = k0) -> det n l = prodk n (fun i => l i i).
Proof.
  intros H. rewrite <- (det_ext n (mmul n l mid) l (mmul_id_r n n l)), det_mul_lower, det_id by exact H. ring.
Qed.
Lemma det_upper n u : (forall i j, j < i -> i < n -> u i j = k0) -> det n u = prodk n (fun i => u i i).
Proof.
  intros H. rewrite <- (det_ext n (mmul n u mid) u (mmul_id_r n n u)), det_mul_upper, det_id by exact H. ring.
Qed.

(** ** permutations of the rows *)
Fixpoint below (x : nat) (l : list nat) : nat := match l with [] => 0 | y :: l' => (if y <? x then 1 else 0) + below x l' end.
(** the number of pairs in the wrong order *)
Fixpoint inversions (l : list nat) : nat := match l with [] => 0 | x :: l' => below x l' + inversions l' end.
Definition rows (l : list nat) (a : fmat) : fmat := fun i => a (nth i l 0).
Lemma below_app x l l' : below x (l ++ l') = below x l + below x l'.
Proof. induction l as [|y l IH]; [reflexivity|]. cbn [app below]. lia. Qed.
Lemma inversions_swap l x y l' : y < x -> inversions (l ++ x :: y :: l') = S (inversions (l ++ y :: x :: l')).
Proof.
  intros H. induction l as [|z l IH]; cbn [app inversions below].
  - destruct (Nat.ltb_spec y x), (Nat.ltb_spec x y); lia.
  - rewrite IH, !below_app. cbn [below]. lia.
Qed.
Lemma descent_or_sorted (l : list nat) : NoDup l -> (exists l1 x y l2, l = l1 ++ x :: y :: l2 /\ y < x) \/ StronglySorted lt l.
Proof.
  induction l as [|x l IH]; intros N; [right; constructor|]. inversion N as [|? ? Nx Nl]; subst. destruct (IH Nl) as [(l1 & a & b & l2 & -> & H)|S].
  - left. exists (x :: l1), a, b, l2. auto.
  - destruct l as [|y l]; [right; constructor; [constructor|constructor]|].
    assert (D : y < x \/ x < y) by (assert (x <> y) by (intros ->; apply Nx; left; reflexivity); lia).
    destruct D as [D|D]; [left; exists [], x, y, l; auto|]. right. constructor; [exact S|]. constructor; [exact D|].
    inversion S as [|? ? S' F]; subst. revert F. apply Forall_impl. intros z. lia.
Qed.
Lemma sorted_seq l : forall s n, StronglySorted lt l -> Permutation l (seq s n) -> l = seq s n.
Proof.
  induction l as [|x l IH]; intros s n SS P.
  - apply Permutation_nil in P. auto.
  - destruct n as [|n]; [apply Permutation_sym, Permutation_nil in P; discriminate P|]. inversion SS as [|? ? S' F]; subst. rewrite Forall_forall in F. cbn [seq] in *.
    assert (x = s).
    { assert (I : In s (x :: l)) by (apply (Permutation_in _ (Permutation_sym P)); left; reflexivity). destruct I as [E|I]; [exact E|].
      specialize (F s I). assert (J : In x (s :: seq (S s) n)) by (apply (Permutation_in _ P); left; reflexivity).
      destruct J as [E|J]; [auto|]. apply in_seq in J. lia. }
    subst x. f_equal. apply IH; [exact S'|]. apply (Permutation_cons_inv P).
Qed.
Lemma det_rows n a : forall l, Permutation l (seq 0 n) -> det n (rows l a) = kmul (alt (inversions l)) (det n a).
Proof.
  intros l. remember (inversions l) as d eqn:Ed. revert l Ed. induction d as [|d IH]; intros l Ed P.
  - destruct (descent_or_sorted l) as [(l1 & x & y & l2 & -> & H)|S].
    + apply (Permutation_NoDup (Permutation_sym P)). apply seq_NoDup.
    + rewrite (inversions_swap l1 x y l2 H) in Ed. discriminate Ed.
    + rewrite (sorted_seq l 0 n S P). rewrite (det_ext n (rows (seq 0 n) a) a); [unfold alt; cbn; ring|].
      intros i j Hi _. unfold rows. rewrite seq_nth by exact Hi. reflexivity.
  - destruct (descent_or_sorted l) as [(l1 & x & y & l2 & -> & H)|S].
    + apply (Permutation_NoDup (Permutation_sym P)). apply seq_NoDup.
    + rewrite (inversions_swap l1 x y l2 H) in Ed. injection Ed as Ed.
      assert (P' : Permutation (l1 ++ y :: x :: l2) (seq 0 n)).
      { apply (Permutation_trans (l' := l1 ++ x :: y :: l2)); [|exact P]. apply Permutation_app_head. apply perm_swap. }
      pose proof (IH _ Ed P') as E. set (r := length l1).
      assert (Len : length (l1 ++ y :: x :: l2) = n) by (rewrite (Permutation_length P'); apply seq_length).
      rewrite app_length in Len. cbn [length] in Len.
      rewrite (det_ext n (rows (l1 ++ x :: y :: l2) a) (fun i => rows (l1 ++ y :: x :: l2) a (swapi r (S r) i))).
      * rewrite (det_swap_adjacent n (rows (l1 ++ y :: x :: l2) a) r) by (unfold r; lia). rewrite E, alt_S. ring.
      * intros i j _ _. unfold rows, swapi, r.
        assert (N0 : forall a b l2, nth (length l1) (l1 ++ a :: b :: l2) 0 = a) by (intros; rewrite app_nth2, Nat.sub_diag by lia; reflexivity).
        assert (N1 : forall a b l2, nth (S (length l1)) (l1 ++ a :: b :: l2) 0 = b) by (intros; rewrite app_nth2 by lia; replace (S (length l1) - length l1) with 1 by lia; reflexivity).
        destruct (Nat.eqb_spec i (length l1)) as [->|A]; [rewrite N0, N1; reflexivity|]. destruct (Nat.eqb_spec i (S (length l1))) as [->|B]; [rewrite N0, N1; reflexivity|].
        f_equal. destruct (Nat.lt_ge_cases i (length l1)) as [L|L]; [rewrite !app_nth1 by exact L; reflexivity|]. rewrite !app_nth2 by exact L.
        destruct (i - length l1) as [|[|k]] eqn:Ek; [lia|lia|reflexivity].
    + assert (Z : inversions l = 0); [|lia]. clear - S. induction S as [|x l S IH F]; [reflexivity|]. cbn [inversions]. rewrite IH, Nat.add_0_r. clear - F.
      induction F as [|y l H F IH]; [reflexivity|]. cbn [below]. rewrite IH. destruct (Nat.ltb_spec y x); lia.
Qed.
(** the permutation matrix of [l] *)
Definition pmat (l : list nat) : fmat := fun i j => if nth i l 0 =? j then k1 else k0.
Lemma pmat_mul n l a i j : i < n -> Permutation l (seq 0 n) -> mmul n (pmat l) a i j = rows l a i j.
Proof.
  intros Hi P. unfold mmul, pmat, rows.
  assert (B : nth i l 0 < n).
  { assert (I : In (nth i l 0) l) by (apply nth_In; rewrite (Permutation_length P), seq_length; exact Hi). apply (Permutation_in _ P) in I. apply in_seq in I. lia. }
  rewrite (sumn_delta n (nth i l 0)); [rewrite Nat.eqb_refl; ring|exact B|]. intros k Hk N. destruct (Nat.eqb_spec (nth i l 0) k); [congruence|ring].
Qed.
Lemma det_plu n l (a low up : fmat) : Permutation l (seq 0 n) -> meq n n (mmul n (pmat l) a) (mmul n low up) ->
  (forall i j, i < j -> j < n -> low i j = k0) ->
  det n a = kmul (alt (inversions l)) (kmul (prodk n (fun i => low i i)) (det n up)).
Proof.
  intros P E L. rewrite <- (det_mul_lower n low up L), <- (det_ext n _ _ E).
  rewrite (det_ext n (mmul n (pmat l) a) (rows l a)) by (intros i j Hi _; apply pmat_mul; assumption).
  rewrite (det_rows n a l P). transitivity (kmul (kmul (alt (inversions l)) (alt (inversions l))) (det n a)); [rewrite alt_sq; ring|ring].
Qed.
End Det.
