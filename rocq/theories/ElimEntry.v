(** * The entries of the matrices lu computes, for any coefficients.
    Nothing is assumed about the arithmetic: each lemma says which operations were performed on which
    entries when the function returned. *)
From Verif Require Import Base BaseLemmas FieldIface UtilModel MatModel MatProofs AlgModel AlgProofs ElimShape.
From Coq Require Import Lia.
Local Open Scope nat_scope.

Lemma foldM_seq_inv {ST : Type} (f : ST -> nat -> res ST) (I : nat -> ST -> Prop) start len s s' :
  I 0 s -> (forall k s s', k < len -> I k s -> f s (start + k) = Ok s' -> I (k + 1) s') ->
  foldM f (seq start len) s = Ok s' -> I len s'.
Proof.
  revert start I s. induction len; intros start I s H0 H E; cbn [seq foldM] in E.
  - injection E as <-. exact H0.
  - apply bind_Ok in E as (s1 & E1 & E2). apply (IHlen (S start) (fun k => I (S k)) s1); [| |exact E2].
    + apply (H 0 s); [lia|exact H0|]. rewrite Nat.add_0_r. exact E1.
    + intros k x x' Hk Ix Ex. apply (H (S k) x); [lia|exact Ix|]. replace (start + S k) with (S start + k) by lia. exact Ex.
Qed.
Lemma list_swap_inv (p p' : list nat) i j : i < length p -> j < length p -> list_swap p i j = Ok p' ->
  length p' = length p /\ (forall k, nth k p' 0 = nth (if k =? i then j else if k =? j then i else k) p 0).
Proof. intros Hi Hj E. destruct (list_swap_ok p i j Hi Hj) as (q & Eq & H). assert (q = p') as -> by congruence. exact H. Qed.

Section Entry.
Context {F : FieldImpl} (T : StabImpl F).
Notation mat := (mat F).
Notation lu_state := (@lu_state F).

Lemma get_inv n m (a : mat) r c x : shp n m a -> r < n -> c < m -> mget a r c = Ok x -> x = mentry a r c.
Proof. intros (S & R & C) Hr Hc E. rewrite mget_ok in E by (try assumption; lia). congruence. Qed.
Lemma set_inv n m (a a' : mat) r c x : shp n m a -> r < n -> c < m -> mset a r c x = Ok a' ->
  shp n m a' /\ forall i j, i < n -> j < m -> mentry a' i j = if (i =? r) && (j =? c) then x else mentry a i j.
Proof.
  intros (S & R & C) Hr Hc E. destruct (mset_ok a r c x S) as (b & Eb & Sb & Rb & Cb & H); [lia..|].
  assert (b = a') as -> by congruence. split; [split; [exact Sb|split; congruence]|].
  intros i j Hi Hj. apply H; lia.
Qed.
Ltac eqb := repeat match goal with
  | |- context [?x =? ?y] => destruct (Nat.eqb_spec x y); subst
  | |- context [?x <? ?y] => destruct (Nat.ltb_spec x y); subst
  end; cbn [andb]; try congruence; try lia.

Lemma scale_row_inv n m (a a' : mat) r x : shp n m a -> r < n -> mat_scale_row a r x = Ok a' ->
  shp n m a' /\ forall i j, i < n -> j < m -> if i =? r then fmul x (mentry a i j) = Ok (mentry a' i j) else mentry a' i j = mentry a i j.
Proof.
  intros H Hr E. unfold mat_scale_row in E. pose proof H as (_ & _ & C). rewrite C in E.
  eapply (foldM_seq_inv _ (fun k b => shp n m b /\ forall i j, i < n -> j < m ->
    if (i =? r) && (j <? k) then fmul x (mentry a i j) = Ok (mentry b i j) else mentry b i j = mentry a i j)) in E.
  - destruct E as [Sb E]. split; [exact Sb|]. intros i j Hi Hj. specialize (E i j Hi Hj).
    destruct (Nat.ltb_spec j m); [|lia]. rewrite andb_true_r in E. exact E.
  - split; [exact H|]. intros i j _ _. destruct (Nat.ltb_spec j 0); [lia|]. rewrite andb_false_r. reflexivity.
  - intros k b b' Hk [Sb Ib] Eb. cbn [Nat.add] in Eb. apply bind_Ok in Eb as (v & Ev & Eb). apply bind_Ok in Eb as (y & Ey & Eb).
    apply (get_inv n m) in Ev; [|assumption..]. destruct (set_inv n m b b' r k y Sb Hr Hk Eb) as [Sb' Ib'].
    split; [exact Sb'|]. intros i j Hi Hj. rewrite Ib' by assumption. specialize (Ib i j Hi Hj).
    destruct (Nat.eqb_spec i r) as [->|Ni]; cbn [andb] in *; [|exact Ib].
    destruct (Nat.ltb_spec j k), (Nat.ltb_spec j (k + 1)), (Nat.eqb_spec j k); try lia; try exact Ib.
    subst j v. rewrite Ib in Ey. exact Ey.
Qed.
Lemma permute_rows_inv n m (a a' : mat) s t : shp n m a -> s < n -> t < n -> mat_permute_rows a s t = Ok a' ->
  shp n m a' /\ forall i j, i < n -> j < m -> mentry a' i j = mentry a (if i =? s then t else if i =? t then s else i) j.
Proof.
  intros H Hs Ht E. unfold mat_permute_rows in E. pose proof H as (_ & _ & C). rewrite C in E.
  eapply (foldM_seq_inv _ (fun k b => shp n m b /\ forall i j, i < n -> j < m ->
    mentry b i j = mentry a (if j <? k then if i =? s then t else if i =? t then s else i else i) j)) in E.
  - destruct E as [Sb E]. split; [exact Sb|]. intros i j Hi Hj. rewrite (E i j Hi Hj).
    destruct (Nat.ltb_spec j m); [|lia]. reflexivity.
  - split; [exact H|]. intros i j _ _. reflexivity.
  - intros k b b' Hk [Sb Ib] Eb. cbn [Nat.add] in Eb. apply bind_Ok in Eb as (v & Ev & Eb). apply bind_Ok in Eb as (y & Ey & Eb).
    apply bind_Ok in Eb as (b1 & E1 & Eb).
    apply (get_inv n m) in Ev; [|assumption..]. apply (get_inv n m) in Ey; [|assumption..]. subst v y.
    destruct (set_inv n m b b1 s k _ Sb Hs Hk E1) as [S1 I1]. destruct (set_inv n m b1 b' t k _ S1 Ht Hk Eb) as [Sb' Ib'].
    split; [exact Sb'|]. intros i j Hi Hj. rewrite Ib' by assumption.
    rewrite (Ib s k Hs Hk). rewrite (I1 i j Hi Hj). rewrite (Ib t k Ht Hk), (Ib i j Hi Hj).
    rewrite Nat.ltb_irrefl. eqb.
Qed.
Lemma replace_row_inv n m (a a' : mat) s t x : shp n m a -> s < n -> t < n -> s <> t -> mat_replace_row a s t x = Ok a' ->
  shp n m a' /\ forall i j, i < n -> j < m ->
    if i =? t then exists p, fmul (mentry a s j) x = Ok p /\ fadd (mentry a t j) p = Ok (mentry a' i j) else mentry a' i j = mentry a i j.
Proof.
  intros H Hs Ht N E. unfold mat_replace_row in E. pose proof H as (_ & _ & C). rewrite C in E.
  eapply (foldM_seq_inv _ (fun k b => shp n m b /\ forall i j, i < n -> j < m ->
    if (i =? t) && (j <? k) then exists p, fmul (mentry a s j) x = Ok p /\ fadd (mentry a t j) p = Ok (mentry b i j) else mentry b i j = mentry a i j)) in E.
  - destruct E as [Sb E]. split; [exact Sb|]. intros i j Hi Hj. specialize (E i j Hi Hj).
    destruct (Nat.ltb_spec j m); [|lia]. rewrite andb_true_r in E. exact E.
  - split; [exact H|]. intros i j _ _. destruct (Nat.ltb_spec j 0); [lia|]. rewrite andb_false_r. reflexivity.
  - intros k b b' Hk [Sb Ib] Eb. cbn [Nat.add] in Eb. apply bind_Ok in Eb as (v & Ev & Eb). apply bind_Ok in Eb as (y & Ey & Eb).
    apply bind_Ok in Eb as (p & Ep & Eb). apply bind_Ok in Eb as (w & Ew & Eb).
    apply (get_inv n m) in Ev; [|assumption..]. apply (get_inv n m) in Ey; [|assumption..].
    destruct (set_inv n m b b' t k w Sb Ht Hk Eb) as [Sb' Ib'].
    split; [exact Sb'|]. intros i j Hi Hj. rewrite Ib' by assumption.
    pose proof (Ib s k Hs Hk) as Is. rewrite (proj2 (Nat.eqb_neq s t) N) in Is. cbn [andb] in Is.
    pose proof (Ib t k Ht Hk) as It. rewrite Nat.ltb_irrefl, andb_false_r in It. specialize (Ib i j Hi Hj).
    destruct (Nat.eqb_spec i t) as [->|Ni]; cbn [andb] in *; [|exact Ib].
    destruct (Nat.ltb_spec j k), (Nat.ltb_spec j (k + 1)), (Nat.eqb_spec j k); try lia; try exact Ib.
    subst j v y. exists p. rewrite Is in Ep. rewrite It in Ew. split; assumption.
Qed.
Lemma swap_inv n m (a a' : mat) p q : shp n m a -> fst p < n -> snd p < m -> fst q < n -> snd q < m -> mat_swap a p q = Ok a' ->
  shp n m a' /\ forall i j, i < n -> j < m -> mentry a' i j =
    if (i =? fst q) && (j =? snd q) then mentry a (fst p) (snd p) else if (i =? fst p) && (j =? snd p) then mentry a (fst q) (snd q) else mentry a i j.
Proof.
  intros H Hp1 Hp2 Hq1 Hq2 E. unfold mat_swap in E. apply bind_Ok in E as (v & Ev & E). apply bind_Ok in E as (y & Ey & E).
  apply bind_Ok in E as (b1 & E1 & E). apply (get_inv n m) in Ev; [|assumption..]. apply (get_inv n m) in Ey; [|assumption..]. subst v y.
  destruct (set_inv n m a b1 _ _ _ H Hp1 Hp2 E1) as [S1 I1]. destruct (set_inv n m b1 a' _ _ _ S1 Hq1 Hq2 E) as [S2 I2].
  split; [exact S2|]. intros i j Hi Hj. rewrite I2, I1 by assumption. reflexivity.
Qed.
Lemma permute_under_inv n (a a' : mat) s t : shp n n a -> s < n -> t < n -> permute_under_diagonal a s t = Ok a' ->
  shp n n a' /\ forall i j, i < n -> j < n ->
    mentry a' i j = mentry a (if j <? s then if i =? s then t else if i =? t then s else i else i) j.
Proof.
  intros H Hs Ht E. unfold permute_under_diagonal in E.
  eapply (foldM_seq_inv _ (fun k b => shp n n b /\ forall i j, i < n -> j < n ->
    mentry b i j = mentry a (if j <? k then if i =? s then t else if i =? t then s else i else i) j)) in E.
  - exact E.
  - split; [exact H|]. intros i j _ _. reflexivity.
  - intros k b b' Hk [Sb Ib] Eb. cbn [Nat.add] in Eb. apply (swap_inv n n) in Eb; cbn [fst snd] in *; [|assumption||lia..].
    destruct Eb as [Sb' Ib']. split; [exact Sb'|]. intros i j Hi Hj. rewrite Ib' by assumption.
    rewrite !Ib by (assumption || lia). rewrite Nat.ltb_irrefl. eqb.
Qed.

(** one round of the loop of lu *)
Lemma lu_replace_inv n m (s s' : lu_state) r c : shp n n (lu_l s) -> shp n m (lu_u s) -> r < n -> c < m ->
  lu_replace_col_under_row s r c = Ok s' ->
  lu_p s' = lu_p s /\ shp n n (lu_l s') /\ shp n m (lu_u s') /\
  (forall i k, i < n -> k < n -> mentry (lu_l s') i k = if (r <? i) && (k =? r) then mentry (lu_u s) i c else mentry (lu_l s) i k) /\
  (forall i j, i < n -> j < m -> if r <? i then exists nx q, fsub f0 (mentry (lu_u s) i c) = Ok nx /\
      fmul (mentry (lu_u s) r j) nx = Ok q /\ fadd (mentry (lu_u s) i j) q = Ok (mentry (lu_u s') i j)
    else mentry (lu_u s') i j = mentry (lu_u s) i j).
Proof.
  intros Hl Hu Hr Hc E. unfold lu_replace_col_under_row in E. pose proof Hu as (_ & R & _). rewrite R in E.
  eapply (foldM_seq_inv _ (fun d (z : lu_state) => lu_p z = lu_p s /\ shp n n (lu_l z) /\ shp n m (lu_u z) /\
    (forall i k, i < n -> k < n -> mentry (lu_l z) i k = if ((r <? i) && (i <? r + 1 + d)) && (k =? r) then mentry (lu_u s) i c else mentry (lu_l s) i k) /\
    (forall i j, i < n -> j < m -> if (r <? i) && (i <? r + 1 + d) then exists nx q, fsub f0 (mentry (lu_u s) i c) = Ok nx /\
        fmul (mentry (lu_u s) r j) nx = Ok q /\ fadd (mentry (lu_u s) i j) q = Ok (mentry (lu_u z) i j)
      else mentry (lu_u z) i j = mentry (lu_u s) i j))) in E.
  - destruct E as (Ep & Sl & Su & Il & Iu). split; [exact Ep|]. split; [exact Sl|]. split; [exact Su|]. split.
    + intros i k Hi Hk. rewrite (Il i k Hi Hk). destruct (Nat.ltb_spec i (r + 1 + (n - (r + 1)))); [rewrite andb_true_r; reflexivity|lia].
    + intros i j Hi Hj. specialize (Iu i j Hi Hj). destruct (Nat.ltb_spec i (r + 1 + (n - (r + 1)))); [rewrite andb_true_r in Iu; exact Iu|lia].
  - split; [reflexivity|]. split; [exact Hl|]. split; [exact Hu|]. split; intros i k Hi Hk;
      destruct (Nat.ltb_spec r i), (Nat.ltb_spec i (r + 1 + 0)); try lia; reflexivity.
  - intros d z z' Hd (Ep & Sl & Su & Il & Iu) Ez. set (r2 := r + 1 + d) in *. assert (H2 : r2 < n) by lia.
    apply bind_Ok in Ez as (x & Ex & Ez). apply bind_Ok in Ez as (nx & En & Ez). apply bind_Ok in Ez as (u & Eu & Ez).
    apply bind_Ok in Ez as (l & El & Ez). injection Ez as <-. cbn [lu_p lu_l lu_u].
    apply (get_inv n m) in Ex; [|assumption..].
    destruct (replace_row_inv n m _ u r r2 nx Su Hr H2 ltac:(lia) Eu) as [Su' Iu'].
    destruct (set_inv n n _ l r2 r x Sl H2 Hr El) as [Sl' Il'].
    assert (Ux : forall j, j < m -> mentry (lu_u z) r2 j = mentry (lu_u s) r2 j).
    { intros j Hj. specialize (Iu r2 j H2 Hj). fold r2 in Iu. rewrite Nat.ltb_irrefl, andb_false_r in Iu. exact Iu. }
    assert (Ur : forall j, j < m -> mentry (lu_u z) r j = mentry (lu_u s) r j).
    { intros j Hj. specialize (Iu r j Hr Hj). rewrite Nat.ltb_irrefl in Iu. cbn [andb] in Iu. exact Iu. }
    rewrite (Ux c Hc) in Ex. subst x.
    split; [exact Ep|]. split; [exact Sl'|]. split; [exact Su'|]. split.
    + intros i k Hi Hk. rewrite (Il' i k Hi Hk). specialize (Il i k Hi Hk). fold r2 in Il.
      destruct (Nat.eqb_spec i r2) as [->|Ni].
      * destruct (Nat.ltb_spec r r2), (Nat.ltb_spec r2 r2), (Nat.ltb_spec r2 (r + 1 + (d + 1))); try lia. cbn [andb] in Il |- *.
        destruct (Nat.eqb_spec k r); [reflexivity|exact Il].
      * cbn [andb]. rewrite Il. destruct (Nat.ltb_spec i r2), (Nat.ltb_spec i (r + 1 + (d + 1))); try lia; reflexivity.
    + intros i j Hi Hj. specialize (Iu' i j Hi Hj). specialize (Iu i j Hi Hj). fold r2 in Iu.
      destruct (Nat.eqb_spec i r2) as [->|Ni].
      * destruct (Nat.ltb_spec r r2), (Nat.ltb_spec r2 (r + 1 + (d + 1))); try lia. cbn [andb].
        destruct Iu' as (q & Eq & Ew). rewrite Ur in Eq by exact Hj. rewrite Ux in Ew by exact Hj. exists nx, q. auto.
      * rewrite Iu'. destruct (Nat.ltb_spec i r2), (Nat.ltb_spec i (r + 1 + (d + 1))); try lia; exact Iu.
Qed.
Lemma stable_inv n m (a : mat) c r i x : shp n m a -> c < m -> (forall x y, exists o, fstab T x y = Ok o) -> r < n ->
  stable_column_index T a c r = Ok (Some (i, x)) -> r <= i < n /\ x = mentry a i c /\ feps T x f0 = false.
Proof.
  intros H Hc To Hr E. unfold stable_column_index in E. pose proof H as (Sh & Rn & Cm).
  rewrite col_list_ok in E by (rewrite ?Cm; assumption). cbn [bind] in E. set (l := skipn r _) in E.
  assert (L : length l = n - r) by (unfold l; rewrite skipn_length, map_length, seq_length, Rn; reflexivity).
  apply bind_Ok in E as (k & Ek & E).
  assert (N : l <> []) by (intros N; rewrite N in L; cbn in L; lia).
  pose proof (max_index_lt (fstab T) l N To) as K. rewrite Ek in K. cbn in K. rewrite L in K.
  apply bind_Ok in E as (y & Ey & E). apply (get_inv n m) in Ey; [|assumption||lia..]. destruct (feps T y f0) eqn:Eps; [discriminate|].
  assert (k + r = i /\ y = x) as [<- <-] by (split; congruence). split; [lia|]. split; [exact Ey|exact Eps].
Qed.
Definition pvt (r si : nat) (i : nat) : nat := if i =? r then si else if i =? si then r else i.
(** [x] is the pivot, found in row [si]; [l], [u] before and [l'], [u'] after the round *)
Record lu_round (n m r c si : nat) (x : F) (s s' : lu_state) : Prop := {
  lr_si : r <= si < n;
  lr_x : x = mentry (lu_u s) si c;
  lr_eps : feps T x f0 = false;
  lr_stable : stable_column_index T (lu_u s) c r = Ok (Some (si, x));
  lr_len : length (lu_p s') = length (lu_p s);
  lr_p : forall i, nth i (lu_p s') 0 = nth (pvt r si i) (lu_p s) 0;
  lr_shl : shp n n (lu_l s');
  lr_shu : shp n m (lu_u s');
  lr_l : forall i k, i < n -> k < n -> mentry (lu_l s') i k =
    if k =? r then if i =? r then x else if r <? i then mentry (lu_u s) (pvt r si i) c else mentry (lu_l s) i k
    else mentry (lu_l s) (if k <? r then pvt r si i else i) k;
  lr_inv : exists y, fdiv f1 x = Ok y /\ forall j, j < m -> fmul y (mentry (lu_u s) si j) = Ok (mentry (lu_u s') r j);
  lr_u : forall i j, i < n -> j < m -> i <> r -> if r <? i then exists nx q, fsub f0 (mentry (lu_u s) (pvt r si i) c) = Ok nx /\
      fmul (mentry (lu_u s') r j) nx = Ok q /\ fadd (mentry (lu_u s) (pvt r si i) j) q = Ok (mentry (lu_u s') i j)
    else mentry (lu_u s') i j = mentry (lu_u s) i j
}.
Lemma lu_step_inv n m r c s r' s' : (forall x y, exists o, fstab T x y = Ok o) -> length (lu_p s) = n ->
  shp n n (lu_l s) -> shp n m (lu_u s) -> c < m -> lu_step T n (r, s) c = Ok (r', s') ->
  (r' = r /\ s' = s) \/ (r < n /\ r' = r + 1 /\ exists si x, lu_round n m r c si x s s').
Proof.
  intros To Lp Hl Hu Hc E. unfold lu_step in E. destruct (Nat.leb_spec n r) as [Hr|Hr].
  { left. injection E as <- <-. auto. }
  apply bind_Ok in E as ([[si x]|] & Es & E); [|left; injection E as <- <-; auto].
  right. split; [exact Hr|]. destruct (stable_inv n m _ c r si x Hu Hc To Hr Es) as (Hs & Ex & Eps).
  apply bind_Ok in E as (s1 & E1 & E). apply bind_Ok in E as (s2 & E2 & E). apply bind_Ok in E as (s3 & E3 & E).
  injection E as <- <-. split; [reflexivity|]. exists si, x.
  unfold lu_permute in E1. apply bind_Ok in E1 as (p1 & Ep & E1). apply bind_Ok in E1 as (u1 & Eu & E1). apply bind_Ok in E1 as (l1 & El & E1). injection E1 as <-.
  unfold lu_scale_row in E2. cbn [lu_p lu_l lu_u] in E2. apply bind_Ok in E2 as (l2 & El2 & E2). apply bind_Ok in E2 as (y & Ey & E2). apply bind_Ok in E2 as (u2 & Eu2 & E2). injection E2 as <-.
  assert (Hsn : si < n) by lia. rewrite <- Lp in Hsn. pose proof Hr as Hrp. rewrite <- Lp in Hrp.
  destruct (list_swap_inv _ p1 r si Hrp Hsn Ep) as [Lp1 Hp1]. rewrite Lp in Hsn, Hrp.
  destruct (permute_rows_inv n m _ u1 r si Hu Hr ltac:(lia) Eu) as [Su1 Iu1].
  destruct (permute_under_inv n _ l1 r si Hl Hr ltac:(lia) El) as [Sl1 Il1].
  destruct (set_inv n n _ l2 r r x Sl1 Hr Hr El2) as [Sl2 Il2].
  destruct (scale_row_inv n m _ u2 r y Su1 Hr Eu2) as [Su2 Iu2].
  apply (lu_replace_inv n m) in E3; [|assumption..]. cbn [lu_p lu_l lu_u] in E3. destruct E3 as (Ep3 & Sl3 & Su3 & Il3 & Iu3).
  fold (pvt r si) in *.
  assert (Iu1' : forall i j, i < n -> j < m -> mentry u1 i j = mentry (lu_u s) (pvt r si i) j) by exact Iu1.
  assert (U2 : forall i j, i < n -> j < m -> i <> r -> mentry u2 i j = mentry (lu_u s) (pvt r si i) j).
  { intros i j Hi Hj N. specialize (Iu2 i j Hi Hj). rewrite (proj2 (Nat.eqb_neq i r) N) in Iu2. rewrite Iu2. apply Iu1'; assumption. }
  split.
  - exact Hs.
  - exact Ex.
  - exact Eps.
  - exact Es.
  - rewrite Ep3. exact Lp1.
  - intros i. rewrite Ep3, Hp1. reflexivity.
  - exact Sl3.
  - exact Su3.
  - intros i k Hi Hk. rewrite Il3, Il2, Il1 by assumption.
    destruct (Nat.eqb_spec k r) as [->|Nk].
    + rewrite andb_true_r. destruct (Nat.eqb_spec i r) as [->|Ni]; [rewrite Nat.ltb_irrefl; reflexivity|]. cbn [andb].
      destruct (Nat.ltb_spec r i); [apply U2; assumption|]. rewrite Nat.ltb_irrefl. reflexivity.
    + rewrite !andb_false_r. destruct (Nat.ltb_spec k r); reflexivity.
  - exists y. split; [exact Ey|]. intros j Hj. specialize (Iu2 r j Hr Hj). rewrite Nat.eqb_refl in Iu2.
    rewrite Iu1' in Iu2 by assumption. unfold pvt in Iu2. rewrite Nat.eqb_refl in Iu2.
    specialize (Iu3 r j Hr Hj). rewrite Nat.ltb_irrefl in Iu3. rewrite Iu3. exact Iu2.
  - intros i j Hi Hj N. pose proof (Iu3 r j Hr Hj) as I3r. rewrite Nat.ltb_irrefl in I3r. specialize (Iu3 i j Hi Hj).
    destruct (Nat.ltb_spec r i) as [L|L].
    + destruct Iu3 as (nx & q & A & B & D). rewrite U2 in A, D by assumption. rewrite <- I3r in B. eauto.
    + rewrite Iu3, U2 by assumption. unfold pvt. rewrite (proj2 (Nat.eqb_neq i r) N). destruct (Nat.eqb_spec i si); [lia|reflexivity].
Qed.
End Entry.
