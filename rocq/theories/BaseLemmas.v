(** * Lemmas about [res], [safe], [evs] and the list helpers of [Base]. *)
From Verif Require Import Base.

Lemma safe_Ok {A} (a : A) (Q : A -> Prop) : Q a -> safe (Ok a) Q.
Proof. exact (fun h => h). Qed.

Lemma safe_bind {A B} (x : res A) (f : A -> res B) (P : A -> Prop) (Q : B -> Prop) :
  safe x P -> (forall a, P a -> safe (f a) Q) -> safe (bind x f) Q.
Proof. destruct x as [a|[]|]; simpl; auto; tauto. Qed.

(** remembering the value computed *)
Lemma safe_bind_eq {A B} (x : res A) (f : A -> res B) (P : A -> Prop) (Q : B -> Prop) :
  safe x P -> (forall a, x = Ok a -> P a -> safe (f a) Q) -> safe (bind x f) Q.
Proof. destruct x as [a|[]|]; simpl; auto; tauto. Qed.

Lemma safe_mono {A} (x : res A) (P Q : A -> Prop) :
  safe x P -> (forall a, P a -> Q a) -> safe x Q.
Proof. destruct x as [a|[]|]; simpl; auto. Qed.

Lemma safe_and {A} (x : res A) (P Q : A -> Prop) :
  safe x P -> safe x Q -> safe x (fun a => P a /\ Q a).
Proof. destruct x as [a|[]|]; simpl; auto. Qed.

Lemma safe_inv {A} (x : res A) (Q : A -> Prop) :
  safe x Q <-> x = Panic Overflow \/ exists a, x = Ok a /\ Q a.
Proof.
  split.
  - destruct x as [a|[]|]; simpl; intros H; try contradiction; eauto.
  - intros [->|[a [-> H]]]; simpl; auto.
Qed.

Lemma safe_val {A} (x : res A) (Q : A -> Prop) a : safe x Q -> x = Ok a -> Q a.
Proof. intros H ->; exact H. Qed.

Lemma bind_Ok {A B} (x : res A) (f : A -> res B) b :
  bind x f = Ok b -> exists a, x = Ok a /\ f a = Ok b.
Proof. destruct x; simpl; intros H; try discriminate; eauto. Qed.

Lemma bind_assoc {A B C} (x : res A) (f : A -> res B) (g : B -> res C) :
  bind (bind x f) g = bind x (fun a => bind (f a) g).
Proof. destruct x; reflexivity. Qed.

(** ** mapM / foldM *)

Lemma mapM_safe {A B} (f : A -> res B) (R : A -> B -> Prop) (l : list A) :
  (forall a, In a l -> safe (f a) (R a)) -> safe (mapM f l) (Forall2 R l).
Proof.
  induction l as [|x xs IH]; intros H; simpl.
  - constructor.
  - eapply safe_bind; [apply H; left; reflexivity|].
    intros b Hb. eapply safe_bind; [apply IH; intros; apply H; right; assumption|].
    intros bs Hbs. simpl. constructor; assumption.
Qed.

Lemma mapM_Ok {A B} (f : A -> res B) (l : list A) (bs : list B) :
  mapM f l = Ok bs -> Forall2 (fun a b => f a = Ok b) l bs.
Proof.
  revert bs; induction l as [|x xs IH]; simpl; intros bs H.
  - injection H as <-. constructor.
  - apply bind_Ok in H as [b [Hb H]]. apply bind_Ok in H as [ys [Hys H]].
    injection H as <-. constructor; auto.
Qed.

Lemma mapM_Ok_intro {A B} (f : A -> res B) (g : A -> B) (l : list A) :
  (forall a, In a l -> f a = Ok (g a)) -> mapM f l = Ok (map g l).
Proof.
  induction l as [|x xs IH]; simpl; intros H; [reflexivity|].
  rewrite H by auto. simpl. rewrite IH by auto. reflexivity.
Qed.

Lemma foldM_app {A S} (f : S -> A -> res S) l1 l2 s :
  foldM f (l1 ++ l2) s = (s' <- foldM f l1 s ;; foldM f l2 s').
Proof.
  revert s; induction l1 as [|x xs IH]; intros s; simpl; [reflexivity|].
  destruct (f s x); simpl; auto.
Qed.

(** invariant rule: [I] relates the already processed prefix to the state *)
Lemma foldM_safe {A S} (f : S -> A -> res S) (I : list A -> S -> Prop) (l : list A) s :
  I [] s ->
  (forall pre x post s, l = pre ++ x :: post -> I pre s -> safe (f s x) (I (pre ++ [x]))) ->
  safe (foldM f l s) (I l).
Proof.
  intros H0 Hstep.
  assert (G : forall post pre s, l = pre ++ post -> I pre s -> safe (foldM f post s) (I l)).
  { induction post as [|x post IH]; intros pre s' E Hs; simpl.
    - rewrite app_nil_r in E; subst; assumption.
    - eapply safe_bind; [eapply Hstep; eassumption|].
      intros s'' Hs''. apply (IH (pre ++ [x])); [rewrite <- app_assoc; exact E|assumption]. }
  apply (G l []); auto.
Qed.

(** simple state invariant *)
Lemma foldM_inv {A S} (f : S -> A -> res S) (I : S -> Prop) (l : list A) s :
  I s -> (forall x s, In x l -> I s -> safe (f s x) I) -> safe (foldM f l s) I.
Proof.
  intros H0 Hs. apply (foldM_safe f (fun _ => I)); auto.
  intros pre x post s' -> HI. apply Hs; auto. apply in_or_app; right; left; reflexivity.
Qed.

(** ** evs *)

Lemma evs_const {A} (x : res A) (Q : A -> Prop) : safe x Q -> evs (fun _ => x) Q.
Proof. intros H; exists 0, x; auto. Qed.

Lemma evs_mono {A} (g : nat -> res A) (P Q : A -> Prop) :
  evs g P -> (forall a, P a -> Q a) -> evs g Q.
Proof. intros (N & r & E & H) HPQ; exists N, r; split; auto. eapply safe_mono; eauto. Qed.

Lemma evs_bind {A B} (g : nat -> res A) (h : A -> nat -> res B) (P : A -> Prop) (Q : B -> Prop) :
  evs g P -> (forall a, P a -> evs (h a) Q) -> evs (fun n => bind (g n) (fun a => h a n)) Q.
Proof.
  intros (N & r & E & H) Hh.
  destruct r as [a|k|]; simpl in H.
  - destruct (Hh a H) as (N' & r' & E' & H').
    exists (Nat.max N N'), r'. split; auto.
    intros n Hn. rewrite E by lia. simpl. apply E'. lia.
  - exists N, (Panic k).
    split; [intros n Hn; rewrite E by assumption; reflexivity | destruct k; auto].
  - contradiction.
Qed.

(** same, remembering which value was computed *)
Lemma evs_bind_eq {A B} (g : nat -> res A) (h : A -> nat -> res B) (P : A -> Prop) (Q : B -> Prop) :
  evs g P -> (forall a, P a -> (exists N, forall n, N <= n -> g n = Ok a) -> evs (h a) Q) ->
  evs (fun n => bind (g n) (fun a => h a n)) Q.
Proof.
  intros (N & r & E & H) Hh.
  destruct r as [a|k|]; simpl in H.
  - destruct (Hh a H) as (N' & r' & E' & H'); [eauto|].
    exists (Nat.max N N'), r'. split; auto.
    intros n Hn. rewrite E by lia. simpl. apply E'. lia.
  - exists N, (Panic k).
    split; [intros n Hn; rewrite E by assumption; reflexivity | destruct k; auto].
  - contradiction.
Qed.

Lemma evs_bind_safe {A B} (x : res A) (h : A -> nat -> res B) (P : A -> Prop) (Q : B -> Prop) :
  safe x P -> (forall a, P a -> evs (h a) Q) -> evs (fun n => bind x (fun a => h a n)) Q.
Proof. intros Hx Hh. apply (evs_bind (fun _ => x) h P Q); auto using evs_const. Qed.

Lemma evs_bind_safe_eq {A B} (x : res A) (h : A -> nat -> res B) (P : A -> Prop) (Q : B -> Prop) :
  safe x P -> (forall a, x = Ok a -> P a -> evs (h a) Q) -> evs (fun n => bind x (fun a => h a n)) Q.
Proof.
  intros Hx Hh. apply (evs_bind_safe x h (fun a => x = Ok a /\ P a)).
  - destruct x as [a|[]|]; simpl in *; auto.
  - intros a [E Ha]; auto.
Qed.

Lemma evs_ext {A} (g g' : nat -> res A) (Q : A -> Prop) :
  (forall n, g n = g' n) -> evs g Q -> evs g' Q.
Proof. intros E (N & r & HN & H); exists N, r; split; auto. intros n Hn; rewrite <- E; auto. Qed.

(** one more unit of fuel *)
Lemma evs_S {A} (g g' : nat -> res A) (Q : A -> Prop) :
  (forall n, g' (S n) = g n) -> evs g Q -> evs g' Q.
Proof.
  intros E (N & r & HN & H); exists (S N), r; split; auto.
  intros n Hn. destruct n as [|n]; [lia|]. rewrite E. apply HN; lia.
Qed.

(** the two fuels of nested loops may differ by one step *)
Lemma evs_out {A} (g : nat -> res A) (Q : A -> Prop) :
  evs g Q -> exists N, forall n, N <= n ->
    g n = Panic Overflow \/ exists a, g n = Ok a /\ Q a.
Proof.
  intros (N & r & E & H). exists N. intros n Hn. rewrite E by assumption.
  apply safe_inv; assumption.
Qed.

Lemma evs_val {A} (g : nat -> res A) (Q : A -> Prop) n a :
  evs g Q -> (forall n n' a, g n = Ok a -> n <= n' -> g n' = Ok a) -> g n = Ok a -> Q a.
Proof.
  intros (N & r & E & H) Hm Ha.
  assert (E' : g (Nat.max n N) = Ok a) by (apply (Hm n); [assumption|lia]).
  rewrite E in E' by lia. subst r. exact H.
Qed.

(** ** list helpers *)

Lemma list_set_length {A} (l : list A) i a : length (list_set l i a) = length l.
Proof. revert i; induction l; intros [|i]; simpl; auto. Qed.

Lemma nth_error_list_set {A} (l : list A) i j a :
  nth_error (list_set l i a) j =
  if (i =? j) then (if i <? length l then Some a else None) else nth_error l j.
Proof.
  revert i j; induction l as [|x xs IH]; intros [|i] [|j]; simpl; auto.
  - destruct (i =? j); reflexivity.
  - rewrite IH. change (S i <? S (length xs)) with (i <? length xs). reflexivity.
Qed.

Lemma nth_list_set {A} (l : list A) i j a d :
  i < length l -> nth j (list_set l i a) d = if i =? j then a else nth j l d.
Proof.
  revert i j; induction l as [|x xs IH]; intros [|i] [|j]; simpl; intros H; try lia; auto.
  apply IH; lia.
Qed.

Lemma vget_Ok {A} (l : list A) i d : i < length l -> vget l i = Ok (nth i l d).
Proof.
  intros H. unfold vget. rewrite (nth_error_nth' l d H). reflexivity.
Qed.

Lemma vget_inv {A} (l : list A) i a : vget l i = Ok a -> nth_error l i = Some a.
Proof. unfold vget. destruct (nth_error l i); congruence. Qed.

Lemma vset_Ok {A} (l : list A) i a : i < length l -> vset l i a = Ok (list_set l i a).
Proof. intros H. unfold vset. apply Nat.ltb_lt in H. rewrite H. reflexivity. Qed.

Lemma list_set_split {A} (l1 : list A) x l2 a :
  list_set (l1 ++ x :: l2) (length l1) a = l1 ++ a :: l2.
Proof. induction l1; simpl; congruence. Qed.

Lemma list_remove_split {A} (l1 : list A) x l2 :
  list_remove (l1 ++ x :: l2) (length l1) = l1 ++ l2.
Proof. induction l1; simpl; congruence. Qed.

Lemma position_Some {A} (p : A -> bool) (l : list A) i :
  position p l = Some i ->
  exists l1 x l2, l = l1 ++ x :: l2 /\ length l1 = i /\ p x = true /\ Forall (fun y => p y = false) l1.
Proof.
  revert i; induction l as [|x xs IH]; simpl; intros i H; [discriminate|].
  destruct (p x) eqn:E.
  - injection H as <-. exists [], x, xs. repeat split; auto.
  - destruct (position p xs) as [j|]; simpl in H; [|discriminate]. injection H as <-.
    destruct (IH j eq_refl) as (l1 & y & l2 & -> & Hl & Hp & HF).
    exists (x :: l1), y, l2. simpl. repeat split; auto.
Qed.

Lemma position_None {A} (p : A -> bool) (l : list A) :
  position p l = None <-> Forall (fun y => p y = false) l.
Proof.
  induction l as [|x xs IH]; simpl; split; intros H; auto.
  - destruct (p x) eqn:E; [discriminate|]. destruct (position p xs); [discriminate|].
    constructor; auto. apply IH; reflexivity.
  - inversion H; subst. rewrite H2. apply IH in H3. rewrite H3. reflexivity.
Qed.

Lemma rposition_Some {A} (p : A -> bool) (l : list A) i :
  rposition p l = Some i ->
  exists l1 x l2, l = l1 ++ x :: l2 /\ length l1 = i /\ p x = true /\ Forall (fun y => p y = false) l2.
Proof.
  revert i; induction l as [|x xs IH]; simpl; intros i H; [discriminate|].
  destruct (rposition p xs) as [j|] eqn:E.
  - injection H as <-. destruct (IH j eq_refl) as (l1 & y & l2 & -> & Hl & Hp & HF).
    exists (x :: l1), y, l2. simpl. repeat split; auto.
  - destruct (p x) eqn:Ex; [|discriminate]. injection H as <-.
    exists [], x, xs. repeat split; auto.
    clear IH. induction xs as [|y ys IHy]; auto. simpl in E.
    destruct (rposition p ys); [discriminate|]. destruct (p y) eqn:Ey; [discriminate|].
    constructor; auto.
Qed.

Lemma rposition_None {A} (p : A -> bool) (l : list A) :
  rposition p l = None <-> Forall (fun y => p y = false) l.
Proof.
  induction l as [|x xs IH]; simpl; split; intros H; auto.
  - destruct (rposition p xs); [discriminate|]. destruct (p x) eqn:Ex; [discriminate|].
    constructor; auto. apply IH; reflexivity.
  - inversion H; subst. rewrite H2. apply IH in H3. rewrite H3. reflexivity.
Qed.

Lemma In_cartesian {A B} (l1 : list A) (l2 : list B) a b :
  In (a, b) (cartesian l1 l2) <-> In a l1 /\ In b l2.
Proof.
  unfold cartesian. rewrite in_flat_map. split.
  - intros (x & Hx & H). apply in_map_iff in H as (y & E & Hy). injection E as <- <-. auto.
  - intros [Ha Hb]. exists a. split; auto. apply in_map; assumption.
Qed.

(** ** mode refinement: whatever the checked build returns, the wrapping build returns too *)
Definition res_le {A} (x y : res A) : Prop := forall a, x = Ok a -> y = Ok a.

Lemma res_le_refl {A} (x : res A) : res_le x x.
Proof. intros a H; exact H. Qed.

Lemma res_le_bind {A B} (x y : res A) (f g : A -> res B) :
  res_le x y -> (forall a, x = Ok a -> res_le (f a) (g a)) -> res_le (bind x f) (bind y g).
Proof.
  intros H1 H2 b H. apply bind_Ok in H as (a & Ha & Hb).
  rewrite (H1 a Ha). simpl. apply H2; assumption.
Qed.

Lemma res_le_mapM {A B} (f g : A -> res B) l :
  (forall a, In a l -> res_le (f a) (g a)) -> res_le (mapM f l) (mapM g l).
Proof.
  induction l as [|x xs IH]; simpl; intros H; [apply res_le_refl|].
  apply res_le_bind; [auto|]. intros y _. apply res_le_bind; [auto|]. intros; apply res_le_refl.
Qed.

Lemma res_le_foldM {A S} (f g : S -> A -> res S) l s :
  (forall s a, res_le (f s a) (g s a)) -> res_le (foldM f l s) (foldM g l s).
Proof.
  intros H; revert s; induction l as [|x xs IH]; simpl; intros s; [apply res_le_refl|].
  apply res_le_bind; auto.
Qed.

Lemma nodup_snoc {A} (l : list A) x : NoDup l -> ~ In x l -> NoDup (l ++ [x]).
Proof.
  intros H N. apply NoDup_rev in H. rewrite <- (rev_involutive (l ++ [x])). apply NoDup_rev.
  rewrite rev_app_distr. simpl. constructor; [rewrite <- in_rev; exact N|exact H].
Qed.

Lemma Forall2_len {A B} (R : A -> B -> Prop) l l' : Forall2 R l l' -> length l = length l'.
Proof. induction 1; simpl; congruence. Qed.
