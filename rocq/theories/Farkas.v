(** * Cones and linear inequalities over an ordered field, independent of the code.

    Farkas' lemma (the algebraic proof by induction on the number of generators), its linear version, and the
    fundamental theorem of linear inequalities for generators that span the whole space: a vector outside the cone is
    cut off by a hyperplane through [n-1] independent generators. *)
From Verif Require Import Base FieldIface LinSpec RrefSpec ConeProofs.
From Coq Require Import Field_theory Ring Field.

Section Farkas.
Context {K : MathField} (sgn : K -> comparison).
Add Field Kf25 : (kth K).
Context (sgn0 : forall x, sgn x = Eq <-> x = k0) (sgn_opp : forall x, sgn (kopp x) = CompOpp (sgn x))
  (sgn_add : forall x y, sgn x = Gt -> sgn y = Gt -> sgn (kadd x y) = Gt)
  (sgn_mul : forall x y, sgn x = Gt -> sgn y = Gt -> sgn (kmul x y) = Gt).
Notation vec := (nat -> K).
Notation "x '+' y" := (kadd x y). Notation "x '*' y" := (kmul x y). Notation "x '-' y" := (ksub x y).
Notation "x '/' y" := (kdiv x y).

Definition isneg (x : K) : Prop := sgn x = Lt.
Definition ispos (x : K) : Prop := sgn x = Gt.
Definition isnn (x : K) : Prop := sgn x <> Lt.

Lemma nn_zero : isnn k0.
Proof. unfold isnn. rewrite (proj2 (sgn0 k0) eq_refl). discriminate. Qed.
Lemma nn_cases x : isnn x -> x = k0 \/ ispos x.
Proof. unfold isnn, ispos. destruct (sgn x) eqn:E; intros H; [left; apply sgn0; exact E|congruence|right; reflexivity]. Qed.
Lemma sign_cases x : isneg x \/ isnn x.
Proof. unfold isnn, isneg. destruct (sgn x); [right|left|right]; congruence. Qed.
Lemma pos_nn x : ispos x -> isnn x. Proof. unfold ispos, isnn. congruence. Qed.
Lemma neg_opp x : isneg x <-> ispos (kopp x).
Proof. unfold isneg, ispos. rewrite sgn_opp. destruct (sgn x); cbn; split; congruence. Qed.
Lemma neg_not_nn x : isneg x -> isnn x -> False. Proof. unfold isneg, isnn. congruence. Qed.
Lemma pos_nonzero x : ispos x -> x <> k0.
Proof. unfold ispos. intros H E. apply sgn0 in E. congruence. Qed.
Lemma neg_nonzero x : isneg x -> x <> k0.
Proof. unfold isneg. intros H E. apply sgn0 in E. congruence. Qed.
Lemma nn_add x y : isnn x -> isnn y -> isnn (x + y).
Proof.
  intros Hx Hy. destruct (nn_cases x Hx) as [->|Px]; [replace (k0 + y) with y by ring; exact Hy|].
  destruct (nn_cases y Hy) as [->|Py]; [replace (x + k0) with x by ring; exact Hx|]. apply pos_nn. apply sgn_add; assumption.
Qed.
Lemma pos_add_nn x y : ispos x -> isnn y -> ispos (x + y).
Proof.
  intros Px Hy. destruct (nn_cases y Hy) as [->|Py]; [replace (x + k0) with x by ring; exact Px|]. apply sgn_add; assumption.
Qed.
Lemma nn_mul x y : isnn x -> isnn y -> isnn (x * y).
Proof.
  intros Hx Hy. destruct (nn_cases x Hx) as [->|Px]; [replace (k0 * y) with (@k0 K) by ring; apply nn_zero|].
  destruct (nn_cases y Hy) as [->|Py]; [replace (x * k0) with (@k0 K) by ring; apply nn_zero|]. apply pos_nn. apply sgn_mul; assumption.
Qed.
Lemma pos_one : ispos k1.
Proof.
  unfold ispos. destruct (sgn k1) eqn:E; [|exfalso|reflexivity].
  - apply sgn0 in E. exfalso. exact (F_1_neq_0 (kth K) E).
  - assert (P : ispos (kopp k1)) by (apply neg_opp; exact E). pose proof (sgn_mul _ _ P P) as X.
    replace (kopp k1 * kopp k1) with (@k1 K) in X by ring. congruence.
Qed.
Lemma pos_inv x : ispos x -> ispos (k1 / x).
Proof.
  intros P. pose proof (pos_nonzero x P) as NZ. unfold ispos. destruct (sgn (k1 / x)) eqn:E; [| |reflexivity]; exfalso.
  - apply sgn0 in E. apply (F_1_neq_0 (kth K)). replace (@k1 K) with (x * (k1 / x)) by (field; exact NZ). rewrite E. ring.
  - assert (Q : ispos (kopp (k1 / x))) by (apply neg_opp; exact E). pose proof (sgn_mul _ _ P Q) as X.
    replace (x * kopp (k1 / x)) with (kopp (@k1 K)) in X by (field; exact NZ). apply neg_opp in X. pose proof pos_one. unfold ispos, isneg in *. congruence.
Qed.
Lemma nn_div x y : isnn x -> ispos y -> isnn (x / y).
Proof.
  intros Hx Py. replace (x / y) with (x * (k1 / y)) by (field; exact (pos_nonzero _ Py)). apply nn_mul; [exact Hx|].
  apply pos_nn, pos_inv, Py.
Qed.
Lemma pos_div x y : ispos x -> ispos y -> ispos (x / y).
Proof.
  intros Hx Py. replace (x / y) with (x * (k1 / y)) by (field; exact (pos_nonzero _ Py)). apply sgn_mul; [exact Hx|apply pos_inv, Py].
Qed.
Lemma nn_sumn n (f : nat -> K) : (forall k, k < n -> isnn (f k)) -> isnn (sumn n f).
Proof. induction n; intros H; cbn [sumn]; [apply nn_zero|]. apply nn_add; [apply IHn; intros; apply H; lia|apply H; lia]. Qed.
Lemma pos_sumn n (f : nat -> K) j : (forall k, k < n -> isnn (f k)) -> j < n -> ispos (f j) -> ispos (sumn n f).
Proof.
  induction n; intros H Hj P; [lia|]. cbn [sumn]. destruct (Nat.eq_dec j n) as [->|N].
  - replace (sumn n f + f n) with (f n + sumn n f) by ring. apply pos_add_nn; [exact P|]. apply nn_sumn. intros; apply H; lia.
  - apply pos_add_nn; [apply IHn; [intros; apply H; lia|lia|exact P]|apply H; lia].
Qed.

(** ** Inner products *)
Definition dot (n : nat) (v w : vec) : K := sumn n (fun i => v i * w i).
Lemma dot_ext_l n (v v' w : vec) : (forall i, i < n -> v i = v' i) -> dot n v w = dot n v' w.
Proof. intros H. apply sumn_ext. intros i Hi. rewrite H by exact Hi. reflexivity. Qed.
Lemma dot_ext_r n (v w w' : vec) : (forall i, i < n -> w i = w' i) -> dot n v w = dot n v w'.
Proof. intros H. apply sumn_ext. intros i Hi. rewrite H by exact Hi. reflexivity. Qed.
Lemma dot_comm n (v w : vec) : dot n v w = dot n w v. Proof. apply sumn_ext. intros. ring. Qed.
Lemma dot_axpy_l n (v a w : vec) t : dot n (fun i => v i + t * a i) w = dot n v w + t * dot n a w.
Proof. unfold dot. rewrite <- sumn_mul_l, <- sumn_add. apply sumn_ext. intros. ring. Qed.
Lemma dot_axpy_r n (v w d : vec) t : dot n v (fun i => w i + t * d i) = dot n v w + t * dot n v d.
Proof. unfold dot. rewrite <- sumn_mul_l, <- sumn_add. apply sumn_ext. intros. ring. Qed.
Lemma dot_lcomb n (vs : list vec) c (y : vec) : dot n (lcomb vs c) y = sumn (length vs) (fun k => c k * dot n (nth k vs vzero) y).
Proof.
  unfold dot, lcomb.
  rewrite (sumn_ext n _ (fun i => sumn (length vs) (fun k => c k * (nth k vs vzero i * y i)))).
  - rewrite sumn_swap. apply sumn_ext. intros k _. rewrite sumn_mul_l. reflexivity.
  - intros i _. rewrite <- sumn_mul_r. apply sumn_ext. intros. ring.
Qed.
Lemma lcomb_cons v (vs : list vec) c i : lcomb (v :: vs) c i = c 0 * v i + lcomb vs (fun k => c (S k)) i.
Proof. unfold lcomb. cbn [length]. rewrite sumn_S_first. reflexivity. Qed.
Lemma dot_self_pos n (v : vec) i : i < n -> v i <> k0 -> ispos (dot n v v).
Proof.
  intros Hi H. unfold dot. assert (S : forall x, x <> k0 -> ispos (x * x)).
  { intros x N. destruct (sign_cases x) as [Hn|Hp].
    - apply neg_opp in Hn. pose proof (sgn_mul _ _ Hn Hn) as X. replace (kopp x * kopp x) with (x * x) in X by ring. exact X.
    - destruct (nn_cases x Hp) as [->|P]; [congruence|apply sgn_mul; exact P]. }
  apply (pos_sumn n _ i); [|exact Hi|apply S; exact H]. intros k _.
  destruct (kdec (v k) k0) as [->|N]; [replace (k0 * k0) with (@k0 K) by ring; apply nn_zero|apply pos_nn, S, N].
Qed.

(** ** The cone spanned by vectors *)
Definition in_cone (n : nat) (vs : list vec) (w : vec) : Prop :=
  exists c, (forall k, k < length vs -> isnn (c k)) /\ forall i, i < n -> w i = lcomb vs c i.

(** projecting along [a] onto the vectors orthogonal to [y] *)
Definition proj (a : vec) (b : vec -> K) (v : vec) : vec := fun i => v i + b v * a i.
Lemma lcomb_proj a b (vs : list vec) c i :
  lcomb (map (proj a b) vs) c i = lcomb vs c i + sumn (length vs) (fun k => c k * b (nth k vs vzero)) * a i.
Proof.
  unfold lcomb. rewrite map_length, <- sumn_mul_r, <- sumn_add. apply sumn_ext. intros k Hk.
  rewrite (nth_indep _ vzero (proj a b vzero)) by (rewrite map_length; exact Hk). rewrite map_nth. unfold proj. ring.
Qed.

Lemma farkas n (vs : list vec) : forall w, in_cone n vs w \/
  exists y, (forall v, In v vs -> isnn (dot n v y)) /\ isneg (dot n w y).
Proof.
  remember (length vs) as m eqn:Em. revert vs Em. induction m as [|m IH]; intros vs Em w.
  { destruct vs; [|discriminate]. destruct (find_nonzero n w) as [(i & Hi & N)|Z].
    - right. exists (fun i => k0 + kopp k1 * w i). split; [intros v []|].
      rewrite (dot_axpy_r n w (fun _ => k0) w). apply neg_opp.
      replace (kopp (dot n w (fun _ => k0) + kopp k1 * dot n w w)) with (dot n w w).
      + exact (dot_self_pos n w i Hi N).
      + replace (dot n w (fun _ => k0)) with (@k0 K); [ring|]. symmetry. apply sumn_zero'. intros; ring.
    - left. exists (fun _ => k0). split; [cbn; lia|]. intros i Hi. rewrite (Z i Hi). reflexivity. }
  destruct vs as [|a vs]; [discriminate|]. injection Em as Em.
  destruct (IH vs Em w) as [(c & C1 & C2)|(y & Y1 & Y2)].
  { left. exists (fun k => match k with O => k0 | S k' => c k' end). split.
    - intros [|k] Hk; [apply nn_zero|apply C1; cbn in Hk; lia].
    - intros i Hi. rewrite lcomb_cons, (C2 i Hi). cbn beta iota. change (fun k => c k) with c. ring. }
  destruct (sign_cases (dot n a y)) as [NA|PA].
  2:{ right. exists y. split; [|exact Y2]. intros v [<-|Hv]; [exact PA|auto]. }
  apply neg_opp in NA. set (al := kopp (dot n a y)) in *. pose proof (pos_nonzero _ NA) as NZ.
  set (b := fun v => dot n v y / al).
  destruct (IH (map (proj a b) vs) ltac:(rewrite map_length; exact Em) (proj a b w)) as [(c & C1 & C2)|(z & Z1 & Z2)].
  - left. rewrite map_length in C1.
    exists (fun k => match k with O => sumn (length vs) (fun k => c k * b (nth k vs vzero)) - b w | S k' => c k' end). split.
    + intros [|k] Hk; [|apply C1; cbn in Hk; lia].
      replace (sumn (length vs) (fun k => c k * b (nth k vs vzero)) - b w) with (sumn (length vs) (fun k => c k * b (nth k vs vzero)) + kopp (dot n w y) / al)
        by (unfold b; field; exact NZ).
      apply nn_add; [|apply nn_div; [apply pos_nn, neg_opp, Y2|exact NA]].
      apply nn_sumn. intros k Hk'. apply nn_mul; [apply C1; exact Hk'|]. apply nn_div; [|exact NA]. apply Y1, nth_In, Hk'.
    + intros i Hi. rewrite lcomb_cons. cbn beta iota. change (fun k => c k) with c. specialize (C2 i Hi). rewrite lcomb_proj in C2. unfold proj in C2.
      replace (w i) with ((w i + b w * a i) - b w * a i) by ring. rewrite C2. ring.
  - right. exists (fun i => z i + (dot n a z / al) * y i).
    assert (X : forall v, dot n v (fun i => z i + (dot n a z / al) * y i) = dot n (proj a b v) z).
    { intros v. unfold proj. rewrite dot_axpy_r, dot_axpy_l. unfold b. field. exact NZ. }
    split; [|rewrite X; exact Z2]. intros v [<-|Hv].
    + rewrite X. unfold proj. rewrite dot_axpy_l. unfold b.
      replace (dot n a z + dot n a y / al * dot n a z) with (@k0 K); [apply nn_zero|]. unfold al in *. field.
      intros E. apply NZ. exact E.
    + rewrite X. apply Z1, in_map, Hv.
Qed.

(** linear version: a vector outside the span is separated from it *)
Lemma fredholm n (vs : list vec) : forall w, in_span n vs w \/
  exists y, (forall v, In v vs -> dot n v y = k0) /\ dot n w y <> k0.
Proof.
  remember (length vs) as m eqn:Em. revert vs Em. induction m as [|m IH]; intros vs Em w.
  { destruct vs; [|discriminate]. destruct (find_nonzero n w) as [(i & Hi & N)|Z].
    - right. exists w. split; [intros v []|]. apply pos_nonzero. exact (dot_self_pos n w i Hi N).
    - left. exists (fun _ => k0). intros i Hi. rewrite (Z i Hi). reflexivity. }
  destruct vs as [|a vs]; [discriminate|]. injection Em as Em.
  destruct (IH vs Em w) as [(c & C2)|(y & Y1 & Y2)].
  { left. exists (fun k => match k with O => k0 | S k' => c k' end). intros i Hi. rewrite lcomb_cons, (C2 i Hi). cbn beta iota. change (fun k => c k) with c. ring. }
  destruct (kdec (dot n a y) k0) as [ZA|NZ].
  { right. exists y. split; [|exact Y2]. intros v [<-|Hv]; [exact ZA|auto]. }
  set (t := dot n w y / dot n a y).
  destruct (IH vs Em (fun i => w i + kopp t * a i)) as [(c & C2)|(z & Z1 & Z2)].
  - left. exists (fun k => match k with O => t | S k' => c k' end). intros i Hi. rewrite lcomb_cons. cbn beta iota. change (fun k => c k) with c. rewrite <- (C2 i Hi). ring.
  - right. exists (fun i => z i + kopp (dot n a z / dot n a y) * y i). split.
    + intros v [<-|Hv]; rewrite dot_axpy_r.
      * field. exact NZ.
      * rewrite (Z1 v Hv), (Y1 v Hv). ring.
    + intros E. apply Z2. rewrite dot_axpy_r in E. rewrite dot_axpy_l. rewrite <- E. unfold t. field. exact NZ.
Qed.

(** ** Independent sublists *)
Lemma indep_cons n v (vs : list vec) y : lin_indep n vs -> (forall u, In u vs -> dot n u y = k0) -> dot n v y <> k0 ->
  lin_indep n (v :: vs).
Proof.
  intros I Y N c Hc.
  assert (C0 : c 0 = k0).
  { assert (D : dot n (lcomb (v :: vs) c) y = k0) by (apply sumn_zero'; intros i Hi; rewrite (Hc i Hi); ring).
    rewrite dot_lcomb in D. cbn [length] in D. rewrite sumn_S_first in D. cbn [nth] in D.
    rewrite (sumn_zero' (length vs)) in D by (intros k Hk; rewrite (Y (nth k vs vzero) (nth_In _ _ Hk)); ring).
    destruct (kdec (c 0) k0) as [E|E]; [exact E|]. exfalso. apply N.
    replace (dot n v y) with ((c 0 * dot n v y + k0) / c 0) by (field; exact E). rewrite D. field. exact E. }
  intros [|k] Hk; [exact C0|]. apply (I (fun k => c (S k))); [|cbn in Hk; lia].
  intros i Hi. specialize (Hc i Hi). rewrite lcomb_cons, C0 in Hc. rewrite <- Hc. ring.
Qed.
Lemma indep_sublist n (vs : list vec) : exists sub, subseq sub vs /\ lin_indep n sub /\ Forall (in_span n sub) vs.
Proof.
  induction vs as [|v vs (sub & S & I & G)].
  - exists []. split; [constructor|]. split; [|constructor]. intros c _ k Hk. cbn in Hk. lia.
  - destruct (fredholm n sub v) as [Sv|(y & Y1 & Y2)].
    + exists sub. split; [constructor; exact S|]. split; [exact I|]. constructor; assumption.
    + exists (v :: sub). split; [constructor; exact S|]. split; [exact (indep_cons n v sub y I Y1 Y2)|].
      constructor; [apply in_span_mem; left; reflexivity|].
      eapply Forall_impl; [|exact G]. intros w Hw. apply (span_trans n sub); [|exact Hw].
      apply Forall_forall. intros u Hu. apply in_span_mem. right. exact Hu.
Qed.
Lemma span_dot_zero n (vs : list vec) w y : (forall v, In v vs -> dot n v y = k0) -> in_span n vs w -> dot n w y = k0.
Proof.
  intros H [c Hc]. rewrite (dot_ext_l n w (lcomb vs c) y Hc), dot_lcomb. apply sumn_zero'. intros k Hk.
  rewrite (H _ (nth_In _ _ Hk)). ring.
Qed.
(** [n] or more independent vectors span everything *)
Lemma many_indep_span n (vs : list vec) w : lin_indep n vs -> n <= length vs -> in_span n vs w.
Proof.
  intros I L. destruct (rows_dependent n (S (length vs)) (fun k => nth k (w :: vs) vzero)) as (c & (k & Hk & Nk) & Hc); [lia|].
  assert (X : forall i, i < n -> c 0 * w i + lcomb vs (fun k => c (S k)) i = k0).
  { intros i Hi. rewrite <- lcomb_cons. exact (Hc i Hi). }
  destruct (kdec (c 0) k0) as [E|E].
  - exfalso. destruct k as [|k]; [congruence|]. apply Nk. apply (I (fun k => c (S k))); [|lia].
    intros i Hi. rewrite <- (X i Hi), E. ring.
  - exists (fun k => kopp (c (S k) / c 0)). intros i Hi. specialize (X i Hi).
    assert (Y : lcomb vs (fun k => kopp (c (S k) / c 0)) i = kopp (lcomb vs (fun k => c (S k)) i / c 0)).
    { unfold lcomb. replace (kopp (sumn (length vs) (fun k => c (S k) * nth k vs vzero i) / c 0))
        with (kopp (k1 / c 0) * sumn (length vs) (fun k => c (S k) * nth k vs vzero i)) by (field; exact E).
      rewrite <- sumn_mul_l. apply sumn_ext. intros. field. exact E. }
    rewrite Y. replace (lcomb vs (fun k => c (S k)) i) with (kopp (c 0 * w i)).
    + field. exact E.
    + transitivity (k0 - c 0 * w i); [ring|]. rewrite <- X. ring.
Qed.

(** ** Moving a separating hyperplane until it contains enough generators *)
Lemma min_of {A : Type} (r : A -> K) (l : list A) : l <> [] -> exists x, In x l /\ forall u, In u l -> isnn (r u - r x).
Proof.
  induction l as [|a l IH]; intros NE; [congruence|].
  assert (S : forall x, isnn (x - x)) by (intros x; replace (x - x) with (@k0 K) by ring; apply nn_zero).
  destruct l as [|b l].
  - exists a. split; [left; reflexivity|]. intros u [<-|[]]. apply S.
  - destruct IH as (x & Hx & M); [discriminate|]. destruct (sign_cases (r a - r x)) as [L|L].
    + exists a. split; [left; reflexivity|]. intros u [<-|Hu]; [apply S|]. replace (r u - r a) with ((r u - r x) + kopp (r a - r x)) by ring.
      apply nn_add; [apply M; exact Hu|apply pos_nn, neg_opp, L].
    + exists x. split; [right; exact Hx|]. intros u [<-|Hu]; [exact L|apply M; exact Hu].
Qed.
Lemma filter_shrink {A : Type} (p q : A -> bool) (l : list A) x : (forall u, In u l -> q u = true -> p u = true) ->
  In x l -> p x = true -> q x = false -> length (filter q l) < length (filter p l).
Proof.
  intros H Hx Px Qx. induction l as [|a l IH]; [destruct Hx|]. cbn [filter].
  assert (LE : forall l', (forall u, In u l' -> q u = true -> p u = true) -> length (filter q l') <= length (filter p l')).
  { induction l' as [|b l' IH']; intros H'; [cbn; lia|]. cbn [filter]. specialize (IH' ltac:(intros; apply H'; [right|]; assumption)).
    pose proof (H' b (or_introl eq_refl)). destruct (q b), (p b); cbn [length]; try lia; discriminate (H0 eq_refl). }
  destruct Hx as [->|Hx].
  - rewrite Px, Qx. cbn [length]. specialize (LE l ltac:(intros; apply H; [right|]; assumption)). lia.
  - specialize (IH ltac:(intros; apply H; [right|]; assumption) Hx). pose proof (H a (or_introl eq_refl)).
    destruct (q a), (p a); cbn [length]; try lia; discriminate (H0 eq_refl).
Qed.
Lemma subseq_trans {A : Type} (a b c : list A) : subseq b c -> subseq a b -> subseq a c.
Proof.
  intros S. revert a. induction S; intros a' S'.
  - exact S'.
  - constructor. apply IHS, S'.
  - inversion S'; subst; constructor; apply IHS; assumption.
Qed.
Lemma subseq_filter {A : Type} (p : A -> bool) (l : list A) : subseq (filter p l) l.
Proof. induction l; cbn [filter]; [constructor|]. destruct (p a); constructor; exact IHl. Qed.

Definition off (n : nat) (y v : vec) : bool := if kdec (dot n v y) k0 then false else true.
Lemma off_false n y v : off n y v = false <-> dot n v y = k0.
Proof. unfold off. destruct (kdec (dot n v y) k0); split; congruence. Qed.
Lemma off_true n y v : off n y v = true <-> dot n v y <> k0.
Proof. unfold off. destruct (kdec (dot n v y) k0); split; congruence. Qed.

Lemma push_hyperplane n (vs : list vec) w y d :
  (forall v, In v vs -> isnn (dot n v y)) -> isneg (dot n w y) ->
  dot n w d = k0 -> (forall v, In v vs -> dot n v y = k0 -> dot n v d = k0) -> (exists v, In v vs /\ isneg (dot n v d)) ->
  exists y', (forall v, In v vs -> isnn (dot n v y')) /\ isneg (dot n w y') /\
    (forall v, In v vs -> dot n v y = k0 -> dot n v y' = k0) /\ exists v, In v vs /\ dot n v y <> k0 /\ dot n v y' = k0.
Proof.
  intros Y W Wd T (v0 & V0 & N0).
  set (isn := fun v : vec => match sgn (dot n v d) with Lt => true | _ => false end).
  assert (ISN : forall v, isn v = true <-> isneg (dot n v d)).
  { intros v. unfold isn, isneg. destruct (sgn (dot n v d)); split; congruence. }
  set (r := fun v => dot n v y / kopp (dot n v d)).
  destruct (min_of r (filter isn vs)) as (x & Hx & M).
  { intros E. assert (X : In v0 (filter isn vs)) by (apply filter_In; split; [exact V0|apply ISN, N0]). rewrite E in X. destruct X. }
  apply filter_In in Hx. destruct Hx as [Hx Nx]. apply ISN in Nx. pose proof (neg_nonzero _ Nx) as NZx.
  exists (fun i => y i + r x * d i). split; [|split; [|split]].
  - intros v Hv. rewrite dot_axpy_r. destruct (sign_cases (dot n v d)) as [Nv|Pv].
    + pose proof (neg_nonzero _ Nv) as NZv. replace (dot n v y + r x * dot n v d) with (kopp (dot n v d) * (r v - r x)).
      * apply nn_mul; [apply pos_nn, neg_opp, Nv|]. apply M. apply filter_In. split; [exact Hv|apply ISN, Nv].
      * unfold r. field. split; apply pos_nonzero, neg_opp; assumption.
    + apply nn_add; [apply Y, Hv|]. apply nn_mul; [|exact Pv]. apply nn_div; [apply Y, Hx|apply neg_opp, Nx].
  - rewrite dot_axpy_r, Wd. replace (dot n w y + r x * k0) with (dot n w y) by ring. exact W.
  - intros v Hv Z. rewrite dot_axpy_r, Z, (T v Hv Z). ring.
  - exists x. split; [exact Hx|]. split; [intros Z; apply NZx, T; assumption|]. rewrite dot_axpy_r. unfold r. field. apply pos_nonzero, neg_opp, Nx.
Qed.

Theorem separating_facet n (vs : list vec) w :
  (forall d, (forall v, In v vs -> dot n v d = k0) -> forall i, i < n -> d i = k0) ->
  in_cone n vs w \/
  exists sub y, subseq sub vs /\ S (length sub) = n /\ lin_indep n sub /\ (forall u, In u sub -> dot n u y = k0) /\
    (forall v, In v vs -> isnn (dot n v y)) /\ isneg (dot n w y).
Proof.
  intros FULL. destruct (farkas n vs w) as [C|(y & Y & W)]; [left; exact C|right].
  remember (length (filter (off n y) vs)) as m eqn:Em. revert y Y W Em.
  induction m as [m IH] using (well_founded_induction Nat.lt_wf_0). intros y Y W Em.
  set (tight := filter (fun v => negb (off n y v)) vs).
  assert (TI : forall v, In v tight <-> In v vs /\ dot n v y = k0).
  { intros v. unfold tight. rewrite filter_In, <- off_false. destruct (off n y v); cbn; intuition congruence. }
  destruct (indep_sublist n tight) as (sub & SB & I & G). rewrite Forall_forall in G.
  assert (SY : forall u, In u sub -> dot n u y = k0).
  { intros u Hu. apply (TI u). exact (subseq_In _ _ _ SB Hu). }
  destruct (Nat.le_gt_cases n (length sub)) as [L|L].
  { exfalso. apply (neg_nonzero _ W). apply (span_dot_zero n sub); [exact SY|]. apply many_indep_span; assumption. }
  destruct (Nat.eq_dec (S (length sub)) n) as [E|NE].
  { exists sub, y. split; [exact (subseq_trans _ _ _ (subseq_filter _ vs) SB)|]. auto 10. }
  destruct (rows_dependent (S (length sub)) n (fun i j => nth j (w :: sub) vzero i)) as (d & (i & Hi & Ni) & Hd); [lia|].
  assert (D : forall u, In u (w :: sub) -> dot n u d = k0).
  { intros u Hu. destruct (In_nth _ _ vzero Hu) as (j & Hj & <-). rewrite dot_comm. exact (Hd j Hj). }
  assert (DT : forall v, In v vs -> dot n v y = k0 -> dot n v d = k0).
  { intros v Hv Z. apply (span_dot_zero n sub); [intros u Hu; apply D; right; exact Hu|]. apply G, TI. split; assumption. }
  assert (X : exists v, In v vs /\ dot n v d <> k0).
  { destruct (existsb (off n d) vs) eqn:E.
    - apply existsb_exists in E. destruct E as (v & Hv & O). exists v. split; [exact Hv|apply off_true, O].
    - exfalso. apply Ni. apply FULL; [|exact Hi]. intros v Hv. apply off_false. destruct (off n d v) eqn:O; [|reflexivity].
      assert (X : existsb (off n d) vs = true) by (apply existsb_exists; exists v; split; assumption). congruence. }
  assert (Y' : exists d', dot n w d' = k0 /\ (forall v, In v vs -> dot n v y = k0 -> dot n v d' = k0) /\ exists v, In v vs /\ isneg (dot n v d')).
  { destruct X as (v & Hv & Nv). destruct (sign_cases (dot n v d)) as [Lv|Pv].
    - exists d. split; [apply D; left; reflexivity|]. split; [exact DT|]. exists v. split; assumption.
    - assert (OPP : forall u, dot n u (fun i => k0 + kopp k1 * d i) = kopp (dot n u d)).
      { intros u. rewrite (dot_axpy_r n u (fun _ => k0) d). replace (dot n u (fun _ => k0)) with (@k0 K); [ring|].
        symmetry. apply sumn_zero'. intros. ring. }
      exists (fun i => k0 + kopp k1 * d i). split; [rewrite OPP, (D w (or_introl eq_refl)); ring|]. split.
      + intros u Hu Z. rewrite OPP, (DT u Hu Z). ring.
      + exists v. split; [exact Hv|]. rewrite OPP. destruct (nn_cases _ Pv) as [Z|P]; [contradiction|].
        apply neg_opp. replace (kopp (kopp (dot n v d))) with (dot n v d) by ring. exact P. }
  destruct Y' as (d' & D1 & D2 & D3).
  destruct (push_hyperplane n vs w y d' Y W D1 D2 D3) as (y' & A1 & A2 & A3 & v & Hv & V1 & V2).
  apply (IH (length (filter (off n y') vs))) with (y := y'); [|exact A1|exact A2|reflexivity].
  rewrite Em. apply (filter_shrink _ _ _ v); [|exact Hv|apply off_true, V1|apply off_false, V2].
  intros u Hu. rewrite !off_true. intros N Z. apply N, A3; assumption.
Qed.
End Farkas.
