(** * Carrying polynomials, matrices and outcomes from one field type to another. *)
From Verif Require Import Base BaseLemmas FieldIface MDegModel PolyModel MatModel AlgModel ConeModel CompModel Param ParamMat.
Local Open Scope nat_scope.

(** the outcome [x] with its value translated *)
Definition rmap {A B : Type} (f : A -> B) (x : res A) : res B :=
  match x with Ok a => Ok (f a) | Panic k => Panic k | NoFuel => NoFuel end.
(** unless [x] is an overflow, [y] is the same outcome: the same value, the same panic, the same lack of fuel *)
Definition agrees {A B : Type} (f : A -> B) (x : res A) (y : res B) : Prop := x <> Panic Overflow -> y = rmap f x.
Definition same {A : Type} : res A -> res A -> Prop := agrees (fun a => a).

Lemma agr {A B : Type} (Q : A -> B -> Prop) (f : A -> B) x y : rsim Q x y -> (forall a b, Q a b -> b = f a) -> agrees f x y.
Proof.
  intros H G N. destruct x as [a|k|]; cbn in *.
  - destruct y as [b| |]; try contradiction. f_equal. apply G. exact H.
  - destruct k; try congruence; exact H.
  - exact H.
Qed.
Lemma agr_eq {A : Type} (x y : res A) : rsim eq x y -> same x y.
Proof. intros H. eapply agr; [exact H|]. intros a b <-. reflexivity. Qed.
Lemma F2_map {A B : Type} (Q : A -> B -> Prop) (f : A -> B) l l' : (forall a b, Q a b -> b = f a) -> Forall2 Q l l' -> l' = map f l.
Proof. intros G. induction 1; cbn; [reflexivity|]. f_equal; auto. Qed.
Lemma F2_of_map {A B : Type} (Q : A -> B -> Prop) (W : A -> Prop) (f : A -> B) l : (forall a, W a -> Q a (f a)) -> Forall W l -> Forall2 Q l (map f l).
Proof. intros G. induction 1; cbn; auto. Qed.
Lemma o_map {A B : Type} (Q : A -> B -> Prop) (f : A -> B) o o' : (forall a b, Q a b -> b = f a) -> orel Q o o' -> o' = option_map f o.
Proof. intros G. destruct o, o'; cbn; try contradiction; [|reflexivity]. intros H. f_equal. auto. Qed.

Section Maps.
Context {F F' : FieldImpl} (f : F -> F').
Definition tmap (t : term F) : term F' := mkterm (f (coef t)) (tdeg t).
Definition pmap (p : poly F) : poly F' := map tmap p.
Definition dmap (x : poly F * list (poly F)) : poly F' * list (poly F') := (pmap (fst x), map pmap (snd x)).
Definition mmap (a : mat F) : mat F' := mkmat (map f (ments a)) (mrows a) (mcols a).
Definition mmap3 (x : mat F * mat F * mat F) : mat F' * mat F' * mat F' := (mmap (fst (fst x)), mmap (snd (fst x)), mmap (snd x)).
Definition formmap (s : @form F) : @form F' := mkform (mmap (fp s)) (mmap (fb s)).
Definition facemap (x : @face F) : @face F' := mkface (mmap (fnormal x)) (map mmap (fgens x)).
Definition conemap (k : @cone F) : @cone F' :=
  mkcone (map mmap (cgens k)) (map facemap (cfacets k)) (map mmap (corth k)) (cambient k) (cdim k).

Context (R : F -> F' -> Prop) (W : F -> Prop).
Hypothesis (RW : forall x, W x -> R x (f x)) (RF : forall x y, R x y -> y = f x).
Definition pW (p : poly F) : Prop := Forall (fun t => W (coef t)) p.
Definition mW (a : mat F) : Prop := Forall W (ments a).
Definition fW (s : @form F) : Prop := mW (fp s) /\ mW (fb s).

Lemma trel_map t : W (coef t) -> trel (R := R) t (tmap t).
Proof. intros H. split; [apply RW; exact H|reflexivity]. Qed.
Lemma trel_eq a b : trel (R := R) a b -> b = tmap a.
Proof. destruct a as [c d], b as [c' d']. intros [H G]. cbn in *. apply RF in H. subst. reflexivity. Qed.
Lemma prel_map p : pW p -> Forall2 (trel (R := R)) p (pmap p).
Proof. apply F2_of_map. exact trel_map. Qed.
Lemma prel_eq a b : Forall2 (trel (R := R)) a b -> b = pmap a.
Proof. apply F2_map. exact trel_eq. Qed.
Lemma psrel_map l : Forall pW l -> Forall2 (Forall2 (trel (R := R))) l (map pmap l).
Proof. apply F2_of_map. exact prel_map. Qed.
Lemma psrel_eq a b : Forall2 (Forall2 (trel (R := R))) a b -> b = map pmap a.
Proof. apply F2_map. exact prel_eq. Qed.
Lemma drel_eq a b : drel (R := R) a b -> b = dmap a.
Proof. destruct a as [r q], b as [r' q']. intros [H1 H2]. cbn in *. rewrite (prel_eq _ _ H1), (psrel_eq _ _ H2). reflexivity. Qed.
Lemma mrel_map a : mW a -> mrel (R := R) a (mmap a).
Proof. intros H. constructor; cbn; try reflexivity. apply (F2_of_map R W); assumption. Qed.
Lemma mrel_eq a b : mrel (R := R) a b -> b = mmap a.
Proof.
  destruct a as [e r c], b as [e' r' c']. intros [H1 H2 H3]. cbn in *. subst. unfold mmap. cbn. f_equal.
  apply (F2_map R); [exact RF|exact H1].
Qed.
Lemma msrel_map l : Forall mW l -> Forall2 (mrel (R := R)) l (map mmap l).
Proof. apply F2_of_map. exact mrel_map. Qed.
Lemma msrel_eq a b : Forall2 (mrel (R := R)) a b -> b = map mmap a.
Proof. apply F2_map. exact mrel_eq. Qed.
Lemma frel_map s : fW s -> frel (R := R) s (formmap s).
Proof. intros [H1 H2]. constructor; apply mrel_map; assumption. Qed.
Lemma frel_eq a b : frel (R := R) a b -> b = formmap a.
Proof. destruct a as [p b0], b as [p' b']. intros [H1 H2]. cbn in *. rewrite (mrel_eq _ _ H1), (mrel_eq _ _ H2). reflexivity. Qed.
Lemma mrel3_eq a b : mrel3 (R := R) a b -> b = mmap3 a.
Proof.
  destruct a as [[p l] u], b as [[p' l'] u']. intros [H1 [H2 H3]]. cbn in *.
  rewrite (mrel_eq _ _ H1), (mrel_eq _ _ H2), (mrel_eq _ _ H3). reflexivity.
Qed.
Lemma conerel_eq a b : conerel (R := R) a b -> b = conemap a.
Proof.
  destruct a as [g x o a d], b as [g' x' o' a' d']. intros [H1 H2 H3 H4 H5]. cbn in *. subst. unfold conemap. cbn.
  f_equal; [apply msrel_eq; exact H1| |apply msrel_eq; exact H3].
  apply (F2_map (facerel (R := R))); [|exact H2]. intros [n h] [n' h'] [G1 G2]. cbn in *.
  rewrite (mrel_eq _ _ G1), (msrel_eq _ _ G2). reflexivity.
Qed.
End Maps.
