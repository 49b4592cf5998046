(** * More fuel never changes a result that was reached. *)
From Verif Require Import Base BaseLemmas FieldIface MDegModel OrdModel PolyModel CompModel.

Section CompMono.
Context (m : mode) {F : FieldImpl} (O : ord_impl).
Notation poly := (poly F).

Ltac rl := repeat first [apply res_le_refl | apply res_le_bind; [|let E := fresh in intros ? E]].

Lemma res_le_Ok {A} (x y : res A) a : res_le x y -> x = Ok a -> y = Ok a.
Proof. auto. Qed.
Lemma NoFuel_le {A} (y : res A) : res_le NoFuel y.
Proof. intros a H. discriminate. Qed.

Lemma divide_loop_mono n : forall n' (f : poly) divs qs rem, n <= n' ->
  res_le (divide_loop m O n f divs qs rem) (divide_loop m O n' f divs qs rem).
Proof.
  induction n as [|n IH]; intros n' f divs qs rem H.
  - destruct n' as [|n']; [apply res_le_refl|]. simpl. rl. destruct a; [apply NoFuel_le|rl].
  - destruct n' as [|n']; [lia|]. simpl. rl. destruct a as [lt|]; rl. destruct a as [[[qs' a] g]|].
    + rl. apply IH. lia.
    + rl. destruct (vec_pop a) as [f' [l|]]; rl; apply IH; lia.
Qed.
Lemma divide_mono n n' (f : poly) divs : n <= n' -> res_le (divide m O n f divs) (divide m O n' f divs).
Proof. apply divide_loop_mono. Qed.

Lemma criterion_loop_mono n n' (gens : list poly) ps : n <= n' ->
  res_le (criterion_loop m O n gens ps) (criterion_loop m O n' gens ps).
Proof.
  intros H. induction ps as [|[i j] ps IH]; simpl; rl. destruct a1 as [s|]; rl; [apply divide_mono; exact H|].
  destruct a1 as [r q]. destruct (poly_is_zero r); [exact IH|rl].
Qed.
Lemma criterion_mono n n' (gens : list poly) : n <= n' ->
  res_le (buchberger_criterion m O n gens) (buchberger_criterion m O n' gens).
Proof. apply criterion_loop_mono. Qed.

Lemma extend_inner_mono n n' (gens : list poly) i js : n <= n' ->
  res_le (extend_inner m O n gens i js) (extend_inner m O n' gens i js).
Proof.
  intros H. induction js as [|j js IH]; simpl; rl; [apply divide_mono; exact H|].
  destruct a3 as [r q]. rl. destruct a3; rl. exact IH.
Qed.
Lemma extend_loop_mono d d' n : d <= d' -> forall n' (gens : list poly) i, n <= n' ->
  res_le (extend_loop m O d n gens i) (extend_loop m O d' n' gens i).
Proof.
  intros Hd. induction n as [|n IH]; intros n' gens i H.
  - destruct n' as [|n']; simpl; destruct (i <? length gens); rl; apply NoFuel_le.
  - destruct n' as [|n']; [lia|]. simpl. destruct (i <? length gens); rl; [apply extend_inner_mono; exact Hd|].
    destruct a; apply IH; lia.
Qed.
Lemma minimize_loop_mono n : forall n' (gens : list poly), n <= n' ->
  res_le (minimize_loop O n gens) (minimize_loop O n' gens).
Proof.
  induction n as [|n IH]; intros n' gens H; [apply NoFuel_le|]. destruct n' as [|n']; [lia|]. simpl. rl.
  destruct a; rl. apply IH. lia.
Qed.
Lemma reduce_loop_mono d d' n : d <= d' -> forall n' (gens : list poly), n <= n' ->
  res_le (reduce_loop m O d n gens) (reduce_loop m O d' n' gens).
Proof.
  intros Hd. induction n as [|n IH]; intros n' gens H; [apply NoFuel_le|]. destruct n' as [|n']; [lia|]. simpl. rl.
  destruct a; rl; [apply divide_mono; exact Hd|]. destruct a0. apply IH. lia.
Qed.
Lemma algorithm_mono n n' (gens : list poly) : n <= n' ->
  res_le (buchberger_algorithm m O n gens) (buchberger_algorithm m O n' gens).
Proof.
  intros H. unfold buchberger_algorithm, buchberger_extend, buchberger_minimize, buchberger_reduce. rl.
  - apply extend_loop_mono; exact H.
  - apply minimize_loop_mono; exact H.
  - apply reduce_loop_mono; exact H.
Qed.

End CompMono.

(** from eventual statements to statements about every completed run *)
Lemma evs_run {A} (g : nat -> res A) (Q : A -> Prop) : (forall n n', n <= n' -> res_le (g n) (g n')) ->
  evs g Q -> forall n a, g n = Ok a -> Q a.
Proof.
  intros M (N & r & E & S) n a H. specialize (M n (Nat.max n N) ltac:(lia) a H).
  rewrite (E (Nat.max n N)) in M by lia. subst r. exact S.
Qed.
Lemma evs_term {A} (g : nat -> res A) (Q : A -> Prop) : evs g Q ->
  exists N, (forall n, N <= n -> g n = Panic Overflow) \/ exists a, Q a /\ forall n, N <= n -> g n = Ok a.
Proof.
  intros (N & r & E & S). exists N. apply safe_inv in S as [->|(a & -> & H)]; [left; exact E|right; exists a; auto].
Qed.
