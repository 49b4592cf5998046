(** * Property C126: eliminations over Rational in which nothing overflows.

    [fracs n m A D a]: [a] is an n x m matrix of numbers as Rational stores them, with numerators at most [A] in absolute
    value and denominators at most [D].  [grow] and [piv] (ElimBound) are the explicit bounds for the rows without and with a
    pivot, [back] those after to_rref. *)
From Coq Require Import ZArith QArith Qcanon.
From Verif Require Import Base BaseLemmas IntModel RatModel FieldIface IntProofs RatProofs NumFacts UtilModel MatModel AlgModel LinSpec RrefSpec MatProofs AlgProofs
  BoundProofs PropBounds ElimShape ElimBound PropLin.
From Coq Require Import Lia.
Local Open Scope Z_scope.

Notation TRat := (rat_stab Debug).
Definition fracs (n m : nat) (A D : Z) (a : mat R) : Prop :=
  length (ments a) = (n * m)%nat /\ mrows a = n /\ mcols a = m /\
  Forall (fun x : R => rat_wf x /\ Z.abs (numer x) <= A /\ 0 < denom x <= D) (ments a).
(** the same bound for each row *)
Definition rows_in (n m : nat) (B : nat -> Z) (a : mat R) : Prop :=
  length (ments a) = (n * m)%nat /\ mrows a = n /\ mcols a = m /\
  forall i j x, (i < n)%nat -> (j < m)%nat -> mget a i j = Ok x -> Z.abs (numer x) <= B i /\ 0 < denom x <= B i.
Lemma fracs_entries n m A D a : fracs n m A D a -> entries_in n m A D a.
Proof.
  intros (L & Rn & Cm & H). assert (S : shp n m a) by (split; [unfold mshape; congruence|split; assumption]). split; [exact S|].
  intros i j Hi Hj. unfold mentry. rewrite Forall_forall in H.
  destruct (H (nth (i * mcols a + j) (ments a) f0)) as (W & B1 & B2).
  { apply nth_In. rewrite L, Cm. nia. }
  split; [split; assumption|exact W].
Qed.
Lemma bd_rows n m B a : bd n m B B a -> rows_in n m B a.
Proof.
  intros [(S & Rn & Cm) H]. split; [unfold mshape in S; congruence|]. split; [exact Rn|]. split; [exact Cm|].
  intros i j x Hi Hj E. rewrite mget_ok in E by (assumption || congruence). injection E as <-. apply H; assumption.
Qed.
Lemma fracs_okm n m A D a : fracs n m A D a -> okm rat_spec n m a.
Proof.
  intros (L & Rn & Cm & H). split; [|split; assumption]. split; [unfold mshape; congruence|]. eapply Forall_impl; [|exact H]. intros x (W & _). exact W.
Qed.

(** ** echelon form, rank and LU decomposition *)
Theorem C126_row_echelon : forall n m A D a, fracs n m A D a -> 1 <= A -> 1 <= D -> piv A D (Nat.min (n - 1) m) <= i64_max ->
  exists s, mat_row_echelon TRat a = Ok s /\
    rows_in n n (fun i => piv A D (Nat.min i m)) (fp s) /\ rows_in n m (fun i => piv A D (Nat.min i m)) (fb s) /\
    (exists r, form_rank TRat s = Ok r /\ form_nullity TRat s = Ok (m - r)%nat).
Proof.
  intros n m A D a Ha HA HD Lim. destruct (row_echelon_bd n m A D HA HD Lim a (fracs_entries _ _ _ _ _ Ha)) as (s & Es & [Hp Hb]).
  exists s. split; [exact Es|]. split; [apply bd_rows; exact Hp|]. split; [apply bd_rows; exact Hb|].
  destruct (C53_nullity rat_spec TRat rat_stab_spec a n m s (fracs_okm _ _ _ _ _ Ha) (or_introl Es)) as (r & E1 & E2 & _). exists r. split; assumption.
Qed.
Theorem C126_lu : forall n m A D a, fracs n m A D a -> 1 <= A -> 1 <= D -> piv A D (Nat.min (n - 1) m) <= i64_max ->
  exists p l u, mat_lu TRat a = Ok (p, l, u) /\ rows_in n m (fun i => piv A D (Nat.min i m)) u.
Proof.
  intros n m A D a Ha HA HD Lim. destruct (lu_bd n m A D HA HD Lim a (fracs_entries _ _ _ _ _ Ha)) as ([[p l] u] & E & (_ & _ & Hu)).
  exists p, l, u. split; [exact E|]. apply bd_rows. exact Hu.
Qed.

(** ** reduced form, kernel and range *)
Definition rref_bound (n m : nat) (A D : Z) : Z := back (n - 1) (fun i => piv A D (Nat.min i m)) 0.
Lemma rref_bound_ge n m A D i : 1 <= A -> 1 <= D -> (i <= n - 1)%nat -> piv A D (Nat.min i m) <= rref_bound n m A D.
Proof.
  intros HA HD Hi. unfold rref_bound. set (B := fun i => piv A D (Nat.min i m)).
  assert (P : forall i, 1 <= B i) by (intros k; apply piv_pos; assumption).
  pose proof (back_ge (n - 1) B P i). pose proof (back_first (n - 1) B P i Hi). change (piv A D (Nat.min i m)) with (B i). lia.
Qed.
Theorem C126_rref : forall n m A D a, fracs n m A D a -> 1 <= A -> 1 <= D -> rref_bound n m A D <= i64_max ->
  exists s, rref_of TRat a s /\
    rows_in n n (fun _ => rref_bound n m A D) (fp s) /\ rows_in n m (fun _ => rref_bound n m A D) (fb s) /\
    (exists vs, compute_kernel TRat s = Ok vs) /\
    (forall order, range_order_ok TRat s order -> exists ws, compute_range a order = Ok ws).
Proof.
  intros n m A D a Ha HA HD Lim. pose proof (fracs_entries _ _ _ _ _ Ha) as He.
  assert (Lp : piv A D (Nat.min (n - 1) m) <= i64_max) by (pose proof (rref_bound_ge n m A D (n - 1) HA HD (Nat.le_refl _)); lia).
  destruct (row_echelon_bd n m A D HA HD Lp a He) as (s0 & E0 & H0). unfold rref_bound in *.
  set (B := fun i => piv A D (Nat.min i m)) in *. change (rowb m A D) with B in H0. assert (P : forall i, 1 <= B i) by (intros i; apply piv_pos; assumption).
  destruct (to_rref_bd n m B s0 P Lim H0) as (s & E & Hs). exists s.
  assert (G : forall i, (i < n)%nat -> back (n - 1) B i <= back (n - 1) B 0) by (intros i Hi; apply back_first; [exact P|lia]).
  assert (RO : rref_of TRat a s) by (exists s0; split; assumption). split; [exact RO|]. split; [|split; [|split]].
  - apply bd_rows. eapply bd_mono; [|apply Hs]. intros i Hi. pose proof (G i Hi). lia.
  - apply bd_rows. eapply bd_mono; [|apply Hs]. intros i Hi. pose proof (G i Hi). lia.
  - destruct (kernel_bd n m (back (n - 1) B) s) as (vs & Ev & _); [|exact Hs|eauto]. intros i Hi. pose proof (G i Hi). lia.
  - intros order Ho. destruct (C55_range rat_spec TRat rat_stab_spec a n m s order (fracs_okm _ _ _ _ _ Ha) RO Ho) as (ws & Ew & _). eauto.
Qed.
(** so an invertible matrix within the bound is inverted *)
Theorem C126_inverse : forall n A D a, fracs n n A D a -> 1 <= A -> 1 <= D -> rref_bound n n A D <= i64_max -> invertible n (mden rat_spec a) ->
  exists s, rref_of TRat a s /\ meq n n (mmul n (mden rat_spec (fp s)) (mden rat_spec a)) mid /\ meq n n (mmul n (mden rat_spec a) (mden rat_spec (fp s))) mid.
Proof.
  intros n A D a Ha HA HD Lim Inv. destruct (C126_rref n n A D a Ha HA HD Lim) as (s & Es & _). exists s. split; [exact Es|].
  destruct (C71_inverse rat_spec TRat rat_stab_spec a n s (fracs_okm _ _ _ _ _ Ha) Es) as [H1 H2]. destruct H1 as (_ & H3 & H4); [apply H2; exact Inv|]. split; assumption.
Qed.

(** ** matrices of integers *)
Definition of_ints (n m : nat) (l : list Z) : mat R := mkmat (map (fun z => mkrat z 1 : R) l) n m.
Lemma of_ints_fracs n m A l : length l = (n * m)%nat -> Forall (fun z => Z.abs z <= A) l -> fracs n m A 1 (of_ints n m l).
Proof.
  intros L H. split; [cbn [of_ints ments]; rewrite map_length; exact L|]. split; [reflexivity|]. split; [reflexivity|].
  apply Forall_forall. intros x Hx. apply in_map_iff in Hx as (z & <- & Hz). rewrite Forall_forall in H. specialize (H z Hz). cbn. unfold rat_wf. cbn. lia.
Qed.
Lemma piv_values A : piv A 1 0 = A /\ piv A 1 1 = 2 * A ^ 3 /\ piv A 1 2 = 16 * A ^ 11.
Proof. unfold piv. cbn [grow fst snd]. repeat split; ring. Qed.
Lemma back_mono r : forall B B', (forall i, 1 <= B i) -> (forall i, B i <= B' i) -> forall i, back r B i <= back r B' i.
Proof.
  induction r as [|r IH]; intros B B' P H i; [apply H|]. cbn [back]. apply IH.
  - intros j. pose proof (bstep_ge (S r) B P j) as G. pose proof (P j). unfold bstep in G. lia.
  - intros j. destruct (j <? S r)%nat; [|apply H]. pose proof (P j). pose proof (P (S r)). pose proof (H j). pose proof (H (S r)).
    assert (B j * B j <= B' j * B' j) by nia. assert (0 <= B j * B j) by nia. nia.
Qed.
Lemma rref_bound_le n m A D : 1 <= A -> 1 <= D -> rref_bound n m A D <= back (n - 1) (piv A D) 0.
Proof. intros HA HD. unfold rref_bound. apply back_mono; intros i; [apply piv_pos; assumption|apply piv_mono; [assumption|assumption|lia]]. Qed.
Lemma ints_run n m l A : 1 <= A -> length l = (n * m)%nat -> Forall (fun z => Z.abs z <= A) l ->
  (piv A 1 (n - 1) <= i64_max -> (exists s, mat_row_echelon TRat (of_ints n m l) = Ok s) /\ (exists plu, mat_lu TRat (of_ints n m l) = Ok plu)) /\
  (back (n - 1) (piv A 1) 0 <= i64_max -> exists s vs, rref_of TRat (of_ints n m l) s /\ compute_kernel TRat s = Ok vs).
Proof.
  intros HA L H. pose proof (of_ints_fracs n m A l L H) as Ha. split.
  - intros Lim. pose proof (piv_mono A 1 (Nat.min (n - 1) m) (n - 1) HA (Z.le_refl 1) ltac:(lia)). split.
    + destruct (C126_row_echelon n m A 1 _ Ha HA (Z.le_refl 1)) as (s & Es & _); [lia|eauto].
    + destruct (C126_lu n m A 1 _ Ha HA (Z.le_refl 1)) as (p & q & u & Es & _); [lia|eauto].
  - intros Lim. pose proof (rref_bound_le n m A 1 HA (Z.le_refl 1)).
    destruct (C126_rref n m A 1 _ Ha HA (Z.le_refl 1)) as (s & Es & _ & _ & (vs & Ev) & _); [lia|eauto].
Qed.
(** the bound for the entries may be replaced by one that is positive *)
Lemma one_or A : 1 <= A \/ A < 1.
Proof. lia. Qed.
Theorem C126_two_rows : forall m l A, length l = (2 * m)%nat -> Forall (fun z => Z.abs z <= A) l ->
  (2 * A ^ 3 <= i64_max -> (exists s, mat_row_echelon TRat (of_ints 2 m l) = Ok s) /\ (exists plu, mat_lu TRat (of_ints 2 m l) = Ok plu)) /\
  (4 * A ^ 5 <= i64_max -> exists s vs, rref_of TRat (of_ints 2 m l) s /\ compute_kernel TRat s = Ok vs).
Proof.
  assert (V1 : forall A, piv A 1 (2 - 1) = 2 * A ^ 3) by (intros A; apply piv_values).
  assert (V2 : forall A, back (2 - 1) (piv A 1) 0 = 4 * A ^ 5) by (intros A; cbn [back Nat.sub Nat.ltb Nat.leb]; destruct (piv_values A) as (-> & -> & _); ring).
  intros m l A L H. destruct (one_or A) as [HA|HA].
  - destruct (ints_run 2 m l A HA L H) as [G1 G2]. rewrite V1 in G1. rewrite V2 in G2. split; assumption.
  - destruct (ints_run 2 m l 1 (Z.le_refl 1) L) as [G1 G2]; [eapply Forall_impl; [|exact H]; cbv beta; intros; lia|]. rewrite V1 in G1. rewrite V2 in G2.
    split; intros _; [apply G1|apply G2]; unfold i64_max; lia.
Qed.
Theorem C126_three_rows : forall m l A, length l = (3 * m)%nat -> Forall (fun z => Z.abs z <= A) l ->
  (16 * A ^ 11 <= i64_max -> (exists s, mat_row_echelon TRat (of_ints 3 m l) = Ok s) /\ (exists plu, mat_lu TRat (of_ints 3 m l) = Ok plu)) /\
  (2 ^ 18 * A ^ 43 <= i64_max -> exists s vs, rref_of TRat (of_ints 3 m l) s /\ compute_kernel TRat s = Ok vs).
Proof.
  assert (V1 : forall A, piv A 1 (3 - 1) = 16 * A ^ 11) by (intros A; apply piv_values).
  assert (V2 : forall A, back (3 - 1) (piv A 1) 0 = 2 ^ 18 * A ^ 43) by (intros A; cbn [back Nat.sub Nat.ltb Nat.leb]; destruct (piv_values A) as (-> & -> & ->); ring).
  intros m l A L H. destruct (one_or A) as [HA|HA].
  - destruct (ints_run 3 m l A HA L H) as [G1 G2]. rewrite V1 in G1. rewrite V2 in G2. split; assumption.
  - destruct (ints_run 3 m l 1 (Z.le_refl 1) L) as [G1 G2]; [eapply Forall_impl; [|exact H]; cbv beta; intros; lia|]. rewrite V1 in G1. rewrite V2 in G2.
    split; intros _; [apply G1|apply G2]; unfold i64_max; lia.
Qed.

(** the bounds reach far: entries up to a million and a half for two rows, up to forty for three *)
Example C126_far : 2 * 1500000 ^ 3 <= i64_max /\ 4 * 4500 ^ 5 <= i64_max /\ 16 * 40 ^ 11 <= i64_max /\ 2 ^ 18 * 2 ^ 43 <= i64_max.
Proof. unfold i64_max. repeat split; lia. Qed.
Example C126_run : exists s vs, rref_of TRat (of_ints 2 3 [4500; -4499; 17; 3001; 4211; -4500]) s /\ compute_kernel TRat s = Ok vs.
Proof. apply (C126_two_rows 3 _ 4500); [reflexivity|repeat constructor; cbn; lia|unfold i64_max; lia]. Qed.

(** slightly beyond the bound it is false: 2 * (2^21)^3 = 2^64 *)
Theorem C126_bound_refuted : exists l, length l = 6%nat /\ Forall (fun z => Z.abs z <= 2 ^ 21) l /\ mat_row_echelon TRat (of_ints 2 3 l) = Panic Overflow /\ mat_lu TRat (of_ints 2 3 l) = Panic Overflow.
Proof.
  exists [2 ^ 21; 1; - (2 ^ 21 - 1); 2 ^ 21 - 1; 1; 2 ^ 21]. split; [reflexivity|]. split; [repeat constructor; cbn; lia|]. split; reflexivity.
Qed.

Print Assumptions C126_row_echelon.
Print Assumptions C126_lu.
Print Assumptions C126_rref.
Print Assumptions C126_inverse.
Print Assumptions C126_two_rows.
Print Assumptions C126_three_rows.
Print Assumptions C126_bound_refuted.
