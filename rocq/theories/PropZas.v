(** * C148: sums and intersections of subspaces

    One elimination of a block matrix gives bases of the sum and of the intersection of two row spaces. *)
From Coq Require Import ZArith QArith Qcanon.
From Verif Require Import Base BaseLemmas IntModel RatModel FieldIface RatProofs UtilModel MatModel AlgModel LinSpec RrefSpec MatProofs AlgProofs LinFacts PropMat PropLin ZasSpec.
From Coq Require Import Lia Ring Field Setoid Sorted.
Local Open Scope nat_scope.

Section PropZas.
Context {F : FieldImpl} {K : MathField} (FS : FieldSpec F K) (T : StabImpl F) (TS : StabSpec FS T).
Notation mat := (mat F).
Notation okm := (okm FS).
Notation val := (mden FS).

(** the listed columns below m and from m on *)
Definition firsts (m : nat) (bound : list nat) : nat := length (filter (fun j => j <? m) bound).

Lemma split_pivots (piv : nat -> nat) m r : (forall i k, i < k -> k < r -> piv i < piv k) ->
  firsts m (map piv (seq 0 r)) <= r /\ (forall i, i < firsts m (map piv (seq 0 r)) -> piv i < m) /\ forall i, firsts m (map piv (seq 0 r)) <= i -> i < r -> m <= piv i.
Proof.
  intros Inc. induction r as [|r IH]; [cbn; repeat split; intros; lia|].
  destruct IH as (H1 & H2 & H3); [intros; apply Inc; lia|]. unfold firsts in *. rewrite seq_S, map_app, filter_app, app_length. cbn [map filter Nat.add].
  set (k := length (filter (fun j => j <? m) (map piv (seq 0 r)))) in *. destruct (Nat.ltb_spec (piv r) m) as [L|L]; cbn [length].
  - assert (k = r). { destruct (Nat.eq_dec k r) as [|N]; [assumption|]. pose proof (H3 k (Nat.le_refl _) ltac:(lia)). pose proof (Inc k r ltac:(lia) ltac:(lia)). lia. }
    split; [lia|]. split; [|intros; lia]. intros i Hi. destruct (Nat.eq_dec i r) as [->|N]; [exact L|apply H2; lia].
  - rewrite Nat.add_0_r. split; [lia|]. split; [exact H2|]. intros i Hi Hr. destruct (Nat.eq_dec i r) as [->|N]; [exact L|apply H3; lia].
Qed.

Lemma seq_from k n : map (fun i => k + i) (seq 0 n) = seq k n.
Proof. revert k. induction n as [|n IH]; intros k; [reflexivity|]. cbn [seq map]. rewrite Nat.add_0_r. f_equal. rewrite <- (IH (S k)), <- seq_shift, map_map. apply map_ext. intros i. lia. Qed.
Theorem C148_bases : forall a b c n1 n2 m s bound, okm n1 m a -> okm n2 m b -> okm (n1 + n2) (m + m) c -> doubled n1 n2 m (val a) (val b) (val c) ->
  echelon_of T c s \/ rref_of T c s -> bound_variables T (fb s) = Ok bound ->
  is_basis m (in_sum n1 n2 m (val a) (val b)) (map (mrow (val (fb s))) (seq 0 (firsts m bound))) /\
  is_basis m (in_both n1 n2 m (val a) (val b)) (map (fun i j => val (fb s) i (m + j)) (seq (firsts m bound) (length bound - firsts m bound))).
Proof.
  intros a b c n1 n2 m s bound Wa Wb Wc D H Eb. destruct (form_of FS T TS c _ _ s Wc H) as (RE & r & piv & E).
  pose proof (proj1 (proj2 RE)) as WB. apply okm_mrep in WB. rewrite (bound_variables_ok FS T TS _ _ _ _ _ _ WB E) in Eb. injection Eb as <-.
  destruct RE as (_ & _ & I & M). destruct (split_pivots piv m r (ech_inc _ _ _ _ _ E)) as (H1 & H2 & H3). rewrite map_length, seq_length.
  set (k := firsts m (map piv (seq 0 r))) in *. split.
  - apply (sum_basis n1 n2 m _ _ _ D r k piv _ _ E I M H1 H2 H3).
  - pose proof (both_basis n1 n2 m _ _ _ D r k piv _ _ E I M H1 H2 H3) as X.
    replace (map (fun i j => val (fb s) i (m + j)) (seq k (r - k))) with (map (mrow (lower m k (val (fb s)))) (seq 0 (r - k))); [exact X|].
    rewrite <- (seq_from k (r - k)), map_map. reflexivity.
Qed.
(** the dimension formula: the numbers of these vectors add up to the ranks *)
Theorem C148_dimensions : forall a b c n1 n2 m s sa sb bound ra rb, okm n1 m a -> okm n2 m b -> okm (n1 + n2) (m + m) c -> doubled n1 n2 m (val a) (val b) (val c) ->
  echelon_of T c s \/ rref_of T c s -> bound_variables T (fb s) = Ok bound -> echelon_of T a sa \/ rref_of T a sa -> echelon_of T b sb \/ rref_of T b sb ->
  form_rank T sa = Ok ra -> form_rank T sb = Ok rb ->
  length bound = ra + rb /\ dimension m (in_sum n1 n2 m (val a) (val b)) (firsts m bound) /\ dimension m (in_both n1 n2 m (val a) (val b)) (ra + rb - firsts m bound).
Proof.
  intros a b c n1 n2 m s sa sb bound ra rb Wa Wb Wc D H Eb Ha Hb Ra Rb.
  destruct (C148_bases a b c n1 n2 m s bound Wa Wb Wc D H Eb) as (B1 & B2).
  destruct (C53_rank FS T TS a _ _ sa Wa Ha) as (r1 & Q1 & _ & _ & _ & D1). rewrite Ra in Q1. injection Q1 as <-.
  destruct (C53_rank FS T TS b _ _ sb Wb Hb) as (r2 & Q2 & _ & _ & _ & D2). rewrite Rb in Q2. injection Q2 as <-.
  destruct (C53_rank FS T TS c _ _ s Wc H) as (r3 & Q3 & _ & _ & _ & D3).
  pose proof (doubled_dimension n1 n2 m _ _ _ D _ _ D1 D2) as D3'. pose proof (dimension_unique _ _ _ _ D3 D3') as Eq.
  destruct (form_of FS T TS c _ _ s Wc H) as (RE & r & piv & E). pose proof (row_equivalent_form_ok _ _ _ _ _ RE) as FO.
  rewrite (form_rank_ok FS T TS _ _ _ _ _ _ _ FO E) in Q3. injection Q3 as ->.
  pose proof (proj1 (proj2 RE)) as WB. apply okm_mrep in WB. rewrite (bound_variables_ok FS T TS _ _ _ _ _ _ WB E) in Eb. injection Eb as <-.
  rewrite map_length, seq_length in *. split; [exact Eq|]. split.
  - apply (basis_dimension _ _ _ _ B1). rewrite map_length, seq_length. reflexivity.
  - rewrite <- Eq. apply (basis_dimension _ _ _ _ B2). rewrite map_length, seq_length. reflexivity.
Qed.
End PropZas.

(** ** Concrete cases: the planes spanned by (1,0,1), (0,1,1) and by (1,1,2), (1,0,0) span the whole space and meet in the line of (1,1,2) *)
Notation RR := (rat_impl Debug).
Notation RT := (rat_stab Debug).
Definition ex_zs_a : mat RR := ex_mat 2 3 [(1,1);(0,1);(1,1); (0,1);(1,1);(1,1)]%Z.
Definition ex_zs_b : mat RR := ex_mat 2 3 [(1,1);(1,1);(2,1); (1,1);(0,1);(0,1)]%Z.
Definition ex_zs_c : mat RR := ex_mat 4 6 [(1,1);(0,1);(1,1);(1,1);(0,1);(1,1); (0,1);(1,1);(1,1);(0,1);(1,1);(1,1); (1,1);(1,1);(2,1);(0,1);(0,1);(0,1); (1,1);(0,1);(0,1);(0,1);(0,1);(0,1)]%Z.
Definition ex_zs_form : form (F:=RR) :=
  mkform (ex_mat 4 4 [(0,1);(0,1);(0,1);(1,1); (0,1);(2,1);(-1,1);(1,1); (0,1);(-1,1);(1,1);(-1,1); (1,1);(1,1);(-1,1);(0,1)]%Z)
         (ex_mat 4 6 [(1,1);(0,1);(0,1);(0,1);(0,1);(0,1); (0,1);(1,1);(0,1);(0,1);(2,1);(2,1); (0,1);(0,1);(1,1);(0,1);(-1,1);(-1,1); (0,1);(0,1);(0,1);(1,1);(1,1);(2,1)]%Z).
Example C148_ex : okm rat_spec 2 3 ex_zs_a /\ okm rat_spec 2 3 ex_zs_b /\ okm rat_spec 4 6 ex_zs_c /\
  doubled 2 2 3 (mden rat_spec ex_zs_a) (mden rat_spec ex_zs_b) (mden rat_spec ex_zs_c) /\
  rref_of RT ex_zs_c ex_zs_form /\ bound_variables RT (fb ex_zs_form) = Ok [0; 1; 2; 3] /\ firsts 3 [0; 1; 2; 3] = 3.
Proof.
  split; [split; [apply ex_mat_ok; reflexivity|split; reflexivity]|]. split; [split; [apply ex_mat_ok; reflexivity|split; reflexivity]|].
  split; [split; [apply ex_mat_ok; reflexivity|split; reflexivity]|]. split.
  { split; intros i j Hi Hj; destruct i as [|[|i]]; try lia; destruct j as [|[|[|j]]]; try lia; split; reflexivity. }
  split; [apply ex_rref_of; reflexivity|]. split; reflexivity.
Qed.
Example C148_ex_ranks : (s <- mat_row_echelon RT ex_zs_a ;; form_rank RT s) = Ok 2 /\ (s <- mat_row_echelon RT ex_zs_b ;; form_rank RT s) = Ok 2.
Proof. split; reflexivity. Qed.

Print Assumptions C148_bases.
Print Assumptions C148_dimensions.
