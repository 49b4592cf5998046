(** * C132: the operators of Integer, in both build profiles

    Everything is stated with the integers themselves: [a], [b] are the i64 values, 2^63 and 2^64 the bounds. *)
From Coq Require Import ZArith Lia.
From Verif Require Import Base BaseLemmas IntModel IntProofs RatModel.
Local Open Scope Z_scope.

Definition i64 (z : Z) : Prop := - 2 ^ 63 <= z < 2 ^ 63.
(** the i64 congruent to [z] modulo 2^64 *)
Definition wrapped (z r : Z) : Prop := i64 r /\ exists k, r = z + k * 2 ^ 64.
(** the outcome of an operation with the mathematical result [z] *)
Definition outcome (f : mode -> res Z) (z : Z) : Prop :=
  (i64 z -> f Debug = Ok z /\ f Release = Ok z) /\
  (~ i64 z -> f Debug = Panic Overflow /\ exists r, f Release = Ok r /\ wrapped z r).

Lemma i64_in z : i64 z <-> in64 z.
Proof. unfold i64, in64, i64_min, i64_max. lia. Qed.
Lemma wrapped_unique z r r' : wrapped z r -> wrapped z r' -> r = r'.
Proof. intros [R [k E]] [R' [k' E']]. unfold i64 in *. assert (r - r' = (k - k') * 2 ^ 64) by lia. assert (k = k') by lia. subst. lia. Qed.
Lemma chk_outcome z : outcome (fun m => chk64 m z) z.
Proof.
  split.
  - intros H. apply i64_in in H. split; apply chk64_in; exact H.
  - intros H. assert (E : in64b z = false) by (apply in64b_false; rewrite <- i64_in; exact H). unfold chk64. rewrite E. split; [reflexivity|].
    exists (wrap64 z). split; [reflexivity|]. split; [apply i64_in, wrap64_in|apply wrap64_congr].
Qed.

Theorem C132_arithmetic : forall a b, i64 a -> i64 b ->
  outcome (fun m => int_add m a b) (a + b) /\ outcome (fun m => int_sub m a b) (a - b) /\ outcome (fun m => int_mul m a b) (a * b) /\
  outcome (fun m => int_neg m a) (- a) /\ outcome (fun m => int_abs m a) (Z.abs a).
Proof.
  intros a b _ _. split; [exact (chk_outcome (a + b))|]. split; [exact (chk_outcome (a - b))|]. split; [exact (chk_outcome (a * b))|].
  split; [exact (chk_outcome (- a))|exact (chk_outcome (Z.abs a))].
Qed.

(** division truncates towards zero, and the remainder has the sign of the dividend *)
Theorem C132_division : forall m a b, i64 a -> i64 b -> b <> 0 -> ~ (a = - 2 ^ 63 /\ b = -1) ->
  exists q r, int_div m a b = Ok q /\ int_rem m a b = Ok r /\ a = b * q + r /\ Z.abs r < Z.abs b /\ (r = 0 \/ Z.sgn r = Z.sgn a) /\ i64 q /\ i64 r.
Proof.
  intros m a b A B N M. exists (Z.quot a b), (Z.rem a b). unfold int_div, int_rem. pose proof (proj2 (Z.eqb_neq b 0) N) as ->.
  assert (X : (a =? i64_min) && (b =? -1) = false).
  { apply Bool.andb_false_iff. unfold i64_min. destruct (Z.eqb_spec a (- 2 ^ 63)); [|left; reflexivity]. right. apply Z.eqb_neq. tauto. }
  rewrite X. split; [reflexivity|]. split; [reflexivity|]. pose proof (Z.quot_rem' a b) as E. pose proof (Z.rem_bound_abs a b N) as R.
  assert (S : Z.rem a b = 0 \/ Z.sgn (Z.rem a b) = Z.sgn a) by (destruct (Z.eq_dec (Z.rem a b) 0) as [|Z]; [left; assumption|right; apply Z.rem_sign_nz; assumption]).
  split; [exact E|]. split; [exact R|]. split; [exact S|]. unfold i64 in *.
  assert (Q : Z.abs (Z.quot a b) <= Z.abs a).
  { destruct (Z.eq_dec (Z.quot a b) 0) as [->|Z]; [lia|]. rewrite <- Z.quot_abs by exact N. apply Z.quot_le_upper_bound; [lia|]. nia. }
  split; [|lia]. destruct (Z.eq_dec (Z.quot a b) (2 ^ 63)) as [Z|Z]; [|lia]. exfalso.
  assert (Z.abs a = 2 ^ 63) by lia. assert (a = - 2 ^ 63) by lia.
  assert (Y : Z.abs (b * Z.quot a b) = Z.abs b * 2 ^ 63) by (rewrite Z, Z.abs_mul; reflexivity).
  assert (Z.abs (b * Z.quot a b) <= Z.abs a) by (rewrite E at 2; destruct S as [-> |S]; lia || nia).
  assert (Z.abs b = 1) by lia. assert (b = 1) by lia. subst b. rewrite Z.quot_1_r in Z. lia.
Qed.
(** the two panics of / and %, in both profiles *)
Theorem C132_division_panics : forall m a,
  int_div m a 0 = Panic DivZero /\ int_rem m a 0 = Panic DivZero /\
  int_div m (- 2 ^ 63) (-1) = Panic Overflow /\ int_rem m (- 2 ^ 63) (-1) = Panic Overflow.
Proof. intros m a. repeat split; reflexivity. Qed.

(** ** release builds compute in the ring of integers modulo 2^64 *)
Lemma release_chk z : exists r, chk64 Release z = Ok r /\ wrapped z r.
Proof.
  unfold chk64. destruct (in64b z) eqn:E.
  - exists z. split; [reflexivity|]. split; [apply i64_in, in64b_spec; exact E|exists 0; lia].
  - exists (wrap64 z). split; [reflexivity|]. split; [apply i64_in, wrap64_in|apply wrap64_congr].
Qed.
Lemma release_eq z z' : (exists k, z' = z + k * 2 ^ 64) -> chk64 Release z = chk64 Release z'.
Proof.
  intros (k & ->). destruct (release_chk z) as (r & -> & W & (j & ->)). destruct (release_chk (z + k * 2 ^ 64)) as (r' & -> & W' & (j' & ->)).
  f_equal. apply (wrapped_unique z); split; [exact W|exists j; lia|exact W'|exists (k + j'); lia].
Qed.
Theorem C132_release_ring : forall a b c, i64 a -> i64 b -> i64 c ->
  (exists s p n, int_add Release a b = Ok s /\ int_mul Release a b = Ok p /\ int_neg Release a = Ok n /\ i64 s /\ i64 p /\ i64 n) /\
  int_add Release a b = int_add Release b a /\ int_mul Release a b = int_mul Release b a /\
  (s <- int_add Release a b ;; int_add Release s c) = (t <- int_add Release b c ;; int_add Release a t) /\
  (s <- int_mul Release a b ;; int_mul Release s c) = (t <- int_mul Release b c ;; int_mul Release a t) /\
  (s <- int_add Release b c ;; int_mul Release a s) = (x <- int_mul Release a b ;; y <- int_mul Release a c ;; int_add Release x y) /\
  int_add Release a 0 = Ok a /\ int_mul Release a 1 = Ok a /\ (n <- int_neg Release a ;; int_add Release a n) = Ok 0 /\
  int_sub Release a b = (n <- int_neg Release b ;; int_add Release a n).
Proof.
  intros a b c A B C. unfold int_add, int_sub, int_mul, int_neg.
  split.
  { destruct (release_chk (a + b)) as (s & E1 & W1 & _), (release_chk (a * b)) as (p & E2 & W2 & _), (release_chk (- a)) as (n & E3 & W3 & _).
    exists s, p, n. auto 8. }
  split; [f_equal; lia|]. split; [f_equal; lia|].
  split.
  { destruct (release_chk (a + b)) as (s & E1 & _ & (k & K)), (release_chk (b + c)) as (t & E2 & _ & (j & J)). rewrite E1, E2. cbn [bind].
    apply release_eq. exists (j - k). lia. }
  split.
  { destruct (release_chk (a * b)) as (s & E1 & _ & (k & K)), (release_chk (b * c)) as (t & E2 & _ & (j & J)). rewrite E1, E2. cbn [bind].
    apply release_eq. exists (a * j - k * c). rewrite K, J. ring. }
  split.
  { destruct (release_chk (b + c)) as (s & E1 & _ & (k & K)), (release_chk (a * b)) as (t & E2 & _ & (j & J)), (release_chk (a * c)) as (u & E3 & _ & (i & I)).
    rewrite E1, E2, E3. cbn [bind]. apply release_eq. exists (j + i - a * k). rewrite K, J, I. ring. }
  split; [rewrite Z.add_0_r; apply chk64_in, i64_in; exact A|]. split; [rewrite Z.mul_1_r; apply chk64_in, i64_in; exact A|]. split.
  { destruct (release_chk (- a)) as (n & E & _ & (k & K)). rewrite E. cbn [bind]. rewrite (release_eq (a + n) 0); [reflexivity|]. exists (- k). lia. }
  { destruct (release_chk (- b)) as (n & E & _ & (k & K)). rewrite E. cbn [bind]. apply release_eq. exists k. lia. }
Qed.
(** in checked builds the laws hold for the values, but one side may panic and the other not *)
Theorem C132_checked_associative_refuted : exists a b c, i64 a /\ i64 b /\ i64 c /\
  (s <- int_add Debug a b ;; int_add Debug s c) = Panic Overflow /\ (t <- int_add Debug b c ;; int_add Debug a t) = Ok a.
Proof. exists (2 ^ 63 - 1), 1, (-1). unfold i64. repeat split; try lia; reflexivity. Qed.

(** ** what release builds compute for rationals: the right fraction modulo 2^64 *)
Theorem C132_release_rational : forall a b,
  (exists s, rat_add Release a b = Ok s /\ exists k j, numer s = numer a * denom b + numer b * denom a + k * 2 ^ 64 /\
     (s = rat_zero \/ denom s = denom a * denom b + j * 2 ^ 64)) /\
  (exists s, rat_sub Release a b = Ok s /\ exists k j, numer s = numer a * denom b - numer b * denom a + k * 2 ^ 64 /\
     (s = rat_zero \/ denom s = denom a * denom b + j * 2 ^ 64)).
Proof.
  intros [n d] [n' d']. unfold rat_add, rat_sub, int_mul, int_add, int_sub. cbn [numer denom].
  destruct (release_chk (n * d')) as (x & -> & _ & (k1 & X)). destruct (release_chk (n' * d)) as (y & -> & _ & (k2 & Y)). cbn [bind].
  destruct (release_chk (d * d')) as (e & -> & _ & (k3 & E)).
  destruct (release_chk (x + y)) as (s & -> & _ & (k4 & S)). destruct (release_chk (x - y)) as (t & -> & _ & (k5 & T)). cbn [bind]. unfold int_is_zero.
  split.
  - destruct (Z.eqb_spec s 0) as [Z|Z]; eexists; (split; [reflexivity|]).
    + exists (k1 + k2 + k4), 0. split; [cbn; lia|left; reflexivity].
    + exists (k1 + k2 + k4), k3. cbn. split; [lia|right; exact E].
  - destruct (Z.eqb_spec t 0) as [Z|Z]; eexists; (split; [reflexivity|]).
    + exists (k1 - k2 + k5), 0. split; [cbn; lia|left; reflexivity].
    + exists (k1 - k2 + k5), k3. cbn. split; [lia|right; exact E].
Qed.
(** so a denominator can silently become 0, and a product of two canonical rationals can panic as if it had been given the denominator 0 *)
Theorem C132_release_denominator_refuted : exists a s, rat_new Release 1 (2 ^ 32) = Ok a /\
  rat_add Release a a = Ok s /\ denom s = 0 /\ numer s <> 0 /\ rat_mul Release a a = Panic Explicit.
Proof. exists (mkrat 1 (2 ^ 32)), (mkrat (2 ^ 33) 0). repeat split; try reflexivity. discriminate. Qed.

(** ** concrete cases *)
Example C132_ex : i64 (2 ^ 62) /\ ~ i64 (2 ^ 62 + 2 ^ 62) /\ int_add Release (2 ^ 62) (2 ^ 62) = Ok (- 2 ^ 63) /\
  int_div Debug (-7) 2 = Ok (-3) /\ int_rem Debug (-7) 2 = Ok (-1) /\ int_rem Debug 7 (-2) = Ok 1.
Proof. unfold i64. repeat split; try lia; reflexivity. Qed.

Print Assumptions C132_arithmetic.
Print Assumptions C132_division.
Print Assumptions C132_division_panics.
Print Assumptions C132_release_ring.
Print Assumptions C132_checked_associative_refuted.
Print Assumptions C132_release_rational.
Print Assumptions C132_release_denominator_refuted.
