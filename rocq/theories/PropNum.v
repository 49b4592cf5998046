(** * Properties C01-C11: Integer and Rational. *)
From Verif Require Import Base BaseLemmas IntModel RatModel IntProofs RatProofs NumFacts.
From Coq Require Import QArith Qpower Znumtheory.
Open Scope Z_scope.

(** ** C01 *)
(** every sufficiently large number of loop iterations gives the same, fuel-free outcome *)
Theorem C01_gcd_terminates : forall m a b fuel, (gcd_fuel b <= fuel)%nat ->
  gcd_loop fuel m a b = int_gcd m a b /\ int_gcd m a b <> NoFuel.
Proof. exact int_gcd_terminates. Qed.

Theorem C01_gcd_is_gcd : forall a b, in64 a -> in64 b ->
  (exists g, int_gcd Debug a b = Ok g /\ 0 <= g /\ (g | a) /\ (g | b) /\
     (forall c, (c | a) -> (c | b) -> (c | g))) \/
  (int_gcd Debug a b = Panic Overflow /\ (a = i64_min \/ b = i64_min)).
Proof.
  intros a b Ha Hb. destruct (gcd_cases a b Ha Hb) as [E|E]; [left|right; exact E].
  exists (Z.gcd a b). split; [exact E|]. split; [apply Z.gcd_nonneg|].
  split; [apply Z.gcd_divide_l|]. split; [apply Z.gcd_divide_r|]. exact (Z.gcd_greatest a b).
Qed.

Theorem C01_gcd_both_profiles : forall m a b, Z.abs a < 2 ^ 63 -> Z.abs b < 2 ^ 63 ->
  exists g, int_gcd m a b = Ok g /\ 0 <= g /\ (g | a) /\ (g | b) /\
     (forall c, (c | a) -> (c | b) -> (c | g)).
Proof.
  intros m a b Ha Hb. exists (Z.gcd a b). split; [apply int_gcd_total; assumption|].
  split; [apply Z.gcd_nonneg|].
  split; [apply Z.gcd_divide_l|]. split; [apply Z.gcd_divide_r|]. exact (Z.gcd_greatest a b).
Qed.

(** at i64::MIN the unchecked build returns a negative "gcd" *)
Theorem C01_gcd_release_min_refuted :
  exists a b g, in64 a /\ in64 b /\ int_gcd Release a b = Ok g /\ g < 0.
Proof.
  exists i64_min, 0, i64_min. repeat split; try (vm_compute; discriminate); reflexivity.
Qed.

Example C01_ex1 : int_gcd Debug (-12) 18 = Ok 6. Proof. reflexivity. Qed.
Example C01_ex2 : int_gcd Debug i64_min 0 = Panic Overflow. Proof. reflexivity. Qed.
Example C01_ex3 : int_gcd Debug 0 0 = Ok 0. Proof. reflexivity. Qed.
Example C01_ex4 : int_gcd Debug i64_min 6 = Ok 2. Proof. reflexivity. Qed.

(** ** C02 *)
Theorem C02_lcm : forall a b, a <> 0 \/ b <> 0 ->
  safe (int_lcm Debug a b) (fun l =>
    (a | l) /\ (b | l) /\ (forall c, (a | c) -> (b | c) -> (l | c)) /\
    (l < 0 <-> (a < 0 < b \/ b < 0 < a))).
Proof.
  intros a b H. eapply safe_mono; [apply int_lcm_safe; exact H|].
  intros l ->. apply lcm_divides. exact H.
Qed.

(** it completes, in either profile, whenever the least common multiple fits *)
Theorem C02_lcm_completes : forall m a b, a <> 0 \/ b <> 0 ->
  Z.abs a < 2 ^ 63 -> Z.abs b < 2 ^ 63 -> Z.lcm a b < 2 ^ 63 ->
  exists l, int_lcm m a b = Ok l /\ Z.abs l = Z.lcm a b.
Proof.
  intros m a b H Ha Hb Hl. eexists. split; [apply lcm_total; assumption|]. apply lcm_form. exact H.
Qed.

Theorem C02_lcm_zero_zero : forall m, int_lcm m 0 0 = Panic DivZero.
Proof. intros []; reflexivity. Qed.

Theorem C02_lcm_nonnegative_refuted : exists a b l, int_lcm Debug a b = Ok l /\ l < 0.
Proof. exists (-4), 6, (-12). split; reflexivity. Qed.

Example C02_ex : int_lcm Debug (-4) (-6) = Ok 12. Proof. reflexivity. Qed.

(** ** C03 *)
Theorem C03_pow_exact : forall a e, 0 <= e < 2 ^ 32 ->
  safe (int_pow Debug a e) (fun r => r = a ^ e) /\
  (in64 (a ^ e) -> forall m, int_pow m a e = Ok (a ^ e)) /\
  (~ in64 (a ^ e) -> int_pow Debug a e = Panic Overflow).
Proof.
  intros a e He. unfold int_pow. rewrite as_u32_small by exact He. repeat split.
  - eapply safe_mono; [apply chk64_safe|]. intros r [-> _]; reflexivity.
  - intros H m. apply chk64_in. exact H.
  - intros H. unfold chk64. apply in64b_false in H. rewrite H. reflexivity.
Qed.

(** any exponent behaves like its residue modulo 2^32 *)
Theorem C03_pow_truncates : forall m a e, int_pow m a e = int_pow m a (e mod 2 ^ 32).
Proof.
  intros m a e. unfold int_pow, as_u32. rewrite Z.mod_mod by discriminate. reflexivity.
Qed.

Theorem C03_pow_refuted : exists a e r, 0 <= e /\ in64 e /\ int_pow Debug a e = Ok r /\ r < 2 < a ^ e.
Proof.
  exists 2, (2 ^ 32), 1. split; [discriminate|]. split; [split; vm_compute; discriminate|].
  split; [reflexivity|]. split; [reflexivity|].
  replace 2 with (2 ^ 1) at 1 by reflexivity. apply Z.pow_lt_mono_r; reflexivity || discriminate.
Qed.

Example C03_ex : int_pow Debug (-3) 5 = Ok (-243). Proof. reflexivity. Qed.
Example C03_ex_ovf : int_pow Debug 2 63 = Panic Overflow. Proof. reflexivity. Qed.

(** ** C04 *)
Theorem C04_new_canonical : forall n d, d <> 0 ->
  safe (rat_new Debug n d) (fun r =>
    0 < denom r /\ Z.gcd (numer r) (denom r) = 1 /\ numer r * d = n * denom r).
Proof.
  intros n d H. eapply safe_mono; [apply rat_new_safe; exact H|]. intros r [[A B] C]. auto.
Qed.

Theorem C04_new_completes : forall m n d, d <> 0 -> Z.abs n < 2 ^ 63 -> Z.abs d < 2 ^ 63 ->
  exists r, rat_new m n d = Ok r.
Proof. exact rat_new_total. Qed.

Theorem C04_new_zero_denominator : forall m n, rat_new m n 0 = Panic Explicit.
Proof. exact rat_new_zero_denom. Qed.

Theorem C04_new_unique : forall n1 d1 n2 d2 r1 r2,
  rat_new Debug n1 d1 = Ok r1 -> rat_new Debug n2 d2 = Ok r2 ->
  (rat_eqb r1 r2 = true <-> n1 * d2 = n2 * d1).
Proof.
  intros n1 d1 n2 d2 r1 r2 H1 H2.
  assert (D1 : d1 <> 0) by (intros ->; rewrite rat_new_zero_denom in H1; discriminate).
  assert (D2 : d2 <> 0) by (intros ->; rewrite rat_new_zero_denom in H2; discriminate).
  apply (safe_val _ _ _ (rat_new_safe _ _ D1)) in H1 as [R1 E1].
  apply (safe_val _ _ _ (rat_new_safe _ _ D2)) in H2 as [R2 E2].
  rewrite rat_eqb_eq. split.
  - intros <-. destruct R1 as [P1 _].
    assert (X : (n1 * d2) * denom r1 = (n2 * d1) * denom r1).
    { transitivity ((n1 * denom r1) * d2); [ring|]. rewrite <- E1.
      transitivity ((numer r1 * d2) * d1); [ring|]. rewrite E2. ring. }
    apply Z.mul_cancel_r in X; [exact X|lia].
  - intros E. apply reduced_unique; auto. apply val_eq_iff; [apply R1|apply R2|].
    destruct R1 as [P1 _], R2 as [P2 _]. 
    assert (X : (numer r1 * denom r2) * (d1 * d2) = (numer r2 * denom r1) * (d1 * d2)).
    { transitivity ((numer r1 * d1) * (denom r2 * d2)); [ring|]. rewrite E1.
      transitivity ((n1 * d2) * (denom r1 * denom r2)); [ring|]. rewrite E.
      transitivity ((n2 * denom r2) * (denom r1 * d1)); [ring|]. rewrite <- E2. ring. }
    apply Z.mul_cancel_r in X; [exact X|nia].
Qed.

Example C04_ex : rat_new Debug 6 (-4) = Ok (mkrat (-3) 2). Proof. reflexivity. Qed.
Example C04_ex_min : rat_new Debug i64_min (-1) = Panic Overflow. Proof. reflexivity. Qed.
Example C04_ex_zero : rat_new Debug 0 (-5) = Ok (mkrat 0 1). Proof. reflexivity. Qed.

(** ** C05 *)
Theorem C05_arithmetic_exact : forall a b, 0 < denom a -> 0 < denom b ->
  safe (rat_add Debug a b) (fun r => 0 < denom r /\ (rat_val r == rat_val a + rat_val b)%Q) /\
  safe (rat_sub Debug a b) (fun r => 0 < denom r /\ (rat_val r == rat_val a - rat_val b)%Q) /\
  safe (rat_mul Debug a b) (fun r => 0 < denom r /\ (rat_val r == rat_val a * rat_val b)%Q) /\
  safe (rat_neg Debug a) (fun r => 0 < denom r /\ (rat_val r == - rat_val a)%Q) /\
  (numer b <> 0 -> safe (rat_div Debug a b) (fun r => 0 < denom r /\ (rat_val r == rat_val a / rat_val b)%Q)) /\
  (numer a <> 0 -> safe (rat_recip Debug a) (fun r => 0 < denom r /\ (rat_val r == / rat_val a)%Q)).
Proof.
  intros a b Ha Hb. repeat split.
  - eapply safe_mono; [apply rat_add_safe; assumption|]. intros r [[P _] E]; auto.
  - eapply safe_mono; [apply rat_sub_safe; assumption|]. intros r [[P _] E]; auto.
  - eapply safe_mono; [apply rat_mul_safe; assumption|]. intros r [[P _] E]; auto.
  - eapply safe_mono; [apply rat_neg_safe; assumption|]. intros r (P & _ & _ & E); auto.
  - intros N. eapply safe_mono; [apply rat_div_safe; assumption|]. intros r [[P _] E]; auto.
  - intros N. eapply safe_mono; [apply rat_recip_safe; assumption|]. intros r ([P _] & _ & E); auto.
Qed.

Theorem C05_assign_forms : forall m a b,
  rat_add_assign m a b = rat_add m a b /\ rat_sub_assign m a b = rat_sub m a b /\
  rat_mul_assign m a b = rat_mul m a b /\ rat_div_assign m a b = rat_div m a b.
Proof. repeat split. Qed.

Theorem C05_sum_product : forall l, Forall (fun r => 0 < denom r) l ->
  safe (rat_sum Debug (map Ok l)) (fun z => 0 < denom z /\ (rat_val z == qsum (map rat_val l))%Q) /\
  safe (rat_product Debug (map Ok l)) (fun z => 0 < denom z /\ (rat_val z == qprod (map rat_val l))%Q).
Proof. intros l H. split; [apply rat_sum_exact; exact H|apply rat_product_exact; exact H]. Qed.

Theorem C05_div_by_zero_panics : forall m a b r, numer b = 0 -> rat_div m a b <> Ok r.
Proof. exact rat_div_by_zero. Qed.

(** operands below 2^31 never overflow, in either profile *)
Theorem C05_completes : forall m a b,
  Z.abs (numer a) < 2 ^ 31 -> Z.abs (denom a) < 2 ^ 31 ->
  Z.abs (numer b) < 2 ^ 31 -> Z.abs (denom b) < 2 ^ 31 ->
  (exists r, rat_add m a b = Ok r) /\ (exists r, rat_sub m a b = Ok r) /\
  (exists r, rat_neg m a = Ok r) /\
  (denom a <> 0 -> denom b <> 0 -> exists r, rat_mul m a b = Ok r) /\
  (denom a <> 0 -> numer b <> 0 -> exists r, rat_div m a b = Ok r) /\
  (exists r, rat_recip m a = Ok r) /\ (exists c, rat_cmp m a b = Ok c).
Proof. intros m a b A1 A2 B1 B2. apply rat_ops_total; split; assumption. Qed.

Example C05_ex_add : rat_add Debug (mkrat 1 2) (mkrat 1 3) = Ok (mkrat 5 6). Proof. reflexivity. Qed.
Example C05_ex_div : rat_div Debug (mkrat 1 2) (mkrat (-3) 4) = Ok (mkrat (-2) 3). Proof. reflexivity. Qed.
Example C05_ex_div0 : rat_div Debug (mkrat 1 2) (mkrat 0 1) = Panic Explicit. Proof. reflexivity. Qed.
Example C05_ex_sum :
  rat_sum Debug (map Ok [mkrat 1 2; mkrat 1 3; mkrat 1 6]) = Ok (mkrat 36 36). Proof. reflexivity. Qed.

(** ** C06 *)
Theorem C06_release_agrees : forall a b e,
  (forall x y z, (int_add Debug x y = Ok z -> int_add Release x y = Ok z) /\
                 (int_sub Debug x y = Ok z -> int_sub Release x y = Ok z) /\
                 (int_mul Debug x y = Ok z -> int_mul Release x y = Ok z) /\
                 (int_div Debug x y = Ok z -> int_div Release x y = Ok z) /\
                 (int_neg Debug x = Ok z -> int_neg Release x = Ok z) /\
                 (int_abs Debug x = Ok z -> int_abs Release x = Ok z) /\
                 (int_pow Debug x y = Ok z -> int_pow Release x y = Ok z) /\
                 (int_gcd Debug x y = Ok z -> int_gcd Release x y = Ok z) /\
                 (int_lcm Debug x y = Ok z -> int_lcm Release x y = Ok z)) /\
  (forall n d r, rat_new Debug n d = Ok r -> rat_new Release n d = Ok r) /\
  (forall r, (rat_add Debug a b = Ok r -> rat_add Release a b = Ok r) /\
             (rat_sub Debug a b = Ok r -> rat_sub Release a b = Ok r) /\
             (rat_mul Debug a b = Ok r -> rat_mul Release a b = Ok r) /\
             (rat_div Debug a b = Ok r -> rat_div Release a b = Ok r) /\
             (rat_neg Debug a = Ok r -> rat_neg Release a = Ok r) /\
             (rat_recip Debug a = Ok r -> rat_recip Release a = Ok r) /\
             (rat_pow Debug a e = Ok r -> rat_pow Release a e = Ok r)) /\
  (forall c, rat_cmp Debug a b = Ok c -> rat_cmp Release a b = Ok c) /\
  (forall c, rat_stability_cmp Debug a b = Ok c -> rat_stability_cmp Release a b = Ok c) /\
  (forall l r, rat_sum Debug l = Ok r -> rat_sum Release l = Ok r) /\
  (forall l r, rat_product Debug l = Ok r -> rat_product Release l = Ok r).
Proof.
  intros a b e. repeat split; intros.
  1-9: first [apply int_add_le|apply int_sub_le|apply int_mul_le|apply int_div_le|apply int_neg_le
      |apply int_abs_le|apply int_pow_le|apply int_gcd_le|apply int_lcm_le]; assumption.
  - apply rat_new_le; assumption.
  - apply rat_add_le; assumption.
  - apply rat_sub_le; assumption.
  - apply rat_mul_le; assumption.
  - apply rat_div_le; assumption.
  - apply rat_neg_le; assumption.
  - apply rat_recip_le; assumption.
  - apply rat_pow_le; assumption.
  - apply rat_cmp_le; assumption.
  - apply rat_stability_le; assumption.
  - apply rat_sum_le; assumption.
  - apply rat_product_le; assumption.
Qed.

(** without overflow checks a sum can be silently wrong, here positive + positive = negative *)
Theorem C06_release_silent_overflow : exists a b r,
  in64 (numer a) /\ in64 (numer b) /\ 0 < denom a /\ 0 < denom b /\
  (0 < rat_val a)%Q /\ (0 < rat_val b)%Q /\
  rat_add Debug a b = Panic Overflow /\ rat_add Release a b = Ok r /\ (rat_val r < 0)%Q.
Proof.
  exists (mkrat (2 ^ 62) 1), (mkrat (2 ^ 62) 1), (mkrat (- 2 ^ 63) 1).
  repeat split; try reflexivity; vm_compute; discriminate.
Qed.

(** ** C07 *)
Theorem C07_sum_not_reduced_refuted : exists a b r,
  rat_new Debug 1 2 = Ok a /\ rat_new Debug 1 2 = Ok b /\ rat_add Debug a b = Ok r /\
  Z.gcd (numer r) (denom r) <> 1 /\
  rat_eqb r rat_one = false /\ rat_cmp Debug r rat_one = Ok Eq /\ rat_is_one r = true.
Proof.
  exists (mkrat 1 2), (mkrat 1 2), (mkrat 4 4). repeat split; try reflexivity. vm_compute. discriminate.
Qed.

Theorem C07_diff_not_reduced_refuted : exists a b r,
  rat_new Debug 3 2 = Ok a /\ rat_new Debug 1 2 = Ok b /\ rat_sub Debug a b = Ok r /\
  rat_eqb r rat_one = false /\ rat_cmp Debug r rat_one = Ok Eq.
Proof. exists (mkrat 3 2), (mkrat 1 2), (mkrat 4 4). repeat split; reflexivity. Qed.

(** without + and - lowest terms are an invariant of every history *)
Theorem C07_mul_history_reduced : forall r, mul_history r ->
  0 < denom r /\ Z.gcd (numer r) (denom r) = 1.
Proof. exact mul_history_reduced. Qed.

Example C07_ex : mul_history (mkrat (-2) 3).
Proof.
  apply (M_div (mkrat 1 2) (mkrat (-3) 4)).
  - apply (M_new 2 4). reflexivity.
  - apply (M_new 3 (-4)). reflexivity.
  - reflexivity.
Qed.

(** ** C08 *)
(** [history r q]: [r] was computed by some tree of crate operations, [q] is the exact value of
    the same tree *)
Theorem C08_history_exact : forall r q, history r q ->
  0 < denom r /\ (rat_val r == q)%Q /\
  (rat_is_zero r = true <-> (q == 0)%Q) /\ (rat_eqb r rat_zero = true <-> (q == 0)%Q).
Proof.
  intros r q H. apply history_inv in H as [W E]. split; [apply W|]. split; [exact E|].
  rewrite (rat_eqb_zero r W). unfold rat_is_zero, int_is_zero. rewrite Z.eqb_eq, <- E.
  rewrite (val_zero_iff r (proj1 W)). tauto.
Qed.

(** is_zero and is_one test the value, not the representation *)
Theorem C08_predicates : forall r, 0 < denom r ->
  (rat_is_zero r = true <-> (rat_val r == 0)%Q) /\ (rat_is_one r = true <-> (rat_val r == 1)%Q).
Proof.
  intros r W. unfold rat_is_zero, int_is_zero, rat_is_one. rewrite !Z.eqb_eq. split; [symmetry; apply val_zero_iff; exact W|].
  unfold rat_val, Qeq. destruct (denom r) as [|d|d]; try discriminate W. cbn [Qdiv Qmult Qinv inject_Z Qnum Qden]. cbn. lia.
Qed.
Example C08_predicates_ex : 0 < denom (mkrat 4 4) /\ rat_is_one (mkrat 4 4) = true /\ rat_eqb (mkrat 4 4) rat_one = false.
Proof. repeat split; reflexivity. Qed.

(** sgn, is_pos, is_neg, is_zero, is_one and abs of Integer *)
Theorem C08_integer_predicates : forall a, in64 a ->
  (int_is_pos a = true <-> a > 0) /\ (int_is_neg a = true <-> a < 0) /\ (int_is_zero a = true <-> a = 0) /\ (int_is_one a = true <-> a = 1) /\
  (int_is_pos a = true <-> int_sgn a = 1) /\ (int_is_neg a = true <-> int_sgn a = -1) /\ (int_is_zero a = true <-> int_sgn a = 0) /\
  (forall m, a <> - 2 ^ 63 -> exists r, int_abs m a = Ok r /\ 0 <= r /\ (r = a \/ r = - a) /\ int_sgn a * r = a) /\
  (a = - 2 ^ 63 -> int_abs Debug a = Panic Overflow /\ int_abs Release a = Ok a).
Proof.
  intros a R. unfold int_is_pos, int_is_neg, int_is_zero, int_is_one, int_sgn. rewrite !Z.ltb_lt, !Z.eqb_eq.
  repeat (split; [lia|]). split.
  - intros m N. exists (Z.abs a). unfold int_abs. rewrite chk64_in; [split; [reflexivity|]; split; [lia|]; split; [lia|]; apply Z.sgn_abs || (rewrite Z.mul_comm; apply Z.abs_sgn)|]. unfold in64, i64_min, i64_max in *. lia.
  - intros ->. split; reflexivity.
Qed.
Example C08_integer_ex : in64 (-5) /\ int_is_neg (-5) = true /\ int_abs Debug (-5) = Ok 5 /\ in64 (- 2 ^ 63).
Proof. repeat split; try reflexivity; discriminate. Qed.

Example C08_ex : history rat_zero (inject_Z 1 / inject_Z 2 + inject_Z 1 / inject_Z 2 - 1)%Q.
Proof.
  apply (H_sub (mkrat 4 4) rat_one).
  - apply (H_add (mkrat 1 2) (mkrat 1 2)); [apply H_new|apply H_new|]; reflexivity.
  - apply H_one.
  - reflexivity.
Qed.

(** ** C09 *)
Theorem C09_cmp_is_order : forall a b, 0 < denom a -> 0 < denom b ->
  safe (rat_cmp Debug a b) (fun c =>
    (c = Lt <-> (rat_val a < rat_val b)%Q) /\
    (c = Eq <-> (rat_val a == rat_val b)%Q) /\
    (c = Gt <-> (rat_val b < rat_val a)%Q)).
Proof.
  intros a b Ha Hb. eapply safe_mono; [apply rat_cmp_safe; assumption|].
  intros c ->. rewrite <- Qlt_alt, <- Qeq_alt, <- Qgt_alt. tauto.
Qed.

Theorem C09_total_preorder : forall a b c,
  0 < denom a -> 0 < denom b -> 0 < denom c ->
  (forall x y, rat_cmp Debug a b = Ok x -> rat_cmp Debug b a = Ok y -> y = CompOpp x) /\
  (forall x y z, rat_cmp Debug a b = Ok x -> rat_cmp Debug b c = Ok y -> rat_cmp Debug a c = Ok z ->
     x <> Gt -> y <> Gt -> z <> Gt).
Proof.
  intros a b c Ha Hb Hc. split.
  - intros x y Hx Hy.
    apply (safe_val _ _ _ (rat_cmp_safe _ _ Ha Hb)) in Hx as ->.
    apply (safe_val _ _ _ (rat_cmp_safe _ _ Hb Ha)) in Hy as ->.
    symmetry. apply Qcompare_antisym.
  - intros x y z Hx Hy Hz.
    apply (safe_val _ _ _ (rat_cmp_safe _ _ Ha Hb)) in Hx as ->.
    apply (safe_val _ _ _ (rat_cmp_safe _ _ Hb Hc)) in Hy as ->.
    apply (safe_val _ _ _ (rat_cmp_safe _ _ Ha Hc)) in Hz as ->.
    rewrite <- !Qle_alt. apply Qle_trans.
Qed.

Theorem C09_eq_agrees : forall a b c, 0 < denom a -> 0 < denom b -> rat_cmp Debug a b = Ok c ->
  (rat_eqb a b = true -> c = Eq) /\
  (Z.gcd (numer a) (denom a) = 1 -> Z.gcd (numer b) (denom b) = 1 -> c = Eq -> rat_eqb a b = true).
Proof.
  intros a b c Ha Hb H. apply (safe_val _ _ _ (rat_cmp_safe _ _ Ha Hb)) in H as ->. split.
  - intros E. apply rat_eqb_eq in E as ->. apply Qeq_alt. reflexivity.
  - intros Ga Gb E. apply Qeq_alt in E. apply rat_eqb_eq. apply reduced_unique; [split; assumption|split; assumption|exact E].
Qed.

Example C09_ex : rat_cmp Debug (mkrat (-1) 2) (mkrat (-1) 3) = Ok Lt. Proof. reflexivity. Qed.

(** ** C10 *)
Theorem C10_pow_nonneg : forall r e, 0 < denom r -> 0 <= e < 2 ^ 32 ->
  safe (rat_pow Debug r e) (fun z => 0 < denom z /\ (rat_val z == rat_val r ^ e)%Q /\
     (Z.gcd (numer r) (denom r) = 1 -> Z.gcd (numer z) (denom z) = 1)).
Proof.
  intros r e Hr He. eapply safe_mono; [apply rat_pow_nonneg_safe; assumption|].
  intros z ->. simpl. split; [apply Z.pow_pos_nonneg; lia|]. split.
  - apply val_pow; lia.
  - intros G. apply pow_gcd; [exact G|lia].
Qed.

(** a negative exponent swaps the two powers without normalising the sign *)
Theorem C10_pow_negative : forall r e, 0 < denom r -> - 2 ^ 32 < e < 0 ->
  safe (rat_pow Debug r e) (fun z =>
     numer z = denom r ^ (- e) /\ denom z = numer r ^ (- e) /\
     (denom z < 0 <-> numer r < 0 /\ Z.odd e = true) /\
     (denom z = 0 <-> numer r = 0)).
Proof.
  intros r e Hr He. eapply safe_mono; [apply rat_pow_neg_safe; assumption|].
  intros z ->. simpl. split; [reflexivity|]. split; [reflexivity|].
  assert (O : Z.odd (- e) = Z.odd e) by apply Z.odd_opp.
  split.
  - split.
    + intros N. destruct (Z.odd e) eqn:E.
      * split; auto. destruct (Z.lt_ge_cases (numer r) 0) as [L|G]; auto.
        pose proof (Z.pow_nonneg (numer r) (- e) G). lia.
      * assert (EV : Z.Even (- e)). { apply Z.even_spec. rewrite <- Z.negb_odd, O. reflexivity. }
        pose proof (Z.pow_even_nonneg (numer r) (- e) EV). lia.
    + intros [L OD]. rewrite <- O in OD. apply Z.odd_spec in OD.
      destruct OD as [k Ek]. rewrite Ek. rewrite Z.pow_add_r by lia. rewrite Z.pow_1_r.
      assert (0 < numer r ^ (2 * k)).
      { rewrite Z.pow_mul_r by lia. apply Z.pow_pos_nonneg; nia. }
      nia.
  - rewrite Z.pow_eq_0_iff. lia.
Qed.

Theorem C10_pow_negative_misordered_refuted : exists r z,
  rat_new Debug (-2) 1 = Ok r /\ rat_pow Debug r (-1) = Ok z /\
  denom z < 0 /\ rat_cmp Debug z rat_zero = Ok Gt.
Proof. exists (mkrat (-2) 1), (mkrat 1 (-2)). repeat split; reflexivity. Qed.

Theorem C10_zero_denominators_refuted :
  (forall m, rat_pow m rat_zero (-1) = Ok (mkrat 1 0)) /\
  (forall m, rat_recip m rat_zero = Ok (mkrat 0 0)).
Proof. split; intros []; reflexivity. Qed.

Example C10_ex : rat_pow Debug (mkrat (-2) 3) 3 = Ok (mkrat (-8) 27). Proof. reflexivity. Qed.
Example C10_ex_neg : rat_pow Debug (mkrat 2 3) (-2) = Ok (mkrat 9 4). Proof. reflexivity. Qed.

(** ** C11 *)
Theorem C11_stability_cmp : forall a b,
  0 < denom a -> (numer a = 0 -> denom a = 1) -> 0 < denom b -> (numer b = 0 -> denom b = 1) ->
  safe (rat_stability_cmp Debug a b) (fun o => exists c, o = Some c /\
     (numer a = 0 -> c = Lt) /\
     (numer a <> 0 -> numer b = 0 -> c = Gt) /\
     (numer a <> 0 -> numer b <> 0 ->
        (c = Gt <-> Z.abs (numer a) + denom a < Z.abs (numer b) + denom b) /\
        (c = Eq <-> Z.abs (numer a) + denom a = Z.abs (numer b) + denom b))).
Proof.
  intros a b Pa Za Pb Zb.
  eapply safe_mono; [apply rat_stability_safe; split; assumption|].
  intros o (c & -> & A & B & C). exists c. split; [reflexivity|]. split; [exact A|]. split; [exact B|].
  intros Na Nb. rewrite (C Na Nb). rewrite (Z.abs_eq (denom a)), (Z.abs_eq (denom b)) by lia.
  rewrite Z.compare_gt_iff, Z.compare_eq_iff. lia.
Qed.

(** epsilon_equals of Rational compares the representations *)
Theorem C11_epsilon_equals : forall a b,
  (rat_epsilon_equals a b = true <-> numer a = numer b /\ denom a = denom b) /\
  (0 < denom a -> 0 < denom b -> Z.gcd (numer a) (denom a) = 1 -> Z.gcd (numer b) (denom b) = 1 ->
     (rat_epsilon_equals a b = true <-> (rat_val a == rat_val b)%Q)).
Proof.
  intros a b. assert (E : rat_epsilon_equals a b = true <-> numer a = numer b /\ denom a = denom b).
  { unfold rat_epsilon_equals, rat_eqb. rewrite andb_true_iff, !Z.eqb_eq. tauto. }
  split; [exact E|]. intros Pa Pb Ga Gb. rewrite E, (val_eq_iff a b Pa Pb). split; [intros [-> ->]; ring|]. intros H.
  assert (D : (denom a | denom b)) by (apply (Z.gauss _ (numer a)); [exists (numer b); lia|rewrite Z.gcd_comm; exact Ga]).
  assert (D' : (denom b | denom a)) by (apply (Z.gauss _ (numer b)); [exists (numer a); lia|rewrite Z.gcd_comm; exact Gb]).
  assert (X : denom a = denom b) by (apply Z.divide_antisym_nonneg; lia || assumption). split; [|exact X]. rewrite X in H. nia.
Qed.
Theorem C11_epsilon_equals_refuted : exists a b, 0 < denom a /\ 0 < denom b /\ (rat_val a == rat_val b)%Q /\ rat_epsilon_equals a b = false.
Proof. exists (mkrat 4 4), (mkrat 1 1). repeat split; reflexivity. Qed.
Example C11_epsilon_ex : rat_epsilon_equals (mkrat 1 2) (mkrat 1 2) = true /\ Z.gcd 1 2 = 1. Proof. split; reflexivity. Qed.

Example C11_ex : rat_stability_cmp Debug (mkrat 1 2) (mkrat 5 7) = Ok (Some Gt). Proof. reflexivity. Qed.

Print Assumptions C01_gcd_terminates.
Print Assumptions C01_gcd_is_gcd.
Print Assumptions C01_gcd_both_profiles.
Print Assumptions C01_gcd_release_min_refuted.
Print Assumptions C02_lcm.
Print Assumptions C02_lcm_completes.
Print Assumptions C02_lcm_zero_zero.
Print Assumptions C02_lcm_nonnegative_refuted.
Print Assumptions C03_pow_exact.
Print Assumptions C03_pow_truncates.
Print Assumptions C03_pow_refuted.
Print Assumptions C04_new_canonical.
Print Assumptions C04_new_completes.
Print Assumptions C04_new_zero_denominator.
Print Assumptions C04_new_unique.
Print Assumptions C05_arithmetic_exact.
Print Assumptions C05_assign_forms.
Print Assumptions C05_sum_product.
Print Assumptions C05_div_by_zero_panics.
Print Assumptions C05_completes.
Print Assumptions C06_release_agrees.
Print Assumptions C06_release_silent_overflow.
Print Assumptions C07_sum_not_reduced_refuted.
Print Assumptions C07_diff_not_reduced_refuted.
Print Assumptions C07_mul_history_reduced.
Print Assumptions C08_predicates.
Print Assumptions C08_integer_predicates.
Print Assumptions C08_history_exact.
Print Assumptions C09_cmp_is_order.
Print Assumptions C09_total_preorder.
Print Assumptions C09_eq_agrees.
Print Assumptions C10_pow_nonneg.
Print Assumptions C10_pow_negative.
Print Assumptions C10_pow_negative_misordered_refuted.
Print Assumptions C10_zero_denominators_refuted.
Print Assumptions C11_stability_cmp.
Print Assumptions C11_epsilon_equals.
Print Assumptions C11_epsilon_equals_refuted.
