(** * When checked Rational arithmetic does not overflow: operation by operation. *)
From Verif Require Import Base BaseLemmas IntModel RatModel IntProofs RatProofs NumFacts.
Open Scope Z_scope.

(** numerator at most [A] in absolute value, denominator positive and at most [D] *)
Definition rb (A D : Z) (r : rat) : Prop := Z.abs (numer r) <= A /\ 0 < denom r <= D.

Lemma rb_nonneg A D r : rb A D r -> 0 <= A /\ 1 <= D.
Proof. intros [H1 H2]. lia. Qed.
Lemma rb_mono A D A' D' r : A <= A' -> D <= D' -> rb A D r -> rb A' D' r.
Proof. unfold rb. intros. lia. Qed.
Lemma chk64_abs z B : Z.abs z <= B -> B <= i64_max -> chk64 Debug z = Ok z.
Proof.
  intros H1 H2. unfold chk64, in64b. unfold i64_max, i64_min in *.
  destruct (_ <=? _) eqn:E1; [|apply Z.leb_gt in E1; lia]. destruct (z <=? _) eqn:E2; [reflexivity|apply Z.leb_gt in E2; lia].
Qed.
Lemma abs_mul_le a b A B : Z.abs a <= A -> Z.abs b <= B -> Z.abs (a * b) <= A * B.
Proof. intros. rewrite Z.abs_mul. apply Z.mul_le_mono_nonneg; lia. Qed.

Lemma rb_zero A D : 0 <= A -> 1 <= D -> rb A D rat_zero.
Proof. unfold rb, rat_zero. cbn. lia. Qed.
Lemma rb_one A D : 1 <= A -> 1 <= D -> rb A D rat_one.
Proof. unfold rb, rat_one. cbn. lia. Qed.

Lemma rb_add A D B E a b : rb A D a -> rb B E b -> A * E + B * D <= i64_max -> D * E <= i64_max ->
  exists r, rat_add Debug a b = Ok r /\ rb (A * E + B * D) (D * E) r.
Proof.
  intros Ha Hb L1 L2. pose proof (rb_nonneg _ _ _ Ha). pose proof (rb_nonneg _ _ _ Hb). destruct Ha as [Na Da], Hb as [Nb Db].
  assert (X : Z.abs (numer a * denom b) <= A * E) by (apply abs_mul_le; lia).
  assert (Y : Z.abs (numer b * denom a) <= B * D) by (apply abs_mul_le; lia).
  assert (W : 0 < denom a * denom b <= D * E).
  { split; [apply Z.mul_pos_pos; lia|]. apply Z.mul_le_mono_nonneg; lia. }
  assert (0 <= A * E) by lia. assert (0 <= B * D) by lia.
  unfold rat_add, int_mul, int_add. rewrite (chk64_abs _ (A * E) X) by lia. cbn [bind]. rewrite (chk64_abs _ (B * D) Y) by lia. cbn [bind].
  rewrite (chk64_abs _ (A * E + B * D)) by lia. cbn [bind]. unfold int_is_zero. destruct (Z.eqb_spec (numer a * denom b + numer b * denom a) 0).
  - exists rat_zero. split; [reflexivity|]. apply rb_zero; lia.
  - rewrite (chk64_abs _ (D * E)) by lia. cbn [bind]. eexists. split; [reflexivity|]. unfold rb. cbn. lia.
Qed.
Lemma rb_neg A D a : rb A D a -> A <= i64_max -> exists r, rat_neg Debug a = Ok r /\ rb A D r.
Proof.
  intros Ha L. destruct Ha as [Na Da]. unfold rat_neg, int_neg. rewrite (chk64_abs _ A) by lia. cbn [bind].
  eexists. split; [reflexivity|]. unfold rb. cbn. lia.
Qed.
Lemma rb_sub A D B E a b : rb A D a -> rb B E b -> A * E + B * D <= i64_max -> D * E <= i64_max ->
  exists r, rat_sub Debug a b = Ok r /\ rb (A * E + B * D) (D * E) r.
Proof.
  intros Ha Hb L1 L2. pose proof (rb_nonneg _ _ _ Ha). pose proof (rb_nonneg _ _ _ Hb). destruct Ha as [Na Da], Hb as [Nb Db].
  assert (X : Z.abs (numer a * denom b) <= A * E) by (apply abs_mul_le; lia).
  assert (Y : Z.abs (numer b * denom a) <= B * D) by (apply abs_mul_le; lia).
  assert (W : 0 < denom a * denom b <= D * E).
  { split; [apply Z.mul_pos_pos; lia|]. apply Z.mul_le_mono_nonneg; lia. }
  assert (0 <= A * E) by lia. assert (0 <= B * D) by lia.
  unfold rat_sub, int_mul, int_sub. rewrite (chk64_abs _ (A * E) X) by lia. cbn [bind]. rewrite (chk64_abs _ (B * D) Y) by lia. cbn [bind].
  rewrite (chk64_abs _ (A * E + B * D)) by lia. cbn [bind]. unfold int_is_zero. destruct (Z.eqb_spec (numer a * denom b - numer b * denom a) 0).
  - exists rat_zero. split; [reflexivity|]. apply rb_zero; lia.
  - rewrite (chk64_abs _ (D * E)) by lia. cbn [bind]. eexists. split; [reflexivity|]. unfold rb. cbn. lia.
Qed.
Lemma rb_new n d A D : d <> 0 -> Z.abs n <= A -> Z.abs d <= D -> A <= i64_max -> D <= i64_max ->
  exists r, rat_new Debug n d = Ok r /\ rb A D r.
Proof.
  intros Hd Hn HD LA LD.
  destruct (rat_new_total Debug n d Hd) as [r E]; [unfold i64_max in *; lia|unfold i64_max in *; lia|].
  exists r. split; [exact E|]. destruct (safe_val _ _ _ (rat_new_safe n d Hd) E) as [[P G] X].
  (* r = n/d in lowest terms *)
  assert (V : (denom r | d)).
  { apply (Z.gauss (denom r) (numer r) d); [exists n; lia|rewrite Z.gcd_comm; exact G]. }
  destruct V as [k Ek].
  assert (En : n = k * numer r).
  { apply (Z.mul_cancel_r _ _ (denom r)); [lia|]. rewrite <- X, Ek. ring. }
  assert (k <> 0) by (intros ->; lia). assert (1 <= Z.abs k) by lia.
  split.
  - rewrite En, Z.abs_mul in Hn. pose proof (Z.mul_le_mono_nonneg_r 1 (Z.abs k) (Z.abs (numer r)) ltac:(lia) ltac:(lia)). lia.
  - rewrite Ek, Z.abs_mul in HD. split; [exact P|].
    pose proof (Z.mul_le_mono_nonneg_r 1 (Z.abs k) (Z.abs (denom r)) ltac:(lia) ltac:(lia)). lia.
Qed.
Lemma rb_mul A D B E a b : rb A D a -> rb B E b -> A * B <= i64_max -> D * E <= i64_max ->
  exists r, rat_mul Debug a b = Ok r /\ rb (A * B) (D * E) r.
Proof.
  intros Ha Hb L1 L2. pose proof (rb_nonneg _ _ _ Ha). pose proof (rb_nonneg _ _ _ Hb). destruct Ha as [Na Da], Hb as [Nb Db].
  assert (X : Z.abs (numer a * numer b) <= A * B) by (apply abs_mul_le; lia).
  assert (W : 0 < denom a * denom b <= D * E).
  { split; [apply Z.mul_pos_pos; lia|]. apply Z.mul_le_mono_nonneg; lia. }
  unfold rat_mul, int_mul. rewrite (chk64_abs _ (A * B) X) by lia. cbn [bind]. rewrite (chk64_abs _ (D * E)) by lia. cbn [bind].
  apply rb_new; lia.
Qed.
Lemma pow_abs_le a A n : 0 <= n -> Z.abs a <= A -> Z.abs (a ^ n) <= A ^ n.
Proof. intros Hn H. rewrite Z.abs_pow. apply Z.pow_le_mono_l. lia. Qed.
Lemma rb_powi A D a e : rb A D a -> 0 <= e < 2 ^ 32 -> A ^ e <= i64_max -> D ^ e <= i64_max ->
  exists r, rat_powi Debug a e = Ok r /\ rb (A ^ e) (D ^ e) r.
Proof.
  intros Ha He L1 L2. pose proof (rb_nonneg _ _ _ Ha). destruct Ha as [Na Da]. unfold rat_powi, rat_pow, int_is_neg.
  destruct (e <? 0) eqn:E0; [apply Z.ltb_lt in E0; lia|]. unfold int_pow, as_u32. rewrite Z.mod_small by lia.
  rewrite (chk64_abs _ (A ^ e)) by (try apply pow_abs_le; lia). cbn [bind].
  assert (Z.abs (denom a ^ e) <= D ^ e) by (apply pow_abs_le; lia).
  rewrite (chk64_abs _ (D ^ e)) by lia. cbn [bind]. eexists. split; [reflexivity|]. unfold rb. cbn. split; [apply pow_abs_le; lia|].
  split; [apply Z.pow_pos_nonneg; lia|lia].
Qed.

(** ** Sums of [k] numbers bounded by [A]/[D]: k*A*D^(k-1) and D^k *)
Definition sumA (k : nat) (A D : Z) : Z := Z.of_nat k * A * D ^ Z.of_nat (pred k).
Definition sumD (k : nat) (D : Z) : Z := D ^ Z.of_nat k.
Lemma sumD_pos k D : 1 <= D -> 1 <= sumD k D.
Proof. intros H. unfold sumD. pose proof (Z.pow_pos_nonneg D (Z.of_nat k)). lia. Qed.
Lemma sumD_S k D : sumD (S k) D = sumD k D * D.
Proof. unfold sumD. rewrite Nat2Z.inj_succ, Z.pow_succ_r by lia. ring. Qed.
Lemma sumD_1 D : sumD 1 D = D. Proof. unfold sumD. change (Z.of_nat 1) with 1. apply Z.pow_1_r. Qed.
Lemma sumA_1 A D : sumA 1 A D = A. Proof. unfold sumA. cbn [pred]. change (Z.of_nat 1) with 1. change (Z.of_nat 0) with 0. rewrite Z.pow_0_r. ring. Qed.
Lemma sumA_S k A D : (1 <= k)%nat -> sumA (S k) A D = sumA k A D * D + A * sumD k D.
Proof.
  intros H. unfold sumA, sumD. destruct k as [|k]; [lia|]. cbn [pred]. rewrite !Nat2Z.inj_succ, !Z.pow_succ_r by lia. ring.
Qed.
Lemma sumA_S0 k A D : 0 <= A -> 1 <= D -> sumA k A D * D + A * sumD k D <= sumA (S k) A D.
Proof.
  intros HA HD. destruct k as [|k]; [|rewrite <- sumA_S by lia; lia]. rewrite sumA_1. unfold sumA, sumD. cbn. lia.
Qed.
Lemma sumA_nonneg k A D : 0 <= A -> 1 <= D -> 0 <= sumA k A D.
Proof. intros. unfold sumA. pose proof (Z.pow_pos_nonneg D (Z.of_nat (pred k))). nia. Qed.
Lemma sumA_mono k k' A D : 0 <= A -> 1 <= D -> (k <= k')%nat -> sumA k A D <= sumA k' A D.
Proof.
  intros HA HD L. induction L as [|k' L IH]; [lia|]. pose proof (sumA_S0 k' A D HA HD). pose proof (sumA_nonneg k' A D HA HD).
  pose proof (sumD_pos k' D HD). nia.
Qed.
Lemma sumD_mono k k' D : 1 <= D -> (k <= k')%nat -> sumD k D <= sumD k' D.
Proof. intros HD L. unfold sumD. apply Z.pow_le_mono_r; lia. Qed.
Lemma rb_sum_step k A D a b : rb (sumA k A D) (sumD k D) a -> rb A D b ->
  sumA (S k) A D <= i64_max -> sumD (S k) D <= i64_max ->
  exists r, rat_add Debug a b = Ok r /\ rb (sumA (S k) A D) (sumD (S k) D) r.
Proof.
  intros Ha Hb L1 L2. pose proof (rb_nonneg _ _ _ Hb) as [HA HD].
  pose proof (sumA_S0 k A D HA HD) as S0. rewrite sumD_S in *.
  destruct (rb_add _ _ _ _ a b Ha Hb) as (r & E & R); [lia|lia|]. exists r. split; [exact E|].
  apply (rb_mono _ _ _ _ r S0 (Z.le_refl _) R).
Qed.
