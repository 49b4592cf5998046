(** * Proofs about the Integer model. *)
From Verif Require Import Base BaseLemmas IntModel.
Open Scope Z_scope.

Lemma in64b_spec z : in64b z = true <-> in64 z.
Proof. unfold in64b, in64. rewrite andb_true_iff, !Z.leb_le. tauto. Qed.

Lemma in64b_false z : in64b z = false <-> ~ in64 z.
Proof. rewrite <- in64b_spec. destruct (in64b z); split; intuition discriminate. Qed.

Lemma chk64_in m z : in64 z -> chk64 m z = Ok z.
Proof. intros H. unfold chk64. apply in64b_spec in H. rewrite H. reflexivity. Qed.

Lemma chk64_safe z : safe (chk64 Debug z) (fun r => r = z /\ in64 z).
Proof.
  unfold chk64. destruct (in64b z) eqn:E; simpl; auto. split; auto. apply in64b_spec; exact E.
Qed.

Lemma chk64_Ok z r : chk64 Debug z = Ok r -> r = z /\ in64 z.
Proof. intros H. exact (safe_val _ _ _ (chk64_safe z) H). Qed.

Lemma chk64_le z : res_le (chk64 Debug z) (chk64 Release z).
Proof. intros a H. apply chk64_Ok in H as [-> H]. apply chk64_in; exact H. Qed.

Lemma wrap64_in z : in64 (wrap64 z).
Proof.
  unfold in64, wrap64, i64_min, i64_max.
  pose proof (Z.mod_pos_bound (z + 2 ^ 63) (2 ^ 64) ltac:(reflexivity)). lia.
Qed.

Lemma wrap64_id z : in64 z -> wrap64 z = z.
Proof.
  unfold in64, wrap64, i64_min, i64_max. intros H.
  rewrite Z.mod_small by lia. lia.
Qed.

Lemma wrap64_congr z : exists k, wrap64 z = z + k * 2 ^ 64.
Proof.
  unfold wrap64. exists (- ((z + 2 ^ 63) / 2 ^ 64)).
  pose proof (Z.div_mod (z + 2 ^ 63) (2 ^ 64) ltac:(discriminate)). lia.
Qed.

(** ** gcd *)

Lemma rem_abs_lt a b : b <> 0 -> Z.abs (Z.rem a b) < Z.abs b.
Proof. intros H. apply Z.rem_bound_abs; exact H. Qed.

Lemma rem_half a b : b <> 0 -> Z.abs b <= Z.abs a -> 2 * Z.abs (Z.rem a b) < Z.abs a.
Proof.
  intros Hb Hle.
  rewrite <- Z.rem_abs by exact Hb.
  rewrite Z.rem_mod_nonneg by lia.
  pose proof (Z.mod_pos_bound (Z.abs a) (Z.abs b) ltac:(lia)).
  pose proof (Z.div_mod (Z.abs a) (Z.abs b) ltac:(lia)) as E.
  assert (1 <= Z.abs a / Z.abs b) by (apply Z.div_le_lower_bound; lia).
  nia.
Qed.

Lemma gcd_rem a b : b <> 0 -> Z.gcd b (Z.rem a b) = Z.gcd a b.
Proof.
  intros H.
  assert (E : a = b * Z.quot a b + Z.rem a b) by (apply Z.quot_rem; exact H).
  rewrite (Z.gcd_comm a b).
  set (r := Z.rem a b) in *. set (q := Z.quot a b) in *.
  replace a with (r + q * b) by lia.
  rewrite Z.gcd_add_mult_diag_r. reflexivity.
Qed.

Lemma int_rem_safe m a b : b <> 0 -> safe (int_rem m a b) (fun r => r = Z.rem a b).
Proof.
  intros H. unfold int_rem. apply Z.eqb_neq in H. rewrite H.
  destruct ((a =? i64_min) && (b =? -1)); simpl; auto.
Qed.

Lemma gcd_loop_S fuel m a b : b <> 0 ->
  gcd_loop (S fuel) m a b = (r <- int_rem m a b ;; gcd_loop fuel m b r).
Proof. intros H. simpl. apply Z.eqb_neq in H. rewrite H. reflexivity. Qed.

Lemma gcd_loop_0 fuel m a : gcd_loop fuel m a 0 = int_abs m a.
Proof. destruct fuel; reflexivity. Qed.

Lemma gcd_loop_safe k : forall a b fuel, Z.abs b < 2 ^ Z.of_nat k -> (2 * k <= fuel)%nat ->
  safe (gcd_loop fuel Debug a b) (fun g => g = Z.gcd a b).
Proof.
  induction k as [|k IH]; intros a b fuel Hb Hf.
  - assert (b = 0) by (change (2 ^ Z.of_nat 0) with 1 in Hb; lia). subst b.
    rewrite gcd_loop_0, Z.gcd_0_r. unfold int_abs.
    eapply safe_mono; [apply chk64_safe|]. intros r [-> _]; reflexivity.
  - destruct (Z.eq_dec b 0) as [->|Nb].
    { rewrite gcd_loop_0, Z.gcd_0_r. unfold int_abs.
      eapply safe_mono; [apply chk64_safe|]. intros r [-> _]; reflexivity. }
    destruct fuel as [|fuel]; [lia|]. rewrite gcd_loop_S by exact Nb.
    eapply safe_bind; [apply int_rem_safe; exact Nb|]. intros r1 ->.
    set (r1 := Z.rem a b).
    destruct (Z.eq_dec r1 0) as [E1|N1].
    { rewrite E1, gcd_loop_0. rewrite <- (gcd_rem a b Nb). fold r1. rewrite E1, Z.gcd_0_r.
      unfold int_abs. eapply safe_mono; [apply chk64_safe|]. intros r [-> _]; reflexivity. }
    destruct fuel as [|fuel]; [lia|]. rewrite gcd_loop_S by exact N1.
    eapply safe_bind; [apply int_rem_safe; exact N1|]. intros r2 ->.
    rewrite <- (gcd_rem a b Nb). fold r1. rewrite <- (gcd_rem b r1 N1).
    apply IH; [|lia].
    pose proof (rem_abs_lt a b Nb) as L1. fold r1 in L1.
    pose proof (rem_half b r1 N1 ltac:(lia)) as L2.
    rewrite Nat2Z.inj_succ, Z.pow_succ_r in Hb by lia. lia.
Qed.

Lemma gcd_fuel_bound b : exists k, Z.abs b < 2 ^ Z.of_nat k /\ (2 * k <= gcd_fuel b)%nat.
Proof.
  exists (S (Z.to_nat (Z.log2 (Z.abs b)))). unfold gcd_fuel. split; [|lia].
  rewrite Nat2Z.inj_succ, Z2Nat.id by apply Z.log2_nonneg.
  destruct (Z.eq_dec b 0) as [->|N]; [reflexivity|].
  apply Z.log2_spec. lia.
Qed.

Lemma int_gcd_safe a b : safe (int_gcd Debug a b) (fun g => g = Z.gcd a b).
Proof.
  unfold int_gcd. destruct (gcd_fuel_bound b) as (k & H1 & H2).
  apply (gcd_loop_safe k); assumption.
Qed.

Lemma int_gcd_Ok a b g : int_gcd Debug a b = Ok g -> g = Z.gcd a b.
Proof. intros H. exact (safe_val _ _ _ (int_gcd_safe a b) H). Qed.

(** without i64::MIN among the arguments nothing overflows, in either profile *)
Lemma gcd_loop_total m k : forall a b fuel, Z.abs b < 2 ^ Z.of_nat k -> (2 * k <= fuel)%nat ->
  Z.abs a < 2 ^ 63 -> Z.abs b < 2 ^ 63 ->
  gcd_loop fuel m a b = Ok (Z.gcd a b).
Proof.
  assert (ABS : forall a, Z.abs a < 2 ^ 63 -> int_abs m a = Ok (Z.abs a)).
  { intros a H. unfold int_abs. apply chk64_in. unfold in64, i64_min, i64_max. lia. }
  assert (REM : forall a b, b <> 0 -> Z.abs a < 2 ^ 63 -> int_rem m a b = Ok (Z.rem a b)).
  { intros a b Hb H. unfold int_rem. apply Z.eqb_neq in Hb; rewrite Hb.
    assert (a =? i64_min = false) as -> by (apply Z.eqb_neq; unfold i64_min; lia). reflexivity. }
  induction k as [|k IH]; intros a b fuel Hb Hf Ha63 Hb63.
  - assert (b = 0) by (change (2 ^ Z.of_nat 0) with 1 in Hb; lia). subst b.
    rewrite gcd_loop_0, Z.gcd_0_r. auto.
  - destruct (Z.eq_dec b 0) as [->|Nb].
    { rewrite gcd_loop_0, Z.gcd_0_r. auto. }
    destruct fuel as [|fuel]; [lia|]. rewrite gcd_loop_S, REM by auto. cbn [bind].
    set (r1 := Z.rem a b).
    pose proof (rem_abs_lt a b Nb) as L1. fold r1 in L1.
    destruct (Z.eq_dec r1 0) as [E1|N1].
    { rewrite E1, gcd_loop_0. rewrite <- (gcd_rem a b Nb). fold r1. rewrite E1, Z.gcd_0_r. auto. }
    destruct fuel as [|fuel]; [lia|]. rewrite gcd_loop_S, REM by auto. cbn [bind].
    rewrite <- (gcd_rem a b Nb). fold r1. rewrite <- (gcd_rem b r1 N1).
    pose proof (rem_half b r1 N1 ltac:(lia)) as L2.
    pose proof (rem_abs_lt b r1 N1) as L3.
    apply IH; try lia.
    rewrite Nat2Z.inj_succ, Z.pow_succ_r in Hb by lia. lia.
Qed.

Lemma int_gcd_total m a b : Z.abs a < 2 ^ 63 -> Z.abs b < 2 ^ 63 ->
  int_gcd m a b = Ok (Z.gcd a b).
Proof.
  intros Ha Hb. unfold int_gcd. destruct (gcd_fuel_bound b) as (k & H1 & H2).
  apply (gcd_loop_total m k); assumption.
Qed.

(** ** refinement between the profiles *)
Lemma gcd_loop_le fuel : forall a b, res_le (gcd_loop fuel Debug a b) (gcd_loop fuel Release a b).
Proof.
  induction fuel as [|fuel IH]; intros a b; simpl; destruct (b =? 0); try apply res_le_refl;
    try apply chk64_le.
  apply res_le_bind; auto. apply res_le_refl.
Qed.
Lemma int_gcd_le a b : res_le (int_gcd Debug a b) (int_gcd Release a b).
Proof. apply gcd_loop_le. Qed.
Lemma int_add_le a b : res_le (int_add Debug a b) (int_add Release a b).
Proof. apply chk64_le. Qed.
Lemma int_sub_le a b : res_le (int_sub Debug a b) (int_sub Release a b).
Proof. apply chk64_le. Qed.
Lemma int_mul_le a b : res_le (int_mul Debug a b) (int_mul Release a b).
Proof. apply chk64_le. Qed.
Lemma int_neg_le a : res_le (int_neg Debug a) (int_neg Release a).
Proof. apply chk64_le. Qed.
Lemma int_abs_le a : res_le (int_abs Debug a) (int_abs Release a).
Proof. apply chk64_le. Qed.
Lemma int_pow_le a b : res_le (int_pow Debug a b) (int_pow Release a b).
Proof. apply chk64_le. Qed.
Lemma int_div_le a b : res_le (int_div Debug a b) (int_div Release a b).
Proof. apply res_le_refl. Qed.
Lemma int_lcm_le a b : res_le (int_lcm Debug a b) (int_lcm Release a b).
Proof.
  apply res_le_bind; [apply int_gcd_le|]. intros g _.
  apply res_le_bind; [apply int_div_le|]. intros q _. apply int_mul_le.
Qed.

(** ** lcm *)
Lemma int_div_safe m a b : b <> 0 -> safe (int_div m a b) (fun r => r = Z.quot a b).
Proof.
  intros H. unfold int_div. apply Z.eqb_neq in H. rewrite H.
  destruct ((a =? i64_min) && (b =? -1)); simpl; auto.
Qed.

Lemma quot_gcd a b : Z.gcd a b <> 0 -> Z.gcd a b * Z.quot a (Z.gcd a b) = a.
Proof.
  intros H. destruct (Z.gcd_divide_l a b) as [q E].
  set (g := Z.gcd a b) in *. clearbody g. subst a.
  rewrite Z.quot_mul by exact H. ring.
Qed.

Lemma int_lcm_safe a b : a <> 0 \/ b <> 0 ->
  safe (int_lcm Debug a b) (fun l => l = Z.quot a (Z.gcd a b) * b).
Proof.
  intros H. unfold int_lcm.
  assert (G : Z.gcd a b <> 0).
  { intros E. apply Z.gcd_eq_0 in E. lia. }
  eapply safe_bind; [apply int_gcd_safe|]. intros g ->.
  eapply safe_bind; [apply int_div_safe; exact G|]. intros q ->.
  eapply safe_mono; [apply chk64_safe|]. intros r [-> _]; reflexivity.
Qed.

Lemma lcm_form a b : a <> 0 \/ b <> 0 ->
  Z.abs (Z.quot a (Z.gcd a b) * b) = Z.lcm a b.
Proof.
  intros H.
  assert (G : Z.gcd a b <> 0).
  { intros E. apply Z.gcd_eq_0 in E. lia. }
  unfold Z.lcm. f_equal.
  pose proof (quot_gcd a b G) as E. pose proof (Z.gcd_nonneg a b) as GN.
  destruct (Z.gcd_divide_r a b) as [q Eq].
  set (g := Z.gcd a b) in *. clearbody g. clear H. subst b.
  rewrite Z.div_mul by exact G.
  transitivity (g * (a ÷ g) * q); [ring|rewrite E; reflexivity].
Qed.

Lemma lcm_sign a b : a <> 0 \/ b <> 0 ->
  (Z.quot a (Z.gcd a b) * b < 0 <-> (a < 0 < b \/ b < 0 < a)).
Proof.
  intros H.
  assert (G : Z.gcd a b <> 0).
  { intros E. apply Z.gcd_eq_0 in E. lia. }
  pose proof (quot_gcd a b G) as E. pose proof (Z.gcd_nonneg a b) as GN.
  set (q := Z.quot a (Z.gcd a b)) in *.
  split; intros; nia.
Qed.
