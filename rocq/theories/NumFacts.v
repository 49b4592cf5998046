(** * Further facts about Integer and Rational, used by PropNum. *)
From Verif Require Import Base BaseLemmas IntModel RatModel FieldIface IntProofs RatProofs.
From Coq Require Import QArith Qpower Qcanon Znumtheory Lqa.
Open Scope Z_scope.

Lemma gcd_loop_mono f : forall f' m a b, (f <= f')%nat -> gcd_loop f m a b <> NoFuel ->
  gcd_loop f' m a b = gcd_loop f m a b.
Proof.
  induction f as [|f IH]; intros [|f'] m a b L N; try lia; simpl in *; destruct (b =? 0); auto.
  - contradiction.
  - destruct (int_rem m a b) as [r|k|]; simpl in *; auto. apply IH; auto. lia.
Qed.

Lemma gcd_loop_nofuel f : forall a b, gcd_loop f Debug a b <> NoFuel -> gcd_loop f Release a b <> NoFuel.
Proof.
  induction f as [|f IH]; intros a b N; simpl in *; destruct (b =? 0); auto.
  - unfold int_abs, chk64. destruct (in64b _); discriminate.
  - unfold int_abs, chk64. destruct (in64b _); discriminate.
  - change (int_rem Release a b) with (int_rem Debug a b).
    destruct (int_rem Debug a b) as [r|k|]; simpl in *; auto.
Qed.

Lemma int_gcd_terminates m a b fuel : (gcd_fuel b <= fuel)%nat ->
  gcd_loop fuel m a b = int_gcd m a b /\ int_gcd m a b <> NoFuel.
Proof.
  intros L.
  assert (N : int_gcd m a b <> NoFuel).
  { assert (D : int_gcd Debug a b <> NoFuel).
    { pose proof (int_gcd_safe a b) as S. intros E. rewrite E in S. exact S. }
    destruct m; auto. apply gcd_loop_nofuel. exact D. }
  split; auto. apply gcd_loop_mono; assumption.
Qed.

Lemma abs_lt_in64 z : Z.abs z < 2 ^ 63 -> in64 z.
Proof. unfold in64, i64_min, i64_max. lia. Qed.
Lemma in64_not_min z : in64 z -> z <> i64_min -> Z.abs z < 2 ^ 63.
Proof. unfold in64, i64_min, i64_max. lia. Qed.

Lemma gcd_cases a b : in64 a -> in64 b ->
  int_gcd Debug a b = Ok (Z.gcd a b) \/
  (int_gcd Debug a b = Panic Overflow /\ (a = i64_min \/ b = i64_min)).
Proof.
  intros Ha Hb.
  pose proof (int_gcd_safe a b) as S.
  destruct (Z.eq_dec a i64_min) as [Ea|Na]; [|destruct (Z.eq_dec b i64_min) as [Eb|Nb]].
  1,2: destruct (int_gcd Debug a b) as [g|[]|]; simpl in S; try contradiction; subst; auto.
  left. apply int_gcd_total; apply in64_not_min; assumption.
Qed.

Lemma lcm_total m a b : a <> 0 \/ b <> 0 -> Z.abs a < 2 ^ 63 -> Z.abs b < 2 ^ 63 ->
  Z.lcm a b < 2 ^ 63 -> int_lcm m a b = Ok (Z.quot a (Z.gcd a b) * b).
Proof.
  intros H Ha Hb Hl. unfold int_lcm. rewrite int_gcd_total by assumption. simpl.
  assert (G : Z.gcd a b <> 0) by (intros E; apply Z.gcd_eq_0 in E; lia).
  unfold int_div. apply Z.eqb_neq in G. rewrite G.
  assert (a =? i64_min = false) as -> by (apply Z.eqb_neq; unfold i64_min; lia).
  simpl. apply chk64_in. apply abs_lt_in64. rewrite lcm_form by exact H. exact Hl.
Qed.

Lemma lcm_divides a b : a <> 0 \/ b <> 0 ->
  let l := Z.quot a (Z.gcd a b) * b in
  (a | l) /\ (b | l) /\ (forall c, (a | c) -> (b | c) -> (l | c)) /\
  (l < 0 <-> (a < 0 < b \/ b < 0 < a)).
Proof.
  intros H l.
  pose proof (lcm_form a b H) as E. fold l in E.
  pose proof (lcm_sign a b H) as SG. fold l in SG.
  pose proof (Z.divide_lcm_l a b) as D1. pose proof (Z.divide_lcm_r a b) as D2.
  rewrite <- E, Z.divide_abs_r in D1, D2.
  split; [exact D1|]. split; [exact D2|]. split; [|exact SG].
  intros c Hc1 Hc2. pose proof (Z.lcm_least a b c Hc1 Hc2) as L. rewrite <- E in L.
  rewrite Z.divide_abs_l in L. exact L.
Qed.

(** ** when rational operations complete *)
Lemma int_div_total m a b : b <> 0 -> Z.abs a < 2 ^ 63 -> int_div m a b = Ok (Z.quot a b).
Proof.
  intros Hb Ha. unfold int_div. apply Z.eqb_neq in Hb. rewrite Hb.
  assert (a =? i64_min = false) as -> by (apply Z.eqb_neq; unfold i64_min; lia). reflexivity.
Qed.

Lemma rat_new_total m n d : d <> 0 -> Z.abs n < 2 ^ 63 -> Z.abs d < 2 ^ 63 ->
  exists r, rat_new m n d = Ok r.
Proof.
  intros Hd Hn Hd'. unfold rat_new, int_is_zero.
  pose proof Hd as Hz. apply Z.eqb_neq in Hz. rewrite Hz.
  rewrite int_gcd_total by assumption. simpl.
  assert (G : Z.gcd n d <> 0) by (intros E; apply Z.gcd_eq_0_r in E; contradiction).
  assert (Hs : Z.abs (int_sgn d * n) < 2 ^ 63).
  { unfold int_sgn. rewrite Z.abs_mul. assert (Z.abs (Z.sgn d) = 1) as -> by (destruct d; simpl; lia). lia. }
  unfold int_mul. rewrite chk64_in by (apply abs_lt_in64; exact Hs). simpl.
  rewrite int_div_total by assumption. simpl.
  unfold int_abs. rewrite chk64_in by (apply abs_lt_in64; lia). simpl.
  rewrite int_div_total by (assumption || lia). simpl. eauto.
Qed.

Definition small31 (r : rat) : Prop := Z.abs (numer r) < 2 ^ 31 /\ Z.abs (denom r) < 2 ^ 31.

Lemma small_mul m x y : Z.abs x < 2 ^ 31 -> Z.abs y < 2 ^ 31 ->
  int_mul m x y = Ok (x * y) /\ Z.abs (x * y) < 2 ^ 62.
Proof.
  intros Hx Hy.
  assert (B : Z.abs (x * y) < 2 ^ 62).
  { rewrite Z.abs_mul. change (2 ^ 62) with (2 ^ 31 * 2 ^ 31).
    apply Z.mul_lt_mono_nonneg; try apply Z.abs_nonneg; assumption. }
  split; auto. unfold int_mul. apply chk64_in. apply abs_lt_in64. lia.
Qed.

Ltac smul := match goal with |- context [int_mul ?m ?x ?y] =>
   destruct (small_mul m x y) as [-> ?]; [assumption|assumption|]; simpl bind end.

Lemma rat_ops_total m a b : small31 a -> small31 b ->
  (exists r, rat_add m a b = Ok r) /\ (exists r, rat_sub m a b = Ok r) /\
  (exists r, rat_neg m a = Ok r) /\
  (denom a <> 0 -> denom b <> 0 -> exists r, rat_mul m a b = Ok r) /\
  (denom a <> 0 -> numer b <> 0 -> exists r, rat_div m a b = Ok r) /\
  (exists r, rat_recip m a = Ok r) /\ (exists c, rat_cmp m a b = Ok c).
Proof.
  intros [Ha Da] [Hb Db]. repeat split.
  - unfold rat_add. smul. smul. unfold int_add. rewrite chk64_in by (apply abs_lt_in64; lia). simpl.
    destruct (int_is_zero _); eauto. smul. eauto.
  - unfold rat_sub. smul. smul. unfold int_sub. rewrite chk64_in by (apply abs_lt_in64; lia). simpl.
    destruct (int_is_zero _); eauto. smul. eauto.
  - unfold rat_neg, int_neg. rewrite chk64_in by (apply abs_lt_in64; lia). simpl. eauto.
  - intros Na Nb. unfold rat_mul. smul. smul. apply rat_new_total; [nia|lia|lia].
  - intros Na Nb. unfold rat_div. smul. smul. apply rat_new_total; [nia|lia|lia].
  - unfold rat_recip, rat_sgn, int_sgn.
    assert (Z.abs (Z.sgn (numer a)) < 2 ^ 31) by (destruct (numer a); simpl; lia).
    smul. smul. eauto.
  - unfold rat_cmp. smul. smul. simpl. eauto.
Qed.

(** ** Product *)
Fixpoint qprod (l : list Q) : Q := match l with [] => 1%Q | x :: xs => (x * qprod xs)%Q end.
Fixpoint qsum (l : list Q) : Q := match l with [] => 0%Q | x :: xs => (x + qsum xs)%Q end.

Lemma rat_foldM_gen (op : rat -> rat -> res rat) (qop : Q -> Q -> Q) (l : list rat) : forall a,
  (forall x y, 0 < denom x -> 0 < denom y ->
     safe (op x y) (fun r => 0 < denom r /\ (rat_val r == qop (rat_val x) (rat_val y))%Q)) ->
  (forall x x' y, (x == x')%Q -> (qop x y == qop x' y)%Q) ->
  Forall (fun r => 0 < denom r) l -> 0 < denom a ->
  safe (foldM (fun acc y => b <- y ;; op acc b) (map Ok l) a)
    (fun z => 0 < denom z /\ (rat_val z == fold_left qop (map rat_val l) (rat_val a))%Q).
Proof.
  induction l as [|x xs IH]; intros a Hop Hm Hl Ha; simpl.
  - split; auto. reflexivity.
  - inversion Hl as [|? ? Hx Hxs]; subst. eapply safe_bind; [apply Hop; assumption|].
    intros r [Hr Er]. eapply safe_mono; [apply IH; assumption|].
    intros z [Hz Ez]. split; auto. rewrite Ez.
    clear - Hm Er. assert (G : forall l u v, (u == v)%Q -> (fold_left qop l u == fold_left qop l v)%Q).
    { induction l; simpl; intros; auto. }
    apply G. exact Er.
Qed.

Lemma fold_left_qsum l : forall a, (fold_left Qplus l a == a + qsum l)%Q.
Proof. induction l as [|x xs IH]; intros a; simpl; [lra|]. rewrite IH. lra. Qed.
Lemma fold_left_qprod l : forall a, (fold_left Qmult l a == a * qprod l)%Q.
Proof. induction l as [|x xs IH]; intros a; simpl; [lra|]. rewrite IH. ring. Qed.

Lemma rat_sum_exact l : Forall (fun r => 0 < denom r) l ->
  safe (rat_sum Debug (map Ok l)) (fun z => 0 < denom z /\ (rat_val z == qsum (map rat_val l))%Q).
Proof.
  intros H. unfold rat_sum, reduce_iter. destruct l as [|x xs]; simpl.
  - split; [lia|reflexivity].
  - inversion H as [|? ? Hx Hxs]; subst. eapply safe_bind.
    + eapply safe_bind; [apply (rat_foldM_gen (rat_add Debug) Qplus); auto|].
      * intros u v Hu Hv. eapply safe_mono; [apply rat_add_safe; assumption|].
        intros r [[R _] E]; auto.
      * intros u u' v E. rewrite E. reflexivity.
      * intros z Hz. simpl. instantiate (1 := fun o => exists z, o = Some z /\ _ z).
        simpl. exists z. split; [reflexivity|exact Hz].
    + intros o (z & -> & Hz & Ez). simpl. split; auto. rewrite Ez. apply fold_left_qsum.
Qed.

Lemma rat_product_exact l : Forall (fun r => 0 < denom r) l ->
  safe (rat_product Debug (map Ok l)) (fun z => 0 < denom z /\ (rat_val z == qprod (map rat_val l))%Q).
Proof.
  intros H. unfold rat_product, reduce_iter. destruct l as [|x xs]; simpl.
  - split; [lia|reflexivity].
  - inversion H as [|? ? Hx Hxs]; subst. eapply safe_bind.
    + eapply safe_bind; [apply (rat_foldM_gen (rat_mul Debug) Qmult); auto|].
      * intros u v Hu Hv. eapply safe_mono; [apply rat_mul_safe; assumption|].
        intros r [[R _] E]; auto.
      * intros u u' v E. rewrite E. reflexivity.
      * intros z Hz. simpl. instantiate (1 := fun o => exists z, o = Some z /\ _ z).
        simpl. exists z. split; [reflexivity|exact Hz].
    + intros o (z & -> & Hz & Ez). simpl. split; auto. rewrite Ez. apply fold_left_qprod.
Qed.

Lemma rat_product_le l : res_le (rat_product Debug l) (rat_product Release l).
Proof.
  unfold rat_product. apply res_le_bind; [|intros; apply res_le_refl].
  unfold reduce_iter. destruct l as [|x xs]; [apply res_le_refl|].
  apply res_le_bind; [apply res_le_refl|]. intros a _.
  apply res_le_bind; [|intros; apply res_le_refl].
  apply res_le_foldM. intros s y. apply res_le_bind; [apply res_le_refl|]. intros b _. apply rat_mul_le.
Qed.

(** ** histories of Rational values *)
(** [history r q]: [r] is obtained in an overflow-checked build by the operations of the crate
    from constructors, and [q] is what exact arithmetic gives for the same operations. *)
Inductive history : rat -> Q -> Prop :=
| H_zero : history rat_zero 0
| H_one : history rat_one 1
| H_int i : history (rat_new_int i) (inject_Z i)
| H_new n d r : rat_new Debug n d = Ok r -> history r (inject_Z n / inject_Z d)
| H_add a b p q r : history a p -> history b q -> rat_add Debug a b = Ok r -> history r (p + q)
| H_sub a b p q r : history a p -> history b q -> rat_sub Debug a b = Ok r -> history r (p - q)
| H_mul a b p q r : history a p -> history b q -> rat_mul Debug a b = Ok r -> history r (p * q)
| H_div a b p q r : history a p -> history b q -> rat_div Debug a b = Ok r -> history r (p / q)
| H_neg a p r : history a p -> rat_neg Debug a = Ok r -> history r (- p)
| H_recip a p r : history a p -> rat_is_zero a = false -> rat_recip Debug a = Ok r -> history r (/ p)
| H_pow a p e r : history a p -> 0 <= e < 2 ^ 32 -> rat_pow Debug a e = Ok r -> history r (p ^ e).

Lemma Qfrac_val n d r : d <> 0 -> 0 < denom r -> numer r * d = n * denom r ->
  (rat_val r == inject_Z n / inject_Z d)%Q.
Proof.
  intros Hd Hr E. unfold rat_val.
  assert (D : ~ (inject_Z d == 0)%Q) by (intros X; apply Hd; unfold Qeq in X; simpl in X; lia).
  apply (Qmult_inj_r _ _ (inject_Z d) D).
  setoid_replace (inject_Z n / inject_Z d * inject_Z d)%Q with (inject_Z n)%Q by (field; exact D).
  unfold Qeq; simpl. rewrite Pos.mul_1_r, Z2Pos.id by exact Hr. lia.
Qed.

Lemma val_pow_nat r k : 0 < denom r ->
  (rat_val (mkrat (numer r ^ Z.of_nat k) (denom r ^ Z.of_nat k)) == rat_val r ^ Z.of_nat k)%Q.
Proof.
  intros Hr. induction k as [|k IH]; [reflexivity|].
  rewrite Nat2Z.inj_succ.
  assert (P : 0 < denom r ^ Z.of_nat k) by (apply Z.pow_pos_nonneg; lia).
  assert (E : (rat_val r ^ Z.succ (Z.of_nat k) == rat_val r * rat_val r ^ Z.of_nat k)%Q).
  { unfold Z.succ. rewrite Qpower_plus' by lia. change (rat_val r ^ 1)%Q with (rat_val r). ring. }
  rewrite E, <- IH. unfold rat_val; simpl. rewrite !Z.pow_succ_r by lia.
  rewrite Z2Pos.inj_mul by assumption. unfold Qeq; simpl. reflexivity.
Qed.

Lemma val_pow r e : 0 < denom r -> 0 <= e ->
  (rat_val (mkrat (numer r ^ e) (denom r ^ e)) == rat_val r ^ e)%Q.
Proof.
  intros Hr He. rewrite <- (Z2Nat.id e) by exact He. apply val_pow_nat. exact Hr.
Qed.

Lemma val_zero_iff r : 0 < denom r -> (rat_val r == 0)%Q <-> numer r = 0.
Proof. intros H. unfold rat_val, Qeq; simpl. lia. Qed.

Lemma history_inv r q : history r q -> rat_wf r /\ (rat_val r == q)%Q.
Proof.
  intros H; induction H.
  - split; [split; simpl; lia|reflexivity].
  - split; [split; simpl; lia|reflexivity].
  - split; [split; simpl; lia|]. unfold rat_val; simpl. unfold Qeq; simpl. lia.
  - assert (Hd : d <> 0) by (intros ->; rewrite rat_new_zero_denom in H; discriminate).
    apply (safe_val _ _ _ (rat_new_safe n d Hd)) in H as [R E].
    split; [apply reduced_wf; exact R|]. apply Qfrac_val; auto. apply R.
  - destruct IHhistory1 as [W1 E1], IHhistory2 as [W2 E2].
    apply (safe_val _ _ _ (rat_add_safe a b (proj1 W1) (proj1 W2))) in H1 as [W E].
    split; auto. rewrite E, E1, E2. reflexivity.
  - destruct IHhistory1 as [W1 E1], IHhistory2 as [W2 E2].
    apply (safe_val _ _ _ (rat_sub_safe a b (proj1 W1) (proj1 W2))) in H1 as [W E].
    split; auto. rewrite E, E1, E2. reflexivity.
  - destruct IHhistory1 as [W1 E1], IHhistory2 as [W2 E2].
    apply (safe_val _ _ _ (rat_mul_safe a b (proj1 W1) (proj1 W2))) in H1 as [W E].
    split; [apply reduced_wf; exact W|]. rewrite E, E1, E2. reflexivity.
  - destruct IHhistory1 as [W1 E1], IHhistory2 as [W2 E2].
    assert (Nb : numer b <> 0) by (intros Z; apply (rat_div_by_zero Debug a b r Z); exact H1).
    apply (safe_val _ _ _ (rat_div_safe a b (proj1 W1) (proj1 W2) Nb)) in H1 as [W E].
    split; [apply reduced_wf; exact W|]. rewrite E, E1, E2. reflexivity.
  - destruct IHhistory as [W1 E1].
    apply (safe_val _ _ _ (rat_neg_safe a (proj1 W1))) in H0 as (_ & W & _ & E).
    split; auto. rewrite E, E1. reflexivity.
  - destruct IHhistory as [W1 E1].
    assert (Na : numer a <> 0) by (apply Z.eqb_neq; exact H0).
    apply (safe_val _ _ _ (rat_recip_safe a (proj1 W1) Na)) in H1 as (W & _ & E).
    split; auto. rewrite E, E1. reflexivity.
  - destruct IHhistory as [W1 E1].
    apply (safe_val _ _ _ (rat_pow_nonneg_safe a e (proj1 W1) H0)) in H1 as ->.
    split; [apply rat_pow_wf; [exact W1|lia]|].
    rewrite val_pow by (apply W1 || lia). rewrite E1. reflexivity.
Qed.

(** values built without + and - *)
Inductive mul_history : rat -> Prop :=
| M_zero : mul_history rat_zero
| M_one : mul_history rat_one
| M_int i : mul_history (rat_new_int i)
| M_new n d r : rat_new Debug n d = Ok r -> mul_history r
| M_mul a b r : mul_history a -> mul_history b -> rat_mul Debug a b = Ok r -> mul_history r
| M_div a b r : mul_history a -> mul_history b -> rat_div Debug a b = Ok r -> mul_history r
| M_neg a r : mul_history a -> rat_neg Debug a = Ok r -> mul_history r
| M_recip a r : mul_history a -> rat_is_zero a = false -> rat_recip Debug a = Ok r -> mul_history r
| M_pow a e r : mul_history a -> 0 <= e < 2 ^ 32 -> rat_pow Debug a e = Ok r -> mul_history r.

Lemma mul_history_reduced r : mul_history r -> rat_reduced r.
Proof.
  intros H; induction H.
  - split; reflexivity.
  - split; reflexivity.
  - split; simpl; [lia|]. apply Z.gcd_1_r.
  - assert (Hd : d <> 0) by (intros ->; rewrite rat_new_zero_denom in H; discriminate).
    apply (safe_val _ _ _ (rat_new_safe n d Hd)) in H as [R E]. exact R.
  - apply (safe_val _ _ _ (rat_mul_safe a b (proj1 IHmul_history1) (proj1 IHmul_history2))) in H1. apply H1.
  - assert (Nb : numer b <> 0) by (intros Z; apply (rat_div_by_zero Debug a b r Z); exact H1).
    apply (safe_val _ _ _ (rat_div_safe a b (proj1 IHmul_history1) (proj1 IHmul_history2) Nb)) in H1. apply H1.
  - apply (safe_val _ _ _ (rat_neg_safe a (proj1 IHmul_history))) in H0 as (_ & _ & W & _). auto.
  - assert (Na : numer a <> 0) by (apply Z.eqb_neq; exact H0).
    apply (safe_val _ _ _ (rat_recip_safe a (proj1 IHmul_history) Na)) in H1 as (_ & W & _). auto.
  - apply (safe_val _ _ _ (rat_pow_nonneg_safe a e (proj1 IHmul_history) H0)) in H1 as ->.
    destruct IHmul_history as [D G]. split; simpl.
    + apply Z.pow_pos_nonneg; lia.
    + apply pow_gcd; [exact G|lia].
Qed.

(** negative exponents *)
Lemma rat_pow_neg_safe r e : 0 < denom r -> - 2 ^ 32 < e < 0 ->
  safe (rat_pow Debug r e) (fun z => z = mkrat (denom r ^ (- e)) (numer r ^ (- e))).
Proof.
  intros Hd He. unfold rat_pow, int_is_neg.
  assert (e <? 0 = true) as -> by (apply Z.ltb_lt; lia).
  unfold int_neg. rewrite chk64_in by (unfold in64, i64_min, i64_max; lia). simpl.
  unfold int_pow. rewrite as_u32_small by lia.
  eapply safe_bind; [apply chk64_safe|]. intros ? [-> _].
  eapply safe_bind; [apply chk64_safe|]. intros ? [-> _]. reflexivity.
Qed.
