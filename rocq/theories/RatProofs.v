(** * Proofs about the Rational model; Rational is an exact field in a checked build. *)
From Verif Require Import Base BaseLemmas IntModel IntProofs RatModel FieldIface.
From Coq Require Import QArith Qcanon Field_theory Znumtheory Zpow_facts.
Open Scope Z_scope.

(** the rational number a pair with positive denominator stands for *)
Definition rat_val (r : rat) : Q := numer r # Z.to_pos (denom r).
Definition rat_den (r : rat) : Qc := Q2Qc (rat_val r).

(** positive denominator and canonical zero: what the operators maintain *)
Definition rat_wf (r : rat) : Prop := 0 < denom r /\ (numer r = 0 -> denom r = 1).
(** lowest terms *)
Definition rat_reduced (r : rat) : Prop := 0 < denom r /\ Z.gcd (numer r) (denom r) = 1.

Lemma reduced_wf r : rat_reduced r -> rat_wf r.
Proof.
  intros [H1 H2]. split; auto. intros E. rewrite E, Z.gcd_0_l in H2. lia.
Qed.

Definition QcField : MathField := {|
  kcar := Qc; k0 := Q2Qc 0; k1 := Q2Qc 1;
  kadd := Qcplus; kmul := Qcmult; ksub := Qcminus; kopp := Qcopp; kdiv := Qcdiv; kinv := Qcinv;
  kth := Qcft; kdec := Qc_eq_dec |}.

(** ** bridging lemmas *)
Lemma val_eq_iff a b : 0 < denom a -> 0 < denom b ->
  (rat_val a == rat_val b)%Q <-> numer a * denom b = numer b * denom a.
Proof.
  intros Ha Hb. unfold rat_val, Qeq. simpl. rewrite !Z2Pos.id by assumption. reflexivity.
Qed.

Lemma den_eq_iff a b : 0 < denom a -> 0 < denom b ->
  rat_den a = rat_den b <-> numer a * denom b = numer b * denom a.
Proof.
  intros Ha Hb. unfold rat_den. rewrite Q2Qc_eq_iff. apply val_eq_iff; assumption.
Qed.

Lemma den_zero_iff a : 0 < denom a -> rat_den a = Q2Qc 0 <-> numer a = 0.
Proof.
  intros Ha. unfold rat_den. rewrite Q2Qc_eq_iff. unfold rat_val, Qeq. simpl. lia.
Qed.

Lemma Q2Qc_plus p q : (Q2Qc p + Q2Qc q)%Qc = Q2Qc (p + q).
Proof. apply Qc_is_canon. unfold Qcplus, Q2Qc; cbn [this]. rewrite !Qred_correct. reflexivity. Qed.
Lemma Q2Qc_mult p q : (Q2Qc p * Q2Qc q)%Qc = Q2Qc (p * q).
Proof. apply Qc_is_canon. unfold Qcmult, Q2Qc; cbn [this]. rewrite !Qred_correct. reflexivity. Qed.
Lemma Q2Qc_opp p : (- Q2Qc p)%Qc = Q2Qc (- p).
Proof. apply Qc_is_canon. unfold Qcopp, Q2Qc; cbn [this]. rewrite !Qred_correct. reflexivity. Qed.
Lemma Q2Qc_inv p : (/ Q2Qc p)%Qc = Q2Qc (/ p).
Proof. apply Qc_is_canon. unfold Qcinv, Q2Qc; cbn [this]. rewrite !Qred_correct. reflexivity. Qed.
Lemma Q2Qc_minus p q : (Q2Qc p - Q2Qc q)%Qc = Q2Qc (p - q).
Proof. unfold Qcminus. rewrite Q2Qc_opp, Q2Qc_plus. reflexivity. Qed.
Lemma Q2Qc_div p q : (Q2Qc p / Q2Qc q)%Qc = Q2Qc (p / q).
Proof. unfold Qcdiv. rewrite Q2Qc_inv, Q2Qc_mult. reflexivity. Qed.

Lemma to_pos_mul a b : 0 < a -> 0 < b -> (Z.to_pos a * Z.to_pos b)%positive = Z.to_pos (a * b).
Proof. intros; symmetry; apply Z2Pos.inj_mul; assumption. Qed.

(** ** constructor *)
Lemma rat_new_safe n d : d <> 0 ->
  safe (rat_new Debug n d) (fun r => rat_reduced r /\ numer r * d = n * denom r).
Proof.
  intros Hd. unfold rat_new, int_is_zero.
  pose proof Hd as Hd'. apply Z.eqb_neq in Hd'. rewrite Hd'.
  assert (G : Z.gcd n d <> 0) by (intros E; apply Z.gcd_eq_0_r in E; contradiction).
  eapply safe_bind; [apply int_gcd_safe|]. intros g ->.
  eapply safe_bind; [apply chk64_safe|]. intros sn [-> _].
  eapply safe_bind; [apply int_div_safe; exact G|]. intros n' ->.
  eapply safe_bind; [apply chk64_safe|]. intros ad [-> _].
  eapply safe_bind; [apply int_div_safe; exact G|]. intros d' ->.
  simpl. unfold int_sgn, rat_reduced; simpl.
  pose proof (Z.gcd_nonneg n d) as GN.
  destruct (Z.gcd_divide_l n d) as [p Ep]. destruct (Z.gcd_divide_r n d) as [q Eq].
  pose proof (Z.gcd_div_gcd n d (Z.gcd n d) G eq_refl) as GG.
  set (g := Z.gcd n d) in *. clearbody g. subst n d.
  rewrite !Z.div_mul in GG by exact G.
  assert (Hq : q <> 0) by (intros ->; apply Hd; ring).
  rewrite Z.abs_mul, (Z.abs_eq g) by exact GN.
  rewrite Z.quot_mul by exact G.
  assert (S : Z.sgn (q * g) = Z.sgn q).
  { rewrite Z.sgn_mul, (Z.sgn_pos g) by lia. ring. }
  rewrite S. replace (Z.sgn q * (p * g)) with ((Z.sgn q * p) * g) by ring.
  rewrite Z.quot_mul by exact G.
  repeat split.
  - lia.
  - destruct (Z.sgn_spec q) as [[L ->]|[[L ->]|[L ->]]]; [|lia|].
    + rewrite Z.mul_1_l, Z.gcd_abs_r. exact GG.
    + rewrite Z.gcd_abs_r. replace (-1 * p) with (- p) by ring. rewrite Z.gcd_opp_l. exact GG.
  - pose proof (Z.sgn_abs q). rewrite <- (Z.sgn_abs q) at 2 || idtac. nia.
Qed.

Lemma rat_new_zero_denom m n : rat_new m n 0 = Panic Explicit.
Proof. reflexivity. Qed.

Lemma reduced_unique a b : rat_reduced a -> rat_reduced b ->
  (rat_val a == rat_val b)%Q -> a = b.
Proof.
  intros [Ha Ga] [Hb Gb] E. apply val_eq_iff in E; auto.
  destruct a as [na da], b as [nb db]; simpl in *.
  assert (D1 : (da | db)).
  { apply (Z.gauss da na db); [|rewrite Z.gcd_comm; exact Ga].
    exists nb. rewrite E. ring. }
  assert (D2 : (db | da)).
  { apply (Z.gauss db nb da); [|rewrite Z.gcd_comm; exact Gb].
    exists na. rewrite <- E. ring. }
  assert (da = db) by (apply Z.divide_antisym_nonneg; lia || assumption). subst db.
  f_equal. nia.
Qed.

(** ** operators *)
Ltac chk := eapply safe_bind; [apply chk64_safe|]; intros ? [-> _].

Lemma rat_add_safe a b : 0 < denom a -> 0 < denom b ->
  safe (rat_add Debug a b) (fun r => rat_wf r /\ (rat_val r == rat_val a + rat_val b)%Q).
Proof.
  intros Ha Hb. unfold rat_add. chk. chk. chk.
  unfold int_is_zero. destruct (Z.eqb_spec (numer a * denom b + numer b * denom a) 0) as [E|N].
  - simpl. split; [split; simpl; lia|].
    unfold rat_val, Qeq, Qplus; simpl. rewrite !Z2Pos.id by assumption. lia.
  - chk. simpl. split; [split; simpl; [nia|intros; contradiction]|].
    unfold rat_val, Qeq, Qplus; simpl.
    rewrite !Z2Pos.id by nia. rewrite Pos2Z.inj_mul, !Z2Pos.id by nia. ring.
Qed.

Lemma rat_sub_safe a b : 0 < denom a -> 0 < denom b ->
  safe (rat_sub Debug a b) (fun r => rat_wf r /\ (rat_val r == rat_val a - rat_val b)%Q).
Proof.
  intros Ha Hb. unfold rat_sub. chk. chk. chk.
  unfold int_is_zero. destruct (Z.eqb_spec (numer a * denom b - numer b * denom a) 0) as [E|N].
  - simpl. split; [split; simpl; lia|].
    unfold rat_val, Qeq, Qminus, Qplus, Qopp; simpl. rewrite !Z2Pos.id by assumption. lia.
  - chk. simpl. split; [split; simpl; [nia|intros; contradiction]|].
    unfold rat_val, Qeq, Qminus, Qplus, Qopp; simpl.
    rewrite !Z2Pos.id by nia. rewrite Pos2Z.inj_mul, !Z2Pos.id by nia. ring.
Qed.

Lemma rat_neg_safe a : 0 < denom a ->
  safe (rat_neg Debug a) (fun r => 0 < denom r /\ (rat_wf a -> rat_wf r) /\
     (rat_reduced a -> rat_reduced r) /\ (rat_val r == - rat_val a)%Q).
Proof.
  intros Ha. unfold rat_neg. chk. simpl. repeat split; simpl; try assumption.
  - intros E. apply H. lia.
  - destruct H as [_ G]. rewrite Z.gcd_opp_l. exact G.
Qed.

Lemma rat_mul_safe a b : 0 < denom a -> 0 < denom b ->
  safe (rat_mul Debug a b) (fun r => rat_reduced r /\ (rat_val r == rat_val a * rat_val b)%Q).
Proof.
  intros Ha Hb. unfold rat_mul. chk. chk.
  eapply safe_mono; [apply rat_new_safe; nia|]. intros r [R E]. split; auto.
  destruct R as [R _].
  unfold rat_val, Qeq, Qmult; simpl. rewrite Pos2Z.inj_mul, !Z2Pos.id by nia. exact E.
Qed.

Lemma rat_div_safe a b : 0 < denom a -> 0 < denom b -> numer b <> 0 ->
  safe (rat_div Debug a b) (fun r => rat_reduced r /\ (rat_val r == rat_val a / rat_val b)%Q).
Proof.
  intros Ha Hb Nb. unfold rat_div. chk. chk.
  eapply safe_mono; [apply rat_new_safe; nia|]. intros r [R E]. split; auto.
  destruct R as [R _].
  unfold rat_val, Qeq, Qdiv, Qmult, Qinv; simpl.
  destruct b as [nb db]; simpl in *. destruct nb as [|p|p]; [lia| |]; simpl.
  - rewrite Pos2Z.inj_mul, !Z2Pos.id by nia. lia.
  - rewrite Pos2Z.inj_mul, !Z2Pos.id by nia.
    assert (Z.neg (Z.to_pos db) = - db) as ->.
    { rewrite <- Pos2Z.opp_pos, Z2Pos.id by exact Hb. reflexivity. }
    lia.
Qed.

Lemma rat_div_by_zero m a b r : numer b = 0 -> rat_div m a b <> Ok r.
Proof.
  intros E. unfold rat_div, int_mul. rewrite E, Z.mul_0_r.
  destruct (chk64 m (numer a * denom b)); simpl; try discriminate.
Qed.

Lemma rat_recip_safe a : 0 < denom a -> numer a <> 0 ->
  safe (rat_recip Debug a) (fun r => rat_wf r /\ (rat_reduced a -> rat_reduced r) /\
     (rat_val r == / rat_val a)%Q).
Proof.
  intros Ha Na. unfold rat_recip. chk. chk. simpl. unfold rat_sgn, int_sgn.
  repeat split; simpl.
  - nia.
  - intros E. nia.
  - nia.
  - destruct H as [_ G]. destruct (Z.sgn_spec (numer a)) as [[L ->]|[[L ->]|[L ->]]]; try lia.
    + rewrite !Z.mul_1_l, Z.gcd_comm. exact G.
    + replace (-1 * denom a) with (- denom a) by ring. replace (-1 * numer a) with (- numer a) by ring.
      rewrite Z.gcd_opp_l, Z.gcd_opp_r, Z.gcd_comm. exact G.
  - unfold rat_val, Qeq, Qinv; simpl.
    destruct a as [na da]; simpl in *. destruct na as [|p|p]; [lia| |]; simpl.
    + destruct da; try lia. reflexivity.
    + destruct da as [|da|da]; try lia. reflexivity.
Qed.

(** ** powers *)
Lemma Qpow_den (n d : Z) (k : nat) : 0 < d ->
  Q2Qc ((n ^ Z.of_nat k) # Z.to_pos (d ^ Z.of_nat k)) = @kpow QcField (Q2Qc (n # Z.to_pos d)) k.
Proof.
  intros Hd. induction k as [|k IH].
  - apply Qc_is_canon. reflexivity.
  - cbn [kpow]. rewrite <- IH. simpl kmul. rewrite Q2Qc_mult. apply Q2Qc_eq_iff.
    rewrite Nat2Z.inj_succ, !Z.pow_succ_r by lia.
    assert (P : 0 < d ^ Z.of_nat k) by (apply Z.pow_pos_nonneg; lia).
    unfold Qeq, Qmult; simpl. rewrite Pos2Z.inj_mul, !Z2Pos.id by nia.
    reflexivity.
Qed.

Lemma as_u32_small e : 0 <= e < 2 ^ 32 -> as_u32 e = e.
Proof. intros H. unfold as_u32. apply Z.mod_small. exact H. Qed.

Lemma pow_gcd a b k : Z.gcd a b = 1 -> 0 <= k -> Z.gcd (a ^ k) (b ^ k) = 1.
Proof.
  intros G Hk. apply Zgcd_1_rel_prime. apply Zgcd_1_rel_prime in G.
  apply rel_prime_Zpower; assumption.
Qed.

Lemma rat_pow_nonneg_safe r e : 0 < denom r -> 0 <= e < 2 ^ 32 ->
  safe (rat_pow Debug r e) (fun z => z = mkrat (numer r ^ e) (denom r ^ e)).
Proof.
  intros Hd He. unfold rat_pow, int_is_neg.
  assert (e <? 0 = false) as -> by (apply Z.ltb_ge; lia).
  unfold int_pow. rewrite as_u32_small by exact He. chk. chk. reflexivity.
Qed.

Lemma rat_pow_wf r e : rat_wf r -> 0 <= e -> rat_wf (mkrat (numer r ^ e) (denom r ^ e)).
Proof.
  intros [Hd Hz] He. split; simpl.
  - apply Z.pow_pos_nonneg; assumption.
  - intros E. destruct (Z.eq_dec e 0) as [->|Ne]; [reflexivity|].
    apply Z.pow_eq_0_iff in E. rewrite Hz by lia. apply Z.pow_1_l. exact He.
Qed.

Lemma rat_pow_den r e : 0 < denom r -> 0 <= e ->
  rat_den (mkrat (numer r ^ e) (denom r ^ e)) = @kpow QcField (rat_den r) (Z.to_nat e).
Proof.
  intros Hd He. unfold rat_den, rat_val; simpl.
  rewrite <- Qpow_den by exact Hd. rewrite Z2Nat.id by exact He. reflexivity.
Qed.

(** ** sums *)
Lemma rat_foldM_add_safe (l : list (res rat)) a :
  Forall (fun r => safe r rat_wf) l -> rat_wf a ->
  safe (foldM (fun acc y => b <- y ;; rat_add Debug acc b) l a)
    (fun z => rat_wf z /\ exists vs, l = map Ok vs /\
        rat_den z = kadd (rat_den a : QcField) (ksum (map rat_den vs : list QcField))).
Proof.
  intros Hl. revert a. induction Hl as [|x xs Hx Hxs IH]; intros a Ha; cbn [foldM].
  - apply safe_Ok. split; auto. exists []. split; auto. simpl. rewrite Qcplus_comm. 
    symmetry. apply Qcplus_0_l.
  - destruct x as [b|k|]; simpl in Hx; [|destruct k; simpl; tauto|contradiction].
    cbn [bind]. eapply safe_bind; [apply rat_add_safe; [apply Ha|apply Hx]|].
    intros s [Ws Es]. eapply safe_mono; [apply IH; exact Ws|].
    intros z (Wz & vs & -> & Ez). split; auto. exists (b :: vs). split; auto.
    rewrite Ez. simpl. assert (rat_den s = rat_den a + rat_den b)%Qc as ->.
    { unfold rat_den. rewrite Q2Qc_plus. apply Q2Qc_eq_iff. exact Es. }
    symmetry. apply Qcplus_assoc.
Qed.

Lemma rat_sum_safe (l : list (res rat)) :
  Forall (fun r => safe r rat_wf) l ->
  safe (rat_sum Debug l) (fun z => rat_wf z /\ exists vs, l = map Ok vs /\
      rat_den z = ksum (map rat_den vs : list QcField)).
Proof.
  intros H. unfold rat_sum, reduce_iter.
  destruct H as [|x xs Hx Hxs].
  - simpl. split; [split; simpl; lia|]. exists []. split; auto.
  - destruct x as [b|k|]; simpl in Hx; [|destruct k; simpl; tauto|contradiction].
    cbn [bind]. rewrite bind_assoc.
    eapply safe_bind; [apply rat_foldM_add_safe; eassumption|].
    intros z (Wz & vs & -> & Ez). simpl. split; auto. exists (b :: vs). split; auto.
Qed.

(** ** the instance *)
Lemma rat_eqb_eq a b : rat_eqb a b = true <-> a = b.
Proof.
  unfold rat_eqb. rewrite andb_true_iff, !Z.eqb_eq. destruct a, b; simpl. split.
  - intros [-> ->]; reflexivity.
  - intros [= -> ->]; auto.
Qed.

Lemma rat_eqb_zero r : rat_wf r -> (rat_eqb r rat_zero = true <-> numer r = 0).
Proof.
  intros [Hd Hz]. rewrite rat_eqb_eq. split.
  - intros ->; reflexivity.
  - intros E. destruct r as [n d]; simpl in *. subst n. rewrite Hz by reflexivity. reflexivity.
Qed.

(** a sum that meets a panicking item panics, unless it overflowed before *)
Lemma rat_sum_panic (vs : list rat) k rest : Forall rat_wf vs ->
  rat_sum Debug (map Ok vs ++ Panic k :: rest) = Panic k \/
  rat_sum Debug (map Ok vs ++ Panic k :: rest) = Panic Overflow.
Proof.
  intros H. unfold rat_sum, reduce_iter. destruct vs as [|v vs]; simpl; auto.
  inversion H as [|? ? Hv Hvs]; subst. clear H. revert v Hv.
  induction vs as [|w vs IH]; intros v Hv; simpl; auto.
  inversion Hvs as [|? ? Hw Hvs']; subst.
  pose proof (rat_add_safe v w (proj1 Hv) (proj1 Hw)) as S.
  destruct (rat_add Debug v w) as [z|[]|]; simpl in S; try contradiction; simpl; auto.
  apply IH; [assumption|apply S].
Qed.

Definition rat_spec : FieldSpec (rat_impl Debug) QcField.
Proof.
  refine {| fwf := rat_wf : rat_impl Debug -> Prop; den := rat_den : rat_impl Debug -> QcField |}.
  - split; simpl; lia.
  - split; simpl; lia.
  - reflexivity.
  - reflexivity.
  - intros x Hx. cbn. rewrite rat_eqb_zero by exact Hx. symmetry. apply den_zero_iff. apply Hx.
  - intros x y Hx Hy. eapply safe_mono; [apply rat_add_safe; [apply Hx|apply Hy]|].
    intros z [W E]. split; auto. cbn. unfold rat_den. rewrite Q2Qc_plus. apply Q2Qc_eq_iff; exact E.
  - intros x y Hx Hy. eapply safe_mono; [apply rat_sub_safe; [apply Hx|apply Hy]|].
    intros z [W E]. split; auto. cbn. unfold rat_den. rewrite Q2Qc_minus. apply Q2Qc_eq_iff; exact E.
  - intros x Hx. eapply safe_mono; [apply rat_neg_safe; apply Hx|].
    intros z (_ & W & _ & E). split; auto. cbn. unfold rat_den. rewrite Q2Qc_opp. apply Q2Qc_eq_iff; exact E.
  - intros x y Hx Hy. eapply safe_mono; [apply rat_mul_safe; [apply Hx|apply Hy]|].
    intros z [W E]. split; [apply reduced_wf; exact W|].
    cbn. unfold rat_den. rewrite Q2Qc_mult. apply Q2Qc_eq_iff; exact E.
  - intros x y Hx Hy Ny. eapply safe_mono; [apply rat_div_safe; [apply Hx|apply Hy|]|].
    { intros E. apply Ny. apply den_zero_iff; [apply Hy|exact E]. }
    intros z [W E]. split; [apply reduced_wf; exact W|].
    cbn. unfold rat_den. rewrite Q2Qc_div. apply Q2Qc_eq_iff; exact E.
  - intros x Hx Nx. eapply safe_mono; [apply rat_recip_safe; [apply Hx|]|].
    { intros E. apply Nx. apply den_zero_iff; [apply Hx|exact E]. }
    intros z (W & _ & E). split; auto. cbn. unfold rat_den. rewrite Q2Qc_inv. apply Q2Qc_eq_iff; exact E.
  - intros x n Hx Hn. eapply safe_mono; [apply rat_pow_nonneg_safe; [apply Hx|lia]|].
    intros z ->. split; [apply rat_pow_wf; [exact Hx|lia]|]. apply rat_pow_den; [apply Hx|lia].
  - intros l Hl. apply rat_sum_safe. exact Hl.
  - intros vs k rest H. apply rat_sum_panic. exact H.
Defined.

(** ** stability comparison *)
Lemma rat_stability_safe a b : rat_wf a -> rat_wf b ->
  safe (rat_stability_cmp Debug a b) (fun o => exists c, o = Some c /\
     (numer a = 0 -> c = Lt) /\
     (numer a <> 0 -> numer b = 0 -> c = Gt) /\
     (numer a <> 0 -> numer b <> 0 ->
        c = (Z.abs (numer b) + Z.abs (denom b) ?= Z.abs (numer a) + Z.abs (denom a)))).
Proof.
  intros Ha Hb. unfold rat_stability_cmp.
  destruct (rat_eqb a rat_zero) eqn:Ea.
  { apply rat_eqb_zero in Ea; auto. simpl. exists Lt. repeat split; auto; intros; contradiction. }
  assert (Na : numer a <> 0) by (intros E; apply rat_eqb_zero in E; auto; congruence).
  destruct (rat_eqb b rat_zero) eqn:Eb.
  { apply rat_eqb_zero in Eb; auto. simpl. exists Gt. repeat split; auto; intros; contradiction. }
  assert (Nb : numer b <> 0) by (intros E; apply rat_eqb_zero in E; auto; congruence).
  chk. chk. chk. chk. chk. chk. simpl. eexists. split; [reflexivity|].
  repeat split; intros; try contradiction; try reflexivity.
Qed.

Definition rat_stab_spec : StabSpec rat_spec (rat_stab Debug).
Proof.
  constructor.
  - intros x Hx. cbn. unfold rat_epsilon_equals. rewrite rat_eqb_zero by exact Hx.
    symmetry. apply den_zero_iff. apply Hx.
  - intros x y Hx Hy. eapply safe_mono; [apply rat_stability_safe; [exact Hx|exact Hy]|].
    intros o (c & -> & H1 & H2 & H3). exists c. split; auto. split.
    + intros Nx Ey. apply H2.
      * intros E. apply Nx. apply den_zero_iff; [apply Hx|exact E].
      * apply den_zero_iff; [apply Hy|exact Ey].
    + intros Ex. assert (numer x = 0) as E by (apply den_zero_iff; [apply Hx|exact Ex]).
      rewrite (H1 E). discriminate.
Defined.

(** ** order *)
Lemma rat_cmp_safe a b : 0 < denom a -> 0 < denom b ->
  safe (rat_cmp Debug a b) (fun c => c = (rat_val a ?= rat_val b)%Q).
Proof.
  intros Ha Hb. unfold rat_cmp. chk. chk. simpl.
  unfold Qcompare, rat_val; simpl. rewrite !Z2Pos.id by assumption. reflexivity.
Qed.

(** ** profile refinement *)
Lemma rat_new_le n d : res_le (rat_new Debug n d) (rat_new Release n d).
Proof.
  unfold rat_new. destruct (int_is_zero d); [apply res_le_refl|].
  apply res_le_bind; [apply int_gcd_le|]; intros ? _.
  apply res_le_bind; [apply int_mul_le|]; intros ? _.
  apply res_le_bind; [apply int_div_le|]; intros ? _.
  apply res_le_bind; [apply int_abs_le|]; intros ? _.
  apply res_le_bind; [apply int_div_le|]; intros ? _.
  apply res_le_refl.
Qed.
Ltac rle := repeat (apply res_le_bind; [first [apply chk64_le | apply res_le_refl]|]; intros ? _);
  try apply res_le_refl.
Lemma rat_add_le a b : res_le (rat_add Debug a b) (rat_add Release a b).
Proof. unfold rat_add. rle. destruct (int_is_zero _); rle. Qed.
Lemma rat_sub_le a b : res_le (rat_sub Debug a b) (rat_sub Release a b).
Proof. unfold rat_sub. rle. destruct (int_is_zero _); rle. Qed.
Lemma rat_neg_le a : res_le (rat_neg Debug a) (rat_neg Release a).
Proof. unfold rat_neg. rle. Qed.
Lemma rat_mul_le a b : res_le (rat_mul Debug a b) (rat_mul Release a b).
Proof. unfold rat_mul. rle. apply rat_new_le. Qed.
Lemma rat_div_le a b : res_le (rat_div Debug a b) (rat_div Release a b).
Proof. unfold rat_div. rle. apply rat_new_le. Qed.
Lemma rat_recip_le a : res_le (rat_recip Debug a) (rat_recip Release a).
Proof. unfold rat_recip. rle. Qed.
Lemma rat_pow_le a e : res_le (rat_pow Debug a e) (rat_pow Release a e).
Proof. unfold rat_pow. destruct (int_is_neg e); rle. Qed.
Lemma rat_cmp_le a b : res_le (rat_cmp Debug a b) (rat_cmp Release a b).
Proof. unfold rat_cmp. rle. Qed.
Lemma rat_stability_le a b : res_le (rat_stability_cmp Debug a b) (rat_stability_cmp Release a b).
Proof. unfold rat_stability_cmp. destruct (rat_eqb a _); rle. destruct (rat_eqb b _); rle. Qed.
Lemma rat_sum_le l : res_le (rat_sum Debug l) (rat_sum Release l).
Proof.
  unfold rat_sum. apply res_le_bind; [|intros; apply res_le_refl].
  unfold reduce_iter. destruct l as [|x xs]; [apply res_le_refl|].
  apply res_le_bind; [apply res_le_refl|]. intros a _.
  apply res_le_bind; [|intros; apply res_le_refl].
  apply res_le_foldM. intros s y. apply res_le_bind; [apply res_le_refl|]. intros; apply rat_add_le.
Qed.
