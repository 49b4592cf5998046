(** * Properties C12-C16: multidegrees.

    [expo v i] is the exponent of variable [i] in the vector [v] (zero beyond its end);
    [canonical v] says that [v] does not end in a zero. *)
From Verif Require Import Base BaseLemmas MDegModel MonoSpec MDegProofs.

(** ** C12 *)
Theorem C12_from_vec : forall v,
  canonical (mdeg_from_vec v) /\ (forall i, expo (mdeg_from_vec v) i = expo v i).
Proof. intros v. rewrite from_vec_ltrim. split; [apply ltrim_canonical|apply ltrim_expo]. Qed.

Theorem C12_same_monomial : forall v w,
  mdeg_eqb (mdeg_from_vec v) (mdeg_from_vec w) = true <-> (forall i, expo v i = expo w i).
Proof.
  intros v w. rewrite mdeg_eqb_eq, !from_vec_ltrim. split.
  - intros E i. rewrite <- (ltrim_expo v), <- (ltrim_expo w), E. reflexivity.
  - intros E. apply canonical_ext; [apply ltrim_canonical..|]. intros i. rewrite !ltrim_expo. apply E.
Qed.

Theorem C12_var : forall idx deg,
  canonical (mdeg_var idx deg) /\ (forall i, expo (mdeg_var idx deg) i = if i =? idx then deg else 0).
Proof. intros. split; [apply mdeg_var_canonical|]. intros i. apply mdeg_var_expo. Qed.

Example C12_ex : mdeg_from_vec [0; 2; 0; 3; 0; 0] = [0; 2; 0; 3]. Proof. reflexivity. Qed.
Example C12_ex0 : mdeg_from_vec [0; 0] = []. Proof. reflexivity. Qed.

(** ** C13 *)
Theorem C13_trim_nonzero : forall v, (exists i, expo v i <> 0) ->
  canonical (mdeg_trim_zeros v) /\ (forall i, expo (mdeg_trim_zeros v) i = expo v i).
Proof.
  intros v (i & N). destruct (trim_zeros_cases v) as [[F _]|[_ ->]].
  - exfalso. apply N. apply ltrim_nil_iff in F. rewrite <- ltrim_expo, F. apply expo_nil.
  - split; [apply ltrim_canonical|apply ltrim_expo].
Qed.

Theorem C13_trim_all_zero : forall v, (forall i, expo v i = 0) ->
  mdeg_trim_zeros v = v /\ (v <> [] -> mdeg_is_zero (mdeg_trim_zeros v) = false /\ ~ canonical (mdeg_trim_zeros v)).
Proof.
  intros v Z.
  assert (T : ltrim v = []).
  { apply canonical_ext; [apply ltrim_canonical|discriminate|]. intros i. rewrite ltrim_expo, expo_nil. apply Z. }
  destruct (trim_zeros_cases v) as [[_ ->]|[NF _]].
  - split; [reflexivity|]. intros N. split; [destruct v; [contradiction|reflexivity]|].
    intros C. apply ltrim_id in C. congruence.
  - exfalso. apply NF. apply ltrim_nil_iff. exact T.
Qed.

Example C13_ex : mdeg_trim_zeros [0; 0] = [0; 0] /\ mdeg_is_zero [0; 0] = false /\ mdeg_eqb [0; 0] mdeg_zero = false.
Proof. repeat split. Qed.
Example C13_ex1 : mdeg_trim_zeros [1; 0; 2; 0] = [1; 0; 2]. Proof. reflexivity. Qed.

(** ** C14 *)
Theorem C14_add : forall a b c, u8s a -> u8s b -> mdeg_add Debug a b = Ok c ->
  canonical c /\ (forall i, expo c i = expo a i + expo b i) /\ (forall i, expo c i <= 255).
Proof.
  intros a b c Ha Hb H. rewrite mdeg_add_debug in H by assumption.
  destruct (forallb _ _) eqn:E; [|discriminate]. injection H as <-. apply forallb_u8 in E.
  split; [apply ltrim_canonical|]. split; intros i; rewrite ltrim_expo.
  - apply lzip_expo. reflexivity.
  - apply u8_expo. exact E.
Qed.

Theorem C14_add_overflow_iff : forall a b, u8s a -> u8s b ->
  (mdeg_add Debug a b = Panic Overflow <-> exists i, 255 < expo a i + expo b i) /\
  ((forall i, expo a i + expo b i <= 255) -> exists c, mdeg_add Debug a b = Ok c /\ mdeg_add Release a b = Ok c).
Proof.
  intros a b Ha Hb.
  assert (X : forallb (fun x => x <=? 255) (lzip Nat.add a b) = true <-> forall i, expo a i + expo b i <= 255).
  { rewrite forallb_u8. split.
    - intros U i. rewrite <- (lzip_expo Nat.add eq_refl). apply u8_expo. exact U.
    - intros U. apply expo_u8. intros i. rewrite lzip_expo by reflexivity. apply U. }
  rewrite mdeg_add_debug by assumption. split; [split|].
  - destruct (forallb _ _) eqn:E; [discriminate|]. intros _.
    assert (NU : ~ u8s (lzip Nat.add a b)). { rewrite <- forallb_u8. congruence. }
    destruct (Exists_dec (fun x => 255 < x) (lzip Nat.add a b)) as [Ex|NE].
    { intros x. destruct (le_lt_dec x 255); [right; lia|left; assumption]. }
    + apply Exists_exists in Ex as (x & I & L). apply (In_nth _ _ 0) in I as (i & _ & <-).
      exists i. change (nth i (lzip Nat.add a b) 0) with (expo (lzip Nat.add a b) i) in L.
      rewrite lzip_expo in L by reflexivity. exact L.
    + exfalso. apply NU. apply Forall_forall. intros x I. destruct (le_lt_dec x 255); auto.
      exfalso. apply NE. apply Exists_exists. eauto.
  - intros (i & L). destruct (forallb _ _) eqn:E; [|reflexivity].
    pose proof (proj1 X eq_refl i). lia.
  - intros U. pose proof U as U'. apply X in U. rewrite U. eexists. split; [reflexivity|].
    apply mdeg_add_le. rewrite mdeg_add_debug by assumption. rewrite U. reflexivity.
Qed.

(** in an unchecked build the sum wraps and can lose canonicity *)
Theorem C14_add_release_refuted : exists a b c, canonical a /\ canonical b /\ u8s a /\ u8s b /\
  mdeg_add Debug a b = Panic Overflow /\ mdeg_add Release a b = Ok c /\ ~ canonical c /\
  mdeg_is_zero c = false.
Proof.
  exists [128], [128], [0]. repeat split; try discriminate; try (repeat constructor; lia). intros H. apply H. reflexivity.
Qed.

Example C14_ex : mdeg_add Debug [0; 2] [1; 0; 0; 4] = Ok [1; 2; 0; 4]. Proof. reflexivity. Qed.

(** ** C15 *)
Theorem C15_is_succ : forall a b, canonical b ->
  (mdeg_is_succ b a = true <-> forall i, expo b i <= expo a i).
Proof. intros a b Cb. apply is_succ_expo. exact Cb. Qed.

Theorem C15_checked_sub : forall a b, canonical a -> canonical b ->
  (mdeg_is_succ b a = true <-> mdeg_checked_sub a b <> None) /\
  (forall d, mdeg_checked_sub a b = Some d -> canonical d /\ forall i, expo d i = expo a i - expo b i /\ expo b i <= expo a i).
Proof.
  intros a b Ca Cb. rewrite (is_succ_expo b a Cb).
  destruct (checked_sub_full a b Ca Cb) as [(c & -> & L & Cc & E)|[-> N]].
  - split; [split; [discriminate|intros _; exact L]|]. intros d [= <-]. split; auto.
  - split; [split; [intros H; contradiction|congruence]|]. discriminate.
Qed.

(** subtraction inverts addition, uniquely *)
Theorem C15_add_back : forall a b d, mwf a -> mwf b ->
  (mdeg_checked_sub a b = Some d <-> canonical d /\ u8s d /\ mdeg_add Debug b d = Ok a).
Proof.
  intros a b d [Ca Ua] [Cb Ub]. split.
  - intros H. destruct (checked_sub_full a b Ca Cb) as [(c & E & L & Cc & X)|[E _]]; [|congruence].
    rewrite H in E. injection E as <-. 
    assert (Ud : u8s d) by (apply expo_u8; intros i; rewrite X; pose proof (u8_expo a i Ua); lia).
    split; [exact Cc|]. split; [exact Ud|].
    destruct (C14_add_overflow_iff b d Ub Ud) as [_ K]. destruct K as (c & E & _).
    { intros i. rewrite X. specialize (L i). pose proof (u8_expo a i Ua). lia. }
    rewrite E. f_equal. destruct (C14_add b d c Ub Ud E) as (Cc' & Ec & _).
    apply canonical_ext; auto. intros i. rewrite Ec, X. specialize (L i). lia.
  - intros (Cd & Ud & H). destruct (C14_add b d a Ub Ud H) as (_ & E & _).
    destruct (checked_sub_full a b Ca Cb) as [(c & Ec & L & Cc & X)|[Ec N]].
    + rewrite Ec. f_equal. apply canonical_ext; auto. intros i. rewrite X, E. lia.
    + exfalso. apply N. intros i. rewrite E. lia.
Qed.

Example C15_ex : mdeg_checked_sub [3; 2; 1] [1; 2] = Some [2; 0; 1] /\ mdeg_is_succ [1; 2] [3; 2; 1] = true. Proof. split; reflexivity. Qed.
Example C15_ex_none : mdeg_checked_sub [3; 2] [1; 2; 1] = None. Proof. reflexivity. Qed.
Example C15_ex_trim : mdeg_checked_sub [3; 2] [1; 2] = Some [2]. Proof. reflexivity. Qed.

(** ** C16 *)
Theorem C16_total_deg : forall v,
  (list_sum v <= 255 -> forall m, mdeg_total_deg m v = Ok (list_sum v)) /\
  (255 < list_sum v -> mdeg_total_deg Debug v = Panic Overflow) /\
  mdeg_total_deg Release v = Ok (list_sum v mod 256).
Proof.
  intros v. repeat split.
  - intros H [].
    + rewrite total_deg_debug. apply Nat.leb_le in H. rewrite H. reflexivity.
    + rewrite total_deg_release, Nat.mod_small by lia. reflexivity.
  - intros H. rewrite total_deg_debug. apply Nat.leb_gt in H. rewrite H. reflexivity.
  - apply total_deg_release.
Qed.

Example C16_ex : mdeg_total_deg Debug [3; 0; 4] = Ok 7. Proof. reflexivity. Qed.
Example C16_ex_wrap : mdeg_total_deg Release [200; 100] = Ok 44. Proof. reflexivity. Qed.

Print Assumptions C12_from_vec.
Print Assumptions C12_same_monomial.
Print Assumptions C12_var.
Print Assumptions C13_trim_nonzero.
Print Assumptions C13_trim_all_zero.
Print Assumptions C14_add.
Print Assumptions C14_add_overflow_iff.
Print Assumptions C14_add_release_refuted.
Print Assumptions C15_is_succ.
Print Assumptions C15_checked_sub.
Print Assumptions C15_add_back.
Print Assumptions C16_total_deg.
