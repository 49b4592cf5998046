(** * C119: the powers of the standard library

    [Integer::pow] and [mat_iterator] call i64::pow and usize::pow, which the model takes by their contract.  Here the loop of Rust's core library
    (core/src/num/int_macros.rs and uint_macros.rs, fn pow) is transcribed and shown to keep that contract in both build profiles. *)
From Verif Require Import Base BaseLemmas IntModel IntProofs UtilModel MatModel.
From Coq Require Import ZArith Lia.
Local Open Scope Z_scope.

(** [while exp > 1 { if exp & 1 == 1 { acc = acc * base }; exp /= 2; base = base * base }; acc * base];
    [chk] is the check of one multiplication.  The exponent is a nonzero u32; halving drops its lowest bit. *)
Fixpoint pow_loop (chk : Z -> res Z) (acc base : Z) (exp : positive) : res Z :=
  match exp with
  | xH => chk (acc * base)
  | xI e => acc' <- chk (acc * base) ;; base' <- chk (base * base) ;; pow_loop chk acc' base' e
  | xO e => base' <- chk (base * base) ;; pow_loop chk acc base' e
  end.
(** [if exp == 0 { return 1 }] *)
Definition std_pow (chk : Z -> res Z) (a exp : Z) : res Z :=
  match exp with Zpos e => pow_loop chk 1 a e | _ => Ok 1 end.

(** ** what a multiplication must satisfy *)
Section Checked.
(** the values that fit, given by the bound [B] on their absolute value *)
Context (fit : Z -> Prop) (fitb : forall z, {fit z} + {~ fit z}) (chk : Z -> res Z) (B : Z).
Context (chk_in : forall z, fit z -> chk z = Ok z) (chk_out : forall z, ~ fit z -> chk z = Panic Overflow).
Context (fit_abs : forall z, fit z -> Z.abs z <= B) (abs_fit : forall z, Z.abs z < B -> fit z) (sq_fit : forall z, Z.abs (z * z) <= B -> fit (z * z)) (one_fit : 1 < B).

Lemma pow_loop_ok e : forall acc base, pow_loop chk acc base e = Ok (acc * base ^ Zpos e) /\ fit (acc * base ^ Zpos e) \/ pow_loop chk acc base e = Panic Overflow.
Proof.
  assert (D : forall z, chk z = Ok z /\ fit z \/ chk z = Panic Overflow) by (intros z; destruct (fitb z); [left; auto|right; auto]).
  induction e as [e IH|e IH|]; intros acc base; cbn [pow_loop].
  - destruct (D (acc * base)) as [[E _]|E]; rewrite E; cbn [bind]; [|right; reflexivity].
    destruct (D (base * base)) as [[E' _]|E']; rewrite E'; cbn [bind]; [|right; reflexivity].
    replace (acc * base ^ Zpos e~1) with (acc * base * (base * base) ^ Zpos e); [apply IH|].
    rewrite Pos2Z.inj_xI, Z.pow_add_r, Z.pow_mul_r by lia. change (base ^ 2) with (base * (base * 1)). rewrite !Z.mul_1_r. ring.
  - destruct (D (base * base)) as [[E' _]|E']; rewrite E'; cbn [bind]; [|right; reflexivity].
    replace (acc * base ^ Zpos e~0) with (acc * (base * base) ^ Zpos e); [apply IH|].
    rewrite Pos2Z.inj_xO, Z.pow_mul_r by lia. change (base ^ 2) with (base * (base * 1)). rewrite !Z.mul_1_r. reflexivity.
  - rewrite Z.pow_1_r. apply D.
Qed.
Definition inv (acc base : Z) : Prop := (acc = 0 -> base = 0) /\ (Z.abs base = 1 -> Z.abs acc = 1).
Lemma abs_pow_ge base e : base <> 0 -> 1 <= Z.abs (base ^ Zpos e).
Proof. intros N. assert (X : base ^ Zpos e <> 0) by (apply Z.pow_nonzero; lia). lia. Qed.
Lemma fit0 : fit 0. Proof. apply abs_fit. cbn. lia. Qed.
(** nothing overflows on the way to a result that fits *)
Lemma pow_loop_fits e : forall acc base, inv acc base -> fit acc -> fit (acc * base ^ Zpos e) -> pow_loop chk acc base e = Ok (acc * base ^ Zpos e).
Proof.
  assert (P1 : forall acc base e, acc * base ^ Zpos e~1 = acc * base * (base * base) ^ Zpos e).
  { intros. rewrite Pos2Z.inj_xI, Z.pow_add_r, Z.pow_mul_r by lia. change (base ^ 2) with (base * (base * 1)). rewrite !Z.mul_1_r. ring. }
  assert (P0 : forall acc base e, acc * base ^ Zpos e~0 = acc * (base * base) ^ Zpos e).
  { intros. rewrite Pos2Z.inj_xO, Z.pow_mul_r by lia. change (base ^ 2) with (base * (base * 1)). rewrite !Z.mul_1_r. reflexivity. }
  assert (SQ : forall acc base e, acc <> 0 -> base <> 0 -> Z.abs (acc * (base * base) ^ Zpos e) <= B -> fit (base * base)).
  { intros acc base e' Na Nb H. apply sq_fit. rewrite <- (Pos2Z.id e'), Pos2Z.id in H.
    assert (X : (base * base) ^ Zpos e' = (base * base) * (base * base) ^ (Zpos e' - 1)).
    { rewrite <- Z.pow_succ_r by lia. f_equal. lia. }
    rewrite X, !Z.abs_mul in H. assert (Y : (base * base) ^ (Zpos e' - 1) <> 0) by (apply Z.pow_nonzero; [lia|nia]).
    rewrite Z.abs_mul. nia. }
  induction e as [e IH|e IH|]; intros acc base [I0 I1] Fa H; cbn [pow_loop].
  - rewrite P1 in *. destruct (Z.eq_dec base 0) as [->|Nb].
    { change (0 * 0) with 0 in *. replace (acc * 0) with 0 in * by ring. rewrite (chk_in 0 fit0). cbn [bind]. apply IH; [split; [auto|discriminate]|apply fit0|exact H]. }
    assert (Na : acc <> 0) by (intros Z; apply Nb, I0, Z).
    assert (FA : fit (acc * base)).
    { pose proof (fit_abs _ H) as HB. rewrite Z.abs_mul in HB. assert (G : 1 <= Z.abs ((base * base) ^ Zpos e)) by (apply abs_pow_ge; nia).
      destruct (Z.eq_dec (Z.abs base) 1) as [E1|N1].
      - apply abs_fit. rewrite Z.abs_mul, E1, (I1 E1). lia.
      - apply abs_fit. assert (G2 : 1 < Z.abs ((base * base) ^ Zpos e)).
        { assert (X : (base * base) ^ Zpos e = (base * base) * (base * base) ^ (Zpos e - 1)) by (rewrite <- Z.pow_succ_r by lia; f_equal; lia).
          rewrite X, Z.abs_mul. assert (Y : (base * base) ^ (Zpos e - 1) <> 0) by (apply Z.pow_nonzero; [lia|nia]). assert (1 < Z.abs (base * base)) by (rewrite Z.abs_mul; nia). nia. }
        nia. }
    assert (FB : fit (base * base)) by (apply (SQ (acc * base) base e); [nia|exact Nb|apply fit_abs; exact H]).
    rewrite (chk_in _ FA). cbn [bind]. rewrite (chk_in _ FB). cbn [bind]. apply IH; [|exact FA|exact H]. split; [nia|].
    intros E1. rewrite Z.abs_mul in *. assert (E2 : Z.abs base = 1) by nia. rewrite (I1 E2), E2. reflexivity.
  - rewrite P0 in *. destruct (Z.eq_dec base 0) as [->|Nb].
    { change (0 * 0) with 0 in *. rewrite (chk_in 0 fit0). cbn [bind]. apply IH; [split; [auto|discriminate]|exact Fa|exact H]. }
    assert (Na : acc <> 0) by (intros Z; apply Nb, I0, Z).
    assert (FB : fit (base * base)) by (apply (SQ acc base e); [exact Na|exact Nb|apply fit_abs; exact H]).
    rewrite (chk_in _ FB). cbn [bind]. apply IH; [|exact Fa|exact H]. split; [nia|].
    intros E1. rewrite Z.abs_mul in *. apply I1. nia.
  - rewrite Z.pow_1_r in *. apply chk_in. exact H.
Qed.
Lemma std_pow_checked a exp : 0 <= exp -> std_pow chk a exp = chk (a ^ exp).
Proof.
  intros He. assert (F1 : fit 1) by (apply abs_fit; exact one_fit). destruct exp as [|e|e]; [symmetry; apply (chk_in 1 F1)| |lia]. cbn [std_pow].
  destruct (fitb (a ^ Zpos e)) as [H|N].
  - rewrite (chk_in _ H), (pow_loop_fits e 1 a), Z.mul_1_l; auto; [split; [discriminate|reflexivity]|rewrite Z.mul_1_l; exact H].
  - rewrite (chk_out _ N). destruct (pow_loop_ok e 1 a) as [[_ H]|E]; [|exact E]. rewrite Z.mul_1_l in H. contradiction.
Qed.
End Checked.

(** ** wrapping: everything modulo M *)
Section Wrapping.
Context (w : Z -> Z) (M : Z).
Context (w_congr : forall z, exists k, w z = z + k * M) (w_eq : forall z k, w (z + k * M) = w z).
Lemma w_mul x y : w (w x * w y) = w (x * y).
Proof.
  destruct (w_congr x) as (k & ->). destruct (w_congr y) as (l & ->). replace ((x + k * M) * (y + l * M)) with (x * y + (x * l + k * y + k * M * l) * M) by ring. apply w_eq.
Qed.
Lemma w_mul_l x y : w (w x * y) = w (x * y).
Proof. destruct (w_congr x) as (k & ->). replace ((x + k * M) * y) with (x * y + (k * y) * M) by ring. apply w_eq. Qed.
Lemma w_mul_r x y : w (x * w y) = w (x * y).
Proof. rewrite Z.mul_comm, w_mul_l, Z.mul_comm. reflexivity. Qed.
Lemma w_pow x n : 0 <= n -> w (w x ^ n) = w (x ^ n).
Proof.
  intros Hn. revert n Hn. apply natlike_ind; [reflexivity|]. intros n Hn IH. rewrite !Z.pow_succ_r by exact Hn.
  rewrite <- w_mul_r, IH, w_mul_r, w_mul_l. reflexivity.
Qed.
Lemma pow_loop_wrap e : forall acc base, pow_loop (fun z => Ok (w z)) acc base e = Ok (w (acc * base ^ Zpos e)).
Proof.
  induction e as [e IH|e IH|]; intros acc base; cbn [pow_loop bind].
  - rewrite IH. f_equal. rewrite w_mul_l, <- w_mul_r, w_pow, w_mul_r by lia. f_equal.
    rewrite Pos2Z.inj_xI, Z.pow_add_r, Z.pow_mul_r by lia. change (base ^ 2) with (base * (base * 1)). rewrite !Z.mul_1_r. ring.
  - rewrite IH. f_equal. rewrite <- w_mul_r, w_pow, w_mul_r by lia. f_equal.
    rewrite Pos2Z.inj_xO, Z.pow_mul_r by lia. change (base ^ 2) with (base * (base * 1)). rewrite !Z.mul_1_r. reflexivity.
  - rewrite Z.pow_1_r. reflexivity.
Qed.
End Wrapping.
Lemma pow_loop_ext c c' e : (forall z, c z = c' z) -> forall acc base, pow_loop c acc base e = pow_loop c' acc base e.
Proof.
  intros H. induction e as [e IH|e IH|]; intros acc base; cbn [pow_loop]; rewrite ?H; [| |reflexivity].
  - destruct (c' (acc * base)); cbn [bind]; auto. destruct (c' (base * base)); cbn [bind]; auto.
  - destruct (c' (base * base)); cbn [bind]; auto.
Qed.

(** ** C119 *)
(** the loop computes what [int_pow] says, overflow and wrapping included, for every i64 and every exponent *)
Theorem C119_int_pow : forall m a e, in64 a -> std_pow (chk64 m) a (as_u32 e) = int_pow m a e.
Proof.
  intros m a e _. assert (He : 0 <= as_u32 e) by (apply Z.mod_pos_bound; reflexivity). unfold int_pow. destruct m.
  - apply (std_pow_checked in64) with (B := 2 ^ 63); try exact He.
    + intros z. destruct (in64b z) eqn:E; [left; apply in64b_spec; exact E|right; apply in64b_false; exact E].
    + intros z H. apply chk64_in. exact H.
    + intros z H. unfold chk64. apply in64b_false in H. rewrite H. reflexivity.
    + unfold in64, i64_min, i64_max. intros z H. lia.
    + unfold in64, i64_min, i64_max. intros z H. lia.
    + unfold in64, i64_min, i64_max. intros z H. assert (Z.abs z <= 3037000499 \/ 3037000500 <= Z.abs z) as [X|X] by lia; rewrite Z.abs_mul in H; split; nia.
    + reflexivity.
  - assert (C : forall z, chk64 Release z = Ok (wrap64 z)).
    { intros z. unfold chk64. destruct (in64b z) eqn:E; [|reflexivity]. rewrite wrap64_id; [reflexivity|apply in64b_spec; exact E]. }
    assert (CG : forall z k, wrap64 (z + k * 2 ^ 64) = wrap64 z).
    { intros z k. unfold wrap64. replace (z + k * 2 ^ 64 + 2 ^ 63) with (z + 2 ^ 63 + k * 2 ^ 64) by ring. rewrite Z_mod_plus_full. reflexivity. }
    rewrite C. destruct (as_u32 e) as [|p|p]; [reflexivity| |lia]. cbn [std_pow]. rewrite (pow_loop_ext _ (fun z => Ok (wrap64 z)) p C).
    rewrite (pow_loop_wrap wrap64 (2 ^ 64) wrap64_congr CG), Z.mul_1_l. reflexivity.
Qed.
(** usize::pow, used for the number of matrices in [mat_iterator] *)
Theorem C119_usize_pow : forall m a e, 0 <= a -> 0 <= e -> std_pow (usz m) a e = usz m (a ^ e).
Proof.
  intros m a e Ha He. destruct m.
  - assert (R : forall c c' p acc base, 0 <= acc -> 0 <= base -> (forall z, 0 <= z -> c z = c' z) -> (forall z z', 0 <= z -> c' z = Ok z' -> 0 <= z') -> pow_loop c acc base p = pow_loop c' acc base p).
    { intros c c' p. induction p as [p IH|p IH|]; intros acc base A B H P; cbn [pow_loop]; rewrite ?H by nia; [| |reflexivity].
      - destruct (c' (acc * base)) as [x| |] eqn:X; cbn [bind]; auto. destruct (c' (base * base)) as [y| |] eqn:Y; cbn [bind]; auto.
        apply IH; auto; [apply (P (acc * base)); [nia|exact X]|apply (P (base * base)); [nia|exact Y]].
      - destruct (c' (base * base)) as [y| |] eqn:Y; cbn [bind]; auto. apply IH; auto. apply (P (base * base)); [nia|exact Y]. }
    (* on nonnegative numbers the check is the one by absolute value *)
    set (c' := fun z => if Z.abs z <=? usize_max then Ok z else Panic Overflow).
    assert (S1 : forall z, 0 <= z -> usz Debug z = c' z).
    { intros z Hz. unfold usz, c'. rewrite (Z.abs_eq z Hz), (proj2 (Z.leb_le 0 z) Hz). reflexivity. }
    assert (S2 : forall z z', 0 <= z -> c' z = Ok z' -> 0 <= z') by (intros z z' Hz; unfold c'; destruct (Z.abs z <=? usize_max); [intros [= <-]; exact Hz|discriminate]).
    assert (Hp : 0 <= a ^ e) by (apply Z.pow_nonneg; exact Ha). rewrite (S1 _ Hp).
    transitivity (std_pow c' a e); [destruct e as [|p|p]; [reflexivity| |reflexivity]; cbn [std_pow]; apply R; auto; lia|].
    apply (std_pow_checked (fun z => Z.abs z <= usize_max)) with (B := usize_max); try exact He.
    + intros z. apply Z_le_dec.
    + intros z H. unfold c'. rewrite (proj2 (Z.leb_le _ _) H). reflexivity.
    + intros z H. unfold c'. destruct (Z.leb_spec (Z.abs z) usize_max); [contradiction|reflexivity].
    + intros z H. lia.
    + intros z H. lia.
    + intros z H. exact H.
    + reflexivity.
  - set (w := fun z => z mod (usize_max + 1)).
    assert (C : forall z, usz Release z = Ok (w z)).
    { intros z. unfold usz, w. destruct (Z.leb_spec 0 z), (Z.leb_spec z usize_max); cbn [andb]; try reflexivity. rewrite Z.mod_small by lia. reflexivity. }
    rewrite C. destruct e as [|p|p]; [reflexivity| |lia]. cbn [std_pow]. rewrite (pow_loop_ext _ (fun z => Ok (w z)) p C).
    rewrite (pow_loop_wrap w (usize_max + 1)), Z.mul_1_l; [reflexivity| |].
    + intros z. exists (- (z / (usize_max + 1))). unfold w. rewrite Z.mod_eq by discriminate. ring.
    + intros z k. unfold w. apply Z_mod_plus_full.
Qed.

(** the range of usize and what happens outside it, with the bound written out *)
Theorem C119_usize_range : forall m z, 0 <= z ->
  (z < 2 ^ 64 -> usz m z = Ok z) /\ (2 ^ 64 <= z -> usz Debug z = Panic Overflow) /\ usz Release z = Ok (z mod 2 ^ 64).
Proof.
  intros m z Hz. change (2 ^ 64) with (usize_max + 1). unfold usz.
  destruct (Z.leb_spec 0 z); [|lia]. cbn [andb]. repeat split.
  - intros H'. destruct (Z.leb_spec z usize_max); [reflexivity|lia].
  - intros H'. destruct (Z.leb_spec z usize_max); [lia|reflexivity].
  - destruct (Z.leb_spec z usize_max); [rewrite Z.mod_small by lia|]; reflexivity.
Qed.

(** the two boundary cases: (-2)^63 = i64::MIN fits although 2^63 does not; 10^19 fits into a usize, not into an i64 *)
Example C119_ex : std_pow (chk64 Debug) (-2) 63 = Ok i64_min /\ std_pow (chk64 Debug) 2 63 = Panic Overflow /\ std_pow (chk64 Release) 2 63 = Ok i64_min /\
  std_pow (usz Debug) 10 19 = Ok (10 ^ 19) /\ std_pow (chk64 Debug) 10 19 = Panic Overflow /\ std_pow (usz Debug) 2 64 = Panic Overflow.
Proof. repeat split; reflexivity. Qed.

Print Assumptions C119_int_pow.
Print Assumptions C119_usize_pow.
Print Assumptions C119_usize_range.
