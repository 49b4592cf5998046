(** * C84 (continued): correct rounding.  C87: what epsilon_equals and stability_cmp mean over f32 and f64. *)
From Verif Require Import Base BaseLemmas FieldIface FloatModel FloatExact FloatRound FloatNearest PropFloatErr.
From Coq Require Import QArith Qabs Qpower Qcanon Lqa Lia.
Local Open Scope nat_scope.

(** a finite result is nearest to the exact one among all finite values of the type *)
Theorem C84_nearest : forall t (x y w : float), t = binary32 \/ t = binary64 ->
  valid t x -> valid t y -> valid t w -> finite x = true -> finite y = true -> finite w = true ->
  (forall z, z = SFadd (prec t) (emax t) x y -> finite z = true -> (Qabs (fq z - (fq x + fq y)) <= Qabs (fq w - (fq x + fq y)))%Q) /\
  (forall z, z = SFsub (prec t) (emax t) x y -> finite z = true -> (Qabs (fq z - (fq x - fq y)) <= Qabs (fq w - (fq x - fq y)))%Q) /\
  (forall z, z = SFmul (prec t) (emax t) x y -> finite z = true -> (Qabs (fq z - fq x * fq y) <= Qabs (fq w - fq x * fq y))%Q) /\
  (forall z, z = SFdiv (prec t) (emax t) x y -> finite z = true -> ~ (fq y == 0)%Q -> (Qabs (fq z - fq x / fq y) <= Qabs (fq w - fq x / fq y))%Q).
Proof.
  intros t x y w Ht Vx Vy Vw Fx Fy Fw. assert (G : good t) by (destruct Ht as [-> | ->]; [exact good32|exact good64]).
  split; [|split; [|split]]; intros z -> Fz.
  - exact (add_nearest t G x y Fx Fy Fz w Vw Fw).
  - exact (sub_nearest t G x y Fx Fy Fz w Vw Fw).
  - exact (mul_nearest t G x y Vx Vy Fx Fy Fz w Vw Fw).
  - intros Ny. exact (div_nearest t G x y Fx Fy Ny Fz w Vw Fw).
Qed.
Example C84_nearest_example : let third := SFdiv 53 1024 (fone binary64) (S754_finite false 6755399441055744 (-51)) in
  valid binary64 third /\ finite third = true /\ third = S754_finite false 6004799503160661 (-54).
Proof. repeat split. Qed.

Section Cmp.
Context (t : fmt) (G : good t).
Notation p := (prec t).
Notation em := (emax t).
(** EPSILON = 2^(1-p) *)
Definition epsilon : Q := Qpower 2 (1 - p).
Lemma eps_value : (fq (fepsilon t) == epsilon)%Q.
Proof.
  unfold fepsilon, fq, epsilon. cbn [cond_Zopp]. unfold good in G.
  rewrite Z2Pos.id by (apply Z.pow_pos_nonneg; lia). unfold dyq. rewrite pow2_int by lia. rewrite <- Qpower_plus by exact two_nz. replace (prec t - 1 + (2 - 2 * prec t))%Z with (1 - prec t)%Z by lia. reflexivity.
Qed.
Lemma epsilon_pos : (0 < epsilon)%Q. Proof. apply pow2_pos. Qed.
(** |x| < |y| for the comparison operator *)
Lemma abs_value x : (fq (SFabs x) == Qabs (fq x))%Q.
Proof.
  destruct x as [s|s| |s m k]; try reflexivity. cbn [SFabs fq]. rewrite !dyq_cond. rewrite sgn_Qabs by apply dyq_pos_nonneg. reflexivity.
Qed.
Lemma abs_valid x : valid t x -> valid t (SFabs x).
Proof. destruct x; intros V; exact V. Qed.
Lemma abs_finite x : finite (SFabs x) = finite x.
Proof. destruct x; reflexivity. Qed.
Lemma compare_value x y : valid t x -> valid t y -> finite x = true -> finite y = true -> SFcompare x y = Some (fq x ?= fq y)%Q.
Proof.
  intros Vx Vy Fx Fy. rewrite (compare_exact t G x y (fval x) (fval y)) by (repeat split; assumption). f_equal. unfold Qccompare.
  apply Qcompare_comp; apply fq_fval.
Qed.
Lemma ltb_value x y : valid t x -> valid t y -> finite x = true -> finite y = true -> (SFltb x y = true <-> (fq x < fq y)%Q).
Proof.
  intros Vx Vy Fx Fy. unfold SFltb. rewrite (compare_value x y Vx Vy Fx Fy). rewrite Qlt_alt. destruct (fq x ?= fq y)%Q; split; congruence.
Qed.
Lemma not_finite_ltb x : finite x = false -> forall y, finite y = true -> SFltb (SFabs x) y = false.
Proof. destruct x as [s|s| |s m k]; try discriminate; intros _ [s'|s'| |s' m' k']; try discriminate; reflexivity. Qed.
End Cmp.

Section Types.
Context (t : fmt) (Ht : t = binary32 \/ t = binary64).
Notation p := (prec t).
Notation em := (emax t).
Lemma Gt_ : good t. Proof. destruct Ht as [-> | ->]; [exact good32|exact good64]. Qed.
Lemma eps_valid : valid t (fepsilon t). Proof. destruct Ht as [-> | ->]; reflexivity. Qed.
(** epsilon_equals holds only for values closer than EPSILON; it holds if they are closer than EPSILON (1 - u) *)
Theorem C87_epsilon_equals : forall x y, valid t x -> valid t y -> finite x = true -> finite y = true ->
  (float_epsilon_equals t x y = true -> (Qabs (fq x - fq y) < epsilon t)%Q) /\
  ((Qabs (fq x - fq y) <= epsilon t * (1 - u t))%Q -> float_epsilon_equals t x y = true).
Proof.
  intros x y Vx Vy Fx Fy. pose proof Gt_ as G. unfold float_epsilon_equals. set (z := SFsub p em x y).
  pose proof (sub_near t G x y Vx Vy Fx Fy) as (Vz & _ & Nz & Iz). fold z in Vz, Nz, Iz. pose proof (epsilon_pos t) as Ep.
  destruct (finite z) eqn:Fz.
  - specialize (Nz eq_refl). rewrite (ltb_value t G (SFabs z) (fepsilon t)); try (apply abs_valid; exact Vz); try exact eps_valid; try (rewrite abs_finite; exact Fz); try reflexivity.
    rewrite abs_value, (eps_value t G). split.
    + intros L. apply Qnot_le_lt. intros Le. pose proof (sub_nearest t G x y Fx Fy) as Ne. fold z in Ne.
      set (v := (fq x - fq y)%Q) in *. apply Qabs_Qlt_condition in L as [L1 L2].
      destruct (Qlt_le_dec v 0) as [Lv|Lv].
      * pose proof (Ne Fz (SFopp (fepsilon t)) ltac:(exact eps_valid) ltac:(reflexivity)) as H. rewrite fq_opp, (eps_value t G) in H.
        rewrite (Qabs_neg v) in Le by lra. rewrite (Qabs_pos (fq z - v)) in H by lra. rewrite (Qabs_pos (- epsilon t - v)) in H by lra. lra.
      * pose proof (Ne Fz (fepsilon t) ltac:(exact eps_valid) ltac:(reflexivity)) as H. rewrite (eps_value t G) in H.
        rewrite (Qabs_pos v) in Le by lra. rewrite (Qabs_neg (fq z - v)) in H by lra. rewrite (Qabs_neg (epsilon t - v)) in H by lra. lra.
    + intros Le. set (v := (fq x - fq y)%Q) in *. change (u t) with (uu t) in *. pose proof (uu_pos t) as Up.
      assert (T : (Qabs (fq z) <= Qabs (fq z - v) + Qabs v)%Q).
      { pose proof (Qabs_triangle (fq z - v) v) as H. assert (E : (fq z - v + v == fq z)%Q) by ring. rewrite E in H. exact H. }
      pose proof (Qabs_nonneg v) as Pv. set (az := Qabs (fq z)) in *. set (av := Qabs v) in *. set (d := Qabs (fq z - v)) in *.
      set (w := uu t) in *. set (ep := epsilon t) in *. clearbody az av d w ep.
      assert (0 < w * w * ep)%Q by (apply Qmult_lt_0_compat; [apply Qmult_lt_0_compat|]; assumption).
      assert ((1 + w) * av <= (1 + w) * (ep * (1 - w)))%Q by (apply Qmult_le_l; lra). lra.
  - rewrite (not_finite_ltb z Fz (fepsilon t)) by reflexivity. split; [discriminate|]. intros Le. specialize (Iz eq_refl). exfalso.
    change (uu t) with (u t) in Iz. set (v := (fq x - fq y)%Q) in *.
    assert (U : (u t < 1)%Q) by (destruct Ht as [-> | ->]; reflexivity).
    assert (E : (epsilon t < Qpower 2 em)%Q) by (destruct Ht as [-> | ->]; vm_compute; reflexivity).
    clearbody v. generalize (u t) (epsilon t) (Qpower 2 em) Le Iz U E. intros. nra.
Qed.
(** symmetric; reflexive on finite values only; not transitive *)
Lemma abs_round_aux s s' m k l : SFabs (binary_round_aux p em s m k l) = SFabs (binary_round_aux p em s' m k l).
Proof.
  unfold binary_round_aux. destruct (shr_fexp _ _ _ _ _) as [mrs e']. destruct (shr_fexp _ _ _ _ _) as [mrs' e''].
  destruct (shr_m mrs'); try reflexivity. destruct (_ <=? _)%Z; reflexivity.
Qed.
Lemma abs_round s s' m k : SFabs (binary_round p em s m k) = SFabs (binary_round p em s' m k).
Proof. unfold binary_round. destruct (shl_align _ _ _). apply abs_round_aux. Qed.
Lemma abs_normalize m k b b' : SFabs (binary_normalize p em m k b) = SFabs (binary_normalize p em (- m) k b').
Proof. destruct m; cbn [binary_normalize Z.opp]; [reflexivity|apply abs_round|apply abs_round]. Qed.
Theorem C87_epsilon_symmetric : forall x y, float_epsilon_equals t x y = float_epsilon_equals t y x.
Proof.
  intros x y. unfold float_epsilon_equals. f_equal.
  destruct x as [sx|sx| |sx mx ex], y as [sy|sy| |sy my ey]; try reflexivity; cbn [SFsub].
  - destruct (Bool.eqb sx (negb sy)), (Bool.eqb sy (negb sx)); reflexivity.
  - destruct sx, sy; reflexivity.
  - rewrite (Z.min_comm ey ex). rewrite (abs_normalize _ _ false false). f_equal. f_equal. lia.
Qed.
Theorem C87_epsilon_reflexive : forall x, valid t x -> float_epsilon_equals t x x = finite x.
Proof.
  intros x V. destruct (finite x) eqn:Fx.
  - apply (C87_epsilon_equals x x V V Fx Fx). assert (Z : (fq x - fq x == 0)%Q) by ring. rewrite Z. change (Qabs 0) with 0%Q.
    destruct Ht as [-> | ->]; vm_compute; discriminate.
  - destruct x as [s|s| |s m k]; try discriminate; [destruct s|]; reflexivity.
Qed.
(** 0, EPSILON / 2 and EPSILON *)
Theorem C87_epsilon_transitive_refuted : exists x y z, valid t x /\ valid t y /\ valid t z /\
  float_epsilon_equals t x y = true /\ float_epsilon_equals t y z = true /\ float_epsilon_equals t x z = false.
Proof.
  exists fzero, (S754_finite false (Z.to_pos (2 ^ (p - 1))) (1 - 2 * p)), (fepsilon t).
  destruct Ht as [-> | ->]; repeat split; vm_compute; reflexivity.
Qed.
(** values closer than EPSILON need not be epsilon_equal *)
Theorem C87_epsilon_boundary_refuted : exists x y, valid t x /\ valid t y /\ finite x = true /\ finite y = true /\
  (Qabs (fq x - fq y) < epsilon t)%Q /\ float_epsilon_equals t x y = false.
Proof.
  exists (fepsilon t), (S754_finite false 1 (3 - em - p)).
  destruct Ht as [-> | ->]; repeat split; vm_compute; reflexivity.
Qed.
(** the tolerance is absolute: from 1 on it is equality of values *)
Lemma large_multiple s m k : valid t (S754_finite s m k) -> (1 <= Qabs (fq (S754_finite s m k)))%Q ->
  exists n, (fq (S754_finite s m k) == inject_Z n * epsilon t)%Q.
Proof.
  intros V L. pose proof Gt_ as G. apply valid_canon in V. cbn [fq] in *. rewrite dyq_cond in *. rewrite sgn_Qabs in L by apply dyq_pos_nonneg.
  assert (B : (Zpos m < 2 ^ p)%Z).
  { destruct (digits2_spec m) as [_ U]. eapply Z.lt_le_trans; [exact U|]. apply Z.pow_le_mono_r; [lia|]. destruct (canon_digits t _ _ V); lia. }
  assert (K : (1 - p <= k)%Z).
  { destruct (Z.le_gt_cases (1 - p) k) as [H|H]; [exact H|exfalso]. assert (Lt : (dyq (Zpos m) k < 1)%Q); [|lra].
    unfold dyq. assert (E1 : (1 == inject_Z (2 ^ p) * Qpower 2 (- p))%Q).
    { rewrite pow2_int by (unfold good in G; lia). rewrite <- Qpower_plus by exact two_nz. rewrite Z.add_opp_diag_r. reflexivity. }
    rewrite E1. apply Qle_lt_trans with (inject_Z (Zpos m) * Qpower 2 (- p))%Q.
    - rewrite !(Qmult_comm (inject_Z (Zpos m))). apply Qmult_le_compat_r; [apply pow2_le; lia|discriminate].
    - apply Qmult_lt_compat_r; [apply pow2_pos|]. rewrite <- Zlt_Qlt. exact B. }
  exists (cond_Zopp s (Zpos m * 2 ^ (k - (1 - p)))). unfold epsilon. change (inject_Z ?n * Qpower 2 (1 - p))%Q with (dyq n (1 - p)).
  assert (S : (dyq (Zpos m * 2 ^ (k - (1 - p))) (1 - p) == dyq (Zpos m) k)%Q).
  { rewrite dyq_shift by lia. replace (1 - p + (k - (1 - p)))%Z with k by lia. reflexivity. }
  eapply Qeq_trans; [apply dyq_cond|]. eapply Qeq_trans; [exact (sgn_wd s _ _ (Qeq_sym _ _ S))|]. apply Qeq_sym. apply dyq_cond.
Qed.
Theorem C87_epsilon_large : forall x y, valid t x -> valid t y -> finite x = true -> finite y = true ->
  (1 <= Qabs (fq x))%Q -> (1 <= Qabs (fq y))%Q -> float_epsilon_equals t x y = true -> (fq x == fq y)%Q.
Proof.
  intros x y Vx Vy Fx Fy Lx Ly E. apply (C87_epsilon_equals x y Vx Vy Fx Fy) in E. pose proof (epsilon_pos t) as Ep.
  destruct x as [sx| | |sx mx ex]; try discriminate; [exfalso; cbn [fq] in Lx; change (Qabs 0) with 0%Q in Lx; lra|].
  destruct y as [sy| | |sy my ey]; try discriminate; [exfalso; cbn [fq] in Ly; change (Qabs 0) with 0%Q in Ly; lra|].
  destruct (large_multiple _ _ _ Vx Lx) as [a Ea]. destruct (large_multiple _ _ _ Vy Ly) as [b Eb]. rewrite Ea, Eb in *.
  apply Qabs_Qlt_condition in E as [E1 E2].
  assert (H : a = b); [|rewrite H; reflexivity].
  assert (L1 : (inject_Z a < inject_Z b + 1)%Q) by nra. assert (L2 : (inject_Z b < inject_Z a + 1)%Q) by nra.
  change 1%Q with (inject_Z 1) in L1, L2. rewrite <- inject_Z_plus, <- Zlt_Qlt in L1, L2. lia.
Qed.
(** and below EPSILON / 2 all values are epsilon_equal *)
Theorem C87_epsilon_small : forall x y, valid t x -> valid t y -> finite x = true -> finite y = true ->
  (Qabs (fq x) <= epsilon t * (1 - u t) / 2)%Q -> (Qabs (fq y) <= epsilon t * (1 - u t) / 2)%Q -> float_epsilon_equals t x y = true.
Proof.
  intros x y Vx Vy Fx Fy Lx Ly. apply (C87_epsilon_equals x y Vx Vy Fx Fy). pose proof (Qabs_triangle (fq x) (- fq y)) as H. rewrite Qabs_opp in H.
  assert (E : (epsilon t * (1 - u t) == epsilon t * (1 - u t) / 2 + epsilon t * (1 - u t) / 2)%Q) by field. rewrite E. unfold Qminus in *. lra.
Qed.

(** ** stability_cmp compares absolute values *)
Theorem C87_stability_cmp : forall x y, valid t x -> valid t y -> finite x = true -> finite y = true ->
  float_stability_cmp x y = Some (Qabs (fq x) ?= Qabs (fq y))%Q.
Proof.
  intros x y Vx Vy Fx Fy. unfold float_stability_cmp.
  rewrite (compare_value t Gt_ (SFabs x) (SFabs y)); try (apply abs_valid; assumption); try (rewrite abs_finite; assumption).
  f_equal. apply Qcompare_comp; apply abs_value.
Qed.
Theorem C87_stability_nonfinite : forall x y : float,
  (float_stability_cmp x y = None <-> x = S754_nan \/ y = S754_nan) /\
  (forall s, finite y = true -> float_stability_cmp (S754_infinity s) y = Some Gt) /\
  (forall s, finite x = true -> float_stability_cmp x (S754_infinity s) = Some Lt).
Proof.
  intros x y. unfold float_stability_cmp. split; [|split].
  - destruct x as [sx|sx| |sx mx ex], y as [sy|sy| |sy my ey]; cbn [SFabs SFcompare]; split;
      try (intros [H|H]; discriminate H); try discriminate; try (intros _; left; reflexivity); try (intros _; right; reflexivity); try reflexivity.
  - intros s Fy. destruct y as [sy|sy| |sy my ey]; try discriminate; reflexivity.
  - intros s Fx. destruct x as [sx|sx| |sx mx ex]; try discriminate; reflexivity.
Qed.
End Types.
(** 1 and 1 + EPSILON are not epsilon_equal, 2^-60 and -2^-70 are *)
Example C87_large_example : valid binary64 (S754_finite false 4503599627370497 (-52)) /\
  float_epsilon_equals binary64 (S754_finite false 4503599627370497 (-52)) (fone binary64) = false /\
  (1 <= Qabs (fq (S754_finite false 4503599627370497 (-52))))%Q.
Proof. repeat split; vm_compute; congruence. Qed.
Example C87_small_example : valid binary64 (S754_finite false 4503599627370496 (-112)) /\ valid binary64 (S754_finite true 4503599627370496 (-122)) /\
  (Qabs (fq (S754_finite false 4503599627370496 (-112))) <= epsilon binary64 * (1 - u binary64) / 2)%Q /\
  float_epsilon_equals binary64 (S754_finite false 4503599627370496 (-112)) (S754_finite true 4503599627370496 (-122)) = true.
Proof. repeat split; vm_compute; congruence. Qed.
Example C87_stability_example : float_stability_cmp (S754_finite true 4503599627370496 (-51)) (fone binary64) = Some Gt.
Proof. reflexivity. Qed.

Print Assumptions C84_nearest.
Print Assumptions C87_epsilon_equals.
Print Assumptions C87_epsilon_symmetric.
Print Assumptions C87_epsilon_reflexive.
Print Assumptions C87_epsilon_transitive_refuted.
Print Assumptions C87_epsilon_boundary_refuted.
Print Assumptions C87_epsilon_large.
Print Assumptions C87_epsilon_small.
Print Assumptions C87_stability_cmp.
Print Assumptions C87_stability_nonfinite.
