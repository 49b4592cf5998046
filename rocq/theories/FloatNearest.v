(** * Correct rounding: the float operations return a nearest value. *)
From Verif Require Import Base BaseLemmas FloatModel FloatExact FloatRound.
From Coq Require Import QArith Qabs Qpower Lqa Lia.
Local Open Scope Z_scope.

Section Nearest.
Context (t : fmt) (G : good t).
Notation p := (prec t).
Notation em := (emax t).
Notation fexp := (fexp p em).
Notation fcanon := (fcanon t).

(** no finite value is closer to [v] than [z], if [z] is finite *)
Definition nearest (v : Q) (z : float) : Prop :=
  finite z = true -> forall w, valid t w -> finite w = true -> (Qabs (fq z - v) <= Qabs (fq w - v))%Q.
Lemma nearest_wd v v' z : nearest v z -> (v == v')%Q -> nearest v' z.
Proof. intros H E Fi w Vw Fw. rewrite <- E. exact (H Fi w Vw Fw). Qed.
Lemma nearest_exact v z : (fq z == v)%Q -> nearest v z.
Proof. intros E _ w _ _. assert (Z : (fq z - v == 0)%Q) by (rewrite E; ring). rewrite Z. apply Qabs_nonneg. Qed.

(** multiples of a power of two *)
Lemma multiple (q n : Z) (x v : Q) : (0 < x)%Q -> (- (1 # 2) * x <= inject_Z q * x - v)%Q -> (inject_Z q * x - v <= (1 # 2) * x)%Q ->
  (Qabs (inject_Z q * x - v) <= Qabs (inject_Z n * x - v))%Q.
Proof.
  intros X A B. destruct (Z.eq_dec n q) as [->|N]; [apply Qle_refl|].
  eapply Qle_trans; [apply (Qabs_bound _ ((1 # 2) * x)); lra|].
  destruct (Z.lt_ge_cases n q) as [L|L].
  - assert (I : (inject_Z n + 1 <= inject_Z q)%Q) by (change 1%Q with (inject_Z 1); rewrite <- inject_Z_plus, <- Zle_Qle; lia).
    eapply Qle_trans; [|rewrite <- Qabs_opp; apply Qle_Qabs]. nra.
  - assert (I : (inject_Z q + 1 <= inject_Z n)%Q) by (change 1%Q with (inject_Z 1); rewrite <- inject_Z_plus, <- Zle_Qle; lia).
    eapply Qle_trans; [|apply Qle_Qabs]. nra.
Qed.
Lemma round_aux_nearest s mx ex lx D R v w : 0 <= mx -> loc_ok D R lx -> ex <= fexp (Zdigits2 mx + ex) ->
  (v * inject_Z D == dyq (mx * D + R) ex)%Q -> (w == sgn s v)%Q -> nearest w (binary_round_aux p em s mx ex lx).
Proof.
  intros M L LE Hv Hw Fi y Vy Fy. set (E := fexp (Zdigits2 mx + ex)) in *.
  destruct (round_aux_spec t G s mx ex lx D R M L LE) as (q & Q0 & Near & Ex & _ & Lo & Pk). fold E in Near, Ex, Lo, Pk.
  assert (D0 : 0 < D) by (destruct L; lia). assert (R0 : 0 <= R) by (destruct L; lia).
  assert (DQ : (0 < inject_Z D)%Q) by (change 0%Q with (inject_Z 0); rewrite <- Zlt_Qlt; exact D0).
  assert (Near' : (- (1 # 2) * Qpower 2 E <= dyq q E - v)%Q /\ (dyq q E - v <= (1 # 2) * Qpower 2 E)%Q).
  { assert (Sc : (dyq q E * inject_Z D == dyq (q * (D * 2 ^ (E - ex))) ex)%Q).
    { rewrite Z.mul_assoc, dyq_shift by lia. replace (ex + (E - ex)) with E by lia. unfold dyq. rewrite inject_Z_mult. ring. }
    assert (Pw : (Qpower 2 E * inject_Z D == dyq (D * 2 ^ (E - ex)) ex)%Q).
    { rewrite dyq_shift by lia. replace (ex + (E - ex)) with E by lia. unfold dyq. ring. }
    assert (I1 : (- dyq (D * 2 ^ (E - ex)) ex <= 2 * (dyq (q * (D * 2 ^ (E - ex))) ex - dyq (mx * D + R) ex))%Q).
    { unfold dyq. pose proof (pow2_pos ex) as Pe. set (a := D * 2 ^ (E - ex)) in *. set (b := q * a) in *. set (c := mx * D + R) in *.
      assert (I : (inject_Z (- a) <= inject_Z (2 * (b - c)))%Q) by (rewrite <- Zle_Qle; lia).
      rewrite inject_Z_mult, inject_Z_opp in I. unfold Z.sub in I. rewrite inject_Z_plus, inject_Z_opp in I. change (inject_Z 2) with 2%Q in I.
      clear - Pe I. clearbody a b c. set (x := Qpower 2 ex) in *. clearbody x. nra. }
    assert (I2 : (2 * (dyq (q * (D * 2 ^ (E - ex))) ex - dyq (mx * D + R) ex) <= dyq (D * 2 ^ (E - ex)) ex)%Q).
    { unfold dyq. pose proof (pow2_pos ex) as Pe. set (a := D * 2 ^ (E - ex)) in *. set (b := q * a) in *. set (c := mx * D + R) in *.
      assert (I : (inject_Z (2 * (b - c)) <= inject_Z a)%Q) by (rewrite <- Zle_Qle; lia).
      rewrite inject_Z_mult in I. unfold Z.sub in I. rewrite inject_Z_plus, inject_Z_opp in I. change (inject_Z 2) with 2%Q in I.
      clear - Pe I. clearbody a b c. set (x := Qpower 2 ex) in *. clearbody x. nra. }
    rewrite <- Sc, <- Hv, <- Pw in I1, I2. split; apply (Qmult_le_r _ _ (inject_Z D) DQ); lra. }
  destruct Near' as [N1 N2]. pose proof (pow2_pos E) as PE.
  assert (V0 : (0 <= v)%Q).
  { apply (Qmult_le_r _ _ (inject_Z D) DQ). rewrite Hv, Qmult_0_l. unfold dyq. apply Qmult_le_0_compat; [|apply Qlt_le_weak, pow2_pos].
    change 0%Q with (inject_Z 0). rewrite <- Zle_Qle. nia. }
  assert (Vlow : (dyq mx ex <= v)%Q).
  { apply (Qmult_le_r _ _ (inject_Z D) DQ). rewrite Hv. unfold dyq. rewrite inject_Z_plus, inject_Z_mult.
    assert (0 <= inject_Z R)%Q by (change 0%Q with (inject_Z 0); rewrite <- Zle_Qle; exact R0). pose proof (pow2_pos ex).
    set (x := Qpower 2 ex) in *. clearbody x. nra. }
  (* a value with a larger exponent than the smallest is at least 2^(p-1) units *)
  assert (Low : 3 - em - p < E -> (inject_Z (2 ^ (p - 1)) * Qpower 2 E <= v)%Q).
  { intros H. assert (Ed : E = Z.max (Zdigits2 mx + ex - p) (3 - em - p)) by reflexivity.
    assert (Ed' : E = Zdigits2 mx + ex - p) by lia.
    assert (Mx : 0 < mx) by (destruct (Z.eq_dec mx 0) as [Z0|]; [rewrite Z0 in Ed'; cbn [Zdigits2] in Ed'; unfold good in G; lia|lia]).
    assert (Big : 2 ^ (Zdigits2 mx - 1) <= mx) by (destruct mx; try lia; cbn [Zdigits2]; apply digits2_spec).
    assert (Dg : 1 <= Zdigits2 mx) by (destruct mx; cbn [Zdigits2]; lia).
    eapply Qle_trans; [|exact Vlow]. unfold dyq.
    rewrite pow2_int by (unfold good in G; lia). rewrite <- Qpower_plus by exact two_nz. replace (p - 1 + E) with (Zdigits2 mx - 1 + ex) by lia.
    rewrite Qpower_plus by exact two_nz. rewrite <- (pow2_int (Zdigits2 mx - 1)) by lia.
    apply Qmult_le_compat_r; [|apply Qlt_le_weak, pow2_pos]. rewrite <- Zle_Qle. exact Big. }
  rewrite Hw. rewrite (packed_val t _ _ _ _ Pk Fi). rewrite sgn_abs.
  (* the competitor, with the sign moved *)
  assert (Ey : (fq y == sgn s (sgn s (fq y)))%Q) by (destruct s; cbn [sgn]; ring). rewrite Ey. rewrite sgn_abs.
  change (dyq q E) with (inject_Z q * Qpower 2 E)%Q in *.
  pose proof (fun n => multiple q n (Qpower 2 E) v PE N1 N2) as Mult.
  assert (Neg : (sgn s (fq y) <= 0)%Q -> (Qabs (inject_Z q * Qpower 2 E - v) <= Qabs (sgn s (fq y) - v))%Q).
  { intros H. eapply Qle_trans; [apply (Mult 0)|]. change (inject_Z 0) with 0%Q. rewrite Qmult_0_l.
    assert (Zv : (0 - v == - v)%Q) by ring. rewrite Zv, Qabs_opp, (Qabs_pos v) by exact V0.
    eapply Qle_trans; [|rewrite <- Qabs_opp; apply Qle_Qabs]. lra. }
  destruct y as [sy| | |sy my ey]; try discriminate.
  - apply Neg. cbn [fq]. destruct s; cbn [sgn]; lra.
  - apply valid_canon in Vy. pose proof (canon_emin t _ _ Vy) as Emin. cbn [fq] in *. rewrite dyq_cond in *.
    set (b := xorb s sy). assert (Eb : (sgn s (sgn sy (dyq (Zpos my) ey)) == sgn b (dyq (Zpos my) ey))%Q) by (unfold b; destruct s, sy; cbn [sgn xorb]; ring).
    rewrite Eb in *. destruct b; cbn [sgn] in *.
    + apply Neg. pose proof (dyq_pos_nonneg my ey). lra.
    + destruct (Z.le_gt_cases E ey) as [Le|Gt].
      * assert (Sc : (dyq (Zpos my) ey == inject_Z (Zpos my * 2 ^ (ey - E)) * Qpower 2 E)%Q).
        { change (inject_Z (Zpos my * 2 ^ (ey - E)) * Qpower 2 E)%Q with (dyq (Zpos my * 2 ^ (ey - E)) E). rewrite dyq_shift by lia.
          replace (E + (ey - E)) with ey by lia. reflexivity. }
        rewrite Sc. apply Mult.
      * specialize (Low ltac:(lia)). eapply Qle_trans; [apply (Mult (2 ^ (p - 1)))|].
        assert (Up : (dyq (Zpos my) ey <= inject_Z (2 ^ (p - 1)) * Qpower 2 E)%Q).
        { destruct (canon_digits t _ _ Vy) as [Dg|[_ Dg]];
          (rewrite pow2_int by (unfold good in G; lia); rewrite <- Qpower_plus by exact two_nz;
           eapply Qle_trans; [|apply (pow2_le (p + ey)); lia]; rewrite Qpower_plus by exact two_nz; unfold dyq;
           apply Qmult_le_compat_r; [|apply Qlt_le_weak, pow2_pos]; rewrite <- pow2_int by (unfold good in G; lia); rewrite <- Zle_Qle;
           destruct (digits2_spec my) as [_ U]; apply Z.lt_le_incl; eapply Z.lt_le_trans; [exact U|]; apply Z.pow_le_mono_r; lia). }
        rewrite <- (Qabs_opp (dyq _ _ - v)). rewrite <- (Qabs_opp (_ * _ - v)). rewrite !Qabs_pos by lra. lra.
Qed.
Lemma round_nearest s m e w : (w == sgn s (dyq (Zpos m) e))%Q -> nearest w (binary_round p em s m e).
Proof.
  intros W. unfold binary_round. set (E := fexp (Zpos (digits2_pos m) + e)).
  destruct (Z.le_gt_cases E e) as [Le|Gt].
  - destruct (shl_align_le m e E Le) as [A B].
    assert (B' : snd (shl_align m e E) = E) by (destruct (Z.eq_dec E e) as [->|]; [unfold shl_align; rewrite Z.sub_diag; reflexivity|apply B; lia]).
    destruct (shl_align m e E) as [m' e'] eqn:S. cbn [fst snd] in A, B'. subst e'.
    assert (Dg : Zpos (digits2_pos m') + E = Zpos (digits2_pos m) + e).
    { rewrite (digits2_shift m m' (e - E)) by (lia || exact (eq_sym A)). lia. }
    assert (Fe : fexp (Zdigits2 (Zpos m') + E) = E) by (cbn [Zdigits2]; rewrite Dg; reflexivity).
    apply (round_aux_nearest s (Zpos m') E loc_Exact 1 0 (dyq (Zpos m') E)); try lia.
    + split; [lia|reflexivity].
    + rewrite Z.mul_1_r, Z.add_0_r. change (inject_Z 1) with 1%Q. ring.
    + rewrite W, A, dyq_shift by lia. replace (E + (e - E)) with e by lia. reflexivity.
  - assert (S : shl_align m e E = (m, e)) by (unfold shl_align; destruct (E - e) eqn:X; [reflexivity|reflexivity|lia]).
    rewrite S. apply (round_aux_nearest s (Zpos m) e loc_Exact 1 0 (dyq (Zpos m) e)); try lia.
    + split; [lia|reflexivity].
    + cbn [Zdigits2]. fold E. lia.
    + rewrite Z.mul_1_r, Z.add_0_r. change (inject_Z 1) with 1%Q. ring.
    + exact W.
Qed.
Lemma normalize_nearest m e b w : (w == dyq m e)%Q -> nearest w (binary_normalize p em m e b).
Proof.
  intros W. destruct m as [|m|m]; cbn [binary_normalize].
  - apply nearest_exact. rewrite W. unfold dyq. cbn [fq]. ring.
  - apply round_nearest. exact W.
  - apply round_nearest. rewrite W. unfold dyq, sgn. change (Zneg m) with (- Zpos m). rewrite inject_Z_opp. ring.
Qed.
Theorem add_nearest x y : finite x = true -> finite y = true -> nearest (fq x + fq y) (SFadd p em x y).
Proof.
  intros Fx Fy. destruct x as [sx| | |sx mx ex], y as [sy| | |sy my ey]; try discriminate; cbn [SFadd].
  - apply nearest_exact. destruct (Bool.eqb sx sy); cbn [fq]; ring.
  - apply nearest_exact. cbn [fq]. ring.
  - apply nearest_exact. cbn [fq]. ring.
  - pose proof (fq_align sx mx ex (Z.min ex ey) ltac:(lia)) as A. pose proof (fq_align sy my ey (Z.min ex ey) ltac:(lia)) as B.
    apply normalize_nearest. rewrite A, B. unfold dyq. rewrite inject_Z_plus. ring.
Qed.
Theorem sub_nearest x y : finite x = true -> finite y = true -> nearest (fq x - fq y) (SFsub p em x y).
Proof.
  intros Fx Fy. destruct x as [sx| | |sx mx ex], y as [sy| | |sy my ey]; try discriminate; cbn [SFsub].
  - apply nearest_exact. destruct (Bool.eqb sx (negb sy)); cbn [fq]; ring.
  - apply nearest_exact. pose proof (fq_opp (S754_finite sy my ey)) as H. cbn [SFopp] in H. rewrite H. cbn [fq]. ring.
  - apply nearest_exact. cbn [fq]. ring.
  - pose proof (fq_align sx mx ex (Z.min ex ey) ltac:(lia)) as A. pose proof (fq_align sy my ey (Z.min ex ey) ltac:(lia)) as B.
    apply normalize_nearest. rewrite A, B. unfold dyq, Z.sub. rewrite inject_Z_plus, inject_Z_opp. ring.
Qed.
Theorem mul_nearest x y : valid t x -> valid t y -> finite x = true -> finite y = true -> nearest (fq x * fq y) (SFmul p em x y).
Proof.
  intros Vx Vy Fx Fy.
  destruct x as [sx| | |sx mx ex], y as [sy| | |sy my ey]; try discriminate; cbn [SFmul];
    try (apply nearest_exact; cbn [fq]; ring).
  apply (round_aux_nearest _ _ _ _ 1 0 (dyq (Zpos (mx * my)) (ex + ey))); try lia.
  - split; [lia|reflexivity].
  - cbn [Zdigits2]. apply valid_canon in Vx, Vy. pose proof (digits2_mul mx my). pose proof (emin_neg t G). unfold SpecFloat.fexp, emin.
    pose proof (canon_digits t _ _ Vx). pose proof (canon_digits t _ _ Vy). lia.
  - rewrite Z.mul_1_r, Z.add_0_r. change (inject_Z 1) with 1%Q. ring.
  - cbn [fq]. rewrite !dyq_cond. unfold dyq, sgn. rewrite Pos2Z.inj_mul, inject_Z_mult. destruct sx, sy; cbn [xorb]; rewrite Qpower_plus by exact two_nz; ring.
Qed.
Theorem div_nearest x y : finite x = true -> finite y = true -> ~ (fq y == 0)%Q -> nearest (fq x / fq y) (SFdiv p em x y).
Proof.
  intros Fx Fy Ny.
  destruct y as [sy| | |sy my ey]; try discriminate; [contradiction Ny; reflexivity|].
  destruct x as [sx| | |sx mx ex]; try discriminate; cbn [SFdiv].
  - apply nearest_exact. cbn [fq] in *. field. exact Ny.
  - unfold SFdiv_core_binary. cbn [Zdigits2].
    set (e' := Z.min (fexp (Zpos (digits2_pos mx) + ex - (Zpos (digits2_pos my) + ey))) (ex - ey)).
    assert (L2 : e' <= ex - ey) by apply Z.le_min_r.
    assert (L1 : e' <= fexp (Zpos (digits2_pos mx) + ex - (Zpos (digits2_pos my) + ey))) by apply Z.le_min_l.
    replace (match ex - ey - e' with Zpos _ => Z.shiftl (Zpos mx) (ex - ey - e') | Z0 => Zpos mx | Zneg _ => 0 end) with (Zpos mx * 2 ^ (ex - ey - e')).
    2: { destruct (ex - ey - e') as [|d|d] eqn:S; [cbn; lia|symmetry; apply Z.shiftl_mul_pow2; lia|lia]. }
    set (m' := Zpos mx * 2 ^ (ex - ey - e')).
    pose proof (Z.div_mod m' (Zpos my) ltac:(lia)) as DM. pose proof (Z.mod_pos_bound m' (Zpos my) ltac:(lia)) as MB.
    unfold Z.div, Z.modulo in DM, MB. destruct (Z.div_eucl m' (Zpos my)) as [q r] eqn:QR.
    assert (M0 : 0 < m') by (apply Z.mul_pos_pos; [lia|apply Z.pow_pos_nonneg; lia]).
    assert (Q0 : 0 <= q) by nia.
    apply (round_aux_nearest _ _ _ _ (Zpos my) r (dyq (Zpos mx) ex / dyq (Zpos my) ey)).
    + exact Q0.
    + apply new_location_ok. exact MB.
    + eapply Z.le_trans; [exact L1|]. apply fexp_mono.
      assert (Dm : Zpos (digits2_pos mx) + (ex - ey - e') - Zpos (digits2_pos my) <= Zdigits2 q); [|lia].
      destruct (digits2_spec mx) as [A _]. destruct (digits2_spec my) as [_ B].
      assert (U : m' < 2 ^ (Zpos (digits2_pos my) + Zdigits2 q)).
      { rewrite Z.pow_add_r by (destruct q; cbn [Zdigits2]; lia).
        assert (Uq : q + 1 <= 2 ^ Zdigits2 q) by (destruct q as [|q|q]; cbn [Zdigits2]; [cbn; lia|pose proof (digits2_spec q); lia|lia]).
        assert (m' < Zpos my * (q + 1)) by lia. eapply Z.lt_le_trans; [exact H|]. apply Z.mul_le_mono_nonneg; lia. }
      assert (Lm : 2 ^ (Zpos (digits2_pos mx) - 1 + (ex - ey - e')) <= m').
      { rewrite Z.pow_add_r by lia. apply Z.mul_le_mono_nonneg_r; [apply Z.pow_nonneg; lia|exact A]. }
      assert (Zpos (digits2_pos mx) - 1 + (ex - ey - e') < Zpos (digits2_pos my) + Zdigits2 q); [|lia].
      apply (Z.pow_lt_mono_r_iff 2); [lia|destruct q; cbn [Zdigits2]; lia|lia].
    + replace (q * Zpos my + r) with m' by lia. unfold m'. rewrite dyq_shift by lia. replace (e' + (ex - ey - e')) with (ex + - ey) by lia.
      unfold dyq. rewrite Qpower_plus by exact two_nz. rewrite Qpower_opp. field. split; [apply Qpower_pos_nz|discriminate].
    + cbn [fq] in *. rewrite !dyq_cond in *. assert (Nz : ~ (dyq (Zpos my) ey == 0)%Q).
      { intros H. apply Ny. rewrite H. destruct sy; reflexivity. }
      unfold sgn. destruct sx, sy; cbn [xorb]; field; try exact Nz; try (split; [exact Nz|]); intros H; apply Nz; lra.
Qed.
End Nearest.
