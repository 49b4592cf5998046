(** * Rounding: what float operations return when the mathematical result is not representable. *)
From Verif Require Import Base FieldIface FloatModel FloatExact.
From Coq Require Import QArith Qabs Qpower Qcanon Lqa Lia.
Local Open Scope Z_scope.

(** ** Shifting right with a sticky remainder *)
(** the two bits say how a remainder [rho] out of [W] compares with zero and one half *)
Definition bits_ok (W rho : Z) (r s : bool) : Prop :=
  0 <= rho < W /\ (r = true <-> W <= 2 * rho) /\ (s = true <-> rho <> 0 /\ 2 * rho <> W).
Lemma shr_1_ok m W rho r s : 0 <= m -> bits_ok W rho r s ->
  exists r' s', shr_1 (Build_shr_record m r s) = Build_shr_record (m / 2) r' s' /\
    bits_ok (2 * W) ((m mod 2) * W + rho) r' s'.
Proof.
  intros M (B & Hr & Hs).
  assert (Or : r || s = true <-> rho <> 0).
  { rewrite orb_true_iff, Hr, Hs. lia. }
  assert (Z2 : 0 <= m mod 2 < 2) by (apply Z.mod_pos_bound; lia).
  assert (G : forall b : bool, (b = true <-> m mod 2 = 1) -> bits_ok (2 * W) ((m mod 2) * W + rho) b (r || s)).
  { intros b Hb. assert (C : m mod 2 = 0 \/ m mod 2 = 1) by lia. split; [destruct C as [C|C]; rewrite C; lia|]. split.
    - rewrite Hb. destruct C as [C|C]; rewrite C; split; lia.
    - rewrite Or. destruct C as [C|C]; rewrite C; lia. }
  destruct m as [|p|p]; [| |lia].
  - exists false, (r || s). split; [reflexivity|]. apply G. split; [discriminate|cbn; lia].
  - destruct p as [p|p|].
    + exists true, (r || s). split; [|apply G; split; [intros _|auto]].
      * cbn [shr_1]. f_equal. apply (Z.div_unique _ _ (Zpos p) 1); lia.
      * symmetry. apply (Z.mod_unique _ _ (Zpos p) 1); lia.
    + exists false, (r || s). split; [|apply G; split; [discriminate|]].
      * cbn [shr_1]. f_equal. apply (Z.div_unique _ _ (Zpos p) 0); lia.
      * rewrite <- (Z.mod_unique (Zpos p~0) 2 (Zpos p) 0) by lia. lia.
    + exists true, (r || s). split; [reflexivity|]. apply G. split; [intros _; reflexivity|auto].
Qed.
Lemma shr_ok m W rho r s e n : 0 <= m -> bits_ok W rho r s -> 0 <= n ->
  exists r' s', shr (Build_shr_record m r s) e n = (Build_shr_record (m / 2 ^ n) r' s', e + n) /\
    bits_ok (W * 2 ^ n) ((m mod 2 ^ n) * W + rho) r' s'.
Proof.
  intros M B N. destruct n as [|n|n]; [| |lia]; cbn [shr].
  - exists r, s. change (2 ^ 0) with 1. rewrite Z.div_1_r, Z.add_0_r, Z.mod_1_r, Z.mul_1_r. auto.
  - rewrite iter_pos_iter.
    assert (H : exists r' s', Pos.iter shr_1 (Build_shr_record m r s) n = Build_shr_record (m / 2 ^ Zpos n) r' s' /\
      bits_ok (W * 2 ^ Zpos n) ((m mod 2 ^ Zpos n) * W + rho) r' s').
    { induction n as [|n IH] using Pos.peano_ind.
      - cbn [Pos.iter]. change (2 ^ 1) with 2. rewrite (Z.mul_comm W). apply shr_1_ok; assumption.
      - destruct (IH ltac:(lia)) as (r1 & s1 & E & B1). rewrite Pos.iter_succ, E.
        destruct (shr_1_ok (m / 2 ^ Zpos n) _ _ r1 s1 ltac:(apply Z.div_pos; [lia|apply Z.pow_pos_nonneg; lia]) B1) as (r' & s' & E' & B').
        exists r', s'. rewrite E'. rewrite Pos2Z.inj_succ, Z.pow_succ_r by lia.
        assert (P : 0 < 2 ^ Zpos n) by (apply Z.pow_pos_nonneg; lia).
        rewrite Z.div_div by lia. rewrite (Z.mul_comm 2 (2 ^ Zpos n)). split; [reflexivity|].
        rewrite Z.rem_mul_r by lia. replace (W * (2 ^ Zpos n * 2)) with (2 * (W * 2 ^ Zpos n)) by ring.
        replace ((m mod 2 ^ Zpos n + 2 ^ Zpos n * ((m / 2 ^ Zpos n) mod 2)) * W + rho)
          with ((m / 2 ^ Zpos n) mod 2 * (W * 2 ^ Zpos n) + (m mod 2 ^ Zpos n * W + rho)) by ring. exact B'. }
    destruct H as (r' & s' & -> & B'). eauto.
Qed.
(** where a remainder [R] out of [D] lies *)
Definition loc_ok (D R : Z) (l : location) : Prop :=
  0 <= R < D /\ match l with loc_Exact => R = 0 | loc_Inexact c => R <> 0 /\ (2 * R ?= D) = c end.
Lemma loc_bits D R l m : loc_ok D R l -> exists r s, shr_record_of_loc m l = Build_shr_record m r s /\ bits_ok D R r s.
Proof.
  intros (B & H). destruct l as [|c]; cbn [shr_record_of_loc].
  - subst R. exists false, false. split; [reflexivity|]. split; [exact B|]. split; split; try discriminate; intros; lia.
  - destruct H as [N C]. destruct c; eexists _, _; (split; [reflexivity|]; split; [exact B|]).
    + apply Z.compare_eq_iff in C. split; split; intros; try discriminate; first [reflexivity|exfalso; lia|lia].
    + change (2 * R < D) in C. split; split; intros; try discriminate; first [reflexivity|exfalso; lia|lia].
    + apply Z.compare_gt_iff in C. split; split; intros; try discriminate; first [reflexivity|exfalso; lia|lia].
Qed.
Lemma round_near m W rho r s : 0 <= m -> bits_ok W rho r s ->
  let q := round_nearest_even m (loc_of_shr_record (Build_shr_record m r s)) in
  (q = m \/ q = m + 1) /\ Z.abs (2 * (q * W - (m * W + rho))) <= W /\ (rho = 0 -> q = m).
Proof.
  intros M (B & Hr & Hs).
  assert (Cr : W <= 2 * rho \/ 2 * rho < W) by lia. assert (Cs : (rho <> 0 /\ 2 * rho <> W) \/ rho = 0 \/ 2 * rho = W) by lia.
  destruct r, s; cbn [loc_of_shr_record round_nearest_even].
  - destruct Hr as [Hr _]. destruct Hs as [Hs _]. specialize (Hr eq_refl). specialize (Hs eq_refl). lia.
  - destruct Hr as [Hr _]. specialize (Hr eq_refl). assert (2 * rho = W) by (destruct Cs as [C|C]; [apply Hs in C; discriminate|lia]).
    destruct (Z.even m); lia.
  - destruct Hs as [Hs _]. specialize (Hs eq_refl). assert (2 * rho < W) by (destruct Cr as [C|C]; [apply Hr in C; discriminate|lia]). lia.
  - assert (2 * rho < W) by (destruct Cr as [C|C]; [apply Hr in C; discriminate|lia]).
    assert (rho = 0) by (destruct Cs as [C|C]; [apply Hs in C; discriminate|lia]). lia.
Qed.

Section Round.
Context (t : fmt) (G : good t).
Notation p := (prec t).
Notation em := (emax t).
Notation fexp := (fexp p em).
Notation fcanon := (fcanon t).

(** [z] is the float with sign [s] for the integer [q] at exponent [E]: zero, finite, or infinite when [q * 2^E] is at least [2^emax] *)
Definition packed (s : bool) (q E : Z) (z : float) : Prop :=
  (q = 0 /\ z = S754_zero s) \/
  (exists mz ez, z = S754_finite s mz ez /\ fcanon mz ez /\ E <= ez /\ q = Zpos mz * 2 ^ (ez - E)) \/
  (z = S754_infinity s /\ 2 ^ p <= q * 2 ^ (E - (em - p)) /\ em - p <= E).

Lemma Zdigits_div m n : 0 < m -> 0 <= n -> n < Zdigits2 m -> 2 ^ (Zdigits2 m - n - 1) <= m / 2 ^ n < 2 ^ (Zdigits2 m - n).
Proof.
  intros M N L. destruct m as [|m|m]; try lia. cbn [Zdigits2] in *. pose proof (digits2_spec m) as [A B].
  assert (P : 0 < 2 ^ n) by (apply Z.pow_pos_nonneg; lia). split.
  - apply Z.div_le_lower_bound; [lia|]. rewrite <- Z.pow_add_r by lia. replace (n + (Zpos (digits2_pos m) - n - 1)) with (Zpos (digits2_pos m) - 1) by lia. exact A.
  - apply Z.div_lt_upper_bound; [lia|]. rewrite <- Z.pow_add_r by lia. replace (n + (Zpos (digits2_pos m) - n)) with (Zpos (digits2_pos m)) by lia. exact B.
Qed.
Theorem round_aux_spec s mx ex lx D R : 0 <= mx -> loc_ok D R lx -> ex <= fexp (Zdigits2 mx + ex) ->
  let E := fexp (Zdigits2 mx + ex) in
  exists q, 0 <= q /\ Z.abs (2 * (q * (D * 2 ^ (E - ex)) - (mx * D + R))) <= D * 2 ^ (E - ex) /\
    (R = 0 -> E = ex -> q = mx) /\
    (q = 0 -> E = 3 - em - p) /\
    (3 - em - p < E -> 2 ^ (p - 1) <= q) /\
    packed s q E (binary_round_aux p em s mx ex lx).
Proof.
  intros M L LE. cbv zeta. set (E := fexp (Zdigits2 mx + ex)) in *.
  unfold binary_round_aux, shr_fexp. fold E.
  destruct (loc_bits D R lx mx L) as (r & b & -> & B).
  assert (N : 0 <= E - ex) by lia.
  destruct (shr_ok mx D R r b ex (E - ex) M B N) as (r' & b' & -> & B').
  replace (ex + (E - ex)) with E by lia. set (n := E - ex) in *. cbn [shr_m].
  assert (P : 0 < 2 ^ n) by (apply Z.pow_pos_nonneg; lia).
  set (m1 := mx / 2 ^ n) in *. assert (M1 : 0 <= m1) by (apply Z.div_pos; lia).
  destruct (round_near m1 _ _ r' b' M1 B') as (Q & Near & Q0).
  set (q := round_nearest_even m1 _) in *.
  assert (Val : m1 * (D * 2 ^ n) + (mx mod 2 ^ n * D + R) = mx * D + R).
  { pose proof (Z.div_mod mx (2 ^ n) ltac:(lia)) as DM. fold m1 in DM. rewrite DM at 2. ring. }
  rewrite Val in Near.
  (* the size of q *)
  assert (Ed : E = Z.max (Zdigits2 mx + ex - p) (3 - em - p)) by reflexivity.
  assert (Pp : 1 < p) by (unfold good in G; lia).
  assert (Up : m1 < 2 ^ p).
  { destruct (Z.eq_dec mx 0) as [Z0|NZ]; [unfold m1; rewrite Z0, Z.div_0_l by lia; apply Z.pow_pos_nonneg; lia|].
    destruct (Z.lt_ge_cases n (Zdigits2 mx)) as [A|A].
    - pose proof (Zdigits_div mx n ltac:(lia) N A) as [_ U]. fold m1 in U. eapply Z.lt_le_trans; [exact U|]. apply Z.pow_le_mono_r; lia.
    - assert (m1 = 0); [|rewrite H; apply Z.pow_pos_nonneg; lia]. apply Z.div_small. split; [lia|].
      destruct mx as [|d|d]; try lia. cbn [Zdigits2] in *. pose proof (digits2_spec d) as [_ U]. eapply Z.lt_le_trans; [exact U|].
      apply Z.pow_le_mono_r; lia. }
  assert (Low : 3 - em - p < E -> 2 ^ (p - 1) <= m1).
  { intros H. destruct (Z.eq_dec mx 0) as [Z0|NZ].
    - exfalso. rewrite Z0 in Ed. cbn [Zdigits2] in Ed. lia.
    - assert (A : n < Zdigits2 mx) by lia. pose proof (Zdigits_div mx n ltac:(lia) N A) as [U _]. fold m1 in U.
      replace (Zdigits2 mx - n - 1) with (p - 1) in U by lia. exact U. }
  assert (P1 : 0 < 2 ^ (p - 1)) by (apply Z.pow_pos_nonneg; lia).
  assert (P2 : 2 ^ p = 2 * 2 ^ (p - 1)) by (rewrite <- Z.pow_succ_r by lia; f_equal; lia).
  assert (Em : 3 - em - p <= E) by lia.
  exists q. split; [lia|]. split; [exact Near|]. split.
  { intros R0 En. assert (n0 : n = 0) by (unfold n; lia). rewrite Q0.
    - unfold m1. rewrite n0. apply Z.div_1_r.
    - rewrite n0. change (2 ^ 0) with 1. rewrite Z.mod_1_r. lia. }
  split; [intros q0; destruct (Z.lt_ge_cases (3 - em - p) E) as [H|H]; [specialize (Low H); lia|lia]|].
  split; [intros H; specialize (Low H); lia|].
  (* the second shift *)
  assert (Q2 : q <= 2 ^ p) by lia. assert (Qn : 0 <= q) by lia.
  assert (Low' : 3 - em - p < E -> 2 ^ (p - 1) <= q) by (intros H; specialize (Low H); lia). clear Low. rename Low' into Low. clearbody q. clear Near Val Q Q0.
  destruct q as [|q|q]; [|clear Qn|lia].
  - left. split; [reflexivity|]. cbn [Zdigits2 Z.add]. assert (F0 : E = 3 - em - p).
    { destruct (Z.lt_ge_cases (3 - em - p) E) as [H|H]; [|lia]. specialize (Low H). lia. }
    assert (K : fexp E - E = 0) by (unfold SpecFloat.fexp, emin; lia). rewrite K. reflexivity.
  - right. cbn [Zdigits2 shr_record_of_loc]. pose proof (digits2_spec q) as [Dl Du].
    destruct (Z.eq_dec (Zpos q) (2 ^ p)) as [QE|QN].
    + assert (Dq : Zpos (digits2_pos q) = p + 1).
      { apply digits2_unique; [lia|]. rewrite QE. replace (p + 1 - 1) with p by lia. split; [lia|]. apply Z.pow_lt_mono_r; lia. }
      assert (Fe : fexp (Zpos (digits2_pos q) + E) - E = 1) by (rewrite Dq; unfold SpecFloat.fexp, emin; lia). rewrite Fe.
      rewrite QE, P2, (Z.mul_comm 2). replace (2 ^ (p - 1) * 2) with (2 ^ (p - 1) * 2 ^ 1) by reflexivity.
      rewrite shr_exact by lia. cbn [shr_m]. destruct (2 ^ (p - 1)) as [|mz|mz] eqn:MZ; try lia.
      assert (Dz : Zpos (digits2_pos mz) = p).
      { apply digits2_unique; [lia|]. rewrite <- MZ. split; [lia|]. apply Z.pow_lt_mono_r; lia. }
      destruct (Z.leb_spec (E + 1) (em - p)) as [Le|Gt].
      * left. exists mz, (E + 1). split; [reflexivity|]. split; [|split; [lia|]].
        -- split; [rewrite Dz; unfold SpecFloat.fexp, emin; lia|exact Le].
        -- replace (E + 1 - E) with 1 by lia. reflexivity.
      * right. split; [reflexivity|]. split; [|lia]. assert (0 < 2 ^ (E - (em - p))) by (apply Z.pow_pos_nonneg; lia). nia.
    + assert (Dq : Zpos (digits2_pos q) <= p).
      { apply Z.lt_succ_r. apply (Z.pow_lt_mono_r_iff 2); [lia|lia|]. rewrite Z.pow_succ_r by lia.
        replace (2 ^ Zpos (digits2_pos q)) with (2 * 2 ^ (Zpos (digits2_pos q) - 1)) by (rewrite <- Z.pow_succ_r by lia; f_equal; lia). lia. }
      assert (Fe : fexp (Zpos (digits2_pos q) + E) = E).
      { destruct (Z.lt_ge_cases (3 - em - p) E) as [H|H]; [|unfold SpecFloat.fexp, emin; lia].
        specialize (Low H). assert (p <= Zpos (digits2_pos q)); [|unfold SpecFloat.fexp, emin; lia].
        assert (p - 1 < Zpos (digits2_pos q)); [|lia]. apply (Z.pow_lt_mono_r_iff 2); [lia|lia|].
        lia. }
      rewrite Fe, Z.sub_diag. cbn [shr shr_m].
      destruct (Z.leb_spec E (em - p)) as [Le|Gt].
      * left. exists q, E. split; [reflexivity|]. split; [split; [exact Fe|exact Le]|]. split; [lia|]. rewrite Z.sub_diag. cbn. lia.
      * right. split; [reflexivity|]. split; [|lia]. specialize (Low ltac:(unfold good in G; lia)).
        assert (2 ^ 1 <= 2 ^ (E - (em - p))) by (apply Z.pow_le_mono_r; lia). change (2 ^ 1) with 2 in *. 
        assert (2 ^ (p - 1) <= Zpos q) by lia. nia.
Qed.

(** ** Error bounds *)
(** the number a finite float stands for, as a rational *)
Definition fq (x : float) : Q := match x with S754_finite s m e => dyq (cond_Zopp s (Zpos m)) e | _ => 0%Q end.
Lemma fq_fval x : (this (fval x) == fq x)%Q.
Proof. destruct x; try reflexivity. cbn [fval fq]. unfold dy. cbn [this Q2Qc]. apply Qred_correct. Qed.
(** half a unit in the last place relative to the number, and half the smallest positive float *)
Definition uu : Q := Qpower 2 (- p).
Definition eta : Q := Qpower 2 (3 - em - p - 1).
Definition sgn (s : bool) (v : Q) : Q := if s then (- v)%Q else v.
Global Instance sgn_wd s : Proper (Qeq ==> Qeq) (sgn s).
Proof. intros a b H. destruct s; cbn [sgn]; rewrite H; reflexivity. Qed.
Definition infinite (z : float) : Prop := exists s, z = S754_infinity s.

Lemma pow2_pos k : (0 < Qpower 2 k)%Q.
Proof. apply Qpower_0_lt. reflexivity. Qed.
Lemma pow2_le a b : a <= b -> (Qpower 2 a <= Qpower 2 b)%Q.
Proof.
  intros H. replace b with (a + (b - a)) by lia. rewrite Qpower_plus by exact two_nz.
  rewrite <- (Zpower_Qpower 2 (b - a)) by lia.
  assert (1 <= 2 ^ (b - a)) by (apply (Z.pow_le_mono_r 2 0); lia).
  assert (Hq : (1 <= inject_Z (2 ^ (b - a)))%Q) by (change 1%Q with (inject_Z 1); rewrite <- Zle_Qle; exact H0).
  pose proof (pow2_pos a). nra.
Qed.
Lemma pow2_int k : 0 <= k -> (inject_Z (2 ^ k) == Qpower 2 k)%Q.
Proof. apply Zpower_Qpower. Qed.
Lemma packed_valid s q E z : packed s q E z -> valid t z.
Proof.
  intros [(_ & ->)|[(mz & ez & -> & C & _)|(-> & _)]]; try reflexivity.
  unfold valid, valid_binary. apply bounded_fcanon. exact C.
Qed.
Lemma packed_val s q E z : packed s q E z -> finite z = true -> (fq z == sgn s (dyq q E))%Q.
Proof.
  intros [(-> & ->)|[(mz & ez & -> & C & L & ->)|(-> & _)]] Fi; try discriminate.
  - cbn [fq]. unfold sgn, dyq. destruct s; ring.
  - cbn [fq]. rewrite dyq_shift by lia. replace (E + (ez - E)) with ez by lia. unfold sgn, dyq, cond_Zopp.
    destruct s; [rewrite inject_Z_opp; ring|reflexivity].
Qed.
Lemma packed_not_nan s q E z : packed s q E z -> z <> S754_nan.
Proof. intros [(_ & ->)|[(mz & ez & -> & _)|(-> & _)]]; discriminate. Qed.
Lemma packed_inf s q E z : packed s q E z -> finite z = false -> z = S754_infinity s /\ 2 ^ p <= q * 2 ^ (E - (em - p)) /\ em - p <= E.
Proof. intros [(_ & ->)|[(mz & ez & -> & _)|H]] Fi; try discriminate; exact H. Qed.

(** a nonnegative number [v] rounded to [z] with sign [s], with error at most [d] *)
Definition rounded (s : bool) (v d : Q) (z : float) : Prop :=
  valid t z /\ z <> S754_nan /\
  (finite z = true -> (Qabs (fq z - sgn s v) <= d)%Q) /\
  (finite z = false -> z = S754_infinity s /\ (Qpower 2 em * (1 - uu) <= v)%Q).
Lemma Qabs_bound a b : (- b <= a)%Q -> (a <= b)%Q -> (Qabs a <= b)%Q.
Proof. intros. apply Qabs_Qle_condition. split; assumption. Qed.
Lemma sgn_abs s a b : (Qabs (sgn s a - sgn s b) == Qabs (a - b))%Q.
Proof.
  unfold sgn. destruct s; [|reflexivity]. rewrite <- (Qabs_opp (a - b)). apply Qabs_wd. ring.
Qed.
Lemma round_aux_rounded s mx ex lx D R v : 0 <= mx -> loc_ok D R lx -> ex <= fexp (Zdigits2 mx + ex) ->
  (v * inject_Z D == dyq (mx * D + R) ex)%Q ->
  let E := fexp (Zdigits2 mx + ex) in
  exists d, rounded s v d (binary_round_aux p em s mx ex lx) /\
    (R = 0 -> E = ex -> (d == 0)%Q) /\ (3 - em - p < E -> (d <= uu * v)%Q) /\ (E = 3 - em - p -> (d <= eta)%Q).
Proof.
  intros M L LE Hv. cbv zeta. set (E := fexp (Zdigits2 mx + ex)) in *.
  destruct (round_aux_spec s mx ex lx D R M L LE) as (q & Q0 & Near & Ex & _ & Lo & Pk). fold E in Near, Ex, Lo, Pk.
  assert (D0 : 0 < D) by (destruct L; lia). assert (R0 : 0 <= R) by (destruct L; lia).
  assert (DQ : (0 < inject_Z D)%Q) by (change 0%Q with (inject_Z 0); rewrite <- Zlt_Qlt; exact D0).
  (* the distance between q * 2^E and v *)
  assert (Near' : (- (1 # 2) * Qpower 2 E <= dyq q E - v)%Q /\ (dyq q E - v <= (1 # 2) * Qpower 2 E)%Q).
  { assert (Sc : (dyq q E * inject_Z D == dyq (q * (D * 2 ^ (E - ex))) ex)%Q).
    { rewrite Z.mul_assoc, dyq_shift by lia. replace (ex + (E - ex)) with E by lia. unfold dyq. rewrite inject_Z_mult. ring. }
    assert (Pw : (Qpower 2 E * inject_Z D == dyq (D * 2 ^ (E - ex)) ex)%Q).
    { rewrite dyq_shift by lia. replace (ex + (E - ex)) with E by lia. unfold dyq. ring. }
    assert (I1 : (- dyq (D * 2 ^ (E - ex)) ex <= 2 * (dyq (q * (D * 2 ^ (E - ex))) ex - dyq (mx * D + R) ex))%Q).
    { unfold dyq. pose proof (pow2_pos ex) as Pe. set (a := D * 2 ^ (E - ex)) in *. set (b := q * a) in *. set (c := mx * D + R) in *.
      assert (I : (inject_Z (- a) <= inject_Z (2 * (b - c)))%Q) by (rewrite <- Zle_Qle; lia).
      rewrite inject_Z_mult, inject_Z_opp in I. unfold Z.sub in I. rewrite inject_Z_plus, inject_Z_opp in I. change (inject_Z 2) with 2%Q in I.
      clear - Pe I. clearbody a b c. set (x := Qpower 2 ex) in *. clearbody x. nra. }
    assert (I2 : (2 * (dyq (q * (D * 2 ^ (E - ex))) ex - dyq (mx * D + R) ex) <= dyq (D * 2 ^ (E - ex)) ex)%Q).
    { unfold dyq. pose proof (pow2_pos ex) as Pe. set (a := D * 2 ^ (E - ex)) in *. set (b := q * a) in *. set (c := mx * D + R) in *.
      assert (I : (inject_Z (2 * (b - c)) <= inject_Z a)%Q) by (rewrite <- Zle_Qle; lia).
      rewrite inject_Z_mult in I. unfold Z.sub in I. rewrite inject_Z_plus, inject_Z_opp in I. change (inject_Z 2) with 2%Q in I.
      clear - Pe I. clearbody a b c. set (x := Qpower 2 ex) in *. clearbody x. nra. }
    rewrite <- Sc, <- Hv, <- Pw in I1, I2. split; apply (Qmult_le_r _ _ (inject_Z D) DQ); lra. }
  destruct Near' as [N1 N2]. pose proof (pow2_pos E) as PE.
  assert (Half : (Qpower 2 (E - 1) == (1 # 2) * Qpower 2 E)%Q).
  { unfold Z.sub. rewrite Qpower_plus by exact two_nz. change (Qpower 2 (-(1))) with (1 # 2)%Q. ring. }
  assert (Vlow : (dyq mx ex <= v)%Q).
  { apply (Qmult_le_r _ _ (inject_Z D) DQ). rewrite Hv. unfold dyq. rewrite inject_Z_plus, inject_Z_mult.
    assert (0 <= inject_Z R)%Q by (change 0%Q with (inject_Z 0); rewrite <- Zle_Qle; exact R0). pose proof (pow2_pos ex).
    set (x := Qpower 2 ex) in *. clearbody x. nra. }
  assert (Rel : 3 - em - p < E -> ((1 # 2) * Qpower 2 E <= uu * v)%Q).
  { intros H. rewrite <- Half. assert (Ed : E = Z.max (Zdigits2 mx + ex - p) (3 - em - p)) by reflexivity.
    assert (Ed' : E = Zdigits2 mx + ex - p) by lia.
    assert (Mx : 0 < mx) by (destruct (Z.eq_dec mx 0) as [Z0|]; [rewrite Z0 in Ed'; cbn [Zdigits2] in Ed'; unfold good in G; lia|lia]).
    assert (Big : 2 ^ (Zdigits2 mx - 1) <= mx) by (destruct mx; try lia; cbn [Zdigits2]; apply digits2_spec).
    replace (E - 1) with (- p + ((Zdigits2 mx - 1) + ex)) by lia. rewrite Qpower_plus by exact two_nz. fold uu.
    assert (dyq (2 ^ (Zdigits2 mx - 1)) ex <= v)%Q.
    { eapply Qle_trans; [|exact Vlow]. unfold dyq. apply Qmult_le_compat_r; [|apply Qlt_le_weak, pow2_pos]. rewrite <- Zle_Qle. exact Big. }
    assert (Eq1 : (dyq (2 ^ (Zdigits2 mx - 1)) ex == Qpower 2 (Zdigits2 mx - 1 + ex))%Q).
    { unfold dyq. rewrite Qpower_plus by exact two_nz. assert (Dg : 1 <= Zdigits2 mx) by (destruct mx; cbn [Zdigits2]; lia). rewrite pow2_int by lia. reflexivity. }
    rewrite Eq1 in H0. rewrite !(Qmult_comm uu). apply Qmult_le_compat_r; [exact H0|apply Qlt_le_weak, pow2_pos]. }
  assert (Inf : finite (binary_round_aux p em s mx ex lx) = false ->
            binary_round_aux p em s mx ex lx = S754_infinity s /\ (Qpower 2 em * (1 - uu) <= v)%Q).
  { intros Fi. destruct (packed_inf _ _ _ _ Pk Fi) as (Ei & Hi & Le). split; [exact Ei|].
    assert (Lo' : 2 ^ (p - 1) <= q) by (apply Lo; unfold good in G; lia).
    assert (U1 : (uu * Qpower 2 (p - 1) == 1 # 2)%Q).
    { unfold uu. rewrite <- Qpower_plus by exact two_nz. replace (- p + (p - 1)) with (-1) by lia. reflexivity. }
    assert (Vq : (dyq q E * (1 - uu) <= v)%Q).
    { (* half an ulp is at most uu * q * 2^E *)
      assert ((1 # 2) * Qpower 2 E <= uu * dyq q E)%Q; [|lra].
      rewrite <- U1. unfold dyq. rewrite Qmult_assoc. apply Qmult_le_compat_r; [|lra].
      rewrite !(Qmult_comm uu). apply Qmult_le_compat_r; [|apply Qlt_le_weak, pow2_pos].
      rewrite <- pow2_int by (unfold good in G; lia). rewrite <- Zle_Qle. exact Lo'. }
    assert (U2 : (0 <= 1 - uu)%Q).
    { assert (uu <= Qpower 2 0)%Q by (apply pow2_le; unfold good in G; lia). change (Qpower 2 0) with 1%Q in *. lra. }
    assert (Big : (Qpower 2 em <= dyq q E)%Q).
    { assert (Sc : (dyq q E == dyq (q * 2 ^ (E - (em - p))) (em - p))%Q).
      { rewrite dyq_shift by lia. replace (em - p + (E - (em - p))) with E by lia. reflexivity. }
      rewrite Sc. replace em with (p + (em - p)) at 1 by lia. rewrite Qpower_plus by exact two_nz. unfold dyq.
      apply Qmult_le_compat_r; [|apply Qlt_le_weak, pow2_pos]. rewrite <- pow2_int by (unfold good in G; lia). rewrite <- Zle_Qle. exact Hi. }
    eapply Qle_trans; [|exact Vq]. apply Qmult_le_compat_r; assumption. }
  destruct (Z.eq_dec R 0) as [Rz|Rn]; [destruct (Z.eq_dec E ex) as [Ee|En]|].
  - (* nothing is rounded *)
    exists 0%Q. split; [|split; [reflexivity|split]].
    + split; [exact (packed_valid _ _ _ _ Pk)|]. split; [exact (packed_not_nan _ _ _ _ Pk)|]. split; [|exact Inf].
      intros Fi. rewrite (packed_val _ _ _ _ Pk Fi), sgn_abs. rewrite (Ex Rz Ee).
      assert (Ev : (dyq mx E == v)%Q).
      { apply (Qmult_inj_r _ _ (inject_Z D)); [lra|]. rewrite Hv, Rz, Z.add_0_r, Ee. unfold dyq. rewrite inject_Z_mult. ring. }
      rewrite Ev. apply Qabs_bound; lra.
    + intros H. specialize (Rel H). lra.
    + intros _. unfold eta. apply Qlt_le_weak, pow2_pos.
  - exists ((1 # 2) * Qpower 2 E)%Q. split; [|split; [intros _ H; contradiction|split; [exact Rel|]]].
    + split; [exact (packed_valid _ _ _ _ Pk)|]. split; [exact (packed_not_nan _ _ _ _ Pk)|]. split; [|exact Inf].
      intros Fi. rewrite (packed_val _ _ _ _ Pk Fi), sgn_abs. apply Qabs_bound; lra.
    + intros H. unfold eta. rewrite <- Half, H. apply Qle_refl.
  - exists ((1 # 2) * Qpower 2 E)%Q. split; [|split; [intros H; contradiction|split; [exact Rel|]]].
    + split; [exact (packed_valid _ _ _ _ Pk)|]. split; [exact (packed_not_nan _ _ _ _ Pk)|]. split; [|exact Inf].
      intros Fi. rewrite (packed_val _ _ _ _ Pk Fi), sgn_abs. apply Qabs_bound; lra.
    + intros H. unfold eta. rewrite <- Half, H. apply Qle_refl.
Qed.

(** rounding of a dyadic number whose exponent is at least that of the smallest float: no underflow error *)
Lemma rounded_le s v d d' z : rounded s v d z -> (d <= d')%Q -> rounded s v d' z.
Proof. intros (A & B & C & H) L. split; [exact A|]. split; [exact B|]. split; [|exact H]. intros Fi. eapply Qle_trans; [exact (C Fi)|exact L]. Qed.
Lemma rounded_wd s v v' d z : rounded s v d z -> (v == v')%Q -> rounded s v' d z.
Proof.
  intros (A & B & C & H) L. split; [exact A|]. split; [exact B|]. split.
  - intros Fi. assert (S : (sgn s v' == sgn s v)%Q) by (destruct s; cbn [sgn]; rewrite L; reflexivity). rewrite S. exact (C Fi).
  - intros Fi. destruct (H Fi) as [Hi Hv]. split; [exact Hi|]. rewrite <- L. exact Hv.
Qed.
Lemma round_rounded s m e : 3 - em - p <= e -> rounded s (dyq (Zpos m) e) (uu * dyq (Zpos m) e) (binary_round p em s m e).
Proof.
  intros L. unfold binary_round. set (E := fexp (Zpos (digits2_pos m) + e)).
  assert (Pos : (0 <= uu * dyq (Zpos m) e)%Q).
  { apply Qmult_le_0_compat; [apply Qlt_le_weak, pow2_pos|]. unfold dyq. apply Qmult_le_0_compat; [|apply Qlt_le_weak, pow2_pos]. discriminate. }
  destruct (Z.le_gt_cases E e) as [Le|Gt].
  - destruct (shl_align_le m e E Le) as [A B].
    assert (B' : snd (shl_align m e E) = E) by (destruct (Z.eq_dec E e) as [->|]; [unfold shl_align; rewrite Z.sub_diag; reflexivity|apply B; lia]).
    destruct (shl_align m e E) as [m' e'] eqn:S. cbn [fst snd] in A, B'. subst e'.
    assert (Dg : Zpos (digits2_pos m') + E = Zpos (digits2_pos m) + e).
    { rewrite (digits2_shift m m' (e - E)) by (lia || exact (eq_sym A)). lia. }
    assert (Fe : fexp (Zdigits2 (Zpos m') + E) = E) by (cbn [Zdigits2]; rewrite Dg; reflexivity).
    assert (Vv : (dyq (Zpos m') E == dyq (Zpos m) e)%Q).
    { rewrite A, dyq_shift by lia. replace (E + (e - E)) with e by lia. reflexivity. }
    destruct (round_aux_rounded s (Zpos m') E loc_Exact 1 0 (dyq (Zpos m') E)) as (d & Hr & D0 & _); try lia.
    { split; [lia|reflexivity]. } { rewrite Z.mul_1_r, Z.add_0_r. change (inject_Z 1) with 1%Q. ring. }
    rewrite Fe in D0. eapply rounded_wd; [|exact Vv]. eapply rounded_le; [exact Hr|]. rewrite (D0 eq_refl eq_refl). exact Pos.
  - assert (S : shl_align m e E = (m, e)) by (unfold shl_align; destruct (E - e) eqn:X; [reflexivity|reflexivity|lia]).
    rewrite S. destruct (round_aux_rounded s (Zpos m) e loc_Exact 1 0 (dyq (Zpos m) e)) as (d & Hr & _ & Dr & _); try lia.
    { split; [lia|reflexivity]. } { cbn [Zdigits2]. fold E. lia. } { rewrite Z.mul_1_r, Z.add_0_r. change (inject_Z 1) with 1%Q. ring. }
    eapply rounded_le; [exact Hr|]. apply Dr. cbn [Zdigits2]. fold E. lia.
Qed.
(** rounding error of a signed number *)
Definition near (v d : Q) (z : float) : Prop :=
  valid t z /\ z <> S754_nan /\ (finite z = true -> (Qabs (fq z - v) <= d)%Q) /\
  (finite z = false -> (Qpower 2 em * (1 - uu) <= Qabs v)%Q).
Lemma rounded_near s v d z w : rounded s v d z -> (0 <= v)%Q -> (w == sgn s v)%Q -> near w d z.
Proof.
  intros (A & B & C & H) P W. split; [exact A|]. split; [exact B|]. split; intros Fi.
  - rewrite W. exact (C Fi).
  - destruct (H Fi) as [_ Hv]. rewrite W. destruct s; cbn [sgn]; rewrite ?Qabs_opp; rewrite Qabs_pos by exact P; exact Hv.
Qed.
Lemma normalize_near m e b : 3 - em - p <= e -> near (dyq m e) (uu * Qabs (dyq m e)) (binary_normalize p em m e b).
Proof.
  intros L.
  assert (Pos : forall q, (0 <= dyq (Zpos q) e)%Q).
  { intros q. unfold dyq. apply Qmult_le_0_compat; [discriminate|apply Qlt_le_weak, pow2_pos]. }
  destruct m as [|m|m]; cbn [binary_normalize].
  - split; [reflexivity|]. split; [discriminate|]. split; [intros _|discriminate].
    assert (Z0 : (dyq 0 e == 0)%Q) by (unfold dyq; ring). rewrite Z0. cbn [fq]. apply Qabs_bound; cbn; rewrite Qmult_0_r; lra.
  - eapply (rounded_near false); [|apply Pos|reflexivity]. eapply rounded_le; [apply round_rounded; exact L|].
    rewrite (Qabs_pos _ (Pos m)). apply Qle_refl.
  - assert (N : (dyq (Zneg m) e == - dyq (Zpos m) e)%Q) by (unfold dyq; change (Zneg m) with (- Zpos m); rewrite inject_Z_opp; ring).
    eapply (rounded_near true); [|apply Pos|exact N]. eapply rounded_le; [apply round_rounded; exact L|].
    rewrite N, Qabs_opp, (Qabs_pos _ (Pos m)). apply Qle_refl.
Qed.

Lemma valid_canon s m e : valid t (S754_finite s m e) -> fcanon m e.
Proof. intros V. unfold valid, valid_binary in V. apply bounded_fcanon in V. exact V. Qed.
Lemma canon_emin m e : fcanon m e -> 3 - em - p <= e.
Proof. intros [C _]. unfold SpecFloat.fexp, emin in C. lia. Qed.
Lemma fq_align s m e k : k <= e -> (fq (S754_finite s m e) == dyq (cond_Zopp s (Zpos (fst (shl_align m e k)))) k)%Q.
Proof.
  intros L. cbn [fq]. destruct (shl_align_le m e k L) as [A _]. rewrite A.
  replace (cond_Zopp s (Zpos m * 2 ^ (e - k))) with (cond_Zopp s (Zpos m) * 2 ^ (e - k)) by (destruct s; unfold cond_Zopp; lia).
  rewrite dyq_shift by lia. replace (k + (e - k)) with e by lia. reflexivity.
Qed.
Lemma near_wd v d z v' d' : near v d z -> (v == v')%Q -> (d <= d')%Q -> near v' d' z.
Proof.
  intros (A & B & C & H) E L. split; [exact A|]. split; [exact B|]. split; intros Fi.
  - rewrite <- E. eapply Qle_trans; [exact (C Fi)|exact L].
  - rewrite <- E. exact (H Fi).
Qed.
Lemma near_exact z v d : valid t z -> finite z = true -> (fq z == v)%Q -> (0 <= d)%Q -> near v d z.
Proof.
  intros V Fi E D. split; [exact V|]. split; [intros ->; discriminate|]. split; [intros _|rewrite Fi; discriminate].
  rewrite E. apply Qabs_bound; lra.
Qed.
Lemma uu_pos : (0 < uu)%Q. Proof. apply pow2_pos. Qed.
Lemma eta_pos : (0 < eta)%Q. Proof. apply pow2_pos. Qed.
Lemma rel_pos v : (0 <= uu * Qabs v)%Q.
Proof. apply Qmult_le_0_compat; [apply Qlt_le_weak, uu_pos|apply Qabs_nonneg]. Qed.
Lemma fq_zero s : (fq (S754_zero s) == 0)%Q.
Proof. reflexivity. Qed.
Lemma fq_opp x : (fq (SFopp x) == - fq x)%Q.
Proof. destruct x as [| | |s m e]; try reflexivity. cbn [SFopp fq]. unfold dyq, cond_Zopp. destruct s; cbn [negb]; rewrite ?inject_Z_opp; ring. Qed.

Theorem add_near x y : valid t x -> valid t y -> finite x = true -> finite y = true ->
  near (fq x + fq y) (uu * Qabs (fq x + fq y)) (SFadd p em x y).
Proof.
  intros Vx Vy Fx Fy. destruct x as [sx| | |sx mx ex], y as [sy| | |sy my ey]; try discriminate; cbn [SFadd].
  - apply near_exact; [destruct (Bool.eqb sx sy); reflexivity|destruct (Bool.eqb sx sy); reflexivity| |apply rel_pos].
    destruct (Bool.eqb sx sy); cbn [fq]; ring.
  - apply near_exact; [exact Vy|reflexivity| |apply rel_pos]. cbn [fq]. ring.
  - apply near_exact; [exact Vx|reflexivity| |apply rel_pos]. cbn [fq]. ring.
  - pose proof (canon_emin _ _ (valid_canon _ _ _ Vx)). pose proof (canon_emin _ _ (valid_canon _ _ _ Vy)).
    pose proof (fq_align sx mx ex (Z.min ex ey) ltac:(lia)) as A. pose proof (fq_align sy my ey (Z.min ex ey) ltac:(lia)) as B.
    assert (S : (fq (S754_finite sx mx ex) + fq (S754_finite sy my ey) ==
      dyq (cond_Zopp sx (Zpos (fst (shl_align mx ex (Z.min ex ey)))) + cond_Zopp sy (Zpos (fst (shl_align my ey (Z.min ex ey))))) (Z.min ex ey))%Q).
    { rewrite A, B. unfold dyq. rewrite inject_Z_plus. ring. }
    eapply near_wd; [apply normalize_near|rewrite S; reflexivity|rewrite S; apply Qle_refl]. lia.
Qed.
Theorem sub_near x y : valid t x -> valid t y -> finite x = true -> finite y = true ->
  near (fq x - fq y) (uu * Qabs (fq x - fq y)) (SFsub p em x y).
Proof.
  intros Vx Vy Fx Fy. destruct x as [sx| | |sx mx ex], y as [sy| | |sy my ey]; try discriminate; cbn [SFsub].
  - apply near_exact; [destruct (Bool.eqb sx (negb sy)); reflexivity|destruct (Bool.eqb sx (negb sy)); reflexivity| |apply rel_pos].
    destruct (Bool.eqb sx (negb sy)); cbn [fq]; ring.
  - apply near_exact; [exact Vy|reflexivity| |apply rel_pos]. pose proof (fq_opp (S754_finite sy my ey)) as H. cbn [SFopp] in H. rewrite H. cbn [fq]. ring.
  - apply near_exact; [exact Vx|reflexivity| |apply rel_pos]. cbn [fq]. ring.
  - pose proof (canon_emin _ _ (valid_canon _ _ _ Vx)). pose proof (canon_emin _ _ (valid_canon _ _ _ Vy)).
    pose proof (fq_align sx mx ex (Z.min ex ey) ltac:(lia)) as A. pose proof (fq_align sy my ey (Z.min ex ey) ltac:(lia)) as B.
    assert (S : (fq (S754_finite sx mx ex) - fq (S754_finite sy my ey) ==
      dyq (cond_Zopp sx (Zpos (fst (shl_align mx ex (Z.min ex ey)))) - cond_Zopp sy (Zpos (fst (shl_align my ey (Z.min ex ey))))) (Z.min ex ey))%Q).
    { rewrite A, B. unfold dyq, Z.sub. rewrite inject_Z_plus, inject_Z_opp. ring. }
    eapply near_wd; [apply normalize_near|rewrite S; reflexivity|rewrite S; apply Qle_refl]. lia.
Qed.
Lemma dyq_pos_nonneg m e : (0 <= dyq (Zpos m) e)%Q.
Proof. unfold dyq. apply Qmult_le_0_compat; [discriminate|apply Qlt_le_weak, pow2_pos]. Qed.
Lemma dyq_cond s m e : (dyq (cond_Zopp s m) e == sgn s (dyq m e))%Q.
Proof. unfold dyq, cond_Zopp, sgn. destruct s; rewrite ?inject_Z_opp; ring. Qed.
Lemma sgn_Qabs s v : (0 <= v)%Q -> (Qabs (sgn s v) == v)%Q.
Proof. intros H. unfold sgn. destruct s; rewrite ?Qabs_opp; apply Qabs_pos; exact H. Qed.
(** a nonnegative number rounded with a relative and an underflow error *)
Lemma round_aux_near s mx ex lx D R v w : 0 <= mx -> loc_ok D R lx -> ex <= fexp (Zdigits2 mx + ex) ->
  (v * inject_Z D == dyq (mx * D + R) ex)%Q -> (w == sgn s v)%Q ->
  near w (uu * Qabs w + eta) (binary_round_aux p em s mx ex lx).
Proof.
  intros M L LE Hv W.
  assert (D0 : 0 < D) by (destruct L; lia).
  assert (DQ : (0 < inject_Z D)%Q) by (change 0%Q with (inject_Z 0); rewrite <- Zlt_Qlt; exact D0).
  assert (V0 : (0 <= v)%Q).
  { apply (Qmult_le_r _ _ (inject_Z D) DQ). rewrite Hv, Qmult_0_l. unfold dyq. apply Qmult_le_0_compat; [|apply Qlt_le_weak, pow2_pos].
    change 0%Q with (inject_Z 0). rewrite <- Zle_Qle. destruct L as [? _]. nia. }
  destruct (round_aux_rounded s mx ex lx D R v M L LE Hv) as (d & Hr & _ & Dr & De).
  eapply rounded_near; [|exact V0|exact W]. eapply rounded_le; [exact Hr|].
  assert (Aw : (Qabs w == v)%Q) by (rewrite W; apply sgn_Qabs; exact V0). rewrite Aw.
  pose proof eta_pos. pose proof uu_pos. assert (0 <= uu * v)%Q by (apply Qmult_le_0_compat; lra).
  destruct (Z.eq_dec (fexp (Zdigits2 mx + ex)) (3 - em - p)) as [E|E].
  - specialize (De E). lra.
  - assert (3 - em - p < fexp (Zdigits2 mx + ex)) by (unfold SpecFloat.fexp, emin in *; lia). specialize (Dr H2). lra.
Qed.
Theorem mul_near x y : valid t x -> valid t y -> finite x = true -> finite y = true ->
  near (fq x * fq y) (uu * Qabs (fq x * fq y) + eta) (SFmul p em x y).
Proof.
  intros Vx Vy Fx Fy. pose proof eta_pos as Ep.
  assert (Po : (0 <= uu * Qabs (fq x * fq y) + eta)%Q) by (pose proof (rel_pos (fq x * fq y)); lra).
  destruct x as [sx| | |sx mx ex], y as [sy| | |sy my ey]; try discriminate; cbn [SFmul];
    try (apply near_exact; [reflexivity|reflexivity|cbn [fq]; ring|exact Po]).
  apply (round_aux_near _ _ _ _ 1 0 (dyq (Zpos (mx * my)) (ex + ey))); try lia.
  - split; [lia|reflexivity].
  - cbn [Zdigits2]. apply valid_canon in Vx, Vy. pose proof (digits2_mul mx my). pose proof (emin_neg t G). unfold SpecFloat.fexp, emin.
    pose proof (canon_digits t _ _ Vx). pose proof (canon_digits t _ _ Vy). lia.
  - rewrite Z.mul_1_r, Z.add_0_r. change (inject_Z 1) with 1%Q. ring.
  - cbn [fq]. rewrite !dyq_cond. unfold dyq, sgn. rewrite Pos2Z.inj_mul, inject_Z_mult. destruct sx, sy; cbn [xorb]; rewrite Qpower_plus by exact two_nz; ring.
Qed.
Lemma new_location_ok my r : 0 <= r < Zpos my -> loc_ok (Zpos my) r (new_location (Zpos my) r).
Proof.
  intros B. split; [exact B|]. unfold new_location, new_location_even, new_location_odd.
  destruct (Z.even (Zpos my)) eqn:Ev; destruct (Zeq_bool r 0) eqn:Ez; try (apply Zeq_bool_eq; exact Ez); apply Zeq_bool_neq in Ez; (split; [exact Ez|]); [reflexivity|].
  rewrite <- Z.negb_odd in Ev. apply negb_false_iff in Ev. apply Z.odd_spec in Ev as [k Hk].
  destruct (Z.compare_spec (2 * r + 1) (Zpos my)) as [H|H|H].
  - apply Z.compare_lt_iff. lia.
  - apply Z.compare_lt_iff. lia.
  - apply Z.compare_gt_iff. lia.
Qed.
Theorem div_near x y : valid t x -> valid t y -> finite x = true -> finite y = true -> ~ (fq y == 0)%Q ->
  near (fq x / fq y) (uu * Qabs (fq x / fq y) + eta) (SFdiv p em x y).
Proof.
  intros Vx Vy Fx Fy Ny. pose proof eta_pos as Ep.
  assert (Po : (0 <= uu * Qabs (fq x / fq y) + eta)%Q) by (pose proof (rel_pos (fq x / fq y)); lra).
  destruct y as [sy| | |sy my ey]; try discriminate; [contradiction Ny; reflexivity|].
  destruct x as [sx| | |sx mx ex]; try discriminate; cbn [SFdiv].
  - apply near_exact; [reflexivity|reflexivity| |exact Po]. cbn [fq] in *. field. exact Ny.
  - unfold SFdiv_core_binary. cbn [Zdigits2].
    set (e' := Z.min (fexp (Zpos (digits2_pos mx) + ex - (Zpos (digits2_pos my) + ey))) (ex - ey)).
    assert (L2 : e' <= ex - ey) by apply Z.le_min_r.
    assert (L1 : e' <= fexp (Zpos (digits2_pos mx) + ex - (Zpos (digits2_pos my) + ey))) by apply Z.le_min_l.
    replace (match ex - ey - e' with Zpos _ => Z.shiftl (Zpos mx) (ex - ey - e') | Z0 => Zpos mx | Zneg _ => 0 end) with (Zpos mx * 2 ^ (ex - ey - e')).
    2: { destruct (ex - ey - e') as [|d|d] eqn:S; [cbn; lia|symmetry; apply Z.shiftl_mul_pow2; lia|lia]. }
    set (m' := Zpos mx * 2 ^ (ex - ey - e')).
    pose proof (Z.div_mod m' (Zpos my) ltac:(lia)) as DM. pose proof (Z.mod_pos_bound m' (Zpos my) ltac:(lia)) as MB.
    unfold Z.div, Z.modulo in DM, MB. destruct (Z.div_eucl m' (Zpos my)) as [q r] eqn:QR.
    assert (M0 : 0 < m') by (apply Z.mul_pos_pos; [lia|apply Z.pow_pos_nonneg; lia]).
    assert (Q0 : 0 <= q) by nia.
    apply (round_aux_near _ _ _ _ (Zpos my) r (dyq (Zpos mx) ex / dyq (Zpos my) ey)).
    + exact Q0.
    + apply new_location_ok. exact MB.
    + eapply Z.le_trans; [exact L1|]. apply fexp_mono.
      (* digits of the quotient *)
      assert (Dm : Zpos (digits2_pos mx) + (ex - ey - e') - Zpos (digits2_pos my) <= Zdigits2 q); [|lia].
      destruct (digits2_spec mx) as [A _]. destruct (digits2_spec my) as [_ B].
      assert (U : m' < 2 ^ (Zpos (digits2_pos my) + Zdigits2 q)).
      { rewrite Z.pow_add_r by (destruct q; cbn [Zdigits2]; lia).
        assert (Uq : q + 1 <= 2 ^ Zdigits2 q) by (destruct q as [|q|q]; cbn [Zdigits2]; [cbn; lia|pose proof (digits2_spec q); lia|lia]).
        assert (m' < Zpos my * (q + 1)) by lia. eapply Z.lt_le_trans; [exact H|]. apply Z.mul_le_mono_nonneg; lia. }
      assert (Lm : 2 ^ (Zpos (digits2_pos mx) - 1 + (ex - ey - e')) <= m').
      { rewrite Z.pow_add_r by lia. apply Z.mul_le_mono_nonneg_r; [apply Z.pow_nonneg; lia|exact A]. }
      assert (Zpos (digits2_pos mx) - 1 + (ex - ey - e') < Zpos (digits2_pos my) + Zdigits2 q); [|lia].
      apply (Z.pow_lt_mono_r_iff 2); [lia|destruct q; cbn [Zdigits2]; lia|lia].
    + replace (q * Zpos my + r) with m' by lia. unfold m'. rewrite dyq_shift by lia. replace (e' + (ex - ey - e')) with (ex + - ey) by lia.
      unfold dyq. rewrite Qpower_plus by exact two_nz. rewrite Qpower_opp. field. split; [apply Qpower_pos_nz|discriminate].
    + cbn [fq] in *. rewrite !dyq_cond in *. assert (Nz : ~ (dyq (Zpos my) ey == 0)%Q).
      { intros H. apply Ny. rewrite H. destruct sy; reflexivity. }
      unfold sgn. destruct sx, sy; cbn [xorb]; field; try exact Nz; try (split; [exact Nz|]); intros H; apply Nz; lra.
Qed.
End Round.
