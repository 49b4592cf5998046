(** * Float operations whose mathematical result is representable are exact. *)
From Verif Require Import Base FieldIface RatProofs FloatModel.
From Coq Require Import QArith Qcanon Qpower Lia Zpow_facts.
Local Open Scope Z_scope.

(** ** Values *)
(** m * 2^e *)
Definition dyq (m e : Z) : Q := (inject_Z m * Qpower 2 e)%Q.
Definition dy (m e : Z) : Qc := Q2Qc (dyq m e).
(** the number a finite float stands for *)
Definition fval (x : float) : Qc :=
  match x with S754_finite s m e => dy (cond_Zopp s (Zpos m)) e | _ => 0%Qc end.

Lemma two_nz : ~ (2 == 0)%Q.
Proof. discriminate. Qed.
Lemma dyq_shift m e k : 0 <= k -> (dyq (m * 2 ^ k) e == dyq m (e + k))%Q.
Proof.
  intros K. unfold dyq. rewrite inject_Z_mult, Qpower_plus by exact two_nz.
  assert (E : (inject_Z (2 ^ k) == Qpower 2 k)%Q) by (apply Zpower_Qpower; exact K).
  rewrite E. rewrite <- Qmult_assoc. rewrite (Qmult_comm (Qpower 2 k)). reflexivity.
Qed.
Lemma Qpower_pos_nz e : ~ (Qpower 2 e == 0)%Q.
Proof. apply Qpower_not_0. exact two_nz. Qed.
Lemma dyq_eq m1 m2 e : (dyq m1 e == dyq m2 e)%Q <-> m1 = m2.
Proof.
  unfold dyq. split; [|intros ->; reflexivity]. intros H.
  apply Qmult_inj_r in H; [|apply Qpower_pos_nz]. apply inject_Z_injective. exact H.
Qed.
Lemma dy_eq m1 e1 m2 e2 k : k <= e1 -> k <= e2 ->
  (dy m1 e1 = dy m2 e2 <-> m1 * 2 ^ (e1 - k) = m2 * 2 ^ (e2 - k)).
Proof.
  intros H1 H2. unfold dy. rewrite <- (dyq_eq _ _ k). rewrite !dyq_shift by lia.
  replace (k + (e1 - k)) with e1 by lia. replace (k + (e2 - k)) with e2 by lia.
  split; [intros H; apply Q2Qc_eq_iff in H; exact H|intros H; apply Q2Qc_eq_iff; exact H].
Qed.
Lemma dy_shift m e k : 0 <= k -> dy (m * 2 ^ k) e = dy m (e + k).
Proof. intros K. apply Q2Qc_eq_iff. apply dyq_shift. exact K. Qed.
Lemma Q2Qc_plus a b : (Q2Qc a + Q2Qc b)%Qc = Q2Qc (a + b)%Q.
Proof. apply Qc_is_canon. unfold Qcplus, Qcmult, Qcopp, Q2Qc. cbn [this]. rewrite !Qred_correct. reflexivity. Qed.
Lemma Q2Qc_mult a b : (Q2Qc a * Q2Qc b)%Qc = Q2Qc (a * b)%Q.
Proof. apply Qc_is_canon. unfold Qcplus, Qcmult, Qcopp, Q2Qc. cbn [this]. rewrite !Qred_correct. reflexivity. Qed.
Lemma Q2Qc_opp a : (- Q2Qc a)%Qc = Q2Qc (- a)%Q.
Proof. apply Qc_is_canon. unfold Qcplus, Qcmult, Qcopp, Q2Qc. cbn [this]. rewrite !Qred_correct. reflexivity. Qed.
Lemma dy_add a b e : (dy a e + dy b e)%Qc = dy (a + b) e.
Proof. unfold dy. rewrite Q2Qc_plus. apply Q2Qc_eq_iff. unfold dyq. rewrite inject_Z_plus. ring. Qed.
Lemma dy_opp a e : (- dy a e)%Qc = dy (- a) e.
Proof. unfold dy. rewrite Q2Qc_opp. apply Q2Qc_eq_iff. unfold dyq. rewrite inject_Z_opp. ring. Qed.
Lemma dy_mul a e b f : (dy a e * dy b f)%Qc = dy (a * b) (e + f).
Proof.
  unfold dy. rewrite Q2Qc_mult. apply Q2Qc_eq_iff. unfold dyq. rewrite inject_Z_mult, Qpower_plus by exact two_nz. ring.
Qed.
Lemma dy_zero m e : dy m e = 0%Qc <-> m = 0.
Proof.
  rewrite <- (dyq_eq m 0 e). unfold dy. split.
  - intros H. apply (proj1 (Q2Qc_eq_iff _ _)) in H. rewrite H. unfold dyq. ring.
  - intros H. apply Q2Qc_eq_iff. rewrite H. unfold dyq. ring.
Qed.

(** ** Digits *)
Lemma digits2_spec p : 2 ^ (Zpos (digits2_pos p) - 1) <= Zpos p < 2 ^ Zpos (digits2_pos p).
Proof.
  induction p as [p IH|p IH|]; cbn [digits2_pos]; [| |cbn; lia];
    rewrite Pos2Z.inj_succ; replace (Z.succ (Zpos (digits2_pos p)) - 1) with (Zpos (digits2_pos p)) by lia;
    rewrite Z.pow_succ_r by lia;
    replace (2 ^ Zpos (digits2_pos p)) with (2 * 2 ^ (Zpos (digits2_pos p) - 1)) in * by
      (rewrite <- Z.pow_succ_r by lia; f_equal; lia); lia.
Qed.
Lemma digits2_unique p d : 0 < d -> 2 ^ (d - 1) <= Zpos p < 2 ^ d -> Zpos (digits2_pos p) = d.
Proof.
  intros D H. pose proof (digits2_spec p) as G.
  assert (A : Zpos (digits2_pos p) - 1 < d) by (apply (Z.pow_lt_mono_r_iff 2); lia).
  assert (B : d - 1 < Zpos (digits2_pos p)) by (apply (Z.pow_lt_mono_r_iff 2); lia). lia.
Qed.
Lemma digits2_shift p q k : 0 <= k -> Zpos p * 2 ^ k = Zpos q -> Zpos (digits2_pos q) = Zpos (digits2_pos p) + k.
Proof.
  intros K E. apply digits2_unique; [lia|]. rewrite <- E. pose proof (digits2_spec p) as [G1 G2].
  replace (Zpos (digits2_pos p) + k - 1) with (Zpos (digits2_pos p) - 1 + k) by lia. rewrite !Z.pow_add_r by lia.
  split; [apply Z.mul_le_mono_nonneg_r; [lia|exact G1]|apply Z.mul_lt_mono_pos_r; [lia|exact G2]].
Qed.
Lemma digits2_mul p q : Zpos (digits2_pos p) + Zpos (digits2_pos q) - 1 <= Zpos (digits2_pos (p * q)).
Proof.
  pose proof (digits2_spec p) as [P1 _]. pose proof (digits2_spec q) as [Q1 _]. pose proof (digits2_spec (p * q)) as [_ R].
  assert (2 ^ (Zpos (digits2_pos p) - 1 + (Zpos (digits2_pos q) - 1)) < 2 ^ Zpos (digits2_pos (p * q))).
  { rewrite Z.pow_add_r by lia. eapply Z.le_lt_trans; [|exact R]. rewrite Pos2Z.inj_mul.
    apply Z.mul_le_mono_nonneg; lia. }
  apply Z.pow_lt_mono_r_iff in H; lia.
Qed.

(** ** Shifts *)
Lemma iter_pos_iter {A : Type} (f : A -> A) p x : SpecFloat.iter_pos f p x = Pos.iter f x p.
Proof.
  revert x. induction p as [p IH|p IH|]; intros x; cbn [SpecFloat.iter_pos Pos.iter]; [| |reflexivity].
  - rewrite !IH. rewrite <- !Pos.iter_swap. reflexivity.
  - rewrite !IH. reflexivity.
Qed.
Lemma shr_1_even m : 0 <= m -> shr_1 (Build_shr_record (2 * m) false false) = Build_shr_record m false false.
Proof. intros M. destruct m as [|p|p]; [reflexivity|reflexivity|lia]. Qed.
Lemma shr_exact m e n : 0 <= m -> 0 <= n ->
  shr (Build_shr_record (m * 2 ^ n) false false) e n = (Build_shr_record m false false, e + n).
Proof.
  intros M N. destruct n as [|n|n]; [|clear N|lia]; cbn [shr].
  - rewrite Z.mul_1_r, Z.add_0_r. reflexivity.
  - f_equal. rewrite iter_pos_iter. revert m M. induction n as [|n IH] using Pos.peano_ind; intros m M.
    + cbn [Pos.iter]. replace (m * 2 ^ 1) with (2 * m) by lia. apply shr_1_even. exact M.
    + rewrite Pos.iter_succ_r. rewrite Pos2Z.inj_succ, Z.pow_succ_r by lia.
      replace (m * (2 * 2 ^ Zpos n)) with (2 * (m * 2 ^ Zpos n)) by ring.
      rewrite shr_1_even by nia. apply IH. exact M.
Qed.
Lemma shift_pos_spec d m : Zpos (shift_pos d m) = Zpos m * 2 ^ Zpos d.
Proof.
  rewrite shift_pos_correct. unfold Z.pow. ring.
Qed.
Lemma shl_align_le m e k : k <= e -> Zpos (fst (shl_align m e k)) = Zpos m * 2 ^ (e - k) /\
  (k < e -> snd (shl_align m e k) = k).
Proof.
  intros H. unfold shl_align. destruct (k - e) as [|d|d] eqn:D; [|lia|].
  - replace (e - k) with 0 by lia. cbn. split; lia.
  - replace (e - k) with (Zpos d) by lia. cbn [fst snd]. split; [apply shift_pos_spec|lia].
Qed.

(** ** Rounding a representable value *)
Definition good (t : fmt) : Prop := 1 < prec t < emax t.
Lemma good32 : good binary32. Proof. unfold good. cbn. lia. Qed.
Lemma good64 : good binary64. Proof. unfold good. cbn. lia. Qed.

Section Round.
Context (t : fmt) (G : good t).
Notation p := (prec t).
Notation em := (emax t).
Notation fexp := (fexp p em).

Definition fcanon (m : positive) (e : Z) : Prop := fexp (Zpos (digits2_pos m) + e) = e /\ e <= em - p.
Lemma bounded_fcanon m e : bounded p em m e = true <-> fcanon m e.
Proof.
  unfold bounded, canonical_mantissa, fcanon. rewrite andb_true_iff, Z.leb_le. rewrite <- Zeq_is_eq_bool. tauto.
Qed.
Lemma fexp_mono a b : a <= b -> fexp a <= fexp b.
Proof. unfold SpecFloat.fexp. lia. Qed.

Lemma round_aux_exact s m e mz ez : e <= ez -> Zpos m = Zpos mz * 2 ^ (ez - e) -> fcanon mz ez ->
  binary_round_aux p em s (Zpos m) e loc_Exact = S754_finite s mz ez.
Proof.
  intros L E [C1 C2]. unfold binary_round_aux, shr_fexp. cbn [Zdigits2 shr_record_of_loc].
  rewrite (digits2_shift mz m (ez - e)) by lia.
  replace (Zpos (digits2_pos mz) + (ez - e) + e) with (Zpos (digits2_pos mz) + ez) by lia. rewrite C1, E.
  rewrite shr_exact by lia. cbn [shr_m loc_of_shr_record round_nearest_even Zdigits2].
  replace (e + (ez - e)) with ez by lia. rewrite C1, Z.sub_diag. cbn [shr shr_m].
  apply Z.leb_le in C2. rewrite C2. reflexivity.
Qed.
(** any dyadic number equal to a representable one is rounded to it *)
Lemma round_exact s m e mz ez : dy (Zpos m) e = dy (Zpos mz) ez -> fcanon mz ez ->
  binary_round p em s m e = S754_finite s mz ez.
Proof.
  intros E C. rewrite (dy_eq _ _ _ _ (Z.min e ez)) in E by lia.
  assert (D : Zpos (digits2_pos m) + e = Zpos (digits2_pos mz) + ez).
  { assert (H : forall a b c d, c <= d -> Zpos a * 2 ^ (d - c) = Zpos b -> Zpos (digits2_pos b) + c = Zpos (digits2_pos a) + d).
    { intros a b c d L H. rewrite (digits2_shift a b (d - c)) by (lia || exact H). lia. }
    destruct (Z.le_ge_cases e ez) as [L|L].
    - apply H; [exact L|]. rewrite Z.min_l in E by exact L. rewrite <- E, Z.sub_diag. cbn. lia.
    - symmetry. apply H; [exact L|]. rewrite Z.min_r in E by exact L. rewrite E, Z.sub_diag. cbn. lia. }
  unfold binary_round. rewrite D. destruct C as [C1 C2]. rewrite C1.
  destruct (Z.le_ge_cases e ez) as [L|L].
  - rewrite Z.min_l in E by exact L. rewrite Z.sub_diag in E. cbn [Z.pow] in E. rewrite Z.mul_1_r in E.
    unfold shl_align. destruct (ez - e) as [|d|d] eqn:Q; [| |lia];
      apply round_aux_exact; try lia; try (split; assumption); rewrite E; f_equal; f_equal; lia.
  - rewrite Z.min_r in E by exact L. rewrite Z.sub_diag in E. cbn [Z.pow] in E. rewrite Z.mul_1_r in E.
    destruct (shl_align_le m e ez L) as [A B]. destruct (shl_align m e ez) as [m' e'] eqn:S. cbn [fst snd] in A, B.
    rewrite E in A. injection A as ->. destruct (Z.eq_dec ez e) as [->|N].
    + unfold shl_align in S. rewrite Z.sub_diag in S. injection S as <- <-. apply round_aux_exact; [lia| |split; assumption].
      rewrite Z.sub_diag. cbn. lia.
    + rewrite B by lia. apply round_aux_exact; [lia| |split; assumption]. rewrite Z.sub_diag. cbn. lia.
Qed.

(** [v] is the value of a finite float *)
Definition representable (v : Qc) : Prop := exists z, valid t z /\ finite z = true /\ fval z = v.
(** [z] is a finite float of value [v] *)
Definition stands (z : float) (v : Qc) : Prop := valid t z /\ finite z = true /\ fval z = v.

Lemma dy_neg_pos a e b f : dy (Zpos a) e = dy (Zneg b) f -> False.
Proof.
  intros H. rewrite (dy_eq _ _ _ _ (Z.min e f)) in H by lia.
  assert (0 < 2 ^ (e - Z.min e f)) by (apply Z.pow_pos_nonneg; lia).
  assert (0 < 2 ^ (f - Z.min e f)) by (apply Z.pow_pos_nonneg; lia). nia.
Qed.
Lemma stands_round s m e : representable (dy (cond_Zopp s (Zpos m)) e) ->
  stands (binary_round p em s m e) (dy (cond_Zopp s (Zpos m)) e).
Proof.
  intros (z & V & Fi & E). destruct z as [sz| | |sz mz ez]; try discriminate; cbn [fval] in E.
  - symmetry in E. apply dy_zero in E. destruct s; discriminate.
  - unfold valid, valid_binary in V. apply bounded_fcanon in V.
    assert (S : sz = s /\ dy (Zpos m) e = dy (Zpos mz) ez).
    { destruct s, sz; cbn [cond_Zopp] in E; split; try reflexivity; try exact (eq_sym E); try (exfalso; eapply dy_neg_pos; (exact E || exact (eq_sym E))).
      change (- Zpos mz) with (-(Zpos mz)) in E. rewrite <- !dy_opp in E. apply (f_equal Qcopp) in E. rewrite !Qcopp_involutive in E. auto. }
    destruct S as [-> S]. rewrite (round_exact s m e mz ez S V). split; [apply bounded_fcanon; exact V|].
    split; [reflexivity|exact E].
Qed.
Lemma stands_normalize m e b : representable (dy m e) -> stands (binary_normalize p em m e b) (dy m e).
Proof.
  intros R. destruct m as [|m|m]; cbn [binary_normalize].
  - split; [reflexivity|]. split; [reflexivity|]. cbn. symmetry. apply dy_zero. reflexivity.
  - apply (stands_round false). exact R.
  - apply (stands_round true). exact R.
Qed.

Lemma fval_align s m e k : k <= e -> fval (S754_finite s m e) = dy (cond_Zopp s (Zpos (fst (shl_align m e k)))) k.
Proof.
  intros L. cbn [fval]. destruct (shl_align_le m e k L) as [A _]. rewrite A.
  replace (cond_Zopp s (Zpos m * 2 ^ (e - k))) with (cond_Zopp s (Zpos m) * 2 ^ (e - k)) by (destruct s; unfold cond_Zopp; lia).
  rewrite dy_shift by lia. f_equal. lia.
Qed.
Lemma fval_opp x : fval (SFopp x) = (- fval x)%Qc.
Proof.
  destruct x as [| | |s m e]; try reflexivity. cbn [SFopp fval]. rewrite dy_opp. f_equal. destruct s; reflexivity.
Qed.
Lemma stands_opp x v : stands x v -> stands (SFopp x) (- v)%Qc.
Proof. intros (V & Fi & <-). split; [destruct x; exact V|]. split; [destruct x; exact Fi|apply fval_opp]. Qed.

(** *** Addition and subtraction *)
Lemma add_exact x y v w : stands x v -> stands y w -> representable (v + w)%Qc -> stands (SFadd p em x y) (v + w)%Qc.
Proof.
  intros (Vx & Fx & <-) (Vy & Fy & <-) R.
  destruct x as [sx| | |sx mx ex], y as [sy| | |sy my ey]; try discriminate; cbn [SFadd].
  - change (fval (S754_zero sx)) with 0%Qc in *. change (fval (S754_zero sy)) with 0%Qc in *.
    destruct (Bool.eqb sx sy); (split; [reflexivity|split; [reflexivity|]]); cbn; apply Qc_is_canon; reflexivity.
  - split; [exact Vy|]. split; [reflexivity|]. cbn [fval]. ring.
  - split; [exact Vx|]. split; [reflexivity|]. cbn [fval]. ring.
  - pose proof (fval_align sx mx ex (Z.min ex ey) ltac:(lia)) as A. pose proof (fval_align sy my ey (Z.min ex ey) ltac:(lia)) as B.
    rewrite A, B in R |- *. rewrite dy_add in R |- *. apply stands_normalize. exact R.
Qed.
Lemma sub_exact x y v w : stands x v -> stands y w -> representable (v - w)%Qc -> stands (SFsub p em x y) (v - w)%Qc.
Proof.
  intros (Vx & Fx & <-) (Vy & Fy & <-) R.
  destruct x as [sx| | |sx mx ex], y as [sy| | |sy my ey]; try discriminate; cbn [SFsub].
  - change (fval (S754_zero sx)) with 0%Qc in *. change (fval (S754_zero sy)) with 0%Qc in *.
    destruct (Bool.eqb sx (negb sy)); (split; [reflexivity|split; [reflexivity|]]); cbn; apply Qc_is_canon; reflexivity.
  - replace (fval (S754_zero sx) - fval (S754_finite sy my ey))%Qc with (- fval (S754_finite sy my ey))%Qc by (cbn [fval]; ring).
    apply (stands_opp (S754_finite sy my ey)). split; [exact Vy|]. split; reflexivity.
  - split; [exact Vx|]. split; [reflexivity|]. cbn [fval]. ring.
  - pose proof (fval_align sx mx ex (Z.min ex ey) ltac:(lia)) as A. pose proof (fval_align sy my ey (Z.min ex ey) ltac:(lia)) as B.
    rewrite A, B in R |- *. unfold Qcminus in R |- *. rewrite dy_opp, dy_add in R |- *. apply stands_normalize. exact R.
Qed.

(** *** Multiplication *)
Lemma emin_neg : 3 - em - p < 0.
Proof. unfold good in G. lia. Qed.
Lemma canon_digits m e : fcanon m e -> Zpos (digits2_pos m) = p \/ (e = 3 - em - p /\ Zpos (digits2_pos m) < p).
Proof. intros [C _]. unfold SpecFloat.fexp, emin in C. lia. Qed.
(** a positive dyadic with exponent low enough *)
Lemma stands_aux s m e : representable (dy (cond_Zopp s (Zpos m)) e) -> e <= fexp (Zpos (digits2_pos m) + e) ->
  stands (binary_round_aux p em s (Zpos m) e loc_Exact) (dy (cond_Zopp s (Zpos m)) e).
Proof.
  intros R L. pose proof (stands_round s m e R) as H. unfold binary_round in H.
  replace (shl_align m e (fexp (Zpos (digits2_pos m) + e))) with (m, e) in H; [exact H|].
  unfold shl_align. destruct (fexp (Zpos (digits2_pos m) + e) - e) eqn:D; [reflexivity|reflexivity|lia].
Qed.
Lemma mul_exact x y v w : stands x v -> stands y w -> representable (v * w)%Qc -> stands (SFmul p em x y) (v * w)%Qc.
Proof.
  intros (Vx & Fx & <-) (Vy & Fy & <-) R.
  destruct x as [sx| | |sx mx ex], y as [sy| | |sy my ey]; try discriminate; cbn [SFmul];
    try (split; [reflexivity|split; [reflexivity|]]; cbn [fval]; ring).
  cbn [fval] in R |- *. rewrite dy_mul in R |- *.
  replace (cond_Zopp sx (Zpos mx) * cond_Zopp sy (Zpos my)) with (cond_Zopp (xorb sx sy) (Zpos (mx * my))) in R |- * by
    (destruct sx, sy; cbn; reflexivity).
  apply stands_aux; [exact R|]. unfold valid, valid_binary in Vx, Vy. apply bounded_fcanon in Vx, Vy.
  pose proof (digits2_mul mx my). pose proof emin_neg. unfold SpecFloat.fexp, emin.
  pose proof (canon_digits _ _ Vx). pose proof (canon_digits _ _ Vy). lia.
Qed.

(** *** Division *)
Lemma dy_digits m e mz ez : dy (Zpos m) e = dy (Zpos mz) ez -> Zpos (digits2_pos m) + e = Zpos (digits2_pos mz) + ez.
Proof.
  intros E. rewrite (dy_eq _ _ _ _ (Z.min e ez)) in E by lia.
  assert (H : forall a b c d, c <= d -> Zpos a * 2 ^ (d - c) = Zpos b -> Zpos (digits2_pos b) + c = Zpos (digits2_pos a) + d).
  { intros a b c d L H. rewrite (digits2_shift a b (d - c)) by (lia || exact H). lia. }
  destruct (Z.le_ge_cases e ez) as [L|L].
  - apply H; [exact L|]. rewrite Z.min_l in E by exact L. rewrite <- E, Z.sub_diag. cbn. lia.
  - symmetry. apply H; [exact L|]. rewrite Z.min_r in E by exact L. rewrite E, Z.sub_diag. cbn. lia.
Qed.
Lemma digits2_mul_le a b : Zpos (digits2_pos (a * b)) <= Zpos (digits2_pos a) + Zpos (digits2_pos b).
Proof.
  pose proof (digits2_spec a) as [_ P1]. pose proof (digits2_spec b) as [_ Q1]. pose proof (digits2_spec (a * b)) as [R _].
  assert (2 ^ (Zpos (digits2_pos (a * b)) - 1) < 2 ^ (Zpos (digits2_pos a) + Zpos (digits2_pos b))).
  { rewrite Z.pow_add_r by lia. eapply Z.le_lt_trans; [exact R|]. rewrite Pos2Z.inj_mul. apply Z.mul_lt_mono_nonneg; lia. }
  apply Z.pow_lt_mono_r_iff in H; lia.
Qed.
Lemma div_core_exact mx ex my ey mz ez : dy (Zpos mx) ex = dy (Zpos (mz * my)) (ez + ey) -> fcanon mz ez ->
  exists q e', SFdiv_core_binary p em (Zpos mx) ex (Zpos my) ey = (Zpos q, e', loc_Exact) /\
    e' <= ez /\ Zpos q = Zpos mz * 2 ^ (ez - e').
Proof.
  intros E [C1 C2]. pose proof (dy_digits _ _ _ _ E) as D. pose proof (digits2_mul_le mz my) as M.
  unfold SFdiv_core_binary. cbn [Zdigits2].
  set (e' := Z.min (fexp (Zpos (digits2_pos mx) + ex - (Zpos (digits2_pos my) + ey))) (ex - ey)).
  assert (L1 : e' <= ez).
  { rewrite <- C1. eapply Z.le_trans; [apply Z.le_min_l|]. apply fexp_mono. lia. }
  assert (L2 : e' <= ex - ey) by apply Z.le_min_r.
  rewrite (dy_eq _ _ _ _ (e' + ey)) in E by lia.
  replace (ex - (e' + ey)) with (ex - ey - e') in E by lia. replace (ez + ey - (e' + ey)) with (ez - e') in E by lia.
  assert (Q0 : 0 < Zpos mz * 2 ^ (ez - e')) by (apply Z.mul_pos_pos; [lia|apply Z.pow_pos_nonneg; lia]).
  destruct (Zpos mz * 2 ^ (ez - e')) as [|q|q] eqn:Q; try lia. exists q, e'.
  assert (N : (match ex - ey - e' with Zpos _ => Z.shiftl (Zpos mx) (ex - ey - e') | Z0 => Zpos mx | Zneg _ => 0 end) = Zpos my * Zpos q).
  { transitivity (Zpos mx * 2 ^ (ex - ey - e')).
    - destruct (ex - ey - e') as [|d|d] eqn:S; [cbn; lia|apply Z.shiftl_mul_pow2; lia|lia].
    - rewrite E. rewrite <- Q. rewrite Pos2Z.inj_mul. ring. }
  rewrite N.
  pose proof (Z.mod_mul (Zpos q) (Zpos my) ltac:(lia)) as MZ. pose proof (Z.div_mul (Zpos q) (Zpos my) ltac:(lia)) as DZ.
  rewrite (Z.mul_comm (Zpos q)) in MZ, DZ. unfold Z.div, Z.modulo in MZ, DZ.
  destruct (Z.div_eucl (Zpos my * Zpos q) (Zpos my)) as [q0 r0]. subst q0 r0. split; [|split; [exact L1|symmetry; exact Q]].
  f_equal. unfold new_location, new_location_even, new_location_odd. destruct (Z.even (Zpos my)); reflexivity.
Qed.
Lemma div_exact x y v w : stands x v -> stands y w -> w <> 0%Qc -> representable (v / w)%Qc -> stands (SFdiv p em x y) (v / w)%Qc.
Proof.
  intros (Vx & Fx & <-) (Vy & Fy & <-) W R.
  destruct y as [sy| | |sy my ey]; try discriminate; [contradiction W; reflexivity|].
  destruct x as [sx| | |sx mx ex]; try discriminate; cbn [SFdiv].
  - split; [reflexivity|]. split; [reflexivity|]. cbn [fval] in *. field. exact W.
  - destruct R as (z & Vz & Fz & E). destruct z as [sz| | |sz mz ez]; try discriminate.
    + exfalso. cbn [fval] in E, W. assert (H : dy (cond_Zopp sx (Zpos mx)) ex = 0%Qc).
      { transitivity (dy (cond_Zopp sx (Zpos mx)) ex / dy (cond_Zopp sy (Zpos my)) ey * dy (cond_Zopp sy (Zpos my)) ey)%Qc;
          [field; exact W|]. rewrite <- E. ring. }
      apply dy_zero in H. destruct sx; discriminate.
    + pose proof Vz as C. unfold valid, valid_binary in C. apply bounded_fcanon in C.
      assert (H : dy (cond_Zopp sx (Zpos mx)) ex = dy (cond_Zopp (xorb sz sy) (Zpos (mz * my))) (ez + ey)).
      { transitivity (fval (S754_finite sz mz ez) * dy (cond_Zopp sy (Zpos my)) ey)%Qc.
        - rewrite E. cbn [fval]. field. exact W.
        - cbn [fval]. rewrite dy_mul. f_equal. destruct sz, sy; reflexivity. }
      assert (S : sx = xorb sz sy /\ dy (Zpos mx) ex = dy (Zpos (mz * my)) (ez + ey)).
      { destruct sx, (xorb sz sy); cbn [cond_Zopp] in H; split; try reflexivity; try exact H;
          try (exfalso; eapply dy_neg_pos; (exact H || exact (eq_sym H))).
        change (- Zpos mx) with (-(Zpos mx)) in H. rewrite <- !dy_opp in H. apply (f_equal Qcopp) in H.
        rewrite !Qcopp_involutive in H. exact H. }
      destruct S as [Sx S]. destruct (div_core_exact _ _ _ _ _ _ S C) as (q & e' & -> & L & Q).
      rewrite (round_aux_exact _ q e' mz ez L Q C).
      replace (xorb sx sy) with sz by (rewrite Sx; destruct sz, sy; reflexivity).
      split; [exact Vz|]. split; [reflexivity|exact E].
Qed.

(** *** Comparison *)
Lemma canon_lt m1 e1 m2 e2 : fcanon m1 e1 -> fcanon m2 e2 -> e1 < e2 -> Zpos m1 * 2 ^ (e1 - e1) < Zpos m2 * 2 ^ (e2 - e1).
Proof.
  intros C1 C2 L. pose proof (canon_digits _ _ C1) as D1. pose proof (canon_digits _ _ C2) as D2.
  assert (L1 : 3 - em - p <= e1) by (destruct C1 as [C1 _]; unfold SpecFloat.fexp, emin in C1; lia).
  assert (P2 : Zpos (digits2_pos m2) = p) by lia. assert (P1 : Zpos (digits2_pos m1) <= p) by lia.
  rewrite Z.sub_diag, Z.pow_0_r, Z.mul_1_r. pose proof (digits2_spec m1) as [_ A]. pose proof (digits2_spec m2) as [B _].
  rewrite P2 in B. assert (2 ^ Zpos (digits2_pos m1) <= 2 ^ p) by (apply Z.pow_le_mono_r; lia).
  assert (2 ^ (p - 1) * 2 ^ (e2 - e1) <= Zpos m2 * 2 ^ (e2 - e1)) by (apply Z.mul_le_mono_nonneg_r; lia).
  assert (2 ^ p <= 2 ^ (p - 1) * 2 ^ (e2 - e1)); [|lia].
  rewrite <- Z.pow_add_r by (unfold good in G; lia). apply Z.pow_le_mono_r; lia.
Qed.
Lemma dy_compare m1 e1 m2 e2 k : k <= e1 -> k <= e2 ->
  Qccompare (dy m1 e1) (dy m2 e2) = Z.compare (m1 * 2 ^ (e1 - k)) (m2 * 2 ^ (e2 - k)).
Proof.
  intros H1 H2. replace (dy m1 e1) with (dy (m1 * 2 ^ (e1 - k)) k) by (rewrite dy_shift by lia; f_equal; lia).
  replace (dy m2 e2) with (dy (m2 * 2 ^ (e2 - k)) k) by (rewrite dy_shift by lia; f_equal; lia).
  set (a := m1 * _). set (b := m2 * _). unfold Qccompare, dy. cbn [this Q2Qc].
  rewrite !Qred_correct. unfold dyq.
  assert (P : (0 < Qpower 2 k)%Q) by (apply Qpower_0_lt; reflexivity).
  destruct (Z.compare_spec a b) as [->|L|L].
  - apply Qeq_alt. reflexivity.
  - apply Qlt_alt. apply Qmult_lt_r; [exact P|]. rewrite <- Zlt_Qlt. exact L.
  - apply Qgt_alt. apply Qmult_lt_r; [exact P|]. rewrite <- Zlt_Qlt. exact L.
Qed.
Lemma canon_compare m1 e1 m2 e2 : fcanon m1 e1 -> fcanon m2 e2 ->
  Qccompare (dy (Zpos m1) e1) (dy (Zpos m2) e2) = match Z.compare e1 e2 with Eq => Pos.compare m1 m2 | c => c end.
Proof.
  intros C1 C2. destruct (Z.compare_spec e1 e2) as [->|L|L].
  - rewrite (dy_compare _ _ _ _ e2) by lia. rewrite Z.sub_diag, Z.pow_0_r, !Z.mul_1_r. reflexivity.
  - rewrite (dy_compare _ _ _ _ e1) by lia. apply Z.compare_lt_iff. apply canon_lt; assumption.
  - rewrite (dy_compare _ _ _ _ e2) by lia. apply Z.compare_gt_iff. apply canon_lt; assumption.
Qed.
Lemma dy_sign s m e : Qccompare (dy (cond_Zopp s (Zpos m)) e) 0%Qc = if s then Lt else Gt.
Proof.
  replace 0%Qc with (dy 0 e) by (apply dy_zero; reflexivity).
  rewrite (dy_compare _ _ _ _ e) by lia. rewrite Z.sub_diag, Z.pow_0_r, !Z.mul_1_r. destruct s; reflexivity.
Qed.
Lemma Qccompare_opp a b : Qccompare (- a) (- b) = CompOpp (Qccompare a b).
Proof.
  unfold Qccompare, Qcopp. cbn [this Q2Qc]. rewrite !Qred_correct. destruct a as [[an ad] ?], b as [[bn bd] ?].
  unfold Qcompare, Qopp. cbn [this Qnum Qden]. rewrite !Z.mul_opp_l. rewrite Z.compare_opp. apply Z.compare_antisym.
Qed.
Lemma Qccompare_antisym a b : Qccompare a b = CompOpp (Qccompare b a).
Proof. unfold Qccompare, Qcompare. apply Z.compare_antisym. Qed.
Theorem compare_exact x y v w : stands x v -> stands y w -> SFcompare x y = Some (Qccompare v w).
Proof.
  intros (Vx & Fx & <-) (Vy & Fy & <-).
  destruct x as [sx| | |sx mx ex], y as [sy| | |sy my ey]; try discriminate; cbn [SFcompare fval].
  - reflexivity.
  - rewrite Qccompare_antisym, dy_sign. destruct sy; reflexivity.
  - rewrite dy_sign. reflexivity.
  - unfold valid, valid_binary in Vx, Vy. apply bounded_fcanon in Vx, Vy. f_equal.
    pose proof (canon_compare _ _ _ _ Vx Vy) as H.
    destruct sx, sy; cbn [cond_Zopp].
    + change (Z.neg mx) with (- Zpos mx). change (Z.neg my) with (- Zpos my). rewrite <- !dy_opp. rewrite Qccompare_opp, H.
      destruct (ex ?= ey); reflexivity.
    + symmetry. change (dy (- Z.pos mx) ex < dy (Z.pos my) ey)%Qc.
      apply Qclt_trans with 0%Qc; [exact (dy_sign true mx ex)|]. apply Qcgt_alt. exact (dy_sign false my ey).
    + symmetry. apply Qcgt_alt. apply Qclt_trans with 0%Qc; [exact (dy_sign true my ey)|].
      apply Qcgt_alt. exact (dy_sign false mx ex).
    + rewrite H. destruct (ex ?= ey); reflexivity.
Qed.

(** *** What is representable: an integer of at most [prec] digits times a power of two in range *)
Lemma representable_dy s m e : Zpos (digits2_pos m) <= p -> 3 - em - p <= e -> Zpos (digits2_pos m) + e <= em ->
  representable (dy (cond_Zopp s (Zpos m)) e).
Proof.
  intros D L U. set (ez := fexp (Zpos (digits2_pos m) + e)).
  assert (Z1 : ez <= e) by (unfold ez, SpecFloat.fexp, emin; lia).
  assert (Q0 : 0 < Zpos m * 2 ^ (e - ez)) by (apply Z.mul_pos_pos; [lia|apply Z.pow_pos_nonneg; lia]).
  destruct (Zpos m * 2 ^ (e - ez)) as [|mz|mz] eqn:Q; try lia.
  exists (S754_finite s mz ez). split; [|split; [reflexivity|]].
  - unfold valid, valid_binary. apply bounded_fcanon. split.
    + rewrite (digits2_shift m mz (e - ez)) by (lia || exact Q).
      replace (Zpos (digits2_pos m) + (e - ez) + ez) with (Zpos (digits2_pos m) + e) by lia. reflexivity.
    + unfold ez, SpecFloat.fexp, emin. unfold good in G. lia.
  - cbn [fval]. rewrite <- Q.
    replace (cond_Zopp s (Zpos m * 2 ^ (e - ez))) with (cond_Zopp s (Zpos m) * 2 ^ (e - ez)) by (destruct s; unfold cond_Zopp; lia).
    rewrite dy_shift by lia. f_equal. lia.
Qed.
Lemma representable_int n : Z.abs n <= 2 ^ p -> representable (dy n 0).
Proof.
  intros H. destruct (Z.eq_dec n 0) as [->|N].
  { exists fzero. split; [reflexivity|]. split; [reflexivity|]. symmetry. apply dy_zero. reflexivity. }
  assert (G' := G). unfold good in G'. destruct (Z.eq_dec (Z.abs n) (2 ^ p)) as [E|E].
  - replace (dy n 0) with (dy (cond_Zopp (n <? 0) (Zpos 1)) p).
    + apply representable_dy; change (Zpos (digits2_pos 1)) with 1; lia.
    + replace p with (0 + p) at 1 by lia. rewrite <- dy_shift by lia. f_equal. destruct (Z.ltb_spec n 0); unfold cond_Zopp; lia.
  - replace (dy n 0) with (dy (cond_Zopp (n <? 0) (Zpos (Z.to_pos (Z.abs n)))) 0).
    + assert (D : Zpos (digits2_pos (Z.to_pos (Z.abs n))) <= p).
      { pose proof (digits2_spec (Z.to_pos (Z.abs n))) as [A _]. rewrite Z2Pos.id in A by lia.
        assert (2 ^ (Zpos (digits2_pos (Z.to_pos (Z.abs n))) - 1) < 2 ^ p) as B by lia.
        apply Z.pow_lt_mono_r_iff in B; lia. }
      apply representable_dy; lia.
    + f_equal. rewrite Z2Pos.id by lia. destruct (Z.ltb_spec n 0); unfold cond_Zopp; lia.
Qed.
End Round.
