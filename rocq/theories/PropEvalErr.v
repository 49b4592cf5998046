(** * C151: rounding errors of evaluation over f32 and f64

    The standard library leaves the precision of powi open.  It enters as a relative error [delta]: [delta] is 0 when every exponent is 0 or 1
    (on platforms where powi is exact there).  The result of eval then differs from the exact value of the polynomial by at most
    ((1 + u)^(n+m) (1 + delta)^n - 1) times the sum of the absolute values of the terms, n the number of values and m the number of terms, and
    an error which comes from underflow. *)
From Verif Require Import Base BaseLemmas FieldIface MDegModel PolyModel MonoSpec MDegProofs FloatModel FloatExact FloatRound FloatErr CleanShape PropFloatDiv PropFloatErr PropClean PropPolyErr.
From Coq Require Import QArith Qabs Qpower Lqa Lia.
Local Open Scope nat_scope.

Fixpoint qpow (x : Q) (n : nat) : Q := match n with 0 => 1%Q | S n => (x * qpow x n)%Q end.
Definition qprod (l : list Q) : Q := fold_right Qmult 1%Q l.
Lemma qpow_ge x n : (1 <= x -> 1 <= qpow x n)%Q.
Proof. intros H. induction n as [|n IH]; cbn [qpow]; [lra|]. nra. Qed.
Lemma qpow_step x n : (1 <= x -> qpow x n <= qpow x (S n))%Q.
Proof. intros H. cbn [qpow]. pose proof (qpow_ge x n H). nra. Qed.
Lemma qpow_mono x n k : (1 <= x)%Q -> n <= k -> (qpow x n <= qpow x k)%Q.
Proof. intros H L. induction L as [|k L IH]; [lra|]. pose proof (qpow_step x k H). lra. Qed.

Section Err.
Context (t : fmt) (G : good t) (e : fenv).
Notation F := (float_impl t e).
Notation p_ := (prec t).
Notation em := (emax t).
Notation w := (1 + u t)%Q.

(** the exact values *)
Definition power_value (a : nat * F) : Q := qpow (fq (snd a : float)) (fst a).
Definition term_value (s : term F) (x : list F) : Q := (fq (coef s : float) * qprod (map power_value (combine (tdeg s) x)))%Q.
Definition poly_value (p : poly F) (x : list F) : Q := qsum (map (fun s => term_value s x) p).
Definition poly_size (p : poly F) (x : list F) : Q := qsum (map (fun s => Qabs (term_value s x)) p).
(** what is assumed of powi: the results are numbers of the format, of relative error at most [delta] and absolute value at most [M] when finite *)
Definition good_power (delta M : Q) (a : nat * F) : Prop := let z := powi e (snd a : float) (Z.of_nat (fst a)) in
  valid t z /\ (finite z = true -> Qabs (fq z - power_value a) <= delta * Qabs (power_value a) /\ Qabs (fq z) <= M)%Q.
(** the part of the error which comes from underflow, for one term of [n] factors *)
Definition under (M : Q) (n : nat) : Q := (inject_Z (Z.of_nat n) * tiny t * qpow (w * M) n)%Q.

Lemma u_uu : u t = uu t.
Proof. reflexivity. Qed.
Lemma nat_succ n : (inject_Z (Z.of_nat (S n)) == inject_Z (Z.of_nat n) + 1)%Q.
Proof. rewrite Nat2Z.inj_succ. unfold Z.succ. rewrite inject_Z_plus. reflexivity. Qed.
Lemma nat_nonneg n : (0 <= inject_Z (Z.of_nat n))%Q.
Proof. change 0%Q with (inject_Z 0). rewrite <- Zle_Qle. lia. Qed.
Lemma under_nonneg M n : (1 <= M -> 0 <= under M n)%Q.
Proof.
  intros H. unfold under. pose proof (uu_pos t) as Up. rewrite <- u_uu in Up. pose proof (eta_pos t) as Ep. rewrite <- tiny_eta in Ep. pose proof (nat_nonneg n).
  assert (1 <= qpow (w * M) n)%Q by (apply qpow_ge; nra). apply Qmult_le_0_compat; [apply Qmult_le_0_compat|]; lra.
Qed.
Lemma under_mono M n k : (1 <= M)%Q -> n <= k -> (under M n <= under M k)%Q.
Proof.
  intros H L. unfold under. pose proof (uu_pos t) as Up. rewrite <- u_uu in Up. pose proof (eta_pos t) as Ep. rewrite <- tiny_eta in Ep.
  assert (H1 : (1 <= w * M)%Q) by nra. pose proof (qpow_mono _ n k H1 L) as Q1. pose proof (qpow_ge _ n H1) as Q2. pose proof (nat_nonneg n) as Q3.
  assert (Q4 : (inject_Z (Z.of_nat n) <= inject_Z (Z.of_nat k))%Q) by (rewrite <- Zle_Qle; lia).
  set (a := qpow _ n) in *. set (b := qpow _ k) in *. set (x := inject_Z (Z.of_nat n)) in *. set (y := inject_Z (Z.of_nat k)) in *. clearbody a b x y.
  assert (x * tiny t <= y * tiny t)%Q by nra. assert (0 <= x * tiny t)%Q by nra. nra.
Qed.

(** ** One term *)
(** one product *)
Lemma mstep_arith (uu h d M P Z z m V g q : Q) : (0 < uu)%Q -> (0 < h)%Q -> (0 <= d)%Q -> (1 <= M)%Q ->
  (* z: accumulated value, P: its exact value; Z: the computed power, V the exact one; m: the computed product *)
  (1 <= g)%Q -> (0 <= q)%Q ->
  (Qabs (z - P) <= (g - 1) * Qabs P + q)%Q -> (Qabs (Z - V) <= d * Qabs V)%Q -> (Qabs Z <= M)%Q ->
  (Qabs (m - z * Z) <= uu * Qabs (z * Z) + h)%Q ->
  (Qabs (m - P * V) <= ((1 + uu) * (1 + d) * g - 1) * Qabs (P * V) + ((1 + uu) * M * q + h))%Q.
Proof.
  intros Hu Hh Hd HM Hg Hq E1 E2 E3 E4. rewrite !Qabs_Qmult in *.
  assert (T1 : (Qabs (m - P * V) <= Qabs (m - z * Z) + Qabs (z - P) * Qabs Z + Qabs P * Qabs (Z - V))%Q).
  { rewrite <- !Qabs_Qmult. pose proof (Qabs_triangle (m - z * Z) ((z - P) * Z + P * (Z - V))) as A. pose proof (Qabs_triangle ((z - P) * Z) (P * (Z - V))) as B.
    assert (Eq : (m - z * Z + ((z - P) * Z + P * (Z - V)) == m - P * V)%Q) by ring. rewrite Eq in A. lra. }
  assert (T2 : (Qabs z <= Qabs (z - P) + Qabs P)%Q).
  { pose proof (Qabs_triangle (z - P) P) as A. assert (Eq : (z - P + P == z)%Q) by ring. rewrite Eq in A. exact A. }
  assert (T3 : (Qabs Z <= (1 + d) * Qabs V)%Q).
  { pose proof (Qabs_triangle (Z - V) V) as A. assert (Eq : (Z - V + V == Z)%Q) by ring. rewrite Eq in A. lra. }
  pose proof (Qabs_nonneg P) as NP. pose proof (Qabs_nonneg V) as NV. pose proof (Qabs_nonneg Z) as NZ. pose proof (Qabs_nonneg (z - P)) as Nz. pose proof (Qabs_nonneg (Z - V)) as NZV. pose proof (Qabs_nonneg z) as Nz0.
  set (aP := Qabs P) in *. set (aV := Qabs V) in *. set (aZ := Qabs Z) in *. set (ez := Qabs (z - P)) in *. set (eZ := Qabs (Z - V)) in *. set (az := Qabs z) in *.
  set (em0 := Qabs (m - z * Z)) in *. set (goal := Qabs (m - P * V)) in *. clearbody aP aV aZ ez eZ az em0 goal.
  assert (S1 : (az * aZ <= ez * aZ + aP * aZ)%Q) by nra.
  assert (S2 : (goal <= (1 + uu) * (ez * aZ) + uu * (aP * aZ) + h + aP * eZ)%Q) by nra.
  assert (S3 : (ez * aZ <= (g - 1) * aP * aZ + q * aZ)%Q) by nra.
  assert (S4 : (q * aZ <= M * q)%Q) by nra.
  assert (S5 : (aP * aZ <= (1 + d) * (aP * aV))%Q) by nra.
  assert (S6 : (aP * eZ <= d * (aP * aV))%Q) by nra.
  assert (S7 : ((1 + uu) * ((g - 1) * aP * aZ) + uu * (aP * aZ) == ((1 + uu) * g - 1) * (aP * aZ))%Q) by ring.
  assert (S8 : (((1 + uu) * g - 1) * (aP * aZ) <= ((1 + uu) * g - 1) * ((1 + d) * (aP * aV)))%Q).
  { rewrite !(Qmult_comm ((1 + uu) * g - 1)). apply Qmult_le_compat_r; [exact S5|nra]. }
  assert (S9 : ((1 + uu) * (ez * aZ) <= (1 + uu) * ((g - 1) * aP * aZ) + (1 + uu) * (M * q))%Q) by nra.
  assert (S10 : (((1 + uu) * g - 1) * ((1 + d) * (aP * aV)) + d * (aP * aV) == ((1 + uu) * (1 + d) * g - 1) * (aP * aV))%Q) by ring.
  lra.
Qed.

Definition mstep (acc : float) (a : nat * F) : float := SFmul p_ em acc (powi e (snd a : float) (Z.of_nat (fst a))).
Lemma mfold_finite l : forall acc, finite (fold_left mstep l acc) = true -> finite acc = true.
Proof. induction l as [|a l IH]; intros acc Fi; [exact Fi|]. cbn [fold_left] in Fi. apply IH in Fi. apply mul_finite in Fi. apply Fi. Qed.
Definition growth (delta : Q) (n : nat) : Q := qpow (w * (1 + delta)) n.
Lemma mfold_err delta M l : (0 <= delta)%Q -> (1 <= M)%Q -> Forall (good_power delta M) l -> forall acc k P, valid t acc -> finite (fold_left mstep l acc) = true ->
  (Qabs (fq acc - P) <= (growth delta k - 1) * Qabs P + under M k)%Q ->
  valid t (fold_left mstep l acc) /\
  (Qabs (fq (fold_left mstep l acc) - P * qprod (map power_value l)) <= (growth delta (k + length l) - 1) * Qabs (P * qprod (map power_value l)) + under M (k + length l))%Q.
Proof.
  intros Hd HM. induction l as [|a l IH]; intros Hl acc k P Va Fi E.
  - cbn [fold_left map qprod fold_right length]. rewrite Nat.add_0_r. split; [exact Va|]. rewrite !Qmult_1_r. exact E.
  - inversion Hl as [|? ? Ha Hl']; subst. cbn [fold_left] in Fi |- *. pose proof (mfold_finite l _ Fi) as Fm. destruct (mul_finite t _ _ Fm) as [F1 F2].
    destruct Ha as [Vz Hz]. destruct (Hz F2) as [H1 H2]. destruct (mul_near t G _ _ Va Vz F1 F2) as (Vm & _ & Em & _). specialize (Em Fm).
    pose proof (uu_pos t) as Up. pose proof (eta_pos t) as Ep.
    assert (W1 : (1 <= w * (1 + delta))%Q) by (rewrite u_uu; nra). assert (W2 : (1 <= w * M)%Q) by (rewrite u_uu; nra).
    assert (St : (Qabs (fq (mstep acc a) - P * power_value a) <= (growth delta (S k) - 1) * Qabs (P * power_value a) + under M (S k))%Q).
    { pose proof (mstep_arith (uu t) (FloatRound.eta t) delta M P _ _ _ (power_value a) (growth delta k) (under M k) Up Ep Hd HM (qpow_ge _ k W1) (under_nonneg M k HM) E H1 H2 Em) as X.
      eapply Qle_trans; [exact X|]. assert (Eg : (growth delta (S k) == (1 + uu t) * (1 + delta) * growth delta k)%Q) by (unfold growth; cbn [qpow]; rewrite u_uu; ring). rewrite Eg.
      apply Qplus_le_r. unfold under. rewrite nat_succ. cbn [qpow]. rewrite <- tiny_eta in *. rewrite <- u_uu in *. pose proof (qpow_ge _ k W2) as Qg. pose proof (nat_nonneg k) as Nk.
      set (g := qpow _ k) in *. set (x := inject_Z _) in *. clearbody g x.
      assert (Eq : ((x + 1) * tiny t * (w * M * g) == w * M * (x * tiny t * g) + tiny t * (w * M * g))%Q) by ring. rewrite Eq.
      assert (1 <= w * M * g)%Q by nra. assert (tiny t <= tiny t * (w * M * g))%Q by nra. lra. }
    destruct (IH Hl' (mstep acc a) (S k) (P * power_value a)%Q Vm Fi St) as [Vf X]. split; [exact Vf|].
    cbn [map qprod fold_right length]. fold (qprod (map power_value l)). replace (k + S (length l)) with (S k + length l) by lia. rewrite !Qmult_assoc. exact X.
Qed.
Lemma term_fold (s : term F) x z : term_eval s x = Ok z -> length (tdeg s) <= length x /\ z = fold_left mstep (combine (tdeg s) x) (coef s : float).
Proof.
  unfold term_eval, mdeg_len. destruct (Nat.ltb_spec (length x) (length (tdeg s))) as [L|L]; [intros X; discriminate X|]. intros E. split; [exact L|].
  assert (X : forall (l : list (nat * F)) (c : F), foldM (fun (acc : F) (p : nat * F) => let '(deg, val) := p in v <- fpowi32 val (Z.of_nat deg) ;; fmul acc v) l c = Ok (fold_left mstep l (c : float) : F)).
  { induction l as [|[d v] l IH]; intros c; [reflexivity|]. cbn [foldM bind fpowi32 fmul float_impl fold_left]. apply IH. }
  rewrite X in E. injection E as <-. reflexivity.
Qed.
Definition powers_ok (delta M : Q) (s : term F) (x : list F) : Prop := Forall (good_power delta M) (combine (tdeg s) x).
Theorem C151_term : forall delta M (s : term F) x (z : float), (0 <= delta)%Q -> (1 <= M)%Q -> valid t (coef s : float) -> powers_ok delta M s x ->
  term_eval s x = Ok (z : F) -> finite z = true ->
  let n := length (tdeg s) in
  (Qabs (fq z - term_value s x) <= (qpow ((1 + u t) * (1 + delta)) n - 1) * Qabs (term_value s x) + under M n)%Q.
Proof.
  intros delta M s x z Hd HM V H E Fi. cbv zeta. apply term_fold in E as [L ->].
  assert (Z0 : (Qabs (fq (coef s : float) - fq (coef s : float)) <= (growth delta 0 - 1) * Qabs (fq (coef s : float)) + under M 0)%Q).
  { unfold growth, under. cbn [qpow]. assert (Eq : (fq (coef s : float) - fq (coef s : float) == 0)%Q) by ring. rewrite Eq. change (Qabs 0) with 0%Q. change (inject_Z (Z.of_nat 0)) with 0%Q. lra. }
  pose proof (proj2 (mfold_err delta M _ Hd HM H (coef s : float) 0 _ V Fi Z0)) as X. cbn [Nat.add] in X. rewrite combine_length, Nat.min_l in X by exact L. exact X.
Qed.

(** ** The sum *)
Definition astep (acc z : float) : float := SFadd p_ em acc z.
Lemma sum_fold (l : list (res float)) : forall acc z, foldM (fun acc r => x <- r ;; Ok (SFadd p_ em acc x)) l acc = Ok z ->
  exists zs, map Ok zs = l /\ z = fold_left astep zs acc.
Proof.
  induction l as [|r l IH]; intros acc z E; [exists []; cbn in E; injection E as <-; auto|]. cbn [foldM] in E. destruct r as [y|k|]; cbn [bind] in E; try discriminate E.
  destruct (IH _ _ E) as (zs & El & Ez). exists (y :: zs). cbn [map fold_left]. rewrite El. auto.
Qed.
Lemma afold_finite zs : forall acc, finite (fold_left astep zs acc) = true -> finite acc = true.
Proof. induction zs as [|a l IH]; intros acc Fi; [exact Fi|]. cbn [fold_left] in Fi. apply IH in Fi. apply add_finite in Fi. apply Fi. Qed.
Lemma afold_err (g q : Q) : (1 <= g)%Q -> (0 <= q)%Q -> forall zs vs, Forall2 (fun z v => valid t z /\ (finite z = true -> Qabs (fq z - v) <= (g - 1) * Qabs v + q)%Q) zs vs ->
  forall acc k S A, valid t acc -> finite (fold_left astep zs acc) = true -> (Qabs S <= A)%Q ->
  (Qabs (fq acc - S) <= (qpow w k * g - 1) * A + inject_Z (Z.of_nat k) * q * qpow w k)%Q ->
  (Qabs (fq (fold_left astep zs acc) - (S + qsum vs)) <= (qpow w (k + length vs) * g - 1) * (A + qsum (map Qabs vs)) + inject_Z (Z.of_nat (k + length vs)) * q * qpow w (k + length vs))%Q.
Proof.
  intros Hg Hq zs vs H. pose proof (uu_pos t) as Up. rewrite <- u_uu in Up. assert (W : (1 <= w)%Q) by lra.
  induction H as [|z v zs vs [Vz Hz] _ IH]; intros acc k S A Va Fi SA E.
  - cbn [fold_left map qsum fold_right length]. rewrite Nat.add_0_r. rewrite !Qplus_0_r. exact E.
  - cbn [fold_left] in Fi |- *. pose proof (afold_finite zs _ Fi) as Fa. destruct (add_finite t _ _ Fa) as [F1 F2]. specialize (Hz F2).
    destruct (add_near t G _ _ Va Vz F1 F2) as (Vs & _ & Es & _). specialize (Es Fa). rewrite <- u_uu in Es. fold (astep acc z) in Es.
    assert (SA' : (Qabs (S + v) <= A + Qabs v)%Q) by (pose proof (Qabs_triangle S v); lra).
    assert (St : (Qabs (fq (astep acc z) - (S + v)) <= (qpow w (Datatypes.S k) * g - 1) * (A + Qabs v) + inject_Z (Z.of_nat (Datatypes.S k)) * q * qpow w (Datatypes.S k))%Q).
    { rewrite nat_succ. cbn [qpow]. pose proof (qpow_ge _ k W) as Gk. pose proof (nat_nonneg k) as Nk.
      assert (T1 : (Qabs (fq acc + fq z) <= Qabs (fq acc - S) + Qabs (fq z - v) + A + Qabs v)%Q).
      { pose proof (Qabs_triangle (fq acc - S) (fq z - v)) as T. pose proof (Qabs_triangle (fq acc - S + (fq z - v)) (S + v)) as T'.
        assert (Eq : (fq acc - S + (fq z - v) + (S + v) == fq acc + fq z)%Q) by ring. rewrite Eq in T'. lra. }
      assert (T2 : (Qabs (fq (astep acc z) - (S + v)) <= Qabs (fq (astep acc z) - (fq acc + fq z)) + Qabs (fq acc - S) + Qabs (fq z - v))%Q).
      { pose proof (Qabs_triangle (fq acc - S) (fq z - v)) as T. pose proof (Qabs_triangle (fq (astep acc z) - (fq acc + fq z)) (fq acc - S + (fq z - v))) as T'.
        assert (Eq : (fq (astep acc z) - (fq acc + fq z) + (fq acc - S + (fq z - v)) == fq (astep acc z) - (S + v))%Q) by ring. rewrite Eq in T'. lra. }
      pose proof (Qabs_nonneg v) as Nv. pose proof (Qabs_nonneg S) as NS. set (ww := w) in *. set (y := u t) in *. assert (Ew : (ww == 1 + y)%Q) by reflexivity. 
      set (gk := qpow ww k) in *. set (x := inject_Z _) in *. set (av := Qabs v) in *. set (ea := Qabs (fq acc - S)) in *. set (ez := Qabs (fq z - v)) in *.
      set (es := Qabs (fq (astep acc z) - (fq acc + fq z))) in *. set (asum := Qabs (fq acc + fq z)) in *. set (goal := Qabs (fq (astep acc z) - (S + v))) in *.
      clearbody gk x av ea ez es asum goal y ww. assert (A0 : (0 <= A)%Q) by lra.
      assert (B1 : (goal <= (1 + y) * ea + (1 + y) * ez + y * (A + av))%Q) by nra.
      assert (B2 : ((1 + y) * ea <= (1 + y) * ((gk * g - 1) * A + x * q * gk))%Q) by nra.
      assert (B3 : ((1 + y) * ez <= (1 + y) * ((g - 1) * av + q))%Q) by nra.
      assert (C1 : ((1 + y) * ((gk * g - 1) * A) + y * A == ((1 + y) * gk * g - 1) * A)%Q) by ring.
      assert (C2 : ((1 + y) * ((g - 1) * av) + y * av == ((1 + y) * g - 1) * av)%Q) by ring.
      assert (C3 : (((1 + y) * g - 1) * av <= ((1 + y) * gk * g - 1) * av)%Q).
      { apply Qmult_le_compat_r; [|exact Nv]. assert (0 <= (1 + y) * g * (gk - 1))%Q by (apply Qmult_le_0_compat; nra). lra. }
      assert (C4 : ((1 + y) * q <= q * ((1 + y) * gk))%Q) by (assert (0 <= (1 + y) * q * (gk - 1))%Q by (apply Qmult_le_0_compat; nra); lra).
      rewrite Ew. lra. }
    specialize (IH (astep acc z) (Datatypes.S k) (S + v)%Q (A + Qabs v)%Q Vs Fi SA' St).
    cbn [map qsum fold_right length]. fold (qsum vs). fold (qsum (map Qabs vs)). replace (k + Datatypes.S (length vs)) with (Datatypes.S k + length vs) by lia.
    rewrite !Qplus_assoc. exact IH.
Qed.
Theorem C151_eval : forall delta M (p : poly F) x (z : float), (0 <= delta)%Q -> (1 <= M)%Q -> valid_poly t e p -> Forall (fun s => powers_ok delta M s x) p ->
  poly_eval p x = Ok (z : F) -> finite z = true ->
  let n := length x in let m := length p in
  (Qabs (fq z - poly_value p x) <= (qpow (1 + u t) m * qpow ((1 + u t) * (1 + delta)) n - 1) * poly_size p x + inject_Z (Z.of_nat m) * under M n * qpow (1 + u t) m)%Q.
Proof.
  intros delta M p x z Hd HM V H E Fi. cbv zeta. unfold poly_eval in E. cbn [fsum float_impl] in E. unfold float_sum in E.
  apply sum_fold in E as (zs & Ezs & ->). pose proof (uu_pos t) as Up. rewrite <- u_uu in Up.
  assert (W1 : (1 <= w * (1 + delta))%Q) by nra.
  assert (X : Forall2 (fun z v => valid t z /\ (finite z = true -> Qabs (fq z - v) <= (growth delta (length x) - 1) * Qabs v + under M (length x))%Q) zs (map (fun s => term_value s x) p)).
  { clear Fi. revert p V H Ezs. induction zs as [|z zs IH]; intros [|s p] V H Ezs; try discriminate Ezs; [constructor|]. cbn [map] in Ezs |- *.
    injection Ezs as E1 E2. symmetry in E1.
    inversion V; subst. inversion H; subst. constructor; [|apply IH; assumption]. destruct (term_fold s x z E1) as [L Ez]. split.
    - rewrite Ez. clear - G H4 H2. unfold powers_ok in H4. revert H2. generalize (coef s : float). induction (combine (tdeg s) x) as [|a l IH]; intros c Vc; [exact Vc|].
      inversion H4; subst. cbn [fold_left]. apply IH; [assumption|]. apply (mul_valid t G); [exact Vc|]. destruct H1. assumption.
    - intros Fz. eapply Qle_trans; [apply (C151_term delta M s x z Hd HM); assumption|]. unfold growth.
      pose proof (qpow_mono _ _ _ W1 L) as Q1. pose proof (under_mono M _ _ HM L) as Q2. pose proof (Qabs_nonneg (term_value s x)). nra. }
  assert (Z0 : (Qabs (fq (S754_zero (sum_neg_zero e)) - 0) <= (qpow w 0 * growth delta (length x) - 1) * 0 + inject_Z (Z.of_nat 0) * under M (length x) * qpow w 0)%Q).
  { cbn [fq qpow]. change (inject_Z (Z.of_nat 0)) with 0%Q. change (Qabs (0 - 0)) with 0%Q. lra. }
  pose proof (afold_err (growth delta (length x)) (under M (length x)) (qpow_ge _ _ W1) (under_nonneg M _ HM) zs _ X (S754_zero (sum_neg_zero e)) 0 0%Q 0%Q eq_refl Fi ltac:(cbn; lra) Z0) as Y.
  rewrite map_length, map_map, !Qplus_0_l in Y. exact Y.
Qed.
End Err.

(** ** Examples: 0.1 x y + 0.2 at (0.2, 0.1) over f64, with a powi which multiplies *)
Section Example.
Definition rep_powi (t : fmt) (x : float) (n : Z) : float := Nat.iter (Z.to_nat n) (fun z => SFmul (prec t) (emax t) z x) (fone t).
Definition ev : fenv := mkenv (rep_powi binary64) false.
Notation F := (float_impl binary64 ev).
Definition pe : poly F := [@mkterm F (tenth ev) [1; 1]; @mkterm F (fifth ev) []].
Definition xe : list F := [fifth ev; tenth ev].
Example C151_ex_hyps : valid_poly binary64 ev pe /\ Forall (fun s => powers_ok binary64 ev 0 1 s xe) pe.
Proof.
  split; [repeat constructor|].
  assert (P : forall v : F, v = fifth ev \/ v = tenth ev -> good_power binary64 ev 0 1 (1, v)).
  { intros v [-> | ->]; (split; [reflexivity|]); intros _; split; vm_compute; intros H; discriminate H. }
  constructor; [|constructor; [constructor|constructor]]. constructor; [apply P; left; reflexivity|]. constructor; [apply P; right; reflexivity|constructor].
Qed.
Example C151_ex_eval : exists z : float, poly_eval pe xe = Ok (z : F) /\ finite z = true /\ ~ (fq z == poly_value binary64 ev pe xe)%Q /\
  ((qpow (1 + u binary64) 2 * qpow ((1 + u binary64) * (1 + 0)) 2 - 1) * poly_size binary64 ev pe xe + 2 * under binary64 1 2 * qpow (1 + u binary64) 2 <= Qpower 2 (-52))%Q.
Proof.
  eexists. split; [vm_compute; reflexivity|]. split; [reflexivity|]. split; [vm_compute; intros H; discriminate H|]. vm_compute. intros H; discriminate H.
Qed.
End Example.

Print Assumptions C151_term.
Print Assumptions C151_eval.
