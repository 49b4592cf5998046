(** * Rounding errors of lu over floats. *)
From Verif Require Import Base BaseLemmas FieldIface UtilModel MatModel MatProofs AlgModel AlgProofs ElimShape ElimEntry
  FloatModel FloatExact FloatRound FloatErr FloatSim PropFloatElim PropFloatErr.
From Coq Require Import QArith Qabs Qpower Lqa Lia.
Local Open Scope nat_scope.

(** ** Sums *)
Lemma sum_below_0 f : (sum_below 0 f == 0)%Q. Proof. reflexivity. Qed.
Lemma sum_below_S n f : (sum_below (S n) f == sum_below n f + f n)%Q.
Proof. unfold sum_below. rewrite seq_S, map_app, qsum_app. cbn [map qsum fold_right Nat.add]. ring. Qed.
Lemma sum_below_ext n f g : (forall k, k < n -> (f k == g k)%Q) -> (sum_below n f == sum_below n g)%Q.
Proof.
  induction n; intros H; [reflexivity|]. rewrite !sum_below_S, IHn by (intros; apply H; lia). rewrite (H n) by lia. reflexivity.
Qed.
Lemma sum_below_nonneg n f : (forall k, k < n -> (0 <= f k)%Q) -> (0 <= sum_below n f)%Q.
Proof.
  induction n; intros H; [rewrite sum_below_0; lra|]. rewrite sum_below_S.
  pose proof (IHn ltac:(intros; apply H; lia)). pose proof (H n ltac:(lia)). lra.
Qed.
(** only the first [k] terms and term [i] do not vanish *)
Lemma sum_below_two n k i f : k <= i < n -> (forall q, k <= q < n -> q <> i -> (f q == 0)%Q) ->
  (sum_below n f == sum_below k f + f i)%Q.
Proof.
  intros [Hk Hi] H. induction n as [|n IH]; [lia|]. rewrite sum_below_S. destruct (Nat.eq_dec n i) as [->|N].
  - assert (E : forall d, d <= i - k -> (sum_below (k + d) f == sum_below k f)%Q).
    { induction d as [|d IHd]; intros Hd; [rewrite Nat.add_0_r; reflexivity|].
      rewrite Nat.add_succ_r, sum_below_S, IHd, H by lia. ring. }
    specialize (E (i - k) ltac:(lia)). replace (k + (i - k)) with i in E by lia. rewrite E. reflexivity.
  - rewrite IH by (try lia; intros; apply H; lia). rewrite (H n) by lia. ring.
Qed.

(** ** Inequalities *)
Lemma Qabs_tri a b c : (Qabs (a - c) <= Qabs (a - b) + Qabs (b - c))%Q.
Proof. setoid_replace (a - c)%Q with ((a - b) + (b - c))%Q by ring. apply Qabs_triangle. Qed.
(** replacing [v] by something whose absolute values add up to [T], with relative error [al] and absolute error [tau] *)
Lemma absorb A S0 v v' T M0 W h al tau : (1 <= W)%Q -> (0 <= al)%Q -> (0 <= M0)%Q -> (0 <= T)%Q ->
  (Qabs (A - (S0 + v)) <= (W - 1) * (M0 + Qabs v) + h)%Q ->
  (Qabs (v - v') <= al * T + tau)%Q -> (Qabs v' <= T)%Q ->
  (Qabs (A - (S0 + v')) <= (W * (1 + al) - 1) * (M0 + T) + h + W * tau)%Q.
Proof.
  intros HW Hal HM HT HA Hv HT'.
  pose proof (Qabs_tri A (S0 + v) (S0 + v'))%Q as Tr.
  setoid_replace (S0 + v - (S0 + v'))%Q with (v - v')%Q in Tr by ring.
  assert (V : (Qabs v <= T + Qabs (v - v'))%Q).
  { setoid_replace v with (v' + (v - v'))%Q at 1 by ring. eapply Qle_trans; [apply Qabs_triangle|]. lra. }
  pose proof (Qabs_nonneg v) as Pv. pose proof (Qabs_nonneg (v - v')) as Pd.
  revert HA Hv Tr V Pv Pd. generalize (Qabs (A - (S0 + v))), (Qabs (A - (S0 + v'))), (Qabs v), (Qabs (v - v')).
  intros e0 e1 av d HA Hv Tr V Pv Pd.
  assert (B1 : ((W - 1) * (M0 + av) <= (W - 1) * (M0 + (T + d)))%Q) by nra.
  assert (B2 : (W * d <= W * (al * T + tau))%Q) by nra.
  assert (B3 : (0 <= W * al * M0)%Q) by (repeat apply Qmult_le_0_compat; lra).
  assert (B4 : (W * (al * T + tau) == W * al * T + W * tau)%Q) by ring.
  assert (B5 : ((W * (1 + al) - 1) * (M0 + T) == (W - 1) * (M0 + T) + W * al * M0 + W * al * T)%Q) by ring.
  assert (B6 : ((W - 1) * (M0 + (T + d)) == (W - 1) * (M0 + T) + W * d - d)%Q) by ring.
  lra.
Qed.

(** (1 + 2u)^n *)
Section Growth.
Context (t : fmt).
Notation u := (uu t).
Definition wp (n : nat) : Q := Qpower (1 + 2 * u) (Z.of_nat n).
Lemma wp_0 : (wp 0 == 1)%Q. Proof. reflexivity. Qed.
Lemma wp_S n : (wp (S n) == wp n * (1 + 2 * u))%Q.
Proof.
  assert (N : ~ (1 + 2 * u == 0)%Q) by (pose proof (uu_pos t); intros H0; lra).
  unfold wp. rewrite Nat2Z.inj_succ. unfold Z.succ. rewrite Qpower_plus by exact N.
  change (Qpower (1 + 2 * u) 1) with (1 + 2 * u)%Q. ring.
Qed.
Lemma wp_ge n : (1 <= wp n)%Q.
Proof. induction n as [|n IH]; [rewrite wp_0; lra|]. rewrite wp_S. pose proof (uu_pos t). nra. Qed.
Lemma wp_mono n k : n <= k -> (wp n <= wp k)%Q.
Proof. induction 1 as [|k L IH]; [apply Qle_refl|]. rewrite wp_S. pose proof (uu_pos t). pose proof (wp_ge k). nra. Qed.
Lemma wp_4 n : (wp n * (1 + 8 * u) <= wp (n + 4))%Q.
Proof.
  replace (n + 4) with (S (S (S (S n)))) by lia. rewrite !wp_S. pose proof (uu_pos t) as P. pose proof (wp_ge n) as W.
  revert P W. generalize u (wp n). intros v w P W.
  assert (A : (1 + 8 * v <= (1 + 2 * v) * (1 + 2 * v) * (1 + 2 * v) * (1 + 2 * v))%Q).
  { assert (0 <= v * v)%Q by nra. assert (0 <= v * v * v)%Q by nra. assert (0 <= v * v * v * v)%Q by nra. nra. }
  setoid_replace (w * (1 + 2 * v) * (1 + 2 * v) * (1 + 2 * v) * (1 + 2 * v))%Q with (w * ((1 + 2 * v) * (1 + 2 * v) * (1 + 2 * v) * (1 + 2 * v)))%Q by ring.
  rewrite !(Qmult_comm w). apply Qmult_le_compat_r; lra.
Qed.
End Growth.

Section LU.
Context (t : fmt) (G : good t) (e : fenv) (US : (uu t <= 1 # 1000)%Q).
Notation F := (float_impl t e).
Notation TF := (float_stab t e).
Notation u := (uu t).
Notation eta := (eta t).
Notation p := (prec t).
Notation em := (emax t).

Lemma div_valid x y : valid t x -> valid t y -> valid t (SFdiv p em x y).
Proof.
  intros Vx Vy. destruct (finite x) eqn:Fx; [destruct (finite y) eqn:Fy|].
  - destruct y as [sy| | |sy my ey]; try discriminate; [destruct x; try discriminate; reflexivity|].
    apply (div_near t G x _ Vx Vy Fx Fy). cbn [fq]. intros H.
    assert (Z : (dyq (cond_Zopp sy (Zpos my)) ey == dyq 0 ey)%Q) by (rewrite H; unfold dyq; ring).
    apply dyq_eq in Z. destruct sy; discriminate.
  - destruct x, y; try discriminate; reflexivity.
  - destruct x, y; try discriminate; reflexivity.
Qed.
Lemma fq_nonzero s m ex : ~ (fq (S754_finite s m ex) == 0)%Q.
Proof.
  cbn [fq]. intros H. assert (Z : (dyq (cond_Zopp s (Zpos m)) ex == dyq 0 ex)%Q) by (rewrite H; unfold dyq; ring).
  apply dyq_eq in Z. destruct s; discriminate.
Qed.
Lemma eps_nonzero x : finite x = true -> float_epsilon_equals t x fzero = false -> ~ (fq x == 0)%Q.
Proof.
  intros Fi E. rewrite eps_zero in E. destruct x as [s| | |s m ex]; try discriminate; try apply fq_nonzero.
Qed.
Lemma fq_lt x : valid t x -> finite x = true -> (Qabs (fq x) <= Qpower 2 em)%Q.
Proof.
  intros V Fi. destruct x as [s| | |s m ex]; try discriminate.
  - cbn [fq]. apply Qlt_le_weak, pow2_pos.
  - apply valid_canon in V. destruct V as [C B]. cbn [fq]. rewrite dyq_cond, sgn_Qabs by apply dyq_pos_nonneg.
    assert (L : (Zpos (digits2_pos m) + ex <= em)%Z) by (unfold SpecFloat.fexp, emin in C; unfold good in G; lia).
    eapply Qle_trans; [|apply pow2_le; exact L]. rewrite Qpower_plus by exact two_nz. unfold dyq.
    apply Qmult_le_compat_r; [|apply Qlt_le_weak, pow2_pos].
    rewrite <- pow2_int by lia. rewrite <- Zle_Qle. pose proof (digits2_spec m). lia.
Qed.
Lemma fq_eta x : valid t x -> finite x = true -> (Qabs (fq x) * eta <= 4 * u)%Q.
Proof.
  intros V Fi. pose proof (fq_lt x V Fi) as L. pose proof (eta_pos t) as P.
  assert (E : (Qpower 2 em * eta == 4 * u)%Q).
  { unfold FloatRound.eta, uu. rewrite <- Qpower_plus by exact two_nz.
    replace (em + (3 - em - p - 1))%Z with (2 + - p)%Z by lia. rewrite Qpower_plus by exact two_nz. reflexivity. }
  rewrite <- E. apply Qmult_le_compat_r; lra.
Qed.
Lemma sub_zero x : finite x = true -> finite (SFsub p em fzero x) = true /\ (fq (SFsub p em fzero x) == - fq x)%Q.
Proof.
  intros Fi. destruct x as [s| | |s m ex]; try discriminate.
  - destruct s; split; reflexivity.
  - split; [reflexivity|]. change (SFsub p em fzero (S754_finite s m ex)) with (SFopp (S754_finite s m ex)). apply fq_opp.
Qed.

(** one entry of a replaced row: u' = u - x * w *)
Lemma replace_err a x w : valid t a -> valid t x -> valid t w -> finite x = true -> finite (SFadd p em a (SFmul p em w (SFsub p em fzero x))) = true ->
  finite a = true /\ finite w = true /\
  (Qabs (fq a - (fq x * fq w + fq (SFadd p em a (SFmul p em w (SFsub p em fzero x))))) <=
    2 * u * (Qabs (fq x * fq w) + Qabs (fq (SFadd p em a (SFmul p em w (SFsub p em fzero x))))) + eta)%Q.
Proof.
  intros Va Vx Vw Fx Fi. set (nx := SFsub p em fzero x) in *. destruct (sub_zero x Fx) as [Fn En]. fold nx in Fn, En.
  assert (Vn : valid t nx) by (apply (sub_valid t G); [reflexivity|exact Vx]).
  set (q := SFmul p em w nx) in *. destruct (add_finite _ _ _ Fi) as [Fa Fq].
  destruct (mul_finite _ _ _ Fq) as [Fw _]. split; [exact Fa|]. split; [exact Fw|].
  destruct (mul_near t G w nx Vw Vn Fw Fn) as (Vq & _ & Mq & _). specialize (Mq Fq). fold q in Vq, Mq.
  destruct (add_near t G a q Va Vq Fa Fq) as (_ & _ & Ma & _). specialize (Ma Fi).
  set (b := SFadd p em a q) in *. pose proof (uu_pos t) as Pu. pose proof (eta_pos t) as Pe.
  setoid_replace (fq w * fq nx)%Q with (- (fq x * fq w))%Q in Mq by (rewrite En; ring). rewrite Qabs_opp in Mq.
  revert Mq Ma. generalize (fq x * fq w)%Q, (fq q), (fq a), (fq b). clear - US Pu Pe. intros xw q a b Mq Ma.
  assert (D : (Qabs (a + q) <= Qabs b + Qabs (b - (a + q)))%Q).
  { setoid_replace (a + q)%Q with (b - (b - (a + q)))%Q at 1 by ring. eapply Qle_trans; [apply Qabs_triangle|]. rewrite Qabs_opp. lra. }
  assert (E : (Qabs (a - (xw + b)) <= Qabs (q - - xw) + Qabs (b - (a + q)))%Q).
  { setoid_replace (a - (xw + b))%Q with (- ((q - - xw) + (b - (a + q))))%Q by ring. rewrite Qabs_opp. apply Qabs_triangle. }
  pose proof (Qabs_nonneg xw). pose proof (Qabs_nonneg b). pose proof (Qabs_nonneg (a + q)).
  revert Mq Ma D E H H0 H1. generalize (Qabs (a - (xw + b))), (Qabs (q - - xw)), (Qabs (b - (a + q))), (Qabs (a + q)), (Qabs xw), (Qabs b).
  clear - US Pu Pe. intros e0 e1 e2 s x b Mq Ma D E Px Pb Ps.
  assert (B : (u * s <= (1 # 1000) * s)%Q) by nra.
  assert (B2 : (u * s <= u * b + u * e2)%Q) by nra.
  assert (B3 : (0 <= e2 -> u * e2 <= (1 # 1000) * e2)%Q) by (intros; nra).
  assert (B4 : (0 <= u * b)%Q) by nra. assert (B5 : (0 <= u * x)%Q) by nra.
  destruct (Qlt_le_dec e2 0) as [N|N]; [|specialize (B3 N)]; lra.
Qed.

(** one entry of a scaled row *)
Lemma scale_err x v : valid t x -> valid t v -> finite x = true -> ~ (fq x == 0)%Q ->
  finite (SFmul p em (SFdiv p em (fone t) x) v) = true ->
  finite v = true /\
  (Qabs (fq v - fq x * fq (SFmul p em (SFdiv p em (fone t) x) v)) <=
     8 * u * Qabs (fq x * fq (SFmul p em (SFdiv p em (fone t) x) v)) + 2 * Qabs (fq x) * eta)%Q.
Proof.
  intros Vx Vv Fx Nx Fi. set (y := SFdiv p em (fone t) x) in *. destruct (mul_finite _ _ _ Fi) as [Fy Fv]. split; [exact Fv|].
  destruct (fone_val t G) as (V1 & F1 & Q1'). assert (Q1 : (fq (fone t) == 1)%Q) by (rewrite <- fq_fval, Q1'; reflexivity).
  destruct (div_near t G (fone t) x V1 Vx F1 Fx Nx) as (Vy & _ & My & _). fold y in Vy, My. specialize (My Fy).
  destruct (mul_near t G y v Vy Vv Fy Fv) as (_ & _ & Mv & _). specialize (Mv Fi).
  pose proof (fq_eta x Vx Fx) as Xe. pose proof (uu_pos t) as Pu. pose proof (eta_pos t) as Pe.
  setoid_replace (fq (fone t) / fq x)%Q with (/ fq x)%Q in My by (rewrite Q1; field; exact Nx).
  revert Nx My Mv Xe. generalize (fq x), (fq y), (fq v), (fq (SFmul p em y v)). clear - US Pu Pe. intros x y v v' Nx My Mv Xe.
  set (X := (Qabs x * eta)%Q) in *.
  assert (PX : (0 <= X)%Q) by (apply Qmult_le_0_compat; [apply Qabs_nonneg|lra]).
  assert (D : (Qabs (x * y - 1) <= u + X)%Q).
  { setoid_replace (x * y - 1)%Q with (x * (y - / x))%Q by (field; exact Nx). rewrite Qabs_Qmult.
    assert (I : (Qabs x * Qabs (/ x) == 1)%Q) by (rewrite <- Qabs_Qmult; setoid_replace (x * / x)%Q with 1%Q by (field; exact Nx); reflexivity).
    pose proof (Qabs_nonneg x) as Px. assert (L : (Qabs x * Qabs (y - / x) <= Qabs x * (u * Qabs (/ x) + eta))%Q).
    { rewrite !(Qmult_comm (Qabs x)). apply Qmult_le_compat_r; assumption. }
    assert (R : (Qabs x * (u * Qabs (/ x) + eta) == u * (Qabs x * Qabs (/ x)) + X)%Q) by (unfold X; ring). rewrite R, I in L. lra. }
  assert (E : (Qabs (v - x * v') <= Qabs x * Qabs (v' - y * v) + Qabs (x * y - 1) * Qabs v)%Q).
  { rewrite <- !Qabs_Qmult. setoid_replace (v - x * v')%Q with (- (x * (v' - y * v) + (x * y - 1) * v))%Q by ring. rewrite Qabs_opp. apply Qabs_triangle. }
  assert (Y : (Qabs x * Qabs (y * v) <= (1 + (u + X)) * Qabs v)%Q).
  { rewrite Qabs_Qmult, Qmult_assoc, <- Qabs_Qmult. apply Qmult_le_compat_r; [|apply Qabs_nonneg].
    setoid_replace (x * y)%Q with (1 + (x * y - 1))%Q by ring. eapply Qle_trans; [apply Qabs_triangle|].
    change (Qabs 1) with 1%Q. lra. }
  assert (E1 : (Qabs x * Qabs (v' - y * v) <= u * (Qabs x * Qabs (y * v)) + X)%Q).
  { setoid_replace (u * (Qabs x * Qabs (y * v)) + X)%Q with ((u * Qabs (y * v) + eta) * Qabs x)%Q by (unfold X; ring).
    rewrite (Qmult_comm (Qabs x)). apply Qmult_le_compat_r; [exact Mv|apply Qabs_nonneg]. }
  assert (V : (Qabs v <= Qabs (x * v') + Qabs (v - x * v'))%Q).
  { setoid_replace v with (x * v' + (v - x * v'))%Q at 1 by ring. apply Qabs_triangle. }
  setoid_replace (2 * Qabs x * eta)%Q with (2 * X)%Q by (unfold X; ring).
  pose proof (Qabs_nonneg v). pose proof (Qabs_nonneg (x * v')). pose proof (Qabs_nonneg (v - x * v')).
  revert D E Y E1 V H H0 H1 Xe PX. generalize (Qabs (v - x * v')), (Qabs x * Qabs (v' - y * v))%Q, (Qabs (x * y - 1)), (Qabs v), (Qabs (x * v')), (Qabs x * Qabs (y * v))%Q, X.
  clear - US Pu. intros E a d v P b X D E0 Y E1 V Pv PP PE XU PX.
  assert (H1 : (d * v <= 5 * u * v)%Q) by nra.
  assert (H2 : (b <= (1 # 1) * v + 5 * u * v)%Q) by nra.
  assert (H3 : (u * v <= (1 # 1000) * v)%Q) by nra.
  assert (H4 : (u * b <= u * v + 5 * (u * (u * v)))%Q) by nra.
  assert (H5 : (u * (u * v) <= (1 # 1000) * (u * v))%Q) by (assert (0 <= u * v)%Q by nra; nra).
  assert (H6 : (u * v <= u * P + u * E)%Q) by nra.
  assert (H7 : (u * E <= (1 # 1000) * E)%Q) by nra.
  assert (H8 : (0 <= u * P)%Q) by nra. lra.
Qed.

(** ** The invariant of lu *)
Notation wp := (wp t).
Definition nq (n : nat) : Q := inject_Z (Z.of_nat n).
Lemma nq_S n : (nq (S n) == nq n + 1)%Q.
Proof. unfold nq. rewrite Nat2Z.inj_succ. unfold Z.succ. rewrite inject_Z_plus. reflexivity. Qed.
Lemma nq_pos n : (0 <= nq n)%Q.
Proof. unfold nq. change 0%Q with (inject_Z 0). rewrite <- Zle_Qle. lia. Qed.

Notation L s := (mentry (lu_l s)).
Notation U s := (mentry (lu_u s)).
Record flu (n m : nat) (a : mat F) (r : nat) (s : @lu_state F) : Prop := {
  fl_perm : is_perm n (lu_p s);
  fl_r : r <= n;
  fl_shl : shp n n (lu_l s);
  fl_shu : shp n m (lu_u s);
  fl_vl : forall i k, i < n -> k < n -> valid t (L s i k);
  fl_vu : forall i j, i < n -> j < m -> valid t (U s i j);
  fl_id : forall i k, i < n -> k < n -> r <= k -> L s i k = if i =? k then fone t else fzero;
  fl_low : forall i k, i < k -> k < n -> L s i k = fzero;
  fl_dom : forall i k, k < i -> i < n -> abs_le (L s i k) (L s k k);
  fl_piv : forall k, k < r -> float_epsilon_equals t (L s k k) fzero = false;
  fl_done : forall i j, i < r -> j < m -> (forall k, k <= i -> finite (L s i k) = true) -> (forall k, k <= i -> finite (U s k j) = true) ->
    finite (mentry a (nth i (lu_p s) O) j) = true /\
    (Qabs (fq (mentry a (nth i (lu_p s) O) j) - (sum_below i (fun k => fq (L s i k) * fq (U s k j)) + fq (L s i i) * fq (U s i j)))
     <= (wp (i + 4) - 1) * (sum_below i (fun k => Qabs (fq (L s i k) * fq (U s k j))) + Qabs (fq (L s i i) * fq (U s i j)))
        + (nq i * wp i * eta + wp i * (2 * Qabs (fq (L s i i)) * eta)))%Q;
  fl_todo : forall i j, r <= i -> i < n -> j < m -> (forall k, k < r -> finite (L s i k) = true) -> (forall k, k < r -> finite (U s k j) = true) ->
    finite (U s i j) = true ->
    finite (mentry a (nth i (lu_p s) O) j) = true /\
    (Qabs (fq (mentry a (nth i (lu_p s) O) j) - (sum_below r (fun k => fq (L s i k) * fq (U s k j)) + fq (U s i j)))
     <= (wp r - 1) * (sum_below r (fun k => Qabs (fq (L s i k) * fq (U s k j))) + Qabs (fq (U s i j))) + nq r * wp r * eta)%Q
}.
Lemma pvt_lt n r si i : r < n -> si < n -> i < n -> pvt r si i < n.
Proof. unfold pvt. destruct (i =? r), (i =? si); lia. Qed.
Lemma pvt_ge r si i : r <= si -> r <= i -> r <= pvt r si i.
Proof. unfold pvt. destruct (i =? r), (i =? si); lia. Qed.
Lemma pvt_id r si i : i < r -> r <= si -> pvt r si i = i.
Proof. unfold pvt. intros. destruct (Nat.eqb_spec i r), (Nat.eqb_spec i si); lia. Qed.

Lemma flu_round n m a r c si x s s' : flu n m a r s -> r < n -> c < m -> lu_round TF n m r c si x s s' -> flu n m a (r + 1) s'.
Proof.
  intros [Pm Hrn Shl Shu Vl Vu Id Low Dom Piv Done Todo] Hr Hc [Hs Ex Eps Stb Len Pp Shl' Shu' Ll (y & Ey & Inv) Uu].
  injection Ey as Ey.
  assert (Ur : forall j, j < m -> U s' r j = SFmul p em y (U s si j)) by (intros j Hj; specialize (Inv j Hj); injection Inv as <-; reflexivity).
  assert (Ui : forall i j, r < i -> i < n -> j < m -> U s' i j =
    SFadd p em (U s (pvt r si i) j) (SFmul p em (U s' r j) (SFsub p em fzero (U s (pvt r si i) c)))).
  { intros i j Hi Hin Hj. specialize (Uu i j Hin Hj ltac:(lia)). rewrite (proj2 (Nat.ltb_lt r i) Hi) in Uu.
    destruct Uu as (nx & q & A & B & C). injection A as <-. injection B as <-. injection C as <-. reflexivity. }
  assert (Uk : forall k j, k < r -> j < m -> U s' k j = U s k j).
  { intros k j Hk Hj. specialize (Uu k j ltac:(lia) Hj ltac:(lia)). destruct (Nat.ltb_spec r k); [lia|]. exact Uu. }
  assert (Lk : forall i k, i < n -> k < r -> L s' i k = L s (pvt r si i) k).
  { intros i k Hi Hk. rewrite Ll by lia. destruct (Nat.eqb_spec k r), (Nat.ltb_spec k r); try lia. reflexivity. }
  assert (Lrr : L s' r r = x) by (rewrite Ll, !Nat.eqb_refl by lia; reflexivity).
  assert (Lir : forall i, r < i -> i < n -> L s' i r = U s (pvt r si i) c).
  { intros i Hi Hin. rewrite Ll, Nat.eqb_refl by lia. destruct (Nat.eqb_spec i r), (Nat.ltb_spec r i); try lia. reflexivity. }
  assert (Lbig : forall i k, i < n -> k < n -> r < k -> L s' i k = L s i k).
  { intros i k Hi Hk Hrk. rewrite Ll by lia. destruct (Nat.eqb_spec k r), (Nat.ltb_spec k r); try lia. reflexivity. }
  assert (Vx : valid t x) by (rewrite Ex; apply Vu; lia).
  assert (Vy : valid t y) by (rewrite <- Ey; apply div_valid; [apply (fone_val t G)|exact Vx]).
  assert (Vur : forall j, j < m -> valid t (U s' r j)) by (intros j Hj; rewrite Ur by exact Hj; apply (mul_valid t G); [exact Vy|apply Vu; lia]).
  assert (Hp : forall i, i < n -> pvt r si i < n) by (intros; apply pvt_lt; lia).
  (* the pivot is the largest candidate *)
  assert (Mx : forall i, r <= i -> i < n -> r < i -> abs_le (U s (pvt r si i) c) x).
  { intros i Hi Hin Hlt. destruct Shu as (Sh & Rn & Cm).
    assert (Nn : forall q, r <= q < mrows (lu_u s) -> is_nan (U s q c) = false).
    { intros q Hq. destruct (is_nan (U s q c)) eqn:N; [|reflexivity]. exfalso.
      pose proof (C83_pivot_nan t e (lu_u s) c r q Sh ltac:(lia) ltac:(lia) Hq N) as P. rewrite P in Stb. discriminate. }
    destruct (C83_pivot t e (lu_u s) c r Sh ltac:(lia) ltac:(lia) Nn) as (o & Eo & P). rewrite Eo in Stb. injection Stb as ->.
    destruct P as (_ & _ & _ & P). apply P. rewrite Rn. split; [apply pvt_ge; lia|apply Hp; lia]. }
  split.
  - eapply (is_perm_swap n (lu_p s) _ r si); [exact Pm|exact Hr|lia|exact Len|exact Pp].
  - lia.
  - exact Shl'.
  - exact Shu'.
  - intros i k Hi Hk. destruct (Nat.lt_trichotomy k r) as [K|[->|K]].
    + rewrite Lk by assumption. apply Vl; [apply Hp; exact Hi|lia].
    + destruct (Nat.lt_trichotomy i r) as [I|[->|I]].
      * rewrite Ll, Nat.eqb_refl by lia. destruct (Nat.eqb_spec i r), (Nat.ltb_spec r i); try lia. apply Vl; lia.
      * rewrite Lrr. exact Vx.
      * rewrite Lir by assumption. apply Vu; [apply Hp; exact Hi|exact Hc].
    + rewrite Lbig by assumption. apply Vl; assumption.
  - intros i j Hi Hj. destruct (Nat.lt_trichotomy i r) as [I|[->|I]].
    + rewrite Uk by assumption. apply Vu; lia.
    + apply Vur. exact Hj.
    + rewrite Ui by assumption. apply (add_valid t G); [apply Vu; [apply Hp; exact Hi|exact Hj]|].
      apply (mul_valid t G); [apply Vur; exact Hj|]. apply (sub_valid t G); [reflexivity|]. apply Vu; [apply Hp; exact Hi|exact Hc].
  - intros i k Hi Hk Hrk. rewrite Lbig by lia. apply Id; lia.
  - intros i k Hik Hk. destruct (Nat.lt_trichotomy k r) as [K|[->|K]].
    + rewrite Lk by lia. rewrite pvt_id by lia. apply Low; lia.
    + rewrite Ll, Nat.eqb_refl by lia. destruct (Nat.eqb_spec i r), (Nat.ltb_spec r i); try lia. apply Low; lia.
    + rewrite Lbig by lia. apply Low; lia.
  - intros i k Hki Hi. destruct (Nat.lt_trichotomy k r) as [K|[->|K]].
    + rewrite !Lk by lia. rewrite (pvt_id r si k) by lia. apply Dom; [|apply Hp; exact Hi].
      destruct (Nat.lt_ge_cases i r); [rewrite pvt_id by lia; exact Hki|]. pose proof (pvt_ge r si i ltac:(lia) ltac:(lia)). lia.
    + rewrite Lrr, Lir by lia. apply Mx; lia.
    + rewrite !Lbig by lia. apply Dom; lia.
  - intros k Hk. destruct (Nat.eq_dec k r) as [->|N]; [rewrite Lrr; exact Eps|]. rewrite Lk by lia. rewrite pvt_id by lia. apply Piv. lia.
  - intros i j Hi Hj Fl Fu. destruct (Nat.eq_dec i r) as [->|N].
    + (* the scaled row *)
      rewrite Pp. replace (pvt r si r) with si by (unfold pvt; rewrite Nat.eqb_refl; reflexivity).
      pose proof (Fl r ltac:(lia)) as Fx. rewrite Lrr in Fx |- *. pose proof (Fu r ltac:(lia)) as Fr.
      assert (E1 : (sum_below r (fun k => fq (L s' r k) * fq (U s' k j)) == sum_below r (fun k => fq (L s si k) * fq (U s k j)))%Q).
      { apply sum_below_ext. intros k Hk. rewrite Lk, Uk by lia. unfold pvt. rewrite Nat.eqb_refl. reflexivity. }
      assert (E2 : (sum_below r (fun k => Qabs (fq (L s' r k) * fq (U s' k j))) == sum_below r (fun k => Qabs (fq (L s si k) * fq (U s k j))))%Q).
      { apply sum_below_ext. intros k Hk. rewrite Lk, Uk by lia. unfold pvt. rewrite Nat.eqb_refl. reflexivity. }
      rewrite E1, E2. rewrite (Ur j Hj) in Fr |- *. rewrite <- Ey in Fr |- *.
      destruct (scale_err x (U s si j) Vx ltac:(apply Vu; lia) Fx (eps_nonzero x Fx Eps) Fr) as [Fs Se].
      specialize (Todo si j ltac:(lia) ltac:(lia) Hj). rewrite <- Ey in Ur.
      assert (T := Todo (fun k Hk => eq_ind _ (fun z => finite z = true) (Fl k ltac:(lia)) _ (eq_trans (Lk r k Hr Hk) ltac:(unfold pvt; rewrite Nat.eqb_refl; reflexivity)))
        (fun k Hk => eq_ind _ (fun z => finite z = true) (Fu k ltac:(lia)) _ (Uk k j Hk Hj)) Fs).
      destruct T as [Fa T]. split; [exact Fa|].
      set (v' := SFmul p em (SFdiv p em (fone t) x) (U s si j)) in *.
      pose proof (uu_pos t) as Pu. pose proof (eta_pos t) as Pe.
      assert (P0 : (0 <= sum_below r (fun k => Qabs (fq (L s si k) * fq (U s k j))))%Q) by (apply sum_below_nonneg; intros; apply Qabs_nonneg).
      pose proof (absorb _ _ _ (fq x * fq v')%Q (Qabs (fq x * fq v')) _ _ _ (8 * u) (2 * Qabs (fq x) * eta)%Q (wp_ge t r) ltac:(lra) P0 (Qabs_nonneg _) T Se (Qle_refl _)) as A.
      eapply Qle_trans; [exact A|]. pose proof (wp_4 t r) as W4. pose proof (Qabs_nonneg (fq x * fq v')) as P1.
      revert W4 P0 P1. generalize (sum_below r (fun k => Qabs (fq (L s si k) * fq (U s k j)))), (Qabs (fq x * fq v')), (wp (r + 4)), (wp r * (1 + 8 * u))%Q.
      intros q1 q2 w1 w2 W4 P0 P1. assert ((w2 - 1) * (q1 + q2) <= (w1 - 1) * (q1 + q2))%Q by nra. lra.
    + assert (I : i < r) by lia. rewrite Pp, pvt_id by lia.
      assert (Li : forall k, k <= i -> L s' i k = L s i k).
      { intros k Hk. rewrite Lk by lia. rewrite pvt_id by lia. reflexivity. }
      rewrite (Li i), (Uk i j) by lia.
      assert (E1 : (sum_below i (fun k => fq (L s' i k) * fq (U s' k j)) == sum_below i (fun k => fq (L s i k) * fq (U s k j)))%Q).
      { apply sum_below_ext. intros k Hk. rewrite Li, Uk by lia. reflexivity. }
      assert (E2 : (sum_below i (fun k => Qabs (fq (L s' i k) * fq (U s' k j))) == sum_below i (fun k => Qabs (fq (L s i k) * fq (U s k j))))%Q).
      { apply sum_below_ext. intros k Hk. rewrite Li, Uk by lia. reflexivity. }
      rewrite E1, E2. apply Done; [exact I|exact Hj| |].
      * intros k Hk. rewrite <- Li by exact Hk. apply Fl. exact Hk.
      * intros k Hk. rewrite <- (Uk k j) by lia. apply Fu. exact Hk.
  - intros i j Hi Hin Hj Fl Fu Fi. assert (I : r < i) by lia. set (i0 := pvt r si i).
    assert (H0 : r <= i0 < n) by (split; [apply pvt_ge; lia|apply Hp; exact Hin]).
    rewrite Pp. fold i0. rewrite Nat.add_1_r in *.
    assert (E1 : (sum_below (S r) (fun k => fq (L s' i k) * fq (U s' k j)) == sum_below r (fun k => fq (L s i0 k) * fq (U s k j)) + fq (U s i0 c) * fq (U s' r j))%Q).
    { rewrite sum_below_S, Lir by assumption. fold i0. apply Qplus_comp; [|reflexivity]. apply sum_below_ext. intros k Hk. rewrite Lk, Uk by lia. reflexivity. }
    assert (E2 : (sum_below (S r) (fun k => Qabs (fq (L s' i k) * fq (U s' k j))) == sum_below r (fun k => Qabs (fq (L s i0 k) * fq (U s k j))) + Qabs (fq (U s i0 c) * fq (U s' r j)))%Q).
    { rewrite sum_below_S, Lir by assumption. fold i0. apply Qplus_comp; [|reflexivity]. apply sum_below_ext. intros k Hk. rewrite Lk, Uk by lia. reflexivity. }
    rewrite E1, E2. pose proof (Fl r ltac:(lia)) as Fx. rewrite Lir in Fx by assumption. fold i0 in Fx.
    rewrite (Ui i j) in Fi |- * by assumption. fold i0 in Fi |- *.
    destruct (replace_err (U s i0 j) (U s i0 c) (U s' r j)) as (Fa & Fw & Re); [apply Vu; lia|apply Vu; lia|apply Vur; exact Hj|exact Fx|exact Fi|].
    specialize (Todo i0 j ltac:(lia) ltac:(lia) Hj).
    assert (T := Todo (fun k Hk => eq_ind _ (fun z => finite z = true) (Fl k ltac:(lia)) _ (Lk i k Hin Hk))
      (fun k Hk => eq_ind _ (fun z => finite z = true) (Fu k ltac:(lia)) _ (Uk k j Hk Hj)) Fa).
    destruct T as [Fa0 T]. split; [exact Fa0|]. set (v' := SFadd p em _ _) in *.
    pose proof (uu_pos t) as Pu. pose proof (eta_pos t) as Pe.
    assert (P0 : (0 <= sum_below r (fun k => Qabs (fq (L s i0 k) * fq (U s k j))))%Q) by (apply sum_below_nonneg; intros; apply Qabs_nonneg).
    pose proof (Qabs_nonneg (fq (U s i0 c) * fq (U s' r j))) as P1. pose proof (Qabs_nonneg (fq v')) as P2.
    pose proof (absorb _ _ _ (fq (U s i0 c) * fq (U s' r j) + fq v')%Q (Qabs (fq (U s i0 c) * fq (U s' r j)) + Qabs (fq v')) _ _ _ (2 * u) eta
      (wp_ge t r) ltac:(lra) P0 ltac:(lra) T Re (Qabs_triangle _ _)) as A.
    rewrite !Qplus_assoc in A. eapply Qle_trans; [exact A|]. rewrite wp_S, nq_S. pose proof (wp_ge t r) as W. pose proof (nq_pos r) as Nq.
    apply Qplus_le_r with (z := (- ((wp r * (1 + 2 * u) - 1) * (sum_below r (fun k => Qabs (fq (L s i0 k) * fq (U s k j))) + Qabs (fq (U s i0 c) * fq (U s' r j)) + Qabs (fq v'))))%Q).
    revert W Nq. generalize (wp r), (nq r). clear - Pu Pe. intros w q W Nq.
    assert (0 <= q * w * u * eta)%Q by (repeat apply Qmult_le_0_compat; lra). assert (0 <= w * u * eta)%Q by (repeat apply Qmult_le_0_compat; lra). lra.
Qed.
End LU.
