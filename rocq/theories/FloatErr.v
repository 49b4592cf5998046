(** * Accumulated rounding errors of sums of products. *)
From Verif Require Import Base BaseLemmas FieldIface UtilModel MatModel MatProofs FloatModel FloatExact FloatRound.
From Coq Require Import QArith Qabs Qpower Lqa Lia.
Local Open Scope nat_scope.

Definition qsum (l : list Q) : Q := fold_right Qplus 0%Q l.
Lemma qsum_app l l' : (qsum (l ++ l') == qsum l + qsum l')%Q.
Proof.
  induction l as [|x l IH]; [change (qsum l' == 0 + qsum l')%Q; ring|].
  change (x + qsum (l ++ l') == x + qsum l + qsum l')%Q. rewrite IH. ring.
Qed.

Section Err.
Context (t : fmt) (G : good t).
Notation p := (prec t).
Notation em := (emax t).
Notation u := (uu t).
Notation eta := (eta t).

(** (1 + u)^n *)
Definition gpow (n : nat) : Q := Qpower (1 + u) (Z.of_nat n).
Lemma gpow_0 : (gpow 0 == 1)%Q.
Proof. reflexivity. Qed.
Lemma gpow_S n : (gpow (S n) == (1 + u) * gpow n)%Q.
Proof.
  assert (N : ~ (1 + u == 0)%Q) by (pose proof (uu_pos t); intros H0; lra).
  unfold gpow. rewrite Nat2Z.inj_succ. unfold Z.succ. rewrite Qpower_plus by exact N.
  change (Qpower (1 + u) 1) with (1 + u)%Q. ring.
Qed.
Lemma gpow_ge n : (1 <= gpow n)%Q.
Proof. induction n as [|n IH]; [rewrite gpow_0; lra|]. rewrite gpow_S. pose proof (uu_pos t). nra. Qed.
Lemma gpow_mono n : (gpow n <= gpow (S n))%Q.
Proof. rewrite gpow_S. pose proof (uu_pos t). pose proof (gpow_ge n). nra. Qed.

Lemma add_valid x y : valid t x -> valid t y -> valid t (SFadd p em x y).
Proof.
  intros Vx Vy. destruct (finite x) eqn:Fx; [destruct (finite y) eqn:Fy|].
  - apply (add_near t G x y Vx Vy Fx Fy).
  - destruct x, y; try discriminate; try reflexivity; try exact Vy.
  - destruct x, y; try discriminate; try reflexivity; try exact Vx; try exact Vy. cbn [SFadd]. destruct (Bool.eqb _ _); reflexivity.
Qed.
Lemma mul_valid x y : valid t x -> valid t y -> valid t (SFmul p em x y).
Proof.
  intros Vx Vy. destruct (finite x) eqn:Fx; [destruct (finite y) eqn:Fy|].
  - apply (mul_near t G x y Vx Vy Fx Fy).
  - destruct x, y; try discriminate; reflexivity.
  - destruct x, y; try discriminate; reflexivity.
Qed.
Lemma sub_valid x y : valid t x -> valid t y -> valid t (SFsub p em x y).
Proof.
  intros Vx Vy. destruct (finite x) eqn:Fx; [destruct (finite y) eqn:Fy|].
  - apply (sub_near t G x y Vx Vy Fx Fy).
  - destruct x, y; try discriminate; try reflexivity; try exact Vy.
  - destruct x, y; try discriminate; try reflexivity; try exact Vx; try exact Vy. cbn [SFsub]. destruct (Bool.eqb _ _); reflexivity.
Qed.
(** an operand which is not finite is not forgotten *)
Lemma add_finite x y : finite (SFadd p em x y) = true -> finite x = true /\ finite y = true.
Proof. destruct x, y; try discriminate; try (intros _; split; reflexivity). cbn [SFadd]. destruct (Bool.eqb _ _); discriminate. Qed.
Lemma mul_finite x y : finite (SFmul p em x y) = true -> finite x = true /\ finite y = true.
Proof. destruct x, y; try discriminate; intros _; split; reflexivity. Qed.

(** ** One step of a sum of products *)
Definition dstep (acc : float) (a : float * float) : float := SFadd p em acc (SFmul p em (fst a) (snd a)).
Definition dprod (a : float * float) : Q := (fq (fst a) * fq (snd a))%Q.
(** bound of the error after [k] steps, when the absolute values of the summands add up to [A] *)
Definition dbound (k : nat) (A : Q) : Q := ((gpow (S k) - 1) * A + inject_Z (Z.of_nat k) * eta * gpow k)%Q.
Lemma dstep_err acc a k S A : valid t acc -> valid t (fst a) -> valid t (snd a) -> finite (dstep acc a) = true ->
  (Qabs S <= A)%Q -> (Qabs (fq acc - S) <= dbound k A)%Q ->
  (Qabs (fq (dstep acc a) - (S + dprod a)) <= dbound (Datatypes.S k) (A + Qabs (dprod a)))%Q.
Proof.
  intros Va V1 V2 Fi SA E. unfold dstep in *. destruct (add_finite _ _ Fi) as [Fa Fm]. destruct (mul_finite _ _ Fm) as [F1 F2].
  destruct (mul_near t G _ _ V1 V2 F1 F2) as (Vm & _ & Em & _). specialize (Em Fm). fold (dprod a) in Em.
  destruct (add_near t G _ _ Va Vm Fa Fm) as (_ & _ & Es & _). specialize (Es Fi).
  set (z := fq (SFadd _ _ _ _)) in *. set (m := fq (SFmul _ _ _ _)) in *. set (x := fq acc) in *. set (xy := dprod a) in *.
  clearbody z m x xy. clear Fi Fa Fm F1 F2 Va V1 V2 Vm.
  unfold dbound in *. rewrite Nat2Z.inj_succ. unfold Z.succ. rewrite inject_Z_plus. change (inject_Z 1) with 1%Q.
  pose proof (gpow_S (Datatypes.S k)) as G2. pose proof (gpow_S k) as G1. pose proof (gpow_ge k) as G0.
  pose proof (uu_pos t) as Up. pose proof (eta_pos t) as Ep.
  set (g2 := gpow (Datatypes.S (Datatypes.S k))) in *. set (g1 := gpow (Datatypes.S k)) in *. set (g0 := gpow k) in *. set (w := u) in *. set (h := eta) in *.
  set (n := inject_Z (Z.of_nat k)) in *.
  assert (Np : (0 <= n)%Q) by (unfold n; change 0%Q with (inject_Z 0); rewrite <- Zle_Qle; lia).
  clearbody g2 g1 g0 w h n.
  (* the triangle inequalities *)
  assert (T1 : (Qabs (x + m) <= Qabs (x - S) + Qabs (m - xy) + Qabs S + Qabs xy)%Q).
  { pose proof (Qabs_triangle (x - S) (m - xy)). pose proof (Qabs_triangle S xy). pose proof (Qabs_triangle (x - S + (m - xy)) (S + xy)).
    assert (Eq : (x - S + (m - xy) + (S + xy) == x + m)%Q) by ring. rewrite Eq in H1. lra. }
  assert (T2 : (Qabs (z - (S + xy)) <= Qabs (z - (x + m)) + Qabs (x - S) + Qabs (m - xy))%Q).
  { pose proof (Qabs_triangle (z - (x + m)) ((x - S) + (m - xy))). pose proof (Qabs_triangle (x - S) (m - xy)).
    assert (Eq : (z - (x + m) + (x - S + (m - xy)) == z - (S + xy))%Q) by ring. rewrite Eq in H. lra. }
  pose proof (Qabs_nonneg xy) as Pxy. pose proof (Qabs_nonneg S) as PS. pose proof (Qabs_nonneg (x - S)) as Px. pose proof (Qabs_nonneg (m - xy)) as Pm.
  set (axy := Qabs xy) in *. set (aS := Qabs S) in *. set (ex := Qabs (x - S)) in *. set (emm := Qabs (m - xy)) in *.
  set (az := Qabs (z - (x + m))) in *. set (axm := Qabs (x + m)) in *. set (goal := Qabs (z - (S + xy))) in *.
  clearbody axy aS ex emm az axm goal.
  assert (B1 : (goal <= (1 + w) * ex + (1 + w) * emm + w * (A + axy))%Q) by nra.
  assert (B2 : ((1 + w) * ex <= (1 + w) * ((g1 - 1) * A + n * h * g0))%Q) by nra.
  assert (B3 : ((1 + w) * emm <= (1 + w) * (w * axy + h))%Q) by nra.
  assert (A0 : (0 <= A)%Q) by lra.
  (* collect *)
  assert (C1 : ((1 + w) * (w * axy) + w * axy <= (g2 - 1) * axy)%Q).
  { assert ((1 + w) * w + w <= g2 - 1)%Q by (rewrite G2, G1; nra). nra. }
  assert (C2 : ((1 + w) * h <= h * g1)%Q).
  { rewrite G1. assert (0 <= (1 + w) * h * (g0 - 1))%Q by (apply Qmult_le_0_compat; [apply Qmult_le_0_compat|]; lra). lra. }
  assert (C3 : ((1 + w) * (n * h * g0) == n * h * g1)%Q) by (rewrite G1; ring).
  assert (C4 : ((1 + w) * ((g1 - 1) * A) + w * A == (g2 - 1) * A)%Q) by (rewrite G2; ring).
  lra.
Qed.
(** the products of a list *)
Lemma dfold_err l : forall acc k S A, valid t acc -> (forall a, In a l -> valid t (fst a) /\ valid t (snd a)) ->
  finite (fold_left dstep l acc) = true -> (Qabs S <= A)%Q -> (Qabs (fq acc - S) <= dbound k A)%Q ->
  (Qabs (fq (fold_left dstep l acc) - (S + qsum (map dprod l))) <= dbound (k + length l) (A + qsum (map (fun a => Qabs (dprod a)) l)))%Q.
Proof.
  induction l as [|a l IH]; intros acc k S A Va Vl Fi SA E; cbn [fold_left map qsum fold_right length].
  - rewrite Nat.add_0_r. assert (Es : (S + 0 == S)%Q) by ring. rewrite Es. eapply Qle_trans; [exact E|]. unfold dbound.
    assert (Ea : (A + 0 == A)%Q) by ring. rewrite Ea. apply Qle_refl.
  - fold (qsum (map dprod l)). fold (qsum (map (fun a => Qabs (dprod a)) l)).
    destruct (Vl a (or_introl eq_refl)) as [V1 V2].
    assert (Vs : valid t (dstep acc a)) by (apply add_valid; [exact Va|apply mul_valid; assumption]).
    assert (Fs : finite (dstep acc a) = true).
    { cbn [fold_left] in Fi. clear - Fi. revert Fi. generalize (dstep acc a). induction l as [|b l IH]; intros z Fi; [exact Fi|].
      cbn [fold_left] in Fi. apply IH in Fi. unfold dstep in Fi. apply add_finite in Fi. apply Fi. }
    assert (SA' : (Qabs (S + dprod a) <= A + Qabs (dprod a))%Q) by (pose proof (Qabs_triangle S (dprod a)); lra).
    pose proof (dstep_err acc a k S A Va V1 V2 Fs SA E) as E'.
    specialize (IH (dstep acc a) (Datatypes.S k) (S + dprod a)%Q (A + Qabs (dprod a))%Q Vs (fun b Hb => Vl b (or_intror Hb)) Fi SA' E').
    replace (k + Datatypes.S (length l)) with (Datatypes.S k + length l) by lia.
    assert (Eq1 : (S + (dprod a + qsum (map dprod l)) == S + dprod a + qsum (map dprod l))%Q) by ring. rewrite Eq1.
    eapply Qle_trans; [exact IH|]. unfold dbound.
    assert (Eq2 : (A + Qabs (dprod a) + qsum (map (fun a => Qabs (dprod a)) l) == A + (Qabs (dprod a) + qsum (map (fun a => Qabs (dprod a)) l)))%Q) by ring.
    rewrite Eq2. apply Qle_refl.
Qed.
Lemma dfold_zero s l : (forall a, In a l -> valid t (fst a) /\ valid t (snd a)) ->
  finite (fold_left dstep l (S754_zero s)) = true ->
  (Qabs (fq (fold_left dstep l (S754_zero s)) - qsum (map dprod l)) <= dbound (length l) (qsum (map (fun a => Qabs (dprod a)) l)))%Q.
Proof.
  intros Vl Fi. pose proof (dfold_err l (S754_zero s) 0 0 0 eq_refl Vl Fi) as H.
  assert (Z1 : (Qabs 0 <= 0)%Q) by apply Qle_refl.
  assert (Z2 : (Qabs (fq (S754_zero s) - 0) <= dbound 0 0)%Q).
  { unfold dbound. cbn [fq]. change (inject_Z (Z.of_nat 0)) with 0%Q. assert (Ez : (0 - 0 == 0)%Q) by ring. rewrite Ez. change (Qabs 0) with 0%Q.
    rewrite Qmult_0_r, Qmult_0_l, Qmult_0_l. apply Qle_refl. }
  specialize (H Z1 Z2). rewrite Qplus_0_l in H. eapply Qle_trans; [exact H|]. cbn [Nat.add]. unfold dbound. rewrite Qplus_0_l. apply Qle_refl.
Qed.
Lemma dfold_valid l : forall acc, valid t acc -> (forall a, In a l -> valid t (fst a) /\ valid t (snd a)) -> valid t (fold_left dstep l acc).
Proof.
  induction l as [|a l IH]; intros acc Va Vl; [exact Va|]. destruct (Vl a (or_introl eq_refl)).
  apply IH; [apply add_valid; [exact Va|apply mul_valid; assumption]|]. intros b Hb. apply Vl. right. exact Hb.
Qed.
Lemma foldM_dstep l : forall acc, foldM (fun (acc : float) (a : float * float) => bind (Ok (SFmul p em (fst a) (snd a))) (fun q => Ok (SFadd p em acc q))) l acc
  = Ok (fold_left dstep l acc).
Proof. induction l as [|a l IH]; intros acc; [reflexivity|]. cbn [foldM bind]. apply IH. Qed.
End Err.
