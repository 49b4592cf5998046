(** * C86: rounding errors of polynomial arithmetic over f32 and f64. *)
From Verif Require Import Base BaseLemmas FieldIface MDegModel PolyModel MonoSpec MDegProofs FloatModel FloatExact FloatRound FloatErr CleanShape PropFloatDiv PropFloatErr PropClean.
From Coq Require Import QArith Qabs Qpower Lqa Lia.
Local Open Scope nat_scope.

(** the degree vector [d] belongs to the product of the monomials of [e1] and [e2] *)
Definition deg_sum (d e1 e2 : list nat) : bool :=
  forallb (fun i => nth i d 0 =? nth i e1 0 + nth i e2 0) (seq 0 (length d + length e1 + length e2)).
Lemma deg_sum_spec d e1 e2 : deg_sum d e1 e2 = true <-> forall i, nth i d 0 = nth i e1 0 + nth i e2 0.
Proof.
  unfold deg_sum. rewrite forallb_forall. split.
  - intros H i. destruct (Nat.lt_ge_cases i (length d + length e1 + length e2)) as [L|L].
    + apply Nat.eqb_eq. apply H. apply in_seq. lia.
    + rewrite !nth_overflow by lia. reflexivity.
  - intros H i _. apply Nat.eqb_eq. apply H.
Qed.

Section Err.
Context (t : fmt) (G : good t) (e : fenv).
Notation F := (float_impl t e).
Notation p_ := (prec t).
Notation em := (emax t).
Definition valid_poly (p : poly F) : Prop := Forall (fun s : term F => valid t (coef s : float)) p.
(** the value of a coefficient; absent terms count as zero *)
Definition opt_value (o : option F) : Q := match o with Some c => fq (c : float) | None => 0%Q end.
Definition coef_value (p : poly F) (d : list nat) : Q := opt_value (coef_at p d).
Definition finite_at (p : poly F) (d : list nat) : Prop := forall c : float, coef_at p d = Some c -> finite c = true.
(** the pairs of terms of [p] and [q] whose product has degree [d] *)
Definition pairs (d : list nat) (p q : poly F) : list (float * float) :=
  flat_map (fun a : term F => map (fun b : term F => (coef a : float, coef b : float)) (filter (fun b => deg_sum d (tdeg a) (tdeg b)) q)) p.
Definition product_sum (l : list (float * float)) : Q := qsum (map (fun x => fq (fst x) * fq (snd x))%Q l).
Definition abs_sum (l : list (float * float)) : Q := qsum (map (fun x => Qabs (fq (fst x) * fq (snd x))) l).

Lemma canon_sum d e1 e2 : canon d = mmul (canon e1) (canon e2) <-> deg_sum d e1 e2 = true.
Proof.
  rewrite deg_sum_spec. split.
  - intros H i. pose proof (f_equal (fun x => mexp x i) H) as X. cbv beta in X. rewrite mmul_exp in X. rewrite !canon_exp in X. exact X.
  - intros H. apply mono_ext. intros i. rewrite mmul_exp, !canon_exp. apply H.
Qed.
Definition accu (a : option F) : float := match a with Some c => c | None => fzero end.
Lemma accu_value a : opt_value a = fq (accu a).
Proof. destruct a; reflexivity. Qed.
Lemma add_zero_value (x y : float) : finite x = true -> SFeqb y fzero = true ->
  finite (SFadd p_ em x y) = true /\ (fq (SFadd p_ em x y) == fq x)%Q.
Proof.
  intros Fx Zy. destruct y as [s'|s'| |s' m' k']; try (destruct s'; discriminate); try discriminate.
  destruct x as [s|s| |s m k]; try discriminate; cbn [SFadd]; [|split; reflexivity]. destruct (Bool.eqb s s'); split; reflexivity.
Qed.
Lemma zero_value (y : float) : SFeqb y fzero = true -> finite y = true /\ (fq y == 0)%Q.
Proof. destruct y as [s|s| |s m k]; try (intros _; split; reflexivity); try discriminate; destruct s; discriminate. Qed.
Lemma opt_step (a c : option F) (y : float) : sum_at a (Some (y : F)) c ->
  (forall z : float, c = Some z -> finite z = true) ->
  (forall z : float, a = Some z -> finite z = true) /\
  finite (SFadd p_ em (accu a) y) = true /\ (fq (SFadd p_ em (accu a) y) == opt_value c)%Q.
Proof.
  intros S Fc. unfold sum_at in S. cbn [feqb float_impl f0] in S. destruct (SFeqb y fzero) eqn:Zy.
  - subst c. split; [exact Fc|]. rewrite accu_value. apply add_zero_value; [|exact Zy]. destruct a as [x|]; [apply Fc|]; reflexivity.
  - destruct a as [x|]; cbn [accu].
    + destruct S as (z & Ez & Ec). cbn [fadd float_impl] in Ez. injection Ez as <-. set (z := SFadd p_ em x y) in *.
      assert (Fz : finite z = true).
      { destruct (SFeqb z fzero) eqn:Zz; [apply zero_value; exact Zz|apply Fc; exact Ec]. }
      split; [|split; [exact Fz|]].
      * intros w Hw. injection Hw as <-. apply (add_finite t) in Fz. apply Fz.
      * subst c. destruct (SFeqb z fzero) eqn:Zz; [apply zero_value; exact Zz|reflexivity].
    + subst c. specialize (Fc y eq_refl). split; [discriminate|]. destruct y as [s|s| |s m k]; try discriminate.
      split; reflexivity.
Qed.

(** ** Sums and differences *)
Lemma coef_valid (p : poly F) d (c : float) : valid_poly p -> coef_at p d = Some c -> valid t c.
Proof.
  intros V E. destruct (coef_at_Some _ _ _ E) as (s & Is & _ & <-). unfold valid_poly in V. rewrite Forall_forall in V. exact (V s Is).
Qed.
Lemma accu_valid (p : poly F) d : valid_poly p -> valid t (accu (coef_at p d)).
Proof. intros V. destruct (coef_at p d) as [c|] eqn:E; [exact (coef_valid p d c V E)|reflexivity]. Qed.
Lemma sum_valid (p q r : poly F) : distinct p -> distinct q -> valid_poly p -> valid_poly q -> poly_add p q = Ok r -> valid_poly r.
Proof.
  intros Np Nq Vp Vq E. destruct (poly_add_at q p r E Np Nq) as (Nr & _ & A). unfold valid_poly. apply Forall_forall. intros s Is.
  pose proof (coef_at_In r s Nr Is) as Cs. specialize (A (tdeg s)). rewrite Cs in A. unfold sum_at in A.
  destruct (coef_at q (tdeg s)) as [y|] eqn:Ey; [|exact (coef_valid p (tdeg s) (coef s : float) Vp (eq_sym A))].
  cbn [feqb float_impl f0] in A. destruct (SFeqb y fzero); [exact (coef_valid p (tdeg s) (coef s : float) Vp (eq_sym A))|].
  destruct (coef_at p (tdeg s)) as [x|] eqn:Ex; [|injection A as ->; exact (coef_valid q (tdeg s) y Vq Ey)].
  destruct A as (z & Ez & A). injection Ez as <-. cbn [feqb float_impl f0] in A. destruct (SFeqb _ _); [discriminate|]. injection A as ->.
  apply (add_valid t G); [exact (coef_valid p _ x Vp Ex)|exact (coef_valid q _ y Vq Ey)].
Qed.
Lemma add_error (a b c : option F) : sum_at a b c -> valid t (accu a) -> valid t (accu b) ->
  (forall z : float, c = Some z -> finite z = true) ->
  (Qabs (opt_value c - (opt_value a + opt_value b)) <= u t * Qabs (opt_value a + opt_value b))%Q.
Proof.
  intros S Va Vb Fc. destruct b as [y|].
  - destruct (opt_step a c y S Fc) as (_ & Fi & Ev). cbn [accu] in Vb. destruct (add_finite t _ _ Fi) as [Fa Fy].
    destruct (add_near t G _ _ Va Vb Fa Fy) as (_ & _ & N & _). specialize (N Fi). rewrite Ev in N. rewrite !accu_value. rewrite accu_value in N. exact N.
  - cbn [sum_at] in S. subst c. cbn [opt_value]. assert (Z : (opt_value a - (opt_value a + 0) == 0)%Q) by ring. rewrite Z. change (Qabs 0) with 0%Q.
    pose proof (rel_pos t (opt_value a + 0)%Q). exact H.
Qed.
Theorem C86_add : forall p q r d, distinct p -> distinct q -> valid_poly p -> valid_poly q -> poly_add p q = Ok r -> finite_at r d ->
  (Qabs (coef_value r d - (coef_value p d + coef_value q d)) <= u t * Qabs (coef_value p d + coef_value q d))%Q.
Proof.
  intros p q r d Np Nq Vp Vq E Fi. destruct (poly_add_at q p r E Np Nq) as (_ & _ & A).
  apply (add_error _ _ _ (A d)); [apply accu_valid; exact Vp|apply accu_valid; exact Vq|exact Fi].
Qed.
Lemma opp_valid (x : float) : valid t x -> valid t (SFopp x).
Proof. destruct x; intros V; exact V. Qed.
Theorem C86_sub : forall p q r d, distinct p -> distinct q -> valid_poly p -> valid_poly q -> poly_sub p q = Ok r -> finite_at r d ->
  (Qabs (coef_value r d - (coef_value p d - coef_value q d)) <= u t * Qabs (coef_value p d - coef_value q d))%Q.
Proof.
  intros p q r d Np Nq Vp Vq E Fi. unfold poly_sub in E. apply bind_Ok in E as (nq & En & E). destruct (poly_neg_at q nq En) as [Dn An].
  assert (Nn : distinct nq) by (unfold distinct; rewrite Dn; exact Nq).
  assert (Vn : valid_poly nq).
  { unfold valid_poly. apply Forall_forall. intros s Is. pose proof (coef_at_In nq s Nn Is) as Cs. specialize (An (tdeg s)).
    destruct (coef_at q (tdeg s)) as [x|] eqn:Ex; [|congruence]. destruct An as (y & Ey & Ay). rewrite Cs in Ay. injection Ay as ->. injection Ey as <-.
    apply opp_valid. exact (coef_valid q _ x Vq Ex). }
  pose proof (C86_add p nq r d Np Nn Vp Vn E Fi) as H.
  assert (V : (coef_value nq d == - coef_value q d)%Q).
  { unfold coef_value. specialize (An d). destruct (coef_at q d) as [x|]; [destruct An as (y & Ey & ->); injection Ey as <-; apply fq_opp|rewrite An; reflexivity]. }
  rewrite V in H. exact H.
Qed.

(** ** Products *)
Lemma bound_nil : (Qabs (0 - product_sum []) <= dbound t (length (@nil (float * float))) (abs_sum []))%Q.
Proof.
  unfold dbound, product_sum, abs_sum. cbn [map qsum fold_right length]. change (inject_Z (Z.of_nat 0)) with 0%Q.
  assert (Ez : (0 - 0 == 0)%Q) by ring. rewrite Ez. change (Qabs 0) with 0%Q. rewrite Qmult_0_r, Qmult_0_l, Qmult_0_l. apply Qle_refl.
Qed.
Lemma filter_one (q : poly F) f s : NoDup (map tdeg q) -> In s q -> f s = true -> (forall s', In s' q -> f s' = true -> tdeg s' = tdeg s) ->
  filter f q = [s].
Proof.
  induction q as [|x q IH]; intros N I Fs U; [contradiction|]. cbn [map] in N. inversion N as [|? ? N1 N2]; subst. cbn [filter].
  destruct I as [->|I].
  - rewrite Fs. f_equal. destruct (filter f q) as [|y l] eqn:E; [reflexivity|].
    assert (Iy : In y (filter f q)) by (rewrite E; left; reflexivity). apply filter_In in Iy as [Iy Fy].
    exfalso. apply N1. rewrite <- (U y (or_intror Iy) Fy). apply in_map. exact Iy.
  - destruct (f x) eqn:Fx.
    + exfalso. apply N1. rewrite (U x (or_introl eq_refl) Fx). apply in_map. exact I.
    + apply IH; auto. intros s' I' F'. apply U; [right|]; assumption.
Qed.
Lemma filter_none (q : poly F) f : (forall s, In s q -> f s = false) -> filter f q = [].
Proof. induction q as [|x q IH]; intros H; [reflexivity|]. cbn [filter]. rewrite (H x (or_introl eq_refl)). apply IH. intros s I. apply H. right. exact I. Qed.

Section Mul.
Context (q : poly F) (Nq : distinct q) (Wq : nonzero q) (Vq : valid_poly q) (Mq : forall s, In s q -> mwf (tdeg s)).
(** the coefficient of one product a * q *)
Lemma one_pair (a : term F) x d : feqb (coef a) f0 = false -> mwf (tdeg a) -> mwf d -> term_mul_poly Debug a q = Ok x ->
  (coef_at x d = None /\ pairs d [a] q = []) \/
  (exists b : term F, pairs d [a] q = [(coef a : float, coef b : float)] /\ In b q /\ coef_at x d = Some (SFmul p_ em (coef b : float) (coef a : float) : F)).
Proof.
  intros Za Ma Md E. destruct (C85_mul_term q x a Za Ma Nq Wq Mq E) as (_ & _ & A). unfold pairs. cbn [flat_map]. rewrite app_nil_r.
  destruct (coef_at x d) as [c|] eqn:Ec; [right|left].
  - apply (A d c Md) in Ec as (b & Ib & Cd & Eb). exists b. injection Eb as <-. split; [|auto].
    rewrite (filter_one q _ b Nq Ib); [reflexivity| |].
    + apply canon_sum. rewrite mmul_comm. exact Cd.
    + intros b' Ib' Hb'. apply canon_sum in Hb'. rewrite mmul_comm in Hb'. apply canon_inj; [apply (Mq b' Ib')|apply (Mq b Ib)|].
      rewrite Hb' in Cd. apply mono_ext. intros i. pose proof (f_equal (fun z => mexp z i) Cd) as X. cbv beta in X. rewrite !mmul_exp in X. lia.
  - split; [reflexivity|]. rewrite filter_none; [reflexivity|]. intros b Ib. destruct (deg_sum d (tdeg a) (tdeg b)) eqn:Db; [|reflexivity]. exfalso.
    apply canon_sum in Db. rewrite mmul_comm in Db.
    assert (H : coef_at x d = Some (SFmul p_ em (coef b : float) (coef a : float) : F)); [|congruence].
    apply (A d _ Md). exists b. split; [exact Ib|]. split; [exact Db|reflexivity].
Qed.
Lemma mul_comm_float (x y : float) : SFmul p_ em x y = SFmul p_ em y x.
Proof. destruct x as [s|s| |s m k], y as [s'|s'| |s' m' k']; try reflexivity; try (destruct s, s'; reflexivity). cbn [SFmul]. rewrite xorb_comm, Pos.mul_comm, Z.add_comm. reflexivity. Qed.

(** what is known of the partial sum [r] of the products of the terms in [l] with [q] *)
Definition partial (l r : poly F) : Prop :=
  distinct r /\ valid_poly r /\
  forall d, mwf d -> finite_at r d ->
    (Qabs (coef_value r d - product_sum (pairs d l q)) <= dbound t (length (pairs d l q)) (abs_sum (pairs d l q)))%Q.
Lemma pairs_app d l l' : pairs d (l ++ l') q = pairs d l q ++ pairs d l' q.
Proof. apply flat_map_app. Qed.
Lemma abs_le l : (Qabs (product_sum l) <= abs_sum l)%Q.
Proof.
  unfold product_sum, abs_sum. induction l as [|x l IH]; [apply Qle_refl|].
  change (Qabs (fq (fst x) * fq (snd x) + qsum (map (fun x => fq (fst x) * fq (snd x))%Q l)) <= Qabs (fq (fst x) * fq (snd x)) + qsum (map (fun x => Qabs (fq (fst x) * fq (snd x))) l))%Q.
  eapply Qle_trans; [apply Qabs_triangle|]. apply Qplus_le_r. exact IH.
Qed.
Lemma product_valid (a : term F) x : feqb (coef a) f0 = false -> mwf (tdeg a) -> valid t (coef a : float) -> term_mul_poly Debug a q = Ok x -> distinct x /\ valid_poly x.
Proof.
  intros Za Ma Va E. destruct (C85_mul_term q x a Za Ma Nq Wq Mq E) as (Nx & _ & A). split; [exact Nx|].
  unfold term_mul_poly, poly_mul_term, term_is_zero in E. rewrite Za in E. cbn [orb] in E. destruct (poly_is_zero q); [injection E as <-; constructor|].
  apply Forall_forall in Mq as Mq'. destruct (mul_term_at q a x Za Wq Nq Mq' Ma E) as (_ & _ & _ & _ & B).
  unfold valid_poly. apply Forall_forall. intros s Is. destruct (B _ _ (coef_at_In x s Nx Is)) as (b & Ib & _ & Eb). injection Eb as <-.
  apply (mul_valid t G); [|exact Va]. unfold valid_poly in Vq. rewrite Forall_forall in Vq. exact (Vq b Ib).
Qed.
(** the sum of the exact values after one more pair *)
Lemma extend_bound d l (a b : term F) (acc z : float) (v : Q) : valid t acc -> valid t (coef a : float) -> valid t (coef b : float) ->
  pairs d [a] q = [(coef a : float, coef b : float)] ->
  z = SFadd p_ em acc (SFmul p_ em (coef b : float) (coef a : float)) -> finite z = true -> (fq z == v)%Q ->
  (Qabs (fq acc - product_sum (pairs d l q)) <= dbound t (length (pairs d l q)) (abs_sum (pairs d l q)))%Q ->
  (Qabs (v - product_sum (pairs d (l ++ [a]) q)) <= dbound t (length (pairs d (l ++ [a]) q)) (abs_sum (pairs d (l ++ [a]) q)))%Q.
Proof.
  intros Vacc Va Vb Ep Ez Fz Ev B. rewrite pairs_app, Ep. rewrite app_length. cbn [length]. rewrite Nat.add_1_r.
  rewrite mul_comm_float in Ez. subst z.
  pose proof (dstep_err t G acc (coef a : float, coef b : float) _ _ _ Vacc Va Vb Fz (abs_le (pairs d l q)) B) as H.
  unfold dstep, dprod in H. cbn [fst snd] in H.
  set (pa := fq (coef a : float)) in *. set (pb := fq (coef b : float)) in *.
  assert (E1 : (product_sum (pairs d l q ++ [(coef a : float, coef b : float)]) == product_sum (pairs d l q) + pa * pb)%Q).
  { unfold product_sum. rewrite map_app, qsum_app. apply Qplus_comp; [reflexivity|].
    change (pa * pb + 0 == pa * pb)%Q. ring. }
  assert (E2 : (abs_sum (pairs d l q ++ [(coef a : float, coef b : float)]) == abs_sum (pairs d l q) + Qabs (pa * pb))%Q).
  { unfold abs_sum. rewrite map_app, qsum_app. apply Qplus_comp; [reflexivity|].
    change (Qabs (pa * pb) + 0 == Qabs (pa * pb))%Q. ring. }
  rewrite E1, <- Ev. eapply Qle_trans; [exact H|]. unfold dbound. rewrite E2. apply Qle_refl.
Qed.
Lemma partial_first (a : term F) x : feqb (coef a) f0 = false -> mwf (tdeg a) -> valid t (coef a : float) -> term_mul_poly Debug a q = Ok x -> partial [a] x.
Proof.
  intros Za Ma Va E. destruct (product_valid a x Za Ma Va E) as [Nx Vx]. split; [exact Nx|]. split; [exact Vx|]. intros d Md Fi.
  destruct (one_pair a x d Za Ma Md E) as [[En Ep]|(b & Ep & Ib & Es)].
  - rewrite Ep. unfold coef_value. rewrite En. exact bound_nil.
  - unfold valid_poly in Vq. rewrite Forall_forall in Vq. pose proof (Vq b Ib) as Vb. cbv beta in Vb.
    change [a] with ([] ++ [a]). set (y := SFmul p_ em (coef b : float) (coef a : float)) in *.
    assert (Fy : finite y = true) by (apply Fi; exact Es).
    assert (K : finite (SFadd p_ em fzero y) = true /\ (fq (SFadd p_ em fzero y) == fq y)%Q).
    { destruct y as [s|s| |s m k]; try discriminate; [destruct s|]; split; reflexivity. }
    apply (extend_bound d [] a b fzero (SFadd p_ em fzero y)); auto; try apply K.
    + reflexivity.
    + unfold coef_value. rewrite Es. apply K.
    + exact bound_nil.
Qed.
Lemma partial_step l (a : term F) r x r' : feqb (coef a) f0 = false -> mwf (tdeg a) -> valid t (coef a : float) ->
  partial l r -> term_mul_poly Debug a q = Ok x -> poly_add r x = Ok r' -> partial (l ++ [a]) r'.
Proof.
  intros Za Ma Va (Nr & Vr & B) E Ea. destruct (product_valid a x Za Ma Va E) as [Nx Vx].
  destruct (poly_add_at x r r' Ea Nr Nx) as (Nr' & _ & A). split; [exact Nr'|]. split; [exact (sum_valid r x r' Nr Nx Vr Vx Ea)|].
  intros d Md Fi. specialize (A d). destruct (one_pair a x d Za Ma Md E) as [[En Ep]|(b & Ep & Ib & Es)].
  - rewrite En in A. cbn [sum_at] in A. rewrite pairs_app, Ep, app_nil_r. unfold coef_value. rewrite A. apply B; [exact Md|].
    intros c Hc. apply Fi. rewrite A. exact Hc.
  - rewrite Es in A. destruct (opt_step _ _ _ A Fi) as (Fr & Fz & Ev).
    unfold valid_poly in Vq. rewrite Forall_forall in Vq. pose proof (Vq b Ib) as Vb. cbv beta in Vb.
    apply (extend_bound d l a b (accu (coef_at r d)) _ _ (accu_valid r d Vr) Va Vb Ep eq_refl Fz Ev).
    rewrite <- accu_value. apply B; [exact Md|exact Fr].
Qed.
Lemma partial_fold rest : forall l r r', nonzero rest -> valid_poly rest -> (forall s, In s rest -> mwf (tdeg s)) -> partial l r ->
  foldM (fun acc x => y <- x ;; poly_add acc y) (map (fun a => term_mul_poly Debug a q) rest) r = Ok r' -> partial (l ++ rest) r'.
Proof.
  induction rest as [|a rest IH]; intros l r r' W V M P E; cbn [map foldM] in E.
  - injection E as <-. rewrite app_nil_r. exact P.
  - apply bind_Ok in E as (r1 & E1 & E). apply bind_Ok in E1 as (x & Ex & E1). inversion W; subst. inversion V; subst.
    replace (l ++ a :: rest) with ((l ++ [a]) ++ rest) by (rewrite <- app_assoc; reflexivity).
    apply (IH (l ++ [a]) r1 r'); auto; [intros s I; apply M; right; exact I|].
    apply (partial_step l a r x r1); auto. apply M. left. reflexivity.
Qed.
End Mul.
Theorem C86_mul : forall p q r d, distinct p -> nonzero p -> valid_poly p -> (forall s, In s p -> mwf (tdeg s)) ->
  distinct q -> nonzero q -> valid_poly q -> (forall s, In s q -> mwf (tdeg s)) ->
  poly_mul Debug p q = Ok r -> mwf d -> finite_at r d ->
  (Qabs (coef_value r d - product_sum (pairs d p q)) <= sum_error t (length (pairs d p q)) (abs_sum (pairs d p q)))%Q.
Proof.
  intros p q r d Np Wp Vp Mp Nq Wq Vq Mq E Md Fi. rewrite sum_error_eq.
  unfold poly_mul in E. apply bind_Ok in E as (o & E & Eo). unfold reduce_iter in E. destruct p as [|a p]; cbn [map] in E.
  - injection E as <-. injection Eo as <-. exact bound_nil.
  - apply bind_Ok in E as (x & Ex & E). apply bind_Ok in E as (y & Ey & E). injection E as <-. injection Eo as <-.
    inversion Wp; subst. inversion Vp; subst.
    assert (P : partial q ([a] ++ p) y).
    { apply (partial_fold q Nq Wq Vq Mq p [a] x y); auto; [intros s I; apply Mp; right; exact I|].
      apply (partial_first q Nq Wq Vq Mq a x); auto. apply Mp. left. reflexivity. }
    destruct P as (_ & _ & P). apply P; assumption.
Qed.
End Err.

(** ** Examples: (0.1 x + 0.2)(0.1 x + 0.2) over f64 *)
Section Example.
Context (e : fenv).
Notation F := (float_impl binary64 e).
(** 0.1 and 0.2 as read by the compiler *)
Definition tenth : F := S754_finite false 7205759403792794 (-56).
Definition fifth : F := S754_finite false 7205759403792794 (-55).
Definition pt : poly F := [@mkterm F tenth [1]; @mkterm F fifth []].
Example C86_hypotheses : distinct pt /\ nonzero pt /\ valid_poly binary64 e pt /\ (forall s : term F, In s pt -> mwf (tdeg s)).
Proof.
  split; [|split; [|split]].
  - constructor; [intros [H|[]]; discriminate H|]. constructor; [intros []|constructor].
  - repeat constructor.
  - repeat constructor; reflexivity.
  - intros s [<-|[<-|[]]]; (split; [intros H; discriminate H|]); repeat constructor; lia.
Qed.
Example C86_mul_example : exists r : poly F, poly_mul Debug pt pt = Ok r /\ finite_at binary64 e r [1] /\ length (pairs binary64 e [1] pt pt) = 2.
Proof.
  assert (H : (r <- poly_mul Debug pt pt ;; Ok (match coef_at r [1] with Some c => Some (finite (c : float)) | None => None end, length (pairs binary64 e [1] pt pt))) = Ok (Some true, 2)) by (vm_compute; reflexivity).
  apply bind_Ok in H as (r & E & H). injection H as H1. exists r. split; [exact E|]. split; [|reflexivity].
  intros c Hc. rewrite Hc in H1. injection H1 as H1. exact H1.
Qed.
Example C86_add_example : exists r : poly F, poly_add pt pt = Ok r /\ finite_at binary64 e r [1].
Proof.
  assert (H : (r <- poly_add pt pt ;; Ok (match coef_at r [1] with Some c => Some (finite (c : float)) | None => None end)) = Ok (Some true)) by (vm_compute; reflexivity).
  apply bind_Ok in H as (r & E & H). injection H as H1. exists r. split; [exact E|].
  intros c Hc. rewrite Hc in H1. injection H1 as H1. exact H1.
Qed.
Example C86_sub_example : exists r : poly F, poly_sub pt [@mkterm F tenth [1]] = Ok r /\ finite_at binary64 e r [] /\ length r = 1.
Proof.
  assert (H : (r <- poly_sub pt [@mkterm F tenth [1]] ;; Ok (match coef_at r [] with Some c => Some (finite (c : float)) | None => None end, length r)) = Ok (Some true, 1)) by (vm_compute; reflexivity).
  apply bind_Ok in H as (r & E & H). injection H as H1 H2. exists r. split; [exact E|]. split; [|exact H2].
  intros c Hc. rewrite Hc in H1. injection H1 as H1. exact H1.
Qed.
End Example.
Print Assumptions C86_add.
Print Assumptions C86_sub.
Print Assumptions C86_mul.
