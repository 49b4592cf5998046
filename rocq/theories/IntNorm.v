(** * Bounds on the sizes of integer coefficients. *)
From Coq Require Import ZArith QArith Qcanon Lia.
From Verif Require Import Base BaseLemmas IntModel RatModel FieldIface IntProofs RatProofs NumFacts MDegModel OrdModel PolyModel CompModel
  MonoSpec MDegProofs PolySpec PolyProofs UtilModel MatModel MatProofs Param ParamMat Ideal FloatModel FloatExact FloatSim PropFloat PropMdeg
  BoundProofs PropBounds IntSim.
Local Open Scope Z_scope.

Section Norm.
Context (M : Z).
Notation Zi := (zimpl M).
(** the sum of the absolute values of the coefficients *)
Definition zc (t : term Zi) : Z := coef t.
Definition l1 (p : poly Zi) : Z := fold_right (fun t s => Z.abs (zc t) + s) 0 p.
Lemma l1_cons t p : l1 (t :: p) = Z.abs (zc t) + l1 p.
Proof. reflexivity. Qed.
Lemma l1_app p q : l1 (p ++ q) = l1 p + l1 q.
Proof. induction p as [|t p IH]; [reflexivity|]. cbn [app]. rewrite !l1_cons, IH. lia. Qed.
Lemma l1_nonneg p : 0 <= l1 p.
Proof. induction p as [|t p IH]; [apply Z.le_refl|]. rewrite l1_cons. lia. Qed.
Lemma l1_in t p : In t p -> Z.abs (zc t) <= l1 p.
Proof. induction p as [|s p IH]; intros []; rewrite l1_cons; [subst; pose proof (l1_nonneg p); lia|]. specialize (IH H). lia. Qed.
Lemma l1_perm p q : Permutation.Permutation p q -> l1 p = l1 q.
Proof. induction 1; rewrite ?l1_cons in *; lia. Qed.

Lemma add_term_l1 p t : l1 p + Z.abs (zc t) <= M -> yields (poly_add_term p t) (fun r => l1 r <= l1 p + Z.abs (zc t)).
Proof.
  intros L. unfold poly_add_term. destruct (poly_is_zero p) eqn:Zp.
  { apply yields_Ok. unfold poly_from_term. pose proof (l1_nonneg p). destruct (term_is_zero t); [change (l1 poly_zero) with 0; lia|]. change (l1 (poly_term t)) with (Z.abs (zc t) + 0). lia. }
  destruct (term_is_zero t); [apply yields_Ok; lia|].
  destruct (position _ p) as [i|] eqn:P.
  - destruct (position_Some _ _ _ P) as (a & x & b & -> & <- & _ & _).
    assert (V : vget (a ++ x :: b) (length a) = Ok x).
    { unfold vget. rewrite nth_error_app2, Nat.sub_diag by lia. reflexivity. }
    rewrite V. cbn [bind]. rewrite l1_app, l1_cons in *. change (fadd (coef x) (coef t)) with (zchk M (zc x + zc t)).
    pose proof (l1_nonneg a). pose proof (l1_nonneg b).
    rewrite zchk_ok by lia. cbn [bind].
    assert (Rm : list_remove (a ++ x :: b) (length a) = a ++ b).
    { clear. induction a; simpl; [reflexivity|]. f_equal. assumption. }
    assert (St : forall y, list_set (a ++ x :: b) (length a) y = a ++ y :: b).
    { clear. induction a; intros y; simpl; [reflexivity|]. f_equal. auto. }
    destruct (term_is_zero _); apply yields_Ok; [rewrite Rm|rewrite St]; rewrite l1_app, ?l1_cons; [lia|]. unfold zc at 1. cbn [coef]. lia.
  - apply yields_Ok. rewrite l1_app, l1_cons. change (l1 []) with 0. lia.
Qed.
Lemma add_l1 p q : l1 p + l1 q <= M -> yields (poly_add p q) (fun r => l1 r <= l1 p + l1 q).
Proof.
  unfold poly_add. revert p. induction q as [|t q IH]; intros p L; cbn [foldM].
  - apply yields_Ok. change (l1 []) with 0. lia.
  - rewrite l1_cons in *. pose proof (l1_nonneg q). eapply yields_bind; [apply add_term_l1; lia|]. cbn beta. intros r Hr.
    eapply yields_mono; [apply IH; lia|]. cbn beta. intros s Hs. lia.
Qed.
Lemma neg_l1 p : l1 p <= M -> yields (poly_neg p) (fun r => l1 r = l1 p).
Proof.
  unfold poly_neg. induction p as [|t p IH]; intros L; cbn [mapM]; [apply yields_Ok; reflexivity|]. rewrite l1_cons in *.
  pose proof (l1_nonneg p). unfold term_neg at 1. change (fneg (coef t)) with (zchk M (- zc t)). rewrite zchk_ok by lia. cbn [bind].
  eapply yields_bind; [apply IH; lia|]. cbn beta. intros r Hr. apply yields_Ok. rewrite l1_cons. unfold zc at 1. cbn [coef]. lia.
Qed.
Lemma sub_l1 p q : l1 p + l1 q <= M -> yields (poly_sub p q) (fun r => l1 r <= l1 p + l1 q).
Proof.
  intros L. unfold poly_sub. pose proof (l1_nonneg p). eapply yields_bind; [apply neg_l1; lia|]. cbn beta. intros r Hr. rewrite <- Hr. apply add_l1. lia.
Qed.

(** every sum of exponents can be represented; in release builds they wrap *)
Definition add_fits (m : mode) (d d' : mdeg) : Prop := exists r, mdeg_add m d d' = Ok r.
Definition mul_fits (m : mode) (p q : poly Zi) : Prop := forall s t, In s p -> In t q -> add_fits m (tdeg t) (tdeg s).
Lemma mul_term_l1 m p t : mul_fits m [t] p -> Z.abs (zc t) * l1 p <= M -> yields (poly_mul_term m p t) (fun r => l1 r <= Z.abs (zc t) * l1 p).
Proof.
  intros F L. unfold poly_mul_term. destruct (term_is_zero t || poly_is_zero p).
  { apply yields_Ok. change (l1 poly_zero) with 0. pose proof (l1_nonneg p). nia. }
  induction p as [|s p IH]; cbn [mapM].
  { apply yields_Ok. change (l1 []) with 0. lia. }
  rewrite l1_cons in *. pose proof (l1_nonneg p).
  eapply yields_bind with (P := fun u => Z.abs (zc u) <= Z.abs (zc t) * Z.abs (zc s)).
  - unfold term_mul. destruct (term_is_zero s || term_is_zero t).
    + apply yields_Ok. change (zc term_zero) with 0. nia.
    + change (fmul (coef s) (coef t)) with (zchk M (zc s * zc t)). assert (E : Z.abs (zc s * zc t) = Z.abs (zc t) * Z.abs (zc s)) by (rewrite Z.abs_mul; ring).
      rewrite zchk_ok by nia. cbn [bind]. destruct (F t s (or_introl eq_refl) (or_introl eq_refl)) as (d & ->). cbn [bind]. apply yields_Ok. unfold zc at 1. cbn [coef]. lia.
  - intros u Hu. eapply yields_bind; [apply IH; [intros a b Ha Hb; apply F; [exact Ha|right; exact Hb]|nia]|]. cbn beta. intros r Hr. apply yields_Ok. rewrite l1_cons. nia.
Qed.
Lemma mul_l1 m p q : mul_fits m p q -> l1 p * l1 q <= M -> yields (poly_mul m p q) (fun r => l1 r <= l1 p * l1 q).
Proof.
  intros F L. unfold poly_mul, reduce_iter. destruct p as [|t p]; cbn [map].
  { apply yields_Ok. change (l1 poly_zero) with 0. change (l1 []) with 0. lia. }
  assert (TB : forall s, In s (t :: p) -> yields (term_mul_poly m s q) (fun r => l1 r <= Z.abs (zc s) * l1 q)).
  { intros s Hs. apply mul_term_l1; [intros a b [<-|[]] Hb; apply F; assumption|]. pose proof (l1_in s _ Hs). pose proof (l1_nonneg q). nia. }
  rewrite l1_cons in *. pose proof (l1_nonneg p). pose proof (l1_nonneg q).
  eapply yields_bind with (P := fun o => match o with Some r => l1 r <= (Z.abs (zc t) + l1 p) * l1 q | None => False end);
    [|intros [r|] Hr; [apply yields_Ok; exact Hr|destruct Hr]].
  eapply yields_bind; [apply TB; left; reflexivity|]. cbn beta. intros r0 Hr0.
  eapply yields_bind; [|intros r Hr; apply yields_Ok; exact Hr]. cbn beta.
  assert (G : forall l acc, (forall s, In s l -> In s (t :: p)) -> l1 acc + l1 l * l1 q <= M ->
     yields (foldM (fun acc y => b <- y ;; poly_add acc b) (map (fun u => term_mul_poly m u q) l) acc) (fun r => l1 r <= l1 acc + l1 l * l1 q)).
  { induction l as [|s l IH]; intros acc Sub La; cbn [map foldM].
    - apply yields_Ok. change (l1 []) with 0. lia.
    - rewrite l1_cons in *. pose proof (l1_nonneg l). assert (0 <= l1 l * l1 q) by nia.
      eapply yields_bind with (P := fun r => l1 r <= l1 acc + Z.abs (zc s) * l1 q).
      + eapply yields_bind; [apply TB, Sub; left; reflexivity|]. cbn beta. intros b Hb. eapply yields_mono; [apply add_l1; lia|]. cbn beta. intros; lia.
      + intros r Hr. eapply yields_mono; [apply IH; [intros; apply Sub; right; assumption|lia]|]. cbn beta. intros; lia. }
  eapply yields_mono; [apply (G p r0); [intros; right; assumption|lia]|]. cbn beta. intros; lia.
Qed.

(** ** Division: if the division over the rational numbers returns, so does the one over bounded integers *)
Definition back {A A' : Type} (x : res A) (y : res A') (Q : A -> A' -> Prop) : Prop := forall a, x = Ok a -> exists b, y = Ok b /\ Q a b.
Lemma back_bind {A A' B B' : Type} (x : res A) (y : res A') (f : A -> res B) (g : A' -> res B') (P : A -> A' -> Prop) Q :
  back x y P -> (forall a b, P a b -> back (f a) (g b) Q) -> back (bind x f) (bind y g) Q.
Proof. intros H G c E. destruct x as [a| |]; try discriminate. destruct (H a eq_refl) as (b & -> & Pb). exact (G a b Pb c E). Qed.
Lemma back_Ok {A A' : Type} (a : A) (b : A') (Q : A -> A' -> Prop) : Q a b -> back (Ok a) (Ok b) Q.
Proof. intros H c E. injection E as <-. exists b. auto. Qed.
Lemma back_mono {A A' : Type} (x : res A) (y : res A') (P Q : A -> A' -> Prop) : back x y P -> (forall a b, P a b -> Q a b) -> back x y Q.
Proof. intros H G a E. destruct (H a E) as (b & Eb & Pb). exists b. auto. Qed.
Lemma back_rsim {A A' : Type} (x : res A) (y : res A') R : rsim R x y -> back x y R.
Proof. intros H a ->. cbn in H. destruct y as [b| |]; try contradiction. exists b. auto. Qed.
Lemma back_yields {A A' : Type} (x : res A) (y : res A') (R : A' -> A -> Prop) (P : A' -> Prop) : yields y P -> rsim R y x -> back x y (fun a b => R b a /\ P b).
Proof. intros (b & -> & Pb) H a ->. cbn in H. exists b. auto. Qed.

Notation QI := (ideal_impl QcField).
Definition qz (q : QI) (z : Zi) : Prop := zq M z q.
Notation prq := (Forall2 (trel (R := qz))).
Notation prz := (Forall2 (trel (R := zq M))).
Lemma tflip T t : trel (R := qz) T t -> trel (R := zq M) t T.
Proof. intros [H1 H2]. split; [exact H1|symmetry; exact H2]. Qed.
Lemma tflip' T t : trel (R := zq M) t T -> trel (R := qz) T t.
Proof. intros [H1 H2]. split; [exact H1|symmetry; exact H2]. Qed.
Lemma flip P p : prq P p -> prz p P.
Proof. induction 1; constructor; auto using tflip. Qed.
Lemma flip' P p : prz p P -> prq P p.
Proof. induction 1; constructor; auto using tflip'. Qed.
Context (m : mode) (O : ord_impl).
Let OO : ord_sim O O := fun a b => rsim_refl (O a b).
Let ZS := zq_sim M.

Lemma insert_l1 t p q : insert_by (term_cmp O) t p = Ok q -> l1 q = Z.abs (zc t) + l1 p.
Proof.
  revert q. induction p as [|s p IH]; intros q; cbn [insert_by].
  { intros E. injection E as <-. reflexivity. }
  destruct (term_cmp O t s) as [[]| |]; cbn [bind]; try discriminate; try (intros E; injection E as <-; rewrite !l1_cons; lia).
  destruct (insert_by (term_cmp O) t p) as [r| |] eqn:E; cbn [bind]; try discriminate. intros E'. injection E' as <-. rewrite !l1_cons, (IH r eq_refl). lia.
Qed.
Lemma sort_l1 p q : sort_by (term_cmp O) p = Ok q -> l1 q = l1 p.
Proof.
  revert q. induction p as [|s p IH]; intros q; cbn [sort_by].
  { intros E. injection E as <-. reflexivity. }
  destruct (sort_by (term_cmp O) p) as [r| |] eqn:E; cbn [bind]; try discriminate. intros E'. rewrite (insert_l1 _ _ _ E'), (IH r eq_refl), l1_cons. reflexivity.
Qed.
Lemma leading_in (p : poly Zi) t : leading_term O p = Ok (Some t) -> In t p.
Proof.
  unfold leading_term, max_by. destruct p as [|s p]; [discriminate|].
  assert (G : forall (l : list (term Zi)) (a r : term Zi), foldM (fun best y : term Zi => c <- term_cmp O best y ;; Ok (match c with Gt => best | _ => y end)) l a = Ok r -> r = a \/ In r l).
  { induction l as [|y l IH]; intros a r; cbn [foldM]; [intros E; injection E as <-; auto|].
    destruct (term_cmp O a y) as [c| |]; cbn [bind]; try discriminate. intros E. destruct (IH _ _ E) as [->|]; [|right; right; assumption].
    destruct c; cbn; auto. }
  destruct (foldM _ p s) as [r| |] eqn:E; cbn [bind]; try discriminate. intros E'. injection E' as <-. destruct (G _ _ _ E) as [->|]; cbn; auto.
Qed.
Lemma leading_back P p : prq P p -> back (leading_term O P) (leading_term O p) (fun A a => orel (trel (R := qz)) A a /\ leading_term O p = Ok a).
Proof.
  intros H A E. destruct (back_rsim _ _ _ (leading_term_rsim O O OO P p H) A E) as (a & Ea & Ra). exists a. auto.
Qed.
Lemma sort_back P p : prq P p -> back (sort_by (term_cmp O) P) (sort_by (term_cmp O) p) (fun A a => prq A a /\ l1 a = l1 p).
Proof.
  intros H A E. destruct (back_rsim _ _ _ (sort_by_rsim (trel (R := qz)) _ _ P p (term_cmp_rsim O O OO) H) A E) as (a & Ea & Ra).
  exists a. split; [exact Ea|]. split; [exact Ra|]. apply sort_l1. exact Ea.
Qed.
Lemma add_term_back P p T t : prq P p -> trel (R := qz) T t -> l1 p + Z.abs (zc t) <= M ->
  back (poly_add_term P T) (poly_add_term p t) (fun A a => prq A a /\ l1 a <= l1 p + Z.abs (zc t)).
Proof.
  intros HP HT L. eapply back_mono; [apply back_yields; [apply add_term_l1; exact L|]|].
  - apply (poly_add_term_rsim ZS). + apply flip. exact HP. + apply tflip. exact HT.
  - intros A a [H1 H2]. split; [apply flip'; exact H1|exact H2].
Qed.
Lemma sub_back P p T t : prq P p -> prq T t -> l1 p + l1 t <= M -> back (poly_sub P T) (poly_sub p t) (fun A a => prq A a /\ l1 a <= l1 p + l1 t).
Proof.
  intros HP HT L. eapply back_mono; [apply back_yields; [apply sub_l1; exact L|]|].
  - apply (poly_sub_rsim ZS); apply flip; assumption.
  - intros A a [H1 H2]. split; [apply flip'; exact H1|exact H2].
Qed.
Lemma is_zero_q T t : trel (R := qz) T t -> term_is_zero T = term_is_zero t.
Proof. intros H. symmetry. exact (term_is_zero_rel ZS t T (tflip _ _ H)). Qed.
Lemma mul_term_back P p T t : prq P p -> trel (R := qz) T t -> Z.abs (zc t) * l1 p <= M ->
  back (poly_mul_term m P T) (poly_mul_term m p t) (fun A a => prq A a /\ l1 a <= Z.abs (zc t) * l1 p).
Proof.
  intros HP HT L. unfold poly_mul_term. rewrite (is_zero_q T t HT).
  replace (poly_is_zero P) with (poly_is_zero p) by (destruct HP; reflexivity). pose proof (l1_nonneg p).
  destruct (term_is_zero t || poly_is_zero p).
  { apply back_Ok. split; [constructor|]. change (l1 poly_zero) with 0. nia. }
  clear H. induction HP as [|S s P p Hs HP IH]; cbn [mapM].
  { apply back_Ok. split; [constructor|]. change (l1 []) with 0. lia. }
  rewrite l1_cons in *. pose proof (l1_nonneg p).
  eapply back_bind with (P := fun U u => trel (R := qz) U u /\ Z.abs (zc u) <= Z.abs (zc t) * Z.abs (zc s)).
  - unfold term_mul. rewrite (is_zero_q T t HT), (is_zero_q S s Hs). destruct (term_is_zero s || term_is_zero t).
    + apply back_Ok. split; [split; reflexivity|]. change (zc term_zero) with 0. nia.
    + change (fmul (coef s) (coef t)) with (zchk M (zc s * zc t)). assert (E : Z.abs (zc s * zc t) = Z.abs (zc t) * Z.abs (zc s)) by (rewrite Z.abs_mul; ring).
      rewrite zchk_ok by nia. cbn [bind fmul ideal_impl]. destruct Hs as [Cs Ds], HT as [Ct Dt]. rewrite Ds, Dt.
      destruct (mdeg_add m (tdeg s) (tdeg t)) as [d| |]; cbn [bind]; try (intros a Ea; discriminate Ea). apply back_Ok. split.
      * split; [|reflexivity]. cbn [coef]. unfold qz, zq in *. rewrite Cs, Ct. apply intq_mul.
      * unfold zc at 1. cbn [coef]. lia.
  - intros U u [HU Hu]. eapply back_bind; [apply IH; nia|]. intros A a [HA Ha]. apply back_Ok. split; [constructor; assumption|]. rewrite l1_cons. nia.
Qed.

(** leading coefficient 1 or -1 *)
Definition unit_leading (g : poly Zi) : Prop := forall l, leading_term O g = Ok (Some l) -> Z.abs (zc l) = 1.
Lemma try_div_back T t L l : trel (R := qz) T t -> trel (R := qz) L l -> Z.abs (zc l) = 1 -> Z.abs (zc t) <= M ->
  back (term_try_div T L) (term_try_div t l) (fun A a => orel (trel (R := qz)) A a /\ match a with Some u => Z.abs (zc u) = Z.abs (zc t) | None => True end).
Proof.
  intros HT HL U B. unfold term_try_div. rewrite (is_zero_q T t HT), (is_zero_q L l HL).
  destruct (term_is_zero t) eqn:Zt.
  { apply back_Ok. split; [split; reflexivity|]. unfold term_is_zero in Zt. apply Z.eqb_eq in Zt. unfold zc. rewrite Zt. reflexivity. }
  destruct (term_is_zero l) eqn:Zl.
  { apply back_Ok. split; exact I. }
  eapply back_bind with (P := fun (q : QI) (z : Zi) => qz q z /\ Z.abs z = Z.abs (zc t)).
  - assert (V : exists k, zc t = k * zc l /\ Z.abs k = Z.abs (zc t) /\ zdiv M (zc t) (zc l) = Ok k).
    { exists (zc t * zc l). assert (Q : zc l = 1 \/ zc l = -1) by lia.
      assert (D : zc t / zc l = zc t * zc l) by (destruct Q as [-> | ->]; [rewrite Z.div_1_r; lia|]; change (-1) with (- (1)); rewrite <- Z.div_opp_opp by lia; rewrite Z.opp_involutive, Z.div_1_r; lia).
      assert (A : Z.abs (zc t * zc l) = Z.abs (zc t)) by (rewrite Z.abs_mul, U; lia).
      split; [destruct Q as [-> | ->]; lia|]. split; [exact A|]. unfold zdiv. destruct (Z.eqb_spec (zc l) 0); [lia|]. rewrite D.
      destruct (Z.eqb_spec (zc l * (zc t * zc l)) (zc t)) as [_|N]; [|exfalso; apply N; destruct Q as [-> | ->]; lia]. apply zchk_ok. lia. }
    destruct V as (k & Ek & Ak & Dk). intros q Eq. exists k. split; [exact Dk|]. split; [|exact Ak].
    assert (N : feqb (coef l) f0 = false) by exact Zl.
    pose proof (s_div _ _ _ ZS (coef t) (coef l) (coef T) (coef L) (proj1 HT) (proj1 HL) N) as S. change (fdiv (coef t) (coef l)) with (zdiv M (zc t) (zc l)) in S.
    rewrite Dk, Eq in S. exact S.
  - intros q z [Hq Az]. destruct HT as [_ ->], HL as [_ ->]. destruct (mdeg_checked_sub (tdeg t) (tdeg l)); apply back_Ok; split; try exact I; [split; [exact Hq|reflexivity]|exact Az].
Qed.
Definition small (C : Z) (qs : list (poly Zi)) : Prop := Forall (fun q => l1 q <= C) qs.
Lemma try_divisors_back T t DS ds C G : trel (R := qz) T t -> Forall2 prq DS ds -> Forall unit_leading ds -> small G ds -> Z.abs (zc t) + C <= M -> 0 <= C ->
  forall QS qs, Forall2 prq QS qs -> small C qs ->
  back (try_divisors O T DS QS) (try_divisors O t ds qs) (fun A a => orel (tdrel (R := qz)) A a /\
    match a with Some (qs', u, g) => small (C + Z.abs (zc t)) qs' /\ Z.abs (zc u) = Z.abs (zc t) /\ l1 g <= G | None => True end).
Proof.
  intros HT HD UD SD L0 C0. induction HD as [|Gp g DS ds Hg HD IH]; intros QS qs HQ SQ.
  { destruct HQ; apply back_Ok; split; exact I. }
  destruct HQ as [|Q q QS qs Hq HQ]; [apply back_Ok; split; exact I|].
  inversion UD as [|? ? Ug UD']; subst. inversion SD as [|? ? Sg SD']; subst. inversion SQ as [|? ? Sq SQ']; subst.
  assert (SM : small (C + Z.abs (zc t)) qs) by (eapply Forall_impl; [|exact SQ']; cbn beta; intros; lia).
  assert (SK : back (r <- try_divisors O T DS QS ;; Ok (match r with None => None | Some (qs0, a, g') => Some (Q :: qs0, a, g') end))
     (r <- try_divisors O t ds qs ;; Ok (match r with None => None | Some (qs0, a, g') => Some (q :: qs0, a, g') end))
     (fun A a => orel (tdrel (R := qz)) A a /\
    match a with Some (qs', u, g) => small (C + Z.abs (zc t)) qs' /\ Z.abs (zc u) = Z.abs (zc t) /\ l1 g <= G | None => True end)).
  { eapply back_bind; [apply IH; assumption|]. intros A a [HA Ha]. apply back_Ok.
    destruct A as [[[A1 A2] A3]|], a as [[[a1 a2] a3]|]; cbn in HA; try contradiction; [|split; exact I].
    destruct HA as (H1 & H2 & H3). cbn in H1, H2, H3. destruct Ha as (S1 & S2 & S3). split.
    - cbn. split; [|split; assumption]. cbn. constructor; assumption.
    - split; [constructor; [lia|exact S1]|]. split; assumption. }
  cbn [try_divisors]. eapply back_bind; [apply leading_back; exact Hg|]. intros A a [HA Ea].
  destruct A as [Lt|], a as [l|]; cbn in HA; try contradiction; [|exact SK].
  eapply back_bind; [apply try_div_back; [exact HT|exact HA|exact (Ug l Ea)|lia]|]. intros D d [HDd Bd].
  destruct D as [U|], d as [u|]; cbn in HDd; try contradiction; [|exact SK].
  eapply back_bind; [apply add_term_back; [exact Hq|exact HDd|lia]|]. intros A a [HA' Ba]. apply back_Ok. split.
  - cbn. split; [cbn; constructor; assumption|]. split; assumption.
  - split; [constructor; [lia|exact SM]|]. split; assumption.
Qed.
Lemma divide_loop_back G DS ds : 0 <= G -> Forall2 prq DS ds -> Forall unit_leading ds -> small G ds -> forall n F f C QS qs RM rm, prq F f -> Forall2 prq QS qs -> prq RM rm ->
  small C qs -> l1 rm <= C -> 0 <= C -> (l1 f + C) * (2 + G) ^ Z.of_nat n <= M ->
  back (divide_loop m O n F DS QS RM) (divide_loop m O n f ds qs rm)
    (fun A a => drel (R := qz) A a /\ l1 (fst a) <= (l1 f + C) * (2 + G) ^ Z.of_nat n /\ small ((l1 f + C) * (2 + G) ^ Z.of_nat n) (snd a)).
Proof.
  intros HG HD UD SD. assert (PP : forall n, 1 <= (2 + G) ^ Z.of_nat n) by (intros n; rewrite <- (Z.pow_1_l (Z.of_nat n)) by lia; apply Z.pow_le_mono_l; lia).
  induction n as [|n IH]; intros F f C QS qs RM rm HF HQ HR SQ SR C0 L; pose proof (l1_nonneg f) as Nf; cbn [divide_loop].
  - rewrite Z.pow_0_r, Z.mul_1_r in *. eapply back_bind; [apply leading_back; exact HF|]. intros A a [HA _].
    destruct A, a; cbn in HA; try contradiction; [intros b Eb; discriminate Eb|]. apply back_Ok. split; [split; assumption|].
    cbn [fst snd]. split; [lia|]. eapply Forall_impl; [|exact SQ]. cbn beta. intros; lia.
  - pose proof (PP n) as Pn. set (W := (2 + G) ^ Z.of_nat n) in *. assert (EW : (2 + G) ^ Z.of_nat (S n) = (2 + G) * W) by (unfold W; rewrite Nat2Z.inj_succ, Z.pow_succ_r by lia; reflexivity).
    rewrite EW in *. assert (LL : (l1 f + C) * (2 + G) <= M).
    { assert (0 <= (l1 f + C) * (2 + G)) by nia. nia. }
    eapply back_bind; [apply leading_back; exact HF|]. intros A a [HA Ea].
    destruct A as [T|], a as [t|]; cbn in HA; try contradiction.
    2:{ apply back_Ok. split; [split; assumption|]. cbn [fst snd]. assert (C <= (l1 f + C) * ((2 + G) * W)) by nia. split; [lia|].
        eapply Forall_impl; [|exact SQ]. cbn beta. intros; lia. }
    apply leading_in in Ea. pose proof (l1_in t f Ea) as Lt.
    eapply back_bind; [apply (try_divisors_back T t DS ds C G); try assumption; nia|]. intros A a [HA' Ha].
    assert (MONO : forall f' C', l1 f' + C' <= (l1 f + C) * (2 + G) -> 0 <= C' -> (l1 f' + C') * W <= (l1 f + C) * ((2 + G) * W)).
    { intros f' C' H1 H2. rewrite Z.mul_assoc. apply Z.mul_le_mono_nonneg_r; lia. }
    assert (FIN : forall f' C', l1 f' + C' <= (l1 f + C) * (2 + G) -> 0 <= C' -> forall (X : res (poly QI * list (poly QI))) (x : res (poly Zi * list (poly Zi))),
       back X x (fun A a => drel (R := qz) A a /\ l1 (fst a) <= (l1 f' + C') * W /\ small ((l1 f' + C') * W) (snd a)) ->
       back X x (fun A a => drel (R := qz) A a /\ l1 (fst a) <= (l1 f + C) * ((2 + G) * W) /\ small ((l1 f + C) * ((2 + G) * W)) (snd a))).
    { intros f' C' H1 H2 X x H. pose proof (MONO f' C' H1 H2). eapply back_mono; [exact H|]. cbn beta. intros b c (B1 & B2 & B3). split; [exact B1|]. split; [lia|].
      eapply Forall_impl; [|exact B3]. cbn beta. intros; lia. }
    destruct A as [[[A1 A2] A3]|], a as [[[a1 a2] a3]|]; cbn in HA'; try contradiction.
    + destruct HA' as (H1 & H2 & H3). cbn in H1, H2, H3. destruct Ha as (S1 & S2 & S3). pose proof (l1_nonneg a3).
      assert (AG : Z.abs (zc a2) * l1 a3 <= l1 f * G) by (rewrite S2; apply Z.mul_le_mono_nonneg; lia).
      eapply back_bind; [apply mul_term_back; [exact H3|exact H2|nia]|]. intros AGp ag [Hag Lag].
      eapply back_bind; [apply sub_back; [exact HF|exact Hag|nia]|]. intros F' f' [HF' Lf'].
      pose proof (l1_nonneg f'). assert (K : l1 f' + (C + l1 f) <= (l1 f + C) * (2 + G)) by nia.
      apply (FIN f' (C + l1 f) K); [lia|]. apply IH; try assumption; [|lia|lia|pose proof (MONO f' (C + l1 f) K); lia].
      eapply Forall_impl; [|exact S1]. cbn beta. intros; lia.
    + eapply back_bind; [apply sort_back; exact HF|]. intros FS fs [HFS Lfs].
      pose proof (vec_pop_rel _ _ _ HFS) as HV.
      assert (LV : l1 (fst (vec_pop fs)) + match snd (vec_pop fs) with Some u => Z.abs (zc u) | None => 0 end = l1 fs).
      { replace (l1 fs) with (l1 (rev (rev fs))) by (rewrite rev_involutive; reflexivity). unfold vec_pop. destruct (rev fs) as [|x r]; [reflexivity|]. cbn [fst snd rev].
        rewrite l1_app, l1_cons. change (l1 []) with 0. lia. }
      destruct (vec_pop FS) as [F' [Lp|]], (vec_pop fs) as [f' [l|]]; cbn [fst snd] in *; destruct HV as [HF' HL]; cbn in HL; try contradiction.
      * pose proof (l1_nonneg f'). eapply back_bind; [apply add_term_back; [exact HR|exact HL|nia]|]. intros R' r' [HR' Lr'].
        assert (K : l1 f' + (C + l1 f) <= (l1 f + C) * (2 + G)) by nia.
        apply (FIN f' (C + l1 f) K); [lia|]. apply IH; try assumption; [|lia|lia|pose proof (MONO f' (C + l1 f) K); lia].
        eapply Forall_impl; [|exact SQ]. cbn beta. intros; lia.
      * assert (K : l1 f' + C <= (l1 f + C) * (2 + G)) by nia. apply (FIN f' C K C0). apply IH; try assumption. pose proof (MONO f' C K). lia.
Qed.
Lemma divide_back G DS ds n F f : 0 <= G -> Forall2 prq DS ds -> Forall unit_leading ds -> small G ds -> prq F f -> l1 f * (2 + G) ^ Z.of_nat n <= M ->
  back (divide m O n F DS) (divide m O n f ds)
    (fun A a => drel (R := qz) A a /\ l1 (fst a) <= l1 f * (2 + G) ^ Z.of_nat n /\ small (l1 f * (2 + G) ^ Z.of_nat n) (snd a)).
Proof.
  intros HG HD UD SD HF L. unfold divide. rewrite (plen HD).
  pose proof (divide_loop_back G DS ds HG HD UD SD n F f 0 (repeat poly_zero (length ds)) (repeat poly_zero (length ds)) poly_zero poly_zero HF) as H.
  rewrite Z.add_0_r in H. apply H; try assumption; try apply Z.le_refl; [|constructor|].
  - apply repeat_rel. constructor.
  - apply Forall_forall. intros q Hq. apply repeat_spec in Hq. subst q. apply Z.le_refl.
Qed.

(** ** Matrices *)
Definition zb (A : Z) (a : mat Zi) : Prop := Forall (fun x : Zi => Z.abs x <= A) (ments a).
Lemma dot_bound {T : Type} (f : T -> res Z) (l : list T) B : 0 <= B -> (forall x, In x l -> yields (f x) (fun y => Z.abs y <= B)) -> Z.of_nat (length l) * B <= M ->
  yields (foldM (fun acc x => y <- f x ;; zchk M (acc + y)) l 0) (fun r => Z.abs r <= Z.of_nat (length l) * B).
Proof.
  intros HB H L.
  assert (G : forall l' k acc, (k + length l' = length l)%nat -> (forall y, In y l' -> In y l) -> Z.abs acc <= Z.of_nat k * B ->
    yields (foldM (fun acc x => y <- f x ;; zchk M (acc + y)) l' acc) (fun r => Z.abs r <= Z.of_nat (length l) * B)).
  { induction l' as [|y l' IH]; intros k acc K Sub Ha; cbn [foldM].
    - apply yields_Ok. replace (length l) with k by (cbn in K; lia). exact Ha.
    - cbn [length] in K. assert (E : Z.of_nat (S k) * B <= Z.of_nat (length l) * B) by (apply Z.mul_le_mono_nonneg_r; lia).
      eapply yields_bind with (P := fun r => Z.abs r <= Z.of_nat (S k) * B).
      + eapply yields_bind; [apply H, Sub; left; reflexivity|]. cbn beta. intros b Hb. rewrite zchk_ok by nia. apply yields_Ok. nia.
      + intros r Hr. apply (IH (S k)); [lia|intros; apply Sub; right; assumption|exact Hr]. }
  apply (G l 0%nat); [lia|auto|cbn; lia].
Qed.
Lemma mat_add_zb a b A B : zb A a -> zb B b -> mrows a = mrows b -> mcols a = mcols b -> A + B <= M -> yields (mat_add a b) (zb (A + B)).
Proof.
  intros Ha Hb Er Ec L. unfold zb in *. rewrite Forall_forall in Ha, Hb. unfold mat_add. rewrite Er, Ec, !Nat.eqb_refl. cbn [andb].
  eapply yields_bind; [apply (yields_mapM _ (fun x : Zi => Z.abs x <= A + B))|intros es [H _]; apply yields_Ok; exact H].
  intros [x y] Hxy. cbn [fst snd]. specialize (Ha x (in_combine_l _ _ _ _ Hxy)). specialize (Hb y (in_combine_r _ _ _ _ Hxy)).
  change (fadd x y) with (zchk M (x + y)). rewrite zchk_ok by lia. apply yields_Ok. lia.
Qed.
Lemma mat_scalar_zb a (c : Zi) A : zb A a -> A * Z.abs c <= M -> yields (mat_mul_scalar a c) (zb (A * Z.abs c)).
Proof.
  intros Ha L. unfold zb in *. rewrite Forall_forall in Ha. unfold mat_mul_scalar.
  eapply yields_bind; [apply (yields_mapM _ (fun x : Zi => Z.abs x <= A * Z.abs c))|intros es [H _]; apply yields_Ok; exact H].
  intros x Hx. specialize (Ha x Hx). change (fmul x c) with (zchk M (x * c)). assert (E : Z.abs (x * c) <= A * Z.abs c) by (rewrite Z.abs_mul; nia).
  rewrite zchk_ok by lia. apply yields_Ok. exact E.
Qed.
Lemma prod_ok x y A B : Z.abs x <= A -> Z.abs y <= B -> A * B <= M -> yields (zchk M (x * y)) (fun z => Z.abs z <= A * B).
Proof. intros Hx Hy L. pose proof (abs_mul_le x y A B Hx Hy). rewrite zchk_ok by lia. apply yields_Ok. assumption. Qed.
Lemma mat_dot_zb a b A B k : k = Nat.min (length (ments a)) (length (ments b)) -> zb A a -> zb B b -> 0 <= A -> 0 <= B -> Z.of_nat k * (A * B) <= M ->
  yields (mat_dot a b) (fun r : Zi => Z.abs r <= Z.of_nat k * (A * B)).
Proof.
  intros Ek Ha Hb HA HB L. unfold zb in *. rewrite Forall_forall in Ha, Hb. unfold mat_dot.
  assert (K : length (combine (ments a) (ments b)) = k) by (rewrite combine_length; auto). rewrite <- K in *. clear K Ek.
  apply (dot_bound (fun p : Z * Z => zchk M (fst p * snd p))); [nia| |exact L].
  intros [x y] Hxy. pose proof (in_split _ _ Hxy) as (u & v & Hs). assert (1 <= length (combine (ments a) (ments b)))%nat by (rewrite Hs, app_length; cbn; lia).
  apply prod_ok; [apply Ha; eapply in_combine_l; eassumption|apply Hb; eapply in_combine_r; eassumption|]. assert (0 <= A * B) by nia. nia.
Qed.
Lemma mat_mul_zb a b A B : length (ments a) = (mrows a * mcols a)%nat -> length (ments b) = (mrows b * mcols b)%nat -> mcols a = mrows b -> zb A a -> zb B b -> 0 <= A -> 0 <= B ->
  Z.of_nat (mcols a) * (A * B) <= M -> yields (mat_mul a b) (zb (Z.of_nat (mcols a) * (A * B))).
Proof.
  intros Sa Sb Eq Ha Hb HA HB L. unfold zb in *. rewrite Forall_forall in Ha, Hb. assert (AB : 0 <= A * B) by nia.
  unfold mat_mul. rewrite Eq, Nat.eqb_refl. unfold from_fnM. rewrite <- Eq.
  eapply yields_bind; [apply (yields_mapM _ (fun x : Zi => Z.abs x <= Z.of_nat (mcols a) * (A * B)))|intros es [H _]; apply yields_Ok; exact H].
  intros [r c] Hrc. cbn [fst snd]. destruct (proj1 (box_In _ _ _ _) Hrc) as [Ir Ic].
  assert (Lr : ((r + 1) * mcols a <= length (ments a))%nat) by (rewrite Sa; apply Nat.mul_le_mono_r; lia).
  unfold mat_row_slice. destruct (Nat.leb_spec ((r + 1) * mcols a) (length (ments a))); [|lia]. cbn [bind].
  set (row := firstn (mcols a) (skipn (r * mcols a) (ments a))).
  assert (Lrow : length row = mcols a) by (unfold row; rewrite firstn_length, skipn_length; nia).
  set (f := fun p : Z * nat => y <- @mget Zi b (snd p) c ;; zchk M (fst p * (y : Z))).
  assert (EqF : forall acc p, (y <- @mget Zi b (snd p) c ;; q <- @fmul Zi (fst p) y ;; @fadd Zi acc q) = (y <- f p ;; zchk M (acc + y))).
  { intros acc [x k]. unfold f. cbn [fst snd]. destruct (mget b k c); reflexivity. }
  rewrite (foldM_ext _ (fun (acc : Z) (p : Z * nat) => y <- f p ;; zchk M (acc + y)) _ EqF).
  assert (K : length (@combine Z nat row (seq 0 (mcols a))) = mcols a).
  { etransitivity; [apply combine_length|]. rewrite seq_length. change (length (row : list Z)) with (@length Zi row). lia. }
  pose proof (dot_bound f (@combine Z nat row (seq 0 (mcols a))) (A * B) AB) as G. rewrite K in G. apply G; [|exact L].
  intros [x k] Hx. unfold f. cbn [fst snd].
  assert (Ix : In x (ments a)).
  { apply in_combine_l in Hx. unfold row in Hx. rewrite <- (firstn_skipn (r * mcols a) (ments a)). apply in_or_app. right.
    rewrite <- (firstn_skipn (mcols a)). apply in_or_app. left. exact Hx. }
  apply in_combine_r in Hx. apply in_seq in Hx. unfold mget, vget.
  assert (Lk : (k * mcols b + c < length (ments b))%nat) by (rewrite Sb, <- Eq; nia).
  destruct (nth_error (ments b) (k * mcols b + c)) as [y|] eqn:Ny; [|apply nth_error_None in Ny; lia]. cbn [bind].
  apply prod_ok; [apply Ha; exact Ix|apply Hb; eapply nth_error_In; eassumption|]. nia.
Qed.
End Norm.
