(** * Specification: setting a variable to one, and homogenization.

    Pure mathematics; nothing here mentions the code. *)
From Verif Require Import Base FieldIface MonoSpec PolySpec GroebnerSpec IdealSpec GradeSpec GridSpec RewriteSpec LastVarSpec.
From Coq Require Import Lia Ring Field Setoid Morphisms.
Local Open Scope nat_scope.

(** the exponents from x_n on *)
Definition tail (n : nat) (m : mono) : mono := canon (skipn n (mlist m)).
Lemma tail_iff n a b : tail n a = tail n b <-> forall i, n <= i -> mexp a i = mexp b i.
Proof.
  assert (X : forall m i, mexp (tail n m) i = mexp m (n + i)) by (intros m i; unfold tail; rewrite canon_exp, expo_skipn; reflexivity).
  split.
  - intros E i Hi. replace i with (n + (i - n)) by lia. rewrite <- !X, E. reflexivity.
  - intros H. apply mono_ext. intros i. rewrite !X. apply H. lia.
Qed.
Lemma tail_mul n a b c : tail n a = tail n b -> tail n (mmul c a) = tail n (mmul c b).
Proof. rewrite !tail_iff. intros H i Hi. rewrite !mmul_exp, (H i Hi). reflexivity. Qed.

Section Homog.
Context {K : MathField}.
Add Field Kf77 : (kth K).
Add Ring Pr77 : (@poly_ring K) (setoid (@peq_equiv K) (@poly_ring_ext K)).
Notation spoly := (spoly K).
Variable n : nat.
Notation lt := grevlex_lt.
Notation LM := (is_lm grevlex_lt).
Notation LW := grevlex_laws.
Notation hom := (homog (tgr n)).

(** ** x_n set to one *)
Definition drop (m : mono) : mono := mquo m (mvar n (mexp m n)).
Definition set_one (p : spoly) : spoly := map (fun t => (fst t, drop (snd t))) p.
Lemma drop_exp m i : mexp (drop m) i = if Nat.eqb i n then 0 else mexp m i.
Proof. unfold drop. rewrite mquo_exp, mvar_exp. destruct (Nat.eqb_spec i n) as [->|N]; lia. Qed.
Lemma drop_mul a b : drop (mmul a b) = mmul (drop a) (drop b).
Proof. apply mono_ext. intros i. rewrite mmul_exp, !drop_exp, mmul_exp. destruct (Nat.eqb i n); lia. Qed.
Lemma drop_split m : m = mmul (mvar n (mexp m n)) (drop m).
Proof. apply mono_ext. intros i. rewrite mmul_exp, mvar_exp, drop_exp. destruct (Nat.eqb_spec i n) as [Ei|N]; [rewrite Ei|]; lia. Qed.
Lemma mtot_mvar k : mtot (mvar n k) = k.
Proof. unfold mtot, mvar, canon. cbn [mlist]. rewrite list_sum_trim, list_sum_app. assert (Z : forall j, list_sum (repeat 0 j) = 0) by (induction j; [reflexivity|assumption]). rewrite Z. cbn. lia. Qed.
Lemma drop_tot m : mtot m = mexp m n + mtot (drop m).
Proof. rewrite (drop_split m) at 1. rewrite mtot_mul, mtot_mvar. reflexivity. Qed.
Lemma ev_set_one p phi : ev (set_one p) phi = ev p (fun m => phi (drop m)).
Proof. unfold ev, set_one. induction p as [|t p IH]; [reflexivity|]. cbn [map fold_right fst snd]. rewrite IH. reflexivity. Qed.
Global Instance set_one_proper : Proper (peq ==> peq) set_one.
Proof. intros p q E phi. rewrite !ev_set_one. apply E. Qed.
Lemma set_one_add p q : peq (set_one (padd p q)) (padd (set_one p) (set_one q)).
Proof. intros phi. unfold padd. rewrite ev_set_one, !ev_app, !ev_set_one. reflexivity. Qed.
Lemma set_one_sub p q : peq (set_one (psub p q)) (psub (set_one p) (set_one q)).
Proof. intros phi. unfold psub, padd. rewrite ev_set_one, !ev_app, !ev_popp, !ev_set_one. reflexivity. Qed.
Lemma set_one_mul p q : peq (set_one (pmul p q)) (pmul (set_one p) (set_one q)).
Proof.
  intros phi. rewrite ev_set_one, !ev_pmul, ev_set_one. apply ev_ext. intros a. rewrite ev_set_one. apply ev_ext. intros b. rewrite drop_mul. reflexivity.
Qed.
Lemma set_one_ideal (G : list spoly) p : in_ideal G p -> in_ideal (map set_one G) (set_one p).
Proof.
  intros (qs & L & E). rewrite E. clear E p. revert qs L. induction G as [|g G IH]; intros [|q qs] L; try discriminate.
  - cbn [lincomb map]. apply in_ideal_zero.
  - cbn [lincomb map]. rewrite set_one_add. apply in_ideal_cons. exists (set_one q), (set_one (lincomb qs G)). split; [apply IH; cbn in L; lia|]. rewrite set_one_mul. reflexivity.
Qed.

(** in a homogeneous polynomial different monomials stay different, and the order stays *)
Lemma drop_lt l m : tgr n l = tgr n m -> lt m l -> lt (drop m) (drop l).
Proof.
  intros T L. apply tgr_iff in T as [T X]. destruct L as [L|(_ & k & A & B)]; [lia|]. pose proof (drop_tot l) as Tl. pose proof (drop_tot m) as Tm.
  destruct (Nat.lt_trichotomy k n) as [Q|[->|Q]].
  - right. assert (Y := B n Q). split; [lia|]. exists k. rewrite !drop_exp. destruct (Nat.eqb_spec k n); [lia|]. split; [exact A|]. intros i Hi. rewrite !drop_exp. destruct (Nat.eqb i n); [reflexivity|apply B; exact Hi].
  - left. lia.
  - rewrite (X k Q) in A. lia.
Qed.
Lemma drop_inj l m : tgr n l = tgr n m -> drop l = drop m -> l = m.
Proof.
  intros T E. apply tgr_iff in T as [T X]. pose proof (drop_tot l) as Tl. pose proof (drop_tot m) as Tm. rewrite E in Tl.
  apply mono_ext. intros i. destruct (Nat.eq_dec i n) as [Ei|N]; [rewrite Ei; lia|]. pose proof (drop_exp l i) as A. pose proof (drop_exp m i) as B. rewrite E in A. destruct (Nat.eqb_spec i n); [lia|congruence].
Qed.
Lemma coeff_set_one_inv (p : spoly) m : coeff (set_one p) m <> k0 -> exists m', coeff p m' <> k0 /\ drop m' = m.
Proof.
  intros N. unfold coeff in N. rewrite ev_set_one in N. apply ev_nonzero in N as (m' & N & D). exists m'. split; [exact N|]. destruct (mono_dec (drop m') m) as [E|E]; [exact E|]. rewrite delta_diff in D by exact E. congruence.
Qed.
Lemma ev_support (p : spoly) phi psi : (forall m, coeff p m <> k0 -> phi m = psi m) -> ev p phi = ev p psi.
Proof.
  intros H. destruct (kdec (ev p (fun m => kadd (phi m) (kmul (kopp k1) (psi m)))) k0) as [Z|N].
  - rewrite ev_add_fun, ev_scale_fun in Z. transitivity (kadd (kadd (ev p phi) (kmul (kopp k1) (ev p psi))) (ev p psi)); [ring|]. rewrite Z. ring.
  - exfalso. apply ev_nonzero in N as (m & N & D). apply D. rewrite (H m N). ring.
Qed.
Lemma coeff_set_one (p : spoly) m : hom p -> coeff p m <> k0 -> coeff (set_one p) (drop m) = coeff p m.
Proof.
  intros H N. unfold coeff. rewrite ev_set_one. apply ev_support. intros a Na. destruct (mono_dec a m) as [->|X]; [rewrite !delta_same; reflexivity|].
  rewrite !delta_diff; [reflexivity|exact X|]. intros E. apply X. apply drop_inj; [apply H; assumption|exact E].
Qed.
Lemma set_one_lm (p : spoly) l : hom p -> LM p l -> LM (set_one p) (drop l).
Proof.
  intros H L. split; [rewrite coeff_set_one by (try apply L; exact H); apply L|]. intros m N. apply coeff_set_one_inv in N as (m' & N & <-).
  destruct (proj2 L m' N) as [->|X]; [left; reflexivity|right]. apply drop_lt; [apply H; [apply L|exact N]|exact X].
Qed.

(** ** powers of x_n that bring all terms to degree D *)
Definition liftm (D : nat) (m : mono) : mono := mmul (mvar n (D - mtot m)) m.
Definition lift (D : nat) (p : spoly) : spoly := map (fun t => (fst t, liftm D (snd t))) p.
Lemma ev_lift D p phi : ev (lift D p) phi = ev p (fun m => phi (liftm D m)).
Proof. unfold ev, lift. induction p as [|t p IH]; [reflexivity|]. cbn [map fold_right fst snd]. rewrite IH. reflexivity. Qed.
Global Instance lift_proper D : Proper (peq ==> peq) (lift D).
Proof. intros p q E phi. rewrite !ev_lift. apply E. Qed.
Lemma lift_add D p q : peq (lift D (padd p q)) (padd (lift D p) (lift D q)).
Proof. intros phi. unfold padd. rewrite ev_lift, !ev_app, !ev_lift. reflexivity. Qed.
Lemma liftm_exp D m i : mexp (liftm D m) i = (if Nat.eqb i n then D - mtot m else 0) + mexp m i.
Proof. unfold liftm. rewrite mmul_exp, mvar_exp. reflexivity. Qed.
Lemma lift_mul D e (a g : spoly) : (forall m, coeff g m <> k0 -> mtot m = e) -> (forall m, coeff a m <> k0 -> mtot m + e <= D) ->
  peq (lift D (pmul a (set_one g))) (pmul (lift (D - e) a) g).
Proof.
  intros Hg Ha phi. rewrite ev_lift, !ev_pmul, ev_lift. apply ev_support. intros ma Na. rewrite ev_set_one. apply ev_support. intros mg Ng.
  f_equal. pose proof (Hg mg Ng) as Eg. pose proof (Ha ma Na) as Ea. pose proof (drop_tot mg) as T. apply mono_ext. intros i. rewrite liftm_exp, !mmul_exp, liftm_exp, drop_exp, mtot_mul.
  destruct (Nat.eqb_spec i n) as [->|N]; lia.
Qed.
Lemma tot_bound (p : spoly) : exists B, forall m, coeff p m <> k0 -> mtot m <= B.
Proof.
  exists (list_sum (map mtot (map snd p))). intros m N. apply coeff_in in N. revert N. generalize (map snd p). intros L. unfold list_sum. induction L as [|a L IH]; intros I; [destruct I|]. cbn [map fold_right].
  destruct I as [->|I]; [lia|]. specialize (IH I). lia.
Qed.
Lemma lift_ideal (G : list spoly) : (forall g, In g G -> hom g) -> forall p, in_ideal (map set_one G) p -> exists B, forall D, B <= D -> in_ideal G (lift D p).
Proof.
  induction G as [|g G IH]; intros H p Hp.
  - exists 0. intros D _. destruct Hp as (qs & L & E). destruct qs; [|discriminate]. rewrite E. cbn. apply in_ideal_zero.
  - cbn [map] in Hp. apply in_ideal_cons in Hp as (a & r & Hr & E). destruct (IH (fun x Hx => H x (or_intror Hx)) r Hr) as (B & HB).
    destruct (tot_bound a) as (A & HA). destruct (peq_zero_dec g) as [Z|(m0 & N0)].
    + exists B. intros D HD. rewrite E, lift_add. apply in_ideal_cons. exists pzero, (lift D r). split; [apply HB; exact HD|].
      assert (Y : peq (set_one g) pzero) by (rewrite Z; reflexivity). assert (X : peq (pmul a (set_one g)) pzero) by (rewrite Y; ring). rewrite X. change (lift D pzero) with (@pzero K). ring.
    + exists (Nat.max B (A + mtot m0)). intros D HD. rewrite E, lift_add, (lift_mul D (mtot m0)).
      * apply in_ideal_cons. exists (lift (D - mtot m0) a), (lift D r). split; [apply HB; lia|reflexivity].
      * intros m N. apply (proj1 (tgr_iff n m m0)). apply (H g (or_introl eq_refl)); assumption.
      * intros m N. pose proof (HA m N). lia.
Qed.
Lemma lift_lm D (f : spoly) m : (forall a, coeff f a <> k0 -> tail n a = tail n m /\ mtot a <= D) -> LM f m -> LM (lift D f) (liftm D m).
Proof.
  intros H L.
  assert (Inj : forall a, coeff f a <> k0 -> liftm D a = liftm D m -> a = m).
  { intros a Na E. destruct (H a Na) as [T Ba]. apply mono_ext. intros i. pose proof (proj1 (tail_iff n a m) T) as X. destruct (Nat.le_gt_cases n i) as [Q|Q]; [apply X; exact Q|].
    pose proof (liftm_exp D a i) as Y. rewrite E, liftm_exp in Y. destruct (Nat.eqb_spec i n); lia. }
  split.
  - unfold coeff. rewrite ev_lift. rewrite (ev_support f _ (delta m)); [apply L|]. intros a Na. destruct (mono_dec a m) as [->|X]; [rewrite !delta_same; reflexivity|].
    rewrite !delta_diff; [reflexivity|exact X|]. intros E. apply X. apply Inj; assumption.
  - intros b Nb. unfold coeff in Nb. rewrite ev_lift in Nb. apply ev_nonzero in Nb as (a & Na & Db). destruct (mono_dec (liftm D a) b) as [<-|X]; [|rewrite delta_diff in Db by exact X; congruence].
    destruct (proj2 L a Na) as [->|Lt]; [left; reflexivity|right]. destruct (H a Na) as [T Ba]. destruct (H m (proj1 L)) as [_ Bm]. pose proof (proj1 (tail_iff n a m) T) as X.
    assert (Tot : mtot (liftm D a) = mtot (liftm D m)) by (unfold liftm; rewrite !mtot_mul, !mtot_mvar; lia).
    right. split; [exact Tot|]. destruct Lt as [Lt|(Et & k & A & B)].
    + exists n. rewrite !liftm_exp, Nat.eqb_refl, (X n) by lia. split; [lia|]. intros i Hi. rewrite !liftm_exp, (X i) by lia. destruct (Nat.eqb_spec i n); lia.
    + exists k. rewrite !liftm_exp, Et. split; [lia|]. intros i Hi. rewrite !liftm_exp, Et, (B i Hi). reflexivity.
Qed.

(** a Groebner basis of homogeneous polynomials stays one with x_n = 1 *)
Theorem groebner_set_one (G : list spoly) : groebner lt G -> (forall g, In g G -> hom g) -> groebner lt (map set_one G).
Proof.
  intros GB H f m Hf Lm.
  assert (HQ : forall q, In q (map set_one G) -> homog (tail n) q).
  { intros q I. apply in_map_iff in I as (g & <- & I). intros a b Na Nb. apply coeff_set_one_inv in Na as (a' & Na & <-). apply coeff_set_one_inv in Nb as (b' & Nb & <-).
    pose proof (proj1 (tgr_iff n a' b') (H g I a' b' Na Nb)) as [_ X]. apply tail_iff. intros i Hi. rewrite !drop_exp. destruct (Nat.eqb_spec i n); [reflexivity|apply X; lia]. }
  pose proof (homog_graded mono_dec (tail n) (tail_mul n) _ HQ f (tail n m) Hf) as Hc. set (c := comp mono_dec (tail n) (tail n m) f) in *.
  assert (Sc : forall a, coeff c a <> k0 -> tail n a = tail n m /\ coeff c a = coeff f a).
  { intros a N. unfold c, comp in *. rewrite coeff_pfilter in *. destruct (isg mono_dec (tail n) (tail n m) a) eqn:X; [|congruence]. apply isg_true in X. auto. }
  assert (Lc : LM c m).
  { split.
    - unfold c, comp. rewrite coeff_pfilter. assert (X : isg mono_dec (tail n) (tail n m) m = true) by (apply isg_true; reflexivity). rewrite X. apply Lm.
    - intros a N. apply Lm. rewrite <- (proj2 (Sc a N)). exact N. }
  destruct (lift_ideal G H c Hc) as (B & HB). destruct (tot_bound c) as (A & HA). set (D := Nat.max A B).
  assert (LD : LM (lift D c) (liftm D m)). { apply lift_lm; [|exact Lc]. intros a N. split; [apply Sc; exact N|]. pose proof (HA a N). unfold D. lia. }
  destruct (GB _ _ (HB D ltac:(unfold D; lia)) LD) as (g & l & Ig & Lg & Dv). exists (set_one g), (drop l). split; [apply in_map; exact Ig|]. split; [apply set_one_lm; [apply H; exact Ig|exact Lg]|].
  intros i. specialize (Dv i). rewrite liftm_exp in Dv. rewrite drop_exp. destruct (Nat.eqb_spec i n); lia.
Qed.

(** membership with x_n = 1 is membership up to a power of x_n *)
Lemma set_one_xmul k (p : spoly) : peq (set_one (tmul k1 (mvar n k) p)) (set_one p).
Proof.
  intros phi. rewrite !ev_set_one, ev_tmul. transitivity (ev p (fun b => phi (drop (mmul (mvar n k) b)))); [ring|]. apply ev_ext. intros b. f_equal. apply mono_ext. intros i.
  rewrite !drop_exp, mmul_exp, mvar_exp. destruct (Nat.eqb i n); lia.
Qed.
Theorem set_one_member (G : list spoly) (p : spoly) : (forall g, In g G -> hom g) -> hom p ->
  (in_ideal (map set_one G) (set_one p) <-> exists k, in_ideal G (tmul k1 (mvar n k) p)).
Proof.
  intros H Hp. split.
  - intros I. destruct (peq_zero_dec p) as [Z|(m0 & N0)]; [exists 0; rewrite xmul_zero, Z; apply in_ideal_zero|].
    destruct (lift_ideal G H _ I) as (B & HB). set (D := Nat.max B (mtot m0)). exists (D - mtot m0).
    assert (X : peq (lift D (set_one p)) (tmul k1 (mvar n (D - mtot m0)) p)); [|rewrite <- X; apply HB; unfold D; lia].
    intros phi. rewrite ev_lift, ev_set_one, ev_tmul. transitivity (ev p (fun b => phi (mmul (mvar n (D - mtot m0)) b))); [|ring]. apply ev_support. intros m N. f_equal.
    pose proof (proj1 (tgr_iff n m m0) (Hp m m0 N N0)) as [T _]. pose proof (drop_tot m) as Td. apply mono_ext. intros i. rewrite liftm_exp, mmul_exp, mvar_exp, drop_exp.
    assert (mtot m0 <= D) by (unfold D; lia). destruct (Nat.eqb_spec i n) as [->|]; lia.
  - intros (k & I). rewrite <- (set_one_xmul k). apply set_one_ideal. exact I.
Qed.

(** ** homogenization of a Groebner basis *)
Definition homogenized (g h : spoly) : Prop := hom h /\ peq (set_one h) g /\ exists m, coeff h m <> k0 /\ mexp m n = 0.
Section Hg.
Context (G Hs : list spoly) (GB : groebner lt G) (R : Forall2 homogenized G Hs).
Lemma hs_hom h : In h Hs -> hom h.
Proof. intros I. destruct (in_F2_r _ _ _ _ R I) as (g & _ & H & _). exact H. Qed.
Lemma hs_set_one p : in_ideal Hs p -> in_ideal G (set_one p).
Proof.
  intros Hp. apply set_one_ideal in Hp. revert Hp. apply in_ideal_sub_ideal. intros q I. apply in_map_iff in I as (h & <- & I).
  destruct (in_F2_r _ _ _ _ R I) as (g & Ig & _ & E & _). apply (in_ideal_gen_eq G _ g Ig E).
Qed.
Lemma hs_cover (p : spoly) m : hom p -> in_ideal G (set_one p) -> LM p m -> exists h l, In h Hs /\ LM h l /\ mdiv l m.
Proof.
  intros Hp I L. destruct (GB _ _ I (set_one_lm p m Hp L)) as (g & lg & Ig & Lg & D). destruct (in_F2_l _ _ _ _ R Ig) as (h & Ih & Hh & E & m0 & N0 & Z0).
  destruct (lm_exists lt LW h) as (l & Ll); [intros Z; apply N0; rewrite Z; reflexivity|]. exists h, l. split; [exact Ih|]. split; [exact Ll|].
  pose proof (lm_last n h l m0 Hh Ll N0) as X. pose proof (set_one_lm h l Hh Ll) as Y. rewrite E in Y. pose proof (is_lm_unique lt LW g _ _ Y Lg) as W. subst lg.
  intros i. specialize (D i). rewrite !drop_exp in D. destruct (Nat.eqb_spec i n) as [Ei|]; [rewrite Ei|]; lia.
Qed.
Notation cp d p := (comp mono_dec (tgr n) d p).
Lemma comp_lm (p : spoly) m : LM p m -> LM (cp (tgr n m) p) m.
Proof.
  intros L. unfold comp. split.
  - rewrite coeff_pfilter. assert (X : isg mono_dec (tgr n) (tgr n m) m = true) by (apply isg_true; reflexivity). rewrite X. apply L.
  - intros a N. rewrite coeff_pfilter in N. destruct (isg mono_dec (tgr n) (tgr n m) a); [apply L; exact N|congruence].
Qed.
Theorem groebner_homogenized : groebner lt Hs /\ forall p : spoly, hom p -> (in_ideal Hs p <-> in_ideal G (set_one p)).
Proof.
  assert (Gr : forall p d, in_ideal Hs p -> in_ideal Hs (cp d p)) by (intros p d; apply (homog_graded mono_dec (tgr n) (tgr_mul n) Hs hs_hom)).
  split.
  - intros f m Hf L. apply (hs_cover (cp (tgr n m) f) m); [apply comp_homog|apply hs_set_one, Gr; exact Hf|apply comp_lm; exact L].
  - intros p Hp. split; [apply hs_set_one|]. intros I.
    apply (cover_generates Hs (fun q => forall d, in_ideal G (set_one (cp d q)))).
    + intros a b Ha Hb d. assert (X : peq (cp d (psub a b)) (psub (cp d a) (cp d b))).
      { apply peq_coeff. intros m. unfold comp. rewrite coeff_sub, !coeff_pfilter, coeff_sub. destruct (isg mono_dec (tgr n) d m); ring. }
      rewrite X, set_one_sub. apply in_ideal_sub; [apply Ha|]. apply hs_set_one, Gr. exact Hb.
    + intros a b E Ha d. assert (X : peq (cp d b) (cp d a)) by (apply peq_coeff; intros m; unfold comp; rewrite !coeff_pfilter; destruct (isg mono_dec (tgr n) d m); [symmetry; apply E|reflexivity]).
      rewrite X. apply Ha.
    + intros q m Hq L. apply (hs_cover (cp (tgr n m) q) m); [apply comp_homog|apply Hq|apply comp_lm; exact L].
    + intros d. destruct (peq_zero_dec (cp d p)) as [Z|(m & N)]; [rewrite Z; apply in_ideal_zero|].
      assert (X : peq (cp d p) p); [|rewrite X; exact I]. unfold comp in *. rewrite coeff_pfilter in N. destruct (isg mono_dec (tgr n) d m) eqn:Y; [|congruence]. apply isg_true in Y.
      apply pfilter_all. intros m' N'. apply isg_true. rewrite <- Y. apply Hp; assumption.
Qed.
End Hg.
End Homog.
