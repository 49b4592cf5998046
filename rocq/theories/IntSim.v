(** * Integers with a bound: one run that stands for Rational, f32 and f64 at once.

    [zimpl M]: arithmetic on integers which stops (as an overflow) at the first result above [M] in absolute value and at
    the first division which does not come out even.  Not a model of any type in the crate: it is simulated by Rational for
    M = i64::MAX, by f64 for M = 2^53, by f32 for M = 2^24, and by the exact rational numbers. *)
From Coq Require Import ZArith QArith Qcanon Lia.
From Verif Require Import Base BaseLemmas IntModel RatModel FieldIface IntProofs RatProofs NumFacts MDegModel OrdModel PolyModel CompModel
  MonoSpec MDegProofs PolySpec PolyProofs UtilModel MatModel MatProofs Param ParamMat Ideal FloatModel FloatExact FloatSim PropFloat PropMdeg
  BoundProofs PropBounds.
Local Open Scope Z_scope.

Section Z.
Context (M : Z).
Definition zchk (z : Z) : res Z := if Z.abs z <=? M then Ok z else Panic Overflow.
Definition zdiv (x y : Z) : res Z :=
  if y =? 0 then Panic DivZero else if y * (x / y) =? x then zchk (x / y) else Panic Overflow.
Definition zimpl : FieldImpl := {|
  fcar := Z;
  f0 := 0;
  f1 := 1;
  feqb := Z.eqb;
  fadd := fun x y => zchk (x + y);
  fsub := fun x y => zchk (x - y);
  fneg := fun x => zchk (- x);
  fmul := fun x y => zchk (x * y);
  fdiv := zdiv;
  finv := fun x => zdiv 1 x;
  fpowi32 := fun _ _ => Panic Overflow;
  fsum := fun l => foldM (fun acc r => x <- r ;; zchk (acc + x)) l 0
|}.
Lemma zchk_ok z : Z.abs z <= M -> zchk z = Ok z.
Proof. intros H. unfold zchk. destruct (Z.leb_spec (Z.abs z) M); [reflexivity|lia]. Qed.
Lemma zchk_nf z : zchk z <> NoFuel.
Proof. unfold zchk. destruct (_ <=? _); discriminate. Qed.
Lemma zchk_sim {A : Type} (R : Z -> A -> Prop) z (y : res A) : (Z.abs z <= M -> exists a, y = Ok a /\ R z a) -> rsim R (zchk z) y.
Proof.
  intros H. unfold zchk. destruct (Z.leb_spec (Z.abs z) M) as [L|_]; [|exact I]. destruct (H L) as (a & -> & Ra). exact Ra.
Qed.
Lemma zdiv_sim {A : Type} (R : Z -> A -> Prop) x y (w : res A) : y <> 0 -> (forall k, x = k * y -> Z.abs k <= M -> exists a, w = Ok a /\ R k a) -> rsim R (zdiv x y) w.
Proof.
  intros N H. unfold zdiv. destruct (Z.eqb_spec y 0) as [|_]; [contradiction|]. destruct (Z.eqb_spec (y * (x / y)) x) as [E|_]; [|exact I].
  apply zchk_sim. intros L. apply H; [lia|exact L].
Qed.

(** ** The exact rational numbers *)
Notation QI := (ideal_impl QcField).
Definition zq (z : zimpl) (q : QI) : Prop := q = intq z.
Lemma intq_inj a b : intq a = intq b -> a = b.
Proof. intros H. unfold intq in H. rewrite Q2Qc_eq_iff in H. unfold Qeq in H. cbn in H. lia. Qed.
Lemma intq_opp a : (- intq a)%Qc = intq (- a).
Proof. rewrite !intq_dy. apply dy_opp. Qed.
Lemma intq_quot k y : y <> 0 -> (intq (k * y) / intq y)%Qc = intq k.
Proof. intros N. assert (intq y <> 0%Qc) by (change 0%Qc with (intq 0); intros E; apply intq_inj in E; contradiction). rewrite <- intq_mul. field. assumption. Qed.
Lemma intq_eq0 z : @feqb zimpl z f0 = @feqb QI (intq z) f0.
Proof.
  cbn [feqb f0 zimpl ideal_impl]. unfold keqb. destruct (@kdec QcField (intq z) k0) as [E|E].
  - change (@k0 QcField) with (intq 0) in E. apply intq_inj in E. apply Z.eqb_eq. exact E.
  - apply Z.eqb_neq. intros ->. apply E. reflexivity.
Qed.
Lemma zq_sim : FieldSim zimpl QI zq.
Proof.
  unfold zq. constructor.
  - reflexivity.
  - reflexivity.
  - intros x x' ->. apply intq_eq0.
  - intros x y x' y' -> ->. apply zchk_sim. intros _. eexists. split; [reflexivity|]. apply intq_add.
  - intros x y x' y' -> ->. apply zchk_sim. intros _. eexists. split; [reflexivity|]. apply intq_sub.
  - intros x x' ->. apply zchk_sim. intros _. eexists. split; [reflexivity|]. apply intq_opp.
  - intros x y x' y' -> ->. apply zchk_sim. intros _. eexists. split; [reflexivity|]. apply intq_mul.
  - intros x y x' y' -> -> N. apply zdiv_sim; [apply Z.eqb_neq; exact N|]. intros k -> _.
    rewrite intq_eq0 in N. cbn [feqb f0 ideal_impl] in N. cbn [fdiv ideal_impl]. rewrite N. eexists. split; [reflexivity|]. apply intq_quot.
    rewrite <- Z.eqb_neq. rewrite intq_eq0. exact N.
  - intros x x' -> N. apply zdiv_sim; [apply Z.eqb_neq; exact N|]. intros k E _. assert (N' : x <> 0) by (apply Z.eqb_neq; exact N).
    rewrite intq_eq0 in N. cbn [feqb f0 ideal_impl] in N. cbn [finv ideal_impl]. rewrite N. eexists. split; [reflexivity|].
    rewrite <- (intq_quot k x N'), <- E. change (intq 1) with 1%Qc. cbn. unfold Qcdiv. rewrite Qcmult_1_l. reflexivity.
  - intros x x' n _ _. exact I.
  - intros l l' H _. cbn [fsum zimpl ideal_impl].
    assert (G : forall a, rsim (fun (z : Z) q => q = intq z) (foldM (fun acc r => x <- r ;; zchk (acc + x)) l a)
       (vs <- mapM (fun r => r) l' ;; Ok (intq a + ksum (K := QcField) vs)%Qc)).
    { induction H as [|r r' l l' Hr _ IH]; intros a; cbn [foldM mapM].
      - cbn. apply Qcplus_0_r.
      - destruct r as [x|k|]; cbn in Hr.
        + destruct r' as [x'| |]; try contradiction. subst x'. cbn [bind]. unfold zchk at 1. destruct (_ <=? _); [|exact I]. cbn [bind].
          specialize (IH (a + x)). destruct (mapM (fun r => r) l') as [vs| |]; cbn [bind] in *; [|exact IH|exact IH].
          refine (eq_ind _ (fun v : Qc => rsim (fun (z : Z) (q : Qc) => q = intq z) _ (Ok v)) IH _ _).
          rewrite <- intq_add, <- Qcplus_assoc. reflexivity.
        + destruct k; try exact I; subst r'; reflexivity.
        + subst r'. reflexivity. }
    specialize (G 0). revert G. generalize (foldM (fun acc r => x <- r ;; zchk (acc + x)) l 0). intros w.
    replace (vs <- mapM (fun r => r) l' ;; Ok (intq 0 + ksum (K := QcField) vs)%Qc) with (vs <- mapM (fun r => r) l' ;; Ok (ksum (K := QcField) vs)); [exact (fun h => h)|].
    destruct (mapM _ l'); cbn [bind]; [|reflexivity|reflexivity]. rewrite Qcplus_0_l. reflexivity.
  - intros x y _ _ _ _. apply zchk_nf.
  - intros x x' n _ _. discriminate.
Qed.

(** ** Rational *)
Definition zr (z : zimpl) (r : rat_impl Debug) : Prop := r = mkrat z 1 /\ Z.abs z <= i64_max.
Lemma chk_in z : Z.abs z <= i64_max -> chk64 Debug z = Ok z.
Proof. intros H. apply (chk64_abs z i64_max); lia. Qed.
Lemma new_div k y : y <> 0 -> Z.abs (k * y) <= i64_max -> Z.abs y <= i64_max -> rat_new Debug (k * y) y = Ok (mkrat k 1).
Proof.
  intros N L1 L2. destruct (rb_new (k * y) y i64_max i64_max N L1 L2) as (r & E & _); [lia|lia|].
  destruct (safe_val _ _ _ (rat_new_safe (k * y) y N) E) as [Rd V].
  rewrite E. f_equal. apply reduced_unique; [exact Rd|split; [cbn; lia|apply Z.gcd_1_r]|].
  apply val_eq_iff; [apply Rd|cbn; lia|]. cbn [numer denom]. apply (Z.mul_cancel_r _ _ y N). nia.
Qed.
Lemma zr_sim : M <= i64_max -> FieldSim zimpl (rat_impl Debug) zr.
Proof.
  intros LM. assert (C1 : 1 <= i64_max) by (unfold i64_max; lia).
  assert (AD : forall x y, Z.abs x <= i64_max -> Z.abs y <= i64_max -> Z.abs (x + y) <= i64_max -> rat_add Debug (mkrat x 1) (mkrat y 1) = Ok (mkrat (x + y) 1)).
  { intros x y Hx Hy Hs. unfold rat_add, int_mul, int_add. cbn [numer denom]. rewrite !Z.mul_1_r. rewrite (chk_in x) by assumption. cbn [bind]. rewrite (chk_in y) by assumption. cbn [bind].
    rewrite chk_in by assumption. cbn [bind]. unfold int_is_zero. destruct (Z.eqb_spec (x + y) 0) as [->|_]; [reflexivity|]. rewrite chk_in by exact C1. reflexivity. }
  unfold zr. constructor.
  - split; [reflexivity|exact (Z.le_trans 0 1 _ ltac:(lia) C1)].
  - split; [reflexivity|exact C1].
  - intros x x' [-> _]. cbn. unfold rat_eqb. cbn. rewrite andb_true_r. reflexivity.
  - intros x y x' y' [-> Hx] [-> Hy]. apply zchk_sim. intros L. eexists. split; [apply AD; [assumption|assumption|lia]|split; [reflexivity|lia]].
  - intros x y x' y' [-> Hx] [-> Hy]. apply zchk_sim. intros L. exists (mkrat (x - y) 1). split; [|split; [reflexivity|lia]].
    cbn [fsub rat_impl]. unfold rat_sub, int_mul, int_sub. cbn [numer denom]. rewrite !Z.mul_1_r. rewrite (chk_in x) by assumption. cbn [bind]. rewrite (chk_in y) by assumption. cbn [bind].
    rewrite chk_in by lia. cbn [bind]. unfold int_is_zero. destruct (Z.eqb_spec (x - y) 0) as [->|_]; [reflexivity|]. rewrite chk_in by exact C1. reflexivity.
  - intros x x' [-> Hx]. apply zchk_sim. intros L. exists (mkrat (- x) 1). split; [|split; [reflexivity|lia]].
    cbn [fneg rat_impl]. unfold rat_neg, int_neg. cbn [numer denom]. rewrite chk_in by lia. reflexivity.
  - intros x y x' y' [-> Hx] [-> Hy]. apply zchk_sim. intros L. exists (mkrat (x * y) 1). split; [|split; [reflexivity|lia]].
    cbn [fmul rat_impl]. unfold rat_mul, int_mul. cbn [numer denom]. rewrite chk_in by lia. cbn [bind]. rewrite Z.mul_1_r, chk_in by exact C1. cbn [bind].
    pose proof (new_div (x * y) 1) as G. rewrite Z.mul_1_r in G. apply G; lia.
  - intros x y x' y' [-> Hx] [-> Hy] N. apply Z.eqb_neq in N. apply zdiv_sim; [exact N|]. intros k -> L. exists (mkrat k 1). split; [|split; [reflexivity|lia]].
    cbn [fdiv rat_impl]. unfold rat_div, int_mul. cbn [numer denom]. rewrite Z.mul_1_r, Z.mul_1_l. rewrite (chk_in (k * y)) by assumption. cbn [bind]. rewrite (chk_in y) by assumption. cbn [bind]. apply new_div; assumption.
  - intros x x' [-> Hx] N. apply Z.eqb_neq in N. apply zdiv_sim; [exact N|]. intros k E L. exists (mkrat k 1). split; [|split; [reflexivity|lia]].
    assert (D : x = 1 /\ k = 1 \/ x = -1 /\ k = -1).
    { symmetry in E. destruct (Z.mul_eq_1 _ _ E) as [Ek|Ek]; rewrite Ek in E; [left|right]; lia. }
    destruct D as [[-> ->]|[-> ->]]; reflexivity.
  - intros x x' n _ _. exact I.
  - intros l l' H NF. cbn [fsum zimpl rat_impl]. unfold rat_sum, reduce_iter.
    assert (G : forall l l', Forall2 (rsim (fun (z : Z) (r : rat) => r = mkrat z 1 /\ Z.abs z <= i64_max)) l l' -> forall a, Z.abs a <= i64_max ->
       rsim (fun (z : Z) (r : rat) => r = mkrat z 1 /\ Z.abs z <= i64_max) (foldM (fun acc r => x <- r ;; zchk (acc + x)) l a)
            (foldM (fun acc y => b <- y ;; rat_add Debug acc b) l' (mkrat a 1))).
    { clear l l' H NF. induction 1 as [|r r' l l' Hr _ IH]; intros a La; cbn [foldM]; [split; [reflexivity|exact La]|].
      destruct r as [x|k|]; cbn in Hr.
      - destruct r' as [x'| |]; try contradiction. destruct Hr as [-> Lx]. cbn [bind]. unfold zchk at 1. destruct (Z.leb_spec (Z.abs (a + x)) M); [|exact I].
        cbn [bind]. change (Z.abs x <= i64_max) in Lx. rewrite (AD a x La Lx) by lia. cbn [bind]. apply IH. lia.
      - destruct k; try exact I; subst r'; reflexivity.
      - subst r'. reflexivity. }
    destruct H as [|r r' l l' Hr Hl].
    { cbn. split; [reflexivity|lia]. }
    cbn [foldM]. destruct r as [x|k|]; cbn in Hr.
    + destruct r' as [x'| |]; try contradiction. destruct Hr as [-> Lx]. cbn [bind]. unfold zchk at 1. destruct (Z.leb_spec (Z.abs (0 + x)) M); [|exact I].
      cbn [bind]. change (Z.abs x <= i64_max) in Lx. rewrite Z.add_0_l. specialize (G l l' Hl x Lx).
      revert G. generalize (foldM (fun (acc : rat) (y : res rat) => b <- y ;; rat_add Debug acc b) l' (mkrat x 1)).
      intros w G. destruct (foldM (fun acc r => x <- r ;; zchk (acc + x)) l x) as [z|k|]; cbn in G |- *.
      * destruct w as [r| |]; try contradiction. exact G.
      * destruct k; try exact I; rewrite G; reflexivity.
      * rewrite G. reflexivity.
    + destruct k; try exact I; subst r'; reflexivity.
    + subst r'. reflexivity.
  - intros x y _ _ _ _. apply zchk_nf.
  - intros x x' n _ _. discriminate.
Qed.

(** ** f32 and f64 *)
Section Float.
Context (t : fmt) (e : fenv) (T : is_fmt t).
Definition zf (z : zimpl) (x : float_impl t e) : Prop := stands t x (intq z).
Lemma stands_zero b : stands t (S754_zero b) (intq 0).
Proof. split; [destruct T as [-> | ->]; destruct b; reflexivity|split; reflexivity]. Qed.
Lemma stands_one : stands t (fone t) (intq 1).
Proof. destruct T as [-> | ->]; (split; [reflexivity|split; [reflexivity|apply Qc_is_canon; reflexivity]]). Qed.
Lemma stands_eq0 x z : stands t x (intq z) -> Z.eqb z 0 = SFeqb x fzero.
Proof.
  intros H. unfold SFeqb. rewrite (compare_exact t (is_good t T) x fzero (intq z) (intq 0) H (stands_zero false)).
  destruct (Z.eqb_spec z 0) as [->|N].
  - destruct (intq 0 ?= intq 0)%Qc eqn:E; [reflexivity| |]; exfalso; [apply Qclt_alt in E|apply Qcgt_alt in E]; exact (Qclt_not_eq _ _ E eq_refl).
  - destruct (intq z ?= intq 0)%Qc eqn:E; [|reflexivity|reflexivity]. apply Qceq_alt in E. apply intq_inj in E. contradiction.
Qed.
Lemma zf_sim : M <= 2 ^ prec t -> FieldSim zimpl (float_impl t e) zf.
Proof.
  intros LM. unfold zf. constructor.
  - exact (stands_zero false).
  - exact stands_one.
  - intros x x' H. exact (stands_eq0 x' x H).
  - intros x y x' y' Hx Hy. apply zchk_sim. intros L. eexists. split; [reflexivity|]. apply (C79_integers t x' y' x y T Hx Hy). lia.
  - intros x y x' y' Hx Hy. apply zchk_sim. intros L. eexists. split; [reflexivity|]. apply (C79_integers t x' y' x y T Hx Hy). lia.
  - intros x x' Hx. apply zchk_sim. intros L. eexists. split; [reflexivity|]. rewrite <- intq_opp. apply stands_opp. exact Hx.
  - intros x y x' y' Hx Hy. apply zchk_sim. intros L. eexists. split; [reflexivity|]. apply (C79_integers t x' y' x y T Hx Hy). lia.
  - intros x y x' y' Hx Hy N. apply Z.eqb_neq in N. apply zdiv_sim; [exact N|]. intros k E L. eexists. split; [reflexivity|].
    apply (proj2 (proj2 (proj2 (C79_integers t x' y' x y T Hx Hy))) k N E). lia.
  - intros x x' Hx N. apply Z.eqb_neq in N. apply zdiv_sim; [exact N|]. intros k E L. eexists. split; [reflexivity|].
    apply (proj2 (proj2 (proj2 (C79_integers t (fone t) x' 1 x T stands_one Hx))) k N E). lia.
  - intros x x' n _ _. exact I.
  - intros l l' H _. cbn [fsum zimpl float_impl]. unfold float_sum.
    assert (W : stands t (S754_zero (sum_neg_zero e)) (intq 0)) by apply stands_zero. revert W. generalize (S754_zero (sum_neg_zero e)) as acc'. generalize 0 as acc.
    induction H as [|r r' l l' Hr _ IH]; intros acc acc' W; [exact W|]. cbn [foldM]. destruct r as [x|k|]; cbn in Hr.
    + destruct r' as [x'| |]; try contradiction. cbn [bind]. unfold zchk at 1. destruct (Z.leb_spec (Z.abs (acc + x)) M) as [L|_]; [|exact I]. cbn [bind].
      apply IH. apply (C79_integers t acc' x' acc x T W Hr). lia.
    + destruct k; try exact I; subst r'; reflexivity.
    + subst r'. reflexivity.
  - intros x y _ _ _ _. apply zchk_nf.
  - intros x x' n _ _. discriminate.
Qed.
End Float.
End Z.
