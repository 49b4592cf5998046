(** * Runs over f32 and f64 in which nothing is rounded.

    [exact_float] computes with floats like the primitive types, but stops (with the panic [Overflow], so that
    the existing theorems apply) as soon as a result is not exactly the mathematical result, or is not
    admissible.  It is an exact field type in the sense of [FieldSpec], and the primitive type simulates it. *)
From Verif Require Import Base BaseLemmas FieldIface RatProofs FloatModel FloatExact Param ParamMat ConeProofs.
From Coq Require Import QArith Qcanon Lia.
Local Open Scope Z_scope.

Section Exact.
Context (t : fmt) (e : fenv) (adm : float -> bool).
Hypothesis (G : good t) (A0 : adm fzero = true) (A0' : adm (S754_zero true) = true) (A1 : adm (fone t) = true).
Notation F := (float_impl t e).

(** [z] if it is a finite admissible float of value [v] *)
Definition chkf (z : float) (v : Qc) : res float :=
  if valid_binary (prec t) (emax t) z && finite z && adm z && Qeq_bool (fval z) v
  then Ok z else Panic Overflow.
Definition xf_add (x y : float) : res float := chkf (SFadd (prec t) (emax t) x y) (fval x + fval y)%Qc.
Definition exact_sum (l : list (res float)) : res float :=
  foldM (fun acc r => x <- r ;; xf_add acc x) l (S754_zero (sum_neg_zero e)).
Definition exact_float : FieldImpl := {|
  fcar := float;
  f0 := fzero;
  f1 := fone t;
  feqb := SFeqb;
  fadd := xf_add;
  fsub := fun x y => chkf (SFsub (prec t) (emax t) x y) (fval x - fval y)%Qc;
  fneg := fun x => chkf (SFopp x) (- fval x)%Qc;
  fmul := fun x y => chkf (SFmul (prec t) (emax t) x y) (fval x * fval y)%Qc;
  fdiv := fun x y => chkf (SFdiv (prec t) (emax t) x y) (fval x / fval y)%Qc;
  finv := fun x => chkf (SFdiv (prec t) (emax t) (fone t) x) (/ fval x)%Qc;
  fpowi32 := fun x n => chkf (powi e x n) (@kpow QcField (fval x) (Z.to_nat n));
  fsum := exact_sum
|}.
Definition xwf (x : float) : Prop := valid t x /\ finite x = true /\ adm x = true.

Lemma chkf_ok z v : safe (chkf z v) (fun r => r = z /\ xwf r /\ fval r = v).
Proof.
  unfold chkf, xwf, valid. destruct (valid_binary _ _ z) eqn:V, (finite z) eqn:Fi, (adm z) eqn:A; cbn [andb]; try exact I.
  destruct (Qeq_bool (fval z) v) eqn:E; [|exact I]. apply Qeq_bool_iff, Qc_is_canon in E. repeat split; assumption.
Qed.
Lemma chkf_nf z v : chkf z v <> NoFuel.
Proof. unfold chkf. destruct (_ && _); discriminate. Qed.
Lemma safe_chkf z v (Q : float -> Prop) : (xwf z -> fval z = v -> Q z) -> safe (chkf z v) Q.
Proof. intros H. eapply safe_mono; [apply chkf_ok|]. intros r (-> & W & E). auto. Qed.

Lemma fone_val : valid t (fone t) /\ finite (fone t) = true /\ fval (fone t) = 1%Qc.
Proof.
  assert (H : stands t (fone t) (dy 1 0)).
  { apply (stands_round t false 1 0). apply representable_int; [exact G|]. destruct G as [G1 G2].
    change (Z.abs (cond_Zopp false 1)) with (2 ^ 0). apply Z.pow_le_mono_r; lia. }
  destruct H as (H1 & H2 & H3). split; [exact H1|]. split; [exact H2|]. rewrite H3. apply Qc_is_canon. reflexivity.
Qed.
Lemma wf_fone : xwf (fone t).
Proof. destruct fone_val as (H1 & H2 & _). repeat split; assumption. Qed.
Lemma wf_zero b : xwf (S754_zero b).
Proof. repeat split; destruct b; assumption || reflexivity. Qed.
Lemma eqb_zero x : xwf x -> (SFeqb x fzero = true <-> fval x = 0%Qc).
Proof.
  intros (V & Fi & _). destruct x as [s| | |s m ex]; try discriminate.
  - split; reflexivity.
  - cbn [fval]. rewrite dy_zero. unfold SFeqb, fzero, SFcompare. destruct s; split; discriminate.
Qed.
Lemma Qcplus_0_l' x : (0 + x)%Qc = x. Proof. ring. Qed.
Lemma exact_sum_ok l acc : Forall (fun r => safe r xwf) l -> xwf acc ->
  safe (foldM (fun acc r => x <- r ;; xf_add acc x) l acc) (fun z => xwf z /\
    exists vs, l = map Ok vs /\ fval z = (fval acc + @ksum QcField (map fval vs))%Qc).
Proof.
  intros H. revert acc. induction H as [|r l Hr _ IH]; intros acc W.
  - split; [exact W|]. exists []. split; [reflexivity|]. cbn. ring.
  - cbn [foldM]. destruct r as [x|[]|]; cbn in Hr; try contradiction; try exact I. cbn [bind].
    eapply safe_bind; [apply chkf_ok|]. intros z (_ & Wz & Ez).
    eapply safe_mono; [apply IH; exact Wz|]. intros z' (Wz' & vs & -> & E). split; [exact Wz'|].
    exists (x :: vs). split; [reflexivity|]. rewrite E, Ez.
    change (@ksum QcField (map fval (x :: vs))) with (fval x + @ksum QcField (map fval vs))%Qc. ring.
Qed.
Lemma exact_sum_pan vs acc k rest : foldM (fun acc r => x <- r ;; xf_add acc x) (map Ok vs ++ Panic k :: rest) acc = Panic k \/
  foldM (fun acc r => x <- r ;; xf_add acc x) (map Ok vs ++ Panic k :: rest) acc = Panic Overflow.
Proof.
  revert acc. induction vs as [|v vs IH]; intros acc; [left; reflexivity|]. cbn [map app foldM bind].
  destruct (xf_add acc v) as [z|k0|] eqn:E; cbn [bind]; [apply IH| |exfalso; exact (chkf_nf _ _ E)].
  right. unfold xf_add, chkf in E. destruct (_ && _); [discriminate|]. injection E as <-. reflexivity.
Qed.

Definition exact_float_spec : FieldSpec exact_float QcField.
Proof.
  refine {| fwf := xwf : exact_float -> Prop; den := fun x : exact_float => (fval x : QcField) |}.
  - apply wf_zero.
  - apply wf_fone.
  - reflexivity.
  - apply fone_val.
  - exact eqb_zero.
  - intros x y _ _. apply safe_chkf. auto.
  - intros x y _ _. apply safe_chkf. auto.
  - intros x _. apply safe_chkf. auto.
  - intros x y _ _. apply safe_chkf. auto.
  - intros x y _ _ _. apply safe_chkf. auto.
  - intros x _ _. apply safe_chkf. auto.
  - intros x n _ _. apply safe_chkf. auto.
  - intros l H. eapply safe_mono; [apply (exact_sum_ok l (S754_zero (sum_neg_zero e)) H (wf_zero _))|].
    intros z (W & vs & E & V). split; [exact W|]. exists vs. split; [exact E|]. rewrite V. apply Qcplus_0_l'.
  - intros vs k rest _. apply exact_sum_pan.
Defined.

(** ** The primitive type does the same as long as nothing is rounded *)
Definition xrel (x : exact_float) (y : F) : Prop := x = y /\ xwf x.
Lemma rsim_chkf z v : rsim xrel (chkf z v : res exact_float) (Ok z : res F).
Proof.
  unfold chkf. destruct (valid_binary _ _ z) eqn:V, (finite z) eqn:Fi, (adm z) eqn:A; cbn [andb]; try exact I.
  destruct (Qeq_bool (fval z) v); [|exact I]. split; [reflexivity|]. repeat split; assumption.
Qed.
Lemma exact_float_sim : FieldSim exact_float F xrel.
Proof.
  constructor.
  - split; [reflexivity|apply wf_zero].
  - split; [reflexivity|apply wf_fone].
  - intros x y [-> _]. reflexivity.
  - intros x y x' y' [-> _] [-> _]. apply rsim_chkf.
  - intros x y x' y' [-> _] [-> _]. apply rsim_chkf.
  - intros x x' [-> _]. apply rsim_chkf.
  - intros x y x' y' [-> _] [-> _]. apply rsim_chkf.
  - intros x y x' y' [-> _] [-> _] _. apply rsim_chkf.
  - intros x x' [-> _] _. apply rsim_chkf.
  - intros x x' n [-> _] _. apply rsim_chkf.
  - intros l l' H _. cbn [fsum exact_float float_impl]. unfold exact_sum, float_sum.
    assert (W : xwf (S754_zero (sum_neg_zero e))) by apply wf_zero. revert W. generalize (S754_zero (sum_neg_zero e)) as acc.
    induction H as [|r r' l l' Hr _ IH]; intros acc W.
    + split; [reflexivity|exact W].
    + cbn [foldM]. destruct r as [x|k|]; cbn in Hr.
      * destruct r' as [x'| |]; try contradiction. destruct Hr as [<- Wx]. cbn [bind].
        unfold xf_add at 1. unfold chkf at 1. set (z := SFadd _ _ acc x).
        destruct (valid_binary _ _ z) eqn:V, (finite z) eqn:Fi, (adm z) eqn:A; cbn [andb bind]; try exact I.
        destruct (Qeq_bool _ _); cbn [bind]; [|exact I]. apply IH. repeat split; assumption.
      * destruct k; try exact I; subst r'; reflexivity.
      * subst r'. reflexivity.
  - intros. apply chkf_nf.
  - intros. apply chkf_nf.
Qed.

(** ** Comparisons *)
Definition exact_stab : StabImpl exact_float := {|
  feps := float_epsilon_equals t : exact_float -> exact_float -> bool;
  fstab := fun x y : exact_float => Ok (float_stability_cmp x y);
  fpcmp := fun x y : exact_float => Ok (SFcompare x y)
|}.
(** admissible: zero, or at least EPSILON in magnitude *)
Hypothesis (AE : forall x, adm x = true -> finite x = true -> fval x <> 0%Qc -> SFltb (SFabs x) (fepsilon t) = false).
Lemma eps_zero x : xwf x -> (float_epsilon_equals t x fzero = true <-> fval x = 0%Qc).
Proof.
  intros (V & Fi & A). destruct x as [s| | |s m ex]; try discriminate.
  - split; [reflexivity|]. intros _. destruct s; reflexivity.
  - assert (N : fval (S754_finite s m ex) <> 0%Qc) by (cbn [fval]; rewrite dy_zero; destruct s; discriminate).
    unfold float_epsilon_equals. cbn [SFsub fzero]. rewrite (AE _ A eq_refl N). split; [discriminate|contradiction].
Qed.
Lemma exact_stab_spec : StabSpec exact_float_spec exact_stab.
Proof.
  constructor.
  - exact eps_zero.
  - intros x y (Vx & Fx & _) (Vy & Fy & _). cbn. unfold float_stability_cmp.
    destruct x as [sx| | |sx mx ex], y as [sy| | |sy my ey]; try discriminate; cbn [SFabs SFcompare];
      (eexists; split; [reflexivity|]; split; intros N; try discriminate;
       try (intros _; exfalso; apply N; reflexivity); try (intros Z; exfalso; apply dy_zero in Z; destruct sy; discriminate);
       try (exfalso; cbn [fval] in N; apply dy_zero in N; destruct sx; discriminate)).
    intros _. reflexivity.
Qed.
Lemma exact_stab_sim : StabSim xrel exact_stab (float_stab t e).
Proof.
  constructor.
  - intros x y [-> _]. reflexivity.
  - intros x y [-> W] E. cbn. destruct (SFeqb y fzero) eqn:Q; [|reflexivity]. apply (eqb_zero _ W) in Q.
    apply (eps_zero _ W) in Q. cbn in E. congruence.
  - intros x y x' y' [-> _] [-> _]. reflexivity.
  - intros x y x' y' [-> _] [-> _]. reflexivity.
Qed.
Lemma exact_ord : OrdSpec exact_float_spec exact_stab.
Proof.
  refine {| osgn := osgn rat_ord; osgn_zero := osgn_zero _ _ rat_ord; osgn_opp := osgn_opp _ _ rat_ord;
            osgn_add := osgn_add _ _ rat_ord; osgn_mul := osgn_mul _ _ rat_ord |}.
  intros x (V & Fi & _). cbn. rewrite (compare_exact t G x fzero (fval x) 0%Qc).
  - reflexivity.
  - repeat split; assumption.
  - repeat split; reflexivity.
Qed.
End Exact.
