(** * Instances of the side-by-side runs: checked against release builds, and Rational against exact numbers. *)
From Verif Require Import Base BaseLemmas IntModel RatModel FieldIface NumFacts RatProofs MDegModel OrdModel PolyModel CompModel
  UtilModel MatModel AlgModel ConeModel Ideal Param ParamMat.
Local Open Scope Z_scope.

(** ** checked against release *)
Lemma chk64_rsim z : rsim eq (chk64 Debug z) (chk64 Release z).
Proof. unfold chk64. destruct (in64b z); cbn; auto. Qed.
Lemma gcd_loop_rsim k : forall a b, rsim eq (gcd_loop k Debug a b) (gcd_loop k Release a b).
Proof.
  induction k as [|k IH]; intros a b; cbn; (destruct (b =? 0); [apply chk64_rsim|]); [reflexivity|].
  eapply rsim_bind; [apply rsim_refl|]. intros r r' _ <-. apply IH.
Qed.
Ltac zs := repeat match goal with
  | |- rsim _ (bind _ _) (bind _ _) => apply (rsim_bind eq); [|intros ? ? _ <-]
  | |- rsim _ (int_add _ _ _) _ => apply chk64_rsim
  | |- rsim _ (int_sub _ _ _) _ => apply chk64_rsim
  | |- rsim _ (int_mul _ _ _) _ => apply chk64_rsim
  | |- rsim _ (int_neg _ _) _ => apply chk64_rsim
  | |- rsim _ (int_abs _ _) _ => apply chk64_rsim
  | |- rsim _ (int_pow _ _ _) _ => apply chk64_rsim
  | |- rsim _ (int_div _ _ _) _ => apply rsim_refl
  | |- rsim _ (int_gcd _ _ _) _ => apply gcd_loop_rsim
  | |- rsim _ (if ?b then _ else _) _ => destruct b
  | |- rsim _ (Ok _) (Ok _) => reflexivity
  | |- rsim _ (Panic _) (Panic _) => apply rsim_Panic
  end.
Lemma rat_new_rsim n d : rsim eq (rat_new Debug n d) (rat_new Release n d).
Proof. unfold rat_new. zs. Qed.
Lemma rat_add_rsim a b : rsim eq (rat_add Debug a b) (rat_add Release a b).
Proof. unfold rat_add. zs. Qed.
Lemma rat_sub_rsim a b : rsim eq (rat_sub Debug a b) (rat_sub Release a b).
Proof. unfold rat_sub. zs. Qed.
Lemma rat_neg_rsim a : rsim eq (rat_neg Debug a) (rat_neg Release a).
Proof. unfold rat_neg. zs. Qed.
Lemma rat_mul_rsim a b : rsim eq (rat_mul Debug a b) (rat_mul Release a b).
Proof. unfold rat_mul. zs. apply rat_new_rsim. Qed.
Lemma rat_div_rsim a b : rsim eq (rat_div Debug a b) (rat_div Release a b).
Proof. unfold rat_div. zs. apply rat_new_rsim. Qed.
Lemma rat_recip_rsim a : rsim eq (rat_recip Debug a) (rat_recip Release a).
Proof. unfold rat_recip. zs. Qed.
Lemma rat_pow_rsim a e : rsim eq (rat_pow Debug a e) (rat_pow Release a e).
Proof. unfold rat_pow. zs. Qed.
Lemma rat_sum_rsim l l' : Forall2 (rsim eq) l l' -> rsim eq (rat_sum Debug l) (rat_sum Release l').
Proof.
  intros H. unfold rat_sum. eapply rsim_bind; [apply (reduce_iter_rsim eq); [|exact H]|].
  - intros a b a' b' <- <-. apply rat_add_rsim.
  - intros o o' _ Ho. destruct o, o'; cbn in *; try contradiction; congruence.
Qed.
Lemma rat_cmp_rsim a b : rsim eq (rat_cmp Debug a b) (rat_cmp Release a b).
Proof. unfold rat_cmp. zs. Qed.
Lemma rat_stability_rsim a b : rsim eq (rat_stability_cmp Debug a b) (rat_stability_cmp Release a b).
Proof. unfold rat_stability_cmp. zs. Qed.

Lemma chk64_nf m z : chk64 m z <> NoFuel.
Proof. unfold chk64. destruct (in64b z), m; discriminate. Qed.
Definition rel_rat (x : rat_impl Debug) : rat_impl Release := x.
Definition rateq (x : rat_impl Debug) (y : rat_impl Release) : Prop := y = rel_rat x.
Lemma rsim_rateq (x y : res rat) : rsim eq x y -> @rsim (rat_impl Debug) (rat_impl Release) rateq x y.
Proof. apply rsim_mono. intros a a' <-. reflexivity. Qed.

Lemma bind_nf {A B : Type} (x : res A) (f : A -> res B) : x <> NoFuel -> (forall a, f a <> NoFuel) -> bind x f <> NoFuel.
Proof. destruct x; cbn; auto; discriminate. Qed.
Lemma rat_mul_nf m a b : rat_mul m a b <> NoFuel.
Proof.
  unfold rat_mul. apply bind_nf; [apply chk64_nf|]. intros n. apply bind_nf; [apply chk64_nf|]. intros d.
  unfold rat_new. destruct (int_is_zero d); [discriminate|]. apply bind_nf; [eapply (int_gcd_terminates m n d); apply le_n|]. intros g.
  repeat (apply bind_nf; [first [apply chk64_nf | unfold int_div; destruct (_ =? 0); [discriminate|]; destruct (_ && _); discriminate]|intros ?]).
  discriminate.
Qed.
Lemma rat_pow_nf m a e : rat_pow m a e <> NoFuel.
Proof. unfold rat_pow. destruct (int_is_neg e); repeat (apply bind_nf; [apply chk64_nf|intros ?]); discriminate. Qed.

Lemma rat_release_sim : FieldSim (rat_impl Debug) (rat_impl Release) rateq.
Proof.
  constructor; unfold rateq, rel_rat; intros; subst; try reflexivity; try apply rsim_rateq.
  - apply rat_add_rsim.
  - apply rat_sub_rsim.
  - apply rat_neg_rsim.
  - apply rat_mul_rsim.
  - apply rat_div_rsim.
  - apply rat_recip_rsim.
  - apply rat_pow_rsim.
  - apply rat_sum_rsim. eapply Forall2_impl; [|eassumption]. intros r r' Hr. eapply rsim_mono; [|exact Hr]. cbn. congruence.
  - apply rat_mul_nf.
  - apply rat_pow_nf.
Qed.
Lemma rat_release_stab : StabSim rateq (rat_stab Debug) (rat_stab Release).
Proof.
  constructor; unfold rateq, rel_rat; intros; subst; try reflexivity; try assumption.
  - apply rat_stability_rsim.
  - cbn. unfold rat_partial_cmp. eapply rsim_bind; [apply rat_cmp_rsim|]. intros c c' _ <-. reflexivity.
Qed.
Lemma dle : mode_le Debug Release.
Proof. left. reflexivity. Qed.

(** ** a coefficient type against the numbers it stands for *)
Section Exact.
Context {F : FieldImpl} {K : MathField} (FS : FieldSpec F K).
Definition vrel (x : F) (y : ideal_impl K) : Prop := fwf FS x /\ y = den FS x.

Lemma safe_rsim (x : res F) (Q : K) : safe x (fun z => fwf FS z /\ den FS z = Q) -> rsim vrel x (Ok (Q : ideal_impl K)).
Proof. destruct x as [z|[]|]; cbn; try contradiction; auto. intros [W <-]. split; auto. Qed.
Lemma safe_nf {A : Type} (x : res A) Q : safe x Q -> x <> NoFuel.
Proof. destruct x; cbn; congruence. Qed.

Lemma exact_sum (l : list (res F)) (l' : list (res K)) : Forall2 (rsim vrel) l l' -> Forall (fun r => r <> NoFuel) l ->
  rsim vrel (fsum l) (@fsum (ideal_impl K) l').
Proof.
  intros H N.
  assert (C : (exists vs, l = map Ok vs /\ Forall (fwf FS) vs /\ l' = map Ok (map (den FS) vs)) \/
              (exists vs k rest, l = map Ok vs ++ Panic k :: rest /\ Forall (fwf FS) vs /\
                 (k = Overflow \/ exists rest', l' = map Ok (map (den FS) vs) ++ Panic k :: rest'))).
  { revert N. induction H as [|x x' l l' Hx H IH]; intros N; [left; exists []; auto|]. inversion_clear N as [|? ? N1 N2]. specialize (IH N2).
    destruct x as [a|k|]; [|right; exists [], k, l; split; [reflexivity|]; split; [constructor|]|congruence].
    - cbn in Hx. destruct x' as [a'| |]; try contradiction. destruct Hx as [W ->].
      destruct IH as [(vs & -> & G & ->)|(vs & k & rest & -> & G & E)].
      + left. exists (a :: vs). repeat split; constructor; assumption.
      + right. exists (a :: vs), k, rest. split; [reflexivity|]. split; [constructor; assumption|].
        destruct E as [E|[rest' ->]]; [left; exact E|right; exists rest'; reflexivity].
    - destruct k; cbn in Hx; auto; right; subst x'; exists l'; reflexivity. }
  destruct C as [(vs & -> & G & ->)|(vs & k & rest & -> & G & E)].
  - assert (S : Forall (fun r : res F => safe r (fwf FS)) (map Ok vs)).
    { apply Forall_forall. intros r Hr. apply in_map_iff in Hr. destruct Hr as [v [<- Hv]]. rewrite Forall_forall in G. exact (G v Hv). }
    pose proof (sum_ok _ _ FS _ S) as P.
    assert (I : @fsum (ideal_impl K) (map Ok (map (den FS) vs)) = Ok (ksum (map (den FS) vs))).
    { cbn. rewrite (ideal_sum K _ _ eq_refl). reflexivity. }
    rewrite I. apply safe_rsim. destruct (fsum (map Ok vs)) as [z|[]|]; cbn in *; auto.
    destruct P as [W [vs' [E D]]]. split; [exact W|].
    assert (vs = vs'). { clear -E. revert vs' E. induction vs as [|v vs IH]; intros [|v' vs'] E; cbn in E; try discriminate; [reflexivity|]. injection E as -> E. f_equal. apply IH. exact E. }
    subst vs'. exact D.
  - destruct (sum_panic _ _ FS vs k rest G) as [P|P]; rewrite P; [|exact I].
    destruct E as [->|[rest' ->]]; [exact I|].
    assert (I : @fsum (ideal_impl K) (map Ok (map (den FS) vs) ++ Panic k :: rest') = Panic k).
    { cbn. rewrite (ideal_sum_panic K). reflexivity. }
    rewrite I. destruct k; cbn; auto.
Qed.

Lemma exact_sim : FieldSim F (ideal_impl K) vrel.
Proof.
  assert (Z : forall x, fwf FS x -> feqb x f0 = keqb K (den FS x) k0).
  { intros x W. pose proof (eqb0 _ _ FS x W) as E. pose proof (keqb_iff K (den FS x) k0) as E'.
    destruct (feqb x f0), (keqb K (den FS x) k0); try reflexivity.
    - destruct E as [E _]. rewrite (proj2 E' (E eq_refl)). reflexivity.
    - destruct E as [_ E]. rewrite E; [reflexivity|]. apply E'. reflexivity. }
  assert (NZ : forall x, fwf FS x -> feqb x f0 = false -> den FS x <> k0).
  { intros x W E D. apply (eqb0 _ _ FS) in D; congruence. }
  constructor.
  - split; [apply FS|]. symmetry. apply FS.
  - split; [apply FS|]. symmetry. apply FS.
  - intros x x' [W ->]. apply Z. exact W.
  - intros x y x' y' [W ->] [V ->]. apply safe_rsim. apply FS; assumption.
  - intros x y x' y' [W ->] [V ->]. apply safe_rsim. apply FS; assumption.
  - intros x x' [W ->]. apply safe_rsim. apply FS; assumption.
  - intros x y x' y' [W ->] [V ->]. apply safe_rsim. apply FS; assumption.
  - intros x y x' y' [W ->] [V ->] N. cbn. rewrite <- Z, N by exact V. apply safe_rsim. apply (div_ok _ _ FS); auto.
  - intros x x' [W ->] N. cbn. rewrite <- Z, N by exact W. apply safe_rsim. apply (inv_ok _ _ FS); auto.
  - intros x x' n [W ->] B. apply safe_rsim. apply (pow_ok _ _ FS); assumption.
  - intros l l'. apply exact_sum.
  - intros x y x' y' [W _] [V _]. eapply safe_nf. apply (mul_ok _ _ FS); assumption.
  - intros x x' n [W _] B. eapply safe_nf. apply (pow_ok _ _ FS); assumption.
Qed.
End Exact.
