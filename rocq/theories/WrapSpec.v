(** * Specification: polynomials up to x_i^256 = 1.

    Pure mathematics; nothing here mentions the code. *)
From Verif Require Import Base FieldIface MonoSpec PolySpec GroebnerSpec GridSpec.
From Coq Require Import Lia Ring Field Setoid Morphisms.
Local Open Scope nat_scope.

(** exponents equal modulo 256 *)
Definition cong (a b : mono) : Prop := forall i, mexp a i mod 256 = mexp b i mod 256.
Lemma cong_mul a a' b b' : cong a a' -> cong b b' -> cong (mmul a b) (mmul a' b').
Proof. intros A B i. rewrite !mmul_exp, Nat.add_mod, (Nat.add_mod (mexp a' i)), (A i), (B i) by discriminate. reflexivity. Qed.
Lemma cong_refl a : cong a a. Proof. intros i. reflexivity. Qed.

Section Wrap.
Context {K : MathField}.
Add Field Kf79 : (kth K).
Notation spoly := (spoly K).
Definition respects (phi : mono -> K) : Prop := forall a b, cong a b -> phi a = phi b.
(** equal once x_i^256 and 1 are the same for all i *)
Definition weq (p q : spoly) : Prop := forall phi, respects phi -> ev p phi = ev q phi.
Global Instance weq_equiv : Equivalence weq.
Proof. split; [intros p phi _; reflexivity|intros p q E phi H; symmetry; apply E, H|intros p q r E E' phi H; rewrite (E phi H); apply E', H]. Qed.
Lemma peq_weq p q : peq p q -> weq p q. Proof. intros E phi _. apply E. Qed.
Global Instance peq_weq_sub : subrelation (@peq K) weq. Proof. exact peq_weq. Qed.
Global Instance padd_weq : Proper (weq ==> weq ==> weq) padd.
Proof. intros p p' E q q' E' phi H. unfold padd. rewrite !ev_app, (E phi H), (E' phi H). reflexivity. Qed.
Global Instance popp_weq : Proper (weq ==> weq) popp.
Proof. intros p p' E phi H. rewrite !ev_popp, (E phi H). reflexivity. Qed.
Global Instance psub_weq : Proper (weq ==> weq ==> weq) psub.
Proof. intros p p' E q q' E'. unfold psub. rewrite E, E'. reflexivity. Qed.
Global Instance pmul_weq : Proper (weq ==> weq ==> weq) pmul.
Proof.
  intros p p' E q q' E' phi H. rewrite !ev_pmul. transitivity (ev p (fun a => ev q' (fun b => phi (mmul a b)))).
  - apply ev_ext. intros a. apply E'. intros b b' B. apply H. apply cong_mul; [apply cong_refl|exact B].
  - apply E. intros a a' A. apply ev_ext. intros b. apply H. apply cong_mul; [exact A|apply cong_refl].
Qed.
Lemma weq_ring : ring_theory (@pzero K) pone padd pmul psub popp weq.
Proof. destruct (@poly_ring K) as [A B C D E F G H I]. split; intros; apply peq_weq; auto. Qed.
Lemma weq_ring_ext : ring_eq_ext (@padd K) pmul popp weq.
Proof. split; [exact padd_weq|exact pmul_weq|exact popp_weq]. Qed.
Lemma weq_pterm (c : K) a b : cong a b -> weq (pterm c a) (pterm c b).
Proof. intros A phi H. unfold pterm, ev. cbn [fold_right fst snd]. rewrite (H a b A). reflexivity. Qed.

(** the ideal up to x_i^256 = 1 *)
Definition in_wideal (gs : list spoly) (p : spoly) : Prop := exists qs, length qs = length gs /\ weq p (lincomb qs gs).
Lemma wideal_iff gs p : in_wideal gs p <-> exists p', in_ideal gs p' /\ weq p p'.
Proof.
  split; [intros (qs & L & E); exists (lincomb qs gs); split; [exists qs; split; [exact L|reflexivity]|exact E]|].
  intros (p' & (qs & L & E') & E). exists qs. split; [exact L|]. rewrite E. apply peq_weq. exact E'.
Qed.
Global Instance wideal_proper gs : Proper (weq ==> iff) (in_wideal gs).
Proof. intros p q E. split; intros (qs & L & E'); exists qs; (split; [exact L|]); [rewrite <- E|rewrite E]; exact E'. Qed.
Lemma wideal_gen gs g : In g gs -> in_wideal gs g.
Proof. intros I. apply wideal_iff. exists g. split; [apply in_ideal_gen; exact I|reflexivity]. Qed.
Lemma wideal_add gs p q : in_wideal gs p -> in_wideal gs q -> in_wideal gs (padd p q).
Proof. rewrite !wideal_iff. intros (p' & I & E) (q' & I' & E'). exists (padd p' q'). split; [apply in_ideal_add; assumption|rewrite E, E'; reflexivity]. Qed.
Lemma wideal_sub gs p q : in_wideal gs p -> in_wideal gs q -> in_wideal gs (psub p q).
Proof. rewrite !wideal_iff. intros (p' & I & E) (q' & I' & E'). exists (psub p' q'). split; [apply in_ideal_sub; assumption|rewrite E, E'; reflexivity]. Qed.
Lemma wideal_mul gs p q : in_wideal gs q -> in_wideal gs (pmul p q).
Proof. rewrite !wideal_iff. intros (q' & I & E). exists (pmul p q'). split; [apply in_ideal_mul; assumption|rewrite E; reflexivity]. Qed.
Lemma wideal_zero gs : in_wideal gs pzero.
Proof. apply wideal_iff. exists pzero. split; [apply in_ideal_zero|reflexivity]. Qed.
Lemma wideal_lincomb gs hs : (forall h, In h hs -> in_wideal gs h) -> forall qs, in_wideal gs (lincomb qs hs).
Proof.
  induction hs as [|h hs IH]; intros H [|q qs]; try (cbn [lincomb]; apply wideal_zero).
  cbn [lincomb]. apply wideal_add; [apply wideal_mul, H; left; reflexivity|]. apply IH. intros x I. apply H. right. exact I.
Qed.

(** values at points with x_i^256 = 1 *)
Lemma kpow_mod (x : K) a b : kpow x 256 = k1 -> a mod 256 = b mod 256 -> kpow x a = kpow x b.
Proof.
  intros H E. assert (X : forall k r, kpow x (256 * k + r) = kpow x r).
  { intros k r. rewrite kpow_add. assert (Y : kpow x (256 * k) = k1); [|rewrite Y; ring]. induction k as [|k IH]; [rewrite Nat.mul_0_r; reflexivity|].
    rewrite Nat.mul_succ_r, kpow_add, IH, H. ring. }
  rewrite (Nat.div_mod a 256), (Nat.div_mod b 256), !X by discriminate. rewrite E. reflexivity.
Qed.
Lemma mval_respects x : (forall i, kpow (x i : K) 256 = k1) -> respects (mval x).
Proof.
  intros H a b C. destruct (mvars_common a b) as (n & Va & Vb). rewrite !(mval_up_eq x _ n) by assumption.
  clear Va Vb. induction n as [|n IH]; cbn [mval_up]; [reflexivity|]. rewrite IH. f_equal. apply kpow_mod; [apply H|apply C].
Qed.
Lemma weq_peval x p q : (forall i, kpow (x i : K) 256 = k1) -> weq p q -> peval x p = peval x q.
Proof. intros H E. apply E. apply mval_respects. exact H. Qed.
Lemma peval_mul x (p q : spoly) : peval x (pmul p q) = kmul (peval x p) (peval x q).
Proof. apply ev_hom_mul. apply mval_multiplicative. Qed.
Lemma wideal_zero_at x gs p : (forall i, kpow (x i : K) 256 = k1) -> (forall g, In g gs -> peval x g = k0) -> in_wideal gs p -> peval x p = k0.
Proof.
  intros H Z (qs & L & E). rewrite (weq_peval x _ _ H E). clear L E p. revert qs. induction gs as [|g gs IH]; intros [|q qs]; try reflexivity.
  cbn [lincomb]. unfold peval at 1, padd. rewrite ev_app. fold (peval x (pmul q g)) (peval x (lincomb qs gs)). rewrite peval_mul, (Z g), IH; [ring| |left; reflexivity].
  intros h I. apply Z. right. exact I.
Qed.
End Wrap.
