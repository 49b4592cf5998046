(** * Buchberger's second criterion: pairs whose S-polynomials need not be looked at. *)
From Coq Require Import ZArith.
From Verif Require Import Base BaseLemmas FieldIface MDegModel OrdModel PolyModel CompModel
  MonoSpec MDegProofs OrdProofs PolySpec PolyProofs GroebnerSpec DivProofs DivSpec GbProofs.
From Coq Require Import Ring Field Setoid Morphisms Lia.
Import ListNotations.
Local Open Scope nat_scope.

Section Chain.
Context {K : MathField} (lt : mono -> mono -> Prop) (L : mono_order_laws lt).
Add Field Kf90 : (kth K).
Add Ring Pr90 : (@poly_ring K) (setoid (@peq_equiv K) (@poly_ring_ext K)).
Notation LM := (is_lm lt).
Notation spoly := (spoly K).

(** g divided by its leading coefficient and multiplied so that its leading monomial becomes [b] *)
Definition lifted (b : mono) (g : spoly) (l : mono) : spoly := tmul (kinv (coeff g l)) (mquo b l) g.
Lemma lifted_pair (G : list spoly) n g l h l' b : rep lt G n (fun m => lt m (mlcm l l')) (spol g l h l') ->
  mdiv l b -> mdiv l' b -> mvars n b -> rep lt G n (fun m => lt m b) (psub (lifted b g l) (lifted b h l')).
Proof.
  intros R D1 D2 V. assert (D : mdiv (mlcm l l') b) by (apply mlcm_least; assumption). apply mdiv_iff in D as (w & Ew).
  assert (Ea : mquo b l = MonoSpec.mmul w (mquo (mlcm l l') l)).
  { apply (mmul_cancel_l l). rewrite (mmul_quo l b D1), Ew, (mmul_comm w), mmul_assoc, (mmul_quo l (mlcm l l')) by apply mdiv_lcm_l. reflexivity. }
  assert (Ea' : mquo b l' = MonoSpec.mmul w (mquo (mlcm l l') l')).
  { apply (mmul_cancel_l l'). rewrite (mmul_quo l' b D2), Ew, (mmul_comm w), mmul_assoc, (mmul_quo l' (mlcm l l')) by apply mdiv_lcm_r. reflexivity. }
  assert (X : peq (psub (lifted b g l) (lifted b h l')) (tmul k1 w (spol g l h l'))).
  { unfold lifted, spol, psub. rewrite tmul_add, tmul_opp, !tmul_tmul, <- Ea, <- Ea'.
    assert (Y : forall c : K, kmul k1 c = c) by (intros; ring). rewrite !Y. reflexivity. }
  rewrite X. eapply (rep_tmul lt); [| |exact R].
  - rewrite Ew in V. apply mvars_mul in V. apply V.
  - intros m Hm. rewrite Ew, (mmul_comm (mlcm l l')). apply (lt_mul lt L). exact Hm.
Qed.
(** a path from [i] to [j] through indices satisfying [P], consecutive ones related by [R] *)
Inductive path (P : nat -> Prop) (R : nat -> nat -> Prop) : nat -> nat -> Prop :=
| path_stop : forall i, P i -> path P R i i
| path_step : forall i k j, P i -> R i k -> path P R k j -> path P R i j.
Lemma path_start P R i j : path P R i j -> P i.
Proof. destruct 1; assumption. Qed.
Lemma path_rep (G : list spoly) n (ls : list mono) b (R : nat -> nat -> Prop) :
  (forall i k g l h l', R i k -> nth_error G i = Some g -> nth_error ls i = Some l -> nth_error G k = Some h -> nth_error ls k = Some l' ->
     rep lt G n (fun m => lt m (mlcm l l')) (spol g l h l')) ->
  mvars n b -> forall i j, path (fun k => exists h l, nth_error G k = Some h /\ nth_error ls k = Some l /\ mdiv l b) R i j ->
  forall g l h l', nth_error G i = Some g -> nth_error ls i = Some l -> nth_error G j = Some h -> nth_error ls j = Some l' ->
    rep lt G n (fun m => lt m b) (psub (lifted b g l) (lifted b h l')).
Proof.
  intros HR V i j H. induction H as [i H|i k j (g1 & l1 & E1 & E2 & D1) Rk Hp IH]; intros g l h l' Eg El Eh El'.
  - rewrite Eg in Eh. injection Eh as <-. rewrite El in El'. injection El' as <-.
    assert (Z : peq (psub (lifted b g l) (lifted b g l)) pzero) by ring. rewrite Z. apply rep_zero.
  - rewrite Eg in E1. injection E1 as <-. rewrite El in E2. injection E2 as <-.
    destruct (path_start _ _ _ _ Hp) as (h2 & l2 & E3 & E4 & D2). specialize (IH h2 l2 h l' E3 E4 Eh El').
    assert (Z : peq (psub (lifted b g l) (lifted b h l')) (padd (psub (lifted b g l) (lifted b h2 l2)) (psub (lifted b h2 l2) (lifted b h l')))) by ring.
    rewrite Z. apply rep_add; [|exact IH]. apply lifted_pair; [exact (HR i k g l h2 l2 Rk Eg El E3 E4)|exact D1|exact D2|exact V].
Qed.
End Chain.
