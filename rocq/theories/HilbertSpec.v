(** * Hilbert functions: how many standard monomials there are in each degree.

    Pure mathematics; nothing here mentions the code. *)
From Coq Require Import List ZArith Arith Lia Ring Field Setoid Morphisms.
From Verif Require Import LinSpec Base FieldIface MonoSpec PolySpec GroebnerSpec DivSpec IdealSpec SubstSpec StdSpec GradeSpec.
Import ListNotations.
Local Open Scope nat_scope.

Section Hilbert.
Context {K : MathField}.
Add Field Kf50 : (kth K).
Add Ring Pr50 : (@poly_ring K) (setoid (@peq_equiv K) (@poly_ring_ext K)).
Notation spoly := (spoly K).
Implicit Types (p q f g h r : spoly) (m a b l : mono).

(** P 0, .., P (c-1) are linearly independent modulo the ideal of G *)
Definition independent_mod (G : list spoly) (c : nat) (P : nat -> spoly) : Prop :=
  forall w : nat -> K, in_ideal G (wsum c w P) -> forall k, k < c -> w k = k0.

Section Order.
Context (lt : mono -> mono -> Prop) (LW : mono_order_laws lt).
Notation LM := (is_lm lt).

(** reduction does not leave the monomials S *)
Definition stays (S : mono -> Prop) (n : nat) (G : list spoly) : Prop :=
  forall p, svars n p -> (forall m, coeff p m <> k0 -> S m) ->
    exists r, in_ideal G (psub p r) /\ forall m, coeff r m <> k0 -> std lt n G m /\ S m.
Lemma independent_le S n G c P (L : list mono) : stays S n G ->
  (forall k, k < c -> svars n (P k) /\ forall m, coeff (P k) m <> k0 -> S m) -> independent_mod G c P ->
  (forall m, std lt n G m -> S m -> In m L) -> c <= length L.
Proof.
  intros St HP Ind HL. destruct (le_lt_dec c (length L)) as [|Lt]; [assumption|exfalso].
  destruct (finite_choice (fun k r => in_ideal G (psub (P k) r) /\ forall m, coeff r m <> k0 -> std lt n G m /\ S m) c) as (R & HR).
  { intros k Hk. apply St; apply (HP k Hk). }
  destruct (rows_dependent (length L) c (fun k j => coeff (R k) (nth j L mone)) Lt) as (w & (k & Hk & Nk) & Hw).
  assert (Z : peq (wsum c w R) pzero).
  { apply peq_coeff. intros m. rewrite coeff_wsum, coeff_zero. destruct (in_dec mono_dec m L) as [I|N].
    - apply (In_nth _ _ mone) in I as (j & Hj & <-). apply Hw. exact Hj.
    - apply sumn_zero'. intros j Hj. destruct (kdec (coeff (R j) m) k0) as [E|C]; [rewrite E; ring|]. exfalso. apply N.
      destruct (proj2 (HR j Hj) m C) as [A B]. apply HL; assumption. }
  apply Nk. apply (Ind w); [|exact Hk].
  assert (E : peq (wsum c w P) (psub (wsum c w P) (wsum c w R))) by (rewrite Z; ring).
  rewrite E, wsum_sub. apply wsum_ideal. intros j Hj. apply (HR j Hj).
Qed.
Lemma std_mod_independent n G (L : list mono) : groebner lt G -> NoDup L -> (forall m, In m L -> std lt n G m) ->
  independent_mod G (length L) (fun k => pterm k1 (nth k L mone)).
Proof.
  intros GB ND HL w I k Hk.
  assert (C : forall m, coeff (wsum (length L) w (fun k => pterm k1 (nth k L mone))) m = sumn (length L) (fun j => if mono_dec (nth j L mone) m then w j else k0)).
  { intros m. rewrite coeff_wsum. apply sumn_ext. intros j Hj. rewrite coeff_pterm. destruct (mono_dec (nth j L mone) m); ring. }
  assert (V : peq (wsum (length L) w (fun k => pterm k1 (nth k L mone))) pzero).
  { apply (std_independent lt LW n G); auto. intros m N. apply HL. destruct (in_dec mono_dec m L) as [|X]; [assumption|exfalso]. apply N.
    rewrite C. apply sumn_zero'. intros j Hj. destruct (mono_dec (nth j L mone) m) as [<-|]; [|reflexivity]. exfalso. apply X. apply nth_In. exact Hj. }
  pose proof (C (nth k L mone)) as Ck. rewrite V, coeff_zero in Ck.
  rewrite (sumn_ext _ _ (fun j => if Nat.eqb j k then w j else k0)) in Ck.
  - clear - Ck Hk. rewrite Ck. revert Hk. generalize (length L). intros c. induction c as [|c IH]; intros Hk; [lia|]. cbn [sumn].
    destruct (Nat.eqb_spec c k) as [->|N]; [|rewrite <- IH by lia; ring].
    rewrite sumn_zero'; [ring|]. intros j Hj. destruct (Nat.eqb_spec j k); [lia|reflexivity].
  - intros j Hj. destruct (mono_dec (nth j L mone) (nth k L mone)) as [E|E]; destruct (Nat.eqb_spec j k) as [->|N]; auto; [|congruence].
    exfalso. apply N. apply (proj1 (NoDup_nth L mone) ND); auto.
Qed.

(** the monomials of degree at most d, for an order that looks at the degree first *)
Lemma stays_degree n G d : groebner lt G -> (forall g, In g G -> svars n g) -> (forall a b, lt a b -> mtot a <= mtot b) ->
  stays (fun m => mtot m <= d) n G.
Proof.
  intros GB VG HD p Vp Hp. destruct (normal_form lt LW n G VG p Vp) as (r & Ir & Hr). exists r. split; [exact Ir|]. intros m N. split; [apply Hr; exact N|].
  destruct (zero_or_lm lt LW r) as [Z|(l & Hl)]; [exfalso; apply N; rewrite Z; reflexivity|].
  assert (Dl : mtot l <= d).
  { destruct (kdec (coeff p l) k0) as [Zp|Np]; [|apply Hp; exact Np].
    destruct (le_lt_dec (mtot l) d) as [|Gt]; [assumption|exfalso].
    assert (Lp : is_lm lt (psub p r) l).
    { split; [rewrite coeff_sub, Zp; intros X; apply (proj1 Hl); assert (Y : coeff r l = kopp (ksub k0 (coeff r l))) by ring; rewrite Y, X; ring|].
      intros x Nx. rewrite coeff_sub in Nx. destruct (kdec (coeff r x) k0) as [Zr|Nr]; [|apply (proj2 Hl); exact Nr].
      assert (Px : coeff p x <> k0) by (intros X; apply Nx; rewrite X, Zr; ring). right.
      destruct (lt_total lt LW x l) as [E|[E|E]]; [subst x; contradiction|exact E|]. apply HD in E. specialize (Hp x Px). lia. }
    destruct (GB _ l Ir Lp) as (g & l' & Ig & Lg & Dv). apply (proj2 (Hr l (proj1 Hl)) g l' Ig Lg Dv). }
  destruct (proj2 Hl m N) as [->|Lt]; [exact Dl|]. apply HD in Lt. lia.
Qed.
(** the monomials of one degree of a grading, for an ideal with homogeneous generators *)
Lemma stays_graded {D : Type} (Ddec : forall x y : D, {x = y} + {x <> y}) (gr : mono -> D) n G d :
  (forall a b c, gr a = gr b -> gr (mmul c a) = gr (mmul c b)) -> (forall g, In g G -> svars n g) -> graded Ddec gr G ->
  stays (fun m => gr m = d) n G.
Proof.
  intros GM VG Gr p Vp Hp. destruct (normal_form lt LW n G VG p Vp) as (r & Ir & Hr). exists (comp Ddec gr d r). split.
  - assert (E : peq (psub p (comp Ddec gr d r)) (comp Ddec gr d (psub p r))).
    { apply peq_coeff. intros m. unfold comp. rewrite coeff_sub, !coeff_pfilter, coeff_sub. destruct (isg Ddec gr d m) eqn:I; [reflexivity|].
      destruct (kdec (coeff p m) k0) as [Z|N]; [rewrite Z; ring|]. apply Hp in N. apply (isg_true Ddec) in N. congruence. }
    rewrite E. apply Gr. exact Ir.
  - intros m N. unfold comp in N. rewrite coeff_pfilter in N. destruct (isg Ddec gr d m) eqn:I; [|contradiction N; reflexivity]. apply isg_true in I.
    split; [apply Hr; exact N|exact I].
Qed.
End Order.
End Hilbert.
