(** * The standard monomials of an order, one after the other *)
From Coq Require Import List Arith Lia Ring Field Setoid Morphisms.
From Verif Require Import LinSpec Base FieldIface MonoSpec PolySpec GroebnerSpec StdSpec LinFacts SubstSpec IdealSpec ModSpec.
Import ListNotations.
Local Open Scope nat_scope.

Section Fglm.
Context {K : MathField}.
Add Field Kf87 : (kth K).
Add Ring Pr87 : (@poly_ring K) (setoid (@peq_equiv K) (@poly_ring_ext K)).
Notation spoly := (spoly K).
Context (lt : mono -> mono -> Prop) (LW : mono_order_laws lt).
Variables (n : nat) (G : list spoly) (L : list mono) (m : mono).
Hypothesis GB : groebner lt G.
Hypothesis VG : forall g, In g G -> svars n g.
Hypothesis ND : NoDup L.
Hypothesis Vm : mvars n m.
(** [L] are the standard monomials below [m] *)
Hypothesis HL : forall x, In x L <-> std lt n G x /\ lt x m.
Notation N := (length L).
Notation b := (fun j => nth j (L ++ [m]) mone).
Definition upto (w : nat -> K) : spoly := wsum (S N) w (fun j => pterm k1 (b j)).
Lemma b_low j : j < N -> b j = nth j L mone.
Proof. intros H. apply app_nth1. exact H. Qed.
Lemma b_top : b N = m.
Proof. cbn beta. rewrite app_nth2 by lia. rewrite Nat.sub_diag. reflexivity. Qed.
Lemma b_nodup : NoDup (L ++ [m]).
Proof.
  apply (Permutation.Permutation_NoDup (l := m :: L)); [apply Permutation.Permutation_cons_append|]. constructor; [|exact ND].
  intros I. apply HL in I as [_ I]. exact (lt_irrefl lt LW m I).
Qed.
Lemma b_inj i j : i < S N -> j < S N -> b i = b j -> i = j.
Proof. intros Hi Hj. apply (proj1 (NoDup_nth _ _) b_nodup); rewrite app_length; cbn; lia. Qed.
Lemma upto_coeff w j : j < S N -> coeff (upto w) (b j) = w j.
Proof.
  intros Hj. unfold upto. rewrite coeff_wsum. rewrite (sumn_pick (S N) _ j Hj).
  - rewrite coeff_pterm. destruct (mono_dec _ _) as [_|X]; [ring|contradiction].
  - intros i Hi Ni. rewrite coeff_pterm. destruct (mono_dec _ _) as [X|_]; [|ring]. exfalso. apply Ni. apply b_inj; assumption.
Qed.
Lemma upto_support w x : coeff (upto w) x <> k0 -> exists j, j < S N /\ b j = x /\ w j <> k0.
Proof.
  unfold upto. rewrite coeff_wsum. intros Nx. destruct (sumn_nonzero _ _ Nx) as (j & Hj & Nj). exists j. split; [exact Hj|].
  rewrite coeff_pterm in Nj. destruct (mono_dec _ _) as [X|_]; [split; [exact X|intros Z; apply Nj; rewrite Z; ring]|exfalso; apply Nj; ring].
Qed.
Lemma b_std j : j < N -> std lt n G (b j) /\ lt (b j) m.
Proof. intros H. apply HL. rewrite (b_low j H). apply nth_In. exact H. Qed.
Lemma upto_zero w : in_ideal G (upto w) -> std lt n G m \/ w N = k0 -> forall j, j < S N -> w j = k0.
Proof.
  intros I C j Hj. rewrite <- (upto_coeff w j Hj). assert (E : peq (upto w) pzero); [|rewrite E; apply coeff_zero].
  apply (std_independent lt LW n G _ GB); [|exact I]. intros x Nx. destruct (upto_support w x Nx) as (i & Hi & <- & Ni).
  destruct (Nat.eq_dec i N) as [->|]; [|apply b_std; lia]. destruct C as [C|C]; [rewrite b_top; exact C|contradiction].
Qed.
Lemma upto_lm w : w N <> k0 -> is_lm lt (upto w) m.
Proof.
  intros Nw. split; [rewrite <- b_top, upto_coeff by lia; exact Nw|]. intros x Nx. destruct (upto_support w x Nx) as (i & Hi & <- & Ni).
  destruct (Nat.eq_dec i N) as [->|]; [left; apply b_top|right; apply b_std; lia].
Qed.
Lemma upto_ex : ~ std lt n G m -> exists w, w N = k1 /\ in_ideal G (upto w).
Proof.
  intros Ns. destruct (normal_form lt LW n G VG (pterm k1 m)) as (r & Ir & Sr); [apply svars_pterm; exact Vm|].
  assert (Cm : coeff r m = k0) by (destruct (kdec (coeff r m) k0) as [Z|Z]; [exact Z|exfalso; apply Ns; apply Sr; exact Z]).
  set (p := psub (pterm k1 m) r) in *.
  assert (Pm : coeff p m = k1) by (unfold p; rewrite coeff_sub, Cm, coeff_pterm; destruct (mono_dec m m) as [_|X]; [ring|contradiction]).
  assert (Px : forall x, x <> m -> coeff p x = kopp (coeff r x)).
  { intros x Nx. unfold p. rewrite coeff_sub, coeff_pterm. destruct (mono_dec m x) as [X|_]; [exfalso; apply Nx; symmetry; exact X|ring]. }
  assert (LMp : is_lm lt p m).
  { destruct (zero_or_lm lt LW p) as [Z|(t & Ht)].
    - exfalso. rewrite Z, coeff_zero in Pm. apply (F_1_neq_0 (kth K)). symmetry. exact Pm.
    - destruct (mono_dec t m) as [<-|Nt]; [exact Ht|]. exfalso. destruct (GB p t Ir Ht) as (g & l & Ig & Hl & Dl).
      assert (St : std lt n G t) by (apply Sr; intros Z; apply (proj1 Ht); rewrite (Px t Nt), Z; ring). exact (proj2 St g l Ig Hl Dl). }
  exists (fun j => coeff p (b j)). split; [rewrite b_top; exact Pm|].
  assert (E : peq (upto (fun j => coeff p (b j))) p); [|rewrite E; exact Ir].
  apply peq_coeff. intros x. destruct (in_dec mono_dec x (L ++ [m])) as [I|NI].
  - apply (In_nth _ _ mone) in I as (j & Hj & <-). rewrite app_length in Hj. cbn in Hj. rewrite (upto_coeff (fun j => coeff p (b j)) j) by lia. reflexivity.
  - transitivity (@k0 K).
    + destruct (kdec (coeff (upto (fun j => coeff p (b j))) x) k0) as [Z|Z]; [exact Z|]. exfalso. apply upto_support in Z as (j & Hj & <- & _). apply NI. apply nth_In. rewrite app_length. cbn. lia.
    + destruct (kdec (coeff p x) k0) as [Z|Z]; [symmetry; exact Z|]. exfalso. apply NI. destruct (proj2 LMp x Z) as [Lx|Lx]; [subst x; apply in_or_app; right; left; reflexivity|].
      apply in_or_app. left. apply HL. split; [|exact Lx]. apply Sr. intros Y. apply Z. rewrite Px; [rewrite Y; ring|]. intros ->. exact (lt_irrefl lt LW m Lx).
Qed.
Lemma upto_scale c w : peq (upto (fun j => kmul c (w j))) (pmul (pterm c mone) (upto w)).
Proof.
  assert (E : peq (pmul (pterm c mone) (upto w)) (pscale c (upto w))) by (unfold pscale; rewrite tmul_pmul; reflexivity). rewrite E.
  apply peq_coeff. intros x. unfold upto. rewrite coeff_scale, !coeff_wsum, <- sumn_mul_l. apply sumn_ext. intros i _. ring.
Qed.
Lemma upto_sub w w' : peq (upto (fun j => ksub (w j) (w' j))) (psub (upto w) (upto w')).
Proof. apply peq_coeff. intros x. unfold upto. rewrite coeff_sub, !coeff_wsum, <- sumn_sub. apply sumn_ext. intros i _. ring. Qed.
(** the relations are the multiples of any one of them *)
Lemma upto_unique w w' : in_ideal G (upto w) -> in_ideal G (upto w') -> forall j, j < S N -> kmul (w' N) (w j) = kmul (w N) (w' j).
Proof.
  intros I I' j Hj.
  assert (Z : ksub (kmul (w' N) (w j)) (kmul (w N) (w' j)) = k0).
  { apply (upto_zero (fun j => ksub (kmul (w' N) (w j)) (kmul (w N) (w' j)))); [|right; ring|exact Hj].
    rewrite (upto_sub (fun j => kmul (w' N) (w j)) (fun j => kmul (w N) (w' j))). rewrite !upto_scale. apply in_ideal_sub; apply in_ideal_mul; assumption. }
  transitivity (kadd (ksub (kmul (w' N) (w j)) (kmul (w N) (w' j))) (kmul (w N) (w' j))); [ring|rewrite Z; ring].
Qed.
(** an element of the ideal with leading monomial [m] and otherwise standard monomials is a combination *)
Lemma upto_element p w : in_ideal G p -> is_lm lt p m -> (forall x, coeff p x <> k0 -> x <> m -> std lt n G x) -> in_ideal G (upto w) ->
  peq (pmul (pterm (w N) mone) p) (pmul (pterm (coeff p m) mone) (upto w)).
Proof.
  intros Ip Lp Sp Iw.
  assert (E : peq p (upto (fun j => coeff p (b j)))).
  { apply peq_coeff. intros x. destruct (in_dec mono_dec x (L ++ [m])) as [I|NI].
    - apply (In_nth _ _ mone) in I as (j & Hj & <-). rewrite app_length in Hj. cbn in Hj. rewrite (upto_coeff (fun j => coeff p (b j)) j) by lia. reflexivity.
    - transitivity (@k0 K).
      + destruct (kdec (coeff p x) k0) as [Z|Z]; [exact Z|]. exfalso. apply NI. apply in_or_app. destruct (mono_dec x m) as [->|Nx]; [right; left; reflexivity|left].
        apply HL. split; [apply Sp; assumption|]. destruct (proj2 Lp x Z) as [Lx|Lx]; [contradiction|exact Lx].
      + symmetry. destruct (kdec (coeff (upto (fun j => coeff p (b j))) x) k0) as [Z|Z]; [exact Z|]. exfalso. apply upto_support in Z as (j & Hj & <- & _). apply NI. apply nth_In. rewrite app_length. cbn. lia. }
  assert (E' : peq (pmul (pterm (w N) mone) p) (pmul (pterm (w N) mone) (upto (fun j => coeff p (b j))))) by (rewrite <- E; reflexivity). rewrite E'.
  rewrite <- !upto_scale. apply peq_coeff. intros x. unfold upto. rewrite !coeff_wsum. apply sumn_ext. intros j Hj. f_equal.
  assert (Im : coeff p m = coeff p (b N)) by (rewrite b_top; reflexivity). rewrite Im.
  apply (upto_unique (fun j => coeff p (b j)) w); [rewrite <- E; exact Ip|exact Iw|exact Hj].
Qed.
End Fglm.
