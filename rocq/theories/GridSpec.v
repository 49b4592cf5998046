(** * Ideals that contain a product of different linear factors in each variable.

    Pure mathematics; nothing here mentions the code. *)
From Coq Require Import List Arith Lia Ring Field Setoid Morphisms.
From Verif Require Import LinSpec Base FieldIface MonoSpec PolySpec GroebnerSpec IdealSpec SubstSpec StdSpec.
Import ListNotations.
Local Open Scope nat_scope.

Section Grid.
Context {K : MathField}.
Add Field Kf61 : (kth K).
Add Ring Pr61 : (@poly_ring K) (setoid (@peq_equiv K) (@poly_ring_ext K)).
Notation spoly := (spoly K).
Implicit Types (p q f g h r : spoly) (m a b l : mono).

(** x_i - v *)
Definition plin (i : nat) (v : K) : spoly := psub (pvar i) (pterm v mone).
(** the product of x_i - v over a list of values *)
Fixpoint prodlin (i : nat) (vs : list K) : spoly := match vs with [] => pone | v :: vs' => pmul (plin i v) (prodlin i vs') end.

Lemma in_ideal_weaken G H p : (forall g, In g G -> In g H) -> in_ideal G p -> in_ideal H p.
Proof. intros I. apply in_ideal_sub_ideal. intros g Ig. apply in_ideal_gen. apply I. exact Ig. Qed.
Lemma in_ideal_cons g G p : in_ideal (g :: G) p <-> exists q r, in_ideal G r /\ peq p (padd (pmul q g) r).
Proof.
  split.
  - intros (qs & L & E). destruct qs as [|q qs]; [discriminate|]. exists q, (lincomb qs G). split; [|exact E]. exists qs. split; [cbn in L; lia|reflexivity].
  - intros (q & r & I & E). rewrite E. apply in_ideal_add; [apply in_ideal_mul; apply in_ideal_gen; left; reflexivity|].
    apply (in_ideal_weaken G); [intros h Ih; right; exact Ih|exact I].
Qed.
Lemma pterm_const_add (u v : K) : peq (pterm (kadd u v) mone) (padd (pterm u mone) (pterm v mone)).
Proof. intros phi. unfold padd, pterm. simpl. ring. Qed.
Lemma pterm_times (u v : K) a b : peq (pterm (kmul u v) (mmul a b)) (pmul (pterm u a) (pterm v b)).
Proof. intros phi. rewrite ev_pmul. unfold pterm. simpl. ring. Qed.
Lemma pterm_const_mul (u v : K) : peq (pterm (kmul u v) mone) (pmul (pterm u mone) (pterm v mone)).
Proof. rewrite <- pterm_times. rewrite mmul_1_l. reflexivity. Qed.
Lemma pterm_one : peq (pterm k1 mone) (@pone K). Proof. reflexivity. Qed.

(** modulo x_i - v the product of the other factors is a constant *)
Lemma prodlin_const i (v : K) : forall vs, exists q c, peq (prodlin i vs) (padd (pmul q (plin i v)) (pterm c mone)) /\ (~ In v vs -> c <> k0).
Proof.
  induction vs as [|u vs (q & c & E & N)]; cbn [prodlin].
  - exists pzero, k1. split; [rewrite pterm_one; ring|]. intros _. apply (F_1_neq_0 (kth K)).
  - exists (padd (pmul (plin i u) q) (pterm c mone)), (kmul (ksub v u) c). split.
    + rewrite E. rewrite pterm_const_mul. assert (X : peq (plin i u) (padd (plin i v) (pterm (ksub v u) mone))).
      { unfold plin. assert (Y : peq (pterm v mone) (padd (pterm (ksub v u) mone) (pterm u mone))).
        { rewrite <- pterm_const_add. assert (Z : kadd (ksub v u) u = v) by ring. rewrite Z. reflexivity. }
        rewrite Y. ring. }
      assert (Y : forall A B D P C : spoly, peq A (padd B D) -> peq (pmul A (padd (pmul P B) C)) (padd (pmul (padd (pmul A P) C) B) (pmul D C))).
      { intros A B D P C H. assert (R1 : peq (pmul A (padd (pmul P B) C)) (padd (pmul (pmul A P) B) (pmul A C))) by ring. rewrite R1.
        assert (R2 : peq (pmul A C) (pmul (padd B D) C)) by (rewrite H; reflexivity). rewrite R2. ring. }
      apply Y. exact X.
    + intros NI Z. apply N; [intros I; apply NI; right; exact I|]. assert (D : ksub v u <> k0).
      { intros Z'. apply NI. left. assert (Y : v = kadd (ksub v u) u) by ring. rewrite Y, Z'. ring. }
      assert (Y : c = kmul (kinv (ksub v u)) (kmul (ksub v u) c)) by (field; exact D). rewrite Y, Z. ring.
Qed.
(** membership modulo each factor gives membership modulo the product *)
Lemma crt i J f : forall vs, NoDup vs -> (forall v, In v vs -> in_ideal (plin i v :: J) f) -> in_ideal (prodlin i vs :: J) f.
Proof.
  induction vs as [|v vs IH]; intros ND H; cbn [prodlin].
  - apply in_ideal_cons. exists f, pzero. split; [apply in_ideal_zero|ring].
  - inversion ND as [|? ? NI ND']; subst. destruct (proj1 (in_ideal_cons _ _ _) (IH ND' (fun u I => H u (or_intror I)))) as (q & r & Ir & E).
    destruct (proj1 (in_ideal_cons _ _ _) (H v (or_introl eq_refl))) as (q' & r' & Ir' & E').
    destruct (prodlin_const i v vs) as (s & c & Ec & Nc). specialize (Nc NI).
    (* q c = f - r - q s (x - v), so q is in J + (x - v) *)
    set (P := prodlin i vs) in *. set (l := plin i v) in *.
    assert (Q : peq q (padd (pmul (pmul (pterm (kinv c) mone) (psub q' (pmul q s))) l) (pmul (pterm (kinv c) mone) (psub r' r)))).
    { assert (One : peq pone (pmul (pterm (kinv c) mone) (pterm c mone))).
      { rewrite <- pterm_const_mul. assert (Z : kmul (kinv c) c = k1) by (field; exact Nc). rewrite Z. reflexivity. }
      assert (E2 : peq (padd (pmul q (padd (pmul s l) (pterm c mone))) r) (padd (pmul q' l) r')) by (rewrite <- Ec, <- E; exact E').
      assert (E3 : peq (pmul q (pterm c mone)) (padd (pmul (psub q' (pmul q s)) l) (psub r' r))).
      { assert (R1 : peq (pmul q (pterm c mone)) (psub (padd (pmul q (padd (pmul s l) (pterm c mone))) r) (padd (pmul (pmul q s) l) r))) by ring.
        rewrite R1, E2. ring. }
      assert (R : peq q (pmul (pterm (kinv c) mone) (pmul q (pterm c mone)))).
      { assert (R1 : peq q (pmul q pone)) by ring. rewrite R1 at 1. rewrite One. ring. }
      transitivity (pmul (pterm (kinv c) mone) (pmul q (pterm c mone))); [exact R|]. rewrite E3. ring. }
    apply in_ideal_cons. exists (pmul (pterm (kinv c) mone) (psub q' (pmul q s))), (padd (pmul P (pmul (pterm (kinv c) mone) (psub r' r))) r). split.
    + apply in_ideal_add; [|exact Ir]. do 2 apply in_ideal_mul. apply in_ideal_sub; assumption.
    + rewrite E. set (t := pmul (pterm (kinv c) mone) (psub q' (pmul q s))) in *. set (w := pmul (pterm (kinv c) mone) (psub r' r)) in *.
      assert (R : peq (pmul q P) (pmul (padd (pmul t l) w) P)) by (rewrite <- Q; reflexivity). rewrite R. ring.
Qed.

(** modulo x_0 - x 0, .., x_(n-1) - x (n-1) every polynomial is its value *)
Definition point (x : nat -> K) (n : nat) : list spoly := map (fun i => plin i (x i)) (seq 0 n).
Lemma point_mono x n m : mvars n m -> in_ideal (point x n) (psub (pterm k1 m) (pterm (mval x m) mone)).
Proof.
  destruct (mval_multiplicative x) as [M1 MM].
  assert (Mul : forall a b, in_ideal (point x n) (psub (pterm k1 a) (pterm (mval x a) mone)) -> in_ideal (point x n) (psub (pterm k1 b) (pterm (mval x b) mone)) ->
    in_ideal (point x n) (psub (pterm k1 (mmul a b)) (pterm (mval x (mmul a b)) mone))).
  { intros a b A B. rewrite MM. assert (E : peq (psub (pterm k1 (mmul a b)) (pterm (kmul (mval x a) (mval x b)) mone))
      (padd (pmul (pterm k1 b) (psub (pterm k1 a) (pterm (mval x a) mone))) (pmul (pterm (mval x a) mone) (psub (pterm k1 b) (pterm (mval x b) mone))))).
    { rewrite pterm_const_mul. assert (Y : peq (@pterm K k1 (mmul a b)) (pmul (pterm k1 a) (pterm k1 b))).
      { rewrite <- pterm_times. assert (Z : kmul k1 k1 = @k1 K) by ring. rewrite Z. reflexivity. }
      rewrite Y. ring. }
    rewrite E. apply in_ideal_add; apply in_ideal_mul; assumption. }
  assert (One : in_ideal (point x n) (psub (pterm k1 mone) (pterm (mval x mone) mone))).
  { rewrite M1. assert (E : peq (psub (pterm k1 mone) (pterm k1 mone)) (@pzero K)) by ring. rewrite E. apply in_ideal_zero. }
  assert (Pow : forall i k, i < n -> in_ideal (point x n) (psub (pterm k1 (mvar i k)) (pterm (mval x (mvar i k)) mone))).
  { intros i k Hi. induction k as [|k IH].
    - assert (E : mvar i 0 = mone) by (apply mono_ext; intros j; rewrite mone_exp, mvar_exp; destruct (Nat.eqb j i); reflexivity). rewrite E. exact One.
    - assert (E : mvar i (S k) = mmul (mvar i 1) (mvar i k)).
      { apply mono_ext. intros j. rewrite mmul_exp, !mvar_exp. destruct (Nat.eqb j i); reflexivity. }
      rewrite E. apply Mul; [|exact IH]. rewrite mval_var. apply in_ideal_gen. unfold point. apply in_map_iff. exists i. split; [reflexivity|apply in_seq; lia]. }
  assert (All : forall k, k <= n -> forall m, mvars k m -> in_ideal (point x n) (psub (pterm k1 m) (pterm (mval x m) mone))).
  { induction k as [|k IH]; intros Hk b V.
    - assert (E : b = mone) by (apply mono_ext; intros i; rewrite mone_exp; apply V; lia). rewrite E. exact One.
    - rewrite <- (mstrip_back k b). apply Mul; [|apply Pow; lia]. apply IH; [lia|]. intros i Hi. rewrite mstrip_exp. destruct (Nat.eqb_spec i k); [reflexivity|]. apply V. lia. }
  intros V. apply (All n); [lia|exact V].
Qed.
Lemma point_value x n f : svars n f -> in_ideal (point x n) (psub f (pterm (peval x f) mone)).
Proof.
  intros V. destruct (pnorm f) as (f' & E & N). unfold peval. rewrite <- (E (mval x)).
  assert (R : peq (psub f (pterm (ev f' (mval x)) mone)) (psub f' (pterm (ev f' (mval x)) mone))) by (generalize (pterm (ev f' (mval x)) mone); intros z; rewrite E; reflexivity).
  rewrite R. clear R.
  assert (V' : forall t, In t f' -> mvars n (snd t)). { intros [c m] I. apply N in I as [C Z]. cbn [snd]. apply V. rewrite C. exact Z. }
  clear - V'. induction f' as [|[c m] f' IH].
  - assert (E : peq (psub [] (pterm (ev [] (mval x)) mone)) (@pzero K)) by (intros phi; unfold psub, padd, popp, pterm; simpl; ring). rewrite E. apply in_ideal_zero.
  - assert (E : peq (psub ((c, m) :: f') (pterm (ev ((c, m) :: f') (mval x)) mone))
      (padd (pmul (pterm c mone) (psub (pterm k1 m) (pterm (mval x m) mone))) (psub f' (pterm (ev f' (mval x)) mone)))).
    { intros phi. unfold psub. unfold padd. rewrite !ev_app. rewrite ev_pmul. rewrite !ev_popp. unfold pterm. simpl. rewrite ?ev_app, ?mmul_1_l. simpl. ring. }
    rewrite E. apply in_ideal_add; [apply in_ideal_mul; apply point_mono; apply (V' (c, m)); left; reflexivity|]. apply IH. intros t I. apply V'. right. exact I.
Qed.

(** ** ideals with a product of different linear factors in each variable *)
Section Ideal.
Variables (n : nat) (G : list spoly) (S : nat -> list K).
Hypothesis VG : forall g, In g G -> svars n g.
Hypothesis ND : forall i, i < n -> NoDup (S i).
Hypothesis HS : forall i, i < n -> in_ideal G (prodlin i (S i)).

Definition on_grid (x : nat -> K) : Prop := forall i, i < n -> In (x i) (S i).
Definition common_zero (x : nat -> K) : Prop := forall g, In g G -> peval x g = k0.
Lemma common_zero_dec x : common_zero x \/ exists g, In g G /\ peval x g <> k0.
Proof.
  clear. unfold common_zero. induction G as [|g G' [H|(h & I & H)]]; [left; intros g []| |right; exists h; split; [right; exact I|exact H]].
  destruct (kdec (peval x g) k0) as [E|N]; [left; intros h [<-|I]; auto|right; exists g; split; [left; reflexivity|exact N]].
Qed.
(** the ideal consists of the polynomials that vanish at its zeros, all of which are on the grid *)
Theorem grid_radical f : svars n f -> (in_ideal G f <-> forall x, on_grid x -> common_zero x -> peval x f = k0).
Proof.
  intros V. split; [intros I x _ Z; apply (peval_ideal x G); assumption|]. intros H.
  assert (X : forall k, k <= n -> forall x, (forall i, i < n - k -> In (x i) (S i)) -> in_ideal (point x (n - k) ++ G) f).
  { induction k as [|k IH]; intros Hk x Hx.
    - rewrite Nat.sub_0_r in *. assert (P : forall p, svars n p -> in_ideal (point x n ++ G) (psub p (pterm (peval x p) mone))).
      { intros p Vp. apply (in_ideal_weaken (point x n)); [intros h I; apply in_app_iff; auto|]. apply point_value. exact Vp. }
      destruct (common_zero_dec x) as [Z|(g & Ig & Ng)].
      + pose proof (P f V) as Q. rewrite (H x) in Q; [|exact Hx|exact Z].
        assert (E : peq f (psub f (pterm k0 mone))) by (intros phi; unfold psub, padd; rewrite ev_app, ev_popp; unfold pterm; simpl; ring). rewrite E. exact Q.
      + pose proof (P g (VG g Ig)) as Q. set (v := peval x g) in *.
        assert (I : in_ideal (point x n ++ G) (pterm v mone)).
        { assert (E : peq (pterm v mone) (psub g (psub g (pterm v mone)))) by ring. rewrite E. apply in_ideal_sub; [|exact Q].
          apply in_ideal_gen. apply in_app_iff. right. exact Ig. }
        assert (E : peq f (pmul (pmul f (pterm (kinv v) mone)) (pterm v mone))).
        { assert (R : peq (pmul (pmul f (pterm (kinv v) mone)) (pterm v mone)) (pmul f (pmul (pterm (kinv v) mone) (pterm v mone)))) by ring.
          rewrite R, <- pterm_const_mul. assert (Z : kmul (kinv v) v = k1) by (field; exact Ng). rewrite Z, pterm_one. ring. }
        rewrite E. apply in_ideal_mul. exact I.
    - assert (Hn : n - k = Datatypes.S (n - Datatypes.S k)) by lia. set (j := n - Datatypes.S k) in *.
      apply (in_ideal_sub_ideal (prodlin j (S j) :: point x j ++ G)).
      + intros g [<-|I]; [|apply in_ideal_gen; exact I]. apply (in_ideal_weaken G); [intros h I; apply in_app_iff; auto|]. apply HS. lia.
      + apply crt; [apply ND; lia|]. intros v Iv.
        specialize (IH ltac:(lia) (fun i => if Nat.eqb i j then v else x i)). rewrite Hn in IH.
        eapply in_ideal_weaken; [|apply IH].
        * intros g I. apply in_app_iff in I as [I|I]; [|right; apply in_app_iff; right; exact I]. unfold point in I. apply in_map_iff in I as (i & <- & I). apply in_seq in I.
          destruct (Nat.eqb_spec i j) as [->|N]; [left; reflexivity|]. right. apply in_app_iff. left. unfold point. apply in_map_iff. exists i. split; [reflexivity|apply in_seq; lia].
        * intros i Hi. destruct (Nat.eqb_spec i j) as [->|N]; [exact Iv|]. apply Hx. lia. }
  specialize (X n (le_n n) (fun _ => k0)). rewrite Nat.sub_diag in X. apply X. intros i Hi. lia.
Qed.

(** as many standard monomials as zeros *)
Context (lt : mono -> mono -> Prop) (LW : mono_order_laws lt).
Theorem grid_count (L : list mono) (X : nat -> nat -> K) c : groebner lt G -> NoDup L -> (forall m, In m L -> std lt n G m) ->
  (forall x, on_grid x -> common_zero x -> exists k, k < c /\ forall i, i < n -> X k i = x i) -> length L <= c.
Proof.
  intros GB NDL HL HX. destruct (le_lt_dec (length L) c) as [|Lt]; [assumption|exfalso].
  destruct (rows_dependent c (length L) (fun j k => mval (X k) (nth j L mone)) Lt) as (w & (k & Hk & Nk) & Hw).
  set (T := fun k => @pterm K k1 (nth k L mone)).
  assert (VT : svars n (wsum (length L) w T)).
  { intros m N. rewrite coeff_wsum in N. destruct (in_dec mono_dec m L) as [I|NI]; [apply (HL m I)|]. exfalso. apply N. apply sumn_zero'. intros j Hj.
    unfold T. rewrite coeff_pterm. destruct (mono_dec (nth j L mone) m) as [<-|]; [exfalso; apply NI; apply nth_In; exact Hj|ring]. }
  assert (C : forall m, coeff (wsum (length L) w T) m = sumn (length L) (fun j => if mono_dec (nth j L mone) m then w j else k0)).
  { intros m. rewrite coeff_wsum. apply sumn_ext. intros j Hj. unfold T. rewrite coeff_pterm. destruct (mono_dec (nth j L mone) m); ring. }
  assert (PE : forall (x : nat -> K) (l' : nat), peval x (wsum l' w T) = sumn l' (fun j => kmul (w j) (mval x (nth j L mone)))).
  { intros x l'. induction l' as [|l' IH]; cbn [wsum sumn]; [reflexivity|]. rewrite peval_add, IH. f_equal. unfold peval, pscale.
    rewrite tmul_pmul. fold (peval x (pmul (pterm (w l') mone) (T l'))). rewrite peval_mul. unfold peval, T, pterm. simpl.
    rewrite (proj1 (mval_multiplicative x)). ring. }
  assert (I : in_ideal G (wsum (length L) w T)).
  { apply grid_radical; [exact VT|]. intros x Gx Zx. destruct (HX x Gx Zx) as (k' & Hk' & Ex). rewrite PE. rewrite <- (Hw k' Hk').
    apply sumn_ext. intros j Hj. f_equal. assert (V : mvars n (nth j L mone)) by (apply HL; apply nth_In; exact Hj).
    rewrite !(mval_up_eq _ _ n) by exact V. clear - Ex. induction n as [|n' IH]; cbn [mval_up]; [reflexivity|].
    rewrite IH by (intros; apply Ex; lia). rewrite Ex by lia. reflexivity. }
  assert (Z : peq (wsum (length L) w T) pzero).
  { apply (std_independent lt LW n G); auto. intros m N. apply HL. destruct (in_dec mono_dec m L) as [|Y]; [assumption|exfalso]. apply N.
    rewrite C. apply sumn_zero'. intros j Hj. destruct (mono_dec (nth j L mone) m) as [<-|]; [|reflexivity]. exfalso. apply Y. apply nth_In. exact Hj. }
  apply Nk. pose proof (C (nth k L mone)) as Ck. rewrite Z, coeff_zero in Ck.
  rewrite (sumn_ext _ _ (fun j => if Nat.eqb j k then w j else k0)) in Ck.
  - clear - Ck Hk. rewrite Ck. revert Hk. generalize (length L). intros c. induction c as [|c IH]; intros Hk; [lia|]. cbn [sumn].
    destruct (Nat.eqb_spec c k) as [->|N]; [|rewrite <- IH by lia; ring].
    rewrite sumn_zero'; [ring|]. intros j Hj. destruct (Nat.eqb_spec j k); [lia|reflexivity].
  - intros j Hj. destruct (mono_dec (nth j L mone) (nth k L mone)) as [E|E]; destruct (Nat.eqb_spec j k) as [->|N]; auto; [|congruence].
    exfalso. apply N. apply (proj1 (NoDup_nth L mone) NDL); auto.
Qed.
End Ideal.
End Grid.
