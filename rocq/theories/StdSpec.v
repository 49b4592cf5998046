(** * Standard monomials: the quotient by an ideal, and how many points an ideal can have.

    Pure mathematics; nothing here mentions the code. *)
From Coq Require Import List Arith Lia Ring Field Setoid Morphisms.
From Verif Require Import LinSpec Base FieldIface MonoSpec PolySpec GroebnerSpec IdealSpec SubstSpec.
Import ListNotations.
Local Open Scope nat_scope.

Section Std.
Context {K : MathField}.
Add Field Kf31 : (kth K).
Add Ring Pr31 : (@poly_ring K) (setoid (@peq_equiv K) (@poly_ring_ext K)).
Notation spoly := (spoly K).
Implicit Types (p q f g h r : spoly) (m a b l : mono).

Section Order.
Context (lt : mono -> mono -> Prop) (LW : mono_order_laws lt).
Notation LM := (is_lm lt).

(** the monomials in x_0 .. x_(n-1) that no leading monomial of G divides *)
Definition std (n : nat) (G : list spoly) m : Prop := mvars n m /\ forall g l, In g G -> LM g l -> ~ mdiv l m.

Lemma cover_dec (G : list spoly) m : (exists g l, In g G /\ LM g l /\ mdiv l m) \/ (forall g l, In g G -> LM g l -> ~ mdiv l m).
Proof.
  induction G as [|g G [(h & l & I & A & B)|N]]; [right; intros g l []|left; exists h, l; split; [right; exact I|auto]|].
  destruct (zero_or_lm lt LW g) as [Z|(l & Hl)].
  - right. intros h l [<-|I] A; [|apply (N h l I A)]. exfalso. exact (lm_nonzero lt _ _ A Z).
  - destruct (mdiv_dec l m) as [D|D]; [left; exists g, l; split; [left; reflexivity|auto]|].
    right. intros h l' [<-|I] A; [|apply (N h l' I A)]. rewrite (is_lm_unique lt LW g l' l A Hl). exact D.
Qed.
Lemma std_dec n G m : {mvars n m} + {~ mvars n m} -> std n G m \/ ~ std n G m.
Proof.
  intros [V|V]; [|right; intros [X _]; contradiction]. destruct (cover_dec G m) as [(g & l & I & A & B)|N].
  - right. intros [_ X]. exact (X g l I A B).
  - left. split; assumption.
Qed.
Lemma std_down n G a m : mdiv a m -> std n G m -> std n G a.
Proof.
  intros D [V H]. split; [eapply mvars_div; eassumption|]. intros g l I A X. apply (H g l I A). intros i. specialize (X i). specialize (D i). lia.
Qed.

(** every polynomial is congruent to one with standard monomials only *)
Lemma normal_form n G : (forall g, In g G -> svars n g) -> forall p, svars n p ->
  exists r, in_ideal G (psub p r) /\ forall m, coeff r m <> k0 -> std n G m.
Proof.
  intros VG.
  assert (X : forall m, mvars n m -> forall p, svars n p -> LM p m -> exists r, in_ideal G (psub p r) /\ forall m, coeff r m <> k0 -> std n G m).
  { intros m. induction (lt_wf lt LW n m) as [m _ IH]. intros Vm p Vp Hm.
    assert (Step : forall q, svars n q -> (forall x, coeff q x <> k0 -> lt x m) ->
      exists r, in_ideal G (psub q r) /\ forall m, coeff r m <> k0 -> std n G m).
    { intros q Vq Hq. destruct (zero_or_lm lt LW q) as [Z|(m' & Hm')].
      - exists pzero. split; [|intros x N; exfalso; apply N; reflexivity]. assert (E : peq (psub q pzero) pzero) by (rewrite Z; ring). rewrite E. apply in_ideal_zero.
      - assert (Vm' : mvars n m') by (apply (is_lm_vars lt n q); auto). apply (IH m'); auto. split; [exact Vm'|]. split; [exact Vm|]. apply Hq. apply Hm'. }
    destruct (cover_dec G m) as [(g & l & Ig & Lg & D)|N].
    - apply mdiv_iff in D as (a & Ea). rewrite mmul_comm in Ea. set (t := tmul (kdiv (coeff p m) (coeff g l)) a g).
      assert (Va : mvars n a) by (rewrite Ea in Vm; apply mvars_mul in Vm; apply Vm).
      destruct (Step (psub p t)) as (r & Ir & Hr).
      + apply svars_sub; [exact Vp|]. apply svars_tmul; auto.
      + apply (reduce_lm lt LW p g l a m); auto.
      + exists r. split; [|exact Hr]. assert (E : peq (psub p r) (padd (psub (psub p t) r) t)) by ring. rewrite E.
        apply in_ideal_add; [exact Ir|]. apply in_ideal_tmul. apply in_ideal_gen. exact Ig.
    - set (t := pterm (coeff p m) m). destruct (Step (psub p t)) as (r & Ir & Hr).
      + apply svars_sub; [exact Vp|]. apply svars_pterm. exact Vm.
      + intros x Nx. rewrite coeff_sub in Nx. unfold t in Nx. rewrite coeff_pterm in Nx. destruct (mono_dec m x) as [<-|Y]; [exfalso; apply Nx; ring|].
        assert (Nx' : coeff p x <> k0) by (intros Z; apply Nx; rewrite Z; ring). destruct (proj2 Hm x Nx') as [->|]; [contradiction|assumption].
      + exists (padd r t). split; [assert (E : peq (psub p (padd r t)) (psub (psub p t) r)) by ring; rewrite E; exact Ir|].
        intros x Nx. rewrite coeff_add in Nx. unfold t in Nx. rewrite coeff_pterm in Nx. destruct (mono_dec m x) as [<-|Y]; [split; assumption|].
        apply Hr. intros Z. apply Nx. rewrite Z. ring. }
  intros p Vp. destruct (zero_or_lm lt LW p) as [Z|(m & Hm)].
  - exists pzero. split; [|intros x N; exfalso; apply N; reflexivity]. assert (E : peq (psub p pzero) pzero) by (rewrite Z; ring). rewrite E. apply in_ideal_zero.
  - apply (X m); auto. apply (is_lm_vars lt n p); auto.
Qed.
(** and for a Groebner basis to only one *)
Lemma std_independent n G p : groebner lt G -> (forall m, coeff p m <> k0 -> std n G m) -> in_ideal G p -> peq p pzero.
Proof. intros GB H I. apply (reduced_ideal_zero lt LW G); auto. intros m N. apply (H m N). Qed.

(** ** when there are finitely many *)
Lemma mvar_mdiv i k l : mdiv l (mvar i k) -> l = mvar i (mexp l i).
Proof.
  intros D. apply mono_ext. intros j. rewrite mvar_exp. destruct (Nat.eqb_spec j i) as [->|N]; [reflexivity|].
  specialize (D j). rewrite mvar_exp in D. destruct (Nat.eqb_spec j i); [contradiction|]. lia.
Qed.
Lemma mvar_vars n i k : i < n -> mvars n (mvar i k).
Proof. intros H j Hj. rewrite mvar_exp. destruct (Nat.eqb_spec j i); [lia|reflexivity]. Qed.
Lemma power_dec (G : list spoly) i : (exists g k, In g G /\ LM g (mvar i k)) \/ (forall g k, In g G -> ~ LM g (mvar i k)).
Proof.
  induction G as [|g G [(h & k & I & A)|N]]; [right; intros g k []|left; exists h, k; split; [right; exact I|exact A]|].
  destruct (zero_or_lm lt LW g) as [Z|(l & Hl)].
  - right. intros h k [<-|I] A; [|exact (N h k I A)]. exact (lm_nonzero lt _ _ A Z).
  - destruct (mono_dec l (mvar i (mexp l i))) as [E|E]; [left; exists g, (mexp l i); split; [left; reflexivity|rewrite <- E; exact Hl]|].
    right. intros h k [<-|I] A; [|exact (N h k I A)]. apply E. rewrite (is_lm_unique lt LW g l (mvar i k) Hl A), mvar_exp, Nat.eqb_refl. reflexivity.
Qed.
(** the monomials with exponents below B 0, .., B (n-1) *)
Fixpoint box (B : nat -> nat) (n : nat) : list mono :=
  match n with O => [mone] | S n' => flat_map (fun m => map (fun k => mmul m (mvar n' k)) (seq 0 (B n'))) (box B n') end.
Fixpoint prodn (B : nat -> nat) (n : nat) : nat := match n with O => 1 | S n' => prodn B n' * B n' end.
Lemma box_length B n : length (box B n) = prodn B n.
Proof.
  induction n as [|n IH]; [reflexivity|]. cbn [box prodn]. rewrite <- IH. generalize (box B n). intros l. induction l as [|m l IHl]; [reflexivity|].
  cbn [flat_map length]. rewrite app_length, map_length, seq_length, IHl. lia.
Qed.
Lemma box_spec B n m : mvars n m -> (forall i, i < n -> mexp m i < B i) -> In m (box B n).
Proof.
  revert m. induction n as [|n IH]; intros m V H; cbn [box].
  - left. symmetry. apply mono_ext. intros i. rewrite mone_exp. apply V. lia.
  - apply in_flat_map. exists (mstrip n m). split.
    + apply IH.
      * intros i Hi. rewrite mstrip_exp. destruct (Nat.eqb_spec i n); [reflexivity|]. apply V. lia.
      * intros i Hi. rewrite mstrip_exp. destruct (Nat.eqb_spec i n); [lia|]. apply H. lia.
    + apply in_map_iff. exists (mexp m n). split; [apply mstrip_back|]. apply in_seq. specialize (H n). lia.
Qed.
Lemma std_exp n G i g k m : In g G -> LM g (mvar i k) -> std n G m -> mexp m i < k.
Proof.
  intros I A Sm. destruct (le_lt_dec k (mexp m i)) as [Le|]; [exfalso|assumption]. apply (proj2 Sm g _ I A). intros j. rewrite mvar_exp.
  destruct (Nat.eqb_spec j i) as [->|]; lia.
Qed.
Lemma exp_bound i (L : list mono) : exists B, forall m, In m L -> mexp m i < B.
Proof.
  induction L as [|m L (B & IH)]; [exists 0; intros m []|]. exists (S (mexp m i) + B). intros x [<-|I]; [lia|]. specialize (IH x I). lia.
Qed.
Theorem std_finite n G :
  (exists L, forall m, std n G m -> In m L) <-> (forall i, i < n -> exists g k, In g G /\ LM g (mvar i k)).
Proof.
  split.
  - intros (L & H) i Hi. destruct (power_dec G i) as [|N]; [assumption|exfalso]. destruct (exp_bound i L) as (B & HB).
    assert (X : std n G (mvar i B)).
    { split; [apply mvar_vars; exact Hi|]. intros g l I A D. apply mvar_mdiv in D. rewrite D in A. exact (N g _ I A). }
    specialize (HB _ (H _ X)). rewrite mvar_exp, Nat.eqb_refl in HB. lia.
  - intros H. assert (X : forall n', n' <= n -> exists B, forall i m, i < n' -> std n G m -> mexp m i < B).
    { induction n' as [|n' IH]; intros Hn; [exists 0; intros; lia|]. destruct IH as (B & HB); [lia|]. destruct (H n') as (g & k & I & A); [lia|].
      exists (B + S k). intros i m Hi Sm. destruct (Nat.eq_dec i n') as [->|]; [|specialize (HB i m ltac:(lia) Sm); lia].
      pose proof (std_exp n G n' g k m I A Sm). lia. }
    destruct (X n) as (B & HB); [lia|]. exists (box (fun _ => B) n). intros m Sm. apply box_spec; [apply Sm|]. intros i Hi. apply HB; assumption.
Qed.
End Order.

(** ** values at points *)
Lemma mval_var (x : nat -> K) i : mval x (mvar i 1) = x i.
Proof.
  rewrite (mval_up_eq x _ (S i)) by (apply mvar_vars; lia). cbn [mval_up]. rewrite mvar_exp, Nat.eqb_refl. cbn [kpow].
  assert (X : forall k, k <= i -> mval_up x (mvar i 1) k = k1).
  { induction k as [|k IH]; intros Hk; cbn [mval_up]; [reflexivity|]. rewrite IH by lia. rewrite mvar_exp. destruct (Nat.eqb_spec k i); [lia|]. cbn [kpow]. ring. }
  rewrite X by lia. ring.
Qed.
Lemma peval_sub (x : nat -> K) p q : peval x (psub p q) = ksub (peval x p) (peval x q).
Proof. unfold psub. rewrite peval_add. unfold peval. rewrite ev_popp. ring. Qed.
Lemma peval_linear (x : nat -> K) i (v : K) : peval x (psub (pvar i) (pterm v mone)) = ksub (x i) v.
Proof.
  rewrite peval_sub. unfold peval, pvar, pterm. simpl. rewrite mval_var. destruct (mval_multiplicative x) as [O _]. rewrite O. ring.
Qed.
Lemma svars_var n i : i < n -> svars n (@pvar K i).
Proof. intros H. apply svars_pterm. apply mvar_vars. exact H. Qed.

(** a polynomial that vanishes at the points other than the k-th, and not at that *)
Lemma interpolate n (X : nat -> nat -> K) k : forall c, (forall j, j < c -> j <> k -> exists i, i < n /\ X j i <> X k i) ->
  exists q, svars n q /\ peval (X k) q <> k0 /\ forall j, j < c -> j <> k -> peval (X j) q = k0.
Proof.
  induction c as [|c IH]; intros H.
  - exists pone. split; [apply svars_pterm; apply mvars_one|]. split; [|intros; lia]. unfold peval, pone, pterm. simpl.
    rewrite (proj1 (mval_multiplicative (X k))). intros Z. apply (F_1_neq_0 (kth K)). rewrite <- Z. ring.
  - destruct IH as (q & V & N & Z); [intros; apply H; lia|]. destruct (Nat.eq_dec c k) as [->|Nk].
    { exists q. split; [exact V|]. split; [exact N|]. intros j Hj Nj. apply Z; lia. }
    destruct (H c) as (i & Hi & D); [lia|exact Nk|]. exists (pmul (psub (pvar i) (pterm (X c i) mone)) q). split.
    { apply svars_mul; [|exact V]. apply svars_sub; [apply svars_var; exact Hi|apply svars_pterm; apply mvars_one]. }
    split.
    + rewrite peval_mul, peval_linear. intros E. apply N.
      assert (S0 : ksub (X k i) (X c i) <> k0).
      { intros E'. apply D. assert (Y : X k i = kadd (ksub (X k i) (X c i)) (X c i)) by ring. rewrite Y, E'. ring. }
      assert (Y : peval (X k) q = kmul (kinv (ksub (X k i) (X c i))) (kmul (ksub (X k i) (X c i)) (peval (X k) q))) by (field; exact S0).
      rewrite Y, E. ring.
    + intros j Hj Nj. rewrite peval_mul, peval_linear. destruct (Nat.eq_dec j c) as [->|]; [ring|]. rewrite (Z j) by lia. ring.
Qed.
Lemma ev_sumn (p : spoly) c (F : nat -> mono -> K) : ev p (fun m => sumn c (fun k => F k m)) = sumn c (fun k => ev p (F k)).
Proof.
  induction c as [|c IH]; cbn [sumn]; [apply ev_zero_fun|]. rewrite ev_add_fun, IH. reflexivity.
Qed.
(** common zeros, told apart by the first n coordinates, are at most as many as standard monomials *)
Theorem zeros_bound (lt : mono -> mono -> Prop) (LW : mono_order_laws lt) n G (L : list mono) (X : nat -> nat -> K) c :
  (forall g, In g G -> svars n g) -> (forall m, std lt n G m -> In m L) ->
  (forall k g, k < c -> In g G -> peval (X k) g = k0) ->
  (forall j k, j < c -> k < c -> j <> k -> exists i, i < n /\ X j i <> X k i) -> c <= length L.
Proof.
  intros VG HL HZ HD. destruct (le_lt_dec c (length L)) as [|Lt]; [assumption|exfalso].
  destruct (rows_dependent (length L) c (fun k j => mval (X k) (nth j L mone)) Lt) as (w & (k & Hk & Nk) & Hw).
  assert (P : forall p, svars n p -> sumn c (fun k => kmul (w k) (peval (X k) p)) = k0).
  { intros p Vp. destruct (normal_form lt LW n G VG p Vp) as (r & Ir & Hr).
    assert (E : forall k, k < c -> peval (X k) p = peval (X k) r).
    { intros j Hj. pose proof (peval_ideal (X j) G _ (fun g I => HZ j g Hj I) Ir) as Z. rewrite peval_sub in Z.
      assert (Y : peval (X j) p = kadd (ksub (peval (X j) p) (peval (X j) r)) (peval (X j) r)) by ring. rewrite Y, Z. ring. }
    rewrite (sumn_ext c _ (fun k => kmul (w k) (peval (X k) r))) by (intros j Hj; rewrite E by exact Hj; reflexivity).
    destruct (pnorm r) as (r' & Er & Nr). 
    rewrite (sumn_ext c _ (fun k => ev r' (fun m => kmul (w k) (mval (X k) m)))).
    2:{ intros j Hj. rewrite ev_scale_fun. unfold peval. rewrite <- (Er (mval (X j))). reflexivity. }
    rewrite <- ev_sumn. rewrite (ev_ext_in r' _ (fun _ => k0)); [apply ev_zero_fun|].
    intros m I. apply in_map_iff in I as ([cc m'] & <- & I). simpl. apply Nr in I as [C Z]. assert (S : std lt n G m') by (apply Hr; congruence).
    apply HL in S. apply (In_nth _ _ mone) in S as (j & Hj & <-). apply Hw. exact Hj. }
  destruct (interpolate n X k c) as (q & Vq & Nq & Zq); [intros j Hj N; apply HD; auto|].
  pose proof (P q Vq) as Z. apply Nk.
  assert (Y : sumn c (fun j => kmul (w j) (peval (X j) q)) = kmul (w k) (peval (X k) q)).
  { rewrite (sumn_ext c _ (fun j => if Nat.eqb j k then kmul (w j) (peval (X j) q) else k0)).
    - clear - Hk. induction c as [|c IH]; [lia|]. cbn [sumn]. destruct (Nat.eqb_spec c k) as [->|N].
      + rewrite sumn_zero'; [ring|]. intros j Hj. destruct (Nat.eqb_spec j k); [lia|reflexivity].
      + rewrite IH by lia. ring.
    - intros j Hj. destruct (Nat.eqb_spec j k) as [->|N]; [reflexivity|]. rewrite (Zq j Hj N). ring. }
  rewrite Y in Z. assert (T : w k = kmul (kmul (w k) (peval (X k) q)) (kinv (peval (X k) q))) by (field; exact Nq). rewrite T, Z. ring.
Qed.

(** ** the number of standard monomials does not depend on the order *)
Fixpoint wsum (c : nat) (w : nat -> K) (P : nat -> spoly) : spoly :=
  match c with O => pzero | S c' => padd (wsum c' w P) (pscale (w c') (P c')) end.
Lemma coeff_wsum c w P m : coeff (wsum c w P) m = sumn c (fun k => kmul (w k) (coeff (P k) m)).
Proof. induction c as [|c IH]; cbn [wsum sumn]; [reflexivity|]. rewrite coeff_add, coeff_scale, IH. reflexivity. Qed.
Lemma wsum_sub c w P Q : peq (psub (wsum c w P) (wsum c w Q)) (wsum c w (fun k => psub (P k) (Q k))).
Proof.
  apply peq_coeff. intros m. rewrite coeff_sub, !coeff_wsum, <- sumn_sub. apply sumn_ext. intros k Hk. rewrite coeff_sub. ring.
Qed.
Lemma wsum_ideal c w P G : (forall k, k < c -> in_ideal G (P k)) -> in_ideal G (wsum c w P).
Proof.
  induction c as [|c IH]; intros H; cbn [wsum]; [apply in_ideal_zero|]. apply in_ideal_add; [apply IH; intros; apply H; lia|].
  apply in_ideal_tmul. apply H. lia.
Qed.
Lemma finite_choice (Q : nat -> spoly -> Prop) c : (forall k, k < c -> exists r, Q k r) -> exists P, forall k, k < c -> Q k (P k).
Proof.
  induction c as [|c IH]; intros H; [exists (fun _ => pzero); intros; lia|]. destruct IH as (P & HP); [intros; apply H; lia|].
  destruct (H c) as (r & Hr); [lia|]. exists (fun k => if Nat.eqb k c then r else P k). intros k Hk. destruct (Nat.eqb_spec k c) as [->|]; [exact Hr|apply HP; lia].
Qed.
Theorem std_count (lt lt' : mono -> mono -> Prop) (LW : mono_order_laws lt) (LW' : mono_order_laws lt') n G G' (L L' : list mono) :
  groebner lt G -> (forall g, In g G' -> svars n g) -> (forall f, in_ideal G' f -> in_ideal G f) ->
  NoDup L -> (forall m, In m L -> std lt n G m) -> (forall m, std lt' n G' m -> In m L') -> length L <= length L'.
Proof.
  intros GB VG' Sub ND HL HL'. destruct (le_lt_dec (length L) (length L')) as [|Lt]; [assumption|exfalso].
  destruct (finite_choice (fun k r => in_ideal G' (psub (pterm k1 (nth k L mone)) r) /\ forall m, coeff r m <> k0 -> std lt' n G' m) (length L)) as (P & HP).
  { intros k Hk. apply (normal_form lt' LW' n G' VG'). apply svars_pterm. apply (HL (nth k L mone)). apply nth_In. exact Hk. }
  destruct (rows_dependent (length L') (length L) (fun k j => coeff (P k) (nth j L' mone)) Lt) as (w & (k & Hk & Nk) & Hw).
  set (T := fun k => @pterm K k1 (nth k L mone)).
  assert (Z : peq (wsum (length L) w P) pzero).
  { apply peq_coeff. intros m. rewrite coeff_wsum, coeff_zero. destruct (in_dec mono_dec m L') as [I|N].
    - apply (In_nth _ _ mone) in I as (j & Hj & <-). apply Hw. exact Hj.
    - apply sumn_zero'. intros j Hj. destruct (kdec (coeff (P j) m) k0) as [->|C]; [ring|]. exfalso. apply N. apply HL'. apply (HP j Hj). exact C. }
  assert (C : forall m, coeff (wsum (length L) w T) m = sumn (length L) (fun j => if mono_dec (nth j L mone) m then w j else k0)).
  { intros m. rewrite coeff_wsum. apply sumn_ext. intros j Hj. unfold T. rewrite coeff_pterm. destruct (mono_dec (nth j L mone) m); ring. }
  assert (I : in_ideal G (wsum (length L) w T)).
  { apply Sub. assert (E : peq (wsum (length L) w T) (psub (wsum (length L) w T) (wsum (length L) w P))) by (rewrite Z; ring).
    rewrite E, wsum_sub. apply wsum_ideal. intros j Hj. apply (HP j Hj). }
  assert (V : peq (wsum (length L) w T) pzero).
  { apply (std_independent lt LW n G); auto. intros m N. apply HL. destruct (in_dec mono_dec m L) as [|X]; [assumption|exfalso]. apply N.
    rewrite C. apply sumn_zero'. intros j Hj. destruct (mono_dec (nth j L mone) m) as [<-|]; [|reflexivity]. exfalso. apply X. apply nth_In. exact Hj. }
  apply Nk. pose proof (C (nth k L mone)) as Ck. rewrite V, coeff_zero in Ck.
  rewrite (sumn_ext _ _ (fun j => if Nat.eqb j k then w j else k0)) in Ck.
  - clear - Ck Hk. rewrite Ck. revert Hk. generalize (length L). intros c. induction c as [|c IH]; intros Hk; [lia|]. cbn [sumn].
    destruct (Nat.eqb_spec c k) as [->|N]; [|rewrite <- IH by lia; ring].
    rewrite sumn_zero'; [ring|]. intros j Hj. destruct (Nat.eqb_spec j k); [lia|reflexivity].
  - intros j Hj. destruct (mono_dec (nth j L mone) (nth k L mone)) as [E|E]; destruct (Nat.eqb_spec j k) as [->|N]; auto; [|congruence].
    exfalso. apply N. apply (proj1 (NoDup_nth L mone) ND); auto.
Qed.
End Std.
