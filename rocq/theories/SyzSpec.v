(** * Syzygies of a Groebner basis are generated by those of its S-polynomials (Schreyer).

    Pure mathematics; nothing here mentions the code. *)
From Coq Require Import List Arith Lia Ring Field Setoid Morphisms.
From Verif Require Import LinSpec Base FieldIface MonoSpec PolySpec GroebnerSpec.
Import ListNotations.
Local Open Scope nat_scope.

Section Syz.
Context {K : MathField}.
Add Field Kf63 : (kth K).
Add Ring Pr63 : (@poly_ring K) (setoid (@peq_equiv K) (@poly_ring_ext K)).
Notation spoly := (spoly K).
Context (lt : mono -> mono -> Prop) (LW : mono_order_laws lt).
Notation LM := (is_lm lt).
Notation le := (mle lt).
Implicit Types (p r : spoly) (m a b : mono).

(** sums over indices *)
Fixpoint psn (c : nat) (f : nat -> spoly) : spoly := match c with O => pzero | S c' => padd (psn c' f) (f c') end.
Lemma psn_ext c (f f' : nat -> spoly) : (forall k, k < c -> peq (f k) (f' k)) -> peq (psn c f) (psn c f').
Proof. induction c as [|c IH]; intros H; cbn [psn]; [reflexivity|]. rewrite IH by (intros; apply H; lia). rewrite (H c) by lia. reflexivity. Qed.
Lemma psn_add c f f' : peq (psn c (fun k => padd (f k) (f' k))) (padd (psn c f) (psn c f')).
Proof. induction c as [|c IH]; cbn [psn]; [ring|]. rewrite IH. ring. Qed.
Lemma psn_mul c u f : peq (psn c (fun k => pmul u (f k))) (pmul u (psn c f)).
Proof. induction c as [|c IH]; cbn [psn]; [ring|]. rewrite IH. ring. Qed.
Lemma psn_zero c f : (forall k, k < c -> peq (f k) pzero) -> peq (psn c f) pzero.
Proof. induction c as [|c IH]; intros H; cbn [psn]; [reflexivity|]. rewrite IH by (intros; apply H; lia). rewrite (H c) by lia. ring. Qed.
Lemma psn_single c i p : i < c -> peq (psn c (fun k => if Nat.eqb k i then p else pzero)) p.
Proof.
  induction c as [|c IH]; intros H; [lia|]. cbn [psn]. destruct (Nat.eqb_spec c i) as [->|N].
  - rewrite psn_zero; [ring|]. intros k Hk. destruct (Nat.eqb_spec k i); [lia|reflexivity].
  - rewrite IH by lia. ring.
Qed.
Lemma coeff_psn c f m : coeff (psn c f) m = sumn c (fun k => coeff (f k) m).
Proof. induction c as [|c IH]; cbn [psn sumn]; [reflexivity|]. rewrite coeff_add, IH. reflexivity. Qed.

Section Basis.
Variables (n c : nat) (g : nat -> spoly) (l : nat -> mono) (q : nat -> nat -> nat -> spoly).
Hypothesis Lg : forall k, k < c -> LM (g k) (l k).
Hypothesis Vl : forall k, k < c -> mvars n (l k).
Hypothesis Vq : forall i j k, i < j -> j < c -> k < c -> svars n (q i j k).
(** the S-polynomials are divided by the basis without remainder *)
Hypothesis Eq : forall i j, i < j -> j < c -> peq (spol (g i) (l i) (g j) (l j)) (psn c (fun k => pmul (q i j k) (g k))).
Hypothesis Bq : forall i j k m, i < j -> j < c -> k < c -> coeff (q i j k) m <> k0 -> lt (mmul m (l k)) (mlcm (l i) (l j)).

(** the relation read off the division of the S-polynomial of g_i and g_j *)
Definition relation (i j k : nat) : spoly :=
  psub (psub (if Nat.eqb k i then pterm (kinv (coeff (g i) (l i))) (mquo (mlcm (l i) (l j)) (l i)) else pzero)
             (if Nat.eqb k j then pterm (kinv (coeff (g j) (l j))) (mquo (mlcm (l i) (l j)) (l j)) else pzero)) (q i j k).
Lemma psn_ite i p : i < c -> peq (psn c (fun k => pmul (if Nat.eqb k i then p else pzero) (g k))) (pmul p (g i)).
Proof.
  intros Hi. rewrite <- (psn_single c i (pmul p (g i)) Hi). apply psn_ext. intros k Hk. destruct (Nat.eqb_spec k i) as [->|N]; [reflexivity|ring].
Qed.
Lemma relation_syzygy i j : i < j -> j < c -> peq (psn c (fun k => pmul (relation i j k) (g k))) pzero.
Proof.
  intros Hij Hj. set (A := pterm (kinv (coeff (g i) (l i))) (mquo (mlcm (l i) (l j)) (l i))). set (B := pterm (kinv (coeff (g j) (l j))) (mquo (mlcm (l i) (l j)) (l j))).
  rewrite (psn_ext c _ (fun k => padd (padd (pmul (if Nat.eqb k i then A else pzero) (g k)) (pmul (popp pone) (pmul (if Nat.eqb k j then B else pzero) (g k))))
    (pmul (popp pone) (pmul (q i j k) (g k))))) by (intros k Hk; unfold relation; fold A B; ring).
  rewrite !psn_add, !psn_mul, !psn_ite by lia. rewrite <- Eq by assumption. unfold spol, A, B. rewrite !tmul_pmul. ring.
Qed.

(** a sum of multiples of these relations *)
Definition spanned (v : nat -> spoly) : Prop :=
  exists us : list (spoly * nat * nat), Forall (fun t => snd (fst t) < snd t /\ snd t < c) us /\
    forall k, k < c -> peq (v k) (psum (map (fun t => pmul (fst (fst t)) (relation (snd (fst t)) (snd t) k)) us)).

Lemma split_coeff p a d (x : mono) : LM p d -> le (mmul a d) x ->
  forall r, (forall m, coeff r m <> k0 -> le (mmul m d) x) -> coeff r (mquo x d) = k0 \/ ~ mdiv d x -> coeff (pmul r p) x = k0.
Proof.
  intros Lp _ r Hr Z. destruct (kdec (coeff (pmul r p) x) k0) as [|N]; [assumption|exfalso]. apply coeff_mul_inv in N as (m & b & -> & Nm & Nb).
  pose proof (Hr m Nm) as L1. pose proof (proj2 Lp b Nb) as L2.
  assert (E : mmul m d = mmul m b) by (apply (mle_antisym lt LW); [exact L1|apply (mle_mul lt LW); exact L2]).
  destruct Z as [Z|Z].
  - apply Nm. rewrite <- E in Z. rewrite (mmul_comm m d), mquo_mul in Z. exact Z.
  - apply Z. rewrite <- E. apply mdiv_mul_r.
Qed.
Lemma top_coeff p d x r : LM p d -> (forall m, coeff r m <> k0 -> le (mmul m d) x) ->
  coeff (pmul r p) x = if mdiv_dec d x then kmul (coeff r (mquo x d)) (coeff p d) else k0.
Proof.
  intros Lp Hr. destruct (mdiv_dec d x) as [D|D].
  - set (a := mquo x d). assert (Ea : mmul a d = x) by (unfold a; rewrite mmul_comm; apply mmul_quo; exact D). set (t := pterm (coeff r a) a).
    assert (E : peq (pmul r p) (padd (tmul (coeff r a) a p) (pmul (psub r t) p))) by (rewrite tmul_pmul; unfold t; ring).
    rewrite E, coeff_add. rewrite (split_coeff p a d x Lp) with (r := psub r t).
    + rewrite <- Ea at 1. rewrite coeff_tmul. ring.
    + left. exact Ea.
    + intros m N. rewrite coeff_sub in N. unfold t in N. rewrite coeff_pterm in N. destruct (mono_dec a m) as [<-|Y]; [left; exact Ea|].
      apply Hr. intros Z. apply N. rewrite Z. ring.
    + left. rewrite coeff_sub. unfold t. rewrite coeff_pterm. fold a. destruct (mono_dec a a); [ring|congruence].
  - destruct (kdec (coeff (pmul r p) x) k0) as [|N]; [assumption|exfalso]. apply coeff_mul_inv in N as (m & b & -> & Nm & Nb).
    pose proof (Hr m Nm) as L1. pose proof (proj2 Lp b Nb) as L2. apply D.
    assert (E : mmul m d = mmul m b) by (apply (mle_antisym lt LW); [exact L1|apply (mle_mul lt LW); exact L2]). rewrite <- E. apply mdiv_mul_r.
Qed.

Definition bounded (v : nat -> spoly) (x : mono) : Prop := forall k m, k < c -> coeff (v k) m <> k0 -> mvars n m /\ le (mmul m (l k)) x.
(** the entries of v that contribute to the coefficient of x *)
Definition attains (v : nat -> spoly) (x : mono) (k : nat) : bool :=
  if mdiv_dec (l k) x then (if kdec (coeff (v k) (mquo x (l k))) k0 then false else true) else false.
Lemma attains_true v x k : attains v x k = true <-> mdiv (l k) x /\ coeff (v k) (mquo x (l k)) <> k0.
Proof.
  unfold attains. destruct (mdiv_dec (l k) x) as [D|D]; [|split; [discriminate|intros [X _]; contradiction]].
  destruct (kdec (coeff (v k) (mquo x (l k))) k0) as [Z|Z]; split; auto; [discriminate|intros [_ X]; contradiction].
Qed.
Lemma two_attain v x i : bounded v x -> peq (psn c (fun k => pmul (v k) (g k))) pzero -> i < c -> attains v x i = true ->
  exists j, j < c /\ j <> i /\ attains v x j = true.
Proof.
  intros B Z Hi Ai. assert (X : forall N, N <= c -> (exists j, j < N /\ j <> i /\ attains v x j = true) \/ (forall j, j < N -> j <> i -> attains v x j = false)).
  { induction N as [|N IH]; intros HN; [right; intros; lia|]. destruct IH as [(j & Hj & Nj & Aj)|H]; [lia|left; exists j; split; [lia|auto]|].
    destruct (Nat.eq_dec N i) as [->|Ni]; [right; intros j Hj Nj; apply H; lia|]. destruct (attains v x N) eqn:A; [left; exists N; auto|].
    right. intros j Hj Nj. destruct (Nat.eq_dec j N) as [->|]; [exact A|apply H; lia]. }
  destruct (X c (le_n c)) as [|H]; [assumption|exfalso].
  assert (C : coeff (psn c (fun k => pmul (v k) (g k))) x = k0) by (rewrite Z; apply coeff_zero). rewrite coeff_psn in C.
  rewrite (sumn_ext c _ (fun k => if Nat.eqb k i then coeff (pmul (v i) (g i)) x else k0)) in C.
  - assert (S : coeff (pmul (v i) (g i)) x = k0).
    { rewrite <- C. symmetry. clear - Hi. induction c as [|c' IH]; [lia|]. cbn [sumn]. destruct (Nat.eqb_spec c' i) as [->|N].
      - rewrite sumn_zero'; [ring|]. intros k Hk. destruct (Nat.eqb_spec k i); [lia|reflexivity].
      - rewrite IH by lia. ring. }
    apply attains_true in Ai as [D N]. rewrite (top_coeff (g i) (l i) x) in S; [|apply Lg; exact Hi|intros m Nm; apply (B i m Hi Nm)].
    destruct (mdiv_dec (l i) x); [|contradiction]. apply N. pose proof (proj1 (Lg i Hi)) as Ng.
    assert (Y : coeff (v i) (mquo x (l i)) = kmul (kmul (coeff (v i) (mquo x (l i))) (coeff (g i) (l i))) (kinv (coeff (g i) (l i)))) by (field; exact Ng).
    rewrite Y, S. ring.
  - intros k Hk. destruct (Nat.eqb_spec k i) as [->|N]; [reflexivity|]. rewrite (top_coeff (g k) (l k) x); [|apply Lg; exact Hk|intros m Nm; apply (B k m Hk Nm)].
    pose proof (H k Hk N) as A. unfold attains in A. destruct (mdiv_dec (l k) x); [|reflexivity]. destruct (kdec (coeff (v k) (mquo x (l k))) k0) as [->|]; [ring|discriminate].
Qed.
Lemma spanned_ext v v' : (forall k, k < c -> peq (v k) (v' k)) -> spanned v -> spanned v'.
Proof. intros E (us & H & S). exists us. split; [exact H|]. intros k Hk. rewrite <- E by exact Hk. apply S. exact Hk. Qed.
Lemma filter_less {A} (P Q : A -> bool) (L : list A) x : (forall y, In y L -> Q y = true -> P y = true) -> In x L -> P x = true -> Q x = false ->
  length (filter Q L) < length (filter P L).
Proof.
  intros H I Px Qx. assert (Le : forall L', (forall y, In y L' -> Q y = true -> P y = true) -> length (filter Q L') <= length (filter P L')).
  { induction L' as [|y L' IH]; intros H'; cbn; [lia|]. specialize (IH (fun z Iz => H' z (or_intror Iz))). pose proof (H' y (or_introl eq_refl)) as Hy.
    destruct (Q y); [rewrite Hy by reflexivity; cbn; lia|destruct (P y); cbn; lia]. }
  induction L as [|y L IH]; [destruct I|]. cbn [filter]. destruct I as [<-|I].
  - rewrite Px, Qx. cbn. specialize (Le L (fun z Iz => H z (or_intror Iz))). lia.
  - specialize (IH (fun z Iz => H z (or_intror Iz)) I). pose proof (H y (or_introl eq_refl)) as Hy. destruct (Q y); [rewrite Hy by reflexivity; cbn; lia|destruct (P y); cbn; lia].
Qed.

(** one step: subtract the multiple of a relation that removes the top coefficient of entry i *)
Lemma relation_coeff i j k u (s : K) x m : i < j -> j < c -> k < c -> mmul u (mlcm (l i) (l j)) = x -> coeff (pmul (pterm s u) (relation i j k)) m <> k0 ->
  (k = i /\ m = mquo x (l i)) \/ (k = j /\ m = mquo x (l j)) \/ lt (mmul m (l k)) x.
Proof.
  intros Hij Hj Hk Ex N. apply coeff_mul_inv in N as (a & b & -> & Na & Nb). rewrite coeff_pterm in Na. destruct (mono_dec u a) as [<-|]; [|congruence].
  assert (Q : forall d, mdiv d (mlcm (l i) (l j)) -> mmul u (mquo (mlcm (l i) (l j)) d) = mquo x d).
  { intros d D. rewrite <- Ex. apply mono_ext. intros z. specialize (D z). rewrite !mmul_exp, !mquo_exp, mmul_exp. lia. }
  unfold relation in Nb. rewrite !coeff_sub in Nb. destruct (kdec (coeff (q i j k) b) k0) as [Z|Z].
  - rewrite Z in Nb. destruct (Nat.eqb_spec k i) as [->|Ni].
    + left. split; [reflexivity|]. destruct (Nat.eqb_spec i j); [lia|]. rewrite coeff_pterm, coeff_zero in Nb.
      destruct (mono_dec (mquo (mlcm (l i) (l j)) (l i)) b) as [<-|]; [|exfalso; apply Nb; ring]. apply Q. apply mdiv_lcm_l.
    + destruct (Nat.eqb_spec k j) as [->|Nj].
      * right. left. split; [reflexivity|]. rewrite coeff_pterm, coeff_zero in Nb.
        destruct (mono_dec (mquo (mlcm (l i) (l j)) (l j)) b) as [<-|]; [|exfalso; apply Nb; ring]. apply Q. apply mdiv_lcm_r.
      * exfalso. apply Nb. rewrite coeff_zero. ring.
  - right. right. rewrite <- Ex, <- mmul_assoc. apply (lt_mul lt LW). apply (Bq i j k b); assumption.
Qed.
Lemma relation_top i j u (s : K) x : i < j -> j < c -> mmul u (mlcm (l i) (l j)) = x ->
  coeff (pmul (pterm s u) (relation i j i)) (mquo x (l i)) = kmul s (kinv (coeff (g i) (l i))).
Proof.
  intros Hij Hj Ex. rewrite <- tmul_pmul. assert (E : mquo x (l i) = mmul u (mquo (mlcm (l i) (l j)) (l i))).
  { rewrite <- Ex. apply mono_ext. intros z. pose proof (mdiv_lcm_l (l i) (l j) z). rewrite !mmul_exp, !mquo_exp, mmul_exp. lia. }
  rewrite E, coeff_tmul. unfold relation. rewrite !coeff_sub, Nat.eqb_refl. destruct (Nat.eqb_spec i j); [lia|]. rewrite coeff_pterm, coeff_zero.
  destruct (mono_dec (mquo (mlcm (l i) (l j)) (l i)) (mquo (mlcm (l i) (l j)) (l i))); [|congruence].
  assert (Z : coeff (q i j i) (mquo (mlcm (l i) (l j)) (l i)) = k0).
  { destruct (kdec (coeff (q i j i) (mquo (mlcm (l i) (l j)) (l i))) k0) as [|N]; [assumption|exfalso].
    pose proof (Bq i j i _ Hij Hj ltac:(lia) N) as B. rewrite mmul_comm, mmul_quo in B by apply mdiv_lcm_l. exact (lt_irrefl lt LW _ B). }
  rewrite Z. ring.
Qed.

Theorem syzygies_spanned x : mvars n x -> forall v, bounded v x -> peq (psn c (fun k => pmul (v k) (g k))) pzero -> spanned v.
Proof.
  induction (lt_wf lt LW n x) as [x _ IHx]. intros Vx v B Z.
  remember (length (filter (attains v x) (seq 0 c))) as N eqn:EN. revert v B Z EN. induction N as [N IHN] using (well_founded_induction Wf_nat.lt_wf). intros v B Z EN.
  assert (D0 : filter (attains v x) (seq 0 c) = [] \/ exists i, In i (filter (attains v x) (seq 0 c))).
  { destruct (filter (attains v x) (seq 0 c)) as [|i rest]; [left; reflexivity|right; exists i; left; reflexivity]. }
  destruct D0 as [Ef|(i & Ii)].
  - (* everything is below x *)
    set (tops := flat_map (fun k => map (fun m => mmul m (l k)) (support (v k))) (seq 0 c)).
    assert (T : forall y, In y tops <-> exists k m, k < c /\ coeff (v k) m <> k0 /\ y = mmul m (l k)).
    { intros y. unfold tops. rewrite in_flat_map. split.
      - intros (k & Ik & I). apply in_seq in Ik. apply in_map_iff in I as (m & <- & I). apply support_iff in I. exists k, m. split; [lia|auto].
      - intros (k & m & Hk & N' & ->). exists k. split; [apply in_seq; lia|]. apply (in_map (fun m => mmul m (l k))). apply support_iff. exact N'. }
    destruct tops as [|y0 tops'] eqn:Et.
    + exists []. split; [constructor|]. intros k Hk. cbn [map psum]. apply peq_coeff. intros m. rewrite coeff_zero.
      destruct (kdec (coeff (v k) m) k0) as [|Nz]; [assumption|]. exfalso. apply (proj2 (T (mmul m (l k)))). exists k, m. auto.
    + destruct (list_max lt LW (y0 :: tops')) as (y & Iy & Hy); [discriminate|]. apply T in Iy as (k & m & Hk & Nm & Ey).
      destruct (B k m Hk Nm) as [Vm Le]. assert (Vy : mvars n y) by (rewrite Ey; apply mvars_mul; split; [exact Vm|apply Vl; exact Hk]).
      apply (IHx y); [|exact Vy| |exact Z].
      * split; [exact Vy|]. split; [exact Vx|]. rewrite Ey. destruct Le as [E|L]; [exfalso|exact L].
        assert (A : attains v x k = true). { apply attains_true. rewrite <- E. split; [apply mdiv_mul_r|]. rewrite mmul_comm, mquo_mul. exact Nm. }
        assert (I : In k (filter (attains v x) (seq 0 c))) by (apply filter_In; split; [apply in_seq; lia|exact A]). rewrite Ef in I. destruct I.
      * intros k' m' Hk' Nm'. split; [apply (B k' m' Hk' Nm')|]. apply Hy. apply T. exists k', m'. auto.
  - apply filter_In in Ii as [Hi Ai]. apply in_seq in Hi.
    destruct (two_attain v x i B Z ltac:(lia) Ai) as (j & Hj & Nj & Aj).
    assert (Y : exists i j, i < j /\ j < c /\ attains v x i = true /\ attains v x j = true).
    { destruct (Nat.lt_gt_cases i j) as [[L|L] _]; [congruence| |]; [exists i, j|exists j, i]; repeat split; auto; lia. }
    clear i j Hi Ai Hj Nj Aj. destruct Y as (i & j & Hij & Hj & Ai & Aj).
    apply attains_true in Ai as [Di Ni]. pose proof Aj as Aj'. apply attains_true in Aj' as [Dj Njj].
    set (M := mlcm (l i) (l j)). assert (DM : mdiv M x) by (apply mlcm_least; assumption). set (u := mquo x M).
    assert (Eu : mmul u M = x) by (unfold u; rewrite mmul_comm; apply mmul_quo; exact DM).
    set (s := kmul (coeff (v i) (mquo x (l i))) (coeff (g i) (l i))). set (w := fun k => psub (v k) (pmul (pterm s u) (relation i j k))).
    assert (Vi : forall d, mdiv d x -> mvars n (mquo x d)).
    { intros d D. intros z Hz. rewrite mquo_exp. rewrite (Vx z Hz). lia. }
    assert (Bw : bounded w x).
    { intros k m Hk Nm. unfold w in Nm. rewrite coeff_sub in Nm. destruct (kdec (coeff (v k) m) k0) as [Z0|N0]; [|apply B; assumption].
      assert (Nr : coeff (pmul (pterm s u) (relation i j k)) m <> k0) by (intros Q; apply Nm; rewrite Z0, Q; ring).
      assert (Vm : mvars n m).
      { pose proof Nr as Nr'. apply coeff_mul_inv in Nr' as (a & b & -> & Na & Nb). rewrite coeff_pterm in Na. destruct (mono_dec u a) as [<-|]; [|congruence].
        apply mvars_mul; split; [apply Vi; exact DM|]. unfold relation in Nb. rewrite !coeff_sub in Nb.
        assert (VM : forall d, mvars n (mquo M d)).
        { intros d z Hz. rewrite mquo_exp. unfold M. rewrite mlcm_exp. rewrite (Vl i ltac:(lia) z Hz), (Vl j Hj z Hz). lia. }
        destruct (kdec (coeff (q i j k) b) k0) as [Zq|Nq]; [|apply (Vq i j k Hij Hj Hk); exact Nq]. rewrite Zq in Nb.
        destruct (Nat.eqb_spec k i) as [->|]; [|destruct (Nat.eqb_spec k j) as [->|]].
        - destruct (Nat.eqb_spec i j); [lia|]. rewrite coeff_pterm, coeff_zero in Nb. destruct (mono_dec _ b) as [<-|]; [apply VM|exfalso; apply Nb; ring].
        - rewrite coeff_pterm, coeff_zero in Nb. destruct (mono_dec _ b) as [<-|]; [apply VM|exfalso; apply Nb; ring].
        - exfalso. apply Nb. rewrite coeff_zero. ring. }
      split; [exact Vm|]. destruct (relation_coeff i j k u s x m Hij Hj Hk Eu Nr) as [[-> ->]|[[-> ->]|Lx]]; [left|left|right; exact Lx];
        rewrite mmul_comm; apply mmul_quo; assumption. }
    assert (Zw : peq (psn c (fun k => pmul (w k) (g k))) pzero).
    { rewrite (psn_ext c _ (fun k => padd (pmul (v k) (g k)) (pmul (popp (pterm s u)) (pmul (relation i j k) (g k))))) by (intros k Hk; unfold w; ring).
      rewrite psn_add, psn_mul, Z, relation_syzygy by assumption. ring. }
    assert (Less : length (filter (attains w x) (seq 0 c)) < N).
    { rewrite EN. apply filter_less with (x := i).
      - intros k Ik Aw. apply in_seq in Ik. destruct (Nat.eq_dec k i) as [->|Nki].
        + apply attains_true. auto.
        + destruct (Nat.eq_dec k j) as [->|Nkj]; [exact Aj|]. apply attains_true in Aw as [D Nw]. apply attains_true. split; [exact D|]. intros Q. apply Nw.
          unfold w. rewrite coeff_sub, Q. destruct (kdec (coeff (pmul (pterm s u) (relation i j k)) (mquo x (l k))) k0) as [->|Nr]; [ring|exfalso].
          destruct (relation_coeff i j k u s x _ Hij Hj ltac:(lia) Eu Nr) as [[X _]|[[X _]|X]]; [contradiction|contradiction|].
          rewrite mmul_comm, mmul_quo in X by exact D. exact (lt_irrefl lt LW _ X).
      - apply in_seq. lia.
      - apply attains_true. auto.
      - destruct (attains w x i) eqn:Aw; [|reflexivity]. exfalso. apply attains_true in Aw as [_ Nw]. apply Nw. unfold w. rewrite coeff_sub.
        rewrite (relation_top i j u s x Hij Hj Eu). unfold s. field. apply (Lg i ltac:(lia)). }
    destruct (IHN _ Less w Bw Zw eq_refl) as (us & Hus & Ew). exists ((pterm s u, i, j) :: us). split; [constructor; [cbn; lia|exact Hus]|].
    intros k Hk. cbn [map psum fst snd]. rewrite <- Ew by exact Hk. unfold w. ring.
Qed.
Lemma bounded_exists v : (forall k, k < c -> svars n (v k)) -> exists x, mvars n x /\ bounded v x.
Proof.
  intros Vv. set (tops := flat_map (fun k => map (fun m => mmul m (l k)) (support (v k))) (seq 0 c)).
  assert (T : forall y, In y tops <-> exists k m, k < c /\ coeff (v k) m <> k0 /\ y = mmul m (l k)).
  { intros y. unfold tops. rewrite in_flat_map. split.
    - intros (k & Ik & I). apply in_seq in Ik. apply in_map_iff in I as (m & <- & I). apply support_iff in I. exists k, m. split; [lia|auto].
    - intros (k & m & Hk & N' & ->). exists k. split; [apply in_seq; lia|]. apply (in_map (fun m => mmul m (l k))). apply support_iff. exact N'. }
  clearbody tops. destruct tops as [|y0 tops].
  - exists mone. split; [apply mvars_one|]. intros k m Hk Nm. exfalso. apply (proj2 (T (mmul m (l k)))). exists k, m. auto.
  - destruct (list_max lt LW (y0 :: tops)) as (y & Iy & Hy); [discriminate|]. exists y. split.
    + apply T in Iy as (k & m & Hk & Nm & ->). apply mvars_mul. split; [apply (Vv k Hk m Nm)|apply Vl; exact Hk].
    + intros k m Hk Nm. split; [apply (Vv k Hk m Nm)|]. apply Hy. apply T. exists k, m. auto.
Qed.
(** every syzygy is a sum of multiples of the relations *)
Theorem schreyer v : (forall k, k < c -> svars n (v k)) -> peq (psn c (fun k => pmul (v k) (g k))) pzero -> spanned v.
Proof. intros Vv Z. destruct (bounded_exists v Vv) as (x & Vx & B). exact (syzygies_spanned x Vx v B Z). Qed.
Theorem spanned_syzygy v : spanned v -> peq (psn c (fun k => pmul (v k) (g k))) pzero.
Proof.
  intros (us & H & E). rewrite (psn_ext c _ (fun k => pmul (psum (map (fun t => pmul (fst (fst t)) (relation (snd (fst t)) (snd t) k)) us)) (g k))) by (intros k Hk; rewrite E by exact Hk; reflexivity).
  clear E. induction H as [|t us [Hij Hj] H IH]; cbn [map psum].
  - apply psn_zero. intros k Hk. ring.
  - rewrite (psn_ext c _ (fun k => padd (pmul (fst (fst t)) (pmul (relation (snd (fst t)) (snd t) k) (g k)))
      (pmul (psum (map (fun t => pmul (fst (fst t)) (relation (snd (fst t)) (snd t) k)) us)) (g k)))) by (intros k Hk; ring).
    rewrite psn_add, psn_mul, IH, relation_syzygy by assumption. ring.
Qed.
End Basis.
Lemma svars_family c (f : nat -> spoly) : exists n, forall k, k < c -> svars n (f k).
Proof.
  induction c as [|c (n & IH)]; [exists 0; intros; lia|]. destruct (svars_exists (f c)) as (n' & H). exists (Nat.max n n'). intros k Hk.
  destruct (Nat.eq_dec k c) as [->|]; [apply (svars_le n'); [lia|exact H]|apply (svars_le n); [lia|apply IH; lia]].
Qed.
Lemma svars_family2 c (f : nat -> nat -> spoly) : exists n, forall i k, i < c -> k < c -> svars n (f i k).
Proof.
  assert (X : forall d, exists n, forall i k, i < d -> k < c -> svars n (f i k)).
  { induction d as [|d (n & IH)]; [exists 0; intros; lia|]. destruct (svars_family c (f d)) as (n' & H). exists (Nat.max n n'). intros i k Hi Hk.
    destruct (Nat.eq_dec i d) as [->|]; [apply (svars_le n'); [lia|auto]|apply (svars_le n); [lia|apply IH; lia]]. }
  apply X.
Qed.
Lemma svars_family3 c (f : nat -> nat -> nat -> spoly) : exists n, forall i j k, i < c -> j < c -> k < c -> svars n (f i j k).
Proof.
  assert (X : forall d, exists n, forall i j k, i < d -> j < c -> k < c -> svars n (f i j k)).
  { induction d as [|d (n & IH)]; [exists 0; intros; lia|]. destruct (svars_family2 c (f d)) as (n' & H). exists (Nat.max n n'). intros i j k Hi Hj Hk.
    destruct (Nat.eq_dec i d) as [->|]; [apply (svars_le n'); [lia|auto]|apply (svars_le n); [lia|apply IH; lia]]. }
  apply X.
Qed.
Lemma lincomb_psn (qs gs : list spoly) : length qs = length gs -> peq (lincomb qs gs) (psn (length gs) (fun k => pmul (nth k qs pzero) (nth k gs pzero))).
Proof.
  revert qs. induction gs as [|g gs IH]; intros [|q qs] L; try discriminate; cbn [lincomb length]; [reflexivity|].
  rewrite IH by (cbn in L; lia). assert (S : forall c (f : nat -> spoly), peq (psn (S c) f) (padd (f 0) (psn c (fun k => f (S k))))).
  { clear. induction c as [|c IHc]; intros f; [cbn [psn]; ring|]. change (psn (S (S c)) f) with (padd (psn (S c) f) (f (S c))). rewrite IHc. cbn [psn]. ring. }
  rewrite S. reflexivity.
Qed.
End Syz.
