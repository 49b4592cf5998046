(** * Interpolation: matrices of the values of monomials at points.

    Column j of the matrix holds the values of a monomial, row i those at a point. *)
From Verif Require Import Base BaseLemmas FieldIface MonoSpec LinSpec RrefSpec LinFacts Farkas MonoSpec PolySpec GroebnerSpec OrdProofs IdealSpec SubstSpec DivSpec StdSpec PropSolve.
From Coq Require Import Lia Ring Field Field_theory Setoid.
Local Open Scope nat_scope.

Section Interp.
Context {K : MathField}.
Add Field Kf82 : (kth K).
Notation spoly := (spoly K).
Notation vec := (nat -> K).

(** ** linear algebra *)
Lemma sumn_one n k (f : nat -> K) : k < n -> (forall i, i < n -> i <> k -> f i = k0) -> sumn n f = f k.
Proof. intros H Z. apply sumn_delta; assumption. Qed.
Lemma columns_lcomb m (A : nat -> nat -> K) c i : lcomb (map (mcol A) (seq 0 m)) c i = mvec m A c i.
Proof.
  unfold lcomb, mvec. rewrite map_length, seq_length. apply sumn_ext. intros k Hk.
  rewrite (nth_indep _ vzero (mcol A 0)) by (rewrite map_length, seq_length; exact Hk). rewrite (map_nth (mcol A)), seq_nth by exact Hk. unfold mcol. cbn [Nat.add]. ring.
Qed.
Definition onto (n m : nat) (A : nat -> nat -> K) : Prop := forall b, exists w, solves n m A w b.
Lemma onto_span n m A : onto n m A <-> forall b, in_colspace n m A b.
Proof.
  split; intros H b; destruct (H b) as (w & E); exists w; intros i Hi; [rewrite columns_lcomb; symmetry; apply E; exact Hi|].
  rewrite <- (columns_lcomb m A w i). symmetry. apply E. exact Hi.
Qed.
Lemma unit_basis n : @is_basis K n (fun _ => True) (map (fun k i => if i =? k then k1 else k0) (seq 0 n)).
Proof.
  assert (E : forall (c : vec) i, i < n -> lcomb (map (fun k i => if i =? k then k1 else k0) (seq 0 n)) c i = c i).
  { intros c i Hi. unfold lcomb. rewrite map_length, seq_length. rewrite (sumn_one n i); [|exact Hi|].
    - rewrite (nth_indep _ vzero (fun i => if i =? 0 then k1 else k0)) by (rewrite map_length, seq_length; exact Hi). rewrite (map_nth (fun k i => if i =? k then k1 else k0)), seq_nth by exact Hi. cbn [Nat.add]. rewrite Nat.eqb_refl. ring.
    - intros k Hk N. rewrite (nth_indep _ vzero (fun i => if i =? 0 then k1 else k0)) by (rewrite map_length, seq_length; exact Hk). rewrite (map_nth (fun k i => if i =? k then k1 else k0)), seq_nth by exact Hk. cbn [Nat.add].
      destruct (Nat.eqb_spec i k); [lia|]. ring. }
  split; [|split].
  - intros c H k Hk. rewrite map_length, seq_length in Hk. rewrite <- (E c k Hk). apply H. exact Hk.
  - apply Forall_forall. intros; exact I.
  - intros w _. exists w. intros i Hi. symmetry. apply E. exact Hi.
Qed.
(** the map is onto exactly if its rank is the number of rows *)
Lemma onto_rank n m A r : dimension n (in_colspace n m A) r -> (r = n <-> onto n m A).
Proof.
  intros ((vs & B & L) & D). rewrite onto_span. split.
  - intros -> b. destruct B as (I & S & _). destruct (many_indep_span n vs b I ltac:(lia)) as (c & E).
    assert (X : exists ws, length ws = length vs /\ forall k, k < length vs -> forall i, i < n -> nth k vs vzero i = mvec m A (nth k ws vzero) i).
    { clear - S. induction S as [|v vs (w & E) S (ws & L & H)]; [exists []; split; [reflexivity|intros k Hk; cbn in Hk; lia]|]. exists (w :: ws). split; [cbn; lia|].
      intros [|k] Hk i Hi; cbn [nth]; [rewrite (E i Hi); apply columns_lcomb|]. apply H; [cbn in Hk; lia|exact Hi]. }
    destruct X as (ws & Lw & H). exists (lcomb ws c). intros i Hi. rewrite (columns_lcomb m A _ i), (E i Hi). unfold lcomb, mvec. rewrite Lw.
    rewrite (sumn_ext m _ (fun l => sumn (length vs) (fun k => kmul (c k) (kmul (A i l) (nth k ws vzero l))))) by (intros l Hl; rewrite <- sumn_mul_l; apply sumn_ext; intros k Hk; ring).
    rewrite sumn_swap. apply sumn_ext. intros k Hk. rewrite (H k Hk i Hi). unfold mvec. rewrite <- sumn_mul_l. reflexivity.
  - intros H. pose proof (D (map (fun k i => if i =? k then k1 else k0) (seq 0 n))) as X. rewrite map_length, seq_length in X. symmetry. apply X.
    destruct (unit_basis n) as (I & _ & S). split; [exact I|]. split; [apply Forall_forall; intros v _; apply H|intros w _; apply S; exact Logic.I].
Qed.

(** ** values of monomials *)
Context (X : nat -> nat -> K) (ms : list mono).
Notation m := (length ms).
Definition values (i j : nat) : K := mval (X i) (nth j ms mone).
(** the polynomial with the given coefficients *)
Definition with_coefs (w : vec) : spoly := wsum m w (fun j => pterm k1 (nth j ms mone)).
Definition coefs (p : spoly) (j : nat) : K := coeff p (nth j ms mone).
Definition within (p : spoly) : Prop := forall x, coeff p x <> k0 -> In x ms.
Lemma peval_wsum x c w (P : nat -> spoly) : peval x (wsum c w P) = sumn c (fun k => kmul (w k) (peval x (P k))).
Proof. induction c as [|c IH]; cbn [wsum sumn]; [reflexivity|]. unfold peval, padd in *. rewrite ev_app, IH. unfold pscale. rewrite ev_tmul. do 2 f_equal. apply ev_ext. intros b. f_equal. apply mono_ext. intros i. rewrite mmul_exp, mone_exp. reflexivity. Qed.
Lemma peval_monomial x a : peval x (pterm (k1 : K) a) = mval x a.
Proof. unfold peval, pterm, ev. cbn [fold_right fst snd]. ring. Qed.
Lemma values_row i w : peval (X i) (with_coefs w) = mvec m values w i.
Proof. unfold with_coefs. rewrite peval_wsum. unfold mvec. apply sumn_ext. intros k Hk. rewrite peval_monomial. unfold values. ring. Qed.
Lemma coeff_with w x : coeff (with_coefs w) x = sumn m (fun j => if mono_dec (nth j ms mone) x then w j else k0).
Proof. unfold with_coefs. rewrite coeff_wsum. apply sumn_ext. intros j Hj. rewrite coeff_pterm. destruct (mono_dec (nth j ms mone) x); ring. Qed.
Lemma coefs_with w k : NoDup ms -> k < m -> coefs (with_coefs w) k = w k.
Proof.
  intros ND Hk. unfold coefs. rewrite coeff_with. rewrite (sumn_one m k); [destruct (mono_dec (nth k ms mone) (nth k ms mone)); congruence|exact Hk|].
  intros j Hj N. destruct (mono_dec (nth j ms mone) (nth k ms mone)) as [E|]; [|reflexivity]. exfalso. apply N. apply (proj1 (NoDup_nth ms mone) ND); assumption.
Qed.
Lemma with_within w : within (with_coefs w).
Proof.
  intros x N. destruct (in_dec mono_dec x ms) as [|Q]; [assumption|exfalso]. apply N. rewrite coeff_with. apply sumn_zero'. intros j Hj.
  destruct (mono_dec (nth j ms mone) x) as [<-|]; [|reflexivity]. exfalso. apply Q. apply nth_In. exact Hj.
Qed.
Lemma within_with p : NoDup ms -> within p -> peq p (with_coefs (coefs p)).
Proof.
  intros ND H. apply peq_coeff. intros x. destruct (in_dec mono_dec x ms) as [I|Q].
  - apply (In_nth _ _ mone) in I as (k & Hk & <-). fold (coefs (with_coefs (coefs p)) k). rewrite coefs_with by assumption. reflexivity.
  - assert (Z : forall q, within q -> coeff q x = k0) by (intros q Hq; destruct (kdec (coeff q x) k0) as [|N]; [assumption|exfalso; apply Q; apply Hq; exact N]).
    rewrite (Z p H), (Z _ (with_within _)). reflexivity.
Qed.
Lemma values_of p i : NoDup ms -> within p -> peval (X i) p = mvec m values (coefs p) i.
Proof. intros ND H. rewrite <- values_row. unfold peval. rewrite <- (within_with p ND H (mval (X i))). reflexivity. Qed.

(** common zeros of an ideal: the standard monomials have independent values *)
Theorem separate (lt : mono -> mono -> Prop) (LW : mono_order_laws lt) n G c : NoDup ms ->
  (forall g, In g G -> svars n g) -> (forall x, std lt n G x -> In x ms) ->
  (forall k g, k < c -> In g G -> peval (X k) g = k0) ->
  (forall j k, j < c -> k < c -> j <> k -> exists i, i < n /\ X j i <> X k i) -> onto c m values.
Proof.
  intros ND VG HL HZ HD b.
  assert (Q : forall c', c' <= c -> exists p, svars n p /\ (forall k, k < c' -> peval (X k) p = b k) /\ forall k, c' <= k -> k < c -> peval (X k) p = k0).
  { induction c' as [|c' IH]; intros Hc; [exists pzero; split; [intros x N; rewrite coeff_zero in N; congruence|]; split; [intros; lia|reflexivity]|].
    destruct IH as (p & Vp & Ep & Zp); [lia|]. destruct (interpolate n X c' c) as (q & Vq & Nq & Zq); [intros j Hj N; apply HD; (assumption || lia)|].
    assert (S : forall k, peval (X k) (padd p (pscale (kdiv (b c') (peval (X c') q)) q)) = kadd (peval (X k) p) (kmul (kdiv (b c') (peval (X c') q)) (peval (X k) q))).
    { intros k. pose proof (peval_wsum (X k) 2 (fun i => if i =? 0 then k1 else kdiv (b c') (peval (X c') q)) (fun i => if i =? 0 then p else q)) as Y. cbn [wsum sumn Nat.eqb] in Y.
      transitivity (peval (X k) (padd (padd pzero (pscale k1 p)) (pscale (kdiv (b c') (peval (X c') q)) q))); [|rewrite Y; ring].
      unfold peval, padd. rewrite !ev_app. unfold pscale at 2. rewrite ev_tmul. cbn [ev fold_right pzero]. rewrite (ev_ext p (fun b0 => mval (X k) (mmul mone b0)) (mval (X k))); [ring|].
      intros a. f_equal. apply mono_ext. intros i. rewrite mmul_exp, mone_exp. reflexivity. }
    exists (padd p (pscale (kdiv (b c') (peval (X c') q)) q)). split; [|split].
    - intros x N. rewrite coeff_add, coeff_scale in N. destruct (kdec (coeff p x) k0) as [Z|Z]; [|apply Vp; exact Z]. apply Vq. intros Z'. apply N. rewrite Z, Z'. ring.
    - intros k Hk. rewrite S. destruct (Nat.eq_dec k c') as [->|N]; [rewrite (Zp c') by lia; field; exact Nq|]. rewrite (Ep k), (Zq k) by lia. ring.
    - intros k Hk Hk'. rewrite S, (Zp k), (Zq k) by lia. ring. }
  destruct (Q c (le_n c)) as (p & Vp & Ep & _). destruct (normal_form lt LW n G VG p Vp) as (r & Ir & Hr). exists (coefs r). intros i Hi.
  rewrite <- values_of; [|exact ND|intros x N; apply HL, Hr; exact N]. rewrite <- (Ep i Hi).
  pose proof (peval_ideal (X i) G _ (fun g I => HZ i g Hi I) Ir) as Z. rewrite peval_sub in Z.
  transitivity (ksub (peval (X i) p) (ksub (peval (X i) p) (peval (X i) r))); [ring|]. rewrite Z. ring.
Qed.
End Interp.

(** ** one variable: Vandermonde matrices *)
Section One.
Context {K : MathField}.
Add Field Kf83 : (kth K).
Context (X : nat -> nat -> K) (c : nat).
Context (HD : forall j k, j < c -> k < c -> j <> k -> X j 0 <> X k 0).
Definition powers (d : nat) : list mono := map (mvar 0) (seq 0 d).
Lemma powers_length d : length (powers d) = d.
Proof. unfold powers. rewrite map_length. apply seq_length. Qed.
Lemma powers_nth d k : k < d -> nth k (powers d) mone = mvar 0 k.
Proof. intros H. unfold powers. rewrite (nth_indep _ mone (mvar 0 0)) by (rewrite map_length, seq_length; exact H). rewrite (map_nth (mvar 0)), seq_nth by exact H. reflexivity. Qed.
Lemma powers_nodup d : NoDup (powers d).
Proof.
  apply (NoDup_nth (powers d) mone). rewrite powers_length. intros i j Hi Hj E. rewrite !powers_nth in E by assumption.
  pose proof (f_equal (fun x => mexp x 0) E) as Y. cbv beta in Y. rewrite !mvar_exp in Y. exact Y.
Qed.
(** at least as many points as powers: only the zero polynomial vanishes at all of them *)
Lemma uni_kernel d w : d <= c -> in_kernel c d (values X (powers d)) w -> forall j, j < d -> w j = k0.
Proof.
  intros Hd Hw j Hj. destruct (kdec (w j) k0) as [|N]; [assumption|exfalso]. set (p := with_coefs (powers d) w).
  assert (Np : ~ peq p pzero).
  { intros E. apply N. rewrite <- (coefs_with (powers d) w j (powers_nodup d)) by (rewrite powers_length; exact Hj). unfold coefs. fold p. rewrite E. apply coeff_zero. }
  destruct (lm_exists lex_lt lex_laws p Np) as (l & Ll).
  assert (Il : In l (powers d)) by (apply (with_within (powers d) w); apply Ll). unfold powers in Il. apply in_map_iff in Il as (e & <- & Ie). apply in_seq in Ie.
  assert (B : c <= length (box (fun _ => e) 1)).
  { apply (zeros_bound lex_lt lex_laws 1 [p] _ X c).
    - intros g [<-|[]] x Nx. apply (with_within (powers d) w) in Nx. unfold powers in Nx. apply in_map_iff in Nx as (k & <- & _). apply mvar_vars. lia.
    - intros x Sx. apply box_spec; [apply Sx|]. intros i Hi. replace i with 0 by lia. apply (std_exp lex_lt 1 [p] 0 p e x (or_introl eq_refl) Ll Sx).
    - intros k g Hk [<-|[]]. unfold p. rewrite values_row, powers_length. apply Hw. exact Hk.
    - intros i k Hi Hk Ni. exists 0. split; [lia|]. apply HD; assumption. }
  rewrite box_length in B. cbn in B. lia.
Qed.
(** at most as many points as powers: all values are taken *)
Lemma uni_onto d : c <= d -> onto c d (values X (powers d)).
Proof.
  intros Hd b. set (A := values X (powers c)).
  assert (I : lin_indep c (map (mcol A) (seq 0 c))).
  { intros w H k Hk. rewrite map_length, seq_length in Hk. apply (uni_kernel c w (le_n c)); [|exact Hk]. intros i Hi. pose proof (H i Hi) as Y. rewrite columns_lcomb in Y. exact Y. }
  destruct (many_indep_span c _ b I) as (w & E); [rewrite map_length, seq_length; apply le_n|].
  exists (fun j => if j <? c then w j else k0). intros i Hi. rewrite (E i Hi), (columns_lcomb c A w i). unfold mvec.
  replace d with (c + (d - c)) by lia. generalize (d - c) as e. intros e. clear E I.
  assert (G : forall e d', c + e <= d' -> sumn (c + e) (fun l => kmul (values X (powers d') i l) (if l <? c then w l else k0)) = sumn c (fun l => kmul (A i l) (w l))).
  { clear e. induction e as [|e IH]; intros d' L.
    - rewrite Nat.add_0_r. apply sumn_ext. intros l Hl. rewrite (proj2 (Nat.ltb_lt _ _) Hl). unfold A, values. rewrite !powers_nth by lia. reflexivity.
    - rewrite Nat.add_succ_r. cbn [sumn]. rewrite IH by lia. rewrite (proj2 (Nat.ltb_ge _ _)) by lia. ring. }
  apply G. lia.
Qed.
End One.
