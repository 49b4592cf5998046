(** * The dimension of an ideal, from its leading monomials.

    Pure mathematics; nothing here mentions the code. *)
From Coq Require Import List ZArith Arith Lia Ring Field Setoid Morphisms.
From Verif Require Import LinSpec Base FieldIface MonoSpec PolySpec GroebnerSpec DivSpec IdealSpec SubstSpec StdSpec GradeSpec HilbertSpec.
Import ListNotations.
Local Open Scope nat_scope.

(** ** counting *)
Lemma NoDup_flat {A B} (f : A -> list B) (l : list A) : NoDup l -> (forall x, In x l -> NoDup (f x)) ->
  (forall x y z, In x l -> In y l -> In z (f x) -> In z (f y) -> x = y) -> NoDup (flat_map f l).
Proof.
  intros N H D. induction N as [|x l Nx N IH]; cbn [flat_map]; [constructor|].
  assert (A1 : NoDup (f x)) by (apply H; left; reflexivity). assert (A2 : NoDup (flat_map f l)).
  { apply IH; [intros y I; apply H; right; exact I|]. intros a b z Ia Ib. apply D; right; assumption. }
  revert A1 A2. assert (X : forall z, In z (f x) -> ~ In z (flat_map f l)).
  { intros z Iz J. apply in_flat_map in J as (y & Iy & J). assert (E : x = y) by (apply (D x y z); [left; reflexivity|right; exact Iy|exact Iz|exact J]). subst y. contradiction. }
  revert X. generalize (f x) as u, (flat_map f l) as v. clear. intros u v X Nu Nv. induction Nu as [|a u Na Nu IH]; [exact Nv|]. cbn [app]. constructor.
  - intros I. apply in_app_or in I as [I|I]; [contradiction|]. apply (X a (or_introl eq_refl) I).
  - apply IH. intros z Iz. apply X. right. exact Iz.
Qed.
Lemma mtot_mvar i k : mtot (mvar i k) = k.
Proof.
  unfold mvar, mtot, canon. cbn [mlist]. rewrite list_sum_trim. induction i as [|i IH]; cbn; [lia|exact IH].
Qed.
(** the monomials in the variables U with exponents at most e *)
Fixpoint ubox (e : nat) (U : list nat) : list mono :=
  match U with [] => [mone] | i :: U' => flat_map (fun m => map (fun j => mmul m (mvar i j)) (seq 0 (S e))) (ubox e U') end.
Lemma ubox_length e U : length (ubox e U) = S e ^ length U.
Proof.
  induction U as [|i U IH]; [reflexivity|]. cbn [ubox length Nat.pow]. rewrite <- IH. generalize (ubox e U). intros l. induction l as [|m l IHl]; [cbn; lia|].
  cbn [flat_map length]. rewrite app_length, map_length, seq_length, IHl. lia.
Qed.
Lemma ubox_support e U m : In m (ubox e U) -> (forall i, mexp m i <> 0 -> In i U) /\ mtot m <= length U * e.
Proof.
  revert m. induction U as [|u U IH]; intros m; cbn [ubox length].
  - intros [<-|[]]. split; [intros i N; rewrite mone_exp in N; contradiction|rewrite mtot_one; lia].
  - intros I. apply in_flat_map in I as (m' & I & J). apply in_map_iff in J as (j & <- & J). apply in_seq in J. destruct (IH m' I) as [A B]. split.
    + intros i N. rewrite mmul_exp, mvar_exp in N. destruct (Nat.eqb_spec i u) as [Eu|Eu]; [left; symmetry; exact Eu|right]. apply A. lia.
    + rewrite mtot_mul, mtot_mvar. nia.
Qed.
Lemma ubox_nodup e U : NoDup U -> NoDup (ubox e U).
Proof.
  induction 1 as [|u U Nu N IH]; cbn [ubox]; [constructor; [intros []|constructor]|].
  assert (Z : forall m, In m (ubox e U) -> mexp m u = 0).
  { intros m I. destruct (Nat.eq_dec (mexp m u) 0) as [E|E]; [exact E|]. apply (proj1 (ubox_support e U m I)) in E. contradiction. }
  apply NoDup_flat; [exact IH| |].
  - intros m I. assert (G : forall l, NoDup l -> NoDup (map (fun j => mmul m (mvar u j)) l)).
    { induction 1 as [|a l Na Nl IHl]; cbn [map]; [constructor|]. constructor; [|exact IHl]. intros J. apply in_map_iff in J as (b & E & J).
      assert (X : mexp (mmul m (mvar u b)) u = mexp (mmul m (mvar u a)) u) by (rewrite E; reflexivity). rewrite !mmul_exp, !mvar_exp, Nat.eqb_refl in X.
      assert (a = b) by lia. subst b. contradiction. }
    apply G. apply seq_NoDup.
  - intros x y z Ix Iy Jx Jy. apply in_map_iff in Jx as (a & <- & _). apply in_map_iff in Jy as (b & E & _). apply mono_ext. intros i.
    assert (X : mexp (mmul y (mvar u b)) i = mexp (mmul x (mvar u a)) i) by (rewrite E; reflexivity). rewrite !mmul_exp, !mvar_exp in X.
    destruct (Nat.eqb_spec i u) as [Eu|Eu]; [rewrite Eu, (Z x Ix), (Z y Iy); reflexivity|lia].
Qed.
(** the subsets of 0 .. n-1 *)
Fixpoint subsets (n : nat) : list (list nat) := match n with O => [[]] | S n' => subsets n' ++ map (cons n') (subsets n') end.
Lemma subsets_length n : length (subsets n) = 2 ^ n.
Proof. induction n as [|n IH]; [reflexivity|]. cbn [subsets Nat.pow]. rewrite app_length, map_length, IH. lia. Qed.
Lemma subsets_ok n U : In U (subsets n) -> NoDup U /\ forall i, In i U -> i < n.
Proof.
  revert U. induction n as [|n IH]; intros U; cbn [subsets].
  - intros [<-|[]]. split; [constructor|intros i []].
  - intros I. apply in_app_or in I as [I|I].
    + destruct (IH U I) as [A B]. split; [exact A|]. intros i J. specialize (B i J). lia.
    + apply in_map_iff in I as (U' & <- & I). destruct (IH U' I) as [A B]. split.
      * constructor; [|exact A]. intros J. specialize (B n J). lia.
      * intros i [<-|J]; [lia|]. specialize (B i J). lia.
Qed.
Lemma subsets_of n (P : nat -> bool) : exists U, In U (subsets n) /\ forall i, In i U <-> i < n /\ P i = true.
Proof.
  induction n as [|n (U & I & H)]; [exists []; split; [left; reflexivity|]; intros i; split; [intros []|lia]|].
  cbn [subsets]. destruct (P n) eqn:E.
  - exists (n :: U). split; [apply in_or_app; right; apply in_map; exact I|]. intros i. cbn [In]. rewrite H. split.
    + intros [<-|[A B]]; [split; [lia|exact E]|split; [lia|exact B]].
    + intros [A B]. destruct (Nat.eq_dec n i) as [|N]; [left; assumption|right; split; [lia|exact B]].
  - exists U. split; [apply in_or_app; left; exact I|]. intros i. rewrite H. split.
    + intros [A B]. split; [lia|exact B].
    + intros [A B]. split; [|exact B]. destruct (Nat.eq_dec i n) as [->|]; [congruence|lia].
Qed.
Lemma prodn_le (B : nat -> nat) (U : list nat) D d n : 1 <= D -> (forall i, i < n -> B i <= if in_dec Nat.eq_dec i U then S d else D) ->
  prodn B n <= D ^ n * S d ^ length (filter (fun i => if in_dec Nat.eq_dec i U then true else false) (seq 0 n)).
Proof.
  intros HD. induction n as [|n IH]; intros H; [cbn; lia|]. cbn [prodn Nat.pow]. rewrite seq_S, filter_app, app_length, Nat.pow_add_r. cbn [filter].
  assert (A : prodn B n <= D ^ n * S d ^ length (filter (fun i => if in_dec Nat.eq_dec i U then true else false) (seq 0 n))) by (apply IH; intros; apply H; lia).
  pose proof (H n (Nat.lt_succ_diag_r n)) as Hn. rewrite Nat.add_0_l.
  set (x := D ^ n) in *. set (y := S d ^ length (filter (fun i => if in_dec Nat.eq_dec i U then true else false) (seq 0 n))) in *.
  destruct (in_dec Nat.eq_dec n U) as [I|I]; cbn [length Nat.pow].
  - apply Nat.le_trans with ((x * y) * S d); [apply Nat.mul_le_mono; assumption|]. nia.
  - apply Nat.le_trans with ((x * y) * D); [apply Nat.mul_le_mono; assumption|]. nia.
Qed.
Lemma flat_length {A B} (f : A -> list B) l c : (forall x, In x l -> length (f x) <= c) -> length (flat_map f l) <= length l * c.
Proof.
  induction l as [|x l IH]; intros H; [cbn; lia|]. cbn [flat_map length]. rewrite app_length. pose proof (H x (or_introl eq_refl)).
  assert (length (flat_map f l) <= length l * c) by (apply IH; intros; apply H; right; assumption). lia.
Qed.

(** ** weights *)
Fixpoint wt (w : nat -> nat) (n : nat) (m : mono) : nat := match n with O => 0 | S n' => wt w n' m + w n' * mexp m n' end.
Lemma wt_mul w n a b : wt w n (mmul a b) = wt w n a + wt w n b.
Proof. induction n as [|n IH]; [reflexivity|]. cbn [wt]. rewrite IH, mmul_exp. lia. Qed.
Lemma wt_same w n a b : (forall i, i < n -> mexp a i = mexp b i) -> wt w n a = wt w n b.
Proof. induction n as [|n IH]; intros H; [reflexivity|]. cbn [wt]. rewrite IH, (H n) by (intros; apply H || lia; lia). reflexivity. Qed.
(** the total degree is the weight for the weights 1 *)
Lemma mtot_wt n m : mvars n m -> mtot m = wt (fun _ => 1) n m.
Proof.
  intros V. unfold mtot. assert (X : forall l k, (forall i, k <= i -> nth i l 0 = 0) -> list_sum l = list_sum (map (fun i => nth i l 0) (seq 0 k))).
  { clear. induction l as [|x l IH]; intros k H; [assert (G : forall j, list_sum (map (fun i => nth i (@nil nat) 0) j) = 0) by (induction j as [|[|y] j IHj]; cbn in *; auto); symmetry; apply G|].
    destruct k as [|k].
    - change (x + list_sum l = 0). assert (x = 0) by (apply (H 0); lia). subst x. rewrite (IH 0); [reflexivity|]. intros i _. apply (H (S i)). lia.
    - cbn [seq map]. rewrite <- seq_shift, map_map. change (x + list_sum l = x + list_sum (map (fun i => nth i l 0) (seq 0 k))). f_equal. apply IH. intros i Hi. apply (H (S i)). lia. }
  rewrite (X _ n); [|intros i Hi; apply V; exact Hi]. clear. fold (mexp m). induction n as [|n IH]; [reflexivity|].
  rewrite seq_S, map_app, list_sum_app. cbn [wt map list_sum fold_right]. rewrite IH. unfold mexp, expo. cbn. lia.
Qed.
Lemma wt_mono w w' n m : (forall i, i < n -> w i <= w' i) -> wt w n m <= wt w' n m.
Proof.
  induction n as [|n IH]; intros H; [apply Nat.le_refl|]. cbn [wt]. assert (wt w n m <= wt w' n m) by (apply IH; intros; apply H; lia). apply Nat.add_le_mono; [assumption|]. apply Nat.mul_le_mono_r. apply H. lia.
Qed.
Lemma wt_const c n m : wt (fun _ => c) n m = c * wt (fun _ => 1) n m.
Proof. induction n as [|n IH]; cbn [wt]; [lia|]. rewrite IH. lia. Qed.
Lemma weights_bounded (w : nat -> nat) n : exists W, 1 <= W /\ forall i, i < n -> w i <= W.
Proof.
  induction n as [|n (W & A & H)]; [exists 1; split; [lia|intros; lia]|]. exists (W + w n). split; [lia|]. intros i Hi.
  destruct (Nat.eq_dec i n) as [->|]; [lia|]. specialize (H i ltac:(lia)). lia.
Qed.
(** for the monomials in n variables with exponents at most B, the order is compatible with some positive weights *)
Definition weightable (lt : mono -> mono -> Prop) : Prop := forall n B, exists w : nat -> nat, (forall i, 1 <= w i) /\
  forall a b, mvars n a -> mvars n b -> (forall i, mexp a i <= B) -> (forall i, mexp b i <= B) -> lt a b -> wt w n a <= wt w n b.
Lemma degree_weightable (lt : mono -> mono -> Prop) : (forall a b, lt a b -> mtot a <= mtot b) -> weightable lt.
Proof.
  intros H n B. exists (fun _ => 1). split; [lia|]. intros a b Va Vb _ _ L. apply H in L. rewrite (mtot_wt n a Va), (mtot_wt n b Vb) in L. exact L.
Qed.
Lemma lex_weightable : weightable lex_lt.
Proof.
  intros N B. exists (fun i => S B ^ (N - 1 - i)). split; [intros i; assert (S B ^ (N - 1 - i) <> 0) by (apply Nat.pow_nonzero; lia); lia|].
  intros a b Va Vb Ba Bb (k & Hk & E). destruct (le_lt_dec N k) as [Le|Lt]; [rewrite (Vb k Le) in Hk; lia|].
  assert (X : forall n, k < n -> n <= N -> wt (fun i => S B ^ (N - 1 - i)) n a + S B ^ (N - n) <= wt (fun i => S B ^ (N - 1 - i)) n b); [|specialize (X N Lt (Nat.le_refl N)); lia].
  intros n. induction n as [|n IH]; intros H1 H2; [lia|]. cbn [wt]. replace (N - S n) with (N - 1 - n) by lia. destruct (Nat.eq_dec n k) as [->|Ne].
  - rewrite (wt_same _ k a b E). nia.
  - specialize (IH ltac:(lia) ltac:(lia)). replace (N - n) with (S (N - 1 - n)) in IH by lia. cbn [Nat.pow] in IH. pose proof (Ba n).
    set (x := S B ^ (N - 1 - n)) in *. nia.
Qed.
Lemma revlex_weightable : weightable revlex_lt.
Proof.
  intros N B. exists (fun i => S B ^ i). split; [intros i; assert (S B ^ i <> 0) by (apply Nat.pow_nonzero; lia); lia|].
  intros a b Va Vb Ba Bb (k & Hk & E). destruct (le_lt_dec N k) as [Le|Lt]; [rewrite (Vb k Le) in Hk; lia|].
  assert (Y : forall n, wt (fun i => S B ^ i) n a < S B ^ n).
  { induction n as [|n IH]; [cbn; lia|]. cbn [wt Nat.pow]. pose proof (Ba n). set (x := S B ^ n) in *. nia. }
  assert (X : forall n, k < n -> wt (fun i => S B ^ i) n a <= wt (fun i => S B ^ i) n b); [|apply X; exact Lt].
  induction n as [|n IH]; intros H1; [lia|]. cbn [wt]. destruct (Nat.eq_dec n k) as [->|Ne].
  - pose proof (Y k). set (x := S B ^ k) in *. nia.
  - rewrite (E n) by lia. specialize (IH ltac:(lia)). lia.
Qed.

Section Dim.
Context {K : MathField}.
Add Field Kf51 : (kth K).
Add Ring Pr51 : (@poly_ring K) (setoid (@peq_equiv K) (@poly_ring_ext K)).
Notation spoly := (spoly K).
Implicit Types (p q f g h r : spoly) (m a b l : mono).

(** the ideal contains no nonzero polynomial in the variables U alone *)
Definition independent_vars (U : list nat) (G : list spoly) : Prop :=
  forall f, in_ideal G f -> (forall m i, coeff f m <> k0 -> mexp m i <> 0 -> In i U) -> peq f pzero.
Lemma wsum_terms (L : list mono) (w : nat -> K) : NoDup L -> peq (wsum (length L) w (fun k => pterm k1 (nth k L mone))) pzero -> forall k, k < length L -> w k = k0.
Proof.
  intros ND V k Hk.
  assert (C : forall m, coeff (wsum (length L) w (fun k => pterm k1 (nth k L mone))) m = sumn (length L) (fun j => if mono_dec (nth j L mone) m then w j else k0)).
  { intros m. rewrite coeff_wsum. apply sumn_ext. intros j Hj. rewrite coeff_pterm. destruct (mono_dec (nth j L mone) m); ring. }
  pose proof (C (nth k L mone)) as Ck. rewrite V, coeff_zero in Ck.
  rewrite (sumn_ext _ _ (fun j => if Nat.eqb j k then w j else k0)) in Ck.
  - clear - Ck Hk. rewrite Ck. revert Hk. generalize (length L). intros c. induction c as [|c IH]; intros Hk; [lia|]. cbn [sumn].
    destruct (Nat.eqb_spec c k) as [->|N]; [|rewrite <- IH by lia; ring].
    rewrite sumn_zero'; [ring|]. intros j Hj. destruct (Nat.eqb_spec j k); [lia|reflexivity].
  - intros j Hj. destruct (mono_dec (nth j L mone) (nth k L mone)) as [E|E]; destruct (Nat.eqb_spec j k) as [->|N]; auto; [|congruence].
    exfalso. apply N. apply (proj1 (NoDup_nth L mone) ND); auto.
Qed.
Lemma independent_ubox U G e : NoDup U -> independent_vars U G -> independent_mod G (length (ubox e U)) (fun k => pterm k1 (nth k (ubox e U) mone)).
Proof.
  intros ND Ind w I. apply wsum_terms; [apply ubox_nodup; exact ND|]. apply Ind; [exact I|]. intros m i N Ni.
  assert (X : In m (ubox e U)); [|apply (proj1 (ubox_support e U m X)); exact Ni].
  destruct (in_dec mono_dec m (ubox e U)) as [|X]; [assumption|exfalso]. apply N. rewrite coeff_wsum. apply sumn_zero'. intros j Hj. rewrite coeff_pterm.
  destruct (mono_dec (nth j (ubox e U) mone) m) as [<-|]; [|ring]. exfalso. apply X. apply nth_In. exact Hj.
Qed.

Section Order.
Context (lt : mono -> mono -> Prop) (LW : mono_order_laws lt).
Notation LM := (is_lm lt).
(** every leading monomial of G involves a variable outside U *)
Definition free_vars (U : list nat) (G : list spoly) : Prop := forall g l, In g G -> LM g l -> exists i, mexp l i <> 0 /\ ~ In i U.
Lemma free_independent U G : groebner lt G -> free_vars U G -> independent_vars U G.
Proof.
  intros GB Fr f I HU. destruct (zero_or_lm lt LW f) as [Z|(l & Hl)]; [exact Z|exfalso].
  destruct (GB f l I Hl) as (g & l' & Ig & Lg & D). destruct (Fr g l' Ig Lg) as (i & Ni & NU). apply NU. apply (HU l i (proj1 Hl)). specialize (D i). lia.
Qed.
Lemma support_dec U l : (exists i, mexp l i <> 0 /\ ~ In i U) \/ (forall i, mexp l i <> 0 -> In i U).
Proof.
  assert (X : forall c, (exists i, mexp l i <> 0 /\ ~ In i U) \/ (forall i, i < c -> mexp l i <> 0 -> In i U)).
  { induction c as [|c [H|H]]; [right; intros; lia|left; exact H|]. destruct (Nat.eq_dec (mexp l c) 0) as [Z|N].
    - right. intros i Hi Ni. apply H; [|exact Ni]. destruct (Nat.eq_dec i c) as [->|]; [contradiction|lia].
    - destruct (in_dec Nat.eq_dec c U) as [I|I]; [|left; exists c; auto]. right. intros i Hi Ni. destruct (Nat.eq_dec i c) as [->|]; [exact I|apply H; [lia|exact Ni]]. }
  destruct (X (length (mlist l))) as [H|H]; [left; exact H|right]. intros i Ni. apply H; [|exact Ni].
  destruct (le_lt_dec (length (mlist l)) i) as [Le|Lt]; [|exact Lt]. exfalso. apply Ni. apply expo_over. exact Le.
Qed.
Lemma free_dec U G : free_vars U G \/ ~ free_vars U G.
Proof.
  induction G as [|g G [H|H]]; [left; intros g l []| |right; intros X; apply H; intros g' l I; apply X; right; exact I].
  destruct (zero_or_lm lt LW g) as [Z|(l & Hl)].
  - left. intros g' l [<-|I] A; [exfalso; exact (lm_nonzero lt _ _ A Z)|apply (H g' l I A)].
  - destruct (support_dec U l) as [E|E].
    + left. intros g' l' [<-|I] A; [rewrite (is_lm_unique lt LW g l' l A Hl); exact E|apply (H g' l' I A)].
    + right. intros X. destruct (X g l (or_introl eq_refl) Hl) as (i & Ni & NU). apply NU, E, Ni.
Qed.
Lemma lm_bound (G : list spoly) : exists D, 1 <= D /\ forall g l i, In g G -> LM g l -> mexp l i <= D.
Proof.
  induction G as [|g G (D & H1 & H)]; [exists 1; split; [lia|intros g l i []]|]. destruct (zero_or_lm lt LW g) as [Z|(l & Hl)].
  - exists D. split; [exact H1|]. intros g' l i [<-|I] A; [exfalso; exact (lm_nonzero lt _ _ A Z)|apply (H g' l i I A)].
  - exists (D + mtot l). split; [lia|]. intros g' l' i [<-|I] A.
    + rewrite (is_lm_unique lt LW g l' l A Hl). pose proof (mexp_le_tot l i). lia.
    + specialize (H g' l' i I A). lia.
Qed.
(** few standard monomials, if no large set of variables is free of leading monomials *)
Lemma std_upper n (G : list spoly) k : (forall U, In U (subsets n) -> free_vars U G -> length U <= k) ->
  exists c, forall d L, NoDup L -> (forall m, In m L -> std lt n G m /\ mtot m <= d) -> length L <= c * S d ^ k.
Proof.
  intros HU. destruct (lm_bound G) as (D & D1 & HD). exists (2 ^ n * D ^ n). intros d L ND HL.
  set (BU := fun (U : list nat) i => if in_dec Nat.eq_dec i U then S d else D).
  set (Us := filter (fun U : list nat => length U <=? k) (subsets n)).
  assert (Inc : incl L (flat_map (fun U => box (BU U) n) Us)).
  { intros m I. destruct (HL m I) as [[V S0] Hd]. destruct (subsets_of n (fun i => D <=? mexp m i)) as (U & IU & EU).
    assert (Fr : free_vars U G).
    { intros g l Ig Lg. destruct (support_dec U l) as [E|E]; [exact E|exfalso]. apply (S0 g l Ig Lg). intros i.
      destruct (Nat.eq_dec (mexp l i) 0) as [Z|N]; [lia|]. apply E in N. apply EU in N as [_ N]. apply Nat.leb_le in N. specialize (HD g l i Ig Lg). lia. }
    apply in_flat_map. exists U. split; [apply filter_In; split; [exact IU|]; apply Nat.leb_le; apply HU; assumption|].
    apply box_spec; [exact V|]. intros i Hi. unfold BU. pose proof (mexp_le_tot m i). destruct (in_dec Nat.eq_dec i U) as [J|J]; [lia|].
    destruct (le_lt_dec D (mexp m i)) as [Le|]; [|assumption]. exfalso. apply J. apply EU. split; [exact Hi|]. apply Nat.leb_le. exact Le. }
  apply Nat.le_trans with (length (flat_map (fun U => box (BU U) n) Us)); [apply NoDup_incl_length; assumption|].
  apply Nat.le_trans with (length Us * (D ^ n * S d ^ k)).
  - apply flat_length. intros U I. apply filter_In in I as [I Hk]. apply Nat.leb_le in Hk. rewrite box_length.
    eapply Nat.le_trans; [apply (prodn_le (BU U) U D d n D1); intros i Hi; unfold BU; destruct (in_dec Nat.eq_dec i U); lia|].
    apply Nat.mul_le_mono_l. apply Nat.pow_le_mono_r; [lia|]. apply Nat.le_trans with (length U); [|exact Hk].
    apply NoDup_incl_length; [apply NoDup_filter; apply seq_NoDup|]. intros i J. apply filter_In in J as [_ J]. destruct (in_dec Nat.eq_dec i U); [assumption|discriminate].
  - assert (X : length Us <= 2 ^ n).
    { rewrite <- subsets_length. unfold Us. generalize (subsets n). intros l. induction l as [|x l IH]; [cbn; lia|]. cbn [filter]. destruct (length x <=? k); cbn [length]; lia. }
    rewrite <- Nat.mul_assoc. apply Nat.mul_le_mono_r. exact X.
Qed.
(** reduction does not increase the weight, if it does not in the generators *)
Lemma stays_weight w n G d : (forall g, In g G -> svars n g) -> (forall g l m, In g G -> LM g l -> coeff g m <> k0 -> wt w n m <= wt w n l) ->
  stays lt (fun m => wt w n m <= d) n G.
Proof.
  intros VG HW.
  assert (X : forall m, mvars n m -> forall p, svars n p -> (forall x, coeff p x <> k0 -> wt w n x <= d) -> LM p m ->
    exists r, in_ideal G (psub p r) /\ forall m, coeff r m <> k0 -> std lt n G m /\ wt w n m <= d).
  { intros m. induction (lt_wf lt LW n m) as [m _ IH]. intros Vm p Vp Wp Hm.
    assert (Step : forall q, svars n q -> (forall x, coeff q x <> k0 -> wt w n x <= d) -> (forall x, coeff q x <> k0 -> lt x m) ->
      exists r, in_ideal G (psub q r) /\ forall m, coeff r m <> k0 -> std lt n G m /\ wt w n m <= d).
    { intros q Vq Wq Hq. destruct (zero_or_lm lt LW q) as [Z|(m' & Hm')].
      - exists pzero. split; [|intros x N; exfalso; apply N; reflexivity]. assert (E : peq (psub q pzero) pzero) by (rewrite Z; ring). rewrite E. apply in_ideal_zero.
      - assert (Vm' : mvars n m') by (apply (is_lm_vars lt n q); auto). apply (IH m'); auto. split; [exact Vm'|]. split; [exact Vm|]. apply Hq. apply Hm'. }
    destruct (cover_dec lt LW G m) as [(g & l & Ig & Lg & D)|N].
    - apply mdiv_iff in D as (a & Ea). rewrite mmul_comm in Ea. set (t := tmul (kdiv (coeff p m) (coeff g l)) a g).
      assert (Va : mvars n a) by (rewrite Ea in Vm; apply mvars_mul in Vm; apply Vm).
      destruct (Step (psub p t)) as (r & Ir & Hr).
      + apply svars_sub; [exact Vp|]. apply svars_tmul; auto.
      + intros x Nx. rewrite coeff_sub in Nx. destruct (kdec (coeff p x) k0) as [Z|Np]; [|apply Wp; exact Np].
        assert (Nt : coeff t x <> k0) by (intros Z'; apply Nx; rewrite Z, Z'; ring). apply coeff_tmul_inv in Nt as (_ & b & -> & Nb).
        pose proof (HW g l b Ig Lg Nb) as Q1. pose proof (Wp m (proj1 Hm)) as Q2. rewrite Ea, wt_mul in Q2. rewrite wt_mul. lia.
      + apply (reduce_lm lt LW p g l a m); auto.
      + exists r. split; [|exact Hr]. assert (E : peq (psub p r) (padd (psub (psub p t) r) t)) by ring. rewrite E.
        apply in_ideal_add; [exact Ir|]. apply in_ideal_tmul. apply in_ideal_gen. exact Ig.
    - set (t := pterm (coeff p m) m). destruct (Step (psub p t)) as (r & Ir & Hr).
      + apply svars_sub; [exact Vp|]. apply svars_pterm. exact Vm.
      + intros x Nx. rewrite coeff_sub in Nx. unfold t in Nx. rewrite coeff_pterm in Nx. destruct (mono_dec m x) as [<-|Y]; [exfalso; apply Nx; ring|].
        apply Wp. intros Z. apply Nx. rewrite Z. ring.
      + intros x Nx. rewrite coeff_sub in Nx. unfold t in Nx. rewrite coeff_pterm in Nx. destruct (mono_dec m x) as [<-|Y]; [exfalso; apply Nx; ring|].
        assert (Nx' : coeff p x <> k0) by (intros Z; apply Nx; rewrite Z; ring). destruct (proj2 Hm x Nx') as [->|]; [contradiction|assumption].
      + exists (padd r t). split; [assert (E : peq (psub p (padd r t)) (psub (psub p t) r)) by ring; rewrite E; exact Ir|].
        intros x Nx. rewrite coeff_add in Nx. unfold t in Nx. rewrite coeff_pterm in Nx. destruct (mono_dec m x) as [<-|Y]; [split; [split; assumption|apply Wp; apply Hm]|].
        apply Hr. intros Z. apply Nx. rewrite Z. ring. }
  intros p Vp Wp. destruct (zero_or_lm lt LW p) as [Z|(m & Hm)].
  - exists pzero. split; [|intros x N; exfalso; apply N; reflexivity]. assert (E : peq (psub p pzero) pzero) by (rewrite Z; ring). rewrite E. apply in_ideal_zero.
  - apply (X m); auto. apply (is_lm_vars lt n p); auto.
Qed.
Lemma exponents_bounded (G : list spoly) : exists B, forall g m i, In g G -> coeff g m <> k0 -> mexp m i <= B.
Proof.
  induction G as [|g G (B & H)]; [exists 0; intros g m i []|].
  assert (Y : forall L : list mono, exists C, forall m i, In m L -> mexp m i <= C).
  { induction L as [|x L (C & HC)]; [exists 0; intros m i []|]. exists (C + mtot x). intros m i [<-|I]; [pose proof (mexp_le_tot x i); lia|]. specialize (HC m i I). lia. }
  destruct (Y (map snd g)) as (C & HC). exists (B + C). intros g' m i [<-|I] N; [apply coeff_in in N; specialize (HC m i N); lia|specialize (H g' m i I N); lia].
Qed.
(** the largest number of independent variables can be read off the leading monomials *)
Theorem dim_theorem n (G : list spoly) U : groebner lt G -> weightable lt -> (forall g, In g G -> svars n g) ->
  (forall d, exists L, NoDup L /\ forall m, In m L <-> std lt n G m /\ mtot m <= d) ->
  NoDup U -> (forall i, In i U -> i < n) -> independent_vars U G ->
  exists U', NoDup U' /\ (forall i, In i U' -> i < n) /\ length U <= length U' /\ free_vars U' G.
Proof.
  intros GB Wa VG Ex ND Un Ind.
  assert (Dec : (exists U', In U' (subsets n) /\ free_vars U' G /\ length U <= length U') \/ (forall U', In U' (subsets n) -> free_vars U' G -> length U' < length U)).
  { induction (subsets n) as [|x l IH]; [right; intros U' []|]. destruct IH as [(U' & I & A & B)|IH]; [left; exists U'; split; [right; exact I|auto]|].
    destruct (le_lt_dec (length U) (length x)) as [Le|Lt].
    - destruct (free_dec x G) as [Fr|Fr]; [left; exists x; split; [left; reflexivity|auto]|]. right. intros U' [<-|I] A; [contradiction|apply IH; assumption].
    - right. intros U' [<-|I] A; [exact Lt|apply IH; assumption]. }
  destruct Dec as [(U' & I & A & B)|H].
  { destruct (subsets_ok n U' I) as [N1 N2]. exists U'. auto. }
  exfalso. set (k := length U) in *.
  destruct k as [|k'] eqn:Ek.
  { (* the empty set is free unless G has a constant *)
    assert (Fe : free_vars [] G).
    { intros g l Ig Lg. destruct (support_dec [] l) as [E|E]; [exact E|exfalso]. assert (l = mone) by (apply mono_ext; intros i; rewrite mone_exp; destruct (Nat.eq_dec (mexp l i) 0) as [Z|N]; [exact Z|destruct (E i N)]). subst l.
      assert (Z : peq g pzero).
      { apply Ind; [apply in_ideal_gen; exact Ig|]. intros m i Nm Ni. exfalso. apply Ni. destruct (proj2 Lg m Nm) as [->|Lt]; [apply mone_exp|].
        destruct (mono_dec m mone) as [->|Nm1]; [apply mone_exp|]. pose proof (lt_one lt LW m Nm1) as Lt'. exfalso. exact (lt_irrefl lt LW _ (lt_trans lt LW _ _ _ Lt Lt')). }
      exact (lm_nonzero lt _ _ Lg Z). }
    destruct (subsets_of n (fun _ => false)) as (U' & IU & EU). assert (E0 : U' = []) by (destruct U' as [|i U']; [reflexivity|destruct (proj1 (EU i) (or_introl eq_refl)) as [_ X]; discriminate X]).
    subst U'. specialize (H [] IU Fe). lia. }
  destruct (std_upper n G k') as (c & Hc); [intros U' I A; specialize (H U' I A); lia|].
  destruct (exponents_bounded G) as (B & HB). destruct (Wa n B) as (w & Hw & Cw). destruct (weights_bounded w n) as (W & HW & BW).
  assert (St : forall d, stays lt (fun m => wt w n m <= d) n G).
  { intros d. apply stays_weight; [exact VG|]. intros g l m Ig Lg Nm. destruct (proj2 Lg m Nm) as [->|Lt]; [lia|].
    apply Cw; [apply (VG g Ig); exact Nm|apply (VG g Ig); apply Lg|intros i; apply (HB g m i Ig Nm)|intros i; apply (HB g l i Ig (proj1 Lg))|exact Lt]. }
  set (e := c * (W * S k') ^ k'). set (D := W * (S k' * e)).
  destruct (Ex D) as (L & NL & HL).
  assert (Low : S e ^ S k' <= length L).
  { unfold k in Ek. rewrite <- Ek, <- ubox_length. apply (independent_le lt (fun m => wt w n m <= D) n G _ (fun j => pterm k1 (nth j (ubox e U) mone)) L (St _)).
    - intros j Hj. assert (I : In (nth j (ubox e U) mone) (ubox e U)) by (apply nth_In; exact Hj). destruct (ubox_support e U _ I) as [A C].
      assert (V : mvars n (nth j (ubox e U) mone)).
      { intros i Hi. destruct (Nat.eq_dec (mexp (nth j (ubox e U) mone) i) 0) as [Z|N]; [exact Z|]. apply A in N. specialize (Un i N). lia. }
      split; [apply svars_pterm; exact V|].
      intros m. rewrite coeff_pterm. destruct (mono_dec (nth j (ubox e U) mone) m) as [<-|]; [|intros X; contradiction X; reflexivity]. intros _.
      eapply Nat.le_trans; [apply (wt_mono w (fun _ => W)); exact BW|]. rewrite wt_const, <- (mtot_wt n _ V). unfold D. apply Nat.mul_le_mono_l. rewrite <- Ek. exact C.
    - apply independent_ubox; assumption.
    - intros m A C. apply HL. split; [exact A|]. destruct A as [V _]. rewrite (mtot_wt n m V). eapply Nat.le_trans; [apply (wt_mono _ w); intros; apply Hw|exact C]. }
  assert (Up : length L <= c * S D ^ k') by (apply Hc; [exact NL|]; intros m I; apply HL; exact I).
  assert (X : S D ^ k' <= ((W * S k') * S e) ^ k') by (apply Nat.pow_le_mono_l; unfold D; nia).
  rewrite Nat.pow_mul_l in X. cbn [Nat.pow] in Low.
  assert (Y : c * S D ^ k' <= e * S e ^ k').
  { unfold e at 1. rewrite <- Nat.mul_assoc. apply Nat.mul_le_mono_l. exact X. }
  assert (Z : 1 <= S e ^ k') by (apply Nat.neq_0_lt_0; apply Nat.pow_nonzero; lia). nia.
Qed.
End Order.
End Dim.
