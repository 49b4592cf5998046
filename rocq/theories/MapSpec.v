(** * Substituting polynomials for the variables.

    The ring homomorphism that sends the i-th variable to a given polynomial, its kernel as the ideal of its graph;
    nothing here mentions the model. *)
From Coq Require Import List Arith Lia Ring Field Setoid Morphisms.
From Verif Require Import Base FieldIface MonoSpec PolySpec GroebnerSpec IdealSpec SubstSpec.
Import ListNotations.
Local Open Scope nat_scope.

Section MapSpec.
Context {K : MathField}.
Add Field Kf39 : (kth K).
Add Ring Pr39 : (@poly_ring K) (setoid (@peq_equiv K) (@poly_ring_ext K)).
Notation spoly := (spoly K).
Implicit Types p q f g h : spoly.
Implicit Types s z : nat -> spoly.

(** the image of a monomial, up to the n-th variable *)
Fixpoint mmap_up s (m : mono) (n : nat) : spoly :=
  match n with O => pone | S n' => pmul (mmap_up s m n') (ppow (s n') (mexp m n')) end.
Definition mmap s (m : mono) : spoly := mmap_up s m (length (mlist m)).
(** p(s_0, s_1, ...) *)
Definition psubst s p : spoly := flat_map (fun t => pscale (fst t) (mmap s (snd t))) p.

Lemma ev_pscale (c : K) p phi : ev (pscale c p) phi = kmul c (ev p phi).
Proof. unfold pscale. rewrite ev_tmul. f_equal. apply ev_ext. intros m. rewrite mmul_1_l. reflexivity. Qed.
Lemma ev_psubst s p phi : ev (psubst s p) phi = ev p (fun m => ev (mmap s m) phi).
Proof.
  unfold psubst. induction p as [|[c m] p IH]; [reflexivity|]. cbn [flat_map fst snd]. rewrite ev_app, ev_pscale, IH. reflexivity.
Qed.
Global Instance psubst_proper s : Proper (peq ==> peq) (psubst s).
Proof. intros p q E phi. rewrite !ev_psubst. apply E. Qed.
Lemma psubst_add s p q : peq (psubst s (padd p q)) (padd (psubst s p) (psubst s q)).
Proof. intros phi. unfold padd. rewrite ev_psubst, !ev_app, !ev_psubst. reflexivity. Qed.
Lemma psubst_opp s p : peq (psubst s (popp p)) (popp (psubst s p)).
Proof. intros phi. rewrite ev_psubst, !ev_popp, !ev_psubst. reflexivity. Qed.
Lemma psubst_sub s p q : peq (psubst s (psub p q)) (psub (psubst s p) (psubst s q)).
Proof. unfold psub. rewrite psubst_add, psubst_opp. reflexivity. Qed.

Global Instance ppow_proper : Proper (peq ==> eq ==> peq) (@ppow K).
Proof. intros p q E n ? <-. induction n as [|n IH]; cbn [ppow]; [reflexivity|]. rewrite IH. clear IH. generalize (ppow q n). intros r. rewrite E. reflexivity. Qed.
Lemma ppow_add p a b : peq (ppow p (a + b)) (pmul (ppow p a) (ppow p b)).
Proof. induction a as [|a IH]; cbn [ppow Nat.add]; [ring|]. rewrite IH. ring. Qed.

Lemma mmap_up_ge s m n : mvars n m -> forall k, n <= k -> peq (mmap_up s m k) (mmap_up s m n).
Proof.
  intros V k L. induction L as [|k L IH]; [reflexivity|]. cbn [mmap_up]. rewrite V by exact L. cbn [ppow]. rewrite IH. ring.
Qed.
Lemma mmap_up_eq s m n : mvars n m -> peq (mmap s m) (mmap_up s m n).
Proof. intros V. apply mvars_iff in V. symmetry. apply mmap_up_ge; [apply mvars_length|exact V]. Qed.
Lemma mmap_one s : peq (mmap s mone) pone.
Proof. rewrite (mmap_up_eq s mone 0) by apply mvars_one. reflexivity. Qed.
Lemma mmap_mul s a b : peq (mmap s (mmul a b)) (pmul (mmap s a) (mmap s b)).
Proof.
  set (n := Nat.max (length (mlist a)) (length (mlist b))).
  assert (Va : mvars n a) by (apply mvars_iff; lia). assert (Vb : mvars n b) by (apply mvars_iff; lia).
  rewrite (mmap_up_eq s (mmul a b) n) by (apply mvars_mul; auto). rewrite (mmap_up_eq s a n Va), (mmap_up_eq s b n Vb).
  clear. induction n as [|n IH]; cbn [mmap_up]; [ring|]. rewrite IH, mmul_exp, ppow_add. ring.
Qed.
Lemma psubst_mul s p q : peq (psubst s (pmul p q)) (pmul (psubst s p) (psubst s q)).
Proof.
  intros phi. rewrite ev_psubst, !ev_pmul, ev_psubst. apply ev_ext. intros a.
  transitivity (ev (mmap s a) (fun x => ev q (fun b => ev (mmap s b) (fun y => phi (mmul x y))))).
  - rewrite ev_exchange. apply ev_ext. intros b. rewrite (mmap_mul s a b phi), ev_pmul. reflexivity.
  - apply ev_ext. intros x. rewrite ev_psubst. reflexivity.
Qed.
Lemma psubst_pterm s (c : K) m : peq (psubst s (pterm c m)) (pscale c (mmap s m)).
Proof. intros phi. rewrite ev_psubst, ev_pscale. unfold pterm. cbn. ring. Qed.
Lemma psubst_one s : peq (psubst s pone) pone.
Proof. change (@pone K) with (@pterm K k1 mone) at 1. rewrite psubst_pterm, mmap_one. unfold pscale. apply tmul_one. Qed.
Lemma psubst_pow s p n : peq (psubst s (ppow p n)) (ppow (psubst s p) n).
Proof. induction n as [|n IH]; cbn [ppow]; [apply psubst_one|]. rewrite psubst_mul, IH. reflexivity. Qed.
Lemma psubst_scale s (c : K) p : peq (psubst s (pscale c p)) (pscale c (psubst s p)).
Proof.
  unfold pscale. rewrite !tmul_pmul, psubst_mul, psubst_pterm, mmap_one. unfold pscale. rewrite tmul_pmul. ring.
Qed.
Lemma psubst_zero s p : peq p pzero -> peq (psubst s p) pzero.
Proof. intros E. rewrite E. reflexivity. Qed.

Lemma mmap_up_ext s z m n : (forall i, i < n -> mexp m i <> 0 -> peq (s i) (z i)) -> peq (mmap_up s m n) (mmap_up z m n).
Proof.
  induction n as [|n IH]; intros H; cbn [mmap_up]; [reflexivity|]. rewrite IH by (intros i Hi; apply H; lia).
  destruct (mexp m n) as [|e] eqn:E; cbn [ppow]; [reflexivity|]. rewrite (H n) by lia. reflexivity.
Qed.
(** only the variables that occur matter *)
Lemma psubst_ext s z p : (forall m i, coeff p m <> k0 -> mexp m i <> 0 -> peq (s i) (z i)) -> peq (psubst s p) (psubst z p).
Proof.
  intros H. destruct (pnorm p) as (p' & E & N). rewrite <- E. intros phi. rewrite !ev_psubst. apply ev_ext_in.
  intros m I. apply in_map_iff in I as ([c m'] & <- & I). simpl. apply N in I as [C Z].
  apply mmap_up_ext. intros i _ M. apply (H m'); congruence.
Qed.

(** the variables themselves *)
Lemma pow_pvar i e : peq (ppow (pvar i) e) (@pterm K k1 (mvar i e)).
Proof.
  induction e as [|e IH]; cbn [ppow].
  - replace (mvar i 0) with mone; [reflexivity|]. apply mono_ext. intros n. rewrite mone_exp, mvar_exp. destruct (Nat.eqb n i); reflexivity.
  - rewrite IH. unfold pvar. rewrite pterm_mul. replace (mmul (mvar i 1) (mvar i e)) with (mvar i (S e)).
    + intros phi. unfold pterm. cbn. ring.
    + apply mono_ext. intros n. rewrite mmul_exp, !mvar_exp. destruct (Nat.eqb n i); lia.
Qed.
Lemma mmap_var i s : peq (mmap s (mvar i 1)) (s i).
Proof.
  assert (V : mvars (S i) (mvar i 1)) by (intros j Hj; rewrite mvar_exp; destruct (Nat.eqb_spec j i); lia).
  rewrite (mmap_up_eq s _ _ V). cbn [mmap_up]. rewrite mvar_exp, Nat.eqb_refl. cbn [ppow].
  assert (X : forall n, n <= i -> peq (mmap_up s (mvar i 1) n) pone).
  { induction n as [|n IH]; intros L; cbn [mmap_up]; [reflexivity|]. rewrite IH by lia. rewrite mvar_exp.
    destruct (Nat.eqb_spec n i); [lia|]. cbn [ppow]. ring. }
  rewrite X by lia. ring.
Qed.
Lemma psubst_var s i : peq (psubst s (pvar i)) (s i).
Proof. unfold pvar. rewrite psubst_pterm, mmap_var. unfold pscale. apply tmul_one. Qed.
Lemma nth_firstn_0 (l : list nat) : forall n j, nth j (firstn n l) 0 = if j <? n then nth j l 0 else 0.
Proof.
  induction l as [|x l IH]; intros [|n] [|j]; try reflexivity; cbn [firstn nth].
  - destruct (S j <? S n); reflexivity.
  - rewrite IH. reflexivity.
Qed.
Lemma mmap_up_pvar m n : peq (mmap_up (fun i => pvar i) m n) (@pterm K k1 (canon (firstn n (mlist m)))).
Proof.
  induction n as [|n IH]; cbn [mmap_up]; [reflexivity|]. rewrite IH, pow_pvar, pterm_mul.
  replace (MonoSpec.mmul (canon (firstn n (mlist m))) (mvar n (mexp m n))) with (canon (firstn (S n) (mlist m))).
  - intros phi. unfold pterm. cbn. ring.
  - apply mono_ext. intros j. rewrite mmul_exp, !canon_exp, mvar_exp. unfold mexp, expo. rewrite !nth_firstn_0.
    destruct (Nat.ltb_spec j n), (Nat.ltb_spec j (S n)), (Nat.eqb_spec j n); subst; lia.
Qed.
Lemma mmap_pvar m : peq (mmap (fun i => pvar i) m) (@pterm K k1 m).
Proof. unfold mmap. rewrite mmap_up_pvar, firstn_all, canon_mlist. reflexivity. Qed.
Lemma psubst_id p : peq (psubst (fun i => pvar i) p) p.
Proof.
  intros phi. rewrite ev_psubst. apply ev_ext. intros m. rewrite (mmap_pvar m phi). unfold pterm. cbn. ring.
Qed.
Lemma psubst_fix s p : (forall m i, coeff p m <> k0 -> mexp m i <> 0 -> peq (s i) (pvar i)) -> peq (psubst s p) p.
Proof. intros H. rewrite (psubst_ext s (fun i => pvar i) p H). apply psubst_id. Qed.

(** composition *)
Lemma psubst_mmap s z m : peq (psubst s (mmap z m)) (mmap (fun i => psubst s (z i)) m).
Proof.
  unfold mmap. induction (length (mlist m)) as [|n IH]; cbn [mmap_up]; [apply psubst_one|].
  rewrite psubst_mul, IH, psubst_pow. reflexivity.
Qed.
Lemma psubst_comp s z p : peq (psubst s (psubst z p)) (psubst (fun i => psubst s (z i)) p).
Proof.
  intros phi. rewrite ev_psubst, !ev_psubst. apply ev_ext. intros m. rewrite <- (psubst_mmap s z m phi), ev_psubst. reflexivity.
Qed.

(** evaluation *)
Lemma peval_pow (x : nat -> K) p n : peval x (ppow p n) = kpow (peval x p) n.
Proof.
  induction n as [|n IH]; cbn [ppow kpow].
  - unfold peval. apply ev_hom_one. apply mval_multiplicative.
  - rewrite peval_mul, IH. ring.
Qed.
Lemma peval_psubst (x : nat -> K) s p : peval x (psubst s p) = peval (fun i => peval x (s i)) p.
Proof.
  unfold peval at 1. rewrite ev_psubst. unfold peval at 1. apply ev_ext. intros m. fold (peval x (mmap s m)).
  unfold mmap, mval. induction (length (mlist m)) as [|n IH]; cbn [mmap_up mval_up].
  - unfold peval. apply ev_hom_one. apply mval_multiplicative.
  - rewrite peval_mul, IH, peval_pow. reflexivity.
Qed.

(** which monomials occur in the image *)
Section Over.
Context (S : mono -> Prop) (S1 : S mone) (SM : forall a b, S a -> S b -> S (mmul a b)).
Lemma over_pow p n : over S p -> over S (ppow p n).
Proof. intros H. induction n as [|n IH]; cbn [ppow]; [apply (over_pterm S k1 mone S1)|apply (over_mul S SM); assumption]. Qed.
Lemma over_psubst s p : (forall m i, coeff p m <> k0 -> mexp m i <> 0 -> over S (s i)) -> over S (psubst s p).
Proof.
  intros H. destruct (pnorm p) as (p' & E & N). apply (over_eq S (psubst s p')); [rewrite E; reflexivity|].
  assert (N' : forall c m, In (c, m) p' -> coeff p m <> k0).
  { intros c m I. apply N in I as [C Z]. congruence. }
  clear N E. induction p' as [|[c m] p' IH]; [apply over_zero|].
  change (psubst s ((c, m) :: p')) with (padd (pscale c (mmap s m)) (psubst s p')).
  apply over_add; [|apply IH; intros; eapply N'; right; eassumption].
  apply (over_tmul S SM); [exact S1|]. assert (C : coeff p m <> k0) by (eapply N'; left; reflexivity). clear IH N'.
  unfold mmap. induction (length (mlist m)) as [|n IH]; cbn [mmap_up]; [apply (over_pterm S k1 mone S1)|].
  apply (over_mul S SM); [exact IH|]. destruct (mexp m n) as [|e] eqn:Em; [apply (over_pterm S k1 mone S1)|].
  apply over_pow. apply (H m n C). lia.
Qed.
End Over.

(** ** The kernel is generated by the differences x_i - s_i *)
Lemma cong_mul (G : list spoly) a a' b b' : in_ideal G (psub a a') -> in_ideal G (psub b b') -> in_ideal G (psub (pmul a b) (pmul a' b')).
Proof.
  intros A B. assert (E : peq (psub (pmul a b) (pmul a' b')) (padd (pmul a (psub b b')) (pmul b' (psub a a')))) by ring.
  rewrite E. apply in_ideal_add; apply in_ideal_mul; assumption.
Qed.
Lemma cong_refl (G : list spoly) a : in_ideal G (psub a a).
Proof. assert (E : peq (psub a a) pzero) by ring. rewrite E. apply in_ideal_zero. Qed.
Lemma cong_pow (G : list spoly) a a' n : in_ideal G (psub a a') -> in_ideal G (psub (ppow a n) (ppow a' n)).
Proof. intros A. induction n as [|n IH]; cbn [ppow]; [apply cong_refl|]. apply cong_mul; assumption. Qed.
Lemma cong_psubst (G : list spoly) s z p : (forall i, in_ideal G (psub (z i) (s i))) -> in_ideal G (psub (psubst z p) (psubst s p)).
Proof.
  intros H. induction p as [|[c m] p IH]; [apply cong_refl|].
  change (psubst z ((c, m) :: p)) with (padd (pscale c (mmap z m)) (psubst z p)).
  change (psubst s ((c, m) :: p)) with (padd (pscale c (mmap s m)) (psubst s p)).
  assert (M : in_ideal G (psub (mmap z m) (mmap s m))).
  { unfold mmap. induction (length (mlist m)) as [|n IHn]; cbn [mmap_up]; [apply cong_refl|]. apply cong_mul; [exact IHn|]. apply cong_pow. apply H. }
  assert (E : peq (psub (padd (pscale c (mmap z m)) (psubst z p)) (padd (pscale c (mmap s m)) (psubst s p)))
                  (padd (pmul (pterm c mone) (psub (mmap z m) (mmap s m))) (psub (psubst z p) (psubst s p)))).
  { unfold pscale. rewrite !tmul_pmul. ring. }
  rewrite E. apply in_ideal_add; [apply in_ideal_mul; exact M|exact IH].
Qed.
Lemma psubst_ideal s (G : list spoly) p : (forall g, In g G -> peq (psubst s g) pzero) -> in_ideal G p -> peq (psubst s p) pzero.
Proof.
  intros H (qs & L & E). rewrite E. clear E p. revert qs L. induction G as [|g G IH]; intros [|q qs] L; try discriminate; [reflexivity|].
  cbn [lincomb]. rewrite psubst_add, psubst_mul, (H g) by (left; reflexivity). injection L as L.
  rewrite (IH (fun g I => H g (or_intror I)) qs L). ring.
Qed.
Theorem kernel s (G : list spoly) p : (forall g, In g G -> peq (psubst s g) pzero) -> (forall i, in_ideal G (psub (pvar i) (s i))) ->
  (in_ideal G p <-> peq (psubst s p) pzero).
Proof.
  intros H1 H2. split; [apply psubst_ideal; exact H1|]. intros Z.
  assert (E : peq p (psub (psubst (fun i => pvar i) p) (psubst s p))) by (rewrite psubst_id, Z; ring).
  rewrite E. apply cong_psubst. exact H2.
Qed.

(** the variables from [b] on are sent to the polynomials in the list, the others to themselves *)
Definition block (b : nat) (fs : list spoly) : nat -> spoly :=
  fun i => if (b <=? i) && (i <? b + length fs) then nth (i - b) fs pzero else pvar i.
Fixpoint graphs (b : nat) (fs : list spoly) : list spoly :=
  match fs with [] => [] | f :: fs' => psub (pvar b) f :: graphs (S b) fs' end.
Lemma in_graphs fs : forall b g, In g (graphs b fs) <-> exists j, j < length fs /\ g = psub (pvar (b + j)) (nth j fs pzero).
Proof.
  induction fs as [|f fs IH]; intros b g; cbn [graphs length]; [split; [intros []|intros (j & L & _); lia]|]. split.
  - intros [<-|I]; [exists 0; split; [lia|]; rewrite Nat.add_0_r; reflexivity|]. apply IH in I as (j & L & ->). exists (S j).
    split; [lia|]. cbn [nth]. replace (b + S j) with (S b + j) by lia. reflexivity.
  - intros ([|j] & L & ->); [left; rewrite Nat.add_0_r; reflexivity|]. right. apply IH. exists j. split; [lia|]. cbn [nth]. replace (b + S j) with (S b + j) by lia. reflexivity.
Qed.
(** none of the variables of the block occurs *)
Definition avoids (b k : nat) p : Prop := forall m i, coeff p m <> k0 -> b <= i -> i < b + k -> mexp m i = 0.
Lemma block_fix b (fs : list spoly) p : avoids b (length fs) p -> peq (psubst (block b fs) p) p.
Proof.
  intros A. apply psubst_fix. intros m i C E. unfold block.
  destruct (Nat.leb_spec b i), (Nat.ltb_spec i (b + length fs)); cbn [andb]; try reflexivity. exfalso. apply E. apply (A m i C); assumption.
Qed.
Theorem graph_kernel b (fs : list spoly) p : Forall (avoids b (length fs)) fs ->
  (in_ideal (graphs b fs) p <-> peq (psubst (block b fs) p) pzero).
Proof.
  intros A. apply kernel.
  - intros g I. apply in_graphs in I as (j & L & ->). rewrite psubst_sub, psubst_var.
    rewrite (block_fix b fs (nth j fs pzero)) by (rewrite Forall_forall in A; apply A; apply nth_In; exact L).
    unfold block. destruct (Nat.leb_spec b (b + j)); [|lia]. destruct (Nat.ltb_spec (b + j) (b + length fs)); [|lia]. cbn [andb].
    replace (b + j - b) with j by lia. ring.
  - intros i. unfold block. destruct (Nat.leb_spec b i) as [X|X], (Nat.ltb_spec i (b + length fs)) as [Y|Y]; cbn [andb]; try apply cong_refl.
    apply in_ideal_gen. apply in_graphs. exists (i - b). split; [lia|]. replace (b + (i - b)) with i by lia. reflexivity.
Qed.
End MapSpec.
