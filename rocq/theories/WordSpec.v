(** * Specification: commutative monoids given by generators and relations, and ideals of differences of monomials. *)
From Verif Require Import Base FieldIface MonoSpec PolySpec.
From Coq Require Import Lia Ring Field Setoid Morphisms RelationClasses.
Local Open Scope nat_scope.

(** the smallest congruence of the monoid of monomials that contains the relations *)
Inductive congr (R : list (mono * mono)) : mono -> mono -> Prop :=
| cg_rel a b : In (a, b) R -> congr R a b
| cg_refl a : congr R a a
| cg_sym a b : congr R a b -> congr R b a
| cg_trans a b c : congr R a b -> congr R b c -> congr R a c
| cg_mul w a b : congr R a b -> congr R (mmul w a) (mmul w b).

(** a commutative monoid, with its own equality *)
Record cmonoid : Type := mkcm {
  car :> Type; ceq : car -> car -> Prop; cop : car -> car -> car; cun : car;
  ceq_equiv : Equivalence ceq;
  cop_proper : forall a b c d, ceq a b -> ceq c d -> ceq (cop a c) (cop b d);
  cop_comm : forall a b, ceq (cop a b) (cop b a);
  cop_assoc : forall a b c, ceq (cop a (cop b c)) (cop (cop a b) c);
  cun_l : forall a, ceq (cop cun a) a }.
Fixpoint cpow {M : cmonoid} (x : M) (k : nat) : M := match k with 0 => cun M | S j => cop M x (cpow x j) end.
(** the value h_i^d_0 * h_(i+1)^d_1 * ... of the exponents d *)
Fixpoint mvalue {M : cmonoid} (h : nat -> M) (i : nat) (d : list nat) : M :=
  match d with [] => cun M | k :: d' => cop M (cpow (h i) k) (mvalue h (S i) d') end.

Section Values.
Context (M : cmonoid) (h : nat -> M).
Local Instance ceqE : Equivalence (ceq M) := ceq_equiv M.
Local Instance copP : Proper (ceq M ==> ceq M ==> ceq M) (cop M).
Proof. intros a b E c d E'. apply cop_proper; assumption. Qed.
Notation "x == y" := (ceq M x y) (at level 70).
Notation "x * y" := (cop M x y).

Lemma cun_r a : a * cun M == a.
Proof. rewrite cop_comm. apply cun_l. Qed.
Lemma cop_swap a b c d : (a * b) * (c * d) == (a * c) * (b * d).
Proof. rewrite !cop_assoc. apply cop_proper; [|reflexivity]. rewrite <- !cop_assoc. apply cop_proper; [reflexivity|apply cop_comm]. Qed.
Lemma cpow_add x j : forall k, cpow x (j + k) == cpow (M:=M) x j * cpow x k.
Proof. induction j as [|j IH]; intros k; cbn [Nat.add cpow]; [symmetry; apply cun_l|]. rewrite IH. apply cop_assoc. Qed.
Lemma mvalue_nil i l : ltrim l = [] -> mvalue h i l == cun M.
Proof.
  revert i. induction l as [|x l IH]; intros i E; [reflexivity|]. cbn [ltrim] in E. cbn [mvalue].
  destruct (ltrim l) eqn:L; [|discriminate]. destruct x; [|discriminate]. cbn [cpow]. rewrite (IH (S i) eq_refl). apply cun_l.
Qed.
Lemma mvalue_trim l : forall i, mvalue h i (ltrim l) == mvalue h i l.
Proof.
  induction l as [|x l IH]; intros i; [reflexivity|]. cbn [ltrim]. destruct (ltrim l) as [|y t] eqn:L.
  - destruct x as [|x]; cbn [mvalue cpow].
    + rewrite (mvalue_nil (S i) l L). symmetry. apply cun_l.
    + rewrite (mvalue_nil (S i) l L). reflexivity.
  - cbn [mvalue]. rewrite <- (IH (S i)). reflexivity.
Qed.
Lemma mvalue_zip a : forall b i, mvalue h i (lzip Nat.add a b) == mvalue h i a * mvalue h i b.
Proof.
  assert (Z : forall b i, mvalue h i (map (fun y => 0 + y) b) == mvalue h i b).
  { induction b as [|y b IH]; intros i; [reflexivity|]. cbn [map mvalue]. rewrite IH. reflexivity. }
  induction a as [|x a IH]; intros b i.
  - cbn [lzip mvalue]. first [rewrite Z | idtac]. symmetry. apply cun_l.
  - destruct b as [|y b]; cbn [lzip mvalue]; rewrite ?Nat.add_0_r.
    + rewrite cun_r. apply cop_proper; [reflexivity|]. rewrite IH. cbn [mvalue]. apply cun_r.
    + rewrite IH, cpow_add. apply cop_swap.
Qed.
Lemma mvalue_mul a b : mvalue h 0 (mlist (mmul a b)) == mvalue h 0 (mlist a) * mvalue h 0 (mlist b).
Proof. unfold mmul, canon. cbn [mlist]. rewrite mvalue_trim. apply mvalue_zip. Qed.
End Values.

(** [u] and [v] are equal in every commutative monoid with elements that satisfy the relations *)
Definition equal_in_models (R : list (mono * mono)) (u v : mono) : Prop :=
  forall (M : cmonoid) (h : nat -> M), (forall a b, In (a, b) R -> ceq M (mvalue h 0 (mlist a)) (mvalue h 0 (mlist b))) ->
    ceq M (mvalue h 0 (mlist u)) (mvalue h 0 (mlist v)).

(** monomials up to the congruence *)
Definition free_model (R : list (mono * mono)) : cmonoid.
Proof.
  refine (mkcm mono (congr R) mmul mone _ _ _ _ _).
  - split; [intros a; apply cg_refl|intros a b; apply cg_sym|intros a b c; apply cg_trans].
  - intros a b c d E E'. apply cg_trans with (mmul a d); [apply cg_mul; exact E'|]. rewrite (mmul_comm a d), (mmul_comm b d). apply cg_mul. exact E.
  - intros a b. rewrite mmul_comm. apply cg_refl.
  - intros a b c. rewrite mmul_assoc. apply cg_refl.
  - intros a. rewrite mmul_1_l. apply cg_refl.
Defined.
Lemma free_value R d : forall i j, mexp (mvalue (M := free_model R) (fun i => mvar i 1) i d : mono) j = if j <? i then 0 else expo d (j - i).
Proof.
  assert (P : forall i k j, mexp (cpow (M := free_model R) (mvar i 1 : free_model R) k : mono) j = if j =? i then k else 0).
  { intros i k j. assert (V : mexp (mvar i 1) j = if j =? i then 1 else 0).
    { unfold mvar. rewrite canon_exp. unfold expo. destruct (Nat.eqb_spec j i) as [->|N].
      - rewrite app_nth2 by (rewrite repeat_length; lia). rewrite repeat_length, Nat.sub_diag. reflexivity.
      - destruct (Nat.lt_ge_cases j i).
        + rewrite app_nth1 by (rewrite repeat_length; lia). apply nth_repeat.
        + rewrite app_nth2 by (rewrite repeat_length; lia). rewrite repeat_length. destruct (j - i) as [|q] eqn:Q; [lia|]. destruct q; reflexivity. }
    induction k as [|k IH]; cbn [cpow].
    - change (mexp mone j = if j =? i then 0 else 0). rewrite mone_exp. destruct (j =? i); reflexivity.
    - change (mexp (mmul (mvar i 1) (cpow (M := free_model R) (mvar i 1 : free_model R) k)) j = if j =? i then S k else 0).
      rewrite mmul_exp, V, IH. destruct (j =? i); reflexivity. }
  induction d as [|k d IH]; intros i j; cbn [mvalue].
  - change (mexp mone j = if j <? i then 0 else expo [] (j - i)). rewrite mone_exp, expo_nil. destruct (j <? i); reflexivity.
  - change (mexp (mmul (cpow (M := free_model R) (mvar i 1 : free_model R) k) (mvalue (M := free_model R) (fun i => mvar i 1) (S i) d)) j = if j <? i then 0 else expo (k :: d) (j - i)).
    rewrite mmul_exp, P, IH. destruct (Nat.eqb_spec j i) as [->|N].
    + destruct (Nat.ltb_spec i (S i)); [|lia]. destruct (Nat.ltb_spec i i); [lia|]. rewrite Nat.sub_diag. cbn. lia.
    + destruct (Nat.ltb_spec j (S i)), (Nat.ltb_spec j i); try lia. replace (j - i) with (S (j - S i)) by lia. rewrite expo_cons_S. reflexivity.
Qed.
Lemma congr_models R u v : congr R u v <-> equal_in_models R u v.
Proof.
  split.
  - intros C M h H. induction C as [a b I|a|a b C IH|a b c C IH C' IH'|w a b C IH].
    + apply H. exact I.
    + apply (@Equivalence_Reflexive _ _ (ceq_equiv M)).
    + apply (@Equivalence_Symmetric _ _ (ceq_equiv M)). exact IH.
    + eapply (@Equivalence_Transitive _ _ (ceq_equiv M)); eassumption.
    + eapply (@Equivalence_Transitive _ _ (ceq_equiv M)); [apply mvalue_mul|]. eapply (@Equivalence_Transitive _ _ (ceq_equiv M)); [|apply (@Equivalence_Symmetric _ _ (ceq_equiv M)); apply mvalue_mul].
      apply cop_proper; [apply (@Equivalence_Reflexive _ _ (ceq_equiv M))|exact IH].
  - intros H. assert (V : forall m : mono, (mvalue (M := free_model R) (fun i => mvar i 1) 0 (mlist m) : mono) = m).
    { intros m. apply mono_ext. intros j. rewrite free_value. cbn [Nat.ltb]. rewrite Nat.sub_0_r. reflexivity. }
    specialize (H (free_model R) (fun i => mvar i 1)). rewrite !V in H. apply H. intros a b I. rewrite !V. apply cg_rel. exact I.
Qed.

(** ** The ideal of the differences *)
Section Ideal.
Context {K : MathField}.
Add Field Kf71 : (kth K).
Add Ring Pr71 : (@poly_ring K) (setoid (@peq_equiv K) (@poly_ring_ext K)).
Notation spoly := (spoly K).
Definition pdiff (a b : mono) : spoly := psub (pterm k1 a) (pterm k1 b).

Lemma ev_pdiff a b phi : ev (pdiff a b) phi = ksub (phi a) (phi b).
Proof. unfold pdiff, psub, padd. rewrite ev_app, ev_popp. unfold pterm, ev. cbn. ring. Qed.

(** a finite set of edges between monomials: connectedness can be decided *)
Fixpoint conn (E : list (mono * mono)) (u v : mono) : Prop :=
  match E with
  | [] => u = v
  | (s, t) :: E' => conn E' u v \/ (conn E' u s /\ conn E' t v) \/ (conn E' u t /\ conn E' s v)
  end.
Lemma conn_dec E : forall u v, {conn E u v} + {~ conn E u v}.
Proof.
  induction E as [|[s t] E IH]; intros u v; cbn [conn]; [apply mono_dec|].
  destruct (IH u v); [left; tauto|]. destruct (IH u s), (IH t v), (IH u t), (IH s v); tauto.
Qed.
Lemma conn_refl E : forall u, conn E u u.
Proof. induction E as [|[s t] E IH]; intros u; cbn [conn]; [reflexivity|left; apply IH]. Qed.
Lemma conn_sym E : forall u v, conn E u v -> conn E v u.
Proof. induction E as [|[s t] E IH]; intros u v; cbn [conn]; [congruence|]. intros [H|[[H H']|[H H']]]; auto 6. Qed.
Lemma conn_trans E : forall u v w, conn E u v -> conn E v w -> conn E u w.
Proof.
  induction E as [|[s t] E IH]; intros u v w; cbn [conn]; [congruence|].
  intros [A|[[A B]|[A B]]] [C|[[C D]|[C D]]].
  - left. eauto.
  - right; left. split; [eauto|exact D].
  - right; right. split; [eauto|exact D].
  - right; left. split; [exact A|eauto].
  - right; left. split; [exact A|exact D].
  - left. eauto.
  - right; right. split; [exact A|eauto].
  - left. eauto.
  - right; right. split; [exact A|exact D].
Qed.
Lemma conn_edge E s t : In (s, t) E -> conn E s t.
Proof.
  induction E as [|[a b] E IH]; intros I; [destruct I|]. cbn [conn]. destruct I as [I|I]; [|left; apply IH; exact I].
  injection I as -> ->. right; left. split; apply conn_refl.
Qed.
Lemma conn_congr R E : (forall s t, In (s, t) E -> congr R s t) -> forall u v, conn E u v -> congr R u v.
Proof.
  induction E as [|[s t] E IH]; intros H u v; cbn [conn]; [intros ->; apply cg_refl|].
  assert (X : congr R s t) by (apply H; left; reflexivity). assert (Y : forall u v, conn E u v -> congr R u v) by (apply IH; intros a b I; apply H; right; exact I).
  intros [A|[[A B]|[A B]]]; [auto| |].
  - apply cg_trans with s; [auto|]. apply cg_trans with t; auto.
  - apply cg_trans with t; [auto|]. apply cg_trans with s; [apply cg_sym; exact X|auto].
Qed.

(** a function that is constant along the multiples of the relations that occur sums to zero *)
Fixpoint edges (qs : list spoly) (R : list (mono * mono)) : list (mono * mono) :=
  match qs, R with
  | q :: qs', (a, b) :: R' => map (fun t => (mmul (snd t) a, mmul (snd t) b)) q ++ edges qs' R'
  | _, _ => []
  end.
Lemma edges_congr R0 qs : forall R, incl R R0 -> forall s t, In (s, t) (edges qs R) -> congr R0 s t.
Proof.
  induction qs as [|q qs IH]; intros R Hi s t I; [destruct I|]. destruct R as [|[a b] R]; [destruct I|]. cbn [edges] in I.
  apply in_app_iff in I as [I|I]; [|apply (IH R); [intros x Hx; apply Hi; right; exact Hx|exact I]].
  apply in_map_iff in I as ([c w] & E & _). cbn [snd] in E. injection E as <- <-. apply cg_mul, cg_rel, Hi. left. reflexivity.
Qed.
Lemma ev_edges (phi : mono -> K) qs : forall R, (forall s t, In (s, t) (edges qs R) -> phi s = phi t) ->
  ev (lincomb qs (map (fun ab => pdiff (fst ab) (snd ab)) R)) phi = k0.
Proof.
  induction qs as [|q qs IH]; intros R H; [reflexivity|]. destruct R as [|[a b] R]; [reflexivity|]. cbn [map lincomb fst snd edges] in *.
  unfold padd. rewrite ev_app, (IH R) by (intros s t I; apply H, in_or_app; right; exact I).
  assert (Z : ev (pmul q (pdiff a b)) phi = k0).
  { assert (Hq : forall s t, In (s, t) (map (fun t => (mmul (snd t) a, mmul (snd t) b)) q) -> phi s = phi t) by (intros s t I; apply H, in_or_app; left; exact I).
    rewrite ev_pmul. clear H IH. induction q as [|[c w] q IH]; [reflexivity|]. unfold ev at 1. cbn [fold_right fst snd]. fold (ev q (fun x => ev (pdiff a b) (fun y => phi (mmul x y)))).
    rewrite IH by (intros s t I; apply Hq; right; exact I). rewrite ev_pdiff. rewrite (Hq (mmul w a) (mmul w b)) by (left; reflexivity). ring. }
  rewrite Z. ring.
Qed.

Lemma congr_ideal R u v : congr R u v -> in_ideal (map (fun ab => pdiff (fst ab) (snd ab)) R) (pdiff u v).
Proof.
  intros C. induction C as [a b I|a|a b C IH|a b c C IH C' IH'|w a b C IH].
  - apply in_ideal_gen. apply in_map_iff. exists (a, b). split; [reflexivity|exact I].
  - assert (E : peq (pdiff a a) pzero) by (unfold pdiff; ring). rewrite E. apply in_ideal_zero.
  - assert (E : peq (pdiff b a) (popp (pdiff a b))) by (unfold pdiff; ring). rewrite E. apply in_ideal_opp. exact IH.
  - assert (E : peq (pdiff a c) (padd (pdiff a b) (pdiff b c))) by (unfold pdiff; ring). rewrite E. apply in_ideal_add; assumption.
  - assert (E : peq (pdiff (mmul w a) (mmul w b)) (tmul k1 w (pdiff a b))).
    { intros phi. rewrite ev_tmul, !ev_pdiff. ring. }
    rewrite E. apply in_ideal_tmul. exact IH.
Qed.
Lemma ideal_congr R u v : in_ideal (map (fun ab => pdiff (fst ab) (snd ab)) R) (pdiff u v) -> congr R u v.
Proof.
  intros (qs & L & E). set (Es := edges qs R). set (phi := fun m => if conn_dec Es u m then (k1 : K) else k0).
  assert (Z : ev (pdiff u v) phi = k0).
  { rewrite (E phi). apply ev_edges. intros s t I. unfold phi. pose proof (conn_edge _ _ _ I : conn Es s t) as C.
    destruct (conn_dec Es u s) as [A|A], (conn_dec Es u t) as [B|B]; try reflexivity; exfalso.
    - apply B. exact (conn_trans _ _ _ _ A C).
    - apply A. exact (conn_trans _ _ _ _ B (conn_sym _ _ _ C)). }
  rewrite ev_pdiff in Z. unfold phi in Z. destruct (conn_dec Es u u) as [_|A]; [|contradiction A; apply conn_refl].
  destruct (conn_dec Es u v) as [A|A].
  - apply (conn_congr R Es); [apply edges_congr; apply incl_refl|exact A].
  - exfalso. apply (F_1_neq_0 (kth K)). rewrite <- Z. ring.
Qed.
Lemma ideal_sum R (p : spoly) : in_ideal (map (fun ab => pdiff (fst ab) (snd ab)) R) p -> ev p (fun _ => k1) = k0.
Proof. intros (qs & L & E). rewrite (E _). apply ev_edges. reflexivity. Qed.
End Ideal.
