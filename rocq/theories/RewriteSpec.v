(** * Specification: polynomials as a rewriting system.

    A step cancels one term of a polynomial, not only the leading one, with a multiple of a polynomial of [G].  Pure
    mathematics; nothing here mentions the code. *)
From Verif Require Import Base FieldIface MonoSpec PolySpec GroebnerSpec.
From Verif Require StdSpec.
From Coq Require Import Lia Ring Field Setoid Morphisms Permutation.
Local Open Scope nat_scope.

Section Rewrite.
Context {K : MathField}.
Add Field Kf73 : (kth K).
Add Ring Pr73 : (@poly_ring K) (setoid (@peq_equiv K) (@poly_ring_ext K)).
Notation spoly := (spoly K).
Context (lt : mono -> mono -> Prop) (LW : mono_order_laws lt).
Notation LM := (is_lm lt).
Notation le := (mle lt).

(** the term of [f] at the multiple [w] of the leading monomial of [g] is cancelled *)
Definition step (G : list spoly) (f f' : spoly) : Prop :=
  exists g l w, In g G /\ LM g l /\ coeff f (mmul w l) <> k0 /\
    peq f' (psub f (tmul (kdiv (coeff f (mmul w l)) (coeff g l)) w g)).
Inductive steps (G : list spoly) : spoly -> spoly -> Prop :=
| st_done f f' : peq f f' -> steps G f f'
| st_step f f1 f' : step G f f1 -> steps G f1 f' -> steps G f f'.
Definition irreducible (G : list spoly) (h : spoly) : Prop := forall h', ~ step G h h'.
(** no choice of the steps matters *)
Definition one_end (G : list spoly) : Prop :=
  forall f h h', steps G f h -> steps G f h' -> irreducible G h -> irreducible G h' -> peq h h'.

Section Fix.
Variable G : list spoly.

Lemma step_peq f f' h : peq f f' -> step G f h -> step G f' h.
Proof.
  intros E (g & l & w & I & Lg & N & H). exists g, l, w. split; [exact I|]. split; [exact Lg|].
  assert (C : coeff f' (mmul w l) = coeff f (mmul w l)) by (symmetry; apply E). rewrite C. split; [exact N|]. rewrite H. set (c := kdiv _ _). rewrite E. reflexivity.
Qed.
Lemma steps_peq f f' h : peq f f' -> steps G f h -> steps G f' h.
Proof. intros E S. destruct S as [f h H|f f1 h H S]; [apply st_done; rewrite <- E; exact H|apply st_step with f1; [apply (step_peq f); assumption|exact S]]. Qed.
Lemma steps_trans f h k : steps G f h -> steps G h k -> steps G f k.
Proof. induction 1 as [f h E|f f1 h H _ IH]; intros S; [apply (steps_peq h); [symmetry; exact E|exact S]|apply st_step with f1; auto]. Qed.
Lemma steps_peq_r f h h' : peq h h' -> steps G f h -> steps G f h'.
Proof. intros E S. apply (steps_trans f h h' S). apply st_done. exact E. Qed.
Lemma irreducible_iff h : irreducible G h <-> reduced lt G h.
Proof.
  split.
  - intros H m N g l I Lg D. apply mdiv_iff in D as (w & ->). apply (H (psub h (tmul (kdiv (coeff h (mmul w l)) (coeff g l)) w g))).
    exists g, l, w. split; [exact I|]. split; [exact Lg|]. split; [rewrite mmul_comm; exact N|reflexivity].
  - intros H h' (g & l & w & I & Lg & N & _). apply (H _ N g l I Lg). apply mdiv_iff. exists w. apply mmul_comm.
Qed.
Lemma step_ideal f f' : step G f f' -> in_ideal G (psub f f').
Proof.
  intros (g & l & w & I & _ & _ & E). set (c := kdiv _ _) in E. assert (X : peq (psub f f') (tmul c w g)) by (rewrite E; ring). rewrite X. apply in_ideal_tmul, in_ideal_gen. exact I.
Qed.
Lemma steps_ideal f f' : steps G f f' -> in_ideal G (psub f f').
Proof.
  induction 1 as [f h E|f f1 h H _ IH].
  - assert (X : peq (psub f h) pzero) by (rewrite E; ring). rewrite X. apply in_ideal_zero.
  - assert (X : peq (psub f h) (padd (psub f f1) (psub f1 h))) by ring. rewrite X. apply in_ideal_add; [apply step_ideal; exact H|exact IH].
Qed.
Lemma groebner_one_end : groebner lt G -> one_end G.
Proof.
  intros GB f h h' S S' I I'. apply (remainder_unique lt LW G f); auto using steps_ideal; apply irreducible_iff; assumption.
Qed.

(** ** Every sequence of steps ends *)
Definition back (n : nat) (f' f : spoly) : Prop := svars n f /\ step G f f'.
Lemma back_peq n f f' : peq f f' -> Acc (back n) f -> Acc (back n) f'.
Proof.
  intros E [H]. constructor. intros h (V & S). apply H. split; [rewrite E; exact V|]. apply (step_peq f'); [symmetry; exact E|exact S].
Qed.
Lemma at_lm (f g : spoly) l w : LM g l -> coeff (psub f (tmul (kdiv (coeff f (mmul w l)) (coeff g l)) w g)) (mmul w l) = k0.
Proof. intros [N _]. rewrite coeff_sub, coeff_tmul. field. exact N. Qed.
Lemma step_vars n f f' : (forall g, In g G -> svars n g) -> svars n f -> step G f f' -> svars n f'.
Proof.
  intros HG V (g & l & w & I & Lg & N & E). rewrite E. apply svars_sub; [exact V|]. apply svars_tmul; [|apply HG; exact I]. apply V in N. apply mvars_mul in N. apply N.
Qed.
Lemma acc_below n M : (forall g, In g G -> svars n g) -> (forall f : spoly, svars n f -> (forall x, coeff f x <> k0 -> lt x M) -> Acc (back n) f) ->
  forall f : spoly, svars n f -> (forall x, coeff f x <> k0 -> le x M) -> Acc (back n) f.
Proof.
  intros HG B. assert (X : forall f0, Acc (back n) f0 -> forall f : spoly, svars n f -> (forall x, coeff f x <> k0 -> le x M) -> svars n f0 -> peq f0 (psub f (pterm (coeff f M) M)) -> Acc (back n) f).
  { induction 1 as [f0 _ IH]. intros f V Hf V0 E0. constructor. intros f' (_ & S). pose proof (step_vars n f f' HG V S) as V'. destruct S as (g & l & w & I & Lg & N & E).
    set (c := kdiv (coeff f (mmul w l)) (coeff g l)) in E. pose proof (Hf _ N) as Lw.
    assert (Hf' : forall x, coeff f' x <> k0 -> le x M).
    { intros x Nx. rewrite E, coeff_sub in Nx. destruct (kdec (coeff f x) k0) as [Z|Y]; [|auto]. apply (mle_trans lt LW) with (mmul w l); [|exact Lw].
      apply (tmul_le lt LW c w g l x Lg). intros Z'. apply Nx. rewrite Z, Z'. ring. }
    destruct (mono_dec (mmul w l) M) as [EM|NM].
    - apply B; [exact V'|]. intros x Nx. destruct (Hf' x Nx) as [->|L]; [|exact L]. exfalso. apply Nx. rewrite E, <- EM. apply at_lm. exact Lg.
    - assert (L : lt (mmul w l) M) by (destruct Lw as [L|L]; [contradiction|exact L]).
      assert (TM : coeff (tmul c w g) M = k0).
      { destruct (kdec (coeff (tmul c w g) M) k0) as [Z|Y]; [exact Z|]. exfalso. apply (mle_not_lt lt LW _ _ (tmul_le lt LW c w g l M Lg Y) L). }
      assert (C0 : coeff f0 (mmul w l) = coeff f (mmul w l)).
      { rewrite E0, coeff_sub, coeff_pterm. destruct (mono_dec M (mmul w l)) as [Y|_]; [congruence|]. ring. }
      assert (S0 : step G f0 (psub f0 (tmul c w g))).
      { exists g, l, w. split; [exact I|]. split; [exact Lg|]. rewrite C0. split; [exact N|reflexivity]. }
      apply (IH (psub f0 (tmul c w g))); [split; [exact V0|exact S0]|exact V'|exact Hf'|exact (step_vars n _ _ HG V0 S0)|].
      assert (CM : coeff f' M = coeff f M) by (rewrite E, coeff_sub, TM; ring). rewrite CM, E, E0. ring. }
  intros f V Hf. apply (X (psub f (pterm (coeff f M) M))); [|exact V|exact Hf| |reflexivity].
  - apply B.
    + apply svars_sub; [exact V|]. intros x Nx. rewrite coeff_pterm in Nx. destruct (mono_dec M x) as [<-|_]; [|congruence]. apply V. exact Nx.
    + intros x Nx. rewrite coeff_sub, coeff_pterm in Nx. destruct (mono_dec M x) as [<-|NM]; [exfalso; apply Nx; ring|].
      destruct (Hf x) as [Y|Y]; [intros Z; apply Nx; rewrite Z; ring|congruence|exact Y].
  - apply svars_sub; [exact V|]. intros x Nx. rewrite coeff_pterm in Nx. destruct (mono_dec M x) as [<-|_]; [|congruence]. apply V. exact Nx.
Qed.
Lemma steps_end n : (forall g, In g G -> svars n g) -> forall f, svars n f -> Acc (back n) f.
Proof.
  intros HG. assert (Z : forall f, peq f pzero -> Acc (back n) f).
  { intros f E. constructor. intros f' (_ & (g & l & w & _ & _ & N & _)). exfalso. apply N. rewrite E. reflexivity. }
  assert (X : forall M, mvars n M -> forall f : spoly, svars n f -> (forall x, coeff f x <> k0 -> le x M) -> Acc (back n) f).
  { intros M. induction M as [M IH] using (well_founded_induction (lt_wf lt LW n)). intros VM. apply (acc_below n M HG).
    intros f V H. destruct (zero_or_lm lt LW f) as [E|(m & Lm)]; [apply Z; exact E|].
    apply (IH m); [split; [apply V; apply Lm|split; [exact VM|apply H; apply Lm]]|apply V; apply Lm|exact V|apply Lm]. }
  intros f V. destruct (zero_or_lm lt LW f) as [E|(m & Lm)]; [apply Z; exact E|]. apply (X m); [apply V; apply Lm|exact V|apply Lm].
Qed.
Lemma common_vars (H : list spoly) : exists n, forall g, In g H -> svars n g.
Proof.
  induction H as [|g H (n & IH)]; [exists 0; intros g []|]. destruct (svars_exists g) as (k & Hk). exists (Nat.max n k). intros h [<-|I].
  - apply (svars_le k); [lia|exact Hk].
  - apply (svars_le n); [lia|apply IH; exact I].
Qed.
Theorem no_infinite_run (s : nat -> spoly) : ~ forall i, step G (s i) (s (S i)).
Proof.
  intros H. destruct (common_vars (s 0 :: G)) as (n & V).
  assert (HG : forall g, In g G -> svars n g) by (intros g I; apply V; right; exact I).
  assert (X : forall f, Acc (back n) f -> forall i, s i = f -> svars n (s i) -> False).
  { induction 1 as [f _ IH]. intros i E Vi. apply (IH (s (S i))) with (i := S i); [split; rewrite <- E; auto|reflexivity|]. apply (step_vars n (s i)); auto. }
  apply (X (s 0) (steps_end n HG (s 0) (V _ (or_introl eq_refl))) 0 eq_refl (V _ (or_introl eq_refl))).
Qed.
Lemma step_dec f : (exists f', step G f f') \/ irreducible G f.
Proof.
  assert (X : (exists m g l, In m (support f) /\ In g G /\ LM g l /\ mdiv l m) \/ forall m, In m (support f) -> forall g l, In g G -> LM g l -> ~ mdiv l m).
  { induction (support f) as [|m L [(m' & g & l & I & H)|N]]; [right; intros m []|left; exists m', g, l; split; [right; exact I|exact H]|].
    destruct (StdSpec.cover_dec lt LW G m) as [(g & l & I & Lg & D)|N']; [left; exists m, g, l; split; [left; reflexivity|auto]|].
    right. intros x [<-|I]; [exact N'|exact (N x I)]. }
  destruct X as [(m & g & l & Im & I & Lg & D)|N].
  - left. apply mdiv_iff in D as (w & ->). apply support_iff in Im. exists (psub f (tmul (kdiv (coeff f (mmul w l)) (coeff g l)) w g)), g, l, w.
    split; [exact I|]. split; [exact Lg|]. split; [rewrite mmul_comm; exact Im|reflexivity].
  - right. apply irreducible_iff. intros m Nm. apply N. apply support_iff. exact Nm.
Qed.
Theorem some_end f : exists h, steps G f h /\ irreducible G h.
Proof.
  destruct (common_vars (f :: G)) as (n & V). assert (HG : forall g, In g G -> svars n g) by (intros g I; apply V; right; exact I).
  pose proof (V f (or_introl eq_refl)) as Vf. pose proof (steps_end n HG f Vf) as A. clear V. induction A as [f _ IH].
  destruct (step_dec f) as [(f' & S)|I]; [|exists f; split; [apply st_done; reflexivity|exact I]].
  destruct (IH f' (conj Vf S) (step_vars n f f' HG Vf S)) as (h & Sh & I). exists h. split; [apply st_step with f'; assumption|exact I].
Qed.

(** ** One end for every polynomial: a Groebner basis *)
Lemma joined (f g : spoly) l c w : In g G -> LM g l -> exists h, steps G f h /\ steps G (psub f (tmul c w g)) h.
Proof.
  intros I Lg. exists (psub f (tmul (kdiv (coeff f (mmul w l)) (coeff g l)) w g)).
  assert (One : forall f1, steps G f1 (psub f1 (tmul (kdiv (coeff f1 (mmul w l)) (coeff g l)) w g))).
  { intros f1. destruct (kdec (coeff f1 (mmul w l)) k0) as [Z|N].
    - apply st_done. intros phi. unfold psub, padd. rewrite ev_app, ev_popp, ev_tmul, Z. field. apply Lg.
    - eapply st_step; [|apply st_done; reflexivity]. exists g, l, w. split; [exact I|]. split; [exact Lg|]. split; [exact N|reflexivity]. }
  split; [apply One|]. eapply steps_peq_r; [|apply One]. rewrite coeff_sub, coeff_tmul. intros phi. unfold psub, padd. rewrite ?ev_app, ?ev_popp, ?ev_tmul, ?ev_app, ?ev_popp, ?ev_tmul. field. apply Lg.
Qed.
Lemma one_end_mul : one_end G -> forall g, In g G -> forall q f h h', steps G f h -> irreducible G h -> steps G (psub f (pmul q g)) h' -> irreducible G h' -> peq h h'.
Proof.
  intros U g I q. destruct (zero_or_lm lt LW g) as [Z|(l & Lg)].
  { intros f h h' S J S' J'. apply (U f); auto. apply (steps_peq (psub f (pmul q g))); [|exact S']. rewrite Z. ring. }
  induction q as [|[c w] q IH]; intros f h h' S J S' J'.
  - apply (U f); auto. apply (steps_peq (psub f (pmul [] g))); [|exact S']. assert (X : peq (pmul [] g) pzero) by reflexivity. rewrite X. ring.
  - destruct (joined f g l c w I Lg) as (k & Sk & Sk'). destruct (some_end k) as (e & Se & Je).
    assert (E1 : peq h e) by (apply (U f); auto; eapply steps_trans; eassumption). rewrite E1.
    apply (IH (psub f (tmul c w g)) e h'); [eapply steps_trans; eassumption|exact Je| |exact J'].
    apply (steps_peq (psub f (pmul ((c, w) :: q) g))); [|exact S'].
    assert (X : peq (pmul ((c, w) :: q) g) (padd (tmul c w g) (pmul q g))) by (intros phi; unfold padd; rewrite ev_app, !ev_pmul, ev_tmul; reflexivity). rewrite X. ring.
Qed.
Lemma one_end_ideal : one_end G -> forall H, incl H G -> forall p, in_ideal H p -> forall f h h', steps G f h -> irreducible G h -> steps G (psub f p) h' -> irreducible G h' -> peq h h'.
Proof.
  intros U H. induction H as [|g H IH]; intros Hi p (qs & L & E) f h h' S J S' J'.
  - destruct qs; [|discriminate]. apply (U f); auto. apply (steps_peq (psub f p)); [|exact S']. rewrite E. cbn [lincomb]. ring.
  - destruct qs as [|q qs]; [discriminate|]. cbn [lincomb] in E. destruct (some_end (psub f (pmul q g))) as (e & Se & Je).
    transitivity e.
    + apply (one_end_mul U g (Hi g (or_introl eq_refl)) q f); assumption.
    + apply (IH (fun x Hx => Hi x (or_intror Hx)) (lincomb qs H)) with (f := psub f (pmul q g)); [exists qs; split; [cbn in L; lia|reflexivity]|exact Se|exact Je| |exact J'].
      apply (steps_peq (psub f p)); [|exact S']. rewrite E. ring.
Qed.
Lemma lm_stays f h m : (forall g l, In g G -> LM g l -> ~ mdiv l m) -> steps G f h -> LM f m -> LM h m.
Proof.
  intros N S. induction S as [f h E|f f1 h (g & l & w & I & Lg & Nw & E) _ IH]; intros Lf; [rewrite <- E; exact Lf|]. apply IH.
  set (c := kdiv _ _) in E. assert (L : lt (mmul w l) m).
  { destruct (proj2 Lf _ Nw) as [X|X]; [|exact X]. exfalso. apply (N g l I Lg). apply mdiv_iff. exists w. rewrite mmul_comm. symmetry. exact X. }
  assert (T : forall x, coeff (tmul c w g) x <> k0 -> lt x m).
  { intros x Nx. apply (mle_lt_trans lt LW _ (mmul w l)); [|exact L]. apply (tmul_le lt LW c w g l x Lg Nx). }
  split.
  - rewrite E, coeff_sub. destruct (kdec (coeff (tmul c w g) m) k0) as [Z|Y]; [|exfalso; exact (lt_irrefl lt LW _ (T m Y))]. rewrite Z. intros Y. apply (proj1 Lf). rewrite <- Y. ring.
  - intros x Nx. rewrite E, coeff_sub in Nx. destruct (kdec (coeff f x) k0) as [Z|Y]; [|apply Lf; exact Y]. right. apply T. intros Z'. apply Nx. rewrite Z, Z'. ring.
Qed.
Theorem one_end_iff : one_end G <-> groebner lt G.
Proof.
  split; [|apply groebner_one_end]. intros U f m I Lm. destruct (StdSpec.cover_dec lt LW G m) as [X|N]; [exact X|]. exfalso.
  destruct (some_end f) as (h & S & J).
  assert (Z : irreducible G pzero) by (apply irreducible_iff; intros x Nx; contradiction Nx; reflexivity).
  assert (E : peq h pzero).
  { apply (one_end_ideal U G (incl_refl G) f I f); auto. apply st_done. ring. }
  exact (lm_nonzero lt h m (lm_stays f h m N S Lm) E).
Qed.

(** ** A division is such a sequence of steps *)
Definition entry : Type := (K * mono * spoly * mono)%type.
Definition ekey (e : entry) : mono := let '(c, a, g, l) := e in mmul a l.
Definition epoly (e : entry) : spoly := let '(c, a, g, l) := e in tmul c a g.
Definition esum (T : list entry) : spoly := fold_right (fun e s => padd (epoly e) s) pzero T.
Definition eok (e : entry) : Prop := let '(c, a, g, l) := e in In g G /\ LM g l /\ c <> k0.
Lemma esum_app T T' : peq (esum (T ++ T')) (padd (esum T) (esum T')).
Proof. induction T as [|e T IH]; [change (peq (esum T') (padd pzero (esum T'))); ring|].
  change (peq (padd (epoly e) (esum (T ++ T'))) (padd (padd (epoly e) (esum T)) (esum T'))). rewrite IH. ring. Qed.
Lemma esum_coeff T m : (forall e, In e T -> eok e /\ lt (ekey e) m) -> coeff (esum T) m = k0.
Proof.
  induction T as [|e T IH]; intros H; [reflexivity|]. change (esum (e :: T)) with (padd (epoly e) (esum T)). rewrite coeff_add, IH by (intros x Hx; apply H; right; exact Hx).
  destruct (H e (or_introl eq_refl)) as [O L]. destruct e as [[[c a] g] l]. cbn [epoly ekey eok] in *. destruct O as (_ & Lg & _).
  destruct (kdec (coeff (tmul c a g) m) k0) as [Z|N]; [rewrite Z; ring|]. exfalso. exact (mle_not_lt lt LW _ _ (tmul_le lt LW c a g l m Lg N) L).
Qed.
Lemma entries_steps k : forall T r, length T = k -> (forall e, In e T -> eok e) -> NoDup (map ekey T) -> reduced lt G r -> steps G (padd (esum T) r) r.
Proof.
  induction k as [|k IH]; intros T r Len Ok ND Red.
  - destruct T; [|discriminate]. apply st_done. change (esum []) with (@pzero K). ring.
  - destruct (list_max lt LW (map ekey T)) as (M & IM & HM); [destruct T; discriminate|].
    apply in_map_iff in IM as (e & EM & Ie). apply in_split in Ie as (T1 & T2 & ->).
    assert (ND' : NoDup (map ekey (T1 ++ T2)) /\ ~ In M (map ekey (T1 ++ T2))).
    { rewrite map_app in *. cbn [map] in ND. rewrite EM in ND. split; [eapply NoDup_remove_1|eapply NoDup_remove_2]; exact ND. }
    destruct ND' as [ND' NM].
    assert (Ok' : forall x, In x (T1 ++ T2) -> eok x).
    { intros x I. apply Ok. apply in_app_iff in I as [I|I]; apply in_or_app; [left; exact I|right; right; exact I]. }
    assert (Low : forall x, In x (T1 ++ T2) -> eok x /\ lt (ekey x) M).
    { intros x I. split; [auto|]. assert (I' : In (ekey x) (map ekey (T1 ++ e :: T2))).
      { apply in_map. apply in_app_iff in I as [I|I]; apply in_or_app; [left; exact I|right; right; exact I]. }
      destruct (HM _ I') as [X|X]; [|exact X]. exfalso. apply NM. rewrite <- X. apply in_map. exact I. }
    assert (Es : peq (padd (esum (T1 ++ e :: T2)) r) (padd (epoly e) (padd (esum (T1 ++ T2)) r))).
    { rewrite !esum_app. change (esum (e :: T2)) with (padd (epoly e) (esum T2)). ring. }
    apply (steps_peq _ _ _ (symmetry Es)).
    apply steps_trans with (padd (esum (T1 ++ T2)) r).
    + pose proof (Ok e ltac:(apply in_or_app; right; left; reflexivity)) as Oe. destruct e as [[[c a] g] l]. cbn [eok epoly ekey] in *. destruct Oe as (Ig & Lg & Nc).
      assert (Cf : coeff (padd (tmul c a g) (padd (esum (T1 ++ T2)) r)) (mmul a l) = kmul c (coeff g l)).
      { rewrite !coeff_add, coeff_tmul, EM, (esum_coeff _ _ Low).
        destruct (kdec (coeff r M) k0) as [Z|N]; [rewrite Z; ring|]. exfalso. apply (Red M N g l Ig Lg). apply mdiv_iff. exists a. rewrite mmul_comm. symmetry. exact EM. }
      eapply st_step; [|apply st_done; reflexivity]. exists g, l, a. split; [exact Ig|]. split; [exact Lg|]. rewrite Cf. split.
      * intros Z. apply Nc. transitivity (kdiv (kmul c (coeff g l)) (coeff g l)); [field; apply Lg|]. rewrite Z. field. apply Lg.
      * assert (X : kdiv (kmul c (coeff g l)) (coeff g l) = c) by (field; apply Lg). rewrite X. ring.
    + apply IH; [|exact Ok'|exact ND'|exact Red]. rewrite app_length in *. cbn [length] in Len. lia.
Qed.
Lemma fsumm_support (psi : mono -> K) (q : spoly) L : fsumm (filter (fun m => if kdec (coeff q m) k0 then false else true) L) (fun m => kmul (coeff q m) (psi m)) = fsumm L (fun m => kmul (coeff q m) (psi m)).
Proof.
  induction L as [|m L IH]; [reflexivity|]. cbn [filter]. destruct (kdec (coeff q m) k0) as [Z|N]; unfold fsumm in *; cbn [fold_right]; rewrite IH; [rewrite Z; ring|reflexivity].
Qed.
Lemma entries_of (q g : spoly) l : In g G -> LM g l -> exists T, peq (pmul q g) (esum T) /\ (forall e, In e T -> eok e /\ exists c a, e = (c, a, g, l) /\ coeff q a <> k0) /\ NoDup (map ekey T).
Proof.
  intros I Lg. set (L := filter (fun m => if kdec (coeff q m) k0 then false else true) (nodup mono_dec (map snd q))).
  assert (NL : NoDup L) by (apply NoDup_filter; apply NoDup_nodup).
  exists (map (fun m => (coeff q m, m, g, l)) L). split; [|split].
  - intros phi. rewrite ev_pmul. rewrite (ev_coeff q _ (nodup mono_dec (map snd q)) (NoDup_nodup _ _)) by (intros m; apply nodup_In).
    rewrite <- fsumm_support. fold L. clear NL. induction L as [|m L' IH]; [reflexivity|]. cbn [map esum fold_right epoly]. fold (esum (map (fun m => (coeff q m, m, g, l)) L')).
    unfold padd. rewrite ev_app, <- IH, ev_tmul. reflexivity.
  - intros e Ie. apply in_map_iff in Ie as (m & <- & Im). apply filter_In in Im as [_ Im]. destruct (kdec (coeff q m) k0) as [|N]; [discriminate|].
    split; [cbn [eok]; auto|]. eauto.
  - rewrite map_map. cbn [ekey]. apply FinFun.Injective_map_NoDup; [|exact NL]. intros a b E. rewrite (mmul_comm a), (mmul_comm b) in E. apply mmul_cancel_l in E. exact E.
Qed.
Lemma entries_all : forall qs divs, length qs = length divs -> incl divs G ->
  (forall i j q gi gj li lj a, nth_error qs i = Some q -> nth_error divs i = Some gi -> nth_error divs j = Some gj ->
     LM gi li -> LM gj lj -> coeff q a <> k0 -> j < i -> ~ mdiv lj (mmul a li)) ->
  exists T, peq (lincomb qs divs) (esum T) /\ (forall e, In e T -> eok e /\ exists i q c a g l, e = (c, a, g, l) /\ nth_error qs i = Some q /\ nth_error divs i = Some g /\ LM g l /\ coeff q a <> k0) /\ NoDup (map ekey T).
Proof.
  induction qs as [|q qs IH]; intros [|g divs] Len Hi First; try discriminate.
  - exists []. split; [reflexivity|]. split; [intros e []|constructor].
  - destruct (IH divs) as (T & ET & OT & NT); [cbn in Len; lia|intros x Hx; apply Hi; right; exact Hx| |].
    { intros i j q0 gi gj li lj a A B C D E F L. apply (First (S i) (S j) q0 gi gj li lj a); auto. lia. }
    assert (OT' : forall e, In e T -> eok e /\ exists i q0 c a g0 l, e = (c, a, g0, l) /\ nth_error (q :: qs) i = Some q0 /\ nth_error (g :: divs) i = Some g0 /\ LM g0 l /\ coeff q0 a <> k0).
    { intros e Ie. destruct (OT e Ie) as (O & i & q0 & c & a & g0 & l & H). split; [exact O|]. exists (S i), q0, c, a, g0, l. exact H. }
    cbn [lincomb]. destruct (zero_or_lm lt LW g) as [Z|(l & Lg)].
    + exists T. split; [rewrite Z, ET; ring|]. split; [exact OT'|exact NT].
    + destruct (entries_of q g l (Hi g (or_introl eq_refl)) Lg) as (T1 & E1 & O1 & N1). exists (T1 ++ T). split; [rewrite esum_app, E1, ET; reflexivity|]. split.
      * intros e Ie. apply in_app_iff in Ie as [Ie|Ie]; [|auto]. destruct (O1 e Ie) as (O & c & a & -> & N). split; [exact O|]. exists 0, q, c, a, g, l. cbn. auto.
      * rewrite map_app. clear - OT O1 N1 NT First Lg. induction T1 as [|e T1 IH1]; [exact NT|]. cbn [map app]. inversion N1 as [|x y A B]; subst. constructor.
        -- intros X. apply in_app_iff in X as [X|X]; [contradiction|]. apply in_map_iff in X as (e' & E & Ie'). destruct (O1 e (or_introl eq_refl)) as (_ & c & a & -> & Na).
           destruct (OT e' Ie') as (_ & i & q0 & c' & a' & g' & l' & -> & X1 & X2 & X3 & X4). cbn [ekey] in E.
           apply (First (S i) 0 q0 g' g l' l a' X1 X2 eq_refl X3 Lg X4); [lia|]. rewrite E. apply mdiv_iff. exists a. apply mmul_comm.
        -- apply IH1; [intros e' He'; apply O1; right; exact He'|exact B].
Qed.
End Fix.
End Rewrite.
