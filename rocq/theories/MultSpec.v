(** * Matrices of multiplication modulo an ideal *)
From Coq Require Import List Arith Lia Ring Field Setoid Morphisms.
From Verif Require Import LinSpec Base FieldIface MonoSpec PolySpec GroebnerSpec StdSpec LinFacts SubstSpec IdealSpec ModSpec InterpSpec.
Import ListNotations.
Local Open Scope nat_scope.

Section Mult.
Context {K : MathField}.
Add Field Kf85 : (kth K).
Add Ring Pr85 : (@poly_ring K) (setoid (@peq_equiv K) (@poly_ring_ext K)).
Notation spoly := (spoly K).
Context (lt : mono -> mono -> Prop) (LW : mono_order_laws lt).
Variables (n N : nat) (G : list spoly) (ms : nat -> mono).
Hypothesis GB : groebner lt G.
Hypothesis VG : forall g, In g G -> svars n g.
Hypothesis Std : forall x, std lt n G x <-> exists i, i < N /\ ms i = x.
Hypothesis Inj : forall i j, i < N -> j < N -> ms i = ms j -> i = j.
(** a combination of the standard monomials *)
Definition comb (w : nat -> K) : spoly := wsum N w (fun j => pterm k1 (ms j)).
Lemma comb_zero w : in_ideal G (comb w) -> forall i, i < N -> w i = k0.
Proof. apply (comb_ideal lt LW n N G ms GB Std Inj). Qed.
Lemma comb_ex p : svars n p -> exists w, in_ideal G (psub p (comb w)).
Proof. apply (comb_nf lt LW n N G ms VG Std Inj). Qed.
Lemma comb_of p : (forall x, coeff p x <> k0 -> std lt n G x) -> peq p (comb (fun i => coeff p (ms i))).
Proof. apply (std_comb lt n N G ms Std Inj). Qed.
Lemma comb_ext w w' : (forall i, i < N -> w i = w' i) -> peq (comb w) (comb w').
Proof. intros H. apply peq_coeff. intros x. unfold comb. rewrite !coeff_wsum. apply sumn_ext. intros i Hi. rewrite (H i Hi). reflexivity. Qed.
Lemma comb_add w w' : peq (comb (fun i => kadd (w i) (w' i))) (padd (comb w) (comb w')).
Proof. apply peq_coeff. intros x. unfold comb. rewrite coeff_add, !coeff_wsum, <- sumn_add. apply sumn_ext. intros i _. ring. Qed.
Lemma comb_sub w w' : peq (comb (fun i => ksub (w i) (w' i))) (psub (comb w) (comb w')).
Proof. apply peq_coeff. intros x. unfold comb. rewrite coeff_sub, !coeff_wsum, <- sumn_sub. apply sumn_ext. intros i _. ring. Qed.
Lemma comb_scale c w : peq (comb (fun i => kmul c (w i))) (pmul (pterm c mone) (comb w)).
Proof.
  assert (E : peq (pmul (pterm c mone) (comb w)) (pscale c (comb w))) by (unfold pscale; rewrite tmul_pmul; reflexivity). rewrite E.
  apply peq_coeff. intros x. unfold comb. rewrite coeff_scale, !coeff_wsum, <- sumn_mul_l. apply sumn_ext. intros i _. ring.
Qed.
Lemma comb_zero_fun w : (forall i, i < N -> w i = k0) -> peq (comb w) pzero.
Proof. intros H. apply peq_coeff. intros x. unfold comb. rewrite coeff_zero, coeff_wsum. apply sumn_zero'. intros i Hi. rewrite (H i Hi). ring. Qed.
Lemma comb_delta j : j < N -> peq (comb (fun i => if i =? j then k1 else k0)) (pterm k1 (ms j)).
Proof.
  intros Hj. apply peq_coeff. intros x. unfold comb. rewrite coeff_wsum. rewrite (sumn_pick N _ j Hj).
  - rewrite Nat.eqb_refl. ring.
  - intros i _ Ni. destruct (Nat.eqb_spec i j); [contradiction|ring].
Qed.
Lemma mvec_delta (A : nat -> nat -> K) j i : j < N -> mvec N A (fun l => if l =? j then k1 else k0) i = A i j.
Proof.
  intros Hj. unfold mvec. rewrite (sumn_pick N _ j Hj).
  - rewrite Nat.eqb_refl. ring.
  - intros l _ Nl. destruct (Nat.eqb_spec l j); [contradiction|ring].
Qed.

(** the matrix [A] describes the multiplication by [f] *)
Definition acts (A : nat -> nat -> K) (f : spoly) : Prop := forall w, in_ideal G (psub (pmul f (comb w)) (comb (mvec N A w))).
Lemma acts_ext A A' f f' : meq N N A A' -> in_ideal G (psub f f') -> acts A f -> acts A' f'.
Proof.
  intros E I H w.
  assert (X : peq (comb (mvec N A' w)) (comb (mvec N A w))) by (apply comb_ext; intros i Hi; apply (mvec_ext N); auto using meq_sym).
  rewrite X. assert (Y : peq (psub (pmul f' (comb w)) (comb (mvec N A w))) (psub (psub (pmul f (comb w)) (comb (mvec N A w))) (pmul (comb w) (psub f f')))) by ring.
  rewrite Y. apply in_ideal_sub; [apply H|apply in_ideal_mul; exact I].
Qed.
Lemma acts_add A B f g : acts A f -> acts B g -> acts (fun i j => kadd (A i j) (B i j)) (padd f g).
Proof.
  intros Ha Hb w.
  assert (E : peq (comb (mvec N (fun i j => kadd (A i j) (B i j)) w)) (padd (comb (mvec N A w)) (comb (mvec N B w)))).
  { rewrite <- comb_add. apply comb_ext. intros i _. unfold mvec. rewrite <- sumn_add. apply sumn_ext. intros j _. ring. }
  rewrite E. assert (Y : peq (psub (pmul (padd f g) (comb w)) (padd (comb (mvec N A w)) (comb (mvec N B w)))) (padd (psub (pmul f (comb w)) (comb (mvec N A w))) (psub (pmul g (comb w)) (comb (mvec N B w))))) by ring.
  rewrite Y. apply in_ideal_add; [apply Ha|apply Hb].
Qed.
Lemma acts_scale c A f : acts A f -> acts (fun i j => kmul c (A i j)) (pmul (pterm c mone) f).
Proof.
  intros Ha w.
  assert (E : peq (comb (mvec N (fun i j => kmul c (A i j)) w)) (pmul (pterm c mone) (comb (mvec N A w)))).
  { rewrite <- comb_scale. apply comb_ext. intros i _. unfold mvec. rewrite <- sumn_mul_l. apply sumn_ext. intros j _. ring. }
  rewrite E. assert (Y : peq (psub (pmul (pmul (pterm c mone) f) (comb w)) (pmul (pterm c mone) (comb (mvec N A w)))) (pmul (pterm c mone) (psub (pmul f (comb w)) (comb (mvec N A w))))) by ring.
  rewrite Y. apply in_ideal_mul. apply Ha.
Qed.
Lemma acts_mul A B f g : acts A f -> acts B g -> acts (LinSpec.mmul N A B) (pmul f g).
Proof.
  intros Ha Hb w.
  assert (E : peq (comb (mvec N (LinSpec.mmul N A B) w)) (comb (mvec N A (mvec N B w)))) by (apply comb_ext; intros i _; apply mvec_mmul).
  rewrite E. assert (Y : peq (psub (pmul (pmul f g) (comb w)) (comb (mvec N A (mvec N B w))))
    (padd (pmul f (psub (pmul g (comb w)) (comb (mvec N B w)))) (psub (pmul f (comb (mvec N B w))) (comb (mvec N A (mvec N B w)))))) by ring.
  rewrite Y. apply in_ideal_add; [apply in_ideal_mul; apply Hb|apply Ha].
Qed.
Lemma acts_one : acts mid pone.
Proof.
  intros w. assert (E : peq (comb (mvec N mid w)) (comb w)) by (apply comb_ext; intros i Hi; apply mvec_id; exact Hi). rewrite E.
  assert (Y : peq (psub (pmul pone (comb w)) (comb w)) pzero) by ring. rewrite Y. apply in_ideal_zero.
Qed.
Lemma acts_zero : acts (fun _ _ => k0) pzero.
Proof.
  intros w. assert (E : peq (comb (mvec N (fun _ _ => k0) w)) pzero) by (apply comb_zero_fun; intros i _; unfold mvec; apply sumn_zero'; intros; ring). rewrite E.
  assert (Y : peq (psub (pmul pzero (comb w)) pzero) pzero) by ring. rewrite Y. apply in_ideal_zero.
Qed.
Lemma acts_iff A B f g : svars n f -> svars n g -> acts A f -> acts B g -> (meq N N A B <-> in_ideal G (psub f g)).
Proof.
  intros Vf Vg Ha Hb. split.
  - intros E. destruct (comb_ex pone) as (w & Iw); [apply svars_pterm; apply mvars_one|].
    pose proof (Ha w) as P. pose proof (Hb w) as Q. assert (X : peq (comb (mvec N A w)) (comb (mvec N B w))) by (apply comb_ext; intros i Hi; apply (mvec_ext N); auto). rewrite X in P.
    assert (Y : peq (psub f g) (padd (pmul (psub f g) (psub pone (comb w))) (psub (psub (pmul f (comb w)) (comb (mvec N B w))) (psub (pmul g (comb w)) (comb (mvec N B w)))))) by ring.
    rewrite Y. apply in_ideal_add; [apply in_ideal_mul; exact Iw|apply in_ideal_sub; assumption].
  - intros I i j Hi Hj. set (d := fun l => if l =? j then @k1 K else k0).
    assert (Z : in_ideal G (comb (fun i => ksub (mvec N A d i) (mvec N B d i)))).
    { rewrite comb_sub. assert (Y : peq (psub (comb (mvec N A d)) (comb (mvec N B d))) (padd (psub (psub (pmul g (comb d)) (comb (mvec N B d))) (psub (pmul f (comb d)) (comb (mvec N A d)))) (pmul (comb d) (psub f g)))) by ring.
      rewrite Y. apply in_ideal_add; [apply in_ideal_sub; [apply Hb|apply Ha]|apply in_ideal_mul; exact I]. }
    pose proof (comb_zero _ Z i Hi) as Q. cbn beta in Q. unfold d in Q. rewrite !mvec_delta in Q by exact Hj.
    transitivity (kadd (ksub (A i j) (B i j)) (B i j)); [ring|]. rewrite Q. ring.
Qed.
(** zeros are left eigenvectors *)
Lemma peval_comb x w : peval x (comb w) = sumn N (fun i => kmul (w i) (mval x (ms i))).
Proof. unfold comb. rewrite peval_wsum. apply sumn_ext. intros i _. rewrite peval_monomial. reflexivity. Qed.
Lemma acts_eigen x A f : (forall g, in_ideal G g -> peval x g = k0) -> acts A f -> forall j, j < N ->
  sumn N (fun i => kmul (mval x (ms i)) (A i j)) = kmul (peval x f) (mval x (ms j)).
Proof.
  intros Z H j Hj. pose proof (Z _ (H (fun l => if l =? j then k1 else k0))) as E.
  rewrite peval_sub, peval_mul in E. rewrite (peval_comb x (mvec N A _)) in E. rewrite (sumn_ext N _ (fun i => kmul (mval x (ms i)) (A i j))) in E by (intros i _; rewrite mvec_delta by exact Hj; ring).
  assert (Y : peval x (comb (fun l => if l =? j then k1 else k0)) = mval x (ms j)).
  { rewrite peval_comb, (sumn_pick N _ j Hj); [rewrite Nat.eqb_refl; ring|]. intros i _ Ni. destruct (Nat.eqb_spec i j); [contradiction|ring]. }
  rewrite Y in E. symmetry. transitivity (kadd (ksub (kmul (peval x f) (mval x (ms j))) (sumn N (fun i => kmul (mval x (ms i)) (A i j)))) (sumn N (fun i => kmul (mval x (ms i)) (A i j)))); [ring|].
  rewrite E. ring.
Qed.
Lemma some_value x : (forall g, in_ideal G g -> peval x g = k0) -> exists j, j < N /\ mval x (ms j) <> k0.
Proof.
  intros Z. destruct (comb_ex pone) as (w & Iw); [apply svars_pterm; apply mvars_one|]. pose proof (Z _ Iw) as E. rewrite peval_sub, peval_comb in E.
  destruct (sumn_nonzero N (fun i => kmul (w i) (mval x (ms i)))) as (j & Hj & Nj).
  - intros Q. rewrite Q in E. apply (F_1_neq_0 (kth K)). assert (P : peval x (pone : spoly) = k1).
    { unfold pone. change (peval x (pterm (@k1 K) mone) = k1). rewrite peval_monomial. unfold mval. reflexivity. }
    rewrite P in E. transitivity (ksub (@k1 K) k0); [ring|exact E].
  - exists j. split; [exact Hj|]. intros Q. apply Nj. rewrite Q. ring.
Qed.
(** powers *)
Lemma acts_power A f (P : nat -> nat -> nat -> K) c : acts A f -> meq N N (P 0) mid -> (forall k, S k < c -> meq N N (P (S k)) (LinSpec.mmul N A (P k))) ->
  forall k, k < c -> acts (P k) (ppow f k).
Proof.
  intros H H0 HS. induction k as [|k IH]; intros Hk; cbn [ppow].
  - apply (acts_ext mid _ pone _); [apply meq_sym; exact H0| |exact acts_one]. assert (Y : peq (psub pone pone) (pzero : spoly)) by ring. rewrite Y. apply in_ideal_zero.
  - apply (acts_ext (LinSpec.mmul N A (P k)) _ (pmul f (ppow f k)) _); [apply meq_sym; apply HS; exact Hk| |apply acts_mul; [exact H|apply IH; lia]].
    assert (Y : forall q : spoly, peq (psub q q) pzero) by (intros q; ring). rewrite Y. apply in_ideal_zero.
Qed.
Lemma acts_sum (P : nat -> nat -> nat -> K) (f : nat -> spoly) w c : (forall k, k < c -> acts (P k) (f k)) -> acts (fun i j => sumn c (fun k => kmul (w k) (P k i j))) (wsum c w f).
Proof.
  induction c as [|c IH]; intros H; cbn [sumn wsum]; [exact acts_zero|].
  apply (acts_add (fun i j => sumn c (fun k => kmul (w k) (P k i j))) (fun i j => kmul (w c) (P c i j))); [apply IH; intros; apply H; lia|].
  apply (acts_ext (fun i j => kmul (w c) (P c i j)) _ (pmul (pterm (w c) mone) (f c)) _); [apply meq_refl| |apply acts_scale; apply H; lia].
  unfold pscale. rewrite tmul_pmul. assert (Y : forall q : spoly, peq (psub q q) pzero) by (intros q; ring). rewrite Y. apply in_ideal_zero.
Qed.
End Mult.
