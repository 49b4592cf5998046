(** * Specification polynomials: finite formal sums of (coefficient, monomial) pairs over a field.

    A polynomial is determined by its coefficients; [peq] is equality of polynomials.  It is
    defined through linear functionals ([ev p phi] is the sum of c * phi(m) over the pairs of [p]),
    and [peq_coeff] shows that this is the same as equality of all coefficients. *)
From Verif Require Import Base FieldIface MonoSpec.
From Coq Require Import Field_theory Ring_theory Ring Field Setoid Morphisms.

Section PolySpec.
Context {K : MathField}.
Add Field Kf : (kth K).
Local Notation "x + y" := (kadd x y).
Local Notation "x * y" := (kmul x y).
Local Notation "0" := (@k0 K).
Local Notation "1" := (@k1 K).

Definition spoly : Type := list (K * mono).

Definition ev (p : spoly) (phi : mono -> K) : K :=
  fold_right (fun t s => fst t * phi (snd t) + s) 0 p.

Definition delta (m : mono) : mono -> K := fun x => if mono_dec x m then 1 else 0.
Definition coeff (p : spoly) (m : mono) : K := ev p (delta m).
Global Arguments coeff : simpl never.
Definition peq (p q : spoly) : Prop := forall phi, ev p phi = ev q phi.

Definition pzero : spoly := [].
Definition pone : spoly := [(1, mone)].
Definition padd (p q : spoly) : spoly := p ++ q.
Definition tmul (c : K) (a : mono) (q : spoly) : spoly :=
  map (fun t => (c * fst t, mmul a (snd t))) q.
Definition popp (p : spoly) : spoly := map (fun t => (kopp (fst t), snd t)) p.
Definition psub (p q : spoly) : spoly := padd p (popp q).
Definition pmul (p q : spoly) : spoly := flat_map (fun t => tmul (fst t) (snd t) q) p.
Definition pscale (c : K) (p : spoly) : spoly := tmul c mone p.
Definition pterm (c : K) (m : mono) : spoly := [(c, m)].
Fixpoint psum (l : list spoly) : spoly :=
  match l with [] => pzero | p :: l' => padd p (psum l') end.

(** ** linear functionals *)
Lemma ev_ext p phi psi : (forall m, phi m = psi m) -> ev p phi = ev p psi.
Proof. intros E. induction p as [|[c m] p IH]; simpl; [reflexivity|]. rewrite E, IH. reflexivity. Qed.
Lemma ev_app p q phi : ev (p ++ q) phi = ev p phi + ev q phi.
Proof. induction p as [|[c m] p IH]; simpl; [ring|]. rewrite IH. ring. Qed.
Lemma ev_add_fun p phi psi : ev p (fun m => phi m + psi m) = ev p phi + ev p psi.
Proof. induction p as [|[c m] p IH]; simpl; [ring|]. rewrite IH. ring. Qed.
Lemma ev_scale_fun p phi c : ev p (fun m => c * phi m) = c * ev p phi.
Proof. induction p as [|[d m] p IH]; simpl; [ring|]. rewrite IH. ring. Qed.
Lemma ev_zero_fun p : ev p (fun _ => 0) = 0.
Proof. induction p as [|[d m] p IH]; simpl; [ring|]. rewrite IH. ring. Qed.
Lemma ev_tmul c a q phi : ev (tmul c a q) phi = c * ev q (fun b => phi (mmul a b)).
Proof. induction q as [|[d m] q IH]; simpl; [ring|]. fold (tmul c a q). rewrite IH. ring. Qed.
Lemma ev_popp p phi : ev (popp p) phi = kopp (ev p phi).
Proof. induction p as [|[d m] q IH]; simpl; [ring|]. fold (popp q). rewrite IH. ring. Qed.
Lemma ev_pmul p q phi : ev (pmul p q) phi = ev p (fun a => ev q (fun b => phi (mmul a b))).
Proof.
  induction p as [|[c a] p IH]; simpl; [reflexivity|].
  fold (pmul p q). rewrite ev_app, ev_tmul, IH. reflexivity.
Qed.
Lemma ev_exchange p q (phi : mono -> mono -> K) :
  ev p (fun a => ev q (fun b => phi a b)) = ev q (fun b => ev p (fun a => phi a b)).
Proof.
  induction p as [|[c a] p IH]; simpl.
  - symmetry. apply ev_zero_fun.
  - rewrite IH, ev_add_fun, ev_scale_fun. reflexivity.
Qed.

(** ** equality *)
Lemma peq_refl p : peq p p. Proof. intros phi. reflexivity. Qed.
Lemma peq_sym p q : peq p q -> peq q p. Proof. intros H phi. symmetry. apply H. Qed.
Lemma peq_trans p q r : peq p q -> peq q r -> peq p r.
Proof. intros H1 H2 phi. rewrite H1. apply H2. Qed.

Global Instance peq_equiv : Equivalence peq.
Proof. split; [exact peq_refl|exact peq_sym|exact peq_trans]. Qed.
Global Instance padd_proper : Proper (peq ==> peq ==> peq) padd.
Proof. intros p p' Hp q q' Hq phi. unfold padd. rewrite !ev_app, Hp, Hq. reflexivity. Qed.
Global Instance popp_proper : Proper (peq ==> peq) popp.
Proof. intros p p' Hp phi. rewrite !ev_popp, Hp. reflexivity. Qed.
Global Instance psub_proper : Proper (peq ==> peq ==> peq) psub.
Proof. intros p p' Hp q q' Hq. unfold psub. rewrite Hp, Hq. reflexivity. Qed.
Global Instance pmul_proper : Proper (peq ==> peq ==> peq) pmul.
Proof.
  intros p p' Hp q q' Hq phi. rewrite !ev_pmul, Hp. apply ev_ext. intros a. apply Hq.
Qed.
Global Instance tmul_proper c a : Proper (peq ==> peq) (tmul c a).
Proof. intros p p' Hp phi. rewrite !ev_tmul, Hp. reflexivity. Qed.
Global Instance pscale_proper c : Proper (peq ==> peq) (pscale c).
Proof. apply tmul_proper. Qed.
Global Instance coeff_proper : Proper (peq ==> eq ==> eq) coeff.
Proof. intros p p' Hp m m' <-. apply Hp. Qed.
Global Instance ev_proper : Proper (peq ==> eq ==> eq) ev.
Proof. intros p p' Hp m m' <-. apply Hp. Qed.

Lemma poly_ring : ring_theory pzero pone padd pmul psub popp peq.
Proof.
  split.
  - intros x phi. reflexivity.
  - intros x y phi. unfold padd. rewrite !ev_app. ring.
  - intros x y z phi. unfold padd. rewrite !ev_app. ring.
  - intros x phi. rewrite ev_pmul. simpl.
    rewrite (ev_ext x (fun b => phi (mmul mone b)) phi); [ring|]. intros m. rewrite mmul_1_l. reflexivity.
  - intros x y phi. rewrite !ev_pmul, ev_exchange. apply ev_ext. intros a. apply ev_ext. intros b.
    rewrite mmul_comm. reflexivity.
  - intros x y z phi. rewrite !ev_pmul. apply ev_ext. intros a. rewrite ev_pmul.
    apply ev_ext. intros b. apply ev_ext. intros c. rewrite mmul_assoc. reflexivity.
  - intros x y z phi. unfold padd. rewrite ev_pmul, !ev_app, !ev_pmul. reflexivity.
  - intros x y. reflexivity.
  - intros x phi. unfold padd. rewrite ev_app, ev_popp. simpl. ring.
Qed.
Lemma poly_ring_ext : ring_eq_ext padd pmul popp peq.
Proof. split; [exact padd_proper|exact pmul_proper|exact popp_proper]. Qed.
Add Ring Pr : poly_ring (setoid peq_equiv poly_ring_ext).

Lemma tmul_pmul c a q : peq (tmul c a q) (pmul (pterm c a) q).
Proof. intros phi. rewrite ev_tmul, ev_pmul. simpl. ring. Qed.
Lemma tmul_add c a p q : peq (tmul c a (padd p q)) (padd (tmul c a p) (tmul c a q)).
Proof. intros phi. unfold padd. rewrite ev_app, !ev_tmul, ev_app. ring. Qed.
Lemma tmul_opp c a p : peq (tmul c a (popp p)) (popp (tmul c a p)).
Proof. intros phi. rewrite ev_popp, !ev_tmul, ev_popp. ring. Qed.
Lemma tmul_tmul c a d b p : peq (tmul c a (tmul d b p)) (tmul (c * d) (mmul a b) p).
Proof.
  intros phi. rewrite !ev_tmul.
  rewrite (ev_ext p (fun x => phi (mmul (mmul a b) x)) (fun x => phi (mmul a (mmul b x)))); [ring|].
  intros m. rewrite mmul_assoc. reflexivity.
Qed.
Lemma tmul_add_coef c d a p : peq (tmul (c + d) a p) (padd (tmul c a p) (tmul d a p)).
Proof. intros phi. unfold padd. rewrite ev_app, !ev_tmul. ring. Qed.
Lemma tmul_opp_coef c a p : peq (tmul (kopp c) a p) (popp (tmul c a p)).
Proof. intros phi. rewrite ev_popp, !ev_tmul. ring. Qed.
Lemma tmul_zero a p : peq (tmul 0 a p) pzero.
Proof. intros phi. rewrite ev_tmul. simpl. ring. Qed.
Lemma tmul_one p : peq (tmul 1 mone p) p.
Proof. intros phi. rewrite ev_tmul. rewrite (ev_ext p _ phi); [ring|]. intros m. rewrite mmul_1_l. reflexivity. Qed.
Lemma pterm_zero m : peq (pterm 0 m) pzero.
Proof. intros phi. simpl. ring. Qed.
Lemma pterm_add c d m : peq (pterm (c + d) m) (padd (pterm c m) (pterm d m)).
Proof. intros phi. simpl. ring. Qed.
Lemma pterm_opp c m : peq (pterm (kopp c) m) (popp (pterm c m)).
Proof. intros phi. simpl. ring. Qed.
Lemma pterm_mul c a d b : peq (pmul (pterm c a) (pterm d b)) (pterm (c * d) (mmul a b)).
Proof. intros phi. rewrite ev_pmul. simpl. ring. Qed.
Lemma cons_padd c m p : peq ((c, m) :: p) (padd (pterm c m) p).
Proof. reflexivity. Qed.

(** ** coefficients *)
Lemma delta_same m : delta m m = 1.
Proof. unfold delta. destruct (mono_dec m m); congruence. Qed.
Lemma delta_diff m x : x <> m -> delta m x = 0.
Proof. unfold delta. destruct (mono_dec x m); congruence. Qed.

Lemma coeff_zero m : coeff pzero m = 0. Proof. reflexivity. Qed.
Lemma coeff_cons c a p m : coeff ((c, a) :: p) m = (if mono_dec a m then c else 0) + coeff p m.
Proof. unfold coeff, delta. simpl. destruct (mono_dec a m); ring. Qed.
Lemma coeff_pterm c a m : coeff (pterm c a) m = if mono_dec a m then c else 0.
Proof. unfold pterm. rewrite coeff_cons, coeff_zero. ring. Qed.
Lemma coeff_add p q m : coeff (padd p q) m = coeff p m + coeff q m.
Proof. apply ev_app. Qed.
Lemma coeff_opp p m : coeff (popp p) m = kopp (coeff p m).
Proof. apply ev_popp. Qed.
Lemma coeff_sub p q m : coeff (psub p q) m = ksub (coeff p m) (coeff q m).
Proof. unfold psub. rewrite coeff_add, coeff_opp. ring. Qed.
Lemma coeff_tmul c a p m : coeff (tmul c a p) (mmul a m) = c * coeff p m.
Proof.
  unfold coeff. rewrite ev_tmul. f_equal. apply ev_ext. intros b. unfold delta.
  destruct (mono_dec b m) as [->|N]; destruct (mono_dec (mmul a _) (mmul a m)) as [E|E]; try reflexivity; try congruence.
  exfalso. apply N. eapply mmul_cancel_l. exact E.
Qed.
Lemma coeff_tmul_nd c a p m : ~ mdiv a m -> coeff (tmul c a p) m = 0.
Proof.
  intros N. unfold coeff. rewrite ev_tmul.
  rewrite (ev_ext p _ (fun _ => 0)); [rewrite ev_zero_fun; ring|].
  intros b. apply delta_diff. intros <-. apply N. apply mdiv_mul.
Qed.
Lemma coeff_scale c p m : coeff (pscale c p) m = c * coeff p m.
Proof. unfold pscale. rewrite <- (mmul_1_l m) at 1. apply coeff_tmul. Qed.
Lemma coeff_tmul_inv c a p m : coeff (tmul c a p) m <> 0 ->
  c <> 0 /\ exists b, m = mmul a b /\ coeff p b <> 0.
Proof.
  intros H. destruct (mdiv_dec a m) as [D|D]; [|exfalso; apply H; apply coeff_tmul_nd; exact D].
  apply mdiv_iff in D as (b & ->). rewrite coeff_tmul in H. split.
  - intros ->. apply H. ring.
  - exists b. split; [reflexivity|]. intros E. apply H. rewrite E. ring.
Qed.

Lemma coeff_notin p m : ~ In m (map snd p) -> coeff p m = 0.
Proof.
  induction p as [|[c a] p IH]; simpl; intros N; [reflexivity|].
  rewrite coeff_cons, IH by tauto. destruct (mono_dec a m); [exfalso; tauto|ring].
Qed.
Lemma coeff_in p m : coeff p m <> 0 -> In m (map snd p).
Proof.
  intros H. destruct (in_dec mono_dec m (map snd p)); auto. exfalso. apply H. apply coeff_notin. assumption.
Qed.
Lemma coeff_nodup p c m : NoDup (map snd p) -> In (c, m) p -> coeff p m = c.
Proof.
  induction p as [|[d a] p IH]; simpl; intros N I; [contradiction|].
  inversion N as [|? ? N1 N2]; subst. rewrite coeff_cons. destruct I as [E|I].
  - injection E as -> ->. rewrite coeff_notin by assumption. destruct (mono_dec m m); [ring|congruence].
  - rewrite (IH N2 I). destruct (mono_dec a m) as [->|]; [|ring].
    exfalso. apply N1. apply (in_map snd _ _ I).
Qed.

(** a functional is determined by the coefficients *)
Definition fsumm (L : list mono) (f : mono -> K) : K := fold_right (fun m s => f m + s) 0 L.
Lemma fsumm_ext L f g : (forall m, In m L -> f m = g m) -> fsumm L f = fsumm L g.
Proof.
  induction L as [|x L IH]; simpl; intros H; [reflexivity|]. rewrite H by auto. rewrite IH by auto. reflexivity.
Qed.
Lemma fsumm_add L f g : fsumm L (fun m => f m + g m) = fsumm L f + fsumm L g.
Proof. induction L as [|x L IH]; simpl; [ring|]. rewrite IH. ring. Qed.
Lemma fsumm_zero L : fsumm L (fun _ => 0) = 0.
Proof. induction L as [|x L IH]; simpl; [ring|]. rewrite IH. ring. Qed.
Lemma fsumm_single L a (v : mono -> K) : NoDup L -> In a L ->
  fsumm L (fun m => if mono_dec a m then v m else 0) = v a.
Proof.
  induction L as [|x L IH]; simpl; intros N I; [contradiction|].
  inversion N as [|? ? N1 N2]; subst. destruct (mono_dec a x) as [->|D].
  - rewrite (fsumm_ext L _ (fun _ => 0)), fsumm_zero; [ring|].
    intros m Hm. destruct (mono_dec x m) as [->|]; [contradiction|reflexivity].
  - destruct I as [->|I]; [congruence|]. rewrite IH by assumption. ring.
Qed.
Lemma ev_coeff p phi L : NoDup L -> (forall m, In m (map snd p) -> In m L) ->
  ev p phi = fsumm L (fun m => coeff p m * phi m).
Proof.
  induction p as [|[c a] p IH]; simpl; intros N H.
  - rewrite (fsumm_ext L _ (fun _ => 0)), fsumm_zero; [reflexivity|]. intros m _.
    change (coeff [] m) with 0. ring.
  - rewrite (IH N) by auto.
    rewrite (fsumm_ext L (fun m => coeff ((c, a) :: p) m * phi m)
       (fun m => (if mono_dec a m then c * phi m else 0) + coeff p m * phi m)).
    + rewrite fsumm_add, (fsumm_single L a (fun m => c * phi m)) by auto. reflexivity.
    + intros m _. rewrite coeff_cons. destruct (mono_dec a m); ring.
Qed.

Theorem peq_coeff p q : peq p q <-> forall m, coeff p m = coeff q m.
Proof.
  split; [intros H m; apply H|].
  intros H phi. set (L := nodup mono_dec (map snd p ++ map snd q)).
  assert (N : NoDup L) by apply NoDup_nodup.
  rewrite (ev_coeff p phi L), (ev_coeff q phi L); auto.
  - apply fsumm_ext. intros m _. rewrite H. reflexivity.
  - intros m I. apply nodup_In. apply in_or_app. auto.
  - intros m I. apply nodup_In. apply in_or_app. auto.
Qed.

(** the textbook product: the coefficient at [m] sums c_a * d_b over the pairs with a*b = m *)
Lemma coeff_mul p q m : coeff (pmul p q) m =
  ev p (fun a => ev q (fun b => if mono_dec (mmul a b) m then 1 else 0)).
Proof. apply ev_pmul. Qed.

Lemma peq_zero_dec p : {peq p pzero} + {exists m, coeff p m <> 0}.
Proof.
  destruct (Exists_dec (fun m => coeff p m <> 0) (map snd p)) as [E|E].
  - intros m. destruct (kdec (coeff p m) 0); [right|left]; auto.
  - right. apply Exists_exists in E as (m & _ & H). exists m. exact H.
  - left. apply peq_coeff. intros m. rewrite coeff_zero. destruct (kdec (coeff p m) 0) as [|N]; auto.
    exfalso. apply E. apply Exists_exists. exists m. split; [apply coeff_in|]; assumption.
Qed.

(** ** evaluation: a multiplicative functional is a ring homomorphism *)
Definition multiplicative (phi : mono -> K) : Prop :=
  phi mone = 1 /\ forall a b, phi (mmul a b) = phi a * phi b.
Lemma ev_hom_mul phi p q : multiplicative phi -> ev (pmul p q) phi = ev p phi * ev q phi.
Proof.
  intros [_ M]. rewrite ev_pmul.
  rewrite (ev_ext p _ (fun a => ev q phi * phi a)).
  - rewrite ev_scale_fun. ring.
  - intros a. rewrite (ev_ext q _ (fun b => phi a * phi b)) by (intros; apply M).
    rewrite ev_scale_fun. ring.
Qed.
Lemma ev_hom_one phi : multiplicative phi -> ev pone phi = 1.
Proof. intros [H _]. simpl. rewrite H. ring. Qed.

(** value of a monomial at a point given by a function *)
Fixpoint mval_up (x : nat -> K) (m : mono) (n : nat) : K :=
  match n with O => 1 | S n' => mval_up x m n' * kpow (x n') (mexp m n') end.
Definition mval (x : nat -> K) (m : mono) : K := mval_up x m (length (mlist m)).

Lemma mval_up_ge x m n : mvars n m -> forall k, (n <= k)%nat -> mval_up x m k = mval_up x m n.
Proof.
  intros V k. induction k as [|k IH]; intros H.
  - replace n with O by lia. reflexivity.
  - destruct (Nat.eq_dec n (S k)) as [->|]; [reflexivity|]. simpl. rewrite IH by lia.
    rewrite (V k) by lia. simpl. ring.
Qed.
Lemma mval_up_eq x m n : mvars n m -> mval x m = mval_up x m n.
Proof.
  intros V. apply mvars_iff in V. symmetry. apply mval_up_ge; [apply mvars_length|exact V].
Qed.
Lemma kpow_add (x : K) a b : kpow x (a + b)%nat = kpow x a * kpow x b.
Proof. induction a as [|a IH]; simpl; [ring|]. rewrite IH. ring. Qed.
Lemma mval_multiplicative x : multiplicative (mval x).
Proof.
  split; [reflexivity|]. intros a b. destruct (mvars_common a b) as (n & Va & Vb).
  rewrite !(mval_up_eq x _ n) by (auto; apply mvars_mul; auto).
  clear. induction n as [|n IH]; simpl; [ring|]. rewrite IH, mmul_exp, kpow_add. ring.
Qed.
Definition peval (x : nat -> K) (p : spoly) : K := ev p (mval x).

Global Arguments pmul : simpl never.
Global Arguments padd : simpl never.
Global Arguments popp : simpl never.
Global Arguments psub : simpl never.
Global Arguments tmul : simpl never.
Global Arguments pterm : simpl never.

(** ** variables *)
Definition svars (n : nat) (p : spoly) : Prop := forall m, coeff p m <> 0 -> mvars n m.
Global Instance svars_proper n : Proper (peq ==> iff) (svars n).
Proof. intros p q E. unfold svars. split; intros H m Hm; apply H; [rewrite E|rewrite <- E]; exact Hm. Qed.
Lemma svars_le n n' p : (n <= n')%nat -> svars n p -> svars n' p.
Proof. intros L H m Hm. apply (mvars_le n); auto. Qed.
Lemma svars_exists p : exists n, svars n p.
Proof.
  assert (X : exists n, forall m, In m (map snd p) -> mvars n m).
  { induction (map snd p) as [|a l (n & IH)]; [exists O; intros m []|].
    exists (Nat.max (length (mlist a)) n). intros m [<-|I].
    - apply (mvars_le (length (mlist a))); [lia|apply mvars_length].
    - apply (mvars_le n); [lia|auto]. }
  destruct X as (n & X). exists n. intros m Hm. apply X. apply coeff_in. exact Hm.
Qed.

(** ** ideals *)
Fixpoint lincomb (qs gs : list spoly) : spoly :=
  match qs, gs with
  | q :: qs', g :: gs' => padd (pmul q g) (lincomb qs' gs')
  | _, _ => pzero
  end.
(** the ideal generated by a list: all combinations with polynomial coefficients *)
Definition in_ideal (gs : list spoly) (f : spoly) : Prop :=
  exists qs, length qs = length gs /\ peq f (lincomb qs gs).

Global Instance in_ideal_proper gs : Proper (peq ==> iff) (in_ideal gs).
Proof. intros p q E. split; intros (qs & L & H); exists qs; split; auto; [rewrite <- E|rewrite E]; exact H. Qed.

Lemma lincomb_zero gs : peq (lincomb (repeat pzero (length gs)) gs) pzero.
Proof. induction gs as [|g gs IH]; simpl; [reflexivity|]. rewrite IH. ring. Qed.
Lemma in_ideal_zero gs : in_ideal gs pzero.
Proof. exists (repeat pzero (length gs)). rewrite repeat_length, lincomb_zero. split; reflexivity. Qed.
Lemma lincomb_add gs : forall qs qs', length qs = length gs -> length qs' = length gs ->
  exists rs, length rs = length gs /\ peq (padd (lincomb qs gs) (lincomb qs' gs)) (lincomb rs gs).
Proof.
  induction gs as [|g gs IH]; intros [|q qs] [|q' qs'] L L'; simpl in *; try discriminate.
  - exists []. split; [reflexivity|]. simpl. ring.
  - destruct (IH qs qs') as (rs & Lr & E); [lia..|]. exists (padd q q' :: rs). simpl. split; [lia|].
    rewrite <- E. ring.
Qed.
Lemma in_ideal_add gs p q : in_ideal gs p -> in_ideal gs q -> in_ideal gs (padd p q).
Proof.
  intros (qs & L & E) (qs' & L' & E'). destruct (lincomb_add gs qs qs' L L') as (rs & Lr & Er).
  exists rs. split; [exact Lr|]. rewrite E, E'. exact Er.
Qed.
Lemma in_ideal_mul gs p q : in_ideal gs q -> in_ideal gs (pmul p q).
Proof.
  intros (qs & L & E). exists (map (pmul p) qs). rewrite map_length. split; [exact L|]. rewrite E. clear E.
  revert qs L. induction gs as [|g gs IH]; intros [|q' qs] L; simpl in *; try discriminate.
  - ring.
  - rewrite <- IH by lia. ring.
Qed.
Lemma in_ideal_opp gs p : in_ideal gs p -> in_ideal gs (popp p).
Proof.
  intros H. assert (E : peq (popp p) (pmul (popp pone) p)) by ring. rewrite E. apply in_ideal_mul. exact H.
Qed.
Lemma in_ideal_sub gs p q : in_ideal gs p -> in_ideal gs q -> in_ideal gs (psub p q).
Proof. intros. apply in_ideal_add; [|apply in_ideal_opp]; assumption. Qed.
Lemma in_ideal_tmul gs c a q : in_ideal gs q -> in_ideal gs (tmul c a q).
Proof. rewrite tmul_pmul. apply in_ideal_mul. Qed.
Lemma in_ideal_gen gs g : In g gs -> in_ideal gs g.
Proof.
  induction gs as [|h gs IH]; simpl; intros I; [contradiction|]. destruct I as [->|I].
  - exists (pone :: repeat pzero (length gs)). simpl. rewrite repeat_length, lincomb_zero. split; [reflexivity|]. ring.
  - destruct (IH I) as (qs & L & E). exists (pzero :: qs). simpl. split; [lia|]. rewrite <- E. ring.
Qed.
Lemma in_ideal_gen_eq gs g h : In h gs -> peq g h -> in_ideal gs g.
Proof. intros I E. rewrite E. apply in_ideal_gen. exact I. Qed.
Lemma in_ideal_sub_ideal gs hs : (forall g, In g gs -> in_ideal hs g) ->
  forall f, in_ideal gs f -> in_ideal hs f.
Proof.
  intros H f (qs & L & E). rewrite E. clear E f. revert qs L.
  induction gs as [|g gs IH]; intros [|q qs] L; simpl in *; try discriminate; try apply in_ideal_zero.
  apply in_ideal_add; [apply in_ideal_mul; auto|]. apply IH; auto.
Qed.

End PolySpec.
Arguments spoly K : clear implicits.
