(** * Properties C123 and C125: computations with integers over Rational, f32 and f64 are exact within explicit bounds.

    An integer polynomial is a list of integer coefficients with their multidegrees; [norm] is the sum of the absolute values
    of its coefficients.  [exactly F rd B]: [F] is one of the number types of the crate, [rd n x] says that the number [x] has
    the integer value [n], and [B] is the bound: i64::MAX, 2^24 or 2^53. *)
From Coq Require Import ZArith QArith Qcanon Lia.
From Verif Require Import Base BaseLemmas IntModel RatModel FieldIface IntProofs RatProofs NumFacts MDegModel OrdModel PolyModel CompModel
  MonoSpec MDegProofs OrdProofs PolySpec GroebnerSpec PolyProofs DivProofs UtilModel MatModel LinSpec MatProofs Param ParamMat Ideal FloatModel FloatExact FloatSim PropFloat PropMdeg
  PropPoly PropDiv PropCost BoundProofs PropBounds IntSim.
From Verif Require IntNorm PropFits.
Local Open Scope Z_scope.

Notation QI := (ideal_impl QcField).
Notation QS := (ideal_spec QcField).
Definition ipoly : Type := list (Z * mdeg).
(** the integer polynomial as a polynomial with exact rational coefficients *)
Definition whole (z : ipoly) : poly QI := map (fun t => @mkterm QI (intq (fst t)) (snd t)) z.
Definition norm (z : ipoly) : Z := fold_right (fun t s => Z.abs (fst t) + s) 0 z.
(** no zero coefficient, canonical multidegrees with u8 entries, no multidegree twice *)
Definition tidy (z : ipoly) : Prop := pwf QS (whole z).

Definition rat_is (n : Z) (r : rat_impl Debug) : Prop := r = mkrat n 1 /\ Z.abs n <= i64_max.
Definition float_is (t : fmt) (e : fenv) (n : Z) (x : float_impl t e) : Prop := stands t x (intq n).
Inductive exactly : forall F : FieldImpl, (Z -> F -> Prop) -> Z -> Prop :=
| exactly_rational : exactly (rat_impl Debug) rat_is i64_max
| exactly_float t e : is_fmt t -> exactly (float_impl t e) (float_is t e) (2 ^ prec t).
Definition reads {F : FieldImpl} (rd : Z -> F -> Prop) (p : poly F) (z : ipoly) : Prop :=
  Forall2 (fun t s => rd (fst s) (coef t) /\ tdeg t = snd s) p z.

(** ** the bounded integers in between *)
Lemma exactly_sim F rd M : exactly F rd M -> FieldSim (zimpl M) F rd.
Proof. intros [|t e T]; [exact (zr_sim i64_max (Z.le_refl _))|exact (zf_sim (2 ^ prec t) t e T (Z.le_refl _))]. Qed.
Section Lift.
Context (M : Z).
Notation Zi := (zimpl M).
Definition lift (z : ipoly) : poly Zi := map (fun t => @mkterm Zi (fst t) (snd t)) z.
Definition unlift (p : poly Zi) : ipoly := map (fun t : term Zi => (coef t : Z, tdeg t)) p.
Lemma lift_unlift p : lift (unlift p) = p.
Proof. unfold lift, unlift. rewrite map_map. rewrite <- (map_id p) at 2. apply map_ext. intros []; reflexivity. Qed.
Lemma unlift_lift z : unlift (lift z) = z.
Proof. unfold lift, unlift. rewrite map_map. rewrite <- (map_id z) at 2. apply map_ext. intros []; reflexivity. Qed.
Lemma l1_lift z : IntNorm.l1 M (lift z) = norm z.
Proof. induction z as [|t z IH]; [reflexivity|]. change (lift (t :: z)) with (@mkterm Zi (fst t) (snd t) :: lift z). rewrite IntNorm.l1_cons, IH. reflexivity. Qed.
Lemma norm_unlift p : norm (unlift p) = IntNorm.l1 M p.
Proof. rewrite <- l1_lift, lift_unlift. reflexivity. Qed.
Lemma rel_whole z : Forall2 (trel (R := zq M)) (lift z) (whole z).
Proof. induction z as [|t z IH]; [constructor|]. constructor; [split; reflexivity|exact IH]. Qed.
Lemma whole_rel p q : Forall2 (trel (R := zq M)) p q -> q = whole (unlift p).
Proof.
  induction 1 as [|t s p q [H1 H2] _ IH]; [reflexivity|]. cbn [unlift whole map fst snd]. f_equal; [|exact IH].
  destruct s as [c d]. cbn [coef tdeg] in *. unfold zq in H1. subst. reflexivity.
Qed.
Context {F : FieldImpl} (rd : Z -> F -> Prop).
Notation R := (rd : Zi -> F -> Prop).
Lemma reads_lift p z : reads rd p z -> Forall2 (trel (R := R)) (lift z) p.
Proof. induction 1 as [|t s p z [H1 H2] _ IH]; [constructor|]. constructor; [split; [exact H1|symmetry; exact H2]|exact IH]. Qed.
Lemma lift_reads p q : Forall2 (trel (R := R)) p q -> reads rd q (unlift p).
Proof. induction 1 as [|t s p q [H1 H2] _ IH]; [constructor|]. constructor; [split; [exact H1|symmetry; exact H2]|exact IH]. Qed.
(** a run on integers within the bound is a run over [F] and an exact run *)
Lemma through (x : res (poly Zi)) (y : res (poly F)) (w : res (poly QI)) (Q : poly QI -> Prop) B :
  yields x (fun r => IntNorm.l1 M r <= B) -> rsim (Forall2 (trel (R := R))) x y -> rsim (Forall2 (trel (R := zq M))) x w -> safe w Q ->
  exists r u, y = Ok r /\ reads rd r u /\ norm u <= B /\ Q (whole u).
Proof.
  intros (r & -> & L) H1 H2 HQ. cbn in H1, H2. destruct y as [y| |]; try contradiction. destruct w as [w| |]; try contradiction.
  exists y, (unlift r). split; [reflexivity|]. split; [apply lift_reads; exact H1|]. split; [rewrite norm_unlift; exact L|].
  rewrite <- (whole_rel _ _ H2). exact HQ.
Qed.
End Lift.

Section C123.
Context (F : FieldImpl) (rd : Z -> F -> Prop) (B : Z) (X : exactly F rd B).
Notation reads := (reads rd).
Notation val := (ip QS).
Theorem C123_add : forall (p q : poly F) z w, reads p z -> reads q w -> tidy z -> tidy w -> norm z + norm w <= B ->
  exists r u, poly_add p q = Ok r /\ reads r u /\ norm u <= norm z + norm w /\ tidy u /\ peq (val (whole u)) (padd (val (whole z)) (val (whole w))).
Proof.
  intros p q z w Hp Hq Tz Tw L. pose proof (exactly_sim _ _ _ X) as S.
  eapply (through B rd _ _ _ (fun r => pwf QS r /\ peq (val r) (padd (val (whole z)) (val (whole w))))).
  - rewrite <- !(l1_lift B) in *. apply (IntNorm.add_l1 B (lift B z) (lift B w)). exact L.
  - apply (poly_add_rsim S); apply reads_lift; assumption.
  - apply (poly_add_rsim (zq_sim B)); apply rel_whole.
  - apply (poly_add_ok QS); [exact Tz|]. apply Forall_twf0. apply Tw.
Qed.
Theorem C123_sub : forall (p q : poly F) z w, reads p z -> reads q w -> tidy z -> tidy w -> norm z + norm w <= B ->
  exists r u, poly_sub p q = Ok r /\ reads r u /\ norm u <= norm z + norm w /\ tidy u /\ peq (val (whole u)) (psub (val (whole z)) (val (whole w))).
Proof.
  intros p q z w Hp Hq Tz Tw L. pose proof (exactly_sim _ _ _ X) as S.
  eapply (through B rd _ _ _ (fun r => pwf QS r /\ peq (val r) (psub (val (whole z)) (val (whole w))))).
  - rewrite <- !(l1_lift B) in *. apply (IntNorm.sub_l1 B (lift B z) (lift B w)). exact L.
  - apply (poly_sub_rsim S); apply reads_lift; assumption.
  - apply (poly_sub_rsim (zq_sim B)); apply rel_whole.
  - apply (poly_sub_ok QS); [exact Tz|]. apply Forall_twf0. apply Tw.
Qed.
Theorem C123_neg : forall (p : poly F) z, reads p z -> tidy z -> norm z <= B ->
  exists r u, poly_neg p = Ok r /\ reads r u /\ norm u <= norm z /\ tidy u /\ peq (val (whole u)) (popp (val (whole z))).
Proof.
  intros p z Hp Tz L. pose proof (exactly_sim _ _ _ X) as S.
  eapply (through B rd _ _ _ (fun r => pwf QS r /\ peq (val r) (popp (val (whole z))))).
  - rewrite <- !(l1_lift B) in *. destruct (IntNorm.neg_l1 B (lift B z) L) as (r & E & N). exists r. split; [exact E|]. apply Z.eq_le_incl. exact N.
  - apply (poly_neg_rsim S); apply reads_lift; assumption.
  - apply (poly_neg_rsim (zq_sim B)); apply rel_whole.
  - eapply safe_mono; [apply (poly_neg_ok QS); apply Forall_twf0; apply Tz|]. intros r (_ & H & _ & E). split; [apply H; exact Tz|exact E].
Qed.
(** the exponents of every product of two terms fit in a u8 *)
Definition exponents_fit (z w : ipoly) : Prop := forall s t, In s z -> In t w -> forall i, (expo (snd s) i + expo (snd t) i <= 255)%nat.
Lemma tidy_u8 z s : tidy z -> In s z -> u8s (snd s).
Proof.
  intros [T _] I. rewrite Forall_forall in T. specialize (T (@mkterm QI (intq (fst s)) (snd s))). destruct T as (_ & _ & W); [|exact (proj2 W)].
  apply (in_map (fun t : Z * mdeg => @mkterm QI (intq (fst t)) (snd t)) z s I).
Qed.
Theorem C123_mul : forall m (p q : poly F) z w, reads p z -> reads q w -> tidy z -> tidy w -> exponents_fit z w -> norm z * norm w <= B ->
  exists r u, poly_mul m p q = Ok r /\ reads r u /\ norm u <= norm z * norm w /\ tidy u /\ peq (val (whole u)) (pmul (val (whole z)) (val (whole w))).
Proof.
  intros m p q z w Hp Hq Tz Tw Ef L. pose proof (exactly_sim _ _ _ X) as S.
  eapply (through B rd _ _ _ (fun r => pwf QS r /\ peq (val r) (pmul (val (whole z)) (val (whole w))))).
  - rewrite <- !(l1_lift B) in *. apply (IntNorm.mul_l1 B Debug (lift B z) (lift B w)); [|exact L].
    intros s t Is It. unfold lift in Is, It. apply in_map_iff in Is as (s' & <- & Is). apply in_map_iff in It as (t' & <- & It). cbn [tdeg].
    destruct (proj2 (C14_add_overflow_iff (snd t') (snd s') (tidy_u8 w t' Tw It) (tidy_u8 z s' Tz Is))) as (c & E & _); [|exists c; exact E].
    intros i. pose proof (Ef s' t' Is It i) as Ei. cbv beta in Ei. rewrite Nat.add_comm. exact Ei.
  - apply (poly_mul_rsim S Debug m); [left; reflexivity| |]; apply reads_lift; assumption.
  - apply (poly_mul_rsim (zq_sim B) Debug Debug); [left; reflexivity| |]; apply rel_whole.
  - apply (poly_mul_ok QS); [apply Forall_twf0; apply Tz|exact Tw].
Qed.

(** ** Matrices *)
(** an [n] x [k] matrix whose entries are the integers [A i j] *)
Definition mreads (a : mat F) (n k : nat) (A : nat -> nat -> Z) : Prop :=
  mrows a = n /\ mcols a = k /\ length (ments a) = (n * k)%nat /\
  forall i j, (i < n)%nat -> (j < k)%nat -> exists x, mget a i j = Ok x /\ rd (A i j) x.
Definition bounded (n k : nat) (A : nat -> nat -> Z) (c : Z) : Prop := forall i j, (i < n)%nat -> (j < k)%nat -> Z.abs (A i j) <= c.
Fixpoint zsum (n : nat) (f : nat -> Z) : Z := match n with O => 0 | S n' => zsum n' f + f n' end.
Notation Zi := (zimpl B).
Lemma Forall2_of_nth {T U : Type} (R : T -> U -> Prop) d d' : forall l l', length l = length l' -> (forall i, (i < length l)%nat -> R (nth i l d) (nth i l' d')) -> Forall2 R l l'.
Proof.
  induction l as [|x l IH]; intros [|y l'] E H; try discriminate; constructor.
  - apply (H 0%nat). cbn. lia.
  - apply IH; [cbn in E; lia|]. intros i Hi. apply (H (S i)). cbn. lia.
Qed.
Lemma mreads_rel a n k A : mreads a n k A -> mrel (R := rd : Zi -> F -> Prop) (@from_fn Zi n k A) a.
Proof.
  intros (Hr & Hc & L & H). constructor; [|symmetry; exact Hr|symmetry; exact Hc]. cbn [from_fn ments].
  assert (Lz : length (map (fun p : nat * nat => A (fst p) (snd p) : Zi) (get_box_iter n k)) = (n * k)%nat) by (rewrite map_length; apply MatProofs.box_length).
  apply (Forall2_of_nth _ (f0 : Zi) (f0 : F)); [rewrite L; exact Lz|]. intros x Hx. rewrite Lz in Hx.
  destruct (idx_split n k x Hx) as (i & j & Hi & Hj & ->). destruct (H i j Hi Hj) as (y & Ey & Ry).
  pose proof (@from_fn_entry Zi n k A i j Hi Hj) as E. unfold mentry, from_fn in E. cbn [mcols ments] in E. unfold from_fn. cbn [ments]. rewrite E.
  assert (S : mshape a) by (unfold mshape; rewrite Hr, Hc; exact L).
  rewrite mget_ok in Ey by (try assumption; lia). unfold mentry in Ey. rewrite Hc in Ey. injection Ey as ->. exact Ry.
Qed.
Lemma rel_mreads (z : mat Zi) a n k A : mrel (R := rd : Zi -> F -> Prop) z a -> mshape z -> mrows z = n -> mcols z = k ->
  (forall i j, (i < n)%nat -> (j < k)%nat -> mentry z i j = A i j) -> mreads a n k A.
Proof.
  intros [He Hr Hc] S <- <- H. split; [auto|]. split; [auto|]. split; [rewrite <- (Forall2_length He); exact S|].
  intros i j Hi Hj. assert (S' : mshape a) by (unfold mshape; rewrite <- Hr, <- Hc, <- (Forall2_length He); exact S).
  exists (mentry a i j). split; [apply mget_ok; [exact S'| |]; lia|]. rewrite <- (H i j Hi Hj). unfold mentry. rewrite <- Hc.
  apply (MatProofs.Forall2_nth (rd : Zi -> F -> Prop) _ _ f0 f0 _ He). rewrite S. apply idx_lt; assumption.
Qed.
Lemma qrel n k A : mrel (R := zq B) (@from_fn Zi n k A) (@from_fn QI n k (fun i j => intq (A i j))).
Proof. constructor; try reflexivity. unfold from_fn. cbn [ments]. induction (get_box_iter n k); constructor; [reflexivity|assumption]. Qed.
Lemma qrep n k (A : nat -> nat -> Qc) : mrep QS (@from_fn QI n k A) n k A.
Proof.
  split; [unfold mshape, from_fn; cbn [ments mrows mcols]; rewrite map_length; apply MatProofs.box_length|]. split; [reflexivity|]. split; [reflexivity|].
  intros i j Hi Hj. split; [exact I|]. exact (@from_fn_entry QI n k A i j Hi Hj).
Qed.
Lemma zb_fn n k A c : bounded n k A c -> IntNorm.zb B c (@from_fn Zi n k A).
Proof.
  intros H. unfold IntNorm.zb, from_fn. cbn [ments]. apply Forall_forall. intros x Hx. apply in_map_iff in Hx as ([i j] & <- & Hx).
  apply MatProofs.box_In in Hx as [Hi Hj]. exact (H i j Hi Hj).
Qed.
Lemma sum_intq n (f : nat -> Z) : @sumn QcField n (fun i => intq (f i)) = intq (zsum n f).
Proof. induction n as [|n IH]; [reflexivity|]. cbn [sumn zsum]. rewrite IH. apply intq_add. Qed.
(** an integer run within the bound *)
Lemma through_mat (x : res (mat Zi)) (y : res (mat F)) (w : res (mat QI)) n k A c :
  yields x (IntNorm.zb B c) -> rsim (mrel (R := rd : Zi -> F -> Prop)) x y -> rsim (mrel (R := zq B)) x w ->
  safe w (fun a => mrep QS a n k (fun i j => intq (A i j))) -> exists r, y = Ok r /\ mreads r n k A /\ bounded n k A c.
Proof.
  intros (z & -> & L) H1 H2 HQ. cbn in H1, H2. destruct y as [y| |]; try contradiction. destruct w as [w| |]; try contradiction.
  destruct HQ as (Sw & Rw & Cw & Ew). destruct H2 as [He Hr Hc].
  assert (Sz : mshape z) by (unfold mshape; rewrite Hr, Hc, (Forall2_length He); exact Sw).
  assert (E : forall i j, (i < n)%nat -> (j < k)%nat -> mentry z i j = A i j).
  { intros i j Hi Hj. destruct (Ew i j Hi Hj) as [_ E]. unfold mentry in *. rewrite <- Hc in E.
    apply intq_inj. rewrite <- E. symmetry. apply (MatProofs.Forall2_nth (zq B) _ _ f0 f0 _ He). rewrite Sz. apply idx_lt; congruence. }
  exists y. split; [reflexivity|]. split; [apply (rel_mreads z); [exact H1|exact Sz|congruence|congruence|exact E]|].
  intros i j Hi Hj. rewrite <- (E i j Hi Hj). unfold IntNorm.zb in L. rewrite Forall_forall in L. apply L. unfold mentry. apply nth_In. rewrite Sz. apply idx_lt; congruence.
Qed.
Lemma mrep_ext (a : mat QI) n k A A' : (forall i j, (i < n)%nat -> (j < k)%nat -> A i j = A' i j) -> mrep QS a n k A -> mrep QS a n k A'.
Proof. intros H (S & R & C & E). split; [exact S|]. split; [exact R|]. split; [exact C|]. intros i j Hi Hj. rewrite <- (H i j Hi Hj). auto. Qed.
Theorem C123_mat_add : forall (a b : mat F) n k A A' c c', mreads a n k A -> mreads b n k A' -> bounded n k A c -> bounded n k A' c' -> c + c' <= B ->
  exists r, mat_add a b = Ok r /\ mreads r n k (fun i j => A i j + A' i j) /\ bounded n k (fun i j => A i j + A' i j) (c + c').
Proof.
  intros a b n k A A' c c' Ha Hb Bc Bc' L. pose proof (exactly_sim _ _ _ X) as S. eapply through_mat.
  - apply (IntNorm.mat_add_zb B (@from_fn Zi n k A) (@from_fn Zi n k A') c c'); [apply zb_fn; exact Bc|apply zb_fn; exact Bc'|reflexivity|reflexivity|exact L].
  - apply (mat_add_rsim S); apply mreads_rel; assumption.
  - apply (mat_add_rsim (zq_sim B)); apply qrel.
  - eapply safe_mono; [apply (add_mat_ok QS); apply qrep|]. intros r R. eapply mrep_ext; [|exact R]. intros i j _ _. apply intq_add.
Qed.
Theorem C123_mat_scale : forall (a : mat F) s n k A c e, mreads a n k A -> rd e s -> bounded n k A c -> c * Z.abs e <= B ->
  exists r, mat_mul_scalar a s = Ok r /\ mreads r n k (fun i j => A i j * e) /\ bounded n k (fun i j => A i j * e) (c * Z.abs e).
Proof.
  intros a s n k A c e Ha Hs Bc L. pose proof (exactly_sim _ _ _ X) as S. eapply through_mat.
  - apply (IntNorm.mat_scalar_zb B (@from_fn Zi n k A) e c); [apply zb_fn; exact Bc|exact L].
  - apply (mat_mul_scalar_rsim S); [apply mreads_rel; assumption|exact Hs].
  - apply (mat_mul_scalar_rsim (zq_sim B)); [apply qrel|]. instantiate (1 := intq e). reflexivity.
  - eapply safe_mono; [apply (mul_scalar_ok QS); [apply qrep|exact I]|]. intros r R. eapply mrep_ext; [|exact R]. intros i j _ _. apply intq_mul.
Qed.
Theorem C123_mat_mul : forall (a b : mat F) n k l A A' c c', mreads a n k A -> mreads b k l A' -> bounded n k A c -> bounded k l A' c' -> 0 <= c -> 0 <= c' ->
  Z.of_nat k * (c * c') <= B ->
  exists r, mat_mul a b = Ok r /\ mreads r n l (fun i j => zsum k (fun t => A i t * A' t j)) /\ bounded n l (fun i j => zsum k (fun t => A i t * A' t j)) (Z.of_nat k * (c * c')).
Proof.
  intros a b n k l A A' c c' Ha Hb Bc Bc' P P' L. pose proof (exactly_sim _ _ _ X) as S. eapply through_mat.
  - apply (IntNorm.mat_mul_zb B (@from_fn Zi n k A) (@from_fn Zi k l A') c c'); try assumption; try reflexivity; try (apply zb_fn; assumption);
      unfold from_fn; cbn [ments mrows mcols]; rewrite map_length; apply MatProofs.box_length.
  - apply (mat_mul_rsim S); apply mreads_rel; assumption.
  - apply (mat_mul_rsim (zq_sim B)); apply qrel.
  - eapply safe_mono; [apply (mat_mul_ok QS _ _ n k l); apply qrep|]. intros r R. eapply mrep_ext; [|exact R]. intros i j _ _. unfold LinSpec.mmul.
    rewrite <- sum_intq. apply sumn_ext. intros t _. apply intq_mul.
Qed.
End C123.

Section C125.
Context (F : FieldImpl) (rd : Z -> F -> Prop) (B : Z) (X : exactly F rd B).
Notation reads := (reads rd).
Notation val := (ip QS).
Context {O : ord_impl} (OS : OrderSpec O).
Notation LM := (is_lm (olt OS)).
(** leading coefficient 1 or -1 *)
Definition unit_lc (w : ipoly) : Prop := forall l, LM (val (whole w)) l -> coeff (val (whole w)) l = intq 1 \/ coeff (val (whole w)) l = intq (-1).
(** [q]s and [r]: a quotient and remainder of [z] by [ws] *)
Record division (z : ipoly) (ws : list ipoly) (r : ipoly) (qs : list ipoly) : Prop := {
  dv_len : length qs = length ws;
  dv_r : tidy r;
  dv_q : Forall tidy qs;
  dv_id : peq (val (whole z)) (padd (lincomb (map (fun q => val (whole q)) qs) (map (fun w => val (whole w)) ws)) (val (whole r)));
  dv_red : forall t w l, In t r -> In w ws -> LM (val (whole w)) l -> ~ mdiv l (canon (snd t)) }.
Lemma unit_lift w : tidy w -> unit_lc w -> IntNorm.unit_leading B O (lift B w).
Proof.
  intros T U l E. pose proof (leading_term_rsim (R := zq B) O O (fun a b => rsim_refl (O a b)) _ _ (rel_whole B w)) as H. rewrite E in H. cbn in H.
  pose proof (leading_term_ok QS OS (whole w) T) as G. destruct (leading_term O (whole w)) as [[l'|]| |]; cbn in H, G; try contradiction.
  destruct G as (_ & _ & L & C). destruct H as [H _]. unfold zq in H. specialize (U _ L). rewrite C in U. cbn [den QS ideal_spec] in U. unfold IntNorm.zc.
  assert (U' : intq (coef l) = intq 1 \/ intq (coef l) = intq (-1)) by (rewrite <- H; exact U).
  destruct U' as [U'|U']; apply intq_inj in U'; rewrite U'; reflexivity.
Qed.
Lemma rels_whole ws : Forall2 (Forall2 (trel (R := zq B))) (map (lift B) ws) (map whole ws).
Proof. induction ws; constructor; [apply rel_whole|assumption]. Qed.
Lemma reads_lifts ps ws : Forall2 reads ps ws -> Forall2 (Forall2 (trel (R := rd : zimpl B -> F -> Prop))) (map (lift B) ws) ps.
Proof. induction 1; constructor; [apply reads_lift; assumption|assumption]. Qed.
Lemma flips PS ps : Forall2 (Forall2 (trel (R := zq B))) ps PS -> Forall2 (Forall2 (trel (R := IntNorm.qz B))) PS ps.
Proof. induction 1; constructor; [apply IntNorm.flip'; assumption|assumption]. Qed.
Lemma whole_rels PS ps : Forall2 (Forall2 (trel (R := IntNorm.qz B))) PS ps -> PS = map whole (map (unlift B) ps).
Proof. induction 1; [reflexivity|]. cbn [map]. f_equal; [apply whole_rel, IntNorm.flip; assumption|assumption]. Qed.
Lemma lift_readss ps qs : Forall2 (Forall2 (trel (R := rd : zimpl B -> F -> Prop))) ps qs -> Forall2 reads qs (map (unlift B) ps).
Proof. induction 1; constructor; [apply lift_reads; assumption|assumption]. Qed.
Lemma divide_exact k fuel (p : poly F) ps z ws G a : reads p z -> Forall2 reads ps ws -> tidy z -> Forall tidy ws -> Forall unit_lc ws -> Forall (fun w => norm w <= G) ws -> 0 <= G ->
  divide Debug O k (whole z) (map whole ws) = Ok a -> norm z * (2 + G) ^ Z.of_nat k <= B -> (k <= fuel)%nat ->
  exists r qs u us, divide Debug O fuel p ps = Ok (r, qs) /\ reads r u /\ Forall2 reads qs us /\ division z ws u us /\
    Forall (fun u => norm u <= norm z * (2 + G) ^ Z.of_nat k) (u :: us).
Proof.
  intros Hp Hps Tz Tw Uw Nw HG E L K. pose proof (exactly_sim _ _ _ X) as S.
  pose proof (IntNorm.divide_back B Debug O G (map whole ws) (map (lift B) ws) k (whole z) (lift B z) HG (flips _ _ (rels_whole ws))) as D.
  destruct (fun h1 h2 h3 h4 => D h1 h2 h3 h4 a E) as ([zr zqs] & Ez & [R1 R2] & N1 & N2).
  - apply Forall_forall. intros g Ig. apply in_map_iff in Ig as (w & <- & Iw). rewrite Forall_forall in Tw, Uw. apply unit_lift; auto.
  - apply Forall_forall. intros g Ig. apply in_map_iff in Ig as (w & <- & Iw). rewrite Forall_forall in Nw. rewrite l1_lift. auto.
  - apply IntNorm.flip', rel_whole.
  - rewrite l1_lift. exact L.
  - destruct a as [ar aqs]. cbn [fst snd] in *. rewrite l1_lift in N1, N2.
    pose proof (divide_rsim S Debug Debug (or_introl eq_refl) O O (fun a b => rsim_refl (O a b)) k _ _ _ _ (reads_lift B rd p z Hp) (reads_lifts ps ws Hps)) as H. rewrite Ez in H.
    destruct (divide Debug O k p ps) as [[r qs]| |] eqn:Er; cbn in H; try contradiction. destruct H as [H1 H2]. cbn [fst snd] in H1, H2.
    exists r, qs, (unlift B zr), (map (unlift B) zqs). split; [|split; [|split; [|split]]].
    + unfold divide in Er |- *. rewrite (PropFits.divide_loop_stable Debug O k fuel) by (try exact K; rewrite Er; discriminate). exact Er.
    + apply lift_reads. exact H1.
    + apply lift_readss. exact H2.
    + assert (Er' : ar = whole (unlift B zr)) by (apply whole_rel, IntNorm.flip; exact R1). apply whole_rels in R2. subst ar aqs.
      assert (Tw' : Forall (pwf QS) (map whole ws)) by (apply Forall_map; exact Tw).
      destruct (C32_division_identity QS OS k (whole z) (map whole ws) _ _ Tz Tw' E) as (A1 & A2 & A3 & A4).
      pose proof (C33_remainder_reduced QS OS k (whole z) (map whole ws) _ _ Tz Tw' E) as A5. rewrite !map_map in A4. rewrite !map_length in A1. constructor.
      * rewrite map_length. exact A1.
      * exact A2.
      * rewrite Forall_forall in A3. apply Forall_forall. intros q Iq. exact (A3 _ (in_map whole _ _ Iq)).
      * rewrite map_map. exact A4.
      * intros t w l It Iw Lw. exact (A5 (@mkterm QI (intq (fst t)) (snd t)) (whole w) l (in_map (fun t : Z * mdeg => @mkterm QI (intq (fst t)) (snd t)) _ _ It) (in_map whole _ _ Iw) Lw).
    + constructor; [rewrite norm_unlift; exact N1|]. apply Forall_map. eapply Forall_impl; [|exact N2]. intros q Hq. cbn beta in *. rewrite norm_unlift. exact Hq.
Qed.
(** [z] uses the first [n] variables only and has total degree at most [d] *)
Definition within (n d : nat) (z : ipoly) : Prop := Forall (fun t => (length (snd t) <= n /\ list_sum (snd t) <= d)%nat) z.
Lemma within_upto n d z : tidy z -> within n d z -> PropFits.upto QS n d (whole z).
Proof.
  intros T H. apply PropFits.upto_terms; [exact T|]. unfold within in H. rewrite Forall_forall in H. apply Forall_forall. intros t It. apply in_map_iff in It as (s & <- & Is). exact (H s Is).
Qed.
Lemma withins_upto n d ws : Forall tidy ws -> Forall (within n d) ws -> Forall (PropFits.upto QS n d) (map whole ws).
Proof.
  intros T H. rewrite Forall_forall in *. intros g Ig. apply in_map_iff in Ig as (w & <- & Iw). apply within_upto; auto.
Qed.
(** one variable, any of the four orders *)
Theorem C125_univariate : PropFits.is_order O -> forall d fuel (p : poly F) ps z ws G, reads p z -> Forall2 reads ps ws -> tidy z -> Forall tidy ws ->
  within 1 d z -> Forall (within 1 255) ws -> (d <= 255)%nat -> (d < fuel)%nat ->
  Forall unit_lc ws -> Forall (fun w => norm w <= G) ws -> 0 <= G -> norm z * (2 + G) ^ Z.of_nat (d + 1) <= B ->
  exists r qs u us, divide Debug O fuel p ps = Ok (r, qs) /\ reads r u /\ Forall2 reads qs us /\ division z ws u us /\
    Forall (fun u => norm u <= norm z * (2 + G) ^ Z.of_nat (d + 1)) (u :: us).
Proof.
  intros IO d fuel p ps z ws G Hp Hps Tz Tw Wz Ww D L Uw Nw HG N.
  destruct (PropFits.C124_univariate QS (PropFits.ideal_roomy QcField) O OS IO d (d + 1) (whole z) (map whole ws)) as (r & qs & E);
    [exact Tz|apply Forall_map; exact Tw|apply within_upto; assumption|apply withins_upto; assumption|exact D|lia|].
  eapply (divide_exact (d + 1) fuel p ps z ws G); eauto. lia.
Qed.
End C125.
(** any number of variables, graded orders *)
Theorem C125_graded : forall F rd B, exactly F rd B -> forall n d fuel (p : poly F) ps z ws G, reads rd p z -> Forall2 (reads rd) ps ws -> tidy z -> Forall tidy ws ->
  within n d z -> Forall (within n 255) ws -> (d <= 255)%nat -> (choose (n + d) n <= fuel)%nat ->
  Forall (fun w => norm w <= G) ws -> 0 <= G -> norm z * (2 + G) ^ Z.of_nat (choose (n + d) n) <= B ->
  (Forall (unit_lc grlex_spec) ws ->
   exists r qs u us, divide Debug (grlex_cmp Debug) fuel p ps = Ok (r, qs) /\ reads rd r u /\ Forall2 (reads rd) qs us /\ division grlex_spec z ws u us) /\
  (Forall (unit_lc grevlex_spec) ws ->
   exists r qs u us, divide Debug (grevlex_cmp Debug) fuel p ps = Ok (r, qs) /\ reads rd r u /\ Forall2 (reads rd) qs us /\ division grevlex_spec z ws u us).
Proof.
  intros F rd B X n d fuel p ps z ws G Hp Hps Tz Tw Wz Ww D L Nw HG N.
  destruct (PropFits.C124_graded QS (PropFits.ideal_roomy QcField) n d (choose (n + d) n) (whole z) (map whole ws)) as [(r1 & q1 & E1) (r2 & q2 & E2)];
    [exact Tz|apply Forall_map; exact Tw|apply within_upto; assumption|apply withins_upto; assumption|exact D|lia|].
  split; intros U.
  - destruct (divide_exact F rd B X grlex_spec (choose (n + d) n) fuel p ps z ws G _ Hp Hps Tz Tw U Nw HG E1 N L) as (r & qs & u & us & A1 & A2 & A3 & A4 & _). exists r, qs, u, us. auto.
  - destruct (divide_exact F rd B X grevlex_spec (choose (n + d) n) fuel p ps z ws G _ Hp Hps Tz Tw U Nw HG E2 N L) as (r & qs & u & us & A1 & A2 & A3 & A4 & _). exists r, qs, u, us. auto.
Qed.

(** ** The bounds are needed, and they are met *)
Lemma tidy_b z : forallb (fun t => negb (fst t =? 0) && (canonicalb (snd t) && forallb (fun e => e <=? 255)%nat (snd t))) z = true -> NoDup (map snd z) -> tidy z.
Proof.
  intros H N. split.
  - rewrite forallb_forall in H. apply Forall_forall. intros t It. apply in_map_iff in It as (s & <- & Is). specialize (H s Is).
    apply andb_prop in H as [H1 H2]. split; [exact I|]. split; [|apply mwf_b; exact H2]. cbn [den QS ideal_spec coef].
    intros E. change (@k0 QcField) with (intq 0) in E. apply intq_inj in E. apply negb_true_iff, Z.eqb_neq in H1. exact (H1 E).
  - unfold whole. rewrite map_map. exact N.
Qed.
Lemma unit_lc_b {O : ord_impl} (OS : OrderSpec O) w t : tidy w -> leading_term O (whole w) = Ok (Some t) -> coef t = intq 1 \/ coef t = intq (-1) -> unit_lc OS w.
Proof.
  intros T E H l L. pose proof (leading_term_ok QS OS (whole w) T) as G. rewrite E in G. cbn in G. destruct G as (_ & _ & L' & C).
  rewrite (is_lm_unique (olt OS) (olaws _ OS) _ _ _ L L'). rewrite C. exact H.
Qed.
Definition env0 : fenv := mkenv (fun x _ => x) false.
Notation f64 := (float_impl binary64 env0).
Definition f64p (z : ipoly) : poly f64 := map (fun t => @mkterm f64 (f64of (fst t)) (snd t)) z.
Definition ratp (z : ipoly) : poly (rat_impl Debug) := map (fun t => @mkterm (rat_impl Debug) (mkrat (fst t) 1) (snd t)) z.
Notation r64 := (reads (float_is binary64 env0)).
Lemma x64 : exactly f64 (float_is binary64 env0) (2 ^ 53).
Proof. apply (exactly_float binary64 env0). right. reflexivity. Qed.
Ltac st := split; [reflexivity|split; [reflexivity|apply Qc_is_canon; reflexivity]].
Ltac rd := repeat (apply Forall2_cons; [split; [st|reflexivity]|]); apply Forall2_nil.
(** 3 x * 3002399751580331 x is not 9007199254740993 x^2 in f64 *)
Definition ex_a : ipoly := [(3, [1%nat])].
Definition ex_b : ipoly := [(3002399751580331, [1%nat])].
Lemma ex_ab_run : poly_mul Debug (f64p ex_a) (f64p ex_b) = Ok (f64p [(2 ^ 53, [2%nat])]).
Proof. reflexivity. Qed.
Lemma ex_tidy : tidy ex_a /\ tidy ex_b.
Proof. split; apply tidy_b; try reflexivity; repeat constructor; intros []. Qed.
Theorem C123_bound_refuted : ~ (forall (p q : poly f64) z w, r64 p z -> r64 q w -> tidy z -> tidy w -> exponents_fit z w -> norm z * norm w <= 2 ^ 53 + 1 ->
  exists r u, poly_mul Debug p q = Ok r /\ r64 r u /\ peq (ip QS (whole u)) (pmul (ip QS (whole z)) (ip QS (whole w)))).
Proof.
  intros H. destruct ex_tidy as [Ta Tb]. destruct (H (f64p ex_a) (f64p ex_b) ex_a ex_b) as (r & u & E & Hr & P); [rd|rd|exact Ta|exact Tb| |vm_compute; discriminate|].
  - intros s t [<-|[]] [<-|[]] [|[|i]]; cbn; lia.
  - rewrite ex_ab_run in E. injection E as <-. inversion Hr as [|x y l l' [H1 H2] H3]; subst. inversion H3; subst. destruct y as [n d]. cbn [fst snd coef tdeg] in H1, H2. subst d.
    destruct H1 as (_ & _ & V). assert (V' : intq (2 ^ 53) = intq n) by (rewrite <- V; apply Qc_is_canon; reflexivity). apply intq_inj in V'. subst n.
    pose proof (proj1 (peq_coeff _ _) P (canon [2%nat])) as P'. apply (f_equal this) in P'. vm_compute in P'. discriminate P'.
Qed.
(** dividing x^2 by x - (2^27 + 1): the remainder 2^54 + 2^28 + 1 is not an f64 *)
Definition ex_f : ipoly := [(1, [2%nat])].
Definition ex_g : ipoly := [(1, [1%nat]); (- 134217729, [])].
Lemma ex_fg_run : divide Debug lex_cmp 3 (f64p ex_f) [f64p ex_g] = Ok (f64p [(2 ^ 54 + 2 ^ 28, [])], [f64p [(1, [1%nat]); (134217729, [])]]).
Proof. reflexivity. Qed.
Lemma ex_fg_tidy : tidy ex_f /\ tidy ex_g.
Proof. split; apply tidy_b; try reflexivity; repeat constructor; cbn; intuition discriminate. Qed.
Lemma ex_unit : unit_lc lex_spec ex_g.
Proof. eapply unit_lc_b; [apply ex_fg_tidy|vm_compute; reflexivity|left; apply Qc_is_canon; reflexivity]. Qed.
Lemma read64 (v : Z) c n : fval c = intq v -> stands binary64 c (intq n) -> n = v.
Proof. intros E (_ & _ & V). rewrite E in V. symmetry. apply intq_inj. exact V. Qed.
Theorem C125_bound_refuted : ~ (forall (p q : poly f64) z w d fuel, r64 p z -> r64 q w -> tidy z -> tidy w -> within 1 d z -> within 1 255 w -> (d <= 255)%nat -> (d < fuel)%nat -> unit_lc lex_spec w ->
  exists r qs u us, divide Debug lex_cmp fuel p [q] = Ok (r, qs) /\ r64 r u /\ Forall2 r64 qs us /\ division lex_spec z [w] u us).
Proof.
  intros H. destruct ex_fg_tidy as [Tf Tg]. destruct (H (f64p ex_f) (f64p ex_g) ex_f ex_g 2%nat 3%nat) as (r & qs & u & us & E & Hr & Hq & D);
    [rd|rd|exact Tf|exact Tg|repeat constructor; cbn; lia|repeat constructor; cbn; lia|lia|lia|exact ex_unit|].
  rewrite ex_fg_run in E. injection E as <- <-. inversion Hr as [|x y l l' [H1 H2] H3]; subst. inversion H3; subst. destruct y as [n d]. cbn [fst snd coef tdeg] in H1, H2. subst d.
  apply (read64 (2 ^ 54 + 2 ^ 28)) in H1; [|apply Qc_is_canon; reflexivity]. subst n.
  inversion Hq as [|x y l l' Q1 Q2]; subst. inversion Q2; subst. clear Q2 Hq Hr H3.
  inversion Q1 as [|x [n d] l l' [H1 H2] Q2]; subst. cbn [fst snd coef tdeg] in H1, H2. subst d. apply (read64 1) in H1; [|apply Qc_is_canon; reflexivity]. subst n.
  inversion Q2 as [|x [n d] l l2 [H1 H2] Q3]; subst. cbn [fst snd coef tdeg] in H1, H2. subst d. apply (read64 134217729) in H1; [|apply Qc_is_canon; reflexivity]. subst n.
  inversion Q3; subst. destruct D as [_ _ _ P _]. pose proof (proj1 (peq_coeff _ _) P (canon [])) as P'. apply (f_equal this) in P'. vm_compute in P'. discriminate P'.
Qed.
(** the same product and the same division with small numbers *)
Example C123_ex : exists r u, poly_mul Debug (f64p [(3, [1%nat]); (-2, [])]) (f64p ex_g) = Ok r /\ r64 r u /\ norm u <= 671088650.
Proof.
  destruct (C123_mul f64 _ _ x64 Debug (f64p [(3, [1%nat]); (-2, [])]) (f64p ex_g) [(3, [1%nat]); (-2, [])] ex_g) as (r & u & E & R & N & _); [rd|rd| |apply ex_fg_tidy| |vm_compute; discriminate|].
  - apply tidy_b; [reflexivity|]. repeat constructor; cbn; intuition discriminate.
  - intros s t [<-|[<-|[]]] [<-|[<-|[]]] [|[|i]]; cbn; lia.
  - exists r, u. auto.
Qed.
Example C125_ex : exists r qs u us, divide Debug lex_cmp 4 (f64p [(1, [3%nat]); (-2, [1%nat]); (1, [])]) [f64p [(1, [1%nat]); (-1, [])]] = Ok (r, qs) /\ r64 r u /\ Forall2 r64 qs us /\
  division lex_spec [(1, [3%nat]); (-2, [1%nat]); (1, [])] [[(1, [1%nat]); (-1, [])]] u us.
Proof.
  assert (T : tidy [(1, [1%nat]); (-1, [])]) by (apply tidy_b; [reflexivity|]; repeat constructor; cbn; intuition discriminate).
  destruct (C125_univariate f64 _ _ x64 lex_spec (or_introl eq_refl) 3 4 (f64p [(1, [3%nat]); (-2, [1%nat]); (1, [])]) [f64p [(1, [1%nat]); (-1, [])]] [(1, [3%nat]); (-2, [1%nat]); (1, [])] [[(1, [1%nat]); (-1, [])]] 2)
    as (r & qs & u & us & A1 & A2 & A3 & A4 & _).
  - rd.
  - constructor; [rd|constructor].
  - apply tidy_b; [reflexivity|]. repeat constructor; cbn; intuition discriminate.
  - constructor; [exact T|constructor].
  - repeat constructor; cbn; lia.
  - repeat constructor; cbn; lia.
  - lia.
  - lia.
  - constructor; [|constructor]. eapply unit_lc_b; [exact T|vm_compute; reflexivity|left; apply Qc_is_canon; reflexivity].
  - constructor; [vm_compute; discriminate|constructor].
  - lia.
  - vm_compute. discriminate.
  - exists r, qs, u, us. auto.
Qed.
(** over Rational the sum of i64::MAX and 1 stops the run: the bound is sharp there too *)
Example C123_ex_rational : poly_add (ratp [(i64_max, [])]) (ratp [(1, [])]) = Panic Overflow.
Proof. reflexivity. Qed.
(** a product of matrices, and a division in two variables over Rational *)
Definition ex_A (i j : nat) : Z := Z.of_nat i * 1000000 - Z.of_nat j.
Definition ex_m : mat f64 := @mkmat f64 (map (f64of : Z -> f64) [0; -1; 1000000; 999999]) 2 2.
Example C123_ex_mat : exists r, mat_mul ex_m ex_m = Ok r /\ mreads f64 (float_is binary64 env0) r 2 2 (fun i j => zsum 2 (fun t => ex_A i t * ex_A t j)).
Proof.
  assert (R : mreads f64 (float_is binary64 env0) ex_m 2 2 ex_A).
  { split; [reflexivity|]. split; [reflexivity|]. split; [reflexivity|]. intros [|[|i]] [|[|j]] Hi Hj; try lia; (eexists; split; [reflexivity|st]). }
  assert (Bd : bounded 2 2 ex_A 1000000) by (intros i j Hi Hj; unfold ex_A; lia).
  destruct (C123_mat_mul f64 _ _ x64 ex_m ex_m 2 2 2 ex_A ex_A 1000000 1000000 R R Bd Bd) as (r & E & H & _); [lia|lia|vm_compute; discriminate|]. exists r. auto.
Qed.
Definition ex_h : ipoly := [(5, [1%nat]); (7, [])].
Definition ex_k : ipoly := [(1, [1%nat]); (2, [0; 1]%nat)].
Example C125_ex_graded : exists r qs u us, divide Debug (grlex_cmp Debug) 3 (ratp ex_h) [ratp ex_k] = Ok (r, qs) /\ reads rat_is r u /\ Forall2 (reads rat_is) qs us /\ division grlex_spec ex_h [ex_k] u us.
Proof.
  assert (T : tidy ex_k) by (apply tidy_b; [reflexivity|]; repeat constructor; cbn; intuition discriminate).
  apply (C125_graded (rat_impl Debug) rat_is i64_max exactly_rational 2 1 3 (ratp ex_h) [ratp ex_k] ex_h [ex_k] 3).
  - repeat (apply Forall2_cons; [split; [split; [reflexivity|vm_compute; discriminate]|reflexivity]|]); apply Forall2_nil.
  - constructor; [|constructor]. repeat (apply Forall2_cons; [split; [split; [reflexivity|vm_compute; discriminate]|reflexivity]|]); apply Forall2_nil.
  - apply tidy_b; [reflexivity|]. repeat constructor; cbn; intuition discriminate.
  - constructor; [exact T|constructor].
  - repeat constructor; cbn; lia.
  - repeat constructor; cbn; lia.
  - lia.
  - cbn. lia.
  - constructor; [vm_compute; discriminate|constructor].
  - lia.
  - vm_compute. discriminate.
  - constructor; [|constructor]. eapply unit_lc_b; [exact T|vm_compute; reflexivity|left; apply Qc_is_canon; reflexivity].
Qed.
Print Assumptions C123_add.
Print Assumptions C123_sub.
Print Assumptions C123_neg.
Print Assumptions C123_mul.
Print Assumptions C123_mat_add.
Print Assumptions C123_mat_scale.
Print Assumptions C123_mat_mul.
Print Assumptions C123_bound_refuted.
Print Assumptions C125_univariate.
Print Assumptions C125_graded.
Print Assumptions C125_bound_refuted.
