(** * Proofs about Cone::new. *)
From Verif Require Import Base BaseLemmas IntModel RatModel FieldIface IntProofs RatProofs UtilModel MatModel AlgModel
  LinSpec RrefSpec MatProofs AlgProofs LinFacts PropMat PropLin ConeModel.
From Coq Require Import Field_theory Ring Field QArith Qcanon.
Local Open Scope nat_scope.

(** ** Sublists *)
Inductive subseq {A : Type} : list A -> list A -> Prop :=
| subseq_nil : subseq [] []
| subseq_skip : forall x s l, subseq s l -> subseq s (x :: l)
| subseq_take : forall x s l, subseq s l -> subseq (x :: s) (x :: l).
Lemma subseq_empty {A : Type} (l : list A) : subseq [] l.
Proof. induction l; constructor; assumption. Qed.
Lemma subseq_In {A : Type} (s l : list A) x : subseq s l -> In x s -> In x l.
Proof.
  induction 1; intros H1; [exact H1|right; auto|]. destruct H1 as [->|H1]; [left; reflexivity|right; auto].
Qed.
Lemma combinations_spec {A : Type} k (l s : list A) : In s (combinations k l) <-> subseq s l /\ length s = k.
Proof.
  revert k s. induction l as [|x l IH]; intros [|k] s; cbn [combinations].
  - split.
    + intros [<-|[]]. split; [constructor|reflexivity].
    + intros [H L]. inversion H; subst. left. reflexivity.
  - split; [intros []|]. intros [H L]. inversion H; subst. discriminate.
  - split.
    + intros [<-|[]]. split; [apply subseq_empty|reflexivity].
    + intros [H L]. destruct s; [left; reflexivity|discriminate].
  - rewrite in_app_iff, in_map_iff. split.
    + intros [(s' & <- & H)|H]; apply IH in H; destruct H as [H L].
      * split; [constructor; exact H|cbn; congruence].
      * split; [constructor; exact H|exact L].
    + intros [H L]. inversion H; subst.
      * right. apply IH. split; [assumption|exact L].
      * left. eexists. split; [reflexivity|]. apply IH. split; [assumption|]. cbn in L. congruence.
Qed.

(** ** Ordered fields.  [osgn x] is Lt, Eq or Gt as x is negative, zero or positive. *)
Record OrdSpec {F : FieldImpl} {K : MathField} (FS : FieldSpec F K) (T : StabImpl F) : Type := {
  osgn : K -> comparison;
  osgn_zero : forall x, osgn x = Eq <-> x = k0;
  osgn_opp : forall x, osgn (kopp x) = CompOpp (osgn x);
  osgn_add : forall x y, osgn x = Gt -> osgn y = Gt -> osgn (kadd x y) = Gt;
  osgn_mul : forall x y, osgn x = Gt -> osgn y = Gt -> osgn (kmul x y) = Gt;
  pcmp_ok : forall x, fwf FS x -> safe (fpcmp T x f0) (fun o => o = Some (osgn (den FS x)))
}.
Arguments osgn {_ _ _ _} _ _.

(** rational numbers *)
Definition qsgn (x : QcField) : comparison := Qccompare (x : Qc) 0%Qc.
Lemma qsgn_val (q : Q) : qsgn (Q2Qc q : Qc) = Qcompare q 0%Q.
Proof. unfold qsgn, Qccompare. cbn [this Q2Qc]. rewrite Qred_correct. reflexivity. Qed.
Lemma qsgn_gt (x : Qc) : qsgn x = Gt <-> (0 < x)%Qc.
Proof. unfold qsgn. symmetry. apply Qcgt_alt. Qed.
Lemma qsgn_opp (x : Qc) : qsgn (- x)%Qc = CompOpp (qsgn x).
Proof.
  unfold qsgn. destruct (Qccompare x 0) eqn:E; cbn [CompOpp].
  - apply Qceq_alt in E. rewrite E. reflexivity.
  - apply Qclt_alt in E. apply Qcgt_alt. apply Qclt_minus_iff in E. replace (0 + - x)%Qc with (- x)%Qc in E by ring. exact E.
  - apply Qcgt_alt in E. apply Qclt_alt. apply Qclt_minus_iff. replace (0 + - - x)%Qc with x by ring. exact E.
Qed.
Lemma qsgn_add (x y : Qc) : qsgn x = Gt -> qsgn y = Gt -> qsgn (x + y)%Qc = Gt.
Proof.
  rewrite !qsgn_gt. intros H1 H2. apply Qclt_trans with x; [exact H1|]. apply Qclt_minus_iff.
  replace (x + y + - x)%Qc with y by ring. exact H2.
Qed.
Lemma qsgn_mul (x y : Qc) : qsgn x = Gt -> qsgn y = Gt -> qsgn (x * y)%Qc = Gt.
Proof.
  rewrite !qsgn_gt. intros H1 H2. pose proof (Qcmult_lt_compat_r 0 x y H2 H1) as H. rewrite Qcmult_0_l in H. exact H.
Qed.
Lemma safe_mono_eq {A} (x : res A) (P Q : A -> Prop) : safe x P -> (forall a, x = Ok a -> P a -> Q a) -> safe x Q.
Proof. destruct x as [a|[]|]; simpl; auto. Qed.
Definition rat_ord : OrdSpec rat_spec (rat_stab Debug).
Proof.
  refine {| osgn := qsgn : QcField -> comparison |}.
  - intros x. symmetry. apply Qceq_alt.
  - exact qsgn_opp.
  - exact qsgn_add.
  - exact qsgn_mul.
  - intros x W. change (safe (rat_partial_cmp Debug x rat_zero) (fun o => o = Some (qsgn (rat_den x)))).
    unfold rat_partial_cmp, rat_cmp. eapply safe_bind; [|intros c H; apply safe_Ok; f_equal; exact H].
    eapply safe_bind; [apply chk64_safe|]. intros a [-> _]. eapply safe_bind; [apply chk64_safe|]. intros b [-> _].
    apply safe_Ok. unfold rat_den. rewrite qsgn_val. unfold Qcompare, rat_val. cbn.
    rewrite ?Z.mul_1_r. reflexivity.
Defined.

Section Cone.
Context {F : FieldImpl} {K : MathField} (FS : FieldSpec F K) (T : StabImpl F) (TS : StabSpec FS T) (OS : OrdSpec FS T).
Add Field Kf17 : (kth K).
Notation mat := (mat F).
Notation fmat := (nat -> nat -> K).
Notation vec := (nat -> K).
Notation val := (mden FS).
Notation colvec n := (okm FS n 1).
Notation "[[ v ]]" := (vec_of FS v).
Notation sgn := (osgn OS).

Definition vdot (n : nat) (v w : vec) : K := sumn n (fun i => kmul (v i) (w i)).
Definition span_of (n : nat) (vs : list mat) : vec -> Prop := in_span n (map (vec_of FS) vs).
Definition orthogonal (n : nat) (vs : list mat) (w : vec) : Prop := forall v, In v vs -> vdot n [[v]] w = k0.

(** *** Rows of full rank are independent *)
Lemma ech_rows_indep n m piv (A B P : fmat) : ech n m n piv B -> invertible n P -> meq n m (mmul n P A) B ->
  lin_indep m (map (mrow A) (seq 0 n)).
Proof.
  intros E (Q & PQ & QP) M c Hc k Hk. rewrite map_length, seq_length in Hk.
  set (d := fun i => sumn n (fun l => kmul (c l) (Q l i))).
  destruct (ech_rows_basis n m n piv B E) as (I & _ & _).
  assert (D : forall i, i < n -> d i = k0).
  { intros i Hi. apply (I d); [|rewrite map_length, seq_length; exact Hi]. intros j Hj. rewrite lcomb_rows.
    specialize (Hc j Hj). rewrite lcomb_rows in Hc. rewrite <- Hc.
    (* sum_i d_i B_ij = sum_l c_l sum_i Q_li B_ij = sum_l c_l A_lj *)
    unfold d. transitivity (sumn n (fun i0 => sumn n (fun l => kmul (kmul (c l) (Q l i0)) (B i0 j)))).
    { apply sumn_ext. intros i0 _. rewrite sumn_mul_r. reflexivity. }
    rewrite sumn_swap. apply sumn_ext. intros l Hl.
    transitivity (kmul (c l) (mmul n Q B l j)).
    { unfold mmul. rewrite <- sumn_mul_l. apply sumn_ext. intros i0 _. ring. }
    f_equal. rewrite <- (mmul_ext n n m Q Q (mmul n P A) B (meq_refl _ _ _) M l j Hl Hj).
    rewrite <- mmul_assoc. rewrite (mmul_ext n n m (mmul n Q P) mid A A QP (meq_refl _ _ _) l j Hl Hj).
    apply (mmul_id_l n m); assumption. }
  (* c_k = sum_i d_i P_ik *)
  assert (C : c k = sumn n (fun i => kmul (d i) (P i k))).
  { unfold d. transitivity (sumn n (fun l => kmul (c l) (mmul n Q P l k))).
    - rewrite (sumn_delta n k).
      + rewrite QP by assumption. rewrite mid_eq. ring.
      + exact Hk.
      + intros l Hl N. rewrite QP by assumption. rewrite mid_neq by exact N. ring.
    - unfold mmul. transitivity (sumn n (fun l => sumn n (fun i => kmul (kmul (c l) (Q l i)) (P i k)))).
      { apply sumn_ext. intros l _. rewrite <- sumn_mul_l. apply sumn_ext. intros i _. ring. }
      rewrite sumn_swap. apply sumn_ext. intros i _. rewrite sumn_mul_r. reflexivity. }
  rewrite C. apply sumn_zero'. intros i Hi. rewrite (D i Hi). ring.
Qed.

Lemma map_nth_seq {A B : Type} (f : A -> B) (l : list A) d : map (fun i => f (nth i l d)) (seq 0 (length l)) = map f l.
Proof.
  induction l as [|x l IH]; [reflexivity|]. cbn [length seq map nth]. f_equal. rewrite <- seq_shift, map_map. exact IH.
Qed.

(** *** What the reduced form of a list of rows provides *)
Definition rows_info (n : nat) (vs : list mat) (s : form) : Prop := exists r,
  form_rank T s = Ok r /\ r <= n /\ dimension n (span_of n vs) r /\
  (r = length vs -> lin_indep n (map (vec_of FS) vs)) /\
  safe (compute_kernel T s) (fun ker => Forall (colvec n) ker /\
    is_basis n (orthogonal n vs) (map (vec_of FS) ker) /\ length ker = n - r).
Lemma rows_rref_ok n vs : vs <> [] -> Forall (colvec n) vs -> safe (rows_rref T vs) (rows_info n vs).
Proof.
  intros NE H. unfold rows_rref.
  destruct (from_row_vectors_ok FS vs n NE) as (a & Ea & Ra).
  { revert H. apply Forall_impl. intros v W. exists (val v). apply okm_mrep. exact W. }
  rewrite Ea. cbn [bind]. apply mrep_okm in Ra. destruct Ra as [W V]. set (l := length vs) in *.
  eapply safe_bind_eq; [exact (C51_row_echelon FS T TS a l n W)|]. intros s0 E0 (RE & r & piv & E).
  eapply safe_mono_eq; [exact (C52_to_rref FS T TS a l n s0 r piv RE E)|]. intros s E1 [RE' R].
  assert (RO : rref_of T a s) by (exists s0; split; assumption).
  (* rows of the matrix *)
  assert (RW : forall w, in_rowspace l n (val a) w <-> span_of n vs w).
  { intros w. unfold span_of. rewrite <- (map_nth_seq (vec_of FS) vs (mkmat [] 0 0)).
    split; apply in_rowspace_ext; [exact V|apply meq_sym; exact V]. }
  assert (KW : forall w, in_kernel l n (val a) w <-> orthogonal n vs w).
  { intros w. assert (X : forall i, i < l -> mvec n (val a) w i = vdot n [[nth i vs (mkmat [] 0 0)]] w).
    { intros i Hi. apply sumn_ext. intros j Hj. f_equal. apply V; assumption. }
    split.
    - intros Hw v Hv. destruct (In_nth _ _ (mkmat [] 0 0) Hv) as (i & Hi & <-). rewrite <- X by exact Hi. apply Hw. exact Hi.
    - intros Hw i Hi. rewrite X by exact Hi. apply Hw. apply nth_In. exact Hi. }
  destruct (C53_rank FS T TS a l n s W (or_intror RO)) as (r' & ER & L1 & L2 & _ & DR).
  destruct (C53_nullity FS T TS a l n s W (or_intror RO)) as (r2 & ER2 & EN & _).
  assert (r2 = r') by congruence. subst r2. exists r'. split; [exact ER|]. split; [exact L2|].
  split; [apply (dimension_iff n _ _ _ RW); exact DR|]. split.
  - intros EL. assert (Er : r = r').
    { pose proof (form_rank_ok FS T TS _ _ _ _ _ _ _ (row_equivalent_form_ok FS _ _ _ _ RE') (proj1 R)) as Q. congruence. }
    rewrite <- (map_nth_seq (vec_of FS) vs (mkmat [] 0 0)). destruct RE' as (_ & _ & I & M).
    assert (LI : lin_indep n (map (mrow (val a)) (seq 0 l))).
    { apply (ech_rows_indep l n piv (val a) (val (fb s)) (val (fp s))); [|exact I|exact M].
      replace l with r at 2 by (unfold l; congruence). apply R. }
    intros c Hc k Hk. apply (LI c); [|rewrite map_length, seq_length in *; exact Hk].
    intros j Hj. rewrite <- (Hc j Hj). unfold lcomb. rewrite !map_length, !seq_length. apply sumn_ext. intros i Hi.
    f_equal. fold l. rewrite (nth_indep _ _ (mrow (val a) 0)) by (rewrite map_length, seq_length; exact Hi). rewrite map_nth.
    rewrite (nth_indep (map (fun i => [[nth i vs (mkmat [] 0 0)]]) (seq 0 l)) vzero ((fun i => [[nth i vs (mkmat [] 0 0)]]) 0)) by (rewrite map_length, seq_length; exact Hi).
    rewrite (map_nth (fun i => [[nth i vs (mkmat [] 0 0)]])). rewrite seq_nth by exact Hi. apply V; assumption.
  - eapply safe_mono; [exact (C54_kernel FS T TS a l n s W RO)|]. intros ker (OK & B & N). split; [exact OK|].
    split; [apply (is_basis_iff n _ _ _ KW); exact B|]. congruence.
Qed.

(** *** Signs *)
Lemma sgn_zero : sgn k0 = Eq. Proof. apply (osgn_zero _ _ OS). reflexivity. Qed.
Lemma sgn_mul_nonneg c x : sgn c = Gt -> sgn x <> Lt -> sgn (kmul c x) <> Lt.
Proof.
  intros Hc Hx. destruct (sgn x) eqn:E; [|congruence|].
  - apply (osgn_zero _ _ OS) in E. subst x. replace (kmul c k0) with (@k0 K) by ring. rewrite sgn_zero. discriminate.
  - rewrite (osgn_mul _ _ OS c x Hc E). discriminate.
Qed.
Lemma sgn_factor c x : sgn x = Gt -> sgn (kmul c x) = Gt -> sgn c = Gt.
Proof.
  intros Hx H. destruct (sgn c) eqn:E; [| |reflexivity]; exfalso.
  - apply (osgn_zero _ _ OS) in E. subst c. replace (kmul k0 x) with (@k0 K) in H by ring. rewrite sgn_zero in H. discriminate.
  - assert (E' : sgn (kopp c) = Gt) by (rewrite (osgn_opp _ _ OS), E; reflexivity).
    pose proof (osgn_mul _ _ OS (kopp c) x E' Hx) as G. replace (kmul (kopp c) x) with (kopp (kmul c x)) in G by ring.
    rewrite (osgn_opp _ _ OS), H in G. discriminate.
Qed.
Lemma vdot_scale n (v w : vec) c u : (forall i, i < n -> u i = kmul c (w i)) -> vdot n v u = kmul c (vdot n v w).
Proof.
  intros H. unfold vdot. rewrite <- sumn_mul_l. apply sumn_ext. intros i Hi. rewrite (H i Hi). ring.
Qed.
Lemma dot_val n g h : colvec n g -> colvec n h -> safe (mat_dot g h) (fun x => fwf FS x /\ den FS x = vdot n [[g]] [[h]]).
Proof. intros Wg Wh. apply okm_mrep in Wg, Wh. exact (dot_vec_ok FS g h n _ _ Wg Wh). Qed.
Lemma dot_sgn n g h (B : Type) (f : option comparison -> res B) Q : colvec n g -> colvec n h ->
  safe (f (Some (sgn (vdot n [[g]] [[h]])))) Q ->
  safe (d <- mat_dot g h ;; o <- fpcmp T d f0 ;; f o) Q.
Proof.
  intros Wg Wh H. eapply safe_bind; [apply (dot_val n g h Wg Wh)|]. intros x [Wx Dx].
  eapply safe_bind; [apply (pcmp_ok _ _ OS x Wx)|]. intros o ->. rewrite Dx. exact H.
Qed.

Definition above (n : nat) (gens : list mat) (w : vec) : Prop := forall g, In g gens -> sgn (vdot n [[g]] w) <> Lt.
Lemma all_above_ok n gens h : Forall (colvec n) gens -> colvec n h ->
  safe (all_above T gens h) (fun b => b = true <-> above n gens [[h]]).
Proof.
  intros H Wh. induction H as [|g gens Wg _ IH]; cbn [all_above].
  - split; [intros _ g []|reflexivity].
  - apply (dot_sgn n); [exact Wg|exact Wh|].
    destruct (sgn (vdot n [[g]] [[h]])) eqn:E.
    + eapply safe_mono; [exact IH|]. intros b Hb. rewrite Hb. split.
      * intros A x [<-|Hx]; [rewrite E; discriminate|auto].
      * intros A x Hx. apply A. right. exact Hx.
    + split; [discriminate|]. intros A. exfalso. apply (A g); [left; reflexivity|exact E].
    + eapply safe_mono; [exact IH|]. intros b Hb. rewrite Hb. split.
      * intros A x [<-|Hx]; [rewrite E; discriminate|auto].
      * intros A x Hx. apply A. right. exact Hx.
Qed.

(** *** One subset *)
Definition facet_sound (n : nat) (gens sub : list mat) (f : face) : Prop :=
  fgens f = sub /\ colvec n (fnormal f) /\ (exists i, i < n /\ [[fnormal f]] i <> k0) /\
  lin_indep n (map (vec_of FS) sub) /\ orthogonal n sub [[fnormal f]] /\ above n gens [[fnormal f]].
Definition facet_found (n : nat) (g0 : mat) (gens sub : list mat) (o : option face) : Prop :=
  lin_indep n (map (vec_of FS) sub) -> forall w, orthogonal n sub w -> above n gens w -> sgn (vdot n [[g0]] w) = Gt ->
  exists f c, o = Some f /\ sgn c = Gt /\ forall i, i < n -> [[fnormal f]] i = kmul c (w i).

Lemma indep_dimension n vs : lin_indep n (map (vec_of FS) vs) -> dimension n (span_of n vs) (length vs).
Proof.
  intros I. apply (basis_dimension n _ (map (vec_of FS) vs)); [|apply map_length]. split; [exact I|]. split.
  - apply Forall_forall. intros v Hv. apply in_span_mem. exact Hv.
  - intros w Hw. exact Hw.
Qed.
Lemma indep_nonzero n (v : vec) vs : lin_indep n (v :: vs) -> exists i, i < n /\ v i <> k0.
Proof.
  intros I. destruct (find_nonzero n v) as [H|H]; [exact H|]. exfalso.
  assert (X : (fun k => if k =? 0 then k1 else k0) 0 = @k0 K).
  { apply (I (fun k => if k =? 0 then k1 else k0)); [|cbn; lia]. intros i Hi. unfold lcomb. cbn [length]. rewrite sumn_S_first.
    cbn [nth Nat.eqb]. rewrite (H i Hi). rewrite (sumn_zero' _ (fun i0 => kmul k0 (nth i0 vs vzero i))); [ring|]. intros; ring. }
  cbn in X. exact (F_1_neq_0 (kth K) X).
Qed.

Lemma facet_of_ok n gens g0 rest sub : gens = g0 :: rest -> Forall (colvec n) gens -> sub <> [] -> Forall (colvec n) sub ->
  length sub < n ->
  safe (facet_of T gens (length sub) sub) (fun o =>
    (forall f, o = Some f -> facet_sound n gens sub f) /\ (n = S (length sub) -> facet_found n g0 gens sub o)).
Proof.
  intros EG WG NE WS Ln. unfold facet_of.
  eapply safe_bind; [apply (rows_rref_ok n sub NE WS)|]. intros s (r & ER & Lr & DR & IR & KR). rewrite ER. cbn [bind].
  destruct (Nat.eqb_spec r (length sub)) as [Er|Nr]; cbn [negb].
  2:{ split; [discriminate|]. intros _ I. exfalso. apply Nr. exact (dimension_unique _ _ _ _ DR (indep_dimension n sub I)). }
  specialize (IR Er). eapply safe_bind; [exact KR|]. intros ker (WK & BK & LK).
  destruct ker as [|h ker]; [cbn in LK; lia|]. change (vget (h :: ker) 0) with (@Ok mat h). cbn [bind].
  assert (Wh : colvec n h) by (inversion WK; assumption). assert (W0 : colvec n g0) by (subst gens; inversion WG; assumption).
  rewrite EG at 1. change (vget (g0 :: rest) 0) with (@Ok mat g0). cbn [bind].
  apply (dot_sgn n); [exact W0|exact Wh|]. cbv iota.
  pose proof (indep_nonzero n [[h]] (map (vec_of FS) ker) (proj1 BK)) as HNZ.
  assert (HO : orthogonal n sub [[h]]). { destruct BK as (_ & FB & _). inversion FB; assumption. }
  (* the oriented normal is e*h with e = 1 or -1 *)
  assert (NORM : safe (match sgn (vdot n [[g0]] [[h]]) with Lt => m1 <- fsub f0 f1 ;; mat_scale h m1 | _ => Ok h end)
    (fun nu => colvec n nu /\ exists e, e <> k0 /\ (forall i, i < n -> [[nu]] i = kmul e ([[h]] i)) /\ sgn (vdot n [[g0]] [[nu]]) <> Lt)).
  { assert (POS : sgn (vdot n [[g0]] [[h]]) <> Lt -> colvec n h /\ exists e, e <> k0 /\ (forall i, i < n -> [[h]] i = kmul e ([[h]] i)) /\ sgn (vdot n [[g0]] [[h]]) <> Lt).
    { intros P. split; [exact Wh|]. exists k1. split; [exact (F_1_neq_0 (kth K))|]. split; [intros; ring|exact P]. }
    destruct (sgn (vdot n [[g0]] [[h]])) eqn:E; [rewrite <- E in POS; apply safe_Ok, POS; rewrite E; discriminate| |rewrite <- E in POS; apply safe_Ok, POS; rewrite E; discriminate]. clear POS.
    eapply safe_bind; [apply (sub_ok _ _ FS); [apply (wf0 _ _ FS)|apply (wf1 _ _ FS)]|]. intros m1 [W1 D1].
    rewrite (den0 _ _ FS), (den1 _ _ FS) in D1.
    eapply safe_mono; [exact (mul_scalar_ok FS h n 1 _ m1 (okm_mrep FS _ _ _ Wh) W1)|]. intros nu R.
    apply mrep_okm in R. destruct R as [Wn Vn]. split; [exact Wn|]. exists (kopp k1).
    assert (Vn' : forall i, i < n -> [[nu]] i = kmul (kopp k1) ([[h]] i)).
    { intros i Hi. unfold vec_of at 1. rewrite Vn by lia. rewrite D1. unfold vec_of. ring. }
    split; [|split; [exact Vn'|] ].
    - intros X. apply (F_1_neq_0 (kth K)). replace k1 with (kopp (kopp (@k1 K))) by ring. rewrite X. ring.
    - rewrite (vdot_scale n _ _ _ _ Vn'). replace (kmul (kopp k1) (vdot n [[g0]] [[h]])) with (kopp (vdot n [[g0]] [[h]])) by ring.
      rewrite (osgn_opp _ _ OS), E. discriminate. }
  eapply safe_bind; [exact NORM|]. intros nu (Wn & e & Ne & Vn & Sn).
  eapply safe_bind; [apply (all_above_ok n gens nu WG Wn)|]. intros b Hb. apply safe_Ok. split.
  - intros f Ef. destruct b; [|discriminate]. injection Ef as <-. split; [reflexivity|]. cbn [fnormal]. split; [exact Wn|]. split.
    + destruct HNZ as (i & Hi & Hz). exists i. split; [exact Hi|]. rewrite (Vn i Hi). intros X. apply Hz.
      replace ([[h]] i) with (kmul (kinv e) (kmul e ([[h]] i))) by (field; exact Ne). rewrite X. ring.
    + split; [exact IR|]. split; [|apply Hb; reflexivity]. intros v Hv. rewrite (vdot_scale n _ _ _ _ Vn), (HO v Hv). ring.
  - intros En _ w Ow Aw Pw.
    (* the kernel is the line through h *)
    assert (KN : ker = []). { destruct ker; [reflexivity|]. cbn in LK. lia. }
    destruct BK as (_ & _ & SP). destruct (SP w Ow) as (c & Hc). subst ker.
    assert (Hw : forall i, i < n -> w i = kmul (c 0) ([[h]] i)).
    { intros i Hi. rewrite (Hc i Hi). unfold lcomb. cbn [map length]. rewrite sumn_S_first. cbn [nth sumn]. ring. }
    assert (N0 : c 0 <> k0).
    { intros Z. rewrite (vdot_scale n _ _ _ _ Hw), Z in Pw. replace (kmul k0 (vdot n [[g0]] [[h]])) with (@k0 K) in Pw by ring.
      rewrite sgn_zero in Pw. discriminate. }
    set (q := kdiv e (c 0)).
    assert (Hn : forall i, i < n -> [[nu]] i = kmul q (w i)).
    { intros i Hi. rewrite (Vn i Hi), (Hw i Hi). unfold q. field. exact N0. }
    assert (Pn : sgn (vdot n [[g0]] [[nu]]) = Gt).
    { destruct (sgn (vdot n [[g0]] [[nu]])) eqn:E; [|congruence|reflexivity]. exfalso.
      apply (osgn_zero _ _ OS) in E. rewrite (vdot_scale n _ _ _ _ Hn) in E.
      assert (Z : vdot n [[g0]] w = k0).
      { assert (Nq : q <> k0). { unfold q. intros X. apply Ne. replace e with (kmul (kdiv e (c 0)) (c 0)) by (field; exact N0). rewrite X. ring. }
        replace (vdot n [[g0]] w) with (kmul (kinv q) (kmul q (vdot n [[g0]] w))) by (field; exact Nq). rewrite E. ring. }
      rewrite Z, sgn_zero in Pw. discriminate. }
    assert (Pq : sgn q = Gt).
    { apply (sgn_factor q (vdot n [[g0]] w) Pw). rewrite <- (vdot_scale n _ _ _ _ Hn). exact Pn. }
    assert (Eb : b = true).
    { apply Hb. intros g Hg. rewrite (vdot_scale n _ _ _ _ Hn). apply sgn_mul_nonneg; [exact Pq|apply Aw; exact Hg]. }
    subst b. exists (mkface nu sub), q. split; [reflexivity|]. split; [exact Pq|exact Hn].
Qed.

(** *** Cone::new *)
Definition cone_spec (n : nat) (g0 : mat) (gens : list mat) (c : cone) : Prop :=
  cgens c = gens /\ cambient c = n /\ dimension n (span_of n gens) (cdim c) /\
  Forall (colvec n) (corth c) /\ is_basis n (orthogonal n gens) (map (vec_of FS) (corth c)) /\ length (corth c) = n - cdim c /\
  (forall f, In f (cfacets c) -> exists sub, subseq sub gens /\ length sub = cdim c - 1 /\ facet_sound n gens sub f) /\
  (n = cdim c -> forall sub w, subseq sub gens -> length sub = cdim c - 1 -> lin_indep n (map (vec_of FS) sub) ->
     orthogonal n sub w -> above n gens w -> sgn (vdot n [[g0]] w) = Gt ->
     exists f q, In f (cfacets c) /\ fgens f = sub /\ sgn q = Gt /\ forall i, i < n -> [[fnormal f]] i = kmul q (w i)).

Lemma subseq_Forall {A : Type} (P : A -> Prop) s l : subseq s l -> Forall P l -> Forall P s.
Proof. intros S H. rewrite Forall_forall in *. intros x Hx. apply H. eapply subseq_In; eassumption. Qed.

Lemma cone_new_ok n g0 rest r : Forall (colvec n) (g0 :: rest) -> dimension n (span_of n (g0 :: rest)) r -> 2 <= r ->
  safe (cone_new T (g0 :: rest)) (cone_spec n g0 (g0 :: rest)).
Proof.
  intros W D R2. unfold cone_new. change (vget (g0 :: rest) 0) with (@Ok mat g0). cbn [bind].
  eapply safe_bind; [apply (rows_rref_ok n (g0 :: rest)); [discriminate|exact W]|]. intros s (r' & ER & Lr & DR & _ & KR).
  rewrite ER. cbn [bind]. assert (r' = r) by exact (dimension_unique _ _ _ _ DR D). subst r'.
  eapply safe_bind; [exact KR|]. intros orth (WO & BO & LO).
  destruct (Nat.eqb_spec r 0); [lia|]. cbn [bind].
  eapply safe_bind.
  - apply (mapM_safe _ (fun sub o => (forall f, o = Some f -> facet_sound n (g0 :: rest) sub f) /\ (n = S (length sub) -> facet_found n g0 (g0 :: rest) sub o))).
    intros sub Hs. apply combinations_spec in Hs. destruct Hs as [Hs Ls]. rewrite <- Ls.
    apply (facet_of_ok n (g0 :: rest) g0 rest sub eq_refl W).
    + intros ->. cbn in Ls. lia.
    + apply (subseq_Forall _ _ _ Hs W).
    + lia.
  - intros os HF. apply safe_Ok. unfold cone_spec. cbn [cgens cambient cdim corth cfacets].
    assert (R0 : mrows g0 = n) by (inversion W as [|? ? (_ & X & _) _]; exact X).
    split; [reflexivity|]. split; [exact R0|]. split; [exact D|]. split; [exact WO|]. split; [exact BO|]. split; [exact LO|]. split.
    + intros f Hf. apply in_flat_map in Hf. destruct Hf as (o & Ho & Hf). destruct o as [f'|]; [|destruct Hf]. destruct Hf as [->|[] ].
      destruct (In_nth _ _ None Ho) as (i & Hi & Ei). pose proof (Forall2_len _ _ _ HF) as L.
      destruct (Forall2_nth _ _ _ [] None i HF ltac:(lia)) as [S1 _]. rewrite Ei in S1.
      exists (nth i (combinations (r - 1) (g0 :: rest)) []).
      assert (IN : In (nth i (combinations (r - 1) (g0 :: rest)) []) (combinations (r - 1) (g0 :: rest))) by (apply nth_In; lia).
      apply combinations_spec in IN. split; [apply IN|]. split; [apply IN|]. apply S1. reflexivity.
    + intros En sub w Hs Ls I Ow Aw Pw.
      assert (IN : In sub (combinations (r - 1) (g0 :: rest))) by (apply combinations_spec; auto).
      destruct (In_nth _ _ [] IN) as (i & Hi & Ei). pose proof (Forall2_len _ _ _ HF) as L.
      destruct (Forall2_nth _ _ _ [] None i HF Hi) as [S1 S2]. rewrite Ei in S1, S2.
      destruct (S2 ltac:(lia) I w Ow Aw Pw) as (f & q & Ef & Pq & Hq). exists f, q.
      split; [apply in_flat_map; exists (Some f); split; [rewrite <- Ef; apply nth_In; lia|left; reflexivity]|].
      split; [apply (S1 f Ef)|]. split; assumption.
Qed.
Lemma cone_new_low n g0 rest r : Forall (colvec n) (g0 :: rest) -> dimension n (span_of n (g0 :: rest)) r -> r <= 1 ->
  cone_new T (g0 :: rest) = Panic Overflow \/ (r = 1 /\ cone_new T (g0 :: rest) = Panic IndexOOB).
Proof.
  intros W D R1. unfold cone_new. change (vget (g0 :: rest) 0) with (@Ok mat g0). cbn [bind].
  pose proof (rows_rref_ok n (g0 :: rest) ltac:(discriminate) W) as SR. apply safe_inv in SR.
  destruct SR as [->|(s & -> & r' & ER & Lr & DR & _ & KR)]; [left; reflexivity|]. cbn [bind].
  rewrite ER. cbn [bind]. assert (r' = r) by exact (dimension_unique _ _ _ _ DR D). subst r'.
  apply safe_inv in KR. destruct KR as [->|(ker & -> & _)]; [left; reflexivity|]. cbn [bind].
  destruct r as [|[|r] ]; [left; reflexivity| |lia]. right. split; [reflexivity|]. reflexivity.
Qed.
End Cone.
