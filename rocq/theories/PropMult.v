(** * C145: multiplication matrices

    The remainders of the products of f with the standard monomials are entered as the columns of a square matrix.  These matrices add and
    multiply as the polynomials do modulo the ideal, and the common zeros of the generators are left eigenvectors. *)
From Coq Require Import ZArith QArith Qcanon.
From Verif Require Import Base BaseLemmas IntModel RatModel FieldIface RatProofs UtilModel MatModel AlgModel
  LinSpec RrefSpec MatProofs AlgProofs LinFacts PropMat PropLin
  MDegModel OrdModel PolyModel CompModel
  MonoSpec MDegProofs OrdProofs PolySpec PolyProofs GroebnerSpec DivProofs DivSpec GbProofs CompMono PropPoly PropDiv PropGb IdealSpec PropIdeal SubstSpec
  PropIdealOps StdSpec PropStd ModSpec PropSyz PropModular GridSpec InterpSpec MultSpec.
From Coq Require Import Ring Field Setoid Morphisms.
Local Open Scope nat_scope.

Section PropMult.
Context {F : FieldImpl} {K : MathField} (FS : FieldSpec F K) (T : StabImpl F) (TS : StabSpec FS T) {O : ord_impl} (OS : OrderSpec O).
Add Field Kf86 : (kth K).
Add Ring Pr86 : (@poly_ring K) (setoid (@peq_equiv K) (@poly_ring_ext K)).
Notation poly := (poly F).
Notation mat := (mat F).
Notation val := (ip FS).
Notation ent := (mden FS).
Notation den := (den FS).
Notation clean := (pwf FS).
Notation okm := (okm FS).
Notation nonzero := (fun g : poly => g <> []).
Notation lt := (olt OS).
Notation vars n := (fun g : poly => forall t, In t g -> length (tdeg t) <= n).
Notation vanishes x := (fun g : poly => exists v, poly_eval g x = Ok v /\ den v = k0).
Let laws := olaws _ OS.

(** [out] is the result for the generators, [L] are its standard monomials *)
Definition quotient (n : nat) (gens out : list poly) (L : list mono) : Prop :=
  Forall clean gens /\ Forall nonzero gens /\ Forall (vars n) gens /\ (exists fuel, buchberger_algorithm Debug O fuel gens = Ok out) /\
  NoDup L /\ forall m, In m L <-> std lt n (map val out) m.
(** column j of [a] has the coefficients of the remainder of [f] times the j-th standard monomial *)
Definition mult_matrix (out : list poly) (L : list mono) (f : poly) (a : mat) : Prop :=
  exists fs rs, Forall clean fs /\ length fs = length L /\ (forall j, j < length L -> peq (val (nth j fs [])) (pmul (val f) (pterm k1 (nth j L mone)))) /\
    remainders (O:=O) out fs rs /\ coefficient_matrix FS L rs a.

Section Quotient.
Context (n : nat) (gens out : list poly) (L : list mono) (Q : quotient n gens out L).
Notation N := (length L).
Notation ms := (fun i => nth i L mone).
Notation G := (map val out).
Notation I := (in_ideal (map val gens)).
Lemma q_clean : Forall clean out.
Proof. destruct Q as (W & NZ & V & (fuel & E) & _). apply (algorithm_run FS OS fuel gens out W NZ E). Qed.
Lemma q_ideal f : in_ideal G f <-> I f.
Proof. destruct Q as (W & NZ & V & (fuel & E) & _). destruct (algorithm_run FS OS fuel gens out W NZ E) as (_ & SI & _). split; apply SI. Qed.
Lemma q_groebner : groebner lt G.
Proof. destruct Q as (W & NZ & V & (fuel & E) & _). apply (algorithm_run FS OS fuel gens out W NZ E). Qed.
Lemma q_vars : forall g, In g G -> svars n g.
Proof. destruct Q as (W & NZ & V & (fuel & E) & _). apply (out_vars FS OS fuel n gens out); auto. Qed.
Lemma q_std : forall x, std lt n G x <-> exists i, i < N /\ ms i = x.
Proof. destruct Q as (_ & _ & _ & _ & _ & HL). intros x. rewrite <- HL. split; [intros J; apply (In_nth _ _ mone) in J as (i & Hi & Ei); eauto|intros (i & Hi & <-); apply nth_In; exact Hi]. Qed.
Lemma q_inj : forall i j, i < N -> j < N -> ms i = ms j -> i = j.
Proof. destruct Q as (_ & _ & _ & _ & ND & _). intros i j Hi Hj X. apply (proj1 (NoDup_nth L mone) ND); assumption. Qed.
Lemma q_rem fuel h r qs : clean h -> svars n (val h) -> divide Debug O fuel h out = Ok (r, qs) ->
  clean r /\ in_ideal G (psub (val h) (val r)) /\ forall x, coeff (val r) x <> k0 -> std lt n G x.
Proof.
  intros Wh Vh E. destruct (divide_nf FS OS fuel h out r qs Wh q_clean E) as (Wr & Ir & Rd). split; [exact Wr|]. split; [exact Ir|]. intros x Nx.
  destruct (divide_run FS OS fuel h out r qs Wh q_clean E) as (_ & _ & D). destruct (ds_vars _ _ _ _ _ _ D n Vh q_vars) as (_ & Vr & _). split; [apply Vr; exact Nx|apply Rd; exact Nx].
Qed.
Notation act := (acts N G ms).
Lemma q_acts f a : clean f -> vars n f -> mult_matrix out L f a -> okm N N a /\ act (ent a) (val f).
Proof.
  intros Wf Vf (fs & rs & Wfs & Lf & P & R & M). pose proof (remainders_length _ _ _ R) as Lr. pose proof M as [Wa Ma]. rewrite Lr, Lf in Wa, Ma. split; [exact Wa|].
  assert (Vf' : svars n (val f)) by (apply vars_svars; assumption).
  set (r := fun j => val (nth j rs [])).
  assert (Rf : forall j, j < N -> in_ideal G (psub (pmul (val f) (pterm k1 (ms j))) (r j)) /\ forall x, coeff (r j) x <> k0 -> std lt n G x).
  { intros j Hj. assert (Hv : svars n (val (nth j fs []))).
    { intros y Ny. rewrite (P j Hj) in Ny. revert y Ny. apply svars_mul; [exact Vf'|]. apply svars_pterm. destruct Q as (_ & _ & _ & _ & _ & HL). exact (proj1 (proj1 (HL _) (nth_In L mone Hj))). }
    assert (exists fuel qs, divide Debug O fuel (nth j fs []) out = Ok (nth j rs [], qs)) as (fu & qs & Ed).
    { assert (Hj' : j < length fs) by lia. clear - R Hj'. revert j Hj'. induction R as [|f0 r0 fs rs Q R IH]; intros j Hj; [cbn in Hj; lia|]. destruct j as [|j]; cbn [nth] in *; [exact Q|apply IH; cbn in Hj; lia]. }
    assert (Wj : clean (nth j fs [])) by (apply (proj1 (Forall_forall _ _) Wfs); apply nth_In; lia).
    destruct (q_rem fu _ _ qs Wj Hv Ed) as (_ & J & S). split; [unfold r; rewrite <- (P j Hj); exact J|exact S]. }
  apply (acts_ext N G ms (fun i j => coeff (r j) (ms i)) _ (val f) _).
  - intros i j Hi Hj. unfold r. rewrite (Ma i j Hi Hj). reflexivity.
  - assert (Y : peq (psub (val f) (val f)) pzero) by ring. rewrite Y. apply in_ideal_zero.
  - intros w. apply (mult_comb lt n N G (val f) r ms q_std q_inj Rf).
Qed.
Lemma q_iff A B f g : svars n f -> svars n g -> act A f -> act B g -> (meq N N A B <-> I (psub f g)).
Proof. intros Vf Vg Ha Hb. rewrite <- q_ideal. apply (acts_iff lt laws n N G ms q_groebner q_vars q_std q_inj); assumption. Qed.
Lemma zero_diff (p : spoly K) : I (psub p p).
Proof. assert (Y : peq (psub p p) pzero) by ring. rewrite Y. apply in_ideal_zero. Qed.
End Quotient.

(** the matrix times the column of coefficients of the remainder of h is that of f h *)
Theorem C145_remainder : forall n gens out L f a h fh fuel1 fuel2 r q qs1 qs2 c y, quotient n gens out L -> clean f -> vars n f -> mult_matrix out L f a ->
  clean h -> vars n h -> poly_mul Debug f h = Ok fh -> divide Debug O fuel1 h out = Ok (r, qs1) -> divide Debug O fuel2 fh out = Ok (q, qs2) ->
  okm (length L) 1 c -> (forall i, i < length L -> ent c i 0 = coeff (val r) (nth i L mone)) -> mat_mul a c = Ok y ->
  forall i, i < length L -> ent y i 0 = coeff (val q) (nth i L mone).
Proof.
  intros n gens out L f a h fh fuel1 fuel2 r q qs1 qs2 c y HQ Wf Vf M Wh Vh Em E1 E2 (Wc & Rc & Cc) Hc Ey.
  destruct (q_acts n gens out L HQ f a Wf Vf M) as ((Wa & Ra & Ca) & H).
  pose proof (vars_svars FS n f Wf Vf) as Sf. pose proof (vars_svars FS n h Wh Vh) as Sh.
  destruct (safe_val _ _ _ (poly_mul_ok FS f h (clean_f0 FS f Wf) Wh) Em) as (Wfh & Efh).
  assert (Sfh : svars n (val fh)) by (intros x Nx; rewrite Efh in Nx; revert x Nx; apply svars_mul; assumption).
  destruct (q_rem n gens out L HQ fuel1 h r qs1 Wh Sh E1) as (Wr & Ir & Str).
  destruct (q_rem n gens out L HQ fuel2 fh q qs2 Wfh Sfh E2) as (Wq & Iq & Stq).
  destruct (safe_val _ _ _ (C47_mul FS a c Wa Wc ltac:(congruence)) Ey) as (_ & _ & _ & My). rewrite Ra, Ca, Cc in My.
  set (N := length L) in *. set (ms := fun i => nth i L mone) in *. set (G := map val out) in *.
  pose proof (q_std n gens out L HQ) as Std. pose proof (q_inj n gens out L HQ) as Inj.
  pose proof (comb_of lt n N G ms Std Inj _ Str) as Cr. pose proof (comb_of lt n N G ms Std Inj _ Stq) as Cq.
  set (wr := fun i => coeff (val r) (ms i)) in *. set (wq := fun i => coeff (val q) (ms i)) in *. pose proof (H wr) as J.
  assert (Z : in_ideal G (comb N ms (fun i => ksub (mvec N (ent a) wr i) (wq i)))).
  { rewrite comb_sub. rewrite <- Cq. assert (Y : peq (psub (comb N ms (mvec N (ent a) wr)) (val q))
      (padd (psub (psub (pmul (val f) (val h)) (val q)) (pmul (val f) (psub (val h) (val r)))) (psub pzero (psub (pmul (val f) (val r)) (comb N ms (mvec N (ent a) wr)))))) by ring. rewrite Y.
    apply in_ideal_add; [apply in_ideal_sub; [rewrite <- Efh; exact Iq|apply in_ideal_mul; exact Ir]|]. apply in_ideal_sub; [apply in_ideal_zero|]. rewrite Cr. exact J. }
  intros i Hi. rewrite (My i 0 Hi ltac:(lia)). pose proof (comb_zero lt laws n N G ms (q_groebner n gens out L HQ) Std Inj _ Z i Hi) as E. cbn beta in E.
  transitivity (mvec N (ent a) wr i); [|change (mvec N (ent a) wr i = wq i); transitivity (kadd (ksub (mvec N (ent a) wr i) (wq i)) (wq i)); [ring|rewrite E; ring]]. unfold LinSpec.mmul, mvec. apply sumn_ext. intros j Hj. rewrite (Hc j Hj). reflexivity.
Qed.

(** sums and products of the matrices are those of the sums and products of the polynomials, and the products commute *)
Theorem C145_ring : forall n gens out L f g a b s p q, quotient n gens out L -> clean f -> vars n f -> clean g -> vars n g -> mult_matrix out L f a -> mult_matrix out L g b ->
  mat_add a b = Ok s -> mat_mul a b = Ok p -> mat_mul b a = Ok q ->
  (forall h d, poly_add f g = Ok h -> vars n h -> mult_matrix out L h d -> meq (length L) (length L) (ent s) (ent d)) /\
  (forall h d, poly_mul Debug f g = Ok h -> vars n h -> mult_matrix out L h d -> meq (length L) (length L) (ent p) (ent d)) /\
  meq (length L) (length L) (ent p) (ent q).
Proof.
  intros n gens out L f g a b s p q HQ Wf Vf Wg Vg Ma Mb Es Ep Eq.
  destruct (q_acts n gens out L HQ f a Wf Vf Ma) as ((Wa & Ra & Ca) & Ha). destruct (q_acts n gens out L HQ g b Wg Vg Mb) as ((Wb & Rb & Cb) & Hb).
  pose proof (vars_svars FS n f Wf Vf) as Sf. pose proof (vars_svars FS n g Wg Vg) as Sg.
  destruct (safe_val _ _ _ (C47_add FS a b Wa Wb ltac:(congruence) ltac:(congruence)) Es) as (_ & _ & _ & Ms). rewrite Ra, Ca in Ms.
  destruct (safe_val _ _ _ (C47_mul FS a b Wa Wb ltac:(congruence)) Ep) as (_ & _ & _ & Mp). rewrite Ra, Ca, Cb in Mp.
  destruct (safe_val _ _ _ (C47_mul FS b a Wb Wa ltac:(congruence)) Eq) as (_ & _ & _ & Mq). rewrite Rb, Cb, Ca in Mq.
  set (N := length L) in *. set (ms := fun i => nth i L mone) in *. set (G := map val out) in *.
  assert (Ps : acts N G ms (ent s) (padd (val f) (val g))).
  { eapply acts_ext; [apply meq_sym; exact Ms| |apply acts_add; eassumption]. apply (zero_diff out). }
  assert (Pp : acts N G ms (ent p) (pmul (val f) (val g))).
  { eapply acts_ext; [apply meq_sym; exact Mp| |apply acts_mul; eassumption]. apply (zero_diff out). }
  assert (Pq : acts N G ms (ent q) (pmul (val g) (val f))).
  { eapply acts_ext; [apply meq_sym; exact Mq| |apply acts_mul; eassumption]. apply (zero_diff out). }
  split; [|split].
  - intros h d Eh Vh Md. destruct (safe_val _ _ _ (poly_add_ok FS f g Wf (clean_f0 FS g Wg)) Eh) as (Wh & Ph). destruct (q_acts n gens out L HQ h d Wh Vh Md) as (_ & Hd).
    apply (q_iff n gens out L HQ _ _ _ _ (svars_add n _ _ Sf Sg) (vars_svars FS n h Wh Vh) Ps Hd). rewrite Ph. apply zero_diff.
  - intros h d Eh Vh Md. destruct (safe_val _ _ _ (poly_mul_ok FS f g (clean_f0 FS f Wf) Wg) Eh) as (Wh & Ph). destruct (q_acts n gens out L HQ h d Wh Vh Md) as (_ & Hd).
    apply (q_iff n gens out L HQ _ _ _ _ (svars_mul n _ _ Sf Sg) (vars_svars FS n h Wh Vh) Pp Hd). rewrite Ph. apply zero_diff.
  - apply (q_iff n gens out L HQ _ _ _ _ (svars_mul n _ _ Sf Sg) (svars_mul n _ _ Sg Sf) Pp Pq).
    assert (Y : peq (psub (pmul (val f) (val g)) (pmul (val g) (val f))) pzero) by ring. rewrite Y. apply in_ideal_zero.
Qed.

(** two polynomials have the same matrix exactly if they are congruent *)
Theorem C145_equal : forall n gens out L f g a b, quotient n gens out L -> clean f -> vars n f -> clean g -> vars n g -> mult_matrix out L f a -> mult_matrix out L g b ->
  (meq (length L) (length L) (ent a) (ent b) <-> in_ideal (map val gens) (psub (val f) (val g))).
Proof.
  intros n gens out L f g a b HQ Wf Vf Wg Vg Ma Mb.
  destruct (q_acts n gens out L HQ f a Wf Vf Ma) as (_ & Ha). destruct (q_acts n gens out L HQ g b Wg Vg Mb) as (_ & Hb).
  apply (q_iff n gens out L HQ _ _ _ _ (vars_svars FS n f Wf Vf) (vars_svars FS n g Wg Vg) Ha Hb).
Qed.

(** at a common zero the values of the standard monomials are a left eigenvector, with the value of f as eigenvalue *)
Theorem C145_zeros : forall n gens out L f a x v u y, quotient n gens out L -> clean f -> vars n f -> mult_matrix out L f a ->
  Forall (fwf FS) x -> Forall (vanishes x) gens -> poly_eval f x = Ok v ->
  okm 1 (length L) u -> (forall i, i < length L -> ent u 0 i = mval (pt FS x) (nth i L mone)) -> mat_mul u a = Ok y ->
  (exists i, i < length L /\ ent u 0 i <> k0) /\ (forall j, j < length L -> ent y 0 j = kmul (den v) (ent u 0 j)) /\
  (forall b s r, okm (length L) (length L) b -> meq (length L) (length L) (ent b) (fun i j => ksub (ent a i j) (if i =? j then den v else k0)) ->
     rref_of T b s -> form_rank T s = Ok r -> r < length L).
Proof.
  intros n gens out L f a x v u y HQ Wf Vf Ma Wx Vx Ev (Wu & Ru & Cu) Hu Ey.
  destruct (q_acts n gens out L HQ f a Wf Vf Ma) as ((Wa & Ra & Ca) & Ha).
  destruct (safe_val _ _ _ (C47_mul FS u a Wu Wa ltac:(congruence)) Ey) as (_ & _ & _ & My). rewrite Ru, Cu, Ca in My.
  assert (Z : forall g, in_ideal (map val out) g -> peval (pt FS x) g = k0).
  { intros g Ig. apply (q_ideal n gens out L HQ) in Ig. apply (vanish_ideal FS x gens); auto. destruct HQ as (W & _). exact W. }
  assert (Vv : den v = peval (pt FS x) (val f)) by (apply (eval_val FS f x v); auto).
  set (N := length L) in *. set (ms := fun i => nth i L mone) in *. set (G := map val out) in *.
  pose proof (q_std n gens out L HQ) as Std. pose proof (q_inj n gens out L HQ) as Inj. pose proof (q_vars n gens out L HQ) as VG.
  assert (NZu : exists i, i < N /\ ent u 0 i <> k0).
  { destruct (some_value lt laws n N G ms VG Std Inj (pt FS x) Z) as (j & Hj & Nj). exists j. split; [exact Hj|]. rewrite (Hu j Hj). exact Nj. }
  assert (Eig : forall j, j < N -> sumn N (fun i => kmul (ent u 0 i) (ent a i j)) = kmul (den v) (ent u 0 j)).
  { intros j Hj. rewrite Vv, (Hu j Hj). fold (ms j). rewrite <- (acts_eigen N G ms (pt FS x) (ent a) (val f) Z Ha j Hj). apply sumn_ext. intros i Hi. rewrite (Hu i Hi). reflexivity. }
  split; [exact NZu|]. split.
  - intros j Hj. rewrite (My 0 j ltac:(lia) Hj). exact (Eig j Hj).
  - intros b s r Wb Mb H Er. destruct (C53_rank FS T TS b _ _ s Wb (or_intror H)) as (r' & Er' & Lr & _). rewrite Er in Er'. injection Er' as <-.
    destruct (Nat.eq_dec r N) as [->|]; [|lia]. exfalso. destruct (C71_inverse FS T TS b N s Wb H) as [CI _]. destruct (CI Er) as (_ & _ & R).
    destruct NZu as (k & Hk & Nk). apply Nk.
    set (B := ent (fp s)) in *.
    assert (E0 : forall j, j < N -> sumn N (fun i => kmul (ent u 0 i) (ent b i j)) = k0).
    { intros j Hj. rewrite (sumn_ext N _ (fun i => ksub (kmul (ent u 0 i) (ent a i j)) (kmul (ent u 0 i) (if i =? j then den v else k0)))) by (intros i Hi; rewrite (Mb i j Hi Hj); ring).
      rewrite sumn_sub, (Eig j Hj). rewrite (sumn_pick N (fun i => kmul (ent u 0 i) (if i =? j then den v else k0)) j Hj); [rewrite Nat.eqb_refl; ring|]. intros i _ Ni. destruct (Nat.eqb_spec i j); [contradiction|ring]. }
    assert (E1 : sumn N (fun j => kmul (sumn N (fun i => kmul (ent u 0 i) (ent b i j))) (B j k)) = ent u 0 k).
    { rewrite (sumn_ext N _ (fun j => sumn N (fun i => kmul (ent u 0 i) (kmul (ent b i j) (B j k))))).
      2:{ intros j Hj. rewrite <- sumn_mul_r. apply sumn_ext. intros i Hi. ring. }
      rewrite sumn_swap. rewrite (sumn_ext N _ (fun i => kmul (ent u 0 i) (mid i k))).
      2:{ intros i Hi. rewrite sumn_mul_l. f_equal. exact (R i k Hi Hk). }
      rewrite (sumn_pick N (fun i => kmul (ent u 0 i) (mid i k)) k Hk); unfold mid; [rewrite Nat.eqb_refl; ring|]. intros i _ Ni. destruct (Nat.eqb_spec i k); [contradiction|ring]. }
    rewrite <- E1. apply sumn_zero'. intros j Hj. rewrite (E0 j Hj). ring.
Qed.

(** the matrix minus c times the identity has not full rank exactly if 1 is not in the ideal with f - c added *)
Theorem C145_eigenvalues : forall n gens out L f a c b s, quotient n gens out L -> clean f -> vars n f -> mult_matrix out L f a ->
  okm (length L) (length L) b -> meq (length L) (length L) (ent b) (fun i j => ksub (ent a i j) (if i =? j then c else k0)) -> rref_of T b s ->
  (form_rank T s = Ok (length L) <-> in_ideal (psub (val f) (pterm c mone) :: map val gens) pone).
Proof.
  intros n gens out L f a c b s HQ Wf Vf Ma Wb Mb H.
  destruct (q_acts n gens out L HQ f a Wf Vf Ma) as (_ & Ha).
  pose proof (q_std n gens out L HQ) as Std. pose proof (q_inj n gens out L HQ) as Inj. pose proof (q_vars n gens out L HQ) as VG. pose proof (q_groebner n gens out L HQ) as GB.
  pose proof (q_ideal n gens out L HQ) as SI.
  set (N := length L) in *. set (ms := fun i => nth i L mone) in *. set (G := map val out) in *. set (g := psub (val f) (pterm c mone)) in *.
  assert (Hb : acts N G ms (ent b) g).
  { apply (acts_ext N G ms (fun i j => kadd (ent a i j) (kmul (kopp c) (mid i j))) _ (padd (val f) (pmul (pterm (kopp c) mone) pone)) _).
    - intros i j Hi Hj. rewrite (Mb i j Hi Hj). unfold mid. destruct (i =? j); ring.
    - assert (Y : peq (psub (padd (val f) (pmul (pterm (kopp c) mone) pone)) g) pzero).
      { unfold g. assert (X : peq (pterm (kopp c) mone) (psub pzero (pterm c mone))) by (apply peq_coeff; intros x; rewrite coeff_sub, coeff_zero, !coeff_pterm; destruct (mono_dec mone x); ring). rewrite X. ring. }
      rewrite Y. apply in_ideal_zero.
    - apply acts_add; [exact Ha|]. apply acts_scale. apply acts_one. }
  destruct (C71_inverse FS T TS b N s Wb H) as [_ CI]. rewrite CI. clear CI. split.
  - intros (B' & BB & _). destruct (comb_ex lt laws n N G ms VG Std Inj pone) as (w & Iw); [apply svars_pterm; apply mvars_one|].
    pose proof (Hb (mvec N B' w)) as J.
    assert (E : peq (comb N ms (mvec N (ent b) (mvec N B' w))) (comb N ms w)).
    { apply comb_ext. intros i Hi. rewrite <- mvec_mmul. transitivity (mvec N mid w i); [|apply mvec_id; exact Hi]. apply (mvec_ext N); auto. }
    rewrite E in J. apply in_ideal_cons. exists (comb N ms (mvec N B' w)), (psub pone (pmul g (comb N ms (mvec N B' w)))). split; [|ring].
    apply SI. assert (Y : peq (psub pone (pmul g (comb N ms (mvec N B' w)))) (psub (psub pone (comb N ms w)) (psub (pmul g (comb N ms (mvec N B' w))) (comb N ms w)))) by ring.
    rewrite Y. apply in_ideal_sub; assumption.
  - intros J. apply in_ideal_cons in J as (h & r & Ir & E). apply SI in Ir.
    assert (U : forall w, in_kernel N N (ent b) w -> forall i, i < N -> w i = k0).
    { intros w Kw. apply (comb_zero lt laws n N G ms GB Std Inj). pose proof (Hb w) as Jw.
      assert (Z : peq (comb N ms (mvec N (ent b) w)) pzero) by (apply comb_zero_fun; exact Kw). rewrite Z in Jw.
      assert (Y : peq (comb N ms w) (padd (pmul h (psub (pmul g (comb N ms w)) pzero)) (pmul (comb N ms w) r))).
      { transitivity (pmul pone (comb N ms w)); [ring|]. rewrite E. ring. }
      rewrite Y. apply in_ideal_add; apply in_ideal_mul; assumption. }
    destruct (C53_nullity FS T TS b _ _ s Wb (or_intror H)) as (rk & Erk & _ & (vs & (Ind & Kv & _) & Lv) & _).
    destruct (C53_rank FS T TS b _ _ s Wb (or_intror H)) as (rk' & Erk' & _ & Lrk & _). rewrite Erk in Erk'. injection Erk' as <-.
    destruct (C71_inverse FS T TS b N s Wb H) as [_ CI]. apply CI. rewrite Erk. f_equal.
    destruct vs as [|v vs]; [cbn in Lv; lia|]. exfalso. inversion Kv as [|? ? Kv1 _]; subst.
    apply (F_1_neq_0 (kth K)). apply (Ind (fun k => if Nat.eqb k 0 then k1 else k0)) with (k := 0); [|cbn; lia]. intros i Hi. unfold lcomb.
    rewrite (sumn_ext _ _ (fun _ => k0)); [apply sumn_zero'; reflexivity|]. intros k Hk. destruct k as [|k]; cbn [Nat.eqb nth map]; [rewrite (U v Kv1 i Hi)|]; ring.
Qed.

(** polynomials in the matrix: [ps] are its powers *)
Theorem C145_polynomial : forall n gens out L f a ps, quotient n gens out L -> clean f -> vars n f -> mult_matrix out L f a ->
  nth 0 ps (mat_identity 0) = mat_identity (length L) -> (forall k, S k < length ps -> mat_mul a (nth k ps (mat_identity 0)) = Ok (nth (S k) ps (mat_identity 0))) ->
  forall w, (forall i j, i < length L -> j < length L -> sumn (length ps) (fun k => kmul (w k) (ent (nth k ps (mat_identity 0)) i j)) = k0) <->
    in_ideal (map val gens) (wsum (length ps) w (ppow (val f))).
Proof.
  intros n gens out L f a ps HQ Wf Vf Ma H0 HS w.
  destruct (q_acts n gens out L HQ f a Wf Vf Ma) as ((Wa & Ra & Ca) & Ha).
  set (N := length L) in *. set (ms := fun i => nth i L mone) in *. set (G := map val out) in *.
  assert (Wp : forall k, k < length ps -> okm N N (nth k ps (mat_identity 0))).
  { induction k as [|k IH]; intros Hk.
    - rewrite H0. apply (mrep_okm FS _ _ _ _ (identity_ok FS N)).
    - destruct (IH ltac:(lia)) as (W & R & C). destruct (safe_val _ _ _ (C47_mul FS a _ Wa W ltac:(congruence)) (HS k Hk)) as (W' & R' & C' & _). split; [exact W'|split; congruence]. }
  assert (P0 : meq N N (ent (nth 0 ps (mat_identity 0))) mid) by (rewrite H0; apply (mrep_okm FS _ _ _ _ (identity_ok FS N))).
  assert (PS : forall k, S k < length ps -> meq N N (ent (nth (S k) ps (mat_identity 0))) (LinSpec.mmul N (ent a) (ent (nth k ps (mat_identity 0))))).
  { intros k Hk. destruct (Wp k ltac:(lia)) as (W & R & C). destruct (safe_val _ _ _ (C47_mul FS a _ Wa W ltac:(congruence)) (HS k Hk)) as (_ & _ & _ & M). rewrite Ra, Ca, C in M. exact M. }
  pose proof (acts_power N G ms (ent a) (val f) (fun k => ent (nth k ps (mat_identity 0))) (length ps) Ha P0 PS) as AP.
  pose proof (acts_sum N G ms (fun k => ent (nth k ps (mat_identity 0))) (ppow (val f)) w (length ps) AP) as AS.
  assert (Sp : svars n (wsum (length ps) w (ppow (val f)))).
  { pose proof (vars_svars FS n f Wf Vf) as Sf. assert (Sk : forall k, svars n (ppow (val f) k)) by (induction k as [|k IH]; cbn [ppow]; [apply svars_pterm; apply mvars_one|apply svars_mul; assumption]).
    intros x Nx. rewrite coeff_wsum in Nx. destruct (sumn_nonzero _ _ Nx) as (k & _ & Nk). apply (Sk k). intros Z. apply Nk. rewrite Z. ring. }
  assert (S0 : svars n (pzero : spoly K)) by (intros x Nx; exfalso; apply Nx; apply coeff_zero).
  pose proof (q_iff n gens out L HQ _ _ _ _ Sp S0 AS (acts_zero N G ms)) as E.
  assert (Y : peq (psub (wsum (length ps) w (ppow (val f))) pzero) (wsum (length ps) w (ppow (val f)))) by ring. rewrite Y in E. exact E.
Qed.
End PropMult.

(** ** The ideal of x^2 - y, x y - 1, y^2 - x ([ex_sy]), with standard monomials 1, x, y and the zero (1, 1) *)
Notation RR := (rat_impl Debug).
Example C145_ex_quotient : quotient rat_spec grlex_spec 2 ex_sy ex_sy ex_md_ms.
Proof.
  split; [apply C135_ex_clean|]. split; [apply C135_ex_clean|].
  split; [repeat (apply Forall_cons || apply Forall_nil); intros t H; cbn [In] in H; repeat (destruct H as [<-|H]; [cbn; lia|]); destruct H|].
  split; [exists 30; exact C135_ex_output|]. split; [apply C136_ex_multiplication|exact C136_ex_std].
Qed.
Definition ex_mu_x : poly RR := [ex_t 1 1 [1]].
Definition ex_mu_y : poly RR := [ex_t 1 1 [0; 1]].
Definition ex_mu_fs : list (poly RR) := [[ex_t 1 1 [1]]; [ex_t 1 1 [2]]; [ex_t 1 1 [1; 1]]].
Definition ex_mu_rs : list (poly RR) := [[ex_t 1 1 [1]]; [ex_t 1 1 [0; 1]]; [ex_t 1 1 []]].
Definition ex_mu_gs : list (poly RR) := [[ex_t 1 1 [0; 1]]; [ex_t 1 1 [1; 1]]; [ex_t 1 1 [0; 2]]].
Definition ex_mu_qs : list (poly RR) := [[ex_t 1 1 [0; 1]]; [ex_t 1 1 []]; [ex_t 1 1 [1]]].
(** the matrices of x and of y: permutations of order three, inverse to each other *)
Definition ex_mu_a : mat RR := ex_mat 3 3 [(0,1);(0,1);(1,1);(1,1);(0,1);(0,1);(0,1);(1,1);(0,1)]%Z.
Definition ex_mu_b : mat RR := ex_mat 3 3 [(0,1);(1,1);(0,1);(0,1);(0,1);(1,1);(1,1);(0,1);(0,1)]%Z.
Ltac entry_mu := cbn [nth ex_md_ms ex_mu_rs ex_mu_qs]; rewrite list_coeff_ok; [unfold list_coeff; cbn [tdeg ex_t];
  repeat (match goal with |- context [list_eq_dec Nat.eq_dec ?x ?y] => destruct (list_eq_dec Nat.eq_dec x y) as [EE|EE]; [try discriminate EE|try (exfalso; apply EE; reflexivity)] end);
  apply Qc_is_canon; reflexivity|apply ex_clean; reflexivity|discriminate].
Ltac matrix_mu := split; [repeat (apply Forall_cons || apply Forall_nil); apply ex_clean; reflexivity|]; split; [reflexivity|];
  split; [intros [|[|[|j]]] Hj; [..|cbn in Hj; lia]; intros phi; cbn [nth]; reflexivity|];
  split; [repeat (apply Forall2_cons || apply Forall2_nil); exists 20; eexists; reflexivity|];
  split; [split; [apply ex_mat_ok; reflexivity|split; reflexivity]|];
  intros i j Hi Hj; destruct i as [|[|[|i]]]; [..|exfalso; cbn in Hi; lia]; (destruct j as [|[|[|j]]]; [..|exfalso; cbn in Hj; lia]); entry_mu.
Example C145_ex_x : mult_matrix rat_spec (O:=grlex_cmp Debug) ex_sy ex_md_ms ex_mu_x ex_mu_a.
Proof. exists ex_mu_fs, ex_mu_rs. matrix_mu. Qed.
Example C145_ex_y : mult_matrix rat_spec (O:=grlex_cmp Debug) ex_sy ex_md_ms ex_mu_y ex_mu_b.
Proof. exists ex_mu_gs, ex_mu_qs. matrix_mu. Qed.
(** x - 1, from C136 *)
Example C145_ex_difference : mult_matrix rat_spec (O:=grlex_cmp Debug) ex_sy ex_md_ms [ex_t 1 1 [1]; ex_t (-1) 1 []] ex_md_m.
Proof. destruct C136_ex_multiplication as (A & _ & B & C & D & _). exists ex_md_gs, ex_md_qs. split; [exact A|]. split; [reflexivity|]. split; [exact B|]. split; [exact C|exact D]. Qed.
(** x times y has remainder 1, and the matrix of x times the column of y is the column of 1 *)
Example C145_ex_remainder : poly_mul Debug ex_mu_x ex_mu_y = Ok [ex_t 1 1 [1; 1]] /\
  divide Debug (grlex_cmp Debug) 20 ex_mu_y ex_sy = Ok (ex_mu_y, [[]; []; []]) /\
  divide Debug (grlex_cmp Debug) 20 [ex_t 1 1 [1; 1]] ex_sy = Ok ([ex_t 1 1 []], [[]; [ex_t 1 1 []]; []]) /\
  mat_mul ex_mu_a (ex_mat 3 1 [(0,1);(0,1);(1,1)]%Z) = Ok (ex_mat 3 1 [(1,1);(0,1);(0,1)]%Z) /\
  forall i, i < 3 -> mden rat_spec (ex_mat 3 1 [(0,1);(0,1);(1,1)]%Z) i 0 = coeff (ip rat_spec ex_mu_y) (nth i ex_md_ms mone).
Proof.
  split; [reflexivity|]. split; [reflexivity|]. split; [reflexivity|]. split; [reflexivity|].
  intros i Hi. unfold ex_mu_y. destruct i as [|[|[|i]]]; [..|exfalso; lia]; entry_mu.
Qed.
Example C145_ex_ring : mat_mul ex_mu_a ex_mu_b = Ok (mat_identity 3) /\ mat_mul ex_mu_b ex_mu_a = Ok (mat_identity 3) /\
  mat_add ex_mu_a ex_mu_b = Ok (ex_mat 3 3 [(0,1);(1,1);(1,1);(1,1);(0,1);(1,1);(1,1);(1,1);(0,1)]%Z).
Proof. split; [reflexivity|split; reflexivity]. Qed.
(** at (1, 1) the row 1, 1, 1 is an eigenvector of the matrix of x for the eigenvalue 1; the matrix minus the identity is [ex_md_m], of rank 2 *)
Example C145_ex_zeros : Forall (fun g : poly RR => exists v, poly_eval g [f1 : RR; f1 : RR] = Ok v /\ den rat_spec v = k0) ex_sy /\ poly_eval ex_mu_x [f1 : RR; f1 : RR] = Ok (f1 : RR) /\
  mat_mul (ex_mat 1 3 [(1,1);(1,1);(1,1)]%Z) ex_mu_a = Ok (ex_mat 1 3 [(1,1);(1,1);(1,1)]%Z) /\
  meq 3 3 (mden rat_spec ex_md_m) (fun i j => ksub (mden rat_spec ex_mu_a i j) (if i =? j then den rat_spec (f1 : RR) else k0)) /\
  rref_of RT ex_md_m ex_md_mform /\ form_rank RT ex_md_mform = Ok 2.
Proof.
  split; [repeat (apply Forall_cons || apply Forall_nil); exists (mkrat 0 1 : RR); (split; [reflexivity|apply Qc_is_canon; reflexivity])|].
  split; [reflexivity|]. split; [reflexivity|].
  split; [intros i j Hi Hj; destruct i as [|[|[|i]]]; [..|exfalso; lia]; (destruct j as [|[|[|j]]]; [..|exfalso; lia]); apply Qc_is_canon; reflexivity|].
  split; [apply C136_ex_multiplication|apply C136_ex_multiplication].
Qed.
(** so 1 is an eigenvalue, [C145_eigenvalues] with c = 1; for c = 0 the matrix itself is invertible *)
Example C145_ex_eigenvalues : rref_of RT ex_mu_a (mkform ex_mu_b (mat_identity 3)) /\ form_rank RT (mkform ex_mu_b (mat_identity 3)) = Ok 3 /\
  okm rat_spec 3 3 ex_mu_a /\ meq 3 3 (mden rat_spec ex_mu_a) (fun i j => ksub (mden rat_spec ex_mu_a i j) (if i =? j then k0 else k0)).
Proof.
  split; [apply ex_rref_of; reflexivity|]. split; [reflexivity|]. split; [split; [apply ex_mat_ok; reflexivity|split; reflexivity]|].
  intros i j Hi Hj. destruct i as [|[|[|i]]]; [..|exfalso; lia]; (destruct j as [|[|[|j]]]; [..|exfalso; lia]); apply Qc_is_canon; reflexivity.
Qed.
(** the powers of the matrix of x: the third is the identity *)
Definition ex_mu_ps : list (mat RR) := [mat_identity 3; ex_mu_a; ex_mu_b; mat_identity 3].
Example C145_ex_polynomial : nth 0 ex_mu_ps (mat_identity 0) = mat_identity (length ex_md_ms) /\
  forall k, S k < length ex_mu_ps -> mat_mul ex_mu_a (nth k ex_mu_ps (mat_identity 0)) = Ok (nth (S k) ex_mu_ps (mat_identity 0)).
Proof. split; [reflexivity|]. intros [|[|[|k]]] Hk; [reflexivity..|cbn in Hk; lia]. Qed.
Print Assumptions C145_remainder.
Print Assumptions C145_ring.
Print Assumptions C145_equal.
Print Assumptions C145_zeros.
Print Assumptions C145_eigenvalues.
Print Assumptions C145_polynomial.
