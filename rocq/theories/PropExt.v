(** * C117: nothing changes over a larger field

    The coefficients live in K (for Rational, the rational numbers), but the statements about ideals, zeros and linear systems are often wanted over a
    larger field L - x^2 + 1 has no rational zero.  What the code computes over K is right over every L that contains K. *)
From Coq Require Import ZArith QArith Qcanon Field_theory Ring Field Setoid Morphisms.
From Verif Require Import Base BaseLemmas IntModel RatModel FieldIface RatProofs MDegModel OrdModel PolyModel CompModel MatModel AlgModel
  MonoSpec MDegProofs OrdProofs PolySpec PolyProofs GroebnerSpec DivProofs DivSpec GbProofs CompMono LinSpec RrefSpec MatProofs AlgProofs LinFacts PropPoly PropDiv PropGb IdealSpec PropIdeal
  SubstSpec StdSpec PropIdealOps PropStd PropLin PropSolve.
Import ListNotations.
Local Open Scope nat_scope.

(** a field homomorphism from K into L *)
Record embedding (K L : MathField) : Type := {
  emb : K -> L;
  emb_one : emb k1 = k1;
  emb_add : forall x y, emb (kadd x y) = kadd (emb x) (emb y);
  emb_mul : forall x y, emb (kmul x y) = kmul (emb x) (emb y)
}.
Arguments emb {_ _}. Arguments emb_one {_ _}. Arguments emb_add {_ _}. Arguments emb_mul {_ _}.

Section Emb.
Context {K L : MathField} (e : embedding K L).
Add Field Kf48 : (kth K).
Add Field Lf48 : (kth L).
Lemma emb_zero : emb e k0 = k0.
Proof.
  assert (H : kadd (emb e k0) (emb e k0) = emb e k0) by (rewrite <- emb_add; f_equal; ring).
  transitivity (ksub (kadd (emb e k0) (emb e k0)) (emb e k0)); [ring|rewrite H; ring].
Qed.
Lemma emb_opp x : emb e (kopp x) = kopp (emb e x).
Proof.
  assert (H : kadd (emb e (kopp x)) (emb e x) = k0) by (rewrite <- emb_add, <- emb_zero; f_equal; ring).
  transitivity (ksub (kadd (emb e (kopp x)) (emb e x)) (emb e x)); [ring|rewrite H; ring].
Qed.
Lemma emb_sub x y : emb e (ksub x y) = ksub (emb e x) (emb e y).
Proof. transitivity (emb e (kadd x (kopp y))); [f_equal; ring|]. rewrite emb_add, emb_opp. ring. Qed.
Lemma emb_unit x : x <> k0 -> kmul (emb e x) (emb e (kinv x)) = k1.
Proof. intros N. rewrite <- emb_mul, <- (emb_one e). f_equal. field. exact N. Qed.
Lemma emb_nonzero x : emb e x = k0 <-> x = k0.
Proof.
  split; [|intros ->; apply emb_zero]. intros E. destruct (kdec x k0) as [Z|N]; [exact Z|exfalso].
  apply (F_1_neq_0 (kth L)). rewrite <- (emb_unit x N), E. ring.
Qed.
Lemma emb_inj x y : emb e x = emb e y -> x = y.
Proof.
  intros E. assert (H : emb e (ksub x y) = k0) by (rewrite emb_sub, E; ring). apply emb_nonzero in H.
  transitivity (kadd (ksub x y) y); [ring|rewrite H; ring].
Qed.
Lemma emb_inv x : x <> k0 -> emb e (kinv x) = kinv (emb e x).
Proof.
  intros N. assert (M : emb e x <> k0) by (intros E; apply N, emb_nonzero, E). transitivity (kmul (kinv (emb e x)) (kmul (emb e x) (emb e (kinv x)))); [field; exact M|].
  rewrite (emb_unit x N). ring.
Qed.
Lemma emb_pow x n : emb e (kpow x n) = kpow (emb e x) n.
Proof. induction n as [|n IH]; cbn [kpow]; [apply emb_one|]. rewrite emb_mul, IH. reflexivity. Qed.
Lemma emb_sum (l : list K) : emb e (ksum l) = ksum (map (emb e) l).
Proof. induction l as [|x l IH]; [apply emb_zero|]. unfold ksum in *. cbn. rewrite emb_add, IH. reflexivity. Qed.

(** the same polynomial with its coefficients taken in L *)
Definition pext (p : spoly K) : spoly L := map (fun t => (emb e (fst t), snd t)) p.
Lemma coeff_pext p m : coeff (pext p) m = emb e (coeff p m).
Proof.
  induction p as [|[c a] p IH]; [symmetry; apply emb_zero|]. cbn [pext map fst snd]. rewrite !coeff_cons. fold (pext p). rewrite IH, emb_add.
  destruct (mono_dec a m); [reflexivity|rewrite emb_zero; reflexivity].
Qed.
Lemma pext_peq p q : peq (pext p) (pext q) <-> peq p q.
Proof.
  rewrite !peq_coeff. split; intros H m; specialize (H m); rewrite !coeff_pext in *; [apply emb_inj; exact H|rewrite H; reflexivity].
Qed.
Lemma pext_lm lt p m : is_lm lt (pext p) m <-> is_lm lt p m.
Proof.
  unfold is_lm. rewrite coeff_pext, emb_nonzero. split; intros [H G]; (split; [exact H|]); intros m' N; apply G.
  - rewrite coeff_pext, emb_nonzero. exact N.
  - rewrite coeff_pext, emb_nonzero in N. exact N.
Qed.

(** ** an implementation of K is an implementation of a part of L *)
Context {F : FieldImpl} (FS : FieldSpec F K).
Definition ext_spec : FieldSpec F L.
Proof.
  refine {| fwf := fwf FS; den := fun x => emb e (den FS x) |}.
  - apply wf0.
  - apply wf1.
  - rewrite den0. apply emb_zero.
  - rewrite den1. apply emb_one.
  - intros x W. rewrite emb_nonzero. apply eqb0. exact W.
  - intros x y Wx Wy. eapply safe_mono; [apply (add_ok _ _ FS x y Wx Wy)|]. intros z [W E]. split; [exact W|]. rewrite E. apply emb_add.
  - intros x y Wx Wy. eapply safe_mono; [apply (sub_ok _ _ FS x y Wx Wy)|]. intros z [W E]. split; [exact W|]. rewrite E. apply emb_sub.
  - intros x Wx. eapply safe_mono; [apply (neg_ok _ _ FS x Wx)|]. intros z [W E]. split; [exact W|]. rewrite E. apply emb_opp.
  - intros x y Wx Wy. eapply safe_mono; [apply (mul_ok _ _ FS x y Wx Wy)|]. intros z [W E]. split; [exact W|]. rewrite E. apply emb_mul.
  - intros x y Wx Wy N. assert (N' : den FS y <> k0) by (intros Z; apply N, emb_nonzero, Z).
    eapply safe_mono; [apply (FieldIface.div_ok _ _ FS x y Wx Wy N')|]. intros z [W E]. split; [exact W|]. rewrite E.
    rewrite (Fdiv_def (kth K)), (Fdiv_def (kth L)), emb_mul, emb_inv by exact N'. reflexivity.
  - intros x Wx N. assert (N' : den FS x <> k0) by (intros Z; apply N, emb_nonzero, Z).
    eapply safe_mono; [apply (inv_ok _ _ FS x Wx N')|]. intros z [W E]. split; [exact W|]. rewrite E. apply emb_inv. exact N'.
  - intros x n Wx Hn. eapply safe_mono; [apply (pow_ok _ _ FS x n Wx Hn)|]. intros z [W E]. split; [exact W|]. rewrite E. apply emb_pow.
  - intros l H. eapply safe_mono; [apply (sum_ok _ _ FS l H)|]. intros z (W & vs & El & E). split; [exact W|]. exists vs. split; [exact El|].
    rewrite E, emb_sum, map_map. reflexivity.
  - intros vs k rest H. apply (sum_panic _ _ FS vs k rest H).
Defined.
Lemma ext_ip p : ip ext_spec p = pext (ip FS p).
Proof. unfold ip, pext. rewrite map_map. reflexivity. Qed.
Lemma ext_ips ps : map (ip ext_spec) ps = map pext (map (ip FS) ps).
Proof. rewrite map_map. apply map_ext. apply ext_ip. Qed.
Lemma ext_pwf p : pwf ext_spec p <-> pwf FS p.
Proof.
  assert (X : forall t, twf ext_spec t <-> twf FS t) by (intros t; unfold twf; cbn; rewrite emb_nonzero; tauto).
  unfold pwf. split; intros [H G]; (split; [|exact G]); (eapply Forall_impl; [|exact H]); intros t; apply X.
Qed.
Lemma ext_pwfs ps : Forall (pwf FS) ps -> Forall (pwf ext_spec) ps.
Proof. apply Forall_impl. intros p. apply ext_pwf. Qed.
Definition ext_stab (T : StabImpl F) (TS : StabSpec FS T) : StabSpec ext_spec T.
Proof.
  constructor.
  - intros x W. cbn. rewrite emb_nonzero. apply (eps0 FS T TS x W).
  - intros x y Wx Wy. eapply safe_mono; [apply (stab_ok FS T TS x y Wx Wy)|]. intros o (c & Ec & H1 & H2). exists c. split; [exact Ec|].
    cbn. rewrite !emb_nonzero. split; assumption.
Defined.
End Emb.

(** ** C117 *)
Section PropExt.
Context {F : FieldImpl} {K L : MathField} (FS : FieldSpec F K) (e : embedding K L).
Add Field Kf49 : (kth L).
Notation poly := (poly F).
Notation val := (ip FS).
Notation lift p := (pext e (ip FS p)).
Notation clean := (pwf FS).
Notation nonzero := (fun g : poly => g <> []).
Notation vars n := (fun g : poly => forall t, In t g -> length (tdeg t) <= n).

Section Order.
Context {O : ord_impl} (OS : OrderSpec O).
Notation lt := (olt OS).
Let laws := olaws _ OS.

(** over L the result is the reduced Groebner basis of the ideal the generators have there *)
Theorem C117_basis : forall fuel (gens out : list poly), Forall clean gens -> Forall nonzero gens ->
  buchberger_algorithm Debug O fuel gens = Ok out ->
  (forall f, in_ideal (map (fun g => lift g) out) f <-> in_ideal (map (fun g => lift g) gens) f) /\
  groebner lt (map (fun g => lift g) out) /\ inter_reduced lt (map (fun g => lift g) out).
Proof.
  intros fuel gens out W NZ E. destruct (algorithm_run (ext_spec e FS) OS fuel gens out (ext_pwfs e FS _ W) NZ E) as (_ & SI & GB & IR).
  rewrite !ext_ips, !map_map in *. auto.
Qed.
(** the remainder decides membership over K and over L: an ideal gains no element of K[x] over L *)
Theorem C117_membership : forall fuel fuel' (gens out : list poly) f r qs, Forall clean gens -> Forall nonzero gens -> clean f ->
  buchberger_algorithm Debug O fuel gens = Ok out -> divide Debug O fuel' f out = Ok (r, qs) ->
  (in_ideal (map val gens) (val f) <-> r = []) /\ (in_ideal (map (fun g => lift g) gens) (lift f) <-> r = []).
Proof.
  intros fuel fuel' gens out f r qs W NZ Wf E Ed.
  assert (G : forall (M : MathField) (S0 : FieldSpec F M), Forall (pwf S0) gens -> pwf S0 f -> in_ideal (map (ip S0) gens) (ip S0 f) <-> r = []).
  { clear FS e W Wf. intros M FS W Wf. destruct (algorithm_run FS OS fuel gens out W NZ E) as (Wo & SI & GB & _).
    rewrite <- (SI (ip FS f)). symmetry. apply (C45_membership FS OS fuel' f out r qs Wf Wo GB Ed). }
  split; [apply (G K FS W Wf)|]. pose proof (G L (ext_spec e FS) (ext_pwfs e FS _ W) (proj2 (ext_pwf e FS f) Wf)) as H.
  rewrite ext_ips, ext_ip, map_map in H. exact H.
Qed.
(** 1 is a combination of the generators with coefficients in L[x] exactly when the code returns a constant *)
Theorem C117_unit : forall fuel (gens out : list poly), Forall clean gens -> Forall nonzero gens ->
  buchberger_algorithm Debug O fuel gens = Ok out ->
  (in_ideal (map (fun g => lift g) gens) pone <-> exists t, out = [[t]] /\ tdeg t = []).
Proof.
  intros fuel gens out W NZ E. pose proof (proj2 (C94_unit_ideal (ext_spec e FS) OS fuel gens out (ext_pwfs e FS _ W) NZ E)) as H.
  rewrite ext_ips, map_map in H. exact H.
Qed.
(** generators and result have the same zeros in L; when there are any, the result is not a constant *)
Theorem C117_zeros : forall fuel (gens out : list poly) (x : nat -> L), Forall clean gens -> Forall nonzero gens ->
  buchberger_algorithm Debug O fuel gens = Ok out ->
  ((forall g, In g gens -> peval x (lift g) = k0) <-> (forall g, In g out -> peval x (lift g) = k0)) /\
  ((forall g, In g gens -> peval x (lift g) = k0) -> ~ exists t, out = [[t]] /\ tdeg t = []).
Proof.
  intros fuel gens out x W NZ E. destruct (C117_basis fuel gens out W NZ E) as (SI & _).
  assert (V : forall G G' : list poly, (forall f, in_ideal (map (fun g => lift g) G) f -> in_ideal (map (fun g => lift g) G') f) ->
    (forall g, In g G' -> peval x (lift g) = k0) -> forall f, in_ideal (map (fun g => lift g) G) f -> peval x f = k0).
  { intros G G' H Z f I. apply (peval_ideal x (map (fun g => lift g) G')); [|apply H; exact I]. intros g Ig. apply in_map_iff in Ig as (g0 & <- & Ig). auto. }
  split; [split|].
  - intros Z g I. apply (V out gens); [intros f; apply SI|exact Z|]. apply in_ideal_gen. apply in_map_iff. eauto.
  - intros Z g I. apply (V gens out); [intros f; apply SI|exact Z|]. apply in_ideal_gen. apply in_map_iff. eauto.
  - intros Z C. apply (C117_unit fuel gens out W NZ E) in C. pose proof (V gens gens ltac:(auto) Z pone C) as X. apply (F_1_neq_0 (kth L)).
    rewrite <- X. unfold peval, pone. simpl. rewrite (proj1 (mval_multiplicative x)). ring.
Qed.
(** the standard monomials bound the number of zeros in L *)
Theorem C117_count : forall fuel n (gens out : list poly) (xs : list (nat -> L)) Ms, Forall clean gens -> Forall nonzero gens -> Forall (vars n) gens ->
  buchberger_algorithm Debug O fuel gens = Ok out -> (forall m, std lt n (map val out) m -> In m Ms) ->
  (forall x g, In x xs -> In g gens -> peval x (lift g) = k0) ->
  ForallOrdPairs (fun x y => exists i, i < n /\ x i <> y i) xs -> length xs <= length Ms.
Proof.
  intros fuel n gens out xs Ms W NZ V E HM Z D.
  assert (Vo : forall g, In g (map (fun g => lift g) out) -> svars n g).
  { pose proof (out_vars (ext_spec e FS) OS fuel n gens out (ext_pwfs e FS _ W) NZ V E) as H. rewrite ext_ips, map_map in H. exact H. }
  apply (zeros_bound lt laws n (map (fun g => lift g) out) Ms (fun k => nth k xs (fun _ => k0)) (length xs)).
  - exact Vo.
  - intros m [Hv Hm]. apply HM. split; [exact Hv|]. intros g l I Ll. apply in_map_iff in I as (g0 & <- & I).
    apply (Hm (lift g0)); [apply in_map_iff; eauto|apply pext_lm; exact Ll].
  - intros k g Hk I. apply in_map_iff in I as (g0 & <- & I). apply (proj1 (proj1 (C117_zeros fuel gens out (nth k xs (fun _ => k0)) W NZ E))); [|exact I].
    intros h Ih. apply Z; [apply nth_In; exact Hk|exact Ih].
  - assert (S0 : forall (xs : list (nat -> L)), ForallOrdPairs (fun x y => exists i, i < n /\ x i <> y i) xs ->
      forall j k, j < k -> k < length xs -> exists i, i < n /\ nth j xs (fun _ => k0) i <> nth k xs (fun _ => k0) i).
    { clear. intros xs H. induction H as [|x xs Hx H IH]; intros j k Hj Hk; cbn in Hk; [lia|]. destruct k as [|k]; [lia|]. destruct j as [|j]; cbn [nth].
      - rewrite Forall_forall in Hx. apply Hx. apply nth_In. lia.
      - apply IH; lia. }
    intros j k Hj Hk N. destruct (Nat.lt_trichotomy j k) as [Lt|[Lt|Lt]]; [apply S0; assumption|contradiction|].
    destruct (S0 xs D k j Lt Hj) as (i & Hi & N'). exists i. split; [exact Hi|]. intros Q. apply N'. symmetry. exact Q.
Qed.
End Order.

(** linear systems: solvable over L iff over K, rank and nullity are the dimensions over L too *)
Theorem C117_linear : forall (T : StabImpl F) (TS : StabSpec FS T) a n m s r b c, okm FS n m a -> echelon_of T a s \/ rref_of T a s -> form_rank T s = Ok r ->
  okm FS n 1 b -> mat_mul (fp s) b = Ok c ->
  ((exists x, solves n m (fun i j => emb e (mden FS a i j)) x (fun i => emb e (vec_of FS b i))) <-> exists x, solves n m (mden FS a) x (vec_of FS b)) /\
  dimension n (in_colspace n m (fun i j => emb e (mden FS a i j))) r /\
  dimension m (in_kernel n m (fun i j => emb e (mden FS a i j))) (m - r).
Proof.
  intros T TS a n m s r b c W H Er Wb Ec. pose proof (ext_stab e FS T TS) as TS'.
  split; [|split].
  - pose proof (C104_solvable FS T TS a n m s r b c W H Er Wb Ec) as A. pose proof (C104_solvable (ext_spec e FS) T TS' a n m s r b c W H Er Wb Ec) as B.
    change (mden (ext_spec e FS) a) with (fun i j => emb e (mden FS a i j)) in B. change (vec_of (ext_spec e FS) b) with (fun i => emb e (vec_of FS b i)) in B.
    rewrite A. rewrite B. split; intros Z i Hi Hn; specialize (Z i Hi Hn).
    + change (emb e (vec_of FS c i) = k0) in Z. apply emb_nonzero in Z. exact Z.
    + change (emb e (vec_of FS c i) = k0). apply emb_nonzero. exact Z.
  - destruct (C53_rank (ext_spec e FS) T TS' a n m s W H) as (r' & Er' & _ & _ & D & _). rewrite Er in Er'. injection Er' as <-. exact D.
  - destruct (C53_nullity (ext_spec e FS) T TS' a n m s W H) as (r' & Er' & _ & D). rewrite Er in Er'. injection Er' as <-. exact D.
Qed.
End PropExt.

(** ** Example: the Gaussian rationals *)
Lemma qc_sq_nonneg (x : Qc) : (0 <= x * x)%Qc.
Proof.
  destruct (Qclt_le_dec x 0) as [H|H].
  - replace (x * x)%Qc with ((- x) * (- x))%Qc by ring. assert (G : (0 <= - x)%Qc) by (apply Qcopp_le_compat in H || (apply Qclt_le_weak in H; apply Qcopp_le_compat in H; exact H)).
    rewrite <- (Qcmult_0_l (- x)). apply Qcmult_le_compat_r; exact G.
  - rewrite <- (Qcmult_0_l x). apply Qcmult_le_compat_r; exact H.
Qed.
Lemma qc_sum_sq (a b : Qc) : (a * a + b * b = 0)%Qc -> a = Q2Qc 0 /\ b = Q2Qc 0.
Proof.
  assert (A : forall x y : Qc, (x * x + y * y = 0)%Qc -> x = Q2Qc 0).
  { intros x y H. assert (E : (x * x)%Qc = Q2Qc 0).
    { apply Qcle_antisym; [|apply qc_sq_nonneg]. replace (x * x)%Qc with (- (y * y))%Qc by (replace (- (y * y))%Qc with (x * x - (x * x + y * y))%Qc by ring; rewrite H; ring).
      replace (Q2Qc 0) with (- 0)%Qc by reflexivity. apply Qcopp_le_compat, qc_sq_nonneg. }
    apply Qcmult_integral in E. destruct E; assumption. }
  intros H. split; [apply (A a b H)|]. apply (A b a). rewrite <- H. ring.
Qed.
Definition gnorm (z : Qc * Qc) : Qc := (fst z * fst z + snd z * snd z)%Qc.
Definition ginv (z : Qc * Qc) : Qc * Qc := (fst z / gnorm z, - snd z / gnorm z)%Qc.
Definition gmul (z w : Qc * Qc) : Qc * Qc := (fst z * fst w - snd z * snd w, fst z * snd w + snd z * fst w)%Qc.
Definition gadd (z w : Qc * Qc) : Qc * Qc := (fst z + fst w, snd z + snd w)%Qc.
Definition gopp (z : Qc * Qc) : Qc * Qc := (- fst z, - snd z)%Qc.
Lemma gauss_theory : field_theory (Q2Qc 0, Q2Qc 0) (Q2Qc 1, Q2Qc 0) gadd gmul (fun z w => gadd z (gopp w)) gopp (fun z w => gmul z (ginv w)) ginv eq.
Proof.
  constructor.
  - constructor; intros; unfold gadd, gmul, gopp; cbn [fst snd]; repeat match goal with z : (Qc * Qc)%type |- _ => destruct z end; cbn [fst snd]; try reflexivity; f_equal; ring.
  - intros H. assert (X : Q2Qc 1 = Q2Qc 0) by (change (fst (Q2Qc 1, Q2Qc 0) = fst (Q2Qc 0, Q2Qc 0)); rewrite H; reflexivity). discriminate X.
  - reflexivity.
  - intros [a b] N. assert (G : (a * a + b * b)%Qc <> Q2Qc 0) by (intros Z; apply qc_sum_sq in Z as [-> ->]; apply N; reflexivity).
    unfold gmul, ginv, gnorm. cbn [fst snd]. f_equal; field; exact G.
Qed.
Lemma gauss_dec (x y : Qc * Qc) : {x = y} + {x <> y}.
Proof. destruct x as [a b], y as [c d]. destruct (Qc_eq_dec a c) as [->|N]; [destruct (Qc_eq_dec b d) as [->|N]; [left; reflexivity|right; congruence]|right; congruence]. Defined.
Definition GaussField : MathField := {| kth := gauss_theory; kdec := gauss_dec |}.
Definition gauss_emb : embedding QcField GaussField.
Proof.
  refine (Build_embedding QcField GaussField (fun x : Qc => (x, Q2Qc 0)) eq_refl _ _).
  - intros x y. cbn. unfold gadd. cbn [fst snd]. f_equal; ring.
  - intros x y. cbn. unfold gmul. cbn [fst snd]. f_equal; ring.
Defined.
(** x^2 + 1 and y - x: without zeros over the rationals, with the two zeros (i, i) and (-i, -i) over Q(i), as many as there are standard monomials *)
Notation R := (rat_impl Debug).
Definition xt (n : Z) (d : mdeg) : term R := @mkterm R (mkrat n 1) d.
Definition x_gens : list (poly R) := [[xt 1 [2]; xt 1 []]; [xt 1 [0; 1]; xt (-1) [1]]].
Definition gi : GaussField := (Q2Qc 0, Q2Qc 1).
Definition gmi : GaussField := (Q2Qc 0, Q2Qc (-1)).
Definition x_zeros : list (nat -> GaussField) := [fun _ => gi; fun _ => gmi].
Definition x_out : list (poly R) := [[xt 1 [0; 1]; xt (-1) [1]]; [xt 1 [0; 2]; xt 1 []]].
Example C117_run : Forall (pwf rat_spec) x_gens /\ buchberger_algorithm Debug lex_cmp 30 x_gens = Ok x_out.
Proof. split; [|reflexivity]. repeat (constructor; [apply ex_clean; reflexivity|]). constructor. Qed.
Lemma g_eq (z w : GaussField) : (this (fst z) == this (fst w))%Q -> (this (snd z) == this (snd w))%Q -> z = w.
Proof. destruct z, w. cbn. intros H G. f_equal; apply Qc_is_canon; assumption. Qed.
Example C117_ex_zeros : (forall x g, In x x_zeros -> In g x_gens -> peval x (pext gauss_emb (ip rat_spec g)) = k0) /\
  ForallOrdPairs (fun x y => exists i, i < 2 /\ x i <> y i) x_zeros /\
  (forall x : nat -> QcField, ~ forall g, In g x_gens -> peval x (ip rat_spec g) = k0).
Proof.
  split; [|split].
  - intros x g [<-|[<-|[]]] [<-|[<-|[]]]; apply g_eq; reflexivity.
  - constructor; [constructor; [|constructor]|constructor; constructor]. exists 0. split; [lia|]. intros H. discriminate (f_equal (fun z : Qc * Qc => this (snd z)) H).
  - intros x H. specialize (H _ (or_introl eq_refl)). pose (x0 := x O : Qc). assert (E : (x0 * x0 + 1 * 1 = 0)%Qc).
    { transitivity (peval x (ip rat_spec [xt 1 [2]; xt 1 []])); [|exact H]. unfold peval, ip, ev, mval. cbn -[Qcplus Qcmult Q2Qc rat_den].
      replace (rat_den (mkrat 1 1)) with (Q2Qc 1) by (apply Qc_is_canon; reflexivity). change (x O) with x0. ring. }
    apply qc_sum_sq in E as [_ E]. discriminate E.
Qed.
Example C117_ex_std : forall m, std lex_lt 2 (map (ip rat_spec) x_out) m -> In m [mone; mvar 1 1].
Proof.
  assert (A1 : is_lm lex_lt (ip rat_spec [xt 1 [0; 1]; xt (-1) [1]]) (mvar 0 1)) by (apply (ex_lead _ (xt (-1) [1])); [apply ex_clean; reflexivity|reflexivity]).
  assert (A2 : is_lm lex_lt (ip rat_spec [xt 1 [0; 2]; xt 1 []]) (mvar 1 2)) by (apply (ex_lead _ (xt 1 [0; 2])); [apply ex_clean; reflexivity|reflexivity]).
  intros m Sm. pose proof (std_exp lex_lt 2 (map (ip rat_spec) x_out) 0 (ip rat_spec [xt 1 [0; 1]; xt (-1) [1]]) 1 m (or_introl eq_refl) A1 Sm) as A. pose proof (std_exp lex_lt 2 (map (ip rat_spec) x_out) 1 (ip rat_spec [xt 1 [0; 2]; xt 1 []]) 2 m (or_intror (or_introl eq_refl)) A2 Sm) as B.
  destruct Sm as [V _]. assert (E : m = mvar 1 (mexp m 1)).
  { apply mono_ext. intros [|[|i]]; rewrite mvar_exp; cbn [Nat.eqb]; [lia|reflexivity|apply V; lia]. }
  rewrite E. destruct (mexp m 1) as [|[|k]]; [left|right; left; reflexivity|lia].
  apply mono_ext. intros i. rewrite mone_exp, mvar_exp. destruct (Nat.eqb i 1); reflexivity.
Qed.
Print Assumptions C117_basis.
Print Assumptions C117_membership.
Print Assumptions C117_unit.
Print Assumptions C117_zeros.
Print Assumptions C117_count.
Print Assumptions C117_linear.
