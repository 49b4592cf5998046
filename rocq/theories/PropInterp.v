(** * C144: interpolation

    The values of monomials at points are entered in a matrix, a row for each point and a column for each monomial.  Its kernel
    ([compute_kernel]) lists the polynomials in these monomials that vanish at all points, its rank says which values can be prescribed. *)
From Coq Require Import ZArith QArith Qcanon.
From Verif Require Import Base BaseLemmas IntModel RatModel FieldIface RatProofs UtilModel MatModel AlgModel
  LinSpec RrefSpec MatProofs AlgProofs LinFacts PropMat PropLin
  MDegModel OrdModel PolyModel CompModel
  MonoSpec MDegProofs OrdProofs PolySpec PolyProofs GroebnerSpec DivProofs DivSpec GbProofs CompMono PropPoly PropDiv PropGb IdealSpec PropIdeal SubstSpec
  PropIdealOps StdSpec PropStd PropSolve InterpSpec.
From Coq Require Import Ring Field Setoid Morphisms.
Local Open Scope nat_scope.

Section PropInterp.
Context {F : FieldImpl} {K : MathField} (FS : FieldSpec F K) (T : StabImpl F) (TS : StabSpec FS T).
Add Field Kf84 : (kth K).
Notation poly := (poly F).
Notation mat := (mat F).
Notation val := (ip FS).
Notation ent := (mden FS).
Notation den := (den FS).
Notation clean := (pwf FS).
Notation okm := (okm FS).
Notation vec_of := (vec_of FS).
Notation nonzero := (fun g : poly => g <> []).
Notation vanishes x := (fun g : poly => exists v, poly_eval g x = Ok v /\ den v = k0).
Notation vars n := (fun g : poly => forall t, In t g -> length (tdeg t) <= n).

(** the matrix of the values of the monomials [ds] at the points [xs] *)
Definition value_matrix (xs : list (list F)) (ds : list mdeg) (a : mat) : Prop :=
  okm (length xs) (length ds) a /\
  forall i j, i < length xs -> j < length ds -> exists v, term_eval (term_monic (nth j ds [])) (nth i xs []) = Ok v /\ mget a i j = Ok v.
(** a polynomial in these monomials *)
Definition over_degrees (ds : list mdeg) (p : poly) : Prop := clean p /\ forall t, In t p -> In (tdeg t) ds.
(** its coefficients *)
Definition coef_of (ds : list mdeg) (p : poly) (j : nat) : K := coeff (val p) (canon (nth j ds [])).

Section Matrix.
Context (xs : list (list F)) (ds : list mdeg) (a : mat) (Wx : Forall (Forall (fwf FS)) xs) (Wd : Forall mwf ds) (ND : NoDup ds) (VM : value_matrix xs ds a).
Notation n := (length xs).
Notation m := (length ds).
Notation X := (fun i => pt FS (nth i xs [])).
Notation ms := (map canon ds).

Lemma ms_length : length ms = m.
Proof. apply map_length. Qed.
Lemma ms_nth j : j < m -> nth j ms mone = canon (nth j ds []).
Proof. intros H. rewrite (nth_indep _ mone (canon [])) by (rewrite ms_length; exact H). apply map_nth. Qed.
Lemma ms_nodup : NoDup ms.
Proof.
  apply (NoDup_nth ms mone). rewrite ms_length. intros i j Hi Hj E. rewrite !ms_nth in E by assumption.
  rewrite Forall_forall in Wd. apply canon_inj in E; [|apply Wd; apply nth_In; assumption..]. apply (proj1 (NoDup_nth ds []) ND); assumption.
Qed.
Lemma point_wf i : i < n -> Forall (fwf FS) (nth i xs []).
Proof. intros H. rewrite Forall_forall in Wx. apply Wx. apply nth_In. exact H. Qed.
Lemma enough i j : i < n -> j < m -> length (nth j ds []) <= length (nth i xs []).
Proof.
  intros Hi Hj. destruct (proj2 VM i j Hi Hj) as (v & E & _). unfold term_eval, mdeg_len in E. cbn [tdeg term_monic] in E.
  destruct (Nat.ltb_spec (length (nth i xs [])) (length (nth j ds []))); [discriminate|assumption].
Qed.
Lemma entry i j : i < n -> j < m -> ent a i j = values X ms i j.
Proof.
  intros Hi Hj. destruct (proj2 VM i j Hi Hj) as (v & E & G). destruct VM as [(W & R & C) _].
  rewrite mget_ok in G by (try apply W; lia). injection G as G. unfold mden. rewrite G. unfold values. rewrite ms_nth by exact Hj.
  assert (Wt : twf0 FS (term_monic (nth j ds []))) by (split; [apply (wf1 _ _ FS)|rewrite Forall_forall in Wd; apply Wd; apply nth_In; exact Hj]).
  rewrite (proj2 (safe_val _ _ _ (term_eval_ok FS _ _ Wt (point_wf i Hi) (enough i j Hi Hj)) E)).
  unfold PolyProofs.it. cbn [coef tdeg term_monic]. rewrite (den1 _ _ FS). apply peval_monomial.
Qed.
Lemma entries w i : i < n -> mvec m (ent a) w i = mvec (length ms) (values X ms) w i.
Proof. intros Hi. rewrite ms_length. unfold mvec. apply sumn_ext. intros j Hj. rewrite (entry i j Hi Hj). reflexivity. Qed.
Lemma over_within p : over_degrees ds p -> within ms (val p).
Proof. intros [W H] x N. apply (pwf_support FS p x W) in N as (t & It & <-). apply in_map. apply H. exact It. Qed.
Lemma value p i v : over_degrees ds p -> i < n -> poly_eval p (nth i xs []) = Ok v -> den v = mvec m (ent a) (coef_of ds p) i.
Proof.
  intros H Hi E. rewrite entries by exact Hi.
  assert (L : Forall (fun t => length (tdeg t) <= length (nth i xs [])) p).
  { apply Forall_forall. intros t It. pose proof (proj2 H t It) as J. apply (In_nth _ _ []) in J as (j & Hj & <-). apply enough; assumption. }
  assert (W0 : Forall (twf0 FS) p) by (eapply Forall_impl; [|apply (proj1 H)]; intros t Ht; apply twf_split; exact Ht).
  rewrite (proj2 (safe_val _ _ _ (poly_eval_ok FS p _ W0 (point_wf i Hi) L) E)). rewrite (values_of X ms (val p) i ms_nodup (over_within p H)).
  unfold mvec. apply sumn_ext. intros j Hj. rewrite ms_length in Hj. unfold coefs, coef_of. rewrite ms_nth by exact Hj. reflexivity.
Qed.
End Matrix.

(** the product of the matrix with a column of coefficients is the column of values *)
Theorem C144_values : forall xs ds a, Forall (Forall (fwf FS)) xs -> Forall mwf ds -> NoDup ds -> value_matrix xs ds a ->
  forall p c y, over_degrees ds p -> okm (length ds) 1 c -> (forall j, j < length ds -> vec_of c j = coef_of ds p j) -> mat_mul a c = Ok y ->
  forall i v, i < length xs -> poly_eval p (nth i xs []) = Ok v -> vec_of y i = den v.
Proof.
  intros xs ds a Wx Wd ND VM p c y Hp (Wc & Rc & Cc) Ec Ey i v Hi Ev. rewrite (value xs ds a Wx Wd ND VM p i v Hp Hi Ev). destruct VM as [(Wa & Ra & Ca) _].
  pose proof (safe_val _ _ _ (C47_mul FS a c Wa Wc ltac:(congruence)) Ey) as (_ & _ & _ & V). unfold PropLin.vec_of. rewrite V by lia. rewrite Ca.
  unfold mvec, mmul. apply sumn_ext. intros j Hj. f_equal. apply Ec. exact Hj.
Qed.
(** the kernel lists the polynomials in the monomials that vanish at all points *)
Theorem C144_vanishing : forall xs ds a s vs, Forall (Forall (fwf FS)) xs -> Forall mwf ds -> NoDup ds -> value_matrix xs ds a ->
  rref_of T a s -> compute_kernel T s = Ok vs ->
  forall p, over_degrees ds p -> (forall i, i < length xs -> exists v, poly_eval p (nth i xs []) = Ok v) ->
  ((forall i, i < length xs -> vanishes (nth i xs []) p) <-> exists d, forall j, j < length ds -> coef_of ds p j = lcomb (map vec_of vs) d j).
Proof.
  intros xs ds a s vs Wx Wd ND VM Hs Ek p Hp Ev. pose proof (proj1 VM) as W.
  destruct (safe_val _ _ _ (C54_kernel FS T TS a _ _ s W Hs) Ek) as (_ & (_ & In_ & Sp) & _).
  assert (Z : (forall i, i < length xs -> vanishes (nth i xs []) p) <-> in_kernel (length xs) (length ds) (ent a) (coef_of ds p)).
  { split; intros H i Hi.
    - destruct (H i Hi) as (v & E & D). rewrite <- (value xs ds a Wx Wd ND VM p i v Hp Hi E). exact D.
    - destruct (Ev i Hi) as (v & E). exists v. split; [exact E|]. rewrite (value xs ds a Wx Wd ND VM p i v Hp Hi E). apply H. exact Hi. }
  rewrite Z. split; [intros H; apply Sp; exact H|]. intros (d & E) i Hi. unfold mvec. rewrite (sumn_ext _ _ (fun l => kmul (ent a i l) (lcomb (map vec_of vs) d l))) by (intros l Hl; rewrite (E l Hl); reflexivity).
  unfold lcomb. rewrite (sumn_ext _ _ (fun l => sumn (length (map vec_of vs)) (fun k => kmul (d k) (kmul (ent a i l) (nth k (map vec_of vs) vzero l))))) by (intros l Hl; rewrite <- sumn_mul_l; apply sumn_ext; intros k Hk; ring).
  rewrite sumn_swap. apply sumn_zero'. intros k Hk. rewrite sumn_mul_l.
  assert (Y : in_kernel (length xs) (length ds) (ent a) (nth k (map vec_of vs) vzero)) by (rewrite Forall_forall in In_; apply In_; apply nth_In; exact Hk).
  pose proof (Y i Hi) as Y'. unfold mvec in Y'. rewrite Y'. ring.
Qed.
(** all values can be prescribed exactly if the rank is the number of points *)
Theorem C144_prescribed : forall xs ds a s, Forall (Forall (fwf FS)) xs -> Forall mwf ds -> NoDup ds -> value_matrix xs ds a ->
  echelon_of T a s \/ rref_of T a s ->
  (form_rank T s = Ok (length xs) <->
   forall b : nat -> K, exists q, (forall x, coeff q x <> k0 -> In x (map canon ds)) /\ forall i, i < length xs -> peval (pt FS (nth i xs [])) q = b i).
Proof.
  intros xs ds a s Wx Wd ND VM Hs. destruct (C53_rank FS T TS a _ _ s (proj1 VM) Hs) as (r & Er & _ & _ & D & _). pose proof (onto_rank _ _ _ _ D) as R. rewrite Er.
  assert (Y : Ok r = Ok (length xs) <-> r = length xs) by (split; congruence). rewrite Y, R. split; intros H b.
  - destruct (H b) as (w & E). exists (with_coefs (map canon ds) w). split; [apply with_within|]. intros i Hi.
    rewrite (values_row (fun i => pt FS (nth i xs [])) (map canon ds) i w), <- (entries xs ds a Wx Wd VM w i Hi). apply E. exact Hi.
  - destruct (H b) as (q & V & E). exists (coefs (map canon ds) q). intros i Hi. rewrite (entries xs ds a Wx Wd VM _ i Hi), <- (E i Hi).
    symmetry. apply (values_of (fun i => pt FS (nth i xs [])) (map canon ds) q i); [apply ms_nodup; assumption|exact V].
Qed.
(** common zeros of the generators: the values of the standard monomials of the result can be prescribed *)
Theorem C144_standard : forall (O : ord_impl) (OS : OrderSpec O) fuel k (gens out : list poly) xs ds a s,
  Forall clean gens -> Forall nonzero gens -> Forall (vars k) gens -> Forall (Forall (fwf FS)) xs -> Forall mwf ds -> NoDup ds ->
  buchberger_algorithm Debug O fuel gens = Ok out -> (forall x, std (olt OS) k (map val out) x -> In x (map canon ds)) ->
  Forall (fun x => Forall (vanishes x) gens) xs -> ForallOrdPairs (differ FS k) xs ->
  value_matrix xs ds a -> echelon_of T a s \/ rref_of T a s -> form_rank T s = Ok (length xs).
Proof.
  intros O OS fuel k gens out xs ds a s W NZ V Wx Wd ND E HL HV HD VM Hs. destruct (algorithm_run FS OS fuel gens out W NZ E) as (Wo & SI & _).
  destruct (C53_rank FS T TS a _ _ s (proj1 VM) Hs) as (r & Er & _ & _ & D & _). rewrite Er. f_equal. apply (onto_rank _ _ _ _ D). intros b.
  destruct (separate (fun i => pt FS (nth i xs [])) (map canon ds) (olt OS) (olaws _ OS) k (map val out) (length xs)) with (b := b) as (w & Ew).
  - apply ms_nodup; assumption.
  - apply (out_vars FS OS fuel k gens out); auto.
  - exact HL.
  - intros i g Hi I. rewrite Forall_forall in HV, Wx. apply (vanish_ideal FS (nth i xs []) gens); [apply Wx; apply nth_In; exact Hi|exact W|apply HV; apply nth_In; exact Hi|].
    apply SI. apply in_ideal_gen. exact I.
  - assert (S : forall (ys : list (list F)), ForallOrdPairs (differ FS k) ys -> forall j i, j < i -> i < length ys -> differ FS k (nth j ys []) (nth i ys [])).
    { clear. intros ys H. induction H as [|x ys Hx H IH]; intros j i Hj Hi; cbn in Hi; [lia|].
      destruct i as [|i]; [lia|]. destruct j as [|j]; cbn [nth]; [|apply IH; lia]. rewrite Forall_forall in Hx. apply Hx. apply nth_In. lia. }
    intros j i Hj Hi N. destruct (Nat.lt_gt_cases j i) as [Q _]. destruct (Q N) as [L|L].
    + destruct (S xs HD j i L Hi) as (l & Hl & Nl). exists l. split; [exact Hl|exact Nl].
    + destruct (S xs HD i j L Hj) as (l & Hl & Nl). exists l. split; [exact Hl|]. intros Y. apply Nl. symmetry. exact Y.
  - exists w. intros i Hi. rewrite (entries xs ds a Wx Wd VM w i Hi). apply Ew. exact Hi.
Qed.

(** ** one variable *)
Definition power_degrees (d : nat) : list mdeg := map (fun k => if k =? 0 then [] else [k]) (seq 0 d).
Lemma power_canon d : map canon (power_degrees d) = powers d.
Proof.
  unfold power_degrees, powers. rewrite map_map. apply map_ext. intros k. apply mono_ext. intros i. rewrite canon_exp, mvar_exp.
  destruct (Nat.eqb_spec k 0) as [->|N]; unfold expo; destruct i as [|[|i]]; cbn; try reflexivity.
Qed.
Lemma power_length d : length (power_degrees d) = d.
Proof. unfold power_degrees. rewrite map_length. apply seq_length. Qed.
Lemma power_mwf d : d <= 256 -> Forall mwf (power_degrees d).
Proof.
  intros H. apply Forall_forall. intros e I. unfold power_degrees in I. apply in_map_iff in I as (k & <- & I). apply in_seq in I. destruct (Nat.eqb_spec k 0) as [->|N]; [apply mwf_nil|].
  split; [|constructor; [lia|constructor]]. unfold canonical. cbn. exact N.
Qed.
Lemma power_nodup d : NoDup (power_degrees d).
Proof.
  pose proof (powers_nodup d) as H. rewrite <- power_canon in H. apply NoDup_map_inv in H. exact H.
Qed.
(** Vandermonde matrices: with different points the rank is as large as it can be, and a polynomial of degree less than the number of points is
    determined by its values *)
Theorem C144_vandermonde : forall (xs : list (list F)) d a s, Forall (Forall (fwf FS)) xs -> d <= 256 -> ForallOrdPairs (differ FS 1) xs ->
  value_matrix xs (power_degrees d) a -> echelon_of T a s \/ rref_of T a s ->
  form_rank T s = Ok (Nat.min (length xs) d) /\
  (d <= length xs -> forall p q : poly, over_degrees (power_degrees d) p -> over_degrees (power_degrees d) q ->
     (forall i, i < length xs -> exists v w, poly_eval p (nth i xs []) = Ok v /\ poly_eval q (nth i xs []) = Ok w /\ den v = den w) ->
     forall x, coeff (val p) x = coeff (val q) x).
Proof.
  intros xs d a s Wx Hd HD VM Hs. set (X := fun i => pt FS (nth i xs [])). pose proof (power_mwf d Hd) as Wd. pose proof (power_nodup d) as ND.
  assert (D : forall j i, j < length xs -> i < length xs -> j <> i -> X j 0 <> X i 0).
  { assert (S : forall (ys : list (list F)), ForallOrdPairs (differ FS 1) ys -> forall j i, j < i -> i < length ys -> differ FS 1 (nth j ys []) (nth i ys [])).
    { clear. intros ys H. induction H as [|x ys Hx H IH]; intros j i Hj Hi; cbn in Hi; [lia|].
      destruct i as [|i]; [lia|]. destruct j as [|j]; cbn [nth]; [|apply IH; lia]. rewrite Forall_forall in Hx. apply Hx. apply nth_In. lia. }
    intros j i Hj Hi N Y. destruct (Nat.lt_gt_cases j i) as [Q _]. destruct (Q N) as [L|L].
    - destruct (S xs HD j i L Hi) as (l & Hl & Nl). apply Nl. replace l with 0 by lia. exact Y.
    - destruct (S xs HD i j L Hj) as (l & Hl & Nl). apply Nl. replace l with 0 by lia. symmetry. exact Y. }
  assert (EV : forall w i, i < length xs -> mvec d (ent a) w i = mvec d (values X (powers d)) w i).
  { intros w i Hi. pose proof (entries xs _ a Wx Wd VM w i Hi) as Y. rewrite power_canon, powers_length, power_length in Y. exact Y. }
  assert (KZ : d <= length xs -> forall w, in_kernel (length xs) d (ent a) w -> forall j, j < d -> w j = k0).
  { intros L w Hw. apply (uni_kernel X (length xs) D d w L). intros i Hi. rewrite <- EV by exact Hi. apply Hw. exact Hi. }
  pose proof (proj1 VM) as W. rewrite power_length in W. split.
  - destruct (Nat.le_ge_cases d (length xs)) as [L|L].
    + destruct (C53_nullity FS T TS a _ _ s W Hs) as (r & Er & _ & ((vs & (I & S & _) & Lv) & _)). rewrite Er. f_equal.
      destruct (C53_rank FS T TS a _ _ s W Hs) as (r' & Er' & _ & Lr & _). assert (r = r') by congruence. subst r'.
      destruct vs as [|v vs]; [cbn in Lv; lia|exfalso]. inversion S as [|? ? Sv _]; subst. apply (F_1_neq_0 (kth K)).
      apply (I (fun k => if k =? 0 then k1 else k0) ) with (k := 0); [|cbn; lia]. intros i Hi. unfold lcomb. rewrite (sumn_one _ 0); [|cbn; lia|intros k Hk N; destruct k; [lia|cbn; ring]].
      cbn [Nat.eqb nth]. rewrite (KZ L v Sv i Hi). ring.
    + destruct (C53_rank FS T TS a _ _ s W Hs) as (r & Er & _ & _ & DC & _). rewrite Er. f_equal. rewrite Nat.min_l by exact L. apply (onto_rank _ _ _ _ DC). intros b.
      destruct (uni_onto X (length xs) D d L b) as (w & Ew). exists w. intros i Hi. rewrite EV by exact Hi. apply Ew. exact Hi.
  - intros L p q Hp Hq Ev x.
    assert (Z : forall j, j < d -> coef_of (power_degrees d) p j = coef_of (power_degrees d) q j).
    { intros j Hj. assert (Y : ksub (coef_of (power_degrees d) p j) (coef_of (power_degrees d) q j) = k0).
      { apply (KZ L (fun j => ksub (coef_of (power_degrees d) p j) (coef_of (power_degrees d) q j))); [|exact Hj]. intros i Hi. destruct (Ev i Hi) as (v & w & E1 & E2 & E3).
        rewrite (value xs _ a Wx Wd ND VM p i v Hp Hi E1), (value xs _ a Wx Wd ND VM q i w Hq Hi E2), power_length in E3. unfold mvec in *.
        rewrite (sumn_ext d _ (fun l => ksub (kmul (ent a i l) (coef_of (power_degrees d) p l)) (kmul (ent a i l) (coef_of (power_degrees d) q l)))) by (intros; ring).
        rewrite sumn_sub, E3. ring. }
      transitivity (kadd (ksub (coef_of (power_degrees d) p j) (coef_of (power_degrees d) q j)) (coef_of (power_degrees d) q j)); [ring|]. rewrite Y. ring. }
    destruct (in_dec mono_dec x (map canon (power_degrees d))) as [J|N].
    + apply (In_nth _ _ mone) in J as (j & Hj & <-). rewrite ms_length in Hj. rewrite ms_nth by exact Hj. rewrite power_length in Hj. apply Z. exact Hj.
    + assert (G : forall g, over_degrees (power_degrees d) g -> coeff (val g) x = k0).
      { intros g Hg. destruct (kdec (coeff (val g) x) k0) as [|Q]; [assumption|exfalso]. apply N. apply (over_within (power_degrees d) g Hg). exact Q. }
      rewrite (G p Hp), (G q Hq). reflexivity.
Qed.
End PropInterp.

(** ** Examples *)
Notation RR := (rat_impl Debug).
Notation RT := (rat_stab Debug).
Lemma ex_values xs ds n m l : length xs = n -> length ds = m -> ex_mat_okb (ex_mat n m l) = true ->
  (forall i j, i < n -> j < m -> exists v, term_eval (term_monic (nth j ds [])) (nth i xs []) = Ok v /\ mget (ex_mat n m l) i j = Ok v) ->
  value_matrix rat_spec xs ds (ex_mat n m l).
Proof.
  intros <- <- H E. split; [|exact E]. split; [apply ex_mat_ok; assumption|split; reflexivity].
Qed.
Ltac ent := apply ex_values; [reflexivity..|]; intros i j Hi Hj.
Ltac at_ z := exists (mkrat z 1 : RR); split; reflexivity.
(** the powers 1, x, x^2 at the points 0, 1, 2 *)
Definition ex_pts : list (list RR) := [[mkrat 0 1 : RR]; [mkrat 1 1 : RR]; [mkrat 2 1 : RR]].
Definition ex_vm := ex_mat 3 3 [(1,1);(0,1);(0,1);(1,1);(1,1);(1,1);(1,1);(2,1);(4,1)]%Z.
Example C144_ex_matrix : value_matrix rat_spec ex_pts (power_degrees 3) ex_vm.
Proof.
  ent. destruct i as [|[|[|i]]]; [| | |lia]; (destruct j as [|[|[|j]]]; [| | |lia]).
  - at_ 1%Z.
  - at_ 0%Z.
  - at_ 0%Z.
  - at_ 1%Z.
  - at_ 1%Z.
  - at_ 1%Z.
  - at_ 1%Z.
  - at_ 2%Z.
  - at_ 4%Z.
Qed.
Definition ex_vm_rref : form (F:=RR) := mkform
  (ex_mat 3 3 [(1,1);(0,1);(0,1);(-3,2);(2,1);(-1,2);(1,2);(-1,1);(1,2)]%Z) (ex_mat 3 3 [(1,1);(0,1);(0,1);(0,1);(1,1);(0,1);(0,1);(0,1);(1,1)]%Z).
Example C144_ex_rank : rref_of RT ex_vm ex_vm_rref /\ form_rank RT ex_vm_rref = Ok 3.
Proof. split; [apply ex_rref_of; reflexivity|reflexivity]. Qed.
Example C144_ex_different : ForallOrdPairs (differ rat_spec 1) ex_pts.
Proof.
  constructor; [constructor; [|constructor; [|constructor]]|constructor; [constructor; [|constructor]|constructor; constructor]];
    exists 0; (split; [lia|]); cbn; intros H; discriminate H.
Qed.
(** the polynomial x^2 - x + 5 *)
Definition ex_par : poly RR := [ex_t 1 1 [2]; ex_t (-1) 1 [1]; ex_t 5 1 []].
Example C144_ex_values : over_degrees rat_spec (power_degrees 3) ex_par /\
  mat_mul ex_vm (ex_mat 3 1 [(5,1);(-1,1);(1,1)]%Z) = Ok (ex_mat 3 1 [(5,1);(5,1);(7,1)]%Z) /\
  poly_eval ex_par (nth 2 ex_pts []) = Ok (mkrat 7 1 : RR).
Proof.
  split; [|split; reflexivity]. split; [apply ex_clean; reflexivity|]. intros t [<-|[<-|[<-|[]]]]; cbn; auto.
Qed.
(** the monomials 1, x, y at three points of a line: the kernel is spanned by the equation y - 2x - 1 *)
Definition ex_line : list (list RR) := [[mkrat 0 1 : RR; mkrat 1 1 : RR]; [mkrat 1 1 : RR; mkrat 3 1 : RR]; [mkrat 2 1 : RR; mkrat 5 1 : RR]].
Definition ex_lv := ex_mat 3 3 [(1,1);(0,1);(1,1);(1,1);(1,1);(3,1);(1,1);(2,1);(5,1)]%Z.
Definition ex_lv_rref : form (F:=RR) := mkform
  (ex_mat 3 3 [(0,1);(2,1);(-1,1);(0,1);(-1,1);(1,1);(1,1);(-2,1);(1,1)]%Z) (ex_mat 3 3 [(1,1);(0,1);(1,1);(0,1);(1,1);(2,1);(0,1);(0,1);(0,1)]%Z).
Definition ex_eqn : poly RR := [ex_t 1 1 [0; 1]; ex_t (-2) 1 [1]; ex_t (-1) 1 []].
Example C144_ex_line : value_matrix rat_spec ex_line [[]; [1]; [0; 1]] ex_lv /\ rref_of RT ex_lv ex_lv_rref /\
  compute_kernel RT ex_lv_rref = Ok [ex_mat 3 1 [(-1,1);(-2,1);(1,1)]%Z] /\ form_rank RT ex_lv_rref = Ok 2 /\
  over_degrees rat_spec [[]; [1]; [0; 1]] ex_eqn /\ mapM (poly_eval ex_eqn) ex_line = Ok [mkrat 0 1 : RR; mkrat 0 1 : RR; mkrat 0 1 : RR].
Proof.
  split; [|split; [apply ex_rref_of; reflexivity|split; [reflexivity|split; [reflexivity|split; [|reflexivity]]]]].
  - ent. destruct i as [|[|[|i]]]; [| | |lia]; (destruct j as [|[|[|j]]]; [| | |lia]).
    + at_ 1%Z.
    + at_ 0%Z.
    + at_ 1%Z.
    + at_ 1%Z.
    + at_ 1%Z.
    + at_ 3%Z.
    + at_ 1%Z.
    + at_ 2%Z.
    + at_ 5%Z.
  - split; [apply ex_clean; reflexivity|]. intros t [<-|[<-|[<-|[]]]]; cbn; auto.
Qed.
(** the standard monomials 1, y of (xy - 1, x - y) at the two common zeros *)
Definition ex_sv := ex_mat 2 2 [(1,1);(1,1);(1,1);(-1,1)]%Z.
Definition ex_sv_rref : form (F:=RR) := mkform (ex_mat 2 2 [(1,2);(1,2);(1,2);(-1,2)]%Z) (ex_mat 2 2 [(1,1);(0,1);(0,1);(1,1)]%Z).
Example C144_ex_standard : buchberger_algorithm Debug lex_cmp 30 [ex_i1; ex_i2] = Ok [ex_i2; ex_i3] /\
  (forall m, std lex_lt 2 (map (ip rat_spec) [ex_i2; ex_i3]) m -> In m (map canon [[]; [0; 1]])) /\
  value_matrix rat_spec ex_zeros [[]; [0; 1]] ex_sv /\ rref_of RT ex_sv ex_sv_rref /\ form_rank RT ex_sv_rref = Ok 2.
Proof.
  split; [exact C95_run|]. split; [|split; [|split; [apply ex_rref_of; reflexivity|reflexivity]]].
  - intros m Hm. apply C107_ex in Hm as [<-|[<-|[]]]; [left|right; left]; apply mono_ext; intros [|[|[|i]]]; reflexivity.
  - ent. destruct i as [|[|i]]; [| |lia]; (destruct j as [|[|j]]; [| |lia]).
    + at_ 1%Z.
    + at_ 1%Z.
    + at_ 1%Z.
    + at_ (-1)%Z.
Qed.

Print Assumptions C144_values.
Print Assumptions C144_vanishing.
Print Assumptions C144_prescribed.
Print Assumptions C144_standard.
Print Assumptions C144_vandermonde.
