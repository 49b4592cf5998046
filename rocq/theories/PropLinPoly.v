(** * Property C113: Groebner bases of linear systems and row reduction agree.

    Two independent parts of the crate, PolyComputer::buchberger_algorithm and Mat::row_echelon / Form::to_rref,
    give the same answer on polynomials of degree at most one.  Row i of the matrix is the polynomial
    [linpoly var m (a i)] = a_i0 x_(var 0) + .. + a_i(m-1) x_(var (m-1)) + a_im. *)
From Coq Require Import ZArith QArith Qcanon.
From Verif Require Import Base BaseLemmas IntModel RatModel FieldIface RatProofs UtilModel MatModel AlgModel
  LinSpec RrefSpec MatProofs AlgProofs Ideal NoOverflow LinFacts PropMat PropLin
  MDegModel OrdModel PolyModel CompModel
  MonoSpec MDegProofs OrdProofs PolySpec PolyProofs GroebnerSpec DivProofs DivSpec GbProofs CompMono PropPoly PropDiv PropGb IdealSpec PropIdeal SubstSpec
  PropIdealOps MapSpec LinPolySpec.
From Coq Require Import Ring Field Setoid Morphisms.
Local Open Scope nat_scope.

Section PropLinPoly.
Context {F : FieldImpl} {K : MathField} (FS : FieldSpec F K) (T : StabImpl F) (TS : StabSpec FS T).
Add Field Kf42 : (kth K).
Add Ring Pr42 : (@poly_ring K) (setoid (@peq_equiv K) (@poly_ring_ext K)).
Notation poly := (poly F).
Notation val := (ip FS).
Notation ent := (mden FS).
Notation clean := (pwf FS).
Notation nonzero := (fun g : poly => g <> []).

(** the generators are the nonzero rows of the matrix [a] with n rows and m + 1 columns *)
Definition linear_system (var : nat -> nat) (n m : nat) (a : mat F) (gens : list poly) : Prop :=
  okm FS n (S m) a /\ Forall clean gens /\ Forall nonzero gens /\
  (forall g, In g gens -> exists i, i < n /\ peq (val g) (linpoly var m (ent a i))) /\
  (forall i, i < n -> peq (linpoly var m (ent a i)) pzero \/ exists g, In g gens /\ peq (val g) (linpoly var m (ent a i))).

Lemma lms (lt : mono -> mono -> Prop) (L : mono_order_laws lt) (G : list (spoly K)) : (forall g, In g G -> ~ peq g pzero) ->
  exists ls, Forall2 (is_lm lt) G ls.
Proof.
  induction G as [|g G IH]; intros N; [exists []; constructor|]. destruct IH as (ls & H); [intros h I; apply N; right; exact I|].
  destruct (zero_or_lm lt L g) as [Z|(l & Hl)]; [exfalso; apply (N g); [left; reflexivity|exact Z]|]. exists (l :: ls). constructor; assumption.
Qed.
Lemma lms_in (lt : mono -> mono -> Prop) (G : list (spoly K)) ls : Forall2 (is_lm lt) G ls ->
  (forall g, In g G -> exists l, In l ls /\ is_lm lt g l) /\ (forall l, In l ls -> exists g, In g G /\ is_lm lt g l).
Proof.
  induction 1 as [|g l G ls H _ [A B]]; [split; intros x []|]. split; intros x [->|I].
  - exists l. split; [left; reflexivity|exact H].
  - destruct (A x I) as (y & Iy & Hy). exists y. split; [right; exact Iy|exact Hy].
  - exists g. split; [left; reflexivity|exact H].
  - destruct (B x I) as (y & Iy & Hy). exists y. split; [right; exact Iy|exact Hy].
Qed.
Lemma lms_nodup (lt : mono -> mono -> Prop) (G : list (spoly K)) ls : Forall2 (is_lm lt) G ls -> inter_reduced lt G -> NoDup ls.
Proof.
  intros H [_ R]. apply NoDup_nth_error. intros i j Hi E.
  assert (X : forall G ls, Forall2 (is_lm lt) G ls -> forall k l, nth_error ls k = Some l -> exists g : spoly K, nth_error G k = Some g /\ is_lm lt g l).
  { clear. induction 1 as [|g l G ls Hg _ IH]; intros [|k] l' Ek; cbn [nth_error] in *; try discriminate; [|eauto]. injection Ek as <-. eauto. }
  destruct (nth_error ls i) as [l|] eqn:Ei; [|apply nth_error_None in Ei; lia]. symmetry in E.
  destruct (X G ls H i l Ei) as (gi & Gi & Li). destruct (X G ls H j l E) as (gj & Gj & Lj).
  destruct (Nat.eq_dec i j) as [|N]; [assumption|]. exfalso. refine (R i j gi gj l l N Gi Gj Lj (proj1 Li) _). intros k. lia.
Qed.
Lemma scale_lm (lt : mono -> mono -> Prop) (p q : spoly K) c l : c <> k0 -> peq p (pscale c q) -> is_lm lt q l -> is_lm lt p l.
Proof.
  intros C E [N M]. split.
  - rewrite E, coeff_scale. intros Z. apply N. transitivity (kmul (kinv c) (kmul c (coeff q l))); [field; exact C|rewrite Z; ring].
  - intros x X. apply M. intros Z. apply X. rewrite E, coeff_scale, Z. ring.
Qed.
(** two inter-reduced families with the same elements up to scaling have the same size *)
Lemma same_size (lt : mono -> mono -> Prop) (L : mono_order_laws lt) (G H : list (spoly K)) : inter_reduced lt G -> inter_reduced lt H ->
  (forall g, In g G -> exists h c, In h H /\ c <> k0 /\ peq g (pscale c h)) -> (forall h, In h H -> exists g c, In g G /\ c <> k0 /\ peq h (pscale c g)) ->
  length G = length H.
Proof.
  assert (X : forall G H : list (spoly K), inter_reduced lt G -> inter_reduced lt H ->
    (forall g, In g G -> exists h c, In h H /\ c <> k0 /\ peq g (pscale c h)) -> length G <= length H).
  { clear G H. intros G H RG RH A. destruct (lms lt L G (proj1 RG)) as (lg & LG). destruct (lms lt L H (proj1 RH)) as (lh & LH).
    rewrite (Forall2_len _ _ _ LG), (Forall2_len _ _ _ LH). apply NoDup_incl_length; [apply (lms_nodup lt G lg LG RG)|].
    intros l Il. destruct (proj2 (lms_in lt G lg LG) l Il) as (g & Ig & Hg). destruct (A g Ig) as (h & c & Ih & C & E).
    destruct (proj1 (lms_in lt H lh LH) h Ih) as (l' & Il' & Hh). rewrite (is_lm_unique lt L _ _ _ Hg (scale_lm lt g h c l' C E Hh)). exact Il'. }
  intros RG RH A B. apply Nat.le_antisymm; auto.
Qed.

(** the rows of the matrix and of its reduced form generate the same ideal *)
Lemma system_ideal {O} (OS : OrderSpec O) var n m a gens s r piv : decreasing var m (olt OS) ->
  linear_system var n m a gens -> row_equivalent FS n (S m) a s -> rref n (S m) r piv (ent (fb s)) ->
  forall f, in_ideal (map val gens) f <-> in_ideal (linrows var m r (ent (fb s))) f.
Proof.
  intros D (W & Wg & Ng & G1 & G2) (_ & _ & (q & Q1 & Q2) & M) R. set (lt := olt OS) in *. pose proof (olaws _ OS : mono_order_laws lt) as L.
  assert (A : forall i, i < n -> in_ideal (map val gens) (linpoly var m (ent a i))).
  { intros i Hi. destruct (G2 i Hi) as [Z|(g & Ig & E)]; [rewrite Z; apply in_ideal_zero|]. rewrite <- E. apply in_ideal_gen. apply in_map. exact Ig. }
  assert (B : forall i, i < n -> in_ideal (linrows var m r (ent (fb s))) (linpoly var m (ent (fb s) i))).
  { intros i Hi. destruct (Nat.lt_ge_cases i r) as [C|C].
    - apply in_ideal_gen. unfold linrows. apply in_map_iff. exists i. split; [reflexivity|apply in_seq; lia].
    - rewrite (linpoly_zero var m lt L D); [apply in_ideal_zero|]. intros j Hj. apply (ech_zero _ _ _ _ _ (proj1 R)); lia. }
  assert (M' : meq n (S m) (LinSpec.mmul n q (ent (fb s))) (ent a)).
  { intros i j Hi Hj. transitivity (LinSpec.mmul n q (LinSpec.mmul n (ent (fp s)) (ent a)) i j).
    - symmetry. apply LinSpec.mmul_ext with (n := n) (m := S m); [apply meq_refl|exact M|exact Hi|exact Hj].
    - rewrite <- LinSpec.mmul_assoc. transitivity (LinSpec.mmul n mid (ent a) i j).
      + apply LinSpec.mmul_ext with (n := n) (m := S m); [exact Q2|apply meq_refl|exact Hi|exact Hj].
      + apply (LinSpec.mmul_id_l n (S m)); assumption. }
  intros f. split; revert f; apply in_ideal_sub_ideal.
  - intros g Ig. apply in_map_iff in Ig as (g' & <- & Ig). destruct (G1 g' Ig) as (i & Hi & ->).
    rewrite (linpoly_ext var m (ent a i) (fun j => sumn n (fun k => kmul (q i k) (ent (fb s) k j)))).
    + apply (linpoly_comb var m lt L D). exact B.
    + intros j Hj. symmetry. apply (M' i j Hi). lia.
  - intros g Ig. unfold linrows in Ig. apply in_map_iff in Ig as (i & <- & Ii). apply in_seq in Ii. pose proof (ech_le _ _ _ _ _ (proj1 R)).
    rewrite (linpoly_ext var m (ent (fb s) i) (fun j => sumn n (fun k => kmul (ent (fp s) i k) (ent a k j)))).
    + apply (linpoly_comb var m lt L D). exact A.
    + intros j Hj. symmetry. apply (M i j); lia.
Qed.

(** the result of Buchberger's algorithm consists of the nonzero rows of the reduced row echelon form, up
    to order and scaling; it is a single constant exactly when the constant column holds a pivot *)
Theorem C113_rref : forall (O : ord_impl) (OS : OrderSpec O) var n m a gens s fuel out,
  decreasing var m (olt OS) -> linear_system var n m a gens -> rref_of T a s -> buchberger_algorithm Debug O fuel gens = Ok out ->
  exists r piv, rref n (S m) r piv (ent (fb s)) /\ form_rank T s = Ok r /\
    ((exists i, i < r /\ piv i = m) <-> exists t, out = [[t]] /\ tdeg t = []) /\
    ((forall i, i < r -> piv i <> m) -> length out = r /\
      (forall g, In g out -> exists i c, i < r /\ c <> k0 /\ peq (val g) (pscale c (linpoly var m (ent (fb s) i)))) /\
      (forall i, i < r -> exists g c, In g out /\ c <> k0 /\ peq (val g) (pscale c (linpoly var m (ent (fb s) i))))).
Proof.
  intros O OS var n m a gens s fuel out D LS H E. pose proof LS as (W & Wg & Ng & _).
  destruct (C52_rref FS T TS a n (S m) s W H) as (RE & r & piv & R). exists r, piv. split; [exact R|].
  split; [apply (form_rank_ok FS T TS _ _ _ _ _ _ _ (row_equivalent_form_ok FS _ _ _ _ RE) (proj1 R))|].
  pose proof (system_ideal OS var n m a gens s r piv D LS RE R) as SI.
  set (lt := olt OS) in *. pose proof (olaws _ OS : mono_order_laws lt) as L. set (b := ent (fb s)) in *.
  assert (NU : (forall i, i < r -> piv i <> m) -> ~ in_ideal (map val gens) pone).
  { intros NC I. apply SI in I. destruct (linrows_groebner var m lt L D n r piv b R NC pone mone I) as (g & l & Ig & Lg & Dv).
    - apply lm_pone.
    - unfold linrows in Ig. apply in_map_iff in Ig as (i & <- & Hi). apply in_seq in Hi.
      rewrite (is_lm_unique lt L _ _ _ Lg (row_lm var m lt L D n r piv b R NC i ltac:(lia))) in Dv.
      specialize (Dv (var (piv i))). rewrite mvar_exp, Nat.eqb_refl, mone_exp in Dv. lia. }
  split.
  - rewrite <- (proj2 (C94_unit_ideal FS OS fuel gens out Wg Ng E)). split.
    + intros (i & Hi & Pi). apply SI.
      assert (X : peq pone (linpoly var m (b i))).
      { apply (linpoly_coeff_eq var m lt L D).
        - intros j Hj. change (@pone K) with (@pterm K k1 mone). rewrite coeff_pterm. unfold col. destruct (Nat.ltb_spec j m) as [C|C].
          + destruct (mono_dec mone (mvar (var j) 1)) as [Q|Q]; [exfalso; exact (mvar_not_one _ (eq_sym Q))|].
            symmetry. apply (ech_left _ _ _ _ _ (proj1 R) i j Hi). lia.
          + destruct (mono_dec mone mone) as [_|Q]; [|congruence]. replace j with (piv i) by lia. symmetry. apply (ech_one _ _ _ _ _ (proj1 R) i Hi).
        - intros x N. exists m. split; [lia|]. unfold col. rewrite Nat.ltb_irrefl. apply one_coeff in N. exact N. }
      rewrite X. apply in_ideal_gen. unfold linrows. apply in_map_iff. exists i. split; [reflexivity|apply in_seq; lia].
    + intros I. destruct (Exists_dec (fun i => piv i = m) (seq 0 r)) as [X|X].
      { intros i. apply Nat.eq_dec. }
      * apply Exists_exists in X as (i & Hi & X). apply in_seq in Hi. exists i. split; [lia|exact X].
      * exfalso. apply (NU); [|exact I]. intros i Hi Q. apply X. apply Exists_exists. exists i. split; [apply in_seq; lia|exact Q].
  - intros NC. destruct (algorithm_run FS OS fuel gens out Wg Ng E) as (Wo & SO & GB & IR).
    pose proof (linrows_groebner var m lt L D n r piv b R NC) as GR. pose proof (linrows_inter_reduced var m lt L D n r piv b R NC) as RR.
    assert (SI' : forall f, in_ideal (map val out) f <-> in_ideal (linrows var m r b) f).
    { intros f. rewrite <- SI. apply SO. }
    pose proof (inter_reduced_unique lt L (map val out) (linrows var m r b) GB GR IR RR SI') as U1.
    pose proof (inter_reduced_unique lt L (linrows var m r b) (map val out) GR GB RR IR (fun f => iff_sym (SI' f))) as U2.
    split; [|split].
    + rewrite <- (map_length val out), (same_size lt L _ _ IR RR U1 U2). unfold linrows. rewrite map_length. apply seq_length.
    + intros g Ig. destruct (U1 (val g) (in_map _ _ _ Ig)) as (h & c & Ih & C & Eh). unfold linrows in Ih. apply in_map_iff in Ih as (i & <- & Hi).
      apply in_seq in Hi. exists i, c. split; [lia|]. split; assumption.
    + intros i Hi. destruct (U2 (linpoly var m (b i))) as (h & c & Ih & C & Eh).
      { unfold linrows. apply in_map_iff. exists i. split; [reflexivity|apply in_seq; lia]. }
      apply in_map_iff in Ih as (g & <- & Ig). exists g, (kinv c). split; [exact Ig|]. split.
      * intros Z. apply (F_1_neq_0 (kth K)). transitivity (kmul (kinv c) c); [field; exact C|rewrite Z; ring].
      * apply peq_coeff. intros x. rewrite coeff_scale, Eh, coeff_scale. field. exact C.
Qed.
End PropLinPoly.

(** the four orders of the crate *)
Theorem C113_orders : forall m,
  decreasing (fun j => j) m (olt lex_spec) /\ decreasing (fun j => j) m (olt grlex_spec) /\ decreasing (fun j => j) m (olt grevlex_spec) /\
  decreasing (fun j => m - 1 - j) m (olt revlex_spec).
Proof.
  intros m. assert (T : forall i, mtot (mvar i 1) = 1) by (intros i; unfold mvar; rewrite mtot_canon; induction i as [|i IH]; [reflexivity|exact IH]).
  assert (A : forall i j, i < j -> lex_lt (mvar j 1) (mvar i 1)).
  { intros i j H. exists i. rewrite !mvar_exp, Nat.eqb_refl. destruct (Nat.eqb_spec i j); [lia|]. split; [lia|].
    intros k Hk. rewrite !mvar_exp. destruct (Nat.eqb_spec k i), (Nat.eqb_spec k j); lia. }
  assert (B : forall i j, i < j -> revlex_lt (mvar i 1) (mvar j 1)).
  { intros i j H. exists j. rewrite !mvar_exp, Nat.eqb_refl. destruct (Nat.eqb_spec j i); [lia|]. split; [lia|].
    intros k Hk. rewrite !mvar_exp. destruct (Nat.eqb_spec k i), (Nat.eqb_spec k j); lia. }
  repeat split; intros i j H1 H2.
  - apply A. exact H1.
  - right. split; [rewrite !T; reflexivity|apply A; exact H1].
  - right. split; [rewrite !T; reflexivity|apply B; exact H1].
  - apply B. lia.
Qed.

(** 2y + z + 4, x/2 + y - 1/3 and x/2 + 3y + z + 11/3 *)
Notation R := (rat_impl Debug).
Definition ex_sys : list (poly R) :=
  [[ex_t 2 1 [0; 1]; ex_t 1 1 [0; 0; 1]; ex_t 4 1 []]; [ex_t 1 2 [1]; ex_t 1 1 [0; 1]; ex_t (-1) 3 []];
   [ex_t 1 2 [1]; ex_t 3 1 [0; 1]; ex_t 1 1 [0; 0; 1]; ex_t 11 3 []]].
Definition ex_sys_out : list (poly R) :=
  [[ex_t 2 1 [0; 1]; ex_t 1 1 [0; 0; 1]; ex_t 4 1 []]; [ex_t 1 2 [1]; ex_t (-1) 2 [0; 0; 1]; ex_t (-7) 3 []]].
Section Drop.
Context {K : MathField}.
Add Field Kf43 : (kth K).
Lemma drop_zero (m : mono) (p q : spoly K) c : c = k0 -> peq q p -> peq q ((c, m) :: p).
Proof. intros -> E. rewrite E. apply peq_coeff. intros x. change ((k0, m) :: p) with (padd (pterm k0 m) p). rewrite coeff_add, coeff_pterm. destruct (mono_dec m x); ring. Qed.
Lemma cons_eq (m m' : mono) (p q : spoly K) c c' : c = c' -> m = m' -> peq p q -> peq ((c, m) :: p) ((c', m') :: q).
Proof. intros -> -> E. change ((c', m') :: p) with (padd (pterm c' m') p). change ((c', m') :: q) with (padd (pterm c' m') q). rewrite E. reflexivity. Qed.
End Drop.
Ltac row := unfold linpoly; cbn [seq map nth ex_sys ip]; repeat first
  [ reflexivity | apply cons_eq; [apply Qc_is_canon; reflexivity|reflexivity|] | apply drop_zero; [apply Qc_is_canon; reflexivity|] ].
Example C113_hyps : linear_system rat_spec (fun j => j) 3 3 ex_a ex_sys /\ rref_of RT ex_a ex_a_rref /\
  buchberger_algorithm Debug lex_cmp 30 ex_sys = Ok ex_sys_out /\ buchberger_algorithm Debug (grevlex_cmp Debug) 30 ex_sys = Ok ex_sys_out.
Proof.
  assert (A : forall i, i < 3 -> peq (ip rat_spec (nth i ex_sys [])) (linpoly (fun j => j) 3 (mden rat_spec ex_a i))).
  { intros [|[|[|i]]] H; [row|row|row|lia]. }
  split; [|split; [exact C52_ex|split; reflexivity]]. split; [exact ex_a_ok|].
  split; [repeat (constructor; [apply ex_clean; reflexivity|]); constructor|]. split; [repeat (constructor; [discriminate|]); constructor|]. split.
  - intros g [<-|[<-|[<-|[]]]]; [exists 0|exists 1|exists 2]; (split; [lia|]); [apply (A 0)|apply (A 1)|apply (A 2)]; lia.
  - intros i H. right. exists (nth i ex_sys []). split; [apply nth_In; exact H|apply A; exact H].
Qed.
(** the two rows of [ex_a_rref] are x - z - 14/3 and y + z/2 + 2 *)
Example C113_ex : form_rank RT ex_a_rref = Ok 2 /\ length ex_sys_out = 2.
Proof. split; reflexivity. Qed.
(** an inconsistent system: 5 in place of 11/3 *)
Example C113_ex_inconsistent :
  let sys := [[ex_t 2 1 [0; 1]; ex_t 1 1 [0; 0; 1]; ex_t 4 1 []]; [ex_t 1 2 [1]; ex_t 1 1 [0; 1]; ex_t (-1) 3 []];
              [ex_t 1 2 [1]; ex_t 3 1 [0; 1]; ex_t 1 1 [0; 0; 1]; ex_t 5 1 []]] : list (poly R) in
  buchberger_algorithm Debug lex_cmp 30 sys = Ok [[ex_t 1 1 []]] /\
  rref_of RT (ex_mat 3 4 [(0,1);(2,1);(1,1);(4,1);(1,2);(1,1);(0,1);(-1,3);(1,2);(3,1);(1,1);(5,1)]%Z)
    (mkform (ex_mat 3 3 [(-9,2);(-3,2);(7,2);(8,4);(3,2);(-3,2);(-3,4);(-3,4);(3,4)]%Z)
       (ex_mat 3 4 [(1,1);(0,1);(-1,1);(0,1);(0,1);(1,1);(1,2);(0,1);(0,1);(0,1);(0,1);(1,1)]%Z)).
Proof. split; [reflexivity|apply ex_rref_of; reflexivity]. Qed.

Print Assumptions C113_rref.
Print Assumptions C113_orders.
