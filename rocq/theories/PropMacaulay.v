(** * C137: matrices of polynomials

    The coefficients of polynomials f_0, f_1, ... are entered as the rows of a matrix whose columns belong to monomials in
    decreasing order.  The pivot columns of its reduced form are the leading monomials of the linear combinations of the f_i, and
    its rows are linear combinations that are reduced against each other.  With all multiples x^a g of one degree of homogeneous
    generators g, the pivot columns are the monomials of this degree divisible by a leading monomial of the result of
    [buchberger_algorithm]: the two ways to compute agree. *)
From Coq Require Import ZArith Znumtheory QArith Qcanon.
From Verif Require Import Base BaseLemmas IntModel RatModel FieldIface RatProofs UtilModel MatModel AlgModel
  LinSpec RrefSpec MatProofs AlgProofs LinFacts PropMat PropLin
  MDegModel OrdModel PolyModel CompModel
  MonoSpec MDegProofs OrdProofs PolySpec PolyProofs GroebnerSpec DivProofs DivSpec GbProofs CompMono PropPoly PropDiv PropGb IdealSpec PropIdeal SubstSpec
  PropIdealOps StdSpec PropStd GradeSpec PropGraded ModSpec MacSpec PropModular.
From Coq Require Import Ring Field Setoid Morphisms.
Local Open Scope nat_scope.

Section PropMacaulay.
Context {F : FieldImpl} {K : MathField} (FS : FieldSpec F K) (T : StabImpl F) (TS : StabSpec FS T) {O : ord_impl} (OS : OrderSpec O).
Add Field Kf68 : (kth K).
Add Ring Pr68 : (@poly_ring K) (setoid (@peq_equiv K) (@poly_ring_ext K)).
Notation poly := (poly F).
Notation val := (ip FS).
Notation ent := (mden FS).
Notation clean := (pwf FS).
Notation nonzero := (fun g : poly => g <> []).
Notation lt := (olt OS).
Notation mon t := (canon (tdeg t)).
Notation vars n := (fun g : poly => forall t, In t g -> length (tdeg t) <= n).
Let laws := olaws _ OS.

(** row i of [a] has the coefficients of the i-th polynomial at the monomials [ms] *)
Definition row_matrix (ms : list mono) (fs : list poly) (a : mat F) : Prop :=
  okm FS (length fs) (length ms) a /\ forall i j, i < length fs -> j < length ms -> ent a i j = coeff (val (nth i fs [])) (nth j ms mone).
Definition decreasing_monos (ms : list mono) : Prop := forall i j, i < j -> j < length ms -> lt (nth j ms mone) (nth i ms mone).
(** linear combinations of the polynomials *)
Definition combination (fs : list poly) (p : spoly K) : Prop := exists w, peq p (wsum (length fs) w (fun i => val (nth i fs []))).

Lemma covers_at ms fs i x : Forall clean fs -> covers ms fs -> i < length fs -> coeff (val (nth i fs [])) x <> k0 -> exists j, j < length ms /\ nth j ms mone = x.
Proof.
  intros W C Hi N. assert (I : In (nth i fs []) fs) by (apply nth_In; exact Hi). pose proof (proj1 (Forall_forall _ _) W _ I) as Wi.
  apply (pwf_support FS _ x Wi) in N as (t & It & <-). apply (In_nth _ _ mone). apply (C _ t I It).
Qed.
Lemma form_equation ms fs a s : row_matrix ms fs a -> row_equivalent FS (length fs) (length ms) a s ->
  exists Q, invertible (length fs) Q /\ meq (length fs) (length ms) (LinSpec.mmul (length fs) Q (fun i j => coeff (val (nth i fs [])) (nth j ms mone))) (ent (fb s)).
Proof.
  intros [Wa Ma] (_ & _ & I & M). exists (ent (fp s)). split; [exact I|]. intros i j Hi Hj. rewrite <- (M i j Hi Hj). unfold LinSpec.mmul.
  apply sumn_ext. intros k Hk. rewrite (Ma k j Hk Hj). reflexivity.
Qed.

(** ** C137 *)
(** the pivot columns are the leading monomials of the linear combinations *)
Theorem C137_leading : forall fs ms a s bound, Forall clean fs -> covers ms fs -> decreasing_monos ms -> row_matrix ms fs a ->
  echelon_of T a s \/ rref_of T a s -> bound_variables T (fb s) = Ok bound ->
  (forall x, (exists p, combination fs p /\ is_lm lt p x) <-> exists j, In j bound /\ x = nth j ms mone) /\
  form_rank T s = Ok (length bound) /\ NoDup bound /\ forall j, In j bound -> j < length ms.
Proof.
  intros fs ms a s bound W C D M H Eb. destruct (form_of FS T TS a _ _ s (proj1 M) H) as (RE & r & piv & E).
  pose proof (row_equivalent_form_ok FS _ _ _ _ RE) as FO. destruct (form_equation ms fs a s M RE) as (Q & IQ & MQ).
  pose proof (proj1 (proj2 RE)) as WB. apply okm_mrep in WB. rewrite (bound_variables_ok FS T TS _ _ _ _ _ _ WB E) in Eb. injection Eb as <-.
  pose proof (covers_at ms fs) as Cv. split; [|split; [|split]].
  - intros x. split.
    + intros (p & S & L).
      destruct (spans_lm lt laws (length fs) (length ms) (fun i => val (nth i fs [])) (fun j => nth j ms mone) D (fun i x Hi N => Cv i x W C Hi N) r piv _ Q E IQ MQ p x S L) as (i & Hi & ->).
      exists (piv i). split; [apply in_map; apply in_seq; lia|reflexivity].
    + intros (j & I & ->). apply in_map_iff in I as (i & <- & Hi). apply in_seq in Hi. exists (rowpoly (length ms) (fun j => nth j ms mone) (ent (fb s) i)). split.
      * apply (rowpoly_spans lt laws (length fs) (length ms) (fun i => val (nth i fs [])) (fun j => nth j ms mone) D (fun i x Hi N => Cv i x W C Hi N) r piv _ Q E IQ MQ). lia.
      * apply (rowpoly_lm lt laws (length fs) (length ms) (fun j => nth j ms mone) D r piv _ E). lia.
  - rewrite map_length, seq_length. apply (form_rank_ok FS T TS _ _ _ _ _ _ _ FO E).
  - assert (X : forall k o, o + k <= r -> NoDup (map piv (seq o k))).
    { induction k as [|k IH]; intros o Ho; cbn [seq map]; [constructor|]. constructor; [|apply IH; lia]. intros I. apply in_map_iff in I as (i & Ei & Hi). apply in_seq in Hi.
      pose proof (ech_inc _ _ _ _ _ E o i ltac:(lia) ltac:(lia)). lia. }
    apply X. lia.
  - intros j I. apply in_map_iff in I as (i & <- & Hi). apply in_seq in Hi. apply (ech_lt _ _ _ _ _ E). lia.
Qed.
(** the rows of the reduced form: linear combinations with leading coefficient one, without the leading monomials of the others, and
    every linear combination is one of them *)
Theorem C137_rows : forall fs ms a s bound, Forall clean fs -> covers ms fs -> decreasing_monos ms -> row_matrix ms fs a ->
  rref_of T a s -> bound_variables T (fb s) = Ok bound ->
  exists h, (forall i, i < length bound -> combination fs (h i) /\ is_lm lt (h i) (nth (nth i bound 0) ms mone) /\
      (forall j, j < length ms -> coeff (h i) (nth j ms mone) = ent (fb s) i j) /\
      forall k, k < length bound -> coeff (h i) (nth (nth k bound 0) ms mone) = if Nat.eqb k i then k1 else k0) /\
    forall p, combination fs p <-> exists w, peq p (wsum (length bound) w h).
Proof.
  intros fs ms a s bound W C D M H Eb. destruct (C52_rref FS T TS a _ _ s (proj1 M) H) as (RE & r & piv & E & Up).
  destruct (form_equation ms fs a s M RE) as (Q & IQ & MQ).
  pose proof (proj1 (proj2 RE)) as WB. apply okm_mrep in WB. rewrite (bound_variables_ok FS T TS _ _ _ _ _ _ WB E) in Eb. injection Eb as <-.
  pose proof (covers_at ms fs) as Cv. set (B := ent (fb s)) in *. set (h := fun i => rowpoly (length ms) (fun j => nth j ms mone) (B i)).
  assert (Nb : forall i, i < r -> nth i (map piv (seq 0 r)) 0 = piv i).
  { intros i Hi. rewrite (nth_indep _ 0 (piv 0)) by (rewrite map_length, seq_length; exact Hi). rewrite map_nth, seq_nth by exact Hi. reflexivity. }
  assert (Ch : forall i j, j < length ms -> coeff (h i) (nth j ms mone) = B i j).
  { intros i j Hj. apply (coeff_rowpoly lt laws (length ms) (fun j => nth j ms mone) D (B i) j Hj). }
  rewrite map_length, seq_length. exists h. split.
  - intros i Hi. split; [|split; [|split]].
    + apply (rowpoly_spans lt laws (length fs) (length ms) (fun i => val (nth i fs [])) (fun j => nth j ms mone) D (fun i x Hi N => Cv i x W C Hi N) r piv _ Q E IQ MQ). exact Hi.
    + rewrite Nb by exact Hi. apply (rowpoly_lm lt laws (length fs) (length ms) (fun j => nth j ms mone) D r piv _ E). exact Hi.
    + intros j Hj. apply Ch. exact Hj.
    + intros k Hk. rewrite Nb by exact Hk. rewrite Ch by (apply (ech_lt _ _ _ _ _ E); exact Hk). destruct (Nat.eqb_spec k i) as [->|N]; [apply (ech_one _ _ _ _ _ E); exact Hi|].
      destruct (Nat.lt_ge_cases i k) as [L|L]; [apply Up; assumption|]. apply (ech_left _ _ _ _ _ E i (piv k) Hi). apply (ech_inc _ _ _ _ _ E); lia.
  - intros p. assert (SR := fun q => spans_rowspace (length fs) (length ms) (fun i => val (nth i fs [])) (fun j => nth j ms mone) (fun i x Hi N => Cv i x W C Hi N) q).
    destruct (ech_row_basis _ _ r piv _ B Q E IQ MQ) as (_ & S & Sp). split.
    + intros Cp. apply SR in Cp as [Cx R]. destruct (Sp _ R) as (c & Hc). exists c. apply peq_coeff. intros x. rewrite coeff_wsum.
      assert (X : (exists j, j < length ms /\ nth j ms mone = x) -> coeff p x = sumn r (fun k => kmul (c k) (coeff (h k) x))).
      { intros (j & Hj & <-). rewrite (Hc j Hj). unfold lcomb. rewrite map_length, seq_length. apply sumn_ext. intros k Hk. rewrite (Ch k j Hj). f_equal.
        rewrite (nth_indep _ vzero (mrow B 0)) by (rewrite map_length, seq_length; exact Hk). rewrite map_nth, seq_nth by exact Hk. reflexivity. }
      destruct (kdec (coeff p x) k0) as [Z|Z]; [|apply X; auto].
      destruct (kdec (sumn r (fun k => kmul (c k) (coeff (h k) x))) k0) as [Y|Y]; [rewrite Z, Y; reflexivity|]. apply X.
      apply sumn_nonzero in Y as (k & Hk & N). apply (rowpoly_cov (length ms) (fun j => nth j ms mone) (B k) x). intros Z'. apply N. unfold h. rewrite Z'. ring.
    + intros (w & Hw). change (spans (length fs) (fun i => val (nth i fs [])) p). rewrite Hw. clear Hw p SR.
      assert (X : forall k, k <= r -> spans (length fs) (fun i => val (nth i fs [])) (wsum k w h)); [|apply X; lia].
      induction k as [|k IH]; intros Hk; cbn [wsum]; [apply spans_zero|]. apply spans_add; [apply IH; lia|].
      assert (Sk : spans (length fs) (fun i => val (nth i fs [])) (h k)).
      { apply (rowpoly_spans lt laws (length fs) (length ms) (fun i => val (nth i fs [])) (fun j => nth j ms mone) D (fun i x Hi N => Cv i x W C Hi N) r piv _ Q E IQ MQ). lia. }
      destruct Sk as (v & Hv). exists (fun i => kmul (w k) (v i)). unfold pscale. rewrite Hv. apply peq_coeff. intros x. rewrite <- (mmul_1_l x) at 1. rewrite coeff_tmul, !coeff_wsum, <- sumn_mul_l.
      apply sumn_ext. intros; ring.
Qed.

(** ** Homogeneous generators *)
(** [ms] has the monomials in x_0 .. x_(n-1) of weight [d] *)
Definition all_monos (n : nat) (k : Z) (w : nat -> Z) (d : Z) (ms : list mono) : Prop := forall x, In x ms <-> mvars n x /\ (k | mwdeg w x - d)%Z.
(** [fs] has the multiples x^a g of weight [d] of the generators, and polynomials of the ideal only *)
Definition all_multiples (n : nat) (k : Z) (w : nat -> Z) (d : Z) (gens fs : list poly) : Prop :=
  (forall f, In f fs -> in_ideal (map val gens) (val f)) /\
  forall g t a, In g gens -> In t g -> mvars n a -> (k | mwdeg w (mmul a (mon t)) - d)%Z -> exists f, In f fs /\ peq (val f) (tmul k1 a (val g)).

Lemma combination_ideal G fs p : (forall f, In f fs -> in_ideal G (val f)) -> combination fs p -> in_ideal G p.
Proof.
  intros H (w & E). rewrite E. apply wsum_ideal. intros i Hi. apply H. apply nth_In. exact Hi.
Qed.
Lemma ideal_combination n k w d gens fs p : Forall clean gens -> Forall (vars n) gens -> Forall (whomog k w) gens -> all_multiples n k w d gens fs ->
  in_ideal (map val gens) p -> svars n p -> (forall x, coeff p x <> k0 -> (k | mwdeg w x - d)%Z) -> combination fs p.
Proof.
  intros W V H [_ AM] I Vp Hp.
  set (S := fun x => (length (mlist x) <=? n) && (if Zdivide_dec k (mwdeg w x - d) then true else false)).
  assert (HS : forall x, S x = true <-> mvars n x /\ (k | mwdeg w x - d)%Z).
  { intros x. unfold S. rewrite andb_true_iff, Nat.leb_le, <- mvars_iff. destruct (Zdivide_dec k (mwdeg w x - d)); intuition congruence. }
  apply (part_ideal lt laws (map val gens) (length fs) (fun i => val (nth i fs [])) S); [| |exact I|].
  - intros g a b b' Ig Nb Nb'. apply in_map_iff in Ig as (g0 & <- & Ig). pose proof (proj1 (Forall_forall _ _) W _ Ig) as Wg.
    pose proof (proj1 (Forall_forall _ _) H _ Ig) as Hg. pose proof (proj1 (Forall_forall _ _) V _ Ig) as Vg.
    apply (pwf_support FS g0 b Wg) in Nb as (t & It & <-). apply (pwf_support FS g0 b' Wg) in Nb' as (t' & It' & <-).
    assert (X : forall u u', In u g0 -> In u' g0 -> S (mmul a (mon u)) = true -> S (mmul a (mon u')) = true).
    { intros u u' Iu Iu' Q. apply HS in Q as [Q1 Q2]. apply HS. apply mvars_mul in Q1 as [Q1 _]. split.
      - apply mvars_mul. split; [exact Q1|]. intros i Hi. rewrite canon_exp. apply nth_overflow. specialize (Vg u' Iu'). lia.
      - apply (div_trans k _ (mwdeg w (mmul a (mon u)))); [|exact Q2]. rewrite !mwdeg_mul, !mwdeg_canon.
        replace (mwdeg w a + wdeg w (tdeg u') - (mwdeg w a + wdeg w (tdeg u)))%Z with (wdeg w (tdeg u') - wdeg w (tdeg u))%Z by lia. apply Hg; assumption. }
    destruct (S (mmul a (mon t))) eqn:E1, (S (mmul a (mon t'))) eqn:E2; try reflexivity.
    + rewrite (X t t' It It' E1) in E2. discriminate.
    + rewrite (X t' t It' It E2) in E1. discriminate.
  - intros g a b Ig Nb Q. apply in_map_iff in Ig as (g0 & <- & Ig). pose proof (proj1 (Forall_forall _ _) W _ Ig) as Wg.
    apply (pwf_support FS g0 b Wg) in Nb as (t & It & <-). apply HS in Q as [Q1 Q2]. apply mvars_mul in Q1 as [Q1 _].
    destruct (AM g0 t a Ig It Q1 Q2) as (f & If & Ef). apply (In_nth _ _ []) in If as (i & Hi & <-). exists i. auto.
  - intros x N. apply HS. split; [apply Vp; exact N|apply Hp; exact N].
Qed.

(** the pivot columns are the monomials divisible by a leading monomial of the output, and the rank counts them *)
Theorem C137_macaulay : forall fuel n k w d gens out fs ms a s bound, Forall clean gens -> Forall nonzero gens -> Forall (vars n) gens -> Forall (whomog k w) gens ->
  buchberger_algorithm Debug O fuel gens = Ok out ->
  Forall clean fs -> covers ms fs -> decreasing_monos ms -> all_monos n k w d ms -> all_multiples n k w d gens fs -> row_matrix ms fs a ->
  echelon_of T a s \/ rref_of T a s -> bound_variables T (fb s) = Ok bound ->
  (forall j, j < length ms -> (In j bound <-> exists g l, In g (map val out) /\ is_lm lt g l /\ mdiv l (nth j ms mone))) /\
  (forall L, NoDup L -> (forall x, In x L <-> std lt n (map val out) x /\ (k | mwdeg w x - d)%Z) -> length bound + length L = length ms).
Proof.
  intros fuel n k w d gens out fs ms a s bound W NZ V H E Wf C D AMs AM M HF Eb.
  destruct (algorithm_run FS OS fuel gens out W NZ E) as (Wo & SI & GB & _). pose proof (out_vars FS OS fuel n gens out W NZ V E) as Vo.
  pose proof (C109_homogeneous FS OS k w fuel gens out W NZ E H) as Ho.
  destruct (C137_leading fs ms a s bound Wf C D M HF Eb) as (Ld & _ & ND & Lt).
  assert (Inj : forall i j, i < length ms -> j < length ms -> nth i ms mone = nth j ms mone -> i = j) by (intros i j; apply (ms_inj lt laws (length ms) (fun j => nth j ms mone) D)).
  assert (PV : forall j, j < length ms -> (In j bound <-> exists g l, In g (map val out) /\ is_lm lt g l /\ mdiv l (nth j ms mone))).
  { intros j Hj. split.
    - intros I. destruct (proj2 (Ld (nth j ms mone)) (ex_intro _ j (conj I eq_refl))) as (p & Cp & Lp).
      apply (combination_ideal (map val gens) fs p (proj1 AM)) in Cp. apply SI in Cp. destruct (GB p _ Cp Lp) as (g & l & A & B & X). exists g, l. auto.
    - intros (g & l & Ig & Lg & Dv). apply mdiv_iff in Dv as (b & Eb').
      assert (Ims : In (nth j ms mone) ms) by (apply nth_In; exact Hj). apply AMs in Ims as [Vx Dx].
      assert (Nb : mvars n b) by (rewrite Eb' in Vx; apply mvars_mul in Vx; apply Vx).
      pose proof (whomog_all FS k w out Wo Ho g Ig) as Hg.
      assert (Cp : combination fs (tmul k1 b g)).
      { apply (ideal_combination n k w d gens fs); try assumption.
        - apply SI. rewrite tmul_pmul. apply in_ideal_mul. apply in_ideal_gen. exact Ig.
        - apply svars_tmul; [exact Nb|apply Vo; exact Ig].
        - intros x Nx. apply coeff_tmul_inv in Nx as (_ & y & -> & Ny). apply (div_trans k _ (mwdeg w (nth j ms mone))); [|exact Dx].
          rewrite Eb', !mwdeg_mul. pose proof (proj1 (grade_eq k w y l) (Hg y l Ny (proj1 Lg))) as Q.
          replace (mwdeg w b + mwdeg w y - (mwdeg w l + mwdeg w b))%Z with (mwdeg w y - mwdeg w l)%Z by lia. exact Q. }
      assert (Lp : is_lm lt (tmul k1 b g) (nth j ms mone)).
      { rewrite Eb'. rewrite mmul_comm. apply (is_lm_tmul lt laws); [apply (F_1_neq_0 (kth K))|exact Lg]. }
      destruct (proj1 (Ld (nth j ms mone)) (ex_intro _ _ (conj Cp Lp))) as (j' & Ij & Ej). rewrite (Inj j j' Hj (Lt j' Ij) Ej). exact Ij. }
  split; [exact PV|]. intros L NL HL.
  assert (NP : NoDup (map (fun j => nth j ms mone) bound)).
  { clear - ND Lt Inj. induction ND as [|j bound Nj ND IH]; cbn [map]; constructor.
    - intros I. apply in_map_iff in I as (i & Ei & Hi). apply Nj. rewrite <- (Inj i j); auto; apply Lt; [right; exact Hi|left; reflexivity].
    - apply IH. intros i Hi. apply Lt. right. exact Hi. }
  assert (NM : NoDup ms) by (apply (NoDup_nth ms mone); exact Inj).
  assert (NA : NoDup (map (fun j => nth j ms mone) bound ++ L)).
  { assert (Dj : forall x, In x (map (fun j => nth j ms mone) bound) -> ~ In x L).
    { intros x I I'. apply in_map_iff in I as (j & <- & Hj). apply HL in I' as [[_ St] _]. destruct (proj1 (PV j (Lt j Hj)) Hj) as (g & l & A & B & X). exact (St g l A B X). }
    clear - NP NL Dj. induction NP as [|x xs Nx NP IH]; cbn [app]; [exact NL|]. constructor.
    - intros I. apply in_app_or in I as [I|I]; [contradiction|]. exact (Dj x (or_introl eq_refl) I).
    - apply IH. intros y Iy. apply Dj. right. exact Iy. }
  assert (LE : forall x, In x (map (fun j => nth j ms mone) bound ++ L) <-> In x ms).
  { intros x. rewrite in_app_iff. split.
    - intros [I|I]; [apply in_map_iff in I as (j & <- & Hj); apply nth_In; apply Lt; exact Hj|]. apply HL in I as [[Vx _] Dx]. apply AMs. auto.
    - intros I. destruct (cover_dec lt laws (map val out) x) as [Y|Y].
      + left. apply (In_nth _ _ mone) in I as (j & Hj & <-). apply in_map_iff. exists j. split; [reflexivity|]. apply PV; assumption.
      + right. apply HL. apply AMs in I as [Vx Dx]. split; [split; [exact Vx|exact Y]|exact Dx]. }
  rewrite <- (map_length (fun j => nth j ms mone) bound), <- app_length. apply Nat.le_antisymm; apply NoDup_incl_length; auto; intros x I; apply LE; exact I.
Qed.
End PropMacaulay.

(** ** x^3 - x y^2 and x^2 y in degree 4: x y^3 is a leading monomial of the ideal, found by both *)
Notation RR := (rat_impl Debug).
Definition ex_mc_gens : list (poly RR) := [[ex_t 1 1 [3]; ex_t (-1) 1 [1; 2]]; [ex_t 1 1 [2; 1]]].
Definition ex_mc_out : list (poly RR) := [[ex_t 1 1 [3]; ex_t (-1) 1 [1; 2]]; [ex_t 1 1 [2; 1]]; [ex_t 1 1 [1; 3]]].
Definition ex_mc_w : nat -> Z := fun _ => 1%Z.
Definition ex_mc_ms : list mono := [canon [4]; canon [3; 1]; canon [2; 2]; canon [1; 3]; canon [0; 4]].
Definition ex_mc_fs : list (poly RR) := [[ex_t 1 1 [4]; ex_t (-1) 1 [2; 2]]; [ex_t 1 1 [3; 1]; ex_t (-1) 1 [1; 3]]; [ex_t 1 1 [3; 1]]; [ex_t 1 1 [2; 2]]].
Definition ex_mc_a : mat RR := ex_mat 4 5 [(1,1);(0,1);(-1,1);(0,1);(0,1); (0,1);(1,1);(0,1);(-1,1);(0,1); (0,1);(1,1);(0,1);(0,1);(0,1); (0,1);(0,1);(1,1);(0,1);(0,1)]%Z.
Definition ex_mc_form : form (F:=RR) := mkform
  (ex_mat 4 4 [(1,1);(0,1);(0,1);(1,1); (0,1);(0,1);(1,1);(0,1); (0,1);(0,1);(0,1);(1,1); (0,1);(-1,1);(1,1);(0,1)]%Z)
  (ex_mat 4 5 [(1,1);(0,1);(0,1);(0,1);(0,1); (0,1);(1,1);(0,1);(0,1);(0,1); (0,1);(0,1);(1,1);(0,1);(0,1); (0,1);(0,1);(0,1);(1,1);(0,1)]%Z).
Example C137_ex_run : buchberger_algorithm Debug (grlex_cmp Debug) 30 ex_mc_gens = Ok ex_mc_out /\ rref_of RT ex_mc_a ex_mc_form /\ bound_variables RT (fb ex_mc_form) = Ok [0; 1; 2; 3].
Proof. split; [reflexivity|]. split; [apply ex_rref_of; reflexivity|reflexivity]. Qed.
Example C137_ex_clean : Forall (pwf rat_spec) ex_mc_gens /\ Forall (fun g => g <> []) ex_mc_gens /\ Forall (fun g => forall t, In t g -> length (tdeg t) <= 2) ex_mc_gens /\
  Forall (whomog 0 ex_mc_w) ex_mc_gens /\ Forall (pwf rat_spec) ex_mc_fs.
Proof.
  split; [|split; [|split; [|split]]].
  - repeat (apply Forall_cons || apply Forall_nil); apply ex_clean; reflexivity.
  - repeat (apply Forall_cons || apply Forall_nil); discriminate.
  - repeat (apply Forall_cons || apply Forall_nil); intros t It; cbn in It; intuition (subst; cbn; lia).
  - repeat (apply Forall_cons || apply Forall_nil); intros t t' It It'; cbn in It, It'; intuition (subst; exists 0%Z; reflexivity).
  - repeat (apply Forall_cons || apply Forall_nil); apply ex_clean; reflexivity.
Qed.
Example C137_ex_monos : covers ex_mc_ms ex_mc_fs /\ decreasing_monos grlex_spec ex_mc_ms /\ all_monos 2 0 ex_mc_w 4 ex_mc_ms.
Proof.
  split; [|split].
  - intros r t Ir It. cbn in Ir. unfold ex_mc_ms. intuition (subst; cbn [In] in It; intuition (subst; cbn [tdeg ex_t In]; tauto)).
  - intros i j Hij Hj. cbn in Hj. right.
    assert (X : i = 0 /\ j = 1 \/ i = 0 /\ j = 2 \/ i = 0 /\ j = 3 \/ i = 0 /\ j = 4 \/ i = 1 /\ j = 2 \/ i = 1 /\ j = 3 \/ i = 1 /\ j = 4 \/ i = 2 /\ j = 3 \/ i = 2 /\ j = 4 \/ i = 3 /\ j = 4) by lia.
    repeat (destruct X as [[-> ->]|X]); [..|destruct X as [-> ->]]; cbn [nth ex_mc_ms];
    (split; [rewrite !mtot_canon; reflexivity|exists 0; rewrite !canon_exp; cbn [nth]; split; [cbn; lia|intros k Hk; lia]]).
  - intros x. split.
    + intros [<-|[<-|[<-|[<-|[<-|[]]]]]]; (split; [intros i Hi; rewrite canon_exp; apply nth_overflow; cbn; lia|rewrite mwdeg_canon; exists 0%Z; reflexivity]).
    + intros [V [q D]]. assert (E : x = canon [mexp x 0; mexp x 1]) by (apply mono_ext; intros [|[|i]]; rewrite canon_exp; cbn; [reflexivity|reflexivity|destruct i; apply V; lia]).
      rewrite E, mwdeg_canon in D. cbn [wdeg] in D. unfold ex_mc_w in D.
      assert (C : (mexp x 0 = 4 /\ mexp x 1 = 0) \/ (mexp x 0 = 3 /\ mexp x 1 = 1) \/ (mexp x 0 = 2 /\ mexp x 1 = 2) \/ (mexp x 0 = 1 /\ mexp x 1 = 3) \/ (mexp x 0 = 0 /\ mexp x 1 = 4)) by lia.
      destruct C as [[A B]|[[A B]|[[A B]|[[A B]|[A B]]]]]; rewrite A, B in E; rewrite E; [left|right; left|right; right; left|right; right; right; left|do 4 right; left]; try reflexivity.
      apply mono_ext; intros [|[|i]]; rewrite !canon_exp; cbn; try reflexivity; destruct i; reflexivity.
Qed.
Example C137_ex_matrix : row_matrix rat_spec ex_mc_ms ex_mc_fs ex_mc_a.
Proof.
  split; [split; [apply ex_mat_ok; reflexivity|split; reflexivity]|].
  intros i j Hi Hj. destruct i as [|[|[|[|i]]]]; [..|exfalso; cbn in Hi; lia]; (destruct j as [|[|[|[|[|j]]]]]; [..|exfalso; cbn in Hj; lia]); cbn [nth ex_mc_ms ex_mc_fs]; entry.
Qed.
Example C137_ex_multiples : all_multiples rat_spec 2 0 ex_mc_w 4 ex_mc_gens ex_mc_fs.
Proof.
  assert (Ef : forall a g f, In g ex_mc_gens -> peq (ip rat_spec f) (tmul k1 a (ip rat_spec g)) -> in_ideal (map (ip rat_spec) ex_mc_gens) (ip rat_spec f)).
  { intros a g f Ig E. rewrite E, tmul_pmul. apply in_ideal_mul. apply in_ideal_gen. apply in_map. exact Ig. }
  assert (E0 : peq (ip rat_spec (nth 0 ex_mc_fs [])) (tmul k1 (canon [1]) (ip rat_spec (nth 0 ex_mc_gens [])))) by (intros phi; reflexivity).
  assert (E1 : peq (ip rat_spec (nth 1 ex_mc_fs [])) (tmul k1 (canon [0; 1]) (ip rat_spec (nth 0 ex_mc_gens [])))) by (intros phi; reflexivity).
  assert (E2 : peq (ip rat_spec (nth 2 ex_mc_fs [])) (tmul k1 (canon [1]) (ip rat_spec (nth 1 ex_mc_gens [])))) by (intros phi; reflexivity).
  assert (E3 : peq (ip rat_spec (nth 3 ex_mc_fs [])) (tmul k1 (canon [0; 1]) (ip rat_spec (nth 1 ex_mc_gens [])))) by (intros phi; reflexivity).
  split.
  - intros f [<-|[<-|[<-|[<-|[]]]]].
    + apply (Ef _ _ _ (or_introl eq_refl) E0).
    + apply (Ef _ _ _ (or_introl eq_refl) E1).
    + apply (Ef _ _ _ (or_intror (or_introl eq_refl)) E2).
    + apply (Ef _ _ _ (or_intror (or_introl eq_refl)) E3).
  - intros g t a Ig It V [q D].
    assert (W : wdeg ex_mc_w (tdeg t) = 3%Z) by (cbn in Ig; intuition (subst; cbn [In] in It; intuition (subst; reflexivity))).
    rewrite mwdeg_mul, mwdeg_canon, W in D.
    assert (E : a = canon [mexp a 0; mexp a 1]) by (apply mono_ext; intros [|[|i]]; rewrite canon_exp; cbn; [reflexivity|reflexivity|destruct i; apply V; lia]).
    rewrite E, mwdeg_canon in D. cbn [wdeg] in D. unfold ex_mc_w in D.
    assert (C : (mexp a 0 = 1 /\ mexp a 1 = 0) \/ (mexp a 0 = 0 /\ mexp a 1 = 1)) by lia.
    assert (C' : a = canon [1] \/ a = canon [0; 1]).
    { destruct C as [[A B]|[A B]]; rewrite A, B in E; [left|right]; rewrite E; [|reflexivity]. apply mono_ext; intros [|[|i]]; rewrite !canon_exp; cbn; try reflexivity; destruct i; reflexivity. }
    destruct Ig as [<-|[<-|[]]]; destruct C' as [-> | ->].
    + exists (nth 0 ex_mc_fs []). split; [left; reflexivity|exact E0].
    + exists (nth 1 ex_mc_fs []). split; [right; left; reflexivity|exact E1].
    + exists (nth 2 ex_mc_fs []). split; [right; right; left; reflexivity|exact E2].
    + exists (nth 3 ex_mc_fs []). split; [right; right; right; left; reflexivity|exact E3].
Qed.
Print Assumptions C137_leading.
Print Assumptions C137_rows.
Print Assumptions C137_macaulay.
