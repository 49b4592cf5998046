(** * C138: Sylvester matrices

    For two polynomials in one variable of degrees m and n, the matrix with n shifted rows of coefficients of the first and m of
    the second has rank m + n minus the degree of their greatest common divisor, which [buchberger_algorithm] computes as well.
    The rank is full exactly if only constants divide both. *)
From Coq Require Import ZArith QArith Qcanon.
From Verif Require Import Base BaseLemmas IntModel RatModel FieldIface RatProofs UtilModel MatModel AlgModel
  LinSpec RrefSpec MatProofs AlgProofs LinFacts PropMat PropLin
  MDegModel OrdModel PolyModel CompModel
  MonoSpec MDegProofs OrdProofs PolySpec PolyProofs GroebnerSpec DivProofs DivSpec GbProofs CompMono PropPoly PropDiv PropGb IdealSpec PropIdeal SubstSpec
  PropIdealOps StdSpec PropStd LinPolySpec ModSpec MacSpec SylSpec PropModular.
From Coq Require Import Ring Field Setoid Morphisms.
Local Open Scope nat_scope.

Section PropSylvester.
Context {F : FieldImpl} {K : MathField} (FS : FieldSpec F K) (T : StabImpl F) (TS : StabSpec FS T).
Add Field Kf70 : (kth K).
Add Ring Pr70 : (@poly_ring K) (setoid (@peq_equiv K) (@poly_ring_ext K)).
Notation poly := (poly F).
Notation val := (ip FS).
Notation ent := (mden FS).
Notation clean := (pwf FS).
Notation mon t := (canon (tdeg t)).
Notation X := (mvar 0).

(** the terms of [f] have one variable, with exponents up to [d] and one equal to [d] *)
Definition degree1 (f : poly) (d : nat) : Prop :=
  (forall t, In t f -> length (tdeg t) <= 1 /\ expo (tdeg t) 0 <= d) /\ exists t, In t f /\ expo (tdeg t) 0 = d.
(** column j of the coefficients [c d] ... [c 0] shifted by [i] *)
Definition shifted (c : nat -> K) (d i j : nat) : K := if (i <=? j) && (j - i <=? d) then c (d - (j - i)) else k0.
(** n rows with the coefficients of [f] of degree [m], then m rows with those of [g] of degree [n] *)
Definition sylvester (f g : poly) (m n : nat) (a : mat F) : Prop :=
  okm FS (m + n) (m + n) a /\ forall i j, i < m + n -> j < m + n ->
    ent a i j = if i <? n then shifted (fun e => coeff (val f) (X e)) m i j else shifted (fun e => coeff (val g) (X e)) n (i - n) j.

Lemma degree1_vars f d : clean f -> degree1 f d -> svars 1 (val f).
Proof. intros W [H _]. apply vars_svars; [exact W|]. intros t I. apply H. exact I. Qed.
Lemma degree1_lm (lt : mono -> mono -> Prop) f d : mono_order_laws lt -> clean f -> degree1 f d -> is_lm lt (val f) (X d).
Proof.
  intros LW W D. pose proof (degree1_vars f d W D) as V. destruct D as [H (t & I & E)]. split.
  - apply (pwf_support FS f _ W). exists t. split; [exact I|]. rewrite (uni (mon t)); [rewrite canon_exp, E; reflexivity|].
    apply V. apply (pwf_support FS f _ W). eauto.
  - intros x N. pose proof (V x N) as Vx. apply (pwf_support FS f _ W) in N as (u & Iu & <-). destruct (H u Iu) as [_ Le]. rewrite (uni _ Vx), canon_exp.
    destruct (Nat.eq_dec (expo (tdeg u) 0) d) as [->|Ne]; [left; reflexivity|right; apply (X_lt lt LW); lia].
Qed.
Lemma lm_degree1 (lt : mono -> mono -> Prop) f : mono_order_laws lt -> clean f -> f <> [] -> (forall t, In t f -> length (tdeg t) <= 1) -> exists d, degree1 f d.
Proof.
  intros LW W N V. assert (Vf : svars 1 (val f)) by (apply vars_svars; assumption).
  destruct f as [|t0 f]; [contradiction|]. assert (Q : exists d, degree1 (t0 :: f) d); [|exact Q].
  clear W Vf N. revert t0 V. induction f as [|t f IH]; intros t0 V.
  - exists (expo (tdeg t0) 0). split; [|exists t0; split; [left; reflexivity|reflexivity]]. intros u [<-|[]]. split; [apply V; left; reflexivity|lia].
  - destruct (IH t) as (d & H & u & Iu & Eu); [intros u Iu; apply V; right; exact Iu|]. exists (Nat.max (expo (tdeg t0) 0) d). split.
    + intros w [<-|Iw]; [split; [apply V; left; reflexivity|lia]|]. destruct (H w Iw). split; [assumption|lia].
    + destruct (Nat.max_spec (expo (tdeg t0) 0) d) as [[_ ->]|[_ ->]]; [exists u; split; [right; exact Iu|exact Eu]|exists t0; split; [left; reflexivity|reflexivity]].
Qed.
Lemma sylvester_rows (lt : mono -> mono -> Prop) f g m n a : mono_order_laws lt -> clean f -> clean g -> degree1 f m -> degree1 g n -> sylvester f g m n a ->
  forall i j, i < m + n -> j < m + n -> ent a i j = coeff (syl_row (val f) (val g) m n i) (syl_ms m n j).
Proof.
  intros LW Wf Wg Df Dg [_ H] i j Hi Hj. rewrite (H i j Hi Hj). unfold syl_row, syl_ms, shifted.
  assert (Q : forall (p : poly) d b e, clean p -> degree1 p d ->
    coeff (tmul k1 (X b) (val p)) (X e) = if (b <=? e) && (e - b <=? d) then coeff (val p) (X (e - b)) else k0).
  { intros p d b e Wp Dp. destruct (Nat.leb_spec b e) as [L|L]; cbn [andb].
    - replace (X e) with (MonoSpec.mmul (X b) (X (e - b))) by (rewrite X_mul; f_equal; lia). rewrite coeff_tmul.
      destruct (Nat.leb_spec (e - b) d) as [|G]; [ring|]. destruct (kdec (coeff (val p) (X (e - b))) k0) as [Z|Z]; [rewrite Z; ring|]. exfalso.
      pose proof (lm_bound lt LW (val p) d _ (degree1_vars p d Wp Dp) (degree1_lm lt p d LW Wp Dp) Z) as B. rewrite X_exp in B. lia.
    - apply coeff_tmul_nd. intros D. specialize (D 0). rewrite !X_exp in D. lia. }
  destruct (Nat.ltb_spec i n) as [L|L].
  - rewrite (Q f m _ _ Wf Df). destruct (Nat.leb_spec i j), (Nat.leb_spec (n - 1 - i) (m + n - 1 - j)); cbn [andb];
      repeat (match goal with |- context [?x <=? ?y] => destruct (Nat.leb_spec x y) end); try lia; try reflexivity; f_equal; f_equal; lia.
  - rewrite (Q g n _ _ Wg Dg). destruct (Nat.leb_spec (i - n) j), (Nat.leb_spec (m + n - 1 - i) (m + n - 1 - j)); cbn [andb];
      repeat (match goal with |- context [?x <=? ?y] => destruct (Nat.leb_spec x y) end); try lia; try reflexivity; f_equal; f_equal; lia.
Qed.
(** for every generator h of the ideal *)
Lemma sylvester_rank (lt : mono -> mono -> Prop) f g h m n k a s : mono_order_laws lt -> clean f -> clean g -> degree1 f m -> degree1 g n ->
  svars 1 h -> is_lm lt h (X k) -> (forall p, in_ideal [val f; val g] p <-> in_ideal [h] p) ->
  sylvester f g m n a -> echelon_of T a s \/ rref_of T a s -> form_rank T s = Ok (m + n - k) /\
  (k < m + n -> exists c, c <> k0 /\ forall j, j < m + n -> ent (fb s) (m + n - k - 1) j = kmul c (coeff h (X (m + n - 1 - j)))).
Proof.
  intros LW Wf Wg Df Dg Vh Lh SI Sy H. pose proof (sylvester_rows lt f g m n a LW Wf Wg Df Dg Sy) as Ma.
  pose proof (degree1_vars f m Wf Df) as Vf. pose proof (degree1_vars g n Wg Dg) as Vg.
  pose proof (degree1_lm lt f m LW Wf Df) as Lf. pose proof (degree1_lm lt g n LW Wg Dg) as Lg.
  destruct (form_of FS T TS a _ _ s (proj1 Sy) H) as (RE & r & piv & E).
  pose proof (row_equivalent_form_ok FS _ _ _ _ RE) as FO. rewrite (form_rank_ok FS T TS _ _ _ _ _ _ _ FO E).
  destruct RE as (_ & _ & IQ & M). set (A := fun i j => coeff (syl_row (val f) (val g) m n i) (syl_ms m n j)).
  assert (MQ : meq (m + n) (m + n) (LinSpec.mmul (m + n) (ent (fp s)) A) (ent (fb s))).
  { intros i j Hi Hj. rewrite <- (M i j Hi Hj). unfold LinSpec.mmul. apply sumn_ext. intros l Hl. unfold A. rewrite (Ma l j Hl Hj). reflexivity. }
  pose proof (syl_dec lt LW m n) as Dc. pose proof (syl_cov lt LW (val f) (val g) m n Vf Vg Lf Lg) as Cv.
  assert (P1 : forall i, i < r -> piv i < m + n - k).
  { intros i Hi. pose proof (rowpoly_spans lt LW _ _ _ _ Dc Cv r piv _ _ E IQ MQ i Hi) as S. pose proof (rowpoly_lm lt LW _ _ _ Dc r piv _ E i Hi) as L.
    destruct (syl_lm_low lt LW (val f) (val g) h m n k Vf Vg Lf Lg Lh SI _ _ S L) as (e & H1 & H2 & Ee). pose proof (ech_lt _ _ _ _ _ E i Hi).
    unfold syl_ms in Ee. apply (f_equal (fun x => mexp x 0)) in Ee. rewrite !X_exp in Ee. lia. }
  assert (P2 : forall j, j < m + n - k -> In j (map piv (seq 0 r))).
  { intros j Hj. destruct (syl_lm_all lt LW (val f) (val g) h m n k Vf Vg Vh Lf Lg Lh SI (m + n - 1 - j)) as (p & S & L); [lia|lia|].
    destruct (spans_lm lt LW _ _ _ _ Dc Cv r piv _ _ E IQ MQ p _ S L) as (i & Hi & Ei). unfold syl_ms in Ei.
    apply (f_equal (fun x => mexp x 0)) in Ei. rewrite !X_exp in Ei. pose proof (P1 i Hi). apply in_map_iff. exists i. split; [lia|apply in_seq; lia]. }
  assert (ND : NoDup (map piv (seq 0 r))).
  { assert (Y : forall c o, o + c <= r -> NoDup (map piv (seq o c))).
    { induction c as [|c IH]; intros o Ho; cbn [seq map]; [constructor|]. constructor; [|apply IH; lia]. intros I. apply in_map_iff in I as (i & Ei & Hi). apply in_seq in Hi.
      pose proof (ech_inc _ _ _ _ _ E o i ltac:(lia) ltac:(lia)). lia. }
    apply Y. lia. }
  assert (L1 : r <= m + n - k).
  { pose proof (NoDup_incl_length (l' := seq 0 (m + n - k)) ND) as Q. rewrite map_length, !seq_length in Q. apply Q. intros j I. apply in_map_iff in I as (i & <- & Hi).
    apply in_seq in Hi. apply in_seq. pose proof (P1 i ltac:(lia)). lia. }
  assert (L2 : m + n - k <= r).
  { pose proof (NoDup_incl_length (l' := map piv (seq 0 r)) (seq_NoDup (m + n - k) 0)) as Q. rewrite map_length, !seq_length in Q. apply Q. intros j I. apply in_seq in I. apply P2. lia. }
  assert (R : r = m + n - k) by lia. split; [f_equal; exact R|]. intros Lk.
  assert (Up : forall i, i < r -> i <= piv i).
  { induction i as [|i IH]; intros Hi; [lia|]. pose proof (ech_inc _ _ _ _ _ E i (S i) ltac:(lia) Hi). specialize (IH ltac:(lia)). lia. }
  pose proof (Up (r - 1) ltac:(lia)) as U. pose proof (P1 (r - 1) ltac:(lia)) as U'. assert (Pv : piv (r - 1) = m + n - k - 1) by lia.
  pose proof (rowpoly_spans lt LW _ _ _ _ Dc Cv r piv _ _ E IQ MQ (r - 1) ltac:(lia)) as S. pose proof (rowpoly_lm lt LW _ _ _ Dc r piv _ E (r - 1) ltac:(lia)) as L.
  apply syl_ideal in S. apply SI in S. apply in_single in S as (q & Eq). pose proof L as L'. rewrite Eq in L'. apply (lm_pmul_inv lt LW) in L' as (u & v & Lu & Lv & Ex).
  rewrite (is_lm_unique lt LW _ _ _ Lv Lh), Pv in Ex. unfold syl_ms in Ex. replace (m + n - 1 - (m + n - k - 1)) with k in Ex by lia.
  assert (u = mone). { apply mono_ext. intros i. apply (f_equal (fun x => mexp x i)) in Ex. rewrite mmul_exp in Ex. rewrite mone_exp. lia. }
  subst u. exists (coeff q mone). split; [apply Lu|]. intros j Hj. replace (m + n - k - 1) with (r - 1) by lia.
  assert (Q : peq q (pterm (coeff q mone) mone)).
  { apply peq_coeff. intros x. rewrite coeff_pterm. destruct (mono_dec mone x) as [<-|N]; [reflexivity|]. destruct (kdec (coeff q x) k0) as [Z|Z]; [exact Z|]. exfalso.
    apply N. destruct Lu as [_ Lu]. destruct (Lu x Z) as [Y|Y]; [symmetry; exact Y|]. exfalso. apply (lt_irrefl lt LW mone). apply (lt_trans lt LW _ x); [apply (lt_one lt LW); congruence|exact Y]. }
  rewrite <- (coeff_rowpoly lt LW (m + n) (syl_ms m n) Dc (ent (fb s) (r - 1)) j Hj). rewrite Eq, Q at 1. rewrite <- tmul_pmul. unfold syl_ms.
  rewrite <- (mmul_1_l (X (m + n - 1 - j))) at 1. apply coeff_tmul.
Qed.

(** ** C138 *)
Theorem C138_rank : forall (O : ord_impl) (OS : OrderSpec O) fuel f g m n a s out, clean f -> clean g -> degree1 f m -> degree1 g n -> sylvester f g m n a ->
  echelon_of T a s \/ rref_of T a s -> buchberger_algorithm Debug O fuel [f; g] = Ok out ->
  exists h k, out = [h] /\ degree1 h k /\ k <= m /\ k <= n /\ form_rank T s = Ok (m + n - k) /\
    (** the last row that is not zero has the coefficients of h, up to a factor *)
    (k < m + n -> exists c, c <> k0 /\ forall j, j < m + n -> ent (fb s) (m + n - k - 1) j = kmul c (coeff (val h) (X (m + n - 1 - j)))).
Proof.
  intros O OS fuel f g m n a s out Wf Wg Df Dg Sy H E.
  assert (W : Forall clean [f; g]) by (repeat (apply Forall_cons || apply Forall_nil); assumption).
  assert (Ne : forall p d, degree1 p d -> p <> []) by (intros p d [_ (t & I & _)] ->; destruct I).
  assert (NZ : Forall (fun p : poly => p <> []) [f; g]) by (repeat (apply Forall_cons || apply Forall_nil); eapply Ne; eassumption).
  assert (One : forall p t, In p [f; g] -> In t p -> length (tdeg t) <= 1) by (intros p t [<-|[<-|[]]] It; [apply (proj1 Df t It)|apply (proj1 Dg t It)]).
  destruct (C98_gcd FS OS fuel [f; g] out W NZ ltac:(discriminate) One E) as (h & -> & Nh & _ & Dv & _).
  destruct (algorithm_run FS OS fuel [f; g] [h] W NZ E) as (Wo & SI & _ & _). inversion Wo as [|? ? Wh _]; subst.
  assert (Vh : forall t, In t h -> length (tdeg t) <= 1).
  { assert (Sv : svars 1 (val h)).
    { apply (out_vars FS OS fuel 1 [f; g] [h] W NZ); [|exact E|left; reflexivity]. repeat (apply Forall_cons || apply Forall_nil); intros t It; [apply (proj1 Df t It)|apply (proj1 Dg t It)]. }
    intros t I. assert (N : coeff (val h) (mon t) <> k0) by (apply (pwf_support FS h _ Wh); eauto). apply Sv in N. apply mvars_iff in N.
    destruct Wh as [Wh _]. apply (proj1 (Forall_forall _ _) Wh) in I as (_ & _ & Ct). rewrite mlist_canon in N by apply Ct. exact N. }
  pose proof (olaws _ OS) as LW. destruct (lm_degree1 (olt OS) h LW Wh Nh Vh) as (k & Dh).
  assert (Le : forall p d, clean p -> degree1 p d -> In p [f; g] -> k <= d).
  { intros p d Wp Dp I. destruct (Dv p I) as (q & Eq). pose proof (degree1_lm (olt OS) p d LW Wp Dp) as L. rewrite Eq in L.
    apply (lm_pmul_inv (olt OS) LW) in L as (u & v & _ & Lv & Ex). rewrite (is_lm_unique _ LW _ _ _ Lv (degree1_lm (olt OS) h k LW Wh Dh)) in Ex.
    apply (f_equal (fun x => mexp x 0)) in Ex. rewrite mmul_exp, !X_exp in Ex. lia. }
  exists h, k. split; [reflexivity|]. split; [exact Dh|]. split; [apply (Le f m Wf Df); left; reflexivity|]. split; [apply (Le g n Wg Dg); right; left; reflexivity|].
  apply (sylvester_rank (olt OS) f g (val h) m n k a s LW Wf Wg Df Dg (degree1_vars h k Wh Dh) (degree1_lm _ h k LW Wh Dh)); try assumption. intros p. symmetry. apply SI.
Qed.
(** full rank: only constants divide both (no assumption on [buchberger_algorithm]) *)
Theorem C138_coprime : forall f g m n a s, clean f -> clean g -> degree1 f m -> degree1 g n -> sylvester f g m n a -> echelon_of T a s \/ rref_of T a s ->
  (form_rank T s = Ok (m + n) <->
   forall d, (exists q, peq (val f) (pmul q d)) -> (exists q, peq (val g) (pmul q d)) -> forall x, coeff d x <> k0 -> x = mone).
Proof.
  intros f g m n a s Wf Wg Df Dg Sy H. pose proof (degree1_vars f m Wf Df) as Vf. pose proof (degree1_vars g n Wg Dg) as Vg.
  pose proof (degree1_lm lex_lt f m lex_laws Wf Df) as Lf. pose proof (degree1_lm lex_lt g n lex_laws Wg Dg) as Lg.
  destruct (gcd_exists lex_lt lex_laws (val f) (val g) Vf Vg) as (h & Vh & SI).
  assert (If : in_ideal [h] (val f)) by (apply SI; apply in_ideal_gen; left; reflexivity).
  assert (Ig : in_ideal [h] (val g)) by (apply SI; apply in_ideal_gen; right; left; reflexivity).
  apply in_single in If as (f1 & Ef). apply in_single in Ig as (g1 & Eg).
  destruct (zero_or_lm lex_lt lex_laws h) as [Z|(l & L)].
  { exfalso. apply (lm_nonzero lex_lt _ _ Lf). rewrite Ef, Z. ring. }
  rewrite (uni l (is_lm_vars lex_lt 1 h l Vh L)) in L. set (k := mexp l 0) in *.
  rewrite (proj1 (sylvester_rank lex_lt f g h m n k a s lex_laws Wf Wg Df Dg Vh L SI Sy H)).
  assert (Le : k <= m).
  { pose proof Lf as L'. rewrite Ef in L'. apply (lm_pmul_inv lex_lt lex_laws) in L' as (u & v & _ & Lv & Ex). rewrite (is_lm_unique lex_lt lex_laws _ _ _ Lv L) in Ex.
    apply (f_equal (fun x => mexp x 0)) in Ex. rewrite mmul_exp, !X_exp in Ex. lia. }
  split.
  - intros R d (q1 & E1) (q2 & E2) x N. assert (k = 0) by (injection R; lia). assert (Ih : in_ideal [val f; val g] h) by (apply SI; apply in_ideal_gen; left; reflexivity).
    apply in_pair in Ih as (u & v & Eh). assert (D : peq h (pmul (padd (pmul u q1) (pmul v q2)) d)) by (rewrite Eh, E1, E2; ring).
    pose proof L as L'. rewrite D in L'. apply (lm_pmul_inv lex_lt lex_laws) in L' as (b & c & _ & Lc & Ex). replace k with 0 in Ex. rewrite mvar_0 in Ex.
    assert (c = mone). { apply mono_ext. intros i. apply (f_equal (fun x => mexp x i)) in Ex. rewrite mmul_exp, mone_exp in Ex. rewrite mone_exp. lia. }
    subst c. destruct Lc as [_ Lc]. destruct (Lc x N) as [Q|Q]; [exact Q|]. destruct (mono_dec x mone) as [Y|Y]; [exact Y|]. exfalso.
    exact (lt_irrefl lex_lt lex_laws _ (lt_trans lex_lt lex_laws _ _ _ Q (lt_one lex_lt lex_laws x Y))).
  - intros U. assert (E : X k = mone) by (apply (U h); [exists f1; exact Ef|exists g1; exact Eg|apply L]).
    apply (f_equal (fun x => mexp x 0)) in E. rewrite X_exp, mone_exp in E. rewrite E. f_equal. lia.
Qed.
End PropSylvester.

(** ** (x - 1)(x - 2) and (x - 1)(x + 1) *)
Notation RR := (rat_impl Debug).
Definition ex_sl_f : poly RR := [ex_t 1 1 [2]; ex_t (-3) 1 [1]; ex_t 2 1 []].
Definition ex_sl_g : poly RR := [ex_t 1 1 [2]; ex_t (-1) 1 []].
Definition ex_sl_a : mat RR := ex_mat 4 4 [(1,1);(-3,1);(2,1);(0,1); (0,1);(1,1);(-3,1);(2,1); (1,1);(0,1);(-1,1);(0,1); (0,1);(1,1);(0,1);(-1,1)]%Z.
Definition ex_sl_form : form (F:=RR) := mkform
  (ex_mat 4 4 [(0,1);(0,1);(1,1);(0,1); (0,1);(0,1);(0,1);(1,1); (0,1);(-1,3);(0,1);(1,3); (1,1);(1,1);(-1,1);(2,1)]%Z)
  (ex_mat 4 4 [(1,1);(0,1);(-1,1);(0,1); (0,1);(1,1);(0,1);(-1,1); (0,1);(0,1);(1,1);(-1,1); (0,1);(0,1);(0,1);(0,1)]%Z).
Example C138_ex : pwf rat_spec ex_sl_f /\ pwf rat_spec ex_sl_g /\ degree1 ex_sl_f 2 /\ degree1 ex_sl_g 2 /\ sylvester rat_spec ex_sl_f ex_sl_g 2 2 ex_sl_a /\
  echelon_of RT ex_sl_a ex_sl_form /\ form_rank RT ex_sl_form = Ok 3 /\
  buchberger_algorithm Debug lex_cmp 30 [ex_sl_f; ex_sl_g] = Ok [[ex_t 1 1 [1]; ex_t (-1) 1 []]].
Proof.
  split; [apply ex_clean; reflexivity|]. split; [apply ex_clean; reflexivity|].
  split; [split; [intros t It; cbn in It; intuition (subst; cbn; lia)|eexists; split; [left; reflexivity|reflexivity]]|].
  split; [split; [intros t It; cbn in It; intuition (subst; cbn; lia)|eexists; split; [left; reflexivity|reflexivity]]|].
  split; [|split; [reflexivity|split; reflexivity]].
  split; [split; [apply ex_mat_ok; reflexivity|split; reflexivity]|].
  assert (X0 : mvar 0 0 = canon []) by (apply mono_ext; intros [|i]; rewrite mvar_exp, canon_exp; [reflexivity|destruct i; reflexivity]).
  assert (X1 : mvar 0 1 = canon [1]) by reflexivity. assert (X2 : mvar 0 2 = canon [2]) by reflexivity.
  intros i j Hi Hj. destruct i as [|[|[|[|i]]]]; [..|exfalso; cbn in Hi; lia]; (destruct j as [|[|[|[|j]]]]; [..|exfalso; cbn in Hj; lia]);
    unfold shifted; cbn [Nat.ltb Nat.leb Nat.sub andb]; rewrite ?X0, ?X1, ?X2; try (apply Qc_is_canon; reflexivity); entry.
Qed.
Print Assumptions C138_rank.
Print Assumptions C138_coprime.
