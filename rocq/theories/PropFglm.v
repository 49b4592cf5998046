(** * C146: the standard monomials and the basis for another order by linear algebra

    A basis for one order is known.  The standard monomials of a second order below a monomial m, and m itself, are divided by it and the
    remainders are entered as columns of a matrix: m is standard for the second order exactly if the columns are independent, and
    otherwise the vector of [compute_kernel] is the element of the basis for the second order with leading monomial m, if there is one. *)
From Coq Require Import ZArith QArith Qcanon.
From Verif Require Import Base BaseLemmas IntModel RatModel FieldIface RatProofs UtilModel MatModel AlgModel
  LinSpec RrefSpec MatProofs AlgProofs LinFacts PropMat PropLin
  MDegModel OrdModel PolyModel CompModel
  MonoSpec MDegProofs OrdProofs PolySpec PolyProofs GroebnerSpec DivProofs DivSpec GbProofs CompMono PropPoly PropDiv PropGb IdealSpec PropIdeal SubstSpec
  PropIdealOps StdSpec PropStd ModSpec PropSyz PropModular FglmSpec.
From Coq Require Import Ring Field Setoid Morphisms.
Local Open Scope nat_scope.

Section PropFglm.
Context {F : FieldImpl} {K : MathField} (FS : FieldSpec F K) (T : StabImpl F) (TS : StabSpec FS T) {O1 O2 : ord_impl} (OS1 : OrderSpec O1) (OS2 : OrderSpec O2).
Add Field Kf88 : (kth K).
Add Ring Pr88 : (@poly_ring K) (setoid (@peq_equiv K) (@poly_ring_ext K)).
Notation poly := (poly F).
Notation mat := (mat F).
Notation val := (ip FS).
Notation ent := (mden FS).
Notation clean := (pwf FS).
Notation nonzero := (fun g : poly => g <> []).
Notation vars n := (fun g : poly => forall t, In t g -> length (tdeg t) <= n).
Notation mon t := (canon (tdeg t)).
Notation lt2 := (olt OS2).
Let laws1 := olaws _ OS1.
Let laws2 := olaws _ OS2.

(** bases of the same ideal for the two orders *)
Definition two_bases (n : nat) (gens out1 out2 : list poly) : Prop :=
  Forall clean gens /\ Forall nonzero gens /\ Forall (vars n) gens /\
  (exists fuel, buchberger_algorithm Debug O1 fuel gens = Ok out1) /\ exists fuel, buchberger_algorithm Debug O2 fuel gens = Ok out2.
(** [L] are the standard monomials for the second order below [m], in any arrangement *)
Definition standard_below (n : nat) (out2 : list poly) (L : list mono) (m : mono) : Prop :=
  NoDup L /\ mvars n m /\ forall x, In x L <-> std lt2 n (map val out2) x /\ lt2 x m.
(** [fs] are the monomials of [L] and [m] as polynomials; the columns of [a] are their remainders for the first order *)
Definition remainder_matrix (out1 : list poly) (L : list mono) (m : mono) (fs : list poly) (a : mat) (h : nat) : Prop :=
  Forall clean fs /\ length fs = S (length L) /\ (forall j, j < length fs -> peq (val (nth j fs [])) (pterm k1 (nth j (L ++ [m]) mone))) /\
  exists rs ms, length ms = h /\ remainders (O:=O1) out1 fs rs /\ covers ms rs /\ coefficient_matrix FS ms rs a.

Section Step.
Context (n : nat) (gens out1 out2 : list poly) (L : list mono) (m : mono) (fs : list poly) (a : mat) (h : nat).
Context (B : two_bases n gens out1 out2) (SB : standard_below n out2 L m) (RM : remainder_matrix out1 L m fs a h).
Notation G := (map val out2).
Notation I := (in_ideal (map val gens)).
Notation N := (length L).
Lemma s_ideal f : in_ideal G f <-> I f.
Proof. destruct B as (W & NZ & V & _ & (fuel & E)). destruct (algorithm_run FS OS2 fuel gens out2 W NZ E) as (_ & SI & _). split; apply SI. Qed.
Lemma s_groebner : groebner lt2 G.
Proof. destruct B as (W & NZ & V & _ & (fuel & E)). apply (algorithm_run FS OS2 fuel gens out2 W NZ E). Qed.
Lemma s_vars : forall g, In g G -> svars n g.
Proof. destruct B as (W & NZ & V & _ & (fuel & E)). apply (out_vars FS OS2 fuel n gens out2); auto. Qed.
Lemma s_nodup : NoDup L.
Proof. apply SB. Qed.
Lemma s_m : mvars n m.
Proof. exact (proj1 (proj2 SB)). Qed.
Lemma s_below : forall x, In x L <-> std lt2 n G x /\ lt2 x m.
Proof. apply SB. Qed.
Lemma s_sum w : peq (wsum (length fs) w (fun j => val (nth j fs []))) (upto L m w).
Proof. destruct RM as (_ & Lf & P & _). unfold upto. rewrite <- Lf. apply wsum_ext. exact P. Qed.
Lemma s_rel w : relation_mod FS out1 fs w <-> in_ideal G (upto L m w).
Proof.
  destruct B as (W & NZ & V & (fuel & E) & _). destruct (algorithm_run FS OS1 fuel gens out1 W NZ E) as (_ & SI & _).
  unfold relation_mod. rewrite s_sum. rewrite s_ideal. split; apply SI.
Qed.
Lemma s_out1 : Forall clean out1 /\ groebner (olt OS1) (map val out1).
Proof. destruct B as (W & NZ & V & (fuel & E) & _). destruct (algorithm_run FS OS1 fuel gens out1 W NZ E) as (Wo & _ & GB & _). split; [exact Wo|exact GB]. Qed.
Lemma s_basis s vs : rref_of T a s -> compute_kernel T s = Ok vs -> is_basis (S N) (fun w => in_ideal G (upto L m w)) (map (vec_of FS) vs).
Proof.
  intros H E. destruct s_out1 as [Wo GB]. destruct RM as (Wf & Lf & _ & rs & ms & _ & R & C & M).
  destruct (C136_relations FS T TS OS1 out1 fs rs ms a s vs Wo Wf GB R C M H E) as (A1 & A2 & A3). rewrite Lf in A1, A3.
  split; [exact A1|]. split; [eapply Forall_impl; [|exact A2]; intros w; apply s_rel|]. intros w Hw. apply A3. apply s_rel. exact Hw.
Qed.
Lemma s_one s vs : rref_of T a s -> compute_kernel T s = Ok vs -> ~ std lt2 n G m ->
  exists v, vs = [v] /\ vec_of FS v N <> k0 /\ in_ideal G (upto L m (vec_of FS v)).
Proof.
  intros H E Ns. destruct (s_basis s vs H E) as (Ind & Rel & Span).
  destruct (upto_ex lt2 laws2 n G L m s_groebner s_vars s_nodup s_m s_below Ns) as (w & Wn & Iw). destruct (Span w Iw) as (c & Hc).
  destruct vs as [|v vs].
  { exfalso. apply (F_1_neq_0 (kth K)). rewrite <- Wn. rewrite (Hc N) by lia. reflexivity. }
  inversion Rel as [|? ? Rv Rel']; subst.
  assert (Nv : vec_of FS v N <> k0).
  { intros Z. apply (F_1_neq_0 (kth K)). apply (Ind (fun k => if Nat.eqb k 0 then k1 else k0)) with (k := 0); [|cbn; lia]. intros i Hi. unfold lcomb.
    pose proof (upto_zero lt2 laws2 n G L m s_groebner s_nodup s_below (vec_of FS v) Rv (or_intror Z)) as Y.
    rewrite (sumn_ext _ _ (fun _ => k0)); [apply sumn_zero'; reflexivity|]. intros k Hk. destruct k as [|k]; cbn [Nat.eqb nth map]; [rewrite (Y i Hi)|]; ring. }
  destruct vs as [|v' vs]; [exists v; auto|]. exfalso. inversion Rel' as [|? ? Rv' _]; subst.
  pose proof (upto_unique lt2 laws2 n G L m s_groebner s_nodup s_below (vec_of FS v) (vec_of FS v') Rv Rv') as U.
  apply Nv. assert (X : kopp (vec_of FS v N) = k0).
  { apply (Ind (fun k => if Nat.eqb k 0 then vec_of FS v' N else if Nat.eqb k 1 then kopp (vec_of FS v N) else k0)) with (k := 1); [|cbn; lia].
    intros i Hi. unfold lcomb. cbn [map length]. rewrite !sumn_S_first. cbn [Nat.eqb nth]. rewrite sumn_zero' by (intros k _; ring). rewrite (U i Hi). ring. }
  transitivity (kopp (kopp (vec_of FS v N))); [ring|rewrite X; ring].
Qed.
End Step.

(** the rank decides whether m is standard for the second order *)
Theorem C146_standard : forall n gens out1 out2 L m fs a h s r, two_bases n gens out1 out2 -> standard_below n out2 L m -> remainder_matrix out1 L m fs a h ->
  echelon_of T a s \/ rref_of T a s -> form_rank T s = Ok r -> (r = S (length L) <-> std lt2 n (map val out2) m).
Proof.
  intros n gens out1 out2 L m fs a h s r B SB RM H E. destruct (s_out1 n gens out1 out2 B) as [Wo GB]. pose proof RM as (Wf & Lf & _ & rs & ms & _ & R & C & M).
  rewrite <- Lf. rewrite (C136_independent FS T TS OS1 out1 fs rs ms a s r Wo Wf GB R C M H E). split.
  - intros U. destruct (std_dec lt2 laws2 n (map val out2) m (left (s_m n out2 L m SB))) as [S|NS]; [exact S|]. exfalso.
    destruct (upto_ex lt2 laws2 n (map val out2) L m (s_groebner n gens out1 out2 B) (s_vars n gens out1 out2 B) (s_nodup n out2 L m SB) (s_m n out2 L m SB) (s_below n out2 L m SB) NS) as (w & Wn & Iw).
    apply (F_1_neq_0 (kth K)). rewrite <- Wn. apply (U w); [|lia]. apply (s_rel n gens out1 out2 L m fs a h B RM). exact Iw.
  - intros S w Hw j Hj. apply (s_rel n gens out1 out2 L m fs a h B RM) in Hw.
    apply (upto_zero lt2 laws2 n (map val out2) L m (s_groebner n gens out1 out2 B) (s_nodup n out2 L m SB) (s_below n out2 L m SB) w Hw (or_introl S)). lia.
Qed.

(** otherwise the kernel is one vector, an element of the ideal with leading monomial m *)
Theorem C146_element : forall n gens out1 out2 L m fs a h s vs, two_bases n gens out1 out2 -> standard_below n out2 L m -> remainder_matrix out1 L m fs a h ->
  rref_of T a s -> compute_kernel T s = Ok vs -> ~ std lt2 n (map val out2) m ->
  exists v, vs = [v] /\ in_ideal (map val gens) (wsum (length fs) (vec_of FS v) (fun j => val (nth j fs []))) /\
    is_lm lt2 (wsum (length fs) (vec_of FS v) (fun j => val (nth j fs []))) m.
Proof.
  intros n gens out1 out2 L m fs a h s vs B SB RM H E NS. destruct (s_one n gens out1 out2 L m fs a h B SB RM s vs H E NS) as (v & -> & Nv & Iv).
  exists v. split; [reflexivity|]. rewrite (s_sum out1 L m fs a h RM). split; [apply (s_ideal n gens out1 out2 B); exact Iv|].
  apply (upto_lm lt2 laws2 n (map val out2) L m (s_nodup n out2 L m SB) (s_below n out2 L m SB)). exact Nv.
Qed.

(** the element of the second result with leading monomial m is this vector, up to a factor *)
Theorem C146_basis : forall n gens out1 out2 L m fs a h s vs g, two_bases n gens out1 out2 -> standard_below n out2 L m -> remainder_matrix out1 L m fs a h ->
  rref_of T a s -> compute_kernel T s = Ok vs -> In g out2 -> is_lm lt2 (val g) m ->
  exists v c, vs = [v] /\ c <> k0 /\ peq (val g) (pscale c (wsum (length fs) (vec_of FS v) (fun j => val (nth j fs [])))).
Proof.
  intros n gens out1 out2 L m fs a h s vs g B SB RM H E Ig Lg.
  assert (NS : ~ std lt2 n (map val out2) m) by (intros [_ S]; apply (S (val g) m (in_map val _ _ Ig) Lg); intros i; lia).
  destruct (s_one n gens out1 out2 L m fs a h B SB RM s vs H E NS) as (v & -> & Nv & Iv).
  assert (Ign : in_ideal (map val out2) (val g)) by (apply in_ideal_gen; apply in_map; exact Ig).
  assert (Sg : forall x, coeff (val g) x <> k0 -> x <> m -> std lt2 n (map val out2) x).
  { intros x Nx Nm. split; [apply (s_vars n gens out1 out2 B (val g) (in_map val _ _ Ig)); exact Nx|]. intros g' l Ig' Lg' D.
    apply in_map_iff in Ig' as (g2 & <- & Ig'). destruct B as (W & NZ & _ & _ & (fuel & E2)). destruct (C41_inter_reduced FS OS2 fuel gens out2 W NZ E2) as [_ R].
    destruct (algorithm_run FS OS2 fuel gens out2 W NZ E2) as (Wo & _). rewrite Forall_forall in Wo.
    destruct (In_nth_error _ _ Ig) as (i & Ei). destruct (In_nth_error _ _ Ig') as (j & Ej). destruct (Nat.eq_dec i j) as [->|Nij].
    - rewrite Ei in Ej. injection Ej as <-. rewrite (is_lm_unique _ laws2 _ _ _ Lg' Lg) in D. destruct (proj2 Lg x Nx) as [Z|Z]; [contradiction|].
      apply (mdiv_mle lt2 laws2) in D as [Y|Y]; [apply Nm; symmetry; exact Y|]. apply (lt_irrefl lt2 laws2 m). apply (lt_trans lt2 laws2 m x m); assumption.
    - apply (pwf_support FS g x (Wo g Ig)) in Nx as (t & It & <-). exact (R i j g g2 t l Nij Ei Ej It Lg' D). }
  pose proof (upto_element lt2 laws2 n (map val out2) L m (s_groebner n gens out1 out2 B) (s_nodup n out2 L m SB) (s_below n out2 L m SB) (val g) (vec_of FS v) Ign Lg Sg Iv) as P.
  exists v, (kdiv (coeff (val g) m) (vec_of FS v (length L))). split; [reflexivity|]. split.
  - intros Z. apply (proj1 Lg). transitivity (kmul (kdiv (coeff (val g) m) (vec_of FS v (length L))) (vec_of FS v (length L))); [field; exact Nv|rewrite Z; ring].
  - assert (Q : peq (pscale (kdiv (coeff (val g) m) (vec_of FS v (length L))) (wsum (length fs) (vec_of FS v) (fun j => val (nth j fs []))))
      (pscale (kdiv (coeff (val g) m) (vec_of FS v (length L))) (upto L m (vec_of FS v)))) by (rewrite (s_sum out1 L m fs a h RM); reflexivity). rewrite Q.
    apply peq_coeff. intros x.
    assert (Px' : kmul (vec_of FS v (length L)) (coeff (val g) x) = kmul (coeff (val g) m) (coeff (upto L m (vec_of FS v)) x)).
    { rewrite <- !coeff_scale. unfold pscale. rewrite !tmul_pmul. rewrite P. reflexivity. }
    rewrite coeff_scale. transitivity (kdiv (kmul (vec_of FS v (length L)) (coeff (val g) x)) (vec_of FS v (length L))); [field; exact Nv|rewrite Px'; field; exact Nv].
Qed.
End PropFglm.

(** ** The ideal of x^2 - y, x y - 1, y^2 - x ([ex_sy], a basis for GrLex) and Lex, with the basis y^2 - x, y^3 - 1 *)
Notation RR := (rat_impl Debug).
Definition ex_fg_out : list (poly RR) := [[ex_t 1 1 [0; 2]; ex_t (-1) 1 [1]]; [ex_t 1 1 [0; 3]; ex_t (-1) 1 []]].
Example C146_ex_bases : two_bases rat_spec (O1:=grlex_cmp Debug) (O2:=lex_cmp) 2 ex_sy ex_sy ex_fg_out.
Proof.
  split; [apply C135_ex_clean|]. split; [apply C135_ex_clean|].
  split; [repeat (apply Forall_cons || apply Forall_nil); intros t H; cbn [In] in H; repeat (destruct H as [<-|H]; [cbn; lia|]); destruct H|].
  split; [exists 30; exact C135_ex_output|exists 30; reflexivity].
Qed.
Lemma ex_fg_lead (g : poly RR) t : pwf rat_spec g -> leading_term lex_cmp g = Ok (Some t) -> is_lm (olt lex_spec) (ip rat_spec g) (canon (tdeg t)).
Proof. intros W E. apply (proj1 (C31_clean rat_spec lex_spec g W) t E). Qed.
Example ex_fg_lm0 : is_lm (olt lex_spec) (ip rat_spec (nth 0 ex_fg_out [])) (canon [1]).
Proof. apply (ex_fg_lead _ (ex_t (-1) 1 [1])); [apply ex_clean; reflexivity|reflexivity]. Qed.
Example ex_fg_lm1 : is_lm (olt lex_spec) (ip rat_spec (nth 1 ex_fg_out [])) (canon [0; 3]).
Proof. apply (ex_fg_lead _ (ex_t 1 1 [0; 3])); [apply ex_clean; reflexivity|reflexivity]. Qed.
Lemma ex_fg_std m : std (olt lex_spec) 2 (map (ip rat_spec) ex_fg_out) m <-> exists k, k < 3 /\ m = canon [0; k].
Proof.
  split.
  - intros [V N]. assert (E : m = canon [mexp m 0; mexp m 1]) by (apply mono_ext; intros [|[|i]]; rewrite canon_exp; cbn; [reflexivity|reflexivity|destruct i; apply V; lia]).
    assert (A : mexp m 0 = 0). { destruct (mexp m 0) eqn:Q; [reflexivity|]. exfalso. apply (N _ _ (or_introl eq_refl) ex_fg_lm0). apply ex_md_div. intros [|i]; [cbn; lia|destruct i; cbn; lia]. }
    assert (B : mexp m 1 < 3). { destruct (le_lt_dec 3 (mexp m 1)) as [Q|Q]; [|exact Q]. exfalso. apply (N _ _ (or_intror (or_introl eq_refl)) ex_fg_lm1). apply ex_md_div. intros [|[|i]]; [cbn; lia|exact Q|destruct i; cbn; lia]. }
    exists (mexp m 1). split; [exact B|]. rewrite E at 1. rewrite A. reflexivity.
  - intros (k & Hk & ->). split.
    + intros i Hi. rewrite canon_exp. destruct i as [|[|i]]; [lia|lia|]. destruct i; reflexivity.
    + intros g l [<-|[<-|[]]] Lg D.
      * rewrite (is_lm_unique _ (olaws _ lex_spec) _ _ _ Lg ex_fg_lm0) in D. specialize (D 0). rewrite !canon_exp in D. cbn in D. lia.
      * rewrite (is_lm_unique _ (olaws _ lex_spec) _ _ _ Lg ex_fg_lm1) in D. specialize (D 1). rewrite !canon_exp in D. cbn in D. lia.
Qed.
Lemma ex_fg_inj j k : canon [0; j] = canon [0; k] -> j = k.
Proof. intros E. apply (f_equal (fun m => mexp m 1)) in E. rewrite !canon_exp in E. exact E. Qed.
Lemma ex_fg_lt j k : j < k -> olt lex_spec (canon [0; j]) (canon [0; k]).
Proof.
  intros H. assert (D : mdiv (canon [0; j]) (canon [0; k])) by (intros [|[|i]]; rewrite !canon_exp; cbn; [lia|lia|destruct i; lia]).
  apply (mdiv_mle _ (olaws _ lex_spec)) in D as [E|L]; [|exact L]. apply ex_fg_inj in E. lia.
Qed.
Lemma ex_fg_below d : d <= 3 -> standard_below rat_spec lex_spec 2 ex_fg_out (map (fun k => canon [0; k]) (seq 0 d)) (canon [0; d]).
Proof.
  intros Hd. split; [|split].
  - apply FinFun.Injective_map_NoDup; [intros j k; apply ex_fg_inj|apply seq_NoDup].
  - intros i Hi. rewrite canon_exp. destruct i as [|[|i]]; [lia|lia|]. destruct i; reflexivity.
  - intros x. rewrite in_map_iff, ex_fg_std. split.
    + intros (k & <- & I). apply in_seq in I. split; [exists k; split; [lia|reflexivity]|apply ex_fg_lt; lia].
    + intros ((k & Hk & ->) & L). exists k. split; [reflexivity|]. apply in_seq. destruct (le_lt_dec d k) as [Q|Q]; [|lia]. exfalso.
      destruct (Nat.eq_dec d k) as [->|]; [exact (lt_irrefl _ (olaws _ lex_spec) _ L)|]. apply (lt_irrefl _ (olaws _ lex_spec) (canon [0; k])).
      apply (lt_trans _ (olaws _ lex_spec) _ (canon [0; d])); [exact L|apply ex_fg_lt; lia].
Qed.
Ltac entry_fg := cbn [nth ex_md_ms]; rewrite list_coeff_ok; [unfold list_coeff; cbn [tdeg ex_t];
  repeat (match goal with |- context [list_eq_dec Nat.eq_dec ?x ?y] => destruct (list_eq_dec Nat.eq_dec x y) as [EE|EE]; [try discriminate EE|try (exfalso; apply EE; reflexivity)] end);
  apply Qc_is_canon; reflexivity|apply ex_clean; reflexivity|discriminate].
Ltac cover_fg := intros r t H J; cbn [In] in H; repeat (destruct H as [<-|H]; [cbn [In] in J; destruct J as [<-|[]];
  cbn [In ex_md_ms]; first [left; apply mono_ext; intros ?; rewrite !canon_exp; reflexivity|right; left; apply mono_ext; intros ?; rewrite !canon_exp; reflexivity|right; right; left; apply mono_ext; intros ?; rewrite !canon_exp; reflexivity]|]); destruct H.
(** y^2 is standard: the columns of 1, y and y^2 are independent *)
Definition ex_fg_a2 : mat RR := ex_mat 3 3 [(1,1);(0,1);(0,1);(0,1);(0,1);(1,1);(0,1);(1,1);(0,1)]%Z.
Definition ex_fg_s2 : form (F:=RR) := mkform ex_fg_a2 (ex_mat 3 3 [(1,1);(0,1);(0,1);(0,1);(1,1);(0,1);(0,1);(0,1);(1,1)]%Z).
Definition ex_fg_fs2 : list (poly RR) := [[ex_t 1 1 []]; [ex_t 1 1 [0; 1]]; [ex_t 1 1 [0; 2]]].
Definition ex_fg_rs2 : list (poly RR) := [[ex_t 1 1 []]; [ex_t 1 1 [0; 1]]; [ex_t 1 1 [1]]].
Lemma ex_fg_zero : canon [0; 0] = canon [].
Proof. apply mono_ext. intros [|[|[|i]]]; rewrite !canon_exp; reflexivity. Qed.
Example C146_ex_standard : remainder_matrix rat_spec (O1:=grlex_cmp Debug) ex_sy [canon [0; 0]; canon [0; 1]] (canon [0; 2]) ex_fg_fs2 ex_fg_a2 3 /\
  rref_of RT ex_fg_a2 ex_fg_s2 /\ form_rank RT ex_fg_s2 = Ok 3.
Proof.
  split; [|split; [apply ex_rref_of; reflexivity|reflexivity]].
  split; [repeat (apply Forall_cons || apply Forall_nil); apply ex_clean; reflexivity|]. split; [reflexivity|].
  split; [intros [|[|[|j]]] Hj; [..|cbn in Hj; lia]; intros phi; cbn [nth ex_fg_fs2 app]; rewrite ?ex_fg_zero; reflexivity|].
  exists ex_fg_rs2, ex_md_ms. split; [reflexivity|].
  split; [repeat (apply Forall2_cons || apply Forall2_nil); exists 20; eexists; reflexivity|].
  split; [unfold ex_fg_rs2; cover_fg|].
  split; [split; [apply ex_mat_ok; reflexivity|split; reflexivity]|].
  intros i j Hi Hj. destruct i as [|[|[|i]]]; [..|exfalso; cbn in Hi; lia]; (destruct j as [|[|[|j]]]; [..|exfalso; cbn in Hj; lia]); cbn [nth ex_fg_rs2]; entry_fg.
Qed.
(** y^3 is not, and the kernel gives y^3 - 1 *)
Definition ex_fg_a3 : mat RR := ex_mat 3 4 [(1,1);(0,1);(0,1);(1,1);(0,1);(0,1);(1,1);(0,1);(0,1);(1,1);(0,1);(0,1)]%Z.
Definition ex_fg_s3 : form (F:=RR) := mkform ex_fg_a2 (ex_mat 3 4 [(1,1);(0,1);(0,1);(1,1);(0,1);(1,1);(0,1);(0,1);(0,1);(0,1);(1,1);(0,1)]%Z).
Definition ex_fg_fs3 : list (poly RR) := [[ex_t 1 1 []]; [ex_t 1 1 [0; 1]]; [ex_t 1 1 [0; 2]]; [ex_t 1 1 [0; 3]]].
Definition ex_fg_rs3 : list (poly RR) := [[ex_t 1 1 []]; [ex_t 1 1 [0; 1]]; [ex_t 1 1 [1]]; [ex_t 1 1 []]].
Example C146_ex_element : remainder_matrix rat_spec (O1:=grlex_cmp Debug) ex_sy [canon [0; 0]; canon [0; 1]; canon [0; 2]] (canon [0; 3]) ex_fg_fs3 ex_fg_a3 3 /\
  rref_of RT ex_fg_a3 ex_fg_s3 /\ compute_kernel RT ex_fg_s3 = Ok [ex_mat 4 1 [(-1,1);(0,1);(0,1);(1,1)]%Z].
Proof.
  split; [|split; [apply ex_rref_of; reflexivity|reflexivity]].
  split; [repeat (apply Forall_cons || apply Forall_nil); apply ex_clean; reflexivity|]. split; [reflexivity|].
  split; [intros [|[|[|[|j]]]] Hj; [..|cbn in Hj; lia]; intros phi; cbn [nth ex_fg_fs3 app]; rewrite ?ex_fg_zero; reflexivity|].
  exists ex_fg_rs3, ex_md_ms. split; [reflexivity|].
  split; [repeat (apply Forall2_cons || apply Forall2_nil); exists 20; eexists; reflexivity|].
  split; [unfold ex_fg_rs3; cover_fg|].
  split; [split; [apply ex_mat_ok; reflexivity|split; reflexivity]|].
  intros i j Hi Hj. destruct i as [|[|[|i]]]; [..|exfalso; cbn in Hi; lia]; (destruct j as [|[|[|[|j]]]]; [..|exfalso; cbn in Hj; lia]); cbn [nth ex_fg_rs3]; entry_fg.
Qed.
Print Assumptions C146_standard.
Print Assumptions C146_element.
Print Assumptions C146_basis.
