(** * C136: linear algebra modulo an ideal

    The coefficients of the remainders of polynomials f_0, f_1, ... are entered as the columns of a matrix.  Its kernel
    ([compute_kernel]) lists the linear relations between the f_j modulo the ideal, its rank decides independence.  With the powers
    of a polynomial this finds the polynomial relations it satisfies; with the products of f and the standard monomials it
    decides whether f has an inverse or is a zero divisor modulo the ideal. *)
From Coq Require Import ZArith QArith Qcanon.
From Verif Require Import Base BaseLemmas IntModel RatModel FieldIface RatProofs UtilModel MatModel AlgModel
  LinSpec RrefSpec MatProofs AlgProofs LinFacts PropMat PropLin
  MDegModel OrdModel PolyModel CompModel
  MonoSpec MDegProofs OrdProofs PolySpec PolyProofs GroebnerSpec DivProofs DivSpec GbProofs CompMono PropPoly PropDiv PropGb IdealSpec PropIdeal SubstSpec
  PropIdealOps StdSpec PropStd ModSpec PropSyz.
From Coq Require Import Ring Field Setoid Morphisms.
Local Open Scope nat_scope.

Section PropModular.
Context {F : FieldImpl} {K : MathField} (FS : FieldSpec F K) (T : StabImpl F) (TS : StabSpec FS T) {O : ord_impl} (OS : OrderSpec O).
Add Field Kf66 : (kth K).
Add Ring Pr66 : (@poly_ring K) (setoid (@peq_equiv K) (@poly_ring_ext K)).
Notation poly := (poly F).
Notation val := (ip FS).
Notation ent := (mden FS).
Notation clean := (pwf FS).
Notation nonzero := (fun g : poly => g <> []).
Notation lt := (olt OS).
Notation mon t := (canon (tdeg t)).
Notation vars n := (fun g : poly => forall t, In t g -> length (tdeg t) <= n).
Let laws := olaws _ OS.

(** [rs] are the remainders of [fs] on division by [G] *)
Definition remainders (G fs rs : list poly) : Prop := Forall2 (fun f r => exists fuel qs, divide Debug O fuel f G = Ok (r, qs)) fs rs.
(** column j of [a] has the coefficients of the j-th polynomial at the monomials [ms] *)
Definition coefficient_matrix (ms : list mono) (rs : list poly) (a : mat F) : Prop :=
  okm FS (length ms) (length rs) a /\ forall i j, i < length ms -> j < length rs -> ent a i j = coeff (val (nth j rs [])) (nth i ms mone).
(** [ms] has all monomials of the polynomials *)
Definition covers (ms : list mono) (rs : list poly) : Prop := forall r t, In r rs -> In t r -> In (mon t) ms.
(** the sum of the [w j] f_j is in the ideal *)
Definition relation_mod (G fs : list poly) (w : nat -> K) : Prop := in_ideal (map val G) (wsum (length fs) w (fun j => val (nth j fs []))).

Lemma remainders_at G fs rs j : Forall clean G -> Forall clean fs -> remainders G fs rs -> j < length fs ->
  clean (nth j rs []) /\ in_ideal (map val G) (psub (val (nth j fs [])) (val (nth j rs []))) /\ reduced lt (map val G) (val (nth j rs [])).
Proof.
  intros WG W R. revert j. induction R as [|f r fs rs (fuel & qs & E) R IH]; intros j Hj; [cbn in Hj; lia|]. inversion W as [|? ? Wf W']; subst.
  destruct j as [|j]; cbn [nth]; [exact (divide_nf FS OS fuel f G r qs Wf WG E)|apply IH; [exact W'|cbn in Hj; lia]].
Qed.
Lemma remainders_length G fs rs : remainders G fs rs -> length rs = length fs.
Proof. intros R. symmetry. exact (Forall2_len _ _ _ R). Qed.
Lemma kernel_relation G fs rs ms a w : Forall clean G -> Forall clean fs -> groebner lt (map val G) -> remainders G fs rs -> covers ms rs ->
  coefficient_matrix ms rs a -> (in_kernel (length ms) (length fs) (ent a) w <-> relation_mod G fs w).
Proof.
  intros WG W GB R C [_ M]. pose proof (remainders_length _ _ _ R) as L.
  unfold relation_mod. rewrite <- (relations_kernel lt laws (map val G) (length ms) (length fs) (fun j => val (nth j fs [])) (fun j => val (nth j rs [])) (fun i => nth i ms mone) GB).
  - split; intros H i Hi; rewrite <- (H i Hi); apply (mvec_ext (length ms)); auto; intros i' j Hi' Hj; cbn beta; rewrite M by lia; reflexivity.
  - intros j Hj. apply (remainders_at G fs rs j WG W R Hj).
  - intros j x Hj N. destruct (remainders_at G fs rs j WG W R Hj) as (Wr & _ & _). apply (pwf_support FS _ x Wr) in N as (t & It & <-).
    assert (I : In (mon t) ms) by (apply (C (nth j rs [])); [apply nth_In; lia|exact It]). apply (In_nth _ _ mone) in I as (i & Hi & E). exists i. auto.
Qed.

Theorem C136_relations : forall G fs rs ms a s vs, Forall clean G -> Forall clean fs -> groebner lt (map val G) -> remainders G fs rs -> covers ms rs ->
  coefficient_matrix ms rs a -> rref_of T a s -> compute_kernel T s = Ok vs ->
  is_basis (length fs) (relation_mod G fs) (map (vec_of FS) vs).
Proof.
  intros G fs rs ms a s vs WG W GB R C M H E. pose proof (remainders_length _ _ _ R) as L. pose proof (proj1 M) as Wa. rewrite L in Wa.
  destruct (safe_val _ _ _ (C54_kernel FS T TS a _ _ s Wa H) E) as (_ & (I & Kv & S) & _).
  split; [exact I|]. split.
  - eapply Forall_impl; [|exact Kv]. intros w Hw. apply (kernel_relation G fs rs ms a); assumption.
  - intros w Hw. apply S. apply (kernel_relation G fs rs ms a); assumption.
Qed.
Theorem C136_independent : forall G fs rs ms a s r, Forall clean G -> Forall clean fs -> groebner lt (map val G) -> remainders G fs rs -> covers ms rs ->
  coefficient_matrix ms rs a -> echelon_of T a s \/ rref_of T a s -> form_rank T s = Ok r ->
  (r = length fs <-> forall w, relation_mod G fs w -> forall j, j < length fs -> w j = k0).
Proof.
  intros G fs rs ms a s r WG W GB R C M H E. pose proof (remainders_length _ _ _ R) as L. pose proof (proj1 M) as Wa. rewrite L in Wa.
  destruct (C53_nullity FS T TS a _ _ s Wa H) as (r' & Er' & _ & D). rewrite E in Er'. injection Er' as <-.
  destruct (C53_rank FS T TS a _ _ s Wa H) as (r' & Er' & _ & Lm & _). rewrite E in Er'. injection Er' as <-.
  destruct D as [(vs & (I & KV & KS) & Lv) _]. split.
  - intros -> w Hw j Hj. apply (kernel_relation G fs rs ms a) in Hw; try assumption. destruct (KS w Hw) as (c & Hc). rewrite (Hc j Hj). unfold lcomb. rewrite Lv, Nat.sub_diag. reflexivity.
  - intros U. destruct vs as [|v vs]; [cbn in Lv; lia|]. exfalso. inversion KV as [|? ? Kv _]; subst.
    apply (F_1_neq_0 (kth K)). apply (I (fun k => if Nat.eqb k 0 then k1 else k0)) with (k := 0); [|cbn; lia]. intros i Hi. unfold lcomb.
    apply (kernel_relation G fs rs ms a) in Kv; try assumption. rewrite (sumn_ext _ _ (fun _ => k0)).
    + apply sumn_zero'. reflexivity.
    + intros k Hk. destruct k as [|k]; cbn [Nat.eqb nth]; [rewrite (U v Kv i Hi)|]; ring.
Qed.
(** the polynomials in f of degree below the number of columns which are in the ideal *)
Theorem C136_powers : forall G fs rs ms a s vs f, Forall clean G -> Forall clean fs -> groebner lt (map val G) -> remainders G fs rs -> covers ms rs ->
  coefficient_matrix ms rs a -> rref_of T a s -> compute_kernel T s = Ok vs -> (forall j, j < length fs -> peq (val (nth j fs [])) (ppow f j)) ->
  is_basis (length fs) (fun w => in_ideal (map val G) (wsum (length fs) w (ppow f))) (map (vec_of FS) vs).
Proof.
  intros G fs rs ms a s vs f WG W GB R C M H E P. destruct (C136_relations G fs rs ms a s vs WG W GB R C M H E) as (I & Kv & S).
  assert (X : forall w, relation_mod G fs w <-> in_ideal (map val G) (wsum (length fs) w (ppow f))).
  { intros w. unfold relation_mod. assert (Y : peq (wsum (length fs) w (fun j => val (nth j fs []))) (wsum (length fs) w (ppow f))) by (apply wsum_ext; exact P). rewrite Y. reflexivity. }
  split; [exact I|]. split; [eapply Forall_impl; [|exact Kv]; intros w; apply X|intros w Hw; apply S; apply X; exact Hw].
Qed.

(** [L] are the standard monomials, [fs] the products of [f] with them *)
Theorem C136_multiplication : forall fuel n gens out f fs rs L a s vs, Forall clean gens -> Forall nonzero gens -> Forall (vars n) gens ->
  buchberger_algorithm Debug O fuel gens = Ok out -> clean f -> vars n f ->
  NoDup L -> (forall m, In m L <-> std lt n (map val out) m) ->
  Forall clean fs -> length fs = length L -> (forall j, j < length L -> peq (val (nth j fs [])) (pmul (val f) (pterm k1 (nth j L mone)))) ->
  remainders out fs rs -> coefficient_matrix L rs a -> rref_of T a s -> compute_kernel T s = Ok vs ->
  (form_rank T s = Ok (length L) <-> exists h, svars n h /\ in_ideal (map val gens) (psub (pmul (val f) h) pone)) /\
  (vs <> [] <-> exists h, svars n h /\ ~ in_ideal (map val gens) h /\ in_ideal (map val gens) (pmul (val f) h)).
Proof.
  intros fuel n gens out f fs rs L a s vs W NZ V E Wf Vf ND HL Wfs Lf P R M H Ek. destruct (algorithm_run FS OS fuel gens out W NZ E) as (Wo & SI & GB & _).
  pose proof (remainders_length _ _ _ R) as Lr. pose proof (out_vars FS OS fuel n gens out W NZ V E) as Vo.
  pose proof M as [Wa Ma]. rewrite Lr, Lf in Wa, Ma. set (N := length L) in *.
  set (r := fun j => val (nth j rs [])). set (ms := fun i => nth i L mone).
  assert (Std : forall x, std lt n (map val out) x <-> exists i, i < N /\ ms i = x).
  { intros x. rewrite <- HL. split; [intros I; apply (In_nth _ _ mone) in I as (i & Hi & Ei); eauto|intros (i & Hi & <-); apply nth_In; exact Hi]. }
  assert (Inj : forall i j, i < N -> j < N -> ms i = ms j -> i = j) by (intros i j Hi Hj X; apply (proj1 (NoDup_nth L mone) ND); assumption).
  assert (Vf' : svars n (val f)) by (apply vars_svars; assumption).
  assert (Rf : forall j, j < N -> in_ideal (map val out) (psub (pmul (val f) (pterm k1 (ms j))) (r j)) /\ forall x, coeff (r j) x <> k0 -> std lt n (map val out) x).
  { intros j Hj. destruct (remainders_at out fs rs j Wo Wfs R) as (Wr & I & Rd); [lia|]. split; [unfold ms, r; rewrite <- (P j Hj); exact I|].
    intros x Nx. split; [|apply Rd; exact Nx].
    assert (Hv : svars n (val (nth j fs []))).
    { intros y Ny. rewrite (P j Hj) in Ny. revert y Ny. apply svars_mul; [exact Vf'|]. apply svars_pterm. exact (proj1 (proj1 (HL _) (nth_In L mone Hj))). }
    clear - R Wo Wfs Vo Hv Hj Lf Nx laws. unfold r in Nx.
    assert (exists fuel qs, divide Debug O fuel (nth j fs []) out = Ok (nth j rs [], qs)) as (fu & qs & Ed).
    { revert j Hj Hv Nx. rewrite <- Lf. clear - R. induction R as [|f r fs rs Q R IH]; intros j Hj Hv Nx; [cbn in Hj; lia|]. destruct j as [|j]; cbn [nth] in *; [exact Q|apply IH; auto; cbn in Hj; lia]. }
    assert (Wj : clean (nth j fs [])) by (apply (proj1 (Forall_forall _ _) Wfs); apply nth_In; lia).
    destruct (divide_run FS OS fu _ out _ qs Wj Wo Ed) as (_ & _ & D). destruct (ds_vars _ _ _ _ _ _ D n Hv Vo) as (_ & Vr & _). apply Vr. exact Nx. }
  assert (X : forall w, in_kernel N N (ent a) w <-> in_kernel N N (fun i j => coeff (r j) (ms i)) w).
  { intros w. split; intros Q i Hi; rewrite <- (Q i Hi); apply (mvec_ext N); auto; intros i' j Hi' Hj; unfold r, ms; rewrite (Ma i' j Hi' Hj); reflexivity. }
  destruct (safe_val _ _ _ (C54_kernel FS T TS a _ _ s Wa H) Ek) as (_ & (I & Kv & S) & Nul).
  destruct (C53_nullity FS T TS a _ _ s Wa (or_intror H)) as (rk & Erk & Enu & _).
  destruct (C53_rank FS T TS a _ _ s Wa (or_intror H)) as (rk' & Erk' & _ & Lrk & _). rewrite Erk in Erk'. injection Erk' as <-.
  rewrite Enu in Nul. injection Nul as Nul. destruct (C71_inverse FS T TS a N s Wa H) as [_ CI].
  split; [split|].
  - intros Rk. apply CI in Rk. assert (Iv : invertible N (fun i j => coeff (r j) (ms i))) by (apply (invertible_ext N (ent a)); [intros i j Hi Hj; apply Ma; assumption|exact Rk]).
    destruct (mult_inverse lt laws n N (map val out) (val f) r ms Vo Std Inj Rf Iv) as (h & Vh & Ih).
    exists h. split; [exact Vh|]. apply SI. exact Ih.
  - intros (h & Vh & Ih). apply SI in Ih. rewrite Erk. f_equal. destruct vs as [|v vs]; [cbn in Nul; lia|]. exfalso.
    inversion Kv as [|? ? Kv1 _]; subst. apply X in Kv1. pose proof (inverse_injective lt laws n N (map val out) (val f) r ms GB Std Inj Rf h Ih _ Kv1) as Z.
    apply (F_1_neq_0 (kth K)). apply (I (fun k => if Nat.eqb k 0 then k1 else k0)) with (k := 0); [|cbn; lia]. intros i Hi. unfold lcomb.
    rewrite (sumn_ext _ _ (fun _ => k0)).
    + apply sumn_zero'. reflexivity.
    + intros k Hk. destruct k as [|k]; cbn [Nat.eqb nth map]; [rewrite (Z i Hi)|]; ring.
  - assert (Y : vs <> [] <-> exists w, in_kernel N N (fun i j => coeff (r j) (ms i)) w /\ exists i, i < N /\ w i <> k0).
    { split.
      - intros Nv. destruct vs as [|v vs]; [contradiction|]. inversion Kv as [|? ? Kv1 _]; subst. exists (vec_of FS v). split; [apply X; exact Kv1|].
        assert (D : (exists i, i < N /\ vec_of FS v i <> k0) \/ forall i, i < N -> vec_of FS v i = k0).
        { generalize (vec_of FS v) as w. intros w. generalize N as c. clear. induction c as [|c IH]; [right; intros; lia|]. destruct IH as [(i & Hi & Q)|IH]; [left; exists i; auto|].
          destruct (kdec (w c) k0) as [Z|Z]; [right|left; exists c; auto]. intros i Hi. destruct (Nat.eq_dec i c) as [->|]; [exact Z|apply IH; lia]. }
        destruct D as [D|D]; [exact D|]. exfalso. apply (F_1_neq_0 (kth K)). apply (I (fun k => if Nat.eqb k 0 then k1 else k0)) with (k := 0); [|cbn; lia]. intros i Hi. unfold lcomb.
        rewrite (sumn_ext _ _ (fun _ => k0)).
        + apply sumn_zero'. reflexivity.
        + intros k Hk. destruct k as [|k]; cbn [Nat.eqb nth map]; [rewrite (D i Hi)|]; ring.
      - intros (w & Kw & i & Hi & Nw) ->. apply X in Kw. destruct (S w Kw) as (c & Hc). apply Nw. rewrite (Hc i Hi). reflexivity. }
    rewrite Y, (mult_zero_divisor lt laws n N (map val out) (val f) r ms GB Vo Std Inj Rf).
    split; intros (h & Vh & Nh & Ih); exists h; (split; [exact Vh|]); split; try (intros Q; apply Nh); apply SI; assumption.
Qed.
End PropModular.

(** ** The ideal of x^2 - y, x y - 1, y^2 - x ([ex_sy]), with standard monomials 1, x, y *)
Notation RR := (rat_impl Debug).
Definition ex_md_ms : list mono := [canon []; canon [1]; canon [0; 1]].
Example C136_ex_groebner : groebner (olt grlex_spec) (map (ip rat_spec) ex_sy).
Proof. destruct (algorithm_run rat_spec grlex_spec 30 ex_sy ex_sy (proj1 C135_ex_clean) (proj2 C135_ex_clean) C135_ex_output) as (_ & _ & G & _). exact G. Qed.
Lemma ex_md_lead (g : poly RR) t : pwf rat_spec g -> leading_term (grlex_cmp Debug) g = Ok (Some t) -> is_lm (olt grlex_spec) (ip rat_spec g) (canon (tdeg t)).
Proof. intros W E. apply (proj1 (C31_clean rat_spec grlex_spec g W) t E). Qed.
Example ex_md_lm0 : is_lm (olt grlex_spec) (ip rat_spec (nth 0 ex_sy [])) (canon [2]).
Proof. apply (ex_md_lead _ (ex_t 1 1 [2])); [apply ex_clean; reflexivity|reflexivity]. Qed.
Example ex_md_lm1 : is_lm (olt grlex_spec) (ip rat_spec (nth 1 ex_sy [])) (canon [1; 1]).
Proof. apply (ex_md_lead _ (ex_t 1 1 [1; 1])); [apply ex_clean; reflexivity|reflexivity]. Qed.
Example ex_md_lm2 : is_lm (olt grlex_spec) (ip rat_spec (nth 2 ex_sy [])) (canon [0; 2]).
Proof. apply (ex_md_lead _ (ex_t 1 1 [0; 2])); [apply ex_clean; reflexivity|reflexivity]. Qed.
Lemma ex_md_div (l : list nat) m : mdiv (canon l) m <-> forall i, nth i l 0 <= mexp m i.
Proof. split; intros H i; specialize (H i); rewrite canon_exp in *; exact H. Qed.
Example C136_ex_std : forall m, In m ex_md_ms <-> std (olt grlex_spec) 2 (map (ip rat_spec) ex_sy) m.
Proof.
  assert (D2 : forall m, mvars 2 m -> forall l0 l1, mdiv (canon [l0; l1]) m <-> l0 <= mexp m 0 /\ l1 <= mexp m 1).
  { intros m V l0 l1. rewrite ex_md_div. split; [intros H; split; [apply (H 0)|apply (H 1)]|]. intros [A B] [|[|i]]; cbn; [exact A|exact B|destruct i; lia]. }
  assert (S : forall m, std (olt grlex_spec) 2 (map (ip rat_spec) ex_sy) m <-> mvars 2 m /\ ~ (2 <= mexp m 0) /\ ~ (1 <= mexp m 0 /\ 1 <= mexp m 1) /\ ~ (2 <= mexp m 1)).
  { intros m. split.
    - intros [V N]. split; [exact V|]. split; [|split]; intros H.
      + apply (N _ _ (or_introl eq_refl) ex_md_lm0). apply ex_md_div. intros [|i]; [exact H|destruct i; cbn; lia].
      + apply (N _ _ (or_intror (or_introl eq_refl)) ex_md_lm1). apply D2; assumption.
      + apply (N _ _ (or_intror (or_intror (or_introl eq_refl))) ex_md_lm2). apply D2; [exact V|lia].
    - intros (V & N0 & N1 & N2). split; [exact V|]. intros g l [<-|[<-|[<-|[]]]] Lg D.
      + rewrite (is_lm_unique _ (olaws _ grlex_spec) _ _ _ Lg ex_md_lm0) in D. apply N0. exact (proj1 (ex_md_div _ _) D 0).
      + rewrite (is_lm_unique _ (olaws _ grlex_spec) _ _ _ Lg ex_md_lm1) in D. apply N1. apply D2 in D; assumption.
      + rewrite (is_lm_unique _ (olaws _ grlex_spec) _ _ _ Lg ex_md_lm2) in D. apply N2. apply D2 in D; [apply D|exact V]. }
  intros m. rewrite S. split.
  - intros [<-|[<-|[<-|[]]]].
    + split; [apply mvars_one|]. rewrite !mone_exp. lia.
    + split; [apply (mvar_vars 2 0 1); lia|]. rewrite !canon_exp. cbn. lia.
    + split; [apply (mvar_vars 2 1 1); lia|]. rewrite !canon_exp. cbn. lia.
  - intros (V & N0 & N1 & N2). assert (E : m = canon [mexp m 0; mexp m 1]) by (apply mono_ext; intros [|[|i]]; rewrite canon_exp; cbn; [reflexivity|reflexivity|destruct i; apply V; lia]).
    assert (C : (mexp m 0 = 0 /\ mexp m 1 = 0) \/ (mexp m 0 = 1 /\ mexp m 1 = 0) \/ (mexp m 0 = 0 /\ mexp m 1 = 1)) by lia.
    destruct C as [[A B]|[[A B]|[A B]]]; rewrite A, B in E; rewrite E; [left|right; left|right; right; left]; apply mono_ext; intros [|[|i]]; rewrite ?mone_exp, ?canon_exp; cbn; try reflexivity; destruct i; reflexivity.
Qed.
(** the powers 1, x, x^2, x^3: the only relation is x^3 - 1 *)
Definition ex_md_fs : list (poly RR) := [[ex_t 1 1 []]; [ex_t 1 1 [1]]; [ex_t 1 1 [2]]; [ex_t 1 1 [3]]].
Definition ex_md_rs : list (poly RR) := [[ex_t 1 1 []]; [ex_t 1 1 [1]]; [ex_t 1 1 [0; 1]]; [ex_t 1 1 []]].
Definition ex_md_a : mat RR := ex_mat 3 4 [(1,1);(0,1);(0,1);(1,1);(0,1);(1,1);(0,1);(0,1);(0,1);(0,1);(1,1);(0,1)]%Z.
Definition ex_md_form : form (F:=RR) := mkform (ex_mat 3 3 [(1,1);(0,1);(0,1);(0,1);(1,1);(0,1);(0,1);(0,1);(1,1)]%Z) ex_md_a.
(** the coefficient at a multidegree by comparing lists *)
Fixpoint list_coeff (p : poly RR) (l : mdeg) : Qc :=
  match p with [] => 0%Qc | t :: p' => if list_eq_dec Nat.eq_dec (tdeg t) l then den rat_spec (coef t) else list_coeff p' l end.
Lemma list_coeff_ok p l : pwf rat_spec p -> canonical l -> coeff (ip rat_spec p) (canon l) = list_coeff p l.
Proof.
  intros W C. induction p as [|t p IH]; [reflexivity|]. cbn [list_coeff].
  destruct W as [W ND]. inversion W as [|? ? Wt Wp]; subst. inversion ND as [|? ? Nt NDp]; subst. specialize (IH (conj Wp NDp)).
  rewrite ip_cons, coeff_add. unfold it. rewrite coeff_pterm. destruct (list_eq_dec Nat.eq_dec (tdeg t) l) as [<-|N].
  - destruct (mono_dec (canon (tdeg t)) (canon (tdeg t))) as [_|X]; [|contradiction].
    destruct (kdec (coeff (ip rat_spec p) (canon (tdeg t))) k0) as [Z|Z]; [rewrite Z; apply Qcplus_0_r|]. exfalso. apply Nt.
    apply (pwf_support rat_spec p _ (conj Wp NDp)) in Z as (u & Iu & Eu). apply in_map_iff. exists u. split; [|exact Iu].
    apply canon_inj; [|apply Wt|exact Eu]. apply (proj1 (Forall_forall _ _) Wp u Iu).
  - rewrite IH. destruct (mono_dec (canon (tdeg t)) (canon l)) as [E|_]; [|apply Qcplus_0_l].
    exfalso. apply N. apply canon_inj; [apply Wt|exact C|exact E].
Qed.
Definition ex_md_qs : list (poly RR) := [[ex_t 1 1 [1]; ex_t (-1) 1 []]; [ex_t (-1) 1 [1]; ex_t 1 1 [0; 1]]; [ex_t (-1) 1 [0; 1]; ex_t 1 1 []]].
Ltac entry := cbn [nth ex_md_ms ex_md_rs ex_md_qs]; rewrite list_coeff_ok; [unfold list_coeff; cbn [tdeg ex_t];
  repeat (match goal with |- context [list_eq_dec Nat.eq_dec ?x ?y] => destruct (list_eq_dec Nat.eq_dec x y) as [EE|EE]; [try discriminate EE|try (exfalso; apply EE; reflexivity)] end);
  apply Qc_is_canon; reflexivity|apply ex_clean; reflexivity|discriminate].
Example C136_ex_powers : Forall (pwf rat_spec) ex_md_fs /\ remainders (O:=grlex_cmp Debug) ex_sy ex_md_fs ex_md_rs /\ covers ex_md_ms ex_md_rs /\
  coefficient_matrix rat_spec ex_md_ms ex_md_rs ex_md_a /\ rref_of RT ex_md_a ex_md_form /\
  compute_kernel RT ex_md_form = Ok [ex_mat 4 1 [(-1,1);(0,1);(0,1);(1,1)]%Z].
Proof.
  split; [repeat (apply Forall_cons || apply Forall_nil); apply ex_clean; reflexivity|].
  split; [repeat (apply Forall2_cons || apply Forall2_nil); exists 20; eexists; reflexivity|].
  split; [intros r t [<-|[<-|[<-|[<-|[]]]]] [<-|[]]; [left|right; left|right; right; left|left]; apply mono_ext; intros i; rewrite !canon_exp; reflexivity|].
  split; [split; [split; [apply ex_mat_ok; reflexivity|split; reflexivity]|]|].
  { intros i j Hi Hj. destruct i as [|[|[|i]]]; [..|exfalso; cbn in Hi; lia]; (destruct j as [|[|[|[|j]]]]; [..|exfalso; cbn in Hj; lia]); entry. }
  split; [apply ex_rref_of; reflexivity|reflexivity].
Qed.
(** x - 1: multiplication has rank 2, and 1 + x + y is annihilated *)
Definition ex_md_gs : list (poly RR) := [[ex_t 1 1 [1]; ex_t (-1) 1 []]; [ex_t 1 1 [2]; ex_t (-1) 1 [1]]; [ex_t 1 1 [1; 1]; ex_t (-1) 1 [0; 1]]].
Definition ex_md_m : mat RR := ex_mat 3 3 [(-1,1);(0,1);(1,1);(1,1);(-1,1);(0,1);(0,1);(1,1);(-1,1)]%Z.
Definition ex_md_mform : form (F:=RR) := mkform (ex_mat 3 3 [(0,1);(1,1);(1,1);(0,1);(0,1);(1,1);(1,1);(1,1);(1,1)]%Z)
  (ex_mat 3 3 [(1,1);(0,1);(-1,1);(0,1);(1,1);(-1,1);(0,1);(0,1);(0,1)]%Z).
Example C136_ex_multiplication : Forall (pwf rat_spec) ex_md_gs /\ NoDup ex_md_ms /\
  (forall j, j < 3 -> peq (ip rat_spec (nth j ex_md_gs [])) (pmul (ip rat_spec [ex_t 1 1 [1]; ex_t (-1) 1 []]) (pterm k1 (nth j ex_md_ms mone)))) /\
  remainders (O:=grlex_cmp Debug) ex_sy ex_md_gs ex_md_qs /\ coefficient_matrix rat_spec ex_md_ms ex_md_qs ex_md_m /\
  rref_of RT ex_md_m ex_md_mform /\ form_rank RT ex_md_mform = Ok 2 /\ compute_kernel RT ex_md_mform = Ok [ex_mat 3 1 [(1,1);(1,1);(1,1)]%Z].
Proof.
  split; [repeat (apply Forall_cons || apply Forall_nil); apply ex_clean; reflexivity|].
  split.
  { assert (A : mone <> canon [1]) by (intros E; apply (f_equal (fun m => mexp m 0)) in E; rewrite mone_exp, canon_exp in E; discriminate).
    assert (B : mone <> canon [0; 1]) by (intros E; apply (f_equal (fun m => mexp m 1)) in E; rewrite mone_exp, canon_exp in E; discriminate).
    assert (C : canon [1] <> canon [0; 1]) by (intros E; apply (f_equal (fun m => mexp m 0)) in E; rewrite !canon_exp in E; discriminate).
    change mone with (canon []) in A, B. unfold ex_md_ms. repeat (apply NoDup_cons || apply NoDup_nil); intros H; cbn [In] in H; intuition congruence. }
  split.
  { intros [|[|[|j]]] Hj; [..|lia]; intros phi; cbn [nth ex_md_gs ex_md_ms]; reflexivity. }
  split; [repeat (apply Forall2_cons || apply Forall2_nil); exists 20; eexists; reflexivity|].
  split; [split; [split; [apply ex_mat_ok; reflexivity|split; reflexivity]|]|].
  { intros i j Hi Hj. destruct i as [|[|[|i]]]; [..|exfalso; cbn in Hi; lia]; (destruct j as [|[|[|j]]]; [..|exfalso; cbn in Hj; lia]); entry. }
  split; [apply ex_rref_of; reflexivity|split; reflexivity].
Qed.
Print Assumptions C136_relations.
Print Assumptions C136_independent.
Print Assumptions C136_powers.
Print Assumptions C136_multiplication.
