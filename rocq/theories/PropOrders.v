(** * C152: orders which agree

    What depends on the order depends on it through the comparisons that are made.  A list on which two orders pick the same leading terms is a
    Groebner basis for both or for neither, and leaves the same remainders; orders that compare the degrees in n variables alike give the same
    results, panics included: in one variable all four, in two variables GrLex and GRevLex. *)
From Coq Require Import ZArith QArith Qcanon.
From Verif Require Import Base BaseLemmas IntModel RatModel FieldIface RatProofs MDegModel OrdModel PolyModel CompModel
  MonoSpec MDegProofs OrdProofs LinSpec PolySpec PolyProofs GroebnerSpec DivProofs DivSpec GbProofs CompMono PropPoly PropDiv PropGb IdealSpec PropIdeal SubstSpec StdSpec PropIdealOps PropStd HilbertSpec DimSpec PropHilbert PropDim PropCoprime RewriteSpec
  Param ParamDeg RenameProofs PropRename.
From Coq Require Import Ring Field Setoid Morphisms Permutation.
Import ListNotations.
Local Open Scope nat_scope.

(** ** the mathematics *)
Section Math.
Context {K : MathField} (lt lt' : mono -> mono -> Prop) (L : mono_order_laws lt) (L' : mono_order_laws lt').
Notation spoly := (spoly K).
Definition same_lms (G : list spoly) : Prop := forall g l, In g G -> (is_lm lt g l <-> is_lm lt' g l).
Lemma step_iff G f f' : same_lms G -> (step lt G f f' <-> step lt' G f f').
Proof. intros H. split; intros (g & l & w & I & Lg & X); exists g, l, w; (split; [exact I|]; split; [apply (H g l I); exact Lg|exact X]). Qed.
Lemma steps_iff G f f' : same_lms G -> (steps lt G f f' <-> steps lt' G f f').
Proof.
  intros H. split; induction 1 as [f h E|f f1 h S _ IH]; try (apply st_done; exact E); apply st_step with f1; auto; apply (step_iff G f f1 H); exact S.
Qed.
Lemma groebner_iff G : same_lms G -> (groebner lt G <-> groebner lt' G).
Proof.
  intros H. rewrite <- (one_end_iff lt L G), <- (one_end_iff lt' L' G). unfold one_end, irreducible.
  split; intros U f h h' S S' J J'; apply (U f h h'); try (apply (steps_iff G _ _ H); assumption); intros x X; [apply (J x)|apply (J' x)|apply (J x)|apply (J' x)]; apply (step_iff G _ _ H); exact X.
Qed.
Lemma reduced_iff G r : same_lms G -> (reduced lt G r <-> reduced lt' G r).
Proof. intros H. split; intros R m N g l I Lg; apply (R m N g l I); apply (H g l I); exact Lg. Qed.
Lemma inter_reduced_imp G : same_lms G -> inter_reduced lt G -> inter_reduced lt' G.
Proof. intros H [A B]. split; [exact A|]. intros i j gi gj l m N Ei Ej Lj. apply (B i j gi gj l m N Ei Ej). apply (H gj l); [eapply nth_error_In; exact Ej|exact Lj]. Qed.
End Math.

Section Local.
Context {F : FieldImpl} {K : MathField} (FS : FieldSpec F K) {O O' : ord_impl} (OS : OrderSpec O) (OS' : OrderSpec O').
Notation term := (term F).
Notation poly := (poly F).
Notation val := (ip FS).
Notation clean := (pwf FS).
Notation nonzero := (fun g : poly => g <> []).
Lemma leads_same (gens : list poly) ts : Forall clean gens -> leads O gens ts -> leads O' gens ts -> same_lms (olt OS) (olt OS') (map val gens).
Proof.
  intros W A B g l I. apply in_map_iff in I as (g0 & <- & I). apply In_nth_error in I as (i & Gi).
  destruct (GbProofs.Forall2_nth _ _ _ _ _ (leads_lm FS OS gens ts W A) Gi) as (t & Ti & Lt). destruct (GbProofs.Forall2_nth _ _ _ _ _ (leads_lm FS OS' gens ts W B) Gi) as (t' & Ti' & Lt').
  rewrite Ti in Ti'. injection Ti' as <-. split; intros X.
  - rewrite (is_lm_unique _ (olaws _ OS) _ _ _ X Lt). exact Lt'.
  - rewrite (is_lm_unique _ (olaws _ OS') _ _ _ X Lt'). exact Lt.
Qed.

(** ** C152 *)
(** whether the polynomials are a Groebner basis depends on their leading terms only, and so do the remainders *)
Theorem C152_criterion : forall (gens : list poly) ts fuel fuel' b b', Forall clean gens -> leads O gens ts -> leads O' gens ts ->
  buchberger_criterion Debug O fuel gens = Ok b -> buchberger_criterion Debug O' fuel' gens = Ok b' -> b = b'.
Proof.
  intros gens ts fuel fuel' b b' W A B E E'. pose proof (leads_nonzero gens ts A) as NZ.
  pose proof (evs_run _ _ (fun n n' H => criterion_mono Debug O n n' gens H) (criterion_ok FS OS gens W NZ) fuel b E) as H.
  pose proof (evs_run _ _ (fun n n' H => criterion_mono Debug O' n n' gens H) (criterion_ok FS OS' gens W NZ) fuel' b' E') as H'.
  pose proof (groebner_iff _ _ (olaws _ OS) (olaws _ OS') _ (leads_same gens ts W A B)) as X. cbn beta in H, H'. destruct b, b'; try reflexivity; exfalso.
  - assert (Y : false = true) by (apply H'; apply X; apply H; reflexivity). discriminate Y.
  - assert (Y : false = true) by (apply H; apply X; apply H'; reflexivity). discriminate Y.
Qed.
Theorem C152_remainder : forall (gens : list poly) ts fuel fc f r qs fuel' r' qs', Forall clean gens -> clean f -> leads O gens ts -> leads O' gens ts ->
  buchberger_criterion Debug O fc gens = Ok true -> divide Debug O fuel f gens = Ok (r, qs) -> divide Debug O' fuel' f gens = Ok (r', qs') -> peq (val r) (val r').
Proof.
  intros gens ts fuel fc f r qs fuel' r' qs' W Wf A B Ec E E'. pose proof (leads_nonzero gens ts A) as NZ.
  assert (GB : groebner (olt OS) (map val gens)) by (apply (evs_run _ _ (fun n n' H => criterion_mono Debug O n n' gens H) (criterion_ok FS OS gens W NZ) fc true Ec); reflexivity).
  destruct (divide_nf FS OS fuel f gens r qs Wf W E) as (_ & I & R). destruct (divide_nf FS OS' fuel' f gens r' qs' Wf W E') as (_ & I' & R').
  apply (reduced_iff _ _ _ _ (leads_same gens ts W A B)) in R'. exact (remainder_unique _ (olaws _ OS) (map val gens) (val f) _ _ GB I I' R R').
Qed.
(** a basis computed for one order is the one computed for the other, up to order and factors *)
Theorem C152_algorithm : forall (gens out out' : list poly) ts fuel fuel', Forall clean gens -> Forall nonzero gens ->
  buchberger_algorithm Debug O fuel gens = Ok out -> leads O out ts -> leads O' out ts -> buchberger_algorithm Debug O' fuel' gens = Ok out' ->
  exists out'', Permutation out' out'' /\ Forall2 (fun g h : poly => exists c : K, c <> k0 /\ peq (val g) (pscale c (val h))) out out''.
Proof.
  intros gens out out' ts fuel fuel' W NZ E A B E'. pose proof (algorithm_run FS OS fuel gens out W NZ E) as (Wo & SI & GB & IR).
  pose proof (algorithm_run FS OS' fuel' gens out' W NZ E') as R'. pose proof (leads_same out ts Wo A B) as S.
  assert (R : reduced_gb FS OS' gens out).
  { split; [exact Wo|]. split; [exact SI|]. split; [apply (groebner_iff _ _ (olaws _ OS) (olaws _ OS') _ S); exact GB|exact (inter_reduced_imp _ _ _ S IR)]. }
  apply (reduced_gb_unique FS OS' gens gens out out' R R'). intros f. reflexivity.
Qed.
End Local.

(** ** Orders that compare the degrees in n variables alike *)
(** degrees as the library builds them: entries below 256, no zero at the end *)
Definition within (n : nat) (a : mdeg) : Prop := Forall (fun d => d < 256) a /\ last a 1 <> 0 /\ length a <= n.
Definition agree (n : nat) (O O' : ord_impl) : Prop := forall a b, within n a -> within n b -> O a b = O' a b.
Definition poly_within {F : FieldImpl} (n : nat) (p : poly F) : Prop := Forall (fun t => within n (tdeg t)) p.
Lemma within_wf n a : within n a <-> mwf a /\ forall i, n <= i -> expo a i = 0.
Proof.
  unfold within, mwf, canonical, u8s. split.
  - intros (U & C & Len). split; [split; [exact C|]|apply (canonical_length a n C); exact Len]. eapply Forall_impl; [|exact U]. intros x Hx. cbn in Hx. lia.
  - intros ((C & U) & Z). split; [|split; [exact C|apply (canonical_length a n C); exact Z]]. eapply Forall_impl; [|exact U]. intros x Hx. cbn in Hx. lia.
Qed.
Lemma renamed_id n a a' : renamed_deg n (fun i => i) a a' <-> a = a' /\ within n a.
Proof.
  rewrite within_wf. split.
  - intros (W & W' & Z & E & N). split; [|auto]. apply canonical_ext; [apply W|apply W'|]. intros i. destruct (Nat.lt_ge_cases i n) as [Hi|Hi]; [symmetry; apply E; exact Hi|].
    rewrite Z by exact Hi. symmetry. apply N. intros k Hk. lia.
  - intros (<- & W & Z). split; [exact W|]. split; [exact W|]. split; [exact Z|]. split; [reflexivity|]. intros j H. destruct (Nat.lt_ge_cases j n) as [Hj|Hj]; [destruct (H j Hj eq_refl)|apply Z; exact Hj].
Qed.
Section Same.
Context {F : FieldImpl} (n : nat) {O O' : ord_impl} (A : agree n O O').
Notation id := (fun i : nat => i).
Lemma agree_renamed : order_renamed n id O O'.
Proof. intros a b a' b' Ha Hb. apply renamed_id in Ha as [<- Wa]. apply renamed_id in Hb as [<- Wb]. apply A; assumption. Qed.
Lemma poly_id (p : poly F) : poly_within n p -> renamed n id p p.
Proof. induction 1 as [|t p W _ IH]; constructor; [|exact IH]. split; [reflexivity|apply renamed_id; auto]. Qed.
Lemma list_id (l : list (poly F)) : Forall (poly_within n) l -> Forall2 (renamed n id) l l.
Proof. induction 1; constructor; [apply poly_id|]; assumption. Qed.
Lemma term_back (t t' : term F) : renamed_term n id t t' -> t = t'.
Proof. destruct t, t'. intros [E D]. cbn in E, D. apply renamed_id in D as [<- _]. subst. reflexivity. Qed.
Lemma poly_back (p p' : poly F) : renamed n id p p' -> p = p'.
Proof. induction 1 as [|t t' p p' E _ IH]; [reflexivity|]. f_equal; [apply term_back; exact E|exact IH]. Qed.
Lemma list_back (l l' : list (poly F)) : Forall2 (renamed n id) l l' -> l = l'.
Proof. induction 1 as [|t t' p p' E _ IH]; [reflexivity|]. f_equal; [apply poly_back; exact E|exact IH]. Qed.
Lemma rsame_eq {B : Type} (R : B -> B -> Prop) x y : (forall a b, R a b -> a = b) -> rsame R x y -> x = y.
Proof. intros H. destruct x, y; cbn; try contradiction; intros E; f_equal; auto. Qed.
Theorem C152_same : forall fuel (p q : poly F) (gens : list (poly F)), poly_within n p -> poly_within n q -> Forall (poly_within n) gens ->
  leading_term O p = leading_term O' p /\ sort_terms O p = sort_terms O' p /\ divide Debug O fuel p gens = divide Debug O' fuel p gens /\
  try_reduce Debug O p q = try_reduce Debug O' p q /\ buchberger_criterion Debug O fuel gens = buchberger_criterion Debug O' fuel gens /\
  buchberger_algorithm Debug O fuel gens = buchberger_algorithm Debug O' fuel gens.
Proof.
  intros fuel p q gens Wp Wq Wg. apply poly_id in Wp. apply poly_id in Wq. apply list_id in Wg. pose proof agree_renamed as X. split; [|split; [|split; [|split; [|split]]]].
  - eapply rsame_eq; [|apply (leading_same n id X); exact Wp]. intros [a|] [b|]; cbn; try tauto. intros E. f_equal. apply term_back. exact E.
  - eapply rsame_eq; [|apply (sort_same n id X); exact Wp]. apply poly_back.
  - eapply rsame_eq; [|apply (divide_same n id X); assumption]. intros [a l] [b l'] [E1 E2]. f_equal; [apply poly_back; exact E1|apply list_back; exact E2].
  - eapply rsame_eq; [|apply (try_reduce_same n id X); assumption]. intros [a|] [b|]; cbn; try tauto. intros E. f_equal. apply poly_back. exact E.
  - apply (criterion_same n id X). exact Wg.
  - eapply rsame_eq; [|apply (algorithm_same n id X); exact Wg]. apply list_back.
Qed.
End Same.
(** one variable *)
Definition four (O : ord_impl) : Prop := O = lex_cmp \/ O = revlex_cmp \/ O = grlex_cmp Debug \/ O = grevlex_cmp Debug.
Lemma one_lex O : four O -> agree 1 O lex_cmp.
Proof.
  intros H a b (Ua & Ca & La) (Ub & Cb & Lb).
  assert (S : forall x, (x < 256) -> mdeg_total_deg Debug [x] = Ok x) by (intros x Hx; rewrite total_deg_debug; cbn [list_sum fold_right]; rewrite Nat.add_0_r; destruct (Nat.leb_spec x 255); [reflexivity|lia]).
  assert (Z : mdeg_total_deg Debug [] = Ok 0) by reflexivity.
  destruct a as [|x [|? ?]]; [| |cbn in La; lia]; (destruct b as [|y [|? ?]]; [| |cbn in Lb; lia]); try (inversion Ua; subst); try (inversion Ub; subst); cbn in Ca, Cb;
    destruct H as [-> |[-> |[-> | ->]]]; try reflexivity; unfold lex_cmp, revlex_cmp, grlex_cmp, grevlex_cmp, grad; rewrite ?S, ?Z by assumption; cbn [bind];
    unfold revlex_loop; cbn [mdeg_len length lex_loop combine rev app first_diff Nat.compare]; try (destruct x as [|x]; [lia|]); try (destruct y as [|y]; [lia|]); try reflexivity.
  all: unfold lex_cmp, revlex_cmp, revlex_loop; cbn [mdeg_len length lex_loop combine rev app first_diff Nat.compare bind]; destruct (Nat.compare x y); reflexivity.
Qed.
Theorem C152_one : forall O O', four O -> four O' -> agree 1 O O'.
Proof. intros O O' H H' a b Wa Wb. rewrite (one_lex O H a b Wa Wb), (one_lex O' H' a b Wa Wb). reflexivity. Qed.
(** two variables *)
Theorem C152_two : agree 2 (grlex_cmp Debug) (grevlex_cmp Debug).
Proof.
  intros a b (_ & Ca & La) (_ & Cb & Lb). unfold grlex_cmp, grevlex_cmp, grad, lex_cmp, revlex_cmp. rewrite !total_deg_debug.
  destruct (list_sum a <=? 255); [|reflexivity]. destruct (list_sum b <=? 255); [|reflexivity]. cbn [bind].
  destruct (Nat.compare_spec (list_sum a) (list_sum b)) as [E|E|E]; try reflexivity. f_equal.
  destruct a as [|x [|x2 [|? ?]]]; [| | |cbn in La; lia]; (destruct b as [|y [|y2 [|? ?]]]; [| | |cbn in Lb; lia]); unfold list_sum in E; cbn [fold_right] in E; cbn [last] in Ca, Cb;
    unfold revlex_loop; cbn [mdeg_len length lex_loop combine rev app first_diff Nat.compare]; try lia; try reflexivity;
    destruct (Nat.compare_spec x y); try (destruct (Nat.compare_spec x2 y2)); cbn [CompOpp]; try reflexivity; lia.
Qed.

(** ** Concrete cases *)
Definition o1 : poly RR := [ex_t 1 1 [2]; ex_t (-1) 1 [0; 1]].
Definition o2 : poly RR := [ex_t 1 1 [1; 1]; ex_t (-1) 1 []].
Definition o3 : poly RR := [ex_t 1 1 [0; 2]; ex_t (-1) 1 [1]].
(** x^2 - y, x y - 1, y^2 - x: two variables *)
Example C152_ex_hyps : Forall (pwf rat_spec) [o1; o2; o3] /\ leads (grlex_cmp Debug) [o1; o2; o3] [ex_t 1 1 [2]; ex_t 1 1 [1; 1]; ex_t 1 1 [0; 2]] /\
  leads (grevlex_cmp Debug) [o1; o2; o3] [ex_t 1 1 [2]; ex_t 1 1 [1; 1]; ex_t 1 1 [0; 2]] /\ Forall (poly_within 2) [o1; o2; o3] /\
  buchberger_criterion Debug (grlex_cmp Debug) 20 [o1; o2; o3] = Ok true.
Proof.
  split; [repeat (constructor; [apply ex_clean; reflexivity|]); constructor|]. split; [repeat constructor|]. split; [repeat constructor|]. split; [|reflexivity].
  repeat constructor; try lia; intros H; discriminate H.
Qed.
(** x^2 - y and y^3 - 1: Lex and GrLex agree on the leading terms, but not on the degrees in two variables (x against y^2) *)
Definition o4 : poly RR := [ex_t 1 1 [0; 3]; ex_t (-1) 1 []].
Example C152_ex_local : leads lex_cmp [o1; o4] [ex_t 1 1 [2]; ex_t 1 1 [0; 3]] /\ leads (grlex_cmp Debug) [o1; o4] [ex_t 1 1 [2]; ex_t 1 1 [0; 3]] /\
  lex_cmp [1] [0; 2] = Ok Gt /\ grlex_cmp Debug [1] [0; 2] = Ok Lt /\ buchberger_criterion Debug lex_cmp 20 [o1; o4] = Ok true /\ buchberger_criterion Debug (grlex_cmp Debug) 20 [o1; o4] = Ok true.
Proof. repeat split; try reflexivity; repeat constructor. Qed.
Example C152_ex_algorithm : buchberger_algorithm Debug lex_cmp 20 [o1; o4] = Ok [o1; o4] /\ exists out, buchberger_algorithm Debug (grlex_cmp Debug) 20 [o1; o4] = Ok out.
Proof. split; [reflexivity|]. exists [o1; o4]. reflexivity. Qed.
(** with three variables GrLex and GRevLex part: x z against y^2 *)
Example C152_ex_three : grlex_cmp Debug [1; 0; 1] [0; 2] = Ok Gt /\ grevlex_cmp Debug [1; 0; 1] [0; 2] = Ok Lt.
Proof. split; reflexivity. Qed.
(** with two variables in a release build a wrapped total degree separates them: x^200 y^56 has total degree 0 *)
Example C152_ex_release : grlex_cmp Release [200; 56] [] = Ok Gt /\ grevlex_cmp Release [200; 56] [] = Ok Lt.
Proof. split; reflexivity. Qed.

Print Assumptions C152_criterion.
Print Assumptions C152_remainder.
Print Assumptions C152_algorithm.
Print Assumptions C152_same.
Print Assumptions C152_one.
Print Assumptions C152_two.
