(** * C150: pairs whose S-polynomials need not be looked at

    Buchberger's second criterion.  The S-polynomial of a pair need not be reduced when the pair is joined by a path of settled pairs (their
    S-polynomials leave remainder zero, or their leading terms are coprime) through polynomials whose leading terms divide the least common
    multiple of the two: buchberger_criterion, which reduces every S-polynomial, accepts such a list. *)
From Coq Require Import ZArith.
From Verif Require Import Base BaseLemmas IntModel RatModel FieldIface RatProofs MDegModel OrdModel PolyModel CompModel
  MonoSpec MDegProofs OrdProofs LinSpec PolySpec PolyProofs GroebnerSpec DivProofs DivSpec GbProofs CompMono PropPoly PropDiv PropGb IdealSpec PropIdeal SubstSpec StdSpec PropIdealOps PropStd HilbertSpec DimSpec PropHilbert PropDim PropCoprime ChainSpec.
From Coq Require Import Ring Field Setoid Morphisms.
Import ListNotations.
Local Open Scope nat_scope.

Section Chain.
Context {F : FieldImpl} {K : MathField} (FS : FieldSpec F K) {O : ord_impl} (OS : OrderSpec O).
Add Ring Pr91 : (@poly_ring K) (setoid (@peq_equiv K) (@poly_ring_ext K)).
Notation term := (term F).
Notation poly := (poly F).
Notation val := (ip FS).
Notation clean := (pwf FS).
Notation mon t := (canon (tdeg t)).
Notation LM := (is_lm (olt OS)).
Let laws := olaws _ OS.

(** u divides the least common multiple of s and t *)
Definition divides_lcm (u s t : term) : Prop := forall k, nth k (tdeg u) 0 <= Nat.max (nth k (tdeg s) 0) (nth k (tdeg t) 0).
(** the S-polynomial of the i-th and the k-th leaves remainder zero *)
Definition reduces (gens : list poly) (i k : nat) : Prop := exists gi gk s fuel qs, nth_error gens i = Some gi /\ nth_error gens k = Some gk /\
  try_reduce Debug O gi gk = Ok (Some s) /\ divide Debug O fuel s gens = Ok ([], qs).
Definition settled (gens : list poly) (ts : list term) (i k : nat) : Prop :=
  reduces gens i k \/ reduces gens k i \/ exists s t, nth_error ts i = Some s /\ nth_error ts k = Some t /\ coprime s t.
(** every pair is joined by a path of settled pairs below its least common multiple *)
Definition joined (gens : list poly) (ts : list term) : Prop := forall i j s t, j < i -> nth_error ts i = Some s -> nth_error ts j = Some t ->
  path (fun k => exists u, nth_error ts k = Some u /\ divides_lcm u s t) (settled gens ts) i j.

Lemma reduces_rep gens n i k g h l l' : Forall clean gens -> (forall x, In x (map val gens) -> svars n x) -> reduces gens i k ->
  nth_error gens i = Some g -> nth_error gens k = Some h -> LM (val g) l -> LM (val h) l' ->
  rep (olt OS) (map val gens) n (fun m => olt OS m (mlcm l l')) (spol (val g) l (val h) l').
Proof.
  intros W V (gi & gk & s & fuel & qs & E1 & E2 & Es & Ed) Eg Eh Lg Lh. rewrite E1 in Eg. injection Eg as ->. rewrite E2 in Eh. injection Eh as ->.
  assert (Ig : In g gens) by (eapply nth_error_In; exact E1). assert (Ih : In h gens) by (eapply nth_error_In; exact E2).
  pose proof (try_reduce_ok FS OS g h ltac:(rewrite Forall_forall in W; auto) ltac:(rewrite Forall_forall in W; auto)) as S. rewrite Es in S.
  destruct S as (Ws & a & b & La & Lb & Ep). rewrite (is_lm_unique _ laws _ _ _ La Lg), (is_lm_unique _ laws _ _ _ Lb Lh) in Ep.
  destruct (divide_run FS OS fuel s gens [] qs Ws W Ed) as (_ & _ & D).
  eapply (pair_rep OS); try (apply in_map; assumption); try assumption; [|reflexivity].
  apply (div_ok_eq OS _ _ _ _ _ Ep) in D. exact D.
Qed.
Lemma chain_groebner gens ts : Forall clean gens -> leads O gens ts -> joined gens ts -> groebner (olt OS) (map val gens).
Proof.
  intros W Ld J. pose proof (leads_lm FS OS gens ts W Ld) as H. destruct (svars_all (map val gens)) as (n & V).
  assert (HL : forall i g, nth_error (map val gens) i = Some g -> exists g0 t, nth_error gens i = Some g0 /\ nth_error ts i = Some t /\ g = val g0 /\ LM g (mon t)).
  { intros i g E. rewrite nth_error_map in E. destruct (nth_error gens i) as [g0|] eqn:E0; [|discriminate E]. injection E as <-.
    destruct (GbProofs.Forall2_nth _ _ _ _ _ H E0) as (t & Et & Lt). exists g0, t. auto. }
  assert (VL : forall i g (t : term), nth_error (map val gens) i = Some g -> LM g (mon t) -> mvars n (mon t)).
  { intros i g t E Lg. apply (V g); [eapply nth_error_In; exact E|apply Lg]. }
  apply (all_pairs_groebner OS _ n V). intros i j Hi Hj gi gj l l' Ei Ej Li Lj.
  destruct (HL _ _ Ei) as (g & s & Gi & Si & _ & Ls). destruct (HL _ _ Ej) as (h & t & Gj & Tj & _ & Lt).
  rewrite (is_lm_unique _ laws _ _ _ Li Ls), (is_lm_unique _ laws _ _ _ Lj Lt). specialize (J i j s t Hj Si Tj).
  assert (N : forall k u, nth_error ts k = Some u -> nth_error (map (fun t : term => mon t) ts) k = Some (mon u)) by (intros k u E; rewrite nth_error_map, E; reflexivity).
  assert (P : path (fun k => exists x m, nth_error (map val gens) k = Some x /\ nth_error (map (fun t : term => mon t) ts) k = Some m /\ mdiv m (mlcm (mon s) (mon t)))
                (settled gens ts) i j).
  { clear - J H N. induction J as [k (u & Eu & Du)|k k' j (u & Eu & Du) R _ IH].
    - constructor 1. assert (X : k < length gens) by (rewrite (Forall2_len _ _ _ H); apply nth_error_Some; congruence).
      destruct (nth_error gens k) as [x|] eqn:Ex; [|apply nth_error_None in Ex; lia]. exists (val x), (mon u). rewrite nth_error_map, Ex. split; [reflexivity|]. split; [apply N; exact Eu|].
      intros v. rewrite mlcm_exp, !canon_exp. apply Du.
    - econstructor 2; [|exact R|exact IH]. assert (X : k < length gens) by (rewrite (Forall2_len _ _ _ H); apply nth_error_Some; congruence).
      destruct (nth_error gens k) as [x|] eqn:Ex; [|apply nth_error_None in Ex; lia]. exists (val x), (mon u). rewrite nth_error_map, Ex. split; [reflexivity|]. split; [apply N; exact Eu|].
      intros v. rewrite mlcm_exp, !canon_exp. apply Du. }
  pose proof (path_rep (olt OS) laws (map val gens) n (map (fun t : term => mon t) ts) (mlcm (mon s) (mon t)) (settled gens ts)) as Q.
  eapply Q; [|apply mvars_lcm; [exact (VL i gi s Ei Ls)|exact (VL j gj t Ej Lt)]|exact P|exact Ei|apply N; exact Si|exact Ej|apply N; exact Tj].
  clear - W V HL laws N. intros i k g l h l' R Eg El Eh El'. destruct (HL _ _ Eg) as (g0 & s & Gi & Si & -> & Ls). destruct (HL _ _ Eh) as (h0 & t & Gj & Tj & -> & Lt).
  rewrite (N _ _ Si) in El. injection El as <-. rewrite (N _ _ Tj) in El'. injection El' as <-.
  destruct R as [R|[R|(s' & t' & E1 & E2 & C)]].
  - eapply reduces_rep; eassumption.
  - rewrite (spol_sym (val g0) _ (val h0) _). apply rep_opp. rewrite (mlcm_comm (mon s)). eapply reduces_rep; eassumption.
  - rewrite Si in E1. injection E1 as <-. rewrite Tj in E2. injection E2 as <-.
    apply (coprime_rep _ laws); auto; try (eapply nth_error_In; eassumption); try (apply V; eapply nth_error_In; eassumption).
    intros v. rewrite !canon_exp. apply C.
Qed.

(** ** C150 *)
Theorem C150_groebner : forall gens ts, Forall clean gens -> leads O gens ts -> joined gens ts ->
  (forall f m, in_ideal (map val gens) f -> LM f m -> exists t, In t ts /\ forall i, nth i (tdeg t) 0 <= mexp m i) /\
  evs (fun fuel => buchberger_criterion Debug O fuel gens) (fun b => b = true).
Proof.
  intros gens ts W Ld C. pose proof (chain_groebner gens ts W Ld C) as GB. split.
  - intros f m I Lm. destruct (GB f m I Lm) as (g & l & Ig & Lg & D). apply in_map_iff in Ig as (g0 & <- & Ig). apply In_nth_error in Ig as (i & Gi).
    destruct (GbProofs.Forall2_nth _ _ _ _ _ (leads_lm FS OS gens ts W Ld) Gi) as (t & Ti & Lt). exists t. split; [eapply nth_error_In; exact Ti|].
    intros k. rewrite (is_lm_unique _ laws _ _ _ Lg Lt) in D. specialize (D k). rewrite canon_exp in D. exact D.
  - eapply evs_mono; [apply (criterion_ok FS OS gens W (leads_nonzero _ _ Ld))|]. intros b H. apply H. exact GB.
Qed.
(** no S-polynomial of such a list leaves a remainder *)
Theorem C150_pair : forall gens ts fuel g h p r qs, Forall clean gens -> leads O gens ts -> joined gens ts -> In g gens -> In h gens ->
  try_reduce Debug O g h = Ok (Some p) -> divide Debug O fuel p gens = Ok (r, qs) -> r = [].
Proof.
  intros gens ts fuel g h p r qs W Ld J Ig Ih Ep Er. pose proof (chain_groebner gens ts W Ld J) as GB. pose proof W as W'. rewrite Forall_forall in W'.
  pose proof (try_reduce_ok FS OS g h (W' g Ig) (W' h Ih)) as S. rewrite Ep in S. destruct S as (Wp & l & l' & Ll & Ll' & Es).
  destruct (divide_run FS OS fuel p gens r qs Wp W Er) as (Wr & _ & D). apply (pwf_zero_iff FS r Wr). apply (reduced_ideal_zero _ laws (map val gens)); [exact GB| |apply D].
  assert (E : peq (val r) (psub (val p) (psub (val p) (val r)))) by ring. rewrite E. apply in_ideal_sub; [|eapply div_ok_ideal; exact D].
  rewrite Es. apply spol_ideal; apply in_map; assumption.
Qed.
(** the form with one polynomial between: three polynomials, two S-polynomials *)
Theorem C150_triple : forall g u h s t v p q fuel qs fuel' qs', Forall clean [g; u; h] -> leads O [g; u; h] [s; t; v] -> divides_lcm t s v ->
  try_reduce Debug O g u = Ok (Some p) -> divide Debug O fuel p [g; u; h] = Ok ([], qs) ->
  try_reduce Debug O u h = Ok (Some q) -> divide Debug O fuel' q [g; u; h] = Ok ([], qs') ->
  evs (fun fuel => buchberger_criterion Debug O fuel [g; u; h]) (fun b => b = true).
Proof.
  intros g u h s t v p q fuel qs fuel' qs' W Ld D Ep Edp Eq Edq. apply (C150_groebner [g; u; h] [s; t; v] W Ld).
  assert (R1 : reduces [g; u; h] 0 1) by (exists g, u, p, fuel, qs; auto). assert (R2 : reduces [g; u; h] 1 2) by (exists u, h, q, fuel', qs'; auto).
  assert (S1 : settled [g; u; h] [s; t; v] 1 0) by (right; left; exact R1). assert (S2 : settled [g; u; h] [s; t; v] 2 1) by (right; left; exact R2).
  intros i j a b Lt Ei Ej. destruct i as [|[|[|i]]]; [lia| | |destruct i; discriminate Ei].
  - replace j with 0 in * by lia. cbn in Ei, Ej. injection Ei as <-. injection Ej as <-.
    econstructor 2; [|exact S1|constructor 1]; eexists; (split; [reflexivity|]); intros k; lia.
  - destruct j as [|[|j]]; [| |lia]; cbn in Ei, Ej; injection Ei as <-; injection Ej as <-.
    + econstructor 2; [|exact S2|econstructor 2; [|exact S1|constructor 1]]; eexists; (split; [reflexivity|]); intros k; specialize (D k); lia.
    + econstructor 2; [|exact S2|constructor 1]; eexists; (split; [reflexivity|]); intros k; lia.
Qed.
End Chain.

(** ** Concrete cases *)
(** x^2 y - y^2, x y^2 - y z, y^3 - x y z with GRevLex: the leading terms x^2 y and y^3 have y in common, x y^2 divides x^2 y^3 *)
Definition cg1 : poly RR := [ex_t 1 1 [2; 1]; ex_t (-1) 1 [0; 2]].
Definition cg2 : poly RR := [ex_t 1 1 [1; 2]; ex_t (-1) 1 [0; 1; 1]].
Definition cg3 : poly RR := [ex_t 1 1 [0; 3]; ex_t (-1) 1 [1; 1; 1]].
Definition cs12 : poly RR := [ex_t (-1) 1 [0; 3]; ex_t 1 1 [1; 1; 1]].
Definition cs23 : poly RR := [ex_t (-1) 1 [0; 2; 1]; ex_t 1 1 [2; 1; 1]].
Notation GRL := (grevlex_cmp Debug).
Example C150_ex_hyps : Forall (pwf rat_spec) [cg1; cg2; cg3] /\ leads GRL [cg1; cg2; cg3] [ex_t 1 1 [2; 1]; ex_t 1 1 [1; 2]; ex_t 1 1 [0; 3]] /\
  divides_lcm (F := RR) (ex_t 1 1 [1; 2]) (ex_t 1 1 [2; 1]) (ex_t 1 1 [0; 3]) /\ ~ coprime (F := RR) (ex_t 1 1 [2; 1]) (ex_t 1 1 [0; 3]).
Proof.
  split; [repeat (constructor; [apply ex_clean; reflexivity|]); constructor|]. split; [repeat constructor|].
  split; [intros [|[|k]]; cbn; try lia; destruct k; lia|]. intros C. destruct (C 1) as [H|H]; discriminate H.
Qed.
Example C150_ex_reduces : try_reduce Debug GRL cg1 cg2 = Ok (Some cs12) /\ divide Debug GRL 20 cs12 [cg1; cg2; cg3] = Ok ([], [[]; []; [ex_t (-1) 1 []]]) /\
  try_reduce Debug GRL cg2 cg3 = Ok (Some cs23) /\ divide Debug GRL 20 cs23 [cg1; cg2; cg3] = Ok ([], [[ex_t 1 1 [0; 0; 1]]; []; []]).
Proof. repeat split; reflexivity. Qed.
(** the third S-polynomial is not looked at *)
Example C150_ex_triple : evs (fun fuel => buchberger_criterion Debug GRL fuel [cg1; cg2; cg3]) (fun b => b = true).
Proof.
  destruct C150_ex_hyps as (W & Ld & D & _). destruct C150_ex_reduces as (E1 & E2 & E3 & E4).
  exact (C150_triple rat_spec grevlex_spec cg1 cg2 cg3 _ _ _ _ _ _ _ _ _ W Ld D E1 E2 E3 E4).
Qed.
Example C150_ex_criterion : buchberger_criterion Debug GRL 20 [cg1; cg2; cg3] = Ok true.
Proof. reflexivity. Qed.
(** the middle one has to divide the least common multiple: w is coprime to x y and to x z, and x y - 1, w, x z is no Groebner basis *)
Example C150_ex_apart : let gens : list (poly RR) := [[ex_t 1 1 [1; 1]; ex_t (-1) 1 []]; [ex_t 1 1 [0; 0; 0; 1]]; [ex_t 1 1 [1; 0; 1]]] in
  (forall k, nth k [1; 1] 0 = 0 \/ nth k [0; 0; 0; 1] 0 = 0) /\ (forall k, nth k [0; 0; 0; 1] 0 = 0 \/ nth k [1; 0; 1] 0 = 0) /\ buchberger_criterion Debug GRL 20 gens = Ok false.
Proof. split; [intros [|[|[|[|[|k]]]]]; cbn; auto|]. split; [intros [|[|[|[|[|k]]]]]; cbn; auto|reflexivity]. Qed.

Print Assumptions C150_groebner.
Print Assumptions C150_pair.
Print Assumptions C150_triple.
