(** * Property C141: GRevLex and the last variable.

    For homogeneous generators in x_0 .. x_n the result of buchberger_algorithm with GRevLex gives, by taking x_n out of its
    elements, Groebner bases of the quotient and of the saturation by x_n, and by adding x_n one of the ideal with x_n = 0. *)
From Coq Require Import ZArith QArith Qcanon.
From Verif Require Import Base BaseLemmas IntModel RatModel FieldIface RatProofs MDegModel OrdModel PolyModel CompModel
  MonoSpec MDegProofs OrdProofs PolySpec PolyProofs GroebnerSpec DivProofs DivSpec GbProofs CompMono PropPoly PropDiv PropGb IdealSpec GradeSpec RewriteSpec LastVarSpec.
From Coq Require Import Lia Ring Field Setoid Morphisms.
Local Open Scope nat_scope.

Section PropLastVar.
Context {F : FieldImpl} {K : MathField} (FS : FieldSpec F K).
Add Field Kf76 : (kth K).
Add Ring Pr76 : (@poly_ring K) (setoid (@peq_equiv K) (@poly_ring_ext K)).
Notation poly := (poly F).
Notation val := (ip FS).
Notation clean := (pwf FS).
Notation mon t := (canon (tdeg t)).
Notation nonzero := (fun g : poly => g <> []).
Notation OS := grevlex_spec.
Notation O := (grevlex_cmp Debug).
Notation lt := grevlex_lt.

(** all terms have the same total degree *)
Definition homogeneous (g : poly) : Prop := forall s t, In s g -> In t g -> list_sum (tdeg s) = list_sum (tdeg t).
(** no variable after x_n *)
Definition within (n : nat) (g : poly) : Prop := forall t, In t g -> length (tdeg t) <= S n.
(** some term without x_n *)
Definition free_of (n : nat) (g : poly) : Prop := exists t, In t g /\ expo (tdeg t) n = 0.
(** the polynomial x_n^k *)
Notation xpow n k := (pterm k1 (mvar n k)).

Lemma hom_of n g : clean g -> homogeneous g -> within n g -> homog (tgr n) (val g).
Proof.
  intros W H V m m' N N'. apply (pwf_support FS g m W) in N as (t & I & <-). apply (pwf_support FS g m' W) in N' as (t' & I' & <-).
  apply tgr_iff. unfold mtot, canon. cbn [mlist]. rewrite !list_sum_trim. split; [apply H; assumption|]. intros i Hi.
  fold (canon (tdeg t)) (canon (tdeg t')). change (mexp (canon (tdeg t)) i = mexp (canon (tdeg t')) i). rewrite !canon_exp. pose proof (V t I). pose proof (V t' I'). rewrite !expo_over by lia. reflexivity.
Qed.
Lemma free_iff n g : clean g -> free_of n g -> exists m, coeff (val g) m <> k0 /\ mexp m n = 0.
Proof. intros W (t & I & Z). exists (mon t). split; [apply (pwf_support FS g _ W); eauto|]. rewrite canon_exp. exact Z. Qed.
Lemma val_xmul n k (p q : spoly K) : peq p (pmul (xpow n k) q) <-> peq p (tmul k1 (mvar n k) q).
Proof. rewrite tmul_pmul. reflexivity. Qed.

Section Run.
Variables (n fuel : nat) (gens out : list poly).
Hypothesis (W : Forall clean gens) (NZ : Forall nonzero gens) (H : Forall homogeneous gens) (V : Forall (within n) gens).
Hypothesis (E : buchberger_algorithm Debug O fuel gens = Ok out).
Lemma out_hom : Forall clean out /\ groebner lt (map val out) /\ (forall p, in_ideal (map val out) p <-> in_ideal (map val gens) p) /\ forall g, In g (map val out) -> homog (tgr n) g.
Proof.
  destruct (algorithm_run FS OS fuel gens out W NZ E) as (Wo & SI & GB & IR). split; [exact Wo|]. split; [exact GB|]. split; [exact SI|].
  apply (graded_reduced mono_dec (tgr n) lt grevlex_laws (map val out) GB IR).
  intros f d Hf. apply SI. apply (homog_graded mono_dec (tgr n) (tgr_mul n)); [|apply SI; exact Hf].
  intros g I. apply in_map_iff in I as (g0 & <- & I). rewrite Forall_forall in W, H, V. apply hom_of; auto.
Qed.
Lemma criterion_true fuel' (Q : list poly) b : Forall clean Q -> Forall nonzero Q -> groebner lt (map val Q) -> buchberger_criterion Debug O fuel' Q = Ok b -> b = true.
Proof.
  intros WQ NQ GB Eb. apply (C38_criterion_decides FS OS fuel' Q b WQ NQ Eb). intros f m I L. destruct (GB f m I L) as (g & l & Ig & Lg & D).
  apply in_map_iff in Ig as (g0 & <- & Ig). eauto.
Qed.
Lemma F2_val (R : poly -> poly -> Prop) (S : spoly K -> spoly K -> Prop) l l' : (forall g q, In g l -> R g q -> S (val g) (val q)) -> Forall2 R l l' -> Forall2 S (map val l) (map val l').
Proof.
  intros X H2. induction H2 as [|a b l l' Hab _ IH]; [constructor|]. cbn [map]. constructor; [apply X; [left; reflexivity|exact Hab]|]. apply IH. intros g q I. apply X. right. exact I.
Qed.
Lemma F2_clean (R : poly -> poly -> Prop) l l' : (forall g q, R g q -> clean q) -> Forall2 R l l' -> Forall clean l'.
Proof. intros X. induction 1; constructor; eauto. Qed.
End Run.

(** ** C141 *)
(** in a homogeneous polynomial the leading term has the smallest exponent of x_n: x_n^k divides it iff x_n^k divides the polynomial *)
Theorem C141_leading : forall n (g : poly) t, clean g -> homogeneous g -> within n g -> leading_term O g = Ok (Some t) ->
  forall s, In s g -> expo (tdeg t) n <= expo (tdeg s) n.
Proof.
  intros n g t W H V E s I. destruct (proj1 (C31_clean FS OS g W) t E) as (_ & L & _).
  pose proof (lm_last n (val g) (mon t) (mon s) (hom_of n g W H V) L) as X. rewrite !canon_exp in X. apply X. apply (pwf_support FS g _ W). eauto.
Qed.
(** the quotient by x_n: the result with one x_n taken out of every element that has it *)
Theorem C141_quotient : forall n fuel (gens out Q : list poly), Forall clean gens -> Forall nonzero gens -> Forall homogeneous gens -> Forall (within n) gens ->
  buchberger_algorithm Debug O fuel gens = Ok out ->
  Forall2 (fun g q => clean q /\ (peq (val g) (pmul (xpow n 1) (val q)) \/ (q = g /\ free_of n g))) out Q ->
  (forall p, in_ideal (map val Q) p <-> in_ideal (map val gens) (pmul (xpow n 1) p)) /\
  (forall fuel' b, buchberger_criterion Debug O fuel' Q = Ok b -> b = true).
Proof.
  intros n fuel gens out Q W NZ H V E HQ. destruct (out_hom n fuel gens out W NZ H V E) as (Wo & GB & SI & Ho).
  assert (X : Forall2 (one_out n) (map val out) (map val Q)).
  { eapply F2_val; [|exact HQ]. intros g q I (Wq & [Y|(-> & Y)]); [left; apply val_xmul; exact Y|right]. split; [reflexivity|]. apply free_iff; [rewrite Forall_forall in Wo; auto|exact Y]. }
  assert (WQ : Forall clean Q) by (eapply F2_clean; [|exact HQ]; intros g q (Wq & _); exact Wq).
  destruct (quotient_last n (map val out) GB Ho (map val Q) X) as (GQ & IQ). split.
  - intros p. rewrite (IQ p). rewrite SI. split; intros Y; [rewrite <- tmul_pmul|rewrite tmul_pmul]; exact Y.
  - intros fuel' b Eb. apply (criterion_true fuel' Q b WQ); [|exact GQ|exact Eb]. apply Forall_forall. intros q I ->.
    destruct (in_F2_r _ _ _ _ HQ I) as (g & Ig & _ & [Y|(<- & t & [] & _)]).
    assert (Z : g = []). { apply (pwf_zero_iff FS g); [rewrite Forall_forall in Wo; auto|]. rewrite Y. assert (Z : peq (val []) pzero) by reflexivity. rewrite Z. ring. }
    pose proof (proj1 (C41_inter_reduced FS OS fuel gens out W NZ E)) as NO. rewrite Forall_forall in NO. exact (NO g Ig Z).
Qed.
(** the saturation by x_n: all powers of x_n taken out *)
Theorem C141_saturation : forall n fuel (gens out Q : list poly), Forall clean gens -> Forall nonzero gens -> Forall homogeneous gens -> Forall (within n) gens ->
  buchberger_algorithm Debug O fuel gens = Ok out ->
  Forall2 (fun g q => clean q /\ free_of n q /\ exists k, peq (val g) (pmul (xpow n k) (val q))) out Q ->
  (forall p, in_ideal (map val Q) p <-> exists k, in_ideal (map val gens) (pmul (xpow n k) p)) /\
  (forall fuel' b, buchberger_criterion Debug O fuel' Q = Ok b -> b = true).
Proof.
  intros n fuel gens out Q W NZ H V E HQ. destruct (out_hom n fuel gens out W NZ H V E) as (Wo & GB & SI & Ho).
  assert (X : Forall2 (taken_out n) (map val out) (map val Q)).
  { eapply F2_val; [|exact HQ]. intros g q I (Wq & Fq & k & Y). exists k. split; [apply val_xmul; exact Y|]. apply free_iff; assumption. }
  assert (WQ : Forall clean Q) by (eapply F2_clean; [|exact HQ]; intros g q (Wq & _); exact Wq).
  destruct (saturation_last n (map val out) GB Ho (map val Q) X) as (GQ & IQ). split.
  - intros p. rewrite (IQ p). split; intros (k & Y); exists k; apply SI in Y; [rewrite <- tmul_pmul; exact Y|rewrite tmul_pmul]. apply SI. apply SI in Y. exact Y.
  - intros fuel' b Eb. apply (criterion_true fuel' Q b WQ); [|exact GQ|exact Eb]. apply Forall_forall. intros q I ->.
    destruct (in_F2_r _ _ _ _ HQ I) as (g & Ig & _ & (t & [] & _) & _).
Qed.
(** x_n = 0: adding x_n needs no further elements *)
Theorem C141_section : forall n fuel (gens out : list poly) x, Forall clean gens -> Forall nonzero gens -> Forall homogeneous gens -> Forall (within n) gens ->
  buchberger_algorithm Debug O fuel gens = Ok out -> clean x -> peq (val x) (xpow n 1) ->
  forall fuel' b, buchberger_criterion Debug O fuel' (x :: out) = Ok b -> b = true.
Proof.
  intros n fuel gens out x W NZ H V E Wx Ex fuel' b Eb. destruct (out_hom n fuel gens out W NZ H V E) as (Wo & GB & SI & Ho).
  apply (criterion_true fuel' (x :: out) b); [constructor; assumption| | |exact Eb].
  - constructor; [|exact (proj1 (C41_inter_reduced FS OS fuel gens out W NZ E))]. intros ->. apply (F_1_neq_0 (kth K)).
    transitivity (coeff (xpow n 1) (mvar n 1) : K); [rewrite coeff_pterm; destruct (mono_dec (mvar n 1) (mvar n 1)); congruence|]. rewrite <- Ex. reflexivity.
  - pose proof (section_last n (map val out) GB Ho) as S. intros f m I L. cbn [map] in I.
    assert (I' : in_ideal (xpow n 1 :: map val out) f).
    { revert I. apply in_ideal_sub_ideal. intros g [<-|Ig]; [apply in_ideal_gen_eq with (h := xpow n 1); [left; reflexivity|exact Ex]|apply in_ideal_gen; right; exact Ig]. }
    destruct (S f m I' L) as (g & l & [<-|Ig] & Lg & D).
    + exists (val x), l. split; [left; reflexivity|]. split; [rewrite Ex; exact Lg|exact D].
    + exists g, l. split; [right; exact Ig|auto].
Qed.
(** multiplying the degrees of all terms by x_n^k *)
Lemma val_shift n k (q g : poly) : map coef g = map coef q -> map tdeg g = map (fun t => lzip Nat.add (repeat 0 n ++ [k]) (tdeg t)) q -> peq (val g) (pmul (xpow n k) (val q)).
Proof.
  rewrite val_xmul. revert g. induction q as [|t q IH]; intros [|s g] Ec Ed; try discriminate; [reflexivity|]. cbn [map] in Ec, Ed. injection Ec as Ec1 Ec. injection Ed as Ed1 Ed.
  specialize (IH g Ec Ed). intros phi. specialize (IH phi). rewrite ev_tmul in *. unfold ip, ev in *. cbn [map fold_right fst snd]. rewrite IH, Ec1, Ed1.
  assert (X : canon (lzip Nat.add (repeat 0 n ++ [k]) (tdeg t)) = mmul (mvar n k) (mon t)).
  { apply mono_ext. intros i. rewrite mmul_exp, canon_exp, lzip_expo by reflexivity. unfold mvar. rewrite !canon_exp. reflexivity. }
  rewrite X. ring.
Qed.
End PropLastVar.

(** ** Concrete cases *)
Notation RR := (rat_impl Debug).
Definition ex_l1 : poly RR := [ex_t 1 1 [2]; ex_t (-1) 1 [0; 1; 1]].
Definition ex_l2 : poly RR := [ex_t 1 1 [1; 1]; ex_t (-1) 1 [0; 0; 2]].
Definition ex_l3 : poly RR := [ex_t 1 1 [0; 2; 1]; ex_t (-1) 1 [1; 0; 2]].
Definition ex_l4 : poly RR := [ex_t 1 1 [0; 2]; ex_t (-1) 1 [1; 0; 1]].
Definition ex_z : poly RR := [ex_t 1 1 [0; 0; 1]].
Lemma ex_homogeneous (g : poly RR) d : forallb (fun t => Nat.eqb (list_sum (tdeg t)) d) g = true -> homogeneous g.
Proof. intros H s t Is It. rewrite forallb_forall in H. pose proof (H s Is) as A. pose proof (H t It) as B. apply Nat.eqb_eq in A, B. congruence. Qed.
Lemma ex_within (g : poly RR) n : forallb (fun t => Nat.leb (length (tdeg t)) (S n)) g = true -> within n g.
Proof. intros H t I. rewrite forallb_forall in H. specialize (H t I). apply Nat.leb_le in H. exact H. Qed.
(** x^2 - y z and x y - z^2: the third element is z (y^2 - x z), which gives the quotient and the saturation by z *)
Example C141_ex : Forall (pwf rat_spec) [ex_l1; ex_l2] /\ Forall homogeneous [ex_l1; ex_l2] /\ Forall (within 2) [ex_l1; ex_l2] /\
  buchberger_algorithm Debug (grevlex_cmp Debug) 40 [ex_l1; ex_l2] = Ok [ex_l1; ex_l2; ex_l3] /\
  Forall2 (fun g q => pwf rat_spec q /\ (peq (ip rat_spec g) (pmul (pterm k1 (mvar 2 1)) (ip rat_spec q)) \/ (q = g /\ free_of 2 g))) [ex_l1; ex_l2; ex_l3] [ex_l1; ex_l2; ex_l4] /\
  Forall2 (fun g q => pwf rat_spec q /\ free_of 2 q /\ exists k, peq (ip rat_spec g) (pmul (pterm k1 (mvar 2 k)) (ip rat_spec q))) [ex_l1; ex_l2; ex_l3] [ex_l1; ex_l2; ex_l4] /\
  buchberger_criterion Debug (grevlex_cmp Debug) 40 [ex_l1; ex_l2; ex_l4] = Ok true /\
  pwf rat_spec ex_z /\ buchberger_criterion Debug (grevlex_cmp Debug) 40 [ex_z; ex_l1; ex_l2; ex_l3] = Ok true.
Proof.
  split; [repeat (constructor; [apply ex_clean; reflexivity|]); constructor|].
  split; [repeat (constructor; [apply (ex_homogeneous _ 2); reflexivity|]); constructor|].
  split; [repeat (constructor; [apply ex_within; reflexivity|]); constructor|].
  split; [reflexivity|].
  assert (F1 : free_of 2 ex_l1) by (exists (ex_t 1 1 [2]); split; [left; reflexivity|reflexivity]).
  assert (F2 : free_of 2 ex_l2) by (exists (ex_t 1 1 [1; 1]); split; [left; reflexivity|reflexivity]).
  assert (F4 : free_of 2 ex_l4) by (exists (ex_t 1 1 [0; 2]); split; [left; reflexivity|reflexivity]).
  assert (Z : forall p : spoly QcField, peq p (pmul (pterm k1 (mvar 2 0)) p)) by (intros p; apply val_xmul; symmetry; apply xmul_zero).
  split; [constructor; [split; [apply ex_clean; reflexivity|right; auto]|constructor; [split; [apply ex_clean; reflexivity|right; auto]|constructor; [|constructor]]]|].
  { split; [apply ex_clean; reflexivity|left]. apply (val_shift rat_spec); reflexivity. }
  split; [constructor; [split; [apply ex_clean; reflexivity|split; [exact F1|exists 0; apply Z]]|constructor; [split; [apply ex_clean; reflexivity|split; [exact F2|exists 0; apply Z]]|constructor; [|constructor]]]|].
  { split; [apply ex_clean; reflexivity|]. split; [exact F4|]. exists 1. apply (val_shift rat_spec); reflexivity. }
  split; [reflexivity|]. split; [apply ex_clean; reflexivity|reflexivity].
Qed.
(** with GrLex the leading term x z of x z - y^2 has z, which does not divide the polynomial *)
Example C141_ex_grlex : leading_term (grlex_cmp Debug) ex_l4 = Ok (Some (ex_t (-1) 1 [1; 0; 1])) /\ leading_term (grevlex_cmp Debug) ex_l4 = Ok (Some (ex_t 1 1 [0; 2])).
Proof. split; reflexivity. Qed.

Print Assumptions C141_leading.
Print Assumptions C141_quotient.
Print Assumptions C141_saturation.
Print Assumptions C141_section.
