(** * Property C142: homogenization and setting a variable to one.

    With GRevLex the result of buchberger_algorithm for homogeneous generators is turned by x_n = 1 into a Groebner basis of the
    generators with x_n = 1; homogenizing the result for arbitrary generators gives a Groebner basis of the homogenized ideal. *)
From Coq Require Import ZArith QArith Qcanon.
From Verif Require Import Base BaseLemmas IntModel RatModel FieldIface RatProofs MDegModel OrdModel PolyModel CompModel
  MonoSpec MDegProofs OrdProofs PolySpec PolyProofs GroebnerSpec DivProofs DivSpec GbProofs CompMono PropPoly PropDiv PropGb PropGraded IdealSpec GradeSpec RewriteSpec LastVarSpec PropLastVar HomogSpec.
From Coq Require Import Lia Ring Field Setoid Morphisms.
Local Open Scope nat_scope.

Section PropHomog.
Context {F : FieldImpl} {K : MathField} (FS : FieldSpec F K).
Add Field Kf78 : (kth K).
Add Ring Pr78 : (@poly_ring K) (setoid (@peq_equiv K) (@poly_ring_ext K)).
Notation poly := (poly F).
Notation val := (ip FS).
Notation clean := (pwf FS).
Notation mon t := (canon (tdeg t)).
Notation nonzero := (fun g : poly => g <> []).
Notation OS := grevlex_spec.
Notation O := (grevlex_cmp Debug).
Notation lt := grevlex_lt.
Notation xpow n k := (pterm k1 (mvar n k)).

(** q is g with x_n = 1: the exponent of x_n is replaced by 0 in every term *)
Definition is_set_one (n : nat) (g q : poly) : Prop := clean q /\ peq (val q) (set_one n (val g)).
(** h is g made homogeneous with as few powers of x_n as possible *)
Definition is_homogenized (n : nat) (g h : poly) : Prop :=
  clean h /\ homogeneous h /\ within n h /\ free_of n h /\ peq (set_one n (val h)) (val g).

Lemma F2_peq (n : nat) (l l' : list poly) : Forall2 (is_set_one n) l l' -> same_ideal (map val l') (map (set_one n) (map val l)).
Proof.
  intros H p. split; apply in_ideal_sub_ideal; intros g I.
  - apply in_map_iff in I as (q & <- & I). destruct (in_F2_r _ _ _ _ H I) as (g & Ig & _ & E). apply (in_ideal_gen_eq _ _ (set_one n (val g))); [apply in_map, in_map; exact Ig|exact E].
  - apply in_map_iff in I as (g' & <- & I). apply in_map_iff in I as (g & <- & I). destruct (in_F2_l _ _ _ _ H I) as (q & Iq & _ & E).
    apply (in_ideal_gen_eq _ _ (val q)); [apply in_map; exact Iq|symmetry; exact E].
Qed.

(** ** C142 *)
(** x_n = 1 in the result for homogeneous generators: a Groebner basis of the generators with x_n = 1 *)
Theorem C142_set_one : forall n fuel (gens out fs Q : list poly), Forall clean gens -> Forall nonzero gens -> Forall homogeneous gens -> Forall (within n) gens ->
  buchberger_algorithm Debug O fuel gens = Ok out -> Forall2 (is_set_one n) gens fs -> Forall2 (is_set_one n) out Q ->
  same_ideal (map val Q) (map val fs) /\
  (forall fuel' b, buchberger_criterion Debug O fuel' Q = Ok b -> b = true).
Proof.
  intros n fuel gens out fs Q W NZ H V E Hf HQ. destruct (out_hom FS n fuel gens out W NZ H V E) as (Wo & GB & SI & Ho).
  pose proof (F2_peq n _ _ Hf) as Sf. pose proof (F2_peq n _ _ HQ) as SQ. split.
  - intros p. assert (X : same_ideal (map (set_one n) (map val out)) (map (set_one n) (map val gens))).
    { intros r. split; apply in_ideal_sub_ideal; intros g I; apply in_map_iff in I as (g' & <- & I); apply set_one_ideal; apply SI; apply in_ideal_gen; exact I. }
    split; intros I; [apply Sf, X, SQ|apply SQ, X, Sf]; exact I.
  - intros fuel' b. apply (criterion_true FS).
    + apply (F2_clean FS (is_set_one n) out Q); [intros ? ? X; apply X|exact HQ].
    + apply Forall_forall. intros q I ->. destruct (in_F2_r _ _ _ _ HQ I) as (g & Ig & _ & Z). pose proof (proj1 (C41_inter_reduced FS OS fuel gens out W NZ E)) as NZo. rewrite Forall_forall in NZo, Wo.
      assert (Hg : homog (tgr n) (val g)) by (apply Ho, in_map; exact Ig).
      destruct (peq_zero_dec (val g)) as [Y|(m & Nm)]; [apply (NZo g Ig); apply (pwf_zero_iff FS g (Wo g Ig)); exact Y|].
      apply Nm. rewrite <- (coeff_set_one n (val g) m Hg Nm). transitivity (coeff (val []) (drop n m) : K); [symmetry; apply Z|reflexivity].
    + pose proof (groebner_set_one n (map val out) GB Ho) as GQ. intros f m I L. destruct (GQ f m (proj1 (SQ f) I) L) as (g' & l & Ig & Lg & D). apply in_map_iff in Ig as (g0 & <- & Ig).
      apply in_map_iff in Ig as (g & <- & Ig). destruct (in_F2_l _ _ _ _ HQ Ig) as (q & Iq & _ & Eq). exists (val q), l. split; [apply in_map; exact Iq|]. split; [rewrite Eq; exact Lg|exact D].
Qed.
(** membership with x_n = 1 is membership up to a power of x_n *)
Theorem C142_member : forall n (gens fs : list poly) f p, Forall clean gens -> Forall homogeneous gens -> Forall (within n) gens -> Forall2 (is_set_one n) gens fs ->
  clean f -> homogeneous f -> within n f -> peq p (set_one n (val f)) ->
  (in_ideal (map val fs) p <-> exists k, in_ideal (map val gens) (pmul (xpow n k) (val f))).
Proof.
  intros n gens fs f p W H V Hf Wf Hh Vf Ep. pose proof (F2_peq n _ _ Hf p) as S.
  assert (Hg : forall g, In g (map val gens) -> homog (tgr n) g). { intros g I. apply in_map_iff in I as (g0 & <- & I). rewrite Forall_forall in W, H, V. apply hom_of; auto. }
  pose proof (set_one_member n (map val gens) (val f) Hg (hom_of FS n f Wf Hh Vf)) as M. split.
  - intros I. apply S in I. rewrite Ep in I. apply M in I as (k & I). exists k. rewrite <- tmul_pmul. exact I.
  - intros (k & I). apply S. rewrite Ep. apply M. exists k. rewrite tmul_pmul. exact I.
Qed.
(** the result for arbitrary generators, made homogeneous: a Groebner basis of the homogenized ideal *)
Theorem C142_homogenize : forall n fuel (gens out H : list poly), Forall clean gens -> Forall nonzero gens ->
  buchberger_algorithm Debug O fuel gens = Ok out -> Forall2 (is_homogenized n) out H ->
  (forall p, clean p -> homogeneous p -> within n p -> (in_ideal (map val H) (val p) <-> in_ideal (map val gens) (set_one n (val p)))) /\
  (forall fuel' b, buchberger_criterion Debug O fuel' H = Ok b -> b = true).
Proof.
  intros n fuel gens out H W NZ E R. destruct (algorithm_run FS OS fuel gens out W NZ E) as (Wo & SI & GB & IR).
  assert (X : Forall2 (homogenized n) (map val out) (map val H)).
  { eapply (F2_val FS); [|exact R]. intros g h I (Wh & Hh & Vh & Fh & Eh). split; [apply hom_of; assumption|]. split; [exact Eh|]. apply free_iff; assumption. }
  destruct (groebner_homogenized n (map val out) (map val H) GB X) as [GH M]. split.
  - intros p Wp Hp Vp. rewrite (M (val p) (hom_of FS n p Wp Hp Vp)). apply SI.
  - intros fuel' b. apply (criterion_true FS); [apply (F2_clean FS (is_homogenized n) out H); [intros ? ? Y; apply Y|exact R]| |exact GH].
    apply Forall_forall. intros h I ->. destruct (in_F2_r _ _ _ _ R I) as (g & _ & _ & _ & _ & (t & It & _) & _). destruct It.
Qed.
Lemma val_set_one n (g q : poly) : map coef q = map coef g -> map (fun t => mlist (mon t)) q = map (fun t => mlist (drop n (mon t))) g -> peq (val q) (set_one n (val g)).
Proof.
  intros Ec Ed phi. rewrite ev_set_one. revert q Ec Ed. induction g as [|t g IH]; intros [|s q] Ec Ed; try discriminate; [reflexivity|]. cbn [map] in Ec, Ed. injection Ec as Ec1 Ec. injection Ed as Ed1 Ed.
  specialize (IH q Ec Ed). unfold ip, ev in *. cbn [map fold_right fst snd]. rewrite IH, Ec1. f_equal. f_equal. f_equal. apply mono_eq. exact Ed1.
Qed.
End PropHomog.

(** ** Concrete cases *)
Notation RR := (rat_impl Debug).
(** x^2 - y, x^3 - z and their basis; the same with w = x_3 in degree 2 and 3 *)
Definition ex_h1 : poly RR := [ex_t 1 1 [2]; ex_t (-1) 1 [0; 1]].
Definition ex_h2 : poly RR := [ex_t 1 1 [3]; ex_t (-1) 1 [0; 0; 1]].
Definition ex_h3 : poly RR := [ex_t 1 1 [1; 1]; ex_t (-1) 1 [0; 0; 1]].
Definition ex_h4 : poly RR := [ex_t 1 1 [0; 2]; ex_t (-1) 1 [1; 0; 1]].
Definition ex_w1 : poly RR := [ex_t 1 1 [2]; ex_t (-1) 1 [0; 1; 0; 1]].
Definition ex_w2 : poly RR := [ex_t 1 1 [3]; ex_t (-1) 1 [0; 0; 1; 2]].
Definition ex_w3 : poly RR := [ex_t 1 1 [1; 1; 0; 1]; ex_t (-1) 1 [0; 0; 1; 2]].
Definition ex_w4 : poly RR := [ex_t 1 1 [0; 2; 0; 2]; ex_t (-1) 1 [1; 0; 1; 2]].
Definition ex_w5 : poly RR := [ex_t 1 1 [1; 1]; ex_t (-1) 1 [0; 0; 1; 1]].
Ltac set1 := split; [apply ex_clean; reflexivity|apply (val_set_one rat_spec); reflexivity].
Example C142_ex_set_one : Forall (pwf rat_spec) [ex_w1; ex_w2] /\ Forall homogeneous [ex_w1; ex_w2] /\ Forall (within 3) [ex_w1; ex_w2] /\
  buchberger_algorithm Debug (grevlex_cmp Debug) 60 [ex_w1; ex_w2] = Ok [ex_w1; ex_w3; ex_w4] /\
  Forall2 (is_set_one rat_spec 3) [ex_w1; ex_w2] [ex_h1; ex_h2] /\
  Forall2 (is_set_one rat_spec 3) [ex_w1; ex_w3; ex_w4] [ex_h1; ex_h3; ex_h4] /\
  buchberger_criterion Debug (grevlex_cmp Debug) 60 [ex_h1; ex_h3; ex_h4] = Ok true.
Proof.
  split; [repeat (constructor; [apply ex_clean; reflexivity|]); constructor|].
  split; [constructor; [apply (ex_homogeneous _ 2); reflexivity|constructor; [apply (ex_homogeneous _ 3); reflexivity|constructor]]|].
  split; [repeat (constructor; [apply ex_within; reflexivity|]); constructor|].
  split; [reflexivity|]. split; [repeat (constructor; [set1|]); constructor|]. split; [repeat (constructor; [set1|]); constructor|reflexivity].
Qed.
Ltac ishom d t := split; [apply ex_clean; reflexivity|split; [apply (ex_homogeneous _ d); reflexivity|split; [apply ex_within; reflexivity|split; [exists t; split; [left; reflexivity|reflexivity]|symmetry; apply (val_set_one rat_spec); reflexivity]]]].
Example C142_ex_homogenize : Forall (pwf rat_spec) [ex_h1; ex_h2] /\
  buchberger_algorithm Debug (grevlex_cmp Debug) 60 [ex_h1; ex_h2] = Ok [ex_h1; ex_h3; ex_h4] /\
  Forall2 (is_homogenized rat_spec 3) [ex_h1; ex_h3; ex_h4] [ex_w1; ex_w5; ex_h4] /\
  buchberger_criterion Debug (grevlex_cmp Debug) 60 [ex_w1; ex_w5; ex_h4] = Ok true.
Proof.
  split; [repeat (constructor; [apply ex_clean; reflexivity|]); constructor|]. split; [reflexivity|]. split; [|reflexivity].
  constructor; [ishom 2 (ex_t 1 1 [2] : term RR)|]. constructor; [ishom 2 (ex_t 1 1 [1; 1] : term RR)|]. constructor; [ishom 2 (ex_t 1 1 [0; 2] : term RR)|constructor].
Qed.
(** homogenizing the generators alone does not give the homogenized ideal: y^2 - x z is not reduced by the result for them, only its product with w^2 is *)
Theorem C142_generators_refuted : ~ in_ideal (map (ip rat_spec) [ex_w1; ex_w2]) (ip rat_spec ex_h4) /\
  in_ideal (map (ip rat_spec) [ex_h1; ex_h2]) (set_one 3 (ip rat_spec ex_h4)).
Proof.
  destruct C142_ex_set_one as (W & _ & _ & E & _). destruct C142_ex_homogenize as (Wh & Eh & _ & _).
  assert (NZ : Forall (fun g : poly RR => g <> []) [ex_w1; ex_w2]) by (repeat constructor; discriminate).
  assert (NZh : Forall (fun g : poly RR => g <> []) [ex_h1; ex_h2]) by (repeat constructor; discriminate).
  destruct (algorithm_run rat_spec grevlex_spec 60 _ _ W NZ E) as (Wo & SI & GB & _). destruct (algorithm_run rat_spec grevlex_spec 60 _ _ Wh NZh Eh) as (_ & SIh & _ & _). split.
  - intros I. apply SI in I. assert (D : divide Debug (grevlex_cmp Debug) 60 ex_h4 [ex_w1; ex_w3; ex_w4] = Ok (ex_h4, [[]; []; []])) by reflexivity.
    assert (X : ex_h4 = []); [|discriminate]. apply (C45_membership rat_spec grevlex_spec 60 ex_h4 _ _ _ ltac:(apply ex_clean; reflexivity) Wo GB D). exact I.
  - apply SIh. apply (in_ideal_gen_eq _ _ (ip rat_spec ex_h4)); [right; right; left; reflexivity|]. symmetry. apply (val_set_one rat_spec); reflexivity.
Qed.


Print Assumptions C142_set_one.
Print Assumptions C142_member.
Print Assumptions C142_homogenize.
Print Assumptions C142_generators_refuted.
