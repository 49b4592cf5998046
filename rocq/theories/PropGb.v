(** * Properties C38-C44: Buchberger's criterion and algorithm.

    [groebner lt G]: the leading monomial of every nonzero element of the ideal of [G] is a multiple
    of the leading monomial of an element of [G].  [in_ideal G f]: [f] is a combination of [G] with
    polynomial coefficients. *)
From Verif Require Import Base BaseLemmas IntModel RatModel FieldIface RatProofs MDegModel OrdModel PolyModel CompModel
  MonoSpec MDegProofs OrdProofs PolySpec PolyProofs GroebnerSpec DivProofs GbProofs CompMono PropPoly PropDiv.
From Coq Require Import Ring Field Setoid Morphisms Permutation.

Local Open Scope nat_scope.

Section PropGb.
Context {F : FieldImpl} {K : MathField} (FS : FieldSpec F K) {O : ord_impl} (OS : OrderSpec O).
Add Field Kf9 : (kth K).
Add Ring Pr9 : (@poly_ring K) (setoid (@peq_equiv K) (@poly_ring_ext K)).
Notation poly := (poly F).
Notation val := (ip FS).
Notation clean := (pwf FS).
Notation lt := (olt OS).
Notation mon t := (canon (tdeg t)).
Notation LM := (is_lm lt).
Notation nonzero := (fun g : poly => g <> []).
Let laws := olaws _ OS.

(** ** C38 *)
Theorem C38_criterion_decides : forall fuel (gens : list poly) b, Forall clean gens -> Forall nonzero gens ->
  buchberger_criterion Debug O fuel gens = Ok b ->
  (b = true <->
   forall f m, in_ideal (map val gens) f -> LM f m -> exists g l, In g gens /\ LM (val g) l /\ mdiv l m).
Proof.
  intros fuel gens b W NZ E.
  rewrite (evs_run _ _ (fun n n' H => criterion_mono Debug O n n' gens H) (criterion_ok FS OS gens W NZ) fuel b E).
  split; intros H f m I L.
  - destruct (H f m I L) as (g & l & Ig & X). apply in_map_iff in Ig as (g0 & <- & Ig). eauto.
  - destruct (H f m I L) as (g & l & Ig & X). exists (val g), l. split; [apply in_map; exact Ig|exact X].
Qed.
Theorem C38_criterion_terminates : forall gens : list poly, Forall clean gens -> Forall nonzero gens ->
  exists N, (forall fuel, N <= fuel -> buchberger_criterion Debug O fuel gens = Panic Overflow) \/
            (exists b, forall fuel, N <= fuel -> buchberger_criterion Debug O fuel gens = Ok b).
Proof.
  intros gens W NZ. destruct (evs_term _ _ (criterion_ok FS OS gens W NZ)) as (N & [H|(b & _ & H)]); exists N; eauto.
Qed.

(** ** C39-C41, C43 *)
Lemma algorithm_run fuel (gens out : list poly) : Forall clean gens -> Forall nonzero gens ->
  buchberger_algorithm Debug O fuel gens = Ok out -> reduced_gb FS OS gens out.
Proof.
  intros W NZ E.
  exact (evs_run _ _ (fun n n' H => algorithm_mono Debug O n n' gens H) (algorithm_ok FS OS gens W NZ) fuel out E).
Qed.

Theorem C39_same_ideal : forall fuel (gens out : list poly), Forall clean gens -> Forall nonzero gens ->
  buchberger_algorithm Debug O fuel gens = Ok out ->
  Forall clean out /\ forall f, in_ideal (map val out) f <-> in_ideal (map val gens) f.
Proof. intros fuel gens out W NZ E. destruct (algorithm_run fuel gens out W NZ E) as (A & B & _). auto. Qed.

Theorem C40_groebner_basis : forall fuel (gens out : list poly), Forall clean gens -> Forall nonzero gens ->
  buchberger_algorithm Debug O fuel gens = Ok out ->
  forall f m, in_ideal (map val gens) f -> LM f m -> exists g l, In g out /\ LM (val g) l /\ mdiv l m.
Proof.
  intros fuel gens out W NZ E f m I L. destruct (algorithm_run fuel gens out W NZ E) as (A & B & C & _).
  apply B in I. destruct (C f m I L) as (g & l & Ig & X). apply in_map_iff in Ig as (g0 & <- & Ig). eauto.
Qed.

(** so the criterion accepts the result *)
Theorem C40_criterion_accepts : forall fuel fuel' (gens out : list poly) b, Forall clean gens -> Forall nonzero gens ->
  buchberger_algorithm Debug O fuel gens = Ok out -> buchberger_criterion Debug O fuel' out = Ok b -> b = true.
Proof.
  intros fuel fuel' gens out b W NZ E E'. pose proof (algorithm_run fuel gens out W NZ E) as (A & B & C & D & _).
  assert (NZ' : Forall nonzero out).
  { apply Forall_forall. intros g I ->. apply (D (val [])); [apply (in_map val _ _ I)|reflexivity]. }
  apply (C38_criterion_decides fuel' out b A NZ' E').
  intros f m I L. destruct (C f m I L) as (g & l & Ig & X). apply in_map_iff in Ig as (g0 & <- & Ig). eauto.
Qed.

Theorem C41_inter_reduced : forall fuel (gens out : list poly), Forall clean gens -> Forall nonzero gens ->
  buchberger_algorithm Debug O fuel gens = Ok out ->
  Forall nonzero out /\
  forall i j gi gj t l, i <> j -> nth_error out i = Some gi -> nth_error out j = Some gj ->
    In t gi -> LM (val gj) l -> ~ mdiv l (mon t).
Proof.
  intros fuel gens out W NZ E. destruct (algorithm_run fuel gens out W NZ E) as (A & B & C & D1 & D2). split.
  - apply Forall_forall. intros g I ->. apply (D1 (val [])); [apply (in_map val _ _ I)|reflexivity].
  - intros i j gi gj t l N Ei Ej It Lj. apply (D2 i j (val gi) (val gj) l (mon t) N); auto; try (rewrite nth_error_map; first [rewrite Ei|rewrite Ej]; reflexivity).
    rewrite Forall_forall in A. apply (pwf_support FS gi _ (A gi (nth_error_In _ _ Ei))). exists t. auto.
Qed.

(** equal leading monomials cannot occur, so the result is a minimal basis *)
Theorem C41_minimal : forall fuel (gens out : list poly), Forall clean gens -> Forall nonzero gens ->
  buchberger_algorithm Debug O fuel gens = Ok out ->
  forall i j gi gj li lj, i <> j -> nth_error out i = Some gi -> nth_error out j = Some gj ->
    LM (val gi) li -> LM (val gj) lj -> ~ mdiv lj li.
Proof.
  intros fuel gens out W NZ E i j gi gj li lj N Ei Ej Li Lj.
  destruct (C41_inter_reduced fuel gens out W NZ E) as [_ H]. destruct (C39_same_ideal fuel gens out W NZ E) as [A _].
  rewrite Forall_forall in A. destruct (proj1 (pwf_support FS gi li (A gi (nth_error_In _ _ Ei))) (proj1 Li)) as (t & It & <-).
  eapply H; eassumption.
Qed.

Theorem C43_algorithm_terminates : forall gens : list poly, Forall clean gens -> Forall nonzero gens ->
  exists N, (forall fuel, N <= fuel -> buchberger_algorithm Debug O fuel gens = Panic Overflow) \/
            (exists out, forall fuel, N <= fuel -> buchberger_algorithm Debug O fuel gens = Ok out).
Proof.
  intros gens W NZ. destruct (evs_term _ _ (algorithm_ok FS OS gens W NZ)) as (N & [H|(b & _ & H)]); exists N; eauto.
Qed.

(** ** C42: up to order and nonzero constant factors the result depends on the ideal only *)
Theorem C42_unique_up_to_scaling : forall fuel fuel' (gens gens' out out' : list poly),
  Forall clean gens -> Forall nonzero gens -> Forall clean gens' -> Forall nonzero gens' ->
  (forall f, in_ideal (map val gens) f <-> in_ideal (map val gens') f) ->
  buchberger_algorithm Debug O fuel gens = Ok out -> buchberger_algorithm Debug O fuel' gens' = Ok out' ->
  exists out'', Permutation out' out'' /\
    Forall2 (fun g h : poly => exists c : K, c <> k0 /\ forall m, coeff (val g) m = kmul c (coeff (val h) m)) out out''.
Proof.
  intros fuel fuel' gens gens' out out' W NZ W' NZ' SI E E'.
  destruct (reduced_gb_unique FS OS gens gens' out out') as (o & P & H).
  - eapply algorithm_run; eassumption.
  - eapply algorithm_run; eassumption.
  - exact SI.
  - exists o. split; [exact P|]. clear - H. induction H as [|g h l l' (c & N & X) _ IH]; constructor; auto.
    exists c. split; [exact N|]. intros m. rewrite X. apply coeff_scale.
Qed.

(** ** C44 *)
Theorem C44_zero_generator_algorithm : forall gens : list poly, Forall clean gens -> In [] gens -> 2 <= length gens ->
  exists N k, (k = Overflow \/ k = UnwrapNone) /\
    forall fuel, N <= fuel -> buchberger_algorithm Debug O fuel gens = Panic k.
Proof.
  intros gens W Z Len. destruct (algorithm_zero FS OS gens W Z Len) as (N & r & E & H).
  destruct r as [o|k|]; simpl in H; [contradiction| |contradiction]. exists N, k. auto.
Qed.
Theorem C44_zero_generator_never_returns : forall fuel (gens out : list poly), Forall clean gens -> In [] gens -> 2 <= length gens ->
  buchberger_algorithm Debug O fuel gens <> Ok out.
Proof.
  intros fuel gens out W Z Len E. destruct (C44_zero_generator_algorithm gens W Z Len) as (N & k & _ & H).
  pose proof (algorithm_mono Debug O fuel (Nat.max fuel N) gens ltac:(lia) out E) as X. rewrite H in X by lia. discriminate.
Qed.
Theorem C44_zero_generator_criterion : forall gens : list poly, Forall clean gens -> In [] gens -> 2 <= length gens ->
  exists N r, (r = Panic Overflow \/ r = Panic Explicit \/ (r = Ok false /\ ~ groebner lt (map val gens))) /\
    forall fuel, N <= fuel -> buchberger_criterion Debug O fuel gens = r.
Proof.
  intros gens W Z Len. destruct (criterion_zero FS OS gens W Z Len) as (N & r & E & H). exists N, r. split; [|exact E].
  destruct r as [b|k|]; simpl in H; [|destruct H as [->| ->]; auto|contradiction]. destruct H as [-> G]. auto.
Qed.

(** one generator or none: nothing happens at all, even for the zero polynomial *)
Theorem C44_single_generator : forall gens : list poly, length gens <= 1 ->
  forall fuel, 2 <= fuel -> buchberger_algorithm Debug O fuel gens = Ok gens.
Proof. apply algorithm_short. Qed.

Lemma monomial_ideal (c d : K) m f : c <> k0 -> d <> k0 -> in_ideal [pterm c m] f -> in_ideal [pterm d m] f.
Proof.
  intros Nc Nd. apply in_ideal_sub_ideal. intros g [<-|[]].
  assert (E : peq (pterm c m) (tmul (kdiv c d) mone (pterm d m))).
  { intros phi. rewrite ev_tmul. simpl. rewrite mmul_1_l. field. exact Nd. }
  rewrite E. apply in_ideal_tmul. apply in_ideal_gen. left. reflexivity.
Qed.

End PropGb.

(** the returned basis need not be monic, and equal ideals can give different results *)
Theorem C42_monic_refuted : exists (gens gens' out out' : list (poly (rat_impl Debug))),
  Forall (pwf rat_spec) gens /\ Forall (fun g => g <> []) gens /\
  Forall (pwf rat_spec) gens' /\ Forall (fun g => g <> []) gens' /\
  (forall f, in_ideal (map (ip rat_spec) gens) f <-> in_ideal (map (ip rat_spec) gens') f) /\
  (forall fuel, 2 <= fuel -> buchberger_algorithm Debug lex_cmp fuel gens = Ok out) /\
  (forall fuel, 2 <= fuel -> buchberger_algorithm Debug lex_cmp fuel gens' = Ok out') /\
  out <> out' /\
  exists g, In g out /\ leading_coef lex_cmp g = Ok (Some (mkrat 2 1 : rat_impl Debug)).
Proof.
  exists [[ex_t 2 1 [1]]], [[ex_t 1 1 [1]]], [[ex_t 2 1 [1]]], [[ex_t 1 1 [1]]].
  assert (W1 : pwf rat_spec [ex_t 2 1 [1]]) by (apply ex_clean; reflexivity).
  assert (W2 : pwf rat_spec [ex_t 1 1 [1]]) by (apply ex_clean; reflexivity).
  split; [constructor; [exact W1|constructor]|]. split; [constructor; [discriminate|constructor]|].
  split; [constructor; [exact W2|constructor]|]. split; [constructor; [discriminate|constructor]|].
  split; [|split; [|split; [|split; [discriminate|]]]].
  - intros f. cbn [map]. rewrite !ip_single. unfold it.
    split; apply (monomial_ideal (K:=QcField)); simpl; intros E; (apply den_zero_iff in E; [discriminate|reflexivity]).
  - intros fuel H. apply C44_single_generator; [simpl; lia|exact H].
  - intros fuel H. apply C44_single_generator; [simpl; lia|exact H].
  - exists [ex_t 2 1 [1]]. split; [left; reflexivity|]. reflexivity.
Qed.

(** ** Concrete cases: the textbook ideal (x^3 - 2xy, x^2y - 2y^2 + x) in GRLex *)
Definition ex_h1 : poly (rat_impl Debug) := [ex_t 1 1 [3]; ex_t (-2) 1 [1; 1]].
Definition ex_h2 : poly (rat_impl Debug) := [ex_t 1 1 [2; 1]; ex_t (-2) 1 [0; 2]; ex_t 1 1 [1]].
Example ex_h_clean : Forall (pwf rat_spec) [ex_h1; ex_h2] /\ Forall (fun g => g <> []) [ex_h1; ex_h2].
Proof. split; repeat (constructor; [first [apply ex_clean; reflexivity|discriminate]|]); constructor. Qed.
Example C38_ex : buchberger_criterion Debug (grlex_cmp Debug) 20 [ex_h1; ex_h2] = Ok false.
Proof. reflexivity. Qed.
Example C39_ex : buchberger_algorithm Debug (grlex_cmp Debug) 30 [ex_h1; ex_h2] =
  Ok [[ex_t 1 1 [2]]; [ex_t 1 1 [1; 1]]; [ex_t 1 1 [0; 2]; ex_t (-1) 2 [1]]].
Proof. reflexivity. Qed.
Example C38_ex_true : buchberger_criterion Debug (grlex_cmp Debug) 30
    [[ex_t 1 1 [2]]; [ex_t 1 1 [1; 1]]; [ex_t 1 1 [0; 2]; ex_t (-1) 2 [1]]] = Ok true.
Proof. reflexivity. Qed.
Example C44_ex : buchberger_algorithm Debug lex_cmp 30 [ex_g1; []] = Panic UnwrapNone /\
  buchberger_criterion Debug lex_cmp 30 [ex_g1; []] = Panic Explicit /\
  buchberger_algorithm Debug lex_cmp 30 [[] : poly (rat_impl Debug)] = Ok [[]].
Proof. repeat split; reflexivity. Qed.

Print Assumptions C38_criterion_decides.
Print Assumptions C38_criterion_terminates.
Print Assumptions C39_same_ideal.
Print Assumptions C40_groebner_basis.
Print Assumptions C40_criterion_accepts.
Print Assumptions C41_inter_reduced.
Print Assumptions C41_minimal.
Print Assumptions C42_unique_up_to_scaling.
Print Assumptions C42_monic_refuted.
Print Assumptions C43_algorithm_terminates.
Print Assumptions C44_zero_generator_algorithm.
Print Assumptions C44_zero_generator_never_returns.
Print Assumptions C44_zero_generator_criterion.
Print Assumptions C44_single_generator.
