(** * C135: the relations between the elements of a basis

    Dividing the S-polynomials of the elements of a Groebner basis G by G leaves no remainder, and the quotients which
    [divide] returns give relations  sum_k v_k g_k = 0.  These relations generate all the relations between the elements of G
    (the theorem of Schreyer). *)
From Verif Require Import Base BaseLemmas IntModel RatModel FieldIface RatProofs MDegModel OrdModel PolyModel CompModel
  MonoSpec MDegProofs OrdProofs PolySpec PolyProofs GroebnerSpec DivProofs DivSpec GbProofs CompMono PropPoly PropDiv PropGb IdealSpec PropIdeal SyzSpec.
From Coq Require Import Ring Field Setoid Morphisms Permutation Lia.
Local Open Scope nat_scope.

Section PropSyz.
Context {F : FieldImpl} {K : MathField} (FS : FieldSpec F K) {O : ord_impl} (OS : OrderSpec O).
Add Field Kf64 : (kth K).
Add Ring Pr64 : (@poly_ring K) (setoid (@peq_equiv K) (@poly_ring_ext K)).
Notation poly := (poly F).
Notation term := (term F).
Notation val := (ip FS).
Notation clean := (pwf FS).
Notation nonzero := (fun g : poly => g <> []).
Notation lt := (olt OS).
Notation LM := (is_lm lt).
Notation mon t := (canon (tdeg t)).
Let laws := olaws _ OS.

(** [ls] are the leading terms of [G] *)
Definition leads (G : list poly) (ls : list term) : Prop := Forall2 (fun g t => leading_term O g = Ok (Some t)) G ls.
(** [qs i j] are the quotients of the S-polynomial of the i-th and j-th elements, which has remainder 0 *)
Definition s_quotients (G : list poly) (qs : nat -> nat -> list poly) : Prop :=
  forall i j, i < j -> j < length G -> exists s fuel,
    try_reduce Debug O (nth i G []) (nth j G []) = Ok (Some s) /\ divide Debug O fuel s G = Ok ([], qs i j).
(** the k-th component of the relation obtained from the i-th and j-th elements:
    x^M/lt_i at i, minus x^M/lt_j at j, minus the quotients, where x^M is the lcm of the leading monomials *)
Definition s_relation (ls : list term) (qs : nat -> nat -> list poly) (i j k : nat) : spoly K :=
  let li := nth i ls term_zero in let lj := nth j ls term_zero in let M := mlcm (mon li) (mon lj) in
  psub (psub (if Nat.eqb k i then pterm (kinv (den FS (coef li))) (mquo M (mon li)) else pzero)
             (if Nat.eqb k j then pterm (kinv (den FS (coef lj))) (mquo M (mon lj)) else pzero))
       (val (nth k (qs i j) [])).
(** the family [v] is a sum of polynomial multiples of these relations *)
Definition s_combination (c : nat) (ls : list term) (qs : nat -> nat -> list poly) (vs : list (spoly K)) : Prop :=
  exists us : list (spoly K * nat * nat), Forall (fun t => snd (fst t) < snd t /\ snd t < c) us /\
    forall k, k < c -> peq (nth k vs pzero) (psum (map (fun t => pmul (fst (fst t)) (s_relation ls qs (snd (fst t)) (snd t) k)) us)).

(** the assumptions of [SyzSpec.schreyer] *)
Lemma leads_at G ls k : Forall clean G -> leads G ls -> k < length G ->
  LM (nth k (map val G) pzero) (mon (nth k ls term_zero)) /\ coeff (nth k (map val G) pzero) (mon (nth k ls term_zero)) = den FS (coef (nth k ls term_zero)).
Proof.
  intros W L. revert k. induction L as [|g t G ls E L IH]; intros k Hk; [cbn in Hk; lia|]. inversion W as [|? ? Wg W']; subst. destruct k as [|k]; cbn [map nth].
  - destruct (C31_clean FS OS g Wg) as [X _]. destruct (X t E) as (_ & A & B & _). auto.
  - apply IH; [exact W'|cbn in Hk; lia].
Qed.
Lemma divide_nil fuel G r q : divide (F:=F) Debug O fuel [] G = Ok (r, q) -> q = repeat [] (length G).
Proof. unfold divide. destruct fuel; cbn [divide_loop]; intros E; cbn in E; injection E as _ <-; reflexivity. Qed.
Lemma nth_val k (G : list poly) : nth k (map val G) pzero = val (nth k G []).
Proof. change (@pzero K) with (val []). apply map_nth. Qed.

Section Assumptions.
Variables (G : list poly) (ls : list term) (qs : nat -> nat -> list poly).
Hypotheses (W : Forall clean G) (L : leads G ls) (Q : s_quotients G qs).
Let c := length G.
Let g k := nth k (map val G) pzero.
Let l k := mon (nth k ls term_zero).
Let q i j k := val (nth k (qs i j) []).
Lemma clean_at k : clean (nth k G []).
Proof.
  destruct (Nat.lt_ge_cases k (length G)) as [Hk|Hk]; [apply (proj1 (Forall_forall _ _) W); apply nth_In; exact Hk|].
  rewrite nth_overflow by exact Hk. apply pwf_nil.
Qed.
Lemma quotients_ok i j : i < j -> j < c ->
  peq (spol (g i) (l i) (g j) (l j)) (psn c (fun k => pmul (q i j k) (g k))) /\
  (forall k m, k < c -> coeff (q i j k) m <> k0 -> lt (mmul m (l k)) (mlcm (l i) (l j))).
Proof.
  intros Hij Hj. destruct (Q i j Hij Hj) as (s & fuel & Es & Ed).
  destruct (C37_s_polynomial FS OS _ _ s (clean_at i) (clean_at j) Es) as (Ws & a & b & La & Lb & Vs & _ & Bs). cbv zeta in Vs.
  destruct (leads_at G ls i W L) as [Li Ci]; [unfold c in *; lia|]. destruct (leads_at G ls j W L Hj) as [Lj Cj].
  rewrite nth_val in Li, Lj.
  assert (a = l i) by (eapply (is_lm_unique lt laws); eassumption). assert (b = l j) by (eapply (is_lm_unique lt laws); eassumption). subst a b.
  destruct (divide_run FS OS fuel s G [] (qs i j) Ws W Ed) as (_ & Wq & D). pose proof (ds_len _ _ _ _ _ _ D) as Len. rewrite !map_length in Len.
  split.
  - destruct (C32_division_identity FS OS fuel s G [] (qs i j) Ws W Ed) as (_ & _ & _ & I).
    unfold spol. unfold g at 1 2 3 4. rewrite !nth_val. rewrite <- Vs, I. rewrite lincomb_psn by (rewrite !map_length; exact Len).
    rewrite map_length. change (val []) with (@pzero K). fold c. rewrite (psn_ext c _ (fun k => pmul (q i j k) (g k))); [ring|].
    intros k Hk. unfold q, g. rewrite <- nth_val. reflexivity.
  - intros k m Hk Nm. destruct s as [|t0 s0] eqn:Es0.
    + apply divide_nil in Ed. exfalso. apply Nm. unfold q. rewrite Ed, nth_repeat. reflexivity.
    + rewrite <- Es0 in *. assert (B : exists x, LM (val s) x) by (apply (pwf_lm_exists FS OS); [exact Ws|rewrite Es0; discriminate]).
      destruct B as (x & Lx). apply (mle_lt_trans lt laws) with x.
      * apply (ds_qbound _ _ _ _ _ _ D x (proj2 Lx) k (q i j k) (g k) (l k) m).
        -- unfold q. rewrite <- nth_val. apply nth_error_nth'. rewrite map_length. lia.
        -- apply nth_error_nth'. rewrite map_length. exact Hk.
        -- apply (leads_at G ls k W L Hk).
        -- exact Nm.
      * destruct Lx as [Nx _]. apply (pwf_support FS s x Ws) in Nx as (t & It & <-). apply Bs. exact It.
Qed.
Lemma relation_eq i j k : i < c -> j < c -> s_relation ls qs i j k = SyzSpec.relation g l q i j k.
Proof.
  intros Hi Hj. unfold s_relation, SyzSpec.relation. cbv zeta. fold (l i) (l j). unfold q.
  rewrite <- (proj2 (leads_at G ls i W L Hi)), <- (proj2 (leads_at G ls j W L Hj)). reflexivity.
Qed.
Lemma combination_spanned vs : s_combination c ls qs vs <-> spanned c g l q (fun k => nth k vs pzero).
Proof.
  split; intros (us & H & E); exists us; (split; [exact H|]); intros k Hk; rewrite (E k Hk);
    (match goal with |- peq (psum (map ?f us)) (psum (map ?h us)) => replace (map f us) with (map h us); [reflexivity|] end);
    apply map_ext_in; intros t It; pose proof (proj1 (Forall_forall _ _) H t It) as [H1 H2]; cbn beta; rewrite relation_eq by lia; reflexivity.
Qed.
Lemma span_main vs : length vs = c -> (peq (lincomb vs (map val G)) pzero <-> s_combination c ls qs vs).
Proof.
  intros Lv. rewrite combination_spanned. rewrite lincomb_psn by (rewrite map_length; exact Lv). rewrite map_length. fold c. fold g. split.
  - intros Z. destruct (svars_family c (fun k => nth k vs pzero)) as (n1 & V1). destruct (svars_family3 c q) as (n2 & V2). destruct (svars_family c g) as (n3 & V3).
    apply (schreyer lt laws (Nat.max n1 (Nat.max n2 n3)) c g l q).
    + intros k Hk. apply (leads_at G ls k W L Hk).
    + intros k Hk. apply (mvars_le n3); [lia|]. apply (V3 k Hk). apply (leads_at G ls k W L Hk).
    + intros i j k Hij Hj Hk. apply (svars_le n2); [lia|]. apply V2; lia.
    + intros i j Hij Hj. apply quotients_ok; assumption.
    + intros i j k m Hij Hj. apply quotients_ok; assumption.
    + intros k Hk. apply (svars_le n1); [lia|]. apply V1. exact Hk.
    + exact Z.
  - apply spanned_syzygy. intros i j Hij Hj. apply quotients_ok; assumption.
Qed.
End Assumptions.

(** the quotients give relations ... *)
Theorem C135_relation : forall G ls qs i j, Forall clean G -> leads G ls -> s_quotients G qs -> i < j -> j < length G ->
  peq (lincomb (map (s_relation ls qs i j) (seq 0 (length G))) (map val G)) pzero.
Proof.
  intros G ls qs i j W L Q Hij Hj. apply (span_main G ls qs W L Q); [rewrite map_length, seq_length; reflexivity|].
  exists [(pone, i, j)]. split; [constructor; [split; assumption|constructor]|]. intros k Hk. cbn [map psum fst snd].
  rewrite (nth_indep _ pzero (s_relation ls qs i j 0)) by (rewrite map_length, seq_length; exact Hk). rewrite map_nth, seq_nth by exact Hk. cbn [Nat.add]. ring.
Qed.
(** ... and all relations are combinations of these *)
Theorem C135_all : forall G ls qs vs, Forall clean G -> leads G ls -> s_quotients G qs -> length vs = length G ->
  (peq (lincomb vs (map val G)) pzero <-> s_combination (length G) ls qs vs).
Proof. intros G ls qs vs W L Q Lv. exact (span_main G ls qs W L Q vs Lv). Qed.
(** for the output of buchberger_algorithm the remainders are 0 whenever the calls return *)
Theorem C135_output : forall fuel fuel' gens out i j s r q, Forall clean gens -> Forall nonzero gens ->
  buchberger_algorithm Debug O fuel gens = Ok out -> i < length out -> j < length out ->
  try_reduce Debug O (nth i out []) (nth j out []) = Ok (Some s) -> divide Debug O fuel' s out = Ok (r, q) -> r = [].
Proof.
  intros fuel fuel' gens out i j s r q W NZ E Hi Hj Es Ed. destruct (algorithm_run FS OS fuel gens out W NZ E) as (Wo & SI & GB & _).
  destruct (C37_s_polynomial FS OS _ _ s (clean_at out Wo i) (clean_at out Wo j) Es) as (Ws & _ & _ & _ & _ & _ & I & _).
  apply (C45_membership FS OS fuel' s out r q Ws Wo GB Ed). revert I. apply in_ideal_incl. intros p [<-|[<-|[]]]; apply in_map; apply nth_In; assumption.
Qed.
End PropSyz.

(** x^2 - y, x y - 1, y^2 - x in graded lexicographic order *)
Definition ex_sy : list (poly (rat_impl Debug)) :=
  [[ex_t 1 1 [2]; ex_t (-1) 1 [0; 1]]; [ex_t 1 1 [1; 1]; ex_t (-1) 1 []]; [ex_t 1 1 [0; 2]; ex_t (-1) 1 [1]]].
Definition ex_sy_leads : list (term (rat_impl Debug)) := [ex_t 1 1 [2]; ex_t 1 1 [1; 1]; ex_t 1 1 [0; 2]].
Definition ex_sy_qs (i j : nat) : list (poly (rat_impl Debug)) :=
  match i, j with
  | 0, 1 => [[]; []; [ex_t (-1) 1 []]]
  | 0, _ => [[ex_t 1 1 [1]]; []; [ex_t (-1) 1 [0; 1]]]
  | _, _ => [[ex_t 1 1 []]; []; []]
  end.
Example C135_ex_clean : Forall (pwf rat_spec) ex_sy /\ Forall (fun g => g <> []) ex_sy.
Proof. split; repeat (apply Forall_cons || apply Forall_nil); solve [apply ex_clean; reflexivity|discriminate]. Qed.
Example C135_ex_output : buchberger_algorithm Debug (grlex_cmp Debug) 30 ex_sy = Ok ex_sy. Proof. reflexivity. Qed.
Example C135_ex_leads : leads (O:=grlex_cmp Debug) ex_sy ex_sy_leads. Proof. repeat (apply Forall2_cons || apply Forall2_nil); reflexivity. Qed.
Example C135_ex_quotients : s_quotients (O:=grlex_cmp Debug) ex_sy ex_sy_qs.
Proof.
  intros i j Hij Hj. change (length ex_sy) with 3 in Hj.
  assert (C : (i = 0 /\ j = 1) \/ (i = 0 /\ j = 2) \/ (i = 1 /\ j = 2)) by lia.
  destruct C as [[-> ->]|[[-> ->]|[-> ->]]].
  - exists [ex_t (-1) 1 [0; 2]; ex_t 1 1 [1]], 20. split; reflexivity.
  - exists [ex_t (-1) 1 [0; 3]; ex_t 1 1 [3]], 20. split; reflexivity.
  - exists [ex_t (-1) 1 [0; 1]; ex_t 1 1 [2]], 20. split; reflexivity.
Qed.
(** so y (x^2 - y) - x (x y - 1) + 1 (y^2 - x) = 0 is one of three relations generating the others *)
Example C135_ex_all : forall vs, length vs = 3 ->
  (peq (lincomb vs (map (ip rat_spec) ex_sy)) pzero <-> s_combination rat_spec 3 ex_sy_leads ex_sy_qs vs).
Proof. intros vs Lv. exact (C135_all rat_spec grlex_spec ex_sy ex_sy_leads ex_sy_qs vs (proj1 C135_ex_clean) C135_ex_leads C135_ex_quotients Lv). Qed.
Print Assumptions C135_relation.
Print Assumptions C135_all.
Print Assumptions C135_output.
