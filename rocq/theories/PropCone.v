(** * Properties of Cone::new: C65, C66, C76.

    Over an exact field type [FS] with exact comparisons [TS] and an ordering [OS] ([osgn OS x] is Lt, Eq or Gt
    as x is negative, zero or positive); [rat_ord] is the instance for Rational.  Generators are column vectors
    with [n] entries; [vec_of] is the vector a column matrix stands for. *)
From Verif Require Import Base BaseLemmas IntModel RatModel FieldIface IntProofs RatProofs UtilModel MatModel AlgModel
  LinSpec RrefSpec MatProofs AlgProofs LinFacts PropMat PropLin ConeModel ConeProofs.
From Coq Require Import Field_theory Ring Field QArith Qcanon.
Local Open Scope nat_scope.

Section PropCone.
Context {F : FieldImpl} {K : MathField} (FS : FieldSpec F K) (T : StabImpl F) (TS : StabSpec FS T) (OS : OrdSpec FS T).
Add Field Kf18 : (kth K).
Notation mat := (mat F).
Notation vec := (nat -> K).
Notation vecs := (map (vec_of FS)).

Definition generators (n : nat) (gens : list mat) : Prop := gens <> [] /\ Forall (okm FS n 1) gens.
(** inner products *)
Definition inner (n : nat) (v w : vec) : K := sumn n (fun i => kmul (v i) (w i)).
Definition nonneg (x : K) : Prop := osgn OS x <> Lt.
Definition pos (x : K) : Prop := osgn OS x = Gt.

Lemma cone_value n gens c : generators n gens -> cone_new T gens = Ok c ->
  exists g0 rest, gens = g0 :: rest /\ cone_spec FS T OS n g0 gens c /\ 2 <= cdim c.
Proof.
  intros [NE W] E. destruct gens as [|g0 rest]; [congruence|]. exists g0, rest. split; [reflexivity|].
  assert (D : exists r, dimension n (span_of FS n (g0 :: rest)) r).
  { pose proof E as E'. unfold cone_new in E'. change (vget (g0 :: rest) 0) with (@Ok mat g0) in E'. cbn [bind] in E'.
    destruct (rows_rref T (g0 :: rest)) as [s| |] eqn:ES; try discriminate.
    destruct (safe_val _ _ _ (rows_rref_ok FS T TS n (g0 :: rest) NE W) ES) as (r & _ & _ & D & _). exists r. exact D. }
  destruct D as [r D]. destruct (Nat.lt_ge_cases r 2) as [L|L].
  - destruct (cone_new_low FS T TS n g0 rest r W D ltac:(lia)) as [X|[_ X]]; congruence.
  - pose proof (safe_val _ _ _ (cone_new_ok FS T TS OS n g0 rest r W D L) E) as SP. split; [exact SP|].
    destruct SP as (_ & _ & D' & _). rewrite (dimension_unique _ _ _ _ D' D). exact L.
Qed.

(** ** C65 *)
Theorem C65_dimension : forall n gens c, generators n gens -> cone_new T gens = Ok c ->
  cgens c = gens /\ cambient c = n /\ dimension n (in_span n (vecs gens)) (cdim c).
Proof. intros n gens c G E. destruct (cone_value n gens c G E) as (g0 & rest & _ & (A & B & D & _) & _). auto. Qed.
Theorem C65_orthogonal_complement : forall n gens c, generators n gens -> cone_new T gens = Ok c ->
  is_basis n (fun w => forall g, In g gens -> inner n (vec_of FS g) w = k0) (vecs (corth c)) /\
  length (corth c) = n - cdim c.
Proof. intros n gens c G E. destruct (cone_value n gens c G E) as (g0 & rest & _ & (_ & _ & _ & _ & B & L & _) & _). split; assumption. Qed.
Theorem C65_facets : forall n gens c f, generators n gens -> cone_new T gens = Ok c -> In f (cfacets c) ->
  okm FS n 1 (fnormal f) /\
  (exists i, i < n /\ vec_of FS (fnormal f) i <> k0) /\
  (forall g, In g gens -> nonneg (inner n (vec_of FS g) (vec_of FS (fnormal f)))) /\
  (forall h, In h (fgens f) -> inner n (vec_of FS h) (vec_of FS (fnormal f)) = k0) /\
  subseq (fgens f) gens /\ length (fgens f) = cdim c - 1 /\ lin_indep n (vecs (fgens f)).
Proof.
  intros n gens c f G E Hf. destruct (cone_value n gens c G E) as (g0 & rest & _ & (_ & _ & _ & _ & _ & _ & S & _) & _).
  destruct (S f Hf) as (sub & S1 & S2 & <- & W & NZ & I & O & A). repeat (split; [assumption|]). assumption.
Qed.

(** ** C66 *)
Theorem C66_no_generators : cone_new T [] = Panic IndexOOB.
Proof. reflexivity. Qed.
Theorem C66_rank_zero : forall n gens, generators n gens -> (forall g i, In g gens -> i < n -> vec_of FS g i = k0) ->
  cone_new T gens = Panic Overflow.
Proof.
  intros n gens [NE W] Z. destruct gens as [|g0 rest]; [congruence|].
  assert (D : dimension n (span_of FS n (g0 :: rest)) 0).
  { apply (basis_dimension n _ []); [|reflexivity]. split; [intros c _ k Hk; cbn in Hk; lia|]. split; [constructor|].
    intros w [c Hc]. exists c. intros i Hi. rewrite (Hc i Hi). unfold lcomb. cbn [length sumn]. apply sumn_zero'.
    intros k Hk. assert (X : nth k (vecs (g0 :: rest)) vzero i = k0).
    { rewrite map_length in Hk. rewrite (nth_indep _ _ (vec_of FS g0)) by (rewrite map_length; exact Hk). rewrite map_nth.
      apply Z; [apply nth_In; exact Hk|exact Hi]. }
    rewrite X. ring. }
  destruct (cone_new_low FS T TS n g0 rest 0 W D ltac:(lia)) as [X|[X _]]; [exact X|discriminate].
Qed.
(** all generators on one line: also a panic (an index error, unless the elimination overflows first) *)
Theorem C66_rank_one : forall n gens, generators n gens -> dimension n (in_span n (vecs gens)) 1 ->
  cone_new T gens = Panic IndexOOB \/ cone_new T gens = Panic Overflow.
Proof.
  intros n gens [NE W] D. destruct gens as [|g0 rest]; [congruence|].
  destruct (cone_new_low FS T TS n g0 rest 1 W D ltac:(lia)) as [X|[_ X]]; [right|left]; exact X.
Qed.
(** from rank two on the only possible failure is an arithmetic overflow *)
Theorem C66_otherwise_defined : forall n gens r, generators n gens -> dimension n (in_span n (vecs gens)) r -> 2 <= r ->
  cone_new T gens = Panic Overflow \/ exists c, cone_new T gens = Ok c /\ cdim c = r.
Proof.
  intros n gens r [NE W] D R. destruct gens as [|g0 rest]; [congruence|].
  pose proof (cone_new_ok FS T TS OS n g0 rest r W D R) as S. apply safe_inv in S. destruct S as [S|(c & E & S)]; [left; exact S|].
  right. exists c. split; [exact E|]. destruct S as (_ & _ & D' & _). exact (dimension_unique _ _ _ _ D' D).
Qed.

(** ** C76: which facets are found *)
(** [w] is the inner normal of a supporting hyperplane that contains the independent generators [sub] *)
Definition supports (n : nat) (gens sub : list mat) (w : vec) : Prop :=
  lin_indep n (vecs sub) /\ (forall h, In h sub -> inner n (vec_of FS h) w = k0) /\
  forall g, In g gens -> nonneg (inner n (vec_of FS g) w).
(** full-dimensional cones: every hyperplane supporting dim-1 independent generators that does not contain
    the first generator is found, with a positive multiple of its inner normal *)
Theorem C76_complete_off_first_generator : forall n g0 rest c sub w, generators n (g0 :: rest) -> cone_new T (g0 :: rest) = Ok c ->
  cdim c = n -> subseq sub (g0 :: rest) -> length sub = n - 1 -> supports n (g0 :: rest) sub w ->
  pos (inner n (vec_of FS g0) w) ->
  exists f q, In f (cfacets c) /\ fgens f = sub /\ pos q /\ forall i, i < n -> vec_of FS (fnormal f) i = kmul q (w i).
Proof.
  intros n g0 rest c sub w G E En S L (I & O & A) P. destruct (cone_value n (g0 :: rest) c G E) as (g & r & Eg & SP & _).
  injection Eg as <- <-. destruct SP as (_ & _ & _ & _ & _ & _ & _ & C).
  apply (C ltac:(congruence) sub w S ltac:(congruence) I O A P).
Qed.
End PropCone.

(** ** Instances over Rational *)
Notation RT := (rat_stab Debug).
Definition ex_vec (l : list (Z * Z)) := ex_mat (length l) 1 l.
Lemma ex_vec_ok n l : forallb (fun p => Z.ltb 0 (snd p) && (negb (Z.eqb (fst p) 0) || Z.eqb (snd p) 1)) l = true ->
  length l = n -> okm rat_spec n 1 (ex_vec l).
Proof.
  intros H <-. split; [|split; reflexivity]. split.
  - unfold mshape. cbn. rewrite map_length. lia.
  - cbn. apply Forall_forall. intros x Hx. apply in_map_iff in Hx. destruct Hx as (p & <- & Hp).
    rewrite forallb_forall in H. specialize (H p Hp). apply andb_true_iff in H. destruct H as [H1 H2].
    apply Z.ltb_lt in H1. split; [exact H1|]. cbn. intros E0. rewrite E0 in H2. cbn in H2. apply Z.eqb_eq. exact H2.
Qed.
Ltac exvecs := split; [discriminate|repeat apply Forall_cons; try apply Forall_nil; apply ex_vec_ok; reflexivity].

(** a pyramid with four generators *)
Definition ex_gens := [ex_vec [(1,1);(1,1);(0,1)]; ex_vec [(1,1);(-1,1);(0,1)]; ex_vec [(1,1);(0,1);(1,1)]; ex_vec [(1,1);(0,1);(-1,2)]]%Z.
Definition ex_cone : cone := mkcone ex_gens
  [mkface (ex_vec [(1,2);(-1,2);(1,1)]) [ex_vec [(1,1);(1,1);(0,1)]; ex_vec [(1,1);(0,1);(-1,2)]];
   mkface (ex_vec [(1,1);(1,1);(-1,1)]) [ex_vec [(1,1);(-1,1);(0,1)]; ex_vec [(1,1);(0,1);(1,1)]];
   mkface (ex_vec [(1,2);(1,2);(1,1)]) [ex_vec [(1,1);(-1,1);(0,1)]; ex_vec [(1,1);(0,1);(-1,2)]]]%Z [] 3 3.
Example C65_ex_generators : generators rat_spec 3 ex_gens. Proof. exvecs. Qed.
Example C65_ex : cone_new RT ex_gens = Ok ex_cone. Proof. reflexivity. Qed.
Example C66_ex_line : cone_new RT [ex_vec [(1,1);(1,1)]; ex_vec [(2,1);(2,1)]]%Z = Panic IndexOOB. Proof. reflexivity. Qed.
Example C66_ex_zero : cone_new RT [ex_vec [(0,1);(0,1)]]%Z = Panic Overflow. Proof. reflexivity. Qed.

(** the second facet satisfies the hypotheses of the completeness theorem *)
Example C76_ex : exists sub w, subseq sub ex_gens /\ length sub = 2 /\ supports rat_spec RT rat_ord 3 ex_gens sub w /\
  pos rat_spec RT rat_ord (inner 3 (vec_of rat_spec (ex_vec [(1,1);(1,1);(0,1)]%Z)) w).
Proof.
  set (f := mkface (ex_vec [(1,1);(1,1);(-1,1)]%Z) [ex_vec [(1,1);(-1,1);(0,1)]; ex_vec [(1,1);(0,1);(1,1)]]%Z).
  destruct (C65_facets rat_spec RT rat_stab_spec rat_ord 3 ex_gens ex_cone f C65_ex_generators C65_ex) as (_ & _ & A & O & S & L & I).
  { right. left. reflexivity. }
  exists (fgens f), (vec_of rat_spec (fnormal f)). split; [exact S|]. split; [exact L|]. split; [split; [exact I|split; [exact O|exact A]]|].
  reflexivity.
Qed.

(** hyperplanes through the first generator can be missed: the quadrant spanned by (1,0) and (0,-1) has the facet
    (1,0) with inner normal (0,-1) *)
Definition quad := [ex_vec [(1,1);(0,1)]; ex_vec [(0,1);(-1,1)]]%Z.
Definition quad_cone : cone := mkcone quad [mkface (ex_vec [(1,1);(0,1)]) [ex_vec [(0,1);(-1,1)]]]%Z [] 2 2.
Lemma quad_ok : generators rat_spec 2 quad. Proof. exvecs. Qed.
Lemma quad_new : cone_new RT quad = Ok quad_cone. Proof. reflexivity. Qed.
Lemma indep_one n (v : nat -> QcField) i : i < n -> v i <> k0 -> lin_indep n [v].
Proof.
  intros Hi Hv c Hc k Hk. cbn in Hk. assert (k = 0) by lia. subst k. specialize (Hc i Hi). unfold lcomb in Hc. cbn in Hc.
  assert (X : ((c O : Qc) * (v i : Qc))%Qc = 0%Qc) by (rewrite <- (Qcplus_0_l ((c O : Qc) * (v i : Qc))%Qc); exact Hc).
  apply Qcmult_integral in X. destruct X as [X|X]; [exact X|contradiction].
Qed.
Theorem C76_complete_refuted : ~ forall n gens c sub w, generators rat_spec n gens -> cone_new RT gens = Ok c ->
  cdim c = n -> subseq sub gens -> length sub = n - 1 -> supports rat_spec RT rat_ord n gens sub w ->
  (exists g, In g gens /\ pos rat_spec RT rat_ord (inner n (vec_of rat_spec g) w)) ->
  exists f, In f (cfacets c) /\ fgens f = sub.
Proof.
  intros H.
  destruct (H 2 quad quad_cone [ex_vec [(1,1);(0,1)]%Z] (vec_of rat_spec (ex_vec [(0,1);(-1,1)]%Z)) quad_ok quad_new eq_refl) as (f & Hf & Ef).
  - apply subseq_take, subseq_empty.
  - reflexivity.
  - split; [|split].
    + apply (indep_one 2 _ 0); [lia|]. intros X. discriminate X.
    + intros h [<-|[]]. apply Qc_is_canon. reflexivity.
    + intros g [<-|[<-|[]]] X; discriminate X.
  - exists (ex_vec [(0,1);(-1,1)]%Z). split; [right; left; reflexivity|reflexivity].
  - destruct Hf as [<-|[]]. discriminate Ef.
Qed.
(** in an ambient space of larger dimension a reported normal can be orthogonal to the whole cone *)
Definition flat := [ex_vec [(0,1);(1,1);(0,1)]; ex_vec [(0,1);(0,1);(1,1)]]%Z.
Definition flat_cone : cone := mkcone flat
  [mkface (ex_vec [(1,1);(0,1);(0,1)]) [ex_vec [(0,1);(1,1);(0,1)]]; mkface (ex_vec [(1,1);(0,1);(0,1)]) [ex_vec [(0,1);(0,1);(1,1)]]]%Z
  [ex_vec [(1,1);(0,1);(0,1)]]%Z 3 2.
Theorem C76_proper_faces_refuted : ~ forall n gens c f, generators rat_spec n gens -> cone_new RT gens = Ok c -> In f (cfacets c) ->
  exists g, In g gens /\ pos rat_spec RT rat_ord (inner n (vec_of rat_spec g) (vec_of rat_spec (fnormal f))).
Proof.
  intros H. destruct (H 3 flat flat_cone (mkface (ex_vec [(1,1);(0,1);(0,1)]%Z) [ex_vec [(0,1);(1,1);(0,1)]%Z])) as (g & Hg & P).
  - exvecs.
  - reflexivity.
  - left. reflexivity.
  - destruct Hg as [<-|[<-|[]]]; discriminate P.
Qed.
(** the same hyperplane can be reported more than once *)
Definition dup := [ex_vec [(1,1);(0,1)]; ex_vec [(2,1);(0,1)]; ex_vec [(0,1);(1,1)]]%Z.
Theorem C76_distinct_refuted : ~ forall n gens c, generators rat_spec n gens -> cone_new RT gens = Ok c -> NoDup (map fnormal (cfacets c)).
Proof.
  intros H. specialize (H 2 dup (mkcone dup
    [mkface (ex_vec [(0,1);(1,1)]) [ex_vec [(1,1);(0,1)]]; mkface (ex_vec [(0,1);(1,1)]) [ex_vec [(2,1);(0,1)]];
     mkface (ex_vec [(1,1);(0,1)]) [ex_vec [(0,1);(1,1)]]]%Z [] 2 2) ltac:(exvecs) eq_refl).
  cbn in H. inversion H as [|? ? N _]. apply N. left. reflexivity.
Qed.

Print Assumptions C65_dimension.
Print Assumptions C65_orthogonal_complement.
Print Assumptions C65_facets.
Print Assumptions C66_no_generators.
Print Assumptions C66_rank_zero.
Print Assumptions C66_rank_one.
Print Assumptions C66_otherwise_defined.
Print Assumptions C76_complete_off_first_generator.
Print Assumptions C76_complete_refuted.
Print Assumptions C76_proper_faces_refuted.
Print Assumptions C76_distinct_refuted.
