(** * The half-spaces computed by Cone::new and the cone: C102.

    [hull n gens x]: the vector [x] is a combination of the generators with nonnegative coefficients.  The facets
    of [c] describe the half-spaces of vectors with nonnegative inner product with all the normals. *)
From Verif Require Import Base BaseLemmas IntModel RatModel FieldIface IntProofs RatProofs UtilModel MatModel AlgModel
  LinSpec RrefSpec MatProofs AlgProofs LinFacts PropMat PropLin ConeModel ConeProofs PropCone Farkas.
From Coq Require Import Field_theory Ring Field QArith Qcanon.
Local Open Scope nat_scope.

Section PropHull.
Context {F : FieldImpl} {K : MathField} (FS : FieldSpec F K) (T : StabImpl F) (TS : StabSpec FS T) (OS : OrdSpec FS T).
Add Field Kf26 : (kth K).
Notation mat := (mat F).
Notation vec := (nat -> K).
Notation vecs := (map (vec_of FS)).
Notation nonneg := (nonneg FS T OS).
Notation pos := (pos FS T OS).

Definition hull (n : nat) (gens : list mat) (x : vec) : Prop :=
  exists c, (forall k, k < length gens -> nonneg (c k)) /\ forall i, i < n -> x i = lcomb (vecs gens) c i.
Definition in_halfspaces (n : nat) (c : cone) (x : vec) : Prop :=
  forall f, In f (cfacets c) -> nonneg (inner n x (vec_of FS (fnormal f))).
(** the first generator is a combination of the others with positive coefficients *)
Definition first_inside (n : nat) (gens : list mat) : Prop :=
  exists g0 rest c, gens = g0 :: rest /\ (forall k, k < length rest -> pos (c k)) /\
    forall i, i < n -> vec_of FS g0 i = lcomb (vecs rest) c i.

Let s0 := osgn_zero _ _ OS.
Let so := osgn_opp _ _ OS.
Let sa := osgn_add _ _ OS.
Let sm := osgn_mul _ _ OS.

Lemma hull_dot n gens x w : hull n gens x -> (forall g, In g gens -> nonneg (inner n (vec_of FS g) w)) -> nonneg (inner n x w).
Proof.
  intros (c & C1 & C2) H. change (isnn (osgn OS) (dot n x w)).
  rewrite (dot_ext_l n x _ w C2), dot_lcomb. rewrite map_length.
  apply (nn_sumn (osgn OS) s0 sa). intros k Hk. apply (nn_mul (osgn OS) s0 sm); [apply C1, Hk|].
  destruct gens as [|d gens]; [cbn in Hk; lia|]. rewrite (nth_indep _ vzero (vec_of FS d)) by (rewrite map_length; exact Hk).
  rewrite map_nth. apply H, nth_In, Hk.
Qed.
Lemma subseq_map_inv {A B : Type} (f : A -> B) s l : subseq s (map f l) -> exists s', subseq s' l /\ s = map f s'.
Proof.
  revert s. induction l as [|x l IH]; intros s H; cbn [map] in H; inversion H; subst.
  - exists []. split; [constructor|reflexivity].
  - destruct (IH _ H2) as (s' & S & ->). exists s'. split; [constructor; exact S|reflexivity].
  - destruct (IH _ H2) as (s' & S & ->). exists (x :: s'). split; [constructor; exact S|reflexivity].
Qed.
Lemma full_dim n gens c : generators FS n gens -> cone_new T gens = Ok c -> cdim c = n ->
  forall d, (forall v, In v (vecs gens) -> dot n v d = k0) -> forall i, i < n -> d i = k0.
Proof.
  intros G E En d H i Hi. destruct (C65_orthogonal_complement FS T TS OS n gens c G E) as ((_ & _ & B) & L).
  destruct (corth c) as [|o l] eqn:EO; [|cbn in L; lia]. destruct (B d) as [q Hq].
  - intros g Hg. apply H. apply in_map, Hg.
  - rewrite (Hq i Hi). reflexivity.
Qed.
(** a point outside a full-dimensional cone is cut off by a supporting hyperplane through n-1 independent generators *)
Lemma outside n gens c x : generators FS n gens -> cone_new T gens = Ok c -> cdim c = n ->
  hull n gens x \/ exists sub w, subseq sub gens /\ length sub = n - 1 /\ supports FS T OS n gens sub w /\ ~ nonneg (inner n x w).
Proof.
  intros G E En.
  destruct (separating_facet (osgn OS) s0 so sa sm n (vecs gens) x (full_dim n gens c G E En)) as [(q & Q1 & Q2)|(sub & w & S & L & I & O & A & N)].
  - left. exists q. split; [intros k Hk; apply Q1; rewrite map_length; exact Hk|exact Q2].
  - right. destruct (subseq_map_inv _ _ _ S) as (s' & S' & ->). exists s', w. split; [exact S'|]. rewrite map_length in L.
    split; [lia|]. split; [split; [exact I|split]|].
    + intros h Hh. apply O, in_map, Hh.
    + intros g Hg. apply A, in_map, Hg.
    + intros P. exact (neg_not_nn (osgn OS) _ N P).
Qed.

(** ** C102 *)
(** the cone lies in all the half-spaces *)
Theorem C102_inside : forall n gens c x, generators FS n gens -> cone_new T gens = Ok c -> hull n gens x -> in_halfspaces n c x.
Proof.
  intros n gens c x G E H f Hf. apply (hull_dot n gens x _ H). intros g Hg.
  destruct (C65_facets FS T TS OS n gens c f G E Hf) as (_ & _ & A & _). apply A, Hg.
Qed.
(** for a full-dimensional cone, the half-spaces together with those of the hyperplanes through the first generator
    describe the cone *)
Theorem C102_description : forall n g0 rest c x, generators FS n (g0 :: rest) -> cone_new T (g0 :: rest) = Ok c -> cdim c = n ->
  (hull n (g0 :: rest) x <->
   in_halfspaces n c x /\ forall sub w, subseq sub (g0 :: rest) -> length sub = n - 1 -> supports FS T OS n (g0 :: rest) sub w ->
     inner n (vec_of FS g0) w = k0 -> nonneg (inner n x w)).
Proof.
  intros n g0 rest c x G E En. split.
  - intros H. split; [exact (C102_inside n _ c x G E H)|]. intros sub w _ _ (_ & _ & A) _. exact (hull_dot n _ x w H A).
  - intros [H1 H2]. destruct (outside n (g0 :: rest) c x G E En) as [H|(sub & w & S & L & SU & N)]; [exact H|exfalso].
    destruct (nn_cases (osgn OS) s0 (inner n (vec_of FS g0) w)) as [Z|P].
    + apply SU. left. reflexivity.
    + apply N. exact (H2 sub w S L SU Z).
    + destruct (C76_complete_off_first_generator FS T TS OS n g0 rest c sub w G E En S L SU P) as (f & q & Hf & _ & Pq & V).
      apply N. specialize (H1 f Hf). change (dot n x (vec_of FS (fnormal f))) with (inner n x (vec_of FS (fnormal f))) in H1.
      unfold inner in H1. rewrite (sumn_ext n _ (fun i => kmul q (kmul (x i) (w i)))) in H1 by (intros i Hi; rewrite (V i Hi); ring).
      rewrite sumn_mul_l in H1. intros X. apply H1. change (isneg (osgn OS) (kmul q (inner n x w))).
      apply (neg_opp (osgn OS) so). replace (kopp (kmul q (inner n x w))) with (kmul q (kopp (inner n x w))) by ring.
      apply sm; [exact Pq|]. apply (neg_opp (osgn OS) so). exact X.
Qed.
(** if the first generator is inside, the reported facets describe the cone exactly *)
Theorem C102_exact : forall n gens c x, generators FS n gens -> cone_new T gens = Ok c -> cdim c = n -> first_inside n gens ->
  (hull n gens x <-> in_halfspaces n c x).
Proof.
  intros n gens c x G E En (g0 & rest & q & -> & Q1 & Q2). rewrite (C102_description n g0 rest c x G E En). split; [tauto|].
  intros H. split; [exact H|]. intros sub w _ L (I & O & A) Z.
  (* all generators are orthogonal to w, so w vanishes *)
  assert (ZG : forall g, In g rest -> inner n (vec_of FS g) w = k0).
  { intros g Hg. destruct (nn_cases (osgn OS) s0 _ (A g (or_intror Hg))) as [Zg|Pg]; [exact Zg|exfalso].
    destruct (In_nth _ _ g0 Hg) as (j & Hj & Ej).
    apply (pos_nonzero (osgn OS) s0 (inner n (vec_of FS g0) w)); [|exact Z].
    change (ispos (osgn OS) (dot n (vec_of FS g0) w)). rewrite (dot_ext_l n _ _ w Q2), dot_lcomb, map_length.
    assert (NTH : forall k, k < length rest -> nth k (vecs rest) vzero = vec_of FS (nth k rest g0)).
    { intros k Hk. rewrite (nth_indep _ vzero (vec_of FS g0)) by (rewrite map_length; exact Hk). apply map_nth. }
    apply (pos_sumn (osgn OS) s0 sa _ _ j); [|exact Hj|].
    - intros k Hk. apply (nn_mul (osgn OS) s0 sm); [apply pos_nn, Q1, Hk|]. rewrite (NTH k Hk). apply A. right. apply nth_In, Hk.
    - apply sm; [apply Q1, Hj|]. rewrite (NTH j Hj), Ej. exact Pg. }
  replace (inner n x w) with (@k0 K); [apply (nn_zero (osgn OS) s0)|]. symmetry. apply sumn_zero'. intros i Hi.
  rewrite (full_dim n _ c G E En w); [ring| |exact Hi]. intros v Hv. apply in_map_iff in Hv. destruct Hv as (g & <- & [<-|Hg]); [exact Z|apply ZG, Hg].
Qed.
(** no facets: the cone is the whole space, and conversely *)
Theorem C102_whole_space : forall n gens c, generators FS n gens -> cone_new T gens = Ok c -> cdim c = n -> first_inside n gens ->
  (cfacets c = [] <-> forall x, hull n gens x).
Proof.
  intros n gens c G E En FI. split.
  - intros Z x. apply (C102_exact n gens c x G E En FI). intros f Hf. rewrite Z in Hf. destruct Hf.
  - intros H. destruct (cfacets c) as [|f l] eqn:EF; [reflexivity|exfalso].
    assert (Hf : In f (cfacets c)) by (rewrite EF; left; reflexivity).
    destruct (C65_facets FS T TS OS n gens c f G E Hf) as (_ & (i & Hi & Ni) & _).
    pose proof (C102_inside n gens c (fun i => kopp (vec_of FS (fnormal f) i)) G E (H _) f Hf) as P.
    pose proof (dot_self_pos (osgn OS) s0 so sa sm n (vec_of FS (fnormal f)) i Hi Ni) as Q.
    apply P. change (isneg (osgn OS) (inner n (fun i => kopp (vec_of FS (fnormal f) i)) (vec_of FS (fnormal f)))).
    apply (neg_opp (osgn OS) so). unfold inner. rewrite <- sumn_opp.
    rewrite (sumn_ext n _ (fun i => kmul (vec_of FS (fnormal f) i) (vec_of FS (fnormal f) i))) by (intros; ring). exact Q.
Qed.
End PropHull.

(** ** Instances over Rational *)
(** the quadrant generated by (1,0) and (0,-1), with the sum of the generators in front *)
Definition quad_sum := ex_vec [(1,1);(-1,1)]%Z :: quad.
Definition quad_sum_cone : cone := mkcone quad_sum
  [mkface (ex_vec [(0,1);(-1,1)]) [ex_vec [(1,1);(0,1)]]; mkface (ex_vec [(1,1);(0,1)]) [ex_vec [(0,1);(-1,1)]]]%Z [] 2 2.
Example C102_ex_generators : generators rat_spec 2 quad_sum. Proof. exvecs. Qed.
Example C102_ex : cone_new RT quad_sum = Ok quad_sum_cone. Proof. reflexivity. Qed.
Example C102_ex_first_inside : first_inside rat_spec RT rat_ord 2 quad_sum.
Proof.
  exists (ex_vec [(1,1);(-1,1)]%Z), quad, (fun _ => k1). split; [reflexivity|]. split; [intros k _; reflexivity|].
  intros [|[|i]] Hi; [apply Qc_is_canon; reflexivity|apply Qc_is_canon; reflexivity|lia].
Qed.
(** hence the quadrant is described by x >= 0 and -y >= 0 *)
Example C102_ex_quadrant : forall x, hull rat_spec RT rat_ord 2 quad_sum x <-> in_halfspaces rat_spec RT rat_ord 2 quad_sum_cone x.
Proof. intros x. apply (C102_exact rat_spec RT rat_stab_spec rat_ord 2 quad_sum quad_sum_cone x C102_ex_generators C102_ex eq_refl C102_ex_first_inside). Qed.
(** the plane, generated by four vectors *)
Definition plane := [ex_vec [(0,1);(0,1)]; ex_vec [(1,1);(0,1)]; ex_vec [(0,1);(1,1)]; ex_vec [(-1,1);(-1,1)]]%Z.
Example C102_ex_plane : cone_new RT plane = Ok (mkcone plane [] [] 2 2). Proof. reflexivity. Qed.
Example C102_ex_plane_inside : generators rat_spec 2 plane /\ first_inside rat_spec RT rat_ord 2 plane.
Proof.
  split; [exvecs|]. exists (ex_vec [(0,1);(0,1)]%Z), (tl plane), (fun _ => k1). split; [reflexivity|]. split; [intros k _; reflexivity|].
  intros [|[|i]] Hi; [apply Qc_is_canon; reflexivity|apply Qc_is_canon; reflexivity|lia].
Qed.

(** in general the half-spaces are larger than the cone: the quadrant without the additional generator *)
Theorem C102_exact_refuted : ~ forall n gens c x, generators rat_spec n gens -> cone_new RT gens = Ok c -> cdim c = n ->
  in_halfspaces rat_spec RT rat_ord n c x -> hull rat_spec RT rat_ord n gens x.
Proof.
  intros H. set (x := vec_of rat_spec (ex_vec [(0,1);(1,1)]%Z)).
  assert (X : hull rat_spec RT rat_ord 2 quad x).
  { apply (H 2 quad quad_cone x quad_ok quad_new eq_refl). intros f [<-|[]]. discriminate. }
  assert (N : nonneg rat_spec RT rat_ord (inner 2 x (vec_of rat_spec (ex_vec [(0,1);(-1,1)]%Z)))).
  { apply (hull_dot rat_spec RT rat_ord 2 quad x _ X). intros g [<-|[<-|[]]]; discriminate. }
  apply N. reflexivity.
Qed.

Print Assumptions C102_inside.
Print Assumptions C102_description.
Print Assumptions C102_exact.
Print Assumptions C102_whole_space.
Print Assumptions C102_exact_refuted.
